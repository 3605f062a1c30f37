(** * The lig crate: lig/src/lexer.rs, lig/src/read.rs, lig/src/write.rs

    The crate is commented out of the workspace (Cargo.toml:6) and read.rs lacks
    imports, so it does not compile as it stands; the model follows the text. *)
From Coq Require Import List NArith Bool String.
From Verif Require Import M_Base M_Data M_Regex M_Lexer M_Heed.
Import ListNotations.
Open Scope list_scope.

(** lig/src/lexer.rs:11-45 [Token] *)
Inductive ltoken :=
| LWS (s : str)
| LString (s : str)
| LName (e : element)
| LOpenParen
| LCloseParen
| LOpenBrace
| LCloseBrace
| LOpenSquare
| LCloseSquare
| LComment (s : str).

(** The rule a match belongs to. *)
Inductive lkind :=
| LKWS | LKString | LKName | LKOpenParen | LKCloseParen | LKOpenBrace | LKCloseBrace
| LKOpenSquare | LKCloseSquare | LKComment.

(** lig/src/lexer.rs:19 [[_a-zA-Z]+[_a-zA-Z0-9.?]*] *)
Definition cls_name_start : cls := Cls false [(95, 95); (97, 122); (65, 90)]%N.
Definition cls_name_rest : cls := Cls false [(95, 95); (97, 122); (65, 90); (48, 57); (46, 46); (63, 63)]%N.
Definition re_name : regex := RSeq (RPlus (RCls cls_name_start)) (RStar (RCls cls_name_rest)).

(** lig/src/lexer.rs:13-44: all rules.  The patterns for white space (13),
    strings (16) and comments (43) are those of wander/src/lexer.rs.  Priorities:
    explicit for names, else as computed by logos. *)
Definition lig_rules : list (rule lkind) :=
  [ Rule LKWS 1 re_ws;
    Rule LKString 4 re_string;
    Rule LKName 2 re_name;
    Rule LKOpenParen 2 (RLit (lit "("));
    Rule LKCloseParen 2 (RLit (lit ")"));
    Rule LKOpenBrace 2 (RLit (lit "{"));
    Rule LKCloseBrace 2 (RLit (lit "}"));
    Rule LKOpenSquare 2 (RLit (lit "["));
    Rule LKCloseSquare 2 (RLit (lit "]"));
    Rule LKComment 4 re_comment ].

(** lig/src/lexer.rs:47-52 [trim_string]: both [unwrap]s and [assert_eq!]s kept. *)
Definition lig_trim_string (value : str) : res str str :=
  match value with
  | [] => Panic PUnwrap
  | c :: rest =>
      if N.eqb c 34 then
        match rev rest with
        | [] => Panic PUnwrap
        | d :: mid => if N.eqb d 34 then Ok (rev mid) else Panic PAssert
        end
      else Panic PAssert
  end.

(** lig/src/lexer.rs:54-76: the callbacks; [name] is [todo!()] (62-68). *)
Definition lig_token (k : lkind) (slice : str) : res str ltoken :=
  match k with
  | LKWS => Ok (LWS slice)
  | LKString =>
      match lig_trim_string slice with
      | Ok s => Ok (LString s)
      | Err e => Err e
      | Panic w => Panic w
      end
  | LKName => Panic PTodo
  | LKOpenParen => Ok LOpenParen
  | LKCloseParen => Ok LCloseParen
  | LKOpenBrace => Ok LOpenBrace
  | LKCloseBrace => Ok LCloseBrace
  | LKOpenSquare => Ok LOpenSquare
  | LKCloseSquare => Ok LCloseSquare
  | LKComment => Ok (LComment slice)
  end.

(** The message of lig/src/lexer.rs:84 and lig/src/read.rs:14. *)
Definition lig_error : str := lit "Error tokenizing input.".

(** lig/src/lexer.rs:78-88 [tokenize]: the loop over [lexer(script).spanned()];
    [pos] is the byte offset of [s] in the script, [range.start].  Fuel bounds
    the number of tokens. *)
Fixpoint lig_tokenize_loop (fuel : nat) (pos : N) (s : str) : res str (list (ltoken * N)) :=
  match s with
  | [] => Ok []
  | _ :: _ =>
      match fuel with
      | O => Panic PFuel
      | S fuel' =>
          match best_rule lig_rules s with
          | None => Err lig_error
          | Some (n, r) =>
              match lig_token (r_kind r) (firstn n s) with
              | Ok t =>
                  match lig_tokenize_loop fuel' (pos + utf8_len (firstn n s))%N (skipn n s) with
                  | Ok ts => Ok ((t, pos) :: ts)
                  | Err e => Err e
                  | Panic w => Panic w
                  end
              | Err e => Err e
              | Panic w => Panic w
              end
          end
      end
  end.

Definition lig_tokenize (s : str) : res str (list (ltoken * N)) := lig_tokenize_loop (List.length s) 0 s.

(** lig/src/lexer.rs:90-97 [tokenize_and_filter] *)
Definition lig_significant (t : ltoken * N) : bool :=
  match fst t with LComment _ => false | LWS _ => false | _ => true end.

Definition lig_tokenize_and_filter (s : str) : res str (list (ltoken * N)) :=
  match lig_tokenize s with
  | Ok ts => Ok (filter lig_significant ts)
  | Err e => Err e
  | Panic w => Panic w
  end.

(** lig/src/read.rs:8-18 [tokenize]: the same loop without positions. *)
Fixpoint lig_read_tokenize_loop (fuel : nat) (s : str) : res str (list ltoken) :=
  match s with
  | [] => Ok []
  | _ :: _ =>
      match fuel with
      | O => Panic PFuel
      | S fuel' =>
          match best_rule lig_rules s with
          | None => Err lig_error
          | Some (n, r) =>
              match lig_token (r_kind r) (firstn n s) with
              | Ok t =>
                  match lig_read_tokenize_loop fuel' (skipn n s) with
                  | Ok ts => Ok (t :: ts)
                  | Err e => Err e
                  | Panic w => Panic w
                  end
              | Err e => Err e
              | Panic w => Panic w
              end
          end
      end
  end.

Definition lig_read_tokenize (s : str) : res str (list ltoken) := lig_read_tokenize_loop (List.length s) s.

(** lig/src/read.rs:20-24 [read]: [todo!()]. *)
Definition lig_read (s : str) : res str (list entry) := Panic PTodo.

(** lig/src/write.rs:9-11 [write]: always the empty text. *)
Definition lig_write (value : list entry) : str := [].
