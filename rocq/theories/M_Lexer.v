(** * The Wander lexer: wander/src/lexer.rs *)
From Coq Require Import List NArith Bool String.
From Verif Require Import M_Base M_Data M_Regex.
Import ListNotations.
Open Scope list_scope.

(** lexer.rs:11-50 [Token] *)
Inductive token :=
| TWS (s : str)
| TString (s : str)
| TOpenParen
| TCloseParen
| TOpenBrace
| TCloseBrace
| TOpenSquare
| TCloseSquare
| TElement (e : element)
| TPipe
| TComma
| TComment (s : str).

(** [WanderError(String)] (wander/src/lib.rs:29).  [WParse] stands for
    [WanderError(format!("Error parsing {:?}", gaze.peek()))] (parser.rs:81-82):
    the debug text of the peeked token is not modelled, the token is. *)
Inductive werr :=
| WErr (msg : str)
| WParse (peek : option token).

Definition wres := res werr.

(** The rule a match belongs to. *)
Inductive tkind :=
| KWS | KString | KOpenParen | KCloseParen | KOpenBrace | KCloseBrace
| KOpenSquare | KCloseSquare | KElement | KPipe | KComma | KComment.

(** lexer.rs:14 [[ \t\n\r]+] *)
Definition cls_ws : cls := Cls false [(32, 32); (9, 9); (10, 10); (13, 13)]%N.
Definition re_ws : regex := RPlus (RCls cls_ws).

(** lexer.rs:17, the string pattern: a quote, then any number of: a character
    that is not a control character, quote or backslash; a backslash followed by
    one of quote, backslash, slash, b, f, n, r, t; a backslash, u and four
    hexadecimal digits; then a quote.  (34 is the quote, 92 the backslash.) *)
Definition cls_plain : cls := Cls true [(0, 31); (34, 34); (92, 92)]%N.
Definition cls_escape : cls :=
  Cls false [(34, 34); (92, 92); (47, 47); (98, 98); (102, 102); (110, 110); (114, 114); (116, 116)]%N.
Definition cls_hex : cls := Cls false [(48, 57); (97, 102); (65, 70)]%N.
Definition re_string_item : regex :=
  RAlt (RCls cls_plain)
    (RAlt (RSeq (RChr 92) (RCls cls_escape))
       (RSeq (RChr 92) (RSeq (RChr 117) (RRep 4 (RCls cls_hex))))).
Definition re_string : regex := RSeq (RChr 34) (RSeq (RStar re_string_item) (RChr 34)).

(** lexer.rs:39, the element pattern
    [[a-zA-Z0-9-._~:/?#\[\]@!$&'*+;%=\x{00A0}-\x{D7FF} ...]+] *)
Definition cls_element : cls :=
  Cls false
    [(97, 122); (65, 90); (48, 57);
     (45, 45); (46, 46); (95, 95); (126, 126); (58, 58); (47, 47); (63, 63); (35, 35);
     (91, 91); (93, 93); (64, 64); (33, 33); (36, 36); (38, 38); (39, 39); (42, 42);
     (43, 43); (59, 59); (37, 37); (61, 61);
     (0xA0, 0xD7FF); (0xF900, 0xFDCF); (0xFDF0, 0xFFEF);
     (0x10000, 0x1FFFD); (0x20000, 0x2FFFD); (0x30000, 0x3FFFD); (0x40000, 0x4FFFD);
     (0x50000, 0x5FFFD); (0x60000, 0x6FFFD); (0x70000, 0x7FFFD); (0x80000, 0x8FFFD);
     (0x90000, 0x9FFFD); (0xA0000, 0xAFFFD); (0xB0000, 0xBFFFD); (0xC0000, 0xCFFFD);
     (0xD0000, 0xDFFFD); (0xE1000, 0xEFFFD)]%N.
Definition re_element : regex := RPlus (RCls cls_element).

(** lexer.rs:48 [--.*\n?]; [.] is any character but a newline. *)
Definition cls_dot : cls := Cls true [(10, 10)]%N.
Definition re_comment : regex :=
  RSeq (RLit (lit "--")) (RSeq (RStar (RCls cls_dot)) (ROpt (RChr 10))).

(** lexer.rs:14-49: all rules.  Priorities as computed by logos 0.13: two per
    literal character, one per class, nothing for an optional or starred part. *)
Definition rules : list (rule tkind) :=
  [ Rule KWS 1 re_ws;
    Rule KString 4 re_string;
    Rule KOpenParen 2 (RLit (lit "("));
    Rule KCloseParen 2 (RLit (lit ")"));
    Rule KOpenBrace 2 (RLit (lit "{"));
    Rule KCloseBrace 2 (RLit (lit "}"));
    Rule KOpenSquare 2 (RLit (lit "["));
    Rule KCloseSquare 2 (RLit (lit "]"));
    Rule KElement 1 re_element;
    Rule KPipe 2 (RLit (lit "|"));
    Rule KComma 2 (RLit (lit ","));
    Rule KComment 4 re_comment ].

(** lexer.rs:52-57 [trim_string]: both [unwrap]s and both [assert_eq!]s kept. *)
Definition trim_string (value : str) : wres str :=
  match value with
  | [] => Panic PUnwrap
  | c :: rest =>
      if N.eqb c 34 then
        match rev rest with
        | [] => Panic PUnwrap
        | d :: mid => if N.eqb d 34 then Ok (rev mid) else Panic PAssert
        end
      else Panic PAssert
  end.

(** lexer.rs:59-73: the callbacks. *)
Definition mk_token (k : tkind) (slice : str) : wres token :=
  match k with
  | KWS => Ok (TWS slice)
  | KString =>
      match trim_string slice with
      | Ok s => Ok (TString s)
      | Err e => Err e
      | Panic w => Panic w
      end
  | KOpenParen => Ok TOpenParen
  | KCloseParen => Ok TCloseParen
  | KOpenBrace => Ok TOpenBrace
  | KCloseBrace => Ok TCloseBrace
  | KOpenSquare => Ok TOpenSquare
  | KCloseSquare => Ok TCloseSquare
  | KElement => Ok (TElement (mkE slice))
  | KPipe => Ok TPipe
  | KComma => Ok TComma
  | KComment => Ok (TComment slice)
  end.

(** The message of lexer.rs:81. *)
Definition tokenize_error : werr := WErr (lit "Error tokenizing input.").

(** lexer.rs:75-85 [tokenize]: the loop over the logos iterator.  Fuel bounds the
    number of tokens. *)
Fixpoint tokenize_loop (fuel : nat) (s : str) : wres (list token) :=
  match s with
  | [] => Ok []
  | _ :: _ =>
      match fuel with
      | O => Panic PFuel
      | S fuel' =>
          match best_rule rules s with
          | None => Err tokenize_error
          | Some (n, r) =>
              match mk_token (r_kind r) (firstn n s) with
              | Ok t =>
                  match tokenize_loop fuel' (skipn n s) with
                  | Ok ts => Ok (t :: ts)
                  | Err e => Err e
                  | Panic w => Panic w
                  end
              | Err e => Err e
              | Panic w => Panic w
              end
          end
      end
  end.

Definition tokenize (s : str) : wres (list token) := tokenize_loop (List.length s) s.

(** lexer.rs:90-91: what [retain] keeps. *)
Definition significant (t : token) : bool :=
  match t with TComment _ => false | TWS _ => false | _ => true end.

(** lexer.rs:94-97: string tokens become elements. *)
Definition string_to_element (t : token) : token :=
  match t with TString v => TElement (mkE v) | t => t end.

(** lexer.rs:87-100 [tokenize_and_filter] *)
Definition tokenize_and_filter (s : str) : wres (list token) :=
  match tokenize s with
  | Ok ts => Ok (map string_to_element (filter significant ts))
  | Err e => Err e
  | Panic w => Panic w
  end.
