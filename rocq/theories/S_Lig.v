(** * Specification vocabulary: the lexical grammar of lig *)
From Coq Require Import List NArith String.
From Verif Require Import M_Base M_Data M_Lig S_Str S_Lexer.
Import ListNotations.
Open Scope list_scope.

Definition name_start (c : N) : Prop := (c = 95 \/ 97 <= c <= 122 \/ 65 <= c <= 90)%N.
Definition name_char (c : N) : Prop := (name_start c \/ 48 <= c <= 57 \/ c = 46 \/ c = 63)%N.

(** [lig_lexeme o x]: the text [x], on its own, reads as the token [o], or is a
    name ([None]), for which no token exists. *)
Inductive lig_lexeme : option ltoken -> str -> Prop :=
| ll_ws x : x <> [] -> Forall ws_char x -> lig_lexeme (Some (LWS x)) x
| ll_string b : string_body b -> lig_lexeme (Some (LString b)) (34%N :: b ++ [34%N])
| ll_name c x : name_start c -> Forall name_char x -> lig_lexeme None (c :: x)
| ll_open_paren : lig_lexeme (Some LOpenParen) (lit "(")
| ll_close_paren : lig_lexeme (Some LCloseParen) (lit ")")
| ll_open_brace : lig_lexeme (Some LOpenBrace) (lit "{")
| ll_close_brace : lig_lexeme (Some LCloseBrace) (lit "}")
| ll_open_square : lig_lexeme (Some LOpenSquare) (lit "[")
| ll_close_square : lig_lexeme (Some LCloseSquare) (lit "]")
| ll_comment x : Forall (fun c => c <> 10%N) x -> lig_lexeme (Some (LComment (lit "--" ++ x))) (lit "--" ++ x)
| ll_comment_nl x :
    Forall (fun c => c <> 10%N) x -> lig_lexeme (Some (LComment (lit "--" ++ x ++ [10%N]))) (lit "--" ++ x ++ [10%N]).

(** [x] is the longest prefix of [s] that reads as something; it reads as [o]. *)
Definition lig_next (s : str) (o : option ltoken) (x rest : str) : Prop :=
  s = x ++ rest /\ lig_lexeme o x
  /\ forall o' x' rest', s = x' ++ rest' -> lig_lexeme o' x' -> List.length x' <= List.length x.

(** Reading tokens off the front of [s], each with its text, leaves [rest]. *)
Inductive lig_reads : str -> list (ltoken * str) -> str -> Prop :=
| lr_nil s : lig_reads s [] s
| lr_cons s t x s' ps rest : lig_next s (Some t) x s' -> lig_reads s' ps rest -> lig_reads s ((t, x) :: ps) rest.

(** Each token with the number of UTF-8 bytes in front of it. *)
Fixpoint located (before : str) (ps : list (ltoken * str)) : list (ltoken * N) :=
  match ps with
  | [] => []
  | (t, x) :: ps' => (t, N.of_nat (List.length (utf8 before))) :: located (before ++ x) ps'
  end.

(** What is left without white space and comments, positions unchanged. *)
Inductive lig_keeps : list (ltoken * N) -> list (ltoken * N) -> Prop :=
| lk_nil : lig_keeps [] []
| lk_ws s n ts kept : lig_keeps ts kept -> lig_keeps ((LWS s, n) :: ts) kept
| lk_comment s n ts kept : lig_keeps ts kept -> lig_keeps ((LComment s, n) :: ts) kept
| lk_other t n ts kept :
    (forall s, t <> LWS s) -> (forall s, t <> LComment s) -> lig_keeps ts kept -> lig_keeps ((t, n) :: ts) ((t, n) :: kept).
