(** * Specification vocabulary: regular expressions and the Wander lexical grammar *)
From Coq Require Import List NArith String.
From Verif Require Import M_Base M_Data M_Regex M_Lexer.
Import ListNotations.
Open Scope list_scope.

(** The textbook meaning of the six regular expression constructors. *)
Inductive matches : regex -> str -> Prop :=
| m_eps : matches REps []
| m_cls neg rs c :
    (neg = false -> exists a b, In (a, b) rs /\ (a <= c <= b)%N) ->
    (neg = true -> forall a b, In (a, b) rs -> ~ (a <= c <= b)%N) ->
    matches (RCls (Cls neg rs)) [c]
| m_seq a b x y : matches a x -> matches b y -> matches (RSeq a b) (x ++ y)
| m_alt_l a b x : matches a x -> matches (RAlt a b) x
| m_alt_r a b x : matches b x -> matches (RAlt a b) x
| m_star_nil a : matches (RStar a) []
| m_star_cons a x y : matches a x -> matches (RStar a) y -> matches (RStar a) (x ++ y).

(** ** The lexical grammar of Wander, without regular expressions *)

Definition ws_char (c : N) : Prop := (c = 32 \/ c = 9 \/ c = 10 \/ c = 13)%N.

(** Neither a control character nor a quote (34) nor a backslash (92). *)
Definition plain_char (c : N) : Prop := (32 <= c /\ c <> 34 /\ c <> 92)%N.

Definition hex_char (c : N) : Prop := (48 <= c <= 57 \/ 65 <= c <= 70 \/ 97 <= c <= 102)%N.

(** What may stand between the quotes: plain characters, and the escape
    sequences of JSON. *)
Inductive string_body : str -> Prop :=
| sb_nil : string_body []
| sb_plain c s : plain_char c -> string_body s -> string_body (c :: s)
| sb_escape c s : In c [34; 92; 47; 98; 102; 110; 114; 116]%N -> string_body s -> string_body (92%N :: c :: s)
| sb_unicode h1 h2 h3 h4 s :
    hex_char h1 -> hex_char h2 -> hex_char h3 -> hex_char h4 -> string_body s ->
    string_body (92%N :: 117%N :: h1 :: h2 :: h3 :: h4 :: s).

(** Letters, digits, some punctuation, and the non-ASCII characters of IRIs. *)
Definition element_char (c : N) : Prop :=
  ((97 <= c <= 122 \/ 65 <= c <= 90 \/ 48 <= c <= 57)
   \/ In c (lit "-._~:/?#[]@!$&'*+;%=")
   \/ 0xA0 <= c <= 0xD7FF \/ 0xF900 <= c <= 0xFDCF \/ 0xFDF0 <= c <= 0xFFEF
   \/ (exists plane, 1 <= plane <= 13 /\ 0x10000 * plane <= c <= 0x10000 * plane + 0xFFFD)
   \/ 0xE1000 <= c <= 0xEFFFD)%N.

(** [lexeme t x]: the text [x], on its own, reads as the token [t]. *)
Inductive lexeme : token -> str -> Prop :=
| lx_ws x : x <> [] -> Forall ws_char x -> lexeme (TWS x) x
| lx_string b : string_body b -> lexeme (TString b) (34%N :: b ++ [34%N])
| lx_open_paren : lexeme TOpenParen (lit "(")
| lx_close_paren : lexeme TCloseParen (lit ")")
| lx_open_brace : lexeme TOpenBrace (lit "{")
| lx_close_brace : lexeme TCloseBrace (lit "}")
| lx_open_square : lexeme TOpenSquare (lit "[")
| lx_close_square : lexeme TCloseSquare (lit "]")
| lx_element x : x <> [] -> Forall element_char x -> lexeme (TElement (Elem x None None)) x
| lx_pipe : lexeme TPipe (lit "|")
| lx_comma : lexeme TComma (lit ",")
| lx_comment x : Forall (fun c => c <> 10%N) x -> lexeme (TComment (lit "--" ++ x)) (lit "--" ++ x)
| lx_comment_nl x :
    Forall (fun c => c <> 10%N) x -> lexeme (TComment (lit "--" ++ x ++ [10%N])) (lit "--" ++ x ++ [10%N]).

(** [next_token s t x rest]: [x] is the longest prefix of [s] that is a lexeme;
    it reads as [t], and as an element only if it reads as nothing else. *)
Definition next_token (s : str) (t : token) (x rest : str) : Prop :=
  s = x ++ rest /\ lexeme t x
  /\ (forall t' x' rest', s = x' ++ rest' -> lexeme t' x' -> List.length x' <= List.length x)
  /\ (forall e, t = TElement e -> forall t', lexeme t' x -> t' = t).

(** Reading a whole text. *)
Inductive lexes : str -> list token -> Prop :=
| lexes_nil : lexes [] []
| lexes_cons s t x rest ts : next_token s t x rest -> lexes rest ts -> lexes s (t :: ts).

(** No non-empty prefix of what is left is a lexeme. *)
Definition stuck (s : str) : Prop := s <> [] /\ forall t x rest, s = x ++ rest -> ~ lexeme t x.

(** Reading gets stuck somewhere. *)
Inductive lex_fails : str -> Prop :=
| lf_here s : stuck s -> lex_fails s
| lf_next s t x rest : next_token s t x rest -> lex_fails rest -> lex_fails s.

(** The text of a token. *)
Definition token_text (t : token) : str :=
  match t with
  | TWS s => s
  | TString b => 34%N :: b ++ [34%N]
  | TOpenParen => lit "("
  | TCloseParen => lit ")"
  | TOpenBrace => lit "{"
  | TCloseBrace => lit "}"
  | TOpenSquare => lit "["
  | TCloseSquare => lit "]"
  | TElement e => el_name e
  | TPipe => lit "|"
  | TComma => lit ","
  | TComment s => s
  end.

(** [keeps ts kept]: [kept] is what is left of the tokens [ts], in order: white
    space and comments are dropped, a string becomes the element of that name,
    every other token stays as it is. *)
Inductive keeps : list token -> list token -> Prop :=
| kp_nil : keeps [] []
| kp_ws s ts kept : keeps ts kept -> keeps (TWS s :: ts) kept
| kp_comment s ts kept : keeps ts kept -> keeps (TComment s :: ts) kept
| kp_string b ts kept : keeps ts kept -> keeps (TString b :: ts) (TElement (Elem b None None) :: kept)
| kp_other t ts kept :
    (forall s, t <> TWS s) -> (forall s, t <> TComment s) -> (forall b, t <> TString b) ->
    keeps ts kept -> keeps (t :: ts) (t :: kept).
