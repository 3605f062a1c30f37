(** * The [{:?}] texts: [derive(Debug)] of Token, Element and WanderError *)
From Coq Require Import List NArith Bool String.
From Verif Require Import M_Base M_Data M_Regex M_Lexer M_Display.
Import ListNotations.
Open Scope list_scope.

Section Debug.
  (** Which characters past ASCII [char::escape_debug] prints as they are: those
      Unicode calls printable and not Grapheme_Extend.  The tables (external,
      core/src/unicode) are not copied; everything is proved for any table. *)
  Variable shown : N -> bool.

  (** [{:x}] of a character's number: hexadecimal without leading zeros (six
      digits suffice below 16^6). *)
  Fixpoint strip_zeros (l : list N) : list N :=
    match l with
    | [] => []
    | d :: r =>
        match r with
        | [] => l
        | _ :: _ => if N.eqb d 0 then strip_zeros r else l
        end
    end.
  Definition hex_digits (c : N) : list N :=
    map (fun k => (N.div c (16 ^ k) mod 16)%N) [5; 4; 3; 2; 1; 0]%N.
  Definition hex (c : N) : str := map hex_digit (strip_zeros (hex_digits c)).

  (** core::char [escape_debug_ext] as [Debug for str] calls it: quote and
      backslash, NUL, tab, newline and return have short escapes; other
      characters are printed if printable, else as \u{..}. *)
  Definition debug_char (c : N) : str :=
    if N.eqb c 0 then [92; 48]%N
    else if N.eqb c 9 then [92; 116]%N
    else if N.eqb c 10 then [92; 110]%N
    else if N.eqb c 13 then [92; 114]%N
    else if N.eqb c 34 then [92; 34]%N
    else if N.eqb c 92 then [92; 92]%N
    else if (N.leb 32 c && N.leb c 126) || (N.leb 128 c && shown c) then [c]
    else [92; 117; 123]%N ++ hex c ++ [125]%N.

  (** [Debug for str] *)
  Definition debug_str (s : str) : str := 34%N :: flat_map debug_char s ++ [34%N].

  (** ligature/src/lib.rs:15-25 [derive(Debug)] of [LangTag], [Namespace],
      [Element] *)
  Definition debug_opt (type : str) (o : option str) : str :=
    match o with
    | None => lit "None"
    | Some s => lit "Some(" ++ type ++ lit "(" ++ debug_str s ++ lit "))"
    end.
  Definition debug_element (e : element) : str :=
    lit "Element(" ++ debug_str (el_name e) ++ lit ", " ++ debug_opt (lit "Namespace") (el_ns e)
    ++ lit ", " ++ debug_opt (lit "LangTag") (el_lang e) ++ lit ")".

  (** wander/src/lexer.rs:11 [derive(Debug)] of [Token] *)
  Definition debug_token (t : token) : str :=
    match t with
    | TWS s => lit "WS(" ++ debug_str s ++ lit ")"
    | TString s => lit "String(" ++ debug_str s ++ lit ")"
    | TOpenParen => lit "OpenParen"
    | TCloseParen => lit "CloseParen"
    | TOpenBrace => lit "OpenBrace"
    | TCloseBrace => lit "CloseBrace"
    | TOpenSquare => lit "OpenSquare"
    | TCloseSquare => lit "CloseSquare"
    | TElement e => lit "Element(" ++ debug_element e ++ lit ")"
    | TPipe => lit "Pipe"
    | TComma => lit "Comma"
    | TComment s => lit "Comment(" ++ debug_str s ++ lit ")"
    end.

  (** [Debug for Option<Token>], what [gaze.peek()] gives (parser.rs:81-82). *)
  Definition debug_peek (o : option token) : str :=
    match o with
    | None => lit "None"
    | Some t => lit "Some(" ++ debug_token t ++ lit ")"
    end.

  (** The text of a [WanderError] (wander/src/lib.rs:29), with that of
      parser.rs:81-82 written out. *)
  Definition error_text (e : werr) : str :=
    match e with
    | WErr m => m
    | WParse peek => lit "Error parsing " ++ debug_peek peek
    end.

  (** wander-repl/src/lib.rs:71 [println!("{err:?}")] without the newline:
      [derive(Debug)] of [WanderError]. *)
  Definition debug_error (e : werr) : str := lit "WanderError(" ++ debug_str (error_text e) ++ lit ")".
End Debug.
