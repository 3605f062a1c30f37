(** * Specification vocabulary: the errors a script can answer *)
From Coq Require Import List NArith Bool String.
From Verif Require Import M_Base M_Data M_Regex M_Lexer M_Graph M_Parser M_Display M_Interp
  S_Order S_Store S_Graph S_Lexer S_Parser S_Interp S_GraphHist S_Names.
Import ListNotations.
Open Scope list_scope.

(** Messages that only tell how a command is to be used. *)
Definition usage : list str :=
  map lit ["Id requires a single argument."; "docs takes no arguments."; "union takes two arguments.";
           "`assertEq` function requires two parameters."; "`assert-fail` function expected to be passed a Quote.";
           "Invalid call to let."]%string.

(** Why a script may answer an error; [known] are the names at hand, [present]
    the collections there when the run ends. *)
Inductive explained (script : str) (known present : str -> Prop) : werr -> Prop :=
| ex_lex : lex_fails script -> explained script known present (WErr (lit "Error tokenizing input."))
| ex_parse tokens kept next :
    lexes script tokens -> keeps tokens kept -> stray_in kept next -> explained script known present (WParse next)
| ex_unknown n :
    said script n -> (forall c, ~ In (n, c) (@common unit)) ->
    explained script known present (WErr (lit "Could not find command: " ++ n))
| ex_usage m : In m usage -> explained script known present (WErr m)
| ex_expected : explained script known present (WErr (lit "Expected failure."))
| ex_assert a b :
    a <> b -> tidy_value a -> tidy_value b ->
    (forall n, named a n -> known n) -> (forall n, named b n -> known n) ->
    explained script known present (WErr (lit "Assertion failed, " ++ display a ++ lit " != " ++ display b))
| ex_missing c :
    said script c -> ~ present c -> explained script known present (WErr (lit "Error Collection `" ++ c ++ lit "` not found.")).

(** ** Rust literals

    [literal s text]: between quotes, [text] is a Rust string literal of the
    string [s]. *)
Inductive hex_figure : N -> N -> Prop :=
| hf_digit d : (d < 10)%N -> hex_figure d (48 + d)      (* 0 to 9 *)
| hf_letter d : (d < 6)%N -> hex_figure (10 + d) (97 + d).   (* a to f *)

(** Hexadecimal without leading zeros. *)
Inductive hex_number : N -> str -> Prop :=
| hn_one d c : hex_figure d c -> hex_number d [c]
| hn_more n l d c : hex_number n l -> n <> 0%N -> hex_figure d c -> hex_number (16 * n + d) (l ++ [c]).

Inductive literal : str -> str -> Prop :=
| li_nil : literal [] []
| li_plain c s l : c <> 34%N -> c <> 92%N -> (32 <= c)%N -> literal s l -> literal (c :: s) (c :: l)
| li_nul s l : literal s l -> literal (0%N :: s) (lit "\0" ++ l)
| li_tab s l : literal s l -> literal (9%N :: s) (lit "\t" ++ l)
| li_newline s l : literal s l -> literal (10%N :: s) (lit "\n" ++ l)
| li_return s l : literal s l -> literal (13%N :: s) (lit "\r" ++ l)
| li_quote s l : literal s l -> literal (34%N :: s) (92%N :: 34%N :: l)
| li_backslash s l : literal s l -> literal (92%N :: s) (lit "\\" ++ l)
| li_unicode c x s l : hex_number c x -> literal s l -> literal (c :: s) (lit "\u{" ++ x ++ lit "}" ++ l).

(** A string in quotes. *)
Inductive quoted : str -> str -> Prop :=
| quoted_literal s l : literal s l -> quoted s ([34%N] ++ l ++ [34%N]).

(** A token as Rust code writes it, e.g. Element(Element(..., None, None)). *)
Inductive maybe_shown (type : str) : option str -> str -> Prop :=
| ms_none : maybe_shown type None (lit "None")
| ms_some s q : quoted s q -> maybe_shown type (Some s) (lit "Some(" ++ type ++ lit "(" ++ q ++ lit "))").
Inductive token_shown : token -> str -> Prop :=
| ts_ws s q : quoted s q -> token_shown (TWS s) (lit "WS(" ++ q ++ lit ")")
| ts_string s q : quoted s q -> token_shown (TString s) (lit "String(" ++ q ++ lit ")")
| ts_comment s q : quoted s q -> token_shown (TComment s) (lit "Comment(" ++ q ++ lit ")")
| ts_element n ns lang a b c :
    quoted n a -> maybe_shown (lit "Namespace") ns b -> maybe_shown (lit "LangTag") lang c ->
    token_shown (TElement (Elem n ns lang)) (lit "Element(Element(" ++ a ++ lit ", " ++ b ++ lit ", " ++ c ++ lit "))")
| ts_open_paren : token_shown TOpenParen (lit "OpenParen")
| ts_close_paren : token_shown TCloseParen (lit "CloseParen")
| ts_open_brace : token_shown TOpenBrace (lit "OpenBrace")
| ts_close_brace : token_shown TCloseBrace (lit "CloseBrace")
| ts_open_square : token_shown TOpenSquare (lit "OpenSquare")
| ts_close_square : token_shown TCloseSquare (lit "CloseSquare")
| ts_pipe : token_shown TPipe (lit "Pipe")
| ts_comma : token_shown TComma (lit "Comma").

(** The message of a parse error, given the token after the stray one. *)
Inductive parse_message : option token -> str -> Prop :=
| pm_end : parse_message None (lit "Error parsing None")
| pm_token t d : token_shown t d -> parse_message (Some t) (lit "Error parsing Some(" ++ d ++ lit ")").
