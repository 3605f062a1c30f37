(** * Properties of strings and of the Wander lexer (wander/src/lexer.rs) *)
From Coq Require Import List Arith NArith Bool String Lia.
From Verif Require Import M_Base M_Data M_Regex M_Lexer S_Order S_Str S_Lexer P_Ord P_Str P_Regex P_Lexer P_LexMore.
Import ListNotations.
Open Scope list_scope.

(** C61.  The order of two strings' UTF-8 bytes is the order of their code
    points, and it is the order the model's sets and maps use. *)
Theorem C61_utf8_order : forall a b, valid_str a -> valid_str b ->
  (lex N.lt (utf8 a) (utf8 b) <-> str_lt a b) /\ (utf8 a = utf8 b <-> a = b)
  /\ (str_cmp a b = Lt <-> lex N.lt (utf8 a) (utf8 b)) /\ (str_cmp a b = Eq <-> a = b)
  /\ (str_cmp a b = Gt <-> lex N.lt (utf8 b) (utf8 a)).
Proof. exact utf8_order_lex. Qed.
Print Assumptions C61_utf8_order.

(** Beyond ASCII and beyond the basic plane. *)
Example C61_case : valid_str [0xE9; 0x10000]%N /\ valid_str [0xFF5E]%N
  /\ str_lt [0xE9; 0x10000]%N [0xFF5E]%N /\ lex N.lt (utf8 [0xE9; 0x10000]%N) (utf8 [0xFF5E]%N).
Proof. repeat split; repeat constructor; unfold scalar; lia. Qed.

(** C32.  Nothing of the text is lost. *)
Theorem C32_tokens_are_the_text : forall s ts, tokenize s = Ok ts -> flat_map token_text ts = s.
Proof. exact (fun s ts H => lexes_text s ts (proj1 (tokenize_ok s ts) H)). Qed.
Print Assumptions C32_tokens_are_the_text.

Definition lx1 : str := lit "let a--b {x ? -y},--end".
Definition lx1_tokens : list token :=
  [TElement (mkE (lit "let")); TWS (lit " "); TElement (mkE (lit "a--b")); TWS (lit " "); TOpenBrace;
   TElement (mkE (lit "x")); TWS (lit " "); TElement (mkE (lit "?")); TWS (lit " "); TElement (mkE (lit "-y"));
   TCloseBrace; TComma; TComment (lit "--end")].
Example C32_case : tokenize lx1 = Ok lx1_tokens.
Proof. vm_compute. reflexivity. Qed.

(** C33.  tokenize reads exactly by the lexical grammar with longest match; it
    fails exactly when that gets stuck, with the one error message, and never
    panics. *)
Theorem C33_longest_match : forall s ts, tokenize s = Ok ts <-> lexes s ts.
Proof. exact tokenize_ok. Qed.
Print Assumptions C33_longest_match.

Theorem C33_fails_when_stuck : forall s e,
  tokenize s = Err e <-> e = WErr (lit "Error tokenizing input.") /\ lex_fails s.
Proof. exact tokenize_err. Qed.
Print Assumptions C33_fails_when_stuck.

Theorem C33_never_panics : forall s w, tokenize s <> Panic w /\ tokenize_and_filter s <> Panic w.
Proof. exact (fun s w => conj (tokenize_no_panic s w) (tokenize_and_filter_no_panic s w)). Qed.
Print Assumptions C33_never_panics.

(** The specification is deterministic and total: exactly one reading, or stuck. *)
Theorem C33_grammar_is_deterministic : forall s,
  (exists ts, lexes s ts /\ (forall ts', lexes s ts' -> ts' = ts) /\ ~ lex_fails s)
  \/ (lex_fails s /\ forall ts, ~ lexes s ts).
Proof. exact lexes_total. Qed.
Print Assumptions C33_grammar_is_deterministic.

(** Any rule set: the derivative matcher finds the longest match of the highest
    priority, for the textbook meaning of regular expressions. *)
Theorem C33_any_rules : forall (K : Type) (rules : list (rule K)) s,
  match best_rule rules s with
  | Some (n, r) => In r rules /\ 0 < n /\ n <= List.length s /\ matches (r_re r) (firstn n s)
                   /\ forall r' m, In r' rules -> 0 < m -> m <= List.length s -> matches (r_re r') (firstn m s) ->
                      m < n \/ (m = n /\ r_prio r' <= r_prio r)
  | None => forall r' m, In r' rules -> 0 < m -> m <= List.length s -> ~ matches (r_re r') (firstn m s)
  end.
Proof. exact (@best_rule_spec). Qed.
Print Assumptions C33_any_rules.

Example C33_case : lexes lx1 lx1_tokens /\ lex_fails (lit "a <b>").
Proof.
  split; [apply tokenize_ok; vm_compute; reflexivity|].
  apply (proj1 (tokenize_err (lit "a <b>") tokenize_error)). vm_compute. reflexivity.
Qed.

(** C34.  A newline between two texts separates them; white space and comments
    vanish. *)
Theorem C34_newline_separates : forall s1 t1 s2, tokenize_and_filter s1 = Ok t1 ->
  tokenize_and_filter (s1 ++ [10%N] ++ s2)
  = match tokenize_and_filter s2 with Ok t2 => Ok (t1 ++ t2) | Err e => Err e | Panic w => Panic w end.
Proof. exact tokenize_and_filter_newline. Qed.
Print Assumptions C34_newline_separates.

(** What is kept, in order: every token but white space and comments, strings
    turned into elements.  And it fails exactly when tokenizing fails. *)
Theorem C34_what_is_kept : forall s ts, tokenize s = Ok ts ->
  exists kept, tokenize_and_filter s = Ok kept /\ keeps ts kept /\ (forall kept', keeps ts kept' -> kept' = kept).
Proof. exact filter_keeps. Qed.
Print Assumptions C34_what_is_kept.

Theorem C34_fails_alike : forall s e, tokenize_and_filter s = Err e <-> tokenize s = Err e.
Proof. exact filter_err. Qed.
Print Assumptions C34_fails_alike.

Example C34_case :
  tokenize_and_filter (lit "read x --note") = Ok [TElement (mkE (lit "read")); TElement (mkE (lit "x"))]
  /\ tokenize_and_filter (lit "read x --note" ++ [10%N] ++ lit " ,docs")
     = Ok [TElement (mkE (lit "read")); TElement (mkE (lit "x")); TComma; TElement (mkE (lit "docs"))].
Proof. vm_compute. split; reflexivity. Qed.

(** C35.  Whatever stands between the quotes is the element's name, unchanged:
    plain text and escape sequences alike. *)
Theorem C35_quoted_verbatim : forall s, Forall plain_char s ->
  tokenize ([34%N] ++ s ++ [34%N]) = Ok [TString s]
  /\ tokenize_and_filter ([34%N] ++ s ++ [34%N]) = Ok [TElement (Elem s None None)].
Proof. exact (fun s H => quoted_verbatim s (plain_body s H)). Qed.
Print Assumptions C35_quoted_verbatim.

Theorem C35_escapes_not_decoded : forall b, string_body b ->
  tokenize ([34%N] ++ b ++ [34%N]) = Ok [TString b]
  /\ tokenize_and_filter ([34%N] ++ b ++ [34%N]) = Ok [TElement (Elem b None None)].
Proof. exact quoted_verbatim. Qed.
Print Assumptions C35_escapes_not_decoded.

(** Conversely a quoted text is one string token only if it is well formed. *)
Theorem C35_exactly : forall b,
  tokenize ([34%N] ++ b ++ [34%N]) = Ok [TString b] <-> string_body b.
Proof. exact quoted_exactly. Qed.
Print Assumptions C35_exactly.

Example C35_case : Forall plain_char (lit "two words, {and} more") /\ string_body (lit "tab\t and \u0041").
Proof.
  split; [repeat constructor; unfold plain_char; simpl; intuition discriminate|].
  cbn. repeat first [apply sb_nil | apply sb_escape; [cbn; tauto|]
    | apply sb_unicode; [unfold hex_char; lia..|] | apply sb_plain; [unfold plain_char; lia|]].
Qed.
