(** * Properties of the Wander parser (wander/src/parser.rs) *)
From Coq Require Import List Arith NArith Bool String Lia.
From Verif Require Import M_Base M_Data M_Regex M_Lexer M_Graph M_Parser M_Mem M_Display M_Interp M_Hosts
  S_Order S_Graph S_Lexer S_Parser P_Ord P_Lexer P_LexMore P_Parser.
Import ListNotations.
Open Scope list_scope.

(** C36.  parse accepts exactly the grammar, and builds the calls the grammar
    assigns. *)
Theorem C36_parse_is_the_grammar : forall ts cs, parse ts = Ok cs <-> g_script ts cs.
Proof. exact parse_ok. Qed.
Print Assumptions C36_parse_is_the_grammar.

(** The grammar assigns at most one list of calls to a token list. *)
Theorem C36_grammar_unambiguous : forall ts cs cs', g_script ts cs -> g_script ts cs' -> cs = cs'.
Proof. exact g_script_unique. Qed.
Print Assumptions C36_grammar_unambiguous.

Definition el (x : string) : element := mkE (lit x).
Definition tk (x : string) : token := TElement (el x).
Definition pr1 : list token :=
  [tk "let"; tk "n"; TOpenBrace; tk "b"; tk "r"; tk "c"; TComma; tk "a"; tk ":"; tk "c"; TComma; TCloseBrace; TComma;
   tk "id"; TOpenParen; tk "read"; tk "n"; TCloseParen; TComma].
Definition pr1_calls : list call :=
  [Call (el "let") [VElement (el "n"); VNetwork [Role (el "b") (el "c") (el "r"); Extends (el "a") (el "c")]];
   Call (el "id") [VQuote [VElement (el "read"); VElement (el "n")]]].
Example C36_case : g_script pr1 pr1_calls
  /\ tokenize_and_filter (lit "let n {b r c, a : c,}, id (read n),") = Ok pr1.
Proof. split; [apply parse_ok|]; vm_compute; reflexivity. Qed.

(** C37.  As stated it is false: a nested quote is not in the grammar, but
    running such a script panics. *)
Theorem C37_errors_not_panics_refuted :
  exists script ts, tokenize_and_filter script = Ok ts /\ (forall cs, ~ g_script ts cs)
    /\ fst (grun script mem_new) = Panic PTodo.
Proof.
  exists (lit "id (id (a))").
  exists [tk "id"; TOpenParen; tk "id"; TOpenParen; tk "a"; TCloseParen; TCloseParen].
  split; [vm_compute; reflexivity|]. split; [|vm_compute; reflexivity].
  intros cs H. apply parse_ok in H. vm_compute in H. discriminate H.
Qed.
Print Assumptions C37_errors_not_panics_refuted.

(** C37, exactly.  Running any script on any store with any commands: an error
    of the lexer when the text is not tokenisable; a parse error exactly when
    after complete calls and the beginning of a call a stray token is met; a
    [todo!()] panic for every other text outside the grammar; the store is not
    touched in any of these cases. *)
Theorem C37_exactly : forall (St : Type) (lig : lig_impl St) cs script (st : St),
  (lex_fails script -> run lig cs script st = (Err (WErr (lit "Error tokenizing input.")), st))
  /\ (forall ts, tokenize_and_filter script = Ok ts ->
      (forall next, stray_in ts next -> run lig cs script st = (Err (WParse next), st))
      /\ ((forall calls, ~ g_script ts calls) -> (forall next, ~ stray_in ts next) ->
          run lig cs script st = (Panic PTodo, st))
      /\ (forall calls, g_script ts calls -> run lig cs script st = run_calls lig cs calls st)).
Proof. exact run_outcomes. Qed.
Print Assumptions C37_exactly.

Example C37_case : stray_in [tk "a"; TComma; tk "b"; TCloseParen; tk "c"] (Some (tk "c")).
Proof.
  exists [tk "a"; TComma], [Call (el "a") []], [tk "b"], [VElement (el "b")], TCloseParen, [tk "c"].
  split; [reflexivity|]. split; [|split; [|split; [exact Logic.I|reflexivity]]].
  - apply (gp_cons [tk "a"] (Call (el "a") []) [] []); constructor. constructor.
  - constructor. constructor.
Qed.

(** C38.  The parser needs no more steps than there are tokens: with any larger
    bound the result is the same, and the bound is never hit.  The same for the
    two helpers. *)
Theorem C38_parse_terminates : forall ts,
  parse ts <> Panic PFuel /\ forall bound, List.length ts < bound -> parse_loop bound ts = parse ts.
Proof. exact (fun ts => conj (parse_no_fuel ts) (fun b => parse_fuel b ts)). Qed.
Print Assumptions C38_parse_terminates.

Theorem C38_helpers_terminate : forall ts bound, List.length ts < bound ->
  (forall acc, read_network bound ts acc <> Panic PFuel
     /\ forall v rest, read_network bound ts acc = Ok (v, rest) -> exists used, used <> [] /\ ts = used ++ rest)
  /\ (forall acc, read_quote bound ts acc <> Panic PFuel
     /\ forall v rest, read_quote bound ts acc = Ok (v, rest) -> exists used, used <> [] /\ ts = used ++ rest)
  /\ (forall acc, read_call bound ts acc <> Panic PFuel
     /\ forall v rest, read_call bound ts acc = Ok (v, rest) -> ts <> [] -> exists used, used <> [] /\ ts = used ++ rest).
Proof. exact helpers_terminate. Qed.
Print Assumptions C38_helpers_terminate.

Example C38_case : List.length pr1 < 20 /\ parse_loop 20 pr1 = Ok pr1_calls.
Proof. split; [simpl; lia|vm_compute; reflexivity]. Qed.

(** C39.  A comma composes scripts. *)
Theorem C39_comma_composes : forall t1 c1 t2,
  t1 <> [] -> (forall q, t1 <> q ++ [TComma]) -> parse t1 = Ok c1 ->
  parse (t1 ++ [TComma] ++ t2)
  = match parse t2 with Ok c2 => Ok (c1 ++ c2) | Err e => Err e | Panic w => Panic w end.
Proof. exact parse_comma. Qed.
Print Assumptions C39_comma_composes.

Example C39_case :
  let t1 := [tk "read"; tk "n"] in
  t1 <> [] /\ (forall q, t1 <> q ++ [TComma]) /\ parse t1 = Ok [Call (el "read") [VElement (el "n")]]
  /\ parse (t1 ++ [TComma] ++ pr1) = Ok (Call (el "read") [VElement (el "n")] :: pr1_calls).
Proof.
  split; [discriminate|]. split; [|split; vm_compute; reflexivity].
  intros q E. change [tk "read"; tk "n"] with ([tk "read"] ++ [tk "n"]) in E.
  apply app_inj_tail in E. destruct E as [_ E]. discriminate E.
Qed.

(** Two scripts, as texts, joined by a comma on its own line. *)
Theorem C39_texts_compose : forall s1 t1 c1 s2,
  tokenize_and_filter s1 = Ok t1 -> t1 <> [] -> (forall q, t1 <> q ++ [TComma]) -> parse t1 = Ok c1 ->
  forall t2, tokenize_and_filter s2 = Ok t2 ->
  exists ts, tokenize_and_filter (s1 ++ [10%N] ++ lit "," ++ [10%N] ++ s2) = Ok ts
    /\ parse ts = match parse t2 with Ok c2 => Ok (c1 ++ c2) | Err e => Err e | Panic w => Panic w end.
Proof. exact texts_compose. Qed.
Print Assumptions C39_texts_compose.

Example C39_texts_case :
  tokenize_and_filter (lit "read n --c") = Ok [tk "read"; tk "n"]
  /\ tokenize_and_filter (lit "docs") = Ok [tk "docs"].
Proof. split; vm_compute; reflexivity. Qed.
