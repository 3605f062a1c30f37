(** * Scripts that can be seen not to crash *)
From Coq Require Import List Arith NArith Bool String Lia.
From Verif Require Import M_Base M_Data M_Mem M_Regex M_Lexer M_Graph M_Parser M_Display M_Interp M_Hosts
  S_Order S_Store S_Graph S_Lexer S_Parser S_Names S_Calm P_Hist P_Lexer P_LexMore P_Parser P_Calm Prop_Parser Prop_Hosts.
Import ListNotations.
Open Scope list_scope.

(** C98.  On the in-memory store, with the collections [known] there, a calm
    script answers a value or an error. *)
Theorem C98_no_crash : forall h known script,
  let s := after mem_impl mem_new h in
  (forall c, In c known -> has mem_impl s c) -> calm_script known script ->
  forall w, fst (run (graph_impl mem_impl) common script s) <> Panic w.
Proof.
  intros h known script s K H. destruct (run (graph_impl mem_impl) common script s) as [r s'] eqn:E.
  apply (calm_script_ok known script s r s' H); [|exact E]. split; [exists h; reflexivity|exact K].
Qed.
Print Assumptions C98_no_crash.

(** So the server outlives calm requests, and answers them all. *)
Theorem C98_server : forall h known requests,
  let s := after mem_impl mem_new h in
  (forall c, In c known -> has mem_impl s c) -> Forall (calm_script known) requests ->
  exists replies s', serve requests s = (replies, s', true) /\ List.length replies = List.length requests.
Proof. intros h known requests s K F. apply (serve_calm known); [|exact F]. split; [exists h; reflexivity|exact K]. Qed.
Print Assumptions C98_server.

(** And the JavaScript caller gets graphs or an error. *)
Theorem C98_wasm : forall script, calm_script [] script -> forall w, wasm_run script <> Panic w.
Proof.
  intros script H w E. pose proof (C55_wasm_run script) as W. pose proof (C98_no_crash [] [] script (fun c F => match F with end) H) as N.
  cbn [after] in N. change (run (graph_impl mem_impl) common script mem_new) with (grun script mem_new) in N.
  destruct (fst (grun script mem_new)) as [v|e|w'] eqn:Er.
  - destruct W as (m & Em & _). congruence.
  - congruence.
  - exact (N w' Er).
Qed.
Print Assumptions C98_wasm.

Lemma script_calls script known kept calls : tokenize_and_filter script = Ok kept -> parse kept = Ok calls ->
  calm_calls known calls -> calm_script known script.
Proof.
  intros E1 E2 C. destruct (tokenize script) as [tk|e|w] eqn:Et.
  - destruct (filter_keeps _ _ Et) as (k & Ek & Hk & _). rewrite E1 in Ek. injection Ek as <-.
    apply (cs_calls known script tk kept calls); [apply tokenize_ok, Et|exact Hk|apply parse_ok, E2|exact C].
  - apply filter_err in Et. congruence.
  - destruct (tokenize_no_panic _ _ Et).
Qed.

(** A script that creates, copies, searches, compares, and fails on purpose. *)
Example C98_case :
  calm_script [] (lit "let n {a b c, a : D}, let m (read n), assert-equal (read m) (read n), assert-fail (read q), filter n a b c, nope 1")
  /\ calm_script [] (lit "read ) x") /\ calm_script [] (lit "read ^").
Proof.
  split; [|split].
  - eapply script_calls; [vm_compute; reflexivity|vm_compute; reflexivity|].
    apply cc_let; [reflexivity|apply ca_let; reflexivity|].
    apply cc_let; [reflexivity|apply ca_let_quote; [reflexivity|apply su_read; [reflexivity|left; reflexivity]]|].
    apply cc_call; [apply ca_equal; [reflexivity|apply cv_quote, ca_read; reflexivity|apply cv_quote, ca_read; reflexivity]|].
    apply cc_call; [apply ca_fail; [reflexivity|apply cv_quote, ca_read; reflexivity]|].
    apply cc_call; [apply ca_filter; [reflexivity|apply sea; [right; left; reflexivity| | |]; intros (x & E & _); discriminate E]|].
    apply cc_call; [|apply cc_nil]. apply ca_unknown. intros c H. unfold common in H.
    repeat (destruct H as [H|H]; [discriminate H|]). destruct H.
  - eapply cs_stray with (next := Some (tk "x")).
    + apply tokenize_ok. vm_compute. reflexivity.
    + match goal with |- keeps ?l _ => destruct (filter_keeps (lit "read ) x") l) as (k & Ek & Hk & _); [vm_compute; reflexivity|] end.
      vm_compute in Ek. injection Ek as <-. exact Hk.
    + exists [], [], [tk "read"], [VElement (el "read")], TCloseParen, [tk "x"]. split; [reflexivity|].
      repeat match goal with |- _ /\ _ => split end; repeat constructor.
  - apply cs_unlexable. apply (tokenize_err _ tokenize_error). vm_compute. reflexivity.
Qed.

(** What the check rejects does crash: each of these scripts ends the process. *)
Theorem C98_needed_refuted :
  let s := after mem_impl mem_new [OAddColl (lit "n"); OAdd (lit "n") [Trip (lit "a") (lit "b") (lit "c")]] in
  forall script, In script (map lit ["read"; "read n n"; "read {}"; "union {} n"; "union (read n) (read n)"; "let m (read q)";
    "let m (id a)"; "let m (id)"; "filter q a b c"; "filter n a b ?x"; "filter n"; "assert-equal (read) a"; "assert-fail (read)"; "id ((id a))"; "id {"]%string) ->
  exists w, fst (run (graph_impl mem_impl) common script s) = Panic w.
Proof.
  intros s script H. unfold s. simpl in H.
  repeat (destruct H as [<-|H]; [eexists; vm_compute; reflexivity|]). destruct H.
Qed.
Print Assumptions C98_needed_refuted.

(** Of the calls without quotes and variables, exactly these crash. *)
Theorem C98_exactly : forall h n args, let s := after mem_impl mem_new h in
  (forall q, ~ In (VQuote q) args) -> (forall e, In (VElement e) args -> ~ variable_name (el_name e)) ->
  ((exists w, fst (run_calls (graph_impl mem_impl) common [Call n args] s) = Panic w) <-> clumsy mem_impl s n args).
Proof. exact clumsy_iff. Qed.
Print Assumptions C98_exactly.
