(** * Scripts that can be seen not to crash, on each store *)
From Coq Require Import List Arith NArith Bool String Lia.
From Verif Require Import M_Base M_Data M_Mem M_Heed M_Duck M_Regex M_Lexer M_Graph M_Parser M_Display M_Interp M_Hosts
  S_Order S_Str S_Store S_Graph S_Filter S_Lexer S_Parser S_Interp S_Names P_Hist P_Lexer P_LexMore P_Parser P_Graph
  S_Wander P_WanderRun P_WanderDet Prop_Graph Prop_Wander S_CalmOn P_CalmOn.
Import ListNotations.
Open Scope list_scope.

Lemma shown_present {S} (I : trips_impl S) s w known : shows I s w -> (forall c, In c known -> has I s c) -> present known w.
Proof. intros [H _] K c Hc. apply H, K, Hc. Qed.
Lemma shown_fresh B {S} (I : trips_impl S) s w ls : shows I s w -> new_names B I s ls -> fresh B w ls.
Proof.
  intros [H _] N E. destruct (N E) as [D A]. split; [exact D|]. intros c Hc. destruct (w c) as [l|] eqn:Ec; [|reflexivity].
  destruct (A c Hc). apply H. congruence.
Qed.

(** C105.  On each store, with the collections [known] there, a script that passes
    the check for this store answers a value or an error.  (On DuckDB: if it lets
    no name twice and none that exists.)  The log in the hypothesis only counts
    what the run writes. *)
Theorem C105_no_crash : forall B S (I : trips_impl S) s0 room h known script ls r s' h', implements B I s0 room ->
  let s := after I s0 h in
  (forall c, In c known -> has I s c) -> calm_script_on B known script ls -> new_names B I s ls ->
  run (graph_impl (logged I)) common script (s, h) = (r, (s', h')) -> room h' ->
  run (graph_impl I) common script s = (r, s') /\ forall w, r <> Panic w.
Proof.
  intros B S I s0 room h known script ls r s' h' HI s K C N E R.
  destruct (proj1 (C101_worlds B S I s0 room h HI)) as [w Sw].
  destruct (C101_reference B S I s0 room h script w r s' h' HI Sw E R) as [E' (w' & M & _)]. split; [exact E'|].
  intros x ->. destruct (calm_script_on_ok B known script ls w Crashes w' C) as [NC _].
  - exact (shown_present I s w known Sw K).
  - exact (shown_fresh B I s w ls Sw N).
  - exact M.
  - exact (NC eq_refl).
Qed.
Print Assumptions C105_no_crash.

(** Sessions: scripts that pass the check one after the other, with names let by
    none of the earlier ones on DuckDB. *)
Theorem C105_sessions : forall B S (I : trips_impl S) s0 room h known scripts lss rs s' h', implements B I s0 room ->
  let s := after I s0 h in
  (forall c, In c known -> has I s c) -> Forall2 (calm_script_on B known) scripts lss -> new_names B I s (List.concat lss) ->
  session (graph_impl (logged I)) scripts (s, h) = (rs, (s', h')) -> room h' ->
  List.length rs = List.length scripts /\ forall r w, In r rs -> r <> Panic w.
Proof.
  intros B S I s0 room h known scripts lss rs s' h' HI s K C N E R.
  destruct (proj1 (C101_worlds B S I s0 room h HI)) as [w Sw].
  destruct (proj2 (proj2 (reference_session B I s0 room (implements_abides _ _ _ _ _ HI) scripts h w rs s' h' Sw E R))) as (w' & M & _).
  pose proof (shown_present I s w known Sw K) as P. pose proof (shown_fresh B I s w _ Sw N) as F.
  assert (L : forall os w0, all_mean B w scripts os w0 -> present known w -> fresh B w (List.concat lss) ->
                List.length os = List.length scripts /\ ~ In Crashes os).
  { clear - C. revert w. induction C as [|x ls scripts lss Hx _ IH]; intros w os w0 A P F; inversion A as [|? ? ? o os' w1 ? M1 A1]; subst.
    - split; [reflexivity|intros []].
    - cbn [List.concat] in F. destruct (calm_script_on_ok B known x ls w o w1 Hx P (fresh_left _ _ _ _ F) M1) as [NC G1].
      destruct (IH w1 os' w0 A1 (present_grows _ _ _ _ P G1) (fresh_right _ _ _ _ _ F G1)) as [L NI]. split; [cbn; congruence|].
      intros [H|H]; auto. }
  destruct (L _ _ M P F) as [L1 L2]. rewrite map_length in L1. split; [exact L1|]. intros r x Hr ->.
  apply L2. apply in_map_iff. exists (Panic x). split; [reflexivity|exact Hr].
Qed.
Print Assumptions C105_sessions.

(** Of the scripts of one call without quotes exactly these crash. *)
Theorem C105_exactly : forall B S (I : trips_impl S) s0 room h script tokens kept n args w r s' h', implements B I s0 room ->
  let s := after I s0 h in
  shows I s w ->
  lexes script tokens -> keeps tokens kept -> g_script kept [Call n args] -> (forall q, ~ In (VQuote q) args) ->
  run (graph_impl (logged I)) common script (s, h) = (r, (s', h')) -> room h' ->
  run (graph_impl I) common script s = (r, s') /\ ((exists x, r = Panic x) <-> clumsy_on w B n args).
Proof.
  intros B S I s0 room h script tokens kept n args w r s' h' HI s Sw L K Gs NQ E R.
  destruct (C101_reference B S I s0 room h script w r s' h' HI Sw E R) as [E' (w' & M & _)]. split; [exact E'|].
  assert (D : calls B (el_name n) args w (outcome_of r) w').
  { destruct M as [ts' kept' cs' o1' w1' L' K' Gs' P'|ts' kept' next' L' K' Hs'|ts' kept' L' K' N1' N2'|F'].
    - assert (kept' = kept) as -> by exact (lexed_fun _ _ _ _ _ L' K' L K). apply parse_ok in Gs, Gs'.
      assert (cs' = [Call n args]) as -> by congruence. inversion P'; subst; assumption.
    - assert (kept' = kept) as -> by exact (lexed_fun _ _ _ _ _ L' K' L K). exfalso. apply parse_ok in Gs.
      pose proof (proj2 (parse_err kept (WParse next')) (ex_intro _ next' (conj eq_refl Hs'))). congruence.
    - assert (kept' = kept) as -> by exact (lexed_fun _ _ _ _ _ L' K' L K). destruct (N1' _ Gs).
    - exfalso. eapply lexes_not_fails; eassumption. }
  rewrite <- (clumsy_on_iff B w n args _ _ NQ D). split.
  - intros [x ->]. reflexivity.
  - intros X. destruct r as [v|e|x]; cbn in X; try discriminate. eauto.
Qed.
Print Assumptions C105_exactly.

(** The check is wanted: what it rejects crashes on the store it is for, and the
    three stores want different things. *)
Theorem C105_needed :
  (forall script, In script (map lit ["read q"; "filter n a b c"; "assert-fail (read q)"; "let m (read q)"]%string) ->
     exists x, fst (run (graph_impl heed_impl) common script (after heed_impl heed_new [OAddColl (lit "n")])) = Panic x)
  /\ (forall script, In script (map lit ["let n {}"; "let m {}, let m {}"; "let m (let m {})"; "filter n a b c"]%string) ->
     exists x, fst (run (graph_impl duck_impl) common script (after duck_impl duck_new [OAddColl (lit "n")])) = Panic x)
  /\ (forall script, In script (map lit ["read q"; "let n {}"; "let m {}, let m {}"; "let m (let m {})"; "filter n a b c"]%string) ->
     forall x, fst (run (graph_impl mem_impl) common script (after mem_impl mem_new [OAddColl (lit "n")])) <> Panic x).
Proof.
  split; [|split]; intros script H; cbn [map] in H;
    repeat (destruct H as [<-|H]; [first [eexists; vm_compute; reflexivity|intros x; vm_compute; discriminate]|]); destruct H.
Qed.
Print Assumptions C105_needed.

Lemma script_calls_on B script known kept cs ls : tokenize_and_filter script = Ok kept -> parse kept = Ok cs ->
  calm_calls_on B known cs ls -> calm_script_on B known script ls.
Proof.
  intros E1 E2 C. destruct (tokenize script) as [tk|e|w] eqn:Et.
  - destruct (filter_keeps _ _ Et) as (k & Ek & Hk & _). rewrite E1 in Ek. injection Ek as <-.
    apply (cso_calls B known script tk kept cs ls); [apply tokenize_ok, Et|exact Hk|apply parse_ok, E2|exact C].
  - apply filter_err in Et. congruence.
  - destruct (tokenize_no_panic _ _ Et).
Qed.

(** One script that passes the checks for LMDB and DuckDB. *)
Definition co_script : str := lit "let n {a b c, a : D}, let m (let k {a b c}), assert-equal (read m) (read n), assert-fail (nope 1)".
Example C105_case : forall B, B <> InMemory -> calm_script_on B [] co_script [lit "n"; lit "k"; lit "m"] /\ NoDup [lit "n"; lit "k"; lit "m"].
Proof.
  intros B NB. split; [|repeat constructor; intros H; vm_compute in H; intuition discriminate].
  assert (ML : forall c, In c [lit "n"; lit "k"; lit "m"] -> may_let B c).
  { intros c Hc. destruct B; try exact Logic.I. cbn in Hc. destruct Hc as [<-|[<-|[<-|[]]]]; vm_compute; (split; [first [reflexivity|discriminate]|first [reflexivity|discriminate]]). }
  assert (C : exists ls, calm_script_on B [] co_script ls /\ ls = [lit "n"; lit "k"; lit "m"]).
  { eexists. split.
    - eapply script_calls_on; [vm_compute; reflexivity|vm_compute; reflexivity|].
      eapply cco_let; [reflexivity|apply co_let; [reflexivity|apply ML; cbn; tauto]|].
      eapply cco_let; [reflexivity|apply co_let_quote; [reflexivity|apply ML; cbn; tauto|apply so_let; [reflexivity|apply ML; cbn; tauto]]|].
      eapply cco_call; [apply co_equal; [reflexivity|apply vo_quote, co_read; [reflexivity|left; cbn; tauto]|apply vo_quote, co_read; [reflexivity|left; cbn; tauto]]|].
      eapply cco_call; [apply co_fail; [reflexivity|apply vo_quote, co_unknown; vm_compute; intuition discriminate]|apply cco_nil].
    - reflexivity. }
  destruct C as (ls & C & ->). exact C.
Qed.
