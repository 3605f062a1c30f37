(** * C125: Wander scripts on an LMDB store whose disk fails *)
From Coq Require Import List Arith NArith Bool String Lia.
From Verif Require Import M_Base M_Data M_Mem M_Heed M_Duck M_Txn M_Regex M_Lexer M_Graph M_Parser M_Display M_Interp M_Conc M_TxnConc
  S_Order S_Str S_Store S_Txn S_Graph S_Lexer S_Parser S_Interp S_Names S_Conc S_TxnConc
  P_Ord P_Hist P_Parser P_Interp P_InterpMore P_Graph P_Wander P_WanderRun P_WanderDet P_Failing P_FailRun P_Conc P_TxnConc S_Wander S_Monotone S_Failing.
Import ListNotations.
Open Scope list_scope.

(** C125.  An LMDB store that shows the world [w], and a list of the faults to
    come: which writes of the next writing calls fail, and which commits.  Whatever
    the script and the faults, what the script answers and what it leaves is what
    the reference says, in which every let may go well or fail in one of three ways. *)
Theorem C125_reference : forall h script w fs r d' fs' h',
  let d := after heed_impl heed_new h in
  shows heed_impl d w ->
  run (graph_impl (logged lmdb_at_once)) common script ((d, fs), h) = (r, ((d', fs'), h')) -> (total_weight h' < 2 ^ 64)%N ->
  run (graph_impl lmdb_at_once) common script (d, fs) = (r, (d', fs'))
  /\ exists w', means_on lets_failing w script (outcome_of r) w' /\ shows heed_impl d' w'.
Proof.
  intros h script w fs r d' fs' h' d Sw E F. split; [exact (logged_run lmdb_at_once _ _ _ _ _ _ E)|].
  assert (A : at_f ((d, fs), h)) by (exists h; split; [reflexivity|apply N.le_refl]).
  exact (proj2 (proj2 (follows_run script _ _ _ E A)) F w Sw).
Qed.
Print Assumptions C125_reference.

(** Script after script. *)
Theorem C125_sessions : forall h scripts w fs rs d' fs' h',
  let d := after heed_impl heed_new h in
  shows heed_impl d w ->
  session (graph_impl (logged lmdb_at_once)) scripts ((d, fs), h) = (rs, ((d', fs'), h')) -> (total_weight h' < 2 ^ 64)%N ->
  exists w', all_mean_on lets_failing w scripts (map outcome_of rs) w' /\ shows heed_impl d' w'.
Proof.
  intros h scripts w fs rs d' fs' h' d Sw E F.
  assert (A : at_f ((d, fs), h)) by (exists h; split; [reflexivity|apply N.le_refl]).
  exact (failing_session scripts _ w _ _ A Sw E F).
Qed.
Print Assumptions C125_sessions.

(** And whatever the reference allows happens, with some faults: it is not too
    pessimistic. *)
Theorem C125_conversely : forall h scripts w os w',
  let d := after heed_impl heed_new h in
  shows heed_impl d w ->
  (forall fs, (total_weight (snd (snd (session (graph_impl (logged lmdb_at_once)) scripts ((d, fs), h)))) < 2 ^ 64)%N) ->
  all_mean_on lets_failing w scripts os w' ->
  exists fs rs d' h', session (graph_impl (logged lmdb_at_once)) scripts ((d, fs), h) = (rs, ((d', []), h'))
    /\ map outcome_of rs = os /\ shows heed_impl d' w'.
Proof.
  intros h scripts w os w' d Sw Rm M. assert (A : at_f ((d, []), h)) by (exists h; split; [reflexivity|apply N.le_refl]).
  destruct (reach_session w scripts os w' M d h A Sw Rm) as (fs & rs & d' & h' & Eo & S' & K). specialize (K []). rewrite app_nil_r in K.
  exists fs, rs, d', h'. auto.
Qed.
Print Assumptions C125_conversely.

(** Whatever fails, whatever was stored is still there. *)
Theorem C125_keeps : forall w scripts os w', all_mean_on lets_failing w scripts os w' -> below w w'.
Proof. exact session_below. Qed.
Print Assumptions C125_keeps.

(** The rules are those of S_Wander but for the let: with its let they are its. *)
Theorem C125_same_rules : forall w script o w',
  means_on (fun w c n o w' => binds w c n Lmdb o w') w script o w' <-> means Lmdb w script o w'.
Proof. exact same_rules_means. Qed.
Print Assumptions C125_same_rules.

(** Without faults the store is the store of C101. *)
Theorem C125_no_faults : forall script d,
  run (graph_impl lmdb_at_once) common script (d, []) = let (r, d') := run (graph_impl heed_impl) common script d in (r, (d', [])).
Proof.
  assert (X : forall p d, solo (graph_impl lmdb_at_once) p (d, []) = let (r, d') := solo (graph_impl heed_impl) p d in (r, (d', []))).
  { induction p as [r|q k IH]; intros d; [reflexivity|]. cbn [solo]. rewrite at_once_plain. destruct (perform (graph_impl heed_impl) q d) as [a d']. apply IH. }
  intros script d. specialize (X (p_run common script) d). rewrite !solo_run, !on_store_common in X. exact X.
Qed.
Print Assumptions C125_no_faults.

(** A script that stores a network and reads it, with different faults: all is well;
    the commit of the adding fails: it answers the empty network; the second write
    of the adding fails: it crashes, the name is there; the commit of the creating
    fails: it crashes and nothing is there. *)
Definition fl_script : str := lit "let n { a b c }, read n".
Example C125_case :
  let look fs := let '(r, (d, _)) := run (graph_impl lmdb_at_once) common fl_script (heed_new, fs) in (outcome_of r, t_collections heed_impl d) in
  let abc := Role (mkE (lit "a")) (mkE (lit "c")) (mkE (lit "b")) in
  shows heed_impl heed_new empty_world
  /\ look [] = (Answers (VNetwork [abc]), Ok [lit "n"])
  /\ look [no_fault; (None, false)] = (Answers (VNetwork []), Ok [lit "n"])
  /\ look [no_fault; (Some 1, true)] = (Crashes, Ok [lit "n"])
  /\ look [(None, false)] = (Crashes, Ok []).
Proof.
  split; [|vm_compute; auto]. split.
  - intros n. split; [intros X; destruct (X eq_refl)|]. intros (l & E & H). injection E as <-. destruct H.
  - discriminate.
Qed.
Print Assumptions C125_case.

(** The room that C125_conversely asks for, whatever the faults. *)
Definition fl_let : str := lit "let n { a b c }".
Example C125_room : forall fs, (total_weight (snd (snd (session (graph_impl (logged lmdb_at_once)) [fl_let] ((heed_new, fs), [])))) < 2 ^ 64)%N.
Proof.
  intros fs. set (n := [Role (mkE (lit "a")) (mkE (lit "c")) (mkE (lit "b"))]).
  assert (E : forall st, run (graph_impl (logged lmdb_at_once)) common fl_let st = let_store (graph_impl (logged lmdb_at_once)) (mkE (lit "n")) n st).
  { intros st. destruct (run_outcomes _ (graph_impl (logged lmdb_at_once)) common fl_let st) as [_ X].
    destruct (X _ eq_refl) as (_ & _ & Y). erewrite Y; [|apply parse_ok; vm_compute; reflexivity].
    match goal with |- run_calls _ _ ?cs _ = _ => replace cs with [Call (mkE (lit "let")) [VElement (mkE (lit "n")); VNetwork n]] by (vm_compute; reflexivity) end.
    destruct (let_store (graph_impl (logged lmdb_at_once)) (mkE (lit "n")) n st) as [r st'] eqn:El. apply (does_iff _ _ common_table).
    apply (acts_does _ FLet); [discriminate|reflexivity|]. apply ac_let_network, stores_iff, El. }
  cbn [session]. rewrite E. unfold let_store. rewrite fail_coll. destruct (attempt _ _ _) as [[u|e|x] d1]; cbn [err_todo]; [|vm_compute; reflexivity..].
  rewrite fail_add. destruct (attempt _ _ _) as [[u2|e|x] d2]; vm_compute; reflexivity.
Qed.
Print Assumptions C125_room.
