(** * Properties: a reference for Wander *)
From Coq Require Import List Arith NArith Bool String Lia.
From Verif Require Import M_Base M_Data M_Mem M_Heed M_Duck M_Regex M_Lexer M_Graph M_Parser M_Display M_Interp M_Hosts
  S_Order S_Str S_Store S_Graph S_Lexer S_Parser S_Interp S_Names P_Hist P_Mem P_HeedHist P_HeedMore P_Duck P_Graph
  S_Wander P_WanderRun P_WanderDet Prop_Graph.
Import ListNotations.
Open Scope list_scope.

(** C101.  What a script answers and what the store shows afterwards is what the
    reference (S_Wander) says, a definition from the text of the script alone.
    The log in the hypothesis only counts what the run writes. *)
Theorem C101_reference : forall B S (I : trips_impl S) s0 room h script w r s' h', implements B I s0 room ->
  let s := after I s0 h in
  shows I s w ->
  run (graph_impl (logged I)) common script (s, h) = (r, (s', h')) -> room h' ->
  run (graph_impl I) common script s = (r, s')
  /\ exists w', means B w script (outcome_of r) w' /\ shows I s' w'.
Proof.
  intros B S I s0 room h script w r s' h' HI s Sw E R. split; [exact (logged_run I _ _ _ _ _ _ E)|].
  exact (proj2 (proj2 (reference_run B I s0 room (implements_abides _ _ _ _ _ HI) h script w r s' h' Sw E R))).
Qed.
Print Assumptions C101_reference.

(** In memory, without conditions. *)
Theorem C101_mem : forall h script w r s',
  let s := mem_after h in
  shows mem_impl s w -> grun script s = (r, s') ->
  exists w', means InMemory w script (outcome_of r) w' /\ shows mem_impl s' w'.
Proof.
  intros h script w r s' s Sw E. destruct (run_logged mem_impl script s h r s' E) as [h' E'].
  exact (proj2 (C101_reference InMemory _ _ _ _ h script w r s' h' im_mem Sw E' Logic.I)).
Qed.
Print Assumptions C101_mem.

(** The reference says one thing only, so the other direction holds as well:
    whatever it says is what the code does. *)
Theorem C101_one_meaning : forall B script w o w' v o2 w2, same_world w v ->
  means B w script o w' -> means B v script o2 w2 -> o = o2 /\ same_world w' w2.
Proof. intros B script w o w' v o2 w2 S. exact (means_fun B script w o w' v o2 w2 S). Qed.
Print Assumptions C101_one_meaning.

Theorem C101_conversely : forall B S (I : trips_impl S) s0 room h script w o w' r s' h', implements B I s0 room ->
  let s := after I s0 h in
  shows I s w -> means B w script o w' ->
  run (graph_impl (logged I)) common script (s, h) = (r, (s', h')) -> room h' ->
  run (graph_impl I) common script s = (r, s') /\ outcome_of r = o /\ shows I s' w'.
Proof.
  intros B S I s0 room h script w o w' r s' h' HI s Sw M E R.
  destruct (C101_reference B S I s0 room h script w r s' h' HI Sw E R) as [E' (w2 & M2 & S2)].
  destruct (means_fun B script w _ _ w _ _ (same_refl w) M2 M) as [-> S3]. split; [exact E'|]. split; [reflexivity|].
  exact (shows_same I _ _ _ S3 S2).
Qed.
Print Assumptions C101_conversely.

(** Every store shows exactly one world; a new store the empty one. *)
Theorem C101_worlds : forall B S (I : trips_impl S) s0 room h, implements B I s0 room ->
  (exists w, shows I (after I s0 h) w)
  /\ (forall w w', shows I (after I s0 h) w -> shows I (after I s0 h) w' -> same_world w w')
  /\ shows I s0 empty_world.
Proof.
  intros B S I s0 room h HI. split; [|split].
  - eexists. apply world_of_shows. intros n. eapply implements_readable. exact HI.
  - intros w w'. apply shows_fun.
  - destruct HI; (split; [intros n; split; [intros X; destruct (X eq_refl)|]|discriminate]).
    + intros (l & E & Hi). injection E as <-. destruct Hi.
    + intros (l & E & Hi). injection E as <-. destruct Hi.
    + intros (l & E & Hi). injection E as <-. destruct Hi.
    + intros (l & E & Hi). injection E as <-. destruct Hi.
    + intros X. destruct (P_WanderReal.real_new_empty _ H n X).
Qed.
Print Assumptions C101_worlds.

(** Scripts one after the other on a new store. *)
Theorem C101_session : forall B S (I : trips_impl S) s0 room scripts rs s' h', implements B I s0 room ->
  session (graph_impl (logged I)) scripts (s0, []) = (rs, (s', h')) -> room h' ->
  exists w', all_mean B empty_world scripts (map outcome_of rs) w' /\ shows I s' w'.
Proof.
  intros B S I s0 room scripts rs s' h' HI E R.
  exact (proj2 (proj2 (reference_session B I s0 room (implements_abides _ _ _ _ _ HI) scripts [] empty_world rs s' h'
    (proj2 (proj2 (C101_worlds B S I s0 room [] HI))) E R))).
Qed.
Print Assumptions C101_session.

(** One script, and what it means on each of the stores. *)
Definition wx_script : str := lit "let n { a b c }, let n { d : f }, read n".
Definition wx1 : entry := Role (mkE (lit "a")) (mkE (lit "c")) (mkE (lit "b")).
Definition wx2 : entry := Extends (mkE (lit "d")) (mkE (lit "f")).

Example C101_case :
  (exists w, means InMemory empty_world wx_script (Answers (VNetwork [wx2])) w)
  /\ (exists w, means Lmdb empty_world wx_script (Answers (VNetwork [wx1; wx2])) w)
  /\ (exists w, means DuckDb empty_world wx_script Crashes w)
  /\ (exists w, means Lmdb empty_world (lit "assert-equal a (union {a b c} {a b c})")
        (Fails (WErr (lit "Assertion failed, ""a"" != {""a"" ""b"" ""c""}"))) w).
Proof.
  assert (T : forall B S (I : trips_impl S) s0 room script r s' h', implements B I s0 room ->
    run (graph_impl (logged I)) common script (s0, []) = (r, (s', h')) -> room h' -> exists w, means B empty_world script (outcome_of r) w).
  { intros B S I s0 room script r s' h' HI E R.
    destruct (C101_reference B S I s0 room [] script empty_world r s' h' HI (proj2 (proj2 (C101_worlds B S I s0 room [] HI))) E R) as [_ (w & M & _)]. eauto. }
  split; [|split; [|split]].
  - eapply (T _ _ _ _ _ _ (Ok (VNetwork [wx2]))); [apply im_mem|vm_compute; reflexivity|exact Logic.I].
  - eapply (T _ _ _ _ _ _ (Ok (VNetwork [wx1; wx2]))); [apply im_lmdb|vm_compute; reflexivity|vm_compute; reflexivity].
  - eapply (T _ _ _ _ _ _ (Panic PUnwrap)); [apply im_duck|vm_compute; reflexivity|vm_compute; reflexivity].
  - eapply (T _ _ _ _ _ _ (Err (WErr (lit "Assertion failed, ""a"" != {""a"" ""b"" ""c""}")))); [apply im_lmdb|vm_compute; reflexivity|vm_compute; reflexivity].
Qed.
