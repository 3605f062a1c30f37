(** * C121 and C122 for scripts *)
From Coq Require Import List Arith NArith Bool String Lia.
From Verif Require Import M_Base M_Data M_Heed M_HeedRel M_Duck M_DuckReal M_Graph M_Interp
  S_Order S_Str S_Store P_Graph S_Equiv S_DuckReal S_Graph S_Interp S_Names P_Hist P_Duck P_DuckReal S_Wander P_WanderRun P_WanderDet Prop_Wander.
Import ListNotations.
Open Scope list_scope.

(** Scripts one after the other on two new stores that follow the same reference. *)
Lemma same_sessions : forall B S T (I : trips_impl S) s0 room (J : trips_impl T) t0 room' scripts rs s' h' rs2 t' g',
  implements B I s0 room -> implements B J t0 room' ->
  session (graph_impl (logged I)) scripts (s0, []) = (rs, (s', h')) -> room h' ->
  session (graph_impl (logged J)) scripts (t0, []) = (rs2, (t', g')) -> room' g' ->
  map outcome_of rs = map outcome_of rs2 /\ exists w, shows I s' w /\ shows J t' w.
Proof.
  intros B S T I s0 room J t0 room' scripts rs s' h' rs2 t' g' HI HJ E R E2 R2.
  destruct (C101_session B S I s0 room scripts rs s' h' HI E R) as (w & A & Sw).
  destruct (C101_session B T J t0 room' scripts rs2 t' g' HJ E2 R2) as (v & A2 & Sv).
  destruct (all_mean_fun B _ _ _ _ A _ _ _ (same_refl _) A2) as [Eo Swv]. split; [exact Eo|].
  exists v. split; [exact (shows_same I _ _ _ Swv Sw)|exact Sv].
Qed.

(** C121.  Scripts run one after the other on a new DuckDB store cannot tell a
    database that permutes rows and loses numbers from one that does not.  (The
    logs only count the numbers used.) *)
Theorem C121_scripts : forall w lost scripts rs s' h' rs2 d' g', harmless w -> healthy w -> loses w lost ->
  session (graph_impl (logged (real_impl w))) scripts ((duck_new, O), []) = (rs, (s', h')) ->
  (dtotal h' + lost_by lost (snd (after (real_impl w) (duck_new, O) h')) < 2 ^ 63)%N ->
  session (graph_impl (logged duck_impl)) scripts (duck_new, []) = (rs2, (d', g')) -> (dtotal g' < 2 ^ 63)%N ->
  map outcome_of rs = map outcome_of rs2 /\ exists x, shows (real_impl w) s' x /\ shows duck_impl d' x.
Proof.
  intros w lost scripts rs s' h' rs2 d' g' HW HH HL E R E2 R2.
  exact (same_sessions DuckDb _ _ _ _ _ _ _ _ _ _ _ _ _ _ _ (im_duck_real w lost HW HH HL) im_duck E R E2 R2).
Qed.
Print Assumptions C121_scripts.

(** C122.  Nor can they tell a release build of the LMDB store from a debug build. *)
Theorem C122_scripts : forall scripts rs s' h' rs2 d' g',
  session (graph_impl (logged release_impl)) scripts (heed_new, []) = (rs, (s', h')) -> (total_weight h' < 2 ^ 64)%N ->
  session (graph_impl (logged heed_impl)) scripts (heed_new, []) = (rs2, (d', g')) -> (total_weight g' < 2 ^ 64)%N ->
  map outcome_of rs = map outcome_of rs2 /\ exists x, shows release_impl s' x /\ shows heed_impl d' x.
Proof.
  intros scripts rs s' h' rs2 d' g' E R E2 R2.
  exact (same_sessions Lmdb _ _ _ _ _ _ _ _ _ _ _ _ _ _ _ im_release im_lmdb E R E2 R2).
Qed.
Print Assumptions C122_scripts.

(** Three scripts on a restless database and on a release build: the network read
    back, and the answers of both. *)
Definition rs_scripts : list str := [lit "let m { x y z }, let n { a b c, d e f }"%string; lit "read n"%string; lit "read n, read q"%string].

Definition rs_e (a b c : string) : entry := Role (mkE (lit a)) (mkE (lit c)) (mkE (lit b)).
Definition rs_read : outcome := Answers (M_Parser.VNetwork [rs_e "a" "b" "c"; rs_e "d" "e" "f"]).

Example C121_scripts_case :
  (harmless restless /\ healthy restless /\ loses restless (fun _ => 3%N))
  /\ exists rs s' h', session (graph_impl (logged (real_impl restless))) rs_scripts ((duck_new, O), []) = (rs, (s', h'))
     /\ (dtotal h' + lost_by (fun _ => 3%N) (snd (after (real_impl restless) (duck_new, O) h')) < 2 ^ 63)%N
     /\ map outcome_of rs = [Answers done; rs_read; Answers done].
Proof.
  split; [exact restless_harmless|].
  do 3 eexists. split; [vm_compute; reflexivity|]. split; [vm_compute; reflexivity|]. vm_compute. reflexivity.
Qed.

Example C122_scripts_case :
  exists rs s' h', session (graph_impl (logged release_impl)) rs_scripts (heed_new, []) = (rs, (s', h'))
     /\ (total_weight h' < 2 ^ 64)%N
     /\ map outcome_of rs = [Answers done; rs_read; Crashes].
Proof. do 3 eexists. split; [vm_compute; reflexivity|]. split; [vm_compute; reflexivity|]. vm_compute. reflexivity. Qed.
