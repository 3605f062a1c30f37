(** * Proofs: host commands on a shared LMDB file *)
From Coq Require Import List Arith NArith Bool String Lia.
From Verif Require Import M_Base M_Data M_Heed M_Regex M_Lexer M_Graph M_Parser M_Display M_Interp M_Conc M_Commands M_HostConc M_Txn M_TxnConc
  S_Order S_Store S_Graph S_Interp S_Parser S_Conc S_Commands S_HostConc S_Txn S_TxnConc S_Wander P_Ord P_Hist P_Graph P_Parser P_Interp P_Conc P_ConcFoot P_Commands P_HostConc P_Retry.
From Verif Require Prop_TxnConc.
Import ListNotations.
Open Scope list_scope.

Lemma changes_may p c : changes p c <-> may_change p c.
Proof.
  split.
  - intros (q & Hq & A & O). destruct q as [|e|e|e|e es|e es|e pt]; try discriminate; try (destruct (O eq_refl)); injection A as A; eexists; exists e; (split; [exact Hq|]);
      (split; [exact A|]); [left|right; left|right; right; left|right; right; right]; eauto.
  - intros (q & e & Hq & <- & [->|[->|[[es ->]|[es ->]]]]); eexists; (split; [exact Hq|]); (split; [reflexivity|discriminate]).
Qed.

Lemma alone_logged m : forall p h p' g, alone LG m p (lm h, h) = (p', (lm g, g)) -> alone G m p (lm h) = (p', lm g).
Proof.
  induction m as [|m IH]; intros p h p' g; destruct p as [r|q k]; cbn [alone]; try (intros [= <- H1 H2]; rewrite H1; reflexivity).
  rewrite perform_logged. rewrite (surjective_pairing (perform G q (lm h))), perform_state. apply IH.
Qed.

Lemma host_among h cl sched i (C : str -> Prop) r :
  (forall c, uses (cl i) c -> C c) -> local (cl i) -> (forall j c, j <> i -> may_change (cl j) c -> ~ C c) ->
  let x0 := Pool (lm h) cl in
  (total_weight h + calls_weight (calls_made G sched x0) < 2 ^ 64)%N ->
  let x := interleave G sched x0 in
  clients x i = Done r ->
  exists d', solo G (cl i) (lm h) = (r, d') /\ forall c, C c -> same_for G c (shared x) d'.
Proof.
  intros HU HL HO x0 W x E.
  destruct (among sched h h cl i C) as (hs & ha & E1 & E2 & O & _); auto.
  - intros j c Hj Hc. apply (HO j c Hj), changes_may, Hc.
  - intros c _. apply obs_refl.
  - lia.
  - fold x0 in E1, E2. fold x in E1, E2. rewrite E in E2. apply alone_logged in E2. exists (lm ha). split; [exact (alone_done _ _ _ _ _ _ E2)|].
    intros c Hc. change (same_for G c (shared x) (lm ha)). replace (shared x) with (lm hs) by (symmetry; exact E1). apply obs_same_for, O, Hc.
Qed.

(** What a client leaves is a history, and where it is killed a beginning of it. *)
Lemma solo_history p : forall h, exists g, snd (solo G p (lm h)) = lm (h ++ g)
  /\ forall m, exists b, snd (alone G m p (lm h)) = lm (h ++ b) /\ begins b g.
Proof.
  induction p as [r|q k IH]; intros h.
  - exists []. rewrite app_nil_r. split; [reflexivity|]. intros m. exists []. rewrite app_nil_r. split; [destruct m; reflexivity|exists []; reflexivity].
  - cbn [solo]. rewrite (surjective_pairing (perform G q (lm h))), perform_state.
    destruct (IH (fst (perform G q (lm h))) (h ++ ops_of q)) as (g & E & K). exists (ops_of q ++ g). rewrite E, app_assoc. split; [reflexivity|].
    intros [|m]; [exists []; rewrite app_nil_r; split; [reflexivity|exists (ops_of q ++ g); reflexivity]|]. cbn [alone].
    rewrite (surjective_pairing (perform G q (lm h))), perform_state. destruct (K m) as (b & Eb & c & Eg). exists (ops_of q ++ b). rewrite Eb, app_assoc.
    split; [reflexivity|]. exists c. rewrite Eg, app_assoc. reflexivity.
Qed.

(** Killed between two operations on the file, a client leaves what it leaves
    killed between two calls. *)
Lemma operations_alone p d fs n :
  let s := go_on (repeat (Moves 0) n) (start d fs (fun _ => p)) in
  exists m, (file s, faults s) = snd (alone (graph_impl lmdb_at_once) m p (d, fs)).
Proof.
  intros s. set (cl := fun _ : nat => p) in *.
  destruct (Prop_TxnConc.C119_at_once d fs cl (repeat (Moves 0) n)) as [E _].
  assert (Z : forall l s, (forall e, In e l -> e = Moves 0) -> exists k, moments l s = repeat (Moves 0) k).
  { clear. induction l as [|e l IH]; intros s H; [exists 0; reflexivity|]. cbn [moments]. destruct (IH (happen e s) (fun x Hx => H x (or_intror Hx))) as [k ->].
    rewrite (H e (or_introl eq_refl)). destruct (moment 0 s); [exists (S k)|exists k]; reflexivity. }
  destruct (Z (repeat (Moves 0) n) (start d fs cl)) as [k Ek]; [intros e He; apply repeat_spec in He; exact He|]. rewrite Ek in E. exists k.
  assert (Y : forall k x c p, c 0 = p -> shared (at_once (graph_impl lmdb_at_once) (repeat (Moves 0) k) (Pool x c)) = snd (alone (graph_impl lmdb_at_once) k p x)).
  { clear. induction k as [|k IH]; intros x c p Hp; [destruct p; reflexivity|]. unfold at_once. cbn [repeat fold_left]. fold (at_once (graph_impl lmdb_at_once) (repeat (Moves 0) k)).
    cbn [happen_at_once]. unfold turn. cbn [clients shared]. rewrite Hp. destruct p as [r|q kk].
    - unfold at_once in IH. rewrite (IH x c (Done r) Hp). destruct k; reflexivity.
    - cbn [alone]. destruct (perform (graph_impl lmdb_at_once) q x) as [a x']. apply IH. reflexivity. }
  rewrite (Y k (d, fs) cl p eq_refl) in E. unfold s. symmetry. exact E.
Qed.

Lemma alone_no_faults m : forall p d, alone (graph_impl lmdb_at_once) m p (d, []) = let (p', d') := alone G m p d in (p', (d', [])).
Proof.
  induction m as [|m IH]; intros p d; destruct p as [r|q k]; cbn [alone]; try reflexivity. rewrite Prop_TxnConc.C119_no_faults.
  destruct (perform G q d) as [a d']. apply IH.
Qed.
