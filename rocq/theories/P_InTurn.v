(** * Proofs: clients that have nothing to do with each other, when nothing fails *)
From Coq Require Import List Arith NArith Bool String Lia Permutation.
From Verif Require Import M_Base M_Data M_Heed M_Txn M_Graph M_Interp M_Conc M_TxnConc
  S_Order S_Str S_Store S_Txn S_Graph S_Interp S_Conc S_ConcSee S_TxnConc S_HostConc S_AnyRetry S_Isolated S_Apart
  P_Ord P_Hist P_HeedHist P_Conc P_Rewrite P_ConcFoot P_HostConc P_HostLmdb P_Isolated P_Apart P_Alike.
Import ListNotations.
Open Scope list_scope.

Notation G := (graph_impl heed_impl).

(** One client among others: from any file that is the same for it, alone, it gets
    the answers it got among them, with its own calls. *)
Lemma among_own sched : forall hs z cl i (C : str -> Prop),
  (forall c, uses (cl i) c -> C c) -> (forall j c, j <> i -> changes (cl j) c -> ~ C c) -> local (cl i) ->
  (forall c, C c -> obs c (lm hs) (lm z)) ->
  let made := events G sched (Pool (lm hs) cl) in
  (total_weight hs + events_weight made < 2 ^ 64)%N -> (total_weight z + events_weight (of_client i made) < 2 ^ 64)%N ->
  let x := interleave G sched (Pool (lm hs) cl) in
  exists hs' z', shared x = lm hs' /\ (total_weight hs' <= total_weight hs + events_weight made)%N
    /\ alone G (List.length (of_client i made)) (cl i) (lm z) = (clients x i, lm z')
    /\ (forall c, C c -> obs c (lm hs') (lm z')) /\ (total_weight z' <= total_weight z + events_weight (of_client i made))%N.
Proof.
  induction sched as [|j sched IH]; intros hs z cl i C HU HO HL HB made W Wz x; subst made x.
  - exists hs, z. cbn [interleave events of_client filter List.length events_weight fold_right alone clients shared]. split; [reflexivity|]. split; [lia|]. split; [destruct (cl i); reflexivity|]. split; [exact HB|lia].
  - cbn [interleave events clients shared] in *. unfold turn in *. cbn [clients shared] in *. destruct (cl j) as [r|q k] eqn:Ej.
    + exact (IH hs z cl i C HU HO HL HB W Wz).
    + assert (Es : snd (perform G q (lm hs)) = lm (hs ++ ops_of q)) by apply perform_state.
      destruct (perform G q (lm hs)) as [a s] eqn:Ep. cbn [snd fst] in *. subst s.
      change (events_weight (Event j q a :: ?l)) with (req_weight q + events_weight l)%N in *.
      pose proof (weight_snoc hs q) as V. pose proof (weight_snoc z q) as Vz.
      destruct (Nat.eq_dec j i) as [->|Hj].
      * assert (Hl : q <> QCollections /\ forall c es, q <> QRemoveEntries c es) by (apply HL; rewrite Ej; left; reflexivity).
        assert (Ha : exists c, about q = Some c) by (destruct q; cbn; eauto; destruct (proj1 Hl eq_refl)).
        destruct Ha as (c0 & Ha).
        assert (Hc0 : C c0) by (apply HU; exists q; rewrite Ej; split; [left; reflexivity|exact Ha]).
        cbn [of_client filter who] in *. rewrite Nat.eqb_refl in *.
        set (ev := events G sched (Pool (lm (hs ++ ops_of q)) (update cl i (k a)))) in *. fold (of_client i ev) in *.
        change (events_weight (Event i q a :: of_client i ev)) with (req_weight q + events_weight (of_client i ev))%N in *.
        destruct (perform_own hs z q c0 Ha (proj2 Hl) ltac:(lia) ltac:(lia) (HB c0 Hc0)) as [Ea O0].
        rewrite Ep in Ea. cbn [fst] in Ea.
        destruct (IH (hs ++ ops_of q) (z ++ ops_of q) (update cl i (k a)) i C) as (hs' & z' & E1 & E2 & E3 & E4 & E5).
        -- intros c (q' & Hq & E'). rewrite update_same in Hq. apply HU. exists q'. rewrite Ej. split; [right; exists a; exact Hq|exact E'].
        -- intros j c Hj (q' & Hq & E'). rewrite (update_other _ _ _ _ Hj) in Hq. apply (HO j c Hj). exists q'. auto.
        -- intros q' Hq. rewrite update_same in Hq. apply HL. rewrite Ej. right. exists a. exact Hq.
        -- intros c Hc. destruct (str_dec c c0) as [->|Hn]; [exact O0|].
           assert (Hn' : about q <> Some c) by congruence.
           eapply obs_trans; [apply perform_other, Hn'|]. eapply obs_trans; [apply HB, Hc|]. apply obs_sym, perform_other, Hn'.
        -- fold ev. lia.
        -- fold ev. lia.
        -- fold ev in E2, E3, E5. exists hs', z'. split; [exact E1|]. split; [lia|]. split; [|split; [exact E4|lia]].
           cbn [List.length alone]. rewrite Ej. assert (Ez : perform G q (lm z) = (a, lm (z ++ ops_of q))) by (rewrite Ea, <- perform_state; apply surjective_pairing).
           rewrite Ez. rewrite update_same in E3. exact E3.
      * cbn [of_client filter who] in *. rewrite (proj2 (Nat.eqb_neq j i) Hj) in *.
        set (ev := events G sched (Pool (lm (hs ++ ops_of q)) (update cl j (k a)))) in *. fold (of_client i ev) in *.
        assert (Hi : i <> j) by congruence.
        destruct (IH (hs ++ ops_of q) z (update cl j (k a)) i C) as (hs' & z' & E1 & E2 & E3 & E4 & E5).
        -- intros c Hu. rewrite (update_other _ _ _ _ Hi) in Hu. exact (HU c Hu).
        -- intros j' c Hj' (q' & Hq & E'). destruct (Nat.eq_dec j' j) as [->|Hjj].
           ++ rewrite update_same in Hq. apply (HO j c Hj). exists q'. rewrite Ej. split; [right; exists a; exact Hq|exact E'].
           ++ rewrite (update_other _ _ _ _ Hjj) in Hq. apply (HO j' c Hj'). exists q'. split; assumption.
        -- intros q' Hq. rewrite (update_other _ _ _ _ Hi) in Hq. exact (HL q' Hq).
        -- intros c Hc. eapply obs_trans; [|apply HB, Hc]. destruct (op_of q) as [o|] eqn:Eo.
           ++ apply perform_other. intros E'. apply (HO j c Hj); [|exact Hc]. exists q. rewrite Ej.
              split; [left; reflexivity|]. split; [exact E'|congruence].
           ++ unfold ops_of. rewrite Eo, app_nil_r. apply obs_refl.
        -- fold ev. lia.
        -- fold ev. lia.
        -- fold ev in E2, E3, E5. exists hs', z'. split; [exact E1|]. split; [lia|]. rewrite (update_other _ _ _ _ Hi) in E3. split; [exact E3|]. split; [exact E4|exact E5].
Qed.

(** What a client alone does not change. *)
Lemma solo_unchanged p : forall h c, ~ changes p c -> exists h', snd (solo G p (lm h)) = lm h' /\ obs c (lm h') (lm h).
Proof.
  induction p as [r|q k IH]; intros h c N; [exists h; split; [reflexivity|apply obs_refl]|].
  cbn [solo]. pose proof (perform_state q h) as Es. destruct (perform G q (lm h)) as [a s]. cbn [snd] in Es. subst s.
  destruct (IH a (h ++ ops_of q) c) as (h' & E & O).
  - intros (q' & Hq & E'). apply N. exists q'. split; [right; exists a; exact Hq|exact E'].
  - exists h'. split; [exact E|]. eapply obs_trans; [exact O|]. destruct (op_of q) as [o|] eqn:Eo.
    + apply perform_other. intros E'. apply N. exists q. split; [left; reflexivity|]. split; [exact E'|congruence].
    + unfold ops_of. rewrite Eo, app_nil_r. apply obs_refl.
Qed.

(** One after the other. *)
Lemma one_by_one h cl sched : let x := interleave G sched (Pool (lm h) cl) in let made := events G sched (Pool (lm h) cl) in
  (total_weight h + events_weight made < 2 ^ 64)%N ->
  (forall i j c, i <> j -> changes (cl j) c -> ~ uses (cl i) c) ->
  forall order, NoDup order -> forall z, (forall i, In i order -> local (cl i) /\ exists r, clients x i = Done r) ->
  (total_weight z + sum_of (map (fun i => events_weight (of_client i made)) order) < 2 ^ 64)%N ->
  (forall i c, In i order -> uses (cl i) c -> obs c (lm h) (lm z)) ->
  exists z' rs, in_turn G (map cl order) (lm z) = (rs, lm z')
    /\ map (fun r => Done r) rs = map (clients x) order
    /\ (forall i c, In i order -> uses (cl i) c -> obs c (shared x) (lm z'))
    /\ (forall c, (forall i, In i order -> ~ changes (cl i) c) -> obs c (lm z') (lm z))
    /\ (total_weight z' <= total_weight z + sum_of (map (fun i => events_weight (of_client i made)) order))%N.
Proof.
  intros x made W Ap order ND. induction ND as [|i order Hi ND IH]; intros z HD Wz O.
  - exists z, []. cbn in *. split; [reflexivity|]. split; [reflexivity|]. split; [intros i c []|]. split; [intros; apply obs_refl|lia].
  - cbn [map sum_of fold_right] in *. fold (sum_of (map (fun i => events_weight (of_client i made)) order)) in *.
    destruct (HD i (or_introl eq_refl)) as [HL [r Er]].
    destruct (among_own sched h z cl i (uses (cl i))) as (hs' & z1 & E1 & _ & E3 & E4 & E5); try assumption.
    + intros c U. exact U.
    + intros j c Hj M. exact (Ap i j c (not_eq_sym Hj) M).
    + intros c U. exact (O i c (or_introl eq_refl) U).
    + fold made. lia.
    + fold x in E1, E3. fold made in E3, E5. rewrite Er in E3. apply P_Conc.alone_done in E3.
      assert (Stay : forall c, ~ changes (cl i) c -> obs c (lm z1) (lm z)).
      { intros c N. destruct (solo_unchanged (cl i) z c N) as (h' & K1 & K2). rewrite E3 in K1. cbn [snd] in K1. rewrite K1. exact K2. }
      destruct (IH z1) as (z' & rs & F1 & F2 & F3 & F4 & F5).
      * intros j Hj. apply HD. right. exact Hj.
      * lia.
      * intros j c Hj U. eapply obs_trans; [apply (O j c (or_intror Hj) U)|]. apply obs_sym, Stay. intros M. refine (Ap j i c _ M U). intros <-. contradiction.
      * exists z', (r :: rs). cbn [in_turn]. rewrite E3, F1. split; [reflexivity|]. split; [cbn [map]; rewrite F2, Er; reflexivity|]. split; [|split; [|lia]].
        -- intros j c [<-|Hj] U; [|exact (F3 j c Hj U)]. rewrite E1. eapply obs_trans; [exact (E4 c U)|]. apply obs_sym, F4. intros j Hj M. refine (Ap i j c _ M U). intros <-. contradiction.
        -- intros c N. eapply obs_trans; [apply F4; intros j Hj; apply N; right; exact Hj|]. apply Stay, N. left. reflexivity.
Qed.

(** Whom the calls of a collection are of. *)
Lemma all_stay h cl sched c : (forall j, ~ changes (cl j) c) -> obs c (shared (interleave G sched (Pool (lm h) cl))) (lm h).
Proof. intros N. destruct (unchanged sched h cl c N) as (h' & -> & O). exact O. Qed.
