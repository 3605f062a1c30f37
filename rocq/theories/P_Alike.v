(** * Proofs: files that look alike *)
From Coq Require Import List Arith NArith Bool String Lia Permutation.
From Verif Require Import M_Base M_Data M_Heed M_Txn M_Regex M_Lexer M_Graph M_Parser M_Display M_Interp M_Conc M_HostConc M_TxnConc
  S_Order S_Str S_Store S_Txn S_Graph S_Interp S_Conc S_ConcSee S_Wander S_Rewrite S_TxnConc S_HostConc S_AnyRetry S_Isolated S_ConcFail S_Apart
  P_Ord P_Hist P_HeedHist P_Conc P_Rewrite P_ConcFoot P_FailRun P_Retry P_HostConc P_Isolated P_Fair P_Gens P_Graph P_GraphLaws.
From Verif Require P_Equiv P_HeedMore.
Import ListNotations.
Open Scope list_scope.

Lemma view_trip t : view (trip_to_entry t) = t.
Proof. destruct (proj1 (trip_to_entry_iff t _) eq_refl) as [_ H]. exact H. Qed.

(** Files that look alike are the same for every collection. *)
Lemma worlds_obs h k w v c : w c = v c -> shows heed_impl (lm h) w -> shows heed_impl (lm k) v -> obs c (lm h) (lm k).
Proof.
  intros Ec [A1 B1] [A2 B2]. assert (Has : has heed_impl (lm h) c <-> has heed_impl (lm k) c) by (rewrite <- A1, <- A2, Ec; reflexivity).
  split; [exact Has|]. intros t.
  assert (K : forall x y w v, w c = v c -> (forall n, w n <> None <-> has heed_impl (lm x) n) -> (forall e l, w (el_name e) = Some l -> l_entries (graph_impl heed_impl) (lm x) e = Ok l) ->
     (forall e l, v (el_name e) = Some l -> l_entries (graph_impl heed_impl) (lm y) e = Ok l) -> holds heed_impl (lm x) c t -> holds heed_impl (lm y) c t).
  { clear. intros x y w v Ec A B C (l & E & Hl).
    assert (Hc : has heed_impl (lm x) c).
    { destruct (P_Equiv.heed_has_d x c) as [H|H]; [exact H|]. pose proof (P_HeedMore.heed_triples_missing (sure x) c) as Q. cbn zeta in Q. rewrite <- lm_f in Q. pose proof (proj2 Q H). congruence. }
    apply A in Hc. destruct (w c) as [m|] eqn:Ew; [|congruence]. pose proof (B (mkE c) m Ew) as Bx. pose proof (C (mkE c) m (eq_sym Ec)) as By.
    assert (In (trip_to_entry t) m) as Hm.
    { cbn [graph_impl l_entries] in Bx. unfold graph_entries in Bx. cbn [el_name mkE] in Bx. rewrite E in Bx. injection Bx as <-.
      apply in_entries. split; [apply (trip_to_entry_iff t _); reflexivity|rewrite view_trip; exact Hl]. }
    cbn [graph_impl l_entries] in By. unfold graph_entries in By. cbn [el_name mkE] in By.
    destruct (t_triples heed_impl (lm y) c) as [l'|e|e] eqn:E'; cbn in By; try discriminate By.
    exists l'. split; [exact E'|]. injection By as <-. apply in_entries in Hm as [_ Hm]. rewrite view_trip in Hm. exact Hm. }
  split; [exact (K h k w v Ec A1 B1 B2)|exact (K k h v w (eq_sym Ec) A2 B2 B1)].
Qed.

Lemma shows_obs h k w c : shows heed_impl (lm h) w -> shows heed_impl (lm k) w -> obs c (lm h) (lm k).
Proof. apply worlds_obs. reflexivity. Qed.

Lemma obs_stable h k c : ~ ~ obs c (lm h) (lm k) -> obs c (lm h) (lm k).
Proof.
  intros N. destruct (a_world Lmdb heed_impl heed_new _ im_lmdb h) as (wx & Sx). destruct (a_world Lmdb heed_impl heed_new _ im_lmdb k) as (wz & Sz).
  destruct (network_dec (wx c) (wz c)) as [E|E]; [exact (worlds_obs h k wx wz c E Sx Sz)|]. exfalso. apply N. intros O. apply E. exact (obs_world c h k wx wz O Sx Sz).
Qed.

Lemma alike_obs h k : look_alike heed_impl (lm h) (lm k) -> forall c, obs c (lm h) (lm k).
Proof.
  intros L c. destruct (a_world Lmdb heed_impl heed_new _ im_lmdb h) as (w & Sw). apply (shows_obs h k w c Sw). apply L, Sw.
Qed.

Lemma obs_alike h k : (forall c, obs c (lm h) (lm k)) -> look_alike heed_impl (lm h) (lm k).
Proof.
  intros O. destruct (a_world Lmdb heed_impl heed_new _ im_lmdb h) as (wx & Sx). destruct (a_world Lmdb heed_impl heed_new _ im_lmdb k) as (wz & Sz).
  apply (alike_same heed_impl _ _ wx wz Sx Sz). intros c. exact (obs_world c h k wx wz (O c) Sx Sz).
Qed.

