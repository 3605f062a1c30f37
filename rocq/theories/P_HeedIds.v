(** * LMDB store: numbers are given once *)
From Coq Require Import List Arith NArith Bool Lia.
From Verif Require Import M_Base M_Data M_Heed S_Order P_Ord S_Store P_Hist S_Codec P_Codec S_Str P_Heed P_HeedHist.
Import ListNotations.
Open Scope list_scope.

(** What a step, and then any history, does to numbers that were given before. *)
Record keeps_ids (d d' : heed) : Prop := {
  kp_used : (next_counter d <= next_counter d')%N;
  kp_c2i : forall c i, sg c (h_c2i d') = Some i -> (i < next_counter d)%N -> sg c (h_c2i d) = Some i;
  kp_v2i : forall v i, sg v (h_v2i d) = Some i -> sg v (h_v2i d') = Some i;
  kp_i2v : forall i v, ng i (h_i2v d) = Some v -> ng i (h_i2v d') = Some v
}.

Lemma keeps_refl d : keeps_ids d d.
Proof. split; auto. lia. Qed.
Lemma keeps_trans a b c : keeps_ids a b -> keeps_ids b c -> keeps_ids a c.
Proof. intros [U1 C1 V1 W1] [U2 C2 V2 W2]. split; auto; [lia|]. intros n i E L. apply C1; [|exact L]. apply C2; [exact E|lia]. Qed.

Lemma keeps_step d o b : inv d -> keeps_ids d (snd (hcall b d o)).
Proof.
  intros I. pose proof (proj1 (used_step d o b I)) as U. unfold used in U. pose proof (step_ok_call d o b I) as HS. revert U HS.
  generalize (fst (hcall b d o)) as r. generalize (snd (hcall b d o)) as d'. intros d' r U HS.
  destruct HS as [c b i E|c E HA HI|c b E HA|c i E HI|c b E|c cid ts d' E A|c cid ts b k E Ek Hov|c ts b E
                 |c cid ts d' E HK R|c cid ts b E HK|c ts b E|c E HA|c i E|c cid ts E|c cid ts E HK];
    try apply keeps_refl.
  - split; auto. intros c' i. rewrite with_coll_get by assumption. destruct (str_dec c' c) as [->|N]; [|auto].
    destruct (storable_dec c); [|discriminate]. intros X L. injection X as <-. lia.
  - split; auto. intros c' j. rewrite without_coll_get by assumption. destruct (str_dec c' c); [discriminate|auto].
  - destruct A. split; auto. intros c' i X _. congruence.
  - destruct R. split; auto; congruence.
Qed.

Lemma keeps_history h' : forall h, keeps_ids (hafter heed_new h) (hafter heed_new (h ++ h')).
Proof.
  induction h' as [|[o b] h' IH] using rev_ind; intros h; [rewrite app_nil_r; apply keeps_refl|].
  rewrite app_assoc, after_f_snoc. eapply keeps_trans; [apply IH|]. apply keeps_step, inv_reach.
Qed.

Lemma below_lt d i : below (counter d) i -> (i < next_counter d)%N.
Proof. intros (k & E & L). unfold next_counter. rewrite E. lia. Qed.

Lemma ids_once h h' : let d := hafter heed_new h in let d' := hafter heed_new (h ++ h') in
  (forall c c' i, In (c, i) (h_c2i d) -> In (c', i) (h_c2i d') -> c' = c)
  /\ (forall v v' i, In (v, i) (h_v2i d) -> In (v', i) (h_v2i d') -> v' = v)
  /\ (forall v i, In (v, i) (h_v2i d) -> In (v, i) (h_v2i d'))
  /\ (forall v i, In (i, v) (h_i2v d) -> In (i, v) (h_i2v d'))
  /\ (forall v v' i, In (i, v) (h_i2v d) -> In (i, v') (h_i2v d') -> v' = v).
Proof.
  intros d d'. pose proof (inv_reach h) as I. pose proof (inv_reach (h ++ h')) as I'. fold d in I. fold d' in I'.
  destruct (keeps_history h' h) as [U C V W]. fold d d' in U, C, V, W. pose proof (iv_b _ I) as B. pose proof (iv_b _ I') as B'.
  split; [|split; [|split; [|split]]].
  - intros c c' i H H'. apply (bm_get_in str_order) in H; [|apply B]. apply (bm_get_in str_order) in H'; [|apply B'].
    assert (L : (i < next_counter d)%N) by (apply below_lt; eapply c2i_below; [exact B|exact H]).
    exact (c2i_inj d c' c i I (C _ _ H' L) H).
  - intros v v' i H H'. apply (bm_get_in str_order) in H; [|apply B]. apply (bm_get_in str_order) in H'; [|apply B'].
    apply V in H. apply (iv_v2i _ _ B') in H, H'. congruence.
  - intros v i H. apply (bm_get_in str_order) in H; [|apply B]. apply (bm_get_in str_order); [apply B'|]. apply V, H.
  - intros v i H. apply (bm_get_in N_order) in H; [|apply B]. apply (bm_get_in N_order); [apply B'|]. apply W, H.
  - intros v v' i H H'. apply (bm_get_in N_order) in H; [|apply B]. apply (bm_get_in N_order) in H'; [|apply B']. apply W in H. congruence.
Qed.

Lemma ids_renewed h h1 h2 c i j : In (c, i) (h_c2i (hafter heed_new h)) -> ~ has heed_impl (hafter heed_new (h ++ h1)) c ->
  In (c, j) (h_c2i (hafter heed_new ((h ++ h1) ++ h2))) -> (i < j)%N.
Proof.
  intros H N H'. pose proof (iv_b _ (inv_reach h)) as B. pose proof (iv_b _ (inv_reach ((h ++ h1) ++ h2))) as B'.
  apply (bm_get_in str_order) in H; [|apply B]. apply (bm_get_in str_order) in H'; [|apply B'].
  destruct (keeps_history h1 h) as [U1 _ _ _]. destruct (keeps_history h2 (h ++ h1)) as [_ C2 _ _].
  assert (L : (i < next_counter (hafter heed_new h))%N) by (apply below_lt; eapply c2i_below; [exact B|exact H]).
  destruct (N.lt_ge_cases j (next_counter (hafter heed_new (h ++ h1)))) as [X|X]; [|lia].
  exfalso. apply N. apply heed_has. exists j. exact (C2 _ _ H' X).
Qed.
