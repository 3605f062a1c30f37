(** * LMDB store: further facts for the property file *)
From Coq Require Import List Arith NArith Bool Lia.
From Verif Require Import M_Base M_Data M_Heed S_Order P_Ord S_Store P_Hist S_Codec P_Codec S_Str P_Heed P_HeedHist.
Import ListNotations.
Open Scope list_scope.

(** C13 *)
Lemma index_rows ko d perm tab : inv_b ko d -> index_ok perm tab (h_cfst d) -> perm_inj perm ->
  forall c f s t, is_u64 c -> is_u64 f -> is_u64 s -> is_u64 t ->
  (In (enc c f s t) (h_cfst d) <-> In (perm c f s t) tab).
Proof.
  intros B Hi Hp c f s t Uc Uf Us Ut. rewrite (Hi (perm c f s t)). split.
  - intros H. exists c, f, s, t. auto 10.
  - intros (c' & f' & s' & t' & ? & ? & ? & ? & E & H). apply Hp in E; try assumption.
    destruct E as (-> & -> & -> & ->). exact H.
Qed.

Lemma row_in_enc tab a b c d : (exists r, In r tab /\ row_of r a b c d)
  <-> is_u64 a /\ is_u64 b /\ is_u64 c /\ is_u64 d /\ In (enc a b c d) tab.
Proof.
  split.
  - intros (r & Hi & Hr). apply row_of_enc in Hr as (? & ? & ? & ? & ->). auto.
  - intros (? & ? & ? & ? & Hi). exists (enc a b c d). split; [exact Hi|]. apply row_of_enc. auto.
Qed.

Definition is_row (r : list N) : Prop := exists a b c d, row_of r a b c d.

Lemma heed_indexes h :
  let d := hafter heed_new h in
  (forall c f s t,
     let here := exists r, In r (h_cfst d) /\ row_of r c f s t in
     (here <-> exists r, In r (h_cfts d) /\ row_of r c f t s)
     /\ (here <-> exists r, In r (h_csft d) /\ row_of r c s f t)
     /\ (here <-> exists r, In r (h_cstf d) /\ row_of r c s t f)
     /\ (here <-> exists r, In r (h_ctfs d) /\ row_of r c t f s)
     /\ (here <-> exists r, In r (h_ctsf d) /\ row_of r c t s f))
  /\ (forall r, In r (h_cfst d) \/ In r (h_cfts d) \/ In r (h_csft d)
                \/ In r (h_cstf d) \/ In r (h_ctfs d) \/ In r (h_ctsf d) ->
      exists a b c e, row_of r a b c e).
Proof.
  intros d. assert (I : inv d) by apply inv_reach. pose proof (iv_b _ I) as B. split.
  - intros c f s t here. unfold here. rewrite !row_in_enc.
    pose proof (index_rows _ _ _ _ B (iv_cfts _ _ B) perm_inj_fts c f s t) as H1.
    pose proof (index_rows _ _ _ _ B (iv_csft _ _ B) perm_inj_sft c f s t) as H2.
    pose proof (index_rows _ _ _ _ B (iv_cstf _ _ B) perm_inj_stf c f s t) as H3.
    pose proof (index_rows _ _ _ _ B (iv_ctfs _ _ B) perm_inj_tfs c f s t) as H4.
    pose proof (index_rows _ _ _ _ B (iv_ctsf _ _ B) perm_inj_tsf c f s t) as H5.
    simpl in *. repeat split; intuition.
  - assert (K : forall perm tab, index_ok perm tab (h_cfst d) ->
       (forall c f s t, is_u64 c -> is_u64 f -> is_u64 s -> is_u64 t -> is_row (perm c f s t)) ->
       forall r, In r tab -> is_row r).
    { intros perm tab Hok Hp r Hr. apply Hok in Hr as (c & f & s & t & ? & ? & ? & ? & -> & _). auto. }
    assert (E : forall a b c e, is_u64 a -> is_u64 b -> is_u64 c -> is_u64 e -> is_row (enc a b c e)).
    { intros a b c e ? ? ? ?. exists a, b, c, e. apply row_of_enc. auto. }
    intros r [H|[H|[H|[H|[H|H]]]]].
    + destruct (iv_cfst _ _ B r H) as (c & f & s & t & x & y & z & -> & Hc & Hx & Hy & Hz).
      assert (U : forall i v, ng i (h_i2v d) = Some v -> is_u64 i).
      { intros i v Hv. eapply u64_below; [exact B|]. exact (iv_i2v_le _ _ B i v Hv). }
      apply E; [exact (u64_below _ _ _ B Hc)|exact (U _ _ Hx)|exact (U _ _ Hy)|exact (U _ _ Hz)].
    + eapply K; [apply (iv_cfts _ _ B)| |exact H]. intros; apply E; assumption.
    + eapply K; [apply (iv_csft _ _ B)| |exact H]. intros; apply E; assumption.
    + eapply K; [apply (iv_cstf _ _ B)| |exact H]. intros; apply E; assumption.
    + eapply K; [apply (iv_ctfs _ _ B)| |exact H]. intros; apply E; assumption.
    + eapply K; [apply (iv_ctsf _ _ B)| |exact H]. intros; apply E; assumption.
Qed.

(** C14 *)
Lemma heed_dictionary h :
  let d := hafter heed_new h in
  let bounded (i : N) := exists k, In (id_key, k) (h_ids d) /\ (i <= k)%N in
  (forall c i, In (c, i) (h_c2i d) -> In (i, c) (h_i2c d) /\ bounded i)
  /\ (forall i c, In (i, c) (h_i2c d) -> bounded i)
  /\ (forall v i, In (v, i) (h_v2i d) -> In (i, v) (h_i2v d) /\ bounded i)
  /\ (forall i v, In (i, v) (h_i2v d) -> bounded i /\ (storable v -> In (v, i) (h_v2i d)))
  /\ (forall r a b c e, In r (h_cfst d) -> row_of r a b c e ->
      bounded a /\ (exists x, In (b, x) (h_i2v d)) /\ (exists x, In (c, x) (h_i2v d)) /\ (exists x, In (e, x) (h_i2v d))).
Proof.
  intros d bounded. assert (I : inv d) by apply inv_reach. pose proof (iv_b _ I) as B.
  assert (Hb : forall i, below (counter d) i -> bounded i).
  { intros i (k & Ek & Hle). exists k. split; [|exact Hle]. apply (bm_get_Some_in str_order), Ek. }
  pose proof (iv_c2i_map _ _ B) as M1. pose proof (iv_i2c_map _ _ B) as M2.
  pose proof (iv_v2i_map _ _ B) as M3. pose proof (iv_i2v_map _ _ B) as M4.
  split; [|split; [|split; [|split]]].
  - intros c i H. apply (bm_get_in str_order) in H; [|exact M1]. split.
    + apply (bm_get_in N_order); [exact M2|]. apply (iv_c2i _ _ B), H.
    + apply Hb. eapply c2i_below; eassumption.
  - intros i c H. apply (bm_get_in N_order) in H; [|exact M2]. apply Hb. eapply (iv_i2c_le _ _ B), H.
  - intros v i H. apply (bm_get_in str_order) in H; [|exact M3]. apply (iv_v2i _ _ B) in H. split.
    + apply (bm_get_in N_order); assumption.
    + apply Hb. eapply (iv_i2v_le _ _ B), H.
  - intros i v H. apply (bm_get_in N_order) in H; [|exact M4]. split.
    + apply Hb. eapply (iv_i2v_le _ _ B), H.
    + intros Hs. apply (bm_get_in str_order); [exact M3|]. apply (iv_i2v _ _ B); assumption.
  - intros r a b c e Hr Hrow. destruct (iv_cfst _ _ B r Hr) as (a' & b' & c' & e' & x & y & z & -> & Ha & Hx & Hy & Hz).
    apply row_of_enc in Hrow as (? & ? & ? & ? & E). apply enc_inj in E; try assumption;
      try (eapply u64_below; [exact B|]; first [exact Ha|eapply (iv_i2v_le _ _ B); eassumption]).
    destruct E as (<- & <- & <- & <-). split; [apply Hb, Ha|].
    split; [|split]; eexists; apply (bm_get_Some_in N_order); eassumption.
Qed.

Lemma heed_counter_monotone h h' k k' :
  In (id_key, k) (h_ids (hafter heed_new h)) -> In (id_key, k') (h_ids (hafter heed_new (h ++ h'))) -> (k <= k')%N.
Proof.
  intros H1 H2.
  pose proof (inv_reach h) as I1. pose proof (inv_reach (h ++ h')) as I2.
  apply (bm_get_in str_order) in H1; [|apply I1]. apply (bm_get_in str_order) in H2; [|apply I2].
  pose proof (used_after h' (hafter heed_new h) I1) as [Hle _]. rewrite <- after_f_app in Hle.
  unfold used, next_counter, counter in Hle. rewrite H1, H2 in Hle. lia.
Qed.

(** C02 for LMDB *)
Lemma heed_add_existing h c b :
  let d := hafter heed_new h in
  has heed_impl d c -> hcall b d (OAddColl c) = (Ok tt, d).
Proof.
  intros d Hh. apply heed_has in Hh as [i E]. assert (I : inv d) by apply inv_reach.
  simpl. unfold heed_add_collection. rewrite add_collection_tx_spec, E by exact I. reflexivity.
Qed.

(** C06 for LMDB *)
Lemma heed_write_missing h c ts b :
  let d := hafter heed_new h in
  ~ has heed_impl d c ->
  hcall b d (OAdd c ts) = (Panic PTodo, d) /\ hcall b d (ORem c ts) = (Panic PTodo, d).
Proof.
  intros d Hh. unfold heed_impl in Hh. rewrite heed_has in Hh. assert (I : inv d) by apply inv_reach. simpl.
  unfold heed_add_triples, heed_remove_triples. simpl.
  pose proof (add_triples_tx_spec d c ts I) as H1. pose proof (remove_triples_tx_spec d c ts I) as H2.
  destruct (sg c (h_c2i d)); [exfalso; eauto|]. rewrite H1, H2. auto.
Qed.

(** C16 *)
Lemma heed_recreate h c :
  let d := hafter heed_new h in
  has heed_impl d c ->
  (total_weight (map fst h) + 1 < 2 ^ 64)%N ->
  let r1 := hcall true d (ORemColl c) in
  let r2 := hcall true (snd r1) (OAddColl c) in
  fst r1 = Ok tt /\ fst r2 = Ok tt /\ has heed_impl (snd r2) c /\ t_triples heed_impl (snd r2) c = Ok [].
Proof.
  intros d Hh Hw r1 r2.
  assert (W1 : (total_weight (map fst h ++ [ORemColl c]) < 2 ^ 64)%N).
  { rewrite total_weight_app. cbn [total_weight fold_right weight]. lia. }
  assert (W2 : (total_weight (map fst (h ++ [(ORemColl c, true)]) ++ [OAddColl c]) < 2 ^ 64)%N).
  { rewrite map_app, !total_weight_app. cbn [map fst total_weight fold_right weight].
    fold (total_weight (map fst h)). lia. }
  pose proof (heed_answers h (ORemColl c) true W1) as [A1 _]. fold d in A1. specialize (A1 Hh).
  pose proof (heed_answers (h ++ [(ORemColl c, true)]) (OAddColl c) true W2) as A2.
  rewrite after_f_snoc in A2. fold d in A2. fold r1 in A1, A2. fold r2 in A2.
  split; [exact A1|]. split; [exact A2|].
  pose proof (heed_history ((h ++ [(ORemColl c, true)]) ++ [(OAddColl c, true)])) as HH.
  rewrite installed_snoc, installed_snoc, after_f_snoc, after_f_snoc in HH. fold d in HH. fold r1 in HH. fold r2 in HH.
  cbv zeta in HH. change (fst (hcall true (snd r1) (OAddColl c)) = Ok tt) in A2. fold r2 in A2. rewrite A1, A2 in HH.
  set (H := (installed heed_impl_c heed_new h ++ [ORemColl c]) ++ [OAddColl c]) in HH.
  assert (Hl : live H c) by (apply live_snoc; auto).
  assert (Hs : storable c).
  { pose proof (heed_simulates h) as SM. fold d in SM. apply heed_has, (sm_coll _ _ SM) in Hh. tauto. }
  destruct HH as ((l & El & _ & Hin) & HT & _). split.
  - exists l. split; [exact El|]. apply Hin. auto.
  - destruct (HT c Hs Hl) as (l' & El' & Hset & Hin'). etransitivity; [exact El'|]. f_equal. destruct l' as [|t l']; [reflexivity|]. exfalso.
    destruct (Hin' t) as [Ht _]. specialize (Ht (or_introl eq_refl)).
    apply holds_after_snoc in Ht as [(ts & E & _)|[Ht _]]; [discriminate|].
    apply holds_after_snoc in Ht as [(ts & E & _)|[_ Ht]]; [discriminate|]. apply Ht. constructor.
Qed.

(** C18: committed writes stay. *)
Lemma heed_durable h c ts t h' :
  fst (hcall true (hafter heed_new h) (OAdd c ts)) = Ok tt -> In t ts ->
  (forall o b, In (o, b) h' -> ~ removes c t o) ->
  holds heed_impl (hafter heed_new (h ++ (OAdd c ts, true) :: h')) c t.
Proof.
  intros Hok Ht. induction h' as [|[o b] h' IH] using rev_ind; intros Hn.
  - unfold heed_impl. pose proof (heed_simulates (h ++ [(OAdd c ts, true)])) as SM.
    apply (sim_holds true _ _ c t (inv_reach _) SM). rewrite installed_snoc. rewrite Hok.
    apply holds_after_snoc. left. exists ts. split; [reflexivity|]. split; [exact Ht|].
    pose proof (heed_simulates h) as SM0. assert (has heed_impl (hafter heed_new h) c) as Hh.
    { apply heed_has. pose proof (step_ok_call (hafter heed_new h) (OAdd c ts) true (inv_reach h)) as HS.
      rewrite Hok in HS. inversion HS; eauto. }
    apply heed_has, (sm_coll _ _ SM0) in Hh. tauto.
  - assert (IH' := IH (fun o' b' Hi => Hn o' b' (in_or_app _ _ _ (or_introl Hi)))). clear IH.
    replace (h ++ (OAdd c ts, true) :: h' ++ [(o, b)]) with ((h ++ (OAdd c ts, true) :: h') ++ [(o, b)])
      by (rewrite <- app_assoc; reflexivity).
    set (g := h ++ (OAdd c ts, true) :: h') in *.
    pose proof (heed_simulates (g ++ [(o, b)])) as SM. pose proof (heed_simulates g) as SM0.
    apply (sim_holds true _ _ c t (inv_reach _) SM). apply (sim_holds true _ _ c t (inv_reach _) SM0) in IH'.
    rewrite installed_snoc. destruct (fst (hcall b (hafter heed_new g) o)) as [[]|e|w]; try (rewrite app_nil_r; exact IH').
    destruct b; [|rewrite app_nil_r; exact IH']. apply holds_after_snoc. right. split; [exact IH'|].
    eapply Hn. apply in_or_app. right; left; reflexivity.
Qed.

(** C19 *)
Lemma heed_add_collection_listed h c :
  let d := hafter heed_new h in
  let r := hcall true d (OAddColl c) in
  fst r = Ok tt -> (has heed_impl (snd r) c <-> storable c).
Proof.
  intros d r Hok. pose proof (heed_simulates (h ++ [(OAddColl c, true)])) as SM.
  rewrite after_f_snoc, installed_snoc in SM. fold d in SM. fold r in SM. rewrite Hok in SM.
  unfold heed_impl. rewrite (sim_has true _ _ c SM), live_snoc. tauto.
Qed.

(** C21 *)
Lemma heed_remove_keeps_rows h c b :
  let d := hafter heed_new h in
  let d' := snd (hcall b d (ORemColl c)) in
  h_cfst d' = h_cfst d /\ h_cfts d' = h_cfts d /\ h_csft d' = h_csft d
  /\ h_cstf d' = h_cstf d /\ h_ctfs d' = h_ctfs d /\ h_ctsf d' = h_ctsf d
  /\ h_v2i d' = h_v2i d /\ h_i2v d' = h_i2v d.
Proof.
  intros d d'. assert (I : inv d) by apply inv_reach. unfold d'. simpl.
  unfold heed_remove_collection. rewrite remove_collection_tx_spec by exact I.
  destruct (sg c (h_c2i d)); destruct b; simpl; auto 10.
Qed.

(** C20, reading. *)
Lemma heed_triples_missing h c :
  let d := hafter heed_new h in
  (has heed_impl d c -> exists l, t_triples heed_impl d c = Ok l)
  /\ (~ has heed_impl d c -> t_triples heed_impl d c = Panic PTodo).
Proof.
  intros d. assert (I : inv d) by apply inv_reach. unfold heed_impl. rewrite heed_has. simpl.
  pose proof (heed_triples_spec d c I) as H. destruct (sg c (h_c2i d)) as [i|] eqn:E.
  - destruct H as (l & El & _). split; [eauto|]. intros Hn. exfalso; eauto.
  - split; [intros [i Ei]; discriminate|auto].
Qed.

(** C18 for collections. *)
Lemma heed_durable_coll h c h' :
  fst (hcall true (hafter heed_new h) (OAddColl c)) = Ok tt -> storable c ->
  (forall b, ~ In (ORemColl c, b) h') ->
  has heed_impl (hafter heed_new (h ++ (OAddColl c, true) :: h')) c.
Proof.
  intros Hok Hs. induction h' as [|[o b] h' IH] using rev_ind; intros Hn.
  - unfold heed_impl. pose proof (heed_simulates (h ++ [(OAddColl c, true)])) as SM.
    apply (sim_has true _ _ c SM). split; [exact Hs|]. rewrite installed_snoc, Hok. apply live_snoc. auto.
  - assert (IH' := IH (fun b' Hi => Hn b' (in_or_app _ _ _ (or_introl Hi)))). clear IH.
    replace (h ++ (OAddColl c, true) :: h' ++ [(o, b)]) with ((h ++ (OAddColl c, true) :: h') ++ [(o, b)])
      by (rewrite <- app_assoc; reflexivity).
    set (g := h ++ (OAddColl c, true) :: h') in *.
    pose proof (heed_simulates (g ++ [(o, b)])) as SM. pose proof (heed_simulates g) as SM0.
    apply (sim_has true _ _ c SM). apply (sim_has true _ _ c SM0) in IH'.
    split; [exact Hs|]. destruct IH' as [_ IH'].
    rewrite installed_snoc. destruct (fst (hcall b (hafter heed_new g) o)) as [[]|e|w]; try (rewrite app_nil_r; exact IH').
    destruct b; [|rewrite app_nil_r; exact IH']. apply live_snoc. right. split; [exact IH'|].
    intros ->. eapply Hn. apply in_or_app. right; left; reflexivity.
Qed.
