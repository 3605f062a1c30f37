(** * Proofs: how often a triple is printed *)
From Coq Require Import List Arith NArith Bool String Lia Sorted Permutation.
From Verif Require Import M_Base M_Data M_Heed M_Lines
  S_Order S_Str S_Store S_Codec S_Space S_Lines P_Ord P_Hist P_Codec P_Heed P_HeedHist P_HeedMore P_Space P_Lines.
Import ListNotations.
Open Scope list_scope.

(** The rows in which the collection [cid] shows [t], by the ids of the words. *)
Definition rows_of (d : heed) (cid : N) (t : trip) (x : N * N * N) : Prop :=
  let '(f, s, e) := x in row_shows d cid (h_cfst d) (f, s, e, t).

Definition unstorable (t : trip) : Prop := exists v, part v t /\ ~ storable v.

Lemma rows_u64 ko d cid t f s e : inv_b ko d -> rows_of d cid t (f, s, e) -> is_u64 f /\ is_u64 s /\ is_u64 e.
Proof.
  intros B (_ & H1 & H2 & H3). repeat split; eapply u64_below, (iv_i2v_le _ _ B); eassumption.
Qed.

Lemma extends_rows ko d d' c t x : inv_b ko d -> (exists ko', inv_b ko' d') -> is_u64 c -> extends_dict d d' ->
  (rows_of d' c t x <-> rows_of d c t x).
Proof.
  intros B [ko' B'] Uc X. destruct x as [[f s] e]. unfold rows_of, row_shows. rewrite (xd_1 _ _ X). split.
  - intros (Hi & H1 & H2 & H3).
    destruct (iv_cfst _ _ B _ Hi) as (c' & f' & s' & e' & a & b & x & E & Hc & Ha & Hb & Hx).
    apply enc_inj in E; try assumption;
      [|eapply u64_below; [exact B'|]; eapply (iv_i2v_le _ _ B'); eassumption
       |eapply u64_below; [exact B'|]; eapply (iv_i2v_le _ _ B'); eassumption
       |eapply u64_below; [exact B'|]; eapply (iv_i2v_le _ _ B'); eassumption
       |eapply u64_below; [exact B|exact Hc]
       |eapply u64_below; [exact B|]; eapply (iv_i2v_le _ _ B); eassumption
       |eapply u64_below; [exact B|]; eapply (iv_i2v_le _ _ B); eassumption
       |eapply u64_below; [exact B|]; eapply (iv_i2v_le _ _ B); eassumption].
    destruct E as (<- & <- & <- & <-).
    pose proof (xd_i2v _ _ X _ _ Ha). pose proof (xd_i2v _ _ X _ _ Hb). pose proof (xd_i2v _ _ X _ _ Hx).
    split; [exact Hi|]. split; [congruence|]. split; congruence.
  - intros (Hi & H1 & H2 & H3). split; [exact Hi|]. split; [|split]; apply (xd_i2v _ _ X); assumption.
Qed.

Lemma with_row_rows ko d ids c f s e tr c' t' x : inv_b ko d -> below ko c -> is_u64 c' ->
  ng f (h_i2v d) = Some (t0 tr) -> ng s (h_i2v d) = Some (t1 tr) -> ng e (h_i2v d) = Some (t2 tr) ->
  (rows_of (with_row d ids c f s e) c' t' x <-> rows_of d c' t' x \/ (c' = c /\ t' = tr /\ x = (f, s, e))).
Proof.
  intros B Hc Uc' Ha Hb He. destruct x as [[f' s'] e'].
  assert (Uc : is_u64 c) by (eapply u64_below; eassumption).
  assert (Uf : is_u64 f) by (eapply u64_below, (iv_i2v_le _ _ B); eassumption).
  assert (Us : is_u64 s) by (eapply u64_below, (iv_i2v_le _ _ B); eassumption).
  assert (Ut : is_u64 e) by (eapply u64_below, (iv_i2v_le _ _ B); eassumption).
  unfold rows_of, row_shows. cbn [h_cfst h_i2v with_row]. rewrite in_rput. split.
  - intros ([E|Hi] & H1 & H2 & H3).
    + right. apply enc_inj in E; try assumption; [|eapply u64_below, (iv_i2v_le _ _ B); eassumption..].
      destruct E as (-> & -> & -> & ->). split; [reflexivity|]. split; [|reflexivity]. destruct t', tr; simpl in *. congruence.
    + left. auto.
  - intros [(Hi & H)|(-> & -> & E)]; [auto|]. injection E as -> -> ->. auto.
Qed.

Lemma intern_above d k v id k' d' : inv_b (Some k) d -> ~ storable v -> intern d k v = Ok (id, k', d') -> (k < id)%N.
Proof.
  intros B N E. unfold intern in E. rewrite sget_case in E by apply (iv_v2i_key _ _ B).
  destruct (sg v (h_v2i d)) as [i|] eqn:G; [destruct N; eapply (iv_v2i_key _ _ B), G|].
  unfold u64_add1 in E. destruct (N.ltb_spec k u64_max) as [L|L]; [|discriminate]. injection E as <- _ _. lia.
Qed.

Lemma rows_below k d c t f s e : inv_b (Some k) d -> rows_of d c t (f, s, e) -> (f <= k /\ s <= k /\ e <= k)%N.
Proof.
  intros B (_ & H1 & H2 & H3).
  assert (K : forall i v, ng i (h_i2v d) = Some v -> (i <= k)%N).
  { intros i v H. apply (iv_i2v_le _ _ B) in H as (x & Ex & Hx). injection Ex as <-. exact Hx. }
  repeat split; eapply K; eassumption.
Qed.

Lemma add_loop_count cid : forall ts d k d', inv d -> counter d = Some k -> below (Some k) cid ->
  heed_add_loop d cid k ts = Ok d' ->
  (forall c' t x, is_u64 c' -> c' <> cid -> (rows_of d' c' t x <-> rows_of d c' t x))
  /\ (forall t n, unstorable t -> number (rows_of d cid t) n -> number (rows_of d' cid t) (n + count_occ same_trip ts t)).
Proof.
  induction ts as [|t ts IH]; intros d k d' I Hk Hcid E.
  { cbn in E. injection E as <-. split; [tauto|]. intros t n _ Hn. cbn. rewrite Nat.add_0_r. exact Hn. }
  pose proof (iv_b _ I) as B. rewrite Hk in B. cbn [heed_add_loop] in E.
  destruct (intern_spec d k (t0 t) B) as [(f & k1 & d1 & E1 & B1 & X1 & F1 & L1 & L1' & _)|[E1 Hov]]; [|rewrite E1 in E; discriminate].
  rewrite E1 in E.
  destruct (intern_spec d1 k1 (t1 t) B1) as [(s & k2 & d2 & E2 & B2 & X2 & F2 & L2 & L2' & _)|[E2 Hov]]; [|rewrite E2 in E; discriminate].
  rewrite E2 in E.
  destruct (intern_spec d2 k2 (t2 t) B2) as [(e & k3 & d3 & E3 & B3 & X3 & F3 & L3 & L3' & _)|[E3 Hov]]; [|rewrite E3 in E; discriminate].
  rewrite E3 in E.
  rewrite row_keys_enc in E.
  assert (X : extends_dict d d3) by (eapply extends_dict_trans; [|eapply extends_dict_trans]; eassumption).
  change (Heed (sput (h_ids d3) id_key k3) _ _ _ _ _ _ _ _ _ _) with (with_row d3 (sput (h_ids d3) id_key k3) cid f s e) in E.
  assert (Hc3 : below (Some k3) cid) by (eapply below_mono; [|exact Hcid]; lia).
  set (d4 := with_row d3 (sput (h_ids d3) id_key k3) cid f s e) in *.
  assert (C4 : counter d4 = Some k3) by apply counter_sput.
  assert (Uc : is_u64 cid) by (eapply u64_below; eassumption).
  assert (F1' : ng f (h_i2v d3) = Some (t0 t)) by (apply (xd_i2v _ _ X3), (xd_i2v _ _ X2), F1).
  assert (F2' : ng s (h_i2v d3) = Some (t1 t)) by (apply (xd_i2v _ _ X3), F2).
  assert (R : forall c' t' x, is_u64 c' -> (rows_of d4 c' t' x <-> rows_of d c' t' x \/ (c' = cid /\ t' = t /\ x = (f, s, e)))).
  { intros c' t' x Uc'. unfold d4. rewrite (with_row_rows _ _ _ _ _ _ _ t c' t' x B3 Hc3 Uc' F1' F2' F3).
    rewrite (extends_rows _ d d3 c' t' x B (ex_intro _ _ B3) Uc' X). reflexivity. }
  destruct (IH d4 k3 d') as [IH1 IH2]; [|exact C4|exact Hc3|exact E|].
  - split.
    + apply is_map_sput. rewrite (xd_ids _ _ X). apply I.
    + apply keys_ok_sput. rewrite (xd_ids _ _ X). apply I.
    + rewrite C4. eapply with_row_inv; [exact B3|exact Hc3|exact F1'|exact F2'|exact F3].
  - split.
    + intros c' t' x U N. rewrite IH1, R by assumption. tauto.
    + intros t' n Hu Hn. cbn [count_occ]. destruct (same_trip t t') as [<-|Ne].
      * replace (n + S (count_occ same_trip ts t)) with (n + 1 + count_occ same_trip ts t) by lia. apply (IH2 t _ Hu).
        apply (number_ext (fun x => rows_of d cid t x \/ (f, s, e) = x)).
        { intros x. rewrite R by exact Uc. split; [intros [H|<-]; auto|]. intros [H|(_ & _ & ->)]; auto. }
        apply number_or; [|exact Hn|apply number_one]. intros x Hx <-. apply (rows_below k) in Hx; [|exact B].
        destruct Hu as (v & Pv & Nv). destruct Pv as [->|[->| ->]].
        -- pose proof (intern_above _ _ _ _ _ _ B Nv E1). lia.
        -- pose proof (intern_above _ _ _ _ _ _ B1 Nv E2). lia.
        -- pose proof (intern_above _ _ _ _ _ _ B2 Nv E3). lia.
      * apply (IH2 t' _ Hu). eapply number_ext; [|exact Hn]. intros x. rewrite R by exact Uc. split; [auto|]. intros [H|(_ & -> & _)]; [exact H|congruence].
Qed.

Lemma remove_loop_rows cid : is_u64 cid -> forall ts d d', inv d -> heed_remove_loop d cid ts = Ok d' ->
  forall c' t x, is_u64 c' -> unstorable t -> (rows_of d' c' t x <-> rows_of d c' t x).
Proof.
  intros Uc. induction ts as [|t ts IH]; intros d d' I E c' t' x Uc' Hu.
  { cbn in E. injection E as <-. tauto. }
  pose proof (iv_b _ I) as B. cbn [heed_remove_loop] in E.
  destruct (sget (h_v2i d) (t0 t)) as [[f|]| |] eqn:Ef; try discriminate.
  destruct (sget (h_v2i d) (t1 t)) as [[s|]| |] eqn:Es; try discriminate.
  destruct (sget (h_v2i d) (t2 t)) as [[e|]| |] eqn:Ee; try discriminate.
  apply sget_some in Ef; [|apply B]. apply sget_some in Es; [|apply B]. apply sget_some in Ee; [|apply B].
  rewrite row_keys_enc in E. change (Heed _ _ _ _ _ _ _ _ _ _ _) with (without_row d cid f s e) in E.
  pose proof (iv_v2i _ _ B _ _ Ef) as If. pose proof (iv_v2i _ _ B _ _ Es) as Is. pose proof (iv_v2i _ _ B _ _ Ee) as Ie.
  assert (Uf : is_u64 f) by (eapply u64_below, (iv_i2v_le _ _ B); eassumption).
  assert (Us : is_u64 s) by (eapply u64_below, (iv_i2v_le _ _ B); eassumption).
  assert (Ue : is_u64 e) by (eapply u64_below, (iv_i2v_le _ _ B); eassumption).
  assert (I' : inv (without_row d cid f s e)) by (split; [apply I|apply I|]; apply without_row_inv; assumption).
  rewrite (IH _ _ I' E c' t' x Uc' Hu). destruct x as [[f' s'] e']. unfold rows_of, row_shows. cbn [without_row h_cfst h_i2v].
  rewrite in_rdel by apply B. split; [tauto|]. intros (Hi & H1 & H2 & H3). split; [|auto]. split; [exact Hi|]. intros Q.
  apply enc_inj in Q; try assumption; [|eapply u64_below, (iv_i2v_le _ _ B); eassumption..]. destruct Q as (_ & -> & -> & ->).
  destruct Hu as (v & Pv & Nv). apply Nv. destruct Pv as [->|[->| ->]]; eapply (iv_v2i_key _ _ B); [rewrite If in H1; injection H1 as <-; exact Ef|rewrite Is in H2; injection H2 as <-; exact Es|rewrite Ie in H3; injection H3 as <-; exact Ee].
Qed.

Record tally (d : heed) (H : list op) : Prop := {
  ta_in : forall c cid t, sg c (h_c2i d) = Some cid -> unstorable t -> number (rows_of d cid t) (times_given c t H);
  ta_out : forall c t, sg c (h_c2i d) = None -> times_given c t H = 0
}.

Lemma times_given_snoc c t H o : times_given c t (H ++ [o]) = match o with
    | OAdd c' ts => if same_str c' c then times_given c t H + count_occ same_trip ts t else times_given c t H
    | ORemColl c' => if same_str c' c then 0 else times_given c t H
    | _ => times_given c t H end.
Proof. unfold times_given. rewrite fold_left_app. reflexivity. Qed.

Lemma tally_step d H o : inv d -> fst (hcall true d o) = Ok tt -> tally d H -> tally (snd (hcall true d o)) (H ++ [o]).
Proof.
  intros I E [A1 A2]. pose proof (iv_b _ I) as B. destruct o as [c|c|c ts|c ts].
  - cbn [call_op] in *. change (t_add_collection (heed_impl_c true)) with (heed_add_collection true) in *.
    unfold heed_add_collection in *. rewrite add_collection_tx_spec in * by exact I.
    destruct (sg c (h_c2i d)) as [i|] eqn:G; [cbn [run_tx snd]; split; intros; rewrite times_given_snoc; auto|].
    destruct (alloc_ok_dec d) as [HA|HA]; [|discriminate E]. cbn [run_tx snd]. split.
    + intros c' cid t Hc Hu. rewrite times_given_snoc. rewrite with_coll_get in Hc by assumption.
      destruct (str_dec c' c) as [->|Hn].
      * destruct (storable_dec c); [|discriminate]. injection Hc as <-. rewrite (A2 c t G). apply number_none.
        intros [[f0 s0] e0] Hx. apply (fresh_vrow d t I HA). exists f0, s0, e0. exact Hx.
      * exact (A1 _ _ _ Hc Hu).
    + intros c' t Hc. rewrite times_given_snoc. rewrite with_coll_get in Hc by assumption.
      destruct (str_dec c' c) as [->|Hn]; apply A2; assumption.
  - cbn [call_op] in *. change (t_remove_collection (heed_impl_c true)) with (heed_remove_collection true) in *.
    unfold heed_remove_collection in *. rewrite remove_collection_tx_spec in * by exact I.
    destruct (sg c (h_c2i d)) as [i|] eqn:G; [|discriminate E]. cbn [run_tx snd]. split.
    + intros c' cid t Hc Hu. rewrite times_given_snoc. rewrite without_coll_get in Hc by assumption.
      destruct (str_dec c' c) as [->|Hn]; [discriminate|]. destruct (same_str c c') as [->|_]; [congruence|]. exact (A1 _ _ _ Hc Hu).
    + intros c' t Hc. rewrite times_given_snoc. rewrite without_coll_get in Hc by assumption.
      destruct (same_str c c') as [->|Hn]; [reflexivity|]. destruct (str_dec c' c) as [->|_]; [congruence|]. apply A2; exact Hc.
  - cbn [call_op] in *. change (t_add_triples (heed_impl_c true)) with (heed_add_triples true) in *.
    unfold heed_add_triples in *. cbn [fst] in *.
    pose proof (add_triples_tx_spec d c ts I) as SP.
    unfold heed_add_triples_tx in *.
    rewrite sget_case in * by apply B. destruct (sg c (h_c2i d)) as [cid|] eqn:G; [|discriminate E].
    rewrite sget_case in * by apply I. change (sg id_key (h_ids d)) with (counter d) in *.
    destruct (c2i_below _ _ _ _ B G) as (k & Ek & Hle). rewrite Ek in *.
    destruct (heed_add_loop d cid k ts) as [d'| |] eqn:El; [|discriminate E|discriminate E]. cbn [run_tx snd].
    assert (Hc2 : h_c2i d' = h_c2i d).
    { destruct SP as [(d2 & Q & AD)|(Q & _)]; [|discriminate Q]. injection Q as <-. apply AD. }
    destruct (add_loop_count cid ts d k d' I Ek (ex_intro _ k (conj eq_refl Hle)) El) as [L1 L2].
    assert (OI : forall c' i, sg c' (h_c2i d) = Some i -> c' <> c -> is_u64 i /\ i <> cid).
    { intros c' i Hi Hn. split; [eapply u64_c2i; eassumption|]. intros ->. apply Hn. eapply c2i_inj; eassumption. }
    split; rewrite Hc2.
    + intros c' cid' t Hc Hu. rewrite times_given_snoc. destruct (same_str c c') as [<-|Hn].
      * rewrite G in Hc. injection Hc as <-. apply L2; [exact Hu|]. exact (A1 _ _ _ G Hu).
      * destruct (OI c' cid' Hc) as [U N]; [congruence|]. eapply number_ext; [|exact (A1 _ _ _ Hc Hu)]. intros x. symmetry. apply L1; assumption.
    + intros c' t Hc. rewrite times_given_snoc. destruct (same_str c c') as [<-|Hn]; [congruence|]. apply A2, Hc.
  - cbn [call_op] in *. change (t_remove_triples (heed_impl_c true)) with (heed_remove_triples true) in *.
    unfold heed_remove_triples in *. cbn [fst] in *.
    pose proof (remove_triples_tx_spec d c ts I) as SP.
    unfold heed_remove_triples_tx in *.
    rewrite sget_case in * by apply B. destruct (sg c (h_c2i d)) as [cid|] eqn:G; [|discriminate E].
    destruct (heed_remove_loop d cid ts) as [d'| |] eqn:El; [|discriminate E|discriminate E]. cbn [run_tx snd].
    assert (Hc2 : h_c2i d' = h_c2i d).
    { destruct (all_known_dec d ts) as [K|K]; [|destruct SP as [_ SP]; specialize (SP K); discriminate].
      destruct SP as [SP _]. destruct (SP K) as (d2 & Q & RM). injection Q as <-. apply RM. }
    split; rewrite Hc2.
    + intros c' cid' t Hc Hu. rewrite times_given_snoc. eapply number_ext; [|exact (A1 _ _ _ Hc Hu)]. intros x. symmetry.
      eapply remove_loop_rows; try eassumption; eapply u64_c2i; eassumption.
    + intros c' t Hc. rewrite times_given_snoc. apply A2, Hc.
Qed.

Notation lafter h := (after_f heed_impl_c heed_new h).
Notation lmeans h := (installed heed_impl_c heed_new h).

Lemma tally_reach h : tally (lafter h) (lmeans h).
Proof.
  induction h as [|[o b] h IH] using rev_ind; [split; [intros c cid t Hc; discriminate Hc|reflexivity]|].
  destruct (lstep h o b) as [[E1 E2]|(-> & E0 & E1 & E2)]; rewrite E1, E2 in *; [exact IH|].
  apply tally_step; [apply inv_reach|exact E0|exact IH].
Qed.

(** Lines of a triple, and rows of it. *)
Lemma by_ids_irrefl x : ~ by_ids x x.
Proof.
  destruct x as [[[f s] e] t]. cbn. intros H. inversion H as [|? ? ? ? L|? ? ? H1]; subst; [lia|].
  inversion H1 as [|? ? ? ? L|? ? ? H2]; subst; [lia|]. inversion H2 as [|? ? ? ? L|? ? ? H3]; subst; [lia|]. inversion H3.
Qed.

Lemma lines_number d cid l : StronglySorted by_ids l -> (forall x, In x l <-> row_shows d cid (h_cfst d) x) ->
  forall t, number (rows_of d cid t) (count_occ same_trip (map snd l) t).
Proof.
  intros S M t. pose proof (sorted_nodup _ _ by_ids_irrefl S) as D.
  set (p := fun x : N * N * N * trip => if same_trip (snd x) t then true else false).
  exists (map fst (filter p l)). split; [|split].
  - assert (G : forall x, In x (filter p l) -> snd x = t).
    { intros x Hx. apply filter_In in Hx as [_ Hx]. unfold p in Hx. destruct (same_trip (snd x) t); [assumption|discriminate]. }
    apply (NoDup_filter p) in D. induction D as [|x k Hx D IH]; [constructor|]. cbn. constructor; [|apply IH; intros y Hy; apply G; right; exact Hy].
    intros Hi. apply in_map_iff in Hi as (y & Ey & Hy). apply Hx. assert (y = x) as <-; [|exact Hy].
    pose proof (G x (or_introl eq_refl)). pose proof (G y (or_intror Hy)). destruct x, y; cbn in *. congruence.
  - intros [[f s] e]. rewrite in_map_iff. unfold rows_of. rewrite <- M. split.
    + intros ([x u] & <- & Hx). apply filter_In in Hx as [Hx Hp]. unfold p in Hp. cbn in Hp. destruct (same_trip u t) as [->|]; [exact Hx|discriminate].
    + intros Hx. exists (f, s, e, t). split; [reflexivity|]. apply filter_In. split; [exact Hx|]. unfold p. cbn. destruct (same_trip t t); [reflexivity|congruence].
  - rewrite map_length. clear. induction l as [|x l IH]; [reflexivity|]. cbn. unfold p at 1. destruct (same_trip (snd x) t); cbn; rewrite IH; reflexivity.
Qed.

Lemma storable_rows ko d cid t x : inv_b ko d -> (forall v, part v t -> storable v) -> rows_of d cid t x -> forall y, rows_of d cid t y <-> x = y.
Proof.
  intros B S Hx [[f s] e]. split; [|intros ->; exact Hx]. destruct x as [[f' s'] e']. destruct Hx as (_ & A1 & A2 & A3). intros (_ & B1 & B2 & B3).
  apply (iv_i2v _ _ B) in A1, A2, A3, B1, B2, B3; try (apply S; unfold part; auto). congruence.
Qed.
