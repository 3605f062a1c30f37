(** * LMDB store: invariant and effect of every call *)
From Coq Require Import List Arith NArith Bool Lia.
From Verif Require Import M_Base M_Data M_Heed S_Order P_Ord S_Store P_Hist S_Codec P_Codec S_Str.
Import ListNotations.
Open Scope list_scope.

Notation sg := (bm_get str_cmp).
Notation ng := (bm_get N.compare).

(** ** Key sizes *)

Lemma utf8_char_len c : N.of_nat (List.length (utf8_char c)) = utf8_len1 c.
Proof.
  unfold utf8_char, utf8_len1.
  destruct (c <? 128)%N; [reflexivity|]. destruct (c <? 2048)%N; [reflexivity|].
  destruct (c <? 65536)%N; reflexivity.
Qed.

Lemma utf8_len_eq s : N.of_nat (List.length (utf8 s)) = utf8_len s.
Proof.
  induction s as [|c s IH]; [reflexivity|]. cbn [utf8 flat_map utf8_len fold_right].
  rewrite app_length, Nat2N.inj_add, utf8_char_len. f_equal. exact IH.
Qed.

Lemma key_storable_iff k : key_storable k = true <-> storable k.
Proof.
  unfold key_storable, key_readable, storable. rewrite utf8_len_eq, <- (utf8_len_eq k).
  rewrite andb_true_iff, negb_true_iff, N.eqb_neq, N.leb_le. split; intros [H1 H2]; (split; [lia|exact H2]).
Qed.

Lemma storable_readable k : key_storable k = true -> key_readable k = true.
Proof. unfold key_storable. rewrite andb_true_iff. tauto. Qed.

Lemma storable_dec k : {storable k} + {~ storable k}.
Proof.
  destruct (key_storable k) eqn:E; [left|right]; rewrite <- key_storable_iff; congruence.
Qed.

Definition keys_ok {V} (t : list (str * V)) : Prop := forall k v, sg k t = Some v -> storable k.

(** On a table with storable keys, [get] finds what is there and nothing else. *)
Lemma sget_case {V B} (t : list (str * V)) k (f : V -> B) (e : B) : keys_ok t ->
  match sget t k with Ok (Some v) => f v | _ => e end
  = match sg k t with Some v => f v | None => e end.
Proof.
  intros H. unfold sget. destruct (key_readable k) eqn:E.
  - destruct (sg k t); reflexivity.
  - destruct (sg k t) eqn:G; [|reflexivity]. apply H, key_storable_iff, storable_readable in G. congruence.
Qed.

Lemma sget_some {V} (t : list (str * V)) k v : keys_ok t -> (sget t k = Ok (Some v) <-> sg k t = Some v).
Proof.
  intros H. unfold sget. destruct (key_readable k) eqn:E.
  - split; [intros G; injection G; auto|congruence].
  - split; [discriminate|]. intros G. apply H, key_storable_iff, storable_readable in G. congruence.
Qed.

Lemma sg_sput_same {V} (t : list (str * V)) k v : storable k -> sg k (sput t k v) = Some v.
Proof.
  intros H. unfold sput. rewrite (proj2 (key_storable_iff k) H). apply (bm_get_insert_same str_order).
Qed.

Lemma sg_sput_other {V} (t : list (str * V)) k v k' : k' <> k -> sg k' (sput t k v) = sg k' t.
Proof.
  intros H. unfold sput. destruct (key_storable k); [|reflexivity]. apply (bm_get_insert_other str_order), H.
Qed.

Lemma sput_unstorable {V} (t : list (str * V)) k v : ~ storable k -> sput t k v = t.
Proof.
  intros H. unfold sput. destruct (key_storable k) eqn:E; [|reflexivity].
  apply key_storable_iff in E. contradiction.
Qed.

Lemma is_map_sput {V} (t : list (str * V)) k v :
  is_map (lt := str_lt) t -> is_map (lt := str_lt) (sput t k v).
Proof. intros H. unfold sput. destruct (key_storable k); [apply (is_map_insert str_order), H|exact H]. Qed.

Lemma keys_ok_sput {V} (t : list (str * V)) k v : keys_ok t -> keys_ok (sput t k v).
Proof.
  intros H k' v' G. destruct (storable_dec k) as [Hk|Hk].
  - destruct (str_dec k' k) as [->|Hn]; [exact Hk|]. rewrite sg_sput_other in G by exact Hn. eauto.
  - rewrite sput_unstorable in G by exact Hk. eauto.
Qed.

(** ** The invariant *)

(** [n] is at most the counter. *)
Definition below (ko : option N) (n : N) : Prop := exists k, ko = Some k /\ (n <= k)%N.

(** A permuted index holds the permuted rows of the main index. *)
Definition index_ok (perm : N -> N -> N -> N -> list N) (tab main : list (list N)) : Prop :=
  forall r, In r tab <->
            exists c f s t, is_u64 c /\ is_u64 f /\ is_u64 s /\ is_u64 t
                            /\ r = perm c f s t /\ In (enc c f s t) main.

Record inv_b (ko : option N) (d : heed) : Prop := {
  iv_ko : forall k, ko = Some k -> is_u64 k;
  iv_c2i_map : is_map (lt := str_lt) (h_c2i d);
  iv_i2c_map : is_map (lt := N.lt) (h_i2c d);
  iv_v2i_map : is_map (lt := str_lt) (h_v2i d);
  iv_i2v_map : is_map (lt := N.lt) (h_i2v d);
  iv_c2i_key : keys_ok (h_c2i d);
  iv_v2i_key : keys_ok (h_v2i d);
  iv_c2i : forall c i, sg c (h_c2i d) = Some i -> ng i (h_i2c d) = Some c;
  iv_i2c_le : forall i c, ng i (h_i2c d) = Some c -> below ko i;
  iv_v2i : forall v i, sg v (h_v2i d) = Some i -> ng i (h_i2v d) = Some v;
  iv_i2v_le : forall i v, ng i (h_i2v d) = Some v -> below ko i;
  iv_i2v : forall i v, ng i (h_i2v d) = Some v -> storable v -> sg v (h_v2i d) = Some i;
  iv_cfst_set : is_set bytes_lt (h_cfst d);
  iv_cfts_set : is_set bytes_lt (h_cfts d);
  iv_csft_set : is_set bytes_lt (h_csft d);
  iv_cstf_set : is_set bytes_lt (h_cstf d);
  iv_ctfs_set : is_set bytes_lt (h_ctfs d);
  iv_ctsf_set : is_set bytes_lt (h_ctsf d);
  iv_cfst : forall r, In r (h_cfst d) ->
      exists c f s t a b e, r = enc c f s t /\ below ko c
        /\ ng f (h_i2v d) = Some a /\ ng s (h_i2v d) = Some b /\ ng t (h_i2v d) = Some e;
  iv_cfts : index_ok (fun c f s t => enc c f t s) (h_cfts d) (h_cfst d);
  iv_csft : index_ok (fun c f s t => enc c s f t) (h_csft d) (h_cfst d);
  iv_cstf : index_ok (fun c f s t => enc c s t f) (h_cstf d) (h_cfst d);
  iv_ctfs : index_ok (fun c f s t => enc c t f s) (h_ctfs d) (h_cfst d);
  iv_ctsf : index_ok (fun c f s t => enc c t s f) (h_ctsf d) (h_cfst d)
}.

(** The persistent counter. *)
Definition counter (d : heed) : option N := sg id_key (h_ids d).

Record inv (d : heed) : Prop := {
  iv_ids_map : is_map (lt := str_lt) (h_ids d);
  iv_ids_key : keys_ok (h_ids d);
  iv_b : inv_b (counter d) d
}.

Lemma id_key_storable : storable id_key.
Proof. apply key_storable_iff. reflexivity. Qed.

Lemma inv_new : inv heed_new.
Proof.
  split; [constructor|intros k v H; discriminate H|].
  split; try (constructor; fail); try (intros; discriminate); try (intros ? []; fail);
    try (intros k v H; discriminate H);
    try (intros r; split; [intros []|intros (c & f & s & t & _ & _ & _ & _ & _ & [])]).
Qed.

(** What a collection id shows. *)
Definition vrow (d : heed) (cid : N) (t : trip) : Prop :=
  exists f s e, In (enc cid f s e) (h_cfst d)
    /\ ng f (h_i2v d) = Some (t0 t) /\ ng s (h_i2v d) = Some (t1 t) /\ ng e (h_i2v d) = Some (t2 t).

Lemma u64_below ko d n : inv_b ko d -> below ko n -> is_u64 n.
Proof. intros I (k & -> & H). pose proof (iv_ko _ _ I k eq_refl). unfold is_u64 in *. lia. Qed.

Lemma below_mono k k' n : (k <= k')%N -> below (Some k) n -> below (Some k') n.
Proof. intros H (x & E & Hx). injection E as <-. exists k'. split; [reflexivity|lia]. Qed.

(** ** Reading *)

Lemma triples_loop_spec d ko cid : inv_b ko d -> is_u64 cid ->
  forall rows acc, (forall r, In r rows -> In r (h_cfst d)) ->
  exists l, heed_triples_loop d cid rows acc = Ok l
    /\ (is_set trip_lt acc -> is_set trip_lt l)
    /\ (forall t, In t l <-> In t acc \/
          exists f s e, In (enc cid f s e) rows
            /\ ng f (h_i2v d) = Some (t0 t) /\ ng s (h_i2v d) = Some (t1 t) /\ ng e (h_i2v d) = Some (t2 t)).
Proof.
  intros I Hcid. induction rows as [|r rows IH]; intros acc Hsub.
  - exists acc. split; [reflexivity|]. split; [auto|]. intros t. split; [auto|].
    intros [H|(f & s & e & [] & _)]. exact H.
  - destruct (iv_cfst _ _ I r (Hsub r (or_introl eq_refl))) as (c & f & s & e & a & b & x & -> & Hc & Ha & Hb & Hx).
    assert (Uc : is_u64 c) by (eapply u64_below; eassumption).
    assert (Uf : is_u64 f) by (eapply u64_below, (iv_i2v_le _ _ I); eassumption).
    assert (Us : is_u64 s) by (eapply u64_below, (iv_i2v_le _ _ I); eassumption).
    assert (Ue : is_u64 e) by (eapply u64_below, (iv_i2v_le _ _ I); eassumption).
    cbn [heed_triples_loop]. rewrite decode_enc by assumption. unfold nget.
    destruct (N.eqb_spec cid c) as [<-|Hn].
    + rewrite Ha, Hb, Hx. destruct (IH (bs_insert trip_cmp (Trip a b x) acc)) as (l & E & Hs & Hl).
      { intros r Hr. apply Hsub. right; exact Hr. }
      exists l. split; [exact E|]. split; [intros H; apply Hs, (is_set_insert trip_order), H|].
      intros t. rewrite Hl, (in_bs_insert trip_order). split.
      * intros [[->|H]|(f' & s' & e' & Hi & H1 & H2 & H3)]; [|auto|].
        -- right. exists f, s, e. split; [left; reflexivity|]. auto.
        -- right. exists f', s', e'. split; [right; exact Hi|]. auto.
      * intros [H|(f' & s' & e' & [Hi|Hi] & H1 & H2 & H3)]; [auto| |].
        -- left. left. apply enc_inj in Hi; try assumption;
             [|eapply u64_below, (iv_i2v_le _ _ I); eassumption..].
           destruct Hi as (_ & -> & -> & ->). destruct t; simpl in *. congruence.
        -- right. exists f', s', e'. auto.
    + destruct (IH acc) as (l & E & Hs & Hl).
      { intros r Hr. apply Hsub. right; exact Hr. }
      exists l. split; [exact E|]. split; [exact Hs|]. intros t. rewrite Hl. split.
      * intros [H|(f' & s' & e' & Hi & H)]; [auto|]. right. exists f', s', e'. split; [right; exact Hi|exact H].
      * intros [H|(f' & s' & e' & [Hi|Hi] & H1 & H2 & H3)]; [auto| |].
        -- exfalso. apply Hn. apply enc_inj in Hi; try assumption;
             [|eapply u64_below, (iv_i2v_le _ _ I); eassumption..]. destruct Hi; congruence.
        -- right. exists f', s', e'. auto.
Qed.

Lemma c2i_below ko d c i : inv_b ko d -> sg c (h_c2i d) = Some i -> below ko i.
Proof. intros I H. eapply (iv_i2c_le _ _ I), (iv_c2i _ _ I), H. Qed.

Lemma heed_triples_spec d c : inv d ->
  match sg c (h_c2i d) with
  | Some cid => exists l, heed_triples d c = Ok l /\ is_set trip_lt l /\ (forall t, In t l <-> vrow d cid t)
  | None => heed_triples d c = Panic PTodo
  end.
Proof.
  intros [_ _ I]. unfold heed_triples. rewrite sget_case by apply (iv_c2i_key _ _ I).
  destruct (sg c (h_c2i d)) as [cid|] eqn:E; [|reflexivity].
  assert (U : is_u64 cid) by (eapply u64_below, c2i_below; eassumption).
  destruct (triples_loop_spec d _ cid I U (h_cfst d) [] (fun r H => H)) as (l & El & Hs & Hl).
  exists l. split; [exact El|]. split; [apply Hs; constructor|].
  intros t. rewrite Hl. unfold vrow. simpl. intuition.
Qed.

(** ** add_collection, remove_collection *)

Lemma inv_b_weaken ko ko' d : inv_b ko d -> (forall n, below ko n -> below ko' n) ->
  (forall k, ko' = Some k -> is_u64 k) -> inv_b ko' d.
Proof.
  intros I Hb Hk. destruct I. split; eauto.
  intros r Hr. destruct (iv_cfst0 r Hr) as (c & f & s & t & a & b & e & -> & Hc & H). eauto 12.
Qed.

(** Changing only the collection tables. *)
Lemma inv_b_colls ko d ids c2i i2c :
  inv_b ko d ->
  is_map (lt := str_lt) c2i -> is_map (lt := N.lt) i2c -> keys_ok c2i ->
  (forall c i, sg c c2i = Some i -> ng i i2c = Some c) ->
  (forall i c, ng i i2c = Some c -> below ko i) ->
  inv_b ko (Heed ids c2i i2c (h_v2i d) (h_i2v d) (h_cfst d) (h_cfts d) (h_csft d) (h_cstf d) (h_ctfs d) (h_ctsf d)).
Proof. intros I. intros. destruct I. split; simpl; assumption. Qed.

Definition alloc_ok (d : heed) : Prop := forall k, counter d = Some k -> (k < u64_max)%N.

Lemma u64_max_u64 k : (k < u64_max)%N -> is_u64 (k + 1).
Proof. unfold u64_max, is_u64. change (2 ^ 64)%N with 18446744073709551616%N. lia. Qed.

Lemma is_u64_le k : is_u64 k <-> (k <= u64_max)%N.
Proof. unfold u64_max, is_u64. change (2 ^ 64)%N with 18446744073709551616%N. lia. Qed.

Definition next_counter (d : heed) : N := match counter d with Some k => (k + 1)%N | None => 0%N end.

Lemma counter_sput d v c2i i2c v2i i2v t1 t2 t3 t4 t5 t6 :
  counter (Heed (sput (h_ids d) id_key v) c2i i2c v2i i2v t1 t2 t3 t4 t5 t6) = Some v.
Proof. apply sg_sput_same, id_key_storable. Qed.

Lemma next_collection_id_spec d : inv d ->
  (alloc_ok d ->
   next_collection_id d = Ok (next_counter d,
      Heed (sput (h_ids d) id_key (next_counter d)) (h_c2i d) (h_i2c d) (h_v2i d) (h_i2v d)
                (h_cfst d) (h_cfts d) (h_csft d) (h_cstf d) (h_ctfs d) (h_ctsf d)))
  /\ (~ alloc_ok d -> next_collection_id d = Panic POverflow).
Proof.
  intros I. unfold next_collection_id, alloc_ok, next_counter, counter, sget.
  change (key_readable id_key) with true. cbn iota.
  destruct (sg id_key (h_ids d)) as [k|] eqn:E.
  - unfold u64_add1. destruct (N.ltb_spec k u64_max) as [H|H]; (split; intros HA; [|try reflexivity]).
    + reflexivity.
    + exfalso. apply HA. intros k' E'. injection E' as <-. exact H.
    + specialize (HA k eq_refl). lia.
  - split; [reflexivity|]. intros HA. exfalso. apply HA. intros k E'. discriminate.
Qed.

Lemma alloc_ok_dec d : {alloc_ok d} + {~ alloc_ok d}.
Proof.
  unfold alloc_ok. destruct (counter d) as [k|].
  - destruct (N.ltb k u64_max) eqn:E.
    + left. apply N.ltb_lt in E. intros k' H. injection H as <-. exact E.
    + right. apply N.ltb_ge in E. intros H. specialize (H k eq_refl). lia.
  - left. intros k H. discriminate.
Qed.

Lemma next_counter_fresh d n : inv d -> below (counter d) n -> n <> next_counter d /\ (n < next_counter d)%N.
Proof. intros I (k & E & H). unfold next_counter. rewrite E. lia. Qed.

Lemma below_next d n : below (counter d) n -> below (Some (next_counter d)) n.
Proof. intros (k & E & H). unfold next_counter. rewrite E. exists (k + 1)%N. split; [reflexivity|lia]. Qed.

(** The store after a successful add_collection of an absent name. *)
Definition with_coll (d : heed) (c : str) : heed :=
  Heed (sput (h_ids d) id_key (next_counter d)) (sput (h_c2i d) c (next_counter d))
    (nput (h_i2c d) (next_counter d) c) (h_v2i d) (h_i2v d)
    (h_cfst d) (h_cfts d) (h_csft d) (h_cstf d) (h_ctfs d) (h_ctsf d).

Lemma add_collection_tx_spec d c : inv d ->
  heed_add_collection_tx d c =
  match sg c (h_c2i d) with
  | Some _ => TAbort (Ok tt)
  | None => if alloc_ok_dec d then TCommit (Ok tt) (with_coll d c) else TAbort (Panic POverflow)
  end.
Proof.
  intros I. unfold heed_add_collection_tx.
  rewrite sget_case by apply (iv_c2i_key _ _ (iv_b _ I)).
  destruct (sg c (h_c2i d)); [reflexivity|].
  destruct (next_collection_id_spec d I) as [H1 H2]. destruct (alloc_ok_dec d) as [H|H].
  - rewrite (H1 H). reflexivity.
  - rewrite (H2 H). reflexivity.
Qed.

Lemma with_coll_inv d c : inv d -> alloc_ok d -> sg c (h_c2i d) = None -> inv (with_coll d c).
Proof.
  intros I HA HN. pose proof (iv_b _ I) as B.
  assert (Hu : is_u64 (next_counter d)).
  { unfold next_counter. destruct (counter d) as [k|] eqn:E; [apply u64_max_u64, HA, E|reflexivity]. }
  split.
  - apply is_map_sput, I.
  - apply keys_ok_sput, I.
  - unfold with_coll. rewrite counter_sput.
    apply inv_b_colls.
    + eapply inv_b_weaken; [exact B|apply below_next|]. intros k E. injection E as <-. exact Hu.
    + apply is_map_sput, B.
    + apply (is_map_insert N_order), B.
    + apply keys_ok_sput, B.
    + intros c' i. unfold nput. destruct (storable_dec c) as [Hs|Hs].
      * destruct (str_dec c' c) as [->|Hn].
        -- rewrite sg_sput_same by exact Hs. intros E. injection E as <-. apply (bm_get_insert_same N_order).
        -- rewrite sg_sput_other by exact Hn. intros E. rewrite (bm_get_insert_other N_order).
           ++ apply (iv_c2i _ _ B), E.
           ++ intros ->. eapply (next_counter_fresh d (next_counter d) I); [eapply c2i_below; eassumption|reflexivity].
      * rewrite sput_unstorable by exact Hs. intros E. rewrite (bm_get_insert_other N_order).
        -- apply (iv_c2i _ _ B), E.
        -- intros ->. eapply (next_counter_fresh d (next_counter d) I); [eapply c2i_below; eassumption|reflexivity].
    + intros i c' . unfold nput. destruct (N.eq_dec i (next_counter d)) as [->|Hn].
      * intros _. exists (next_counter d). split; [reflexivity|lia].
      * rewrite (bm_get_insert_other N_order) by exact Hn. intros E. apply below_next, (iv_i2c_le _ _ B _ _ E).
Qed.

Lemma with_coll_get d c c' : inv d -> sg c (h_c2i d) = None ->
  sg c' (h_c2i (with_coll d c)) = if str_dec c' c then (if storable_dec c then Some (next_counter d) else None)
                                  else sg c' (h_c2i d).
Proof.
  intros I HN. simpl. destruct (str_dec c' c) as [->|Hn].
  - destruct (storable_dec c); [apply sg_sput_same; assumption|rewrite sput_unstorable by assumption; exact HN].
  - apply sg_sput_other, Hn.
Qed.

Lemma fresh_vrow d t : inv d -> alloc_ok d -> ~ vrow d (next_counter d) t.
Proof.
  intros I HA (f & s & e & Hi & H1 & H2 & H3). pose proof (iv_b _ I) as B.
  destruct (iv_cfst _ _ B _ Hi) as (c & f' & s' & e' & a & b & x & E & Hc & Ha & Hb & Hx).
  assert (Hu : is_u64 (next_counter d)).
  { unfold next_counter. destruct (counter d) as [k|] eqn:E'; [apply u64_max_u64, HA, E'|reflexivity]. }
  apply enc_inj in E; try (eapply u64_below; [exact B|]; first [eapply (iv_i2v_le _ _ B); eassumption|assumption]); [|exact Hu].
  destruct E as (E & _). subst c. eapply (next_counter_fresh d (next_counter d) I Hc); reflexivity.
Qed.

(** remove_collection *)
Definition without_coll (d : heed) (c : str) (i : N) : heed :=
  Heed (h_ids d) (sdel (h_c2i d) c) (ndel (h_i2c d) i) (h_v2i d) (h_i2v d)
       (h_cfst d) (h_cfts d) (h_csft d) (h_cstf d) (h_ctfs d) (h_ctsf d).

Lemma remove_collection_tx_spec d c : inv d ->
  heed_remove_collection_tx d c =
  match sg c (h_c2i d) with
  | Some i => TCommit (Ok tt) (without_coll d c i)
  | None => TAbort (Panic PTodo)
  end.
Proof.
  intros I. unfold heed_remove_collection_tx. rewrite sget_case by apply (iv_c2i_key _ _ (iv_b _ I)). reflexivity.
Qed.

Lemma without_coll_get d c i c' : inv d -> sg c (h_c2i d) = Some i ->
  sg c' (h_c2i (without_coll d c i)) = if str_dec c' c then None else sg c' (h_c2i d).
Proof.
  intros I HS. simpl. unfold sdel.
  pose proof (iv_c2i_key _ _ (iv_b _ I) _ _ HS) as Hk. apply key_storable_iff, storable_readable in Hk. rewrite Hk.
  destruct (str_dec c' c) as [->|Hn].
  - apply (bm_get_remove_same str_order), (iv_b _ I).
  - apply (bm_get_remove_other str_order), Hn.
Qed.

Lemma without_coll_inv d c i : inv d -> sg c (h_c2i d) = Some i -> inv (without_coll d c i).
Proof.
  intros I HS. pose proof (iv_b _ I) as B. pose proof (fun c' => without_coll_get d c i c' I HS) as HG. simpl in HG.
  split; [apply I|apply I|].
  change (counter (without_coll d c i)) with (counter d). apply inv_b_colls.
  - exact B.
  - unfold sdel. destruct (key_readable c); [apply (is_map_remove str_order), B|apply B].
  - apply (is_map_remove N_order), B.
  - intros c' i' H. rewrite HG in H. destruct (str_dec c' c); [discriminate|]. eapply (iv_c2i_key _ _ B), H.
  - intros c' i' H. rewrite HG in H. destruct (str_dec c' c) as [|Hn]; [discriminate|].
    unfold ndel. rewrite (bm_get_remove_other N_order); [apply (iv_c2i _ _ B), H|].
    intros ->. apply (iv_c2i _ _ B) in H, HS. congruence.
  - intros i' c' H. destruct (N.eq_dec i' i) as [->|Hn].
    + unfold ndel in H. rewrite (bm_get_remove_same N_order) in H by apply B. discriminate.
    + unfold ndel in H. rewrite (bm_get_remove_other N_order) in H by exact Hn. eapply (iv_i2c_le _ _ B), H.
Qed.

(** ** Dictionary *)

(** [d'] has all the dictionary entries of [d] and the same other tables. *)
Record extends_dict (d d' : heed) : Prop := {
  xd_i2v : forall i v, ng i (h_i2v d) = Some v -> ng i (h_i2v d') = Some v;
  xd_v2i : forall v i, sg v (h_v2i d) = Some i -> sg v (h_v2i d') = Some i;
  xd_ids : h_ids d' = h_ids d;
  xd_c2i : h_c2i d' = h_c2i d;
  xd_i2c : h_i2c d' = h_i2c d;
  xd_1 : h_cfst d' = h_cfst d; xd_2 : h_cfts d' = h_cfts d; xd_3 : h_csft d' = h_csft d;
  xd_4 : h_cstf d' = h_cstf d; xd_5 : h_ctfs d' = h_ctfs d; xd_6 : h_ctsf d' = h_ctsf d
}.

Lemma extends_dict_refl d : extends_dict d d.
Proof. split; auto. Qed.

Lemma extends_dict_trans a b c : extends_dict a b -> extends_dict b c -> extends_dict a c.
Proof. intros [] []. split; eauto; congruence. Qed.

Lemma intern_spec d k v : inv_b (Some k) d ->
  (exists id k' d', intern d k v = Ok (id, k', d')
     /\ inv_b (Some k') d' /\ extends_dict d d' /\ ng id (h_i2v d') = Some v
     /\ (k <= k')%N /\ (k' <= k + 1)%N
     /\ (storable v -> sg v (h_v2i d') = Some id)
     /\ (forall w i, sg w (h_v2i d') = Some i -> sg w (h_v2i d) = Some i \/ w = v))
  \/ (intern d k v = Panic POverflow /\ (u64_max <= k)%N).
Proof.
  intros B. unfold intern. rewrite sget_case by apply (iv_v2i_key _ _ B).
  destruct (sg v (h_v2i d)) as [id|] eqn:E.
  - left. exists id, k, d. split; [reflexivity|]. split; [exact B|]. split; [apply extends_dict_refl|].
    split; [apply (iv_v2i _ _ B), E|]. split; [lia|]. split; [lia|]. auto.
  - unfold u64_add1. destruct (N.ltb_spec k u64_max) as [H|H]; [left|right; auto].
    set (k' := (k + 1)%N). set (d' := Heed _ _ _ _ _ _ _ _ _ _ _).
    assert (Hfresh : forall i w, ng i (h_i2v d) = Some w -> i <> k').
    { intros i w Hi ->. destruct (iv_i2v_le _ _ B _ _ Hi) as (x & Ex & Hx). injection Ex as <-. unfold k' in Hx. lia. }
    assert (Hnew : ng k' (h_i2v d') = Some v) by apply (bm_get_insert_same N_order).
    assert (Hold : forall i, i <> k' -> ng i (h_i2v d') = ng i (h_i2v d)).
    { intros i Hi. apply (bm_get_insert_other N_order), Hi. }
    assert (X : extends_dict d d').
    { split; try reflexivity.
      - intros i w Hi. rewrite Hold by eauto. exact Hi.
      - intros w i Hw. unfold d'. simpl. rewrite sg_sput_other; [exact Hw|]. intros ->. congruence. }
    exists k', k', d'. split; [reflexivity|]. split; [|split; [exact X|split; [exact Hnew|]]].
    + split; try apply B; simpl.
      * intros x Ex. injection Ex as <-. apply u64_max_u64, H.
      * apply is_map_sput, B.
      * apply (is_map_insert N_order), B.
      * apply keys_ok_sput, B.
      * intros i c Hi. eapply below_mono; [|eapply (iv_i2c_le _ _ B), Hi]. unfold k'; lia.
      * intros w i Hw. change (nput (h_i2v d) k' v) with (h_i2v d').
        destruct (str_dec w v) as [->|Hn].
        -- destruct (storable_dec v) as [Hs|Hs].
           ++ rewrite sg_sput_same in Hw by exact Hs. injection Hw as <-. exact Hnew.
           ++ rewrite sput_unstorable in Hw by exact Hs. congruence.
        -- rewrite sg_sput_other in Hw by exact Hn. apply (iv_v2i _ _ B) in Hw. rewrite Hold by eauto. exact Hw.
      * intros i w Hi. change (nput (h_i2v d) k' v) with (h_i2v d') in Hi.
        destruct (N.eq_dec i k') as [->|Hn].
        -- exists k'. split; [reflexivity|lia].
        -- rewrite Hold in Hi by exact Hn. eapply below_mono; [|eapply (iv_i2v_le _ _ B), Hi]. unfold k'; lia.
      * intros i w Hi Hs. change (nput (h_i2v d) k' v) with (h_i2v d') in Hi.
        destruct (N.eq_dec i k') as [->|Hn].
        -- assert (w = v) as -> by congruence. apply sg_sput_same, Hs.
        -- rewrite Hold in Hi by exact Hn. apply (iv_i2v _ _ B) in Hi; [|exact Hs].
           rewrite sg_sput_other; [exact Hi|]. intros ->. congruence.
      * intros r Hr. destruct (iv_cfst _ _ B r Hr) as (c & f & s & t & a & b & e & -> & Hc & Ha & Hb & He).
        exists c, f, s, t, a, b, e. split; [reflexivity|].
        split; [eapply below_mono; [|exact Hc]; unfold k'; lia|].
        split; [apply (xd_i2v _ _ X), Ha|split; [apply (xd_i2v _ _ X), Hb|apply (xd_i2v _ _ X), He]].
    + split; [unfold k'; lia|]. split; [unfold k'; lia|]. split.
      * intros Hs. apply sg_sput_same, Hs.
      * intros w i Hw. destruct (str_dec w v) as [->|Hn]; [auto|]. left.
        unfold d' in Hw. simpl in Hw. rewrite sg_sput_other in Hw by exact Hn. exact Hw.
Qed.

(** ** Rows *)

Lemma in_rput r x t : In r (rput t x) <-> r = x \/ In r t.
Proof. apply (in_bs_insert bytes_order). Qed.

Lemma in_rdel r x t : is_set bytes_lt t -> (In r (rdel t x) <-> In r t /\ r <> x).
Proof. apply (in_bs_remove bytes_order). Qed.

Definition perm_inj (perm : N -> N -> N -> N -> list N) : Prop :=
  forall c f s t c' f' s' t',
    is_u64 c -> is_u64 f -> is_u64 s -> is_u64 t -> is_u64 c' -> is_u64 f' -> is_u64 s' -> is_u64 t' ->
    perm c f s t = perm c' f' s' t' -> c = c' /\ f = f' /\ s = s' /\ t = t'.

Lemma perm_inj_enc : perm_inj enc.
Proof. intros c f s t c' f' s' t' ? ? ? ? ? ? ? ? E. apply enc_inj in E; assumption. Qed.

Lemma perm_inj_fts : perm_inj (fun c f s t => enc c f t s).
Proof. intros c f s t c' f' s' t' ? ? ? ? ? ? ? ? E. apply enc_inj in E; tauto. Qed.
Lemma perm_inj_sft : perm_inj (fun c f s t => enc c s f t).
Proof. intros c f s t c' f' s' t' ? ? ? ? ? ? ? ? E. apply enc_inj in E; tauto. Qed.
Lemma perm_inj_stf : perm_inj (fun c f s t => enc c s t f).
Proof. intros c f s t c' f' s' t' ? ? ? ? ? ? ? ? E. apply enc_inj in E; tauto. Qed.
Lemma perm_inj_tfs : perm_inj (fun c f s t => enc c t f s).
Proof. intros c f s t c' f' s' t' ? ? ? ? ? ? ? ? E. apply enc_inj in E; tauto. Qed.
Lemma perm_inj_tsf : perm_inj (fun c f s t => enc c t s f).
Proof. intros c f s t c' f' s' t' ? ? ? ? ? ? ? ? E. apply enc_inj in E; tauto. Qed.

Lemma index_ok_put perm tab main c f s t : perm_inj perm ->
  is_u64 c -> is_u64 f -> is_u64 s -> is_u64 t ->
  index_ok perm tab main -> index_ok perm (rput tab (perm c f s t)) (rput main (enc c f s t)).
Proof.
  intros PI Uc Uf Us Ut H r. rewrite in_rput, (H r). split.
  - intros [->|(c' & f' & s' & t' & ? & ? & ? & ? & -> & Hi)].
    + exists c, f, s, t. rewrite in_rput. auto 10.
    + exists c', f', s', t'. rewrite in_rput. auto 10.
  - intros (c' & f' & s' & t' & ? & ? & ? & ? & -> & Hi). apply in_rput in Hi as [E|Hi].
    + apply enc_inj in E; try assumption. destruct E as (-> & -> & -> & ->). auto.
    + right. exists c', f', s', t'. auto 10.
Qed.

Lemma index_ok_del perm tab main c f s t : perm_inj perm -> is_set bytes_lt tab -> is_set bytes_lt main ->
  is_u64 c -> is_u64 f -> is_u64 s -> is_u64 t ->
  index_ok perm tab main -> index_ok perm (rdel tab (perm c f s t)) (rdel main (enc c f s t)).
Proof.
  intros PI St Sm Uc Uf Us Ut H r. rewrite in_rdel, (H r) by exact St. split.
  - intros [(c' & f' & s' & t' & ? & ? & ? & ? & -> & Hi) Hn].
    exists c', f', s', t'. rewrite in_rdel by exact Sm. repeat split; auto.
    intros E. apply Hn. apply enc_inj in E; try assumption. destruct E as (-> & -> & -> & ->). reflexivity.
  - intros (c' & f' & s' & t' & ? & ? & ? & ? & -> & Hi). apply in_rdel in Hi as [Hi Hn]; [|exact Sm].
    split; [exists c', f', s', t'; auto 10|]. intros E. apply Hn.
    apply PI in E; try assumption. destruct E as (-> & -> & -> & ->). reflexivity.
Qed.

(** Adding and removing one row in all six tables. *)
Definition with_row (d : heed) (ids : list (str * N)) (c f s t : N) : heed :=
  Heed ids (h_c2i d) (h_i2c d) (h_v2i d) (h_i2v d)
    (rput (h_cfst d) (enc c f s t)) (rput (h_cfts d) (enc c f t s)) (rput (h_csft d) (enc c s f t))
    (rput (h_cstf d) (enc c s t f)) (rput (h_ctfs d) (enc c t f s)) (rput (h_ctsf d) (enc c t s f)).

Definition without_row (d : heed) (c f s t : N) : heed :=
  Heed (h_ids d) (h_c2i d) (h_i2c d) (h_v2i d) (h_i2v d)
    (rdel (h_cfst d) (enc c f s t)) (rdel (h_cfts d) (enc c f t s)) (rdel (h_csft d) (enc c s f t))
    (rdel (h_cstf d) (enc c s t f)) (rdel (h_ctfs d) (enc c t f s)) (rdel (h_ctsf d) (enc c t s f)).

Lemma with_row_inv ko d ids c f s t a b e : inv_b ko d -> below ko c ->
  ng f (h_i2v d) = Some a -> ng s (h_i2v d) = Some b -> ng t (h_i2v d) = Some e ->
  inv_b ko (with_row d ids c f s t).
Proof.
  intros B Hc Ha Hb He.
  assert (Uc : is_u64 c) by (eapply u64_below; eassumption).
  assert (Uf : is_u64 f) by (eapply u64_below, (iv_i2v_le _ _ B); eassumption).
  assert (Us : is_u64 s) by (eapply u64_below, (iv_i2v_le _ _ B); eassumption).
  assert (Ut : is_u64 t) by (eapply u64_below, (iv_i2v_le _ _ B); eassumption).
  split; simpl; try apply B; try (apply (is_set_insert bytes_order), B).
  - intros r Hr. apply in_rput in Hr as [->|Hr]; [|apply (iv_cfst _ _ B), Hr].
    exists c, f, s, t, a, b, e. auto 10.
  - apply (index_ok_put (fun c f s t => enc c f t s)); try assumption; [apply perm_inj_fts|apply B].
  - apply (index_ok_put (fun c f s t => enc c s f t)); try assumption; [apply perm_inj_sft|apply B].
  - apply (index_ok_put (fun c f s t => enc c s t f)); try assumption; [apply perm_inj_stf|apply B].
  - apply (index_ok_put (fun c f s t => enc c t f s)); try assumption; [apply perm_inj_tfs|apply B].
  - apply (index_ok_put (fun c f s t => enc c t s f)); try assumption; [apply perm_inj_tsf|apply B].
Qed.

Lemma without_row_inv ko d c f s t : inv_b ko d -> is_u64 c -> is_u64 f -> is_u64 s -> is_u64 t ->
  inv_b ko (without_row d c f s t).
Proof.
  intros B Uc Uf Us Ut.
  split; simpl; try apply B; try (apply (is_set_remove bytes_order), B).
  - intros r Hr. apply in_rdel in Hr as [Hr _]; [|apply B]. apply (iv_cfst _ _ B), Hr.
  - apply (index_ok_del (fun c f s t => enc c f t s)); try assumption; [apply perm_inj_fts|apply B..].
  - apply (index_ok_del (fun c f s t => enc c s f t)); try assumption; [apply perm_inj_sft|apply B..].
  - apply (index_ok_del (fun c f s t => enc c s t f)); try assumption; [apply perm_inj_stf|apply B..].
  - apply (index_ok_del (fun c f s t => enc c t f s)); try assumption; [apply perm_inj_tfs|apply B..].
  - apply (index_ok_del (fun c f s t => enc c t s f)); try assumption; [apply perm_inj_tsf|apply B..].
Qed.

Lemma with_row_vrow ko d ids c f s t tr c' t' : inv_b ko d -> below ko c -> is_u64 c' ->
  ng f (h_i2v d) = Some (t0 tr) -> ng s (h_i2v d) = Some (t1 tr) -> ng t (h_i2v d) = Some (t2 tr) ->
  (vrow (with_row d ids c f s t) c' t' <-> vrow d c' t' \/ (c' = c /\ t' = tr)).
Proof.
  intros B Hc Uc' Ha Hb He.
  assert (Uc : is_u64 c) by (eapply u64_below; eassumption).
  assert (Uf : is_u64 f) by (eapply u64_below, (iv_i2v_le _ _ B); eassumption).
  assert (Us : is_u64 s) by (eapply u64_below, (iv_i2v_le _ _ B); eassumption).
  assert (Ut : is_u64 t) by (eapply u64_below, (iv_i2v_le _ _ B); eassumption).
  unfold vrow. simpl. split.
  - intros (f' & s' & e' & Hi & H1 & H2 & H3). apply in_rput in Hi as [E|Hi].
    + right. apply enc_inj in E; try assumption; [|eapply u64_below, (iv_i2v_le _ _ B); eassumption..].
      destruct E as (-> & -> & -> & ->). split; [reflexivity|]. destruct t', tr; simpl in *. congruence.
    + left. exists f', s', e'. auto.
  - intros [(f' & s' & e' & Hi & H)|[-> ->]].
    + exists f', s', e'. rewrite in_rput. auto.
    + exists f, s, t. rewrite in_rput. auto.
Qed.

(** Extending the dictionary does not change what existing rows show. *)
Lemma extends_dict_vrow ko d d' c t : inv_b ko d -> (exists ko', inv_b ko' d') -> is_u64 c -> extends_dict d d' ->
  (vrow d' c t <-> vrow d c t).
Proof.
  intros B [ko' B'] Uc X. unfold vrow. rewrite (xd_1 _ _ X). split.
  - intros (f & s & e & Hi & H1 & H2 & H3).
    destruct (iv_cfst _ _ B _ Hi) as (c' & f' & s' & e' & a & b & x & E & Hc & Ha & Hb & Hx).
    apply enc_inj in E; try assumption;
      [|eapply u64_below; [exact B'|]; eapply (iv_i2v_le _ _ B'); eassumption
       |eapply u64_below; [exact B'|]; eapply (iv_i2v_le _ _ B'); eassumption
       |eapply u64_below; [exact B'|]; eapply (iv_i2v_le _ _ B'); eassumption
       |eapply u64_below; [exact B|exact Hc]
       |eapply u64_below; [exact B|]; eapply (iv_i2v_le _ _ B); eassumption
       |eapply u64_below; [exact B|]; eapply (iv_i2v_le _ _ B); eassumption
       |eapply u64_below; [exact B|]; eapply (iv_i2v_le _ _ B); eassumption].
    destruct E as (<- & <- & <- & <-).
    pose proof (xd_i2v _ _ X _ _ Ha). pose proof (xd_i2v _ _ X _ _ Hb). pose proof (xd_i2v _ _ X _ _ Hx).
    exists f, s, e. split; [exact Hi|]. split; [congruence|]. split; congruence.
  - intros (f & s & e & Hi & H1 & H2 & H3). exists f, s, e. split; [exact Hi|].
    split; [|split]; apply (xd_i2v _ _ X); assumption.
Qed.

(** ** add_triples *)

Record added_to (d d' : heed) (cid : N) (ts : list trip) : Prop := {
  ad_inv : inv d';
  ad_c2i : h_c2i d' = h_c2i d;
  ad_i2c : h_i2c d' = h_i2c d;
  ad_vrow : forall c t, is_u64 c -> (vrow d' c t <-> vrow d c t \/ (c = cid /\ In t ts));
  ad_v2i_old : forall v i, sg v (h_v2i d) = Some i -> sg v (h_v2i d') = Some i;
  ad_i2v_old : forall i v, ng i (h_i2v d) = Some v -> ng i (h_i2v d') = Some v;
  ad_v2i_new : forall v, part_of v ts -> storable v -> exists i, sg v (h_v2i d') = Some i;
  ad_v2i_only : forall v i, sg v (h_v2i d') = Some i -> (exists j, sg v (h_v2i d) = Some j) \/ part_of v ts;
  ad_counter : forall k, counter d = Some k ->
      exists k', counter d' = Some k' /\ (k <= k')%N /\ (k' <= k + 3 * N.of_nat (List.length ts))%N
}.

Lemma add_loop_spec cid : forall ts d k, inv d -> counter d = Some k -> below (Some k) cid ->
  (exists d', heed_add_loop d cid k ts = Ok d' /\ added_to d d' cid ts)
  \/ (heed_add_loop d cid k ts = Panic POverflow /\ (u64_max < k + 3 * N.of_nat (List.length ts))%N).
Proof.
  induction ts as [|t ts IH]; intros d k I Hk Hcid.
  - left. exists d. split; [reflexivity|]. split; auto.
    + intros c t Uc. simpl. tauto.
    + intros v (t & [] & _).
    + eauto.
    + intros k0 E. exists k0. simpl. rewrite E. split; [reflexivity|lia].
  - pose proof (iv_b _ I) as B. rewrite Hk in B. cbn [heed_add_loop].
    destruct (intern_spec d k (t0 t) B) as [(f & k1 & d1 & E1 & B1 & X1 & F1 & L1 & L1' & S1 & O1)|[E1 Hov]];
      [rewrite E1|right; rewrite E1; split; [reflexivity|cbn [List.length]; lia]].
    destruct (intern_spec d1 k1 (t1 t) B1) as [(s & k2 & d2 & E2 & B2 & X2 & F2 & L2 & L2' & S2 & O2)|[E2 Hov]];
      [rewrite E2|right; rewrite E2; split; [reflexivity|cbn [List.length]; lia]].
    destruct (intern_spec d2 k2 (t2 t) B2) as [(e & k3 & d3 & E3 & B3 & X3 & F3 & L3 & L3' & S3 & O3)|[E3 Hov]];
      [rewrite E3|right; rewrite E3; split; [reflexivity|cbn [List.length]; lia]].
    rewrite row_keys_enc.
    assert (X : extends_dict d d3) by (eapply extends_dict_trans; [|eapply extends_dict_trans]; eassumption).
    assert (Ff : ng f (h_i2v d3) = Some (t0 t)) by (apply (xd_i2v _ _ X3), (xd_i2v _ _ X2), F1).
    assert (Fs : ng s (h_i2v d3) = Some (t1 t)) by (apply (xd_i2v _ _ X3), F2).
    assert (Hc3 : below (Some k3) cid) by (eapply below_mono; [|exact Hcid]; lia).
    change (Heed (sput (h_ids d3) id_key k3) _ _ _ _ _ _ _ _ _ _)
      with (with_row d3 (sput (h_ids d3) id_key k3) cid f s e).
    set (d4 := with_row d3 (sput (h_ids d3) id_key k3) cid f s e).
    assert (C4 : counter d4 = Some k3) by apply counter_sput.
    assert (I4 : inv d4).
    { split.
      - apply is_map_sput. rewrite (xd_ids _ _ X). apply I.
      - apply keys_ok_sput. rewrite (xd_ids _ _ X). apply I.
      - rewrite C4. eapply with_row_inv; eassumption. }
    assert (Hrow : forall c t', is_u64 c -> (vrow d4 c t' <-> vrow d c t' \/ (c = cid /\ t' = t))).
    { intros c t' Uc. unfold d4. rewrite (with_row_vrow (Some k3) d3 _ cid f s e t c t') by assumption.
      rewrite (extends_dict_vrow (Some k) d d3 c t') by eauto. reflexivity. }
    destruct (IH d4 k3 I4 C4 Hc3) as [(d' & E' & A)|[E' Hov]].
    + left. exists d'. split; [exact E'|]. destruct A as [A1 A2 A3 A4 A5 A6 A7 A8 A9].
      split.
      * exact A1.
      * rewrite A2. apply (xd_c2i _ _ X).
      * rewrite A3. apply (xd_i2c _ _ X).
      * intros c t' Uc. rewrite A4, Hrow by exact Uc. simpl. intuition congruence.
      * intros v i Hv. apply A5. apply (xd_v2i _ _ X), Hv.
      * intros i v Hv. apply A6. apply (xd_i2v _ _ X), Hv.
      * intros v (t' & [<-|Hi] & Hp) Hs; [|apply A7; [exists t'; auto|exact Hs]].
        destruct Hp as [->|[->| ->]].
        -- exists f. apply A5. apply (xd_v2i _ _ X3), (xd_v2i _ _ X2), S1, Hs.
        -- exists s. apply A5. apply (xd_v2i _ _ X3), S2, Hs.
        -- exists e. apply A5. apply S3, Hs.
      * intros v i Hv. destruct (A8 v i Hv) as [(j & Hj)|(t' & Hi & Hp)].
        -- change (sg v (h_v2i d3) = Some j) in Hj.
           destruct (O3 _ _ Hj) as [Hj2| ->]; [|right; exists t; simpl; unfold part; auto].
           destruct (O2 _ _ Hj2) as [Hj1| ->]; [|right; exists t; simpl; unfold part; auto].
           destruct (O1 _ _ Hj1) as [Hj0| ->]; [|right; exists t; simpl; unfold part; auto].
           left. eauto.
        -- right. exists t'. simpl. auto.
      * intros k0 Ek0. assert (k0 = k) as -> by congruence.
        destruct (A9 k3 C4) as (k' & Ek' & Hle & Hle'). exists k'. split; [exact Ek'|].
        cbn [List.length]. lia.
    + right. split; [exact E'|]. cbn [List.length]. lia.
Qed.

Lemma add_triples_tx_spec d c ts : inv d ->
  match sg c (h_c2i d) with
  | Some cid =>
      (exists d', heed_add_triples_tx d c ts = TCommit (Ok tt) d' /\ added_to d d' cid ts)
      \/ (heed_add_triples_tx d c ts = TAbort (Panic POverflow)
          /\ exists k, counter d = Some k /\ (u64_max < k + 3 * N.of_nat (List.length ts))%N)
  | None => heed_add_triples_tx d c ts = TAbort (Panic PTodo)
  end.
Proof.
  intros I. unfold heed_add_triples_tx. rewrite sget_case by apply (iv_c2i_key _ _ (iv_b _ I)).
  destruct (sg c (h_c2i d)) as [cid|] eqn:E; [|reflexivity].
  rewrite sget_case by apply I. change (sg id_key (h_ids d)) with (counter d).
  destruct (c2i_below _ _ _ _ (iv_b _ I) E) as (k & Ek & Hle). rewrite Ek.
  destruct (add_loop_spec cid ts d k I Ek) as [(d' & E' & A)|[E' Hov]].
  - exists k. auto.
  - left. exists d'. rewrite E'. auto.
  - right. rewrite E'. eauto.
Qed.

(** ** remove_triples *)

(** Every part of every triple is in the dictionary. *)
Definition all_known (d : heed) (ts : list trip) : Prop :=
  forall v, part_of v ts -> exists i, sg v (h_v2i d) = Some i.

Record removed_from (d d' : heed) (cid : N) (ts : list trip) : Prop := {
  rm_inv : inv d';
  rm_ids : h_ids d' = h_ids d;
  rm_c2i : h_c2i d' = h_c2i d;
  rm_i2c : h_i2c d' = h_i2c d;
  rm_v2i : h_v2i d' = h_v2i d;
  rm_i2v : h_i2v d' = h_i2v d;
  rm_vrow : forall c t, is_u64 c -> (vrow d' c t <-> vrow d c t /\ ~ (c = cid /\ In t ts))
}.

Lemma without_row_vrow ko d c f s e tr c' t' : inv_b ko d -> is_u64 c -> is_u64 c' ->
  sg (t0 tr) (h_v2i d) = Some f -> sg (t1 tr) (h_v2i d) = Some s -> sg (t2 tr) (h_v2i d) = Some e ->
  (vrow (without_row d c f s e) c' t' <-> vrow d c' t' /\ ~ (c' = c /\ t' = tr)).
Proof.
  intros B Uc Uc' Hf Hs He. unfold vrow. simpl.
  pose proof (iv_v2i _ _ B _ _ Hf) as If. pose proof (iv_v2i _ _ B _ _ Hs) as Is. pose proof (iv_v2i _ _ B _ _ He) as Ie.
  assert (Uf : is_u64 f) by (eapply u64_below, (iv_i2v_le _ _ B); eassumption).
  assert (Us : is_u64 s) by (eapply u64_below, (iv_i2v_le _ _ B); eassumption).
  assert (Ue : is_u64 e) by (eapply u64_below, (iv_i2v_le _ _ B); eassumption).
  split.
  - intros (f' & s' & e' & Hi & H1 & H2 & H3). apply in_rdel in Hi as [Hi Hn]; [|apply B].
    split; [exists f', s', e'; auto|]. intros [-> ->]. apply Hn.
    assert (f' = f) as ->. { apply (iv_i2v _ _ B) in H1; [congruence|]. eapply (iv_v2i_key _ _ B), Hf. }
    assert (s' = s) as ->. { apply (iv_i2v _ _ B) in H2; [congruence|]. eapply (iv_v2i_key _ _ B), Hs. }
    assert (e' = e) as ->. { apply (iv_i2v _ _ B) in H3; [congruence|]. eapply (iv_v2i_key _ _ B), He. }
    reflexivity.
  - intros [(f' & s' & e' & Hi & H1 & H2 & H3) Hn]. exists f', s', e'. split; [|auto].
    apply in_rdel; [apply B|]. split; [exact Hi|]. intros E. apply Hn.
    apply enc_inj in E; try assumption; [|eapply u64_below, (iv_i2v_le _ _ B); eassumption..].
    destruct E as (-> & -> & -> & ->). split; [reflexivity|]. destruct t', tr; simpl in *. congruence.
Qed.

Lemma remove_loop_spec cid : is_u64 cid -> forall ts d, inv d ->
  (all_known d ts -> exists d', heed_remove_loop d cid ts = Ok d' /\ removed_from d d' cid ts)
  /\ (~ all_known d ts -> heed_remove_loop d cid ts = Panic PTodo).
Proof.
  intros Uc. induction ts as [|t ts IH]; intros d I.
  - split; [|intros H; exfalso; apply H; intros v (t & [] & _)].
    intros _. exists d. split; [reflexivity|]. split; auto. intros c t _. simpl. tauto.
  - pose proof (iv_b _ I) as B. cbn [heed_remove_loop].
    destruct (sg (t0 t) (h_v2i d)) as [f|] eqn:Ef; [rewrite (proj2 (sget_some _ _ _ (iv_v2i_key _ _ B)) Ef)|].
    2:{ split; [intros H; destruct (H (t0 t)) as [i Hi]; [exists t; simpl; unfold part; auto|congruence]|]. intros _.
        destruct (sget (h_v2i d) (t0 t)) as [[i|]| |] eqn:G; try reflexivity.
        apply sget_some in G; [congruence|apply B]. }
    destruct (sg (t1 t) (h_v2i d)) as [s|] eqn:Es; [rewrite (proj2 (sget_some _ _ _ (iv_v2i_key _ _ B)) Es)|].
    2:{ split; [intros H; destruct (H (t1 t)) as [i Hi]; [exists t; simpl; unfold part; auto|congruence]|]. intros _.
        destruct (sget (h_v2i d) (t1 t)) as [[i|]| |] eqn:G; try reflexivity.
        apply sget_some in G; [congruence|apply B]. }
    destruct (sg (t2 t) (h_v2i d)) as [e|] eqn:Ee; [rewrite (proj2 (sget_some _ _ _ (iv_v2i_key _ _ B)) Ee)|].
    2:{ split; [intros H; destruct (H (t2 t)) as [i Hi]; [exists t; simpl; unfold part; auto|congruence]|]. intros _.
        destruct (sget (h_v2i d) (t2 t)) as [[i|]| |] eqn:G; try reflexivity.
        apply sget_some in G; [congruence|apply B]. }
    rewrite row_keys_enc.
    change (Heed _ _ _ _ _ _ _ _ _ _ _) with (without_row d cid f s e).
    assert (Uf : is_u64 f) by (eapply u64_below, (iv_i2v_le _ _ B), (iv_v2i _ _ B); eassumption).
    assert (Us : is_u64 s) by (eapply u64_below, (iv_i2v_le _ _ B), (iv_v2i _ _ B); eassumption).
    assert (Ue : is_u64 e) by (eapply u64_below, (iv_i2v_le _ _ B), (iv_v2i _ _ B); eassumption).
    assert (I' : inv (without_row d cid f s e)).
    { split; [apply I|apply I|]. apply without_row_inv; assumption. }
    assert (HK : all_known d (t :: ts) <-> all_known (without_row d cid f s e) ts).
    { unfold all_known. simpl. split; intros H v.
      - intros (t' & Hi & Hp). apply H. exists t'. simpl; auto.
      - intros (t' & [<-|Hi] & Hp); [|apply H; exists t'; auto]. destruct Hp as [->|[->| ->]]; eauto. }
    destruct (IH (without_row d cid f s e) I') as [H1 H2]. rewrite HK. split; [|exact H2].
    intros H. destruct (H1 H) as (d' & E' & R). exists d'. split; [exact E'|]. destruct R. split; auto.
    intros c t' Uc'. rewrite rm_vrow0 by exact Uc'.
    rewrite (without_row_vrow (counter d) d cid f s e t c t') by assumption. simpl. intuition congruence.
Qed.

Lemma remove_triples_tx_spec d c ts : inv d ->
  match sg c (h_c2i d) with
  | Some cid =>
      (all_known d ts ->
       exists d', heed_remove_triples_tx d c ts = TCommit (Ok tt) d' /\ removed_from d d' cid ts)
      /\ (~ all_known d ts -> heed_remove_triples_tx d c ts = TAbort (Panic PTodo))
  | None => heed_remove_triples_tx d c ts = TAbort (Panic PTodo)
  end.
Proof.
  intros I. unfold heed_remove_triples_tx. rewrite sget_case by apply (iv_c2i_key _ _ (iv_b _ I)).
  destruct (sg c (h_c2i d)) as [cid|] eqn:E; [|reflexivity].
  assert (U : is_u64 cid) by (eapply u64_below, c2i_below; [apply I|apply I|exact E]).
  destruct (remove_loop_spec cid U ts d I) as [H1 H2]. split.
  - intros H. destruct (H1 H) as (d' & E' & R). exists d'. rewrite E'. auto.
  - intros H. rewrite (H2 H). reflexivity.
Qed.

Lemma all_known_dec d ts : {all_known d ts} + {~ all_known d ts}.
Proof.
  induction ts as [|t ts IH].
  - left. intros v (t & [] & _).
  - destruct IH as [IH|IH].
    + destruct (sg (t0 t) (h_v2i d)) eqn:E0.
      * destruct (sg (t1 t) (h_v2i d)) eqn:E1.
        -- destruct (sg (t2 t) (h_v2i d)) eqn:E2.
           ++ left. intros v (t' & [<-|Hi] & Hp); [destruct Hp as [->|[->| ->]]; eauto|].
              apply IH. exists t'; auto.
           ++ right. intros H. destruct (H (t2 t)) as [i Hi]; [exists t; simpl; unfold part; auto|congruence].
        -- right. intros H. destruct (H (t1 t)) as [i Hi]; [exists t; simpl; unfold part; auto|congruence].
      * right. intros H. destruct (H (t0 t)) as [i Hi]; [exists t; simpl; unfold part; auto|congruence].
    + right. intros H. apply IH. intros v (t' & Hi & Hp). apply H. exists t'. simpl; auto.
Qed.
