(** * Counting what is stored *)
From Coq Require Import List Arith NArith Bool Lia.
From Verif Require Import M_Base M_Data M_Mem M_Heed M_Duck S_Order P_Ord S_Str S_Store S_Codec P_Codec P_Hist
  P_Heed P_HeedHist P_Mem P_Duck S_Space.
Import ListNotations.
Open Scope list_scope.

(** ** Numbers of things *)
Section Number.
  Context {A : Type}.
  Implicit Types P Q : A -> Prop.

  Lemma number_fun P n m : number P n -> number P m -> n = m.
  Proof.
    intros (l & D & E & <-) (l' & D' & E' & <-). apply Nat.le_antisymm; apply NoDup_incl_length; try assumption;
    intros x; rewrite E, E'; auto.
  Qed.

  Lemma number_ext P Q n : (forall x, P x <-> Q x) -> number P n -> number Q n.
  Proof. intros X (l & D & E & L). exists l. split; [exact D|]. split; [|exact L]. intros x. rewrite E. apply X. Qed.

  Lemma number_or P Q n m : (forall x, P x -> Q x -> False) -> number P n -> number Q m -> number (fun x => P x \/ Q x) (n + m).
  Proof.
    intros X (l & D & E & <-) (l' & D' & E' & <-). exists (l ++ l'). split; [|split; [|apply app_length]].
    - clear - D D' X E E'.
      assert (G : forall x, In x l -> In x l' -> False) by (intros x H H'; apply (X x); [apply E, H|apply E', H']). clear E E' X.
      induction D as [|a l Ha D IH]; [exact D'|]. cbn. constructor.
      + intros H. apply in_app_or in H as [H|H]; [exact (Ha H)|]. apply (G a); [left; reflexivity|exact H].
      + apply IH. intros x H. apply G. right. exact H.
    - intros x. rewrite in_app_iff, E, E'. reflexivity.
  Qed.

  Lemma number_none P : (forall x, ~ P x) -> number P 0.
  Proof. intros X. exists []. split; [constructor|]. split; [|reflexivity]. intros x. split; [intros []|apply X]. Qed.

  Lemma number_one (a : A) : number (eq a) 1.
  Proof.
    exists [a]. split; [repeat constructor; intros []|]. split; [|reflexivity]. intros x. cbn. intuition.
  Qed.

  Lemma number_sub P Q n : number P n -> (forall x, {Q x} + {~ Q x}) -> (forall x, Q x -> P x) -> exists k, k <= n /\ number Q k.
  Proof.
    intros (l & D & E & <-) dec S.
    exists (List.length (filter (fun x => if dec x then true else false) l)). split.
    - clear. induction l as [|a l IH]; cbn; [lia|]. destruct (dec a); cbn; lia.
    - exists (filter (fun x => if dec x then true else false) l). split; [apply NoDup_filter, D|]. split; [|reflexivity].
      intros x. rewrite filter_In, E. destruct (dec x); intuition; discriminate.
  Qed.

  Lemma number_list (l : list A) : (forall x y : A, {x = y} + {x <> y}) -> exists n, n <= List.length l /\ number (fun x => In x l) n.
  Proof.
    intros dec. exists (List.length (nodup dec l)). split.
    - apply NoDup_incl_length; [apply NoDup_nodup|]. intros x H. apply nodup_In in H. exact H.
    - exists (nodup dec l). split; [apply NoDup_nodup|]. split; [|reflexivity]. intros x. apply nodup_In.
  Qed.

  Lemma number_nodup (l : list A) : NoDup l -> number (fun x => In x l) (List.length l).
  Proof. intros D. exists l. split; [exact D|]. split; [reflexivity|reflexivity]. Qed.
End Number.

(** Along a correspondence that is one to one. *)
Lemma number_bij {A B} (P : A -> Prop) (Q : B -> Prop) (R : A -> B -> Prop) n :
  (forall a, P a -> exists b, Q b /\ R a b) -> (forall b, Q b -> exists a, P a /\ R a b) ->
  (forall a b b', P a -> R a b -> R a b' -> b = b') -> (forall a a' b, P a -> P a' -> R a b -> R a' b -> a = a') ->
  number P n -> number Q n.
Proof.
  intros Hf Hb Fun Inj (l & D & E & <-).
  assert (G : exists l', Forall2 R l l' /\ forall b, In b l' -> Q b).
  { assert (S : forall a, In a l -> P a) by (intros a; apply E). clear - Hf S. induction l as [|a l IH].
    - exists []. split; [constructor|intros b []].
    - destruct IH as (l' & F & S'); [intros x H; apply S; right; exact H|]. destruct (Hf a) as (b & Qb & Rab); [apply S; left; reflexivity|].
      exists (b :: l'). split; [constructor; assumption|]. intros x [<-|H]; auto. }
  destruct G as (l' & F & S'). exists l'. split; [|split].
  - assert (S : forall a, In a l -> P a) by (intros a; apply E). clear - D F Inj S. induction F as [|a b l l' Rab F IH]; [constructor|].
    inversion D as [|x xs Hn D']; subst. constructor; [|apply IH; [exact D'|intros x H; apply S; right; exact H]].
    intros H. apply Hn. assert (K : exists a', In a' l /\ R a' b).
    { clear - F H. induction F as [|x y l l' Rxy F IH]; [destruct H|]. destruct H as [->|H]; [exists x; split; [left; reflexivity|exact Rxy]|].
      destruct (IH H) as (a' & Ha & Ra). exists a'. split; [right; exact Ha|exact Ra]. }
    destruct K as (a' & Ha & Ra). rewrite (Inj a a' b); [exact Ha|apply S; left; reflexivity|apply S; right; exact Ha|exact Rab|exact Ra].
  - intros b. split; [apply S'|]. intros Qb. destruct (Hb b Qb) as (a & Pa & Rab). apply E in Pa as Ia.
    assert (K : exists b', In b' l' /\ R a b').
    { clear - F Ia. induction F as [|x y l l' Rxy F IH]; [destruct Ia|]. destruct Ia as [->|H]; [exists y; split; [left; reflexivity|exact Rxy]|].
      destruct (IH H) as (b' & Hb & Rb). exists b'. split; [right; exact Hb|exact Rb]. }
    destruct K as (b' & Hb' & Rb). rewrite (Fun a b b' Pa Rab Rb). exact Hb'.
  - symmetry. clear - F. induction F; cbn; [reflexivity|f_equal; assumption].
Qed.

(** ** Sizes of tables *)
Lemma insert_absent_length {A V} (cmp : A -> A -> comparison) k (v : V) m :
  bm_get cmp k m = None -> List.length (bm_insert cmp k v m) = S (List.length m).
Proof.
  induction m as [|[a b] m IH]; cbn; [reflexivity|]. destruct (cmp k a); cbn; [discriminate|reflexivity|]. intros H. rewrite IH; auto.
Qed.

Lemma sput_absent_length {V} (t : list (str * V)) k v : storable k -> sg k t = None -> List.length (sput t k v) = S (List.length t).
Proof. intros Hs E. unfold sput. apply key_storable_iff in Hs. rewrite Hs. apply insert_absent_length, E. Qed.

Lemma map_number {K V} (cmp : K -> K -> comparison) (lt : K -> K -> Prop) (O : is_order cmp lt) (m : list (K * V)) :
  is_map (lt := lt) m -> number (fun k => exists v, bm_get cmp k m = Some v) (List.length m).
Proof.
  intros Hm. apply (number_ext (fun k => In k (map fst m))); [intros k; symmetry; apply (bm_get_in_keys O)|].
  rewrite <- (map_length fst m). apply number_nodup. eapply is_set_NoDup; eassumption.
Qed.

(** ** LMDB: nothing but what is needed *)
Record fit_k (r : nat) (k : N) (d : heed) : Prop := {
  fk_words : forall i v, ng i (h_i2v d) = Some v -> storable v;
  fk_colls : forall i c, ng i (h_i2c d) = Some c -> sg c (h_c2i d) = Some i;
  fk_ids : forall x v, In (x, v) (h_ids d) -> x = id_key;
  fk_count : N.of_nat (r + List.length (h_v2i d)) = k;
  fk_zero : r = 0 -> k = 0%N
}.

Definition fit (r : nat) (d : heed) : Prop := fit_k r (next_counter d) d.

Lemma in_sput_ids (t : list (str * N)) v x w : (forall x v, In (x, v) t -> x = id_key) -> In (x, w) (sput t id_key v) -> x = id_key.
Proof.
  intros H Hi. unfold sput in Hi. change (key_storable id_key) with true in Hi. cbn iota in Hi.
  assert (K : In x (map fst (bm_insert str_cmp id_key v t))) by (apply (in_map fst) in Hi; exact Hi).
  apply (in_keys_insert str_order) in K as [->|K]; [reflexivity|]. apply in_map_iff in K as ([y z] & <- & K). exact (H _ _ K).
Qed.

Lemma intern_fit r d k v id k' d' : inv_b (Some k) d -> fit_k r (k + 1) d -> storable v ->
  intern d k v = Ok (id, k', d') -> fit_k r (k' + 1) d'.
Proof.
  intros B F Hs E. unfold intern in E. rewrite sget_case in E by apply (iv_v2i_key _ _ B).
  destruct (sg v (h_v2i d)) as [i|] eqn:G; [injection E as _ <- <-; exact F|].
  unfold u64_add1 in E. destruct (N.ltb_spec k u64_max) as [L|L]; [|discriminate]. injection E as _ <- <-. destruct F as [F1 F2 F3 F4 F5].
  split; cbn [h_i2v h_i2c h_c2i h_ids h_v2i]; [|exact F2|exact F3| |intros Z; specialize (F5 Z); lia].
  - intros i w Hi. unfold nput in Hi. destruct (N.eq_dec i (k + 1)) as [->|Hn].
    + rewrite (bm_get_insert_same N_order) in Hi. injection Hi as <-. exact Hs.
    + rewrite (bm_get_insert_other N_order) in Hi by exact Hn. exact (F1 _ _ Hi).
  - rewrite sput_absent_length by assumption. lia.
Qed.

Lemma add_loop_fit r cid : forall ts d k d', inv d -> counter d = Some k -> below (Some k) cid ->
  (forall v, part_of v ts -> storable v) -> fit r d -> heed_add_loop d cid k ts = Ok d' -> fit r d'.
Proof.
  induction ts as [|t ts IH]; intros d k d' I Hk Hcid HS F E; [cbn in E; injection E as <-; exact F|].
  pose proof (iv_b _ I) as B. rewrite Hk in B. cbn [heed_add_loop] in E.
  unfold fit, next_counter in F. rewrite Hk in F.
  assert (P0 : storable (t0 t)) by (apply HS; exists t; split; [left; reflexivity|left; reflexivity]).
  assert (P1 : storable (t1 t)) by (apply HS; exists t; split; [left; reflexivity|right; left; reflexivity]).
  assert (P2 : storable (t2 t)) by (apply HS; exists t; split; [left; reflexivity|right; right; reflexivity]).
  destruct (intern_spec d k (t0 t) B) as [(f & k1 & d1 & E1 & B1 & X1 & F1 & L1 & L1' & _)|[E1 Hov]]; [|rewrite E1 in E; discriminate].
  rewrite E1 in E. pose proof (intern_fit r _ _ _ _ _ _ B F P0 E1) as W1.
  destruct (intern_spec d1 k1 (t1 t) B1) as [(s & k2 & d2 & E2 & B2 & X2 & F2 & L2 & L2' & _)|[E2 Hov]]; [|rewrite E2 in E; discriminate].
  rewrite E2 in E. pose proof (intern_fit r _ _ _ _ _ _ B1 W1 P1 E2) as W2.
  destruct (intern_spec d2 k2 (t2 t) B2) as [(e & k3 & d3 & E3 & B3 & X3 & F3 & L3 & L3' & _)|[E3 Hov]]; [|rewrite E3 in E; discriminate].
  rewrite E3 in E. pose proof (intern_fit r _ _ _ _ _ _ B2 W2 P2 E3) as W3.
  rewrite row_keys_enc in E.
  assert (X : extends_dict d d3) by (eapply extends_dict_trans; [|eapply extends_dict_trans]; eassumption).
  change (Heed (sput (h_ids d3) id_key k3) _ _ _ _ _ _ _ _ _ _) with (with_row d3 (sput (h_ids d3) id_key k3) cid f s e) in E.
  assert (Hc3 : below (Some k3) cid) by (eapply below_mono; [|exact Hcid]; lia).
  assert (C4 : counter (with_row d3 (sput (h_ids d3) id_key k3) cid f s e) = Some k3) by apply counter_sput.
  apply (IH _ k3 d') in E; [exact E| |exact C4|exact Hc3| |].
  - split.
    + apply is_map_sput. rewrite (xd_ids _ _ X). apply I.
    + apply keys_ok_sput. rewrite (xd_ids _ _ X). apply I.
    + rewrite C4. eapply with_row_inv; [exact B3|exact Hc3| | |]; [apply (xd_i2v _ _ X3), (xd_i2v _ _ X2), F1|apply (xd_i2v _ _ X3), F2|exact F3].
  - intros v (t' & Ht & Hp). apply HS. exists t'. split; [right; exact Ht|exact Hp].
  - unfold fit, next_counter. rewrite C4. destruct W3 as [W31 W32 W33 W34 W35]. split; [exact W31|exact W32| |exact W34|exact W35].
    cbn [h_ids with_row]. intros x v Hx. eapply in_sput_ids; [exact W33|exact Hx].
Qed.

Definition created (d : heed) (o : op) : nat :=
  match o with OAddColl c => match sg c (h_c2i d) with None => 1 | Some _ => 0 end | _ => 0 end.

Lemma fit_step r d o : inv d -> fst (hcall true d o) = Ok tt -> storable_history [o] -> fit r d ->
  fit (r + created d o) (snd (hcall true d o)).
Proof.
  intros I E [HC HW] F. pose proof (iv_b _ I) as B. destruct o as [c|c|c ts|c ts]; cbn [created].
  - cbn [call_op] in *. change (t_add_collection (heed_impl_c true)) with (heed_add_collection true) in *.
    unfold heed_add_collection in *. rewrite add_collection_tx_spec in * by exact I.
    destruct (sg c (h_c2i d)) as [i|] eqn:G; [cbn; rewrite Nat.add_0_r; exact F|].
    destruct (alloc_ok_dec d) as [HA|HA]; [|discriminate E]. cbn [run_tx snd].
    assert (Sc : storable c) by (apply HC; left; reflexivity). destruct F as [F1 F2 F3 F4 F5].
    assert (CN : counter (with_coll d c) = Some (next_counter d)) by apply counter_sput.
    unfold fit, next_counter. rewrite CN. split; [exact F1| | | |intros Z; lia].
    + intros i c' Hi. cbn [h_i2c with_coll] in Hi. rewrite with_coll_get by assumption. unfold nput in Hi.
      destruct (N.eq_dec i (next_counter d)) as [->|Hn].
      * rewrite (bm_get_insert_same N_order) in Hi. injection Hi as <-. destruct (str_dec c c) as [_|]; [|congruence].
        destruct (storable_dec c); [reflexivity|contradiction].
      * rewrite (bm_get_insert_other N_order) in Hi by exact Hn. apply F2 in Hi. destruct (str_dec c' c) as [->|]; [congruence|exact Hi].
    + cbn [h_ids with_coll]. intros x v Hx. eapply in_sput_ids; [exact F3|exact Hx].
    + cbn [h_v2i with_coll]. lia.
  - cbn [call_op] in *. change (t_remove_collection (heed_impl_c true)) with (heed_remove_collection true) in *.
    unfold heed_remove_collection in *. rewrite remove_collection_tx_spec in * by exact I. rewrite Nat.add_0_r.
    destruct (sg c (h_c2i d)) as [i|] eqn:G; [|discriminate E]. cbn [run_tx snd]. destruct F as [F1 F2 F3 F4 F5].
    split; [exact F1| |exact F3|exact F4|exact F5]. intros j c' Hj. cbn [h_i2c without_coll] in Hj. rewrite without_coll_get by assumption.
    unfold ndel in Hj. destruct (N.eq_dec j i) as [->|Hn]; [rewrite (bm_get_remove_same N_order) in Hj by apply B; discriminate|].
    rewrite (bm_get_remove_other N_order) in Hj by exact Hn. apply F2 in Hj. destruct (str_dec c' c) as [->|]; [congruence|exact Hj].
  - cbn [call_op] in *. change (t_add_triples (heed_impl_c true)) with (heed_add_triples true) in *.
    unfold heed_add_triples in *. cbn [fst] in *. rewrite Nat.add_0_r. unfold heed_add_triples_tx in *.
    rewrite sget_case in * by apply B. destruct (sg c (h_c2i d)) as [cid|] eqn:G; [|discriminate E].
    rewrite sget_case in * by apply I. change (sg id_key (h_ids d)) with (counter d) in *.
    destruct (c2i_below _ _ _ _ B G) as (k & Ek & Hle). rewrite Ek in *.
    destruct (heed_add_loop d cid k ts) as [d'| |] eqn:L; [|discriminate E|discriminate E]. cbn [run_tx snd].
    eapply add_loop_fit; try eassumption; [exists k; auto|]. intros v Hv. apply HW. exists c, ts. split; [left; reflexivity|exact Hv].
  - rewrite Nat.add_0_r. pose proof (step_ok_call d (ORem c ts) true I) as S.
    remember (snd (hcall true d (ORem c ts))) as d'. rewrite E in S. inversion S; subst; try exact F; try discriminate.
    match goal with R : removed_from _ _ _ _ |- _ => destruct R as [R1 R2 R3 R4 R5 R6 R7] end. destruct F as [F1 F2 F3 F4 F5].
    assert (NC : next_counter (snd (hcall true d (ORem c ts))) = next_counter d) by (unfold next_counter, counter; rewrite R2; reflexivity).
    unfold fit. rewrite NC. split; [rewrite R6; exact F1|rewrite R3, R4; exact F2|rewrite R2; exact F3|rewrite R5; exact F4|exact F5].
Qed.

(** ** Histories *)
Lemma snoc_inv {A} (l l' : list A) a a' : l ++ [a] = l' ++ [a'] -> l = l' /\ a = a'.
Proof. apply app_inj_tail. Qed.

Lemma creations_snoc H o r : creations (H ++ [o]) r ->
  exists r', creations H r' /\ ((exists c, o = OAddColl c /\ ~ live H c /\ r = S r') \/ ((forall c, o = OAddColl c -> live H c) /\ r = r')).
Proof.
  intros C. inversion C as [E|H' c n C' N E|H' o' n C' N E].
  - destruct H; discriminate.
  - apply snoc_inv in E as [-> <-]. exists n. split; [exact C'|]. left. eauto.
  - apply snoc_inv in E as [-> <-]. exists r. split; [exact C'|]. right. auto.
Qed.

Lemma abandoned_snoc H o n : abandoned (H ++ [o]) n ->
  exists n', abandoned H n' /\ ((exists c k, o = ORemColl c /\ number (holds_after H c) k /\ n = n' + k) \/ ((forall c, o <> ORemColl c) /\ n = n')).
Proof.
  intros C. inversion C as [E|H' c m k C' N E|H' o' m C' N E].
  - destruct H; discriminate.
  - apply snoc_inv in E as [-> <-]. exists m. split; [exact C'|]. left. eauto 6.
  - apply snoc_inv in E as [-> <-]. exists n. split; [exact C'|]. right. auto.
Qed.

Lemma storable_history_app H1 H2 : storable_history (H1 ++ H2) -> storable_history H1 /\ storable_history H2.
Proof.
  intros [HC HW]. split; split.
  - intros c Hi. apply HC, in_or_app. auto.
  - intros v (c & ts & Hi & Hp). apply HW. exists c, ts. split; [apply in_or_app; auto|exact Hp].
  - intros c Hi. apply HC, in_or_app. auto.
  - intros v (c & ts & Hi & Hp). apply HW. exists c, ts. split; [apply in_or_app; auto|exact Hp].
Qed.

Notation lafter h := (after_f heed_impl_c heed_new h).
Notation lmeans h := (installed heed_impl_c heed_new h).

Lemma lstep h o b :
  (lafter (h ++ [(o, b)]) = lafter h /\ lmeans (h ++ [(o, b)]) = lmeans h)
  \/ (b = true /\ fst (hcall true (lafter h) o) = Ok tt /\ lafter (h ++ [(o, b)]) = snd (hcall true (lafter h) o)
      /\ lmeans (h ++ [(o, b)]) = lmeans h ++ [o]).
Proof.
  rewrite after_f_snoc, installed_snoc. pose proof (step_ok_call (lafter h) o b (inv_reach h)) as S.
  destruct b.
  - destruct (hcall true (lafter h) o) as [[[]|e|w] d'] eqn:E; cbn [fst snd] in *.
    + right. auto.
    + left. rewrite app_nil_r. split; [|reflexivity]. inversion S.
    + left. rewrite app_nil_r. split; [|reflexivity]. inversion S; reflexivity.
  - left. split.
    + destruct o; cbn; apply run_tx_false.
    + destruct (fst (hcall false (lafter h) o)); apply app_nil_r.
Qed.

Lemma fit_new : fit 0 heed_new.
Proof. split; try (intros; discriminate); try (intros ? ? []; fail); reflexivity. Qed.

Lemma sim_live h c : storable_history (lmeans h) -> (live (lmeans h) c <-> exists i, sg c (h_c2i (lafter h)) = Some i).
Proof.
  intros [HC _]. rewrite (sm_coll _ _ (heed_simulates h)). split; [|tauto]. intros L. split; [|exact L].
  destruct L as (h1 & h2 & E & _). apply HC. rewrite E. apply in_or_app. right. left. reflexivity.
Qed.

Lemma fit_reach h : forall r, storable_history (lmeans h) -> creations (lmeans h) r -> fit r (lafter h).
Proof.
  induction h as [|[o b] h IH] using rev_ind; intros r SW C.
  - cbn in C. inversion C as [E|H c n C' N E|H o n C' N E]; [apply fit_new|destruct H; discriminate|destruct H; discriminate].
  - destruct (lstep h o b) as [[E1 E2]|(-> & E0 & E1 & E2)]; rewrite E1, E2 in *; [apply IH; assumption|].
    apply storable_history_app in SW as [S1 S2]. apply creations_snoc in C as (r' & C' & CC).
    pose proof (fit_step r' _ o (inv_reach h) E0 S2 (IH r' S1 C')) as F.
    assert (K : r = r' + created (lafter h) o).
    { destruct CC as [(c & -> & NL & ->)|[A ->]]; cbn [created].
      - destruct (sg c (h_c2i (lafter h))) as [i|] eqn:G; [|lia]. exfalso. apply NL. apply sim_live; eauto.
      - destruct o as [c| | |]; try (cbn; lia). cbn [created]. destruct (proj1 (sim_live h c S1) (A c eq_refl)) as [i G]. rewrite G. lia. }
    rewrite K. exact F.
Qed.

(** ** Rows *)
Definition alive (d : heed) (i : N) : Prop := exists c, sg c (h_c2i d) = Some i.
Definition row (d : heed) (p : N * trip) : Prop := is_u64 (fst p) /\ vrow d (fst p) (snd p).

Lemma rows_number r d : inv d -> fit r d -> number (row d) (List.length (h_cfst d)).
Proof.
  intros I F. pose proof (iv_b _ I) as B.
  assert (U : forall i v, ng i (h_i2v d) = Some v -> is_u64 i) by (intros i v H; eapply u64_below, (iv_i2v_le _ _ B); eassumption).
  apply (number_bij (fun x => In x (h_cfst d)) (row d)
           (fun x p => exists f s e, is_u64 (fst p) /\ x = enc (fst p) f s e
              /\ ng f (h_i2v d) = Some (t0 (snd p)) /\ ng s (h_i2v d) = Some (t1 (snd p)) /\ ng e (h_i2v d) = Some (t2 (snd p)))).
  - intros x Hx. destruct (iv_cfst _ _ B x Hx) as (c & f & s & t & a & b & e & -> & Hc & Ha & Hb & He).
    exists (c, Trip a b e). assert (Uc : is_u64 c) by (eapply u64_below; eassumption). split.
    + split; [exact Uc|]. exists f, s, t. auto.
    + exists f, s, t. cbn. auto.
  - intros [c t] [Uc (f & s & e & Hi & H)]. exists (enc c f s e). split; [exact Hi|]. exists f, s, e. cbn. auto.
  - intros x [c t] [c' t'] _ (f & s & e & Uc & -> & H1 & H2 & H3) (f' & s' & e' & Uc' & E & H1' & H2' & H3'). cbn in *.
    apply enc_inj in E; eauto. destruct E as (-> & -> & -> & ->). f_equal. destruct t, t'; cbn in *. congruence.
  - intros x x' [c t] _ _ (f & s & e & Uc & -> & H1 & H2 & H3) (f' & s' & e' & Uc' & -> & H1' & H2' & H3'). cbn in *.
    destruct F as [F1 _ _ _ _].
    assert (K : forall i j v, ng i (h_i2v d) = Some v -> ng j (h_i2v d) = Some v -> i = j).
    { intros i j v A A'. apply (iv_i2v _ _ B) in A; [|eauto]. apply (iv_i2v _ _ B) in A'; [congruence|]. apply (iv_v2i _ _ B) in A. eauto. }
    rewrite (K _ _ _ H1 H1'), (K _ _ _ H2 H2'), (K _ _ _ H3 H3'). reflexivity.
  - apply number_nodup. eapply is_set_NoDup; [apply bytes_order|apply B].
Qed.

Lemma index_length perm tab main : perm_inj perm -> is_set bytes_lt tab -> is_set bytes_lt main ->
  (forall x, In x main -> exists c f s t, is_u64 c /\ is_u64 f /\ is_u64 s /\ is_u64 t /\ x = enc c f s t) ->
  index_ok perm tab main -> List.length tab = List.length main.
Proof.
  intros PI St Sm M K.
  apply (number_fun (fun x => In x tab)); [apply number_nodup; eapply is_set_NoDup; [apply bytes_order|exact St]|].
  apply (number_bij (fun x => In x main) (fun x => In x tab)
           (fun x y => exists c f s t, is_u64 c /\ is_u64 f /\ is_u64 s /\ is_u64 t /\ x = enc c f s t /\ y = perm c f s t)).
  - intros x Hx. destruct (M x Hx) as (c & f & s & t & Uc & Uf & Us & Ut & ->). exists (perm c f s t). split.
    + apply K. exists c, f, s, t. auto 8.
    + exists c, f, s, t. auto 8.
  - intros y Hy. apply K in Hy as (c & f & s & t & Uc & Uf & Us & Ut & -> & Hi). exists (enc c f s t). split; [exact Hi|].
    exists c, f, s, t. auto 8.
  - intros x y y' _ (c & f & s & t & Uc & Uf & Us & Ut & -> & ->) (c' & f' & s' & t' & Uc' & Uf' & Us' & Ut' & E & ->).
    apply enc_inj in E; try assumption. destruct E as (-> & -> & -> & ->). reflexivity.
  - intros x x' y _ _ (c & f & s & t & Uc & Uf & Us & Ut & -> & ->) (c' & f' & s' & t' & Uc' & Uf' & Us' & Ut' & -> & E).
    apply PI in E; try assumption. destruct E as (-> & -> & -> & ->). reflexivity.
  - apply number_nodup. eapply is_set_NoDup; [apply bytes_order|exact Sm].
Qed.

Lemma indexes_length d : inv d -> Forall (fun t => List.length t = List.length (h_cfst d)) [h_cfst d; h_cfts d; h_csft d; h_cstf d; h_ctfs d; h_ctsf d].
Proof.
  intros I. pose proof (iv_b _ I) as B.
  assert (M : forall x, In x (h_cfst d) -> exists c f s t, is_u64 c /\ is_u64 f /\ is_u64 s /\ is_u64 t /\ x = enc c f s t).
  { intros x Hx. destruct (iv_cfst _ _ B x Hx) as (c & f & s & t & a & b & e & -> & Hc & Ha & Hb & He).
    exists c, f, s, t. split; [eapply u64_below; eassumption|]. split; [|split; [|split; [|reflexivity]]]; eapply u64_below, (iv_i2v_le _ _ B); eassumption. }
  repeat constructor.
  - eapply (index_length _ _ _ perm_inj_fts); try apply B; exact M.
  - eapply (index_length _ _ _ perm_inj_sft); try apply B; exact M.
  - eapply (index_length _ _ _ perm_inj_stf); try apply B; exact M.
  - eapply (index_length _ _ _ perm_inj_tfs); try apply B; exact M.
  - eapply (index_length _ _ _ perm_inj_tsf); try apply B; exact M.
Qed.

(** Rows of collections that were removed. *)
Definition dead_row (d : heed) (p : N * trip) : Prop := row d p /\ ~ alive d (fst p).

Lemma dead_rows h : forall n, storable_history (lmeans h) -> abandoned (lmeans h) n -> number (dead_row (lafter h)) n.
Proof.
  induction h as [|[o b] h IH] using rev_ind; intros n SW AB.
  - cbn in AB. inversion AB as [E|H c m k C' N E|H o m C' N E]; [|destruct H; discriminate|destruct H; discriminate].
    apply number_none. intros p [[_ (f & s & e & [] & _)] _].
  - destruct (lstep h o b) as [[E1 E2]|(-> & E0 & E1 & E2)]; rewrite E1, E2 in *; [apply IH; assumption|].
    apply storable_history_app in SW as [S1 S2]. apply abandoned_snoc in AB as (n' & AB & CC).
    pose proof (IH n' S1 AB) as D. pose proof (heed_simulates h) as SM. pose proof (inv_reach h) as I.
    set (d := lafter h) in *. pose proof (step_ok_call d o true I) as ST. rewrite E0 in ST.
    remember (snd (hcall true d o)) as d'. clear Heqd' E0 E1 E2 IH. clearbody d.
    inversion ST; subst; try discriminate.
    + (* there already *) destruct CC as [(c' & k & Ec & _)|[_ ->]]; [discriminate|exact D].
    + (* a new collection *) destruct CC as [(c' & k & Ec & _)|[_ ->]]; [discriminate|].
      refine (number_ext _ _ _ _ D). intros [i t]. unfold dead_row, row. cbn [fst snd].
      change (vrow (with_coll d c) i t) with (vrow d i t).
      assert (NV : vrow d i t -> i <> next_counter d) by (intros V ->; exact (fresh_vrow d t I H0 V)).
      assert (AL : vrow d i t -> (alive (with_coll d c) i <-> alive d i)).
      { intros V. unfold alive. split; intros (x & Hx).
        - rewrite with_coll_get in Hx by assumption. destruct (str_dec x c) as [->|]; [|eauto].
          destruct (storable_dec c); [|discriminate]. injection Hx as <-. exfalso. exact (NV V eq_refl).
        - exists x. rewrite with_coll_get by assumption. destruct (str_dec x c) as [->|]; [congruence|exact Hx]. }
      split; (intros [[U V] NA]; split; [split; assumption|]); rewrite ?(AL V) in *; try exact NA; rewrite <- (AL V); exact NA.
    + (* a collection goes *) destruct CC as [(c' & k & Ec & NK & ->)|[NE _]]; [injection Ec as <-|exfalso; exact (NE _ eq_refl)].
      assert (Ui : is_u64 i) by exact (u64_c2i d _ _ I H).
      assert (NK' : number (fun p : N * trip => fst p = i /\ vrow d i (snd p)) k).
      { refine (number_bij _ _ (fun t p => p = (i, t)) k _ _ _ _ NK).
        - intros t Ht. exists (i, t). split; [|reflexivity]. split; [reflexivity|]. apply (sm_row _ _ SM _ _ _ H), Ht.
        - intros [j t] [Ej Hv]. cbn in *. subst j. exists t. split; [|reflexivity]. apply (sm_row _ _ SM _ _ _ H), Hv.
        - intros t p p' _ -> ->. reflexivity.
        - intros t t' p _ _ -> E'. injection E' as ->. reflexivity. }
      refine (number_ext _ _ _ _ (number_or _ _ _ _ _ D NK')).
      * intros [j t]. unfold dead_row, row. cbn [fst snd]. change (vrow (without_coll d c i) j t) with (vrow d j t).
        assert (AL : alive (without_coll d c i) j <-> alive d j /\ j <> i).
        { unfold alive. split.
          - intros (x & Hx). rewrite without_coll_get in Hx by assumption. destruct (str_dec x c) as [|Hn]; [discriminate|]. split; [eauto|].
            intros ->. apply Hn. exact (c2i_inj d _ _ _ I Hx H).
          - intros [(x & Hx) Hn]. exists x. rewrite without_coll_get by assumption. destruct (str_dec x c) as [->|]; [congruence|exact Hx]. }
        rewrite AL. destruct (N.eq_dec j i) as [->|Hn].
        -- split; [intros [[[U V] NA]|[_ V]]; (split; [split; assumption|tauto])|]. intros [[U V] _]. right. auto.
        -- split; [intros [[UV NA]|[E' _]]; [split; [exact UV|tauto]|contradiction]|]. intros [UV NA]. left. split; [exact UV|tauto].
      * intros [j t] [_ NA] [E' _]. cbn in *. subst j. apply NA. exists c. exact H.
    + (* triples are added *) destruct CC as [(c' & k & Ec & _)|[_ ->]]; [discriminate|].
      match goal with A : added_to _ _ _ _ |- _ => destruct A as [A1 A2 A3 A4 A5 A6 A7 A8 A9] end.
      refine (number_ext _ _ _ _ D). intros [i t]. unfold dead_row, row, alive. cbn [fst snd]. rewrite A2. split.
      * intros [[U V] NA]. split; [|exact NA]. split; [exact U|]. apply A4; auto.
      * intros [[U V] NA]. split; [|exact NA]. split; [exact U|]. apply A4 in V as [V|[-> _]]; [exact V| |exact U]. exfalso. apply NA. eauto.
    + (* triples are removed *) destruct CC as [(c' & k & Ec & _)|[_ ->]]; [discriminate|].
      match goal with R : removed_from _ _ _ _ |- _ => destruct R as [R1 R2 R3 R4 R5 R6 R7] end.
      refine (number_ext _ _ _ _ D). intros [i t]. unfold dead_row, row, alive. cbn [fst snd]. rewrite R3. split.
      * intros [[U V] NA]. split; [|exact NA]. split; [exact U|]. apply R7; [exact U|]. split; [exact V|]. intros [-> _]. apply NA. eauto.
      * intros [[U V] NA]. split; [|exact NA]. split; [exact U|]. apply R7 in V; tauto.
Qed.

(** ** All numbers exist *)
Lemma live_dec H c : {live H c} + {~ live H c}.
Proof.
  rewrite <- (rev_involutive H). generalize (rev H) as l. clear H. induction l as [|o l IH]; [right; apply live_nil|]. cbn [rev].
  set (H := rev l) in *. clearbody H.
  destruct (op_dec o (OAddColl c)) as [->|N]; [left; apply live_snoc; auto|].
  destruct (op_dec o (ORemColl c)) as [->|N']; [right; rewrite live_snoc; intuition congruence|].
  destruct IH as [L|L]; [left|right]; rewrite live_snoc; intuition.
Qed.

Lemma added_dec kills H c t : (forall o, {kills o} + {~ kills o}) -> {added kills H c t} + {~ added kills H c t}.
Proof.
  intros K. rewrite <- (rev_involutive H). generalize (rev H) as l. clear H. induction l as [|o l IH]; [right; apply added_nil|]. cbn [rev].
  set (H := rev l) in *. clearbody H.
  assert (D : {exists ts, o = OAdd c ts /\ In t ts /\ live H c} + {~ exists ts, o = OAdd c ts /\ In t ts /\ live H c}).
  { destruct o as [x|x|x ts|x ts]; try (right; intros (ts' & E & _); discriminate).
    destruct (str_dec x c) as [->|N]; [|right; intros (ts' & E & _); congruence].
    destruct (in_dec trip_dec t ts) as [Hi|Hi]; [|right; intros (ts' & E & Hi' & _); injection E as ->; contradiction].
    destruct (live_dec H c) as [L|L]; [left; eauto|right; intros (ts' & _ & _ & L'); contradiction]. }
  destruct D as [D|D]; [left; apply added_snoc; auto|].
  destruct (K o) as [k|k]; [right; rewrite added_snoc; tauto|].
  destruct IH as [A|A]; [left|right]; rewrite added_snoc; tauto.
Qed.

Lemma removes_dec c t o : {removes c t o} + {~ removes c t o}.
Proof.
  destruct o as [x|x|x ts|x ts]; try (right; intros K; inversion K; fail);
    (destruct (str_dec x c) as [->|N]; [|right; intros K; inversion K; congruence]); [left; constructor|].
  destruct (in_dec trip_dec t ts) as [Hi|Hi]; [left; constructor; exact Hi|right; intros K; inversion K; contradiction].
Qed.

Lemma clears_dec c t o : {clears c t o} + {~ clears c t o}.
Proof.
  destruct o as [x|x|x ts|x ts]; try (right; intros K; inversion K; fail);
    (destruct (str_dec x c) as [->|N]; [|right; intros K; inversion K; congruence]); try (left; constructor; fail).
  destruct (in_dec trip_dec t ts) as [Hi|Hi]; [left; constructor; exact Hi|right; intros K; inversion K; contradiction].
Qed.

Definition tried (H : list op) : list (str * trip) :=
  flat_map (fun o => match o with OAdd c ts => map (pair c) ts | _ => [] end) H.
Definition words_of (H : list op) : list str :=
  flat_map (fun o => match o with OAdd _ ts => flat_map (fun t => [t0 t; t1 t; t2 t]) ts | _ => [] end) H.
Definition named (H : list op) : list str := flat_map (fun o => match o with OAddColl c => [c] | _ => [] end) H.

Lemma added_tried kills H c t : added kills H c t -> In (c, t) (tried H).
Proof.
  intros (h1 & ts & h2 & -> & Ht & _). unfold tried. rewrite flat_map_app. apply in_or_app. right. cbn. apply in_or_app. left.
  apply in_map, Ht.
Qed.

Lemma mentioned_words H v : mentioned H v <-> In v (words_of H).
Proof.
  unfold mentioned, words_of. rewrite in_flat_map. split.
  - intros (c & ts & Hi & t & Ht & Hp). exists (OAdd c ts). split; [exact Hi|]. apply in_flat_map. exists t. split; [exact Ht|].
    destruct Hp as [->|[->| ->]]; cbn; auto.
  - intros ([c|c|c ts|c ts] & Hi & Hv); try destruct Hv. exists c, ts. split; [exact Hi|]. apply in_flat_map in Hv as (t & Ht & Hv).
    exists t. split; [exact Ht|]. unfold part. cbn in Hv. intuition.
Qed.

Lemma pair_dec (x y : str * trip) : {x = y} + {x <> y}.
Proof. decide equality; [apply trip_dec|apply str_dec]. Qed.

Lemma added_number (kills : str -> trip -> op -> Prop) H : (forall c t o, {kills c t o} + {~ kills c t o}) ->
  exists k, k <= List.length (tried H) /\ number (fun p => added (kills (fst p) (snd p)) H (fst p) (snd p)) k.
Proof.
  intros K. destruct (number_list (tried H) pair_dec) as (n & Ln & N).
  destruct (number_sub _ (fun p => added (kills (fst p) (snd p)) H (fst p) (snd p)) _ N) as (k & Lk & NK).
  - intros [c t]. apply added_dec. intros o. apply K.
  - intros [c t] A. eapply added_tried, A.
  - exists k. split; [lia|exact NK].
Qed.

Lemma kept_number H : exists k, number (kept H) k.
Proof. destruct (added_number removes H removes_dec) as (k & _ & N). exists k. exact N. Qed.

Lemma mem_kept_number H : exists k, number (mem_kept H) k.
Proof. destruct (added_number clears H clears_dec) as (k & _ & N). exists k. exact N. Qed.

Lemma mentioned_number H : exists w, number (mentioned H) w.
Proof.
  destruct (number_list (words_of H) str_dec) as (n & _ & N). exists n. refine (number_ext _ _ _ _ N). intros v. symmetry. apply mentioned_words.
Qed.

Lemma live_number H : exists m, number (live H) m.
Proof.
  destruct (number_list (named H) str_dec) as (n & _ & N). destruct (number_sub _ (live H) _ N (live_dec H)) as (k & _ & NK).
  - intros c (h1 & h2 & -> & _). unfold named. rewrite flat_map_app. apply in_or_app. right. left. reflexivity.
  - exists k. exact NK.
Qed.

Lemma holds_number H c : exists k, number (holds_after H c) k.
Proof.
  destruct (number_list (map snd (tried H)) trip_dec) as (n & _ & N).
  destruct (number_sub _ (holds_after H c) _ N) as (k & _ & NK).
  - intros t. apply added_dec. apply removes_dec.
  - intros t A. apply in_map_iff. exists (c, t). split; [reflexivity|]. eapply added_tried, A.
  - exists k. exact NK.
Qed.

Lemma abandoned_number H : exists n, abandoned H n.
Proof.
  induction H as [|o H [n IH]] using rev_ind; [exists 0; constructor|].
  destruct o as [c|c|c ts|c ts]; try (exists n; apply ab_other; [exact IH|intros; discriminate]).
  destruct (holds_number H c) as [k K]. exists (n + k). constructor; assumption.
Qed.

Lemma creations_number H : exists r, creations H r.
Proof.
  induction H as [|o H [n IH]] using rev_ind; [exists 0; constructor|].
  destruct o as [c|c|c ts|c ts]; try (exists n; apply cr_other; [exact IH|intros; discriminate]).
  destruct (live_dec H c) as [L|L]; [exists n; apply cr_other; [exact IH|intros c' E; injection E as <-; exact L]|exists (S n); constructor; assumption].
Qed.

(** ** The LMDB file *)
Definition ids_are (r w : nat) (t : list (str * N)) : Prop :=
  t = if r =? 0 then [] else [(id_key, N.of_nat (r + w) - 1)%N].

Lemma lmdb_space h k n w m r : let H := lmeans h in let d := lafter h in
  storable_history H -> number (kept H) k -> abandoned H n -> number (mentioned H) w -> number (live H) m -> creations H r ->
  Forall (fun t => List.length t = k + n) [h_cfst d; h_cfts d; h_csft d; h_cstf d; h_ctfs d; h_ctsf d]
  /\ List.length (h_v2i d) = w /\ List.length (h_i2v d) = w
  /\ List.length (h_c2i d) = m /\ List.length (h_i2c d) = m
  /\ ids_are r w (h_ids d).
Proof.
  intros H d SW NK AB NW NM CR. pose proof (inv_reach h) as I. fold d in I. pose proof (iv_b _ I) as B.
  pose proof (heed_simulates h) as SM. fold d H in SM. pose proof (fit_reach h r SW CR) as F. fold d in F.
  assert (LV : List.length (h_v2i d) = w).
  { refine (number_fun _ _ _ _ NW). refine (number_ext _ _ _ _ (map_number str_cmp str_lt str_order _ (iv_v2i_map _ _ B))).
    intros v. rewrite (sm_dict _ _ SM). split; [tauto|]. intros M. split; [apply SW, M|exact M]. }
  assert (LC : List.length (h_c2i d) = m).
  { refine (number_fun _ _ _ _ NM). refine (number_ext _ _ _ _ (map_number str_cmp str_lt str_order _ (iv_c2i_map _ _ B))).
    intros c. symmetry. apply (sim_live h c SW). }
  split; [|split; [exact LV|split; [|split; [exact LC|split]]]].
  - assert (L : List.length (h_cfst d) = k + n).
    { refine (number_fun _ _ _ (rows_number r d I F) _).
      assert (NL : number (fun p : N * trip => row d p /\ alive d (fst p)) k).
      { refine (number_bij _ _ (fun q p => sg (fst q) (h_c2i d) = Some (fst p) /\ snd p = snd q) k _ _ _ _ NK).
        - intros [c t] Hk. unfold kept in Hk. cbn [fst snd] in *. pose proof (holds_after_live _ _ _ Hk) as L. apply (sim_live h c SW) in L as [i Hi].
          fold d in Hi. exists (i, t). cbn [fst snd]. split; [|auto]. split; [split; [exact (u64_c2i d _ _ I Hi)|]|exists c; exact Hi].
          apply (sm_row _ _ SM _ _ _ Hi), Hk.
        - intros [i t] [[U V] [c Hi]]. cbn [fst snd] in *. exists (c, t). cbn [fst snd]. split; [|auto]. apply (sm_row _ _ SM _ _ _ Hi), V.
        - intros [c t] [i u] [j v] _ [A1 A2] [A3 A4]. cbn in *. congruence.
        - intros [c t] [c' t'] [i u] _ _ [A1 A2] [A3 A4]. cbn in *. subst. f_equal. exact (c2i_inj d _ _ _ I A1 A3). }
      refine (number_ext _ _ _ _ (number_or _ _ _ _ _ NL (dead_rows h n SW AB))).
      - intros [i t]. unfold dead_row. fold d. split; [tauto|]. intros R.
        assert (A : alive d i \/ ~ alive d i).
        { destruct (ng i (h_i2c d)) as [c|] eqn:G; [left; exists c; exact (fk_colls _ _ _ F _ _ G)|].
          right. intros [c Hc]. apply (iv_c2i _ _ B) in Hc. congruence. }
        destruct A; [left|right]; auto.
      - intros p [_ A] [_ NA]. contradiction. }
    rewrite <- L. apply indexes_length, I.
  - rewrite <- LV. refine (number_fun _ _ _ (map_number N.compare N.lt N_order _ (iv_i2v_map _ _ B)) _).
    refine (number_bij _ _ (fun v i => sg v (h_v2i d) = Some i) _ _ _ _ _ (map_number str_cmp str_lt str_order _ (iv_v2i_map _ _ B))).
    + intros v [i Hi]. exists i. split; [|exact Hi]. exists v. apply (iv_v2i _ _ B), Hi.
    + intros i [v Hv]. apply (iv_i2v _ _ B) in Hv; [|exact (fk_words _ _ _ F _ _ Hv)]. eauto.
    + intros v i j _ A A'. congruence.
    + intros v v' i _ _ A A'. apply (iv_v2i _ _ B) in A, A'. congruence.
  - rewrite <- LC. refine (number_fun _ _ _ (map_number N.compare N.lt N_order _ (iv_i2c_map _ _ B)) _).
    refine (number_bij _ _ (fun v i => sg v (h_c2i d) = Some i) _ _ _ _ _ (map_number str_cmp str_lt str_order _ (iv_c2i_map _ _ B))).
    + intros v [i Hi]. exists i. split; [|exact Hi]. exists v. apply (iv_c2i _ _ B), Hi.
    + intros i [c Hc]. apply (fk_colls _ _ _ F) in Hc. eauto.
    + intros v i j _ A A'. congruence.
    + intros v v' i _ _ A A'. exact (c2i_inj d _ _ _ I A A').
  - pose proof (fk_count _ _ _ F) as FC. pose proof (fk_ids _ _ _ F) as FI. pose proof (iv_ids_map _ I) as MI. rewrite LV in FC.
    unfold ids_are. unfold next_counter, counter in FC.
    assert (SH : h_ids d = [] \/ exists v, h_ids d = [(id_key, v)]).
    { destruct (h_ids d) as [|[x v] [|[y u] rest]]; [auto| |].
      - right. exists v. rewrite (FI x v); [reflexivity|left; reflexivity].
      - exfalso. assert (x = id_key) as -> by (eapply FI; left; reflexivity). assert (y = id_key) as -> by (eapply FI; right; left; reflexivity).
        assert (ND : NoDup (map fst ((id_key, v) :: (id_key, u) :: rest))) by (eapply is_set_NoDup; [apply str_order|exact MI]).
        cbn in ND. inversion ND as [|? ? Hn]; subst. apply Hn. left. reflexivity. }
    destruct SH as [E|[v E]]; rewrite E in *.
    + cbn in FC. destruct (Nat.eqb_spec r 0); [reflexivity|]. lia.
    + change (sg id_key [(id_key, v)]) with (Some v) in FC. cbn iota in FC. destruct (Nat.eqb_spec r 0) as [->|Hr].
      * exfalso. pose proof (fk_zero _ _ _ F eq_refl) as Z. unfold next_counter, counter in Z. rewrite E in Z.
        change (sg id_key [(id_key, v)]) with (Some v) in Z. cbn iota in Z. lia.
      * f_equal. f_equal. lia.
Qed.

(** ** DuckDB *)
Definition standing_at (H : list op) (p : nat * nat) (c : str) (t : trip) : Prop :=
  exists h1 ts h2, H = h1 ++ OAdd c ts :: h2 /\ List.length h1 = fst p
    /\ nth_error ts (snd p) = Some t /\ forall o, In o h2 -> ~ removes c t o.

Lemma standing_iff H p : standing H p <-> exists c t, standing_at H p c t.
Proof.
  split.
  - intros (h1 & c & ts & t & h2 & K). exists c, t, h1, ts, h2. exact K.
  - intros (c & t & h1 & ts & h2 & K). exists h1, c, ts, t, h2. exact K.
Qed.

Lemma standing_snoc H o p c t : standing_at (H ++ [o]) p c t <->
  (exists ts, o = OAdd c ts /\ fst p = List.length H /\ nth_error ts (snd p) = Some t) \/ (standing_at H p c t /\ ~ removes c t o).
Proof.
  split.
  - intros (h1 & ts & h2 & E & L & N & K). apply snoc_split in E as [(-> & -> & <-)|(h2' & -> & ->)].
    + left. exists ts. auto.
    + right. split.
      * exists h1, ts, h2'. repeat split; auto. intros o' Ho. apply K, in_or_app. auto.
      * apply K, in_or_app. right. left. reflexivity.
  - intros [(ts & -> & L & N)|[(h1 & ts & h2 & -> & L & N & K) Ho]].
    + exists H, ts, []. repeat split; auto; intros ? [].
    + exists h1, ts, (h2 ++ [o]). rewrite <- app_assoc. repeat split; auto.
      intros o' Ho'. apply in_app_or in Ho' as [G|[<-|[]]]; auto.
Qed.

Lemma standing_bound H p c t : standing_at H p c t -> fst p < List.length H.
Proof. intros (h1 & ts & h2 & -> & <- & _). rewrite app_length. cbn. lia. Qed.

Lemma standing_holds H p c t : standing_at H p c t -> (forall h1 ts h2, H = h1 ++ OAdd c ts :: h2 -> live h1 c) -> holds_after H c t.
Proof.
  intros (h1 & ts & h2 & E & _ & N & K) L. exists h1, ts, h2. split; [exact E|]. split; [eapply nth_error_In, N|]. split; [eapply L, E|exact K].
Qed.

Record parts_grew (d d' : duck) (ts : list trip) : Prop := {
  pg_incl : incl (d_part d) (d_part d');
  pg_new : forall v, part_of v ts -> exists i, In (i, v) (d_part d');
  pg_only : forall i v, In (i, v) (d_part d') -> In (i, v) (d_part d) \/ part_of v ts
}.

Lemma add_loop_rows cid c : forall ts d d', dinv d -> In (cid, c) (d_coll d) -> duck_add_loop d cid ts = Ok d' ->
  parts_grew d d' ts /\ exists new, d_trip d' = d_trip d ++ new /\ Forall2 (fun t r => shows d' r c t) ts new.
Proof.
  induction ts as [|t ts IH]; intros d d' I Hc E; cbn [duck_add_loop] in E.
  - injection E as <-. split.
    + split; [apply incl_refl|intros v (x & [] & _)|auto].
    + exists []. rewrite app_nil_r. split; [reflexivity|constructor].
  - pose proof (add_part_spec d (t0 t) I) as S1. destruct (duck_add_part d (t0 t)) as [d1|e|w]; cbn [tbind] in E; [|discriminate|discriminate].
    destruct S1 as (I1 & C1 & T1 & P1 & E1 & Q1 & O1).
    pose proof (add_part_spec d1 (t1 t) I1) as S2. destruct (duck_add_part d1 (t1 t)) as [d2|e|w]; cbn [tbind] in E; [|discriminate|discriminate].
    destruct S2 as (I2 & C2 & T2 & P2 & E2 & Q2 & O2).
    pose proof (add_part_spec d2 (t2 t) I2) as S3. destruct (duck_add_part d2 (t2 t)) as [d3|e|w]; cbn [tbind] in E; [|discriminate|discriminate].
    destruct S3 as (I3 & C3 & T3 & P3 & E3 & Q3 & O3).
    assert (Hc3 : In (cid, c) (d_coll d3)) by congruence.
    assert (E1' : exists i, In (i, t0 t) (d_part d3)) by (destruct E1; eauto).
    assert (E2' : exists i, In (i, t1 t) (d_part d3)) by (destruct E2; eauto).
    pose proof (add_trip_spec d3 cid c t I3 Hc3 E1' E2' E3) as S4.
    destruct (duck_add_trip d3 cid t) as [d4|e|w] eqn:E4; cbn [tbind] in E; [|discriminate|discriminate].
    destruct S4 as (I4 & C4 & P4 & Q4 & R4).
    assert (Hc4 : In (cid, c) (d_coll d4)) by congruence.
    assert (R : exists r, d_trip d4 = d_trip d ++ [r] /\ shows d4 r c t).
    { unfold duck_add_trip in E4. destruct (nextval (d_seq d3)) as [i|]; [|discriminate]. injection E4 as <-. cbn [d_trip d_coll d_part].
      destruct E1' as [i0 H0], E2' as [i1 H1], E3 as [i2 H2].
      rewrite (proj2 (sel_id_iff _ _ _ _ (dv_part _ I3)) H0), (proj2 (sel_id_iff _ _ _ _ (dv_part _ I3)) H1), (proj2 (sel_id_iff _ _ _ _ (dv_part _ I3)) H2).
      eexists. split; [rewrite <- T1, <- T2, <- T3; reflexivity|]. exists cid, i0, i1, i2. cbn. auto 12. }
    destruct R as (r & Er & Sr). destruct (IH d4 d' I4 Hc4 E) as ([G1 G2 G3] & new & En & F).
    pose proof (add_loop_duck cid c ts d4 I4 Hc4) as SL. rewrite E in SL.
    split.
    + split.
      * intros x Hx. apply G1. rewrite P4. auto.
      * intros v (t' & [<-|Ht] & Hp); [|apply G2; exists t'; auto].
        destruct Hp as [->|[->| ->]]; [destruct E1' as [i Hi]|destruct E2' as [i Hi]|destruct E3 as [i Hi]]; exists i; apply G1; rewrite P4; exact Hi.
      * intros i v Hi. apply G3 in Hi as [Hi|(t' & Ht & Hp)]; [|right; exists t'; split; [right; exact Ht|exact Hp]].
        rewrite P4 in Hi. apply O3 in Hi as [Hi| ->]; [|right; exists t; split; [left; reflexivity|right; right; reflexivity]].
        apply O2 in Hi as [Hi| ->]; [|right; exists t; split; [left; reflexivity|right; left; reflexivity]].
        apply O1 in Hi as [Hi| ->]; [left; exact Hi|right; exists t; split; [left; reflexivity|left; reflexivity]].
    + exists (r :: new). split; [rewrite En, Er, <- app_assoc; reflexivity|]. constructor; [|exact F].
      eapply shows_mono; [| |exact Sr]; [rewrite (da_coll _ _ _ _ SL); apply incl_refl|exact G1].
Qed.

Lemma remove_keep cid c : forall ts d, dinv d -> In (cid, c) (d_coll d) ->
  let d' := fold_left (fun acc t => duck_remove_trip acc cid t) ts d in
  d_part d' = d_part d /\ d_coll d' = d_coll d
  /\ exists keep, d_trip d' = filter keep (d_trip d)
     /\ forall r c' t, shows d r c' t -> (keep r = false <-> c' = c /\ In t ts).
Proof.
  induction ts as [|t ts IH]; intros d I Hc; cbn [fold_left].
  - split; [reflexivity|]. split; [reflexivity|]. exists (fun _ => true). split.
    + clear. induction (d_trip d) as [|x l IH]; cbn; [reflexivity|rewrite <- IH; reflexivity].
    + intros r c' t _. split; [discriminate|intros [_ []]].
  - pose proof (remove_trip_spec d cid c t I Hc) as [I1 C1 Q1 R1].
    assert (Hc' : In (cid, c) (d_coll (duck_remove_trip d cid t))) by (rewrite C1; exact Hc).
    destruct (IH _ I1 Hc') as (EP & EC & keep & EK & HK). split; [rewrite EP; reflexivity|]. split; [rewrite EC; reflexivity|].
    set (k1 := fun r => negb (sql_eq (tr_collection r) (Some cid)
                            && sql_eq (tr_first r) (sel_id (d_part d) (t0 t))
                            && sql_eq (tr_second r) (sel_id (d_part d) (t1 t))
                            && sql_eq (tr_third r) (sel_id (d_part d) (t2 t)))).
    exists (fun r => k1 r && keep r). split.
    + rewrite EK. cbn [d_trip duck_remove_trip]. fold k1. generalize (d_trip d). clear. induction l as [|x l IH]; cbn; [reflexivity|].
      destruct (k1 x); cbn; [destruct (keep x); rewrite IH; reflexivity|exact IH].
    + intros r c' t' Hs.
      assert (Hk1 : k1 r = false <-> c' = c /\ t' = t).
      { pose proof Hs as (ci & f & s & e & E1 & J1 & E2 & J2 & E3 & J3 & E4 & J4).
        unfold k1. rewrite negb_false_iff, !andb_true_iff, !sql_eq_true. rewrite E1, E2, E3, E4. split.
        - intros [[[(x & X1 & X2) (y & Y1 & Y2)] (z & Z1 & Z2)] (u & U1 & U2)].
          injection X1 as <-. injection X2 as <-. injection Y1 as <-. injection Z1 as <-. injection U1 as <-.
          apply sel_id_in in Y2, Z2, U2. split; [eapply id_unique; [apply (dv_coll _ I)|eassumption..]|].
          destruct t, t'; simpl in *.
          rewrite (id_unique _ _ _ _ _ (dv_part _ I) J2 Y2), (id_unique _ _ _ _ _ (dv_part _ I) J3 Z2),
            (id_unique _ _ _ _ _ (dv_part _ I) J4 U2). reflexivity.
        - intros [-> ->]. rewrite (proj2 (sel_id_iff _ _ _ _ (dv_part _ I)) J2), (proj2 (sel_id_iff _ _ _ _ (dv_part _ I)) J3),
            (proj2 (sel_id_iff _ _ _ _ (dv_part _ I)) J4).
          rewrite (name_unique _ _ _ _ _ (dv_coll _ I) J1 Hc). repeat split; eauto. }
      assert (Hs' : shows (duck_remove_trip d cid t) r c' t') by exact Hs.
      rewrite andb_false_iff, Hk1, (HK r c' t' Hs'). cbn [In]. intuition.
Qed.

Lemma nodup_app {A} (l l' : list A) : NoDup l -> NoDup l' -> (forall x, In x l -> In x l' -> False) -> NoDup (l ++ l').
Proof.
  intros D D' X. induction D as [|a l Ha D IH]; [exact D'|]. cbn. constructor.
  - intros H. apply in_app_or in H as [H|H]; [exact (Ha H)|]. apply (X a); [left; reflexivity|exact H].
  - apply IH. intros x H. apply X. right. exact H.
Qed.

Record dfill (d : duck) (H : list op) : Prop := {
  df_rows : exists Z : list (nat * nat * trip_row), map snd Z = d_trip d /\ NoDup (map fst Z)
    /\ forall p c t, (exists r, In (p, r) Z /\ shows d r c t) <-> standing_at H p c t;
  df_parts : forall v, (exists i, In (i, v) (d_part d)) <-> mentioned H v
}.

Lemma shows_same d d' r c t : dinv d -> dinv d' -> In r (d_trip d) -> incl (d_coll d) (d_coll d') -> incl (d_part d) (d_part d') ->
  (shows d' r c t <-> shows d r c t).
Proof.
  intros I I' Hr C P. split; [|apply shows_mono; assumption].
  intros S. destruct (dv_row _ I r Hr) as (c0 & u & S0).
  destruct (shows_unique _ _ _ _ _ _ I' S (shows_mono _ _ _ _ _ C P S0)) as [-> ->]. exact S0.
Qed.

Lemma dfill_new : dfill duck_new [].
Proof.
  split.
  - exists []. repeat split; try constructor.
    + intros (r & [] & _).
    + intros (h1 & ts & h2 & E & _). destruct h1; discriminate.
  - intros v. split; [intros [i []]|]. intros (c & ts & [] & _).
Qed.

(** The positions given to the rows of a new call. *)
Fixpoint places (n j : nat) (new : list trip_row) : list (nat * nat * trip_row) :=
  match new with [] => [] | r :: rest => ((n, j), r) :: places n (S j) rest end.

Lemma places_snd n new : forall j, map snd (places n j new) = new.
Proof. induction new as [|r new IH]; intros j; cbn; [reflexivity|rewrite IH; reflexivity]. Qed.

Lemma places_fst n new : forall j q, In q (map fst (places n j new)) -> fst q = n /\ j <= snd q.
Proof.
  induction new as [|r new IH]; intros j q; cbn; [intros []|]. intros [<-|H]; [cbn; auto|].
  apply IH in H as [A B]. split; [exact A|lia].
Qed.

Lemma places_nodup n new : forall j, NoDup (map fst (places n j new)).
Proof.
  induction new as [|r new IH]; intros j; cbn; [constructor|]. constructor; [|apply IH].
  intros H. apply places_fst in H as [_ H]. cbn in H. lia.
Qed.

Lemma places_in n new : forall j p r, In (p, r) (places n j new) <-> fst p = n /\ j <= snd p /\ nth_error new (snd p - j) = Some r.
Proof.
  induction new as [|x new IH]; intros j [a b] r; cbn [places In fst snd].
  - split; [intros []|]. intros (_ & _ & E). destruct (b - j); discriminate.
  - rewrite IH. cbn [fst snd]. split.
    + intros [E|(-> & L & N)].
      * injection E as <- <- <-. rewrite Nat.sub_diag. auto.
      * split; [reflexivity|]. split; [lia|]. replace (b - j) with (S (b - S j)) by lia. exact N.
    + intros (-> & L & N). destruct (Nat.eq_dec b j) as [->|D].
      * rewrite Nat.sub_diag in N. injection N as ->. left. reflexivity.
      * right. split; [reflexivity|]. split; [lia|]. replace (b - j) with (S (b - S j)) in N by lia. exact N.
Qed.

Lemma forall2_nth {A B} (R : A -> B -> Prop) l l' : Forall2 R l l' ->
  forall n, match nth_error l n, nth_error l' n with Some a, Some b => R a b | None, None => True | _, _ => False end.
Proof. intros F. induction F as [|a b l l' K F IH]; intros [|n]; cbn; auto. apply IH. Qed.

Lemma filter_map_snd {A B} (keep : B -> bool) (Z : list (A * B)) : map snd (filter (fun z => keep (snd z)) Z) = filter keep (map snd Z).
Proof. induction Z as [|z Z IH]; cbn; [reflexivity|]. destruct (keep (snd z)); cbn; rewrite IH; reflexivity. Qed.

Lemma mentioned_snoc' H o v : mentioned (H ++ [o]) v <-> mentioned H v \/ exists c ts, o = OAdd c ts /\ part_of v ts.
Proof.
  split.
  - intros (c & ts & Hi & Hp). apply in_app_or in Hi as [Hi|[->|[]]]; [left; exists c, ts; auto|right; exists c, ts; auto].
  - intros [(c & ts & Hi & Hp)|(c & ts & -> & Hp)]; exists c, ts; (split; [|exact Hp]); apply in_or_app; [left; exact Hi|right; left; reflexivity].
Qed.

Lemma dfill_same d d' H o : dinv d -> dinv d' -> d_trip d' = d_trip d -> d_part d' = d_part d ->
  (forall r c t, In r (d_trip d) -> (shows d' r c t <-> shows d r c t)) ->
  (forall c ts, o <> OAdd c ts) -> (forall c t r, In r (d_trip d) -> shows d r c t -> ~ removes c t o) ->
  dfill d H -> dfill d' (H ++ [o]).
Proof.
  intros I I' ET EP SH NA NR [(Z & E1 & E2 & E3) DP]. split.
  - exists Z. split; [congruence|]. split; [exact E2|]. intros p c t. rewrite standing_snoc, <- E3. split.
    + intros (r & Hr & S). assert (In r (d_trip d)) by (rewrite <- E1; apply (in_map snd) in Hr; exact Hr).
      apply SH in S; [|assumption]. right. split; [exists r; auto|eapply NR; eassumption].
    + intros [(ts & E & _)|[(r & Hr & S) _]]; [exfalso; eapply NA, E|]. exists r. split; [exact Hr|].
      apply SH; [|exact S]. rewrite <- E1. apply (in_map snd) in Hr. exact Hr.
  - intros v. rewrite EP, mentioned_snoc', DP. split; [auto|]. intros [M|(c & ts & E & _)]; [exact M|exfalso; eapply NA, E].
Qed.

Lemma dfill_step d H o : dinv d -> dfill d H ->
  dfill (snd (dcall d o)) (H ++ match fst (dcall d o) with Ok _ => [o] | _ => [] end).
Proof.
  intros I DF. pose proof (dinv_step d o I) as I'. destruct o as [c|c|c ts|c ts]; cbn [call_op duck_impl t_add_collection t_remove_collection t_add_triples t_remove_triples] in *.
  - unfold duck_add_collection in *. destruct (nextval (d_seq d)) as [i|]; cbn [fst snd] in *; [|rewrite app_nil_r; exact DF].
    destruct (sel_id (d_coll d) c) as [j|]; cbn [fst snd] in *; [rewrite app_nil_r; exact DF|].
    apply (dfill_same d); auto; try discriminate.
    + intros r c' t Hr. apply shows_same; auto; cbn [d_coll d_part]; [apply incl_appl|]; apply incl_refl.
    + intros c' t r _ _. inversion 1.
  - unfold duck_remove_collection in *. destruct (sel_id (d_coll d) c) as [i|] eqn:Es; cbn [fst snd] in *.
    + destruct (existsb _ (d_trip d)) eqn:Ex; cbn [fst snd] in *; [rewrite app_nil_r; exact DF|].
      apply (dfill_same d); auto; try discriminate.
      * intros r c' t Hr. symmetry. apply (shows_same _ d); auto; cbn [d_coll d_part]; [|apply incl_refl].
        intros x Hx. apply filter_In in Hx. tauto.
      * intros c' t r Hr (ci & f & s & e & A1 & A2 & _) K. inversion K; subst.
        rewrite <- not_true_iff_false, existsb_exists in Ex. apply Ex. exists r. split; [exact Hr|]. apply sql_eq_true. exists ci. split; [exact A1|].
        rewrite <- Es. apply sel_id_iff with (s := d_seq d); [apply (dv_coll _ I)|exact A2].
    + apply (dfill_same d); auto; try discriminate; [reflexivity|].
      intros c' t r _ (ci & f & s & e & _ & A2 & _) K. inversion K; subst. rewrite sel_id_none in Es. exact (Es _ A2).
  - unfold duck_add_triples, duck_get_collection_id in *. destruct (sel_id (d_coll d) c) as [i|] eqn:Es; cbn [fst snd] in *; [|rewrite app_nil_r; exact DF].
    cbn [tbind] in *. apply sel_id_in in Es. destruct (duck_add_loop d i ts) as [d'|e|w] eqn:El; cbn [fst snd] in *; try (rewrite app_nil_r; exact DF).
    pose proof (add_loop_duck i c ts d I Es) as SL. rewrite El in SL.
    destruct (add_loop_rows i c ts d d' I Es El) as ([G1 G2 G3] & new & En & F). destruct DF as [(Z & E1 & E2 & E3) DP]. split.
    + exists (Z ++ places (List.length H) 0 new). split; [rewrite map_app, places_snd, E1; symmetry; exact En|]. split.
      * rewrite map_app. apply nodup_app; [exact E2|apply places_nodup|].
        intros q Hq Hq'. apply places_fst in Hq' as [Eq _]. apply in_map_iff in Hq as ([q' r] & E & Hq). cbn in E. subst q'.
        assert (Hr : In r (d_trip d)) by (rewrite <- E1; apply (in_map snd) in Hq; exact Hq).
        destruct (dv_row _ I r Hr) as (c0 & u & S). assert (SA : standing_at H q c0 u) by (apply E3; exists r; auto).
        apply standing_bound in SA. lia.
      * intros p c' t. rewrite standing_snoc, <- E3. split.
        -- intros (r & Hr & S). apply in_app_or in Hr as [Hr|Hr].
           ++ right. split; [|inversion 1]. exists r. split; [exact Hr|].
              apply (shows_same d d') in S; auto; [rewrite <- E1; apply (in_map snd) in Hr; exact Hr|rewrite (da_coll _ _ _ _ SL); apply incl_refl].
           ++ left. apply places_in in Hr as (A1 & _ & A2). rewrite Nat.sub_0_r in A2. pose proof (forall2_nth _ _ _ F (snd p)) as Q. rewrite A2 in Q.
              destruct (nth_error ts (snd p)) as [u|] eqn:Eu; [|destruct Q]. destruct (shows_unique _ _ _ _ _ _ I' S Q) as [-> ->]. exists ts. auto.
        -- intros [(ts' & E & L & N)|[(r & Hr & S) _]].
           ++ injection E as -> ->. pose proof (forall2_nth _ _ _ F (snd p)) as Q. rewrite N in Q. destruct (nth_error new (snd p)) as [r|] eqn:Er; [|destruct Q].
              exists r. split; [|exact Q]. apply in_or_app. right. apply places_in. rewrite Nat.sub_0_r. repeat split; auto. lia.
           ++ exists r. split; [apply in_or_app; auto|]. apply (shows_same d d'); auto; [rewrite <- E1; apply (in_map snd) in Hr; exact Hr|rewrite (da_coll _ _ _ _ SL); apply incl_refl].
    + intros v. rewrite mentioned_snoc', <- DP. split.
      * intros [i' Hi]. apply G3 in Hi as [Hi|Hi]; [left; eauto|right; exists c, ts; auto].
      * intros [[i' Hi]|(c' & ts' & E & Hp)]; [exists i'; apply G1, Hi|]. injection E as <- <-. apply G2, Hp.
  - unfold duck_remove_triples, duck_get_collection_id in *. destruct (sel_id (d_coll d) c) as [i|] eqn:Es; cbn [fst snd] in *; [|rewrite app_nil_r; exact DF].
    apply sel_id_in in Es. destruct (remove_keep i c ts d I Es) as (EP & EC & keep & EK & HK).
    set (d' := fold_left _ ts d) in *. destruct DF as [(Z & E1 & E2 & E3) DP].
    assert (SH : forall r c' t, In r (d_trip d) -> (shows d' r c' t <-> shows d r c' t)).
    { intros r c' t Hr. apply shows_same; auto; [rewrite EC|rewrite EP]; apply incl_refl. }
    assert (IN : forall p r, In (p, r) Z -> In r (d_trip d)) by (intros p r Hr; rewrite <- E1; apply (in_map snd) in Hr; exact Hr).
    split.
    + exists (filter (fun z => keep (snd z)) Z). split; [rewrite filter_map_snd, E1, EK; reflexivity|]. split; [apply NoDup_map_filter, E2|].
      intros p c' t. rewrite standing_snoc, <- E3. split.
      * intros (r & Hr & S). apply filter_In in Hr as [Hr Hk]. cbn in Hk. apply SH in S; [|eapply IN, Hr]. right. split; [exists r; auto|].
        intros K. assert (keep r = false); [|congruence]. apply (HK r c' t S). inversion K; subst. auto.
      * intros [(ts' & E & _)|[(r & Hr & S) NR]]; [discriminate|]. exists r. split; [|apply SH; [eapply IN, Hr|exact S]].
        apply filter_In. split; [exact Hr|]. cbn. destruct (keep r) eqn:Hk; [reflexivity|]. exfalso. apply NR.
        apply (HK r c' t S) in Hk as [-> Hi]. constructor. exact Hi.
    + intros v. rewrite EP, mentioned_snoc', DP. split; [auto|]. intros [M|(c' & ts' & E & _)]; [exact M|discriminate].
Qed.

Lemma dfill_reach h : dfill (dafter duck_new h) (acked duck_impl duck_new h).
Proof.
  induction h as [|o h IH] using rev_ind; [apply dfill_new|].
  rewrite after_snoc, acked_snoc. apply dfill_step; [apply dinv_reach|exact IH].
Qed.

Lemma duck_space h : let H := acked duck_impl duck_new h in let d := dafter duck_new h in
  number (standing H) (List.length (d_trip d)) /\ number (mentioned H) (List.length (d_part d)) /\ number (live H) (List.length (d_coll d)).
Proof.
  intros H d. pose proof (dinv_reach h) as I. pose proof (duck_simulates h) as SM. destruct (dfill_reach h) as [(Z & E1 & E2 & E3) DP].
  fold d in I, SM, E1, E3, DP. fold H in SM, E3, DP.
  assert (TN : forall s t P, table_ok s t -> (forall v : str, (exists i, In (i, v) t) <-> P v) -> number P (List.length t)).
  { intros s t P T K. exists (map snd t). split; [apply T|]. split; [|apply map_length]. intros v. rewrite <- K, in_map_iff. split.
    - intros ([i n] & <- & Hi). exists i. exact Hi.
    - intros [i Hi]. exists (i, v). auto. }
  split; [|split].
  - exists (map fst Z). split; [exact E2|]. split; [|rewrite <- E1, !map_length; reflexivity].
    intros p. rewrite standing_iff, in_map_iff. split.
    + intros ([q r] & <- & Hr). assert (Hi : In r (d_trip d)) by (rewrite <- E1; apply (in_map snd) in Hr; exact Hr).
      destruct (dv_row _ I r Hi) as (c & t & S). exists c, t. apply E3. exists r. auto.
    + intros (c & t & S). apply E3 in S as (r & Hr & _). exists (p, r). auto.
  - eapply TN; [apply (dv_part _ I)|exact DP].
  - eapply TN; [apply (dv_coll _ I)|apply (ds_coll _ _ SM)].
Qed.
