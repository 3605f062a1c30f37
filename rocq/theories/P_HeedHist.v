(** * LMDB store: histories *)
From Coq Require Import List Arith NArith Bool Lia.
From Verif Require Import M_Base M_Data M_Heed S_Order P_Ord S_Store P_Hist S_Codec P_Codec S_Str P_Heed.
Import ListNotations.
Open Scope list_scope.

Notation hcall b := (call_op (heed_impl_c b)).

(** ** Installing a transaction *)

Lemma run_tx_false {A} d (t : tx A) : snd (run_tx false d t) = d.
Proof. destruct t; reflexivity. Qed.

(** ** One call *)

(** The store before and after a call, and what it answered. *)
Inductive step_ok (d : heed) : op -> bool -> tres unit -> heed -> Prop :=
| sk_noop_add c b i : sg c (h_c2i d) = Some i -> step_ok d (OAddColl c) b (Ok tt) d
| sk_add_coll c : sg c (h_c2i d) = None -> alloc_ok d -> inv (with_coll d c) ->
    step_ok d (OAddColl c) true (Ok tt) (with_coll d c)
| sk_add_coll_ovf c b : sg c (h_c2i d) = None -> ~ alloc_ok d -> step_ok d (OAddColl c) b (Panic POverflow) d
| sk_rem_coll c i : sg c (h_c2i d) = Some i -> inv (without_coll d c i) ->
    step_ok d (ORemColl c) true (Ok tt) (without_coll d c i)
| sk_rem_coll_missing c b : sg c (h_c2i d) = None -> step_ok d (ORemColl c) b (Panic PTodo) d
| sk_add c cid ts d' : sg c (h_c2i d) = Some cid -> added_to d d' cid ts ->
    step_ok d (OAdd c ts) true (Ok tt) d'
| sk_add_ovf c cid ts b k : sg c (h_c2i d) = Some cid -> counter d = Some k ->
    (u64_max < k + 3 * N.of_nat (List.length ts))%N -> step_ok d (OAdd c ts) b (Panic POverflow) d
| sk_add_missing c ts b : sg c (h_c2i d) = None -> step_ok d (OAdd c ts) b (Panic PTodo) d
| sk_rem c cid ts d' : sg c (h_c2i d) = Some cid -> all_known d ts -> removed_from d d' cid ts ->
    step_ok d (ORem c ts) true (Ok tt) d'
| sk_rem_unknown c cid ts b : sg c (h_c2i d) = Some cid -> ~ all_known d ts ->
    step_ok d (ORem c ts) b (Panic PTodo) d
| sk_rem_missing c ts b : sg c (h_c2i d) = None -> step_ok d (ORem c ts) b (Panic PTodo) d
| sk_lost_add_coll c : sg c (h_c2i d) = None -> alloc_ok d -> step_ok d (OAddColl c) false (Ok tt) d
| sk_lost_rem_coll c i : sg c (h_c2i d) = Some i -> step_ok d (ORemColl c) false (Ok tt) d
| sk_lost_add c cid ts : sg c (h_c2i d) = Some cid -> step_ok d (OAdd c ts) false (Ok tt) d
| sk_lost_rem c cid ts : sg c (h_c2i d) = Some cid -> all_known d ts -> step_ok d (ORem c ts) false (Ok tt) d.

Lemma step_ok_call d o b : inv d -> step_ok d o b (fst (hcall b d o)) (snd (hcall b d o)).
Proof.
  intros I. destruct o as [c|c|c ts|c ts]; simpl.
  - unfold heed_add_collection. rewrite add_collection_tx_spec by exact I.
    destruct (sg c (h_c2i d)) as [i|] eqn:E; [simpl; eapply sk_noop_add, E|].
    destruct (alloc_ok_dec d) as [HA|HA]; simpl; [|apply sk_add_coll_ovf; assumption].
    destruct b; [apply sk_add_coll; auto using with_coll_inv|apply sk_lost_add_coll; assumption].
  - unfold heed_remove_collection. rewrite remove_collection_tx_spec by exact I.
    destruct (sg c (h_c2i d)) as [i|] eqn:E; simpl; [|apply sk_rem_coll_missing; assumption].
    destruct b; [apply sk_rem_coll; auto using without_coll_inv|eapply sk_lost_rem_coll; eassumption].
  - unfold heed_add_triples. simpl. pose proof (add_triples_tx_spec d c ts I) as H.
    destruct (sg c (h_c2i d)) as [cid|] eqn:E.
    + destruct H as [(d' & H & A)|(H & k & Hk & Hov)]; rewrite H; simpl.
      * destruct b; [eapply sk_add; eassumption|eapply sk_lost_add; eassumption].
      * eapply sk_add_ovf; eassumption.
    + rewrite H. simpl. apply sk_add_missing, E.
  - unfold heed_remove_triples. simpl. pose proof (remove_triples_tx_spec d c ts I) as H.
    destruct (sg c (h_c2i d)) as [cid|] eqn:E.
    + destruct H as [H1 H2]. destruct (all_known_dec d ts) as [HK|HK].
      * destruct (H1 HK) as (d' & E' & R). rewrite E'. simpl.
        destruct b; [eapply sk_rem; eassumption|eapply sk_lost_rem; eassumption].
      * rewrite (H2 HK). simpl. eapply sk_rem_unknown; eassumption.
    + rewrite H. simpl. apply sk_rem_missing, E.
Qed.

Lemma inv_step d o b : inv d -> inv (snd (hcall b d o)).
Proof.
  intros I. pose proof (step_ok_call d o b I) as H. revert H.
  generalize (fst (hcall b d o)) as r. generalize (snd (hcall b d o)) as d'. intros d' r H.
  destruct H; try assumption; [apply (ad_inv _ _ _ _ H0)|apply (rm_inv _ _ _ _ H1)].
Qed.

Notation hafter := (after_f heed_impl_c).

Lemma after_f_app {S} (I : bool -> trips_impl S) s h1 h2 : after_f I s (h1 ++ h2) = after_f I (after_f I s h1) h2.
Proof. revert s. induction h1 as [|[o b] h1 IH]; simpl; intros s; [reflexivity|apply IH]. Qed.

Lemma installed_app {S} (I : bool -> trips_impl S) s h1 h2 :
  installed I s (h1 ++ h2) = installed I s h1 ++ installed I (after_f I s h1) h2.
Proof.
  revert s. induction h1 as [|[o b] h1 IH]; simpl; intros s; [reflexivity|].
  destruct (call_op (I b) s o) as [[a|e|w] s'] eqn:E; simpl; try apply IH.
  destruct b; simpl; rewrite IH; reflexivity.
Qed.

Lemma installed_snoc {S} (I : bool -> trips_impl S) s h o b :
  installed I s (h ++ [(o, b)])
  = installed I s h ++ match fst (call_op (I b) (after_f I s h) o) with Ok _ => if b then [o] else [] | _ => [] end.
Proof.
  rewrite installed_app. f_equal. simpl.
  destruct (call_op (I b) (after_f I s h) o) as [[| |] ?]; reflexivity.
Qed.

Lemma after_f_snoc {S} (I : bool -> trips_impl S) s h o b :
  after_f I s (h ++ [(o, b)]) = snd (call_op (I b) (after_f I s h) o).
Proof. rewrite after_f_app. reflexivity. Qed.

Lemma inv_reach h : inv (hafter heed_new h).
Proof.
  induction h as [|[o b] h IH] using rev_ind; [apply inv_new|]. rewrite after_f_snoc. apply inv_step, IH.
Qed.

(** ** The main simulation *)

Record simulates (d : heed) (H : list op) : Prop := {
  sm_coll : forall c, (exists i, sg c (h_c2i d) = Some i) <-> storable c /\ live H c;
  sm_row : forall c i t, sg c (h_c2i d) = Some i -> (vrow d i t <-> holds_after H c t);
  sm_dead : forall c t, holds_after H c t -> storable c;
  sm_dict : forall v, (exists i, sg v (h_v2i d) = Some i) <-> storable v /\ mentioned H v
}.

Lemma mentioned_snoc h o v :
  mentioned (h ++ [o]) v <-> mentioned h v \/ (exists c ts, o = OAdd c ts /\ part_of v ts).
Proof.
  unfold mentioned. split.
  - intros (c & ts & Hi & Hp). apply in_app_or in Hi as [Hi|[Hi|[]]]; [left|right]; eauto.
  - intros [(c & ts & Hi & Hp)|(c & ts & -> & Hp)]; exists c, ts; (split; [|exact Hp]); apply in_or_app; [auto|].
    right; left; reflexivity.
Qed.

Lemma holds_after_snoc h o c t :
  holds_after (h ++ [o]) c t
  <-> (exists ts, o = OAdd c ts /\ In t ts /\ live h c) \/ (holds_after h c t /\ ~ removes c t o).
Proof. apply added_snoc. Qed.

Lemma holds_after_live h c t : holds_after h c t -> live h c.
Proof. apply added_live. constructor. Qed.

Lemma u64_c2i d c i : inv d -> sg c (h_c2i d) = Some i -> is_u64 i.
Proof. intros I E. eapply u64_below, c2i_below; [apply I|apply I|exact E]. Qed.

Lemma c2i_inj d c c' i : inv d -> sg c (h_c2i d) = Some i -> sg c' (h_c2i d) = Some i -> c = c'.
Proof. intros I E E'. apply (iv_c2i _ _ (iv_b _ I)) in E, E'. congruence. Qed.

Lemma simulates_new : simulates heed_new [].
Proof.
  split; simpl.
  - intros c. split; [intros [i E]; discriminate|]. intros [_ H]. exfalso. eapply live_nil, H.
  - intros c i t E. discriminate.
  - intros c t H. exfalso. eapply added_nil, H.
  - intros v. split; [intros [i E]; discriminate|]. intros [_ (c & ts & [] & _)].
Qed.

Lemma simulates_step d H o b : inv d -> simulates d H ->
  simulates (snd (hcall b d o))
    (H ++ match fst (hcall b d o) with Ok _ => if b then [o] else [] | _ => [] end).
Proof.
  intros I SM. pose proof (step_ok_call d o b I) as HS. revert HS.
  generalize (fst (hcall b d o)) as r. generalize (snd (hcall b d o)) as d'. intros d' r HS.
  destruct HS as [c b i E|c E HA HI|c b E HA|c i E HI|c b E|c cid ts d' E A|c cid ts b k E Ek Hov|c ts b E
                 |c cid ts d' E HK R|c cid ts b E HK|c ts b E|c E HA|c i E|c cid ts E|c cid ts E HK];
    try (rewrite app_nil_r; exact SM).
  - (* adding an existing collection *)
    destruct b; [|rewrite app_nil_r; exact SM].
    assert (Hlive : storable c /\ live H c) by (apply (sm_coll _ _ SM); eauto).
    split.
    + intros c'. rewrite (sm_coll _ _ SM), live_snoc. split.
      * intros [Hs Hl]. split; [exact Hs|]. right. split; [exact Hl|discriminate].
      * intros [Hs [Ho|[Hl _]]]; [injection Ho as <-; tauto|auto].
    + intros c' i' t E'. rewrite (sm_row _ _ SM _ _ _ E'), holds_after_snoc. split.
      * intros Hh. right. split; [exact Hh|inversion 1].
      * intros [(ts & Ho & _)|[Hh _]]; [discriminate|exact Hh].
    + intros c' t Hh. apply holds_after_snoc in Hh as [(ts & Ho & _)|[Hh _]]; [discriminate|].
      eapply (sm_dead _ _ SM), Hh.
    + intros v. rewrite (sm_dict _ _ SM), mentioned_snoc. split; [tauto|].
      intros [Hs [Hm|(c' & ts & Ho & _)]]; [auto|discriminate].
  - (* adding a new collection *)
    assert (Hdead : storable c -> ~ live H c).
    { intros Hs Hl. assert (exists i, sg c (h_c2i d) = Some i) as [i Ei] by (apply (sm_coll _ _ SM); auto). congruence. }
    split.
    + intros c'. rewrite with_coll_get, live_snoc by assumption. destruct (str_dec c' c) as [->|Hn].
      * destruct (storable_dec c) as [Hs|Hs].
        -- split; [auto|eauto].
        -- split; [intros [i Ei]; discriminate|tauto].
      * rewrite (sm_coll _ _ SM). split; [intros [Hs Hl]; split; [exact Hs|]; right; split; [exact Hl|discriminate]|].
        intros [Hs [Ho|[Hl _]]]; [congruence|auto].
    + intros c' i' t. rewrite with_coll_get by assumption. destruct (str_dec c' c) as [->|Hn].
      * destruct (storable_dec c) as [Hs|Hs]; [|discriminate]. intros E'. injection E' as <-.
        change (vrow (with_coll d c) (next_counter d) t) with (vrow d (next_counter d) t).
        split; [intros Hv; exfalso; exact (fresh_vrow d t I HA Hv)|].
        intros Hh. apply holds_after_snoc in Hh as [(ts & Ho & _)|[Hh _]]; [discriminate|].
        exfalso. apply (Hdead Hs). eapply holds_after_live, Hh.
      * intros E'. change (vrow (with_coll d c) i' t) with (vrow d i' t).
        rewrite (sm_row _ _ SM _ _ _ E'), holds_after_snoc. split.
        -- intros Hh. right. split; [exact Hh|inversion 1].
        -- intros [(ts & Ho & _)|[Hh _]]; [discriminate|exact Hh].
    + intros c' t Hh. apply holds_after_snoc in Hh as [(ts & Ho & _)|[Hh _]]; [discriminate|].
      eapply (sm_dead _ _ SM), Hh.
    + intros v. change (h_v2i (with_coll d c)) with (h_v2i d). rewrite (sm_dict _ _ SM), mentioned_snoc.
      split; [tauto|]. intros [Hs [Hm|(c' & ts & Ho & _)]]; [auto|discriminate].
  - (* removing a collection *)
    split.
    + intros c'. rewrite without_coll_get, live_snoc by assumption. destruct (str_dec c' c) as [->|Hn].
      * split; [intros [? ?]; discriminate|]. intros [_ [Ho|[_ Ho]]]; congruence.
      * rewrite (sm_coll _ _ SM). split; [intros [Hs Hl]; split; [exact Hs|]; right; split; [exact Hl|congruence]|].
        intros [Hs [Ho|[Hl _]]]; [discriminate|auto].
    + intros c' i' t. rewrite without_coll_get by assumption. destruct (str_dec c' c) as [->|Hn]; [discriminate|].
      intros E'. change (vrow (without_coll d c i) i' t) with (vrow d i' t).
      rewrite (sm_row _ _ SM _ _ _ E'), holds_after_snoc. split.
      * intros Hh. right. split; [exact Hh|]. inversion 1; congruence.
      * intros [(ts & Ho & _)|[Hh _]]; [discriminate|exact Hh].
    + intros c' t Hh. apply holds_after_snoc in Hh as [(ts & Ho & _)|[Hh _]]; [discriminate|].
      eapply (sm_dead _ _ SM), Hh.
    + intros v. change (h_v2i (without_coll d c i)) with (h_v2i d). rewrite (sm_dict _ _ SM), mentioned_snoc.
      split; [tauto|]. intros [Hs [Hm|(c' & ts & Ho & _)]]; [auto|discriminate].
  - (* adding triples *)
    assert (Hlive : storable c /\ live H c) by (apply (sm_coll _ _ SM); eauto).
    destruct A as [A1 A2 A3 A4 A5 A6 A7 A8 A9]. split.
    + intros c'. rewrite A2, (sm_coll _ _ SM), live_snoc. split.
      * intros [Hs Hl]. split; [exact Hs|]. right. split; [exact Hl|discriminate].
      * intros [Hs [Ho|[Hl _]]]; [discriminate|auto].
    + intros c' i' t E'. rewrite A2 in E'. assert (U : is_u64 i') by (exact (u64_c2i d _ _ I E')).
      rewrite A4 by exact U. rewrite (sm_row _ _ SM _ _ _ E'), holds_after_snoc. split.
      * intros [Hh|[-> Hi]]; [right; split; [exact Hh|inversion 1]|].
        left. assert (c' = c) as -> by (exact (c2i_inj d _ _ _ I E' E)). exists ts. tauto.
      * intros [(ts' & Ho & Hi & Hl)|[Hh _]]; [|auto]. injection Ho as <- <-. right.
        split; [congruence|exact Hi].
    + intros c' t Hh. apply holds_after_snoc in Hh as [(ts' & Ho & _)|[Hh _]]; [injection Ho as <- <-; tauto|].
      eapply (sm_dead _ _ SM), Hh.
    + intros v. rewrite mentioned_snoc. split.
      * intros [i Hv]. destruct (A8 v i Hv) as [Hj|Hp].
        -- apply (sm_dict _ _ SM) in Hj. tauto.
        -- split; [eapply (iv_v2i_key _ _ (iv_b _ A1)), Hv|eauto].
      * intros [Hs [Hm|(c' & ts' & Ho & Hp)]].
        -- destruct (proj2 (sm_dict _ _ SM v) (conj Hs Hm)) as [i Hi]. exists i. apply A5, Hi.
        -- injection Ho as <- <-. apply A7; assumption.
  - (* removing triples *)
    destruct R as [R1 R2 R3 R4 R5 R6 R7]. split.
    + intros c'. rewrite R3, (sm_coll _ _ SM), live_snoc. split.
      * intros [Hs Hl]. split; [exact Hs|]. right. split; [exact Hl|discriminate].
      * intros [Hs [Ho|[Hl _]]]; [discriminate|auto].
    + intros c' i' t E'. rewrite R3 in E'. assert (U : is_u64 i') by (exact (u64_c2i d _ _ I E')).
      rewrite R7 by exact U. rewrite (sm_row _ _ SM _ _ _ E'), holds_after_snoc. split.
      * intros [Hh Hn]. right. split; [exact Hh|]. inversion 1; subst. apply Hn. split; [congruence|assumption].
      * intros [(ts' & Ho & _)|[Hh Hn]]; [discriminate|]. split; [exact Hh|]. intros [-> Hi].
        assert (c' = c) as -> by (exact (c2i_inj d _ _ _ I E' E)). apply Hn. constructor. exact Hi.
    + intros c' t Hh. apply holds_after_snoc in Hh as [(ts' & Ho & _)|[Hh _]]; [discriminate|].
      eapply (sm_dead _ _ SM), Hh.
    + intros v. rewrite R5, (sm_dict _ _ SM), mentioned_snoc.
      split; [tauto|]. intros [Hs [Hm|(c' & ts' & Ho & _)]]; [auto|discriminate].
Qed.

Lemma heed_simulates h : simulates (hafter heed_new h) (installed heed_impl_c heed_new h).
Proof.
  induction h as [|[o b] h IH] using rev_ind; [apply simulates_new|].
  rewrite after_f_snoc, installed_snoc. apply simulates_step; [apply inv_reach|exact IH].
Qed.

(** ** Observations *)

Lemma heed_has b d c : has (heed_impl_c b) d c <-> exists i, sg c (h_c2i d) = Some i.
Proof.
  unfold has. simpl. unfold heed_collections. rewrite (bm_get_in_keys str_order). split.
  - intros (l & E & H). injection E as <-. exact H.
  - intros H. eauto.
Qed.

Lemma heed_holds b d c t : inv d ->
  (holds (heed_impl_c b) d c t <-> exists i, sg c (h_c2i d) = Some i /\ vrow d i t).
Proof.
  intros I. unfold holds. simpl. pose proof (heed_triples_spec d c I) as H.
  destruct (sg c (h_c2i d)) as [i|] eqn:E.
  - destruct H as (l & El & _ & Hl). rewrite El. split.
    + intros (l' & E' & Hi). injection E' as <-. exists i. split; [reflexivity|]. apply Hl, Hi.
    + intros (i' & E' & Hv). injection E' as <-. exists l. split; [reflexivity|]. apply Hl, Hv.
  - rewrite H. split; [intros (l & E' & _); discriminate|intros (i & E' & _); discriminate].
Qed.

Lemma sim_holds b d H c t : inv d -> simulates d H -> (holds (heed_impl_c b) d c t <-> holds_after H c t).
Proof.
  intros I SM. rewrite heed_holds by exact I. split.
  - intros (i & E & Hv). eapply (sm_row _ _ SM); eassumption.
  - intros Hh. assert (Hs : storable c) by (eapply (sm_dead _ _ SM), Hh).
    assert (exists i, sg c (h_c2i d) = Some i) as [i E].
    { apply (sm_coll _ _ SM). split; [exact Hs|]. eapply holds_after_live, Hh. }
    exists i. split; [exact E|]. apply (sm_row _ _ SM _ _ _ E), Hh.
Qed.

(** Everything a reader sees after a history, with arbitrary commit outcomes. *)
Lemma heed_history h :
  let d := hafter heed_new h in
  let H := installed heed_impl_c heed_new h in
  (exists l, t_collections heed_impl d = Ok l /\ is_set str_lt l
             /\ forall c, In c l <-> storable c /\ live H c)
  /\ (forall c, storable c -> live H c ->
      exists l, t_triples heed_impl d c = Ok l /\ is_set trip_lt l /\ forall t, In t l <-> holds_after H c t)
  /\ (forall c, ~ (storable c /\ live H c) -> exists w, t_triples heed_impl d c = Panic w).
Proof.
  intros d H. assert (I : inv d) by apply inv_reach. pose proof (heed_simulates h) as SM. fold d H in SM.
  split; [|split].
  - exists (map fst (h_c2i d)). split; [reflexivity|]. split; [apply (iv_c2i_map _ _ (iv_b _ I))|].
    intros c. rewrite <- (sm_coll _ _ SM), (bm_get_in_keys str_order). reflexivity.
  - intros c Hs Hl. assert (exists i, sg c (h_c2i d) = Some i) as [i E] by (apply (sm_coll _ _ SM); auto).
    pose proof (heed_triples_spec d c I) as HT. rewrite E in HT. destruct HT as (l & El & Hset & Hl').
    exists l. split; [exact El|]. split; [exact Hset|]. intros t. rewrite Hl'. apply (sm_row _ _ SM _ _ _ E).
  - intros c Hn. pose proof (heed_triples_spec d c I) as HT.
    destruct (sg c (h_c2i d)) as [i|] eqn:E; [exfalso; apply Hn, (sm_coll _ _ SM); eauto|]. eauto.
Qed.

(** Histories whose commits all succeed. *)
Definition sure (h : list op) : list (op * bool) := map (fun o => (o, true)) h.

Lemma after_sure d h : after_f heed_impl_c d (sure h) = after heed_impl d h.
Proof. revert d. induction h as [|o h IH]; simpl; intros d; [reflexivity|apply IH]. Qed.

Lemma installed_sure d h : installed heed_impl_c d (sure h) = acked heed_impl d h.
Proof.
  revert d. induction h as [|o h IH]; intros d; [reflexivity|]. cbn [sure map installed acked].
  change (heed_impl_c true) with heed_impl.
  destruct (call_op heed_impl d o) as [[a|e|w] d']; simpl; change (map _ h) with (sure h); rewrite IH; reflexivity.
Qed.

Lemma acked_in {S} (I : trips_impl S) : forall h s o, In o (acked I s h) -> In o h.
Proof.
  induction h as [|o' h IH]; intros s o; simpl; [tauto|].
  destruct (call_op I s o') as [[a|e|w] s']; simpl; [intros [<-|H]|intros H|intros H]; eauto.
Qed.

Lemma heed_history_sure h :
  (forall c, In (OAddColl c) h -> storable c) ->
  let d := after heed_impl heed_new h in
  let H := acked heed_impl heed_new h in
  (exists l, t_collections heed_impl d = Ok l /\ is_set str_lt l /\ forall c, In c l <-> live H c)
  /\ (forall c, live H c ->
      exists l, t_triples heed_impl d c = Ok l /\ is_set trip_lt l /\ forall t, In t l <-> holds_after H c t)
  /\ (forall c, ~ live H c -> exists w, t_triples heed_impl d c = Panic w).
Proof.
  intros Hst d H. pose proof (heed_history (sure h)) as HH. rewrite after_sure, installed_sure in HH.
  fold d H in HH. simpl in HH. destruct HH as (H1 & H2 & H3).
  assert (Hls : forall c, live H c -> storable c).
  { intros c Hl. apply Hst. eapply acked_in, live_in, Hl. }
  split; [|split].
  - destruct H1 as (l & El & Hset & Hl). exists l. split; [exact El|]. split; [exact Hset|].
    intros c. rewrite Hl. split; [tauto|]. auto.
  - intros c Hl. apply H2; auto.
  - intros c Hl. apply H3. tauto.
Qed.

(** ** Exact answers *)

Lemma sim_has b d H c : simulates d H -> (has (heed_impl_c b) d c <-> storable c /\ live H c).
Proof. intros SM. rewrite heed_has. apply (sm_coll _ _ SM). Qed.

Lemma sim_known d H ts : simulates d H ->
  (all_known d ts <-> forall v, part_of v ts -> storable v /\ mentioned H v).
Proof.
  intros SM. unfold all_known. split; intros HK v Hp; apply (sm_dict _ _ SM), HK, Hp.
Qed.

(** ** The counter *)

Definition used (d : heed) : N := next_counter d.

Lemma used_step d o b : inv d ->
  (used d <= used (snd (hcall b d o)) /\ used (snd (hcall b d o)) <= used d + weight o)%N.
Proof.
  intros I. pose proof (step_ok_call d o b I) as HS. revert HS.
  generalize (fst (hcall b d o)) as r. generalize (snd (hcall b d o)) as d'. intros d' r HS.
  unfold used. destruct HS as [c b i E|c E HA HI|c b E HA|c i E HI|c b E|c cid ts d' E A|c cid ts b k E Ek Hov|c ts b E
                 |c cid ts d' E HK R|c cid ts b E HK|c ts b E|c E HA|c i E|c cid ts E|c cid ts E HK];
    try (simpl; lia).
  - assert (N' : next_counter (with_coll d c) = (next_counter d + 1)%N).
    { unfold next_counter at 1, with_coll. rewrite counter_sput. reflexivity. }
    rewrite N'. cbn [weight]. lia.
  - change (next_counter (without_coll d c i)) with (next_counter d). simpl. lia.
  - destruct (c2i_below _ _ _ _ (iv_b _ I) E) as (k & Ek & _).
    destruct (ad_counter _ _ _ _ A k Ek) as (k' & Ek' & Hle & Hle').
    unfold next_counter. rewrite Ek, Ek'. cbn [weight]. lia.
  - unfold next_counter, counter. rewrite (rm_ids _ _ _ _ R). simpl. lia.
Qed.

Lemma total_weight_app h1 h2 : (total_weight (h1 ++ h2) = total_weight h1 + total_weight h2)%N.
Proof.
  induction h1 as [|o h1 IH]; [reflexivity|].
  change (total_weight ((o :: h1) ++ h2)) with (weight o + total_weight (h1 ++ h2))%N.
  change (total_weight (o :: h1)) with (weight o + total_weight h1)%N. lia.
Qed.

Lemma used_after h d : inv d ->
  (used d <= used (hafter d h) /\ used (hafter d h) <= used d + total_weight (map fst h))%N.
Proof.
  revert d. induction h as [|[o b] h IH]; intros d I; [simpl; lia|].
  cbn [after_f map total_weight fold_right fst]. fold (total_weight (map fst h)).
  pose proof (used_step d o b I). pose proof (IH (snd (hcall b d o)) (inv_step d o b I)). lia.
Qed.

Lemma used_bound h : (used (hafter heed_new h) <= total_weight (map fst h))%N.
Proof.
  pose proof (used_after h heed_new inv_new) as [_ H]. exact H.
Qed.

Lemma map_fst_sure h : map fst (sure h) = h.
Proof. unfold sure. rewrite map_map. simpl. apply map_id. Qed.

(** With ids to spare no call overflows. *)
Lemma no_overflow h o b : (total_weight (map fst h ++ [o]) < 2 ^ 64)%N ->
  fst (hcall b (hafter heed_new h) o) <> Panic POverflow.
Proof.
  intros Hw. rewrite total_weight_app in Hw. cbn [total_weight fold_right] in Hw.
  fold (total_weight (map fst h)) in Hw.
  pose proof (used_bound h) as Hu. set (d := hafter heed_new h) in *.
  assert (I : inv d) by apply inv_reach.
  pose proof (step_ok_call d o b I) as HS. revert HS.
  generalize (fst (hcall b d o)) as r. generalize (snd (hcall b d o)) as d'. intros d' r HS.
  destruct HS as [| |c b E HA| | | |c cid ts b k E Ek Hov| | | | | | | |]; try discriminate.
  - exfalso. apply HA. intros k Ek. unfold used, next_counter in Hu. rewrite Ek in Hu.
    cbn [weight] in Hw. unfold u64_max. change (2 ^ 64)%N with 18446744073709551616%N in Hw. lia.
  - exfalso. unfold used, next_counter in Hu. rewrite Ek in Hu. cbn [weight] in Hw.
    unfold u64_max in Hov. change (2 ^ 64)%N with 18446744073709551616%N in Hw. lia.
Qed.

(** C20: what each call answers, when ids do not run out. *)
Lemma heed_answers h o b :
  (total_weight (map fst h ++ [o]) < 2 ^ 64)%N ->
  let d := hafter heed_new h in
  let H := installed heed_impl_c heed_new h in
  let r := fst (hcall b d o) in
  match o with
  | OAddColl c => r = Ok tt
  | ORemColl c | OAdd c _ =>
      (has heed_impl d c -> r = Ok tt) /\ (~ has heed_impl d c -> r = Panic PTodo)
  | ORem c ts =>
      (has heed_impl d c /\ (forall v, part_of v ts -> storable v /\ mentioned H v) -> r = Ok tt)
      /\ (~ (has heed_impl d c /\ (forall v, part_of v ts -> storable v /\ mentioned H v)) -> r = Panic PTodo)
  end.
Proof.
  intros Hw d H r. assert (I : inv d) by apply inv_reach. pose proof (heed_simulates h) as SM. fold d H in SM.
  pose proof (no_overflow h o b Hw) as Hno. fold d r in Hno.
  pose proof (step_ok_call d o b I) as HS. fold r in HS. revert HS Hno.
  generalize (snd (hcall b d o)) as d'. clearbody r. intros d' HS Hno.
  destruct HS as [c b i E|c E HA HI|c b E HA|c i E HI|c b E|c cid ts d' E A|c cid ts b k E Ek Hov|c ts b E
                 |c cid ts d' E HK R|c cid ts b E HK|c ts b E|c E HA|c i E|c cid ts E|c cid ts E HK];
    try reflexivity; try congruence; unfold heed_impl; rewrite heed_has; rewrite <- ?(sim_known d H ts SM);
    (split; [|]); intros HH; try reflexivity.
  all: try (exfalso; apply HH; eauto; fail).
  all: try (exfalso; destruct HH as [i' E']; congruence).
  all: exfalso; destruct HH as [[i' E'] ?]; congruence.
Qed.

(** C17: all or nothing. *)
Lemma heed_atomic h o b :
  let d := hafter heed_new h in
  let H := installed heed_impl_c heed_new h in
  let r := fst (hcall b d o) in
  let d' := snd (hcall b d o) in
  (d' = d
   \/ (r = Ok tt /\ b = true
       /\ (forall c, has heed_impl d' c <-> storable c /\ live (H ++ [o]) c)
       /\ (forall c t, holds heed_impl d' c t <-> holds_after (H ++ [o]) c t)))
  /\ (r <> Ok tt -> d' = d) /\ (b = false -> d' = d).
Proof.
  intros d H r d'. assert (I : inv d) by apply inv_reach.
  pose proof (heed_simulates (h ++ [(o, b)])) as SM. rewrite after_f_snoc, installed_snoc in SM.
  fold d H r d' in SM.
  assert (I' : inv d') by (apply inv_step, I).
  assert (Hd : r <> Ok tt \/ b = false -> d' = d).
  { intros Hc. pose proof (step_ok_call d o b I) as HS. fold r d' in HS. clear SM. clearbody r d'.
    destruct HS; try reflexivity; destruct Hc; congruence. }
  split; [|split; auto].
  destruct r as [[]|e|w] eqn:Er; try (left; apply Hd; left; discriminate).
  destruct b; [|left; auto]. right. split; [reflexivity|]. split; [reflexivity|]. split.
  - intros c. apply (sim_has true d' _ c SM).
  - intros c t. apply (sim_holds true d' _ c t I' SM).
Qed.
