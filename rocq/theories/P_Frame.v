(** * Collections do not interfere *)
From Coq Require Import List NArith Bool Arith Lia String.
From Verif Require Import M_Base M_Data M_Mem M_Heed M_Duck S_Order S_Str S_Store S_Interp S_Frame
  P_Ord P_Hist P_Agree P_Mem P_Heed P_HeedHist P_InterpStores P_Duck P_Conc.
Import ListNotations.
Open Scope list_scope.

Lemma on_true c o : on c o = true <-> target o = c.
Proof. unfold on. destruct (list_eq_dec N.eq_dec (target o) c); split; auto; discriminate. Qed.
Lemma on_false c o : on c o = false <-> target o <> c.
Proof. unfold on. destruct (list_eq_dec N.eq_dec (target o) c); split; auto; try discriminate. intros H. contradiction. Qed.

Lemma calls_on_app c h h' : calls_on c (h ++ h') = calls_on c h ++ calls_on c h'.
Proof. apply filter_app. Qed.

Lemma calls_on_idem c h : calls_on c (calls_on c h) = calls_on c h.
Proof.
  induction h as [|o h IH]; [reflexivity|]. unfold calls_on in *. cbn [filter]. destruct (on c o) eqn:E; [|exact IH].
  cbn [filter]. rewrite E. f_equal. exact IH.
Qed.

Section Gen.
  Context {S : Type} (I : trips_impl S) (s0 : S) (c : str).

  Lemma answers_on_app s h h' : answers_on I s c (h ++ h') = answers_on I s c h ++ answers_on I (after I s h) c h'.
  Proof. revert s. induction h as [|o h IH]; intros s; cbn; [reflexivity|]. rewrite IH, app_assoc. reflexivity. Qed.

  Variables (A : list op -> Prop) (O : S -> S -> Prop).
  Hypothesis O0 : O s0 s0.
  Hypothesis Otr : forall a b d, O a b -> O b d -> O a d.
  Hypothesis Apre : forall h o, A (h ++ [o]) -> A h.
  Hypothesis Oth : forall h o, A (h ++ [o]) -> target o <> c -> O (after I s0 (h ++ [o])) (after I s0 h).
  Hypothesis Own : forall h o, A (h ++ [o]) -> target o = c ->
    answers_on I s0 c h = answers_on I s0 c (calls_on c h) -> O (after I s0 h) (after I s0 (calls_on c h)) ->
    fst (call_op I (after I s0 h) o) = fst (call_op I (after I s0 (calls_on c h)) o)
    /\ O (after I s0 (h ++ [o])) (after I s0 (calls_on c h ++ [o])).

  Lemma frame_gen h : A h ->
    answers_on I s0 c h = answers_on I s0 c (calls_on c h) /\ O (after I s0 h) (after I s0 (calls_on c h)).
  Proof.
    induction h as [|o h IH] using rev_ind; intros Ah; [split; [reflexivity|exact O0]|].
    destruct (IH (Apre _ _ Ah)) as [E Ho]. rewrite calls_on_app. cbn [calls_on filter]. destruct (on c o) eqn:Eo.
    - apply on_true in Eo as Ht. destruct (Own h o Ah Ht E Ho) as [E1 O1]. split; [|exact O1].
      rewrite !answers_on_app. cbn. rewrite Eo. unfold calls_on in *. rewrite E, E1. reflexivity.
    - apply on_false in Eo as Ht. rewrite app_nil_r. split; [|exact (Otr _ _ _ (Oth h o Ah Ht) Ho)].
      rewrite answers_on_app. cbn. rewrite Eo. cbn. rewrite app_nil_r. exact E.
  Qed.
End Gen.

(** ** In memory *)
Lemma mem_frame h c :
  let h' := calls_on c h in
  answers_on mem_impl mem_new c h = answers_on mem_impl mem_new c h'
  /\ same_at mem_impl (after mem_impl mem_new h) (after mem_impl mem_new h') c.
Proof.
  intros h'. pose proof (frame_gen mem_impl mem_new c (fun _ => True)
    (fun a b => bm_get str_cmp c a = bm_get str_cmp c b)) as F.
  destruct F with (h := h) as [F1 F2]; auto.
  - intros; congruence.
  - intros g o _ Hn. rewrite after_snoc. destruct o as [x|x|x ts|x ts]; cbn [target] in Hn.
    + rewrite get_add_coll. destruct (str_dec c x); [congruence|reflexivity].
    + rewrite get_rem_coll by apply mem_inv_reach. destruct (str_dec c x); [congruence|reflexivity].
    + rewrite get_add. destruct (str_dec c x); [congruence|reflexivity].
    + rewrite get_rem. destruct (str_dec c x); [congruence|reflexivity].
  - intros g o _ Ht _ E. rewrite !after_snoc. destruct o as [x|x|x ts|x ts]; cbn [target] in Ht; subst x.
    + split; [reflexivity|]. rewrite !get_add_coll. destruct (str_dec c c); [reflexivity|exact E].
    + split; [reflexivity|]. rewrite !get_rem_coll by apply mem_inv_reach. destruct (str_dec c c); [reflexivity|exact E].
    + split; [|rewrite !get_add; destruct (str_dec c c); [rewrite E; reflexivity|exact E]].
      simpl. unfold mem_add_triples. rewrite E. match goal with |- context [bm_get str_cmp c ?x] => destruct (bm_get str_cmp c x) end; reflexivity.
    + split; [|rewrite !get_rem; destruct (str_dec c c); [rewrite E; reflexivity|exact E]].
      simpl. unfold mem_remove_triples. rewrite E. match goal with |- context [bm_get str_cmp c ?x] => destruct (bm_get str_cmp c x) end; reflexivity.
  - split; [exact F1|apply same_at_get, F2].
Qed.

(** ** Acknowledged calls on one collection *)
Fixpoint oks (h : list op) (r : list (tres unit)) : list op :=
  match h, r with
  | o :: h, Ok _ :: r => o :: oks h r
  | _ :: h, _ :: r => oks h r
  | _, _ => []
  end.

Lemma acked_on {S} (I : trips_impl S) c h : forall s, calls_on c (acked I s h) = oks (calls_on c h) (answers_on I s c h).
Proof.
  induction h as [|o h IH]; intros s; [reflexivity|]. cbn [acked answers_on]. unfold calls_on in *. cbn [filter].
  specialize (IH (snd (call_op I s o))). destruct (call_op I s o) as [r s']. cbn [fst snd] in *.
  destruct (on c o) eqn:E; cbn [app].
  - destruct r as [u|e|w]; cbn [oks filter]; rewrite ?E, IH; reflexivity.
  - destruct r as [u|e|w]; cbn [filter]; rewrite ?E; exact IH.
Qed.

Lemma all_on_acked {S} (I : trips_impl S) c h : forall s, (forall o, In o h -> on c o = true) -> calls_on c (acked I s h) = acked I s h.
Proof.
  induction h as [|o h IH]; intros s H; [reflexivity|]. cbn [acked]. destruct (call_op I s o) as [[u|e|w] s']; try (apply IH; intros; apply H; right; assumption).
  unfold calls_on in *. cbn [filter]. rewrite (H o (or_introl eq_refl)). f_equal. apply IH. intros; apply H; right; assumption.
Qed.

Lemma acked_calls_on {S} (I : trips_impl S) s c h : answers_on I s c h = answers_on I s c (calls_on c h) ->
  acked I s (calls_on c h) = calls_on c (acked I s h).
Proof.
  intros E. rewrite (acked_on I c h s), E. rewrite <- (calls_on_idem c h) at 2. rewrite <- acked_on. symmetry. apply all_on_acked.
  intros o Ho. apply filter_In in Ho. apply Ho.
Qed.

Lemma weight_on c h : (total_weight (calls_on c h) <= total_weight h)%N.
Proof.
  induction h as [|o h IH]; [cbn; lia|]. unfold calls_on in *. cbn [filter total_weight fold_right]. fold (total_weight h).
  destruct (on c o); cbn [total_weight fold_right]; fold (total_weight (filter (on c) h)); lia.
Qed.
Lemma dweight_on c h : (dtotal (calls_on c h) <= dtotal h)%N.
Proof.
  induction h as [|o h IH]; [cbn; lia|]. unfold calls_on in *. cbn [filter dtotal fold_right]. fold (dtotal h).
  destruct (on c o); cbn [dtotal fold_right]; fold (dtotal (filter (on c) h)); lia.
Qed.

(** ** LMDB *)
Lemma mentioned_on c h v : mentioned (calls_on c h) v -> mentioned h v.
Proof. intros (x & ts & Hi & Hp). apply filter_In in Hi. exists x, ts. split; [apply Hi|exact Hp]. Qed.

Lemma heed_own_rem h h' ts c :
  (total_weight (h ++ [ORem c ts]) < 2 ^ 64)%N -> (total_weight (h' ++ [ORem c ts]) < 2 ^ 64)%N ->
  (forall v, part_of v ts -> storable v /\ mentioned (acked heed_impl heed_new h) v /\ mentioned (acked heed_impl heed_new h') v) ->
  obs c (lm h) (lm h') ->
  fst (call_op heed_impl (lm h) (ORem c ts)) = fst (call_op heed_impl (lm h') (ORem c ts))
  /\ obs c (lm (h ++ [ORem c ts])) (lm (h' ++ [ORem c ts])).
Proof.
  intros W W' Hk [O1 O2]. set (o := ORem c ts) in *.
  assert (E : fst (call_op heed_impl (lm h) o) = fst (call_op heed_impl (lm h') o)).
  { pose proof (heed_answers (sure h) o true) as HA. cbn zeta in HA. rewrite map_fst_sure in HA. specialize (HA W).
    pose proof (heed_answers (sure h') o true) as HB. cbn zeta in HB. rewrite map_fst_sure in HB. specialize (HB W').
    rewrite <- lm_f, installed_sure in HA, HB. change (call_op (heed_impl_c true)) with (call_op heed_impl) in HA, HB.
    pose proof (heed_has_dec (sure h) c) as K. cbn zeta in K. rewrite <- lm_f in K. destruct K as [Hd|Hd].
    - rewrite (proj1 HA), (proj1 HB); [reflexivity|split; [apply O1, Hd|intros v Hv; destruct (Hk v Hv); tauto]|split; [exact Hd|intros v Hv; destruct (Hk v Hv); tauto]].
    - rewrite (proj2 HA), (proj2 HB); [reflexivity|intros [X _]; apply Hd, O1, X|tauto]. }
  split; [exact E|]. pose proof (heed_effect h o c) as HE. pose proof (heed_effect h' o c) as HE'. cbn zeta in HE, HE'.
  rewrite <- E in HE'. destruct (fst (call_op heed_impl (lm h) o)) as [u|e|w].
  - destruct HE as [H1 H2]. destruct HE' as [H1' H2']. split.
    + rewrite H1, H1', O1. reflexivity.
    + intros t. rewrite H2, H2', O2. reflexivity.
  - rewrite HE, HE'. split; assumption.
  - rewrite HE, HE'. split; assumption.
Qed.

Lemma heed_frame h c : (total_weight h < 2 ^ 64)%N -> knows_own c h ->
  let h' := calls_on c h in
  answers_on heed_impl heed_new c h = answers_on heed_impl heed_new c h'
  /\ same_at heed_impl (after heed_impl heed_new h) (after heed_impl heed_new h') c.
Proof.
  intros W K h'. pose proof (frame_gen heed_impl heed_new c (fun h => (total_weight h < 2 ^ 64)%N /\ knows_own c h)
    (fun a b => obs c a b)) as F.
  destruct F with (h := h) as [F1 F2]; auto.
  - apply obs_refl.
  - intros a b d. apply obs_trans.
  - intros g o [W1 K1]. split; [rewrite total_weight_app in W1; lia|]. intros h1 ts h2 E. apply (K1 h1 ts (h2 ++ [o])).
    rewrite E, <- app_assoc. reflexivity.
  - intros g o [W1 K1] Hn. apply obs_other, Hn.
  - intros g o [W1 K1] Ht E HO. 
    assert (W2 : (total_weight (calls_on c g ++ [o]) < 2 ^ 64)%N).
    { rewrite total_weight_app in *. pose proof (weight_on c g). lia. }
    assert (D : (exists ts, o = ORem c ts) \/ forall x ts, o <> ORem x ts).
    { destruct o as [x|x|x ts|x ts]; cbn in Ht; subst; eauto; right; intros; discriminate. }
    destruct D as [(ts & ->)|D].
    + apply heed_own_rem; auto. intros v Hv. destruct (K1 g ts [] eq_refl v Hv) as [Hs Hm].
      split; [exact Hs|]. split; [|exact Hm]. rewrite (acked_calls_on heed_impl heed_new c g E) in Hm. apply mentioned_on in Hm. exact Hm.
    + apply obs_own; auto.
  - split; [exact F1|]. split; [apply F2|]. split; [apply obs_triples, F2|]. intros p. reflexivity.
Qed.

(** ** DuckDB *)
Definition dobs (c : str) (d e : duck) : Prop :=
  (has duck_impl d c <-> has duck_impl e c) /\ forall t, holds duck_impl d c t <-> holds duck_impl e c t.

Lemma duck_effect h o c :
  let d := after duck_impl duck_new h in let d' := after duck_impl duck_new (h ++ [o]) in
  match fst (call_op duck_impl d o) with
  | Ok _ => (has duck_impl d' c <-> o = OAddColl c \/ (has duck_impl d c /\ o <> ORemColl c))
            /\ (forall t, holds duck_impl d' c t <-> (exists ts, o = OAdd c ts /\ In t ts /\ has duck_impl d c) \/ (holds duck_impl d c t /\ ~ removes c t o))
  | _ => dobs c d' d
  end.
Proof.
  intros d d'.
  assert (HH : forall g x, has duck_impl (after duck_impl duck_new g) x <-> live (acked duck_impl duck_new g) x).
  { intros g x. destruct (proj1 (duck_history g)) as (l & E & _ & Hl). rewrite <- Hl. unfold has. split; [intros (l' & E' & Hi); rewrite E in E'; injection E' as <-; exact Hi|eauto]. }
  assert (HL : forall g x t, holds duck_impl (after duck_impl duck_new g) x t <-> holds_after (acked duck_impl duck_new g) x t).
  { intros g x t. destruct (proj2 (duck_history g) x) as (l & E & _ & Hl). rewrite <- Hl. unfold holds. split; [intros (l' & E' & Hi); rewrite E in E'; injection E' as <-; exact Hi|eauto]. }
  unfold dobs, d, d'. pose proof (acked_snoc duck_impl duck_new h o) as EA.
  destruct (fst (call_op duck_impl (after duck_impl duck_new h) o)); split; try intros t; rewrite ?HH, ?HL, EA, ?app_nil_r; try reflexivity.
  - rewrite live_snoc. tauto.
  - rewrite holds_after_snoc'.
    split; (intros [(ts & H1 & H2 & H3)|H1]; [left; exists ts; split; [exact H1|]; split; [exact H2|]; apply HH, H3|right; exact H1]).
Qed.

Lemma dobs_trans c a b d : dobs c a b -> dobs c b d -> dobs c a d.
Proof. intros [H1 H2] [K1 K2]. split; [rewrite H1; exact K1|intros t; rewrite H2; apply K2]. Qed.

Lemma dobs_own h h' o c : target o = c -> (dtotal (h ++ [o]) < 2 ^ 63)%N -> (dtotal (h' ++ [o]) < 2 ^ 63)%N ->
  let d := after duck_impl duck_new h in let e := after duck_impl duck_new h' in
  dobs c d e ->
  fst (call_op duck_impl d o) = fst (call_op duck_impl e o)
  /\ dobs c (after duck_impl duck_new (h ++ [o])) (after duck_impl duck_new (h' ++ [o])).
Proof.
  intros Ht W W' d e [O1 O2].
  assert (E : fst (call_op duck_impl d o) = fst (call_op duck_impl e o)).
  { pose proof (duck_answers h o W) as HA. pose proof (duck_answers h' o W') as HB. cbn zeta in HA, HB. fold d in HA. fold e in HB.
    assert (Hd : has duck_impl d c \/ ~ has duck_impl d c).
    { rewrite duck_has. destruct (dcoll_dec d c) as [X|X]; [left|right]; exact X. }
    assert (Miss : forall x, ~ has duck_impl x c -> sel_id (d_coll x) c = None).
    { intros x Hx. rewrite duck_has in Hx. destruct (sel_id (d_coll x) c) as [i|] eqn:Es; [|reflexivity]. destruct Hx. exists i. apply sel_id_in, Es. }
    destruct o as [x|x|x ts|x ts]; cbn in Ht; subst x.
    - destruct Hd as [Hd|Hd]; [rewrite (proj2 HA Hd), (proj2 HB (proj1 O1 Hd)); reflexivity|].
      rewrite (proj1 HA Hd), (proj1 HB (fun K => Hd (proj2 O1 K))). reflexivity.
    - destruct (proj2 (duck_history h) c) as ([|t l] & El & _ & _).
      + rewrite (proj1 HA), (proj1 HB); [reflexivity|intros t Hh; apply O2 in Hh; revert Hh|intros t]; intros (l' & E' & Hi); unfold d in E';
          rewrite El in E'; injection E' as <-; destruct Hi.
      + assert (Hh : holds duck_impl d c t) by (exists (t :: l); split; [exact El|left; reflexivity]).
        rewrite (proj2 HA), (proj2 HB); [reflexivity|exists t; apply O2, Hh|exists t; exact Hh].
    - destruct Hd as [Hd|Hd]; [rewrite (proj1 HA Hd), (proj1 HB (proj1 O1 Hd)); reflexivity|].
      cbn [call_op duck_impl t_add_triples]. unfold duck_add_triples, duck_get_collection_id.
      rewrite (Miss d Hd), (Miss e (fun K => Hd (proj2 O1 K))). reflexivity.
    - destruct Hd as [Hd|Hd]; [rewrite (proj1 HA Hd), (proj1 HB (proj1 O1 Hd)); reflexivity|].
      cbn [call_op duck_impl t_remove_triples]. unfold duck_remove_triples, duck_get_collection_id.
      rewrite (Miss d Hd), (Miss e (fun K => Hd (proj2 O1 K))). reflexivity. }
  split; [exact E|]. pose proof (duck_effect h o c) as HE. pose proof (duck_effect h' o c) as HE'. cbn zeta in HE, HE'. fold d in HE. fold e in HE'.
  rewrite <- E in HE'. destruct (fst (call_op duck_impl d o)) as [u|x|w].
  - destruct HE as [H1 H2]. destruct HE' as [H1' H2']. split.
    + rewrite H1, H1', O1. reflexivity.
    + intros t. rewrite H2, H2', O2.
      split; (intros [(ts & K1 & K2 & K3)|K1]; [left; exists ts; split; [exact K1|]; split; [exact K2|]; apply O1, K3|right; exact K1]).
  - eapply dobs_trans; [exact HE|]. eapply dobs_trans; [split; [exact O1|exact O2]|]. destruct HE' as [X Y]. split; [rewrite X; reflexivity|intros t; rewrite Y; reflexivity].
  - eapply dobs_trans; [exact HE|]. eapply dobs_trans; [split; [exact O1|exact O2]|]. destruct HE' as [X Y]. split; [rewrite X; reflexivity|intros t; rewrite Y; reflexivity].
Qed.

Lemma duck_frame h c : (dtotal h < 2 ^ 63)%N ->
  let h' := calls_on c h in
  answers_on duck_impl duck_new c h = answers_on duck_impl duck_new c h'
  /\ same_at duck_impl (after duck_impl duck_new h) (after duck_impl duck_new h') c.
Proof.
  intros W h'. pose proof (frame_gen duck_impl duck_new c (fun h => (dtotal h < 2 ^ 63)%N) (fun a b => dobs c a b)) as F.
  destruct F with (h := h) as [F1 F2]; auto.
  - split; [|intros t]; reflexivity.
  - intros a b d. apply dobs_trans.
  - intros g o W1. rewrite dtotal_app in W1. lia.
  - intros g o W1 Hn. pose proof (duck_effect g o c) as HE. cbn zeta in HE.
    destruct (fst (call_op duck_impl (after duck_impl duck_new g) o)); [|exact HE..]. destruct HE as [H1 H2]. split.
    + rewrite H1. split; [intros [->|[H _]]; [destruct (Hn eq_refl)|exact H]|intros H; right; split; [exact H|intros ->; destruct (Hn eq_refl)]].
    + intros t. rewrite H2. split.
      * intros [(ts & -> & _)|[H _]]; [destruct (Hn eq_refl)|exact H].
      * intros H. right. split; [exact H|]. intros K. destruct K; destruct (Hn eq_refl).
  - intros g o W1 Ht E HO. apply dobs_own; auto. rewrite dtotal_app in *. pose proof (dweight_on c g). lia.
  - split; [exact F1|]. split; [apply F2|]. split; [|intros p; reflexivity].
    destruct (proj2 (duck_history h) c) as (l & El & Sl & _). destruct (proj2 (duck_history h') c) as (l' & El' & Sl' & _).
    destruct F2 as [_ F2]. unfold holds in F2. fold h' in F2. rewrite El, El' in *. f_equal. apply (set_eq trip_order); [assumption..|].
    intros t. specialize (F2 t). split; intros Ht; [destruct (proj1 F2) as (z & Ez & Hz)|destruct (proj2 F2) as (z & Ez & Hz)];
      eauto; injection Ez as <-; exact Hz.
Qed.
