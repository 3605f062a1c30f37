(** * Proofs: what reads show determines the future *)
From Coq Require Import List NArith Bool Arith Lia String.
From Verif Require Import M_Base M_Data M_Mem M_Heed M_Duck S_Order S_Str S_Store S_Interp S_Frame S_Equiv
  P_Ord P_Hist P_Agree P_Mem P_Heed P_HeedHist P_InterpStores P_Duck P_Conc P_Frame.
Import ListNotations.
Open Scope list_scope.

Section Gen.
  Context {S : Type} (I : trips_impl S).
  Lemma answers_of_app s g g' : answers_of I s (g ++ g') = answers_of I s g ++ answers_of I (after I s g) g'.
  Proof. revert s. induction g as [|o g IH]; intros s; cbn; [reflexivity|]. rewrite IH. reflexivity. Qed.
  Lemma answers_of_snoc s g o : answers_of I s (g ++ [o]) = answers_of I s g ++ [fst (call_op I (after I s g) o)].
  Proof. rewrite answers_of_app. reflexivity. Qed.

  (** A relation between histories that steps together. *)
  Variables (s0 : S) (A : list op -> Prop) (R : list op -> list op -> Prop).
  Hypothesis Apre : forall h o, A (h ++ [o]) -> A h.
  Hypothesis Rstep : forall h h' o, A (h ++ [o]) -> A (h' ++ [o]) -> R h h' ->
    fst (call_op I (after I s0 h) o) = fst (call_op I (after I s0 h') o) /\ R (h ++ [o]) (h' ++ [o]).
  Hypothesis Rlooks : forall h h', R h h' -> looks_same I (after I s0 h) (after I s0 h').

  Lemma future_gen h h' : R h h' -> same_future I (fun g => A (h ++ g) /\ A (h' ++ g)) (after I s0 h) (after I s0 h').
  Proof.
    intros HR g. assert (K : A (h ++ g) /\ A (h' ++ g) -> answers_of I (after I s0 h) g = answers_of I (after I s0 h') g /\ R (h ++ g) (h' ++ g)).
    { induction g as [|o g IH] using rev_ind; intros [B B']; [rewrite !app_nil_r; split; [reflexivity|exact HR]|].
      rewrite app_assoc in B, B'. destruct IH as [E HG]; [split; eapply Apre; eassumption|].
      destruct (Rstep _ _ o B B' HG) as [E1 R1]. rewrite !answers_of_snoc, E, <- !after_app, E1, !app_assoc. split; [reflexivity|exact R1]. }
    intros HA. destruct (K HA) as [E HG]. split; [exact E|]. rewrite <- !after_app. apply Rlooks, HG.
  Qed.
End Gen.

Lemma looks_refl {S} (I : trips_impl S) s : looks_same I s s.
Proof. split; [reflexivity|]. split; intros; reflexivity. Qed.

(** ** In memory *)
Definition mm (h : list op) : mem := after mem_impl mem_new h.
Definition meq (a b : mem) : Prop := forall c, bm_get str_cmp c a = bm_get str_cmp c b.

Lemma meq_step h h' o : meq (mm h) (mm h') ->
  fst (call_op mem_impl (mm h) o) = fst (call_op mem_impl (mm h') o) /\ meq (mm (h ++ [o])) (mm (h' ++ [o])).
Proof.
  intros E. unfold mm in *. split.
  - destruct o as [x|x|x ts|x ts]; cbn [call_op mem_impl t_add_collection t_remove_collection t_add_triples t_remove_triples]; [reflexivity|reflexivity| |].
    + unfold mem_add_triples. rewrite (E x). match goal with |- context [bm_get str_cmp x ?y] => destruct (bm_get str_cmp x y) end; reflexivity.
    + unfold mem_remove_triples. rewrite (E x). match goal with |- context [bm_get str_cmp x ?y] => destruct (bm_get str_cmp x y) end; reflexivity.
  - intros c. rewrite !after_snoc. destruct o as [x|x|x ts|x ts].
    + rewrite !get_add_coll, (E c). reflexivity.
    + rewrite !get_rem_coll by apply mem_inv_reach. rewrite (E c). reflexivity.
    + rewrite !get_add, (E x), (E c). reflexivity.
    + rewrite !get_rem, (E x), (E c). reflexivity.
Qed.

Lemma meq_looks h h' : meq (mm h) (mm h') <-> looks_same mem_impl (mm h) (mm h').
Proof.
  split.
  - intros E. split; [|split].
    + cbn [mem_impl t_collections]. unfold mem_collections. f_equal.
      apply (set_eq str_order); [apply mem_inv_reach|apply mem_inv_reach|]. intros c. rewrite <- !(bm_get_in_keys str_order). rewrite (E c). reflexivity.
    + intros c. cbn [mem_impl t_triples]. unfold mem_triples. rewrite (E c). reflexivity.
    + intros c p. cbn [mem_impl t_filter]. unfold mem_filter. rewrite (E c). reflexivity.
  - intros (_ & H & _) c. specialize (H c). cbn [mem_impl t_triples] in H. unfold mem_triples in H.
    destruct (bm_get str_cmp c (mm h)), (bm_get str_cmp c (mm h')); congruence.
Qed.

Lemma mem_future h h' : looks_same mem_impl (mm h) (mm h') -> same_future mem_impl (fun _ => True) (mm h) (mm h').
Proof.
  intros L g _. apply (future_gen mem_impl mem_new (fun _ => True) (fun h h' => meq (mm h) (mm h'))); auto.
  - intros a b o _ _. apply meq_step.
  - intros a b. apply meq_looks.
  - apply meq_looks, L.
Qed.

(** ** LMDB *)
Definition heq (h h' : list op) : Prop := (forall c, obs c (lm h) (lm h')) /\ forall v, known h v <-> known h' v.

Lemma two_ways (P : Prop) (r : tres unit) : (P -> r = Ok tt) -> (~ P -> r = Panic PTodo) ->
  (r = Ok tt /\ ~ ~ P) \/ (r = Panic PTodo /\ ~ P).
Proof.
  intros H1 H2. destruct r as [[]|e|w].
  - left. split; [reflexivity|]. intros N. discriminate (H2 N).
  - exfalso. assert (N : ~ P) by (intros p; discriminate (H1 p)). discriminate (H2 N).
  - right. assert (N : ~ P) by (intros p; discriminate (H1 p)). split; [exact (H2 N)|exact N].
Qed.

Lemma heq_step h h' o : (total_weight (h ++ [o]) < 2 ^ 64)%N -> (total_weight (h' ++ [o]) < 2 ^ 64)%N -> heq h h' ->
  fst (call_op heed_impl (lm h) o) = fst (call_op heed_impl (lm h') o) /\ heq (h ++ [o]) (h' ++ [o]).
Proof.
  intros W W' [HO HK].
  assert (E : fst (call_op heed_impl (lm h) o) = fst (call_op heed_impl (lm h') o)).
  { assert (D : (exists c ts, o = ORem c ts) \/ forall c ts, o <> ORem c ts)
      by (destruct o as [x|x|x ts|x ts]; eauto; right; intros; discriminate).
    destruct D as [(c & ts & ->)|D]; [|apply (obs_own h h' o (target o)); auto].
    pose proof (heed_answers (sure h) (ORem c ts) true) as HA. cbn zeta in HA. rewrite map_fst_sure in HA. specialize (HA W).
    pose proof (heed_answers (sure h') (ORem c ts) true) as HB. cbn zeta in HB. rewrite map_fst_sure in HB. specialize (HB W').
    rewrite <- lm_f, installed_sure in HA, HB. change (call_op (heed_impl_c true)) with (call_op heed_impl) in HA, HB.
    destruct (two_ways _ _ (proj1 HA) (proj2 HA)) as [[-> NA]|[-> NA]], (two_ways _ _ (proj1 HB) (proj2 HB)) as [[-> NB]|[-> NB]]; try reflexivity; exfalso.
    - apply NA. intros [H1 H2]. apply NB. split; [apply (HO c), H1|]. intros v Hv. apply HK, H2, Hv.
    - apply NB. intros [H1 H2]. apply NA. split; [apply (HO c), H1|]. intros v Hv. apply HK, H2, Hv. }
  split; [exact E|]. split.
  - intros c. destruct (HO c) as [O1 O2]. pose proof (heed_effect h o c) as HE. pose proof (heed_effect h' o c) as HE'. cbn zeta in HE, HE'.
    rewrite <- E in HE'. destruct (fst (call_op heed_impl (lm h) o)) as [u|e|w].
    + destruct HE as [H1 H2]. destruct HE' as [H1' H2']. split.
      * rewrite H1, H1', O1. reflexivity.
      * intros t. rewrite H2, H2', O2. reflexivity.
    + rewrite HE, HE'. split; assumption.
    + rewrite HE, HE'. split; assumption.
  - intros v. unfold known in *. rewrite !acked_snoc. fold (lm h) (lm h'). rewrite <- E.
    destruct (fst (call_op heed_impl (lm h) o)); rewrite ?app_nil_r; try apply HK. rewrite !mentioned_snoc.
    specialize (HK v). tauto.
Qed.

Lemma heq_looks h h' : (forall c, obs c (lm h) (lm h')) <-> looks_same heed_impl (lm h) (lm h').
Proof.
  split.
  - intros HO. split; [|split].
    + pose proof (heed_history (sure h)) as (HA & _). pose proof (heed_history (sure h')) as (HB & _).
      rewrite <- lm_f in HA, HB. destruct HA as (l & El & Sl & _). destruct HB as (l' & El' & Sl' & _). rewrite El, El'. f_equal.
      apply (set_eq str_order); [assumption..|]. intros c. destruct (HO c) as [O1 _]. unfold has in O1. rewrite El, El' in O1.
      split; intros Hc; [destruct (proj1 O1) as (z & Ez & Hz)|destruct (proj2 O1) as (z & Ez & Hz)]; eauto; injection Ez as <-; exact Hz.
    + intros c. apply obs_triples, HO.
    + intros c p. reflexivity.
  - intros (H1 & H2 & _) c. unfold obs, has, holds. rewrite H1, H2. split; [|intros t]; reflexivity.
Qed.

Lemma heed_future h h' :
  looks_same heed_impl (lm h) (lm h') -> (forall v, known h v <-> known h' v) ->
  same_future heed_impl (fun g => (total_weight (h ++ g) < 2 ^ 64)%N /\ (total_weight (h' ++ g) < 2 ^ 64)%N) (lm h) (lm h').
Proof.
  intros L K. apply (future_gen heed_impl heed_new (fun h => (total_weight h < 2 ^ 64)%N) heq).
  - intros a o W. rewrite total_weight_app in W. lia.
  - intros a b o. apply heq_step.
  - intros a b [HO _]. apply heq_looks, HO.
  - split; [apply heq_looks, L|exact K].
Qed.

(** ** DuckDB *)
Definition dk (h : list op) : duck := after duck_impl duck_new h.
Definition dqe (h h' : list op) : Prop := t_collections duck_impl (dk h) = t_collections duck_impl (dk h') /\ forall c, dobs c (dk h) (dk h').

Lemma filter_all {X} (f : X -> bool) l : (forall x, In x l -> f x = true) -> filter f l = l.
Proof. induction l as [|x l IH]; intros H; [reflexivity|]. cbn. rewrite (H x (or_introl eq_refl)). f_equal. apply IH. intros y Hy. apply H. right. exact Hy. Qed.

Lemma dstep_coll d o r d' : dstep d o r d' -> (forall c, o <> OAddColl c) -> (forall c, o <> ORemColl c) -> d_coll d' = d_coll d.
Proof.
  intros H N1 N2. destruct H; try reflexivity; try (exfalso; eapply N1; reflexivity); try (exfalso; eapply N2; reflexivity).
  - match goal with A : dadded _ _ _ _ |- _ => exact (da_coll _ _ _ _ A) end.
  - match goal with A : dremoved _ _ _ _ |- _ => exact (dr_coll _ _ _ _ A) end.
Qed.

Lemma duck_coll_step h o :
  let l := map snd (d_coll (dk h)) in
  map snd (d_coll (dk (h ++ [o]))) =
    match fst (call_op duck_impl (dk h) o), o with
    | Ok _, OAddColl c => l ++ [c]
    | Ok _, ORemColl c => filter (fun n => negb (str_eqb n c)) l
    | _, _ => l
    end.
Proof.
  intros l. unfold dk in *. rewrite after_snoc. set (d := after duck_impl duck_new h) in *.
  assert (I : dinv d) by apply dinv_reach.
  destruct o as [c|c|c ts|c ts].
  - cbn [call_op duck_impl t_add_collection]. unfold duck_add_collection. destruct (nextval (d_seq d)); [|reflexivity].
    destruct (sel_id (d_coll d) c); [reflexivity|]. cbn [fst snd d_coll]. rewrite map_app. reflexivity.
  - cbn [call_op duck_impl t_remove_collection]. unfold duck_remove_collection. destruct (sel_id (d_coll d) c) as [i|] eqn:Es.
    + destruct (existsb _ _); [reflexivity|]. cbn [fst snd d_coll]. unfold l. clear.
      induction (d_coll d) as [|[j n] r IH]; [reflexivity|]. cbn [filter map snd]. destruct (str_eqb n c); cbn [negb map snd]; [exact IH|]. f_equal. exact IH.
    + cbn [fst snd]. symmetry. apply filter_all. intros n Hn. apply in_map_iff in Hn as ([j m] & E & Hi). cbn in E. subst m.
      destruct (str_eqb_spec n c) as [->|]; [|reflexivity]. exfalso. apply (sel_id_iff _ _ _ _ (dv_coll _ I)) in Hi. congruence.
  - change (call_op duck_impl d (OAdd c ts)) with (dcall d (OAdd c ts)). rewrite (dstep_coll _ _ _ _ (dstep_call d (OAdd c ts) I)) by discriminate.
    destruct (fst (dcall d (OAdd c ts))); reflexivity.
  - change (call_op duck_impl d (ORem c ts)) with (dcall d (ORem c ts)). rewrite (dstep_coll _ _ _ _ (dstep_call d (ORem c ts) I)) by discriminate.
    destruct (fst (dcall d (ORem c ts))); reflexivity.
Qed.

Lemma dobs_other h o c : target o <> c -> dobs c (dk (h ++ [o])) (dk h).
Proof.
  intros Hn. unfold dk. pose proof (duck_effect h o c) as HE. cbn zeta in HE.
  destruct (fst (call_op duck_impl (after duck_impl duck_new h) o)); [|exact HE..]. destruct HE as [H1 H2]. split.
  - rewrite H1. split; [intros [->|[H _]]; [destruct (Hn eq_refl)|exact H]|intros H; right; split; [exact H|intros ->; destruct (Hn eq_refl)]].
  - intros t. rewrite H2. split.
    + intros [(ts & -> & _)|[H _]]; [destruct (Hn eq_refl)|exact H].
    + intros H. right. split; [exact H|]. intros K. destruct K; destruct (Hn eq_refl).
Qed.

Lemma dobs_sym c d e : dobs c d e -> dobs c e d.
Proof. intros [H1 H2]. split; [rewrite H1; reflexivity|intros t; rewrite H2; reflexivity]. Qed.

Lemma dqe_step h h' o : (dtotal (h ++ [o]) < 2 ^ 63)%N -> (dtotal (h' ++ [o]) < 2 ^ 63)%N -> dqe h h' ->
  fst (call_op duck_impl (dk h) o) = fst (call_op duck_impl (dk h') o) /\ dqe (h ++ [o]) (h' ++ [o]).
Proof.
  intros W W' [HC HO]. destruct (dobs_own h h' o (target o) eq_refl W W' (HO (target o))) as [E D]. fold (dk h) (dk h') in E.
  split; [exact E|]. split.
  - pose proof (duck_coll_step h o) as S1. pose proof (duck_coll_step h' o) as S2. cbn zeta in S1, S2.
    cbn [duck_impl t_collections] in *. unfold duck_collections in *. injection HC as HC. rewrite S1, S2, <- E, HC. reflexivity.
  - intros c. destruct (list_eq_dec N.eq_dec (target o) c) as [<-|Hn]; [exact D|].
    eapply dobs_trans; [apply dobs_other, Hn|]. eapply dobs_trans; [apply HO|]. apply dobs_sym, dobs_other, Hn.
Qed.

Lemma dqe_looks h h' : dqe h h' <-> looks_same duck_impl (dk h) (dk h').
Proof.
  split.
  - intros [HC HO]. split; [exact HC|]. split; [|intros c p; reflexivity]. intros c.
    destruct (proj2 (duck_history h) c) as (l & El & Sl & _). destruct (proj2 (duck_history h') c) as (l' & El' & Sl' & _).
    destruct (HO c) as [_ F2]. unfold dk, holds in *. rewrite El, El' in *. f_equal. apply (set_eq trip_order); [assumption..|].
    intros t. specialize (F2 t). split; intros Ht; [destruct (proj1 F2) as (z & Ez & Hz)|destruct (proj2 F2) as (z & Ez & Hz)];
      eauto; injection Ez as <-; exact Hz.
  - intros (H1 & H2 & _). split; [exact H1|]. intros c. unfold dobs, has, holds. rewrite H1, H2. split; [|intros t]; reflexivity.
Qed.

Lemma duck_future h h' : looks_same duck_impl (dk h) (dk h') ->
  same_future duck_impl (fun g => (dtotal (h ++ g) < 2 ^ 63)%N /\ (dtotal (h' ++ g) < 2 ^ 63)%N) (dk h) (dk h').
Proof.
  intros L. apply (future_gen duck_impl duck_new (fun h => (dtotal h < 2 ^ 63)%N) dqe).
  - intros a o W. rewrite dtotal_app in W. lia.
  - intros a b o. apply dqe_step.
  - intros a b. apply dqe_looks.
  - apply dqe_looks, L.
Qed.

(** ** Repeating a call at once *)
Lemma mem_retry h o : meq (mm (h ++ [o; o])) (mm (h ++ [o])) /\ fst (call_op mem_impl (mm (h ++ [o])) o) = fst (call_op mem_impl (mm h) o).
Proof.
  assert (Eo : h ++ [o; o] = (h ++ [o]) ++ [o]) by (rewrite <- app_assoc; reflexivity). rewrite Eo. unfold mm.
  set (s := after mem_impl mem_new h). split.
  - intros c. rewrite !after_snoc. fold s. destruct o as [x|x|x ts|x ts].
    + rewrite !get_add_coll. destruct (str_dec c x); reflexivity.
    + assert (mem_inv s) by apply mem_inv_reach. rewrite !get_rem_coll by (try apply mem_inv_step; assumption). destruct (str_dec c x); reflexivity.
    + rewrite !get_add. destruct (str_dec x x) as [_|N]; [|congruence]. destruct (str_dec c x) as [->|]; [|reflexivity].
      destruct (bm_get str_cmp x s) as [l|] eqn:El; [|reflexivity]. cbn [option_map]. f_equal.
      assert (Sl : is_set trip_lt l) by (eapply (proj2 (mem_inv_reach h)); exact El).
      apply (set_eq trip_order); [repeat apply (is_set_append trip_order); exact Sl|repeat apply (is_set_append trip_order); exact Sl|].
      intros t. rewrite !(in_bs_append trip_order). tauto.
    + rewrite !get_rem. destruct (str_dec x x) as [_|N]; [|congruence]. destruct (str_dec c x) as [->|]; [|reflexivity].
      destruct (bm_get str_cmp x s) as [l|] eqn:El; [|reflexivity]. cbn [option_map]. f_equal.
      assert (Sl : is_set trip_lt l) by (eapply (proj2 (mem_inv_reach h)); exact El).
      apply (set_eq trip_order); [repeat apply (is_set_remove_all trip_order); exact Sl|repeat apply (is_set_remove_all trip_order); exact Sl|].
      intros t. rewrite !(in_remove_all trip_order) by (try apply (is_set_remove_all trip_order); exact Sl). tauto.
  - rewrite after_snoc. fold s. destruct o as [x|x|x ts|x ts]; cbn [call_op mem_impl t_add_collection t_remove_collection t_add_triples t_remove_triples]; [reflexivity|reflexivity| |].
    + pose proof (get_add s x ts x) as G. cbn [call_op mem_impl t_add_triples] in G. destruct (str_dec x x) as [_|N]; [|congruence].
      unfold mem_add_triples at 1. rewrite G. unfold mem_add_triples. destruct (bm_get str_cmp x s); reflexivity.
    + pose proof (get_rem s x ts x) as G. cbn [call_op mem_impl t_remove_triples] in G. destruct (str_dec x x) as [_|N]; [|congruence].
      unfold mem_remove_triples at 1. rewrite G. unfold mem_remove_triples. destruct (bm_get str_cmp x s); reflexivity.
Qed.

Lemma adds_not_removes c t ts o : o = OAdd c ts -> ~ removes c t o.
Proof. intros -> K. inversion K. Qed.

Lemma snoc2 {X} (h : list X) o p : h ++ [o; p] = (h ++ [o]) ++ [p].
Proof. rewrite <- app_assoc. reflexivity. Qed.

Lemma heed_retry_look h o : heq (h ++ [o; o]) (h ++ [o]).
Proof.
  rewrite snoc2. split.
  - intros c. pose proof (heed_effect h o c) as H1. pose proof (heed_effect (h ++ [o]) o c) as H2. cbn zeta in H1, H2.
    destruct (fst (call_op heed_impl (lm (h ++ [o])) o)) eqn:E2; [|rewrite H2; apply obs_refl..].
    destruct (fst (call_op heed_impl (lm h) o)) eqn:E1.
    + destruct H1 as [A1 B1]. destruct H2 as [A2 B2]. split.
      * rewrite A2, A1. tauto.
      * intros t. rewrite B2, B1. split.
        -- intros [Ha|[H _]]; [left; exact Ha|exact H].
        -- intros [(ts & E & Ht)|[H N]]; [left; eauto|]. right. split; [|exact N]. right. split; [exact H|exact N].
    + rewrite H1 in E2. rewrite E2 in E1. discriminate E1.
    + rewrite H1 in E2. rewrite E2 in E1. discriminate E1.
  - intros v. unfold known. rewrite (acked_snoc heed_impl heed_new (h ++ [o])). fold (lm (h ++ [o])).
    destruct (fst (call_op heed_impl (lm (h ++ [o])) o)) eqn:E2; rewrite ?app_nil_r; try reflexivity.
    rewrite !acked_snoc. fold (lm h). destruct (fst (call_op heed_impl (lm h) o)) eqn:E1.
    + rewrite !mentioned_snoc. tauto.
    + pose proof (heed_effect h o (target o)) as H1. cbn zeta in H1. rewrite E1 in H1. rewrite H1, E1 in E2. discriminate E2.
    + pose proof (heed_effect h o (target o)) as H1. cbn zeta in H1. rewrite E1 in H1. rewrite H1, E1 in E2. discriminate E2.
Qed.

Lemma heed_missing_after h c : fst (call_op heed_impl (lm h) (ORemColl c)) = Ok tt -> ~ has heed_impl (lm (h ++ [ORemColl c])) c.
Proof.
  intros E. pose proof (heed_effect h (ORemColl c) c) as H1. cbn zeta in H1. rewrite E in H1. destruct H1 as [A _].
  rewrite A. intros [[K _]|[_ K]]; [discriminate K|apply K; reflexivity].
Qed.

Lemma heed_retry_answer h o : (total_weight (h ++ [o; o]) < 2 ^ 64)%N ->
  let first := fst (call_op heed_impl (lm h) o) in let again := fst (call_op heed_impl (lm (h ++ [o])) o) in
  match o with ORemColl _ => again = Panic PTodo | _ => again = first end.
Proof.
  intros W first again.
  assert (W1 : (total_weight (h ++ [o]) < 2 ^ 64)%N) by (rewrite snoc2, total_weight_app in W; lia). rewrite snoc2 in W.
  pose proof (heed_answers (sure h) o true) as HA. cbn zeta in HA. rewrite map_fst_sure in HA. specialize (HA W1).
  pose proof (heed_answers (sure (h ++ [o])) o true) as HB. cbn zeta in HB. rewrite map_fst_sure in HB. specialize (HB W).
  rewrite <- lm_f, installed_sure in HA, HB. change (call_op (heed_impl_c true)) with (call_op heed_impl) in HA, HB.
  fold first in HA. fold again in HB.
  pose proof (heed_effect h o (target o)) as HE. cbn zeta in HE. fold first in HE.
  assert (Fail : first <> Ok tt -> again = first).
  { intros N. unfold again, first in *. destruct (fst (call_op heed_impl (lm h) o)) as [[]| |] eqn:E; [congruence|rewrite HE; exact E..]. }
  destruct o as [c|c|c ts|c ts].
  - rewrite HA, HB. reflexivity.
  - apply HB. destruct first as [u|e|w] eqn:E.
    + destruct HE as [A _]. cbn [target] in A. rewrite A. intros [[K _]|[_ K]]; [discriminate K|apply K; reflexivity].
    + rewrite HE. cbn [target]. intros K. discriminate (proj1 HA K).
    + rewrite HE. intros K. discriminate (proj1 HA K).
  - destruct first as [[]|e|w] eqn:E; [|apply Fail; discriminate..]. apply HB. destruct HE as [A _]. cbn [target] in A. rewrite A. right.
    split; [|discriminate]. destruct (heed_has_dec (sure h) c) as [K|K]; rewrite <- lm_f in K; [exact K|discriminate (proj2 HA K)].
  - destruct first as [[]|e|w] eqn:E; [|apply Fail; discriminate..].
    destruct (two_ways _ _ (proj1 HB) (proj2 HB)) as [[K _]|[_ N]]; [exact K|]. exfalso.
    destruct (two_ways _ _ (proj1 HA) (proj2 HA)) as [[_ M]|[M _]]; [|discriminate M]. apply M. intros [H1 H2]. apply N. split.
    + destruct HE as [A _]. cbn [target] in A. apply A. right. split; [exact H1|discriminate].
    + intros v Hv. destruct (H2 v Hv) as [S1 M1]. split; [exact S1|]. rewrite acked_snoc. fold (lm h).
      change (fst (call_op heed_impl (lm h) (ORem c ts))) with first. rewrite E. rewrite mentioned_snoc. left. exact M1.
Qed.

Lemma duck_fail h o : fst (call_op duck_impl (dk h) o) <> Ok tt -> dk (h ++ [o]) = dk h.
Proof.
  intros N. unfold dk in *. rewrite after_snoc. pose proof (dstep_call _ o (dinv_reach h)) as HS.
  change (dcall (after duck_impl duck_new h) o) with (call_op duck_impl (after duck_impl duck_new h) o) in HS.
  destruct HS; try reflexivity; destruct (N eq_refl).
Qed.

Lemma duck_readd h c : fst (call_op duck_impl (dk (h ++ [OAddColl c])) (OAddColl c)) <> Ok tt.
Proof.
  intros E2. destruct (fst (call_op duck_impl (dk h) (OAddColl c))) as [[]|e|w] eqn:E1.
  2,3: rewrite duck_fail in E2 by congruence; congruence.
  pose proof (duck_coll_step h (OAddColl c)) as C1. cbn zeta in C1. rewrite E1 in C1.
  cbn [call_op duck_impl t_add_collection] in E2. unfold duck_add_collection in E2.
  destruct (nextval _); [|discriminate E2]. destruct (sel_id _ _) eqn:Es; [discriminate E2|]. clear E2. rewrite sel_id_none in Es.
  assert (Hi : In c (map snd (d_coll (dk (h ++ [OAddColl c]))))) by (rewrite C1; apply in_or_app; right; left; reflexivity).
  apply in_map_iff in Hi as ([i m] & Em & Hi). cbn in Em. subst m. exact (Es i Hi).
Qed.

Lemma filter_idem {X} (f : X -> bool) l : filter f (filter f l) = filter f l.
Proof. apply filter_all. intros x Hx. apply filter_In in Hx. apply Hx. Qed.

Lemma duck_retry_look h o : dqe (h ++ [o; o]) (h ++ [o]).
Proof.
  rewrite snoc2. destruct (fst (call_op duck_impl (dk (h ++ [o])) o)) as [[]|e|w] eqn:E2.
  2,3: unfold dqe; rewrite (duck_fail (h ++ [o]) o) by congruence; split; [reflexivity|]; intros c; split; [|intros t]; reflexivity.
  destruct (fst (call_op duck_impl (dk h) o)) as [[]|e|w] eqn:E1.
  2,3: rewrite (duck_fail h o) in E2 by congruence; congruence.
  split.
  - cbn [duck_impl t_collections]. unfold duck_collections. f_equal.
    pose proof (duck_coll_step h o) as C1. pose proof (duck_coll_step (h ++ [o]) o) as C2. cbn zeta in C1, C2. rewrite E1 in C1. rewrite E2 in C2.
    destruct o as [c|c|c ts|c ts]; [destruct (duck_readd h c E2)| |exact C2|exact C2]. rewrite C2, C1. apply filter_idem.
  - intros c. pose proof (duck_effect h o c) as H1. pose proof (duck_effect (h ++ [o]) o c) as H2. cbn zeta in H1, H2.
    fold (dk h) (dk (h ++ [o])) (dk ((h ++ [o]) ++ [o])) in *. rewrite E1 in H1. rewrite E2 in H2. destruct H1 as [A1 B1]. destruct H2 as [A2 B2]. split.
    + rewrite A2, A1. tauto.
    + intros t. rewrite B2. split.
      * intros [(ts & -> & Ht & Hh)|[H _]]; [|exact H]. apply B1. left. exists ts. split; [reflexivity|]. split; [exact Ht|].
        apply A1 in Hh as [K|[Hh _]]; [discriminate K|exact Hh].
      * intros H. right. split; [exact H|]. apply B1 in H as [(ts & -> & _)|[_ H]]; [intros K; inversion K|exact H].
Qed.

Lemma duck_has_in h c : has duck_impl (dk h) c <-> In c (map snd (d_coll (dk h))).
Proof. unfold has. cbn [duck_impl t_collections]. unfold duck_collections. split; [intros (l & E & Hi); injection E as <-; exact Hi|eauto]. Qed.

Lemma duck_has_dec h c : has duck_impl (dk h) c \/ ~ has duck_impl (dk h) c.
Proof. rewrite duck_has_in. destruct (in_dec (list_eq_dec N.eq_dec) c (map snd (d_coll (dk h)))); tauto. Qed.

Lemma duck_retry_answer h o : (dtotal (h ++ [o; o]) < 2 ^ 63)%N ->
  let first := fst (call_op duck_impl (dk h) o) in let again := fst (call_op duck_impl (dk (h ++ [o])) o) in
  match o with OAddColl _ => again = Panic PUnwrap | _ => again = first end.
Proof.
  intros W first again. rewrite snoc2 in W. 
  pose proof (duck_answers (h ++ [o]) o W) as HB. cbn zeta in HB.
  change (dcall (dafter duck_new (h ++ [o])) o) with (call_op duck_impl (dk (h ++ [o])) o) in HB. fold again in HB.
  change (dafter duck_new (h ++ [o])) with (dk (h ++ [o])) in HB.
  pose proof (duck_effect h o (target o)) as HE. cbn zeta in HE. fold (dk h) (dk (h ++ [o])) in HE. fold first in HE.
  assert (Fail : first <> Ok tt -> again = first).
  { intros N. unfold again. rewrite duck_fail by exact N. reflexivity. }
  destruct o as [c|c|c ts|c ts]; cbn [target] in HE.
  - destruct first as [[]|e|w] eqn:E.
    + apply HB. apply HE. left. reflexivity.
    + apply HB. 
      assert (W1 : (dtotal (h ++ [OAddColl c]) < 2 ^ 63)%N) by (rewrite dtotal_app in W; lia).
      pose proof (duck_answers h (OAddColl c) W1) as HA. cbn zeta in HA. change (dcall (dafter duck_new h) (OAddColl c)) with (call_op duck_impl (dk h) (OAddColl c)) in HA.
      fold first in HA. change (dafter duck_new h) with (dk h) in HA. rewrite E in HA. destruct (duck_has_dec h c) as [K|K]; [destruct HA as [_ HA]; discriminate (HA K)|destruct HA as [HA _]; discriminate (HA K)].
    + apply HB. rewrite duck_fail by (fold first; rewrite E; discriminate).
      assert (W1 : (dtotal (h ++ [OAddColl c]) < 2 ^ 63)%N) by (rewrite dtotal_app in W; lia).
      pose proof (duck_answers h (OAddColl c) W1) as HA. cbn zeta in HA. change (dcall (dafter duck_new h) (OAddColl c)) with (call_op duck_impl (dk h) (OAddColl c)) in HA.
      fold first in HA. change (dafter duck_new h) with (dk h) in HA. rewrite E in HA. destruct (duck_has_dec h c) as [K|K]; [exact K|destruct HA as [HA _]; discriminate (HA K)].
  - destruct first as [[]|e|w] eqn:E; [|apply Fail; discriminate..]. apply HB. intros t Ht. apply HE in Ht as [(ts & K & _)|[_ K]]; [discriminate K|]. apply K. constructor.
  - destruct first as [[]|e|w] eqn:E; [|apply Fail; discriminate..]. apply HB. apply HE. right. split; [|discriminate].
    destruct (duck_has_dec h c) as [K|K]; [exact K|]. exfalso. unfold first in E. cbn [call_op duck_impl t_add_triples] in E. unfold duck_add_triples, duck_get_collection_id in E.
    destruct (sel_id (d_coll (dk h)) c) as [i|] eqn:Es; [|discriminate E]. apply K. apply duck_has. exists i. apply sel_id_in, Es.
  - destruct first as [[]|e|w] eqn:E; [|apply Fail; discriminate..]. apply HB. apply HE. right. split; [|discriminate].
    destruct (duck_has_dec h c) as [K|K]; [exact K|]. exfalso. unfold first in E. cbn [call_op duck_impl t_remove_triples] in E. unfold duck_remove_triples, duck_get_collection_id in E.
    destruct (sel_id (d_coll (dk h)) c) as [i|] eqn:Es; [|discriminate E]. apply K. apply duck_has. exists i. apply sel_id_in, Es.
Qed.

(** ** Splitting and merging batches *)
Lemma mem_merge h c a b ab : merges a b ab ->
  meq (mm (h ++ [OAdd c a; OAdd c b])) (mm (h ++ [OAdd c ab])) /\ meq (mm (h ++ [ORem c a; ORem c b])) (mm (h ++ [ORem c ab])).
Proof.
  intros M. rewrite !snoc2. unfold mm. split; intros x; rewrite !after_snoc; [rewrite !get_add|rewrite !get_rem];
    (destruct (str_dec c c) as [_|N]; [|congruence]); (destruct (str_dec x c) as [->|]; [|reflexivity]);
    (destruct (bm_get str_cmp c (after mem_impl mem_new h)) as [l|] eqn:El; [|reflexivity]); cbn [option_map]; f_equal;
    (assert (Sl : is_set trip_lt l) by (eapply (proj2 (mem_inv_reach h)); exact El)).
  - apply (set_eq trip_order); [repeat apply (is_set_append trip_order); exact Sl|repeat apply (is_set_append trip_order); exact Sl|].
    intros t. rewrite !(in_bs_append trip_order), (M t). tauto.
  - apply (set_eq trip_order); [repeat apply (is_set_remove_all trip_order); exact Sl|repeat apply (is_set_remove_all trip_order); exact Sl|].
    intros t. rewrite !(in_remove_all trip_order) by (try apply (is_set_remove_all trip_order); exact Sl). rewrite (M t). tauto.
Qed.

Lemma mem_batch_answer h c a : fst (call_op mem_impl (mm h) (OAdd c a)) = fst (call_op mem_impl (mm h) (OAdd c []))
  /\ fst (call_op mem_impl (mm h) (ORem c a)) = fst (call_op mem_impl (mm h) (ORem c [])).
Proof.
  cbn [call_op mem_impl t_add_triples t_remove_triples]. unfold mem_add_triples, mem_remove_triples.
  destruct (bm_get str_cmp c (mm h)); split; reflexivity.
Qed.

Lemma mem_merge_answers h c a b ab :
  answers_of mem_impl (mm h) [OAdd c a; OAdd c b] = let r := fst (call_op mem_impl (mm h) (OAdd c ab)) in [r; r].
Proof.
  cbn [answers_of]. rewrite (proj1 (mem_batch_answer h c a)), (proj1 (mem_batch_answer h c ab)).
  replace (snd (call_op mem_impl (mm h) (OAdd c a))) with (mm (h ++ [OAdd c a])) by apply after_snoc.
  rewrite (proj1 (mem_batch_answer (h ++ [OAdd c a]) c b)). rewrite <- (proj1 (mem_batch_answer (h ++ [OAdd c a]) c a)). rewrite (proj2 (mem_retry h (OAdd c a))).
  rewrite (proj1 (mem_batch_answer h c a)). reflexivity.
Qed.

Lemma mem_merge_rem_answers h c a b ab :
  answers_of mem_impl (mm h) [ORem c a; ORem c b] = let r := fst (call_op mem_impl (mm h) (ORem c ab)) in [r; r].
Proof.
  cbn [answers_of]. rewrite (proj2 (mem_batch_answer h c a)), (proj2 (mem_batch_answer h c ab)).
  replace (snd (call_op mem_impl (mm h) (ORem c a))) with (mm (h ++ [ORem c a])) by apply after_snoc.
  rewrite (proj2 (mem_batch_answer (h ++ [ORem c a]) c b)). rewrite <- (proj2 (mem_batch_answer (h ++ [ORem c a]) c a)). rewrite (proj2 (mem_retry h (ORem c a))).
  rewrite (proj2 (mem_batch_answer h c a)). reflexivity.
Qed.

Lemma merges_part a b ab v : merges a b ab -> part_of v ab <-> part_of v a \/ part_of v b.
Proof.
  intros M. unfold part_of. split.
  - intros (t & Ht & P). apply M in Ht as [Ht|Ht]; eauto.
  - intros [(t & Ht & P)|(t & Ht & P)]; exists t; (split; [apply M|exact P]); auto.
Qed.

Lemma heed_has_d h c : has heed_impl (lm h) c \/ ~ has heed_impl (lm h) c.
Proof. pose proof (heed_has_dec (sure h) c) as K. cbn zeta in K. rewrite <- lm_f in K. exact K. Qed.

Lemma heed_ans h o : (total_weight (h ++ [o]) < 2 ^ 64)%N ->
  let r := fst (call_op heed_impl (lm h) o) in
  match o with
  | OAddColl c => r = Ok tt
  | ORemColl c | OAdd c _ => (has heed_impl (lm h) c -> r = Ok tt) /\ (~ has heed_impl (lm h) c -> r = Panic PTodo)
  | ORem c ts =>
      (has heed_impl (lm h) c /\ (forall v, part_of v ts -> known h v) -> r = Ok tt)
      /\ (~ (has heed_impl (lm h) c /\ (forall v, part_of v ts -> known h v)) -> r = Panic PTodo)
  end.
Proof.
  intros W. pose proof (heed_answers (sure h) o true) as HA. cbn zeta in HA. rewrite map_fst_sure in HA. specialize (HA W).
  rewrite <- lm_f, installed_sure in HA. change (call_op (heed_impl_c true)) with (call_op heed_impl) in HA. exact HA.
Qed.

Lemma heed_merge_add h c a b ab : merges a b ab ->
  (total_weight (h ++ [OAdd c a; OAdd c b]) < 2 ^ 64)%N -> (total_weight (h ++ [OAdd c ab]) < 2 ^ 64)%N ->
  heq (h ++ [OAdd c a; OAdd c b]) (h ++ [OAdd c ab])
  /\ answers_of heed_impl (lm h) [OAdd c a; OAdd c b] = let r := fst (call_op heed_impl (lm h) (OAdd c ab)) in [r; r].
Proof.
  intros M W W'. rewrite snoc2 in *. assert (W1 : (total_weight (h ++ [OAdd c a]) < 2 ^ 64)%N) by (rewrite total_weight_app in W; lia).
  pose proof (heed_ans h _ W1) as R1. pose proof (heed_ans _ _ W) as R2. pose proof (heed_ans h _ W') as R3. cbn zeta in R1, R2, R3.
  cbn [answers_of]. replace (snd (call_op heed_impl (lm h) (OAdd c a))) with (lm (h ++ [OAdd c a])) by apply lm_snoc. cbn zeta.
  pose proof (fun x => heed_effect h (OAdd c a) x) as E1. pose proof (fun x => heed_effect (h ++ [OAdd c a]) (OAdd c b) x) as E2.
  pose proof (fun x => heed_effect h (OAdd c ab) x) as E3. cbn zeta in E1, E2, E3.
  pose proof (acked_snoc heed_impl heed_new h (OAdd c a)) as K1. pose proof (acked_snoc heed_impl heed_new (h ++ [OAdd c a]) (OAdd c b)) as K2.
  pose proof (acked_snoc heed_impl heed_new h (OAdd c ab)) as K3. fold (lm h) in K1, K3. fold (lm (h ++ [OAdd c a])) in K2.
  destruct (heed_has_d h c) as [Hh|Hh].
  - rewrite (proj1 R1 Hh) in *. rewrite (proj1 R3 Hh) in *.
    assert (Hh' : has heed_impl (lm (h ++ [OAdd c a])) c) by (apply (E1 c); right; split; [exact Hh|discriminate]).
    rewrite (proj1 R2 Hh') in *. split; [|reflexivity]. split.
    + intros x. destruct (E1 x) as [A1 B1], (E2 x) as [A2 B2], (E3 x) as [A3 B3]. split.
      * rewrite A2, A1, A3. split; (intros [[K _]|[H _]]; [discriminate K|]).
        -- destruct H as [[K _]|[H _]]; [discriminate K|]. right. split; [exact H|discriminate].
        -- right. split; [|discriminate]. right. split; [exact H|discriminate].
      * intros t. rewrite B2, B1, B3. split.
        -- intros [(ts & K & Ht)|[[(ts & K & Ht)|[H _]] _]].
           ++ injection K as <- <-. left. exists ab. split; [reflexivity|]. apply M. right. exact Ht.
           ++ injection K as <- <-. left. exists ab. split; [reflexivity|]. apply M. left. exact Ht.
           ++ right. split; [exact H|]. intros K. inversion K.
        -- intros [(ts & K & Ht)|[H _]].
           ++ injection K as <- <-. apply M in Ht as [Ht|Ht]; [right; split; [left; eauto|intros K; inversion K]|left; eauto].
           ++ right. split; [right; split; [exact H|]|]; intros K; inversion K.
    + intros v. unfold known. rewrite K2, K1, K3. rewrite !mentioned_snoc.
      assert (Q : forall ts, (exists c' ts', OAdd c ts = OAdd c' ts' /\ part_of v ts') <-> part_of v ts)
        by (intros ts; split; [intros (c' & ts' & K & P); injection K as <- <-; exact P|eauto]).
      pose proof (merges_part a b ab v M). rewrite !Q. tauto.
  - assert (F1 : lm (h ++ [OAdd c a]) = lm h) by (specialize (E1 c); rewrite (proj2 R1 Hh) in E1; exact E1).
    assert (Hh' : ~ has heed_impl (lm (h ++ [OAdd c a])) c) by (rewrite F1; exact Hh).
    rewrite (proj2 R1 Hh) in *. rewrite (proj2 R3 Hh) in *. rewrite (proj2 R2 Hh') in *. split; [|reflexivity]. split.
    + intros x. rewrite (E2 x), (E1 x), (E3 x). apply obs_refl.
    + intros v. unfold known. rewrite K2, K1, K3, !app_nil_r. reflexivity.
Qed.

Lemma known_rem h c a v : known (h ++ [ORem c a]) v <-> known h v.
Proof.
  unfold known. rewrite acked_snoc. destruct (fst _); rewrite ?app_nil_r; try reflexivity. rewrite mentioned_snoc.
  split; intros [H1 H2]; (split; [exact H1|]); [destruct H2 as [H2|(x & ts & K & _)]; [exact H2|discriminate K]|left; exact H2].
Qed.

Lemma heed_has_rem h c a x : has heed_impl (lm (h ++ [ORem c a])) x <-> has heed_impl (lm h) x.
Proof.
  pose proof (heed_effect h (ORem c a) x) as HE. cbn zeta in HE. destruct (fst _); [|rewrite HE; reflexivity..].
  rewrite (proj1 HE). split; [intros [[K _]|[H _]]; [discriminate K|exact H]|intros H; right; split; [exact H|discriminate]].
Qed.

Lemma heed_merge_rem h c a b ab : merges a b ab ->
  (total_weight (h ++ [ORem c a; ORem c b]) < 2 ^ 64)%N -> (total_weight (h ++ [ORem c ab]) < 2 ^ 64)%N ->
  (fst (call_op heed_impl (lm h) (ORem c ab)) = Ok tt <-> answers_of heed_impl (lm h) [ORem c a; ORem c b] = [Ok tt; Ok tt])
  /\ (fst (call_op heed_impl (lm h) (ORem c ab)) = Ok tt -> heq (h ++ [ORem c a; ORem c b]) (h ++ [ORem c ab])).
Proof.
  intros M W W'. rewrite snoc2 in *. assert (W1 : (total_weight (h ++ [ORem c a]) < 2 ^ 64)%N) by (rewrite total_weight_app in W; lia).
  pose proof (heed_ans h _ W1) as R1. pose proof (heed_ans _ _ W) as R2. pose proof (heed_ans h _ W') as R3. cbn zeta in R1, R2, R3.
  cbn [answers_of]. replace (snd (call_op heed_impl (lm h) (ORem c a))) with (lm (h ++ [ORem c a])) by apply lm_snoc.
  assert (P : forall v, part_of v ab <-> part_of v a \/ part_of v b) by (intros v; apply merges_part, M).
  assert (Q : (has heed_impl (lm h) c /\ forall v, part_of v ab -> known h v) <->
    (has heed_impl (lm h) c /\ forall v, part_of v a -> known h v) /\
    (has heed_impl (lm (h ++ [ORem c a])) c /\ forall v, part_of v b -> known (h ++ [ORem c a]) v)).
  { rewrite heed_has_rem. split.
    - intros [H1 H2]. split; (split; [exact H1|]); intros w Hw; [|apply known_rem]; apply H2, P; auto.
    - intros [[H1 H2] [_ H3]]. split; [exact H1|]. intros w Hw. apply P in Hw as [Hw|Hw]; [apply H2, Hw|]. exact (proj1 (known_rem h c a w) (H3 w Hw)). }
  assert (I : fst (call_op heed_impl (lm h) (ORem c ab)) = Ok tt <->
    fst (call_op heed_impl (lm h) (ORem c a)) = Ok tt /\ fst (call_op heed_impl (lm (h ++ [ORem c a])) (ORem c b)) = Ok tt).
  { split.
    - intros E3. destruct (two_ways _ _ (proj1 R3) (proj2 R3)) as [[_ N]|[K _]]; [|congruence].
      split.
      + destruct (two_ways _ _ (proj1 R1) (proj2 R1)) as [[K _]|[_ N']]; [exact K|]. exfalso. apply N. intros K. apply N', Q, K.
      + destruct (two_ways _ _ (proj1 R2) (proj2 R2)) as [[K _]|[_ N']]; [exact K|]. exfalso. apply N. intros K. apply N', Q, K.
    - intros [E1 E2]. destruct (two_ways _ _ (proj1 R3) (proj2 R3)) as [[K _]|[_ N]]; [exact K|]. exfalso.
      destruct (two_ways _ _ (proj1 R1) (proj2 R1)) as [[_ N1]|[K _]]; [|congruence].
      destruct (two_ways _ _ (proj1 R2) (proj2 R2)) as [[_ N2]|[K _]]; [|congruence].
      apply N1. intros K1. apply N2. intros K2. apply N, Q. split; assumption. }
  split.
  - rewrite I. split; [intros [-> ->]; reflexivity|intros E; apply (f_equal (fun l => (nth_error l 0, nth_error l 1))) in E; cbn [nth_error] in E; split; congruence].
  - intros E. destruct (proj1 I E) as [E1 E2]. split.
    + intros x. split; [rewrite !heed_has_rem; reflexivity|]. intros t.
      pose proof (heed_effect h (ORem c a) x) as F1. pose proof (heed_effect (h ++ [ORem c a]) (ORem c b) x) as F2. pose proof (heed_effect h (ORem c ab) x) as F3.
      cbn zeta in F1, F2, F3. rewrite E1 in F1. rewrite E2 in F2. rewrite E in F3. destruct F1 as [_ F1], F2 as [_ F2], F3 as [_ F3]. rewrite F2, F1, F3.
      assert (RM : removes x t (ORem c ab) <-> removes x t (ORem c a) \/ removes x t (ORem c b)).
      { split; [intros K; inversion K; subst; destruct (proj1 (M t)) as [L|L]; try assumption; [left|right]; constructor; exact L|
          intros [K|K]; inversion K; subst; constructor; apply M; auto]. }
      rewrite RM. split.
      * intros [(ts & K & _)|[[(ts & K & _)|[H N1]] N2]]; [discriminate K|discriminate K|]. right. split; [exact H|tauto].
      * intros [(ts & K & _)|[H N]]; [discriminate K|]. right. split; [right; split; [exact H|tauto]|tauto].
    + intros v. rewrite !known_rem. reflexivity.
Qed.

Lemma duck_ok_has h c a : fst (call_op duck_impl (dk h) (OAdd c a)) = Ok tt \/ fst (call_op duck_impl (dk h) (ORem c a)) = Ok tt -> has duck_impl (dk h) c.
Proof.
  destruct (duck_has_dec h c) as [K|K]; [intros _; exact K|]. intros E. exfalso.
  cbn [call_op duck_impl t_add_triples t_remove_triples] in E. unfold duck_add_triples, duck_remove_triples, duck_get_collection_id in E.
  destruct (sel_id (d_coll (dk h)) c) as [i|] eqn:Es; [|destruct E as [E|E]; discriminate E]. apply K. apply duck_has. exists i. apply sel_id_in, Es.
Qed.

Lemma duck_miss h c a : ~ has duck_impl (dk h) c ->
  fst (call_op duck_impl (dk h) (OAdd c a)) = fst (call_op duck_impl (dk h) (OAdd c []))
  /\ fst (call_op duck_impl (dk h) (ORem c a)) = fst (call_op duck_impl (dk h) (ORem c []))
  /\ fst (call_op duck_impl (dk h) (OAdd c a)) <> Ok tt /\ fst (call_op duck_impl (dk h) (ORem c a)) <> Ok tt.
Proof.
  intros K. cbn [call_op duck_impl t_add_triples t_remove_triples]. unfold duck_add_triples, duck_remove_triples, duck_get_collection_id.
  destruct (sel_id (d_coll (dk h)) c) as [i|] eqn:Es; [exfalso; apply K; apply duck_has; exists i; apply sel_id_in, Es|]. repeat split; discriminate.
Qed.

Lemma duck_merge_add h c a b ab : merges a b ab ->
  (dtotal (h ++ [OAdd c a; OAdd c b]) < 2 ^ 63)%N -> (dtotal (h ++ [OAdd c ab]) < 2 ^ 63)%N ->
  dqe (h ++ [OAdd c a; OAdd c b]) (h ++ [OAdd c ab])
  /\ answers_of duck_impl (dk h) [OAdd c a; OAdd c b] = let r := fst (call_op duck_impl (dk h) (OAdd c ab)) in [r; r].
Proof.
  intros M W W'. rewrite snoc2 in *. assert (W1 : (dtotal (h ++ [OAdd c a]) < 2 ^ 63)%N) by (rewrite dtotal_app in W; lia).
  cbn [answers_of]. replace (snd (call_op duck_impl (dk h) (OAdd c a))) with (dk (h ++ [OAdd c a])) by apply after_snoc. cbn zeta.
  destruct (duck_has_dec h c) as [Hh|Hh].
  - assert (E1 : fst (call_op duck_impl (dk h) (OAdd c a)) = Ok tt) by (apply (duck_answers h _ W1), Hh).
    assert (E3 : fst (call_op duck_impl (dk h) (OAdd c ab)) = Ok tt) by (apply (duck_answers h _ W'), Hh).
    pose proof (fun x => duck_effect h (OAdd c a) x) as F1. pose proof (fun x => duck_effect h (OAdd c ab) x) as F3. cbn zeta in F1, F3.
    fold (dk h) in F1, F3. fold (dk (h ++ [OAdd c a])) in F1. fold (dk (h ++ [OAdd c ab])) in F3. rewrite E1 in *. rewrite E3 in *.
    assert (Hh' : has duck_impl (dk (h ++ [OAdd c a])) c) by (apply (F1 c); right; split; [exact Hh|discriminate]).
    assert (E2 : fst (call_op duck_impl (dk (h ++ [OAdd c a])) (OAdd c b)) = Ok tt) by (apply (duck_answers _ _ W), Hh').
    pose proof (fun x => duck_effect (h ++ [OAdd c a]) (OAdd c b) x) as F2. cbn zeta in F2. fold (dk (h ++ [OAdd c a])) in F2.
    fold (dk ((h ++ [OAdd c a]) ++ [OAdd c b])) in F2. rewrite E2 in *. split; [|reflexivity]. split.
    + cbn [duck_impl t_collections]. unfold duck_collections. f_equal.
      pose proof (duck_coll_step h (OAdd c a)) as C1. pose proof (duck_coll_step (h ++ [OAdd c a]) (OAdd c b)) as C2. pose proof (duck_coll_step h (OAdd c ab)) as C3.
      cbn zeta in C1, C2, C3. rewrite E1 in C1. rewrite E2 in C2. rewrite E3 in C3. rewrite C2, C1, C3. reflexivity.
    + intros x. destruct (F1 x) as [A1 B1], (F2 x) as [A2 B2], (F3 x) as [A3 B3]. split.
      * rewrite A2, A1, A3. split; (intros [K|[H _]]; [discriminate K|]).
        -- destruct H as [K|[H _]]; [discriminate K|]. right. split; [exact H|discriminate].
        -- right. split; [|discriminate]. right. split; [exact H|discriminate].
      * intros t. rewrite B2, B1, B3. split.
        -- intros [(ts & K & Ht & _)|[[(ts & K & Ht & _)|[H _]] _]].
           ++ injection K as <- <-. left. exists ab. split; [reflexivity|]. split; [apply M; right; exact Ht|exact Hh].
           ++ injection K as <- <-. left. exists ab. split; [reflexivity|]. split; [apply M; left; exact Ht|exact Hh].
           ++ right. split; [exact H|]. intros K. inversion K.
        -- intros [(ts & K & Ht & _)|[H _]].
           ++ injection K as <- <-. apply M in Ht as [Ht|Ht]; [right; split; [left; eauto|intros K; inversion K]|left; eauto].
           ++ right. split; [right; split; [exact H|]|]; intros K; inversion K.
  - destruct (duck_miss h c a Hh) as (X1 & _ & N1 & _). destruct (duck_miss h c b Hh) as (X2 & _ & N2 & _). destruct (duck_miss h c ab Hh) as (X3 & _ & N3 & _).
    rewrite (duck_fail h (OAdd c a) N1). assert (E : dk ((h ++ [OAdd c a]) ++ [OAdd c b]) = dk h).
    { rewrite duck_fail; [apply duck_fail, N1|]. rewrite (duck_fail h _ N1). exact N2. }
    split; [|rewrite X1, X2, X3; reflexivity]. unfold dqe. rewrite E, (duck_fail h (OAdd c ab) N3). split; [reflexivity|]. intros x. split; [|intros t]; reflexivity.
Qed.

Lemma duck_merge_rem h c a b ab : merges a b ab ->
  (dtotal (h ++ [ORem c a; ORem c b]) < 2 ^ 63)%N -> (dtotal (h ++ [ORem c ab]) < 2 ^ 63)%N ->
  dqe (h ++ [ORem c a; ORem c b]) (h ++ [ORem c ab])
  /\ answers_of duck_impl (dk h) [ORem c a; ORem c b] = let r := fst (call_op duck_impl (dk h) (ORem c ab)) in [r; r].
Proof.
  intros M W W'. rewrite snoc2 in *. assert (W1 : (dtotal (h ++ [ORem c a]) < 2 ^ 63)%N) by (rewrite dtotal_app in W; lia).
  cbn [answers_of]. replace (snd (call_op duck_impl (dk h) (ORem c a))) with (dk (h ++ [ORem c a])) by apply after_snoc. cbn zeta.
  destruct (duck_has_dec h c) as [Hh|Hh].
  - assert (E1 : fst (call_op duck_impl (dk h) (ORem c a)) = Ok tt) by (apply (duck_answers h _ W1), Hh).
    assert (E3 : fst (call_op duck_impl (dk h) (ORem c ab)) = Ok tt) by (apply (duck_answers h _ W'), Hh).
    pose proof (fun x => duck_effect h (ORem c a) x) as F1. pose proof (fun x => duck_effect h (ORem c ab) x) as F3. cbn zeta in F1, F3.
    fold (dk h) in F1, F3. fold (dk (h ++ [ORem c a])) in F1. fold (dk (h ++ [ORem c ab])) in F3. rewrite E1 in *. rewrite E3 in *.
    assert (Hh' : has duck_impl (dk (h ++ [ORem c a])) c) by (apply (F1 c); right; split; [exact Hh|discriminate]).
    assert (E2 : fst (call_op duck_impl (dk (h ++ [ORem c a])) (ORem c b)) = Ok tt) by (apply (duck_answers _ _ W), Hh').
    pose proof (fun x => duck_effect (h ++ [ORem c a]) (ORem c b) x) as F2. cbn zeta in F2. fold (dk (h ++ [ORem c a])) in F2.
    fold (dk ((h ++ [ORem c a]) ++ [ORem c b])) in F2. rewrite E2 in *. split; [|reflexivity]. split.
    + cbn [duck_impl t_collections]. unfold duck_collections. f_equal.
      pose proof (duck_coll_step h (ORem c a)) as C1. pose proof (duck_coll_step (h ++ [ORem c a]) (ORem c b)) as C2. pose proof (duck_coll_step h (ORem c ab)) as C3.
      cbn zeta in C1, C2, C3. rewrite E1 in C1. rewrite E2 in C2. rewrite E3 in C3. rewrite C2, C1, C3. reflexivity.
    + intros x. destruct (F1 x) as [A1 B1], (F2 x) as [A2 B2], (F3 x) as [A3 B3]. split.
      * rewrite A2, A1, A3. split; (intros [K|[H _]]; [discriminate K|]).
        -- destruct H as [K|[H _]]; [discriminate K|]. right. split; [exact H|discriminate].
        -- right. split; [|discriminate]. right. split; [exact H|discriminate].
      * intros t. rewrite B2, B1, B3.
        assert (RM : removes x t (ORem c ab) <-> removes x t (ORem c a) \/ removes x t (ORem c b)).
        { split; [intros K; inversion K; subst; destruct (proj1 (M t)) as [L|L]; try assumption; [left|right]; constructor; exact L|
            intros [K|K]; inversion K; subst; constructor; apply M; auto]. }
        rewrite RM. split.
        -- intros [(ts & K & _)|[[(ts & K & _)|[H Na]] Nb]]; [discriminate K|discriminate K|]. right. split; [exact H|tauto].
        -- intros [(ts & K & _)|[H N]]; [discriminate K|]. right. split; [right; split; [exact H|tauto]|tauto].
  - destruct (duck_miss h c a Hh) as (_ & X1 & _ & N1). destruct (duck_miss h c b Hh) as (_ & X2 & _ & N2). destruct (duck_miss h c ab Hh) as (_ & X3 & _ & N3).
    rewrite (duck_fail h (ORem c a) N1). assert (E : dk ((h ++ [ORem c a]) ++ [ORem c b]) = dk h).
    { rewrite duck_fail; [apply duck_fail, N1|]. rewrite (duck_fail h _ N1). exact N2. }
    split; [|rewrite X1, X2, X3; reflexivity]. unfold dqe. rewrite E, (duck_fail h (ORem c ab) N3). split; [reflexivity|]. intros x. split; [|intros t]; reflexivity.
Qed.
