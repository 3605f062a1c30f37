(** * Knowledge graph over a triple store: proofs *)
From Coq Require Import List Arith NArith Bool Lia String.
From Verif Require Import M_Base M_Data M_Mem M_Heed M_Duck M_Graph S_Order P_Ord S_Str S_Store S_Graph P_Hist
  P_Mem P_Heed P_HeedHist P_Duck P_Agree.
Import ListNotations.
Open Scope list_scope.

(** ** Entries and triples *)

Definition view (e : entry) : trip := Trip (subject e) (role_name e) (object e).

Lemma entry_to_trip_view e : entry_to_trip e = view e.
Proof. destruct e; reflexivity. Qed.

Lemma bare_mkE s : bare (mkE s).
Proof. split; reflexivity. Qed.

Lemma bare_eq a : bare a -> a = mkE (el_name a).
Proof. destruct a as [n ns l]. intros [E1 E2]. simpl in *. subst. reflexivity. Qed.

Lemma trip_to_entry_normal t : normal (trip_to_entry t) /\ view (trip_to_entry t) = t.
Proof.
  unfold trip_to_entry. destruct t as [a b c]; simpl.
  destruct (str_eqb_spec b role_extends) as [->|H1]; [split; [split; apply bare_mkE|reflexivity]|].
  destruct (str_eqb_spec b role_not_extends) as [->|H2]; [split; [split; apply bare_mkE|reflexivity]|].
  split; [|reflexivity]. simpl. auto using bare_mkE.
Qed.

Lemma normal_view_inj e e' : normal e -> normal e' -> view e = view e' -> e = e'.
Proof.
  intros N N' E. unfold view in E.
  assert (E1 : subject e = subject e') by congruence.
  assert (E2 : role_name e = role_name e') by congruence.
  assert (E3 : object e = object e') by congruence. clear E.
  destruct e as [f s r|a b|a b], e' as [f' s' r'|a' b'|a' b']; cbn [normal subject role_name object] in *;
    repeat match goal with H : ?A /\ ?B |- _ => destruct H end; try discriminate E2; try (exfalso; congruence).
  - rewrite (bare_eq f), (bare_eq s), (bare_eq r), (bare_eq f'), (bare_eq s'), (bare_eq r') by assumption.
    congruence.
  - rewrite (bare_eq a), (bare_eq b), (bare_eq a'), (bare_eq b') by assumption. congruence.
  - rewrite (bare_eq a), (bare_eq b), (bare_eq a'), (bare_eq b') by assumption. congruence.
Qed.

Lemma trip_to_entry_iff t e : trip_to_entry t = e <-> normal e /\ view e = t.
Proof.
  destruct (trip_to_entry_normal t) as [N V]. split; [intros <-; auto|].
  intros [N' V']. apply normal_view_inj; [assumption..|]. congruence.
Qed.

Lemma normalises_iff e e' : normalises e e' <-> trip_to_entry (entry_to_trip e) = e'.
Proof.
  rewrite trip_to_entry_iff, entry_to_trip_view. unfold normalises, view. split.
  - intros (N & E1 & E2 & E3). split; [exact N|]. congruence.
  - intros (N & E). split; [exact N|]. injection E as E1 E2 E3. auto.
Qed.

Lemma normalises_normal e e' : normal e -> (normalises e e' <-> e' = e).
Proof.
  intros N. split.
  - intros (N' & E1 & E2 & E3). apply normal_view_inj; [assumption..|]. unfold view. congruence.
  - intros ->. split; [exact N|auto].
Qed.

Lemma normalises_total e : exists e', normalises e e'.
Proof. exists (trip_to_entry (entry_to_trip e)). apply normalises_iff. reflexivity. Qed.

Lemma normalises_unique e e1 e2 : normalises e e1 -> normalises e e2 -> e1 = e2.
Proof. rewrite !normalises_iff. congruence. Qed.

Lemma filter_trip_to_entry_eq t : filter_trip_to_entry t = trip_to_entry t.
Proof. reflexivity. Qed.

(** ** Reading *)
Section Generic.
  Context {S : Type} (I : trips_impl S).
  Notation G := (graph_impl I).

  Lemma entries_spec s c l : t_triples I s (el_name c) = Ok l ->
    exists es, l_entries G s c = Ok es /\ is_set entry_lt es
               /\ forall e, In e es <-> normal e /\ In (view e) l.
  Proof.
    intros E. simpl. unfold graph_entries. rewrite E. eexists. split; [reflexivity|].
    split; [apply (is_set_collect entry_order)|]. intros e. rewrite (in_bs_collect entry_order), in_map_iff. split.
    - intros (t & Ht & Hi). apply trip_to_entry_iff in Ht as [N <-]. auto.
    - intros [N Hi]. exists (view e). split; [apply trip_to_entry_iff; auto|exact Hi].
  Qed.

  Lemma entries_same s s' c : t_triples I s' (el_name c) = t_triples I s (el_name c) ->
    l_entries G s' c = l_entries G s c.
  Proof. intros E. simpl. unfold graph_entries. rewrite E. reflexivity. Qed.

  (** ** Writing *)

  Definition add_effect (s : S) (c : str) (ts : list trip) (s' : S) : Prop :=
    fst (t_add_triples I s c ts) = (Ok tt, s')
    /\ (exists l l', t_triples I s c = Ok l /\ t_triples I s' c = Ok l' /\ forall t, In t l' <-> In t l \/ In t ts)
    /\ (forall c', c' <> c -> t_triples I s' c' = t_triples I s c').

  Definition rem_effect (s : S) (c : str) (ts : list trip) (s' : S) : Prop :=
    fst (t_remove_triples I s c ts) = (Ok tt, s')
    /\ (exists l l', t_triples I s c = Ok l /\ t_triples I s' c = Ok l' /\ forall t, In t l' <-> In t l /\ ~ In t ts)
    /\ (forall c', c' <> c -> t_triples I s' c' = t_triples I s c').

  Definition trips_of (es : list entry) : list trip := bs_collect trip_cmp (map entry_to_trip es).

  Lemma in_trips_of es t : In t (trips_of es) <-> exists e, In e es /\ view e = t.
  Proof.
    unfold trips_of. rewrite (in_bs_collect trip_order), in_map_iff. split; intros (e & H1 & H2); exists e.
    - rewrite entry_to_trip_view in H1. auto.
    - rewrite entry_to_trip_view. auto.
  Qed.

  Lemma view_normal_form es e' : normal e' -> (In (view e') (trips_of es) <-> exists e, In e es /\ normalises e e').
  Proof.
    intros N. rewrite in_trips_of. split; intros (e & Hi & H); exists e; (split; [exact Hi|]).
    - split; [exact N|]. unfold view in H. injection H as H1 H2 H3. auto.
    - destruct H as (_ & H1 & H2 & H3). unfold view. congruence.
  Qed.

  Lemma add_entries_spec s c es s' : add_effect s (el_name c) (trips_of es) s' ->
    l_add_entries G s c es = (Ok tt, s', es) /\ enlarged G s c es s'.
  Proof.
    intros (E & (l & l' & El & El' & Hin) & Ho). split.
    - simpl. unfold graph_add_entries. fold (trips_of es).
      destruct (t_add_triples I s (el_name c) (trips_of es)) as [[r s''] x]. simpl in E. injection E as -> ->. reflexivity.
    - split.
      + destruct (entries_spec s c l El) as (k & Ek & _ & Hk). destruct (entries_spec s' c l' El') as (k' & Ek' & Hs' & Hk').
        exists k, k'. split; [exact Ek|]. split; [exact Ek'|]. split; [exact Hs'|].
        intros e'. rewrite Hk', Hk, Hin. split.
        * intros [N [H|H]]; [auto|]. right. apply view_normal_form in H; assumption.
        * intros [[N H]|H]; [auto|]. assert (N : normal e') by (destruct H as (e & _ & N & _); exact N).
          split; [exact N|]. right. apply view_normal_form; assumption.
      + intros c' Hn. apply entries_same, Ho, Hn.
  Qed.

  Lemma remove_entries_spec s c es s' : rem_effect s (el_name c) (trips_of es) s' ->
    l_remove_entries G s c es = (Ok tt, s', es) /\ reduced G s c es s'.
  Proof.
    intros (E & (l & l' & El & El' & Hin) & Ho). split.
    - simpl. unfold graph_remove_entries. fold (trips_of es).
      destruct (t_remove_triples I s (el_name c) (trips_of es)) as [[r s''] x]. simpl in E. injection E as -> ->. reflexivity.
    - split.
      + destruct (entries_spec s c l El) as (k & Ek & _ & Hk). destruct (entries_spec s' c l' El') as (k' & Ek' & Hs' & Hk').
        exists k, k'. split; [exact Ek|]. split; [exact Ek'|]. split; [exact Hs'|].
        intros e'. rewrite Hk', Hk, Hin. split.
        * intros (N & H & Hn). split; [auto|]. intros H'. apply Hn. apply view_normal_form; assumption.
        * intros ((N & H) & Hn). split; [exact N|]. split; [exact H|]. intros H'. apply Hn. apply view_normal_form in H'; assumption.
      + intros c' Hn. apply entries_same, Ho, Hn.
  Qed.
End Generic.

(** ** The three stores have these effects *)

Lemma mem_add_effect h c ts :
  let s := after mem_impl mem_new h in
  has mem_impl s c -> add_effect mem_impl s c ts (snd (fst (t_add_triples mem_impl s c ts))).
Proof.
  intros s Hh. pose proof (mem_add h c ts Hh) as H. fold s in H.
  destruct (t_add_triples mem_impl s c ts) as [[r s'] ts'] eqn:E. destruct H as (-> & H1 & H2 & H3 & _).
  cbn [fst snd]. split; [rewrite E; reflexivity|]. split.
  - pose proof (proj2 (H3 c) Hh) as Hh'. apply mem_readable in Hh, Hh'. destruct Hh as [l El], Hh' as [l' El'].
    exists l, l'. split; [exact El|]. split; [exact El'|]. intros t. specialize (H1 t). unfold holds in H1.
    rewrite El, El' in H1. split.
    + intros Hi. destruct (proj1 H1 (ex_intro _ l' (conj eq_refl Hi))) as [(k & Ek & Hk)|Hk]; [|auto].
      injection Ek as <-. auto.
    + intros Hi. assert (Hi' : (exists l0, Ok (E := str) l = Ok l0 /\ In t l0) \/ In t ts) by (destruct Hi; eauto).
      destruct (proj2 H1 Hi') as (k & Ek & Hk). injection Ek as <-. exact Hk.
  - intros c' Hn. symmetry. apply (proj1 (proj2 (H2 c' Hn))).
Qed.

Lemma mem_rem_effect h c ts :
  let s := after mem_impl mem_new h in
  has mem_impl s c -> rem_effect mem_impl s c ts (snd (fst (t_remove_triples mem_impl s c ts))).
Proof.
  intros s Hh. pose proof (mem_rem h c ts Hh) as H. fold s in H.
  destruct (t_remove_triples mem_impl s c ts) as [[r s'] ts'] eqn:E. destruct H as (-> & H1 & H2 & H3 & _).
  cbn [fst snd]. split; [rewrite E; reflexivity|]. split.
  - pose proof (proj2 (H3 c) Hh) as Hh'. apply mem_readable in Hh, Hh'. destruct Hh as [l El], Hh' as [l' El'].
    exists l, l'. split; [exact El|]. split; [exact El'|]. intros t. specialize (H1 t). unfold holds in H1.
    rewrite El, El' in H1. split.
    + intros Hi. destruct (proj1 H1 (ex_intro _ l' (conj eq_refl Hi))) as [(k & Ek & Hk) Hn]. injection Ek as <-. auto.
    + intros [Hi Hn]. destruct (proj2 H1 (conj (ex_intro _ l (conj eq_refl Hi)) Hn)) as (k & Ek & Hk).
      injection Ek as <-. exact Hk.
  - intros c' Hn. symmetry. apply (proj1 (proj2 (H2 c' Hn))).
Qed.

Lemma heed_triples_eq d d' c : inv d -> inv d' ->
  (forall i, sg c (h_c2i d') = Some i <-> sg c (h_c2i d) = Some i) ->
  (forall i t, sg c (h_c2i d) = Some i -> (vrow d' i t <-> vrow d i t)) ->
  heed_triples d' c = heed_triples d c.
Proof.
  intros I I' HC HV. pose proof (heed_triples_spec d c I) as H. pose proof (heed_triples_spec d' c I') as H'.
  destruct (sg c (h_c2i d)) as [i|] eqn:E.
  - rewrite (proj2 (HC i) eq_refl) in H'. destruct H as (l & El & Hs & Hin), H' as (l' & El' & Hs' & Hin').
    rewrite El, El'. f_equal. apply (set_eq trip_order); [assumption..|]. intros t. rewrite Hin, Hin'. apply HV; reflexivity.
  - destruct (sg c (h_c2i d')) as [i'|] eqn:E'; [destruct (HC i') as [HC' _]; specialize (HC' eq_refl); discriminate|].
    congruence.
Qed.

Lemma heed_add_effect h c ts :
  let d := hafter heed_new h in
  has heed_impl d c -> (total_weight (map fst h ++ [OAdd c ts]) < 2 ^ 64)%N ->
  add_effect heed_impl d c ts (snd (hcall true d (OAdd c ts))).
Proof.
  intros d Hh Hw. assert (I : inv d) by apply inv_reach.
  pose proof (heed_answers h (OAdd c ts) true Hw) as HA. cbv zeta in HA. fold d in HA.
  apply proj1 in HA. specialize (HA Hh).
  pose proof (step_ok_call d (OAdd c ts) true I) as HS. rewrite HA in HS.
  set (d' := snd (hcall true d (OAdd c ts))) in *.
  assert (I' : inv d') by (apply inv_step, I).
  inversion HS as [| | | | |c0 cid ts0 d0 E A| | | | | | | | |]; subst.
  split; [|split].
  - change (hcall true d (OAdd c ts) = (Ok tt, d')). rewrite (surjective_pairing (hcall true d (OAdd c ts))), HA. reflexivity.
  - pose proof (heed_triples_spec d c I) as H. pose proof (heed_triples_spec d' c I') as H'.
    rewrite (ad_c2i _ _ _ _ A) in H'. rewrite E in H, H'. destruct H as (l & El & _ & Hin), H' as (l' & El' & _ & Hin').
    exists l, l'. split; [exact El|]. split; [exact El'|]. intros t. rewrite Hin, Hin'.
    rewrite (ad_vrow _ _ _ _ A) by (exact (u64_c2i d _ _ I E)). intuition.
  - intros c' Hn. apply heed_triples_eq; [exact I|exact I'| |].
    + intros i. rewrite (ad_c2i _ _ _ _ A). reflexivity.
    + intros i t Ei. rewrite (ad_vrow _ _ _ _ A) by (exact (u64_c2i d _ _ I Ei)). intuition. subst i.
      exfalso. apply Hn. exact (c2i_inj d _ _ _ I Ei E).
Qed.

Lemma heed_rem_effect h c ts :
  let d := hafter heed_new h in
  has heed_impl d c ->
  (forall v, part_of v ts -> storable v /\ mentioned (installed heed_impl_c heed_new h) v) ->
  rem_effect heed_impl d c ts (snd (hcall true d (ORem c ts))).
Proof.
  intros d Hh HK. assert (I : inv d) by apply inv_reach.
  pose proof (heed_simulates h) as SM. fold d in SM.
  apply (sim_known d _ ts SM) in HK.
  pose proof (step_ok_call d (ORem c ts) true I) as HS.
  apply heed_has in Hh as [i0 E0].
  assert (HA : fst (hcall true d (ORem c ts)) = Ok tt) 
    by (revert HS; generalize (fst (hcall true d (ORem c ts))), (snd (hcall true d (ORem c ts))); intros r x HS;
        inversion HS; subst; solve [reflexivity|congruence|contradiction]).
  rewrite HA in HS. set (d' := snd (hcall true d (ORem c ts))) in *.
  assert (I' : inv d') by (apply inv_step, I).
  inversion HS as [| | | | | | | |c0 cid ts0 d0 E _ R| | | | | |]; subst.
  split; [|split].
  - change (hcall true d (ORem c ts) = (Ok tt, d')). rewrite (surjective_pairing (hcall true d (ORem c ts))), HA. reflexivity.
  - pose proof (heed_triples_spec d c I) as H. pose proof (heed_triples_spec d' c I') as H'.
    rewrite (rm_c2i _ _ _ _ R) in H'. rewrite E in H, H'. destruct H as (l & El & _ & Hin), H' as (l' & El' & _ & Hin').
    exists l, l'. split; [exact El|]. split; [exact El'|]. intros t. rewrite Hin, Hin'.
    rewrite (rm_vrow _ _ _ _ R) by (exact (u64_c2i d _ _ I E)). intuition.
  - intros c' Hn. apply heed_triples_eq; [exact I|exact I'| |].
    + intros i. rewrite (rm_c2i _ _ _ _ R). reflexivity.
    + intros i t Ei. rewrite (rm_vrow _ _ _ _ R) by (exact (u64_c2i d _ _ I Ei)). intuition. subst i.
      apply Hn. exact (c2i_inj d _ _ _ I Ei E).
Qed.

Lemma duck_triples_eq d d' c : dinv d -> dinv d' -> (forall t, drow d' c t <-> drow d c t) ->
  duck_triples d' c = duck_triples d c.
Proof.
  intros I I' HV. destruct (duck_triples_spec d c I) as (l & El & Hs & Hin).
  destruct (duck_triples_spec d' c I') as (l' & El' & Hs' & Hin'). rewrite El, El'. f_equal.
  apply (set_eq trip_order); [assumption..|]. intros t. rewrite Hin, Hin'. apply HV.
Qed.

Lemma duck_add_effect h c ts :
  let d := dafter duck_new h in
  has duck_impl d c -> (dtotal (h ++ [OAdd c ts]) < 2 ^ 63)%N ->
  add_effect duck_impl d c ts (snd (dcall d (OAdd c ts))).
Proof.
  intros d Hh Hw. assert (I : dinv d) by apply dinv_reach.
  pose proof (duck_answers h (OAdd c ts) Hw) as HA. cbv zeta in HA. fold d in HA.
  apply proj1 in HA. specialize (HA Hh).
  pose proof (dstep_call d (OAdd c ts) I) as HS. rewrite HA in HS.
  set (d' := snd (dcall d (OAdd c ts))) in *.
  assert (I' : dinv d') by (apply dinv_step, I).
  inversion HS as [| | | | | |c0 ts0 d0 Hc A| | | |]; subst.
  split; [|split].
  - change (dcall d (OAdd c ts) = (Ok tt, d')). rewrite (surjective_pairing (dcall d (OAdd c ts))), HA. reflexivity.
  - destruct (duck_triples_spec d c I) as (l & El & _ & Hin). destruct (duck_triples_spec d' c I') as (l' & El' & _ & Hin').
    exists l, l'. split; [exact El|]. split; [exact El'|]. intros t. rewrite Hin, Hin', (da_row _ _ _ _ A). intuition.
  - intros c' Hn. apply duck_triples_eq; [exact I|exact I'|]. intros t. rewrite (da_row _ _ _ _ A). intuition.
Qed.

Lemma duck_rem_effect h c ts :
  let d := dafter duck_new h in
  has duck_impl d c -> rem_effect duck_impl d c ts (snd (dcall d (ORem c ts))).
Proof.
  intros d Hh. assert (I : dinv d) by apply dinv_reach. rewrite duck_has in Hh. fold (dcoll d c) in Hh.
  pose proof (dstep_call d (ORem c ts) I) as HS.
  assert (HA : fst (dcall d (ORem c ts)) = Ok tt) 
    by (revert HS; generalize (fst (dcall d (ORem c ts))), (snd (dcall d (ORem c ts))); intros r x HS;
        inversion HS; subst; solve [reflexivity|contradiction]).
  rewrite HA in HS.
  set (d' := snd (dcall d (ORem c ts))) in *.
  assert (I' : dinv d') by (apply dinv_step, I).
  inversion HS as [| | | | | | | | |c0 ts0 d0 Hc A|]; subst.
  split; [|split].
  - change (dcall d (ORem c ts) = (Ok tt, d')). rewrite (surjective_pairing (dcall d (ORem c ts))), HA. reflexivity.
  - destruct (duck_triples_spec d c I) as (l & El & _ & Hin). destruct (duck_triples_spec d' c I') as (l' & El' & _ & Hin').
    exists l, l'. split; [exact El|]. split; [exact El'|]. intros t. rewrite Hin, Hin', (dr_row _ _ _ _ A). intuition.
  - intros c' Hn. apply duck_triples_eq; [exact I|exact I'|]. intros t. rewrite (dr_row _ _ _ _ A). intuition.
Qed.

(** ** Filtering (in-memory store) *)

Lemma check_value_spec p v : ~ variable_name p -> (admits (check_value p) v <-> agrees p v).
Proof.
  intros Hv. unfold check_value, agrees. change (lit "?") with wildcard.
  destruct (str_eqb_spec p wildcard) as [->|Hw]; [simpl; tauto|].
  destruct p as [|x p]; [simpl; intuition congruence|].
  destruct (N.eqb_spec x 63) as [->|Hx]; [|simpl; intuition congruence].
  exfalso. apply Hv. exists p. split; [reflexivity|]. intros ->. apply Hw. reflexivity.
Qed.

Lemma check_value_var p : is_variable (check_value p) <-> variable_name p.
Proof.
  unfold check_value, variable_name, is_variable. change (lit "?") with wildcard.
  destruct (str_eqb_spec p wildcard) as [->|Hw].
  - split; [intros [x E]; discriminate|]. intros (r & E & Hr). injection E as <-. congruence.
  - destruct p as [|x p]; [split; [intros [? E]; discriminate|intros (r & E & _); discriminate]|].
    destruct (N.eqb_spec x 63) as [->|Hx].
    + split; [|eauto]. intros _. exists p. split; [reflexivity|]. intros ->. apply Hw. reflexivity.
    + split; [intros [? E]; discriminate|]. intros (r & E & _). congruence.
Qed.

Lemma query_no_variables p : no_variable_names p -> no_variables (entry_to_query p).
Proof.
  intros (H1 & H2 & H3). unfold no_variables.
  destruct p as [f s r|a b|a b]; simpl in *; rewrite ?check_value_var; repeat split; auto;
    intros [x E]; discriminate E.
Qed.

Lemma fits_matches p e : no_variable_names p -> (fits (entry_to_query p) (view e) <-> matches p e).
Proof.
  intros (H1 & H2 & H3). unfold fits, matches, view.
  destruct p as [f s r|a b|a b]; simpl in *; rewrite !check_value_spec by assumption; intuition.
Qed.

Lemma graph_filter_ok h c p :
  no_variable_names p ->
  let s := after mem_impl mem_new h in
  (has mem_impl s (el_name c) ->
   exists l k, l_entries (graph_impl mem_impl) s c = Ok l /\ l_filter (graph_impl mem_impl) s c p = Ok k
               /\ is_set entry_lt k /\ forall e, In e k <-> In e l /\ matches p e)
  /\ (~ has mem_impl s (el_name c) -> exists w, l_filter (graph_impl mem_impl) s c p = Panic w).
Proof.
  intros Hv s. destruct (mem_filter_ok h (el_name c) (entry_to_query p) (query_no_variables p Hv)) as [H1 H2].
  fold s in H1, H2. split.
  - intros Hh. destruct (H1 Hh) as (k & Ek & _ & Hk).
    destruct (proj2 (mem_readable s (el_name c)) Hh) as [l El].
    destruct (entries_spec mem_impl s c l El) as (es & Ees & _ & Hes).
    exists es. simpl. unfold graph_filter. change (t_filter mem_impl) with mem_filter in Ek. simpl in *. rewrite Ek. simpl.
    eexists. split; [exact Ees|]. split; [reflexivity|]. split; [apply (is_set_collect entry_order)|].
    intros e. rewrite (in_bs_collect entry_order), in_map_iff.
    assert (HK : forall t, In t k <-> In t l /\ fits (entry_to_query p) t).
    { intros t. rewrite Hk. unfold holds. simpl in *. rewrite El. split.
      - intros [(l' & E & Hi) Hf]. injection E as <-. auto.
      - intros [Hi Hf]. eauto. }
    split.
    + intros (t & Ht & Hi). change filter_trip_to_entry with trip_to_entry in Ht.
      apply trip_to_entry_iff in Ht as [N <-]. apply HK in Hi as [Hi Hf]. rewrite Hes.
      split; [auto|]. apply fits_matches; assumption.
    + intros [Hi Hm]. apply Hes in Hi as [N Hi]. exists (view e). split; [apply trip_to_entry_iff; auto|].
      apply HK. split; [exact Hi|]. apply fits_matches; assumption.
  - intros Hh. destruct (H2 Hh) as [e E]. simpl. unfold graph_filter. simpl in E. simpl. rewrite E. simpl. eauto.
Qed.

Lemma enlarged_normal {S} (G : lig_impl S) s c es s' : Forall normal es ->
  l_add_entries G s c es = (Ok tt, s', es) /\ enlarged G s c es s' ->
  exists s' l l', l_add_entries G s c es = (Ok tt, s', es) /\ l_entries G s c = Ok l /\ l_entries G s' c = Ok l'
    /\ is_set entry_lt l' /\ forall e, In e l' <-> In e l \/ In e es.
Proof.
  intros N [E [(l & l' & El & El' & Hs & Hin) _]]. exists s', l, l'. repeat split; try assumption.
  - intros H. apply Hin in H as [H|(e' & Hi & Hn)]; [auto|]. right. rewrite Forall_forall in N.
    apply (normalises_normal e' e (N e' Hi)) in Hn. congruence.
  - intros H. apply Hin. destruct H as [H|H]; [auto|]. right. exists e. split; [exact H|].
    rewrite Forall_forall in N. apply normalises_normal; auto.
Qed.

Lemma insert_length {A} (cmp : A -> A -> comparison) x l : List.length (bs_insert cmp x l) <= S (List.length l).
Proof. induction l as [|y l IH]; simpl; [lia|]. destruct (cmp x y); simpl; lia. Qed.

Lemma collect_length {A} (cmp : A -> A -> comparison) l : List.length (bs_collect cmp l) <= List.length l.
Proof.
  unfold bs_collect. enough (H : forall acc, List.length (fold_left (fun acc x => bs_insert cmp x acc) l acc) <= List.length acc + List.length l)
    by (specialize (H []); simpl in H; exact H).
  induction l as [|x l IH]; intros acc; simpl; [lia|]. specialize (IH (bs_insert cmp x acc)).
  pose proof (insert_length cmp x acc). lia.
Qed.

Lemma trips_of_length es : List.length (trips_of es) <= List.length es.
Proof. unfold trips_of. etransitivity; [apply collect_length|]. rewrite map_length. reflexivity. Qed.

Lemma heed_add_entries h c es :
  let G := graph_impl heed_impl in
  let s := hafter heed_new h in
  has heed_impl s (el_name c) ->
  (total_weight (map fst h) + 3 * N.of_nat (List.length es) < 2 ^ 64)%N ->
  exists s', l_add_entries G s c es = (Ok tt, s', es) /\ enlarged G s c es s'.
Proof.
  intros G s Hh Hw. eexists. apply add_entries_spec. apply heed_add_effect; [exact Hh|].
  rewrite total_weight_app. cbn [total_weight fold_right weight]. fold (total_weight (map fst h)).
  pose proof (trips_of_length es). lia.
Qed.

Lemma duck_add_entries h c es :
  let G := graph_impl duck_impl in
  let s := dafter duck_new h in
  has duck_impl s (el_name c) ->
  (dtotal h + 4 * N.of_nat (List.length es) < 2 ^ 63)%N ->
  exists s', l_add_entries G s c es = (Ok tt, s', es) /\ enlarged G s c es s'.
Proof.
  intros G s Hh Hw. eexists. apply add_entries_spec. apply duck_add_effect; [exact Hh|].
  rewrite dtotal_app. cbn [dtotal fold_right dweight]. fold (dtotal h).
  pose proof (trips_of_length es). lia.
Qed.

Lemma heed_remove_entries h c es :
  let G := graph_impl heed_impl in
  let s := hafter heed_new h in
  has heed_impl s (el_name c) ->
  (forall e v, In e es -> v = subject e \/ v = role_name e \/ v = object e ->
     storable v /\ mentioned (installed heed_impl_c heed_new h) v) ->
  exists s', l_remove_entries G s c es = (Ok tt, s', es) /\ reduced G s c es s'.
Proof.
  intros G s Hh HK. eexists. apply remove_entries_spec. apply heed_rem_effect; [exact Hh|].
  intros v (t & Hi & Hp). apply in_trips_of in Hi as (e & He & <-). apply (HK e v He). exact Hp.
Qed.

Lemma mem_add_coll_twice s c :
  snd (t_add_collection mem_impl (snd (t_add_collection mem_impl s c)) c) = snd (t_add_collection mem_impl s c).
Proof.
  simpl. generalize (@nil trip) as v. intros v. induction s as [|[k w] s IH]; simpl.
  - rewrite (o_refl str_order). reflexivity.
  - destruct (str_cmp c k) eqn:E; simpl.
    + rewrite (o_refl str_order). reflexivity.
    + rewrite (o_refl str_order). reflexivity.
    + rewrite E, IH. reflexivity.
Qed.

Lemma names_only {S} (I : trips_impl S) (s : S) c c' es p :
  el_name c = el_name c' ->
  let G := graph_impl I in
  l_add_collection G s c = l_add_collection G s c' /\ l_remove_collection G s c = l_remove_collection G s c'
  /\ l_entries G s c = l_entries G s c' /\ l_add_entries G s c es = l_add_entries G s c' es
  /\ l_remove_entries G s c es = l_remove_entries G s c' es /\ l_filter G s c p = l_filter G s c' p.
Proof.
  intros E G. simpl.
  unfold graph_add_collection, graph_remove_collection, graph_entries, graph_add_entries, graph_remove_entries, graph_filter.
  rewrite E. auto 10.
Qed.
