(** * The three stores agree for disciplined clients *)
From Coq Require Import List Arith NArith Bool Lia Permutation.
From Verif Require Import M_Base M_Data M_Mem M_Heed M_Duck S_Order P_Ord S_Str S_Store P_Hist P_Mem P_Heed P_HeedHist P_Duck.
Import ListNotations.
Open Scope list_scope.

Lemma disciplined_snoc h o : disciplined (h ++ [o]) -> disciplined h /\ allowed h o.
Proof.
  intros D. split.
  - intros h1 o' h2 ->. apply (D h1 o' (h2 ++ [o])). rewrite <- app_assoc. reflexivity.
  - exact (D h o [] eq_refl).
Qed.

Lemma disciplined_mem h c t : disciplined h -> (mem_holds_after h c t <-> holds_after h c t).
Proof.
  revert c t. induction h as [|o h IH] using rev_ind; intros c t D.
  - split; intros H; exfalso; exact (added_nil _ _ _ H).
  - apply disciplined_snoc in D as [D A]. unfold mem_holds_after, holds_after. rewrite !added_snoc.
    fold (mem_holds_after h c t) (holds_after h c t). rewrite (IH c t D).
    split; (intros [H|[H K]]; [left; exact H|right; split; [exact H|]]).
    + intros R. apply K. inversion R; subst; constructor; assumption.
    + intros R. inversion R; subst.
      * apply K. constructor; assumption.
      * apply K. constructor.
      * destruct A as [_ A]. apply A. eapply holds_after_live, H.
Qed.

Lemma part_mentioned : forall h c t v, holds_after h c t -> part v t -> mentioned h v.
Proof.
  intros h c t v (h1 & ts & h2 & -> & Ht & _) Hp. exists c, ts. split; [apply in_or_app; right; left; reflexivity|].
  exists t. auto.
Qed.

Lemma disciplined_storable h v : disciplined h -> mentioned h v -> storable v.
Proof.
  intros D (c & ts & Hi & Hp). apply in_split in Hi as (h1 & h2 & E). apply (D h1 _ h2) in E. exact (proj2 E v Hp).
Qed.

Lemma disciplined_live_storable h c : disciplined h -> live h c -> storable c.
Proof.
  intros D Hl. apply live_in in Hl. apply in_split in Hl as (h1 & h2 & E). apply (D h1 _ h2) in E. exact (proj1 E).
Qed.

Lemma weight_le_dtotal h : (total_weight h <= dtotal h)%N.
Proof.
  induction h as [|o h IH]; [reflexivity|].
  change (total_weight (o :: h)) with (weight o + total_weight h)%N.
  change (dtotal (o :: h)) with (dweight o + dtotal h)%N.
  assert (weight o <= dweight o)%N by (destruct o; cbn [weight dweight]; lia). lia.
Qed.

Lemma agree_mem h : disciplined h -> acked mem_impl mem_new h = h.
Proof.
  induction h as [|o h IH] using rev_ind; intros D; [reflexivity|].
  apply disciplined_snoc in D as [D A]. rewrite acked_snoc, IH by exact D.
  set (s := after mem_impl mem_new h). f_equal.
  assert (HL : forall c, live h c -> has mem_impl s c).
  { intros c Hl. destruct (mem_listing h) as (l & El & _ & Hin). exists l. split; [exact El|]. apply Hin, Hl. }
  destruct o as [c|c|c ts|c ts]; try reflexivity; destruct A as [Hl _]; apply HL in Hl.
  - pose proof (mem_add h c ts Hl) as H. fold s in H. cbn [call_op].
    destruct (t_add_triples mem_impl s c ts) as [[r s'] ts']. destruct H as [-> _]. reflexivity.
  - pose proof (mem_rem h c ts Hl) as H. fold s in H. cbn [call_op].
    destruct (t_remove_triples mem_impl s c ts) as [[r s'] ts']. destruct H as [-> _]. reflexivity.
Qed.

Lemma agree_heed h : disciplined h -> (total_weight h < 2 ^ 64)%N -> acked heed_impl heed_new h = h.
Proof.
  induction h as [|o h IH] using rev_ind; intros D Hw; [reflexivity|].
  apply disciplined_snoc in D as [D A].
  assert (Hw' : (total_weight h < 2 ^ 64)%N) by (rewrite total_weight_app in Hw; lia).
  specialize (IH D Hw'). rewrite acked_snoc, IH. f_equal.
  pose proof (heed_answers (sure h) o true) as HA. rewrite map_fst_sure in HA. specialize (HA Hw).
  cbv zeta in HA. rewrite after_sure, installed_sure, IH in HA.
  pose proof (heed_simulates (sure h)) as SM. rewrite after_sure, installed_sure, IH in SM.
  change (heed_impl_c true) with heed_impl in HA.
  set (d := after heed_impl heed_new h) in *.
  assert (HL : forall c, live h c -> has heed_impl d c).
  { intros c Hl. apply (sim_has true d h c SM). split; [|exact Hl]. eapply disciplined_live_storable; eassumption. }
  destruct o as [c|c|c ts|c ts]; cbn [allowed] in A.
  - rewrite HA. reflexivity.
  - rewrite (proj1 HA (HL c (proj1 A))). reflexivity.
  - rewrite (proj1 HA (HL c (proj1 A))). reflexivity.
  - destruct A as [Hl Ht]. rewrite (proj1 HA); [reflexivity|]. split; [apply HL, Hl|].
    intros v (t & Hi & Hp). assert (mentioned h v) as Hm by (eapply part_mentioned; [apply (Ht t Hi)|exact Hp]).
    split; [eapply disciplined_storable; eassumption|exact Hm].
Qed.

Lemma agree_duck h : disciplined h -> (dtotal h < 2 ^ 63)%N -> acked duck_impl duck_new h = h.
Proof.
  induction h as [|o h IH] using rev_ind; intros D Hw; [reflexivity|].
  apply disciplined_snoc in D as [D A].
  assert (Hw' : (dtotal h < 2 ^ 63)%N) by (rewrite dtotal_app in Hw; lia).
  specialize (IH D Hw'). rewrite acked_snoc, IH. f_equal.
  pose proof (duck_answers h o Hw) as HA. cbv zeta in HA.
  destruct (duck_simulates h) as [SC SR]. rewrite IH in SC, SR.
  set (d := after duck_impl duck_new h) in *.
  assert (HL : forall c, has duck_impl d c <-> live h c).
  { intros c. rewrite duck_has. apply SC. }
  assert (HT : forall c t, holds duck_impl d c t <-> holds_after h c t).
  { intros c t. rewrite duck_holds by apply dinv_reach. apply SR. }
  destruct o as [c|c|c ts|c ts]; cbn [allowed] in A; (rewrite (proj1 HA); [reflexivity|]); try (apply HL, A).
  - rewrite HL. tauto.
  - intros t. rewrite HT. apply A.
Qed.

Lemma set_perm (l l' : list str) : is_set str_lt l -> NoDup l' -> (forall c, In c l <-> In c l') -> Permutation l l'.
Proof.
  intros Hs Hn HE. apply NoDup_Permutation; [|exact Hn|exact HE].
  clear HE Hn. induction l as [|x l IH]; [constructor|]. unfold is_set in *. inversion Hs as [|? ? Hs' Hf]; subst.
  constructor; [|auto]. intros Hi. rewrite Forall_forall in Hf. exact (o_irrefl str_order x (Hf x Hi)).
Qed.

Lemma set_eq {A cmp lt} (O : @is_order A cmp lt) (l l' : list A) :
  is_set lt l -> is_set lt l' -> (forall x, In x l <-> In x l') -> l = l'.
Proof. intros. eapply is_set_ext; eauto. Qed.

Lemma stores_agree h : disciplined h -> (dtotal h < 2 ^ 63)%N ->
  let m := after mem_impl mem_new h in
  let d := after heed_impl heed_new h in
  let q := after duck_impl duck_new h in
  (acked mem_impl mem_new h = h /\ acked heed_impl heed_new h = h /\ acked duck_impl duck_new h = h)
  /\ (exists l l', t_collections mem_impl m = Ok l /\ t_collections heed_impl d = Ok l
                   /\ t_collections duck_impl q = Ok l' /\ Permutation l l' /\ forall c, In c l <-> live h c)
  /\ (forall c, live h c ->
      exists l, t_triples mem_impl m c = Ok l /\ t_triples heed_impl d c = Ok l /\ t_triples duck_impl q c = Ok l
                /\ forall t, In t l <-> holds_after h c t).
Proof.
  intros D Hw m d q. pose proof (weight_le_dtotal h) as Hle.
  assert (Hw' : (total_weight h < 2 ^ 64)%N).
  { change (2 ^ 63)%N with 9223372036854775808%N in Hw. change (2 ^ 64)%N with 18446744073709551616%N. lia. }
  pose proof (agree_mem h D) as A1. pose proof (agree_heed h D Hw') as A2. pose proof (agree_duck h D Hw) as A3.
  split; [auto|].
  destruct (heed_history_sure h) as (H1 & H2 & _).
  { intros c Hc. apply in_split in Hc as (h1 & h2 & E). apply (D h1 _ h2) in E. apply E. }
  rewrite A2 in H1, H2. fold d in H1, H2.
  destruct (duck_history h) as (Q1 & Q2). rewrite A3 in Q1, Q2. fold q in Q1, Q2.
  split.
  - destruct (mem_listing h) as (l & El & Hs & Hin). destruct H1 as (l2 & El2 & Hs2 & Hin2).
    destruct Q1 as (l3 & El3 & Hn3 & Hin3).
    assert (l = l2) as <- by (apply (set_eq str_order); [assumption..|]; intros c; rewrite Hin, Hin2; reflexivity).
    exists l, l3. split; [exact El|]. split; [exact El2|]. split; [exact El3|]. split; [|exact Hin].
    apply set_perm; [assumption..|]. intros c. rewrite Hin, Hin3. reflexivity.
  - intros c Hl. destruct (proj1 (mem_history h c) Hl) as (l & El & Hs & Hin).
    destruct (H2 c Hl) as (l2 & El2 & Hs2 & Hin2). destruct (Q2 c) as (l3 & El3 & Hs3 & Hin3).
    assert (HM : forall t, In t l <-> holds_after h c t) by (intros t; rewrite Hin; apply disciplined_mem, D).
    assert (l = l2) as <- by (apply (set_eq trip_order); [assumption..|]; intros t; rewrite HM, Hin2; reflexivity).
    assert (l = l3) as <- by (apply (set_eq trip_order); [assumption..|]; intros t; rewrite HM, Hin3; reflexivity).
    exists l. auto.
Qed.

(** C63 *)
Lemma callers_set h c ts :
  (has mem_impl (after mem_impl mem_new h) c -> snd (t_add_triples mem_impl (after mem_impl mem_new h) c ts) = [])
  /\ (forall d b, snd (t_add_triples (heed_impl_c b) d c ts) = ts)
  /\ (forall q, snd (t_add_triples duck_impl q c ts) = ts)
  /\ (forall m, snd (t_remove_triples mem_impl m c ts) = ts)
  /\ (forall d b, snd (t_remove_triples (heed_impl_c b) d c ts) = ts)
  /\ (forall q, snd (t_remove_triples duck_impl q c ts) = ts).
Proof.
  split; [|split; [|split; [|split; [|split]]]].
  - intros Hh. pose proof (mem_add h c ts Hh) as H. destruct (t_add_triples _ _ c ts) as [[? ?] ?]. simpl. tauto.
  - reflexivity.
  - intros q. simpl. unfold duck_add_triples. destruct (tbind _ _); reflexivity.
  - intros m. simpl. unfold mem_remove_triples. destruct (bm_get _ _ _); reflexivity.
  - reflexivity.
  - intros q. simpl. unfold duck_remove_triples. destruct (duck_get_collection_id _ _); reflexivity.
Qed.
