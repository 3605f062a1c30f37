(** * DuckDB store: invariant and histories *)
From Coq Require Import List Arith NArith Bool Lia String.
From Verif Require Import M_Base M_Data M_Duck S_Order P_Ord S_Store P_Hist.
Import ListNotations.
Open Scope list_scope.

(** ** Tables (id, text) with unique columns *)

Definition table_ok (seq : N) (t : list (N * str)) : Prop :=
  NoDup (map fst t) /\ NoDup (map snd t) /\ (forall i n, In (i, n) t -> (i <= seq)%N).

Lemma sel_id_in t n i : sel_id t n = Some i -> In (i, n) t.
Proof.
  induction t as [|[j m] t IH]; simpl; [discriminate|].
  destruct (str_eqb m n) eqn:E; [|auto]. apply str_eqb_eq in E. intros H. left. congruence.
Qed.

Lemma sel_id_none t n : sel_id t n = None <-> forall i, ~ In (i, n) t.
Proof.
  induction t as [|[j m] t IH]; simpl; [split; [auto|reflexivity]|].
  destruct (str_eqb m n) eqn:E.
  - apply str_eqb_eq in E as ->. split; [discriminate|]. intros H. exfalso. apply (H j). auto.
  - rewrite IH. split.
    + intros H i [Hi|Hi]; [injection Hi as <- <-; rewrite str_eqb_refl in E; discriminate|exact (H i Hi)].
    + intros H i Hi. apply (H i). auto.
Qed.

Lemma name_unique s t i j n : table_ok s t -> In (i, n) t -> In (j, n) t -> i = j.
Proof.
  intros (_ & Hn & _). induction t as [|[k m] t IH]; simpl in *; [tauto|].
  inversion Hn as [|? ? Hm Hn']; subst. intros [Hi|Hi] [Hj|Hj].
  - congruence.
  - injection Hi as <- <-. exfalso. apply Hm. apply (in_map snd) in Hj. exact Hj.
  - injection Hj as <- <-. exfalso. apply Hm. apply (in_map snd) in Hi. exact Hi.
  - apply IH; assumption.
Qed.

Lemma id_unique s t i n m : table_ok s t -> In (i, n) t -> In (i, m) t -> n = m.
Proof.
  intros (Hn & _ & _). induction t as [|[k q] t IH]; simpl in *; [tauto|].
  inversion Hn as [|? ? Hm Hn']; subst. intros [Hi|Hi] [Hj|Hj].
  - congruence.
  - injection Hi as <- <-. exfalso. apply Hm. apply (in_map fst) in Hj. exact Hj.
  - injection Hj as <- <-. exfalso. apply Hm. apply (in_map fst) in Hi. exact Hi.
  - apply IH; assumption.
Qed.

Lemma sel_id_iff s t n i : table_ok s t -> (sel_id t n = Some i <-> In (i, n) t).
Proof.
  intros Ht. split; [apply sel_id_in|]. intros H. destruct (sel_id t n) as [j|] eqn:E.
  - apply sel_id_in in E. f_equal. eapply name_unique; eassumption.
  - exfalso. rewrite sel_id_none in E. exact (E i H).
Qed.

Lemma sel_name_iff s t n i : table_ok s t -> (sel_name t i = Some n <-> In (i, n) t).
Proof.
  intros Ht. split.
  - clear Ht. induction t as [|[j m] t IH]; simpl; [discriminate|].
    destruct (N.eqb_spec j i) as [->|_]; [intros H; left; congruence|auto].
  - intros H. assert (exists m, sel_name t i = Some m /\ In (i, m) t) as (m & E & Hm).
    { clear Ht. induction t as [|[j m] t IH]; simpl in *; [tauto|].
      destruct (N.eqb_spec j i) as [->|Hn]; [eauto|]. destruct H as [H|H]; [congruence|].
      destruct (IH H) as (m' & ? & ?). eauto. }
    rewrite E. f_equal. eapply id_unique; eassumption.
Qed.

Lemma table_ok_app s s' t n : table_ok s t -> (s < s')%N -> (forall i, ~ In (i, n) t) -> table_ok s' (t ++ [(s', n)]).
Proof.
  intros (H1 & H2 & H3) Hlt Hn. split; [|split].
  - rewrite map_app. rewrite <- (rev_involutive (map fst t ++ _)).
    apply NoDup_rev. rewrite rev_app_distr. simpl. constructor; [|apply NoDup_rev, H1].
    rewrite <- in_rev, in_map_iff. intros ([i m] & E & Hi). simpl in E. subst. apply H3 in Hi. lia.
  - rewrite map_app. rewrite <- (rev_involutive (map snd t ++ _)).
    apply NoDup_rev. rewrite rev_app_distr. simpl. constructor; [|apply NoDup_rev, H2].
    rewrite <- in_rev, in_map_iff. intros ([i m] & E & Hi). simpl in E. subst. exact (Hn i Hi).
  - intros i m Hi. apply in_app_or in Hi as [Hi|[Hi|[]]]; [apply H3 in Hi; lia|]. injection Hi as <- <-. lia.
Qed.

Lemma table_ok_mono s s' t : table_ok s t -> (s <= s')%N -> table_ok s' t.
Proof. intros (? & ? & H) Hle. split; [assumption|]. split; [assumption|]. intros i n Hi. apply H in Hi. lia. Qed.

Lemma NoDup_map_filter {A B} (f : A -> B) p l : NoDup (map f l) -> NoDup (map f (filter p l)).
Proof.
  induction l as [|x l IH]; simpl; intros H; [exact H|]. inversion H as [|? ? Hx Hl]; subst.
  destruct (p x); simpl; [|auto]. constructor; [|auto]. rewrite in_map_iff. intros (y & E & Hy).
  apply filter_In in Hy as [Hy _]. apply Hx. rewrite <- E. apply in_map, Hy.
Qed.

Lemma table_ok_filter s t p : table_ok s t -> table_ok s (filter p t).
Proof.
  intros (H1 & H2 & H3). split; [apply NoDup_map_filter, H1|]. split; [apply NoDup_map_filter, H2|].
  intros i n Hi. apply filter_In in Hi as [Hi _]. eauto.
Qed.

(** ** Invariant *)

(** A row of the trip table shows triple [t] of collection [c]. *)
Definition shows (d : duck) (r : trip_row) (c : str) (t : trip) : Prop :=
  exists ci f s e, tr_collection r = Some ci /\ In (ci, c) (d_coll d)
    /\ tr_first r = Some f /\ In (f, t0 t) (d_part d)
    /\ tr_second r = Some s /\ In (s, t1 t) (d_part d)
    /\ tr_third r = Some e /\ In (e, t2 t) (d_part d).

Record dinv (d : duck) : Prop := {
  dv_seq : (d_seq d <= seq_max)%N;
  dv_part : table_ok (d_seq d) (d_part d);
  dv_coll : table_ok (d_seq d) (d_coll d);
  dv_row : forall r, In r (d_trip d) -> exists c t, shows d r c t
}.

Definition drow (d : duck) (c : str) (t : trip) : Prop := exists r, In r (d_trip d) /\ shows d r c t.

Lemma dinv_new : dinv duck_new.
Proof.
  split; simpl.
  - unfold seq_max. lia.
  - repeat split; try constructor. intros i n [].
  - repeat split; try constructor. intros i n [].
  - intros r [].
Qed.

Lemma shows_unique d r c t c' t' : dinv d -> shows d r c t -> shows d r c' t' -> c = c' /\ t = t'.
Proof.
  intros [_ Hp Hc _] (ci & f & s & e & E1 & I1 & E2 & I2 & E3 & I3 & E4 & I4)
    (ci' & f' & s' & e' & E1' & I1' & E2' & I2' & E3' & I3' & E4' & I4').
  rewrite E1 in E1'. rewrite E2 in E2'. rewrite E3 in E3'. rewrite E4 in E4'.
  injection E1' as <-. injection E2' as <-. injection E3' as <-. injection E4' as <-.
  split; [eapply id_unique; [exact Hc|eassumption..]|].
  destruct t, t'; simpl in *.
  rewrite (id_unique _ _ _ _ _ Hp I2 I2'), (id_unique _ _ _ _ _ Hp I3 I3'), (id_unique _ _ _ _ _ Hp I4 I4'). reflexivity.
Qed.

(** ** Reading *)

Lemma triples_loop_duck d c : dinv d -> forall rows acc, incl rows (d_trip d) -> is_set trip_lt acc ->
  exists l, duck_triples_loop d c rows acc = Ok l /\ is_set trip_lt l
            /\ forall t, In t l <-> In t acc \/ exists r, In r rows /\ shows d r c t.
Proof.
  intros I. induction rows as [|r rows IH]; intros acc Hsub Hset; cbn [duck_triples_loop].
  - exists acc. split; [reflexivity|]. split; [exact Hset|]. intros t. split; [auto|]. intros [H|(r & [] & _)]. exact H.
  - assert (Hsub' : incl rows (d_trip d)) by (intros x Hx; apply Hsub; right; exact Hx).
    destruct (dv_row _ I r (Hsub _ (or_introl eq_refl))) as (c0 & t & Hs).
    pose proof Hs as (ci & f & s & e & E1 & I1 & E2 & I2 & E3 & I3 & E4 & I4).
    rewrite E1, E2, E3, E4. cbn [join_name].
    rewrite (proj2 (sel_name_iff _ _ _ _ (dv_coll _ I)) I1).
    rewrite (proj2 (sel_name_iff _ _ _ _ (dv_part _ I)) I2), (proj2 (sel_name_iff _ _ _ _ (dv_part _ I)) I3),
      (proj2 (sel_name_iff _ _ _ _ (dv_part _ I)) I4).
    destruct (str_eqb c0 c) eqn:E.
    + apply str_eqb_eq in E as ->.
      replace (Trip (t0 t) (t1 t) (t2 t)) with t by (destruct t; reflexivity).
      destruct (IH (bs_insert trip_cmp t acc) Hsub' (is_set_insert trip_order t acc Hset)) as (l & El & Hl & Hin).
      exists l. split; [exact El|]. split; [exact Hl|]. intros t'. rewrite Hin, (in_bs_insert trip_order). split.
      * intros [[->|H]|(r' & Hr' & Hs')]; [right; exists r; simpl; auto|auto|right; exists r'; simpl; auto].
      * intros [H|(r' & [<-|Hr'] & Hs')]; [auto| |right; eauto].
        left. left. symmetry. eapply shows_unique; eassumption.
    + destruct (IH acc Hsub' Hset) as (l & El & Hl & Hin).
      exists l. split; [exact El|]. split; [exact Hl|]. intros t'. rewrite Hin. split.
      * intros [H|(r' & Hr' & Hs')]; [auto|right; exists r'; simpl; auto].
      * intros [H|(r' & [<-|Hr'] & Hs')]; [auto| |right; eauto]. exfalso.
        destruct (shows_unique _ _ _ _ _ _ I Hs Hs') as [<- _]. rewrite str_eqb_refl in E. discriminate.
Qed.

Lemma duck_triples_spec d c : dinv d ->
  exists l, duck_triples d c = Ok l /\ is_set trip_lt l /\ forall t, In t l <-> drow d c t.
Proof.
  intros I. destruct (triples_loop_duck d c I (d_trip d) [] (incl_refl _)) as (l & El & Hl & Hin); [constructor|].
  exists l. split; [exact El|]. split; [exact Hl|]. intros t. rewrite Hin. unfold drow. simpl. tauto.
Qed.

Lemma duck_has d c : has duck_impl d c <-> exists i, In (i, c) (d_coll d).
Proof.
  unfold has. simpl. unfold duck_collections. split.
  - intros (l & E & H). injection E as <-. apply in_map_iff in H as ([i n] & <- & H). eauto.
  - intros [i H]. eexists. split; [reflexivity|]. apply (in_map snd) in H. exact H.
Qed.

Lemma duck_holds d c t : dinv d -> (holds duck_impl d c t <-> drow d c t).
Proof.
  intros I. destruct (duck_triples_spec d c I) as (l & El & _ & Hin). unfold holds. simpl. rewrite El. split.
  - intros (l' & E & H). injection E as <-. apply Hin, H.
  - intros H. exists l. split; [reflexivity|]. apply Hin, H.
Qed.

(** ** Writing *)

Lemma nextval_some n i : nextval n = Some i -> i = (n + 1)%N /\ (n < seq_max)%N.
Proof. unfold nextval. destruct (N.ltb_spec n seq_max); [|discriminate]. intros E. split; [congruence|assumption]. Qed.

Lemma nextval_none n : nextval n = None -> (seq_max <= n)%N.
Proof. unfold nextval. destruct (N.ltb_spec n seq_max); [discriminate|auto]. Qed.

Lemma shows_mono d d' r c t :
  incl (d_coll d) (d_coll d') -> incl (d_part d) (d_part d') -> shows d r c t -> shows d' r c t.
Proof.
  intros Hc Hp (ci & f & s & e & E1 & I1 & E2 & I2 & E3 & I3 & E4 & I4). exists ci, f, s, e. auto 12.
Qed.

Lemma add_part_spec d p : dinv d ->
  match duck_add_part d p with
  | Ok d' => dinv d' /\ d_coll d' = d_coll d /\ d_trip d' = d_trip d /\ incl (d_part d) (d_part d')
             /\ (exists i, In (i, p) (d_part d')) /\ d_seq d' = (d_seq d + 1)%N
             /\ (forall i v, In (i, v) (d_part d') -> In (i, v) (d_part d) \/ v = p)
  | Err _ => False
  | Panic w => w = PUnwrap /\ (seq_max <= d_seq d)%N
  end.
Proof.
  intros I. unfold duck_add_part. destruct (nextval (d_seq d)) as [i|] eqn:En.
  2:{ split; [reflexivity|apply nextval_none, En]. }
  apply nextval_some in En as [-> Hlt]. destruct I as [I1 I2 I3 I4].
  destruct (sel_id (d_part d) p) as [j|] eqn:Es; simpl.
  - split; [split; simpl; [lia|eapply table_ok_mono; [exact I2|lia]|eapply table_ok_mono; [exact I3|lia]|exact I4]|].
    apply sel_id_in in Es. split; [reflexivity|]. split; [reflexivity|]. split; [apply incl_refl|]. eauto 10.
  - rewrite sel_id_none in Es. split; [split; simpl|].
    + lia.
    + apply table_ok_app with (s := d_seq d); [exact I2|lia|exact Es].
    + eapply table_ok_mono; [exact I3|lia].
    + intros r Hr. destruct (I4 r Hr) as (c & t & Hs). exists c, t.
      eapply shows_mono; [| |exact Hs]; simpl; [apply incl_refl|apply incl_appl, incl_refl].
    + split; [reflexivity|]. split; [reflexivity|]. split; [apply incl_appl, incl_refl|].
      split; [exists (d_seq d + 1)%N; apply in_or_app; right; left; reflexivity|]. split; [reflexivity|].
      intros i v Hi. apply in_app_or in Hi as [Hi|[Hi|[]]]; [auto|]. injection Hi as <- <-. auto.
Qed.

Lemma drow_mono d d' c t : dinv d -> dinv d' ->
  d_coll d' = d_coll d -> d_trip d' = d_trip d -> incl (d_part d) (d_part d') ->
  (drow d' c t <-> drow d c t).
Proof.
  intros I I' Hc Ht Hp. split; intros (r & Hr & Hs).
  - rewrite Ht in Hr. destruct (dv_row _ I r Hr) as (c0 & t' & Hs').
    assert (Hs'' : shows d' r c0 t') by (eapply shows_mono; [| |exact Hs']; [rewrite Hc; apply incl_refl|exact Hp]).
    destruct (shows_unique _ _ _ _ _ _ I' Hs Hs'') as [-> ->]. exists r. auto.
  - exists r. rewrite Ht. split; [exact Hr|]. eapply shows_mono; [| |exact Hs]; [rewrite Hc; apply incl_refl|exact Hp].
Qed.

(** The effect of adding triples to collection id [cid], named [c]. *)
Record dadded (d d' : duck) (c : str) (ts : list trip) : Prop := {
  da_inv : dinv d';
  da_coll : d_coll d' = d_coll d;
  da_part : incl (d_part d) (d_part d');
  da_seq : d_seq d' = (d_seq d + 4 * N.of_nat (List.length ts))%N;
  da_row : forall c' t, drow d' c' t <-> drow d c' t \/ (c' = c /\ In t ts)
}.

Lemma add_trip_spec d cid c t : dinv d -> In (cid, c) (d_coll d) ->
  (exists i, In (i, t0 t) (d_part d)) -> (exists i, In (i, t1 t) (d_part d)) -> (exists i, In (i, t2 t) (d_part d)) ->
  match duck_add_trip d cid t with
  | Ok d' => dinv d' /\ d_coll d' = d_coll d /\ d_part d' = d_part d /\ d_seq d' = (d_seq d + 1)%N
             /\ (forall c' t', drow d' c' t' <-> drow d c' t' \/ (c' = c /\ t' = t))
  | Err _ => False
  | Panic w => w = PUnwrap /\ (seq_max <= d_seq d)%N
  end.
Proof.
  intros I Hc [i0 H0] [i1 H1] [i2 H2]. unfold duck_add_trip. destruct (nextval (d_seq d)) as [i|] eqn:En.
  2:{ split; [reflexivity|apply nextval_none, En]. }
  apply nextval_some in En as [-> Hlt].
  rewrite (proj2 (sel_id_iff _ _ _ _ (dv_part _ I)) H0), (proj2 (sel_id_iff _ _ _ _ (dv_part _ I)) H1),
    (proj2 (sel_id_iff _ _ _ _ (dv_part _ I)) H2).
  set (row := TripRow _ _ _ _ _).
  set (d' := Duck (d_seq d + 1) (d_part d) (d_coll d) (d_trip d ++ [row])).
  assert (Hrow : shows d' row c t) by (exists cid, i0, i1, i2; simpl; auto 12).
  assert (Hmono : forall r c' t', shows d r c' t' <-> shows d' r c' t') by (intros; reflexivity).
  assert (I' : dinv d').
  { destruct I as [I1 I2 I3 I4]. split; simpl; [lia|eapply table_ok_mono; [exact I2|lia]|eapply table_ok_mono; [exact I3|lia]|].
    intros r Hr. apply in_app_or in Hr as [Hr|[<-|[]]]; [exact (I4 r Hr)|]. exists c, t. exact Hrow. }
  split; [exact I'|]. split; [reflexivity|]. split; [reflexivity|]. split; [reflexivity|].
  intros c' t'. unfold drow. simpl. split.
  - intros (r & Hr & Hs). apply in_app_or in Hr as [Hr|[<-|[]]]; [left; eauto|].
    right. destruct (shows_unique _ _ _ _ _ _ I' Hs Hrow) as [-> ->]. auto.
  - intros [(r & Hr & Hs)|[-> ->]].
    + exists r. split; [apply in_or_app; auto|exact Hs].
    + exists row. split; [apply in_or_app; right; left; reflexivity|exact Hrow].
Qed.

Lemma add_loop_duck cid c : forall ts d, dinv d -> In (cid, c) (d_coll d) ->
  match duck_add_loop d cid ts with
  | Ok d' => dadded d d' c ts
  | Err _ => False
  | Panic w => w = PUnwrap /\ (seq_max < d_seq d + 4 * N.of_nat (List.length ts))%N
  end.
Proof.
  induction ts as [|t ts IH]; intros d I Hc; cbn [duck_add_loop].
  - split; [exact I|reflexivity|apply incl_refl|simpl; lia|]. intros c' t. simpl. tauto.
  - pose proof (add_part_spec d (t0 t) I) as S1.
    destruct (duck_add_part d (t0 t)) as [d1|e|w]; cbn [tbind]; [|destruct S1|].
    2:{ destruct S1 as [-> S1]. split; [reflexivity|]. cbn [List.length]. lia. }
    destruct S1 as (I1 & C1 & T1 & P1 & E1 & Q1 & _).
    pose proof (add_part_spec d1 (t1 t) I1) as S2.
    destruct (duck_add_part d1 (t1 t)) as [d2|e|w]; cbn [tbind]; [|destruct S2|].
    2:{ destruct S2 as [-> S2]. split; [reflexivity|]. cbn [List.length]. lia. }
    destruct S2 as (I2 & C2 & T2 & P2 & E2 & Q2 & _).
    pose proof (add_part_spec d2 (t2 t) I2) as S3.
    destruct (duck_add_part d2 (t2 t)) as [d3|e|w]; cbn [tbind]; [|destruct S3|].
    2:{ destruct S3 as [-> S3]. split; [reflexivity|]. cbn [List.length]. lia. }
    destruct S3 as (I3 & C3 & T3 & P3 & E3 & Q3 & _).
    assert (Hc3 : In (cid, c) (d_coll d3)) by congruence.
    assert (E1' : exists i, In (i, t0 t) (d_part d3)) by (destruct E1; eauto).
    assert (E2' : exists i, In (i, t1 t) (d_part d3)) by (destruct E2; eauto).
    pose proof (add_trip_spec d3 cid c t I3 Hc3 E1' E2' E3) as S4.
    destruct (duck_add_trip d3 cid t) as [d4|e|w]; cbn [tbind]; [|destruct S4|].
    2:{ destruct S4 as [-> S4]. split; [reflexivity|]. cbn [List.length]. lia. }
    destruct S4 as (I4 & C4 & P4 & Q4 & R4).
    assert (Hc4 : In (cid, c) (d_coll d4)) by congruence.
    specialize (IH d4 I4 Hc4). destruct (duck_add_loop d4 cid ts) as [d'|e|w]; [|destruct IH|].
    2:{ destruct IH as [-> IH]. split; [reflexivity|]. cbn [List.length]. lia. }
    assert (P03 : incl (d_part d) (d_part d3)) by (intros x Hx; auto).
    destruct IH as [J1 J2 J3 J4 J5]. split.
    + exact J1.
    + congruence.
    + intros x Hx. apply J3. rewrite P4. auto.
    + rewrite J4, Q4, Q3, Q2, Q1. cbn [List.length]. lia.
    + intros c' t'. rewrite J5, R4. rewrite (drow_mono d d3 c' t' I I3) by (congruence || assumption).
      simpl. intuition congruence.
Qed.

Lemma sql_eq_true a b : sql_eq a b = true <-> exists x, a = Some x /\ b = Some x.
Proof.
  destruct a as [x|], b as [y|]; simpl; try (split; [discriminate|intros (z & ? & ?); discriminate]).
  rewrite N.eqb_eq. split; [intros ->; eauto|]. intros (z & E1 & E2). congruence.
Qed.

Record dremoved (d d' : duck) (c : str) (ts : list trip) : Prop := {
  dr_inv : dinv d';
  dr_coll : d_coll d' = d_coll d;
  dr_seq : d_seq d' = d_seq d;
  dr_row : forall c' t, drow d' c' t <-> drow d c' t /\ ~ (c' = c /\ In t ts)
}.

Lemma remove_trip_spec d cid c t : dinv d -> In (cid, c) (d_coll d) -> dremoved d (duck_remove_trip d cid t) c [t].
Proof.
  intros I Hc. unfold duck_remove_trip. set (keep := fun r => negb _).
  set (d' := Duck _ _ _ _).
  assert (I' : dinv d').
  { destruct I as [I1 I2 I3 I4]. split; simpl; try assumption. intros r Hr. apply filter_In in Hr as [Hr _]. exact (I4 r Hr). }
  assert (Hkeep : forall r c' t', shows d r c' t' -> (keep r = false <-> c' = c /\ t' = t)).
  { intros r c' t' (ci & f & s & e & E1 & J1 & E2 & J2 & E3 & J3 & E4 & J4).
    unfold keep. rewrite negb_false_iff, !andb_true_iff, !sql_eq_true. rewrite E1, E2, E3, E4. split.
    - intros [[[(x & X1 & X2) (y & Y1 & Y2)] (z & Z1 & Z2)] (u & U1 & U2)].
      injection X1 as <-. injection X2 as <-. injection Y1 as <-. injection Z1 as <-. injection U1 as <-.
      apply sel_id_in in Y2, Z2, U2. split; [eapply id_unique; [apply (dv_coll _ I)|eassumption..]|].
      destruct t, t'; simpl in *.
      rewrite (id_unique _ _ _ _ _ (dv_part _ I) J2 Y2), (id_unique _ _ _ _ _ (dv_part _ I) J3 Z2),
        (id_unique _ _ _ _ _ (dv_part _ I) J4 U2). reflexivity.
    - intros [-> ->]. rewrite (proj2 (sel_id_iff _ _ _ _ (dv_part _ I)) J2), (proj2 (sel_id_iff _ _ _ _ (dv_part _ I)) J3),
        (proj2 (sel_id_iff _ _ _ _ (dv_part _ I)) J4).
      rewrite (name_unique _ _ _ _ _ (dv_coll _ I) J1 Hc). repeat split; eauto. }
  split; [exact I'|reflexivity|reflexivity|]. intros c' t'. unfold drow. simpl. split.
  - intros (r & Hr & Hs). apply filter_In in Hr as [Hr Hk]. split; [exists r; auto|].
    intros [-> [->|[]]]. assert (keep r = false) by (apply (Hkeep r c t' Hs); auto). congruence.
  - intros [(r & Hr & Hs) Hn]. exists r. split; [|exact Hs]. apply filter_In. split; [exact Hr|].
    destruct (keep r) eqn:Hk; [reflexivity|]. exfalso. apply Hn. apply (Hkeep r c' t' Hs) in Hk as [-> ->]. auto.
Qed.

Lemma remove_fold_spec cid c : forall ts d, dinv d -> In (cid, c) (d_coll d) ->
  dremoved d (fold_left (fun acc t => duck_remove_trip acc cid t) ts d) c ts.
Proof.
  induction ts as [|t ts IH]; intros d I Hc; simpl.
  - split; auto. intros c' t. simpl. tauto.
  - destruct (remove_trip_spec d cid c t I Hc) as [I1 C1 Q1 R1].
    assert (Hc' : In (cid, c) (d_coll (duck_remove_trip d cid t))) by (rewrite C1; exact Hc).
    destruct (IH _ I1 Hc') as [I2 C2 Q2 R2]. split; [exact I2|congruence|congruence|].
    intros c' t'. rewrite R2, R1. simpl. intuition congruence.
Qed.

(** ** One call *)

Definition dcoll (d : duck) (c : str) : Prop := exists i, In (i, c) (d_coll d).

Lemma dcoll_dec d c : {dcoll d c} + {~ dcoll d c}.
Proof.
  destruct (sel_id (d_coll d) c) as [i|] eqn:E.
  - left. exists i. apply sel_id_in, E.
  - right. rewrite sel_id_none in E. intros [i Hi]. exact (E i Hi).
Qed.

Notation dcall := (call_op duck_impl).

Inductive dstep (d : duck) : op -> tres unit -> duck -> Prop :=
| dk_add_coll c d' : ~ dcoll d c -> dinv d' -> d_coll d' = d_coll d ++ [(d_seq d + 1, c)%N] -> d_part d' = d_part d ->
    d_trip d' = d_trip d -> d_seq d' = (d_seq d + 1)%N -> dstep d (OAddColl c) (Ok tt) d'
| dk_add_coll_dup c : dcoll d c -> dstep d (OAddColl c) (Panic PUnwrap) d
| dk_add_coll_full c : (seq_max <= d_seq d)%N -> dstep d (OAddColl c) (Panic PUnwrap) d
| dk_rem_coll_none c : ~ dcoll d c -> dstep d (ORemColl c) (Ok tt) d
| dk_rem_coll_used c t : drow d c t -> dstep d (ORemColl c) (Panic PUnwrap) d
| dk_rem_coll c d' : dcoll d c -> (forall t, ~ drow d c t) -> dinv d' ->
    (forall i n, In (i, n) (d_coll d') <-> In (i, n) (d_coll d) /\ n <> c) ->
    (forall c' t, drow d' c' t <-> drow d c' t) -> d_seq d' = d_seq d -> dstep d (ORemColl c) (Ok tt) d'
| dk_add c ts d' : dcoll d c -> dadded d d' c ts -> dstep d (OAdd c ts) (Ok tt) d'
| dk_add_full c ts : dcoll d c -> (seq_max < d_seq d + 4 * N.of_nat (List.length ts))%N ->
    dstep d (OAdd c ts) (Panic PUnwrap) d
| dk_add_missing c ts e : ~ dcoll d c -> dstep d (OAdd c ts) (Err e) d
| dk_rem c ts d' : dcoll d c -> dremoved d d' c ts -> dstep d (ORem c ts) (Ok tt) d'
| dk_rem_missing c ts e : ~ dcoll d c -> dstep d (ORem c ts) (Err e) d.

Lemma dstep_call d o : dinv d -> dstep d o (fst (dcall d o)) (snd (dcall d o)).
Proof.
  intros I. destruct o as [c|c|c ts|c ts]; simpl.
  - unfold duck_add_collection. destruct (nextval (d_seq d)) as [i|] eqn:En; simpl.
    2:{ apply dk_add_coll_full, nextval_none, En. }
    apply nextval_some in En as [-> Hlt].
    destruct (sel_id (d_coll d) c) as [j|] eqn:Es; simpl.
    + apply dk_add_coll_dup. exists j. apply sel_id_in, Es.
    + rewrite sel_id_none in Es. apply dk_add_coll; try reflexivity; [intros [i Hi]; exact (Es i Hi)|].
      destruct I as [I1 I2 I3 I4]. split; simpl.
      * lia.
      * eapply table_ok_mono; [exact I2|lia].
      * apply table_ok_app with (s := d_seq d); [exact I3|lia|exact Es].
      * intros r Hr. destruct (I4 r Hr) as (c' & t & Hs). exists c', t.
        eapply shows_mono; [| |exact Hs]; simpl; [apply incl_appl, incl_refl|apply incl_refl].
  - unfold duck_remove_collection. destruct (sel_id (d_coll d) c) as [i|] eqn:Es; simpl.
    2:{ apply dk_rem_coll_none. rewrite sel_id_none in Es. intros [i Hi]. exact (Es i Hi). }
    apply sel_id_in in Es.
    assert (Hd : dcoll d c) by (exists i; exact Es).
    destruct (existsb _ (d_trip d)) eqn:Ex; simpl.
    + apply existsb_exists in Ex as (r & Hr & Hq). apply sql_eq_true in Hq as (x & X1 & X2). injection X2 as <-.
      destruct (dv_row _ I r Hr) as (c' & t & ci & f & s & e & E1 & J1 & Hrest).
      assert (ci = i) as -> by congruence.
      assert (c' = c) as -> by (eapply id_unique; [apply (dv_coll _ I)|exact J1|exact Es]).
      apply dk_rem_coll_used with (t := t). exists r. split; [exact Hr|]. exists i, f, s, e. tauto.
    + assert (Hno : forall t, ~ drow d c t).
      { intros t (r & Hr & ci & f & s & e & E1 & J1 & _).
        assert (ci = i) as -> by (eapply name_unique; [apply (dv_coll _ I)|exact J1|exact Es]).
        rewrite <- not_true_iff_false, existsb_exists in Ex. apply Ex. exists r. split; [exact Hr|].
        apply sql_eq_true. eauto. }
      set (d' := Duck _ _ _ _).
      assert (Hcoll : forall j n, In (j, n) (d_coll d') <-> In (j, n) (d_coll d) /\ n <> c).
      { intros j n. simpl. rewrite filter_In. simpl. rewrite negb_true_iff.
        destruct (str_eqb n c) eqn:E; [apply str_eqb_eq in E|]; intuition; try discriminate.
        subst. rewrite str_eqb_refl in E. discriminate. }
      assert (Hsh : forall r c' t, shows d' r c' t <-> shows d r c' t /\ c' <> c).
      { intros r c' t. split.
        - intros (ci & f & s & e & E1 & J1 & Hr). apply Hcoll in J1 as [J1 Hn]. split; [|exact Hn].
          exists ci, f, s, e. tauto.
        - intros [(ci & f & s & e & E1 & J1 & Hr) Hn]. exists ci, f, s, e. rewrite Hcoll. tauto. }
      assert (I' : dinv d').
      { destruct I as [I1 I2 I3 I4]. split; simpl; try assumption.
        - apply table_ok_filter, I3.
        - intros r Hr. destruct (I4 r Hr) as (c' & t & Hs). exists c', t. apply Hsh. split; [exact Hs|].
          intros ->. apply (Hno t). exists r. auto. }
      apply dk_rem_coll; try assumption; try reflexivity.
      intros c' t. unfold drow. simpl. split.
      * intros (r & Hr & Hs). apply Hsh in Hs. exists r. tauto.
      * intros (r & Hr & Hs). exists r. split; [exact Hr|]. apply Hsh. split; [exact Hs|].
        intros ->. apply (Hno t). exists r. auto.
  - unfold duck_add_triples, duck_get_collection_id.
    destruct (sel_id (d_coll d) c) as [i|] eqn:Es; simpl.
    2:{ apply dk_add_missing. rewrite sel_id_none in Es. intros [i Hi]. exact (Es i Hi). }
    apply sel_id_in in Es. assert (Hd : dcoll d c) by (exists i; exact Es).
    pose proof (add_loop_duck i c ts d I Es) as H.
    destruct (duck_add_loop d i ts) as [d'|e|w]; simpl; [|destruct H|].
    + apply dk_add; assumption.
    + destruct H as [-> H]. apply dk_add_full; assumption.
  - unfold duck_remove_triples, duck_get_collection_id.
    destruct (sel_id (d_coll d) c) as [i|] eqn:Es; simpl.
    2:{ apply dk_rem_missing. rewrite sel_id_none in Es. intros [i Hi]. exact (Es i Hi). }
    apply sel_id_in in Es. apply dk_rem; [exists i; exact Es|]. apply remove_fold_spec; assumption.
Qed.

Lemma dinv_step d o : dinv d -> dinv (snd (dcall d o)).
Proof.
  intros I. pose proof (dstep_call d o I) as H. revert H.
  generalize (fst (dcall d o)) as r. generalize (snd (dcall d o)) as d'. intros d' r H.
  destruct H; try assumption; [apply (da_inv _ _ _ _ H0)|apply (dr_inv _ _ _ _ H0)].
Qed.

Notation dafter := (after duck_impl).

Lemma dinv_reach h : dinv (dafter duck_new h).
Proof.
  induction h as [|o h IH] using rev_ind; [apply dinv_new|]. rewrite after_snoc. apply dinv_step, IH.
Qed.

(** ** Histories *)

Record dsim (d : duck) (H : list op) : Prop := {
  ds_coll : forall c, dcoll d c <-> live H c;
  ds_row : forall c t, drow d c t <-> holds_after H c t
}.

Lemma holds_after_snoc' h o c t :
  holds_after (h ++ [o]) c t
  <-> (exists ts, o = OAdd c ts /\ In t ts /\ live h c) \/ (holds_after h c t /\ ~ removes c t o).
Proof. apply added_snoc. Qed.

Lemma holds_after_live' h c t : holds_after h c t -> live h c.
Proof. apply added_live. constructor. Qed.

Lemma dsim_new : dsim duck_new [].
Proof.
  split; simpl.
  - intros c. split; [intros [i []]|]. intros H. exfalso. exact (live_nil _ H).
  - intros c t. split; [intros (r & [] & _)|]. intros H. exfalso. exact (added_nil _ _ _ H).
Qed.

Lemma dsim_step d H o : dinv d -> dsim d H ->
  dsim (snd (dcall d o)) (H ++ match fst (dcall d o) with Ok _ => [o] | _ => [] end).
Proof.
  intros I [SC SR]. pose proof (dstep_call d o I) as HS. revert HS.
  generalize (fst (dcall d o)) as r. generalize (snd (dcall d o)) as d'. intros d' r HS.
  destruct HS as [c d' Hn I' Ec Ep Et Eq|c Hc|c Hc|c Hn|c t Hr|c d' Hc Hno I' Ec Er Eq|c ts d' Hc A|c ts Hc Hf|c ts e Hn|c ts d' Hc R|c ts e Hn];
    try (rewrite app_nil_r; split; assumption).
  - (* new collection *)
    assert (Hdead : ~ live H c) by (rewrite <- SC; exact Hn). split.
    + intros c'. rewrite live_snoc, <- SC. unfold dcoll. rewrite Ec. split.
      * intros [i Hi]. apply in_app_or in Hi as [Hi|[Hi|[]]].
        -- right. split; [eauto|discriminate].
        -- left. congruence.
      * intros [E|[[i Hi] _]]; [injection E as <-|]; eexists; apply in_or_app; [right; left; reflexivity|left; eassumption].
    + intros c' t. rewrite holds_after_snoc', <- SR.
      assert (Hsame : drow d' c' t <-> drow d c' t).
      { split; intros (r & Hr & Hs).
        - rewrite Et in Hr. destruct (dv_row _ I r Hr) as (c0 & t' & Hs').
          assert (Hs'' : shows d' r c0 t') by (eapply shows_mono; [| |exact Hs']; [rewrite Ec; apply incl_appl, incl_refl|rewrite Ep; apply incl_refl]).
          destruct (shows_unique _ _ _ _ _ _ I' Hs Hs'') as [-> ->]. exists r. auto.
        - exists r. rewrite Et. split; [exact Hr|].
          eapply shows_mono; [| |exact Hs]; [rewrite Ec; apply incl_appl, incl_refl|rewrite Ep; apply incl_refl]. }
      rewrite Hsame. split.
      * intros Hd. right. split; [exact Hd|inversion 1].
      * intros [(ts & E & _)|[Hd _]]; [discriminate|exact Hd].
  - (* removing a missing collection *)
    assert (Hdead : ~ live H c) by (rewrite <- SC; exact Hn). split.
    + intros c'. rewrite live_snoc, SC. split.
      * intros Hl. right. split; [exact Hl|congruence].
      * intros [E|[Hl _]]; [discriminate|exact Hl].
    + intros c' t. rewrite holds_after_snoc', SR. split.
      * intros Hd. right. split; [exact Hd|]. inversion 1; subst. apply Hdead. eapply holds_after_live', Hd.
      * intros [(ts & E & _)|[Hd _]]; [discriminate|exact Hd].
  - (* removing an empty collection *)
    split.
    + intros c'. rewrite live_snoc, <- SC. unfold dcoll. split.
      * intros [i Hi]. apply Ec in Hi as [Hi Hne]. right. split; [eauto|congruence].
      * intros [E|[[i Hi] Hne]]; [discriminate|]. exists i. apply Ec. split; [exact Hi|congruence].
    + intros c' t. rewrite holds_after_snoc', Er, SR. split.
      * intros Hd. right. split; [exact Hd|]. inversion 1; subst. apply (Hno t), SR, Hd.
      * intros [(ts & E & _)|[Hd _]]; [discriminate|exact Hd].
  - (* adding triples *)
    destruct A as [J1 J2 J3 J4 J5]. split.
    + intros c'. unfold dcoll. rewrite live_snoc, J2. fold (dcoll d c'). rewrite SC. split.
      * intros Hl. right. split; [exact Hl|discriminate].
      * intros [E|[Hl _]]; [discriminate|exact Hl].
    + intros c' t. rewrite holds_after_snoc', J5, SR. split.
      * intros [Hd|[-> Hi]]; [right; split; [exact Hd|inversion 1]|]. left. exists ts. rewrite <- SC. auto.
      * intros [(ts' & E & Hi & _)|[Hd _]]; [injection E as <- <-; auto|auto].
  - (* removing triples *)
    destruct R as [J1 J2 J3 J4]. split.
    + intros c'. unfold dcoll. rewrite live_snoc, J2. fold (dcoll d c'). rewrite SC. split.
      * intros Hl. right. split; [exact Hl|discriminate].
      * intros [E|[Hl _]]; [discriminate|exact Hl].
    + intros c' t. rewrite holds_after_snoc', J4, SR. split.
      * intros [Hd Hne]. right. split; [exact Hd|]. inversion 1; subst. auto.
      * intros [(ts' & E & _)|[Hd Hk]]; [discriminate|]. split; [exact Hd|]. intros [-> Hi]. apply Hk. constructor. exact Hi.
Qed.

Lemma duck_simulates h : dsim (dafter duck_new h) (acked duck_impl duck_new h).
Proof.
  induction h as [|o h IH] using rev_ind; [apply dsim_new|].
  rewrite after_snoc, acked_snoc. apply dsim_step; [apply dinv_reach|exact IH].
Qed.

(** C22 *)
Lemma duck_history h :
  let d := dafter duck_new h in
  let H := acked duck_impl duck_new h in
  (exists l, t_collections duck_impl d = Ok l /\ NoDup l /\ forall c, In c l <-> live H c)
  /\ (forall c, exists l, t_triples duck_impl d c = Ok l /\ is_set trip_lt l /\ forall t, In t l <-> holds_after H c t).
Proof.
  intros d H. assert (I : dinv d) by apply dinv_reach. destruct (duck_simulates h) as [SC SR]. fold d H in SC, SR.
  split.
  - exists (map snd (d_coll d)). split; [reflexivity|]. split; [apply (dv_coll _ I)|].
    intros c. rewrite <- SC. unfold dcoll. rewrite in_map_iff. split.
    + intros ([i n] & <- & Hi). eauto.
    + intros [i Hi]. exists (i, c). auto.
  - intros c. destruct (duck_triples_spec d c I) as (l & El & Hs & Hin). exists l. split; [exact El|].
    split; [exact Hs|]. intros t. rewrite Hin. apply SR.
Qed.

(** C23 *)
Lemma duck_outside h c :
  let d := dafter duck_new h in
  (has duck_impl d c -> call_op duck_impl d (OAddColl c) = (Panic PUnwrap, d))
  /\ (forall t, holds duck_impl d c t -> call_op duck_impl d (ORemColl c) = (Panic PUnwrap, d))
  /\ (~ has duck_impl d c -> t_triples duck_impl d c = Ok [] /\ call_op duck_impl d (ORemColl c) = (Ok tt, d)).
Proof.
  intros d. assert (I : dinv d) by apply dinv_reach. rewrite duck_has. fold (dcoll d c).
  assert (K : forall o, dstep d o (fst (dcall d o)) (snd (dcall d o))) by (intros; apply dstep_call, I).
  assert (Hdc : forall t, drow d c t -> dcoll d c).
  { intros t (r & Hr & ci & f & s & e & E1 & J1 & _). exists ci. exact J1. }
  split; [|split].
  - intros Hc. specialize (K (OAddColl c)). destruct (dcall d (OAddColl c)) as [r d']. cbn [fst snd] in K.
    inversion K; subst; try contradiction; reflexivity.
  - intros t Ht. apply duck_holds in Ht; [|exact I]. pose proof (Hdc t Ht).
    specialize (K (ORemColl c)). destruct (dcall d (ORemColl c)) as [r d']. cbn [fst snd] in K.
    inversion K; subst; try contradiction; [reflexivity|].
    exfalso. match goal with H : forall t, ~ drow d c t |- _ => eapply H, Ht end.
  - intros Hn. split.
    + destruct (duck_triples_spec d c I) as (l & El & _ & Hin). simpl. rewrite El. f_equal.
      destruct l as [|t l]; [reflexivity|]. exfalso. apply Hn, (Hdc t), Hin. left. reflexivity.
    + specialize (K (ORemColl c)). destruct (dcall d (ORemColl c)) as [r d']. cbn [fst snd] in K.
      inversion K; subst; try contradiction; [reflexivity|].
      exfalso. apply Hn, (Hdc t). assumption.
Qed.

(** C25 *)
Lemma duck_missing_err h c ts :
  let d := dafter duck_new h in
  ~ has duck_impl d c ->
  let e := lit "Collection "%string ++ c ++ lit " not found."%string in
  t_add_triples duck_impl d c ts = (Err e, d, ts) /\ t_remove_triples duck_impl d c ts = (Err e, d, ts).
Proof.
  intros d Hn e. subst e. rewrite duck_has in Hn. simpl. unfold duck_add_triples, duck_remove_triples, duck_get_collection_id.
  destruct (sel_id (d_coll d) c) as [i|] eqn:Es.
  - exfalso. apply Hn. exists i. apply sel_id_in, Es.
  - simpl. split; reflexivity.
Qed.

(** Answers of every call, given sequence values to spare. *)
Lemma dtotal_app h1 h2 : (dtotal (h1 ++ h2) = dtotal h1 + dtotal h2)%N.
Proof.
  induction h1 as [|o h1 IH]; [reflexivity|].
  change (dtotal ((o :: h1) ++ h2)) with (dweight o + dtotal (h1 ++ h2))%N.
  change (dtotal (o :: h1)) with (dweight o + dtotal h1)%N. lia.
Qed.

Lemma dseq_step d o : dinv d -> (d_seq (snd (dcall d o)) <= d_seq d + dweight o)%N.
Proof.
  intros I. pose proof (dstep_call d o I) as H. revert H.
  generalize (fst (dcall d o)) as r. generalize (snd (dcall d o)) as d'. intros d' r H.
  destruct H; cbn [dweight]; try lia.
  - rewrite (da_seq _ _ _ _ H0). lia.
  - rewrite (dr_seq _ _ _ _ H0). lia.
Qed.

Lemma dseq_bound h : (d_seq (dafter duck_new h) <= dtotal h)%N.
Proof.
  induction h as [|o h IH] using rev_ind; [reflexivity|]. rewrite after_snoc, dtotal_app.
  pose proof (dseq_step _ o (dinv_reach h)). cbn [dtotal fold_right]. lia.
Qed.

Lemma duck_answers h o :
  (dtotal (h ++ [o]) < 2 ^ 63)%N ->
  let d := dafter duck_new h in
  let r := fst (dcall d o) in
  match o with
  | OAddColl c => (~ has duck_impl d c -> r = Ok tt) /\ (has duck_impl d c -> r = Panic PUnwrap)
  | ORemColl c => ((forall t, ~ holds duck_impl d c t) -> r = Ok tt)
                  /\ ((exists t, holds duck_impl d c t) -> r = Panic PUnwrap)
  | OAdd c _ | ORem c _ => (has duck_impl d c -> r = Ok tt) /\ (~ has duck_impl d c -> exists e, r = Err e)
  end.
Proof.
  intros Hw d r. assert (I : dinv d) by apply dinv_reach.
  rewrite dtotal_app in Hw. cbn [dtotal fold_right] in Hw. fold (dtotal h) in Hw.
  pose proof (dseq_bound h) as Hb. fold d in Hb.
  pose proof (dstep_call d o I) as HS. fold r in HS. revert HS.
  generalize (snd (dcall d o)) as d'. clearbody r. intros d' HS.
  assert (HH : forall c t, holds duck_impl d c t <-> drow d c t) by (intros; apply duck_holds, I).
  change (2 ^ 63)%N with 9223372036854775808%N in Hw.
  assert (HA : forall c, has duck_impl d c <-> dcoll d c) by (intros; apply duck_has).
  destruct HS as [c d' Hn I' Ec Ep Et Eq|c Hc|c Hc|c Hn|c t Hr|c d' Hc Hno I' Ec Er Eq|c ts d' Hc A|c ts Hc Hf|c ts e Hn|c ts d' Hc R|c ts e Hn];
    cbn [dweight] in Hw; unfold seq_max in *.
  - split; [reflexivity|]. intros H. apply HA in H. contradiction.
  - split; [|reflexivity]. intros H. exfalso. apply H, HA, Hc.
  - exfalso. lia.
  - split; [reflexivity|]. intros (t & Ht). apply HH in Ht as (r & Hr & ci & f & s & e & E1 & J1 & _).
    exfalso. apply Hn. exists ci. exact J1.
  - split; [|reflexivity]. intros H. exfalso. eapply H, HH, Hr.
  - split; [reflexivity|]. intros (t & Ht). exfalso. eapply Hno, HH, Ht.
  - split; [reflexivity|]. intros H. exfalso. apply H, HA, Hc.
  - exfalso. lia.
  - split; [|eauto]. intros H. apply HA in H. contradiction.
  - split; [reflexivity|]. intros H. exfalso. apply H, HA, Hc.
  - split; [|eauto]. intros H. apply HA in H. contradiction.
Qed.

(** C24 *)
Lemma duck_repeat h c t n :
  let d := dafter duck_new h in
  has duck_impl d c -> (dtotal (h ++ repeat (OAdd c [t]) n) < 2 ^ 63)%N ->
  has duck_impl (dafter d (repeat (OAdd c [t]) n)) c
  /\ forall c' t', holds duck_impl (dafter d (repeat (OAdd c [t]) n)) c' t'
                  <-> holds duck_impl d c' t' \/ (0 < n /\ c' = c /\ t' = t).
Proof.
  intros d Hh. induction n as [|n IH]; intros Hw.
  - simpl. split; [exact Hh|]. intros c' t'. split; [auto|]. intros [H|(H & _)]; [exact H|lia].
  - replace (repeat (OAdd c [t]) (S n)) with (repeat (OAdd c [t]) n ++ [OAdd c [t]]) in *
      by (rewrite <- repeat_cons; reflexivity).
    rewrite app_assoc in Hw. assert (Hw' : (dtotal (h ++ repeat (OAdd c [t]) n) < 2 ^ 63)%N)
      by (rewrite dtotal_app in Hw; lia).
    destruct (IH Hw') as [Hh' IH']. clear IH.
    pose proof (duck_answers _ _ Hw) as HA. cbn beta iota zeta in HA. rewrite after_app in HA. fold d in HA.
    destruct HA as [HA _]. specialize (HA Hh').
    rewrite after_snoc. set (d1 := dafter d (repeat (OAdd c [t]) n)) in *.
    assert (I1 : dinv d1) by (unfold d1, d; rewrite <- after_app; apply dinv_reach).
    pose proof (dstep_call d1 (OAdd c [t]) I1) as HS. rewrite HA in HS.
    assert (I2 : dinv (snd (dcall d1 (OAdd c [t])))) by (apply dinv_step, I1).
    revert HS I2. generalize (snd (dcall d1 (OAdd c [t]))) as d2. intros d2 HS I2.
    inversion HS as [| | | | | |? ? ? Hc A| | | |]; subst. destruct A as [J1 J2 J3 J4 J5]. split.
    + apply duck_has. rewrite J2. apply duck_has, Hh'.
    + intros c' t'. rewrite duck_holds by exact I2. rewrite J5, <- duck_holds, IH' by exact I1. simpl.
      split; [intros [[H|H]|[-> [->|[]]]]|intros [H|H]]; auto.
      * right. intuition lia.
      * right. intuition lia.
      * right. intuition.
Qed.

Lemma duck_repeat_remove h c t n :
  let d := dafter duck_new h in
  has duck_impl d c -> 0 < n -> (dtotal (h ++ repeat (OAdd c [t]) n) < 2 ^ 63)%N ->
  let d1 := dafter d (repeat (OAdd c [t]) n) in
  let r := dcall d1 (ORem c [t]) in
  (exists l, t_triples duck_impl d1 c = Ok l /\ is_set trip_lt l
             /\ forall t', In t' l <-> holds duck_impl d c t' \/ t' = t)
  /\ fst r = Ok tt
  /\ (exists l, t_triples duck_impl (snd r) c = Ok l /\ is_set trip_lt l
                /\ forall t', In t' l <-> holds duck_impl d c t' /\ t' <> t).
Proof.
  intros d Hh Hn Hw d1 r. destruct (duck_repeat h c t n Hh Hw) as [Hh1 HR]. fold d d1 in Hh1, HR.
  assert (I1 : dinv d1) by (unfold d1, d; rewrite <- after_app; apply dinv_reach).
  assert (Hw' : (dtotal ((h ++ repeat (OAdd c [t]) n) ++ [ORem c [t]]) < 2 ^ 63)%N).
  { rewrite dtotal_app. cbn [dtotal fold_right dweight]. lia. }
  pose proof (duck_answers _ _ Hw') as HA. cbn beta iota zeta in HA. rewrite after_app in HA. fold d d1 in HA.
  destruct HA as [HA _]. specialize (HA Hh1). fold r in HA.
  split; [|split; [exact HA|]].
  - destruct (duck_triples_spec d1 c I1) as (l & El & Hs & Hin). exists l. split; [exact El|]. split; [exact Hs|].
    intros t'. rewrite Hin, <- duck_holds, HR by exact I1. intuition.
  - assert (I2 : dinv (snd r)) by (apply dinv_step, I1).
    destruct (duck_triples_spec (snd r) c I2) as (l & El & Hs & Hin). exists l. split; [exact El|]. split; [exact Hs|].
    intros t'. rewrite Hin. pose proof (dstep_call d1 (ORem c [t]) I1) as HS. fold r in HS. rewrite HA in HS.
    revert HS. generalize (snd r) as d2. intros d2 HS.
    inversion HS as [| | | | | | | | |? ? ? Hc A|]; subst. destruct A as [J1 J2 J3 J4].
    rewrite J4, <- duck_holds, HR by exact I1. simpl. intuition; exfalso; auto.
Qed.
