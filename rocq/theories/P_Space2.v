(** * Counting what is stored: the in-memory store, and what repetition costs *)
From Coq Require Import List Arith NArith Bool Lia FinFun.
From Verif Require Import M_Base M_Data M_Mem M_Heed M_Duck S_Order P_Ord S_Str S_Store S_Codec P_Codec P_Hist
  P_Heed P_HeedHist P_Mem P_Duck S_Space P_Space.
Import ListNotations.
Open Scope list_scope.

(** ** In memory *)
Lemma mem_total_length (s : mem) : mem_total s = List.length (flat_map (fun e => map (pair (fst e)) (snd e)) s).
Proof. induction s as [|[c l] s IH]; cbn; [reflexivity|]. rewrite app_length, map_length, <- IH. reflexivity. Qed.

Lemma mem_space h : number (mem_kept h) (mem_total (after mem_impl mem_new h)).
Proof.
  pose proof (mem_inv_reach h) as [M S]. set (s := after mem_impl mem_new h) in *. rewrite mem_total_length.
  exists (flat_map (fun e => map (pair (fst e)) (snd e)) s). split; [|split; [|reflexivity]].
  - assert (K : forall e, In e s -> NoDup (snd e)).
    { intros [c l] H. eapply is_set_NoDup; [apply trip_order|]. apply (S c). apply (bm_get_in str_order); assumption. }
    assert (D : NoDup (map fst s)) by (eapply is_set_NoDup; [apply str_order|exact M]).
    clear - K D. induction s as [|[c l] s IH]; cbn; [constructor|]. cbn in D. inversion D as [|? ? N D']; subst. apply nodup_app.
    + assert (Nl : NoDup l) by (apply (K (c, l)); left; reflexivity). clear - Nl. induction Nl as [|a l Ha Nl IH]; cbn; [constructor|]. constructor; [|exact IH].
      intros H. apply in_map_iff in H as (x & E & H). injection E as ->. exact (Ha H).
    + apply IH; [|exact D']. intros e He. apply K. right. exact He.
    + intros [c' t] H1 H2. apply in_map_iff in H1 as (x & E & _). injection E as <- <-.
      apply in_flat_map in H2 as ([c0 l0] & H2 & H3). apply in_map_iff in H3 as (y & E & _). cbn in E. injection E as -> <-.
      apply N. apply (in_map fst) in H2. exact H2.
  - intros [c t]. rewrite in_flat_map. unfold mem_kept. cbn [fst snd]. pose proof (mem_history_get h c) as G. fold s in G. split.
    + intros ([c0 l] & H & Ht). apply in_map_iff in Ht as (y & E & Ht). cbn in E. injection E as -> ->. cbn in Ht.
      apply (bm_get_in str_order) in H; [|exact M]. rewrite H in G. apply G, Ht.
    + intros H. destruct (get c s) as [l|] eqn:E.
      * exists (c, l). split; [apply (bm_get_in str_order) in E; assumption|]. apply in_map_iff. exists t. split; [reflexivity|]. apply G, H.
      * exfalso. apply G. eapply added_live; [|exact H]. constructor.
Qed.

(** ** Histories whose calls all succeed *)
Notation lm h := (after heed_impl heed_new h).
Notation am h := (acked heed_impl heed_new h).

Lemma lmdb_space_sure h k n w m r : let H := am h in let d := lm h in
  storable_history H -> number (kept H) k -> abandoned H n -> number (mentioned H) w -> number (live H) m -> creations H r ->
  Forall (fun t => List.length t = k + n) [h_cfst d; h_cfts d; h_csft d; h_cstf d; h_ctfs d; h_ctsf d]
  /\ List.length (h_v2i d) = w /\ List.length (h_i2v d) = w
  /\ List.length (h_c2i d) = m /\ List.length (h_i2c d) = m
  /\ ids_are r w (h_ids d).
Proof. pose proof (lmdb_space (sure h) k n w m r) as L. rewrite after_sure, installed_sure in L. exact L. Qed.

Lemma sure_fst h : map fst (sure h) = h.
Proof. unfold sure. rewrite map_map. apply map_id. Qed.

Lemma has_live h c : storable c -> (has heed_impl (lm h) c <-> live (am h) c).
Proof.
  intros S. pose proof (sim_has true _ _ c (heed_simulates (sure h))) as K. rewrite after_sure, installed_sure in K.
  change (heed_impl_c true) with heed_impl in K. tauto.
Qed.

Lemma ok_add_coll h c : (total_weight (h ++ [OAddColl c]) < 2 ^ 64)%N -> am (h ++ [OAddColl c]) = am h ++ [OAddColl c].
Proof.
  intros W. rewrite acked_snoc. pose proof (heed_answers (sure h) (OAddColl c) true) as A. rewrite sure_fst, after_sure, installed_sure in A.
  specialize (A W). cbn zeta iota in A. change (heed_impl_c true) with heed_impl in A. rewrite A. reflexivity.
Qed.

Lemma ok_rem_coll h c : storable c -> live (am h) c -> (total_weight h < 2 ^ 64)%N -> am (h ++ [ORemColl c]) = am h ++ [ORemColl c].
Proof.
  intros S L W. rewrite acked_snoc. pose proof (heed_answers (sure h) (ORemColl c) true) as A. rewrite sure_fst, after_sure, installed_sure in A.
  rewrite total_weight_app in A. cbn [total_weight fold_right weight] in A. fold (total_weight h) in A. rewrite !N.add_0_r in A. specialize (A W).
  cbn zeta iota in A. change (heed_impl_c true) with heed_impl in A. rewrite (proj1 A); [reflexivity|]. apply has_live; assumption.
Qed.

Lemma ok_add h c ts : storable c -> live (am h) c -> (total_weight (h ++ [OAdd c ts]) < 2 ^ 64)%N -> am (h ++ [OAdd c ts]) = am h ++ [OAdd c ts].
Proof.
  intros S L W. rewrite acked_snoc. pose proof (heed_answers (sure h) (OAdd c ts) true) as A. rewrite sure_fst, after_sure, installed_sure in A.
  specialize (A W). cbn zeta iota in A. change (heed_impl_c true) with heed_impl in A. rewrite (proj1 A); [reflexivity|]. apply has_live; assumption.
Qed.

Lemma ok_rem h c ts : storable c -> live (am h) c -> (forall v, part_of v ts -> storable v /\ mentioned (am h) v) ->
  (total_weight h < 2 ^ 64)%N -> am (h ++ [ORem c ts]) = am h ++ [ORem c ts].
Proof.
  intros S L P W. rewrite acked_snoc. pose proof (heed_answers (sure h) (ORem c ts) true) as A. rewrite sure_fst, after_sure, installed_sure in A.
  rewrite total_weight_app in A. cbn [total_weight fold_right weight] in A. fold (total_weight h) in A. rewrite !N.add_0_r in A. specialize (A W).
  cbn zeta iota in A. change (heed_impl_c true) with heed_impl in A. rewrite (proj1 A); [reflexivity|]. split; [apply has_live; assumption|exact P].
Qed.

Lemma total_times n h : (total_weight (times n h) = N.of_nat n * total_weight h)%N.
Proof. induction n as [|n IH]; cbn [times]; [reflexivity|]. rewrite total_weight_app, IH. lia. Qed.

(** ** Create, fill, remove, again and again *)
Definition round (c : str) (ts : list trip) : list op := [OAddColl c; OAdd c ts; ORemColl c].

Lemma round_split c ts h : h ++ round c ts = ((h ++ [OAddColl c]) ++ [OAdd c ts]) ++ [ORemColl c].
Proof. unfold round. rewrite <- !app_assoc. reflexivity. Qed.

Lemma live_added h c : live (h ++ [OAddColl c]) c.
Proof. exists h, []. split; [reflexivity|intros []]. Qed.

Lemma live_add_more h c ts : live h c -> live (h ++ [OAdd c ts]) c.
Proof. intros L. apply live_snoc. right. split; [exact L|discriminate]. Qed.

Lemma round_total c ts : total_weight (round c ts) = (1 + 3 * N.of_nat (List.length ts))%N.
Proof. cbn. lia. Qed.

Lemma rounds_ok c ts : storable c -> forall n, (N.of_nat n * (1 + 3 * N.of_nat (List.length ts)) < 2 ^ 64)%N ->
  am (times n (round c ts)) = times n (round c ts).
Proof.
  intros S. induction n as [|n IH]; intros W; [reflexivity|]. cbn [times]. rewrite <- (round_total c) in W, IH.
  assert (W' : (total_weight (times n (round c ts) ++ round c ts) < 2 ^ 64)%N) by (rewrite total_weight_app, total_times; lia).
  rewrite round_split in *.
  set (h1 := times n (round c ts) ++ [OAddColl c]) in *. set (h2 := h1 ++ [OAdd c ts]) in *.
  assert (W2 : (total_weight h2 < 2 ^ 64)%N) by (rewrite total_weight_app in W'; lia).
  assert (W1 : (total_weight h1 < 2 ^ 64)%N) by (unfold h2 in W2; rewrite total_weight_app in W2; lia).
  assert (A1 : am h1 = h1) by (unfold h1; rewrite ok_add_coll by exact W1; rewrite IH by lia; reflexivity).
  assert (L1 : live h1 c) by apply live_added.
  assert (A2 : am h2 = h2) by (unfold h2; rewrite ok_add, A1; [reflexivity|exact S|rewrite A1; exact L1|exact W2]).
  rewrite ok_rem_coll, A2; [reflexivity|exact S|rewrite A2; apply live_add_more, L1|exact W2].
Qed.

Lemma round_dead c ts n c' : ~ live (times n (round c ts)) c'.
Proof.
  induction n as [|n IH]; cbn [times]; [apply live_nil|]. rewrite round_split, !live_snoc. intros [E|[[E|[[E|[L _]] _]] N]]; try discriminate; [|exact (IH L)].
  injection E as ->. apply N. reflexivity.
Qed.

Lemma round_holds c ts n t : holds_after ((times n (round c ts) ++ [OAddColl c]) ++ [OAdd c ts]) c t <-> In t ts.
Proof.
  rewrite holds_after_snoc'. split.
  - intros [(ts' & E & Hi & _)|[H _]]; [injection E as <-; exact Hi|]. rewrite holds_after_snoc' in H.
    destruct H as [(ts' & E & _)|[H _]]; [discriminate|]. exfalso. apply (round_dead c ts n c). eapply holds_after_live', H.
  - intros Hi. left. exists ts. split; [reflexivity|]. split; [exact Hi|apply live_added].
Qed.

Lemma rounds_abandoned c ts n : NoDup ts -> abandoned (times n (round c ts)) (n * List.length ts).
Proof.
  intros D. induction n as [|n IH]; cbn [times]; [constructor|]. rewrite round_split.
  replace (S n * List.length ts) with (n * List.length ts + List.length ts) by lia. constructor.
  - apply ab_other; [|discriminate]. apply ab_other; [exact IH|discriminate].
  - refine (number_ext _ _ _ _ (number_nodup ts D)). intros t. symmetry. apply round_holds.
Qed.

Lemma rounds_kept c ts n : number (kept (times n (round c ts))) 0.
Proof.
  exists []. split; [constructor|]. split; [|reflexivity]. intros [c' t]. split; [intros []|]. unfold kept. cbn [fst snd]. intros H.
  apply (round_dead c ts n c'). eapply holds_after_live', H.
Qed.

Lemma rounds_creations c ts n : creations (times n (round c ts)) n.
Proof.
  induction n as [|n IH]; cbn [times]; [constructor|]. rewrite round_split. apply cr_other; [|discriminate]. apply cr_other; [|discriminate].
  constructor; [exact IH|apply round_dead].
Qed.

Lemma times_in n h o : In o (times n h) -> In o h.
Proof. induction n as [|n IH]; cbn; [intros []|]. intros H. apply in_app_or in H as [H|H]; auto. Qed.

Lemma rounds_storable c ts n : storable c -> (forall v, part_of v ts -> storable v) -> storable_history (times n (round c ts)).
Proof.
  intros S P. split.
  - intros c' H. apply times_in in H. destruct H as [E|[E|[E|[]]]]; try discriminate. congruence.
  - intros v (c' & ts' & H & Hp). apply times_in in H. destruct H as [E|[E|[E|[]]]]; try discriminate. injection E as <- <-. auto.
Qed.

Lemma lmdb_leak c ts n : storable c -> (forall v, part_of v ts -> storable v) -> NoDup ts ->
  (N.of_nat n * (1 + 3 * N.of_nat (List.length ts)) < 2 ^ 64)%N ->
  let d := lm (times n (round c ts)) in
  am (times n (round c ts)) = times n (round c ts)
  /\ t_collections heed_impl d = Ok []
  /\ Forall (fun t => List.length t = n * List.length ts) [h_cfst d; h_cfts d; h_csft d; h_cstf d; h_ctfs d; h_ctsf d].
Proof.
  intros S P D W d. pose proof (rounds_ok c ts S n W) as A. split; [exact A|]. split.
  - destruct (heed_history_sure (times n (round c ts))) as ((l & El & _ & Hl) & _).
    { intros c' H. apply times_in in H. destruct H as [E|[E|[E|[]]]]; try discriminate. congruence. }
    fold d in El. rewrite El. destruct l as [|x l]; [reflexivity|]. exfalso. apply (round_dead c ts n x). rewrite <- A. apply Hl. left. reflexivity.
  - destruct (mentioned_number (am (times n (round c ts)))) as [w NW]. destruct (live_number (am (times n (round c ts)))) as [m NM].
    pose proof (lmdb_space_sure (times n (round c ts)) 0 (n * List.length ts) w m n) as L. cbn zeta in L.
    apply L; rewrite ?A in *; auto using rounds_storable, rounds_kept, rounds_abandoned, rounds_creations.
Qed.

(** ** Add and remove, again and again *)
Definition turn (c : str) (ts : list trip) : list op := [OAdd c ts; ORem c ts].

Lemma turn_split c ts h : h ++ turn c ts = (h ++ [OAdd c ts]) ++ [ORem c ts].
Proof. unfold turn. rewrite <- app_assoc. reflexivity. Qed.

Lemma turn_live c ts n c' : forall h, live (h ++ times n (turn c ts)) c' <-> live h c'.
Proof.
  induction n as [|n IH]; intros h; cbn [times]; [rewrite app_nil_r; reflexivity|].
  rewrite app_assoc, turn_split, !live_snoc, IH. split; [intros [E|[[E|[L _]] _]]; try discriminate; exact L|].
  intros L. right. split; [right; split; [exact L|discriminate]|discriminate].
Qed.

Lemma turn_kept c ts n h p : live h c -> kept (h ++ times (S n) (turn c ts)) p <-> kept h p /\ ~ (fst p = c /\ In (snd p) ts).
Proof.
  intros L. destruct p as [c' t]. unfold kept. cbn [fst snd]. induction n as [|n IH].
  - cbn [times app]. rewrite turn_split, !holds_after_snoc'. split.
    + intros [(ts' & E & _)|[[(ts' & E & Hi & _)|[H _]] N]]; [discriminate| |].
      * injection E as <- <-. exfalso. apply N. constructor. exact Hi.
      * split; [exact H|]. intros [-> Hi]. apply N. constructor. exact Hi.
    + intros [H N]. right. split; [right; split; [exact H|inversion 1]|]. inversion 1; subst. apply N. auto.
  - cbn [times] in *. rewrite app_assoc, turn_split, !holds_after_snoc', IH. split.
    + intros [(ts' & E & _)|[[(ts' & E & Hi & _)|[H _]] N]]; [discriminate| |exact H].
      injection E as <- <-. exfalso. apply N. constructor. exact Hi.
    + intros [H N]. right. split; [right; split; [auto|inversion 1]|]. inversion 1; subst. apply N. auto.
Qed.

Lemma turn_mentioned c ts n h v : mentioned (h ++ times (S n) (turn c ts)) v <-> mentioned h v \/ part_of v ts.
Proof.
  assert (K : forall h, mentioned (h ++ turn c ts) v <-> mentioned h v \/ part_of v ts).
  { intros h'. rewrite turn_split, !mentioned_snoc'. split.
    - intros [[M|(c' & ts' & E & P)]|(c' & ts' & E & _)]; [auto| |discriminate]. injection E as <- <-. auto.
    - intros [M|P]; [auto|]. left. right. exists c, ts. auto. }
  induction n as [|n IH]; [cbn [times app]; apply K|]. cbn [times] in *. rewrite app_assoc, K, IH. tauto.
Qed.

Lemma turn_abandoned c ts n h k : abandoned h k -> abandoned (h ++ times n (turn c ts)) k.
Proof.
  intros A. induction n as [|n IH]; cbn [times]; [rewrite app_nil_r; exact A|]. rewrite app_assoc, turn_split.
  apply ab_other; [|discriminate]. apply ab_other; [exact IH|discriminate].
Qed.

Lemma turn_creations c ts n h k : creations h k -> creations (h ++ times n (turn c ts)) k.
Proof.
  intros A. induction n as [|n IH]; cbn [times]; [rewrite app_nil_r; exact A|]. rewrite app_assoc, turn_split.
  apply cr_other; [|discriminate]. apply cr_other; [exact IH|discriminate].
Qed.

Lemma turn_total c ts : total_weight (turn c ts) = (3 * N.of_nat (List.length ts))%N.
Proof. cbn. lia. Qed.

Lemma turns_ok c ts h n : storable c -> (forall v, part_of v ts -> storable v) -> live (am h) c ->
  (total_weight h + N.of_nat n * (3 * N.of_nat (List.length ts)) < 2 ^ 64)%N ->
  am (h ++ times n (turn c ts)) = am h ++ times n (turn c ts).
Proof.
  intros S P L. rewrite <- (turn_total c). induction n as [|n IH]; intros W; cbn [times]; [rewrite !app_nil_r; reflexivity|].
  rewrite !app_assoc, !turn_split. set (h0 := h ++ times n (turn c ts)) in *.
  assert (W2 : (total_weight (h0 ++ [OAdd c ts]) < 2 ^ 64)%N).
  { unfold h0. rewrite !total_weight_app, total_times. rewrite Nat2N.inj_succ, N.mul_succ_l in W.
    replace (total_weight [OAdd c ts]) with (total_weight (turn c ts)) by (cbn; lia). lia. }
  assert (W0 : (total_weight h0 < 2 ^ 64)%N) by (rewrite total_weight_app in W2; lia).
  assert (A0 : am h0 = am h ++ times n (turn c ts)) by (apply IH; lia).
  assert (L0 : live (am h0) c) by (rewrite A0; apply turn_live, L).
  assert (A1 : am (h0 ++ [OAdd c ts]) = am h0 ++ [OAdd c ts]) by (apply ok_add; assumption).
  rewrite ok_rem, A1, A0; [reflexivity|exact S|rewrite A1; apply live_add_more, L0| |exact W2].
  intros v Hv. split; [apply P, Hv|]. rewrite A1. apply mentioned_snoc'. right. exists c, ts. auto.
Qed.

Lemma lmdb_steady h c ts n : storable_history (am h) -> live (am h) c -> (forall v, part_of v ts -> storable v) ->
  (total_weight h + N.of_nat (S n) * (3 * N.of_nat (List.length ts)) < 2 ^ 64)%N ->
  am (h ++ times (S n) (turn c ts)) = am h ++ times (S n) (turn c ts)
  /\ heed_sizes (lm (h ++ times (S n) (turn c ts))) = heed_sizes (lm (h ++ times 1 (turn c ts)))
  /\ h_ids (lm (h ++ times (S n) (turn c ts))) = h_ids (lm (h ++ times 1 (turn c ts))).
Proof.
  intros SH L P W. assert (S : storable c) by (apply (proj1 SH); eapply live_in, L).
  pose proof (turns_ok c ts h (Datatypes.S n) S P L W) as A.
  assert (A1 : am (h ++ times 1 (turn c ts)) = am h ++ times 1 (turn c ts)) by (apply turns_ok; auto; lia).
  split; [exact A|].
  assert (SHn : forall n, storable_history (am h ++ times n (turn c ts))).
  { intros m. split.
    - intros c' H. apply in_app_or in H as [H|H]; [apply (proj1 SH), H|]. apply times_in in H. destruct H as [E|[E|[]]]; discriminate.
    - intros v (c' & ts' & H & Hp). apply in_app_or in H as [H|H]; [apply (proj2 SH); exists c', ts'; auto|]. apply times_in in H.
      destruct H as [E|[E|[]]]; try discriminate. injection E as <- <-. auto. }
  destruct (kept_number (am h ++ times 1 (turn c ts))) as [k NK]. destruct (mentioned_number (am h ++ times 1 (turn c ts))) as [w NW].
  destruct (live_number (am h ++ times 1 (turn c ts))) as [m NM]. destruct (abandoned_number (am h)) as [a NA]. destruct (creations_number (am h)) as [r NR].
  assert (Q : forall n, am (h ++ times (Datatypes.S n) (turn c ts)) = am h ++ times (Datatypes.S n) (turn c ts) ->
    let d := lm (h ++ times (Datatypes.S n) (turn c ts)) in
    Forall (fun t => List.length t = k + a) [h_cfst d; h_cfts d; h_csft d; h_cstf d; h_ctfs d; h_ctsf d]
    /\ List.length (h_v2i d) = w /\ List.length (h_i2v d) = w
    /\ List.length (h_c2i d) = m /\ List.length (h_i2c d) = m /\ ids_are r w (h_ids d)).
  { intros j AJ. apply (lmdb_space_sure (h ++ times (Datatypes.S j) (turn c ts)) k a w m r); rewrite AJ.
    - apply SHn.
    - refine (number_ext _ _ _ _ NK). intros p. rewrite !turn_kept by exact L. reflexivity.
    - apply turn_abandoned, NA.
    - refine (number_ext _ _ _ _ NW). intros v. rewrite !turn_mentioned. reflexivity.
    - refine (number_ext _ _ _ _ NM). intros v. rewrite !turn_live. reflexivity.
    - apply turn_creations, NR. }
  destruct (Q n A) as (F & V1 & V2 & C1 & C2 & J). destruct (Q 0 A1) as (F' & V1' & V2' & C1' & C2' & J').
  assert (JJ : h_ids (lm (h ++ times (Datatypes.S n) (turn c ts))) = h_ids (lm (h ++ times 1 (turn c ts)))) by (rewrite J, J'; reflexivity).
  assert (FM : forall {A} (l : list (list A)) k, Forall (fun t => List.length t = k) l -> map (fun t : list _ => List.length t) l = repeat k (List.length l)).
  { intros T l j FF. induction FF as [|x l E FF IH]; cbn; [reflexivity|]. rewrite E, IH. reflexivity. }
  split; [|exact JJ]. unfold heed_sizes. rewrite (FM _ _ _ F), (FM _ _ _ F'), JJ, V1, V2, C1, C2, V1', V2', C1', C2'. reflexivity.
Qed.

(** ** DuckDB: the same triple added again *)
Lemma duck_again c t n : (4 * N.of_nat n + 1 < 2 ^ 63)%N ->
  let h := OAddColl c :: repeat (OAdd c [t]) n in let d := after duck_impl duck_new h in
  acked duck_impl duck_new h = h /\ (n > 0 -> t_triples duck_impl d c = Ok [t]) /\ List.length (d_trip d) = n.
Proof.
  intros W h d.
  assert (A : forall n, (4 * N.of_nat n + 1 < 2 ^ 63)%N -> acked duck_impl duck_new (OAddColl c :: repeat (OAdd c [t]) n) = OAddColl c :: repeat (OAdd c [t]) n).
  { clear. induction n as [|n IH]; intros W; [reflexivity|].
    assert (R : forall m, repeat (OAdd c [t]) (S m) = repeat (OAdd c [t]) m ++ [OAdd c [t]]) by (induction m as [|m E]; [reflexivity|cbn in *; rewrite <- E; reflexivity]).
    rewrite R, app_comm_cons, acked_snoc, IH by lia. set (h := OAddColl c :: repeat (OAdd c [t]) n) in *.
    assert (T : dtotal (h ++ [OAdd c [t]]) = (4 * N.of_nat (S n) + 1)%N).
    { rewrite dtotal_app. unfold h. clear. induction n as [|n IH]; [reflexivity|]. cbn [repeat]. cbn [dtotal fold_right dweight List.length] in *. fold (dtotal (repeat (OAdd c [t]) n)) in *. lia. }
    pose proof (duck_answers h (OAdd c [t])) as Q. cbn zeta iota in Q. rewrite T in Q. destruct (Q W) as [Q1 _]. rewrite Q1; [reflexivity|].
    apply duck_has. apply (ds_coll _ _ (duck_simulates h)). rewrite IH by lia.
    exists [], (repeat (OAdd c [t]) n). split; [reflexivity|]. intros H. apply repeat_spec in H. discriminate. }
  specialize (A n W). fold h in A. split; [exact A|]. split.
  - intros G. destruct (duck_triples_spec d c (dinv_reach h)) as (l & El & Sl & Hl). change (t_triples duck_impl d c) with (duck_triples d c). rewrite El. f_equal.
    assert (K : forall u, In u l <-> u = t).
    { intros u. rewrite Hl. unfold d. rewrite (ds_row _ _ (duck_simulates h)), A. split.
      - intros (h1 & ts & h2 & E & Hi & _). assert (O : In (OAdd c ts) h) by (rewrite E; apply in_or_app; right; left; reflexivity).
        destruct O as [O|O]; [discriminate|]. apply repeat_spec in O. injection O as ->. destruct Hi as [->|[]]. reflexivity.
      - intros ->. destruct n as [|m]; [lia|]. exists [OAddColl c], [t], (repeat (OAdd c [t]) m). split; [reflexivity|]. split; [left; reflexivity|].
        split; [exists [], []; split; [reflexivity|intros []]|]. intros o Ho. apply repeat_spec in Ho. subst. inversion 1. }
    destruct l as [|x [|y l]].
    + exfalso. apply (K t). reflexivity.
    + f_equal. apply K. left. reflexivity.
    + exfalso. assert (x = t) by (apply K; left; reflexivity). assert (y = t) by (apply K; right; left; reflexivity). subst.
      assert (ND : NoDup (t :: t :: l)) by (eapply is_set_NoDup; [apply trip_order|exact Sl]). inversion ND as [|? ? N _]. apply N. left. reflexivity.
  - destruct (duck_space h) as (NS & _). fold d in NS. rewrite A in NS. refine (number_fun _ _ _ NS _).
    exists (map (fun i => (S i, 0)) (seq 0 n)). split; [|split; [|rewrite map_length, seq_length; reflexivity]].
    + apply FinFun.Injective_map_NoDup; [|apply seq_NoDup]. intros x y E. congruence.
    + intros [i j]. rewrite in_map_iff. unfold standing. cbn [fst snd]. split.
      * intros (k & E & Hk). injection E as <- <-. apply in_seq in Hk. exists (OAddColl c :: repeat (OAdd c [t]) k), c, [t], t, (repeat (OAdd c [t]) (n - k - 1)).
        split; [|split; [cbn; rewrite repeat_length; reflexivity|split; [reflexivity|]]].
        -- unfold h. cbn. f_equal. change (OAdd c [t] :: repeat (OAdd c [t]) (n - k - 1)) with (repeat (OAdd c [t]) (S (n - k - 1))). rewrite <- repeat_app. f_equal. lia.
        -- intros o Ho. apply repeat_spec in Ho. subst. inversion 1.
      * intros (h1 & c' & ts & u & h2 & E & L1 & Nj & _). unfold h in E. destruct h1 as [|o h1]; [discriminate|]. cbn in E, L1. injection E as <- E.
        assert (O : In (OAdd c' ts) (repeat (OAdd c [t]) n)) by (rewrite E; apply in_or_app; right; left; reflexivity).
        apply repeat_spec in O. injection O as -> ->. destruct j as [|j]; [|destruct j; discriminate].
        exists (List.length h1). split; [rewrite <- L1; reflexivity|]. apply in_seq. apply (f_equal (@List.length op)) in E. rewrite repeat_length, app_length in E. cbn in E. lia.
Qed.
