(** * Proofs: a session sees only what reads show, and deletes nothing *)
From Coq Require Import List Arith NArith Bool String Lia.
From Verif Require Import M_Base M_Data M_Mem M_Heed M_Duck M_Regex M_Lexer M_Graph M_Parser M_Display M_Interp M_Conc
  S_Order S_Str S_Store S_Graph S_Lexer S_Parser S_Interp S_GraphHist S_Names S_Conc S_Frame S_Equiv S_Look
  P_Ord P_Hist P_Parser P_Mem P_Heed P_HeedHist P_Duck P_Graph P_Interp P_InterpMore P_InterpStores P_Conc P_Frame P_Equiv P_Names.
Import ListNotations.
Open Scope list_scope.

Lemma perform_after {S} (I : trips_impl S) s0 q h :
  snd (perform (graph_impl I) q (after I s0 h)) = after I s0 (h ++ ops_of q).
Proof.
  destruct q; unfold ops_of; cbn [op_of perform snd fst graph_impl l_add_collection l_remove_collection l_add_entries l_remove_entries];
    rewrite ?app_nil_r; try reflexivity; rewrite after_snoc; cbn [call_op].
  - unfold graph_add_collection. destruct (t_add_collection I _ (el_name c)); reflexivity.
  - unfold graph_remove_collection. destruct (t_remove_collection I _ (el_name c)); reflexivity.
  - unfold graph_add_entries. destruct (t_add_triples I _ (el_name c) _) as [[r s'] x]; reflexivity.
  - unfold graph_remove_entries. destruct (t_remove_triples I _ (el_name c) _) as [[r s'] x]; reflexivity.
Qed.

Lemma perform_answer {S} (I : trips_impl S) q s s' : looks_same I s s' ->
  (forall o, op_of q = Some o -> fst (call_op I s o) = fst (call_op I s' o)) ->
  fst (perform (graph_impl I) q s) = fst (perform (graph_impl I) q s').
Proof.
  intros (L1 & L2 & L3) H. destruct q; cbn [perform fst graph_impl l_collections l_add_collection l_remove_collection l_entries l_add_entries l_remove_entries l_filter].
  - unfold graph_collections. rewrite L1. reflexivity.
  - specialize (H _ eq_refl). cbn [call_op] in H. unfold graph_add_collection.
    destruct (t_add_collection I s (el_name c)), (t_add_collection I s' (el_name c)). cbn in *. rewrite H. reflexivity.
  - specialize (H _ eq_refl). cbn [call_op] in H. unfold graph_remove_collection.
    destruct (t_remove_collection I s (el_name c)), (t_remove_collection I s' (el_name c)). cbn in *. rewrite H. reflexivity.
  - unfold graph_entries. rewrite L2. reflexivity.
  - specialize (H _ eq_refl). cbn [call_op] in H. unfold graph_add_entries.
    destruct (t_add_triples I s (el_name c) _) as [[r x] y], (t_add_triples I s' (el_name c) _) as [[r' x'] y']. cbn in *. rewrite H. reflexivity.
  - specialize (H _ eq_refl). cbn [call_op] in H. unfold graph_remove_entries.
    destruct (t_remove_triples I s (el_name c) _) as [[r x] y], (t_remove_triples I s' (el_name c) _) as [[r' x'] y']. cbn in *. rewrite H. reflexivity.
  - unfold graph_filter. rewrite L3. reflexivity.
Qed.

Lemma local_next q k a : local (Ask q k) -> local (k a).
Proof. intros H q' Hq. apply H. right. exists a. exact Hq. Qed.

Lemma total_needed_app w a b : total_needed w (a ++ b) = (total_needed w a + total_needed w b)%N.
Proof. induction a as [|q a IH]; cbn; [reflexivity|]. unfold total_needed in *. lia. Qed.

Section Looks.
  Context {S : Type} (I : trips_impl S) (s0 : S) (R : list op -> list op -> Prop).
  Context (W : list op -> N) (per : N) (limit : option N).
  Definition within (n : N) : Prop := match limit with Some l => (n < l)%N | None => True end.
  Context (Wstep : forall h q, (W (h ++ ops_of q) <= W h + ids_needed per q)%N).
  Context (Rstep : forall h h' o, (forall c ts, o <> ORem c ts) -> within (W (h ++ [o])) -> within (W (h' ++ [o])) -> R h h' ->
    fst (call_op I (after I s0 h) o) = fst (call_op I (after I s0 h') o) /\ R (h ++ [o]) (h' ++ [o])).
  Context (Rlooks : forall h h', R h h' -> looks_same I (after I s0 h) (after I s0 h')).
  Notation G := (graph_impl I).

  Lemma within_le a b : (a <= b)%N -> within b -> within a.
  Proof. unfold within. destruct limit; [lia|trivial]. Qed.

  Lemma solo_looks p : forall h h', local p ->
    within (W h + total_needed per (calls_alone G p (after I s0 h))) ->
    within (W h' + total_needed per (calls_alone G p (after I s0 h))) -> R h h' ->
    exists g, fst (solo G p (after I s0 h)) = fst (solo G p (after I s0 h'))
      /\ snd (solo G p (after I s0 h)) = after I s0 (h ++ g) /\ snd (solo G p (after I s0 h')) = after I s0 (h' ++ g)
      /\ R (h ++ g) (h' ++ g)
      /\ (W (h ++ g) <= W h + total_needed per (calls_alone G p (after I s0 h)))%N
      /\ (W (h' ++ g) <= W h' + total_needed per (calls_alone G p (after I s0 h)))%N.
  Proof.
    induction p as [r|q k IH]; intros h h' Hl B B' HR.
    - exists []. rewrite !app_nil_r. cbn. repeat split; auto; lia.
    - cbn [solo calls_alone] in *. pose proof (perform_after I s0 q h) as E. pose proof (perform_after I s0 q h') as E'.
      assert (HQ : fst (perform G q (after I s0 h)) = fst (perform G q (after I s0 h')) /\ R (h ++ ops_of q) (h' ++ ops_of q)).
      { pose proof (Wstep h q) as V. pose proof (Wstep h' q) as V'.
        assert (B1 : within (W (h ++ ops_of q)) /\ within (W (h' ++ ops_of q))).
        { clear IH E E'. destruct (perform G q (after I s0 h)) as [a s1]. cbn [total_needed fold_right] in B, B'.
          split; [eapply within_le; [|exact B]; lia|eapply within_le; [|exact B']; lia]. }
        clear B B' E E'. destruct B1 as [B B'].
        destruct (op_of q) as [o|] eqn:Eo.
        - unfold ops_of in *. rewrite Eo in *. destruct (Rstep h h' o) as [E1 R1]; auto.
          + intros c ts ->. destruct q; try discriminate Eo. exact (proj2 (Hl _ (or_introl eq_refl)) _ _ eq_refl).
          + split; [|exact R1]. apply perform_answer; [apply Rlooks, HR|]. intros o' Eo'. rewrite Eo in Eo'. injection Eo' as <-. exact E1.
        - unfold ops_of. rewrite Eo, !app_nil_r. split; [|exact HR]. apply perform_answer; [apply Rlooks, HR|]. intros o' Eo'. congruence. }
      destruct HQ as [EA R1]. destruct (perform G q (after I s0 h)) as [a s1] eqn:P1. destruct (perform G q (after I s0 h')) as [a' s1'] eqn:P2.
      cbn [fst snd] in EA, E, E'. subst a' s1 s1'. cbn [total_needed fold_right] in *.
      fold (total_needed per (calls_alone G (k a) (after I s0 (h ++ ops_of q)))) in *.
      pose proof (Wstep h q) as V. pose proof (Wstep h' q) as V'.
      destruct (IH a (h ++ ops_of q) (h' ++ ops_of q) (local_next _ _ _ Hl)) as (g & E1 & E2 & E3 & R2 & W1 & W2); auto.
      + eapply within_le; [|exact B]. lia.
      + eapply within_le; [|exact B']. lia.
      + exists (ops_of q ++ g). rewrite !app_assoc. repeat split; auto; lia.
  Qed.

  Lemma session_looks scripts : forall h h',
    within (W h + total_needed per (session_calls G scripts (after I s0 h))) ->
    within (W h' + total_needed per (session_calls G scripts (after I s0 h))) -> R h h' ->
    fst (session G scripts (after I s0 h)) = fst (session G scripts (after I s0 h'))
    /\ looks_same I (snd (session G scripts (after I s0 h))) (snd (session G scripts (after I s0 h'))).
  Proof.
    induction scripts as [|x rest IH]; intros h h' B B' HR; cbn [session session_calls] in *.
    - split; [reflexivity|]. apply Rlooks, HR.
    - rewrite total_needed_app in B, B'.
      assert (Hl : local (p_run common x)) by exact (scripted_local _ _ (script_scripted x)).
      destruct (solo_looks _ h h' Hl) as (g & E1 & E2 & E3 & R2 & W1 & W2); auto.
      + eapply within_le; [|exact B]. lia.
      + eapply within_le; [|exact B']. lia.
      + assert (SR : forall s, solo G (p_run common x) s = run G common x s) by (intro s; exact (solo_run G common x s)).
        rewrite !SR in E1. rewrite SR in E2. rewrite SR in E3. rewrite E2 in B, B'.
        destruct (run G common x (after I s0 h)) as [r s1], (run G common x (after I s0 h')) as [r' s1']. cbn [fst snd] in *. subst r' s1 s1'.
        destruct (IH (h ++ g) (h' ++ g)) as [F1 F2]; auto.
        * eapply within_le; [|exact B]. lia.
        * eapply within_le; [|exact B']. lia.
        * destruct (session G rest (after I s0 (h ++ g))) as [rs s2], (session G rest (after I s0 (h' ++ g))) as [rs' s2'].
          cbn [fst snd] in *. split; [f_equal; exact F1|exact F2].
  Qed.
End Looks.

Lemma mem_session h h' scripts : looks_same mem_impl (after mem_impl mem_new h) (after mem_impl mem_new h') ->
  fst (session (graph_impl mem_impl) scripts (after mem_impl mem_new h)) = fst (session (graph_impl mem_impl) scripts (after mem_impl mem_new h'))
  /\ looks_same mem_impl (snd (session (graph_impl mem_impl) scripts (after mem_impl mem_new h))) (snd (session (graph_impl mem_impl) scripts (after mem_impl mem_new h'))).
Proof.
  intros L. apply (session_looks mem_impl mem_new (fun h h' => meq (mm h) (mm h')) (fun _ => 0%N) 0 None); try exact Logic.I.
  - intros; lia.
  - intros a b o _ _ _. apply meq_step.
  - intros a b. apply meq_looks.
  - apply meq_looks, L.
Qed.

Lemma lmdb_session h h' scripts : let d := after heed_impl heed_new h in let d' := after heed_impl heed_new h' in
  let n := total_needed 3 (session_calls (graph_impl heed_impl) scripts d) in
  (total_weight h + n < 2 ^ 64)%N -> (total_weight h' + n < 2 ^ 64)%N -> looks_same heed_impl d d' ->
  fst (session (graph_impl heed_impl) scripts d) = fst (session (graph_impl heed_impl) scripts d')
  /\ looks_same heed_impl (snd (session (graph_impl heed_impl) scripts d)) (snd (session (graph_impl heed_impl) scripts d')).
Proof.
  intros d d' n B B' L.
  apply (session_looks heed_impl heed_new (fun h h' => forall c, obs c (lm h) (lm h')) total_weight 3 (Some (2 ^ 64)%N)); try assumption.
  - intros a q. pose proof (weight_snoc a q). destruct q; exact H.
  - intros a b o No Wa Wb HO. destruct (obs_own a b o (target o) eq_refl No Wa Wb (HO (target o))) as [E D]. split; [exact E|].
    intros c. destruct (list_eq_dec N.eq_dec (target o) c) as [<-|Hn]; [exact D|].
    eapply obs_trans; [apply obs_other, Hn|]. eapply obs_trans; [apply HO|]. apply obs_sym, obs_other, Hn.
  - intros a b. apply heq_looks.
  - apply heq_looks, L.
Qed.

Lemma duck_session h h' scripts : let d := after duck_impl duck_new h in let d' := after duck_impl duck_new h' in
  let n := total_needed 4 (session_calls (graph_impl duck_impl) scripts d) in
  (dtotal h + n < 2 ^ 63)%N -> (dtotal h' + n < 2 ^ 63)%N -> looks_same duck_impl d d' ->
  fst (session (graph_impl duck_impl) scripts d) = fst (session (graph_impl duck_impl) scripts d')
  /\ looks_same duck_impl (snd (session (graph_impl duck_impl) scripts d)) (snd (session (graph_impl duck_impl) scripts d')).
Proof.
  intros d d' n B B' L.
  apply (session_looks duck_impl duck_new dqe dtotal 4 (Some (2 ^ 63)%N)); try assumption.
  - intros a q. rewrite dtotal_app. destruct q; unfold ops_of; cbn [op_of dtotal fold_right dweight ids_needed]; try lia.
    pose proof (collect_length trip_cmp (map entry_to_trip es)) as H. rewrite map_length in H. lia.
  - intros a b o _. apply dqe_step.
  - intros a b. apply dqe_looks.
  - apply dqe_looks, L.
Qed.

(** ** Scripts create and add *)
Lemma run_ops {S} (I : trips_impl S) x s : exists g, snd (run (graph_impl I) common x s) = after I s g
  /\ forall o, In o g -> exists c, lets x c /\ extends c o.
Proof.
  unfold run. destruct (tokenize_and_filter x) as [ts|e|w] eqn:E1; try (exists []; split; [reflexivity|intros o []]).
  destruct (parse ts) as [calls|e|w] eqn:E2; try (exists []; split; [reflexivity|intros o []]).
  destruct (run_calls_via I calls s) as (g & E & H). exists g. split; [exact E|]. intros o Ho.
  destruct (H o Ho) as (c & Hc & Ho'). exists c. split; [exists ts, calls; auto|exact Ho'].
Qed.

Lemma session_ops {S} (I : trips_impl S) scripts : forall s, exists g, snd (session (graph_impl I) scripts s) = after I s g
  /\ forall o, In o g -> exists x c, In x scripts /\ lets x c /\ extends c o.
Proof.
  induction scripts as [|x rest IH]; intros s; [exists []; split; [reflexivity|intros o []]|].
  cbn [session]. destruct (run_ops I x s) as (g & E & H). destruct (run (graph_impl I) common x s) as [r s1]. cbn [snd] in E. subst s1.
  destruct (IH (after I s g)) as (g2 & E2 & H2). destruct (session (graph_impl I) rest (after I s g)) as [rs s2]. cbn [snd] in *. subst s2.
  exists (g ++ g2). rewrite after_app. split; [reflexivity|]. intros o Ho. apply in_app_or in Ho as [Ho|Ho].
  - destruct (H o Ho) as (c & Hc). exists x, c. split; [left; reflexivity|exact Hc].
  - destruct (H2 o Ho) as (x' & c & Hi & Hc). exists x', c. split; [right; exact Hi|exact Hc].
Qed.

Lemma extends_no_rem c o : extends c o -> (forall x, o <> ORemColl x) /\ (forall x ts, o <> ORem x ts).
Proof. intros [->|(ts & ->)]; split; discriminate. Qed.

Lemma extends_keeps x o c t : extends x o -> ~ removes c t o.
Proof. intros [->|(ts & ->)] H; inversion H. Qed.

Lemma lmdb_keeps h bs g : (forall o, In o g -> exists c, extends c o) ->
  let d := hafter heed_new h in let d' := fst (after (flaky heed_impl_c) (d, bs) g) in
  (forall c, has heed_impl d c -> has heed_impl d' c) /\ (forall c t, holds heed_impl d c t -> holds heed_impl d' c t).
Proof.
  intros Hg d d'. unfold d', d. rewrite flaky_after, <- after_f_app.
  assert (HI : forall o, In o (installed heed_impl_c (hafter heed_new h) (schedule g bs)) -> In o g).
  { generalize (hafter heed_new h). clear. revert bs. induction g as [|o g IH]; intros bs d o' H; [destruct H|].
    cbn [schedule installed] in H. destruct (call_op (heed_impl_c (hd true bs)) d o) as [[a|e|w] d1]; cbn in H.
    - destruct (hd true bs); cbn in H; [destruct H as [H|H]; [left; exact H|]|]; right; eapply IH; exact H.
    - right; eapply IH; exact H.
    - right; eapply IH; exact H. }
  pose proof (heed_simulates h) as SM. pose proof (heed_simulates (h ++ schedule g bs)) as SM'. rewrite installed_app in SM'.
  set (H := installed heed_impl_c heed_new h) in *. set (K := installed heed_impl_c (hafter heed_new h) (schedule g bs)) in *.
  assert (HK : (forall c, live H c -> live (H ++ K) c) /\ (forall c t, holds_after H c t -> holds_after (H ++ K) c t)).
  { clearbody K. clear SM'. assert (HI' : forall o, In o K -> exists c, extends c o) by (intros o Ho; apply Hg, HI, Ho). clear HI.
    induction K as [|o K IH] using rev_ind; [rewrite app_nil_r; auto|].
    destruct IH as [I1 I2]; [intros o' Ho; apply HI', in_or_app; left; exact Ho|].
    destruct (HI' o) as (x & Hx); [apply in_or_app; right; left; reflexivity|].
    rewrite app_assoc. split; [intros c Hc|intros c t Ht].
    - apply live_snoc. right. split; [apply I1, Hc|apply (extends_no_rem _ _ Hx)].
    - apply holds_after_snoc. right. split; [apply I2, Ht|apply (extends_keeps _ _ _ _ Hx)]. }
  destruct HK as [HK1 HK2]. split.
  - intros c. rewrite (sim_has true _ _ c SM), (sim_has true _ _ c SM'). intros [A B]. split; [exact A|apply HK1, B].
  - intros c t. rewrite (sim_holds true _ _ c t (inv_reach _) SM), (sim_holds true _ _ c t (inv_reach _) SM'). apply HK2.
Qed.

Lemma duck_keeps h g : (forall o, In o g -> exists c, extends c o) ->
  let d := after duck_impl duck_new h in let d' := after duck_impl d g in
  (forall c, has duck_impl d c -> has duck_impl d' c) /\ (forall c t, holds duck_impl d c t -> holds duck_impl d' c t).
Proof.
  intros Hg d d'. unfold d', d. rewrite <- after_app. clear d d'.
  induction g as [|o g IH] using rev_ind; [rewrite app_nil_r; auto|].
  destruct IH as [I1 I2]; [intros o' Ho; apply Hg, in_or_app; left; exact Ho|].
  destruct (Hg o) as (x & Hx); [apply in_or_app; right; left; reflexivity|]. rewrite app_assoc.
  split; [intros c Hc; apply I1 in Hc|intros c t Ht; apply I2 in Ht]; pose proof (duck_effect (h ++ g) o c) as HE; cbn zeta in HE;
    destruct (fst (call_op duck_impl (after duck_impl duck_new (h ++ g)) o)); try (apply HE; assumption).
  - apply HE. right. split; [exact Hc|apply (extends_no_rem _ _ Hx)].
  - apply HE. right. split; [exact Ht|apply (extends_keeps _ _ _ _ Hx)].
Qed.

Lemma mem_keeps h g : (forall o, In o g -> exists c, extends c o) ->
  let d := after mem_impl mem_new h in let d' := after mem_impl d g in
  (forall c, has mem_impl d c -> has mem_impl d' c)
  /\ (forall c t, (forall o, In o g -> target o <> c) -> holds mem_impl d c t -> holds mem_impl d' c t).
Proof.
  intros Hg d d'. split.
  - unfold d', d. rewrite <- after_app. clear d d'. intros c.
    assert (HH : forall k, has mem_impl (after mem_impl mem_new k) c <-> live k c).
    { intros k. rewrite mem_has. pose proof (mem_history_get k c) as M. destruct (get c (after mem_impl mem_new k)) as [l|].
      - split; [intros _; apply M|eauto].
      - split; [intros (l & E); discriminate|intros L; destruct (M L)]. }
    rewrite !HH. intros Hc. induction g as [|o g IH] using rev_ind; [rewrite app_nil_r; exact Hc|]. rewrite app_assoc. apply live_snoc.
    right. split; [apply IH; intros o' Ho; apply Hg, in_or_app; left; exact Ho|].
    destruct (Hg o) as (x & Hx); [apply in_or_app; right; left; reflexivity|]. apply (extends_no_rem _ _ Hx).
  - intros c t Hn (l & E & Hi). exists l. split; [|exact Hi]. rewrite <- E. unfold d', d. rewrite <- after_app. apply mem_others, Hn.
Qed.
