(** * Proofs: what is seen when calls overlap in time *)
From Coq Require Import List Arith NArith Bool String Lia.
From Verif Require Import M_Base M_Data M_Heed M_Txn M_Regex M_Lexer M_Graph M_Parser M_Display M_Interp M_Conc M_TxnConc
  S_Order S_Str S_Store S_Txn S_Graph S_Parser S_Interp S_Conc S_ConcSee S_TxnConc
  P_Ord P_Hist P_Agree P_Heed P_HeedHist P_HeedMore P_Space P_Txn P_Graph P_Conc P_ConcFoot P_ConcSee P_TxnConc.
Import ListNotations.
Open Scope list_scope.

Notation AO := (graph_impl lmdb_at_once).
Notation lafter h := (after_f heed_impl_c heed_new h).
Notation lmeans h := (installed heed_impl_c heed_new h).

Lemma ao_step q h fs : exists h', fst (snd (perform AO q (lafter h, fs))) = lafter h'
  /\ (lafter h' = lafter h \/ exists o, op_of q = Some o /\ lmeans h' = lmeans h ++ [o]).
Proof.
  destruct (op_of q) as [o|] eqn:Eo.
  - assert (K : exists l b, fst (snd (perform AO q (lafter h, fs))) = if b : bool then snd (call_op (heed_impl_w l) (lafter h) o) else lafter h).
    { exists (fst (hd no_fault fs)), (snd (hd no_fault fs)).
      destruct q; cbn in Eo; try discriminate Eo; injection Eo as <-; cbn [perform graph_impl l_add_collection l_remove_collection l_add_entries l_remove_entries].
      - unfold graph_add_collection. cbn [lmdb_at_once t_add_collection call_op]. unfold write_at_once. cbn [fst snd].
        destruct (t_add_collection _ (lafter h) (el_name c)). cbn. destruct (snd (hd no_fault fs)); reflexivity.
      - unfold graph_remove_collection. cbn [lmdb_at_once t_remove_collection call_op]. unfold write_at_once. cbn [fst snd].
        destruct (t_remove_collection _ (lafter h) (el_name c)). cbn. destruct (snd (hd no_fault fs)); reflexivity.
      - unfold graph_add_entries. cbn [lmdb_at_once t_add_triples call_op]. unfold write_at_once. cbn [fst snd].
        destruct (t_add_triples _ (lafter h) (el_name c) _) as [[r x] z]. cbn. destruct (snd (hd no_fault fs)); reflexivity.
      - unfold graph_remove_entries. cbn [lmdb_at_once t_remove_triples call_op]. unfold write_at_once. cbn [fst snd].
        destruct (t_remove_triples _ (lafter h) (el_name c) _) as [[r x] z]. cbn. destruct (snd (hd no_fault fs)); reflexivity. }
    destruct K as (l & b & ->). destruct b; [|exists h; auto].
    destruct (one_call (lafter h) o l) as (b & ->). exists (h ++ [(o, b)]). rewrite after_f_snoc. split; [reflexivity|].
    destruct (lstep h o b) as [[E1 _]|(_ & _ & _ & E2)]; [left; rewrite <- after_f_snoc; exact E1|right; exists o; auto].
  - exists h. split; [|auto]. destruct q; cbn in Eo; try discriminate Eo; reflexivity.
Qed.

Lemma ao_gentle q h fs : gentle q -> exists h', fst (snd (perform AO q (lafter h, fs))) = lafter h'
  /\ (forall c, fhas h c -> fhas h' c) /\ (forall c t, fholds h c t -> fholds h' c t).
Proof.
  intros [N1 N2]. destruct (ao_step q h fs) as (h' & E & H). exists h'. split; [exact E|]. destruct H as [H|(o & Eo & Em)].
  - unfold fhas, fholds. rewrite H. auto.
  - split.
    + intros c. rewrite !fhas_iff, Em. intros [A B]. split; [exact A|]. apply live_snoc. right. split; [exact B|].
      intros ->. destruct q; cbn in Eo; try discriminate Eo. exact (N1 _ eq_refl).
    + intros c t. rewrite !fholds_iff, Em. intros A. apply holds_after_snoc. right. split; [exact A|].
      intros K; destruct q; cbn in Eo; try discriminate Eo; injection Eo as <-; try (inversion K; fail); [exact (N1 _ eq_refl)|exact (N2 _ _ eq_refl)].
Qed.

Lemma keeps_gone : keeps_all gone.
Proof. intros q []. Qed.

Lemma keeps_happen {S} (L : lig_impl S) e y : (forall j, keeps_all (clients y j)) -> forall j, keeps_all (clients (happen_at_once L e y) j).
Proof.
  intros H j. destruct e as [i|i]; [exact (keeps_turn L i y H j)|]. cbn [happen_at_once clients].
  destruct (Nat.eq_dec j i) as [->|Hn]; [rewrite update_same; apply keeps_gone|rewrite update_other by exact Hn; apply H].
Qed.
Lemma keeps_at_once {S} (L : lig_impl S) l : forall y, (forall j, keeps_all (clients y j)) -> forall j, keeps_all (clients (at_once L l y) j).
Proof. induction l as [|e l IH]; intros y H; [exact H|]. change (at_once L (e :: l) y) with (at_once L l (happen_at_once L e y)). apply IH, keeps_happen, H. Qed.

Lemma ao_flow l : forall h y, (forall j, keeps_all (clients y j)) -> fst (shared y) = lafter h ->
  exists h', fst (shared (at_once AO l y)) = lafter h' /\ (forall c, fhas h c -> fhas h' c) /\ (forall c t, fholds h c t -> fholds h' c t).
Proof.
  induction l as [|e l IH]; intros h y K E; [exists h; auto|].
  change (at_once AO (e :: l) y) with (at_once AO l (happen_at_once AO e y)). pose proof (keeps_happen AO e y K) as K'.
  assert (X : exists h1, fst (shared (happen_at_once AO e y)) = lafter h1 /\ (forall c, fhas h c -> fhas h1 c) /\ (forall c t, fholds h c t -> fholds h1 c t)).
  { destruct e as [i|i]; [|exists h; auto]. cbn [happen_at_once]. unfold turn. destruct (clients y i) as [r|q k] eqn:Ei; [exists h; auto|].
    assert (Q : gentle q) by (apply (K i); rewrite Ei; left; reflexivity).
    destruct (ao_gentle q h (snd (shared y)) Q) as (h1 & E1 & H1). exists h1. split; [|exact H1]. rewrite <- E1, <- E.
    destruct (shared y) as [d fs]. cbn [fst snd]. destruct (perform AO q (d, fs)). reflexivity. }
  destruct X as (h1 & E1 & A1 & B1). destruct (IH h1 _ K' E1) as (h2 & E2 & A2 & B2). exists h2. auto.
Qed.

Lemma answered_in {S} (L : lig_impl S) l : forall y e, In e (answered L l y) ->
  exists l1 l2, l = l1 ++ Moves (who e) :: l2 /\ said e = fst (perform L (what e) (shared (at_once L l1 y))).
Proof.
  induction l as [|h l IH]; intros y e H; [destruct H|]. cbn [answered] in H. apply in_app_or in H as [H|H].
  - destruct h as [i|i]; [|destruct H]. destruct (clients y i) as [r|q k]; [destruct H|]. destruct H as [<-|[]]. exists [], l. auto.
  - destruct (IH _ _ H) as (l1 & l2 & -> & E). exists (h :: l1), l2. split; [reflexivity|exact E].
Qed.

Lemma of_in i l e : In e (of_client i l) <-> In e l /\ who e = i.
Proof. unfold of_client. rewrite filter_In, Nat.eqb_eq. reflexivity. Qed.

Lemma ao_read h fs c : l_entries AO (lafter h, fs) c = l_entries (graph_impl (flaky heed_impl_c)) (lafter h, []) c.
Proof. reflexivity. Qed.

Lemma reads_grow h fs cl l1 l2 i c es j p c' a :
  (forall k, keeps_all (cl k)) ->
  let s0 := start (lafter h) fs cl in let s1 := go_on l1 s0 in
  In (Event i (QEntries c) (Ok es)) (returned l1 s0) -> doing s1 j = Idle p ->
  In (Event j (QEntries c') a) (returned l2 s1) -> el_name c = el_name c' ->
  exists es', a = Ok es' /\ incl es es'.
Proof.
  intros K s0 s1 R1 Ij R2 En. set (y0 := Pool (lafter h, fs) cl). pose proof (along_start (lafter h) fs cl : along s0 y0) as A0.
  set (y1 := at_once AO (moments l1 s0) y0). pose proof (along_run l1 s0 y0 A0 : along s1 y1) as A1.
  assert (I1 : In (Event i (QEntries c) (Ok es)) (answered AO (moments l1 s0) y0)).
  { destruct (all_answers l1 s0 y0 i A0) as (q & E & _). unfold pending in E. cbn [s0 start doing List.app] in E.
    apply (of_in i). fold s0 in E. rewrite E. apply in_or_app. left. apply of_in. auto. }
  assert (I2 : In (Event j (QEntries c') a) (answered AO (moments l2 s1) y1)).
  { destruct (all_answers l2 s1 y1 j A1) as (q & E & _). unfold pending in E. rewrite Ij in E. cbn [List.app] in E.
    apply (of_in j). rewrite E. apply in_or_app. left. apply of_in. auto. }
  destruct (answered_in _ _ _ _ I1) as (m1 & m2 & Em & Ea). destruct (answered_in _ _ _ _ I2) as (n1 & n2 & En' & Eb).
  cbn [who what said perform fst] in Ea, Eb.
  assert (K0 : forall k, keeps_all (clients y0 k)) by exact K.
  destruct (ao_flow m1 h y0 K0 eq_refl) as (h1 & E1 & _).
  set (z1 := at_once AO m1 y0) in *. pose proof (keeps_at_once AO m1 y0 K0) as K1. fold z1 in K1.
  assert (Y1 : at_once AO (Moves i :: m2 ++ n1) z1 = at_once AO n1 y1).
  { unfold y1. rewrite Em. unfold z1. rewrite <- !at_once_app. f_equal. rewrite <- app_assoc. reflexivity. }
  destruct (ao_flow (Moves i :: m2 ++ n1) h1 z1 K1 E1) as (h2 & E2 & A & B). rewrite Y1 in E2.
  destruct (shared z1) as [d1 f1]. destruct (shared (at_once AO n1 y1)) as [d2 f2]. cbn [fst] in E1, E2. subst d1 d2.
  rewrite ao_read in Ea, Eb. symmetry in Ea. destruct (read_answer _ _ _ _ Ea) as [P1 Q1]. rewrite En in P1, Q1.
  destruct (read_ok h2 [] c' (A _ P1)) as (es' & R3). exists es'. split; [congruence|].
  intros n Hn. apply Q1 in Hn as (t & Ht & ->). apply (proj2 (read_answer _ _ _ _ R3)). exists t. split; [apply B, Ht|reflexivity].
Qed.
