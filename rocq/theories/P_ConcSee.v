(** * Proofs: what the clients of a store see *)
From Coq Require Import List Arith NArith Bool String Lia Eqdep_dec.
From Verif Require Import M_Base M_Data M_Heed M_Regex M_Lexer M_Graph M_Parser M_Display M_Interp M_Conc
  S_Order S_Str S_Store S_Graph S_Parser S_Interp S_Conc S_ConcSee P_Ord P_Hist P_Agree P_Heed P_HeedHist P_HeedMore P_Space P_Graph P_Interp P_InterpStores P_Conc P_ConcFoot.
Import ListNotations.
Open Scope list_scope.

Section Events.
  Context {S : Type} (L : lig_impl S).

  (** Where an event comes from. *)
  Lemma events_split sched : forall x l1 e l2, events L sched x = l1 ++ e :: l2 ->
    exists s1 s2, sched = s1 ++ who e :: s2 /\ events L s1 x = l1
      /\ let y := interleave L s1 x in
         (exists k, clients y (who e) = Ask (what e) k) /\ said e = fst (perform L (what e) (shared y))
         /\ events L s2 (turn L (who e) y) = l2.
  Proof.
    induction sched as [|i sched IH]; intros x l1 e l2 E; [destruct l1; discriminate E|]. cbn [events] in E.
    destruct (clients x i) as [r|q k] eqn:Ei.
    - destruct (IH _ _ _ _ E) as (s1 & s2 & -> & E1 & H). exists (i :: s1), s2. split; [reflexivity|]. cbn [events interleave]. rewrite Ei.
      split; [exact E1|]. assert (T : turn L i x = x) by (unfold turn; rewrite Ei; reflexivity). rewrite T. exact H.
    - destruct l1 as [|f l1].
      + injection E as <- <-. exists [], sched. split; [reflexivity|]. split; [reflexivity|]. cbn. split; [exists k; exact Ei|auto].
      + injection E as <- E. destruct (IH _ _ _ _ E) as (s1 & s2 & -> & E1 & H). exists (i :: s1), s2. split; [reflexivity|].
        cbn [events interleave]. rewrite Ei, E1. split; [reflexivity|exact H].
  Qed.

  Lemma interleave_app s1 s2 x : interleave L (s1 ++ s2) x = interleave L s2 (interleave L s1 x).
  Proof. revert x. induction s1 as [|i s1 IH]; intros x; [reflexivity|]. cbn. apply IH. Qed.

  Lemma one_order sched : forall x,
    shared (interleave L sched x) = fold_left (fun s q => snd (perform L q s)) (map what (events L sched x)) (shared x).
  Proof.
    induction sched as [|i sched IH]; intros x; [reflexivity|]. cbn [interleave events].
    unfold turn. destruct (clients x i) as [r|q k] eqn:Ei; [apply IH|]. rewrite IH. cbn [map fold_left what]. destruct (perform L q (shared x)) as [a s]. reflexivity.
  Qed.

  Lemma keeps_turn i x : (forall j, keeps_all (clients x j)) -> forall j, keeps_all (clients (turn L i x) j).
  Proof.
    intros H j. unfold turn. destruct (clients x i) as [r|q k] eqn:Ei; [apply H|].
    destruct (perform L q (shared x)) as [a s]. cbn [clients]. destruct (Nat.eq_dec j i) as [->|Hn]; [rewrite update_same|rewrite update_other by exact Hn; apply H].
    intros q' Hq. apply (H i). rewrite Ei. right. exists a. exact Hq.
  Qed.
  Lemma keeps_interleave sched : forall x, (forall j, keeps_all (clients x j)) -> forall j, keeps_all (clients (interleave L sched x) j).
  Proof. induction sched as [|i sched IH]; intros x H; [exact H|]. cbn [interleave]. apply IH, keeps_turn, H. Qed.
End Events.

Lemma script_keeps s : keeps_all (p_run common s).
Proof.
  intros q Hq. destruct (footed_script s q Hq) as (c & [([->|(es & ->)] & _)|([->|(e & ->)] & _)]); split; discriminate.
Qed.

(** ** LMDB, commits failing or not *)
Notation FG := (graph_impl (flaky heed_impl_c)).
Notation lafter h := (after_f heed_impl_c heed_new h).
Notation lmeans h := (installed heed_impl_c heed_new h).

Lemma req_dec (a b : req) : {a = b} + {a <> b}.
Proof. decide equality; try apply element_dec; try apply entry_dec; apply list_eq_dec, entry_dec. Qed.

(** What a call can do to the file. *)
Lemma flaky_step q h bs : exists h' bs',
  snd (perform FG q (lafter h, bs)) = (lafter h', bs')
  /\ ((lafter h' = lafter h /\ lmeans h' = lmeans h
       /\ forall o, op_of q = Some o -> bs = [] -> forall u, fst (hcall true (lafter h) o) <> Ok u)
      \/ exists o, op_of q = Some o /\ hd true bs = true /\ fst (hcall true (lafter h) o) = Ok tt /\ lmeans h' = lmeans h ++ [o])
  /\ (bs = [] -> bs' = []).
Proof.
  destruct (op_of q) as [o|] eqn:Eo.
  - assert (K : snd (perform FG q (lafter h, bs)) = (lafter (h ++ [(o, hd true bs)]), tl bs)).
    { rewrite after_f_snoc. destruct q; cbn in Eo; try discriminate Eo; injection Eo as <-; cbn [perform graph_impl l_add_collection l_remove_collection l_add_entries l_remove_entries].
      - unfold graph_add_collection. cbn [flaky t_add_collection fst snd call_op]. destruct (t_add_collection (heed_impl_c (hd true bs)) (lafter h) (el_name c)); reflexivity.
      - unfold graph_remove_collection. cbn [flaky t_remove_collection fst snd call_op]. destruct (t_remove_collection (heed_impl_c (hd true bs)) (lafter h) (el_name c)); reflexivity.
      - unfold graph_add_entries. cbn [flaky t_add_triples fst snd call_op]. destruct (t_add_triples (heed_impl_c (hd true bs)) (lafter h) (el_name c) _) as [[r x] y]; reflexivity.
      - unfold graph_remove_entries. cbn [flaky t_remove_triples fst snd call_op]. destruct (t_remove_triples (heed_impl_c (hd true bs)) (lafter h) (el_name c) _) as [[r x] y]; reflexivity. }
    exists (h ++ [(o, hd true bs)]), (tl bs). split; [exact K|]. split; [|intros ->; reflexivity].
    destruct (lstep h o (hd true bs)) as [[E1 E2]|(E0 & E1 & E2 & E3)].
    + left. split; [exact E1|]. split; [exact E2|]. intros o' Eo' -> u Eu. injection Eo' as <-. cbn [hd] in *.
      rewrite installed_snoc in E2. rewrite Eu in E2. rewrite <- (app_nil_r (lmeans h)) in E2 at 2. apply app_inv_head in E2. discriminate E2.
    + right. exists o. auto.
  - exists h, bs. split; [destruct q; cbn in Eo; try discriminate Eo; reflexivity|]. split; [left|auto].
    split; [reflexivity|]. split; [reflexivity|]. discriminate.
Qed.

Definition fholds h c t := holds heed_impl (lafter h) c t.
Definition fhas h c := has heed_impl (lafter h) c.

Lemma fholds_iff h c t : fholds h c t <-> holds_after (lmeans h) c t.
Proof. apply (sim_holds true); [apply inv_reach|apply heed_simulates]. Qed.
Lemma fhas_iff h c : fhas h c <-> storable c /\ live (lmeans h) c.
Proof. apply (sim_has true), heed_simulates. Qed.

Definition added_by (e : event) (c : str) (t : trip) : Prop :=
  exists i x es, e = Event i (QAddEntries x es) (Ok tt) /\ el_name x = c /\ In t (map entry_to_trip es).

Lemma put_added e c n : put_by e c n <-> exists t, n = trip_to_entry t /\ added_by e c t.
Proof.
  split.
  - intros (i & x & es & m & -> & E & Hm & Hn). apply normalises_iff in Hn. exists (entry_to_trip m). split; [auto|].
    exists i, x, es. split; [reflexivity|]. split; [exact E|]. apply in_map, Hm.
  - intros (t & -> & i & x & es & -> & E & Ht). apply in_map_iff in Ht as (m & <- & Hm). exists i, x, es, m. split; [reflexivity|].
    split; [exact E|]. split; [exact Hm|]. apply normalises_iff. reflexivity.
Qed.

Definition gentle (q : req) : Prop := (forall c, q <> QRemoveCollection c) /\ (forall c es, q <> QRemoveEntries c es).

Lemma gentle_call i q h bs :
  let e := Event i q (fst (perform FG q (lafter h, bs))) in
  exists h' bs', snd (perform FG q (lafter h, bs)) = (lafter h', bs')
    /\ (gentle q -> forall c, fhas h c -> fhas h' c) /\ (gentle q -> forall c t, fholds h c t -> fholds h' c t)
    /\ (forall c t, fholds h' c t -> fholds h c t \/ added_by e c t)
    /\ (forall c, fhas h' c -> fhas h c \/ created_by e c)
    /\ (bs = [] -> bs' = [])
    /\ (bs = [] -> forall c t, added_by e c t -> fholds h' c t)
    /\ (bs = [] -> forall c, created_by e c -> storable c -> fhas h' c).
Proof.
  cbv zeta. destruct (flaky_step q h bs) as (h' & bs' & E & [(E1 & E2 & E3)|(o & Eo & Eb & Ek & Em)] & Hb).
  - exists h', bs'. split; [exact E|]. unfold fhas, fholds. rewrite E1. split; [auto|]. split; [auto|]. split; [auto|]. split; [auto|]. split; [exact Hb|]. split.
    + intros -> c t (j & x & es & Ev & _). exfalso. assert (Eq : q = QAddEntries x es) by (exact (f_equal what Ev)). subst q.
      assert (Ea : fst (perform FG (QAddEntries x es) (lafter h, [])) = Ok tt).
      { injection Ev as _ Es. apply (Eqdep_dec.inj_pair2_eq_dec req req_dec) in Es. exact Es. }
      apply (E3 _ eq_refl eq_refl tt). revert Ea. cbn [perform graph_impl l_add_entries]. unfold graph_add_entries. cbn [flaky t_add_triples fst snd call_op hd].
      destruct (t_add_triples (heed_impl_c true) (lafter h) (el_name x) _) as [[r s0] y]. cbn [fst]. destruct r; cbn; congruence.
    + intros -> c (j & x & Ev & _). exfalso. assert (Eq : q = QAddCollection x) by (exact (f_equal what Ev)). subst q.
      assert (Ea : fst (perform FG (QAddCollection x) (lafter h, [])) = Ok tt).
      { injection Ev as _ Es. apply (Eqdep_dec.inj_pair2_eq_dec req req_dec) in Es. exact Es. }
      apply (E3 _ eq_refl eq_refl tt). revert Ea. cbn [perform graph_impl l_add_collection]. unfold graph_add_collection. cbn [flaky t_add_collection fst snd call_op hd].
      destruct (t_add_collection (heed_impl_c true) (lafter h) (el_name x)) as [r s0]. cbn [fst]. destruct r; cbn; congruence.
  - exists h', bs'. split; [exact E|].
    assert (R : gentle q -> forall c t, ~ removes c t o) by (intros [N1 N2] c t K; destruct q; cbn in Eo; try discriminate Eo; injection Eo as <-; try (inversion K; fail); [exact (N1 _ eq_refl)|exact (N2 _ _ eq_refl)]).
    split; [|split; [|split; [|split; [|split; [exact Hb|split]]]]].
    + intros [N1 _] c. rewrite !fhas_iff, Em. intros [A B]. split; [exact A|]. apply live_snoc. right. split; [exact B|].
      intros ->. destruct q; cbn in Eo; try discriminate Eo. exact (N1 _ eq_refl).
    + intros N c t. rewrite !fholds_iff, Em. intros A. apply holds_after_snoc. right. split; [exact A|apply R, N].
    + intros c t. rewrite !fholds_iff, Em. intros A. apply holds_after_snoc in A as [(ts & -> & Ht & _)|[A _]]; [right|left; exact A].
      destruct q; cbn in Eo; try discriminate Eo. injection Eo as <- <-. exists i, c0, es.
      rewrite (in_bs_collect trip_order) in Ht. split; [|auto]. f_equal.
      revert Ek. cbn [perform graph_impl l_add_entries]. unfold graph_add_entries. cbn [flaky t_add_triples fst snd call_op]. rewrite Eb.
      destruct (t_add_triples (heed_impl_c true) (lafter h) (el_name c0) _) as [[r s0] y]. cbn [fst]. intros ->. reflexivity.
    + intros c. rewrite !fhas_iff, Em. intros [A B]. apply live_snoc in B as [->|[B _]]; [right|left; auto].
      destruct q; cbn in Eo; try discriminate Eo. injection Eo as <-. exists i, c0. split; [|reflexivity]. f_equal.
      revert Ek. cbn [perform graph_impl l_add_collection]. unfold graph_add_collection. cbn [flaky t_add_collection fst snd call_op]. rewrite Eb.
      destruct (t_add_collection (heed_impl_c true) (lafter h) (el_name c0)) as [r s0]. cbn [fst]. intros ->. reflexivity.
    + intros -> c t (j & x & es & Ev & <- & Ht). assert (Eq : q = QAddEntries x es) by (exact (f_equal what Ev)). subst q.
      cbn in Eo. injection Eo as <-. apply fholds_iff. rewrite Em. apply holds_after_snoc. left.
      eexists. split; [reflexivity|]. rewrite (in_bs_collect trip_order). split; [exact Ht|].
      pose proof (heed_has_dec h (el_name x)) as Hd. cbn zeta in Hd. destruct Hd as [Hd|Hd]; [apply fhas_iff in Hd; tauto|].
      pose proof (heed_write_missing h (el_name x) (bs_collect trip_cmp (map entry_to_trip es)) true) as HW. cbn zeta in HW.
      destruct (HW Hd) as [HW1 _]. rewrite HW1 in Ek. discriminate Ek.
    + intros -> c (j & x & Ev & <-) Hs. assert (Eq : q = QAddCollection x) by (exact (f_equal what Ev)). subst q.
      cbn in Eo. injection Eo as <-. apply fhas_iff. split; [exact Hs|]. rewrite Em. apply live_snoc. left. reflexivity.
Qed.

(** Along a schedule. *)
Definition tame (cl : nat -> prog) : Prop := forall j, keeps_all (cl j).

Lemma flow sched : forall h bs cl,
  let ev := events FG sched (Pool (lafter h, bs) cl) in
  exists h' bs', shared (interleave FG sched (Pool (lafter h, bs) cl)) = (lafter h', bs')
    /\ (tame cl -> forall c, fhas h c -> fhas h' c) /\ (tame cl -> forall c t, fholds h c t -> fholds h' c t)
    /\ (forall c t, fholds h' c t -> fholds h c t \/ exists e, In e ev /\ added_by e c t)
    /\ (forall c, fhas h' c -> fhas h c \/ exists e, In e ev /\ created_by e c)
    /\ (bs = [] -> bs' = [])
    /\ (tame cl -> bs = [] -> forall e c t, In e ev -> added_by e c t -> fholds h' c t)
    /\ (tame cl -> bs = [] -> forall e c, In e ev -> created_by e c -> storable c -> fhas h' c).
Proof.
  induction sched as [|i sched IH]; intros h bs cl.
  - exists h, bs. cbn. repeat match goal with |- _ /\ _ => split end; auto; intros _ _ e; intros; contradiction.
  - cbn [interleave events]. pose proof (keeps_turn FG i (Pool (lafter h, bs) cl)) as Ht.
    unfold turn in *. cbn [clients shared] in *. destruct (cl i) as [r|q k] eqn:Ei; [exact (IH h bs cl)|].
    assert (Q : tame cl -> gentle q) by (intros H; apply (H i); rewrite Ei; left; reflexivity).
    destruct (gentle_call i q h bs) as (h1 & bs1 & E1 & A1 & B1 & C1 & D1 & F1 & G1 & K1).
    destruct (perform FG q (lafter h, bs)) as [a s]. cbn [snd fst] in *. subst s. cbn [clients] in Ht.
    destruct (IH h1 bs1 (update cl i (k a))) as (h' & bs' & E & A & B & C & D & F & G' & K').
    exists h', bs'. split; [exact E|]. split; [intros H c Hc; apply (A (Ht H)), (A1 (Q H)), Hc|].
    split; [intros H c t Hc; apply (B (Ht H)), (B1 (Q H)), Hc|]. split; [|split; [|split; [auto|split]]].
    + intros c t Hx. destruct (C c t Hx) as [Hy|(e & He & Hg)]; [|right; exists e; split; [right; exact He|exact Hg]].
      destruct (C1 c t Hy) as [Hz|Hz]; [left; exact Hz|right]. eexists. split; [left; reflexivity|]. exact Hz.
    + intros c Hx. destruct (D c Hx) as [Hy|(e & He & Hg)]; [|right; exists e; split; [right; exact He|exact Hg]].
      destruct (D1 c Hy) as [Hz|Hz]; [left; exact Hz|right]. eexists. split; [left; reflexivity|]. exact Hz.
    + intros H Hb e c t [<-|He] Hg; [apply (B (Ht H)), G1; assumption|exact (G' (Ht H) (F1 Hb) e c t He Hg)].
    + intros H Hb e c [<-|He] Hg Hs; [apply (A (Ht H)), K1; assumption|exact (K' (Ht H) (F1 Hb) e c He Hg Hs)].
Qed.

(** Reading. *)
Lemma read_answer h bs c es : l_entries FG (lafter h, bs) c = Ok es ->
  fhas h (el_name c) /\ forall e, In e es <-> exists t, fholds h (el_name c) t /\ e = trip_to_entry t.
Proof.
  cbn [graph_impl l_entries]. unfold graph_entries. cbn [flaky t_triples fst]. intros E.
  change (t_triples (heed_impl_c true)) with (t_triples heed_impl) in E.
  destruct (t_triples heed_impl (lafter h) (el_name c)) as [l|e|w] eqn:El; try discriminate E. injection E as <-. split.
  - apply fhas_iff. pose proof (heed_triples_missing h (el_name c)) as K. cbn zeta in K.
    pose proof (heed_has_dec h (el_name c)) as Hd. cbn zeta in Hd. destruct Hd as [Hd|Hd]; [apply fhas_iff, Hd|].
    rewrite (proj2 K Hd) in El. discriminate El.
  - intros e. rewrite (in_bs_collect entry_order), in_map_iff. unfold fholds, holds. split.
    + intros (t & <- & Ht). exists t. split; [exists l; auto|reflexivity].
    + intros (t & (l' & El' & Ht) & ->). exists t. split; [reflexivity|]. congruence.
Qed.

Lemma read_ok h bs c : fhas h (el_name c) -> exists es, l_entries FG (lafter h, bs) c = Ok es.
Proof.
  intros Hh. cbn [graph_impl l_entries]. unfold graph_entries. cbn [flaky t_triples fst].
  pose proof (heed_triples_missing h (el_name c)) as K. cbn zeta in K. destruct (proj1 K Hh) as (l & E).
  change (t_triples (heed_impl_c true)) with (t_triples heed_impl). rewrite E. eauto.
Qed.

Lemma fholds_has h x t : fholds h (el_name x) t -> forall bs, exists es, l_entries FG (lafter h, bs) x = Ok es.
Proof.
  intros (l & E & _) bs. cbn [graph_impl l_entries]. unfold graph_entries. cbn [flaky t_triples fst].
  change (t_triples (heed_impl_c true)) with (t_triples heed_impl). rewrite E. eauto.
Qed.
