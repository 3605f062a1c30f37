(** * Proofs: taking calls back *)
From Coq Require Import List NArith Bool Arith Lia.
From Verif Require Import M_Base M_Data M_Mem M_Heed M_Duck S_Order S_Str S_Store S_Interp S_Frame S_Equiv S_Undo
  P_Ord P_Hist P_Agree P_Mem P_Heed P_HeedHist P_InterpStores P_Duck P_Conc P_Frame P_Equiv P_HeedMore.
Import ListNotations.
Open Scope list_scope.

Section Gen.
  Context {S : Type} (I : trips_impl S).
  Variables (s0 : S) (W : list op -> N) (B : N) (good : op -> Prop) (R : list op -> list op -> Prop).
  Hypothesis Wapp : forall a b, W (a ++ b) = (W a + W b)%N.
  Hypothesis Rrefl : forall h, R h h.
  Hypothesis Rtrans : forall a b c, R a b -> R b c -> R a c.
  Hypothesis One : forall h o u, (W (h ++ [o; u]) < B)%N -> good o -> undoable I (after I s0 h) o u ->
    fst (call_op I (after I s0 h) o) = Ok tt /\ fst (call_op I (after I s0 (h ++ [o])) u) = Ok tt /\ R (h ++ [o; u]) h.
  Hypothesis Step : forall h h' u, (W (h ++ [u]) < B)%N -> (W (h' ++ [u]) < B)%N -> R h' h ->
    fst (call_op I (after I s0 h) u) = Ok tt ->
    fst (call_op I (after I s0 h') u) = Ok tt /\ R (h' ++ [u]) (h ++ [u]).

  Lemma undo_gen h os us : undo_all I (after I s0 h) os us -> (W (h ++ os ++ us) < B)%N -> (forall o, In o os -> good o) ->
    (forall r, In r (answers_of I (after I s0 h) (os ++ us)) -> r = Ok tt) /\ R (h ++ os ++ us) h.
  Proof.
    remember (after I s0 h) as s eqn:Es. intros U. revert h Es.
    induction U as [s|s o u os us U1 U2 IH]; intros h -> HW HG.
    - split; [intros r []|]. cbn. rewrite app_nil_r. apply Rrefl.
    - rewrite !Wapp in HW. replace (W (o :: os)) with (W [o] + W os)%N in HW by (rewrite <- Wapp; reflexivity).
      destruct (One h o u) as (A1 & A2 & R1).
      + replace (h ++ [o; u]) with (h ++ [o] ++ [u]) by reflexivity. rewrite !Wapp. lia.
      + apply HG. left. reflexivity.
      + exact U1.
      + destruct (IH (h ++ [o])) as [B1 B2].
        * rewrite after_snoc. reflexivity.
        * rewrite !Wapp. lia.
        * intros p Hp. apply HG. right. exact Hp.
        * destruct (Step (h ++ [o]) ((h ++ [o]) ++ os ++ us) u) as [C1 C2].
          -- rewrite !Wapp. lia.
          -- rewrite !Wapp. lia.
          -- exact B2.
          -- exact A2.
          -- assert (E : h ++ (o :: os) ++ us ++ [u] = ((h ++ [o]) ++ os ++ us) ++ [u])
               by (rewrite <- !app_assoc; reflexivity).
             split.
             ++ intros r Hr. cbn [app answers_of] in Hr. destruct Hr as [<-|Hr]; [exact A1|].
                rewrite app_assoc, answers_of_snoc in Hr. apply in_app_or in Hr as [Hr|[<-|[]]].
                ** apply B1. exact Hr.
                ** rewrite after_app, after_snoc in C1. exact C1.
             ++ rewrite E. eapply Rtrans; [exact C2|]. rewrite <- snoc2. exact R1.
  Qed.
End Gen.

(** ** In memory *)
Lemma mem_undo_one h o u : undoable mem_impl (mm h) o u ->
  fst (call_op mem_impl (mm h) o) = Ok tt /\ fst (call_op mem_impl (mm (h ++ [o])) u) = Ok tt /\ meq (mm (h ++ [o; u])) (mm h).
Proof.
  intros U. rewrite snoc2. destruct U as [c Hn|c ts Hh Ht|c ts Hh Ht].
  - split; [reflexivity|]. split; [reflexivity|]. intros x. unfold mm in *. rewrite !after_snoc.
    rewrite get_rem_coll by (rewrite <- after_snoc; apply mem_inv_reach). rewrite get_add_coll. destruct (str_dec x c) as [->|]; [|reflexivity].
    rewrite mem_has in Hn. destruct (bm_get str_cmp c (after mem_impl mem_new h)) eqn:E; [|reflexivity]. destruct Hn. eauto.
  - apply mem_has in Hh as (l & El). assert (Sl : is_set trip_lt l) by (eapply (proj2 (mem_inv_reach h)); exact El).
    split; [|split].
    + cbn [call_op mem_impl t_add_triples]. unfold mem_add_triples. rewrite El. reflexivity.
    + unfold mm in *. rewrite after_snoc.
      pose proof (get_add (after mem_impl mem_new h) c ts c) as G. destruct (str_dec c c) as [_|N]; [|congruence].
 rewrite El in G. cbn [option_map] in G. revert G. generalize (snd (call_op mem_impl (after mem_impl mem_new h) (OAdd c ts))). intros z G. cbn [call_op mem_impl t_remove_triples]. unfold mem_remove_triples. rewrite G. reflexivity.
    + intros x. unfold mm in *. rewrite !after_snoc, get_rem, !get_add. destruct (str_dec c c) as [_|N]; [|congruence].
 destruct (str_dec x c) as [->|]; [|reflexivity]. rewrite El. cbn [option_map]. f_equal.
      apply (set_eq trip_order); [apply (is_set_remove_all trip_order), (is_set_append trip_order), Sl|exact Sl|].
      intros t. rewrite (in_remove_all trip_order) by (apply (is_set_append trip_order), Sl). rewrite (in_bs_append trip_order).
      split; [tauto|]. intros Hi. split; [left; exact Hi|]. intros Hi'. apply (Ht t Hi'). apply mem_holds. exists l. split; [exact El|exact Hi].
  - apply mem_has in Hh as (l & El). assert (Sl : is_set trip_lt l) by (eapply (proj2 (mem_inv_reach h)); exact El).
    split; [|split].
    + cbn [call_op mem_impl t_remove_triples]. unfold mem_remove_triples. rewrite El. reflexivity.
    + unfold mm in *. rewrite after_snoc.
      pose proof (get_rem (after mem_impl mem_new h) c ts c) as G. destruct (str_dec c c) as [_|N]; [|congruence].
 rewrite El in G. cbn [option_map] in G. revert G. generalize (snd (call_op mem_impl (after mem_impl mem_new h) (ORem c ts))). intros z G. cbn [call_op mem_impl t_add_triples]. unfold mem_add_triples. rewrite G. reflexivity.
    + intros x. unfold mm in *. rewrite !after_snoc, get_add, !get_rem. destruct (str_dec c c) as [_|N]; [|congruence].
 destruct (str_dec x c) as [->|]; [|reflexivity]. rewrite El. cbn [option_map]. f_equal.
      apply (set_eq trip_order); [apply (is_set_append trip_order), (is_set_remove_all trip_order), Sl|exact Sl|].
      intros t. rewrite (in_bs_append trip_order), (in_remove_all trip_order) by exact Sl.
      assert (K : In t ts -> In t l).
      { intros Hi. apply Ht in Hi. apply mem_holds in Hi as (l' & El' & Hi). rewrite El in El'. injection El' as <-. exact Hi. }
      destruct (in_dec trip_dec t ts) as [Hi|Hi]; tauto.
Qed.

Lemma mem_undo h os us : undo_all mem_impl (mm h) os us ->
  (forall r, In r (answers_of mem_impl (mm h) (os ++ us)) -> r = Ok tt) /\ meq (mm (h ++ os ++ us)) (mm h).
Proof.
  intros U. apply (undo_gen mem_impl mem_new (fun _ => 0%N) 1 (fun _ => True) (fun a b => meq (mm a) (mm b))); auto; try lia.
  - intros a c. reflexivity.
  - intros a b c H1 H2 x. rewrite (H1 x). apply H2.
  - intros a o u _ _ H. apply mem_undo_one, H.
  - intros a b u _ _ H E. destruct (meq_step b a u H) as [E1 E2]. split; [unfold mm in E1; rewrite E1; exact E|exact E2].
Qed.

(** ** DuckDB *)
Lemma dqe_refl h : dqe h h.
Proof. split; [reflexivity|]. intros c. split; [|intros t]; reflexivity. Qed.
Lemma dqe_trans a b c : dqe a b -> dqe b c -> dqe a c.
Proof. intros [H1 H2] [K1 K2]. split; [congruence|]. intros x. eapply dobs_trans; [apply H2|apply K2]. Qed.

Lemma duck_undo_one h o u : (dtotal (h ++ [o; u]) < 2 ^ 63)%N -> undoable duck_impl (dk h) o u ->
  fst (call_op duck_impl (dk h) o) = Ok tt /\ fst (call_op duck_impl (dk (h ++ [o])) u) = Ok tt /\ dqe (h ++ [o; u]) h.
Proof.
  intros W U. rewrite snoc2 in *.
  assert (W1 : (dtotal (h ++ [o]) < 2 ^ 63)%N) by (rewrite (dtotal_app (h ++ [o])) in W; lia).
  pose proof (duck_answers h o W1) as A1. cbn zeta in A1. change (dcall (dafter duck_new h) o) with (call_op duck_impl (dk h) o) in A1.
  change (dafter duck_new h) with (dk h) in A1.
  pose proof (duck_answers (h ++ [o]) u W) as A2. cbn zeta in A2. change (dcall (dafter duck_new (h ++ [o])) u) with (call_op duck_impl (dk (h ++ [o])) u) in A2.
  change (dafter duck_new (h ++ [o])) with (dk (h ++ [o])) in A2.
  pose proof (fun c => duck_effect h o c) as E1. cbn zeta in E1. fold (dk h) (dk (h ++ [o])) in E1.
  pose proof (fun c => duck_effect (h ++ [o]) u c) as E2. cbn zeta in E2. fold (dk (h ++ [o])) (dk ((h ++ [o]) ++ [u])) in E2.
  assert (O1 : fst (call_op duck_impl (dk h) o) = Ok tt) by (destruct U; apply A1; assumption).
  rewrite O1 in E1.
  assert (O2 : fst (call_op duck_impl (dk (h ++ [o])) u) = Ok tt).
  { destruct U as [c Hn|c ts Hh Ht|c ts Hh Ht]; apply A2.
    - intros t Hk. apply (E1 c) in Hk as [(ts & K & _)|[Hk _]]; [discriminate K|]. 
      pose proof (duck_holds (dk h) c t (dinv_reach h)) as D. apply D in Hk as (r & Hr & ci & f & s & e & _ & J1 & _). apply Hn. apply duck_has. exists ci. exact J1.
    - apply E1. right. split; [exact Hh|discriminate].
    - apply E1. right. split; [exact Hh|discriminate]. }
  rewrite O2 in E2. split; [exact O1|]. split; [exact O2|]. split.
  - cbn [duck_impl t_collections]. unfold duck_collections. f_equal.
    pose proof (duck_coll_step h o) as C1. pose proof (duck_coll_step (h ++ [o]) u) as C2. cbn zeta in C1, C2. rewrite O1 in C1. rewrite O2 in C2.
    destruct U as [c Hn|c ts Hh Ht|c ts Hh Ht]; try congruence. rewrite C2, C1.
    assert (E : forall x, str_eqb x c = true <-> x = c) by (intros x; destruct (str_eqb_spec x c); split; congruence).
    rewrite filter_app. cbn [filter]. rewrite (proj2 (E c) eq_refl). cbn [negb]. rewrite app_nil_r. apply filter_all.
    intros x Hx. destruct (str_eqb x c) eqn:Ex; [|reflexivity]. apply E in Ex as ->. destruct Hn. apply duck_has_in, Hx.
  - intros x. destruct (E1 x) as [H1 H2]. destruct (E2 x) as [K1 K2]. 
    destruct U as [c Hn|c ts Hh Ht|c ts Hh Ht].
    + split.
      * rewrite K1, H1. split; [intros [K|[[K|[K _]] N]]; [discriminate K|congruence|exact K]|].
        intros Hx. right. split; [right; split; [exact Hx|discriminate]|]. intros E. injection E as <-. contradiction.
      * intros t. rewrite K2, H2. split.
        -- intros [(ts & K & _)|[[(ts & K & _)|[K _]] _]]; [discriminate K|discriminate K|exact K].
        -- intros Hx. right. split; [right; split; [exact Hx|intros K; inversion K]|]. intros K. inversion K; subst. 
           apply (duck_holds (dk h) _ t (dinv_reach h)) in Hx as (r & Hr & ci & f & s & e & _ & J1 & _). apply Hn. apply duck_has. exists ci. exact J1.
    + split.
      * rewrite K1, H1. split; [intros [K|[[K|[K _]] N]]; [discriminate K|discriminate K|exact K]|].
        intros Hx. right. split; [right; split; [exact Hx|discriminate]|discriminate].
      * intros t. rewrite K2, H2. split.
        -- intros [(ts' & K & _)|[[(ts' & K & Hi & _)|[K _]] N]]; [discriminate K| |exact K]. injection K as -> <-. destruct N. constructor. exact Hi.
        -- intros Hx. right. split; [right; split; [exact Hx|intros K; inversion K]|]. intros K. inversion K; subst. eapply Ht; eassumption.
    + split.
      * rewrite K1, H1. split; [intros [K|[[K|[K _]] N]]; [discriminate K|discriminate K|exact K]|].
        intros Hx. right. split; [right; split; [exact Hx|discriminate]|discriminate].
      * intros t. rewrite K2, H2. split.
        -- intros [(ts' & K & Hi & _)|[[(ts' & K & Hi & _)|[K _]] N]]; [|discriminate K|exact K]. injection K as -> <-. apply Ht, Hi.
        -- intros Hx. destruct (in_dec trip_dec t ts) as [Hi|Hi].
           ++ destruct (list_eq_dec N.eq_dec c x) as [->|Nx]; [left; exists ts; split; [reflexivity|]; split; [exact Hi|]; apply H1; right; split; [exact Hh|discriminate]|].
              right. split; [right; split; [exact Hx|intros K; inversion K; congruence]|intros K; inversion K].
           ++ right. split; [right; split; [exact Hx|intros K; inversion K; contradiction]|intros K; inversion K].
Qed.

Lemma duck_undo h os us : undo_all duck_impl (dk h) os us -> (dtotal (h ++ os ++ us) < 2 ^ 63)%N ->
  (forall r, In r (answers_of duck_impl (dk h) (os ++ us)) -> r = Ok tt) /\ dqe (h ++ os ++ us) h.
Proof.
  intros U W. apply (undo_gen duck_impl duck_new dtotal (2 ^ 63) (fun _ => True) dqe); auto.
  - intros a b. apply dtotal_app.
  - apply dqe_refl.
  - apply dqe_trans.
  - intros a o u Wa _ H. apply duck_undo_one; assumption.
  - intros a b u Wa Wb H E. destruct (dqe_step b a u Wb Wa H) as [E1 E2]. split; [unfold dk in E1; rewrite E1; exact E|exact E2].
Qed.

(** ** LMDB *)
Definition hle (h' h : list op) : Prop := (forall c, obs c (lm h') (lm h)) /\ forall v, known h v -> known h' v.

Lemma heed_held h c t : holds heed_impl (lm h) c t -> forall v, part v t -> mentioned (acked heed_impl heed_new h) v.
Proof.
  intros Hh v Hv. pose proof (heed_simulates (sure h)) as SM. rewrite installed_sure, <- lm_f in SM.
  assert (I : inv (lm h)) by (rewrite lm_f; apply inv_reach).
  apply (sim_holds true _ _ c t I SM) in Hh. destruct Hh as (h1 & ts & h2 & E & Ht & _).
  exists c, ts. split; [rewrite E; apply in_or_app; right; left; reflexivity|]. exists t. split; assumption.
Qed.

Lemma known_mono h o v : known h v -> known (h ++ [o]) v.
Proof.
  unfold known. intros [H1 H2]. split; [exact H1|]. rewrite acked_snoc. destruct H2 as (c & ts & Hi & Hp).
  exists c, ts. split; [apply in_or_app; left; exact Hi|exact Hp].
Qed.

Lemma heed_missing_empty h c t : holds heed_impl (lm h) c t -> has heed_impl (lm h) c.
Proof.
  intros (l & E & _). destruct (heed_has_dec (sure h) c) as [Hc|Hc]; pose proof (heed_triples_missing (sure h) c) as HM; cbn zeta in HM;
    rewrite <- lm_f in *; [exact Hc|]. rewrite (proj2 HM Hc) in E. discriminate E.
Qed.

Lemma heed_undo_one h o u : (total_weight (h ++ [o; u]) < 2 ^ 64)%N -> storable_words o -> undoable heed_impl (lm h) o u ->
  fst (call_op heed_impl (lm h) o) = Ok tt /\ fst (call_op heed_impl (lm (h ++ [o])) u) = Ok tt
  /\ forall c, obs c (lm (h ++ [o; u])) (lm h).
Proof.
  intros W G U. rewrite snoc2 in *.
  assert (W1 : (total_weight (h ++ [o]) < 2 ^ 64)%N) by (rewrite (total_weight_app (h ++ [o])) in W; lia).
  pose proof (heed_ans h o W1) as A1. cbn zeta in A1.
  pose proof (heed_ans (h ++ [o]) u W) as A2. cbn zeta in A2.
  pose proof (fun c => heed_effect h o c) as E1. cbn zeta in E1.
  pose proof (fun c => heed_effect (h ++ [o]) u c) as E2. cbn zeta in E2.
  assert (O1 : fst (call_op heed_impl (lm h) o) = Ok tt).
  { destruct U as [c Hn|c ts Hh Ht|c ts Hh Ht]; apply A1; try assumption. split; [exact Hh|].
    intros v (t & Hi & Hv). split; [apply G; exists t; split; assumption|]. eapply heed_held; [apply Ht, Hi|exact Hv]. }
  rewrite O1 in E1.
  assert (O2 : fst (call_op heed_impl (lm (h ++ [o])) u) = Ok tt).
  { destruct U as [c Hn|c ts Hh Ht|c ts Hh Ht]; apply A2.
    - apply E1. left. split; [reflexivity|exact G].
    - split; [apply E1; right; split; [exact Hh|discriminate]|]. intros v Hv. split; [apply G, Hv|].
      rewrite acked_snoc. change (after heed_impl heed_new h) with (lm h). rewrite O1. apply mentioned_snoc. right. eauto.
    - apply E1. right. split; [exact Hh|discriminate]. }
  rewrite O2 in E2. split; [exact O1|]. split; [exact O2|].
  intros x. destruct (E1 x) as [H1 H2]. destruct (E2 x) as [K1 K2].
  destruct U as [c Hn|c ts Hh Ht|c ts Hh Ht].
  - split.
    + rewrite K1, H1. split; [intros [[K _]|[[[K _]|[K _]] N]]; [discriminate K|congruence|exact K]|].
      intros Hx. right. split; [right; split; [exact Hx|discriminate]|]. intros E. injection E as <-. contradiction.
    + intros t. rewrite K2, H2. split.
      * intros [(ts & K & _)|[[(ts & K & _)|[K _]] _]]; [discriminate K|discriminate K|exact K].
      * intros Hx. right. split; [right; split; [exact Hx|intros K; inversion K]|]. intros K. inversion K; subst. apply Hn. eapply heed_missing_empty, Hx.
  - split.
    + rewrite K1, H1. split; [intros [[K _]|[[[K _]|[K _]] N]]; [discriminate K|discriminate K|exact K]|].
      intros Hx. right. split; [right; split; [exact Hx|discriminate]|discriminate].
    + intros t. rewrite K2, H2. split.
      * intros [(ts' & K & _)|[[(ts' & K & Hi)|[K _]] N]]; [discriminate K| |exact K]. injection K as -> <-. destruct N. constructor. exact Hi.
      * intros Hx. right. split; [right; split; [exact Hx|intros K; inversion K]|]. intros K. inversion K; subst. eapply Ht; eassumption.
  - split.
    + rewrite K1, H1. split; [intros [[K _]|[[[K _]|[K _]] N]]; [discriminate K|discriminate K|exact K]|].
      intros Hx. right. split; [right; split; [exact Hx|discriminate]|discriminate].
    + intros t. rewrite K2, H2. split.
      * intros [(ts' & K & Hi)|[[(ts' & K & Hi)|[K _]] N]]; [|discriminate K|exact K]. injection K as -> <-. apply Ht, Hi.
      * intros Hx. destruct (in_dec trip_dec t ts) as [Hi|Hi].
        -- destruct (list_eq_dec N.eq_dec c x) as [->|Nx]; [left; exists ts; split; [reflexivity|exact Hi]|].
           right. split; [right; split; [exact Hx|intros K; inversion K; congruence]|intros K; inversion K].
        -- right. split; [right; split; [exact Hx|intros K; inversion K; contradiction]|intros K; inversion K].
Qed.

Lemma hle_step h h' u : (total_weight (h ++ [u]) < 2 ^ 64)%N -> (total_weight (h' ++ [u]) < 2 ^ 64)%N -> hle h' h ->
  fst (call_op heed_impl (lm h) u) = Ok tt ->
  fst (call_op heed_impl (lm h') u) = Ok tt /\ hle (h' ++ [u]) (h ++ [u]).
Proof.
  intros W W' [HO HK] E.
  pose proof (heed_ans h u W) as A. cbn zeta in A. pose proof (heed_ans h' u W') as A'. cbn zeta in A'.
  assert (E' : fst (call_op heed_impl (lm h') u) = Ok tt).
  { destruct u as [c|c|c ts|c ts].
    - exact A'.
    - apply A', (HO c). destruct (heed_has_dec (sure h) c) as [Hc|Hc]; rewrite <- lm_f in Hc; [exact Hc|]. rewrite (proj2 A Hc) in E. discriminate E.
    - apply A', (HO c). destruct (heed_has_dec (sure h) c) as [Hc|Hc]; rewrite <- lm_f in Hc; [exact Hc|]. rewrite (proj2 A Hc) in E. discriminate E.
    - destruct (two_ways _ _ (proj1 A') (proj2 A')) as [[E' _]|[_ N]]; [exact E'|]. exfalso.
      destruct (two_ways _ _ (proj1 A) (proj2 A)) as [[_ NN]|[E2 _]]; [|congruence]. apply NN. intros [H1 H2]. apply N.
      split; [apply (HO c), H1|]. intros v Hv. apply HK, H2, Hv. }
  split; [exact E'|]. split.
  - intros x. destruct (HO x) as [O1 O2]. pose proof (heed_effect h u x) as HE. pose proof (heed_effect h' u x) as HE'. cbn zeta in HE, HE'.
    rewrite E in HE. rewrite E' in HE'. destruct HE as [H1 H2]. destruct HE' as [H1' H2']. split.
    + rewrite H1', H1, O1. reflexivity.
    + intros t. rewrite H2', H2, O2. reflexivity.
  - intros v. unfold known in *. rewrite !acked_snoc. change (after heed_impl heed_new h) with (lm h). change (after heed_impl heed_new h') with (lm h').
    rewrite E, E'. rewrite !mentioned_snoc. intros [Hs [Hm|Hm]]; (split; [exact Hs|]); [left; apply HK; split; assumption|right; exact Hm].
Qed.

Lemma known_mono2 h o u v : known h v -> known (h ++ [o; u]) v.
Proof. intros H. rewrite snoc2. apply known_mono, known_mono, H. Qed.

Lemma heed_undo h os us : undo_all heed_impl (lm h) os us -> (total_weight (h ++ os ++ us) < 2 ^ 64)%N -> (forall o, In o os -> storable_words o) ->
  (forall r, In r (answers_of heed_impl (lm h) (os ++ us)) -> r = Ok tt) /\ hle (h ++ os ++ us) h.
Proof.
  intros U W G. apply (undo_gen heed_impl heed_new total_weight (2 ^ 64) storable_words hle); auto.
  - intros a b. apply total_weight_app.
  - intros a. split; [intros c; apply obs_refl|auto].
  - intros a b c [H1 H2] [K1 K2]. split; [intros x; eapply obs_trans; [apply H1|apply K1]|auto].
  - intros a o u Wa Ga H. destruct (heed_undo_one a o u Wa Ga H) as (E1 & E2 & E3). split; [exact E1|]. split; [exact E2|].
    split; [exact E3|]. intros v. apply known_mono2.
  - intros a b u Wa Wb H E. apply hle_step; assumption.
Qed.

(** The words known afterwards are those known before and those of the calls. *)
Lemma known_app h g v : known (h ++ g) v -> known h v \/ mentioned g v.
Proof.
  induction g as [|o g IH] using rev_ind; [rewrite app_nil_r; auto|]. rewrite app_assoc. unfold known. rewrite acked_snoc.
  intros [Hs Hm]. destruct (fst _); [|rewrite app_nil_r in Hm..].
  - apply mentioned_snoc in Hm as [Hm|Hm]; [|right; apply mentioned_snoc; right; exact Hm].
    destruct (IH (conj Hs Hm)) as [K|K]; [left; exact K|right; apply mentioned_snoc; left; exact K].
  - destruct (IH (conj Hs Hm)) as [K|K]; [left; exact K|right; apply mentioned_snoc; left; exact K].
  - destruct (IH (conj Hs Hm)) as [K|K]; [left; exact K|right; apply mentioned_snoc; left; exact K].
Qed.

Lemma undo_words h os us v : undo_all heed_impl (lm h) os us -> (forall o, In o os -> storable_words o) ->
  mentioned us v -> known h v \/ mentioned os v.
Proof.
  remember (lm h) as s eqn:Es. intros U. revert h Es.
  induction U as [s|s o u os us U1 U2 IH]; intros h -> G M; [right; exact M|].
  apply mentioned_snoc in M as [M|(c & ts & -> & Hp)].
  - destruct (IH (h ++ [o])) as [K|K].
    + symmetry. apply lm_snoc.
    + intros p Hp. apply G. right. exact Hp.
    + exact M.
    + destruct (known_app h [o] v K) as [K'|(c & ts & [->|[]] & Hp)]; [left; exact K'|]. right. exists c, ts. split; [left; reflexivity|exact Hp].
    + destruct K as (c & ts & Hi & Hp). right. exists c, ts. split; [right; exact Hi|exact Hp].
  - left. remember (OAdd c ts) as u eqn:Eu. destruct U1 as [| |c' ts' Hh Ht]; try discriminate Eu. injection Eu as -> ->.
    split; [apply (G (ORem c ts) (or_introl eq_refl) v Hp)|]. destruct Hp as (t & Hi & Hv). eapply heed_held; [apply Ht, Hi|exact Hv].
Qed.
