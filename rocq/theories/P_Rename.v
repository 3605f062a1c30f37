(** * Proofs: renaming *)
From Coq Require Import List Arith NArith Bool String Lia.
From Verif Require Import M_Base M_Data M_Mem M_Heed M_Duck S_Order S_Str S_Store S_Equiv S_Rename
  P_Ord P_Hist P_Mem P_Heed P_HeedHist P_Duck P_InterpStores P_Conc P_Frame P_Equiv.
Import ListNotations.
Open Scope list_scope.

Section Rename.
  Context (f : str -> str) (Hf : injective f).
  Notation rt := (ren_trip f).
  Notation ro := (ren_op f).
  Notation rh := (map (ren_op f)).

  Lemma rt_inj a b : rt a = rt b -> a = b.
  Proof. destruct a, b. unfold ren_trip. cbn. intros E. injection E as E1 E2 E3. apply Hf in E1, E2, E3. subst. reflexivity. Qed.

  Lemma in_rt t ts : In (rt t) (map rt ts) <-> In t ts.
  Proof.
    rewrite in_map_iff. split; [intros (x & E & H); apply rt_inj in E; subst; exact H|eauto].
  Qed.

  Lemma part_rt v t : part (f v) (rt t) <-> part v t.
  Proof.
    unfold part, ren_trip. cbn. split; (intros [H|[H|H]]; [left|right; left|right; right]); try (apply Hf in H; exact H); f_equal; exact H.
  Qed.

  Lemma part_rt_inv x t : part x (rt t) -> exists v, x = f v /\ part v t.
  Proof.
    unfold part, ren_trip. cbn. intros [->|[->| ->]]; eauto.
  Qed.

  Lemma part_of_rt v ts : part_of (f v) (map rt ts) <-> part_of v ts.
  Proof.
    unfold part_of. split.
    - intros (u & Hu & Hp). apply in_map_iff in Hu as (t & <- & Ht). exists t. split; [exact Ht|apply part_rt, Hp].
    - intros (t & Ht & Hp). exists (rt t). split; [apply in_rt, Ht|apply part_rt, Hp].
  Qed.

  Lemma part_of_rt_inv x ts : part_of x (map rt ts) -> exists v, x = f v /\ part_of v ts.
  Proof.
    intros (u & Hu & Hp). apply in_map_iff in Hu as (t & <- & Ht). apply part_rt_inv in Hp as (v & -> & Hp). exists v. split; [reflexivity|exists t; auto].
  Qed.

  Lemma ro_addcoll o x : ro o = OAddColl x <-> exists c, x = f c /\ o = OAddColl c.
  Proof. destruct o; cbn; split; try discriminate; try (intros (? & _ & ?); discriminate); [intros E; injection E as <-; eauto|intros (c' & -> & E); injection E as <-; reflexivity]. Qed.
  Lemma ro_remcoll o x : ro o = ORemColl x <-> exists c, x = f c /\ o = ORemColl c.
  Proof. destruct o; cbn; split; try discriminate; try (intros (? & _ & ?); discriminate); [intros E; injection E as <-; eauto|intros (c' & -> & E); injection E as <-; reflexivity]. Qed.

  Lemma live_ren h x : live (rh h) x <-> exists c, x = f c /\ live h c.
  Proof.
    induction h as [|o h IH] using rev_ind.
    - split; [intros (h1 & h2 & E & _); destruct h1; discriminate|intros (c & _ & h1 & h2 & E & _); destruct h1; discriminate].
    - rewrite map_app. cbn [map]. rewrite live_snoc, IH, ro_addcoll, ro_remcoll. split.
      + intros [(c & -> & ->)|((c & -> & Hc) & Hn)]; exists c; (split; [reflexivity|]); apply live_snoc; [left; reflexivity|].
        right. split; [exact Hc|]. intros ->. apply Hn. eauto.
      + intros (c & -> & Hc). apply live_snoc in Hc as [->|[Hc Hn]]; [left; eauto|]. right. split; [eauto|].
        intros (c' & E & ->). apply Hf in E. subst c'. apply Hn. reflexivity.
  Qed.

  Lemma live_rh h c : live (rh h) (f c) <-> live h c.
  Proof. rewrite live_ren. split; [intros (c' & E & H); apply Hf in E; subst; exact H|eauto]. Qed.

  Lemma removes_ren c t o : removes (f c) (rt t) (ro o) <-> removes c t o.
  Proof.
    split.
    - destruct o; cbn; intros H; inversion H; subst.
      + match goal with E : f _ = f _ |- _ => apply Hf in E; subst end. constructor.
      + match goal with E : f _ = f _ |- _ => apply Hf in E; subst end. constructor. apply in_rt. assumption.
    - intros []; cbn; constructor. apply in_rt. assumption.
  Qed.

  Lemma clears_ren c t o : clears (f c) (rt t) (ro o) <-> clears c t o.
  Proof.
    split.
    - destruct o; cbn; intros H; inversion H; subst.
      + match goal with E : f _ = f _ |- _ => apply Hf in E; subst end. constructor.
      + match goal with E : f _ = f _ |- _ => apply Hf in E; subst end. constructor.
      + match goal with E : f _ = f _ |- _ => apply Hf in E; subst end. constructor. apply in_rt. assumption.
    - intros []; cbn; constructor. apply in_rt. assumption.
  Qed.

  Lemma added_ren (k : str -> trip -> op -> Prop) (Hk : forall c t o, k (f c) (rt t) (ro o) <-> k c t o) h x u :
    added (k x u) (rh h) x u <-> exists c t, x = f c /\ u = rt t /\ added (k c t) h c t.
  Proof.
    induction h as [|o h IH] using rev_ind.
    - split; [intros (h1 & ts & h2 & E & _); destruct h1; discriminate|intros (c & t & _ & _ & h1 & ts & h2 & E & _); destruct h1; discriminate].
    - rewrite map_app. cbn [map]. rewrite added_snoc, IH. split.
      + intros [(ts & E & Ht & Hl)|((c & t & -> & -> & Ha) & Hn)].
        * destruct o as [| |c ts0|]; try discriminate E. cbn in E. injection E as <- <-. apply in_map_iff in Ht as (t & <- & Ht).
          exists c, t. split; [reflexivity|]. split; [reflexivity|]. apply added_snoc. left. exists ts0. split; [reflexivity|]. split; [exact Ht|]. apply live_rh, Hl.
        * exists c, t. split; [reflexivity|]. split; [reflexivity|]. apply added_snoc. right. split; [exact Ha|]. rewrite <- Hk. exact Hn.
      + intros (c & t & -> & -> & Ha). apply added_snoc in Ha as [(ts & -> & Ht & Hl)|[Ha Hn]].
        * left. exists (map rt ts). split; [reflexivity|]. split; [apply in_rt, Ht|]. apply live_rh, Hl.
        * right. split; [eauto|]. rewrite Hk. exact Hn.
  Qed.

  Lemma holds_ren h x u : holds_after (rh h) x u <-> exists c t, x = f c /\ u = rt t /\ holds_after h c t.
  Proof. apply (added_ren removes removes_ren). Qed.

  Lemma mem_holds_ren h x u : mem_holds_after (rh h) x u <-> exists c t, x = f c /\ u = rt t /\ mem_holds_after h c t.
  Proof. apply (added_ren clears clears_ren). Qed.

  Lemma mentioned_ren h v : mentioned (rh h) (f v) <-> mentioned h v.
  Proof.
    unfold mentioned. split.
    - intros (c & ts & Hi & Hp). apply in_map_iff in Hi as (o & E & Ho). destruct o as [| |c' ts'|]; try discriminate E.
      cbn in E. injection E as <- <-. exists c', ts'. split; [exact Ho|apply part_of_rt, Hp].
    - intros (c & ts & Hi & Hp). exists (f c), (map rt ts). split; [apply (in_map ro _ _ Hi)|apply part_of_rt, Hp].
  Qed.

  Lemma weight_ren h : total_weight (rh h) = total_weight h.
  Proof. induction h as [|o h IH]; [reflexivity|]. cbn [map total_weight fold_right]. fold (total_weight (rh h)) (total_weight h). rewrite IH. f_equal. destruct o; cbn; rewrite ?map_length; reflexivity. Qed.

  Lemma dtotal_ren h : dtotal (rh h) = dtotal h.
  Proof. induction h as [|o h IH]; [reflexivity|]. cbn [map dtotal fold_right]. fold (dtotal (rh h)) (dtotal h). rewrite IH. f_equal. destruct o; cbn; rewrite ?map_length; reflexivity. Qed.

  (** ** In memory *)
  Lemma mem_ren_store h : ren_store mem_impl f (after mem_impl mem_new h) (after mem_impl mem_new (rh h)).
  Proof.
    assert (HH : forall k c, has mem_impl (after mem_impl mem_new k) c <-> live k c).
    { intros k c. rewrite mem_has. pose proof (mem_history_get k c) as M. destruct (get c (after mem_impl mem_new k)) as [l|].
      - split; [intros _; apply M|eauto].
      - split; [intros (l & E); discriminate|intros L; destruct (M L)]. }
    assert (HR : forall k c, readable mem_impl (after mem_impl mem_new k) c <-> live k c).
    { intros k c. destruct (mem_history k c) as [A B]. split.
      - intros (l & E). rewrite <- HH. rewrite mem_has. cbn in E. unfold mem_triples in E. fold (get c (after mem_impl mem_new k)) in E.
        destruct (get c (after mem_impl mem_new k)); [eauto|discriminate].
      - intros L. destruct (A L) as (l & E & _). exists l. exact E. }
    assert (HO : forall k c t, holds mem_impl (after mem_impl mem_new k) c t <-> mem_holds_after k c t).
    { intros k c t. split.
      - intros (l & E & Hi). assert (L : live k c) by (apply HR; exists l; exact E).
        destruct (proj1 (mem_history k c) L) as (l' & E' & _ & HL). rewrite E in E'. injection E' as <-. apply HL, Hi.
      - intros Ha. assert (L : live k c) by (eapply added_live; [|exact Ha]; constructor).
        destruct (proj1 (mem_history k c) L) as (l' & E' & _ & HL). exists l'. split; [exact E'|apply HL, Ha]. }
    split; [|split].
    - intros x. rewrite HH, live_ren. split; intros (c & E & H); exists c; (split; [exact E|apply HH, H]).
    - intros x u. rewrite HO, mem_holds_ren. split; intros (c & t & E & E2 & H); exists c, t; (split; [exact E|split; [exact E2|apply HO, H]]).
    - intros c. rewrite !HR. apply live_rh.
  Qed.

  Lemma mem_ren_step h o : same_kind (fst (call_op mem_impl (after mem_impl mem_new h) o)) (fst (call_op mem_impl (after mem_impl mem_new (rh h)) (ro o))).
  Proof.
    assert (HG : forall c, (exists l, get c (after mem_impl mem_new h) = Some l) <-> (exists l, get (f c) (after mem_impl mem_new (rh h)) = Some l)).
    { intros c. rewrite <- !mem_has. destruct (mem_ren_store h) as [A _]. rewrite A. split; [eauto|intros (c' & E & H); apply Hf in E; subst; exact H]. }
    destruct o as [c|c|c ts|c ts]; cbn [call_op ren_op mem_impl t_add_collection t_remove_collection t_add_triples t_remove_triples]; try (cbn; constructor).
    - unfold mem_add_triples. fold (get c (after mem_impl mem_new h)) (get (f c) (after mem_impl mem_new (rh h))). specialize (HG c).
      destruct (get c (after mem_impl mem_new h)), (get (f c) (after mem_impl mem_new (rh h))); cbn; try constructor.
      + destruct (proj1 HG ltac:(eauto)). discriminate.
      + destruct (proj2 HG ltac:(eauto)). discriminate.
    - unfold mem_remove_triples. fold (get c (after mem_impl mem_new h)) (get (f c) (after mem_impl mem_new (rh h))). specialize (HG c).
      destruct (get c (after mem_impl mem_new h)), (get (f c) (after mem_impl mem_new (rh h))); cbn; try constructor.
      + destruct (proj1 HG ltac:(eauto)). discriminate.
      + destruct (proj2 HG ltac:(eauto)). discriminate.
  Qed.

  Lemma ren_answers {S} (I : trips_impl S) s0 h :
    (forall h1 o h2, h = h1 ++ o :: h2 -> same_kind (fst (call_op I (after I s0 h1) o)) (fst (call_op I (after I s0 (rh h1)) (ro o)))) ->
    Forall2 same_kind (answers_of I s0 h) (answers_of I s0 (rh h)).
  Proof.
    induction h as [|o h IH] using rev_ind; intros H; [constructor|]. rewrite map_app. cbn [map]. rewrite !answers_of_snoc.
    apply Forall2_app; [|constructor; [apply (H h o []); reflexivity|constructor]].
    apply IH. intros h1 o1 h2 ->. apply (H h1 o1 (h2 ++ [o])). rewrite <- app_assoc. reflexivity.
  Qed.

  (** ** LMDB *)
  Definition fits (h : list op) : Prop := forall o v, In o h -> op_name o v -> (storable v <-> storable (f v)).

  Lemma acked_in {S} (I : trips_impl S) s0 h o : In o (acked I s0 h) -> In o h.
  Proof.
    revert s0. induction h as [|o' h IH]; intros s0 H; [destruct H|]. cbn in H. destruct (call_op I s0 o') as [[|e|w] s']; [destruct H as [H|H]; [left; exact H|]|..]; right; eapply IH; exact H.
  Qed.

  Lemma live_in h c : live h c -> In (OAddColl c) h.
  Proof. intros (h1 & h2 & -> & _). apply in_or_app. right. left. reflexivity. Qed.

  Definition heed_sync (h : list op) : Prop := acked heed_impl heed_new (rh h) = rh (acked heed_impl heed_new h).

  Lemma heed_ren_has h c : fits h -> heed_sync h -> has heed_impl (lm (rh h)) (f c) <-> has heed_impl (lm h) c.
  Proof.
    intros F E. pose proof (heed_simulates (sure h)) as SM. pose proof (heed_simulates (sure (rh h))) as SM'.
    rewrite installed_sure in SM, SM'. rewrite <- lm_f in SM, SM'. rewrite E in SM'.
    rewrite (sim_has true _ _ _ SM), (sim_has true _ _ _ SM'), live_rh. split; intros [A B]; (split; [|exact B]);
      apply live_in in B; apply acked_in in B; apply (F _ c B eq_refl); exact A.
  Qed.

  Lemma fits_app a b : fits (a ++ b) -> fits a.
  Proof. intros F o v Ho. apply F, in_or_app. left. exact Ho. Qed.

  Lemma heed_ren_step h o : fits (h ++ [o]) -> (total_weight (h ++ [o]) < 2 ^ 64)%N -> heed_sync h ->
    fst (call_op heed_impl (lm h) o) = fst (call_op heed_impl (lm (rh h)) (ro o)).
  Proof.
    intros F W E. pose proof (heed_answers (sure h) o true) as HA. cbn zeta in HA. rewrite map_fst_sure in HA. specialize (HA W).
    pose proof (heed_answers (sure (rh h)) (ro o) true) as HB. cbn zeta in HB. rewrite map_fst_sure in HB.
    assert (W' : (total_weight (rh h ++ [ro o]) < 2 ^ 64)%N) by (change (rh h ++ [ro o]) with (rh h ++ rh [o]); rewrite <- map_app, weight_ren; exact W).
    specialize (HB W'). rewrite installed_sure in HA, HB. rewrite <- lm_f in HA, HB. rewrite E in HB.
    change (hcall true) with (call_op heed_impl) in HA, HB.
    assert (Dec : forall c, has heed_impl (lm h) c \/ ~ has heed_impl (lm h) c) by (intros c; rewrite lm_f; apply heed_has_dec).
    pose proof (fun c => heed_ren_has h c (fits_app _ _ F) E) as HH.
    destruct o as [c|c|c ts|c ts]; cbn [ren_op] in *.
    - rewrite HA, HB. reflexivity.
    - destruct (Dec c) as [D|D]; [rewrite (proj1 HA D), (proj1 HB (proj2 (HH c) D))|rewrite (proj2 HA D), (proj2 HB (fun X => D (proj1 (HH c) X)))]; reflexivity.
    - destruct (Dec c) as [D|D]; [rewrite (proj1 HA D), (proj1 HB (proj2 (HH c) D))|rewrite (proj2 HA D), (proj2 HB (fun X => D (proj1 (HH c) X)))]; reflexivity.
    - set (H := acked heed_impl heed_new h) in *.
      assert (Q : (has heed_impl (lm h) c /\ (forall v, part_of v ts -> storable v /\ mentioned H v))
                  <-> (has heed_impl (lm (rh h)) (f c) /\ (forall v, part_of v (map rt ts) -> storable v /\ mentioned (rh H) v))).
      { rewrite HH. split; intros [A B]; (split; [exact A|]).
        - intros x Hx. apply part_of_rt_inv in Hx as (v & -> & Hv). destruct (B v Hv) as [B1 B2]. split; [|apply mentioned_ren, B2].
          apply (F (ORem c ts) v); [apply in_or_app; right; left; reflexivity|right; exact Hv|exact B1].
        - intros v Hv. destruct (B (f v)) as [B1 B2]; [apply part_of_rt, Hv|]. split; [|apply mentioned_ren, B2].
          apply (F (ORem c ts) v); [apply in_or_app; right; left; reflexivity|right; exact Hv|exact B1]. }
      assert (Dq : (has heed_impl (lm h) c /\ (forall v, part_of v ts -> storable v /\ mentioned H v)) \/ ~ (has heed_impl (lm h) c /\ (forall v, part_of v ts -> storable v /\ mentioned H v))).
      { pose proof (heed_simulates (sure h)) as SM. rewrite installed_sure in SM. rewrite <- lm_f in SM. fold H in SM.
        rewrite <- (sim_known _ H ts SM). destruct (Dec c) as [D|D]; [|right; intros [X _]; exact (D X)].
        destruct (all_known_dec (lm h) ts) as [K|K]; [left; split; assumption|right; intros [_ X]; exact (K X)]. }
      destruct Dq as [D|D]; [rewrite (proj1 HA D), (proj1 HB (proj1 Q D))|rewrite (proj2 HA D), (proj2 HB (fun X => D (proj2 Q X)))]; reflexivity.
  Qed.

  Lemma heed_sync_reach h : fits h -> (total_weight h < 2 ^ 64)%N -> heed_sync h.
  Proof.
    induction h as [|o h IH] using rev_ind; intros F W; [reflexivity|].
    assert (W1 : (total_weight h < 2 ^ 64)%N) by (rewrite total_weight_app in W; lia).
    specialize (IH (fits_app _ _ F) W1). unfold heed_sync. rewrite map_app. cbn [map]. rewrite !acked_snoc, map_app, IH. f_equal.
    fold (lm h) (lm (rh h)). rewrite <- (heed_ren_step h o F W IH). destruct (fst (call_op heed_impl (lm h) o)); reflexivity.
  Qed.

  Lemma heed_ren_store h : fits h -> (total_weight h < 2 ^ 64)%N -> ren_store heed_impl f (lm h) (lm (rh h)).
  Proof.
    intros F W. pose proof (heed_sync_reach h F W) as E. unfold heed_sync in E.
    pose proof (heed_simulates (sure h)) as SM. pose proof (heed_simulates (sure (rh h))) as SM'.
    rewrite installed_sure in SM, SM'. rewrite <- lm_f in SM, SM'. rewrite E in SM'.
    assert (I1 : inv (lm h)) by (rewrite lm_f; apply inv_reach). assert (I2 : inv (lm (rh h))) by (rewrite lm_f; apply inv_reach).
    pose proof (heed_history (sure h)) as (_ & R1 & R2). pose proof (heed_history (sure (rh h))) as (_ & R1' & R2').
    rewrite installed_sure in R1, R1', R2, R2'. rewrite <- lm_f in R1, R1', R2, R2'. rewrite E in R1', R2'.
    assert (HR : forall c, readable heed_impl (lm h) c <-> has heed_impl (lm h) c).
    { intros c. split.
      - intros (l & El). destruct (heed_has_dec (sure h) c) as [D|D]; rewrite <- lm_f in D; [exact D|]. exfalso.
        rewrite (sim_has true _ _ _ SM) in D. destruct (R2 c D) as (w & Ew). congruence.
      - intros Hc. apply (sim_has true _ _ _ SM) in Hc. destruct (R1 c (proj1 Hc) (proj2 Hc)) as (l & El & _). exists l. exact El. }
    assert (HR' : forall c, readable heed_impl (lm (rh h)) c <-> has heed_impl (lm (rh h)) c).
    { intros c. split.
      - intros (l & El). destruct (heed_has_dec (sure (rh h)) c) as [D|D]; rewrite <- lm_f in D; [exact D|]. exfalso.
        rewrite (sim_has true _ _ _ SM') in D. destruct (R2' c D) as (w & Ew). congruence.
      - intros Hc. apply (sim_has true _ _ _ SM') in Hc. destruct (R1' c (proj1 Hc) (proj2 Hc)) as (l & El & _). exists l. exact El. }
    split; [|split].
    - intros x. split.
      + intros Hx. pose proof Hx as Hx'. apply (sim_has true _ _ _ SM') in Hx' as [_ L]. apply live_ren in L as (c & -> & _).
        exists c. split; [reflexivity|]. exact (proj1 (heed_ren_has h c F E) Hx).
      + intros (c & -> & Hc). exact (proj2 (heed_ren_has h c F E) Hc).
    - intros x u. rewrite (sim_holds true _ _ x u I2 SM'), holds_ren. split; intros (c & t & A & B & C); exists c, t;
        (split; [exact A|split; [exact B|apply (sim_holds true _ _ c t I1 SM), C]]).
    - intros c. rewrite HR, HR'. exact (heed_ren_has h c F E).
  Qed.

  (** ** DuckDB *)
  Lemma duck_ren_store_of h : acked duck_impl duck_new (rh h) = rh (acked duck_impl duck_new h) ->
    ren_store duck_impl f (after duck_impl duck_new h) (after duck_impl duck_new (rh h)).
  Proof.
    intros E.
    assert (HH : forall g x, has duck_impl (after duck_impl duck_new g) x <-> live (acked duck_impl duck_new g) x).
    { intros g x. destruct (proj1 (duck_history g)) as (l & El & _ & Hl). rewrite <- Hl. unfold has. split; [intros (l' & E' & Hi); rewrite El in E'; injection E' as <-; exact Hi|eauto]. }
    assert (HL : forall g x t, holds duck_impl (after duck_impl duck_new g) x t <-> holds_after (acked duck_impl duck_new g) x t).
    { intros g x t. destruct (proj2 (duck_history g) x) as (l & El & _ & Hl). rewrite <- Hl. unfold holds. split; [intros (l' & E' & Hi); rewrite El in E'; injection E' as <-; exact Hi|eauto]. }
    split; [|split].
    - intros x. rewrite HH, E, live_ren. split; intros (c & A & B); exists c; (split; [exact A|apply HH, B]).
    - intros x u. rewrite HL, E, holds_ren. split; intros (c & t & A & B & C); exists c, t; (split; [exact A|split; [exact B|apply HL, C]]).
    - intros c. destruct (proj2 (duck_history h) c) as (l & El & _). destruct (proj2 (duck_history (rh h)) (f c)) as (l' & El' & _).
      split; intros _; [exists l; exact El|exists l'; exact El'].
  Qed.

  Lemma duck_ren_step h o : (dtotal (h ++ [o]) < 2 ^ 63)%N -> acked duck_impl duck_new (rh h) = rh (acked duck_impl duck_new h) ->
    same_kind (fst (call_op duck_impl (after duck_impl duck_new h) o)) (fst (call_op duck_impl (after duck_impl duck_new (rh h)) (ro o))).
  Proof.
    intros W E. destruct (duck_ren_store_of h E) as (A & B & _).
    pose proof (duck_answers h o W) as HA. cbn zeta in HA.
    assert (W' : (dtotal (rh h ++ [ro o]) < 2 ^ 63)%N) by (change (rh h ++ [ro o]) with (rh h ++ rh [o]); rewrite <- map_app, dtotal_ren; exact W).
    pose proof (duck_answers (rh h) (ro o) W') as HB. cbn zeta in HB.
    change dcall with (call_op duck_impl) in HA, HB. change (dafter duck_new) with (after duck_impl duck_new) in HA, HB.
    set (d := after duck_impl duck_new h) in *. set (e := after duck_impl duck_new (rh h)) in *.
    assert (Hd : forall c, has duck_impl d c \/ ~ has duck_impl d c).
    { intros c. rewrite duck_has. destruct (dcoll_dec d c) as [X|X]; [left|right]; exact X. }
    assert (HH : forall c, has duck_impl e (f c) <-> has duck_impl d c).
    { intros c. rewrite A. split; [intros (c' & Ec & H); apply Hf in Ec; subst; exact H|eauto]. }
    destruct o as [c|c|c ts|c ts]; cbn [ren_op] in *.
    - destruct (Hd c) as [D|D]; [rewrite (proj2 HA D), (proj2 HB (proj2 (HH c) D))|rewrite (proj1 HA D), (proj1 HB (fun X => D (proj1 (HH c) X)))]; constructor.
    - destruct (proj2 (duck_history h) c) as ([|t l] & El & _ & _).
      + assert (N1 : forall t, ~ holds duck_impl d c t).
        { intros t (l' & E' & Hi). unfold d in E'. change (after duck_impl duck_new) with (dafter duck_new) in E'. rewrite El in E'. injection E' as <-. destruct Hi. }
        rewrite (proj1 HA N1), (proj1 HB); [constructor|]. intros u Hu. apply B in Hu as (c' & t & Ec & _ & Ht). apply Hf in Ec. subst c'. exact (N1 t Ht).
      + assert (N1 : holds duck_impl d c t) by (exists (t :: l); split; [exact El|left; reflexivity]).
        rewrite (proj2 HA (ex_intro _ t N1)), (proj2 HB); [constructor|]. exists (rt t). apply B. eauto.
    - destruct (Hd c) as [D|D]; [rewrite (proj1 HA D), (proj1 HB (proj2 (HH c) D)); constructor|].
      destruct (proj2 HA D) as (e1 & ->). destruct (proj2 HB (fun X => D (proj1 (HH c) X))) as (e2 & ->). constructor.
    - destruct (Hd c) as [D|D]; [rewrite (proj1 HA D), (proj1 HB (proj2 (HH c) D)); constructor|].
      destruct (proj2 HA D) as (e1 & ->). destruct (proj2 HB (fun X => D (proj1 (HH c) X))) as (e2 & ->). constructor.
  Qed.

  Lemma duck_sync_reach h : (dtotal h < 2 ^ 63)%N -> acked duck_impl duck_new (rh h) = rh (acked duck_impl duck_new h).
  Proof.
    induction h as [|o h IH] using rev_ind; intros W; [reflexivity|].
    assert (W1 : (dtotal h < 2 ^ 63)%N) by (rewrite dtotal_app in W; lia).
    specialize (IH W1). rewrite map_app. cbn [map]. rewrite !acked_snoc, map_app, IH. f_equal.
    pose proof (duck_ren_step h o W IH) as K. destruct K; reflexivity.
  Qed.
End Rename.
