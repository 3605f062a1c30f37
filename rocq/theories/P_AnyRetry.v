(** * Proofs: any client begun again after kills and failures *)
From Coq Require Import List Arith NArith Bool String Lia.
From Verif Require Import M_Base M_Data M_Mem M_Heed M_Duck M_Txn M_Regex M_Lexer M_Graph M_Parser M_Display M_Interp M_Conc M_Commands M_HostConc M_TxnConc
  S_Order S_Str S_Store S_Txn S_Graph S_Interp S_Conc S_Commands S_HostConc S_TxnConc S_Wander S_Rewrite S_Monotone S_Failing S_AnyRetry
  P_Ord P_Hist P_Heed P_HeedHist P_HeedMore P_Graph P_InterpStores P_Conc P_ConcMore P_Failing P_Retry P_HostLmdb.
From Verif Require P_Again P_Rewrite P_TxnConc.
Import ListNotations.
Open Scope list_scope.

Notation AO := (graph_impl lmdb_at_once).
Notation G := (graph_impl heed_impl).
Notation fits g := (total_weight g < 2 ^ 64)%N.

Lemma grows_refl d : grows d d.
Proof. split; auto. Qed.

Lemma has_dec g c : has heed_impl (lm g) c \/ ~ has heed_impl (lm g) c.
Proof. pose proof (heed_has_dec (sure g) c) as K. cbn zeta in K. rewrite <- lm_f in K. exact K. Qed.

Lemma lm_after g : hafter' g = lm g.
Proof. reflexivity. Qed.

(** ** The calls of a run on a good disk *)
Fixpoint trail (p : prog) (h : list op) : list op :=
  match p with
  | Done _ => []
  | Ask q k => ops_of q ++ trail (k (fst (perform G q (lm h)))) (h ++ ops_of q)
  end.

Lemma solo_trail p : forall h, solo G p (lm h) = (fst (solo G p (lm h)), lm (h ++ trail p h))
  /\ solo (graph_impl (logged heed_impl)) p (lm h, h) = (fst (solo G p (lm h)), (lm (h ++ trail p h), h ++ trail p h)).
Proof.
  induction p as [r0|q k IH]; intros h; cbn [solo trail]; [rewrite app_nil_r; split; reflexivity|].
  rewrite log_perform. rewrite (surjective_pairing (perform G q (lm h))), perform_state. cbn [fst snd].
  destruct (IH (fst (perform G q (lm h))) (h ++ ops_of q)) as [E1 E2]. rewrite E2, E1, <- app_assoc. split; reflexivity.
Qed.

(** ** Single calls *)
Lemma perform_coll d fs c : perform AO (QAddCollection c) (d, fs)
  = let (r, d1) := attempt (hd no_fault fs) d (OAddColl (el_name c)) in (err_todo r, (d1, tl fs)).
Proof.
  cbn. unfold graph_add_collection. cbn. unfold write_at_once, attempt. cbn [fst snd call_op heed_impl_w t_add_collection].
  destruct (run_act (fine_add_collection (el_name c)) (fst (hd no_fault fs)) d). reflexivity.
Qed.

Lemma perform_add d fs c n : perform AO (QAddEntries c n) (d, fs)
  = let (r, d1) := attempt (hd no_fault fs) d (OAdd (el_name c) (trips_of n)) in (err_todo r, (d1, tl fs)).
Proof.
  cbn. unfold graph_add_entries. cbn. fold (trips_of n). unfold write_at_once, attempt. cbn [fst snd call_op heed_impl_w t_add_triples].
  destruct (run_act (fine_add_triples (el_name c) (trips_of n)) (fst (hd no_fault fs)) d). reflexivity.
Qed.

Lemma said_coll d c : fst (perform G (QAddCollection c) d) = err_todo (fst (call_op heed_impl d (OAddColl (el_name c)))).
Proof.
  cbn [perform graph_impl l_add_collection]. unfold graph_add_collection. cbn [call_op]. destruct (t_add_collection heed_impl d (el_name c)); reflexivity.
Qed.
Lemma said_add d c n : fst (perform G (QAddEntries c n) d) = err_todo (fst (call_op heed_impl d (OAdd (el_name c) (trips_of n)))).
Proof.
  cbn [perform graph_impl l_add_entries]. unfold graph_add_entries. fold (trips_of n). cbn [call_op]. destruct (t_add_triples heed_impl d (el_name c) (trips_of n)) as [[r s] y]; reflexivity.
Qed.

Lemma good_coll h c : fits (h ++ [OAddColl (el_name c)]) -> fst (perform G (QAddCollection c) (lm h)) = Ok tt.
Proof. intros F. rewrite said_coll. change (lm h) with (hafter' h). rewrite (add_coll_ok h (el_name c) F). reflexivity. Qed.

Lemma good_add h c n : fits (h ++ [OAdd (el_name c) (trips_of n)]) -> has heed_impl (lm h) (el_name c) -> fst (perform G (QAddEntries c n) (lm h)) = Ok tt.
Proof. intros F H. rewrite said_add. change (lm h) with (hafter' h). rewrite (add_ok h (el_name c) (trips_of n) H F). reflexivity. Qed.

Lemma absent_add h c n : ~ has heed_impl (lm h) (el_name c) -> fst (perform G (QAddEntries c n) (lm h)) = Panic PTodo /\ lm (h ++ [OAdd (el_name c) (trips_of n)]) = lm h.
Proof.
  intros H. pose proof (heed_write_missing (sure h) (el_name c) (trips_of n) true) as K. cbn zeta in K. rewrite <- lm_f in K. destruct (K H) as [E _].
  change (call_op (heed_impl_c true)) with (call_op heed_impl) in E. rewrite said_add, lm_snoc, E. split; reflexivity.
Qed.

Lemma coll_lm g c : fits (g ++ [OAddColl c]) -> call_op heed_impl (lm g) (OAddColl c) = (Ok tt, lm (g ++ [OAddColl c])).
Proof. exact (add_coll_ok g c). Qed.
Lemma add_lm g c ts : has heed_impl (lm g) c -> fits (g ++ [OAdd c ts]) -> call_op heed_impl (lm g) (OAdd c ts) = (Ok tt, lm (g ++ [OAdd c ts])).
Proof. exact (add_ok g c ts). Qed.
Lemma cases_lm f g o : attempt f (lm g) o = call_op heed_impl (lm g) o
  \/ (exists r, attempt f (lm g) o = (r, lm g) /\ (r = Ok tt \/ r = fst (call_op heed_impl (lm g) o) \/ exists x, r = Panic x)).
Proof. exact (attempt_cases f (lm g) o). Qed.

(** What a call that adds leaves, on two stores one of which has more. *)
Lemma effect_coll h c : fits (h ++ [OAddColl c]) ->
  (forall x, has heed_impl (lm (h ++ [OAddColl c])) x <-> (x = c /\ storable c) \/ has heed_impl (lm h) x)
  /\ forall x t, holds heed_impl (lm (h ++ [OAddColl c])) x t <-> holds heed_impl (lm h) x t.
Proof.
  intros F. pose proof (add_coll_ok h c F) as E. split; intros x; pose proof (heed_effect h (OAddColl c) x) as K; cbn zeta in K;
    change (hafter' h) with (lm h) in E; rewrite E in K; cbn [fst] in K; destruct K as [K1 K2].
  - rewrite K1. split; [intros [[A B]|[A _]]; [injection A as ->; auto|auto]|intros [[-> B]|A]; [auto|right; split; [exact A|discriminate]]].
  - intros t. rewrite K2. split; [intros [(ts & X & _)|[A _]]; [discriminate|exact A]|intros A; right; split; [exact A|intros X; inversion X]].
Qed.

Lemma effect_add h c ts : fits (h ++ [OAdd c ts]) -> has heed_impl (lm h) c ->
  (forall x, has heed_impl (lm (h ++ [OAdd c ts])) x <-> has heed_impl (lm h) x)
  /\ forall x t, holds heed_impl (lm (h ++ [OAdd c ts])) x t <-> (x = c /\ In t ts) \/ holds heed_impl (lm h) x t.
Proof.
  intros F Hc. pose proof (add_ok h c ts Hc F) as E. split; intros x; pose proof (heed_effect h (OAdd c ts) x) as K; cbn zeta in K;
    change (hafter' h) with (lm h) in E; rewrite E in K; cbn [fst] in K; destruct K as [K1 K2].
  - rewrite K1. split; [intros [[A B]|[A _]]; [discriminate|exact A]|intros A; right; split; [exact A|discriminate]].
  - intros t. rewrite K2. split; [intros [(us & X & I)|[A _]]; [injection X as -> ->; auto|auto]|intros [[-> I]|A]; [left; eauto|right; split; [exact A|intros X; inversion X]]].
Qed.

(** ** Clients that only add, and read what they do not change *)
Section Fixed.
  Variables R W : str -> Prop.
  Hypothesis RW : forall c, R c -> W c -> False.

  Definition well (p : prog) : Prop := gathers p /\ (forall c, may_ask p c -> R c) /\ (forall c, may_change p c -> W c) /\ unwinds p.

  Lemma well_next q k a : well (Ask q k) -> well (k a).
  Proof.
    intros (A & B & C & D). split; [|split; [|split]].
    - intros q' Hq. apply A. right. exists a. exact Hq.
    - intros c (q' & e & Hq & X). apply B. exists q', e. split; [right; exists a; exact Hq|exact X].
    - intros c (q' & e & Hq & X). apply C. exists q', e. split; [right; exists a; exact Hq|exact X].
    - apply D.
  Qed.

  (** A call is a reading one about a name of [R], or a writing one about a name of [W]. *)
  Lemma well_first q k : well (Ask q k) ->
    (exists c, W (el_name c) /\ (q = QAddCollection c \/ exists n, q = QAddEntries c n))
    \/ (writing q = false /\ ops_of q = [] /\ exists c, R c /\ about q = Some c).
  Proof.
    intros (A & B & C & D). pose proof (A q (or_introl eq_refl)) as Gq. destruct Gq as [c|c es|c|c f].
    - left. exists c. split; [|auto]. apply C. exists (QAddCollection c), c. split; [left; reflexivity|]. auto.
    - left. exists c. split; [|eauto]. apply C. exists (QAddEntries c es), c. split; [left; reflexivity|]. split; [reflexivity|]. right; right; left. eauto.
    - right. split; [reflexivity|]. split; [reflexivity|]. exists (el_name c). split; [|reflexivity]. apply B. exists (QEntries c), c. split; [left; reflexivity|]. auto.
    - right. split; [reflexivity|]. split; [reflexivity|]. exists (el_name c). split; [|reflexivity]. apply B. exists (QFilter c f), c. split; [left; reflexivity|]. eauto.
  Qed.

  Lemma trail_grows p : forall h, gathers p -> grows (lm h) (lm (h ++ trail p h)).
  Proof.
    induction p as [r|q k IH]; intros h A; cbn [trail]; [rewrite app_nil_r; apply grows_refl|].
    rewrite app_assoc. eapply grows_trans; [|apply IH; intros q' Hq; apply A; right; eexists; exact Hq].
    pose proof (A q (or_introl eq_refl)) as Gq. apply P_Again.perform_grows; destruct Gq; discriminate.
  Qed.

  (** A call that writes, on a disk that may fail. *)
  Lemma write_step q k h g fs : well (Ask q k) -> writing q = true ->
    let F := lm (h ++ trail (Ask q k) h) in
    fits (h ++ ops_of q) -> fits (g ++ ops_of q) -> grows (lm g) F ->
    ((exists w, ans_panic q (fst (perform AO q (lm g, fs))) = Some w) \/ fst (perform AO q (lm g, fs)) = fst (perform G q (lm h)))
    /\ exists g', fst (snd (perform AO q (lm g, fs))) = lm g' /\ (g' = g \/ g' = g ++ ops_of q) /\ grows (lm g) (lm g') /\ grows (lm g') F.
  Proof.
    intros Wp Wq F Fh Fg Gr.
    assert (GF : grows (lm (h ++ ops_of q)) F).
    { unfold F. cbn [trail]. rewrite app_assoc. apply trail_grows. exact (proj1 (well_next _ _ _ Wp)). }
    destruct (well_first q k Wp) as [(c & Wc & [->|(n & ->)])|(X & _)]; [| |congruence].
    - change (ops_of (QAddCollection c)) with [OAddColl (el_name c)] in *. rewrite perform_coll. rewrite (good_coll h c Fh).
      destruct (cases_lm (hd no_fault fs) g (OAddColl (el_name c))) as [X|(x & X & Hx)]; rewrite (coll_lm g (el_name c) Fg) in *; rewrite X.
      + cbn [fst snd err_todo ans_panic]. split; [right; reflexivity|].
        exists (g ++ [OAddColl (el_name c)]). split; [reflexivity|]. split; [auto|].
        destruct (effect_coll g _ Fg) as [E1 E2], (effect_coll h _ Fh) as [H1 H2]. split; split; intros y.
        * intros Hy. apply E1. auto.
        * intros t Ht. apply E2, Ht.
        * intros Hy. apply E1 in Hy as [Hy|Hy]; [apply GF, H1; auto|apply Gr, Hy].
        * intros t Ht. apply E2 in Ht. apply Gr, Ht.
      + cbn [fst snd]. split.
        * destruct Hx as [-> |[-> |[w ->]]]; [right; reflexivity| |left; exists w; reflexivity].
          right. reflexivity.
        * exists g. split; [reflexivity|]. split; [auto|]. split; [apply grows_refl|exact Gr].
    - change (ops_of (QAddEntries c n)) with [OAdd (el_name c) (trips_of n)] in *. rewrite perform_add.
      assert (Absent : ~ has heed_impl (lm g) (el_name c) -> 
        let (r, d1) := attempt (hd no_fault fs) (lm g) (OAdd (el_name c) (trips_of n)) in (exists w, err_todo r = Panic w) /\ d1 = lm g).
      { intros N. destruct (add_absent (hd no_fault fs) (lm g) (el_name c) (trips_of n) N) as [w ->]. cbn. eauto. }
      destruct (has_dec h (el_name c)) as [Hh|Hh].
      + rewrite (good_add h c n Fh Hh). destruct (has_dec g (el_name c)) as [Hg|Hg].
        * destruct (cases_lm (hd no_fault fs) g (OAdd (el_name c) (trips_of n))) as [X|(x & X & Hx)]; rewrite (add_lm g (el_name c) (trips_of n) Hg Fg) in *; rewrite X.
          -- cbn [fst snd err_todo ans_panic]. split; [right; reflexivity|].
             exists (g ++ [OAdd (el_name c) (trips_of n)]). split; [reflexivity|]. split; [auto|].
             destruct (effect_add g _ _ Fg Hg) as [E1 E2], (effect_add h _ _ Fh Hh) as [H1 H2]. split; split; intros y.
             ++ intros Hy. apply E1. auto.
             ++ intros t Ht. apply E2. auto.
             ++ intros Hy. apply E1 in Hy. apply Gr, Hy.
             ++ intros t Ht. apply E2 in Ht as [Ht|Ht]; [apply GF, H2; auto|apply Gr, Ht].
          -- cbn [fst snd]. split.
             ++ destruct Hx as [-> |[-> |[w ->]]]; [right; reflexivity| |left; exists w; reflexivity].
                right. reflexivity.
             ++ exists g. split; [reflexivity|]. split; [auto|]. split; [apply grows_refl|exact Gr].
        * specialize (Absent Hg). destruct (attempt _ _ _) as [r d1]. cbn [fst snd]. destruct Absent as [[w ->] ->].
          split; [left; exists w; reflexivity|]. exists g. split; [reflexivity|]. split; [auto|]. split; [apply grows_refl|exact Gr].
      + destruct (absent_add h c n Hh) as [E1 E2].
        assert (Ng : ~ has heed_impl (lm g) (el_name c)).
        { intros Hg. apply Hh. destruct (proj2 (proj2 (proj2 Wp))) as [U _]. destruct (U (Panic PTodo) PTodo eq_refl) as [r Er].
          apply Gr in Hg. unfold F in Hg. cbn [trail] in Hg. rewrite E1 in Hg.
          match type of Hg with has _ (lm (h ++ _ ++ trail ?p _)) _ => change p with (k (Panic PTodo)) in Hg end. rewrite Er in Hg. cbn [trail] in Hg. rewrite app_nil_r in Hg.
          change (ops_of (QAddEntries c n)) with [OAdd (el_name c) (trips_of n)] in Hg. rewrite E2 in Hg. exact Hg. }
        specialize (Absent Ng). destruct (attempt _ _ _) as [r d1]. cbn [fst snd]. destruct Absent as [[w ->] ->].
        split; [left; exists w; reflexivity|]. exists g. split; [reflexivity|]. split; [auto|]. split; [apply grows_refl|exact Gr].
  Qed.

  Lemma done_alone {S} (L : lig_impl S) m r s : alone L m (Done r) s = (Done r, s).
  Proof. destruct m; reflexivity. Qed.

  Lemma other_obs q k h c : well (Ask q k) -> R c -> obs c (lm (h ++ ops_of q)) (lm h).
  Proof.
    intros Wp Rc. destruct (well_first q k Wp) as [(x & Wx & Hq)|(_ & E & _)]; [|rewrite E, app_nil_r; apply obs_refl].
    apply perform_other. intros X. apply (RW c Rc). assert (c = el_name x) as -> by (destruct Hq as [-> |[n ->]]; cbn in X; congruence). exact Wx.
  Qed.

  (** An attempt leaves at least what was there and at most what the good run leaves. *)
  Lemma attempt_under m : forall p h g fs, well p -> fits (h ++ trail p h) -> (total_weight g + total_weight (trail p h) < 2 ^ 64)%N ->
    (forall c, R c -> obs c (lm h) (lm g)) -> grows (lm g) (lm (h ++ trail p h)) ->
    exists g', fst (snd (alone AO m p (lm g, fs))) = lm g' /\ grows (lm g) (lm g') /\ grows (lm g') (lm (h ++ trail p h))
      /\ (forall c, R c -> obs c (lm g) (lm g')) /\ (total_weight g' <= total_weight g + total_weight (trail p h))%N.
  Proof.
    induction m as [|m IH]; intros p h g fs Wp Fh Fg O Gr.
    - exists g. split; [destruct p; reflexivity|]. split; [apply grows_refl|]. split; [exact Gr|]. split; [intros; apply obs_refl|lia].
    - destruct p as [r|q k].
      + exists g. split; [reflexivity|]. split; [apply grows_refl|]. split; [exact Gr|]. split; [intros; apply obs_refl|lia].
      + cbn [alone]. destruct (writing q) eqn:Wq.
        * assert (Fh1 : fits (h ++ ops_of q)) by (cbn [trail] in Fh; rewrite !total_weight_app in *; lia).
          assert (Fg1 : fits (g ++ ops_of q)) by (cbn [trail] in Fg; rewrite total_weight_app in *; lia).
          destruct (write_step q k h g fs Wp Wq Fh1 Fg1 Gr) as (Ans & g1 & E1 & Cg & G1 & G2).
          destruct (perform AO q (lm g, fs)) as [a [d1 fs1]]. cbn [fst snd] in Ans, E1. subst d1.
          assert (O1 : forall c, R c -> obs c (lm g) (lm g1)).
          { intros c Rc. destruct Cg as [-> | ->]; [apply obs_refl|]. apply obs_sym. exact (other_obs q k g c Wp Rc). }
          assert (Wt : (total_weight g1 <= total_weight g + total_weight (ops_of q))%N) by (destruct Cg as [-> | ->]; rewrite ?total_weight_app; lia).
          destruct Ans as [[w Ea]|Ea].
          -- destruct (proj2 (proj2 (proj2 Wp))) as [U _]. destruct (U a w Ea) as [r ->]. rewrite done_alone. exists g1. cbn [fst snd].
             split; [reflexivity|]. split; [exact G1|]. split; [exact G2|]. split; [exact O1|]. cbn [trail]. rewrite total_weight_app. lia.
          -- cbn [trail] in *. rewrite <- Ea in *. rewrite app_assoc in *. rewrite !total_weight_app in *.
             destruct (IH (k a) (h ++ ops_of q) g1 fs1) as (g' & X1 & X2 & X3 & X4 & X5).
             ++ exact (well_next _ _ _ Wp).
             ++ rewrite !total_weight_app. lia.
             ++ lia.
             ++ intros c Rc. eapply obs_trans; [exact (other_obs q k h c Wp Rc)|]. eapply obs_trans; [apply O, Rc|apply O1, Rc].
             ++ exact G2.
             ++ exists g'. split; [exact X1|]. split; [eapply grows_trans; eassumption|]. split; [exact X3|]. split; [|lia].
                intros c Rc. eapply obs_trans; [apply O1, Rc|apply X4, Rc].
        * destruct (well_first q k Wp) as [(x & _ & [-> |[n ->]])|(_ & Eo & c & Rc & Ec)]; [discriminate Wq..|].
          rewrite (perform_reads q (lm g) fs Wq). rewrite P_TxnConc.at_once_plain.
          assert (Ea : fst (perform G q (lm h)) = fst (perform G q (lm g))).
          { apply (perform_own h g q c Ec); [|destruct q; try discriminate Wq; cbn [req_weight]; cbn [trail] in *; rewrite ?total_weight_app in *; lia..|apply O, Rc].
            intros x es ->. discriminate Wq. }
          destruct (perform G q (lm g)) as [a d1]. cbn [fst snd] in *. cbn [trail] in *. rewrite Ea, Eo, app_nil_r in *. cbn [List.app] in *.
          apply (IH (k a) h g fs); try assumption. exact (well_next _ _ _ Wp).
  Qed.

  (** Once more, on a disk that is well. *)
  Lemma once_more p : forall h g, well p -> fits (h ++ trail p h) -> (total_weight g + total_weight (trail p h) < 2 ^ 64)%N ->
    (forall c, R c -> obs c (lm h) (lm g)) -> grows (lm h) (lm g) -> grows (lm g) (lm (h ++ trail p h)) ->
    fst (solo G p (lm g)) = fst (solo G p (lm h)) /\ trail p g = trail p h
    /\ grows (lm (h ++ trail p h)) (lm (g ++ trail p h)) /\ grows (lm (g ++ trail p h)) (lm (h ++ trail p h)).
  Proof.
    induction p as [r|q k IH]; intros h g Wp Fh Fg O G0 Gr.
    - cbn [trail] in *. rewrite !app_nil_r in *. auto.
    - destruct (writing q) eqn:Wq.
      + assert (Fh1 : fits (h ++ ops_of q)) by (cbn [trail] in Fh; rewrite !total_weight_app in *; lia).
        assert (Fg1 : fits (g ++ ops_of q)) by (cbn [trail] in Fg; rewrite total_weight_app in *; lia).
        assert (GF : grows (lm (h ++ ops_of q)) (lm (h ++ trail (Ask q k) h))).
        { cbn [trail]. rewrite app_assoc. apply trail_grows. exact (proj1 (well_next _ _ _ Wp)). }
        assert (K : fst (perform G q (lm g)) = fst (perform G q (lm h)) /\ grows (lm (h ++ ops_of q)) (lm (g ++ ops_of q)) /\ grows (lm (g ++ ops_of q)) (lm (h ++ trail (Ask q k) h))).
        { destruct (well_first q k Wp) as [(c & Wc & [->|(n & ->)])|(X & _)]; [| |congruence].
          - change (ops_of (QAddCollection c)) with [OAddColl (el_name c)] in *. rewrite (good_coll h c Fh1), (good_coll g c Fg1). split; [reflexivity|].
            destruct (effect_coll g _ Fg1) as [E1 E2], (effect_coll h _ Fh1) as [H1 H2]. split; split; intros y.
            + intros Hy. apply E1. apply H1 in Hy as [Hy|Hy]; [auto|right; apply G0, Hy].
            + intros t Ht. apply E2, G0, H2, Ht.
            + intros Hy. apply E1 in Hy as [Hy|Hy]; [apply GF, H1; auto|apply Gr, Hy].
            + intros t Ht. apply E2 in Ht. apply Gr, Ht.
          - change (ops_of (QAddEntries c n)) with [OAdd (el_name c) (trips_of n)] in *. destruct (has_dec h (el_name c)) as [Hh|Hh].
            + assert (Hg : has heed_impl (lm g) (el_name c)) by apply G0, Hh.
              rewrite (good_add h c n Fh1 Hh), (good_add g c n Fg1 Hg). split; [reflexivity|].
              destruct (effect_add g _ _ Fg1 Hg) as [E1 E2], (effect_add h _ _ Fh1 Hh) as [H1 H2]. split; split; intros y.
              * intros Hy. apply E1, G0, H1, Hy.
              * intros t Ht. apply E2. apply H2 in Ht as [Ht|Ht]; [auto|right; apply G0, Ht].
              * intros Hy. apply E1 in Hy. apply Gr, Hy.
              * intros t Ht. apply E2 in Ht as [Ht|Ht]; [apply GF, H2; auto|apply Gr, Ht].
            + destruct (absent_add h c n Hh) as [E1 E2].
              assert (Ng : ~ has heed_impl (lm g) (el_name c)).
              { intros Hg. apply Hh. destruct (proj2 (proj2 (proj2 Wp))) as [U _]. destruct (U (Panic PTodo) PTodo eq_refl) as [r Er].
                apply Gr in Hg. cbn [trail] in Hg. rewrite E1 in Hg.
                match type of Hg with has _ (lm (h ++ _ ++ trail ?p _)) _ => change p with (k (Panic PTodo)) in Hg end. rewrite Er in Hg. cbn [trail] in Hg. rewrite app_nil_r in Hg.
                change (ops_of (QAddEntries c n)) with [OAdd (el_name c) (trips_of n)] in Hg. rewrite E2 in Hg. exact Hg. }
              destruct (absent_add g c n Ng) as [E3 E4]. rewrite E1, E2, E3, E4. auto. }
        destruct K as (Ea & K1 & K2). cbn [solo trail] in *. rewrite (surjective_pairing (perform G q (lm g))), (surjective_pairing (perform G q (lm h))), !perform_state. cbn [fst snd]. rewrite Ea.
        rewrite app_assoc in *. rewrite !total_weight_app in *.
        destruct (IH (fst (perform G q (lm h))) (h ++ ops_of q) (g ++ ops_of q)) as (X1 & X2 & X3 & X4).
        * exact (well_next _ _ _ Wp).
        * rewrite !total_weight_app. lia.
        * rewrite !total_weight_app. lia.
        * intros c Rc. eapply obs_trans; [exact (other_obs q k h c Wp Rc)|]. eapply obs_trans; [apply O, Rc|apply obs_sym; exact (other_obs q k g c Wp Rc)].
        * exact K1.
        * exact K2.
        * rewrite X2. split; [exact X1|]. split; [reflexivity|]. rewrite (app_assoc g). split; assumption.
      + destruct (well_first q k Wp) as [(x & _ & [-> |[n ->]])|(_ & Eo & c & Rc & Ec)]; [discriminate Wq..|].
        assert (Ea : fst (perform G q (lm h)) = fst (perform G q (lm g))).
        { apply (perform_own h g q c Ec); [|destruct q; try discriminate Wq; cbn [req_weight]; cbn [trail] in *; rewrite ?total_weight_app in *; lia..|apply O, Rc].
          intros x es ->. discriminate Wq. }
        cbn [solo trail] in *. rewrite (surjective_pairing (perform G q (lm g))), (surjective_pairing (perform G q (lm h))), !perform_state in *. cbn [fst snd] in *. rewrite <- Ea, Eo, !app_nil_r in *. cbn [List.app] in *.
        apply IH; try assumption. exact (well_next _ _ _ Wp).
  Qed.

  Lemma attempts_under ms : forall p h g fs, well p -> fits (h ++ trail p h) ->
    (total_weight g + N.of_nat (S (List.length ms)) * total_weight (trail p h) < 2 ^ 64)%N ->
    (forall c, R c -> obs c (lm h) (lm g)) -> grows (lm g) (lm (h ++ trail p h)) ->
    exists g', fst (begun AO p ms (lm g, fs)) = lm g' /\ grows (lm g) (lm g') /\ grows (lm g') (lm (h ++ trail p h))
      /\ (forall c, R c -> obs c (lm g) (lm g')) /\ (total_weight g' <= total_weight g + N.of_nat (List.length ms) * total_weight (trail p h))%N.
  Proof.
    induction ms as [|m ms IH]; intros p h g fs Wp Fh Fg O Gr.
    - exists g. split; [reflexivity|]. split; [apply grows_refl|]. split; [exact Gr|]. split; [intros; apply obs_refl|]. cbn [List.length]. lia.
    - cbn [List.length] in *. unfold begun. cbn [fold_left]. fold (begun AO p ms (snd (alone AO m p (lm g, fs)))).
      destruct (attempt_under m p h g fs Wp Fh) as (g1 & E1 & A1 & A2 & A3 & A4); [lia|exact O|exact Gr|].
      destruct (snd (alone AO m p (lm g, fs))) as [d1 fs1]. cbn [fst] in E1. subst d1.
      destruct (IH p h g1 fs1 Wp Fh) as (g' & X1 & X2 & X3 & X4 & X5).
      + lia.
      + intros c Rc. eapply obs_trans; [apply O, Rc|apply A3, Rc].
      + exact A2.
      + exists g'. split; [exact X1|]. split; [eapply grows_trans; eassumption|]. split; [exact X3|]. split; [|lia].
        intros c Rc. eapply obs_trans; [apply A3, Rc|apply X4, Rc].
  Qed.
End Fixed.

Lemma grows_alike g1 g2 : grows (lm g1) (lm g2) -> grows (lm g2) (lm g1) -> look_alike heed_impl (lm g1) (lm g2).
Proof.
  intros A B. destruct (P_Again.shown g1) as (w1 & S1). destruct (P_Again.shown g2) as (w2 & S2).
  apply (P_Rewrite.alike_same heed_impl _ _ w1 w2 S1 S2). exact (P_Again.same_by_below g1 g2 w1 w2 S1 S2 (P_Again.grows_below g1 g2 w1 w2 A S1 S2) (P_Again.grows_below g2 g1 w2 w1 B S2 S1)).
Qed.

Lemma well_of p : gathers p -> unwinds p -> (forall c, may_ask p c -> ~ may_change p c) ->
  well (may_ask p) (may_change p) p.
Proof. intros A U D. split; [exact A|]. split; [auto|]. split; [auto|exact U]. Qed.

Lemma begun_under p ms h fs r d1 g : gathers p -> unwinds p -> (forall c, may_ask p c -> ~ may_change p c) ->
  solo (graph_impl (logged heed_impl)) p (lm h, h) = (r, (d1, h ++ g)) ->
  (total_weight h + N.of_nat (S (List.length ms)) * total_weight g < 2 ^ 64)%N ->
  d1 = lm (h ++ g) /\ solo G p (lm h) = (r, d1) /\
  exists g', fst (begun AO p ms (lm h, fs)) = lm g' /\ grows (lm h) (lm g') /\ grows (lm g') d1
    /\ exists d2, solo G p (lm g') = (r, d2) /\ look_alike heed_impl d1 d2.
Proof.
  intros A U D E F. destruct (solo_trail p h) as [E1 E2]. rewrite E2 in E. injection E as Er Ed Eg. subst d1. apply app_inv_head in Eg. rewrite Eg in *.
  split; [reflexivity|]. split; [rewrite E1, Er; reflexivity|].
  pose proof (well_of p A U D) as Wp.
  assert (Fh : fits (h ++ trail p h)) by (rewrite Eg, total_weight_app; lia). rewrite <- Eg in *.
  assert (RW : forall c, may_ask p c -> may_change p c -> False) by (intros c X Y; exact (D c X Y)).
  destruct (attempts_under (may_ask p) (may_change p) RW ms p h h fs Wp Fh F) as (g' & X1 & X2 & X3 & X4 & X5).
  - intros; apply obs_refl.
  - apply trail_grows. exact A.
  - exists g'. split; [exact X1|]. split; [exact X2|]. split; [exact X3|].
    destruct (once_more (may_ask p) (may_change p) RW p h g' Wp Fh) as (Y1 & Y2 & Y3 & Y4); [lia|exact X4|exact X2|exact X3|].
    exists (lm (g' ++ trail p h)). split; [|apply grows_alike; assumption].
    destruct (solo_trail p g') as [Z _]. rewrite Z, Y1, Y2, Er. reflexivity.
Qed.

(** ** Kills between operations *)
Lemma operations_begun p ns : forall d fs, exists ms, List.length ms = List.length ns /\ begun_operations p ns (d, fs) = begun AO p ms (d, fs).
Proof.
  induction ns as [|n ns IH]; intros d fs; [exists []; split; reflexivity|]. unfold begun_operations. cbn [fold_left fst snd].
  destruct (operations_alone p d fs n) as [m Em]. cbv zeta in Em. set (s := go_on (repeat (Moves 0) n) (start d fs (fun _ => p))) in *.
  change (file (die 0 s)) with (file s). change (faults (die 0 s)) with (faults s).
  destruct (IH (file s) (faults s)) as (ms & El & E). exists (m :: ms). split; [cbn [List.length]; rewrite El; reflexivity|].
  unfold begun. cbn [fold_left]. rewrite <- Em. exact E.
Qed.

(** ** Host commands *)
Lemma gathers_bind p f : gathers p -> (forall r, gathers (f r)) -> gathers (pbind p f).
Proof. intros A B q Hq. apply asks_bind in Hq as [Hq|[r Hq]]; [exact (A q Hq)|exact (B r q Hq)]. Qed.

Lemma gathers_body rp b : (forall calls, gathers (rp calls)) -> gathers_only b -> gathers (body_prog rp b).
Proof.
  intros HR H. induction H as [r|q k Gq _ IH|calls k _ IH]; cbn [body_prog].
  - intros q [].
  - intros q' [->|[a Hq]]; [exact Gq|]. destruct (ans_panic q a); [destruct Hq|exact (IH a q' Hq)].
  - apply gathers_bind; [apply HR|]. intros [v|e|w]; [apply IH|apply IH|intros q []].
Qed.

Lemma find_in cs n x : find_cmd cs n = Some x -> exists m, In (m, x) cs.
Proof.
  induction cs as [|[m y] cs IH]; cbn [find_cmd]; [discriminate|]. destruct (str_eqb m n); [intros [= ->]; exists m; left; reflexivity|].
  intros H. destruct (IH H) as [m' I]. exists m'. right. exact I.
Qed.

Lemma gathers_calls rp cs : (forall calls, gathers (rp calls)) -> (forall n x, In (n, x) cs -> gatherer x) ->
  forall calls v, gathers (calls_prog rp cs calls v).
Proof.
  intros HR HC. induction calls as [|c rest IH]; intros v; cbn [calls_prog]; [intros q []|].
  destruct (find_cmd cs (el_name (c_name c))) as [x|] eqn:E; [|intros q []]. destruct (find_in _ _ _ E) as [m I].
  apply gathers_bind; [apply gathers_body; [exact HR|apply (HC m x I)]|]. intros [v'|e|w]; [apply IH|intros q []..].
Qed.

Lemma gathers_deep cs : (forall n x, In (n, x) cs -> gatherer x) -> forall n calls, gathers (deep_prog cs n calls).
Proof. intros HC. induction n as [|n IH]; intros calls; cbn [deep_prog]; [intros q []|]. apply gathers_calls; assumption. Qed.

Lemma falls_unwinds p : falls p -> unwinds p.
Proof. induction p as [r|q k IH]; cbn [falls unwinds]; [trivial|]. intros [A B]. split; [intros a w E; eexists; exact (A a w E)|intros a; apply IH, B]. Qed.

Lemma falls_bind p f : (forall w, f (Panic w) = Done (Panic w)) -> falls p -> (forall r, falls (f r)) -> falls (pbind p f).
Proof.
  intros P A B. induction p as [r|q k IH]; cbn [pbind falls] in *; [apply B|]. destruct A as [A1 A2]. split; [|intros a; apply IH, A2].
  intros a w E. rewrite (A1 a w E). apply P.
Qed.

Lemma falls_body rp b : (forall calls, falls (rp calls)) -> falls (body_prog rp b).
Proof.
  intros HR. induction b as [r|q k IH|calls k IH]; cbn [body_prog falls]; [trivial| |].
  - split; [intros a w ->; reflexivity|]. intros a. destruct (ans_panic q a); [exact I|apply IH].
  - apply falls_bind; [reflexivity|apply HR|]. intros [v|e|w]; [apply IH|apply IH|exact I].
Qed.

Lemma falls_calls rp cs : (forall calls, falls (rp calls)) -> forall calls v, falls (calls_prog rp cs calls v).
Proof.
  intros HR. induction calls as [|c rest IH]; intros v; cbn [calls_prog]; [exact I|].
  destruct (find_cmd cs (el_name (c_name c))) as [x|]; [|exact I].
  apply falls_bind; [reflexivity|apply falls_body, HR|]. intros [v'|e|w]; [apply IH|exact I..].
Qed.

Lemma falls_deep cs : forall n calls, falls (deep_prog cs n calls).
Proof. induction n as [|n IH]; intros calls; cbn [deep_prog]; [exact I|]. apply falls_calls, IH. Qed.

Lemma prelude_gathers n x : In (n, x) prelude -> gatherer x.
Proof.
  assert (Q : forall q k, (forall r, gathers_only (k r)) -> gathers_only (quote_then q k)).
  { intros q k H. unfold quote_then. destruct q as [|[e|q'|m] args]; [apply H| |constructor..]. constructor. exact H. }
  assert (V : forall v k, (forall x, gathers_only (k x)) -> gathers_only (value_then v k)).
  { intros v k H. unfold value_then. destruct v as [e|q|m]; [apply H| |apply H]. apply Q. intros [y|e]; [apply H|constructor]. }
  assert (S : forall c l, gathers_only (store_body c l)).
  { intros c l. unfold store_body. constructor; [constructor|]. intros _. constructor; [constructor|]. intros _. constructor. }
  intros H l args. repeat (destruct H as [[= <- <-]|H]; [cbn [cmd_does]|]); [..|destruct H].
  - unfold b_assert_equal. destruct args as [|a [|b [|c args]]]; try constructor. apply V. intros va. apply V. intros vb. constructor.
  - unfold b_assert_fail. destruct args as [|[e|q|m] [|c args]]; try constructor. apply Q. intros r. constructor.
  - constructor.
  - unfold b_let. destruct args as [|[e|q|m] [|[e2|q2|m2] [|c args]]]; cbv beta iota; first [apply S|apply Q; intros [[e3|q3|m3]|e3]; cbv beta iota; first [apply S|apply go_done]|apply go_done].
  - unfold b_read. destruct args as [|[e|q|m] [|c args]]; try constructor; [constructor|]. intros a. constructor.
  - constructor.
  - constructor.
  - constructor.
  - unfold b_filter. destruct args as [|[e|q|m] [|[e2|q2|m2] [|[e3|q3|m3] [|[e4|q4|m4] [|c args]]]]]; try constructor; [constructor|]. intros a. constructor.
Qed.
