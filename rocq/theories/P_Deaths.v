(** * Proofs: what a script leaves that dies on its way *)
From Coq Require Import List Arith NArith Bool String Lia.
From Verif Require Import M_Base M_Data M_Mem M_Heed M_HeedRel M_Duck M_DuckReal M_Regex M_Lexer M_Graph M_Parser M_Display M_Interp M_Conc
  S_Order S_Str S_Store S_Graph S_Lexer S_Parser S_Interp S_Json S_GraphHist S_Names S_Conc S_DuckReal S_Wander S_Deaths
  P_Ord P_Hist P_Lexer P_LexMore P_Parser P_Graph P_Interp P_InterpMore P_InterpStores P_InterpProps P_Crash P_Agree P_Sim P_Names P_Conc P_Wander P_WanderStores P_WanderReal P_WanderDet P_WanderRun.
Import ListNotations.
Open Scope list_scope.

(** ** Stopping a program *)
Section Stops.
  Context {S : Type} (L : lig_impl S).

  Definition stops (p : prog) (s s' : S) : Prop := exists m, snd (alone L m p s) = s'.

  Lemma stops_now p s : stops p s s.
  Proof. exists 0. destruct p; reflexivity. Qed.

  Lemma stops_done r s s' : stops (Done r) s s' -> s' = s.
  Proof. intros [m <-]. destruct m; reflexivity. Qed.

  Lemma stops_ask q k s s' : stops (Ask q k) s s' ->
    s' = s \/ stops (k (fst (perform L q s))) (snd (perform L q s)) s'.
  Proof. intros [[|m] <-]; [left; reflexivity|right]. exists m. cbn [alone]. destruct (perform L q s). reflexivity. Qed.

  Lemma stops_next q k s s' : stops (k (fst (perform L q s))) (snd (perform L q s)) s' -> stops (Ask q k) s s'.
  Proof. intros [m <-]. exists (Datatypes.S m). cbn [alone]. destruct (perform L q s). reflexivity. Qed.

  Lemma stops_end p : forall s, stops p s (snd (solo L p s)).
  Proof.
    induction p as [r|q k IH]; intros s; [apply stops_now|]. apply stops_next. cbn [solo].
    destruct (perform L q s) as [a s1]. apply IH.
  Qed.

  Lemma stops_bind p f : forall s s', stops (pbind p f) s s' ->
    stops p s s' \/ stops (f (fst (solo L p s))) (snd (solo L p s)) s'.
  Proof.
    induction p as [r|q k IH]; intros s s' H; [right; exact H|]. cbn [pbind] in H. apply stops_ask in H as [->|H]; [left; apply stops_now|].
    apply IH in H as [H|H]; [left; apply stops_next, H|right]. cbn [solo]. destruct (perform L q s) as [a s1]. exact H.
  Qed.

  Lemma stops_first p f : forall s s', stops p s s' -> stops (pbind p f) s s'.
  Proof.
    induction p as [r|q k IH]; intros s s' H; [apply stops_done in H as ->; apply stops_now|]. cbn [pbind].
    apply stops_ask in H as [->|H]; [apply stops_now|]. apply stops_next, IH, H.
  Qed.

  Lemma stops_second p f : forall s s', stops (f (fst (solo L p s))) (snd (solo L p s)) s' -> stops (pbind p f) s s'.
  Proof.
    induction p as [r|q k IH]; intros s s' H; [exact H|]. cbn [pbind]. apply stops_next, IH. cbn [solo] in H.
    destruct (perform L q s) as [a s1]. exact H.
  Qed.

  (** The end is where the first part ends, if the second part asks nothing. *)
  Lemma solo_end p f : (forall r, exists r', f r = Done r') -> forall s, snd (solo L (pbind p f) s) = snd (solo L p s).
  Proof. intros H s. rewrite solo_bind. destruct (solo L p s) as [r s1]. destruct (H r) as [r' ->]. reflexivity. Qed.

  Lemma stops_end_bind p f : (forall r, exists r', f r = Done r') -> forall s s', stops (pbind p f) s s' -> stops p s s'.
  Proof.
    intros H s s' K. apply stops_bind in K as [K|K]; [exact K|]. destruct (H (fst (solo L p s))) as [r' E]. rewrite E in K.
    apply stops_done in K as ->. apply stops_end.
  Qed.
End Stops.

(** ** In the reference *)
Section Cuts.
  Context (B : backend) {S : Type} (I : trips_impl S) (s0 : S) (fits : list op -> Prop) (AB : abides B I s0 fits).
  Notation LG := (graph_impl (logged I)).
  Notation at_log := (at_log I s0).
  Notation follows := (follows I s0 fits).

  Hypothesis creates : forall h w c a s1 h1, shows I (after I s0 h) w ->
    l_add_collection LG (after I s0 h, h) c = (a, (s1, h1)) -> fits h1 ->
    exists o w', binds w (el_name c) [] B o w' /\ shows I s1 w'.

  Lemma perform_log q st : at_log st -> at_log (snd (perform LG q st)) /\ exists g, snd (snd (perform LG q st)) = snd st ++ g.
  Proof.
    assert (Id : at_log st -> at_log st /\ exists g, snd st = snd st ++ g) by (intros A; split; [exact A|exists []; symmetry; apply app_nil_r]).
    intros A. destruct q; cbn [perform]; try (apply Id, A).
    - destruct (l_add_collection LG st c) as [a st1] eqn:E. exact (log_coll I s0 _ _ _ _ A E).
    - unfold P_Wander.at_log in *. destruct st as [s h]. cbn [fst snd] in *. subst s. cbn. unfold graph_remove_collection. cbn.
      destruct (t_remove_collection I (after I s0 h) (el_name c)) as [r x] eqn:E. cbn. split; [|eauto]. rewrite after_snoc. cbn [call_op]. rewrite E. reflexivity.
    - destruct (l_add_entries LG st c es) as [[a st1] n'] eqn:E. exact (log_add I s0 _ _ _ _ _ _ A E).
    - unfold P_Wander.at_log in *. destruct st as [s h]. cbn [fst snd] in *. subst s. cbn. unfold graph_remove_entries. cbn. fold (trips_of es).
      destruct (t_remove_triples I (after I s0 h) (el_name c) (trips_of es)) as [[r x] y] eqn:E. cbn. split; [|eauto]. rewrite after_snoc. cbn [call_op]. rewrite E. reflexivity.
  Qed.

  Lemma stops_log p : forall st st', at_log st -> stops LG p st st' -> at_log st' /\ exists g, snd st' = snd st ++ g.
  Proof.
    induction p as [r|q k IH]; intros st st' A H.
    - apply stops_done in H as ->. split; [exact A|exists []; symmetry; apply app_nil_r].
    - apply stops_ask in H as [->|H]; [split; [exact A|exists []; symmetry; apply app_nil_r]|].
      destruct (perform_log q st A) as [A1 [g1 P1]]. destruct (IH _ _ _ A1 H) as [A2 [g2 P2]]. split; [exact A2|].
      exists (g1 ++ g2). rewrite P2, P1, app_assoc. reflexivity.
  Qed.

  Lemma solo_log p st : at_log st -> at_log (snd (solo LG p st)) /\ exists g, snd (snd (solo LG p st)) = snd st ++ g.
  Proof. intros A. exact (stops_log p st _ A (stops_end LG p st)). Qed.

  Lemma fits_before p st st' : at_log st -> stops LG p st st' -> fits (snd st') -> fits (snd st).
  Proof. intros A H F. destruct (stops_log p st st' A H) as [_ [g P]]. rewrite P in F. exact (ab_prefix _ _ _ _ AB _ _ F). Qed.

  (** The states where [p] can stop show exactly the worlds of [R]. *)
  Definition sound (R : world -> world -> Prop) (p : prog) : Prop := forall st st' w,
    at_log st -> stops LG p st st' -> fits (snd st') -> shows I (fst st) w -> exists w', R w w' /\ shows I (fst st') w'.
  Definition complete (R : world -> world -> Prop) (p : prog) : Prop := forall st w w',
    at_log st -> fits (snd (snd (solo LG p st))) -> shows I (fst st) w -> R w w' -> exists st', stops LG p st st' /\ shows I (fst st') w'.
  Definition does_as (T : world -> outcome -> world -> Prop) (p : prog) : Prop := forall st,
    follows T st (fst (solo LG p st)) (snd (solo LG p st)).

  Lemma sound_now (R : world -> world -> Prop) r : (forall w, R w w) -> sound R (Done r).
  Proof. intros H st st' w A K F Sw. apply stops_done in K as ->. exists w. auto. Qed.

  (** A program that does something as a whole. *)
  Lemma does_end (T : world -> outcome -> world -> Prop) p st w : does_as T p -> at_log st -> fits (snd (snd (solo LG p st))) -> shows I (fst st) w ->
    exists w', T w (outcome_of (fst (solo LG p st))) w' /\ shows I (fst (snd (solo LG p st))) w'.
  Proof. intros D A F Sw. destruct (D st A) as (_ & _ & K). exact (K F w Sw). Qed.

  Section Quotes.
    Variable rq : list value -> prog.
    Definition fine (v : value) : Prop :=
      sound (dies_value B v) (p_value rq v) /\ complete (dies_value B v) (p_value rq v) /\ does_as (gives B v) (p_value rq v).

    Lemma let_sound c n st st' w : at_log st -> stops LG (p_let_store c n) st st' -> fits (snd st') -> shows I (fst st) w ->
      st' = snd (solo LG (p_let_store c n) st) \/ exists w', (w' = w \/ exists o, binds w (el_name c) [] B o w') /\ shows I (fst st') w'.
    Proof.
      intros A H F Sw. unfold p_let_store in *. apply stops_ask in H as [->|H]; [right; exists w; auto|]. cbn [perform] in H.
      assert (C : st' = snd (l_add_collection LG st c) -> exists w', (w' = w \/ exists o, binds w (el_name c) [] B o w') /\ shows I (fst st') w').
      { intros ->. destruct st as [s h]. unfold P_Wander.at_log in A. cbn [fst snd] in *. subst s.
        destruct (l_add_collection LG (after I s0 h, h) c) as [a [s1 h1]] eqn:E. cbn [fst snd] in *.
        destruct (creates h w c a s1 h1 Sw E F) as (o & w' & Hb & Hs). exists w'. eauto. }
      cbn [solo perform]. destruct (l_add_collection LG st c) as [[u|e|x] st1] eqn:E1; cbn [fst snd] in *.
      - apply stops_ask in H as [->|H]; [right; apply C; reflexivity|left]. cbn [perform solo] in *.
        destruct (l_add_entries LG st1 c n) as [[[b|b|b] st2] n']; cbn [fst snd] in *; apply stops_done in H as ->; reflexivity.
      - apply stops_ask in H as [->|H]; [right; apply C; reflexivity|left]. cbn [perform solo] in *.
        destruct (l_add_entries LG st1 c n) as [[[b|b|b] st2] n']; cbn [fst snd] in *; apply stops_done in H as ->; reflexivity.
      - left. apply stops_done in H as ->. reflexivity.
    Qed.

    Lemma let_complete c n st w o w' : at_log st -> fits (snd (snd (solo LG (p_let_store c n) st))) -> shows I (fst st) w ->
      binds w (el_name c) [] B o w' -> exists st', stops LG (p_let_store c n) st st' /\ shows I (fst st') w'.
    Proof.
      intros A F Sw Hb. exists (snd (l_add_collection LG st c)). split.
      - unfold p_let_store. apply stops_next. cbn [perform]. destruct (l_add_collection LG st c) as [[u|e|x] st1]; apply stops_now.
      - assert (F1 : fits (snd (snd (l_add_collection LG st c)))).
        { unfold p_let_store in F. cbn [solo perform] in F. pose proof (perform_log (QAddCollection c) st A) as [A1 _]. cbn [perform] in A1.
          destruct (l_add_collection LG st c) as [[u|e|x] st1]; cbn [fst snd] in *; try exact F.
          all: revert F; apply fits_before with (p := Ask (QAddEntries c n) (fun b : lres unit => match b with Panic w0 => Done (Panic w0) | _ => Done (Ok unit_value) end)); [exact A1|apply stops_end]. }
        destruct st as [s h]. unfold P_Wander.at_log in A. cbn [fst snd] in *. subst s.
        destruct (l_add_collection LG (after I s0 h, h) c) as [a [s1 h1]] eqn:E. cbn [fst snd] in *.
        destruct (creates h w c a s1 h1 Sw E F1) as (o2 & w2 & Hb2 & Hs).
        destruct (binds_fun _ _ _ _ _ _ _ _ _ (same_refl w) Hb2 Hb) as [_ Ew]. exact (shows_same I _ _ _ Ew Hs).
    Qed.

    (** After everything. *)
    Lemma end_sound name args p : does_as (calls B name args) p ->
      forall st w, at_log st -> fits (snd (snd (solo LG p st))) -> shows I (fst st) w ->
      exists w', dies_call B name args w w' /\ shows I (fst (snd (solo LG p st))) w'.
    Proof.
      intros D st w A F Sw. destruct (does_end _ p st w D A F Sw) as (w' & Hc & Hs). exists w'. split; [eapply dc_after; exact Hc|exact Hs].
    Qed.
    Lemma end_complete name args p : does_as (calls B name args) p ->
      forall st w o w', at_log st -> fits (snd (snd (solo LG p st))) -> shows I (fst st) w -> calls B name args w o w' ->
      exists st', stops LG p st st' /\ shows I (fst st') w'.
    Proof.
      intros D st w o w' A F Sw Hc. destruct (does_end _ p st w D A F Sw) as (w2 & Hc2 & Hs). exists (snd (solo LG p st)). split; [apply stops_end|].
      destruct (proj2 (reference_fun B) _ _ _ _ _ Hc2 _ _ _ (same_refl w) Hc) as [_ Ew]. exact (shows_same I _ _ _ Ew Hs).
    Qed.

    Lemma gives_dies v w o w' : gives B v w o w' -> dies_value B v w w'.
    Proof. intros H. inversion H; subst; try apply dv_before. apply dv_call. eapply dc_after. eassumption. Qed.

    Lemma quiet_sound name args q k : (forall a, exists r, k a = Done r) -> (forall st, snd (perform LG q st) = st) ->
      sound (dies_call B name args) (Ask q k).
    Proof.
      intros K P st st' w A H F Sw. apply stops_ask in H as [->|H]; [exists w; split; [apply dc_before|exact Sw]|].
      destruct (K (fst (perform LG q st))) as [r E]. rewrite E in H. apply stops_done in H as ->. rewrite P. exists w. split; [apply dc_before|exact Sw].
    Qed.

    Lemma exec_sound f args : (forall g, f <> FHost g) -> (forall v, In v args -> fine v) ->
      does_as (calls B (fname f) args) (p_exec rq common f args) -> sound (dies_call B (fname f) args) (p_exec rq common f args).
    Proof.
      intros NH Fi D. destruct f; cbn [p_exec fname] in *; try (apply sound_now; intros; apply dc_before).
      - unfold p_assert_equal in *. destruct args as [|l [|r [|x args]]]; try (apply sound_now; intros; apply dc_before).
        destruct (Fi l ltac:(left; reflexivity)) as (Sl & _ & Dl). destruct (Fi r ltac:(right; left; reflexivity)) as (Sr & _ & Dr).
        intros st st' w A H F Sw. pose proof H as H0. apply stops_bind in H as [H|H].
        + destruct (Sl st st' w A H F Sw) as (w' & K & Hs). exists w'. split; [apply dc_left, K|exact Hs].
        + destruct (solo_log (p_value rq l) st A) as [A1 _].
          assert (F1 : fits (snd (snd (solo LG (p_value rq l) st)))) by (revert F; eapply fits_before; [exact A1|exact H]).
          destruct (does_end _ _ st w Dl A F1 Sw) as (w1 & Hg & Hs1).
          assert (Fin : st' = snd (solo LG (pbind (p_value rq l) (fun lout => match lout with
            | Ok lv => pbind (p_value rq r) (fun rout => match rout with
                | Ok rv => if value_eqb lv rv then Done (Ok unit_value) else Done (Err (WErr (lit "Assertion failed, " ++ display lv ++ lit " != " ++ display rv)))
                | Err e => Done (Err e) | Panic w => Done (Panic w) end)
            | Err e => Done (Err e) | Panic w => Done (Panic w) end)) st) ->
            exists w', dies_call B (lit "assert-equal") [l; r] w w' /\ shows I (fst st') w').
          { intros ->. exact (end_sound _ _ _ D st w A F Sw). }
          rewrite solo_bind in Fin. destruct (solo LG (p_value rq l) st) as [[lv|e|x] st1]; cbn [fst snd] in *.
          * pose proof H as H1. apply stops_end_bind in H.
            2: { intros [rv|e|x]; [destruct (value_eqb lv rv)|..]; eexists; reflexivity. }
            destruct (Sr st1 st' w1 A1 H F Hs1) as (w' & K & Hs). exists w'. split; [eapply dc_right; eassumption|exact Hs].
          * apply stops_done in H as ->. apply Fin. reflexivity.
          * apply stops_done in H as ->. apply Fin. reflexivity.
      - unfold p_assert_fail in *. destruct args as [|[e|q|n] [|x args]]; try (apply sound_now; intros; apply dc_before).
        destruct (Fi (VQuote q) ltac:(left; reflexivity)) as (Sq & _ & _). intros st st' w A H F Sw. apply stops_end_bind in H.
        2: { intros [v|e|x]; eexists; reflexivity. }
        destruct (Sq st st' w A H F Sw) as (w' & K & Hs). exists w'. split; [apply dc_fail, K|exact Hs].
      - unfold p_let in *. destruct args as [|[c|q0|n0] [|[e|q|n] [|x args]]]; try (apply sound_now; intros; apply dc_before).
        + destruct (Fi (VQuote q) ltac:(right; left; reflexivity)) as (Sq & _ & Dq). intros st st' w A H F Sw. apply stops_bind in H as [H|H].
          * destruct (Sq st st' w A H F Sw) as (w' & K & Hs). exists w'. split; [apply dc_let_in, K|exact Hs].
          * destruct (solo_log (rq q) st A) as [A1 _].
            assert (F1 : fits (snd (snd (solo LG (rq q) st)))) by (revert F; eapply fits_before; [exact A1|exact H]).
            destruct (does_end _ _ st w Dq A F1 Sw) as (w1 & Hg & Hs1). cbn [p_value] in Hg, Hs1.
            assert (Fin : st' = snd (solo LG (pbind (rq q) (fun out => match out with
              | Ok (VNetwork n) => p_let_store c n | Panic w => Done (Panic w) | _ => Done (Panic PTodo) end)) st) ->
              exists w', dies_call B (lit "let") [VElement c; VQuote q] w w' /\ shows I (fst st') w').
            { intros ->. exact (end_sound _ _ _ D st w A F Sw). }
            rewrite solo_bind in Fin. destruct (solo LG (rq q) st) as [[[e|q1|n]|e|x] st1]; cbn [fst snd] in *;
              try (apply stops_done in H as ->; apply Fin; reflexivity).
            destruct (let_sound c n st1 st' w1 A1 H F Hs1) as [E|(w' & [->|[o Hb]] & Hs)]; [exact (Fin E)|..].
            -- exists w1. split; [apply dc_let_in; eapply gives_dies; exact Hg|exact Hs].
            -- exists w'. split; [eapply dc_let_quote; eassumption|exact Hs].
        + intros st st' w A H F Sw. destruct (let_sound c n st st' w A H F Sw) as [->|(w' & [->|[o Hb]] & Hs)].
          * exact (end_sound _ _ _ D st w A F Sw).
          * exists w. split; [apply dc_before|exact Hs].
          * exists w'. split; [eapply dc_let, Hb|exact Hs].
      - unfold p_read. destruct args as [|[c|q0|n0] [|x args]]; try (apply sound_now; intros; apply dc_before).
        apply quiet_sound; [eauto|reflexivity].
      - unfold p_filter. destruct args as [|[c|q0|n0] [|[a|q1|n1] [|[b|q2|n2] [|[d|q3|n3] [|x args]]]]]; try (apply sound_now; intros; apply dc_before).
        apply quiet_sound; [eauto|reflexivity].
    Qed.

    Lemma exec_complete f args : (forall g, f <> FHost g) -> (forall v, In v args -> fine v) ->
      does_as (calls B (fname f) args) (p_exec rq common f args) -> complete (dies_call B (fname f) args) (p_exec rq common f args).
    Proof.
      intros NH Fi D st w w' A F Sw H.
      assert (Nm : fname f = fname f) by reflexivity. remember (fname f) as name eqn:En in H at 1.
      destruct H as [name args w|name args w o w' Hc|l r w w' Hd|l r w v w1 w' Hg Hd|q w w' Hd|c q w w' Hd|c n w o w' Hb|c q w n w1 o w' Hg Hb].
      - exists st. split; [apply stops_now|exact Sw].
      - subst name. exact (end_complete _ _ _ D st w o w' A F Sw Hc).
      - destruct f; try discriminate En; try (destruct (NH _ eq_refl)). cbn [p_exec p_assert_equal] in *.
        destruct (Fi l ltac:(left; reflexivity)) as (_ & Cl & _). destruct (Cl st w w' A) as (st' & K & Hs); [|exact Sw|exact Hd|].
        + revert F. rewrite solo_bind. destruct (solo_log (p_value rq l) st A) as [A1 _]. destruct (solo LG (p_value rq l) st) as [lout st1]. cbn [fst snd] in *.
          intros F. revert F. eapply fits_before; [exact A1|apply stops_end].
        + exists st'. split; [apply stops_first, K|exact Hs].
      - destruct f; try discriminate En; try (destruct (NH _ eq_refl)). cbn [p_exec p_assert_equal] in *.
        destruct (Fi l ltac:(left; reflexivity)) as (_ & _ & Dl). destruct (Fi r ltac:(right; left; reflexivity)) as (_ & Cr & _).
        destruct (solo_log (p_value rq l) st A) as [A1 _].
        assert (F1 : fits (snd (snd (solo LG (p_value rq l) st)))).
        { revert F. rewrite solo_bind. destruct (solo LG (p_value rq l) st) as [lout st1]. cbn [fst snd] in *. eapply fits_before; [exact A1|apply stops_end]. }
        destruct (does_end _ _ st w Dl A F1 Sw) as (w2 & Hg2 & Hs1).
        destruct (proj1 (reference_fun B) _ _ _ _ Hg2 _ _ _ (same_refl w) Hg) as [Eo Ew]. apply (shows_same I _ _ _ Ew) in Hs1.
        rewrite solo_bind in F.
        assert (X : exists st', stops LG (pbind (p_value rq r) (fun rout => match rout with
                | Ok rv => if value_eqb v rv then Done (Ok unit_value) else Done (Err (WErr (lit "Assertion failed, " ++ display v ++ lit " != " ++ display rv)))
                | Err e => Done (Err e) | Panic w => Done (Panic w) end)) (snd (solo LG (p_value rq l) st)) st' /\ shows I (fst st') w').
        { destruct (solo LG (p_value rq l) st) as [[lv|e|x] st1]; cbn [fst snd outcome_of] in *; try discriminate Eo. injection Eo as ->.
          destruct (Cr st1 w1 w' A1) as (st' & K & Hs); [|exact Hs1|exact Hd|].
          - revert F. rewrite solo_end; [auto|]. intros [rv|e|x]; [destruct (value_eqb v rv)|..]; eexists; reflexivity.
          - exists st'. split; [apply stops_first, K|exact Hs]. }
        destruct X as (st' & K & Hs). exists st'. split; [|exact Hs]. apply stops_second.
        destruct (solo LG (p_value rq l) st) as [[lv|e|x] st1]; cbn [fst snd outcome_of] in *; try discriminate Eo. injection Eo as ->. exact K.
      - destruct f; try discriminate En; try (destruct (NH _ eq_refl)). cbn [p_exec p_assert_fail] in *.
        destruct (Fi (VQuote q) ltac:(left; reflexivity)) as (_ & Cq & _). destruct (Cq st w w' A) as (st' & K & Hs); [|exact Sw|exact Hd|].
        + revert F. rewrite solo_end; [auto|]. intros [v|e|x]; eexists; reflexivity.
        + exists st'. split; [apply stops_first, K|exact Hs].
      - destruct f; try discriminate En; try (destruct (NH _ eq_refl)). cbn [p_exec p_let] in *.
        destruct (Fi (VQuote q) ltac:(right; left; reflexivity)) as (_ & Cq & _). destruct (Cq st w w' A) as (st' & K & Hs); [|exact Sw|exact Hd|].
        + revert F. rewrite solo_bind. cbn [p_value]. destruct (solo_log (rq q) st A) as [A1 _]. destruct (solo LG (rq q) st) as [out st1]. cbn [fst snd] in *.
          eapply fits_before; [exact A1|apply stops_end].
        + exists st'. split; [apply stops_first, K|exact Hs].
      - destruct f; try discriminate En; try (destruct (NH _ eq_refl)). cbn [p_exec p_let] in *. eapply let_complete; eassumption.
      - destruct f; try discriminate En; try (destruct (NH _ eq_refl)). cbn [p_exec p_let] in *.
        destruct (Fi (VQuote q) ltac:(right; left; reflexivity)) as (_ & _ & Dq). cbn [p_value] in Dq.
        destruct (solo_log (rq q) st A) as [A1 _].
        assert (F1 : fits (snd (snd (solo LG (rq q) st)))).
        { revert F. rewrite solo_bind. destruct (solo LG (rq q) st) as [lout st1]. cbn [fst snd] in *. eapply fits_before; [exact A1|apply stops_end]. }
        destruct (does_end _ _ st w Dq A F1 Sw) as (w2 & Hg2 & Hs1).
        destruct (proj1 (reference_fun B) _ _ _ _ Hg2 _ _ _ (same_refl w) Hg) as [Eo Ew]. apply (shows_same I _ _ _ Ew) in Hs1.
        rewrite solo_bind in F.
        assert (X : exists st', stops LG (p_let_store c n) (snd (solo LG (rq q) st)) st' /\ shows I (fst st') w').
        { destruct (solo LG (rq q) st) as [[lv|e|x] st1]; cbn [fst snd outcome_of] in *; try discriminate Eo. injection Eo as ->.
          eapply let_complete; eassumption. }
        destruct X as (st' & K & Hs). exists st'. split; [|exact Hs]. apply stops_second.
        destruct (solo LG (rq q) st) as [[lv|e|x] st1]; cbn [fst snd outcome_of] in *; try discriminate Eo. injection Eo as ->. exact K.
    Qed.
  End Quotes.

  (** ** Quotes *)
  Lemma fine_plain rq v : (forall q, v <> VQuote q) -> fine rq v.
  Proof.
    intros N. destruct v as [e|q|n]; [|destruct (N q eq_refl)|]; (split; [apply sound_now; intros; apply dv_before|split]).
    - intros st w w' A F Sw H. inversion H; subst. exists st. split; [apply stops_now|exact Sw].
    - intros st. apply follows_stay. intros. constructor.
    - intros st w w' A F Sw H. inversion H; subst. exists st. split; [apply stops_now|exact Sw].
    - intros st. apply follows_stay. intros. constructor.
  Qed.

  (** One call: the command is looked up and executed. *)
  Lemma one_call rq n args : (forall v, In v args -> fine rq v) ->
    does_as (calls B (el_name n) args) (p_calls_loop rq common [Call n args] unit_value) ->
    sound (dies_call B (el_name n) args) (p_calls_loop rq common [Call n args] unit_value)
    /\ complete (dies_call B (el_name n) args) (p_calls_loop rq common [Call n args] unit_value).
  Proof.
    intros Fi D. cbn [p_calls_loop c_name c_args] in *. destruct (cmd_get common (el_name n)) as [cmd|] eqn:Ec.
    - set (p := p_exec rq common (cmd_fun_of cmd) args) in *.
      set (f := fun out : wres value => match out with Ok v => Done (Ok v) | Err e => Done (Err e) | Panic w => Done (Panic w) end) in *.
      assert (Ff : forall r, exists r', f r = Done r') by (intros [v|e|x]; eexists; reflexivity).
      assert (Fs : forall st, solo LG (pbind p f) st = solo LG p st).
      { intros st. rewrite solo_bind. destruct (solo LG p st) as [[v|e|x] st1]; reflexivity. }
      apply cmd_get_iff in Ec; [|apply common_table]. destruct (common_fname _ _ Ec) as [En NH].
      assert (D' : does_as (calls B (fname (cmd_fun_of cmd)) args) p) by (intros st; rewrite <- En; pose proof (D st) as K; rewrite Fs in K; exact K).
      split.
      + intros st st' w A H F Sw. apply stops_end_bind in H; [|exact Ff]. rewrite En. exact (exec_sound rq _ args NH Fi D' st st' w A H F Sw).
      + intros st w w' A F Sw H. rewrite Fs in F. rewrite En in H. destruct (exec_complete rq _ args NH Fi D' st w w' A F Sw H) as (st' & K & Hs).
        exists st'. split; [apply stops_first, K|exact Hs].
    - split; [apply sound_now; intros; apply dc_before|]. intros st w w' A F Sw H. exists st. split; [apply stops_now|].
      rewrite cmd_get_none in Ec by apply common_table. assert (Nm := not_common _ Ec).
      assert (X : dies_call B (el_name n) args w w' -> ~ In (el_name n) (map fst manual) -> same_world w w').
      { clear. intros H N. inversion H; subst; try (intros m; reflexivity); try (exfalso; apply N; match goal with E : lit _ = el_name n |- _ => rewrite <- E end; cbn; tauto).
        match goal with Hc : calls _ _ _ _ _ _ |- _ => destruct (proj2 (reference_fun B) _ _ _ _ _ Hc _ _ _ (same_refl w) (ca_unknown B _ args w N)) as [_ E] end.
        intros m. symmetry. apply E. }
      exact (shows_same I _ _ _ (X H Nm) Sw).
  Qed.

  Lemma depth_le v l : In v l -> depth v <= depths l.
  Proof.
    induction l as [|x l IH]; [intros []|]. rewrite depths_cons. intros [->|H]; [lia|]. specialize (IH H). lia.
  Qed.

  Lemma solo_quotes fuel q st : depths q < fuel ->
    quotes LG common q st (fst (solo LG (p_quote_f fuel common q) st)) (snd (solo LG (p_quote_f fuel common q) st)).
  Proof. intros H. rewrite solo_quote_f, on_store_common. apply P_Interp.sound; [apply common_table|exact H]. Qed.

  Lemma quote_fine fuel : forall q, depths q < fuel -> Forall proper q -> fine (p_quote_f fuel common) (VQuote q).
  Proof.
    induction fuel as [|fuel IH]; intros q Hd Pq; [inversion Hd|].
    assert (Dq : does_as (gives B (VQuote q)) (p_quote_f (Datatypes.S fuel) common q)).
    { intros st. apply (proj1 (proj2 (follows_all B I s0 fits AB))); [apply solo_quotes, Hd|exact Pq]. }
    destruct q as [|[n|q'|nw] args].
    - split; [apply sound_now; intros; apply dv_before|]. split; [|exact Dq].
      intros st w w' A F Sw H. inversion H; subst. exists st. split; [apply stops_now|exact Sw].
    - rewrite depths_cons in Hd. cbn [depth] in Hd. inversion Pq as [|? ? _ Pa]; subst.
      assert (Fi : forall v, In v args -> fine (p_quote_f fuel common) v).
      { intros v Hv. destruct v as [e|q|m]; [apply fine_plain; discriminate| |apply fine_plain; discriminate].
        apply IH.
        - pose proof (depth_le _ _ Hv) as X. rewrite depth_quote in X. lia.
        - rewrite Forall_forall in Pa. specialize (Pa _ Hv). inversion Pa; assumption. }
      assert (D : does_as (calls B (el_name n) args) (p_calls_loop (p_quote_f fuel common) common [Call n args] unit_value)).
      { intros st. apply (proj1 (proj2 (proj2 (follows_all B I s0 fits AB)))); [|exact Pa].
        pose proof (solo_quotes (Datatypes.S fuel) (VElement n :: args) st) as K. cbn [p_quote_f] in K. rewrite depths_cons in K. cbn [depth] in K. specialize (K Hd).
        inversion K as [|? ? ? ? ? Kd|? ? ? Kn]; subst; [exact Kd|destruct (Kn n eq_refl)]. }
      destruct (one_call _ n args Fi D) as [S1 C1]. split; [|split; [|exact Dq]].
      + intros st st' w A H F Sw. destruct (S1 st st' w A H F Sw) as (w' & K & Hs). exists w'. split; [apply dv_call, K|exact Hs].
      + intros st w w' A F Sw H. inversion H; subst; [exists st; split; [apply stops_now|exact Sw]|]. eapply C1; eassumption.
    - split; [apply sound_now; intros; apply dv_before|]. split; [|exact Dq].
      intros st w w' A F Sw H. inversion H; subst. exists st. split; [apply stops_now|exact Sw].
    - split; [apply sound_now; intros; apply dv_before|]. split; [|exact Dq].
      intros st w w' A F Sw H. inversion H; subst. exists st. split; [apply stops_now|exact Sw].
  Qed.
End Cuts.
