(** * Proofs: dying scripts and lives follow the reference *)
From Coq Require Import List Arith NArith Bool String Lia.
From Verif Require Import M_Base M_Data M_Mem M_Heed M_HeedRel M_Duck M_DuckReal M_Regex M_Lexer M_Graph M_Parser M_Display M_Interp M_Conc
  S_Order S_Str S_Store S_Graph S_Lexer S_Parser S_Interp S_Json S_GraphHist S_Names S_Conc S_DuckReal S_Wander S_Deaths
  P_Ord P_Hist P_Lexer P_LexMore P_Parser P_Mem P_Graph P_Interp P_InterpMore P_InterpStores P_InterpProps P_Crash P_Agree P_Sim P_Names P_Conc P_Heed P_HeedHist P_Duck P_DuckReal P_HeedRel
  P_Wander P_WanderStores P_WanderReal P_WanderDet P_WanderRun P_Again P_Deaths S_Wander S_Deaths.
Import ListNotations.
Open Scope list_scope.

(** ** After the first half of a let *)
Definition creates (B : backend) {S : Type} (I : trips_impl S) (s0 : S) (fits : list op -> Prop) : Prop :=
  forall h w c a s1 h1, shows I (after I s0 h) w ->
    l_add_collection (graph_impl (logged I)) (after I s0 h, h) c = (a, (s1, h1)) -> fits h1 ->
    exists o w', binds w (el_name c) [] B o w' /\ shows I s1 w'.

Lemma creates_let B S (I : trips_impl S) s0 fits : abides B I s0 fits ->
  (forall h c, fits h -> fits (h ++ [OAdd c []])) -> (forall h c, snd (call_op I (after I s0 h) (OAdd c [])) = after I s0 h) ->
  creates B I s0 fits.
Proof.
  intros AB F0 N h w c a s1 h1 Sw E F.
  destruct (log_coll I s0 (after I s0 h, h) c a (s1, h1) eq_refl E) as [A _]. unfold at_log in A. cbn [fst snd] in A. subst s1.
  assert (D : (exists x, a = Panic x) \/ forall x, a <> Panic x) by (destruct a; [right; congruence..|left; eauto]).
  destruct D as [[x ->]|D].
  - destruct (ab_let _ _ _ _ AB h w c [] (Panic x) _ _ Sw (st_first _ _ _ _ _ _ E) F) as (w' & Bi & Sw'). eauto.
  - destruct (l_add_entries (graph_impl (logged I)) (after I s0 h1, h1) c []) as [[b [s2 h2]] n'] eqn:E2.
    assert (X : s2 = after I s0 h1 /\ h2 = h1 ++ [OAdd (el_name c) []]).
    { cbn in E2. unfold graph_add_entries in E2. cbn in E2. specialize (N h1 (el_name c)). cbn [call_op] in N.
      destruct (t_add_triples I (after I s0 h1) (el_name c) []) as [[x y] z]. cbn in E2, N. injection E2 as _ <- <- _. auto. }
    destruct X as [-> ->].
    destruct b as [b|b|x].
    1,2: eapply (ab_let _ _ _ _ AB h w c []) in Sw as (w' & Bi & Sw'); [eauto|eapply st_both; [exact E|exact D|exact E2|discriminate]|apply F0, F].
    eapply (ab_let _ _ _ _ AB h w c []) in Sw as (w' & Bi & Sw'); [eauto|eapply st_second; [exact E|exact D|exact E2]|apply F0, F].
Qed.

Section Like.
  Context (B : backend) {S T : Type} (I : trips_impl S) (s0 : S) (fits : list op -> Prop) (J : trips_impl T) (t0 : T) (fits' : list op -> Prop).
  Hypotheses (C : creates B I s0 fits)
    (pre : forall h g, fits' (h ++ g) -> fits' h)
    (sub : forall h, fits' h -> fits h)
    (like_has : forall h c, fits' h -> (has J (after J t0 h) c <-> has I (after I s0 h) c))
    (like_triples : forall h c, fits' h -> t_triples J (after J t0 h) c = t_triples I (after I s0 h) c)
    (like_answer : forall h o, fits' (h ++ [o]) -> fst (call_op J (after J t0 h) o) = fst (call_op I (after I s0 h) o)).

  Lemma creates_like : creates B J t0 fits'.
  Proof.
    intros h w c a s1 h1 Sw E F.
    assert (F1 : fits' (h ++ [OAddColl (el_name c)])).
    { assert (h1 = h ++ [OAddColl (el_name c)]) as <-; [|exact F]. cbn in E. unfold graph_add_collection in E. cbn in E.
      destruct (t_add_collection J (after J t0 h) (el_name c)). cbn in E. injection E as _ _ <-. reflexivity. }
    destruct (like_coll I s0 J t0 fits' like_answer h c a (s1, h1) F1 E) as [X E']. injection X as -> ->.
    apply (like_shows I s0 J t0 fits' like_has like_triples h w (pre _ _ F1)) in Sw.
    destruct (C h w c a _ _ Sw E' (sub _ F)) as (o & w' & Bi & Sw'). exists o, w'. split; [exact Bi|].
    apply (like_shows I s0 J t0 fits' like_has like_triples _ w' F). exact Sw'.
  Qed.
End Like.

Lemma creates_mem : creates InMemory mem_impl mem_new (fun _ => True).
Proof.
  apply creates_let; [exact abides_mem|auto|]. intros h c. cbn [call_op mem_impl t_add_triples]. unfold mem_add_triples.
  destruct (bm_get str_cmp c (after mem_impl mem_new h)) as [r|] eqn:E; [|reflexivity]. cbn [fst snd]. unfold bs_append. cbn [fold_left].
  apply (bm_insert_same str_order); [|exact E]. apply mem_inv_reach.
Qed.

Lemma creates_lmdb : creates Lmdb heed_impl heed_new (fun h => total_weight h < 2 ^ 64)%N.
Proof.
  apply creates_let; [exact abides_lmdb|intros h c; rewrite total_weight_app; cbn; lia|]. intros h c. cbn. unfold heed_add_triples_tx.
  destruct (sget (h_c2i (after heed_impl heed_new h)) c) as [[cid|]|e|x]; try reflexivity.
  destruct (sget (h_ids (after heed_impl heed_new h)) id_key) as [[v|]|e|x]; reflexivity.
Qed.

Lemma creates_duck : creates DuckDb duck_impl duck_new (fun h => dtotal h < 2 ^ 63)%N.
Proof.
  apply creates_let; [exact abides_duck|intros h c; rewrite dtotal_app; cbn; lia|]. intros h c. cbn. unfold duck_add_triples.
  destruct (duck_get_collection_id (after duck_impl duck_new h) c) as [cid|e|x]; reflexivity.
Qed.

Lemma creates_release : creates Lmdb release_impl heed_new (fun h => total_weight h < 2 ^ 64)%N.
Proof.
  assert (E : forall h, (total_weight h < 2 ^ 64)%N -> after release_impl heed_new h = after heed_impl heed_new h) by (intros h H; apply release_histories; lia).
  apply (creates_like Lmdb heed_impl heed_new (fun h => total_weight h < 2 ^ 64)%N).
  - exact creates_lmdb.
  - intros h g. rewrite total_weight_app. lia.
  - auto.
  - intros h c F. rewrite (E h F). reflexivity.
  - intros h c F. rewrite (E h F). reflexivity.
  - intros h o F. assert (Fh : (total_weight h < 2 ^ 64)%N) by (rewrite total_weight_app in F; lia). rewrite (E h Fh).
    destruct (release_same true (after heed_impl heed_new h) o) as [X|X]; [fold heed_impl release_impl in X; rewrite X; reflexivity|].
    exfalso. apply (no_overflow_tight h o); [lia|]. fold heed_impl in X. rewrite X. reflexivity.
Qed.

Lemma creates_real w lost : harmless w -> healthy w -> loses w lost -> creates DuckDb (real_impl w) (duck_new, O) (real_room w lost).
Proof.
  intros HW HH HL. apply (creates_like DuckDb duck_impl duck_new (fun h => dtotal h < 2 ^ 63)%N).
  - exact creates_duck.
  - exact (real_room_prefix w lost HW HL).
  - unfold real_room. intros h. lia.
  - intros h c F. destruct (real_same_reads w lost h HW HH HL F) as (_ & l & l' & El & El' & P). change rnew with (duck_new, O) in El. split.
    + intros (k & Ek & Hi). rewrite El in Ek. injection Ek as <-. exists l'. split; [exact El'|]. eapply Permutation.Permutation_in; eassumption.
    + intros (k & Ek & Hi). rewrite El' in Ek. injection Ek as <-. exists l. split; [exact El|].
      eapply Permutation.Permutation_in; [apply Permutation.Permutation_sym, P|exact Hi].
  - intros h c F. destruct (real_same_reads w lost h HW HH HL F) as [K _]. exact (K c).
  - intros h o F. destruct (real_same w lost (h ++ [o]) HW HH HL F) as [K _]. rewrite !answers_snoc in K. apply app_inj_tail in K as [_ K]. exact K.
Qed.

Lemma implements_creates B S (I : trips_impl S) s0 room : implements B I s0 room -> creates B I s0 room.
Proof. intros [| | | |w lost HW HH HL]; [exact creates_mem|exact creates_lmdb|exact creates_duck|exact creates_release|exact (creates_real w lost HW HH HL)]. Qed.

(** ** Programs and scripts *)
Section Runs.
  Context (B : backend) {S : Type} (I : trips_impl S) (s0 : S) (fits : list op -> Prop) (AB : abides B I s0 fits) (CR : creates B I s0 fits).
  Notation LG := (graph_impl (logged I)).
  Notation rq := (p_quote common).

  Lemma top_fine v : proper v -> fine B I s0 fits rq v.
  Proof.
    intros P. destruct v as [e|q|n]; [apply (fine_plain B I s0 fits); discriminate| |apply (fine_plain B I s0 fits); discriminate].
    inversion P; subst. exact (quote_fine B I s0 fits AB CR _ q (Nat.lt_succ_diag_r _) H0).
  Qed.

  Lemma one_does c args : Forall proper args -> does_as I s0 fits (calls B (el_name c) args) (p_calls_loop rq common [Call c args] unit_value).
  Proof.
    intros P st. apply (proj1 (proj2 (proj2 (follows_all B I s0 fits AB)))); [|exact P].
    pose proof (solo_calls LG common [Call c args] st) as E. unfold p_calls in E. rewrite E, on_store_common.
    destruct (run_calls LG common [Call c args] st) as [r st'] eqn:Er. apply (runs_iff _ _ common_table) in Er. cbn [fst snd].
    inversion Er as [|? ? ? ? H|? ? ? ? ? ? ? H Hne|? ? ? ? ? H]; subst; [exact H|destruct (Hne eq_refl)|exact H].
  Qed.

  Lemma top_call c : proper_call c ->
    sound I s0 fits (dies_call B (el_name (c_name c)) (c_args c)) (p_calls_loop rq common [c] unit_value)
    /\ complete I s0 fits (dies_call B (el_name (c_name c)) (c_args c)) (p_calls_loop rq common [c] unit_value).
  Proof.
    destruct c as [n args]. cbn [c_name c_args]. intros P. unfold proper_call in P. cbn [c_args] in P.
    apply (one_call B I s0 fits AB CR); [|apply one_does, P]. intros v Hv. apply top_fine. rewrite Forall_forall in P. exact (P v Hv).
  Qed.

  (** The first call, then the rest. *)
  Lemma one_solo c st : solo LG (p_calls_loop rq common [c] unit_value) st
    = match cmd_get common (el_name (c_name c)) with
      | Some cmd => solo LG (p_exec rq common (cmd_fun_of cmd) (c_args c)) st
      | None => (Err (WErr (lit "Could not find command: " ++ el_name (c_name c))), st) end.
  Proof.
    cbn [p_calls_loop]. destruct (cmd_get common (el_name (c_name c))) as [cmd|]; [|reflexivity]. rewrite solo_bind.
    destruct (solo LG (p_exec rq common (cmd_fun_of cmd) (c_args c)) st) as [[v|e|x] st1]; reflexivity.
  Qed.

  Lemma loop_solo c rest res st : solo LG (p_calls_loop rq common (c :: rest) res) st
    = match solo LG (p_calls_loop rq common [c] unit_value) st with
      | (Ok v, st1) => solo LG (p_calls_loop rq common rest v) st1
      | other => other end.
  Proof.
    rewrite one_solo. cbn [p_calls_loop]. destruct (cmd_get common (el_name (c_name c))) as [cmd|]; [|reflexivity]. rewrite solo_bind.
    destruct (solo LG (p_exec rq common (cmd_fun_of cmd) (c_args c)) st) as [[v|e|x] st1]; reflexivity.
  Qed.

  Lemma loop_stops c rest res st st' : stops LG (p_calls_loop rq common (c :: rest) res) st st' ->
    stops LG (p_calls_loop rq common [c] unit_value) st st'
    \/ exists v st1, solo LG (p_calls_loop rq common [c] unit_value) st = (Ok v, st1) /\ stops LG (p_calls_loop rq common rest v) st1 st'.
  Proof.
    intros H. pose proof (stops_end LG (p_calls_loop rq common [c] unit_value) st) as E. rewrite one_solo in *. cbn [p_calls_loop] in *.
    destruct (cmd_get common (el_name (c_name c))) as [cmd|]; [|left; exact H].
    apply stops_bind in H as [H|H]; [left; apply stops_first, H|].
    destruct (solo LG (p_exec rq common (cmd_fun_of cmd) (c_args c)) st) as [[v|e|x] st1]; cbn [fst snd] in *.
    - right. eauto.
    - left. apply stops_done in H as ->. exact E.
    - left. apply stops_done in H as ->. exact E.
  Qed.

  Lemma loop_first c rest res st st' : stops LG (p_calls_loop rq common [c] unit_value) st st' -> stops LG (p_calls_loop rq common (c :: rest) res) st st'.
  Proof.
    intros H. cbn [p_calls_loop] in *. destruct (cmd_get common (el_name (c_name c))) as [cmd|]; [|exact H].
    apply stops_end_bind in H; [apply stops_first, H|]. intros [v|e|x]; eexists; reflexivity.
  Qed.

  Lemma loop_later c rest res st v st1 st' : solo LG (p_calls_loop rq common [c] unit_value) st = (Ok v, st1) ->
    stops LG (p_calls_loop rq common rest v) st1 st' -> stops LG (p_calls_loop rq common (c :: rest) res) st st'.
  Proof.
    intros E H. rewrite one_solo in E. cbn [p_calls_loop]. destruct (cmd_get common (el_name (c_name c))) as [cmd|]; [|discriminate E].
    apply stops_second. rewrite E. exact H.
  Qed.

  Lemma loop_fine cs : Forall proper_call cs -> forall res,
    sound I s0 fits (dies_calls B cs) (p_calls_loop rq common cs res) /\ complete I s0 fits (dies_calls B cs) (p_calls_loop rq common cs res).
  Proof.
    induction 1 as [|[n args] rest Pc Pr IH]; intros res.
    - split; [apply sound_now; constructor|]. intros st w w' A F Sw H. inversion H; subst. exists st. split; [apply stops_now|exact Sw].
    - set (c := Call n args) in *. destruct (top_call c Pc) as [S1 C1]. pose proof (one_does n args Pc) as D. fold c in D. split.
      + intros st st' w A H F Sw. apply loop_stops in H as [H|(v & st1 & E & H)].
        * destruct (S1 st st' w A H F Sw) as (w' & K & Hs). exists w'. split; [apply ds_here, K|exact Hs].
        * destruct (solo_log I s0 (p_calls_loop rq common [c] unit_value) st A) as [A1 _]. rewrite E in A1. cbn [snd] in A1.
          pose proof (fits_before B I s0 fits AB _ _ _ A1 H F) as F1.
          destruct (does_end I s0 fits _ _ st w D A) as (w1 & Hc & Hs1); [rewrite E; exact F1|exact Sw|]. rewrite E in Hc, Hs1. cbn [fst snd outcome_of] in *.
          destruct (proj1 (IH v) st1 st' w1 A1 H F Hs1) as (w' & K & Hs). exists w'. split; [eapply ds_later; eassumption|exact Hs].
      + intros st w w' A F Sw H.
        destruct (solo_log I s0 (p_calls_loop rq common [c] unit_value) st A) as [A1 _].
        assert (F1 : fits (snd (snd (solo LG (p_calls_loop rq common [c] unit_value) st)))).
        { rewrite loop_solo in F. destruct (solo LG (p_calls_loop rq common [c] unit_value) st) as [[v|e|x] st1]; cbn [snd] in *; try exact F.
          eapply (fits_before B I s0 fits AB); [exact A1|apply stops_end|exact F]. }
        inversion H as [|? ? ? ? Hd|? ? ? v w1 ? Hc Hd]; subst.
        * destruct (C1 st w w' A F1 Sw Hd) as (st' & K & Hs). exists st'. split; [apply loop_first, K|exact Hs].
        * destruct (does_end I s0 fits _ _ st w D A F1 Sw) as (w2 & Hc2 & Hs1).
          destruct (proj2 (reference_fun B) _ _ _ _ _ Hc2 _ _ _ (same_refl w) Hc) as [Eo Ew]. apply (shows_same I _ _ _ Ew) in Hs1.
          rewrite loop_solo in F. destruct (solo LG (p_calls_loop rq common [c] unit_value) st) as [[x|e|x] st1] eqn:E; cbn [fst snd outcome_of] in *; try discriminate Eo.
          injection Eo as ->. destruct (proj2 (IH v) st1 w1 w' A1 F Hs1 Hd) as (st' & K & Hs). exists st'. split; [eapply loop_later; eassumption|exact Hs].
  Qed.

  Lemma run_fine script : sound I s0 fits (fun w => dies_in B w script) (p_run common script) /\ complete I s0 fits (fun w => dies_in B w script) (p_run common script).
  Proof.
    unfold p_run.
    assert (Q : forall r, (forall tokens kept cs, lexes script tokens -> keeps tokens kept -> ~ g_script kept cs) ->
      sound I s0 fits (fun w => dies_in B w script) (Done r) /\ complete I s0 fits (fun w => dies_in B w script) (Done r)).
    { intros r N. split; [apply sound_now; intros; constructor|]. intros st w w' A F Sw H. exists st. split; [apply stops_now|].
      destruct H as [|tokens kept cs w' H1 H2 H3 _]; [exact Sw|]. destruct (N _ _ _ H1 H2 H3). }
    destruct (tokenize script) as [ts|e|x] eqn:Et.
    - destruct (filter_keeps _ _ Et) as (kept & Ek & Kp & U). rewrite Ek.
      assert (On : forall tokens k, lexes script tokens -> keeps tokens k -> k = kept).
      { intros tokens k L K. apply tokenize_ok in L. assert (tokens = ts) as -> by congruence. apply U, K. }
      apply tokenize_ok in Et. destruct (parse kept) as [cs|e|x] eqn:Ep.
      + pose proof Ep as Eg. apply parse_ok in Eg. destruct (loop_fine cs (g_script_proper _ _ Eg) unit_value) as [S1 C1]. split.
        * intros st st' w A H F Sw. destruct (S1 st st' w A H F Sw) as (w' & K & Hs). exists w'. split; [eapply di_runs; eassumption|exact Hs].
        * intros st w w' A F Sw H. inversion H as [|tokens k ds ? L K Hg Hd]; subst; [exists st; split; [apply stops_now|exact Sw]|].
          rewrite (On _ _ L K) in Hg. apply parse_ok in Hg. assert (ds = cs) as -> by congruence. exact (C1 st w w' A F Sw Hd).
      + apply Q. intros tokens k ds L K Hg. rewrite (On _ _ L K) in Hg. apply parse_ok in Hg. congruence.
      + apply Q. intros tokens k ds L K Hg. rewrite (On _ _ L K) in Hg. apply parse_ok in Hg. congruence.
    - unfold tokenize_and_filter. rewrite Et. apply Q. intros tokens k ds L. apply tokenize_ok in L. congruence.
    - exfalso. eapply tokenize_no_panic; eauto.
  Qed.
End Runs.

(** ** The log changes nothing *)
Section Plain.
  Context {S : Type} (I : trips_impl S).
  Notation G := (graph_impl I).
  Notation LG := (graph_impl (logged I)).

  Lemma logged_perform q st : fst (perform LG q st) = fst (perform G q (fst st)) /\ fst (snd (perform LG q st)) = snd (perform G q (fst st)).
  Proof.
    destruct st as [s h]. destruct q; cbn [perform]; try (split; reflexivity).
    - cbn. unfold graph_add_collection. cbn. destruct (t_add_collection I s (el_name c)) as [y z]. split; reflexivity.
    - cbn. unfold graph_remove_collection. cbn. destruct (t_remove_collection I s (el_name c)) as [y z]. split; reflexivity.
    - cbn. unfold graph_add_entries. cbn. fold (trips_of es). destruct (t_add_triples I s (el_name c) (trips_of es)) as [[y z] t]. split; reflexivity.
    - cbn. unfold graph_remove_entries. cbn. fold (trips_of es). destruct (t_remove_triples I s (el_name c) (trips_of es)) as [[y z] t]. split; reflexivity.
  Qed.

  Lemma logged_alone m : forall p st, fst (alone LG m p st) = fst (alone G m p (fst st)) /\ fst (snd (alone LG m p st)) = snd (alone G m p (fst st)).
  Proof.
    induction m as [|m IH]; intros p st; [destruct p; split; reflexivity|]. destruct p as [r|q k]; [split; reflexivity|]. cbn [alone].
    destruct (logged_perform q st) as [E1 E2]. destruct (perform LG q st) as [a st1], (perform G q (fst st)) as [b s1]. cbn [fst snd] in *. subst b s1. apply IH.
  Qed.

  Lemma logged_life ds : forall st, fst (life LG ds st) = fst (life G ds (fst st)) /\ fst (snd (life LG ds st)) = snd (life G ds (fst st)).
  Proof.
    induction ds as [|[x|x m] ds IH]; intros st; cbn [life]; [split; reflexivity| |].
    - destruct (run LG common x st) as [a [s1 h1]] eqn:E. destruct st as [s h]. pose proof (logged_run I x s h a s1 h1 E) as E'. cbn [fst]. rewrite E'.
      destruct (IH (s1, h1)) as [E1 E2]. cbn [fst] in E1, E2. destruct (life LG ds (s1, h1)) as [rs st2], (life G ds s1) as [rs' s2]. cbn [fst snd] in *. subst. split; reflexivity.
    - destruct (logged_alone m (p_run common x) st) as [_ E]. rewrite <- E. apply IH.
  Qed.
End Plain.

Section Lives.
  Context (B : backend) {S : Type} (I : trips_impl S) (s0 : S) (room : list op -> Prop) (HI : implements B I s0 room).
  Notation G := (graph_impl I).
  Notation LG := (graph_impl (logged I)).
  Let AB : abides B I s0 room := implements_abides _ _ _ _ _ HI.
  Let CR : creates B I s0 room := implements_creates _ _ _ _ _ HI.

  Lemma solo_common x st : solo LG (p_run common x) st = run LG common x st.
  Proof. rewrite solo_run, on_store_common. reflexivity. Qed.

  Lemma death_exact h script w : shows I (after I s0 h) w -> room (snd (snd (run LG common script (after I s0 h, h)))) ->
    forall w', (exists v, dies_in B w script v /\ same_world v w') <-> exists m, shows I (snd (alone G m (p_run common script) (after I s0 h))) w'.
  Proof.
    intros Sw R w'. destruct (run_fine B I s0 room AB CR script) as [Sd Cp]. rewrite <- solo_common in R. split.
    - intros (v & D & E). destruct (Cp (after I s0 h, h) w v eq_refl R Sw D) as (st' & [m K] & Hs). exists m.
      destruct (logged_alone I m (p_run common script) (after I s0 h, h)) as [_ X]. cbn [fst] in X. rewrite <- X, K. exact (shows_same I _ _ _ E Hs).
    - intros (m & Hs). destruct (logged_alone I m (p_run common script) (after I s0 h, h)) as [_ X]. cbn [fst] in X. rewrite <- X in Hs.
      set (st' := snd (alone LG m (p_run common script) (after I s0 h, h))) in *. assert (K : stops LG (p_run common script) (after I s0 h, h) st') by (exists m; reflexivity).
      assert (F : room (snd st')).
      { assert (Y : exists g, snd (snd (solo LG (p_run common script) (after I s0 h, h))) = snd st' ++ g); [|destruct Y as [g Y]; rewrite Y in R; exact (ab_prefix _ _ _ _ AB _ _ R)].
        unfold st'. clear -s0. generalize (p_run common script) as p. generalize (@eq_refl _ (after I s0 h) : at_log I s0 (after I s0 h, h)). generalize (after I s0 h, h) as st.
        induction m as [|m IH]; intros st A p.
        - destruct p; cbn [alone snd]; exact (proj2 (solo_log I s0 _ st A)).
        - destruct p as [r|q k]; cbn [alone solo snd]; [exists []; symmetry; apply app_nil_r|]. pose proof (perform_log I s0 q st A) as [A1 _].
          destruct (perform LG q st) as [a st1]. cbn [snd] in A1. exact (IH st1 A1 (k a)). }
      destruct (Sd (after I s0 h, h) st' w eq_refl K F Sw) as (v & D & Hv). exists v. split; [exact D|exact (shows_fun I _ _ _ Hv Hs)].
  Qed.

  Lemma life_log ds : forall st, at_log I s0 st -> at_log I s0 (snd (life LG ds st)) /\ exists g, snd (snd (life LG ds st)) = snd st ++ g.
  Proof.
    induction ds as [|[x|x m] ds IH]; intros st A; cbn [life].
    - split; [exact A|exists []; symmetry; apply app_nil_r].
    - pose proof (solo_log I s0 (p_run common x) st A) as [A1 [g1 P1]]. rewrite solo_common in A1, P1. destruct (run LG common x st) as [a st1]. cbn [snd] in A1, P1.
      destruct (IH st1 A1) as [A2 [g2 P2]]. destruct (life LG ds st1) as [rs st2]. cbn [snd] in *. split; [exact A2|]. exists (g1 ++ g2). rewrite P2, P1, app_assoc. reflexivity.
    - destruct (stops_log I s0 (p_run common x) st _ A (ex_intro _ m eq_refl)) as [A1 [g1 P1]].
      destruct (IH _ A1) as [A2 [g2 P2]]. split; [exact A2|]. exists (g1 ++ g2). rewrite P2, P1, app_assoc. reflexivity.
  Qed.

  Lemma life_follows ds : forall st w, at_log I s0 st -> shows I (fst st) w -> room (snd (snd (life LG ds st))) ->
    exists w', lived B w ds (map outcome_of (fst (life LG ds st))) w' /\ shows I (fst (snd (life LG ds st))) w'.
  Proof.
    induction ds as [|[x|x m] ds IH]; intros st w A Sw R; cbn [life] in *.
    - exists w. split; [constructor|exact Sw].
    - pose proof (solo_log I s0 (p_run common x) st A) as [A1 _]. rewrite solo_common in A1.
      destruct (run LG common x st) as [a st1] eqn:E. cbn [snd] in A1. destruct (life LG ds st1) as [rs st2] eqn:E2. cbn [fst snd] in *.
      assert (R1 : room (snd st1)).
      { destruct (life_log ds st1 A1) as [_ [g P]]. rewrite E2 in P. cbn [snd] in P. rewrite P in R. exact (ab_prefix _ _ _ _ AB _ _ R). }
      destruct (follows_run B I s0 room AB x st a st1 E A) as (_ & _ & K). destruct (K R1 w Sw) as (w1 & M & S1).
      specialize (IH st1 w1 A1 S1). rewrite E2 in IH. destruct (IH R) as (w2 & L & S2). exists w2. split; [cbn [map]; econstructor; eassumption|exact S2].
    - set (st1 := snd (alone LG m (p_run common x) st)) in *. assert (K : stops LG (p_run common x) st st1) by (exists m; reflexivity).
      destruct (stops_log I s0 _ _ _ A K) as [A1 _].
      assert (R1 : room (snd st1)).
      { destruct (life_log ds st1 A1) as [_ [g P]]. rewrite P in R. exact (ab_prefix _ _ _ _ AB _ _ R). }
      destruct (proj1 (run_fine B I s0 room AB CR x) st st1 w A K R1 Sw) as (w1 & D & S1).
      destruct (IH st1 w1 A1 S1 R) as (w2 & L & S2). exists w2. split; [econstructor; eassumption|exact S2].
  Qed.

  Lemma same_deeds_refl ds : Forall2 same_deed ds ds.
  Proof. induction ds as [|[x|x m] ds IH]; repeat constructor; exact IH. Qed.

  Lemma life_reached w ds os w' : lived B w ds os w' -> forall st, at_log I s0 st -> shows I (fst st) w ->
    (forall ds', Forall2 same_deed ds ds' -> room (snd (snd (life LG ds' st)))) ->
    exists ds', Forall2 same_deed ds ds' /\ map outcome_of (fst (life LG ds' st)) = os /\ shows I (fst (snd (life LG ds' st))) w'.
  Proof.
    induction 1 as [w|w x o w1 ds os w2 M _ IH|w x m w1 ds os w2 D _ IH]; intros st A Sw R.
    - exists []. cbn. auto.
    - pose proof (solo_log I s0 (p_run common x) st A) as [A1 _]. rewrite solo_common in A1.
      destruct (run LG common x st) as [a st1] eqn:E. cbn [snd] in A1.
      assert (R1 : room (snd st1)).
      { specialize (R (Runs x :: ds) ltac:(constructor; [constructor|apply same_deeds_refl])). cbn [life] in R. rewrite E in R.
        destruct (life_log ds st1 A1) as [_ [g P]]. destruct (life LG ds st1) as [rs st2]. cbn [snd] in *. rewrite P in R. exact (ab_prefix _ _ _ _ AB _ _ R). }
      destruct (follows_run B I s0 room AB x st a st1 E A) as (_ & _ & K). destruct (K R1 w Sw) as (w1' & M' & S1).
      destruct (means_fun B x w _ _ w _ _ (same_refl w) M' M) as [Eo Ew]. apply (shows_same I _ _ _ Ew) in S1.
      destruct (IH st1 A1 S1) as (ds' & F & Eos & S2).
      { intros ds' F. specialize (R (Runs x :: ds') ltac:(constructor; [constructor|exact F])). cbn [life] in R. rewrite E in R.
        destruct (life LG ds' st1) as [rs st2]. exact R. }
      exists (Runs x :: ds'). split; [constructor; [constructor|exact F]|]. cbn [life]. rewrite E. destruct (life LG ds' st1) as [rs st2]. cbn [fst snd map] in *.
      split; [rewrite Eo, Eos; reflexivity|exact S2].
    - assert (R1 : room (snd (snd (solo LG (p_run common x) st)))).
      { specialize (R (DiesAfter x (List.length x) :: ds) ltac:(constructor; [constructor|apply same_deeds_refl])). cbn [life] in R.
        rewrite P_Again.run_is_alone in R. rewrite solo_common. cbn [snd] in R. pose proof (solo_log I s0 (p_run common x) st A) as [A1 _]. rewrite solo_common in A1.
        destruct (life_log ds _ A1) as [_ [g P]]. rewrite P in R. exact (ab_prefix _ _ _ _ AB _ _ R). }
      destruct (proj2 (run_fine B I s0 room AB CR x) st w w1 A R1 Sw D) as (st1 & K & S1). pose proof (stops_log I s0 _ _ _ A K) as [A1 _]. destruct K as [n K].
      destruct (IH st1 A1 S1) as (ds' & F & Eos & S2).
      { intros ds' F. specialize (R (DiesAfter x n :: ds') ltac:(constructor; [constructor|exact F])). cbn [life] in R. rewrite K in R. exact R. }
      exists (DiesAfter x n :: ds'). split; [constructor; [constructor|exact F]|]. cbn [life]. rewrite K. auto.
  Qed.
End Lives.
