(** * Proofs: every way the reference lists for a failing disk is taken *)
From Coq Require Import List Arith NArith Bool String Lia.
From Verif Require Import M_Base M_Data M_Mem M_Heed M_Duck M_Txn M_Regex M_Lexer M_Graph M_Parser M_Display M_Interp M_Conc M_TxnConc
  S_Order S_Str S_Store S_Txn S_Graph S_Filter S_Lexer S_Parser S_Display S_Interp S_GraphHist S_Names S_Json S_Conc S_TxnConc
  P_Ord P_Hist P_Lexer P_LexMore P_Parser P_Display P_Mem P_Heed P_HeedHist P_HeedMore P_Duck P_Graph P_Interp P_InterpMore
  P_InterpStores P_Crash P_InterpProps P_Filter P_Agree P_Sim P_Names P_Txn P_Wander P_WanderStores P_WanderDet P_WanderRun P_DeathRun P_Failing S_Wander S_Rewrite S_Monotone S_Failing.
Import ListNotations.
Open Scope list_scope.

Lemma trips_some n : n <> [] -> trips_of n <> [].
Proof. destruct n as [|e n]; [congruence|]. intros _ E. assert (X : In (view e) (trips_of (e :: n))) by (apply in_trips_of; exists e; split; [left|]; reflexivity). rewrite E in X. destruct X. Qed.

Lemma let_reached g w c n o w' : shows heed_impl (hafter' g) w -> hfits (g ++ [OAddColl (el_name c)] ++ [OAdd (el_name c) (trips_of n)]) ->
  lets_failing w (el_name c) n o w' ->
  exists f1 f2 d1 r2 d2, attempt f1 (hafter' g) (OAddColl (el_name c)) = (Ok tt, d1) /\ attempt f2 d1 (OAdd (el_name c) (trips_of n)) = (r2, d2)
    /\ (match r2 with Ok _ => o = Answers done | _ => o = Crashes end) /\ shows heed_impl d2 w'.
Proof.
  intros Sw W L. assert (W1 : hfits (g ++ [OAddColl (el_name c)])) by (rewrite app_assoc in W; cbv beta in *; rewrite total_weight_app in W; lia).
  pose proof (add_coll_ok g (el_name c) W1) as N1.
  assert (Half : forall w1, binds w (el_name c) [] Lmdb (Answers done) w1 ->
    shows heed_impl (hafter' (g ++ [OAddColl (el_name c)])) w1 /\ has heed_impl (hafter' (g ++ [OAddColl (el_name c)])) (el_name c)).
  { intros w1 B1. destruct (creates_lmdb g w c (Ok tt) (hafter' (g ++ [OAddColl (el_name c)])) (g ++ [OAddColl (el_name c)]) Sw) as (o2 & w2 & B2 & S2); [|exact W1|].
    { rewrite well_coll, N1. reflexivity. }
    destruct (binds_fun _ _ _ _ _ _ _ _ _ (same_refl w) B2 B1) as [_ Ew]. apply (shows_same _ _ _ _ Ew) in S2. split; [exact S2|].
    apply (proj1 S2). inversion B1 as [|? Hs Hr| | |]; subst. destruct Hr as [(l & El & _) _]. congruence. }
  destruct L as [o w' B1|Ew|w' B1|w' Nn B1].
  - exists no_fault, no_fault, (hafter' (g ++ [OAddColl (el_name c)])). rewrite attempt_sure, N1.
    destruct (attempt no_fault (hafter' (g ++ [OAddColl (el_name c)])) (OAdd (el_name c) (trips_of n))) as [r2 d2] eqn:E2. rewrite attempt_sure in E2.
    exists r2, d2. split; [reflexivity|]. split; [reflexivity|].
    destruct (let_store (graph_impl (logged heed_impl)) c n (hafter' g, g)) as [r [s' h']] eqn:E.
    assert (X : s' = d2 /\ h' = g ++ [OAddColl (el_name c)] ++ [OAdd (el_name c) (trips_of n)] /\ outcome_of r = match r2 with Ok _ => Answers done | _ => Crashes end).
    { unfold let_store in E. rewrite well_coll, N1 in E. cbn [err_todo] in E. rewrite well_add, E2, <- app_assoc in E.
      destruct r2; cbn in E; injection E as <- <- <-; auto. }
    destruct X as (-> & -> & Eo). apply stores_iff in E. destruct (ab_let _ _ _ _ abides_lmdb g w c n r _ _ Sw E W) as (w2 & B2 & S2).
    destruct (binds_fun _ _ _ _ _ _ _ _ _ (same_refl w) B2 B1) as [X Ew]. split; [|exact (shows_same _ _ _ _ Ew S2)].
    rewrite Eo in X. destruct r2; congruence.
  - exists (None, false), no_fault, (hafter' g). assert (H : ~ has heed_impl (hafter' g) (el_name c)) by exact (none_not_has _ _ _ _ Sw Ew).
    destruct (add_absent no_fault _ _ (trips_of n) H) as [x X]. exists (Panic x), (hafter' g). split; [|split; [exact X|split; [reflexivity|exact Sw]]].
    unfold attempt. cbn [fst snd]. rewrite no_failure, N1. reflexivity.
  - destruct (Half w' B1) as [S1 H1]. exists no_fault, (None, false), (hafter' (g ++ [OAddColl (el_name c)])). rewrite attempt_sure, N1.
    exists (Ok tt), (hafter' (g ++ [OAddColl (el_name c)])). split; [reflexivity|]. split; [|split; [reflexivity|exact S1]].
    unfold attempt. cbn [fst snd]. rewrite no_failure. rewrite (add_ok _ _ _ H1) by (rewrite <- app_assoc; exact W). reflexivity.
  - destruct (Half w' B1) as [S1 H1]. exists no_fault, (Some 0, true), (hafter' (g ++ [OAddColl (el_name c)])). rewrite attempt_sure, N1.
    destruct (add_first_fails (hafter' (g ++ [OAddColl (el_name c)])) (el_name c) (trips_of n) (trips_some n Nn)) as [x X].
    exists (Panic x), (hafter' (g ++ [OAddColl (el_name c)])). auto.
Qed.

(** With faults of its choosing the code gets from one state to another. *)
Definition room_for (R : (heed * list fault) * list op -> wres value -> (heed * list fault) * list op -> Prop) (d : heed) (h : list op) : Prop :=
  forall fs r st', R ((d, fs), h) r st' -> hfits (snd st').
Definition can (R : (heed * list fault) * list op -> wres value -> (heed * list fault) * list op -> Prop) (d : heed) (h : list op) (o : outcome) (w' : world) : Prop :=
  exists fs r d' h', outcome_of r = o /\ shows heed_impl d' w' /\ forall rest, R ((d, fs ++ rest), h) r ((d', rest), h').

Lemma can_let c n d h w o w' : at_f ((d, []), h) -> shows heed_impl d w -> room_for (stores LG c n) d h -> lets_failing w (el_name c) n o w' ->
  can (stores LG c n) d h o w'.
Proof.
  intros (g & Ed & Wg) Sw Rm L. cbn [fst snd] in Ed, Wg. subst d.
  assert (WC : (total_weight (g ++ [OAddColl (el_name c)]) <= total_weight (h ++ [OAddColl (el_name c)]))%N) by (apply weight_coll, Wg).
  assert (W : hfits (g ++ [OAddColl (el_name c)] ++ [OAdd (el_name c) (trips_of n)])).
  { destruct (let_store LG c n ((hafter' g, []), h)) as [r st'] eqn:E. pose proof E as E'. apply stores_iff in E'. specialize (Rm _ _ _ E').
    unfold let_store in E. rewrite fail_coll in E. cbn [hd] in E. rewrite attempt_sure in E.
    destruct (call_op heed_impl (hafter' g) (OAddColl (el_name c))) as [r1 d1] eqn:E1.
    assert (X : err_todo r1 = Ok tt).
    { destruct r1 as [[]|e|x]; cbn [err_todo] in *; [reflexivity|exfalso..]; injection E as <- <-; cbn [snd] in Rm; rewrite add_coll_ok in E1 by lia; discriminate E1. }
    rewrite X, fail_add in E. destruct (attempt _ d1 _) as [r2 d2].
    assert (snd st' = (h ++ [OAddColl (el_name c)]) ++ [OAdd (el_name c) (trips_of n)]) as Es by (destruct r2; cbn in E; injection E as _ <-; reflexivity).
    rewrite Es, total_weight_app in Rm. rewrite app_assoc, total_weight_app. lia. }
  destruct (let_reached g w c n o w' Sw W L) as (f1 & f2 & d1 & r2 & d2 & A1 & A2 & Eo & S2).
  exists [f1; f2], (match r2 with Ok _ => Ok unit_value | Err _ => Panic PTodo | Panic x => Panic x end), d2, ((h ++ [OAddColl (el_name c)]) ++ [OAdd (el_name c) (trips_of n)]).
  split; [destruct r2; subst o; reflexivity|]. split; [exact S2|]. intros rest. apply stores_iff. unfold let_store. rewrite fail_coll. cbn [app hd tl].
  rewrite A1. cbn [err_todo]. rewrite fail_add. cbn [hd tl]. rewrite A2. destruct r2; reflexivity.
Qed.

(** ** Whole programs *)
Scheme gives_on_mut := Induction for gives_on Sort Prop with calls_on_mut := Induction for calls_on Sort Prop.
Combined Scheme reference_on_ind from gives_on_mut, calls_on_mut.

Lemma evals_total {St} (lig : lig_impl St) v st : exists r st', evals lig common v st r st'.
Proof.
  destruct (match v with VQuote q => run_quote lig common q st | v => (Ok v, st) end) as [r st'] eqn:E.
  exists r, st'. apply (evals_iff _ _ common_table). exact E.
Qed.
Lemma quotes_total {St} (lig : lig_impl St) q st : exists r st', quotes lig common q st r st'.
Proof. destruct (run_quote lig common q st) as [r st'] eqn:E. exists r, st'. apply (quotes_iff _ _ common_table). exact E. Qed.
Lemma does_total {St} (lig : lig_impl St) n args st : exists r st', does lig common n args st r st'.
Proof. destruct (run_calls lig common [Call n args] st) as [r st'] eqn:E. exists r, st'. apply (does_iff _ _ common_table). exact E. Qed.

Definition follows_evals := proj1 follows_all.
Definition follows_quotes := proj1 (proj2 follows_all).
Definition follows_does := proj1 (proj2 (proj2 follows_all)).

Lemma at_f_faults d fs fs' h : at_f ((d, fs), h) -> at_f ((d, fs'), h).
Proof. intros H; exact H. Qed.

Lemma fits_before (h g : list op) : hfits (h ++ g) -> hfits h.
Proof. exact (ab_prefix _ _ _ _ abides_lmdb h g). Qed.

Lemma can_stay (R : (heed * list fault) * list op -> wres value -> (heed * list fault) * list op -> Prop) d h r w :
  shows heed_impl d w -> (forall fs, R ((d, fs), h) r ((d, fs), h)) -> can R d h (outcome_of r) w.
Proof. intros Sw H. exists [], r, d, h. split; [reflexivity|]. split; [exact Sw|]. intros rest. apply H. Qed.

Lemma can_map (R R' : (heed * list fault) * list op -> wres value -> (heed * list fault) * list op -> Prop) d h o o' w' :
  (forall r, outcome_of r = o -> exists r', outcome_of r' = o' /\ forall st st', R st r st' -> R' st r' st') ->
  can R d h o w' -> can R' d h o' w'.
Proof. intros H (fs & r & d' & h' & Eo & Sw & K). destruct (H r Eo) as (r' & Eo' & K'). exists fs, r', d', h'. auto. Qed.

Lemma room_map (R R' : (heed * list fault) * list op -> wres value -> (heed * list fault) * list op -> Prop) d h :
  (forall fs r st', R ((d, fs), h) r st' -> exists r2 st2 g, R' ((d, fs), h) r2 st2 /\ snd st2 = snd st' ++ g) -> room_for R' d h -> room_for R d h.
Proof. intros H Rm fs r st' K. destruct (H fs r st' K) as (r2 & st2 & g & K2 & E). apply Rm in K2. rewrite E in K2. exact (fits_before _ _ K2). Qed.

Lemma fname_common {St} (f : @cmd_fun St) : (forall g, f <> FHost g) -> exists c, In (fname f, c) common /\ cmd_fun_of c = f.
Proof.
  destruct f; intros N; try (destruct (N _ eq_refl)); cbn [fname]; (eexists; split; [unfold common; cbn [In]|]).
  all: first [left; reflexivity|right; left; reflexivity|do 2 right; left; reflexivity|do 3 right; left; reflexivity|do 4 right; left; reflexivity
      |do 5 right; left; reflexivity|do 6 right; left; reflexivity|do 7 right; left; reflexivity|do 8 right; left; reflexivity|idtac].
  all: reflexivity.
Qed.

Lemma acts_does {St} (lig : lig_impl St) (f : @cmd_fun St) n args st r st' : (forall g, f <> FHost g) -> el_name n = fname f ->
  acts lig common f args st r st' -> does lig common n args st r st'.
Proof. intros N E H. destruct (fname_common f N) as (c & Hc & <-). rewrite <- E in Hc. exact (do_known _ _ _ _ _ _ _ _ Hc H). Qed.

Lemma log_evals v st r st' : evals LG common v st r st' -> proper v -> at_f st -> at_f st' /\ exists g, snd st' = snd st ++ g.
Proof. intros H P A. destruct (follows_evals v st r st' H P A) as (A' & G & _). auto. Qed.
Lemma log_quotes q st r st' : quotes LG common q st r st' -> Forall proper q -> at_f st -> at_f st' /\ exists g, snd st' = snd st ++ g.
Proof. intros H P A. destruct (follows_quotes q st r st' H P A) as (A' & G & _). auto. Qed.
Lemma log_does n args st r st' : does LG common n args st r st' -> Forall proper args -> at_f st -> at_f st' /\ exists g, snd st' = snd st ++ g.
Proof. intros H P A. destruct (follows_does n args st r st' H P A) as (A' & G & _). auto. Qed.
Lemma log_let c n st r st' : stores LG c n st r st' -> at_f st -> at_f st' /\ exists g, snd st' = snd st ++ g.
Proof. intros H A. destruct (follows_let c n st r st' H A) as (A' & G & _). auto. Qed.

Lemma outcome_ok r v : outcome_of r = Answers v -> r = Ok v.
Proof. destruct r; cbn; congruence. Qed.
Lemma outcome_err r e : outcome_of r = Fails e -> r = Err e.
Proof. destruct r; cbn; congruence. Qed.
Lemma outcome_panic r : outcome_of r = Crashes -> exists x, r = Panic x.
Proof. destruct r; cbn; try discriminate. eauto. Qed.
Lemma outcome_failed r : (forall v, outcome_of r <> Answers v) -> failed r.
Proof. intros H v ->. exact (H v eq_refl). Qed.

Lemma value_eq (a b : value) : a = b \/ a <> b.
Proof. destruct (value_eqb a b) eqn:E; [left; apply value_eqb_eq, E|right; intros X; apply value_eqb_eq in X; congruence]. Qed.

(** The rest of an assert-equal. *)
Lemma equal_does {St} (lig : lig_impl St) n l r st v st1 b st2 : el_name n = lit "assert-equal" -> evals lig common l st (Ok v) st1 -> evals lig common r st1 b st2 ->
  exists r', does lig common n [l; r] st r' st2.
Proof.
  intros En Hl Hr. destruct b as [v2|e|x].
  - destruct (value_eq v v2) as [<-|Ne]; eexists; (eapply (acts_does lig FAssertEqual); [discriminate|exact En|]); [eapply ac_eq_same|eapply ac_eq_differ]; eassumption.
  - eexists. eapply (acts_does lig FAssertEqual); [discriminate|exact En|]. eapply ac_eq_right; [exact Hl|exact Hr|discriminate].
  - eexists. eapply (acts_does lig FAssertEqual); [discriminate|exact En|]. eapply ac_eq_right; [exact Hl|exact Hr|discriminate].
Qed.

Lemma room_left n l r d h : el_name n = lit "assert-equal" -> proper l -> proper r -> at_f ((d, []), h) ->
  room_for (does LG common n [l; r]) d h -> room_for (evals LG common l) d h.
Proof.
  intros En Pl Pr A. apply room_map. intros fs a st1 H. destruct (log_evals l _ _ _ H Pl A) as [A1 _].
  destruct a as [v|e|x].
  - destruct (evals_total LG r st1) as (b & st2 & Hr). destruct (log_evals r _ _ _ Hr Pr A1) as [_ [g Hg]].
    destruct (equal_does LG n l r _ v st1 b st2 En H Hr) as [r' K]. eauto.
  - do 2 eexists. exists []. rewrite app_nil_r. split; [|reflexivity]. eapply (acts_does LG FAssertEqual); [discriminate|exact En|]. eapply ac_eq_left; [exact H|discriminate].
  - do 2 eexists. exists []. rewrite app_nil_r. split; [|reflexivity]. eapply (acts_does LG FAssertEqual); [discriminate|exact En|]. eapply ac_eq_left; [exact H|discriminate].
Qed.

Lemma room_right n l r d h fs1 v d1 h1 : el_name n = lit "assert-equal" -> (forall rest, evals LG common l ((d, fs1 ++ rest), h) (Ok v) ((d1, rest), h1)) ->
  room_for (does LG common n [l; r]) d h -> room_for (evals LG common r) d1 h1.
Proof. intros En Hl Rm fs b st2 Hr. destruct (equal_does LG n l r _ v _ b st2 En (Hl fs) Hr) as [r' K]. exact (Rm _ _ _ K). Qed.

(** The quote of an assert-fail, and of a let. *)
Lemma room_fail n q d h : el_name n = lit "assert-fail" -> room_for (does LG common n [VQuote q]) d h -> room_for (quotes LG common q) d h.
Proof.
  intros En. apply room_map. intros fs a st1 H. destruct a as [v|e|x]; do 2 eexists; exists []; rewrite app_nil_r; (split; [|reflexivity]);
    (eapply (acts_does LG FAssertFail); [discriminate|exact En|]); [eapply ac_fail_ok|eapply ac_fail_err|eapply ac_fail_panic]; exact H.
Qed.

Lemma let_quote_does {St} (lig : lig_impl St) n c q st a st1 : el_name n = lit "let" -> quotes lig common q st a st1 -> (forall m, a <> Ok (VNetwork m)) ->
  exists x, does lig common n [VElement c; VQuote q] st (Panic x) st1.
Proof.
  intros En H N. destruct a as [v|e|x]; eexists; (eapply (acts_does lig FLet); [discriminate|exact En|]).
  - eapply ac_let_other; [exact H|exact N|discriminate].
  - eapply ac_let_other; [exact H|exact N|discriminate].
  - eapply ac_let_panic. exact H.
Qed.

Lemma room_let n c q d h : el_name n = lit "let" -> Forall proper q -> at_f ((d, []), h) ->
  room_for (does LG common n [VElement c; VQuote q]) d h -> room_for (quotes LG common q) d h.
Proof.
  intros En Pq A. apply room_map. intros fs a st1 H. destruct (log_quotes q _ _ _ H Pq A) as [A1 _].
  assert (D : (exists m, a = Ok (VNetwork m)) \/ forall m, a <> Ok (VNetwork m)) by (destruct a as [[e|q'|m]|e|x]; [right|right|left|right|right]; eauto; discriminate).
  destruct D as [[m ->]|N].
  - destruct (let_store LG c m st1) as [b st2] eqn:E. apply stores_iff in E. destruct (log_let _ _ _ _ _ E A1) as [_ [g Hg]].
    exists b, st2, g. split; [|exact Hg]. eapply (acts_does LG FLet); [discriminate|exact En|]. eapply ac_let_quote; eassumption.
  - destruct (let_quote_does LG n c q _ a st1 En H N) as [x K]. exists (Panic x), st1, []. rewrite app_nil_r. auto.
Qed.

Lemma evals_quote {St} (lig : lig_impl St) q st r st' : evals lig common (VQuote q) st r st' <-> quotes lig common q st r st'.
Proof. split; [intros H; inversion H; assumption|apply ev_quote]. Qed.

Lemma reach_all :
  (forall v w o w', gives_on lets_failing v w o w' -> forall d h, proper v -> at_f ((d, []), h) -> shows heed_impl d w ->
     room_for (evals LG common v) d h -> can (evals LG common v) d h o w')
  /\ (forall name args w o w', calls_on lets_failing name args w o w' -> forall n d h, el_name n = name -> Forall proper args -> at_f ((d, []), h) -> shows heed_impl d w ->
     room_for (does LG common n args) d h -> can (does LG common n args) d h o w').
Proof.
  apply (reference_on_ind lets_failing
    (fun v w o w' _ => forall d h, proper v -> at_f ((d, []), h) -> shows heed_impl d w -> room_for (evals LG common v) d h -> can (evals LG common v) d h o w')
    (fun name args w o w' _ => forall n d h, el_name n = name -> Forall proper args -> at_f ((d, []), h) -> shows heed_impl d w ->
       room_for (does LG common n args) d h -> can (does LG common n args) d h o w')).
  - intros e w d h P A Sw Rm. apply (can_stay _ d h (Ok (VElement e)) w Sw). intros fs. constructor.
  - intros e w d h P A Sw Rm. apply (can_stay _ d h (Ok (VNetwork e)) w Sw). intros fs. constructor.
  - intros w d h P A Sw Rm. apply (can_stay _ d h (Ok done) w Sw). intros fs. apply ev_quote. constructor.
  - intros n args w o w' _ IH d h P A Sw Rm. assert (Pa : Forall proper args) by (inversion P as [| |? Pq]; subst; match goal with Q : Forall proper (_ :: _) |- _ => inversion Q; assumption end).
    eapply can_map; [|apply (IH n d h eq_refl Pa A Sw)].
    + intros r Eo. exists r. split; [exact Eo|]. intros st st' K. apply ev_quote, qu_call, K.
    + revert Rm. apply room_map. intros fs r st' K. exists r, st', []. rewrite app_nil_r. split; [|reflexivity]. apply ev_quote, qu_call, K.
  - intros v args w N d h P A Sw Rm. apply (can_stay _ d h (Panic PTodo) w Sw). intros fs. apply ev_quote, qu_other, N.
  - intros name args w N n d h En P A Sw Rm. rewrite <- En. apply (can_stay _ d h (Err (WErr (lit "Could not find command: " ++ el_name n))) w Sw). intros fs. apply do_unknown.
    intros c Hc. apply N. rewrite <- En. apply common_manual in Hc. apply (in_map fst) in Hc. exact Hc.
  - intros v w n d h En P A Sw Rm. apply (can_stay _ d h (Ok v) w Sw). intros fs. apply (acts_does LG FId); [discriminate|exact En|]. apply ac_simple, si_id.
  - intros args w L n d h En P A Sw Rm. apply (can_stay _ d h (Err (WErr (lit "Id requires a single argument."))) w Sw). intros fs.
    apply (acts_does LG FId); [discriminate|exact En|]. apply ac_simple, si_id_args, L.
  - intros args w n d h En P A Sw Rm. apply (can_stay _ d h (Ok done) w Sw). intros fs. apply (acts_does LG FIgnore); [discriminate|exact En|]. apply ac_simple, si_ignore.
  - intros m w [Hs Hm] n d h En P A Sw Rm. apply (can_stay _ d h (Ok (VNetwork m)) w Sw). intros fs. apply (acts_does LG FDocs); [discriminate|exact En|].
    apply ac_simple, si_docs; [exact Hs|]. intros e. rewrite Hm. unfold page. split.
    + intros (name & text & Ht & ->). destruct (manual_common (St := (heed * list fault) * list op) _ _ Ht) as (c & Hc & <-). eauto.
    + intros (name & c & Hc & ->). exists name, (cmd_doc c). split; [apply common_manual, Hc|reflexivity].
  - intros args w N n d h En P A Sw Rm. apply (can_stay _ d h (Err (WErr (lit "docs takes no arguments."))) w Sw). intros fs.
    apply (acts_does LG FDocs); [discriminate|exact En|]. destruct args as [|a args]; [destruct (N eq_refl)|]. apply ac_simple, si_docs_args.
  - intros l r m w Hm n d h En P A Sw Rm. apply (can_stay _ d h (Ok (VNetwork m)) w Sw). intros fs. apply (acts_does LG FUnion); [discriminate|exact En|].
    assert (m = bs_append entry_cmp l r) as ->; [|apply ac_simple, si_union].
    inversion P as [|? ? Pl _]; subst. inversion Pl; subst. eapply set_where_fun; [|exact Hm|split; [apply (is_set_append entry_order); assumption|apply (in_bs_append entry_order)]].
    intros e. reflexivity.
  - intros a b w N n d h En P A Sw Rm. apply (can_stay _ d h (Panic PTodo) w Sw). intros fs. apply (acts_does LG FUnion); [discriminate|exact En|]. apply ac_simple, si_union_other, N.
  - intros args w L n d h En P A Sw Rm. apply (can_stay _ d h (Err (WErr (lit "union takes two arguments."))) w Sw). intros fs.
    apply (acts_does LG FUnion); [discriminate|exact En|]. apply ac_simple, si_union_args, L.
  - (* read *)
    intros c w o Hr n d h En P A Sw Rm.
    assert (D : forall fs, does LG common n [VElement c] ((d, fs), h) (as_value (l_entries LG ((d, fs), h) c)) ((d, fs), h)).
    { intros fs. apply (acts_does LG FRead); [discriminate|exact En|]. apply ac_simple.
      destruct (l_entries LG ((d, fs), h) c) eqn:E; [apply si_read|apply si_read_err|apply si_read_panic]; exact E. }
    pose proof (Rm _ _ _ (D [])) as F. rewrite <- (reads_fun _ _ _ _ _ _ (same_refl w) (sees_read ((d, []), h) w c A F Sw) Hr).
    apply (can_stay _ d h (as_value (l_entries LG ((d, []), h) c)) w Sw). exact D.
  - intros args w N n d h En P A Sw Rm. apply (can_stay _ d h (Panic PTodo) w Sw). intros fs. apply (acts_does LG FRead); [discriminate|exact En|]. apply ac_simple, si_read_args, N.
  - (* filter *)
    intros c s r x w o Hr n d h En P A Sw Rm.
    assert (D : forall fs, does LG common n [VElement c; VElement s; VElement r; VElement x] ((d, fs), h) (as_found (l_filter LG ((d, fs), h) c (Role s x r))) ((d, fs), h)).
    { intros fs. apply (acts_does LG FFilter); [discriminate|exact En|]. apply ac_simple.
      destruct (l_filter LG ((d, fs), h) c (Role s x r)) eqn:E; [apply si_filter|eapply si_filter_err|apply si_filter_panic]; exact E. }
    pose proof (Rm _ _ _ (D [])) as F. rewrite <- (finds_fun _ _ _ _ _ _ _ (same_refl w) (sees_filter ((d, []), h) w c (Role s x r) A F Sw) Hr).
    apply (can_stay _ d h (as_found (l_filter LG ((d, []), h) c (Role s x r))) w Sw). exact D.
  - intros args w N n d h En P A Sw Rm. apply (can_stay _ d h (Panic PTodo) w Sw). intros fs. apply (acts_does LG FFilter); [discriminate|exact En|]. apply ac_simple, si_filter_args, N.
  - (* assert-equal *)
    intros args w L n d h En P A Sw Rm. apply (can_stay _ d h (Err (WErr (lit "`assertEq` function requires two parameters."))) w Sw). intros fs.
    apply (acts_does LG FAssertEqual); [discriminate|exact En|]. apply ac_eq_args, L.
  - intros l r w o w1 _ IH N n d h En P A Sw Rm. inversion P as [|? ? Pl Pr0]; subst. inversion Pr0 as [|? ? Pr _]; subst.
    eapply can_map; [|apply (IH d h Pl A Sw (room_left n l r d h En Pl Pr A Rm))].
    intros a Eo. exists a. split; [exact Eo|]. intros st st' K. apply (acts_does LG FAssertEqual); [discriminate|exact En|].
    apply ac_eq_left; [exact K|]. apply outcome_failed. rewrite Eo. exact N.
  - intros l r w v w1 o w2 _ IHl _ IHr N n d h En P A Sw Rm. inversion P as [|? ? Pl Pr0]; subst. inversion Pr0 as [|? ? Pr _]; subst.
    destruct (IHl d h Pl A Sw (room_left n l r d h En Pl Pr A Rm)) as (fs1 & a & d1 & h1 & Ea & S1 & K1). apply outcome_ok in Ea as ->.
    assert (A1 : at_f ((d1, []), h1)) by exact (proj1 (log_evals l _ _ _ (K1 []) Pl A)).
    destruct (IHr d1 h1 Pr A1 S1 (room_right n l r d h fs1 v d1 h1 En K1 Rm)) as (fs2 & b & d2 & h2 & Eb & S2 & K2).
    exists (fs1 ++ fs2), b, d2, h2. split; [exact Eb|]. split; [exact S2|]. intros rest. apply (acts_does LG FAssertEqual); [discriminate|exact En|].
    eapply ac_eq_right; [rewrite <- app_assoc; apply K1|apply K2|]. apply outcome_failed. rewrite Eb. exact N.
  - intros l r w v w1 w2 _ IHl _ IHr n d h En P A Sw Rm. inversion P as [|? ? Pl Pr0]; subst. inversion Pr0 as [|? ? Pr _]; subst.
    destruct (IHl d h Pl A Sw (room_left n l r d h En Pl Pr A Rm)) as (fs1 & a & d1 & h1 & Ea & S1 & K1). apply outcome_ok in Ea as ->.
    assert (A1 : at_f ((d1, []), h1)) by exact (proj1 (log_evals l _ _ _ (K1 []) Pl A)).
    destruct (IHr d1 h1 Pr A1 S1 (room_right n l r d h fs1 v d1 h1 En K1 Rm)) as (fs2 & b & d2 & h2 & Eb & S2 & K2). apply outcome_ok in Eb as ->.
    exists (fs1 ++ fs2), (Ok done), d2, h2. split; [reflexivity|]. split; [exact S2|]. intros rest. apply (acts_does LG FAssertEqual); [discriminate|exact En|].
    eapply ac_eq_same; [rewrite <- app_assoc; apply K1|apply K2].
  - intros l r w v w1 v2 w2 ta tb _ IHl _ IHr Ne Ta Tb n d h En P A Sw Rm. inversion P as [|? ? Pl Pr0]; subst. inversion Pr0 as [|? ? Pr _]; subst.
    destruct (IHl d h Pl A Sw (room_left n l r d h En Pl Pr A Rm)) as (fs1 & a & d1 & h1 & Ea & S1 & K1). apply outcome_ok in Ea as ->.
    assert (A1 : at_f ((d1, []), h1)) by exact (proj1 (log_evals l _ _ _ (K1 []) Pl A)).
    destruct (IHr d1 h1 Pr A1 S1 (room_right n l r d h fs1 v d1 h1 En K1 Rm)) as (fs2 & b & d2 & h2 & Eb & S2 & K2). apply outcome_ok in Eb as ->.
    apply value_text_iff in Ta as ->. apply value_text_iff in Tb as ->.
    exists (fs1 ++ fs2), (Err (WErr (lit "Assertion failed, " ++ display v ++ lit " != " ++ display v2))), d2, h2. split; [reflexivity|]. split; [exact S2|].
    intros rest. apply (acts_does LG FAssertEqual); [discriminate|exact En|]. eapply ac_eq_differ; [rewrite <- app_assoc; apply K1|apply K2|exact Ne].
  - (* assert-fail *)
    intros args w N n d h En P A Sw Rm. apply (can_stay _ d h (Err (WErr (lit "`assert-fail` function expected to be passed a Quote."))) w Sw). intros fs.
    apply (acts_does LG FAssertFail); [discriminate|exact En|]. apply ac_fail_args, N.
  - intros q w v w1 _ IH n d h En P A Sw Rm. inversion P as [|? ? Pq _]; subst.
    eapply can_map; [|apply (IH d h Pq A Sw)]; [|intros fs r st' K; apply evals_quote in K; exact (room_fail n q d h En Rm fs r st' K)].
    intros a Eo. apply outcome_ok in Eo as ->. exists (Err (WErr (lit "Expected failure."))). split; [reflexivity|]. intros st st' K. apply evals_quote in K.
    apply (acts_does LG FAssertFail); [discriminate|exact En|]. eapply ac_fail_ok, K.
  - intros q w e w1 _ IH n d h En P A Sw Rm. inversion P as [|? ? Pq _]; subst.
    eapply can_map; [|apply (IH d h Pq A Sw)]; [|intros fs r st' K; apply evals_quote in K; exact (room_fail n q d h En Rm fs r st' K)].
    intros a Eo. apply outcome_err in Eo as ->. exists (Ok done). split; [reflexivity|]. intros st st' K. apply evals_quote in K.
    apply (acts_does LG FAssertFail); [discriminate|exact En|]. eapply ac_fail_err, K.
  - intros q w w1 _ IH n d h En P A Sw Rm. inversion P as [|? ? Pq _]; subst.
    eapply can_map; [|apply (IH d h Pq A Sw)]; [|intros fs r st' K; apply evals_quote in K; exact (room_fail n q d h En Rm fs r st' K)].
    intros a Eo. apply outcome_panic in Eo as [x ->]. exists (Panic x). split; [reflexivity|]. intros st st' K. apply evals_quote in K.
    apply (acts_does LG FAssertFail); [discriminate|exact En|]. eapply ac_fail_panic, K.
  - (* let *)
    intros c m w o w' L n d h En P A Sw Rm.
    assert (D : forall st r st', stores LG c m st r st' -> does LG common n [VElement c; VNetwork m] st r st').
    { intros st r st' K. apply (acts_does LG FLet); [discriminate|exact En|]. apply ac_let_network, K. }
    eapply can_map; [|eapply can_let; [exact A|exact Sw| |exact L]].
    + intros r Eo. exists r. auto.
    + intros fs r st' K. exact (Rm _ _ _ (D _ _ _ K)).
  - intros c q w m w1 o w' _ IH L n d h En P A Sw Rm. inversion P as [|? ? _ Pq0]; subst. inversion Pq0 as [|? ? Pq _]; subst.
    assert (Pq' : Forall proper q) by (inversion Pq; assumption).
    destruct (IH d h Pq A Sw) as (fs1 & a & d1 & h1 & Ea & S1 & K1).
    { intros fs r st' K. apply evals_quote in K. exact (room_let n c q d h En Pq' A Rm fs r st' K). }
    apply outcome_ok in Ea as ->. assert (A1 : at_f ((d1, []), h1)) by exact (proj1 (log_evals _ _ _ _ (K1 []) Pq A)).
    assert (D : forall fs r st', stores LG c m ((d1, fs), h1) r st' -> does LG common n [VElement c; VQuote q] ((d, fs1 ++ fs), h) r st').
    { intros fs r st' K. apply (acts_does LG FLet); [discriminate|exact En|]. eapply ac_let_quote; [apply evals_quote, K1|exact K]. }
    destruct (can_let c m d1 h1 w1 o w' A1 S1) as (fs2 & b & d2 & h2 & Eb & S2 & K2); [|exact L|].
    { intros fs r st' K. exact (Rm _ _ _ (D _ _ _ K)). }
    exists (fs1 ++ fs2), b, d2, h2. split; [exact Eb|]. split; [exact S2|]. intros rest. rewrite <- app_assoc. apply D, K2.
  - intros c q w o w1 _ IH N n d h En P A Sw Rm. inversion P as [|? ? _ Pq0]; subst. inversion Pq0 as [|? ? Pq _]; subst.
    assert (Pq' : Forall proper q) by (inversion Pq; assumption).
    destruct (IH d h Pq A Sw) as (fs1 & a & d1 & h1 & Ea & S1 & K1).
    { intros fs r st' K. apply evals_quote in K. exact (room_let n c q d h En Pq' A Rm fs r st' K). }
    assert (Na : forall m, a <> Ok (VNetwork m)) by (intros m ->; exact (N m (eq_sym Ea))).
    exists fs1, (match a with Panic x => Panic x | _ => Panic PTodo end), d1, h1. split; [destruct a; reflexivity|]. split; [exact S1|]. intros rest.
    specialize (K1 rest). apply evals_quote in K1. apply (acts_does LG FLet); [discriminate|exact En|].
    destruct a as [v|e|x]; [eapply ac_let_other; [exact K1|exact Na|discriminate]..|eapply ac_let_panic; exact K1].
  - intros args w N1 N2 n d h En P A Sw Rm. apply (can_stay _ d h (Err (WErr (lit "Invalid call to let."))) w Sw). intros fs.
    apply (acts_does LG FLet); [discriminate|exact En|]. apply ac_let_args; assumption.
Qed.

(** ** Sequences, scripts, sessions *)
Lemma runs_total {St} (lig : lig_impl St) cs st : exists r st', runs lig common cs st r st'.
Proof. destruct (run_calls lig common cs st) as [r st'] eqn:E. exists r, st'. apply (runs_iff _ _ common_table). exact E. Qed.

Lemma room_first c rest d h : proper_call c -> Forall proper_call rest -> at_f ((d, []), h) ->
  room_for (runs LG common (c :: rest)) d h -> room_for (does LG common (c_name c) (c_args c)) d h.
Proof.
  intros Pc Pr A. apply room_map. intros fs a st1 H. destruct (log_does _ _ _ _ _ H Pc A) as [A1 _].
  destruct a as [v|e|x].
  - destruct rest as [|c2 rest]; [exists (Ok v), st1, []; rewrite app_nil_r; split; [apply ru_last, H|reflexivity]|].
    destruct (runs_total LG (c2 :: rest) st1) as (b & st2 & Hr). destruct (follows_runs _ _ _ _ Hr Pr A1) as (_ & [g Hg] & _).
    exists b, st2, g. split; [|exact Hg]. eapply ru_more; [exact H|discriminate|exact Hr].
  - exists (Err e), st1, []. rewrite app_nil_r. split; [|reflexivity]. eapply ru_stop; [exact H|discriminate].
  - exists (Panic x), st1, []. rewrite app_nil_r. split; [|reflexivity]. eapply ru_stop; [exact H|discriminate].
Qed.

Lemma reach_runs cs w o w' : performs_on lets_failing cs w o w' -> forall d h, Forall proper_call cs -> at_f ((d, []), h) -> shows heed_impl d w ->
  room_for (runs LG common cs) d h -> can (runs LG common cs) d h o w'.
Proof.
  destruct reach_all as [_ RC].
  induction 1 as [w|c w o w' H|c c2 rest w v w1 o w' H _ IH|c c2 rest w o w' H N]; intros d h P A Sw Rm.
  - apply (can_stay _ d h (Ok done) w Sw). intros fs. constructor.
  - inversion P as [|? ? Pc Pr]; subst. eapply can_map; [|apply (RC _ _ _ _ _ H (c_name c) d h eq_refl Pc A Sw (room_first c [] d h Pc Pr A Rm))].
    intros r Eo. exists r. split; [exact Eo|]. intros st st' K. apply ru_last, K.
  - inversion P as [|? ? Pc Pr]; subst.
    destruct (RC _ _ _ _ _ H (c_name c) d h eq_refl Pc A Sw (room_first c _ d h Pc Pr A Rm)) as (fs1 & a & d1 & h1 & Ea & S1 & K1). apply outcome_ok in Ea as ->.
    assert (A1 : at_f ((d1, []), h1)) by exact (proj1 (log_does _ _ _ _ _ (K1 []) Pc A)).
    assert (D : forall fs r st', runs LG common (c2 :: rest) ((d1, fs), h1) r st' -> runs LG common (c :: c2 :: rest) ((d, fs1 ++ fs), h) r st').
    { intros fs r st' K. eapply ru_more; [apply K1|discriminate|exact K]. }
    destruct (IH d1 h1 Pr A1 S1) as (fs2 & b & d2 & h2 & Eb & S2 & K2); [intros fs r st' K; exact (Rm _ _ _ (D _ _ _ K))|].
    exists (fs1 ++ fs2), b, d2, h2. split; [exact Eb|]. split; [exact S2|]. intros rs. rewrite <- app_assoc. apply D, K2.
  - inversion P as [|? ? Pc Pr]; subst. eapply can_map; [|apply (RC _ _ _ _ _ H (c_name c) d h eq_refl Pc A Sw (room_first c _ d h Pc Pr A Rm))].
    intros r Eo. exists r. split; [exact Eo|]. intros st st' K. apply ru_stop; [exact K|]. apply outcome_failed. rewrite Eo. exact N.
Qed.

Lemma reach_run w script o w' d h : means_on lets_failing w script o w' -> at_f ((d, []), h) -> shows heed_impl d w ->
  room_for (fun st r st' => run LG common script st = (r, st')) d h -> can (fun st r st' => run LG common script st = (r, st')) d h o w'.
Proof.
  intros M A Sw Rm.
  assert (TF : forall ts kept, lexes script ts -> keeps ts kept -> tokenize_and_filter script = Ok kept).
  { intros ts kept L K. apply tokenize_ok in L. destruct (filter_keeps _ _ L) as (k & Ek & Kk & U). rewrite (U _ K). exact Ek. }
  destruct M as [ts kept cs o w' L K G P|ts kept next L K Hs|ts kept L K N1 N2|F].
  - assert (E : forall st r st', run LG common script st = (r, st') <-> runs LG common cs st r st').
    { intros st r st'. destruct (run_outcomes _ LG common script st) as [_ X]. rewrite (proj2 (proj2 (X _ (TF _ _ L K))) _ G). symmetry. apply (runs_iff _ _ common_table). }
    eapply can_map; [|apply (reach_runs cs w o w' P d h (g_script_proper _ _ G) A Sw)].
    + intros r Eo. exists r. split; [exact Eo|]. intros st st' Q. apply E, Q.
    + intros fs r st' Q. apply (Rm fs r st'). apply E, Q.
  - apply (can_stay _ d h (Err (WParse next)) w Sw). intros fs. destruct (run_outcomes _ LG common script ((d, fs), h)) as [_ X].
    exact (proj1 (X _ (TF _ _ L K)) _ Hs).
  - apply (can_stay _ d h (Panic PTodo) w Sw). intros fs. destruct (run_outcomes _ LG common script ((d, fs), h)) as [_ X].
    exact (proj1 (proj2 (X _ (TF _ _ L K))) N1 N2).
  - apply (can_stay _ d h (Err (WErr (lit "Error tokenizing input."))) w Sw). intros fs. destruct (run_outcomes _ LG common script ((d, fs), h)) as [X _]. exact (X F).
Qed.

Lemma log_session scripts : forall st rs st', session LG scripts st = (rs, st') -> at_f st -> at_f st' /\ exists g, snd st' = snd st ++ g.
Proof.
  induction scripts as [|x rest IH]; intros st rs st' E A; cbn [session] in E.
  - injection E as <- <-. split; [exact A|exists []; symmetry; apply app_nil_r].
  - destruct (run LG common x st) as [r st1] eqn:E1. destruct (session LG rest st1) as [rs2 st2] eqn:E2. injection E as <- <-.
    destruct (follows_run x _ _ _ E1 A) as (A1 & [g1 P1] & _). destruct (IH _ _ _ E2 A1) as [A2 [g2 P2]]. split; [exact A2|].
    exists (g1 ++ g2). rewrite P2, P1, app_assoc. reflexivity.
Qed.

Lemma failing_session scripts : forall st w rs st', at_f st -> shows lmdb_at_once (fst st) w -> session LG scripts st = (rs, st') -> hfits (snd st') ->
  exists w', all_mean_on lets_failing w scripts (map outcome_of rs) w' /\ shows lmdb_at_once (fst st') w'.
Proof.
  induction scripts as [|x rest IH]; intros st w rs st' A Sw E F; cbn [session] in E.
  - injection E as <- <-. exists w. split; [constructor|exact Sw].
  - destruct (run LG common x st) as [r st1] eqn:E1. destruct (session LG rest st1) as [rs2 st2] eqn:E2. injection E as <- <-.
    destruct (follows_run x _ _ _ E1 A) as (A1 & [g1 P1] & K1). destruct (log_session rest _ _ _ E2 A1) as [_ [g2 P2]].
    destruct (K1) with (w := w) as (w1 & M1 & S1); [rewrite P2 in F; exact (fits_before _ _ F)|exact Sw|].
    destruct (IH st1 w1 rs2 st2 A1 S1 E2 F) as (w' & M2 & S2). exists w'. split; [cbn [map]; econstructor; eassumption|exact S2].
Qed.

Lemma reach_session w scripts os w' : all_mean_on lets_failing w scripts os w' -> forall d h, at_f ((d, []), h) -> shows heed_impl d w ->
  (forall fs, hfits (snd (snd (session LG scripts ((d, fs), h))))) ->
  exists fs rs d' h', map outcome_of rs = os /\ shows heed_impl d' w' /\ forall rest, session LG scripts ((d, fs ++ rest), h) = (rs, ((d', rest), h')).
Proof.
  induction 1 as [w|w x rest o os w1 w2 M _ IH]; intros d h A Sw Rm.
  - exists [], [], d, h. auto.
  - destruct (reach_run w x o w1 d h M A Sw) as (fs1 & r & d1 & h1 & Eo & S1 & K1).
    { intros fs r st1 E1. specialize (Rm fs). cbn [session] in Rm. rewrite E1 in Rm. destruct (session LG rest st1) as [rs st2] eqn:E2. cbn [snd] in Rm.
      destruct (follows_run x _ _ _ E1 A) as (A1 & _). destruct (log_session rest _ _ _ E2 A1) as [_ [g Hg]]. rewrite Hg in Rm. exact (fits_before _ _ Rm). }
    assert (A1 : at_f ((d1, []), h1)) by (destruct (follows_run x _ _ _ (K1 []) A) as (A1 & _); exact A1).
    destruct (IH d1 h1 A1 S1) as (fs2 & rs & d2 & h2 & Es & S2 & K2).
    { intros fs. specialize (Rm (fs1 ++ fs)). cbn [session] in Rm. rewrite K1 in Rm. destruct (session LG rest ((d1, fs), h1)). exact Rm. }
    exists (fs1 ++ fs2), (r :: rs), d2, h2. split; [cbn; congruence|]. split; [exact S2|]. intros rs'. cbn [session]. rewrite <- app_assoc, K1, K2. reflexivity.
Qed.

(** ** About the reference *)
Lemma same_rules :
  (forall v w o w', gives_on (fun w c n o w' => binds w c n Lmdb o w') v w o w' <-> gives Lmdb v w o w')
  /\ (forall name args w o w', calls_on (fun w c n o w' => binds w c n Lmdb o w') name args w o w' <-> calls Lmdb name args w o w').
Proof.
  set (lets := fun w c n o w' => binds w c n Lmdb o w').
  assert (X : (forall v w o w', gives_on lets v w o w' -> gives Lmdb v w o w')
    /\ (forall name args w o w', calls_on lets name args w o w' -> calls Lmdb name args w o w')).
  { apply (reference_on_ind lets (fun v w o w' _ => gives Lmdb v w o w') (fun name args w o w' _ => calls Lmdb name args w o w')); intros; try (econstructor; eassumption). }
  assert (Y : (forall v w o w', gives Lmdb v w o w' -> gives_on lets v w o w')
    /\ (forall name args w o w', calls Lmdb name args w o w' -> calls_on lets name args w o w')).
  { apply (reference_ind Lmdb (fun v w o w' _ => gives_on lets v w o w') (fun name args w o w' _ => calls_on lets name args w o w')); intros; try (econstructor; eassumption). }
  split; intros; split; first [apply X|apply Y].
Qed.

Lemma same_rules_performs cs : forall w o w', performs_on (fun w c n o w' => binds w c n Lmdb o w') cs w o w' <-> performs Lmdb cs w o w'.
Proof.
  intros w o w'. split; (induction 1; [constructor|apply pe_last||apply fp_last|eapply pe_more||eapply fp_more|apply pe_stop||apply fp_stop]);
    try eassumption; apply same_rules; eassumption.
Qed.

Lemma same_rules_means w script o w' : means_on (fun w c n o w' => binds w c n Lmdb o w') w script o w' <-> means Lmdb w script o w'.
Proof.
  split; intros [ts kept cs o1 w1 L K G P|ts kept next L K Hs|ts kept L K N1 N2|F].
  - eapply me_runs; try eassumption. apply same_rules_performs, P.
  - eapply me_stray; eassumption.
  - eapply me_outside; eassumption.
  - apply me_not_text, F.
  - eapply fm_runs; try eassumption. apply same_rules_performs, P.
  - eapply fm_stray; eassumption.
  - eapply fm_outside; eassumption.
  - apply fm_not_text, F.
Qed.

(** Nothing is lost. *)
Lemma below_refl w : below w w.
Proof. intros n l E. exists l. split; [exact E|apply incl_refl]. Qed.
Lemma below_trans w v u : below w v -> below v u -> below w u.
Proof. intros H K n l E. destruct (H n l E) as (m & Em & I1). destruct (K n m Em) as (k & Ek & I2). exists k. split; [exact Ek|exact (incl_tran I1 I2)]. Qed.

Lemma binds_below w c n o w' : binds w c n Lmdb o w' -> below w w'.
Proof.
  intros H. inversion H as [|? Hs [(l' & El & Hl) Ho]| | |]; subst; [|apply below_refl].
  intros x l E. destruct (str_dec x c) as [->|N].
  - exists l'. split; [exact El|]. intros e He. apply (proj2 Hl). left. eauto.
  - exists l. rewrite (Ho x N). split; [exact E|apply incl_refl].
Qed.

Lemma failing_below w c n o w' : lets_failing w c n o w' -> below w w'.
Proof. intros [o1 w1 B|E|w1 B|w1 N B]; [exact (binds_below _ _ _ _ _ B)|apply below_refl|exact (binds_below _ _ _ _ _ B)|exact (binds_below _ _ _ _ _ B)]. Qed.

Lemma reference_below :
  (forall v w o w', gives_on lets_failing v w o w' -> below w w')
  /\ (forall name args w o w', calls_on lets_failing name args w o w' -> below w w').
Proof.
  apply (reference_on_ind lets_failing (fun v w o w' _ => below w w') (fun name args w o w' _ => below w w'));
    intros; eauto using below_refl, below_trans, failing_below.
Qed.

Lemma performs_below cs w o w' : performs_on lets_failing cs w o w' -> below w w'.
Proof. destruct reference_below as [_ RB]. induction 1; eauto using below_refl, below_trans. Qed.

Lemma means_below w script o w' : means_on lets_failing w script o w' -> below w w'.
Proof. intros [? ? cs o1 w1 _ _ _ P| | |]; [exact (performs_below _ _ _ _ P)|apply below_refl..]. Qed.

Lemma session_below w scripts os w' : all_mean_on lets_failing w scripts os w' -> below w w'.
Proof. induction 1; eauto using below_refl, below_trans, means_below. Qed.
