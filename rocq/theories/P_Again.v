(** * Proofs: a script that is begun again and again *)
From Coq Require Import List Arith NArith Bool String Lia.
From Verif Require Import M_Base M_Data M_Mem M_Heed M_Duck M_Regex M_Lexer M_Graph M_Parser M_Display M_Interp M_Conc
  S_Order S_Str S_Store S_Graph S_Lexer S_Parser S_Interp S_Conc S_Names S_Wander S_Rewrite S_Lines S_Footprint S_Monotone S_Again
  P_Ord P_Hist P_Parser P_Conc P_ConcFoot P_Footprint P_Monotone P_WanderRun P_WanderDet P_Rewrite P_RewriteLaws.
From Verif Require P_ConcMore P_Rerun P_Agree.
Import ListNotations.
Open Scope list_scope.

(** ** In the reference: a script that reads nothing it lets, begun on more *)
Section Steady.
  Variables R L : str -> Prop.
  Hypothesis RL : forall n, R n -> L n -> False.

  Definition between (w u F : world) : Prop := agree_on R w u /\ below w u /\ below u F.

  Definition value_steady (v : value) (w : world) (o : outcome) (w' : world) : Prop :=
    (forall n, value_reads v n -> R n) -> (forall n, value_lets v n -> L n) ->
    forall u F, between w u F -> below w' F -> exists u', gives Lmdb v u o u' /\ between w' u' F.
  Definition call_steady (name : str) (args : list value) (w : world) (o : outcome) (w' : world) : Prop :=
    (forall n, call_reads name args n -> R n) -> (forall n, call_lets name args n -> L n) ->
    forall u F, between w u F -> below w' F -> exists u', calls Lmdb name args u o u' /\ between w' u' F.

  Lemma below_trans a b c : below a b -> below b c -> below a c.
  Proof.
    intros H K n l E. destruct (H n l E) as (m & Em & I). destruct (K n m Em) as (k & Ek & J). exists k. split; [exact Ek|]. intros x Hx. apply J, I, Hx.
  Qed.

  Lemma binds_steady w u F c n o w' : L c -> between w u F -> binds w c n Lmdb o w' -> below w' F ->
    exists u', binds u c n Lmdb o u' /\ between w' u' F.
  Proof.
    intros Lc (A & B1 & B2) H BF. inversion H as [|? Sc Rb|Sc| |]; subst.
    - destruct (binds_stay Lmdb ltac:(discriminate) w u c n n done w' B1 H) as (b & u' & Hu).
      destruct (binds_below w u c n n Lmdb done b w' u' B1 (incl_refl _) H Hu) as (_ & -> & B1'). exists u'. split; [exact Hu|].
      inversion Hu as [|? Sc' Rb'| | |]; subst. destruct Rb as [(l & El & [Sl Hl]) Ow], Rb' as [(k & Ek & [Sk Hk]) Ou]. split; [|split].
      + intros m Rm. assert (N : m <> c) by (intros ->; exact (RL c Rm Lc)). rewrite (Ow m N), (Ou m N). apply A, Rm.
      + exact B1'.
      + intros m x Ex. destruct (str_dec m c) as [->|N].
        * rewrite Ek in Ex. injection Ex as <-. destruct (BF c l El) as (f & Ef & If). exists f. split; [exact Ef|]. intros e He.
          apply Hk in He as [(y & Ey & He)|He].
          -- destruct (B2 c y Ey) as (f' & Ef' & I'). assert (f' = f) as -> by congruence. apply I', He.
          -- apply If, Hl. right. exact He.
        * rewrite (Ou m N) in Ex. apply B2, Ex.
    - exists u. split; [apply bi_lmdb_name; exact Sc|]. split; [exact A|auto].
  Qed.

  (** The worlds on the way are below the last one. *)
  Definition value_up (v : value) (w : world) (o : outcome) (w' : world) : Prop := below w w'.
  Lemma binds_up w c n o w' : binds w c n Lmdb o w' -> below w w'.
  Proof.
    intros H. inversion H as [|? Sc [(l & El & [Sl Hl]) O]|Sc| |]; subst; [|apply below_refl].
    intros m k Ek. destruct (str_dec m c) as [->|N].
    - exists l. split; [exact El|]. intros e He. apply Hl. left. exists k. auto.
    - exists k. split; [rewrite (O m N); exact Ek|apply incl_refl].
  Qed.

  Lemma up :
    (forall v w o w', gives Lmdb v w o w' -> below w w')
    /\ (forall name args w o w', calls Lmdb name args w o w' -> below w w').
  Proof.
    apply (reference_ind Lmdb (fun v w o w' _ => below w w') (fun name args w o w' _ => below w w')); intros;
      try apply below_refl; try assumption; try (eapply below_trans; eassumption).
    - eapply binds_up; eassumption.
    - eapply below_trans; [eassumption|]. eapply binds_up; eassumption.
  Qed.

  Ltac stay t := eexists; split; [apply t; try eassumption|eassumption].

  Lemma steady :
    (forall v w o w', gives Lmdb v w o w' -> value_steady v w o w')
    /\ (forall name args w o w', calls Lmdb name args w o w' -> call_steady name args w o w').
  Proof.
    apply (reference_ind Lmdb (fun v w o w' _ => value_steady v w o w') (fun name args w o w' _ => call_steady name args w o w'));
      unfold value_steady, call_steady; intros.
    - stay gi_element.
    - stay gi_network.
    - stay gi_empty.
    - destruct (H ltac:(intros m Hm; apply H0; constructor; exact Hm) ltac:(intros m Hm; apply H1; constructor; exact Hm) u F H2 H3) as (u' & K & A).
      exists u'. split; [constructor; exact K|exact A].
    - stay gi_other.
    - stay ca_unknown.
    - stay ca_id.
    - stay ca_id_args.
    - stay ca_ignore.
    - stay ca_docs.
    - stay ca_docs_args.
    - stay ca_union.
    - stay ca_union_other.
    - stay ca_union_args.
    - exists u. split; [apply ca_read; eapply reads_on; [|eassumption]; apply (proj1 H1), H; constructor|exact H1].
    - stay ca_read_args.
    - exists u. split; [apply ca_filter; inversion f; apply fi_lmdb|exact H1].
    - stay ca_filter_args.
    - stay ca_equal_args.
    - destruct (H ltac:(intros m Hm; apply H0, cr_left, Hm) ltac:(intros m Hm; apply H1, ce_left, Hm) u F H2 H3) as (u' & K & A).
      exists u'. split; [eapply ca_equal_left; eassumption|exact A].
    - destruct (H ltac:(intros m Hm; apply H1, cr_left, Hm) ltac:(intros m Hm; apply H2, ce_left, Hm) u F H3 ltac:(eapply below_trans; [eapply (proj1 up); eassumption|eassumption])) as (u1 & K & A).
      destruct (H0 ltac:(intros m Hm; apply H1, cr_right, Hm) ltac:(intros m Hm; apply H2, ce_right, Hm) u1 F A H4) as (u2 & K2 & A2).
      exists u2. split; [eapply ca_equal_right; eassumption|exact A2].
    - destruct (H ltac:(intros m Hm; apply H1, cr_left, Hm) ltac:(intros m Hm; apply H2, ce_left, Hm) u F H3 ltac:(eapply below_trans; [eapply (proj1 up); eassumption|eassumption])) as (u1 & K & A).
      destruct (H0 ltac:(intros m Hm; apply H1, cr_right, Hm) ltac:(intros m Hm; apply H2, ce_right, Hm) u1 F A H4) as (u2 & K2 & A2).
      exists u2. split; [eapply ca_equal; eassumption|exact A2].
    - destruct (H ltac:(intros m Hm; apply H1, cr_left, Hm) ltac:(intros m Hm; apply H2, ce_left, Hm) u F H3 ltac:(eapply below_trans; [eapply (proj1 up); eassumption|eassumption])) as (u1 & K & A).
      destruct (H0 ltac:(intros m Hm; apply H1, cr_right, Hm) ltac:(intros m Hm; apply H2, ce_right, Hm) u1 F A H4) as (u2 & K2 & A2).
      exists u2. split; [eapply ca_unequal; eassumption|exact A2].
    - stay ca_fail_args.
    - destruct (H ltac:(intros m Hm; apply H0, cr_fail, Hm) ltac:(intros m Hm; apply H1, ce_fail, Hm) u F H2 H3) as (u' & K & A).
      exists u'. split; [eapply ca_fail_not; eassumption|exact A].
    - destruct (H ltac:(intros m Hm; apply H0, cr_fail, Hm) ltac:(intros m Hm; apply H1, ce_fail, Hm) u F H2 H3) as (u' & K & A).
      exists u'. split; [eapply ca_fail; eassumption|exact A].
    - destruct (H ltac:(intros m Hm; apply H0, cr_fail, Hm) ltac:(intros m Hm; apply H1, ce_fail, Hm) u F H2 H3) as (u' & K & A).
      exists u'. split; [eapply ca_fail_crash; eassumption|exact A].
    - destruct (binds_steady w u F (el_name c) n o w') as (u' & K & A); [apply H0; constructor|assumption..|].
      exists u'. split; [apply ca_let; exact K|exact A].
    - destruct (H ltac:(intros m Hm; apply H0, cr_let, Hm) ltac:(intros m Hm; apply H1, ce_let_in, Hm) u F H2 ltac:(eapply below_trans; [eapply binds_up; eassumption|eassumption])) as (u1 & K & A).
      destruct (binds_steady w1 u1 F (el_name c) n o w') as (u' & K' & A'); [apply H1; constructor|assumption..|].
      exists u'. split; [eapply ca_let_quote; eassumption|exact A'].
    - destruct (H ltac:(intros m Hm; apply H0, cr_let, Hm) ltac:(intros m Hm; apply H1, ce_let_in, Hm) u F H2 H3) as (u1 & K & A).
      exists u1. split; [eapply ca_let_other; eassumption|exact A].
    - stay ca_let_args.
  Qed.

  Lemma performs_up cs w o w' : performs Lmdb cs w o w' -> below w w'.
  Proof.
    induction 1 as [w|c w o w' H|c d rest w a w1 o w' H K IH|c d rest w o w' H N]; try (eapply (proj2 up); eassumption); [apply below_refl|].
    eapply below_trans; [eapply (proj2 up); eassumption|exact IH].
  Qed.

  Lemma performs_steady cs w o w' : performs Lmdb cs w o w' ->
    (forall c n, In c cs -> call_reads (el_name (c_name c)) (c_args c) n -> R n) ->
    (forall c n, In c cs -> call_lets (el_name (c_name c)) (c_args c) n -> L n) ->
    forall u F, between w u F -> below w' F -> exists u', performs Lmdb cs u o u' /\ between w' u' F.
  Proof.
    induction 1 as [w|c w o w' H|c d rest w a w1 o w' H K IH|c d rest w o w' H N]; intros HR HL u F A BF.
    - exists u. split; [constructor|exact A].
    - destruct (proj2 steady _ _ _ _ _ H (fun n => HR c n (or_introl eq_refl)) (fun n => HL c n (or_introl eq_refl)) u F A BF) as (u' & K & A').
      exists u'. split; [constructor; exact K|exact A'].
    - destruct (proj2 steady _ _ _ _ _ H (fun n => HR c n (or_introl eq_refl)) (fun n => HL c n (or_introl eq_refl)) u F A) as (u1 & K1 & A1).
      { eapply below_trans; [eapply performs_up; exact K|exact BF]. }
      destruct (IH (fun x n Hx => HR x n (or_intror Hx)) (fun x n Hx => HL x n (or_intror Hx)) u1 F A1 BF) as (u2 & K2 & A2).
      exists u2. split; [eapply pe_more; eassumption|exact A2].
    - destruct (proj2 steady _ _ _ _ _ H (fun n => HR c n (or_introl eq_refl)) (fun n => HL c n (or_introl eq_refl)) u F A BF) as (u' & K & A').
      exists u'. split; [apply pe_stop; assumption|exact A'].
  Qed.

  Lemma means_steady script w o w' : means Lmdb w script o w' ->
    (forall n, reads_name script n -> R n) -> (forall n, lets_name script n -> L n) ->
    forall u F, between w u F -> below w' F -> exists u', means Lmdb u script o u' /\ between w' u' F.
  Proof.
    intros [ts k cs o1 w1 Lx K Gs P|ts k next Lx K St|ts k Lx K N1 N2|Fl] HR HL u F A BF.
    - assert (Rd : reads_as script cs) by (exists ts, k; auto).
      destruct (performs_steady cs w o1 w1 P) with (u := u) (F := F) as (u' & P' & A'); try assumption.
      + intros c n Hc Hn. apply HR. exists cs, c. auto.
      + intros c n Hc Hn. apply HL. exists cs, c. auto.
      + exists u'. split; [eapply me_runs; eassumption|exact A'].
    - exists u. split; [eapply me_stray; eassumption|exact A].
    - exists u. split; [eapply me_outside; eassumption|exact A].
    - exists u. split; [apply me_not_text; exact Fl|exact A].
  Qed.

  Lemma means_up script w o w' : means Lmdb w script o w' -> below w w'.
  Proof. intros [ts k cs o1 w1 Lx K Gs P| | |]; try apply below_refl. eapply performs_up; exact P. Qed.
End Steady.

(** ** Dying on the way *)
Notation G := (graph_impl heed_impl).
Notation LG := (graph_impl (logged heed_impl)).

Lemma perform_grows h q : (forall c, q <> QRemoveCollection c) -> (forall c es, q <> QRemoveEntries c es) ->
  P_ConcMore.grows (lm h) (lm (h ++ ops_of q)).
Proof.
  intros N1 N2. assert (K : forall o, (forall c, o <> ORemColl c) -> (forall c ts, o <> ORem c ts) -> P_ConcMore.grows (lm h) (lm (h ++ [o]))).
  { intros o M1 M2. pose proof (heed_effect h o) as E. cbn zeta in E. destruct (fst (call_op heed_impl (lm h) o)).
    - split; [intros c Hc; apply E; right; split; [exact Hc|apply M1]|]. intros c t Ht. apply E. right. split; [exact Ht|].
      intros X. inversion X; subst; [eapply M2; reflexivity|eapply M1; reflexivity].
    - rewrite (E []). split; auto.
    - rewrite (E []). split; auto. }
  destruct q; unfold ops_of; cbn [op_of]; rewrite ?app_nil_r; try (split; auto; fail); try (apply K; discriminate).
  - destruct (N1 c eq_refl).
  - destruct (N2 c es eq_refl).
Qed.

Lemma alone_goes R W m : forall p h, footed R W p -> exists g p', alone LG m p (lm h, h) = (p', (lm g, g)) /\ alone G m p (lm h) = (p', lm g)
  /\ P_ConcMore.grows (lm h) (lm g) /\ (forall c, ~ W c -> obs c (lm h) (lm g)) /\ footed R W p'.
Proof.
  induction m as [|m IH]; intros p h F.
  - exists h, p. destruct p; repeat split; auto.
  - destruct p as [r|q k]; [exists h, (Done r); repeat split; auto|]. cbn [alone]. rewrite perform_logged.
    pose proof (perform_state q h) as Es. destruct (perform G q (lm h)) as [a s]. cbn [fst snd] in *. subst s.
    assert (Fk : footed R W (k a)) by (intros q' Hq; apply F; right; exists a; exact Hq).
    destruct (IH (k a) (h ++ ops_of q) Fk) as (g & p' & E1 & E2 & Gr & O & F').
    exists g, p'. split; [exact E1|]. split; [exact E2|].
    destruct (F q (or_introl eq_refl)) as (c & Hq).
    assert (N : (forall c, q <> QRemoveCollection c) /\ forall c es, q <> QRemoveEntries c es) by (destruct Hq as [([->|(es & ->)] & _)|([->|(e & ->)] & _)]; split; discriminate).
    split; [eapply P_ConcMore.grows_trans; [apply perform_grows; apply N|exact Gr]|]. split; [|exact F'].
    intros x Nx. eapply obs_trans; [|apply O, Nx]. destruct (op_of q) as [o|] eqn:Eo.
    + apply obs_sym, perform_other. intros Ea. apply Nx. eapply footed_changes; [exact F|]. exists q. split; [left; reflexivity|]. split; [exact Ea|congruence].
    + unfold ops_of. rewrite Eo, app_nil_r. apply obs_refl.
Qed.

Lemma alone_app {S} (I : lig_impl S) m n : forall p s, alone I (m + n) p s = alone I n (fst (alone I m p s)) (snd (alone I m p s)).
Proof.
  induction m as [|m IH]; intros p s; [destruct p; reflexivity|]. destruct p as [r|q k]; cbn; [destruct n; reflexivity|].
  destruct (perform I q s) as [a s']. apply IH.
Qed.

Lemma run_is_alone {S} (I : lig_impl S) script s : alone I (List.length script) (p_run common script) s = (Done (fst (run I common script s)), snd (run I common script s)).
Proof.
  destruct (P_Rerun.most_alone I (List.length script) (p_run common script) s (P_ConcMore.most_run common script)) as (r & Er).
  destruct (alone I (List.length script) (p_run common script) s) as [p s'] eqn:E. cbn [fst] in Er. subst p.
  apply alone_done in E. rewrite solo_run, on_store_common in E. rewrite E. reflexivity.
Qed.

Lemma alone_done_more {S} (I : lig_impl S) n r s : alone I n (Done r) s = (Done r, s).
Proof. destruct n; reflexivity. Qed.

(** What a run cut short has done, and what is missing. *)
Lemma cut_once script m h : exists g g1, snd (alone LG m (p_run common script) (with_log h)) = with_log g
  /\ snd (alone G m (p_run common script) (lm h)) = lm g
  /\ snd (run LG common script (with_log h)) = with_log g1
  /\ P_ConcMore.grows (lm h) (lm g) /\ P_ConcMore.grows (lm g) (lm g1)
  /\ forall c, ~ lets_name script c -> obs c (lm h) (lm g).
Proof.
  destruct (alone_goes _ _ m (p_run common script) h (footed_script script)) as (g & p' & E1 & E2 & Gr & O & F').
  destruct (alone_goes _ _ (List.length script) p' g F') as (g1 & p1 & E3 & E4 & Gr' & O' & F1).
  exists g, g1. change (with_log h) with (lm h, h). rewrite E1, E2. split; [reflexivity|]. split; [reflexivity|]. split; [|split; [exact Gr|split; [exact Gr'|exact O]]].
  pose proof (alone_app LG m (List.length script) (p_run common script) (lm h, h)) as A. rewrite E1 in A. cbn [fst snd] in A. rewrite E3 in A.
  rewrite Nat.add_comm, alone_app, run_is_alone in A. cbn [fst snd] in A. rewrite alone_done_more in A. injection A as _ A. exact A.
Qed.

Lemma grows_below h g w v : P_ConcMore.grows (lm h) (lm g) -> shows heed_impl (lm h) w -> shows heed_impl (lm g) v -> below w v.
Proof.
  intros [G1 G2] [A1 B1] [A2 B2] n l E.
  assert (Nv : v n <> None) by (apply A2, G1, A1; congruence). destruct (v n) as [m|] eqn:Ev; [|congruence]. exists m. split; [reflexivity|].
  pose proof (B1 (mkE n) l E) as F1. pose proof (B2 (mkE n) m Ev) as F2. cbn [graph_impl l_entries el_name mkE] in F1, F2. unfold graph_entries in F1, F2. cbn [el_name mkE] in F1, F2.
  destruct (t_triples heed_impl (lm h) n) as [ts|?|?] eqn:T1; try discriminate. destruct (t_triples heed_impl (lm g) n) as [us|?|?] eqn:T2; try discriminate.
  injection F1 as <-. injection F2 as <-.
  assert (I : incl ts us).
  { intros t Ht. destruct (G2 n t) as (k & Ek & Hk); [exists ts; auto|]. rewrite T2 in Ek. injection Ek as <-. exact Hk. }
  intros e He. apply (proj1 (in_bs_collect entry_order _ _)), in_map_iff in He as (t & <- & Ht). apply (proj2 (in_bs_collect entry_order _ _)), in_map, I, Ht.
Qed.

Lemma shown h : exists w, shows heed_impl (lm h) w.
Proof. eexists. apply world_of_shows. intros n. eapply implements_readable. exact im_lmdb. Qed.

Lemma same_by_below h g w v : shows heed_impl (lm h) w -> shows heed_impl (lm g) v -> below w v -> below v w -> same_world w v.
Proof.
  intros Sw Sv B1 B2 n. destruct (w n) as [l|] eqn:Ew.
  - destruct (B1 n l Ew) as (m & Em & I1). rewrite Em. f_equal. destruct (B2 n m Em) as (l' & El & I2). assert (l' = l) as -> by congruence.
    apply (P_Agree.set_eq entry_order); [exact (shown_set heed_impl heed_new h w n l Sw Ew)|exact (shown_set heed_impl heed_new g v n m Sv Em)|].
    intros e. split; [apply I1|apply I2].
  - destruct (v n) as [m|] eqn:Ev; [|reflexivity]. destruct (B2 n m Ev) as (l & El & _). congruence.
Qed.

Lemma attempts_snoc {S} (I : lig_impl S) script ms m s : attempts I script (ms ++ [m]) s = snd (alone I m (p_run common script) (attempts I script ms s)).
Proof. unfold attempts. rewrite fold_left_app. reflexivity. Qed.

Lemma last_prefix script ms m h : numbers_last script (ms ++ [m]) h -> numbers_last script ms h.
Proof.
  intros H k. destruct (Nat.le_gt_cases k (List.length ms)) as [Hk|Hk].
  - specialize (H k). rewrite firstn_app in H. replace (k - List.length ms) with 0 in H by lia. cbn [firstn] in H. rewrite app_nil_r in H. exact H.
  - specialize (H (List.length ms)). rewrite firstn_app, Nat.sub_diag, firstn_all in H. cbn [firstn] in H. rewrite app_nil_r in H.
    rewrite firstn_all2 by lia. exact H.
Qed.
Lemma last_all script ms h : numbers_last script ms h -> (total_weight (snd (snd (run LG common script (attempts LG script ms (with_log h))))) < 2 ^ 64)%N.
Proof. intros H. specialize (H (List.length ms)). rewrite firstn_all in H. exact H. Qed.
Lemma last_front script ms m h : numbers_last script (ms ++ [m]) h -> (total_weight (snd (snd (run LG common script (attempts LG script ms (with_log h))))) < 2 ^ 64)%N.
Proof. intros H. apply last_all, (last_prefix _ _ _ _ H). Qed.

(** A whole run, in the reference. *)
Lemma whole_run script g w : shows heed_impl (lm g) w -> (total_weight (snd (snd (run LG common script (with_log g)))) < 2 ^ 64)%N ->
  exists r g1 w1, run LG common script (with_log g) = (r, with_log g1) /\ run G common script (lm g) = (r, lm g1)
    /\ means Lmdb w script (outcome_of r) w1 /\ shows heed_impl (lm g1) w1.
Proof.
  intros Sw W. destruct (cut_once script 0 g) as (g0 & g1 & _ & _ & E & _). destruct (run LG common script (with_log g)) as [r x] eqn:Er. cbn [snd] in E. subst x.
  cbn [snd] in W. change (with_log g1) with (lm g1, g1) in *. cbn [snd] in W.
  destruct (reference_run Lmdb heed_impl heed_new _ (implements_abides _ _ _ _ _ im_lmdb) g script w r (lm g1) g1 Sw Er W) as (_ & _ & w1 & M & S1).
  exists r, g1, w1. split; [reflexivity|]. split; [exact (logged_run heed_impl _ _ _ _ _ _ Er)|]. auto.
Qed.

Lemma again_between script h w o F : (forall n, reads_name script n -> ~ lets_name script n) ->
  shows heed_impl (lm h) w -> means Lmdb w script o F ->
  forall ms, (ms = [] \/ exists k m, ms = k ++ [m] /\ numbers_last script ms h) ->
  exists g v, attempts LG script ms (with_log h) = with_log g /\ attempts G script ms (lm h) = lm g /\ shows heed_impl (lm g) v
    /\ between (reads_name script) w v F.
Proof.
  intros D Sw M. induction ms as [|m ms IH] using rev_ind; intros HN.
  - exists h, w. split; [reflexivity|]. split; [reflexivity|]. split; [exact Sw|]. split; [intros n _; reflexivity|]. split; [apply below_refl|].
    eapply means_up. exact M.
  - destruct HN as [X|(k0 & m0 & _ & N)]; [destruct ms; discriminate|].
    destruct IH as (g & v & E1 & E2 & Sv & A).
    { destruct ms as [|y ys] using rev_ind; [left; reflexivity|right]. exists ys, y. split; [reflexivity|exact (last_prefix _ _ _ _ N)]. }
    rewrite !attempts_snoc, E1, E2. destruct (cut_once script m g) as (g' & g1 & C1 & C2 & C3 & Gr & Gr' & O).
    rewrite C1, C2. destruct (shown g') as (v' & Sv'). exists g', v'. split; [reflexivity|]. split; [reflexivity|]. split; [exact Sv'|].
    pose proof (last_front _ _ _ _ N) as W. rewrite E1 in W.
    destruct (whole_run script g v Sv W) as (r & g2 & x & Er & _ & Mx & Sx). rewrite Er in C3. cbn [snd] in C3.
    assert (g2 = g1) as -> by (injection C3; auto).
    destruct (means_steady (reads_name script) (lets_name script) D script w o F M (fun _ H => H) (fun _ H => H) v F A (below_refl F)) as (u & Mu & (_ & _ & Bu)).
    destruct (means_fun Lmdb script v _ _ v _ _ (same_refl v) Mu Mx) as [_ Eu].
    destruct A as (A1 & A2 & A3). split; [|split].
    + intros n Rn. rewrite <- (A1 n Rn). symmetry. exact (obs_world n g g' v v' (O n (D n Rn)) Sv Sv').
    + eapply below_trans; [exact A2|]. exact (grows_below g g' v v' Gr Sv Sv').
    + eapply below_trans; [exact (grows_below g' g1 v' x Gr' Sv' Sx)|]. intros n l El. rewrite <- (Eu n) in El. exact (Bu n l El).
Qed.

(** The same outcome, and stores that look alike. *)
Lemma again_exact script ms h : (forall n, reads_name script n -> ~ lets_name script n) -> numbers_last script ms h ->
  exists r d1 r' d2, run G common script (lm h) = (r, d1) /\ run G common script (attempts G script ms (lm h)) = (r', d2)
    /\ outcome_of r' = outcome_of r /\ look_alike heed_impl d1 d2.
Proof.
  intros D N. destruct (shown h) as (w & Sw).
  destruct (whole_run script h w Sw (N 0)) as (r & g1 & F & _ & E1 & M & SF).
  destruct (again_between script h w _ F D Sw M ms) as (g & v & A1 & A2 & Sv & Bt).
  { destruct ms as [|y ys] using rev_ind; [left; reflexivity|right]. exists ys, y. auto. }
  pose proof (last_all _ _ _ N) as W. rewrite A1 in W. destruct (whole_run script g v Sv W) as (r' & g2 & x & _ & E2 & Mx & Sx).
  destruct (means_steady (reads_name script) (lets_name script) D script w _ F M (fun _ H => H) (fun _ H => H) v F Bt (below_refl F)) as (u & Mu & (_ & B1 & B2)).
  destruct (means_fun Lmdb script v _ _ v _ _ (same_refl v) Mu Mx) as [Eo Eu].
  exists r, (lm g1), r', (lm g2). rewrite A2. split; [exact E1|]. split; [exact E2|]. split; [symmetry; exact Eo|].
  apply (alike_same heed_impl (lm g1) (lm g2) F x SF Sx). apply (same_by_below g1 g2 F x SF Sx).
  - intros n l El. destruct (B1 n l El) as (m & Em & I). exists m. rewrite <- (Eu n). auto.
  - intros n l El. rewrite <- (Eu n) in El. exact (B2 n l El).
Qed.

Lemma repeat_cons_tail {A} (x : A) n : repeat x (S n) = repeat x n ++ [x].
Proof. induction n as [|n IH]; [reflexivity|]. cbn [repeat app] in *. f_equal. exact IH. Qed.

(** ** Scripts that read what they let: between one run and as many as were begun *)
Lemma all_mean_app B xs : forall ys w os w', all_mean B w (xs ++ ys) os w' <->
  exists o1 o2 v, os = o1 ++ o2 /\ all_mean B w xs o1 v /\ all_mean B v ys o2 w'.
Proof.
  induction xs as [|x xs IH]; intros ys w os w'; cbn [app].
  - split; [intros H; exists [], os, w; split; [reflexivity|]; split; [constructor|exact H]|]. intros (o1 & o2 & v & -> & H1 & H2). inversion H1; subst. exact H2.
  - split.
    + intros H. inversion H as [|? ? ? o os' w1 ? M A]; subst. apply IH in A as (o1 & o2 & v & -> & H1 & H2). exists (o :: o1), o2, v.
      split; [reflexivity|]. split; [econstructor; eassumption|exact H2].
    + intros (o1 & o2 & v & -> & H1 & H2). inversion H1 as [|? ? ? o os' w1 ? M A]; subst. cbn [app]. econstructor; [exact M|]. apply IH. exists os', o2, v. auto.
Qed.

Lemma again_below script h w a F : plain_script script -> shows heed_impl (lm h) w -> means Lmdb w script (Answers a) F ->
  forall ms, (ms = [] \/ exists k m, ms = k ++ [m] /\ numbers_last script ms h) ->
  exists g v os u, attempts LG script ms (with_log h) = with_log g /\ attempts G script ms (lm h) = lm g /\ shows heed_impl (lm g) v
    /\ below w v /\ all_mean Lmdb w (repeat script (List.length ms)) os u /\ below v u.
Proof.
  intros Pl Sw M. induction ms as [|m ms IH] using rev_ind; intros HN.
  - exists h, w, [], w. split; [reflexivity|]. split; [reflexivity|]. split; [exact Sw|]. split; [apply below_refl|]. split; [constructor|apply below_refl].
  - destruct HN as [X|(k0 & m0 & _ & N)]; [destruct ms; discriminate|].
    destruct IH as (g & v & os & u & E1 & E2 & Sv & A & Au & B2).
    { destruct ms as [|y ys] using rev_ind; [left; reflexivity|right]. exists ys, y. split; [reflexivity|exact (last_prefix _ _ _ _ N)]. }
    rewrite !attempts_snoc, E1, E2. destruct (cut_once script m g) as (g' & g1 & C1 & C2 & C3 & Gr & Gr' & O).
    rewrite C1, C2. destruct (shown g') as (v' & Sv').
    pose proof (last_front _ _ _ _ N) as W. rewrite E1 in W.
    destruct (whole_run script g v Sv W) as (r & g2 & x & Er & _ & Mx & Sx). rewrite Er in C3. cbn [snd] in C3.
    assert (g2 = g1) as -> by (injection C3; auto).
    destruct (means_stay Lmdb ltac:(discriminate) script w a F v Pl A M) as (b & x' & Mb).
    destruct (means_fun Lmdb script v _ _ v _ _ (same_refl v) Mx Mb) as [Eo _]. rewrite Eo in Mx.
    destruct (means_stay Lmdb ltac:(discriminate) script v b x u Pl B2 Mx) as (c & u' & Mu).
    destruct (means_mono Lmdb script v b x u c u' B2 Mx Mu) as [_ B3].
    exists g', v', (os ++ [Answers c]), u'. split; [reflexivity|]. split; [reflexivity|]. split; [exact Sv'|]. split; [|split].
    + eapply below_trans; [exact A|]. exact (grows_below g g' v v' Gr Sv Sv').
    + rewrite app_length. cbn [List.length]. rewrite Nat.add_1_r, repeat_cons_tail. apply all_mean_app. exists os, [Answers c], u.
      split; [reflexivity|]. split; [exact Au|]. econstructor; [exact Mu|constructor].
    + eapply below_trans; [exact (grows_below g' g1 v' x Gr' Sv' Sx)|exact B3].
Qed.
