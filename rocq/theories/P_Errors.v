(** * Proofs about the errors a script can answer *)
From Coq Require Import List Arith NArith Bool String Lia.
From Verif Require Import M_Base M_Data M_Mem M_Heed M_Duck M_Regex M_Lexer M_Graph M_Parser M_Display M_Interp
  S_Order S_Str S_Store S_Graph S_Lexer S_Parser S_Display S_Interp S_GraphHist S_Names S_Errors
  P_Ord P_Hist P_Lexer P_LexMore P_Parser P_Display P_Mem P_Heed P_HeedHist P_Duck P_Graph P_Interp P_InterpMore P_Filter P_Agree P_Names.
Import ListNotations.
Open Scope list_scope.

(** A failing read is that of a missing collection, named as it was asked for. *)
Definition complains {S : Type} (I : trips_impl S) (s0 : S) : Prop :=
  forall h c e, t_triples I (after I s0 h) c = Err e ->
    e = lit "Collection `" ++ c ++ lit "` not found." /\ ~ has I (after I s0 h) c.

Lemma shipped_complains {S} (I : trips_impl S) s0 : shipped I s0 -> complains I s0.
Proof.
  intros []; intros h c e E.
  - change (mem_triples (after mem_impl mem_new h) c = Err e) in E. unfold mem_triples in E. rewrite mem_has.
    destruct (get c (after mem_impl mem_new h)) as [l|]; [discriminate|]. injection E as <-. split; [reflexivity|].
    intros [l El]. discriminate.
  - change (heed_triples (after heed_impl heed_new h) c = Err e) in E. unfold heed_triples in E. exfalso.
    destruct (sget (h_c2i (after heed_impl heed_new h)) c) as [[id|]|e'|w]; try discriminate. revert E.
    generalize (@nil trip) as acc. generalize (h_cfst (after heed_impl heed_new h)) as rows.
    induction rows as [|row rows IH]; intros acc; cbn [heed_triples_loop]; [discriminate|].
    destruct (decode_row row) as [[[[cid fid] sid] tid]|]; [|discriminate].
    destruct (N.eqb id cid); [|apply IH].
    destruct (nget (h_i2v (after heed_impl heed_new h)) fid), (nget (h_i2v (after heed_impl heed_new h)) sid), (nget (h_i2v (after heed_impl heed_new h)) tid); try discriminate. apply IH.
  - exfalso. destruct (duck_history h) as [_ H]. destruct (H c) as (l & El & _). rewrite El in E. discriminate E.
Qed.

Section Runs.
  Context {S : Type} (I : trips_impl S) (s0 : S) (HI : honest I s0) (HC : complains I s0) (A C Q : str -> Prop).
  Context (AQ : forall n, A n -> Q n) (AC : forall n, A n -> C n) (DQ : forall n, documented n -> Q n).
  Notation G := (graph_impl I).

  Inductive blames (s : S) : werr -> Prop :=
  | bl_unknown n : A n -> (forall c, ~ In (n, c) (@common unit)) -> blames s (WErr (lit "Could not find command: " ++ n))
  | bl_usage m : In m usage -> blames s (WErr m)
  | bl_expected : blames s (WErr (lit "Expected failure."))
  | bl_assert a b : a <> b -> ok_val Q a -> ok_val Q b ->
      blames s (WErr (lit "Assertion failed, " ++ display a ++ lit " != " ++ display b))
  | bl_missing c : A c -> ~ has I s c -> blames s (WErr (lit "Error Collection `" ++ c ++ lit "` not found.")).

  Lemma common_unit {St} n : (forall c, ~ In (n, c) (@common St)) -> forall c, ~ In (n, c) (@common unit).
  Proof.
    intros H c Hc. apply (in_map fst) in Hc. change (map fst (@common unit)) with (map fst (@common St)) in Hc.
    apply in_map_iff in Hc as ([m d] & E & Hi). cbn in E. subst m. exact (H d Hi).
  Qed.

  Lemma blames_simply f args s r s1 : simply G common f args s r s1 -> (forall g, f <> FHost g) -> Forall (ok_val A) args ->
    keeps_names I s0 C Q s -> forall e, r = Err e -> blames s1 e.
  Proof.
    intros Hs Hh Ha K e E. destruct Hs; try discriminate E;
      try (injection E as <-; apply bl_usage; simpl; tauto).
    - injection E as <-. destruct K as (h & -> & _ & _). cbn in H. unfold graph_entries in H.
      destruct (t_triples I (after I s0 h) (el_name c)) as [ts|e'|w] eqn:Et; try discriminate.
      injection H as <-. destruct (HC _ _ _ Et) as [-> N]. inversion Ha as [|x y H1 H2]; subst.
      exact (bl_missing _ (el_name c) (proj2 H1) N).
    - destruct (Hh f eq_refl).
  Qed.

  Lemma blames_stores c es s r s1 e : stores G c es s r s1 -> r <> Err e.
  Proof. intros []; discriminate. Qed.

  Lemma blames_reach :
    (forall v st r st', evals G common v st r st' -> ok_val A v -> keeps_names I s0 C Q st -> forall e, r = Err e -> blames st' e)
    /\ (forall q st r st', quotes G common q st r st' -> Forall (ok_item A) q -> keeps_names I s0 C Q st -> forall e, r = Err e -> blames st' e)
    /\ (forall n args st r st', does G common n args st r st' -> A (el_name n) -> Forall (ok_val A) args -> keeps_names I s0 C Q st ->
          forall e, r = Err e -> blames st' e)
    /\ (forall f args st r st', acts G common f args st r st' -> (forall g, f <> FHost g) -> Forall (ok_val A) args ->
          keeps_names I s0 C Q st -> forall e, r = Err e -> blames st' e).
  Proof.
    destruct (names_reach I s0 HI A C Q AQ AC DQ) as (NR & NQ & _ & _).
    apply semantics_ind; try (intros; discriminate);
      try (intros; match goal with E : Err _ = Err _ |- _ => injection E as <- end; apply bl_usage; simpl; tauto).
    - intros q st r st' _ IH H K. exact (IH H K).
    - intros n args st r st' _ IH H K. inversion H as [|x y Hn Hr]; subst. apply IH; [exact (proj2 Hn)| |exact K].
      eapply Forall_impl; [|exact Hr]. intros v. apply ok_item_val.
    - intros n args st N Hn Ha K e E. injection E as <-. apply bl_unknown; [exact Hn|]. exact (common_unit _ N).
    - intros n c args st r st' Hc _ IH _ H K. exact (IH (common_no_host _ _ Hc) H K).
    - intros f args st r st' Hs Hh Ha K. exact (blames_simply _ _ _ _ _ Hs Hh Ha K).
    - intros l r st a st1 _ IH _ _ Ha K. inversion Ha; subst. auto.
    - intros l r st a st1 b st2 Hl _ _ IH2 _ _ Ha K. inversion Ha as [|x y H1 H2]; subst. inversion H2; subst.
      apply IH2; [assumption|]. exact (proj1 (NR _ _ _ _ Hl H1 K)).
    - intros l r st a st1 b st2 Hl _ Hr _ Hne _ Ha K e E. injection E as <-.
      inversion Ha as [|x y H1 H2]; subst. inversion H2; subst.
      destruct (NR _ _ _ _ Hl H1 K) as [K1 Va]. destruct (NR _ _ _ _ Hr ltac:(assumption) K1) as [_ Vb].
      apply bl_assert; auto.
    - intros q st v st1 _ _ _ _ _ e E. injection E as <-. apply bl_expected.
    - intros c n st r st' H _ _ _ e E. destruct (blames_stores _ _ _ _ _ _ H E).
    - intros c q st n st1 r st' _ _ H _ _ _ e E. destruct (blames_stores _ _ _ _ _ _ H E).
  Qed.

  Lemma blames_calls calls st r st' : runs G common calls st r st' ->
    Forall (fun c => A (el_name (c_name c)) /\ Forall (ok_val A) (c_args c)) calls ->
    keeps_names I s0 C Q st -> forall e, r = Err e -> blames st' e.
  Proof.
    destruct (names_reach I s0 HI A C Q AQ AC DQ) as (_ & _ & ND & _).
    destruct blames_reach as (_ & _ & BD & _).
    induction 1 as [st|c st r st' H|c rest st v st1 r st' H Hne _ IH|c rest st r st' H Hf]; intros Hc K e E.
    - discriminate.
    - inversion Hc as [|x y [H1 H2] _]; subst. exact (BD _ _ _ _ _ H H1 H2 K e eq_refl).
    - inversion Hc as [|x y [H1 H2] H3]; subst. refine (IH H3 _ e eq_refl). exact (proj1 (ND _ _ _ _ _ H H2 K)).
    - inversion Hc as [|x y [H1 H2] _]; subst. exact (BD _ _ _ _ _ H H1 H2 K e eq_refl).
  Qed.
End Runs.

(** ** The calls of a text *)
Section Texts.
  Context (P : str -> Prop).
  Definition ok_call2 (c : call) : Prop := P (el_name (c_name c)) /\ Forall (ok_val P) (c_args c).

  Lemma ok_a_call2 ts c : g_call ts c -> Forall (ok_tok P) ts -> ok_call2 c.
  Proof.
    intros H F. pose proof (ok_values P _ _ H F) as K. inversion K as [|x y H1 H2]; subst. split; [exact (proj2 H1)|exact H2].
  Qed.

  Lemma ok_commas2 ts cs : g_commas ts cs -> Forall (ok_tok P) ts -> Forall ok_call2 cs.
  Proof.
    induction 1 as [|ts c ts' cs Hc _ IH]; intros F; [constructor|]. apply Forall_app in F as [F1 F2].
    inversion F2; subst. constructor; [exact (ok_a_call2 _ _ Hc F1)|auto].
  Qed.

  Lemma ok_script2 ts cs : g_script ts cs -> Forall (ok_tok P) ts -> Forall ok_call2 cs.
  Proof.
    intros [ts' cs' H|ts1 cs1 ts2 c H Hc] F; [exact (ok_commas2 _ _ H F)|]. apply Forall_app in F as [F1 F2].
    apply Forall_app. split; [exact (ok_commas2 _ _ H F1)|]. constructor; [exact (ok_a_call2 _ _ Hc F2)|constructor].
  Qed.
End Texts.

(** ** A script *)
Section Script.
  Context {S : Type} (I : trips_impl S) (s0 : S) (HI : honest I s0) (HC : complains I s0) (C Q : str -> Prop).
  Context (DQ : forall n, documented n -> Q n).
  Notation G := (graph_impl I).

  Lemma explained_run script s e s' : (forall n, said script n -> C n /\ Q n) -> keeps_names I s0 C Q s ->
    run G common script s = (Err e, s') -> explained script Q (has I s') e.
  Proof.
    intros HS K E. unfold run in E.
    destruct (tokenize script) as [tk|e'|w] eqn:Et.
    - destruct (filter_keeps _ _ Et) as (kept & Ek & Kp & _). rewrite Ek in E. apply tokenize_ok in Et.
      destruct (parse kept) as [cs|e'|w] eqn:Ep.
      + apply (runs_iff _ _ common_table) in E. apply parse_ok in Ep.
        pose proof (ok_script2 _ _ _ Ep (ok_kept _ _ _ Kp (lexes_ok _ _ Et))) as F.
        destruct (blames_calls I s0 HI HC (said script) C Q (fun n Hn => proj2 (HS n Hn)) (fun n Hn => proj1 (HS n Hn)) DQ _ _ _ _ E F K e eq_refl).
        * apply ex_unknown; assumption.
        * apply ex_usage; assumption.
        * apply ex_expected.
        * apply ex_assert; [assumption|eapply ok_tidy; eassumption..|apply ok_named; assumption|apply ok_named; assumption].
        * apply ex_missing; assumption.
      + injection E as <- <-. apply parse_err in Ep as (next & -> & Hs). eapply ex_parse; eassumption.
      + discriminate.
    - pose proof Et as Et2. apply filter_err in Et2. rewrite Et2 in E. injection E as <- <-.
      apply tokenize_err in Et as [-> F]. apply ex_lex, F.
    - destruct (tokenize_no_panic _ _ Et).
  Qed.
End Script.
