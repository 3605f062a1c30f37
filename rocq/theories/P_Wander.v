(** * Proofs: the code follows the reference *)
From Coq Require Import List Arith NArith Bool String Lia.
From Verif Require Import M_Base M_Data M_Mem M_Heed M_Duck M_Regex M_Lexer M_Graph M_Parser M_Display M_Interp
  S_Order S_Str S_Store S_Graph S_Filter S_Lexer S_Parser S_Display S_Interp S_GraphHist S_Names S_Json
  P_Ord P_Hist P_Lexer P_LexMore P_Parser P_Display P_Mem P_Heed P_HeedHist P_HeedMore P_Duck P_Graph P_Interp P_InterpMore
  P_InterpStores P_Crash P_InterpProps P_Filter P_Agree P_Sim P_Names S_Wander.
Import ListNotations.
Open Scope list_scope.

(** ** Printing *)
Lemma in_quotes_iff s t : in_quotes s t <-> t = json_string s.
Proof.
  unfold json_string. split.
  - intros [s' b H]. apply json_text_iff in H as ->. reflexivity.
  - intros ->. constructor. apply json_text_body.
Qed.

Lemma entry_text_iff e t : entry_text e t <-> t = display_entry e.
Proof.
  split.
  - intros []; cbn [display_entry]; unfold display_element;
      repeat match goal with H : in_quotes _ _ |- _ => apply in_quotes_iff in H as -> end; reflexivity.
  - intros ->. destruct e; cbn [display_entry]; constructor; apply in_quotes_iff; reflexivity.
Qed.

Lemma between_fun sep ts a b : between sep ts a -> between sep ts b -> a = b.
Proof.
  intros H. revert b. induction H as [|t|t u ts r H IH]; intros b K; inversion K; subst; try reflexivity.
  f_equal. f_equal. apply IH. assumption.
Qed.

Lemma between_entries es : forall total i, i + List.length es = total ->
  between (lit ", ") (map display_entry es) (display_entries total i es).
Proof.
  induction es as [|e es IH]; intros total i L; cbn [map display_entries]; [constructor|].
  cbn [List.length] in L. destruct es as [|e' es].
  - replace (Nat.ltb (S i) total) with false by (symmetry; apply Nat.ltb_ge; cbn in L; lia). cbn [display_entries]. rewrite app_nil_r. constructor.
  - replace (Nat.ltb (S i) total) with true by (symmetry; apply Nat.ltb_lt; cbn in L; lia). apply bt_more. apply IH. lia.
Qed.

Lemma value_text_display : forall v, value_text v (display v).
Proof.
  induction v as [e|n|q IH] using value_ind'.
  - constructor. apply in_quotes_iff. reflexivity.
  - apply vt_network with (map display_entry n).
    + clear. induction n; constructor; [apply entry_text_iff; reflexivity|assumption].
    + apply between_entries. reflexivity.
  - cbn [display]. apply vt_quote with (map display q).
    + induction IH; constructor; assumption.
    + clear. induction q as [|x [|y q] IH]; cbn [map]; [constructor|rewrite app_nil_r; constructor|]. apply bt_more. exact IH.
Qed.

Lemma value_text_iff : forall v t, value_text v t <-> t = display v.
Proof.
  assert (FE : forall n a, Forall2 entry_text n a -> a = map display_entry n).
  { induction 1 as [|e t n a He _ IH]; [reflexivity|]. apply entry_text_iff in He as ->. cbn. congruence. }
  assert (U : forall v t u, value_text v t -> value_text v u -> t = u).
  { induction v as [e|n|q IH] using value_ind'; intros t u Ht Hu.
    - inversion Ht as [? ? A| |]; inversion Hu as [? ? A'| |]; subst. apply in_quotes_iff in A as ->, A' as ->. reflexivity.
    - inversion Ht as [|? a ta A Ba|]; inversion Hu as [|? b tb A' Bb|]; subst. apply FE in A as ->, A' as ->.
      rewrite (between_fun _ _ _ _ Ba Bb). reflexivity.
    - inversion Ht as [| |? a ta A Ba]; inversion Hu as [| |? b tb A' Bb]; subst.
      assert (a = b) as ->; [|rewrite (between_fun _ _ _ _ Ba Bb); reflexivity].
      clear - IH A A'. revert a b A A'. induction IH as [|x l Hx _ IH]; intros a b A A';
        inversion A as [|? ya ? la Ya Fa]; inversion A' as [|? yb ? lb Yb Fb]; subst; [reflexivity|].
      f_equal; [exact (Hx _ _ Ya Yb)|exact (IH _ _ Fa Fb)]. }
  intros v t. split; [intros H; exact (U v _ _ H (value_text_display v))|intros ->; apply value_text_display].
Qed.

(** ** The manual *)
Lemma common_manual {St} name (c : @command St) : In (name, c) common -> In (name, cmd_doc c) manual.
Proof. cbn. intuition match goal with H : (_, _) = _ |- _ => injection H as <- <- end; cbn; tauto. Qed.

Lemma manual_common {St} name text : In (name, text) manual -> exists c : @command St, In (name, c) common /\ cmd_doc c = text.
Proof.
  cbn. intuition match goal with H : (_, _) = _ |- _ => injection H as <- <- end;
    (eexists; split; [|shelve]); 
    first [left; reflexivity|right; left; reflexivity|do 2 right; left; reflexivity|do 3 right; left; reflexivity|do 4 right; left; reflexivity
      |do 5 right; left; reflexivity|do 6 right; left; reflexivity|do 7 right; left; reflexivity|do 8 right; left; reflexivity].
  Unshelve. all: reflexivity.
Qed.

Lemma not_common {St} name : (forall c : @command St, ~ In (name, c) common) -> ~ In name (map fst manual).
Proof. intros N H. apply in_map_iff in H as ([m t] & E & Hi). cbn in E. subst m. destruct (manual_common (St := St) name t Hi) as (c & Hc & _). exact (N c Hc). Qed.

(** The name of a standard command. *)
Definition fname {St} (f : @cmd_fun St) : str :=
  match f with
  | FAssertEqual => lit "assert-equal" | FAssertFail => lit "assert-fail" | FIgnore => lit "ignore" | FLet => lit "let"
  | FRead => lit "read" | FId => lit "id" | FDocs => lit "docs" | FUnion => lit "union" | FFilter => lit "filter"
  | FHost _ => []
  end.

Lemma common_fname {St} name (c : @command St) : In (name, c) common -> name = fname (cmd_fun_of c) /\ forall g, cmd_fun_of c <> FHost g.
Proof. cbn. intuition match goal with H : (_, _) = _ |- _ => injection H as <- <- end; try reflexivity; discriminate. Qed.

(** ** What the parser makes is proper *)
Lemma g_quote_proper ts q : g_quote ts q -> Forall proper q.
Proof. induction 1 as [| |n es s ts vs _ [Hs _] _ IH]; constructor; try assumption; constructor. exact Hs. Qed.

Lemma g_values_proper ts vs : g_values ts vs -> Forall proper vs.
Proof.
  induction 1 as [| | |n es s ts vs _ [Hs _] _ IH|q qs ts vs Hq _ IH]; constructor; try assumption; constructor; [exact Hs|].
  exact (g_quote_proper _ _ Hq).
Qed.

Lemma g_call_proper ts c : g_call ts c -> proper_call c.
Proof. intros H. apply g_values_proper in H. inversion H; assumption. Qed.

Lemma g_commas_proper ts cs : g_commas ts cs -> Forall proper_call cs.
Proof. induction 1; constructor; [eapply g_call_proper; eassumption|assumption]. Qed.

Lemma g_script_proper ts cs : g_script ts cs -> Forall proper_call cs.
Proof.
  intros [t c H|t c t' d H Hc]; [exact (g_commas_proper _ _ H)|]. apply Forall_app. split; [exact (g_commas_proper _ _ H)|].
  constructor; [exact (g_call_proper _ _ Hc)|constructor].
Qed.

Definition as_value (r : tres (list entry)) : wres value :=
  match r with Ok l => Ok (VNetwork l) | Err e => Err (WErr (lit "Error " ++ e)) | Panic w => Panic w end.
Definition as_found (r : tres (list entry)) : wres value :=
  match r with Ok l => Ok (VNetwork l) | Err e => Panic PTodo | Panic w => Panic w end.

(** ** Stores that follow the reference *)
Record abides (B : backend) {S : Type} (I : trips_impl S) (s0 : S) (fits : list op -> Prop) : Prop := {
  ab_prefix : forall h g, fits (h ++ g) -> fits h;
  ab_read : forall h w c, fits h -> shows I (after I s0 h) w ->
    reads w (el_name c) B (outcome_of (as_value (l_entries (graph_impl I) (after I s0 h) c)));
  ab_filter : forall h w c p, fits h -> shows I (after I s0 h) w ->
    finds w (el_name c) p B (outcome_of (as_found (l_filter (graph_impl I) (after I s0 h) c p)));
  ab_let : forall h w c n r s' h', shows I (after I s0 h) w ->
    stores (graph_impl (logged I)) c n (after I s0 h, h) r (s', h') -> fits h' ->
    exists w', binds w (el_name c) n B (outcome_of r) w' /\ shows I s' w' }.

Section Follow.
  Context (B : backend) {S : Type} (I : trips_impl S) (s0 : S) (fits : list op -> Prop) (AB : abides B I s0 fits).
  Notation LG := (graph_impl (logged I)).

  Definition at_log (x : S * list op) : Prop := fst x = after I s0 (snd x).

  Lemma log_coll st c a st1 : at_log st -> l_add_collection LG st c = (a, st1) -> at_log st1 /\ exists g, snd st1 = snd st ++ g.
  Proof.
    unfold at_log. destruct st as [s h]. cbn [fst snd]. intros -> E. cbn in E. unfold graph_add_collection in E. cbn in E.
    destruct (t_add_collection I (after I s0 h) (el_name c)) as [r x] eqn:E1. injection E as _ <-. cbn. split; [|eauto].
    rewrite after_snoc. cbn [call_op]. rewrite E1. reflexivity.
  Qed.

  Lemma log_add st c n a st1 n' : at_log st -> l_add_entries LG st c n = (a, st1, n') -> at_log st1 /\ exists g, snd st1 = snd st ++ g.
  Proof.
    unfold at_log. destruct st as [s h]. cbn [fst snd]. intros -> E. cbn in E. unfold graph_add_entries in E. cbn in E. fold (trips_of n) in E.
    destruct (t_add_triples I (after I s0 h) (el_name c) (trips_of n)) as [[r x] y] eqn:E1. cbn in E. injection E as _ <- _. cbn. split; [|eauto].
    rewrite after_snoc. cbn [call_op]. rewrite E1. reflexivity.
  Qed.

  Lemma log_stores c n st r st' : at_log st -> stores LG c n st r st' -> at_log st' /\ exists g, snd st' = snd st ++ g.
  Proof.
    intros H [a st1 b st2 n' E1 _ E2 _|w st1 E1|a st1 w st2 n' E1 _ E2]; destruct (log_coll _ _ _ _ H E1) as [H1 [g Hg]].
    - destruct (log_add _ _ _ _ _ _ H1 E2) as [H2 [g' Hg']]. split; [exact H2|]. rewrite Hg', Hg, <- app_assoc. eauto.
    - split; [exact H1|eauto].
    - destruct (log_add _ _ _ _ _ _ H1 E2) as [H2 [g' Hg']]. split; [exact H2|]. rewrite Hg', Hg, <- app_assoc. eauto.
  Qed.

  (** Running from a logged state follows the relation [R]. *)
  Definition follows (R : world -> outcome -> world -> Prop) (st : S * list op) (r : wres value) (st' : S * list op) : Prop :=
    at_log st -> at_log st' /\ (exists g, snd st' = snd st ++ g)
      /\ (fits (snd st') -> forall w, shows I (fst st) w -> exists w', R w (outcome_of r) w' /\ shows I (fst st') w').

  Lemma follows_stay (R : world -> outcome -> world -> Prop) st r : (forall w, at_log st -> fits (snd st) -> shows I (fst st) w -> R w (outcome_of r) w) -> follows R st r st.
  Proof. intros H A. split; [exact A|]. split; [exists []; symmetry; apply app_nil_r|]. intros Fi w Hw. exists w. split; [apply H; assumption|exact Hw]. Qed.

  Lemma follows_map (R R' : world -> outcome -> world -> Prop) st r r' st' :
    (forall w w', R w (outcome_of r) w' -> R' w (outcome_of r') w') -> follows R st r st' -> follows R' st r' st'.
  Proof. intros H F A. destruct (F A) as (A' & P & K). split; [exact A'|]. split; [exact P|]. intros Fi w Hw. destruct (K Fi w Hw) as (w' & Hr & Hs). eauto. Qed.

  Lemma follows_seq (R R1 R2 : world -> outcome -> world -> Prop) st r1 st1 r st' :
    (forall w w1 w', R1 w (outcome_of r1) w1 -> R2 w1 (outcome_of r) w' -> R w (outcome_of r) w') ->
    follows R1 st r1 st1 -> follows R2 st1 r st' -> follows R st r st'.
  Proof.
    intros H F1 F2 A. destruct (F1 A) as (A1 & [g1 P1] & K1). destruct (F2 A1) as (A2 & [g2 P2] & K2).
    split; [exact A2|]. split; [exists (g1 ++ g2); rewrite P2, P1, app_assoc; reflexivity|]. intros Fi w Hw.
    assert (Fi1 : fits (snd st1)) by (rewrite P2 in Fi; exact (ab_prefix _ _ _ _ AB _ _ Fi)).
    destruct (K1 Fi1 w Hw) as (w1 & H1 & S1). destruct (K2 Fi w1 S1) as (w' & H2 & S2). eauto.
  Qed.

  Lemma follows_stores c n st r st' : stores LG c n st r st' -> follows (fun w o w' => binds w (el_name c) n B o w') st r st'.
  Proof.
    intros H A. destruct (log_stores _ _ _ _ _ A H) as [A' P]. split; [exact A'|]. split; [exact P|]. intros Fi w Hw.
    destruct st as [s h], st' as [s' h']. unfold at_log in A. cbn [fst snd] in *. subst s.
    eapply (ab_let _ _ _ _ AB); eassumption.
  Qed.

  Lemma follows_simply f args st r st' : simply LG common f args st r st' -> (forall g, f <> FHost g) -> Forall proper args ->
    follows (calls B (fname f) args) st r st'.
  Proof.
    intros H NH PA. destruct H; cbn [fname]; try (apply follows_stay; intros w0 A Ft Hw; cbn [outcome_of]).
    - apply ca_id.
    - apply ca_id_args. assumption.
    - apply ca_ignore.
    - apply ca_docs. split; [assumption|]. intros e. match goal with H : forall e, In e n <-> _ |- _ => rewrite H end. unfold page. split.
      + intros (name & c & Hc & ->). exists name, (cmd_doc c). split; [apply common_manual, Hc|reflexivity].
      + intros (name & text & Hm & ->). destruct (manual_common (St := S * list op) _ _ Hm) as (c & Hc & <-). eauto.
    - apply ca_docs_args. discriminate.
    - apply ca_union. inversion PA as [|? ? Pl _]; subst. inversion Pl; subst. split; [apply (is_set_append entry_order); assumption|].
      intros e. apply (in_bs_append entry_order).
    - apply ca_union_other. assumption.
    - apply ca_union_args. assumption.
    - apply ca_read. destruct st as [s h]. unfold at_log in A. cbn [fst snd] in A, Ft, Hw. subst s.
      pose proof (ab_read _ _ _ _ AB h w0 c Ft Hw) as K. change (l_entries (graph_impl I) (after I s0 h) c) with (l_entries LG (after I s0 h, h) c) in K.
      rewrite H in K. exact K.
    - apply ca_read. destruct st as [s h]. unfold at_log in A. cbn [fst snd] in A, Ft, Hw. subst s.
      pose proof (ab_read _ _ _ _ AB h w0 c Ft Hw) as K. change (l_entries (graph_impl I) (after I s0 h) c) with (l_entries LG (after I s0 h, h) c) in K.
      rewrite H in K. exact K.
    - apply ca_read. destruct st as [s h]. unfold at_log in A. cbn [fst snd] in A, Ft, Hw. subst s.
      pose proof (ab_read _ _ _ _ AB h w0 c Ft Hw) as K. change (l_entries (graph_impl I) (after I s0 h) c) with (l_entries LG (after I s0 h, h) c) in K.
      rewrite H in K. exact K.
    - apply ca_read_args. assumption.
    - apply ca_filter. destruct st as [s h]. unfold at_log in A. cbn [fst snd] in A, Ft, Hw. subst s.
      pose proof (ab_filter _ _ _ _ AB h w0 c (Role a d b) Ft Hw) as K. change (l_filter (graph_impl I) (after I s0 h) c) with (l_filter LG (after I s0 h, h) c) in K.
      rewrite H in K. exact K.
    - apply ca_filter. destruct st as [s h]. unfold at_log in A. cbn [fst snd] in A, Ft, Hw. subst s.
      pose proof (ab_filter _ _ _ _ AB h w0 c (Role a d b) Ft Hw) as K. change (l_filter (graph_impl I) (after I s0 h) c) with (l_filter LG (after I s0 h, h) c) in K.
      rewrite H in K. exact K.
    - apply ca_filter. destruct st as [s h]. unfold at_log in A. cbn [fst snd] in A, Ft, Hw. subst s.
      pose proof (ab_filter _ _ _ _ AB h w0 c (Role a d b) Ft Hw) as K. change (l_filter (graph_impl I) (after I s0 h) c) with (l_filter LG (after I s0 h, h) c) in K.
      rewrite H in K. exact K.
    - apply ca_filter_args. assumption.
    - destruct (NH f eq_refl).
  Qed.

  Lemma failed_outcome (r : wres value) : failed r -> forall v, outcome_of r <> Answers v.
  Proof. intros F v. destruct r as [x|e|w]; [destruct (F x eq_refl)|discriminate|discriminate]. Qed.

  Lemma follows_all :
    (forall v st r st', evals LG common v st r st' -> proper v -> follows (gives B v) st r st')
    /\ (forall q st r st', quotes LG common q st r st' -> Forall proper q -> follows (gives B (VQuote q)) st r st')
    /\ (forall n args st r st', does LG common n args st r st' -> Forall proper args -> follows (calls B (el_name n) args) st r st')
    /\ (forall f args st r st', acts LG common f args st r st' -> (forall g, f <> FHost g) -> Forall proper args ->
          follows (calls B (fname f) args) st r st').
  Proof.
    apply (semantics_ind _ LG common
      (fun v st r st' _ => proper v -> follows (gives B v) st r st')
      (fun q st r st' _ => Forall proper q -> follows (gives B (VQuote q)) st r st')
      (fun n args st r st' _ => Forall proper args -> follows (calls B (el_name n) args) st r st')
      (fun f args st r st' _ => (forall g, f <> FHost g) -> Forall proper args -> follows (calls B (fname f) args) st r st')).
    - intros e st P. apply follows_stay. intros. constructor.
    - intros e st P. apply follows_stay. intros. constructor.
    - intros q st r st' _ IH P. apply IH. inversion P; assumption.
    - intros st P. apply follows_stay. intros. constructor.
    - intros n args st r st' _ IH P. inversion P; subst. eapply follows_map; [|apply IH; assumption]. intros w w' K. constructor. exact K.
    - intros v args st N P. apply follows_stay. intros. constructor. exact N.
    - intros n args st N P. apply follows_stay. intros. apply ca_unknown. exact (not_common _ N).
    - intros n c args st r st' Hc _ IH P. destruct (common_fname _ _ Hc) as [E N]. rewrite E. apply IH; assumption.
    - intros f args st r st' H N P. apply follows_simply; assumption.
    - intros args st L _ P. apply follows_stay. intros. apply ca_equal_args. exact L.
    - intros l r st a st1 _ IH F _ P. inversion P as [|? ? Pl Pr]; subst.
      eapply follows_map; [|exact (IH Pl)]. intros w w' K. cbn [fname]. apply ca_equal_left; [exact K|apply failed_outcome, F].
    - intros l r st a st1 b st2 _ IHl _ IHr F _ P. inversion P as [|? ? Pl Pr]; subst. inversion Pr as [|? ? Pr' _]; subst.
      eapply follows_seq; [|exact (IHl Pl)|exact (IHr Pr')]. intros w w1 w' K1 K2. cbn [fname].
      eapply ca_equal_right; [exact K1|exact K2|apply failed_outcome, F].
    - intros l r st a st1 st2 _ IHl _ IHr _ P. inversion P as [|? ? Pl Pr]; subst. inversion Pr as [|? ? Pr' _]; subst.
      assert (F : follows (fun w o w' => exists w1, gives B l w (Answers a) w1 /\ gives B r w1 o w') st (Ok a) st2).
      { eapply follows_seq; [|exact (IHl Pl)|exact (IHr Pr')]. intros w w1 w' K1 K2. exists w1. auto. }
      eapply follows_map; [|exact F]. intros w w' (w1 & K1 & K2). cbn [fname outcome_of] in *. eapply ca_equal; eassumption.
    - intros l r st a st1 b st2 _ IHl _ IHr N _ P. inversion P as [|? ? Pl Pr]; subst. inversion Pr as [|? ? Pr' _]; subst.
      assert (F : follows (fun w o w' => exists w1, gives B l w (Answers a) w1 /\ gives B r w1 o w') st (Ok b) st2).
      { eapply follows_seq; [|exact (IHl Pl)|exact (IHr Pr')]. intros w w1 w' K1 K2. exists w1. auto. }
      eapply follows_map; [|exact F]. intros w w' (w1 & K1 & K2). cbn [fname outcome_of] in *.
      eapply ca_unequal; [exact K1|exact K2|exact N|apply value_text_display|apply value_text_display].
    - intros args st N _ P. apply follows_stay. intros. apply ca_fail_args. exact N.
    - intros q st v st1 _ IH _ P. inversion P as [|? ? Pq _]; subst. inversion Pq; subst.
      eapply follows_map; [|apply IH; assumption]. intros w w' K. cbn [fname outcome_of] in *. eapply ca_fail_not; exact K.
    - intros q st e st1 _ IH _ P. inversion P as [|? ? Pq _]; subst. inversion Pq; subst.
      eapply follows_map; [|apply IH; assumption]. intros w w' K. cbn [fname outcome_of] in *. eapply ca_fail; exact K.
    - intros q st x st1 _ IH _ P. inversion P as [|? ? Pq _]; subst. inversion Pq; subst.
      eapply follows_map; [|apply IH; assumption]. intros w w' K. cbn [fname outcome_of] in *. eapply ca_fail_crash; exact K.
    - intros c n st r st' H _ P. eapply follows_map; [|apply (follows_stores _ _ _ _ _ H)]. intros w w' K. cbn [fname]. apply ca_let. exact K.
    - intros c q st n st1 r st' _ IH H _ P. inversion P as [|? ? _ Pq]; subst. inversion Pq as [|? ? Pq' _]; subst. inversion Pq'; subst.
      eapply follows_seq; [|apply IH; assumption|apply (follows_stores _ _ _ _ _ H)]. intros w w1 w' K1 K2. cbn [fname outcome_of] in *.
      eapply ca_let_quote; eassumption.
    - intros c q st x st1 _ IH _ P. inversion P as [|? ? _ Pq]; subst. inversion Pq as [|? ? Pq' _]; subst. inversion Pq'; subst.
      eapply follows_map; [|apply IH; assumption]. intros w w' K. cbn [fname outcome_of] in *. eapply ca_let_other; [exact K|discriminate].
    - intros c q st a st1 _ IH N1 N2 _ P. inversion P as [|? ? _ Pq]; subst. inversion Pq as [|? ? Pq' _]; subst. inversion Pq'; subst.
      eapply follows_map; [|apply IH; assumption]. intros w w' K. cbn [fname outcome_of] in *. eapply ca_let_other; [exact K|].
      intros n E. destruct a as [v|e|x]; cbn in E; try discriminate. injection E as ->. exact (N1 n eq_refl).
    - intros args st N1 N2 _ P. apply follows_stay. intros. apply ca_let_args; assumption.
  Qed.

  Lemma follows_runs cs st r st' : runs LG common cs st r st' -> Forall proper_call cs -> follows (performs B cs) st r st'.
  Proof.
    destruct follows_all as (_ & _ & FD & _).
    induction 1 as [st|c st r st' H|c rest st v st1 r st' H Hne _ IH|c rest st r st' H Hf]; intros P.
    - apply follows_stay. intros. constructor.
    - inversion P; subst. eapply follows_map; [|apply (FD _ _ _ _ _ H); assumption]. intros. apply pe_last. assumption.
    - inversion P; subst. destruct rest as [|d rest]; [destruct (Hne eq_refl)|].
      eapply follows_seq; [|apply (FD _ _ _ _ _ H); assumption|apply IH; assumption]. intros w w1 w' K1 K2. eapply pe_more; eassumption.
    - inversion P; subst. eapply follows_map; [|apply (FD _ _ _ _ _ H); assumption]. intros w w' K.
      destruct rest as [|d rest]; [apply pe_last; exact K|apply pe_stop; [exact K|apply failed_outcome, Hf]].
  Qed.

  Lemma follows_run script st r st' : run LG common script st = (r, st') -> follows (fun w => means B w script) st r st'.
  Proof.
    intros E. destruct (run_outcomes _ LG common script st) as [L K].
    destruct (tokenize script) as [ts|e|x] eqn:Et.
    - destruct (filter_keeps _ _ Et) as (kept & Ek & Kp & _). apply tokenize_ok in Et. destruct (K _ Ek) as (K1 & K2 & K3).
      destruct (parse kept) as [cs|e|x] eqn:Ep.
      + apply parse_ok in Ep. rewrite (K3 _ Ep) in E. apply (runs_iff _ _ common_table) in E.
        eapply follows_map; [|apply (follows_runs _ _ _ _ E), (g_script_proper _ _ Ep)]. intros w w' H. eapply me_runs; eassumption.
      + apply parse_err in Ep as (next & -> & Hs). rewrite (K1 _ Hs) in E. injection E as <- <-.
        apply follows_stay. intros. eapply me_stray; eassumption.
      + apply parse_panic in Ep as (-> & N1 & N2). rewrite (K2 N1 N2) in E. injection E as <- <-.
        apply follows_stay. intros. eapply me_outside; eassumption.
    - apply tokenize_err in Et as [-> F]. rewrite (L F) in E. injection E as <- <-. apply follows_stay. intros. apply me_not_text. exact F.
    - exfalso. eapply tokenize_no_panic; eauto.
  Qed.
End Follow.
