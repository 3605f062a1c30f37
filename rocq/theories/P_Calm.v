(** * Proofs: calm scripts do not crash *)
From Coq Require Import List Arith NArith Bool String Lia.
From Verif Require Import M_Base M_Data M_Mem M_Regex M_Lexer M_Graph M_Parser M_Display M_Interp M_Hosts
  S_Order S_Str S_Store S_Graph S_Lexer S_Parser S_Display S_Interp S_GraphHist S_Names S_Calm
  P_Ord P_Hist P_Lexer P_LexMore P_Parser P_Display P_Mem P_Graph P_Interp P_InterpMore P_InterpProps P_InterpStores P_Filter P_Look P_Names P_Errors.
Import ListNotations.
Open Scope list_scope.

Notation G := (graph_impl mem_impl).
Definition there (known : list str) (s : mem) : Prop :=
  (exists h, s = after mem_impl mem_new h) /\ forall c, In c known -> has mem_impl s c.

Lemma there_via known W s s' : there known s -> via mem_impl W s s' -> there known s'.
Proof.
  intros [(h & ->) K] (g & -> & Hg). split; [exists (h ++ g); symmetry; apply after_app|].
  intros c Hc. apply (mem_keeps h g); [|apply K, Hc]. intros o Ho. destruct (Hg o Ho) as (x & _ & Hx). eauto.
Qed.

Lemma there_does known n args s r s' : there known s -> does G common n args s r s' -> there known s'.
Proof. intros K H. eapply there_via; [exact K|]. exact (proj1 (proj2 (proj2 (reach mem_impl))) _ _ _ _ _ H). Qed.
Lemma there_evals known v s r s' : there known s -> evals G common v s r s' -> there known s'.
Proof. intros K H. eapply there_via; [exact K|]. exact (proj1 (reach mem_impl) _ _ _ _ H). Qed.

(** The command behind a name. *)
Lemma does_named n f args s r s' : does G common n args s r s' ->
  (exists d, In (el_name n, Command d f) (@common mem)) -> acts G common f args s r s'.
Proof.
  intros H (d & Hd). inversion H as [? ? ? N|? c ? ? ? ? Hc Ha]; subst.
  - destruct (N _ Hd).
  - assert (E : c = Command d f); [|subst c; exact Ha].
    revert Hc Hd. generalize (el_name n) as x. clear. intros x H1 H2. pose proof (@common_table mem) as T. unfold is_table in T. revert T H1 H2. generalize (@common mem) as l.
    induction l as [|[y e] l IH]; intros T H1 H2; [destruct H1|]. inversion T as [|? ? N T']; subst.
    destruct H1 as [H1|H1], H2 as [H2|H2].
    + congruence.
    + injection H1 as -> ->. destruct N. apply (in_map fst) in H2. exact H2.
    + injection H2 as -> ->. destruct N. apply (in_map fst) in H1. exact H1.
    + auto.
Qed.

Ltac named_in := eexists; match goal with E : el_name _ = _ |- _ => rewrite E end; unfold common; simpl; tauto.

Lemma read_there known c s : there known s ->
  (forall w, l_entries G s c <> Panic w) /\ (In (el_name c) known -> exists es, l_entries G s c = Ok es).
Proof.
  intros [(h & ->) K]. cbn. unfold graph_entries. change (t_triples mem_impl) with mem_triples. unfold mem_triples.
  destruct (get (el_name c) (after mem_impl mem_new h)) as [l|] eqn:E; split; try discriminate; [eauto|].
  intros Hc. apply K, mem_has in Hc as [l El]. congruence.
Qed.

Lemma filter_there known c a b d s : there known s -> searches known [VElement c; VElement a; VElement b; VElement d] ->
  exists es, l_filter G s c (Role a d b) = Ok es.
Proof.
  intros [(h & ->) K] H. inversion H as [? ? ? ? Hk Ha Hb Hd]; subst.
  assert (Hv : no_variable_names (Role a d b)) by (split; [exact Ha|split; [exact Hd|exact Hb]]).
  destruct (graph_filter_ok h c (Role a d b) Hv) as [H1 _]. destruct (H1 (K _ Hk)) as (l & k & _ & Ek & _). eauto.
Qed.

Lemma stores_there known c es s r s' : there known s -> stores G c es s r s' -> r = Ok (VNetwork []) /\ there (el_name c :: known) s'.
Proof.
  intros K H. pose proof (via_stores mem_impl _ _ _ _ _ H) as V. pose proof (there_via _ _ _ _ K V) as K'.
  destruct K as [(h & ->) _]. apply stores_iff in H. destruct (mem_let h c es) as (s2 & E & (l & El & _) & _).
  rewrite E in H. injection H as <- <-. split; [reflexivity|]. destruct K' as [R K']. split; [exact R|].
  intros x [<-|Hx]; [|apply K', Hx]. apply mem_readable. cbn in El. unfold graph_entries in El.
  destruct (t_triples mem_impl s2 (el_name c)) as [ts|e|w] eqn:Et; try discriminate. exists ts. exact Et.
Qed.

(** Which clause of the semantics applies. *)
Ltac absurd_case := exfalso; match goal with
  | H : List.length _ <> _ |- _ => apply H; reflexivity
  | H : forall l r, [_; _] <> [VNetwork l; VNetwork r] |- _ => eapply H; reflexivity
  | H : forall c, [_] <> [VElement c] |- _ => eapply H; reflexivity
  | H : forall q, [_] <> [VQuote q] |- _ => eapply H; reflexivity
  | H : forall c a b d, [_; _; _; _] <> _ |- _ => eapply H; reflexivity
  | H : forall c n, [_; _] <> [VElement c; VNetwork n] |- _ => eapply H; reflexivity
  | H : forall c n, [_; _] <> [VElement c; VQuote n] |- _ => eapply H; reflexivity
  end.
Ltac simple_case := match goal with H : simply _ _ _ _ _ _ _ |- _ => inversion H; subst; clear H end; try (absurd_case; fail).
Ltac command_is f D := apply (does_named _ f) in D; [|named_in]; inversion D; subst; clear D; try (simple_case; fail); try (absurd_case; fail).

Lemma sure_ok known q s r s' : sure known q -> there known s -> quotes G common q s r s' -> exists es, r = Ok (VNetwork es).
Proof.
  intros H K Q. destruct H as [|n args E|n E|n es E|n es fs E|n c E Hc|n args E Hs|n c es E];
    inversion Q as [|? ? ? ? ? D|? ? ? N]; subst; try (destruct (N _ eq_refl)).
  - eauto.
  - command_is (@FIgnore mem) D. simple_case. eauto.
  - command_is (@FDocs mem) D. simple_case. eauto.
  - command_is (@FId mem) D. simple_case. eauto.
  - command_is (@FUnion mem) D. simple_case. eauto.
  - command_is (@FRead mem) D. destruct (read_there known c s K) as [_ R]. destruct (R Hc) as [es Es]. simple_case; try congruence. eauto.
  - command_is (@FFilter mem) D. inversion Hs as [c a b d H1 H2 H3 H4]; subst. destruct (filter_there _ _ _ _ _ _ K Hs) as [es Es].
    simple_case; try congruence. eauto.
  - command_is (@FLet mem) D.
    match goal with H : stores _ _ _ _ _ _ |- _ => destruct (stores_there _ _ _ _ _ _ K H) as [-> _] end. eauto.
Qed.

Scheme calm_mut := Minimality for calm Sort Prop with calm_value_mut := Minimality for calm_value Sort Prop.
Combined Scheme calm_both from calm_mut, calm_value_mut.

Lemma calm_ok known :
  (forall n args, calm known n args -> forall s r s', there known s -> does G common n args s r s' -> forall w, r <> Panic w)
  /\ (forall v, calm_value known v -> forall s r s', there known s -> evals G common v s r s' -> forall w, r <> Panic w).
Proof.
  apply calm_both.
  - intros n args N s r s' K D w. inversion D as [|? c ? ? ? ? Hc]; subst; [discriminate|]. exfalso.
    apply (in_map fst) in Hc. change (map fst (@common mem)) with (map fst (@common unit)) in Hc.
    apply in_map_iff in Hc as ([m d] & E & Hi). cbn in E. subst m. exact (N d Hi).
  - intros n args H s r s' K D w. destruct H as [H|[H|[H|[]]]]; symmetry in H;
      [command_is (@FId mem) D|command_is (@FDocs mem) D|command_is (@FIgnore mem) D]; simple_case; discriminate.
  - intros n es fs E s r s' K D w. command_is (@FUnion mem) D. simple_case. discriminate.
  - intros n args E L s r s' K D w. command_is (@FUnion mem) D. simple_case; discriminate.
  - intros n c E s r s' K D w. command_is (@FRead mem) D. destruct (read_there known c s K) as [R _]. simple_case; try discriminate.
    exfalso. eapply R. eassumption.
  - intros n args E Hs s r s' K D w. command_is (@FFilter mem) D. inversion Hs as [c a b d H1 H2 H3 H4]; subst.
    destruct (filter_there _ _ _ _ _ _ K Hs) as [es Es]. simple_case; try congruence.
  - intros n l r E _ IHl _ IHr s o s' K D w. command_is (@FAssertEqual mem) D; try discriminate.
    + match goal with H : evals _ _ l _ _ _ |- _ => exact (IHl _ _ _ K H w) end.
    + match goal with H : evals _ _ l _ _ _, H' : evals _ _ r _ _ _ |- _ => exact (IHr _ _ _ (there_evals _ _ _ _ _ K H) H' w) end.
  - intros n args E L s r s' K D w. command_is (@FAssertEqual mem) D; try discriminate; destruct (L eq_refl).
  - intros n q E _ IH s r s' K D w. command_is (@FAssertFail mem) D; try discriminate.
    match goal with H : quotes _ _ q _ _ _ |- _ => exact (IH _ _ _ K (ev_quote _ _ _ _ _ _ H) w) end.
  - intros n args E N s r s' K D w. command_is (@FAssertFail mem) D; try discriminate; destruct (N _ eq_refl).
  - intros n c es E s r s' K D w. command_is (@FLet mem) D.
    match goal with H : stores _ _ _ _ _ _ |- _ => destruct (stores_there _ _ _ _ _ _ K H) as [-> _] end. discriminate.
  - intros n c q E Hq s r s' K D w. command_is (@FLet mem) D.
    + match goal with H : quotes _ _ q _ _ _, H' : stores _ _ _ _ _ _ |- _ =>
        pose proof (there_evals known _ _ _ _ K (ev_quote _ _ _ _ _ _ H)) as K1; destruct (stores_there _ _ _ _ _ _ K1 H') as [-> _] end. discriminate.
    + match goal with H : quotes _ _ q _ _ _ |- _ => destruct (sure_ok _ _ _ _ _ Hq K H) as [es Es] end. discriminate.
    + match goal with H : quotes _ _ q _ _ _ |- _ => destruct (sure_ok _ _ _ _ _ Hq K H) as [es ->] end.
      match goal with H : forall n, Ok _ <> Ok (VNetwork n) |- _ => destruct (H _ eq_refl) end.
  - intros n args E N1 N2 s r s' K D w. command_is (@FLet mem) D; try discriminate; first [destruct (N1 _ _ eq_refl)|destruct (N2 _ _ eq_refl)].
  - intros e s r s' K H w. inversion H; subst. discriminate.
  - intros es s r s' K H w. inversion H; subst. discriminate.
  - intros s r s' K H w. inversion H as [| |? ? ? ? Q]; subst. inversion Q; subst; [discriminate].
  - intros n args _ IH s r s' K H w. inversion H as [| |? ? ? ? Q]; subst. inversion Q as [|? ? ? ? ? D|? ? ? N]; subst.
    + exact (IH _ _ _ K D w).
    + destruct (N _ eq_refl).
Qed.

(** A let that did not fail has made its collection. *)
Lemma let_makes known n c v s a s' : el_name n = lit "let" -> there known s ->
  does G common n [VElement c; v] s (Ok a) s' -> there (el_name c :: known) s'.
Proof.
  intros E K D. command_is (@FLet mem) D.
  - match goal with H : stores _ _ _ _ _ _ |- _ => destruct (stores_there _ _ _ _ _ _ K H) as [_ K'] end. exact K'.
  - match goal with H : quotes _ _ _ _ _ _, H' : stores _ _ _ _ _ _ |- _ =>
      pose proof (there_evals known _ _ _ _ K (ev_quote _ _ _ _ _ _ H)) as K1; destruct (stores_there _ _ _ _ _ _ K1 H') as [_ K'] end. exact K'.
Qed.

Lemma calm_calls_ok known calls : calm_calls known calls -> forall s r s', there known s ->
  runs G common calls s r s' -> forall w, r <> Panic w.
Proof.
  induction 1 as [known|known n c v rest E Hc _ IH|known c rest Hc _ IH]; intros s r s' K R w.
  - inversion R; subst. discriminate.
  - inversion R as [|? ? ? ? D|? ? ? v1 st1 ? ? D Ne R2|? ? ? ? ? D F]; subst; cbn [c_name c_args] in D.
    + exact (proj1 (calm_ok known) _ _ Hc _ _ _ K D w).
    + exact (IH _ _ _ (let_makes _ _ _ _ _ _ _ E K D) R2 w).
    + exact (proj1 (calm_ok known) _ _ Hc _ _ _ K D w).
  - inversion R as [|? ? ? ? D|? ? ? v1 st1 ? ? D Ne R2|? ? ? ? ? D F]; subst.
    + exact (proj1 (calm_ok known) _ _ Hc _ _ _ K D w).
    + exact (IH _ _ _ (there_does _ _ _ _ _ _ K D) R2 w).
    + exact (proj1 (calm_ok known) _ _ Hc _ _ _ K D w).
Qed.

Lemma calm_script_ok known script s r s' : calm_script known script -> there known s ->
  run G common script s = (r, s') -> (forall w, r <> Panic w) /\ there known s'.
Proof.
  intros H K E. split.
  - destruct H as [tokens kept calls L Kp Gs C|tokens kept next L Kp St|F].
    + apply tokenize_ok in L. destruct (filter_keeps _ _ L) as (kept' & Ek & _ & U). rewrite <- (U kept Kp) in Ek.
      unfold run in E. rewrite Ek in E. rewrite (proj2 (parse_ok _ _) Gs) in E.
      apply (runs_iff _ _ common_table) in E. exact (calm_calls_ok _ _ C _ _ _ K E).
    + apply tokenize_ok in L. destruct (filter_keeps _ _ L) as (kept' & Ek & _ & U). rewrite <- (U kept Kp) in Ek.
      rewrite (proj1 (proj2 (run_outcomes _ G common script s) _ Ek) next St) in E. injection E as <- _. discriminate.
    + rewrite (proj1 (run_outcomes _ G common script s) F) in E. injection E as <- _. discriminate.
  - destruct (run_ops mem_impl script s) as (g & Eg & Hg). rewrite E in Eg. cbn in Eg. subst s'.
    eapply (there_via known (fun _ => True)); [exact K|]. exists g. split; [reflexivity|].
    intros o Ho. destruct (Hg o Ho) as (c & _ & Hc). eauto.
Qed.

Lemma serve_calm known requests : forall s, there known s -> Forall (calm_script known) requests ->
  exists replies s', serve requests s = (replies, s', true) /\ List.length replies = List.length requests.
Proof.
  induction requests as [|q rest IH]; intros s K F; cbn [serve]; [eauto|].
  inversion F as [|? ? Hq Hr]; subst. destruct (grun q s) as [r s1] eqn:E.
  destruct (calm_script_ok known q s r s1 Hq K E) as [N K1]. destruct (IH s1 K1 Hr) as (rs & s2 & E2 & L). rewrite E2.
  destruct r as [v|e|w]; [| |destruct (N w eq_refl)]; eexists; eexists; (split; [reflexivity|]); cbn; congruence.
Qed.

(** ** Exactly which calls without quotes crash *)
Lemma calm_or_clumsy h n args : let s := after mem_impl mem_new h in
  (forall q, ~ In (VQuote q) args) -> (forall e, In (VElement e) args -> ~ variable_name (el_name e)) ->
  (exists known, there known s /\ calm known n args) \/ clumsy mem_impl s n args.
Proof.
  intros s NQ NV. assert (K : there [] s) by (split; [exists h; reflexivity|intros c []]).
  assert (CV : forall v, In v args -> calm_value [] v).
  { intros [e|q|es] Hv; [constructor|destruct (NQ q Hv)|constructor]. }
  destruct (in_dec str_dec (el_name n) (map fst (@common unit))) as [Hn|Hn].
  2: { left. exists []. split; [exact K|]. apply ca_unknown. intros c Hc. apply Hn. apply (in_map fst) in Hc. exact Hc. }
  simpl in Hn. destruct Hn as [E|[E|[E|[E|[E|[E|[E|[E|[E|[]]]]]]]]]]; symmetry in E.
  - left. exists []. split; [exact K|]. destruct args as [|l [|r [|]]]; try (apply ca_equal_args; [exact E|discriminate]).
    apply ca_equal; [exact E|apply CV; simpl; tauto..].
  - left. exists []. split; [exact K|]. apply ca_fail_args; [exact E|]. intros q ->. apply (NQ q). left. reflexivity.
  - left. exists []. split; [exact K|]. apply ca_plain. rewrite E. simpl. tauto.
  - left. exists []. split; [exact K|].
    assert (N2 : forall c q, args <> [VElement c; VQuote q]) by (intros c q ->; apply (NQ q); right; left; reflexivity).
    destruct args as [|[c|q|es] [|[c'|q'|es'] [|]]]; try (apply ca_let_args; [exact E|discriminate|exact N2]).
    apply ca_let, E.
  - destruct args as [|[c|q|es] [|]]; try (right; apply cl_read; [exact E|discriminate]).
    left. exists []. split; [exact K|apply ca_read, E].
  - left. exists []. split; [exact K|]. apply ca_plain. rewrite E. simpl. tauto.
  - left. exists []. split; [exact K|]. apply ca_plain. rewrite E. simpl. tauto.
  - destruct args as [|a [|b [|]]]; try (left; exists []; split; [exact K|]; apply ca_union_args; [exact E|discriminate]).
    destruct a as [a|q|es], b as [b|q'|fs]; try (right; apply cl_union; [exact E|discriminate]).
    left. exists []. split; [exact K|apply ca_union, E].
  - destruct args as [|[c|q|es] [|[a|q1|es1] [|[b|q2|es2] [|[d|q3|es3] [|]]]]]; try (right; apply cl_filter; [exact E|discriminate]).
    assert (Dec : has mem_impl s (el_name c) \/ ~ has mem_impl s (el_name c)).
    { rewrite mem_has. destruct (get (el_name c) s) as [l|]; [left; eauto|right; intros [l El]; discriminate]. }
    destruct Dec as [Hc|Hc]; [|right; apply cl_missing; assumption].
    left. exists [el_name c]. split; [split; [exists h; reflexivity|]|].
    + intros x [<-|[]]. exact Hc.
    + apply ca_filter; [exact E|]. apply sea; [left; reflexivity|apply NV; simpl; tauto..].
Qed.

Lemma clumsy_iff h n args : let s := after mem_impl mem_new h in
  (forall q, ~ In (VQuote q) args) -> (forall e, In (VElement e) args -> ~ variable_name (el_name e)) ->
  ((exists w, fst (run_calls G common [Call n args] s) = Panic w) <-> clumsy mem_impl s n args).
Proof.
  intros s NQ NV. destruct (run_calls G common [Call n args] s) as [r s'] eqn:E. cbn [fst].
  apply (does_iff _ _ common_table) in E. split.
  - intros [w ->]. destruct (calm_or_clumsy h n args NQ NV) as [(known & K & Hc)|H]; [|exact H].
    destruct (proj1 (calm_ok known) _ _ Hc _ _ _ K E w eq_refl).
  - intros H. destruct H as [n args Hn N|n a b Hn N|n args Hn N|n c a b d Hn N].
    + command_is (@FRead mem) E. simple_case; try (destruct (N _ eq_refl)). eauto.
    + command_is (@FUnion mem) E. simple_case; try (destruct (N _ _ eq_refl)). eauto.
    + command_is (@FFilter mem) E. simple_case; try (destruct (N _ _ _ _ eq_refl)). eauto.
    + assert (Hv : no_variable_names (Role a d b)) by (split; [|split]; apply NV; simpl; tauto).
      destruct (graph_filter_ok h c (Role a d b) Hv) as [_ H2]. fold s in H2. destruct (H2 N) as [w Hw].
      command_is (@FFilter mem) E. simple_case; eauto. congruence.
Qed.
