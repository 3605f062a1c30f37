(** * Proofs: calm scripts do not crash, on each store *)
From Coq Require Import List Arith NArith Bool String Lia.
From Verif Require Import M_Base M_Data M_Mem M_Heed M_Duck M_Regex M_Lexer M_Graph M_Parser M_Display M_Interp
  S_Order S_Str S_Store S_Graph S_Filter S_Lexer S_Parser S_Display S_Interp S_GraphHist S_Names S_Json
  P_Ord P_Hist P_Lexer P_LexMore P_Parser P_Display P_Graph P_Interp P_InterpMore
  P_Sim P_Names S_Wander P_Wander P_WanderDet S_CalmOn.
Import ListNotations.
Open Scope list_scope.

Ltac by_name E D := rewrite E in D; inversion D; subst; clear D; try other_command; try other_args.

Section Proofs.
  Variable B : backend.

  (** What a run that lets at most [ls] keeps of the world. *)
  Definition grows (w w' : world) (ls : list str) : Prop :=
    (forall n, w n <> None -> w' n <> None) /\ (forall n, w' n <> None -> w n <> None \/ In n ls).
  Definition present (known : list str) (w : world) : Prop := forall c, In c known -> w c <> None.
  Definition fresh (w : world) (ls : list str) : Prop := B = DuckDb -> NoDup ls /\ forall c, In c ls -> w c = None.

  Lemma grows_refl w ls : grows w w ls.
  Proof. split; auto. Qed.
  Lemma grows_trans w w1 w2 ls ms : grows w w1 ls -> grows w1 w2 ms -> grows w w2 (ls ++ ms).
  Proof.
    intros [A1 A2] [C1 C2]. split; [auto|]. intros n Hn. rewrite in_app_iff. destruct (C2 n Hn) as [H|H]; [|auto].
    destruct (A2 n H); auto.
  Qed.
  Lemma present_grows known w w' ls : present known w -> grows w w' ls -> present known w'.
  Proof. intros P [G _] c Hc. apply G, P, Hc. Qed.
  Lemma fresh_left w ls ms : fresh w (ls ++ ms) -> fresh w ls.
  Proof.
    intros F E. destruct (F E) as [N A]. split; [|intros c Hc; apply A, in_app_iff; auto].
    clear - N. induction ls as [|x ls IH]; [constructor|]. cbn in N. inversion N as [|? ? Nx N']; subst. constructor; [|auto].
    intros H. apply Nx, in_app_iff. auto.
  Qed.
  Lemma fresh_right w w1 ls ms : fresh w (ls ++ ms) -> grows w w1 ls -> fresh w1 ms.
  Proof.
    intros F [_ G] E. destruct (F E) as [N A]. split.
    - clear - N. induction ls as [|x ls IH]; [exact N|]. cbn in N. inversion N; subst. auto.
    - intros c Hc. destruct (w1 c) as [l|] eqn:Ec; [|reflexivity]. exfalso.
      destruct (G c) as [H|H]; [congruence| |].
      + apply H, A, in_app_iff. auto.
      + clear - N H Hc. induction ls as [|x ls IH]; [destruct H|]. cbn in N. inversion N as [|? ? Nx N']; subst.
        destruct H as [<-|H]; [apply Nx, in_app_iff; auto|auto].
  Qed.

  Lemma binds_grows w c n o w' : binds w c n B o w' -> grows w w' [c].
  Proof.
    assert (R : forall P, rebound w c P w' -> grows w w' [c]).
    { intros P [(l & E & _) O]. split; intros x Hx; destruct (str_dec x c) as [->|N]; try (rewrite (O x N) in *; auto); [congruence|simpl; auto]. }
    destruct 1; try apply grows_refl; eapply R; eassumption.
  Qed.
  Lemma binds_ok w c n o w' : binds w c n B o w' -> may_let B c -> fresh w [c] -> o = Answers done /\ w' c <> None.
  Proof.
    intros H L F. unfold may_let in L. revert L F. unfold fresh. destruct H as [w' [(l & E & _) _]|w' _ [(l & E & _) _]|N|w' _ [(l & E & _) _]|l E]; intros L F;
      try (split; [reflexivity|congruence]).
    - destruct (N L).
    - destruct (F eq_refl) as [_ A]. rewrite (A c) in E; [discriminate|left; reflexivity].
  Qed.

  Lemma finds_ok known w c a b d o : searches_on B known [VElement c; VElement a; VElement b; VElement d] -> present known w ->
    finds w (el_name c) (Role a d b) B o -> exists k, o = Answers (VNetwork k).
  Proof.
    intros H P F. inversion H as [? ? ? ? EB Hc Ha Hb Hd]; subst. inversion F as [l k El Hn Hk|l e El Hi Hr|El| |]; subst; try congruence.
    - eauto.
    - exfalso. unfold reaches_variable in Hr. cbn in Hr. tauto.
    - destruct (P _ Hc El).
  Qed.

  Lemma searches_shape known args : searches_on B known args -> exists c a b d, args = [VElement c; VElement a; VElement b; VElement d].
  Proof. intros []. eauto 8. Qed.


  Lemma sure_on_ok known q ls : sure_on B known q ls -> forall w o w', present known w -> fresh w ls ->
    gives B (VQuote q) w o w' -> (exists n, o = Answers (VNetwork n)) /\ grows w w' ls.
  Proof.
    induction 1 as [|n args E|n E|n es E|n es fs E|n c E Hc|n args E Hs|n c es E L|n c q ls E L Hq IH]; intros w o w' P F Q;
      inversion Q as [| | |? ? ? ? ? D|? ? ? N]; subst; try (destruct (N _ eq_refl)).
    - split; [eexists; reflexivity|apply grows_refl].
    - by_name E D. split; [eexists; reflexivity|apply grows_refl].
    - by_name E D. split; [eexists; reflexivity|apply grows_refl].
    - by_name E D. split; [eexists; reflexivity|apply grows_refl].
    - by_name E D. split; [eexists; reflexivity|apply grows_refl].
    - by_name E D. split; [|apply grows_refl]. match goal with H : reads _ _ _ _ |- _ => inversion H; subst; clear H end; try (eexists; reflexivity);
        try (destruct Hc as [Hc|Hc]; [destruct (P _ Hc); assumption|congruence]).
    - destruct (searches_shape _ _ Hs) as (c & a & b & d & ->). by_name E D. split; [|apply grows_refl].
      eapply finds_ok; eassumption.
    - by_name E D. match goal with H : binds _ _ _ _ _ _ |- _ => destruct (binds_ok _ _ _ _ _ H L F) as [-> _]; split; [eexists; reflexivity|exact (binds_grows _ _ _ _ _ H)] end.
    - by_name E D.
      + match goal with H : gives _ _ _ _ _ |- _ => destruct (IH _ _ _ P (fresh_left _ _ _ F) H) as [_ G1] end.
        match goal with H : binds _ _ _ _ _ _ |- _ => destruct (binds_ok _ _ _ _ _ H L (fresh_right _ _ _ _ F G1)) as [-> _]; split; [eexists; reflexivity|exact (grows_trans _ _ _ _ _ G1 (binds_grows _ _ _ _ _ H))] end.
      + match goal with H : gives _ _ _ _ _ |- _ => destruct (IH _ _ _ P (fresh_left _ _ _ F) H) as [[m ->] G1] end.
        match goal with H : forall n, _ <> _ |- _ => destruct (H _ eq_refl) end.
  Qed.

  Scheme calm_on_mut := Minimality for calm_on Sort Prop with calm_value_on_mut := Minimality for calm_value_on Sort Prop.
  Combined Scheme calm_on_both from calm_on_mut, calm_value_on_mut.

  Lemma calm_on_ok known :
    (forall n args ls, calm_on B known n args ls -> forall w o w', present known w -> fresh w ls ->
       calls B (el_name n) args w o w' -> o <> Crashes /\ grows w w' ls)
    /\ (forall v ls, calm_value_on B known v ls -> forall w o w', present known w -> fresh w ls ->
       gives B v w o w' -> o <> Crashes /\ grows w w' ls).
  Proof.
    apply calm_on_both.
    - intros n args N w o w' P F D. inversion D; subst; try (split; [discriminate|apply grows_refl]);
        exfalso; match goal with H : lit _ = el_name n |- _ => rewrite <- H in N end; apply N; vm_compute; tauto.
    - intros n args H w o w' P F D. destruct H as [H|[H|[H|[]]]]; symmetry in H; by_name H D; (split; [discriminate|apply grows_refl]).
    - intros n es fs E w o w' P F D. by_name E D. split; [discriminate|apply grows_refl].
    - intros n args E L w o w' P F D. by_name E D. split; [discriminate|apply grows_refl].
    - intros n c E Hc w o w' P F D. by_name E D. split; [|apply grows_refl].
      match goal with H : reads _ _ _ _ |- _ => inversion H; subst; clear H end; try discriminate.
      destruct Hc as [Hc|Hc]; [destruct (P _ Hc); assumption|congruence].
    - intros n args E Hs w o w' P F D. destruct (searches_shape _ _ Hs) as (c & a & b & d & ->). by_name E D. split; [|apply grows_refl].
      match goal with H : finds _ _ _ _ _ |- _ => destruct (finds_ok _ _ _ _ _ _ _ Hs P H) as [k ->] end. discriminate.
    - intros n l r ls rs E _ IHl _ IHr w o w' P F D. by_name E D.
      + match goal with H : gives _ l _ _ _ |- _ => destruct (IHl _ _ _ P (fresh_left _ _ _ F) H) as [N G1] end.
        split; [exact N|]. rewrite <- (app_nil_r (ls ++ rs)). eapply (grows_trans _ _ _ (ls ++ rs)); [|apply (grows_refl _ [])].
        split; [apply G1|]. intros x Hx. destruct (proj2 G1 x Hx); auto. right. apply in_app_iff. auto.
      + match goal with H : gives _ l _ _ _ |- _ => destruct (IHl _ _ _ P (fresh_left _ _ _ F) H) as [N G1] end.
        match goal with H : gives _ r _ _ _ |- _ => destruct (IHr _ _ _ (present_grows _ _ _ _ P G1) (fresh_right _ _ _ _ F G1) H) as [N2 G2] end.
        split; [exact N2|exact (grows_trans _ _ _ _ _ G1 G2)].
      + match goal with H : gives _ l _ _ _ |- _ => destruct (IHl _ _ _ P (fresh_left _ _ _ F) H) as [N G1] end.
        match goal with H : gives _ r _ _ _ |- _ => destruct (IHr _ _ _ (present_grows _ _ _ _ P G1) (fresh_right _ _ _ _ F G1) H) as [N2 G2] end.
        split; [discriminate|exact (grows_trans _ _ _ _ _ G1 G2)].
      + match goal with H : gives _ l _ _ _ |- _ => destruct (IHl _ _ _ P (fresh_left _ _ _ F) H) as [N G1] end.
        match goal with H : gives _ r _ _ _ |- _ => destruct (IHr _ _ _ (present_grows _ _ _ _ P G1) (fresh_right _ _ _ _ F G1) H) as [N2 G2] end.
        split; [discriminate|exact (grows_trans _ _ _ _ _ G1 G2)].
    - intros n args E L w o w' P F D. by_name E D. split; [discriminate|apply grows_refl].
    - intros n q ls E _ IH w o w' P F D. by_name E D;
        (match goal with H : gives _ _ _ _ _ |- _ => destruct (IH _ _ _ P F H) as [N G1] end; split; [first [discriminate|exact N]|exact G1]).
    - intros n args E N w o w' P F D. by_name E D; first [split; [discriminate|apply grows_refl]|destruct (N _ eq_refl)].
    - intros n c es E L w o w' P F D. by_name E D.
      match goal with H : binds _ _ _ _ _ _ |- _ => destruct (binds_ok _ _ _ _ _ H L F) as [-> _]; split; [discriminate|exact (binds_grows _ _ _ _ _ H)] end.
    - intros n c q ls E L Hq w o w' P F D. by_name E D.
      + match goal with H : gives _ _ _ _ _ |- _ => destruct (sure_on_ok _ _ _ Hq _ _ _ P (fresh_left _ _ _ F) H) as [_ G1] end.
        match goal with H : binds _ _ _ _ _ _ |- _ => destruct (binds_ok _ _ _ _ _ H L (fresh_right _ _ _ _ F G1)) as [-> _]; split; [discriminate|exact (grows_trans _ _ _ _ _ G1 (binds_grows _ _ _ _ _ H))] end.
      + match goal with H : gives _ _ _ _ _ |- _ => destruct (sure_on_ok _ _ _ Hq _ _ _ P (fresh_left _ _ _ F) H) as [[m ->] _] end.
        match goal with H : forall n, _ <> _ |- _ => destruct (H _ eq_refl) end.
    - intros n args E N1 N2 w o w' P F D. by_name E D; first [split; [discriminate|apply grows_refl]|destruct (N1 _ _ eq_refl)|destruct (N2 _ _ eq_refl)].
    - intros e w o w' P F H. inversion H; subst. split; [discriminate|apply grows_refl].
    - intros es w o w' P F H. inversion H; subst. split; [discriminate|apply grows_refl].
    - intros w o w' P F H. inversion H; subst. split; [discriminate|apply grows_refl].
    - intros n args ls _ IH w o w' P F H. inversion H as [| | |? ? ? ? ? D|? ? ? N]; subst; [exact (IH _ _ _ P F D)|destruct (N _ eq_refl)].
  Qed.

  (** A let that answered has made its collection. *)
  Lemma let_on_makes n c v w a w' : el_name n = lit "let" -> calls B (el_name n) [VElement c; v] w (Answers a) w' -> w' (el_name c) <> None.
  Proof.
    intros E D. by_name E D; match goal with H : binds _ _ _ _ _ _ |- _ => inversion H; subst; clear H end;
      match goal with H : rebound _ _ _ _ |- _ => destruct H as [(l & El & _) _] end; congruence.
  Qed.

  Lemma calm_calls_on_ok known cs ls : calm_calls_on B known cs ls -> forall w o w', present known w -> fresh w ls ->
    performs B cs w o w' -> o <> Crashes /\ grows w w' ls.
  Proof.
    assert (More : forall w w' ls ms, grows w w' ls -> grows w w' (ls ++ ms)).
    { intros w w' ls0 ms G0. exact (grows_trans _ _ _ _ _ G0 (grows_refl _ _)). }
    destruct (calm_on_ok known) as [_ _].
    induction 1 as [known|known n c v ls rest ms E Hc _ IH|known c ls rest ms Hc _ IH]; intros w o w' P F R.
    - inversion R; subst. split; [discriminate|apply grows_refl].
    - inversion R as [|? ? ? ? D|? ? ? ? v1 w1 ? ? D R2|? ? ? ? ? ? D N]; subst; cbn [c_name c_args] in D;
        destruct (proj1 (calm_on_ok known) _ _ _ Hc _ _ _ P (fresh_left _ _ _ F) D) as [NC G1].
      + split; [exact NC|apply More, G1].
      + assert (P1 : present (el_name c :: known) w1).
        { intros x [<-|Hx]; [eapply let_on_makes; eassumption|apply (present_grows _ _ _ _ P G1), Hx]. }
        destruct (IH _ _ _ P1 (fresh_right _ _ _ _ F G1) R2) as [N2 G2]. split; [exact N2|exact (grows_trans _ _ _ _ _ G1 G2)].
      + split; [exact NC|apply More, G1].
    - inversion R as [|? ? ? ? D|? ? ? ? v1 w1 ? ? D R2|? ? ? ? ? ? D N]; subst;
        destruct (proj1 (calm_on_ok known) _ _ _ Hc _ _ _ P (fresh_left _ _ _ F) D) as [NC G1].
      + split; [exact NC|apply More, G1].
      + destruct (IH _ _ _ (present_grows _ _ _ _ P G1) (fresh_right _ _ _ _ F G1) R2) as [N2 G2]. split; [exact N2|exact (grows_trans _ _ _ _ _ G1 G2)].
      + split; [exact NC|apply More, G1].
  Qed.

  Lemma calm_script_on_ok known script ls w o w' : calm_script_on B known script ls -> present known w -> fresh w ls ->
    means B w script o w' -> o <> Crashes /\ grows w w' ls.
  Proof.
    intros H P F M. destruct H as [ts kept cs ls L K Gs C|ts kept next L K Hs|Fa];
      destruct M as [ts' kept' cs' o1' w1' L' K' Gs' P'|ts' kept' next' L' K' Hs'|ts' kept' L' K' N1' N2'|F'];
      try (assert (kept' = kept) as -> by exact (lexed_fun _ _ _ _ _ L' K' L K));
      try (exfalso; eapply lexes_not_fails; eassumption; fail);
      try (split; [discriminate|apply grows_refl]).
    - apply parse_ok in Gs, Gs'. assert (cs' = cs) as -> by congruence. exact (calm_calls_on_ok _ _ _ C _ _ _ P F P').
    - destruct (N1' _ Gs).
    - exfalso. apply parse_ok in Gs'. pose proof (proj2 (parse_err kept (WParse next)) (ex_intro _ next (conj eq_refl Hs))). congruence.
    - destruct (N2' _ Hs).
  Qed.

End Proofs.

  (** ** Exactly which calls without quotes crash *)
  Lemma clumsy_on_iff B w n args o w' : (forall q, ~ In (VQuote q) args) -> calls B (el_name n) args w o w' ->
    (o = Crashes <-> clumsy_on w B n args).
  Proof.
    intros NQ D. split.
    - intros ->. inversion D; subst;
        try (match goal with H : gives _ (VQuote ?q) _ _ _ |- _ => exfalso; apply (NQ q); simpl; auto end; fail);
        try (match goal with H : gives _ ?v _ _ _ |- _ => destruct v as [?|q|?]; [inversion H|destruct (NQ q); simpl; auto|inversion H] end; fail).
      + apply clo_union; auto.
      + match goal with H : reads _ _ _ _ |- _ => inversion H; subst; clear H end. apply clo_read_missing; auto.
      + apply clo_read; auto.
      + match goal with H : finds _ _ _ _ _ |- _ => inversion H; subst; clear H end.
        * eapply clo_filter_variable; eauto.
        * apply clo_filter_missing; auto.
        * apply clo_filter_lmdb; auto.
        * apply clo_filter_duck; auto.
      + apply clo_filter; auto.
      + match goal with H : binds _ _ _ _ _ _ |- _ => inversion H; subst; clear H end; [apply clo_let_name|eapply clo_let_again]; eauto.
    - intros H. destruct H as [? n args E N|n c E Ew|? n a b E N|? n args E N|n c a b d E Ew|n c a b d l e E Ew Hi Hr|n args E|n args E|n c es E N|n c es l E Ew]; by_name E D; try reflexivity;
        try (match goal with H : reads _ _ _ _ |- _ => inversion H; subst; clear H end);
        try (match goal with H : finds _ _ _ _ _ |- _ => inversion H; subst; clear H end);
        try (match goal with H : binds _ _ _ _ _ _ |- _ => inversion H; subst; clear H end);
        try reflexivity; try congruence; try tauto;
        try (match goal with H : forall c, _ <> _ |- _ => exfalso; eapply H; reflexivity end).
      exfalso. match goal with H1 : _ (el_name c) = Some ?x, H : forall e, In e ?x -> _ |- _ => assert (x = l) as -> by congruence; exact (H _ Hi Hr) end.
  Qed.
