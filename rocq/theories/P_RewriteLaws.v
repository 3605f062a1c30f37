(** * Proofs: the laws, in the reference *)
From Coq Require Import List Arith NArith Bool String Lia.
From Verif Require Import M_Base M_Data M_Mem M_Heed M_Duck M_Regex M_Lexer M_Graph M_Parser M_Display M_Interp
  S_Order S_Str S_Store S_Graph S_Filter S_Lexer S_Parser S_Display S_Interp S_GraphHist S_Names S_Json
  P_Ord P_Hist P_Lexer P_LexMore P_Parser P_Display P_Mem P_Heed P_HeedHist P_HeedMore P_Duck P_Graph P_Interp P_InterpMore
  P_InterpStores P_Crash P_InterpProps P_Filter P_Agree P_Sim P_Names S_Wander P_Wander P_WanderStores P_WanderDet P_WanderRun S_Rewrite P_Rewrite.
Import ListNotations.
Open Scope list_scope.

(** One call of a program. *)
Lemma performs_one B n args w o w' : performs B [named n args] w o w' <-> calls B (lit n) args w o w'.
Proof. split; [inversion 1; subst; assumption|apply (pe_last B (named n args))]. Qed.

Lemma performs_two B n args d w o w' : performs B [named n args; d] w o w' ->
  (exists v w1, calls B (lit n) args w (Answers v) w1 /\ performs B [d] w1 o w') \/ (calls B (lit n) args w o w' /\ forall v, o <> Answers v).
Proof. inversion 1; subst; [left; eauto|right; auto]. Qed.

Ltac by_name := first [other_command|other_args].

Lemma calls_let B c n w o w' : calls B (lit "let") [VElement c; VNetwork n] w o w' -> binds w (el_name c) n B o w'.
Proof. inversion 1; subst; try by_name. assumption. Qed.

Lemma calls_let_quote B c q w o w' : calls B (lit "let") [VElement c; VQuote q] w o w' ->
  (exists n w1, gives B (VQuote q) w (Answers (VNetwork n)) w1 /\ binds w1 (el_name c) n B o w')
  \/ (o = Crashes /\ exists o1, gives B (VQuote q) w o1 w' /\ forall n, o1 <> Answers (VNetwork n)).
Proof. inversion 1; subst; try by_name; eauto 6. Qed.

Lemma gives_quoted B n args w o w' : gives B (quoted (named n args)) w o w' -> calls B (lit n) args w o w'.
Proof. inversion 1; subst; [assumption|]. exfalso. match goal with H : forall n, _ <> _ |- _ => exact (H _ eq_refl) end. Qed.

Lemma calls_id B v w o w' : calls B (lit "id") [v] w o w' -> o = Answers v /\ w' = w.
Proof. inversion 1; subst; try by_name. auto. Qed.

Lemma calls_ignore B args w o w' : calls B (lit "ignore") args w o w' -> o = Answers done /\ w' = w.
Proof. inversion 1; subst; try by_name. auto. Qed.

Lemma calls_read B c w o w' : calls B (lit "read") [VElement c] w o w' -> reads w (el_name c) B o /\ w' = w.
Proof. inversion 1; subst; try by_name. auto. Qed.

Lemma calls_union B n m w o w' : calls B (lit "union") [VNetwork n; VNetwork m] w o w' ->
  w' = w /\ exists k, o = Answers (VNetwork k) /\ set_where (fun e => In e n \/ In e m) k.
Proof. inversion 1; subst; try by_name. eauto. Qed.

Lemma calls_query B q args w o w' : In q queries -> calls B (lit q) args w o w' -> w' = w.
Proof.
  intros H. unfold queries in H. cbn [In] in H.
  destruct H as [<-|[<-|[<-|[<-|[<-|[<-|[]]]]]]]; inversion 1; subst; try reflexivity; by_name.
Qed.

Lemma binds_answers w c n B o w' v : binds w c n B o w' -> o = Answers v -> v = done.
Proof. intros [] E; try discriminate; injection E as <-; reflexivity. Qed.

Lemma stored_same n k : (forall e, In e n <-> In e k) -> forall e, stored_form n e <-> stored_form k e.
Proof. intros H e. split; intros (x & Hx & N); exists x; split; try assumption; apply H; assumption. Qed.

Lemma stored_both n m k : (forall e, In e k <-> In e n \/ In e m) -> forall e, stored_form k e <-> stored_form n e \/ stored_form m e.
Proof.
  intros H e. split.
  - intros (x & Hx & N). apply H in Hx as [Hx|Hx]; [left|right]; exists x; auto.
  - intros [(x & Hx & N)|(x & Hx & N)]; exists x; split; try assumption; apply H; auto.
Qed.

(** Normal forms are their own normal forms. *)
Lemma normal_form_normal e e' : normalises e e' -> normalises e' e'.
Proof. intros H. pose proof H as [N _]. apply (normalises_normal e' e' N). reflexivity. Qed.

Lemma stored_normal n k : set_where (stored_form n) k -> forall e, stored_form k e <-> stored_form n e.
Proof.
  intros [_ H] e. split.
  - intros (x & Hx & Nx). apply H in Hx as (y & Hy & Ny). exists y. split; [exact Hy|].
    pose proof (normal_form_normal _ _ Ny) as Nx'. rewrite (normalises_unique _ _ _ Nx Nx'). exact Ny.
  - intros K. exists e. split; [apply H, K|]. destruct K as (y & _ & Ny). exact (normal_form_normal _ _ Ny).
Qed.

Lemma same_sym w w' : same_world w w' -> same_world w' w.
Proof. intros E n. symmetry. apply E. Qed.

(** ** The laws *)
Section Laws.
  Variable B : backend.

  Definition agree (C : world -> Prop) (cs ds : list call) : Prop :=
    forall w o1 w1 o2 w2, C w -> performs B cs w o1 w1 -> performs B ds w o2 w2 -> o1 = o2 /\ same_world w1 w2.

  Lemma rebound_swap w c d P Q w1 w2 v1 v2 : c <> d -> rebound w c P w1 -> rebound w1 d Q w2 -> rebound w d Q v1 -> rebound v1 c P v2 -> same_world w2 v2.
  Proof.
    intros N [(a & A1 & A2) A3] [(b & B1 & B2) B3] [(b' & C1 & C2) C3] [(a' & D1 & D2) D3] n.
    destruct (str_dec n d) as [->|Nd].
    - rewrite B1, D3, C1 by congruence. f_equal. eapply set_where_fun; [|exact B2|exact C2]. reflexivity.
    - rewrite (B3 n Nd). destruct (str_dec n c) as [->|Nc].
      + rewrite A1, D1. f_equal. eapply set_where_fun; [|exact A2|exact D2]. reflexivity.
      + rewrite (A3 n Nc), (D3 n Nc), (C3 n Nd). reflexivity.
  Qed.

  Lemma two_lets c d n m w o w' : performs B [let_ c n; let_ d m] w o w' ->
    (exists w1, binds w (el_name c) n B (Answers done) w1 /\ binds w1 (el_name d) m B o w') \/ (binds w (el_name c) n B o w' /\ o = Crashes).
  Proof.
    intros H. apply performs_two in H as [(v & w1 & H1 & H2)|[H N]].
    - apply calls_let in H1. pose proof (binds_answers _ _ _ _ _ _ _ H1 eq_refl) as ->. left. exists w1. split; [exact H1|].
      apply performs_one in H2. exact (calls_let _ _ _ _ _ _ H2).
    - right. apply calls_let in H. split; [exact H|]. destruct H; try reflexivity; destruct (N _ eq_refl).
  Qed.
End Laws.

Ltac inv H := inversion H; subst; clear H.

Lemma agree_swap_mem c d n m : el_name c <> el_name d -> agree InMemory anywhere [let_ c n; let_ d m] [let_ d m; let_ c n].
Proof.
  intros N w o1 w1 o2 w2 _ H1 H2.
  apply two_lets in H1 as [(x & X1 & X2)|[X1 ->]]; [|inv X1]. apply two_lets in H2 as [(y & Y1 & Y2)|[Y1 ->]]; [|inv Y1].
  inv X1. inv X2. inv Y1. inv Y2. split; [reflexivity|]. eapply rebound_swap; [exact N| |eassumption| |eassumption]; eassumption.
Qed.

Lemma agree_swap_lmdb c d n m : el_name c <> el_name d -> (storable (el_name c) <-> storable (el_name d)) ->
  agree Lmdb anywhere [let_ c n; let_ d m] [let_ d m; let_ c n].
Proof.
  intros N St w o1 w1 o2 w2 _ H1 H2.
  apply two_lets in H1 as [(x & X1 & X2)|[X1 ->]]; apply two_lets in H2 as [(y & Y1 & Y2)|[Y1 ->]].
  - inv X1. inv Y1. inv X2; [|tauto]. inv Y2; [|tauto]. split; [reflexivity|].
    assert (R1 : rebound x (el_name d) (fun e => (exists l, w (el_name d) = Some l /\ In e l) \/ stored_form m e) w1).
    { match goal with R : rebound x _ _ w1, Rx : rebound w _ _ x |- _ => eapply rebound_ext; [|exact R]; intros e; rewrite (proj2 Rx) by congruence; reflexivity end. }
    assert (R2 : rebound y (el_name c) (fun e => (exists l, w (el_name c) = Some l /\ In e l) \/ stored_form n e) w2).
    { match goal with R : rebound y _ _ w2, Rx : rebound w _ _ y |- _ => eapply rebound_ext; [|exact R]; intros e; rewrite (proj2 Rx) by congruence; reflexivity end. }
    eapply rebound_swap; [exact N| |exact R1| |exact R2]; eassumption.
  - inv X1. inv Y1. tauto.
  - inv X1. inv Y1. tauto.
  - inv X1. inv Y1. split; [reflexivity|apply same_refl].
Qed.

Lemma agree_swap_duck c d n m : el_name c <> el_name d ->
  agree DuckDb (fun w => w (el_name c) = None <-> w (el_name d) = None) [let_ c n; let_ d m] [let_ d m; let_ c n].
Proof.
  intros N w o1 w1 o2 w2 HC H1 H2.
  apply two_lets in H1 as [(x & X1 & X2)|[X1 ->]]; apply two_lets in H2 as [(y & Y1 & Y2)|[Y1 ->]].
  - inv X1. inv Y1.
    assert (D1 : x (el_name d) = None) by (match goal with Rx : rebound w _ _ x |- _ => rewrite (proj2 Rx) by congruence end; assumption).
    assert (D2 : y (el_name c) = None) by (match goal with Rx : rebound w _ _ y |- _ => rewrite (proj2 Rx) by congruence end; assumption).
    inv X2; [|congruence]. inv Y2; [|congruence]. split; [reflexivity|]. eapply rebound_swap; [exact N| |eassumption| |eassumption]; eassumption.
  - inv X1. inv Y1. exfalso; intuition congruence.
  - inv X1. inv Y1. exfalso; intuition congruence.
  - inv X1. inv Y1. split; [reflexivity|apply same_refl].
Qed.

Lemma rebound_twice w c P Q w1 w2 v : rebound w c P w1 -> rebound w1 c Q w2 -> rebound w c Q v -> same_world w2 v.
Proof.
  intros [_ A] [(b & B1 & B2) B3] [(b' & C1 & C2) C3] n. destruct (str_dec n c) as [->|N].
  - rewrite B1, C1. f_equal. eapply set_where_fun; [|exact B2|exact C2]. reflexivity.
  - rewrite (B3 n N), (A n N), (C3 n N). reflexivity.
Qed.

Lemma one_let B c n w o w' : performs B [let_ c n] w o w' -> binds w (el_name c) n B o w'.
Proof. intros H. apply performs_one in H. exact (calls_let _ _ _ _ _ _ H). Qed.

Lemma agree_twice_mem c n m : agree InMemory anywhere [let_ c n; let_ c m] [let_ c m].
Proof.
  intros w o1 w1 o2 w2 _ H1 H2. apply two_lets in H1 as [(x & X1 & X2)|[X1 ->]]; [|inv X1]. apply one_let in H2.
  inv X1. inv X2. inv H2. split; [reflexivity|]. eapply rebound_twice; [|eassumption|eassumption]; eassumption.
Qed.

Lemma agree_twice_lmdb c n m k : set_where (fun e => In e n \/ In e m) k -> agree Lmdb anywhere [let_ c n; let_ c m] [let_ c k].
Proof.
  intros [_ Hk] w o1 w1 o2 w2 _ H1 H2. apply one_let in H2.
  apply two_lets in H1 as [(x & X1 & X2)|[X1 ->]].
  - inv X1. inv X2; [|tauto]. inv H2; [|tauto]. split; [reflexivity|].
    match goal with R1 : rebound w _ _ x, R2 : rebound x _ _ w1, R3 : rebound w _ _ w2 |- _ =>
      eapply rebound_twice; [exact R1|exact R2|]; eapply rebound_ext; [|exact R3]; destruct R1 as [(l & El & _ & Hl) _] end.
    intros e. cbn beta. rewrite (stored_both _ _ _ Hk). rewrite El. split.
    + intros [K|[K|K]]; [left; exists l; split; [reflexivity|apply Hl; left; exact K]|left; exists l; split; [reflexivity|apply Hl; right; exact K]|right; exact K].
    + intros [(l' & E & K)|K]; [injection E as <-; apply Hl in K; tauto|tauto].
  - inv X1. inv H2; [tauto|]. split; [reflexivity|apply same_refl].
Qed.

Lemma binds_normal B w c n k o1 w1 o2 w2 : (forall e, stored_form k e <-> stored_form n e) ->
  binds w c n B o1 w1 -> binds w c k B o2 w2 -> o1 = o2 /\ same_world w1 w2.
Proof.
  intros H X Y. inv X; inv Y; try congruence; try tauto; try (split; [reflexivity|apply same_refl]); (split; [reflexivity|]).
  - eapply rebound_fun; [apply same_refl| |eassumption|eassumption]. intros e. symmetry. apply H.
  - eapply rebound_fun; [apply same_refl| |eassumption|eassumption]. intros e. cbn beta. rewrite H. reflexivity.
  - eapply rebound_fun; [apply same_refl| |eassumption|eassumption]. intros e. symmetry. apply H.
Qed.

Lemma agree_normal B c n k : set_where (stored_form n) k -> agree B anywhere [let_ c n] [let_ c k].
Proof.
  intros Hk w o1 w1 o2 w2 _ H1 H2. apply one_let in H1, H2. eapply binds_normal; [|eassumption..]. exact (stored_normal _ _ Hk).
Qed.

Lemma let_then B c n d w o w' : performs B [let_ c n; d] w o w' ->
  (exists w1, binds w (el_name c) n B (Answers done) w1 /\ performs B [d] w1 o w') \/ (binds w (el_name c) n B o w' /\ o = Crashes).
Proof.
  intros H. apply performs_two in H as [(v & w1 & H1 & H2)|[H N]].
  - apply calls_let in H1. pose proof (binds_answers _ _ _ _ _ _ _ H1 eq_refl) as ->. left. eauto.
  - right. apply calls_let in H. split; [exact H|]. destruct H; try reflexivity; destruct (N _ eq_refl).
Qed.

Lemma agree_read_back B c n k : B <> Lmdb -> set_where (stored_form n) k ->
  agree B anywhere [let_ c n; named "read" [VElement c]] [let_ c n; named "id" [VNetwork k]].
Proof.
  intros NB Hk w o1 w1 o2 w2 _ H1 H2.
  apply let_then in H1 as [(x & X1 & X2)|[X1 ->]]; apply let_then in H2 as [(y & Y1 & Y2)|[Y1 ->]].
  - apply performs_one in X2. apply performs_one in Y2. apply calls_read in X2 as [R ->]. apply calls_id in Y2 as [-> ->].
    destruct (binds_fun _ _ _ _ _ _ _ _ _ (same_refl w) X1 Y1) as [_ E]. split; [|exact E].
    assert (K : x (el_name c) = Some k).
    { inv X1; try congruence; match goal with Q : rebound w _ _ x |- _ => destruct Q as [(l & El & Hl) _] end; rewrite El; f_equal;
        (eapply set_where_fun; [|exact Hl|exact Hk]; reflexivity). }
    inv R; congruence.
  - destruct (binds_fun _ _ _ _ _ _ _ _ _ (same_refl w) X1 Y1) as [E _]. discriminate E.
  - destruct (binds_fun _ _ _ _ _ _ _ _ _ (same_refl w) X1 Y1) as [E _]. discriminate E.
  - exact (binds_fun _ _ _ _ _ _ _ _ _ (same_refl w) X1 Y1).
Qed.

Lemma agree_read B c l : agree B (fun w => w (el_name c) = Some l) [named "read" [VElement c]] [named "id" [VNetwork l]].
Proof.
  intros w o1 w1 o2 w2 HC H1 H2. apply performs_one in H1. apply performs_one in H2. apply calls_read in H1 as [R ->]. apply calls_id in H2 as [-> ->].
  split; [|apply same_refl]. inv R; congruence.
Qed.

Lemma agree_query B q args post : In q queries -> post <> [] ->
  agree B (fun w => exists v w', calls B (lit q) args w (Answers v) w') (named q args :: post) post.
Proof.
  intros Q N w o1 w1 o2 w2 (v & w' & HC) H1 H2. destruct post as [|p post]; [destruct (N eq_refl)|].
  inv H1.
  - match goal with H : calls B _ _ w (Answers _) ?x |- _ => cbn [named c_name c_args el_name] in H; pose proof (calls_query _ _ _ _ _ _ Q H) as -> end.
    eapply performs_fun; [eassumption|apply same_refl|exact H2].
  - exfalso. match goal with H : calls B _ _ w o1 _, N : forall v, _ <> _ |- _ =>
      destruct (proj2 (reference_fun B) _ _ _ _ _ HC _ _ _ (same_refl w) H) as [E _]; exact (N _ (eq_sym E)) end.
Qed.

Lemma agree_let_id B c n : agree B anywhere [named "let" [VElement c; quoted (named "id" [VNetwork n])]] [let_ c n].
Proof.
  intros w o1 w1 o2 w2 _ H1 H2. apply performs_one in H1. apply one_let in H2.
  apply calls_let_quote in H1 as [(k & x & X1 & X2)|(-> & o & X1 & X2)]; apply (gives_quoted _ "id" [VNetwork n]) in X1; apply calls_id in X1 as [E ->].
  - injection E as ->. exact (binds_fun _ _ _ _ _ _ _ _ _ (same_refl w) X2 H2).
  - destruct (X2 _ E).
Qed.

Lemma agree_let_union B c n m k : set_where (fun e => In e n \/ In e m) k ->
  agree B anywhere [named "let" [VElement c; quoted (named "union" [VNetwork n; VNetwork m])]] [let_ c k].
Proof.
  intros Hk w o1 w1 o2 w2 _ H1 H2. apply performs_one in H1. apply one_let in H2.
  apply calls_let_quote in H1 as [(k' & x & X1 & X2)|(-> & o & X1 & X2)]; apply (gives_quoted _ "union" [VNetwork n; VNetwork m]) in X1;
    apply calls_union in X1 as [-> (l & E & Hl)].
  - injection E as ->. assert (l = k) as -> by (eapply set_where_fun; [|exact Hl|exact Hk]; reflexivity).
    exact (binds_fun _ _ _ _ _ _ _ _ _ (same_refl w) X2 H2).
  - destruct (X2 _ E).
Qed.

Lemma gives_self B v w o w' : (forall q, v <> VQuote q) -> gives B v w o w' -> o = Answers v /\ w' = w.
Proof. intros N H. inv H; auto; destruct (N _ eq_refl). Qed.

Lemma agree_equal B v : (forall q, v <> VQuote q) -> agree B anywhere [named "assert-equal" [v; v]] [named "ignore" []].
Proof.
  intros N w o1 w1 o2 w2 _ H1 H2. apply performs_one in H1. apply performs_one in H2. apply calls_ignore in H2 as [-> ->].
  inv H1; try by_name; repeat match goal with H : gives _ _ _ _ _ |- _ => apply (gives_self _ _ _ _ _ N) in H as [? ->] end; subst; try congruence.
  split; [reflexivity|apply same_refl].
Qed.

Definition flipped (o : outcome) : outcome :=
  match o with Answers _ => Fails (WErr (lit "Expected failure.")) | Fails _ => Answers done | Crashes => Crashes end.

Lemma calls_fail B x w o w' : calls B (lit "assert-fail") [quoted x] w o w' -> exists o1, gives B (quoted x) w o1 w' /\ o = flipped o1.
Proof.
  unfold quoted. intros H. inv H; try by_name.
  - eexists. split; [eassumption|reflexivity].
  - eexists. split; [eassumption|reflexivity].
  - eexists. split; [eassumption|reflexivity].
Qed.

Lemma agree_thrice B x : agree B anywhere [named "assert-fail" [quoted (named "assert-fail" [quoted (named "assert-fail" [quoted x])])]] [named "assert-fail" [quoted x]].
Proof.
  intros w o1 w1 o2 w2 _ H1 H2. apply performs_one in H1. apply performs_one in H2.
  apply calls_fail in H2 as (o & X & ->). apply calls_fail in H1 as (a & H1 & ->). apply (gives_quoted _ "assert-fail") in H1.
  apply calls_fail in H1 as (b & H1 & ->). apply (gives_quoted _ "assert-fail") in H1. apply calls_fail in H1 as (d & H1 & ->).
  destruct (proj1 (reference_fun B) _ _ _ _ H1 _ _ _ (same_refl w) X) as [-> E]. split; [destruct o; reflexivity|exact E].
Qed.

(** Storing what is there: what a store reads is in normal form. *)
Lemma shown_normal {S} (I : trips_impl S) s w c l : shows I s w -> w c = Some l -> forall e, In e l -> normal e.
Proof.
  intros [_ H] E e Hi. specialize (H (mkE c) l E). cbn in H. unfold graph_entries in H. cbn [el_name mkE] in H.
  destruct (t_triples I s c) as [ts|x|x] eqn:Et; [|discriminate..].
  destruct (entries_spec I s (mkE c) ts Et) as (es & E2 & Sx & Hes).
  pose proof E2 as E3. cbn in E3. unfold graph_entries in E3. cbn [el_name mkE] in E3. rewrite Et in E3. rewrite H in E3. injection E3 as <-.
  apply Hes in Hi. tauto.
Qed.

Lemma stored_itself l : (forall e, In e l -> normal e) -> forall e, stored_form l e <-> In e l.
Proof.
  intros H e. split.
  - intros (x & Hx & Nx). apply (normalises_normal x e (H x Hx)) in Nx as ->. exact Hx.
  - intros Hi. exists e. split; [exact Hi|]. apply (normalises_normal e e (H e Hi)). reflexivity.
Qed.

Lemma rebound_itself w c P w' l : w c = Some l -> is_set entry_lt l -> (forall e, P e <-> In e l) -> rebound w c P w' -> same_world w' w.
Proof.
  intros E Sl H [(k & Ek & Hk) O] n. destruct (str_dec n c) as [->|N]; [|exact (O n N)].
  rewrite Ek, E. f_equal. eapply set_where_fun; [exact H|exact Hk|]. split; [exact Sl|]. intros e. reflexivity.
Qed.

Section Copy.
  Context (B : backend) {S : Type} (I : trips_impl S) (s0 : S) (room : list op -> Prop) (HI : implements B I s0 room).

  Lemma shown_set h w c l : shows I (after I s0 h) w -> w c = Some l -> is_set entry_lt l.
  Proof.
    intros [_ H] E. specialize (H (mkE c) l E). cbn in H. unfold graph_entries in H. cbn [el_name mkE] in H.
    destruct (t_triples I (after I s0 h) c) as [ts|x|x] eqn:Et; [|discriminate..].
    destruct (entries_spec I (after I s0 h) (mkE c) ts Et) as (es & E2 & Sx & Hes).
    cbn in E2. unfold graph_entries in E2. cbn [el_name mkE] in E2. rewrite Et in E2. rewrite H in E2. injection E2 as <-. exact Sx.
  Qed.

  Lemma shown_storable h w c l : B = Lmdb -> shows I (after I s0 h) w -> w c = Some l -> storable c.
  Proof.
    intros EB Sw E. apply (some_has I _ _ _ _ Sw) in E. destruct HI; try discriminate; [apply heed_has_live in E; tauto|exact (P_HeedRel.release_storable _ _ E)].
  Qed.

  Lemma agree_copy h c w o1 w1 o2 w2 : B <> DuckDb -> shows I (after I s0 h) w -> w (el_name c) <> None ->
    performs B [named "let" [VElement c; quoted (named "read" [VElement c])]] w o1 w1 -> performs B [named "ignore" []] w o2 w2 ->
    o1 = o2 /\ same_world w1 w2.
  Proof.
    intros NB Sw HC H1 H2. apply performs_one in H1. apply performs_one in H2. apply calls_ignore in H2 as [-> ->].
    destruct (w (el_name c)) as [l|] eqn:El; [clear HC|destruct (HC eq_refl)].
    assert (Sl := shown_set _ _ _ _ Sw El). assert (Nl := shown_normal _ _ _ _ _ Sw El). assert (SS := fun EB => shown_storable h w (el_name c) l EB Sw El).
    apply calls_let_quote in H1 as [(k & x & X1 & X2)|(-> & o & X1 & X2)]; apply (gives_quoted _ "read" [VElement c]) in X1; apply calls_read in X1 as [R ->].
    - assert (k = l) as -> by (inversion R; subst; congruence). clear R. inversion X2; subst; try congruence.
      + split; [reflexivity|]. eapply rebound_itself; [exact El|exact Sl| |eassumption]. exact (stored_itself l Nl).
      + split; [reflexivity|]. eapply rebound_itself; [exact El|exact Sl| |eassumption]. intros e. cbn beta. rewrite (stored_itself l Nl), El. split.
        * intros [(l' & E & K)|K]; [injection E as <-; exact K|exact K].
        * auto.
      + exfalso. match goal with H : ~ storable _ |- _ => apply H end. exact (SS eq_refl).
    - exfalso. inversion R; subst; congruence.
  Qed.

  Lemma law_holds C cs ds : law B C cs ds -> Forall proper_call cs -> Forall proper_call ds -> exchange I s0 room C cs ds.
  Proof.
    intros L P1 P2. apply (by_reference B I s0 room HI); [exact P1|exact P2|]. clear P1 P2.
    intros h w o1 w1 o2 w2 Sw HC H1 H2.
    destruct L as [c d n m E N|c d n m E N St|c d n m E N|c n m E|c n m k E Hk|c n k Hk|c n k N Hk|c l|c N|q args post Q N|c n|c n m k Hk|v N|x].
    - subst B. exact (agree_swap_mem c d n m N w _ _ _ _ HC H1 H2).
    - subst B. exact (agree_swap_lmdb c d n m N St w _ _ _ _ HC H1 H2).
    - subst B. exact (agree_swap_duck c d n m N w _ _ _ _ HC H1 H2).
    - subst B. exact (agree_twice_mem c n m w _ _ _ _ HC H1 H2).
    - subst B. exact (agree_twice_lmdb c n m k Hk w _ _ _ _ HC H1 H2).
    - exact (agree_normal B c n k Hk w _ _ _ _ HC H1 H2).
    - exact (agree_read_back B c n k N Hk w _ _ _ _ HC H1 H2).
    - exact (agree_read B c l w _ _ _ _ HC H1 H2).
    - exact (agree_copy h c w _ _ _ _ N Sw HC H1 H2).
    - exact (agree_query B q args post Q N w _ _ _ _ HC H1 H2).
    - exact (agree_let_id B c n w _ _ _ _ HC H1 H2).
    - exact (agree_let_union B c n m k Hk w _ _ _ _ HC H1 H2).
    - exact (agree_equal B v N w _ _ _ _ HC H1 H2).
    - exact (agree_thrice B x w _ _ _ _ HC H1 H2).
  Qed.
End Copy.
