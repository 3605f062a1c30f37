(** * Orders, sorted sets and maps: laws *)
From Coq Require Import List NArith Bool Sorted Lia.
From Verif Require Import M_Base M_Data S_Order.
Import ListNotations.
Open Scope list_scope.

(** A comparison function decides the strict order [lt]. *)
Record is_order {A : Type} (cmp : A -> A -> comparison) (lt : A -> A -> Prop) : Prop := IsOrder {
  o_eq : forall x y, cmp x y = Eq <-> x = y;
  o_opp : forall x y, cmp y x = CompOpp (cmp x y);
  o_lt : forall x y, cmp x y = Lt <-> lt x y;
  o_trans : forall x y z, lt x y -> lt y z -> lt x z
}.

Section Order.
  Context {A : Type} {cmp : A -> A -> comparison} {lt : A -> A -> Prop} (O : is_order cmp lt).

  Lemma o_refl x : cmp x x = Eq.
  Proof. apply (o_eq _ _ O). reflexivity. Qed.

  Lemma o_gt x y : cmp x y = Gt <-> lt y x.
  Proof.
    rewrite <- (o_lt _ _ O), (o_opp _ _ O x y).
    destruct (cmp x y); simpl; split; congruence.
  Qed.

  Lemma o_irrefl x : ~ lt x x.
  Proof. rewrite <- (o_lt _ _ O), o_refl. discriminate. Qed.

  Lemma o_asym x y : lt x y -> ~ lt y x.
  Proof. intros H1 H2. apply (o_irrefl x). exact (o_trans _ _ O _ _ _ H1 H2). Qed.

  Lemma o_dec (x y : A) : {x = y} + {x <> y}.
  Proof.
    destruct (cmp x y) eqn:E.
    - left. apply (o_eq _ _ O). exact E.
    - right. intros ->. rewrite o_refl in E. discriminate.
    - right. intros ->. rewrite o_refl in E. discriminate.
  Qed.

  Lemma o_neq x y : x <> y -> cmp x y <> Eq.
  Proof. intros H E. apply H. apply (o_eq _ _ O). exact E. Qed.

  Inductive cmp_spec (x y : A) : comparison -> Prop :=
  | CEq : x = y -> cmp_spec x y Eq
  | CLt : lt x y -> cmp_spec x y Lt
  | CGt : lt y x -> cmp_spec x y Gt.

  Lemma o_spec x y : cmp_spec x y (cmp x y).
  Proof.
    destruct (cmp x y) eqn:E; constructor.
    - apply (o_eq _ _ O), E.
    - apply (o_lt _ _ O), E.
    - apply o_gt, E.
  Qed.

  (** ** Sets *)

  Lemma in_bs_insert x y l : In y (bs_insert cmp x l) <-> y = x \/ In y l.
  Proof.
    induction l as [|z r IH]; simpl.
    - intuition.
    - destruct (o_spec x z); simpl.
      + subst. intuition.
      + intuition.
      + rewrite IH. intuition.
  Qed.

  Lemma Forall_bs_insert (P : A -> Prop) x l : P x -> Forall P l -> Forall P (bs_insert cmp x l).
  Proof.
    rewrite !Forall_forall. intros Hx Hl y Hy. apply in_bs_insert in Hy. destruct Hy; subst; auto.
  Qed.

  Lemma is_set_insert x l : is_set lt l -> is_set lt (bs_insert cmp x l).
  Proof.
    unfold is_set. induction l as [|z r IH]; simpl; intros H.
    - repeat constructor.
    - inversion H; subst. destruct (o_spec x z).
      + assumption.
      + constructor; [assumption|]. constructor; [assumption|].
        eapply Forall_impl; [|eassumption]. intros a Ha. eapply (o_trans _ _ O); eassumption.
      + constructor; [auto|]. apply Forall_bs_insert; assumption.
  Qed.

  Lemma in_bs_remove x y l : is_set lt l -> (In y (bs_remove cmp x l) <-> In y l /\ y <> x).
  Proof.
    unfold is_set. induction l as [|z r IH]; simpl; intros H.
    - intuition.
    - inversion H as [|z' r' Hs Hf]; subst. rewrite Forall_forall in Hf.
      destruct (o_spec x z).
      + subst. split.
        * intros Hy. split; [auto|]. intros ->. apply (o_irrefl z). auto.
        * intros [[->|Hy] Hn]; [congruence|assumption].
      + split.
        * intros Hy. split; [exact Hy|]. intros ->.
          destruct Hy as [->|Hy]; [eapply o_irrefl; eassumption|].
          apply (o_asym x z); auto.
        * simpl; tauto.
      + simpl. rewrite IH by assumption. split.
        * intros [->|[Hy Hn]]; [|intuition]. split; [auto|]. intros ->. eapply o_irrefl; eassumption.
        * intuition.
  Qed.

  Lemma is_set_remove x l : is_set lt l -> is_set lt (bs_remove cmp x l).
  Proof.
    intros H0. pose proof (fun y => in_bs_remove x y l H0) as Hin. revert H0 Hin.
    unfold is_set. induction l as [|z r IH]; simpl; intros H Hin.
    - constructor.
    - inversion H as [|z' r' Hs Hf]; subst. destruct (o_spec x z).
      + assumption.
      + assumption.
      + constructor.
        * apply IH; [assumption|]. intros y. apply in_bs_remove. exact Hs.
        * rewrite Forall_forall in *. intros y Hy. apply in_bs_remove in Hy; [|exact Hs]. intuition.
  Qed.

  Lemma in_bs_append l m y : In y (bs_append cmp l m) <-> In y l \/ In y m.
  Proof.
    unfold bs_append. revert l. induction m as [|x m IH]; simpl; intros l.
    - intuition.
    - rewrite IH, in_bs_insert. intuition.
  Qed.

  Lemma is_set_append l m : is_set lt l -> is_set lt (bs_append cmp l m).
  Proof.
    unfold bs_append. revert l. induction m as [|x m IH]; simpl; intros l H; [exact H|].
    apply IH, is_set_insert, H.
  Qed.

  Lemma in_bs_collect l y : In y (bs_collect cmp l) <-> In y l.
  Proof. change (bs_collect cmp l) with (bs_append cmp [] l). rewrite in_bs_append. simpl. intuition. Qed.

  Lemma is_set_collect l : is_set lt (bs_collect cmp l).
  Proof. apply (is_set_append [] l). constructor. Qed.

  Lemma in_remove_all ts : forall l y, is_set lt l ->
    (In y (fold_left (fun acc t => bs_remove cmp t acc) ts l) <-> In y l /\ ~ In y ts).
  Proof.
    induction ts as [|t ts IH]; simpl; intros l y H.
    - intuition.
    - rewrite IH by (apply is_set_remove, H). rewrite in_bs_remove by exact H.
      split; intros; intuition congruence.
  Qed.

  Lemma is_set_remove_all ts : forall l, is_set lt l ->
    is_set lt (fold_left (fun acc t => bs_remove cmp t acc) ts l).
  Proof.
    induction ts as [|t ts IH]; simpl; intros l H; [exact H|]. apply IH, is_set_remove, H.
  Qed.

  (** Sets with the same members are equal. *)
  Lemma is_set_ext l m : is_set lt l -> is_set lt m -> same_members l m -> l = m.
  Proof.
    unfold is_set, same_members. revert m. induction l as [|x l IH]; intros m Hl Hm HE.
    - destruct m as [|y m]; [reflexivity|]. destruct (proj2 (HE y)); left; reflexivity.
    - destruct m as [|y m]; [destruct (proj1 (HE x)); left; reflexivity|].
      inversion Hl as [|? ? Hsl Hfl]; inversion Hm as [|? ? Hsm Hfm]; subst.
      rewrite Forall_forall in Hfl, Hfm.
      assert (x = y) as ->.
      { destruct (proj1 (HE x)) as [E|Hx]; [left; reflexivity|congruence|].
        destruct (proj2 (HE y)) as [E|Hy]; [left; reflexivity|congruence|].
        exfalso. eapply o_asym; eauto. }
      f_equal. apply IH; [assumption..|]. intros z. split; intros Hz.
      + destruct (proj1 (HE z)) as [->|]; [right; exact Hz| |assumption].
        exfalso. eapply o_irrefl; eauto.
      + destruct (proj2 (HE z)) as [->|]; [right; exact Hz| |assumption].
        exfalso. eapply o_irrefl; eauto.
  Qed.

  Lemma is_set_NoDup l : is_set lt l -> NoDup l.
  Proof.
    unfold is_set. induction l as [|x l IH]; intros H; constructor; inversion H as [|? ? Hs Hf]; subst.
    - rewrite Forall_forall in Hf. intros Hx. eapply o_irrefl; eauto.
    - auto.
  Qed.

  Lemma bs_collect_id l : is_set lt l -> bs_collect cmp l = l.
  Proof.
    intros H. apply is_set_ext; [apply is_set_collect|exact H|]. intros y. apply in_bs_collect.
  Qed.

  Lemma bs_insert_present x l : is_set lt l -> In x l -> bs_insert cmp x l = l.
  Proof.
    intros H Hx. apply is_set_ext; [apply is_set_insert, H|exact H|].
    intros y. rewrite in_bs_insert. intuition congruence.
  Qed.

  (** ** Maps *)
  Section Map.
    Context {V : Type}.
    Implicit Type m : list (A * V).

    Definition is_map m : Prop := is_set lt (map fst m).

    Lemma in_keys_insert k v m k' : In k' (map fst (bm_insert cmp k v m)) <-> k' = k \/ In k' (map fst m).
    Proof.
      induction m as [|[a b] m IH]; simpl.
      - intuition.
      - destruct (o_spec k a); simpl.
        + subst. intuition.
        + intuition.
        + rewrite IH. intuition.
    Qed.

    Lemma is_map_insert k v m : is_map m -> is_map (bm_insert cmp k v m).
    Proof.
      unfold is_map, is_set. induction m as [|[a b] m IH]; simpl; intros H.
      - repeat constructor.
      - inversion H as [|? ? Hs Hf]; subst. destruct (o_spec k a); simpl.
        + subst. constructor; assumption.
        + constructor; [assumption|]. constructor; [assumption|].
          eapply Forall_impl; [|eassumption]. intros z Hz. eapply (o_trans _ _ O); eassumption.
        + constructor; [auto|]. rewrite Forall_forall in *. intros z Hz.
          apply in_keys_insert in Hz. destruct Hz as [->|Hz]; auto.
    Qed.

    Lemma bm_get_insert_same k v m : bm_get cmp k (bm_insert cmp k v m) = Some v.
    Proof.
      induction m as [|[a b] m IH]; simpl.
      - rewrite o_refl. reflexivity.
      - destruct (cmp k a) eqn:E; simpl.
        + rewrite o_refl. reflexivity.
        + rewrite o_refl. reflexivity.
        + rewrite E. exact IH.
    Qed.

    Lemma bm_get_insert_other k v m k' : k' <> k -> bm_get cmp k' (bm_insert cmp k v m) = bm_get cmp k' m.
    Proof.
      intros Hn. pose proof (o_neq k' k Hn) as Hc.
      induction m as [|[a b] m IH]; simpl.
      - destruct (cmp k' k); congruence.
      - destruct (o_spec k a) as [->| |]; simpl.
        + destruct (cmp k' a); congruence.
        + destruct (cmp k' k); congruence.
        + rewrite IH. reflexivity.
    Qed.

    Lemma bm_get_None k m : bm_get cmp k m = None <-> ~ In k (map fst m).
    Proof.
      induction m as [|[a b] m IH]; simpl.
      - intuition.
      - destruct (o_spec k a) as [->| |].
        + split; [discriminate|]. intros H. exfalso. apply H. left; reflexivity.
        + rewrite IH. split; intros H1; [intros [->|]; [eapply o_irrefl; eassumption|auto]|auto].
        + rewrite IH. split; intros H1; [intros [->|]; [eapply o_irrefl; eassumption|auto]|auto].
    Qed.

    Lemma bm_get_in_keys k m : (exists v, bm_get cmp k m = Some v) <-> In k (map fst m).
    Proof.
      destruct (bm_get cmp k m) eqn:E.
      - split; [intros _|eauto]. destruct (in_dec o_dec k (map fst m)) as [|Hn]; [assumption|].
        apply bm_get_None in Hn. congruence.
      - apply bm_get_None in E. split; [intros [? ?]; discriminate|]. intros; contradiction.
    Qed.

    Lemma bm_get_Some_in k v m : bm_get cmp k m = Some v -> In (k, v) m.
    Proof.
      induction m as [|[a b] m IH]; simpl; [discriminate|].
      destruct (o_spec k a) as [->|Hc|Hc]; intros H; [injection H as ->; auto|auto|auto].
    Qed.

    Lemma bm_get_in k v m : is_map m -> (bm_get cmp k m = Some v <-> In (k, v) m).
    Proof.
      intros Hm. split; [apply bm_get_Some_in|]. revert Hm.
      unfold is_map, is_set. induction m as [|[a b] m IH]; simpl; [intros _ []|].
      intros Hm [H|H]; inversion Hm as [|? ? Hs Hf]; subst.
      - injection H as -> ->. rewrite o_refl. reflexivity.
      - destruct (o_spec k a) as [->| |]; auto.
        exfalso. rewrite Forall_forall in Hf. apply (o_irrefl a), Hf.
        change a with (fst (a, v)). apply in_map, H.
    Qed.

    Lemma in_keys_remove k m k' : is_map m ->
      (In k' (map fst (bm_remove cmp k m)) <-> k' <> k /\ In k' (map fst m)).
    Proof.
      intros Hm. assert (E : map fst (bm_remove cmp k m) = bs_remove cmp k (map fst m)).
      { clear Hm. induction m as [|[a b] m IH]; simpl; [reflexivity|].
        destruct (cmp k a); simpl; [reflexivity..|]. rewrite IH. reflexivity. }
      rewrite E, in_bs_remove by exact Hm. intuition.
    Qed.

    Lemma is_map_remove k m : is_map m -> is_map (bm_remove cmp k m).
    Proof.
      intros Hm. unfold is_map. assert (E : map fst (bm_remove cmp k m) = bs_remove cmp k (map fst m)).
      { clear Hm. induction m as [|[a b] m IH]; simpl; [reflexivity|].
        destruct (cmp k a); simpl; [reflexivity..|]. rewrite IH. reflexivity. }
      rewrite E. apply is_set_remove, Hm.
    Qed.

    Lemma bm_get_remove_same k m : is_map m -> bm_get cmp k (bm_remove cmp k m) = None.
    Proof.
      intros Hm. apply bm_get_None. rewrite in_keys_remove by exact Hm. tauto.
    Qed.

    Lemma bm_get_remove_other k m k' : k' <> k -> bm_get cmp k' (bm_remove cmp k m) = bm_get cmp k' m.
    Proof.
      intros Hn. pose proof (o_neq k' k Hn) as Hc.
      induction m as [|[a b] m IH]; simpl; [reflexivity|].
      destruct (o_spec k a) as [->| |]; simpl.
      - destruct (cmp k' a); congruence.
      - reflexivity.
      - rewrite IH. reflexivity.
    Qed.

    Lemma bm_insert_same k v m : is_map m -> bm_get cmp k m = Some v -> bm_insert cmp k v m = m.
    Proof.
      unfold is_map, is_set. induction m as [|[a b] m IH]; simpl; [discriminate|].
      intros Hm. inversion Hm as [|? ? Hs Hf]; subst. destruct (o_spec k a) as [->|Hlt|Hlt].
      - intros H. injection H as ->. reflexivity.
      - intros H. exfalso. rewrite Forall_forall in Hf.
        assert (Hi : In k (map fst m)) by (apply bm_get_in_keys; eauto).
        apply Hf in Hi. eapply o_asym; eassumption.
      - intros H. rewrite IH; auto.
    Qed.

    Lemma bm_remove_absent k m : is_map m -> bm_get cmp k m = None -> bm_remove cmp k m = m.
    Proof.
      unfold is_map, is_set. induction m as [|[a b] m IH]; simpl; [reflexivity|].
      intros Hm. inversion Hm as [|? ? Hs Hf]; subst. destruct (o_spec k a) as [->|Hlt|Hlt].
      - discriminate.
      - reflexivity.
      - intros H. rewrite IH; auto.
    Qed.

    Lemma in_map_insert k v m x w : is_map m ->
      (In (x, w) (bm_insert cmp k v m) <-> (x = k /\ w = v) \/ (x <> k /\ In (x, w) m)).
    Proof.
      intros Hm. rewrite <- !bm_get_in by auto using is_map_insert.
      destruct (o_dec x k) as [->|Hn].
      - rewrite bm_get_insert_same. split; [intros E; injection E; auto|].
        intros [[_ ->]|[]]; [reflexivity|congruence].
      - rewrite bm_get_insert_other by exact Hn. intuition congruence.
    Qed.

    Lemma in_map_remove k m x w : is_map m ->
      (In (x, w) (bm_remove cmp k m) <-> x <> k /\ In (x, w) m).
    Proof.
      intros Hm. rewrite <- !bm_get_in by auto using is_map_remove.
      destruct (o_dec x k) as [->|Hn].
      - rewrite bm_get_remove_same by exact Hm. split; [discriminate|tauto].
      - rewrite bm_get_remove_other by exact Hn. tauto.
    Qed.
  End Map.
End Order.

(** ** Instances *)

Lemma N_order : is_order N.compare N.lt.
Proof.
  split.
  - apply N.compare_eq_iff.
  - intros. apply N.compare_antisym.
  - intros. apply N.compare_lt_iff.
  - intros. lia.
Qed.

Lemma list_order {A} cmp lt (O : @is_order A cmp lt) : is_order (list_cmp cmp) (lex lt).
Proof.
  split.
  - induction x as [|a x IH]; destruct y as [|b y]; simpl; try (split; congruence).
    destruct (o_spec O a b) as [->|H|H].
    + rewrite IH. split; congruence.
    + split; [discriminate|]. intros E; injection E as -> _. exfalso. eapply (o_irrefl O); eassumption.
    + split; [discriminate|]. intros E; injection E as -> _. exfalso. eapply (o_irrefl O); eassumption.
  - induction x as [|a x IH]; destruct y as [|b y]; simpl; try reflexivity.
    rewrite (o_opp _ _ O a b). destruct (cmp a b); simpl; auto.
  - induction x as [|a x IH]; destruct y as [|b y]; simpl.
    + split; [discriminate|inversion 1].
    + split; [constructor|reflexivity].
    + split; [discriminate|inversion 1].
    + destruct (o_spec O a b) as [->|H|H].
      * rewrite IH. split; [apply lex_next|]. inversion 1; subst; [exfalso; eapply (o_irrefl O); eassumption|assumption].
      * split; [intros _; constructor; exact H|reflexivity].
      * split; [discriminate|]. inversion 1; subst; exfalso; [eapply (o_asym O); eassumption|eapply (o_irrefl O); eassumption].
  - intros x y z H. revert z. induction H as [b m|a b l m Hab|a l m H IH]; intros z Hz; inversion Hz; subst; try (constructor; eauto; fail).
    constructor. eapply (o_trans _ _ O); eassumption.
Qed.

Lemma str_order : is_order str_cmp str_lt.
Proof. apply list_order, N_order. Qed.

Lemma option_order {A} cmp lt (O : @is_order A cmp lt) : is_order (option_cmp cmp) (opt_lt lt).
Proof.
  split.
  - intros [x|] [y|]; simpl; try (split; congruence). rewrite (o_eq _ _ O). split; congruence.
  - intros [x|] [y|]; simpl; try reflexivity. apply (o_opp _ _ O).
  - intros [x|] [y|]; simpl; try (split; [discriminate|inversion 1]).
    + rewrite (o_lt _ _ O). split; [constructor; assumption|inversion 1; assumption].
    + split; [constructor|reflexivity].
  - intros x y z H1 H2. inversion H1; subst; inversion H2; subst; constructor. eapply (o_trans _ _ O); eassumption.
Qed.

(** Comparison by two keys. *)
Lemma pair_order {A B C} cA ltA cB ltB (f : C -> A) (g : C -> B)
  (OA : @is_order A cA ltA) (OB : @is_order B cB ltB)
  (inj : forall x y, f x = f y -> g x = g y -> x = y) :
  is_order (fun x y => then_cmp (cA (f x) (f y)) (cB (g x) (g y)))
           (fun x y => ltA (f x) (f y) \/ (f x = f y /\ ltB (g x) (g y))).
Proof.
  split.
  - intros x y. destruct (o_spec OA (f x) (f y)) as [E|H|H]; simpl.
    + rewrite (o_eq _ _ OB). split; [auto|congruence].
    + split; [discriminate|]. intros ->. exfalso. eapply (o_irrefl OA); eassumption.
    + split; [discriminate|]. intros ->. exfalso. eapply (o_irrefl OA); eassumption.
  - intros x y. rewrite (o_opp _ _ OA (f x)), (o_opp _ _ OB (g x)).
    destruct (cA (f x) (f y)); reflexivity.
  - intros x y. destruct (o_spec OA (f x) (f y)) as [E|H|H]; simpl.
    + rewrite (o_lt _ _ OB), E. split; [auto|]. intros [H|[_ H]]; [exfalso; eapply (o_irrefl OA); eassumption|assumption].
    + split; auto.
    + split; [discriminate|]. intros [H'|[E _]]; exfalso; [eapply (o_asym OA); eassumption|].
      rewrite E in H. eapply (o_irrefl OA); eassumption.
  - intros x y z [H|[E H]] [H'|[E' H']].
    + left. eapply (o_trans _ _ OA); eassumption.
    + left. congruence.
    + left. congruence.
    + right. split; [congruence|]. eapply (o_trans _ _ OB); eassumption.
Qed.

Lemma trip_order : is_order trip_cmp trip_lt.
Proof.
  pose (p := fun t => (t1 t, t2 t)).
  assert (O2 : is_order (fun x y : str * str => then_cmp (str_cmp (fst x) (fst y)) (str_cmp (snd x) (snd y)))
                 (fun x y => str_lt (fst x) (fst y) \/ (fst x = fst y /\ str_lt (snd x) (snd y)))).
  { apply pair_order; [apply str_order..|]. intros [] []; simpl; congruence. }
  exact (pair_order _ _ _ _ t0 p str_order O2
           ltac:(intros [] []; unfold p; simpl; congruence)).
Qed.

Lemma element_order : is_order element_cmp element_lt.
Proof.
  pose (p := fun t => (el_ns t, el_lang t)).
  assert (OO : is_order (option_cmp str_cmp) (opt_lt str_lt)) by (apply option_order, str_order).
  assert (O2 : is_order (fun x y : option str * option str =>
                           then_cmp (option_cmp str_cmp (fst x) (fst y)) (option_cmp str_cmp (snd x) (snd y)))
                 (fun x y => opt_lt str_lt (fst x) (fst y) \/ (fst x = fst y /\ opt_lt str_lt (snd x) (snd y)))).
  { apply pair_order; [exact OO..|]. intros [] []; simpl; congruence. }
  exact (pair_order _ _ _ _ el_name p str_order O2
           ltac:(intros [] []; unfold p; simpl; congruence)).
Qed.

Lemma entry_order : is_order entry_cmp entry_lt.
Proof.
  pose proof element_order as OE.
  split.
  - intros [f s r|e c|e c] [f' s' r'|e' c'|e' c']; simpl; try (split; congruence).
    + destruct (o_spec OE f f') as [->|H|H]; simpl;
        [|split; [discriminate|intros E; injection E; intros; subst; exfalso; eapply (o_irrefl OE); eassumption]..].
      destruct (o_spec OE s s') as [->|H|H]; simpl;
        [|split; [discriminate|intros E; injection E; intros; subst; exfalso; eapply (o_irrefl OE); eassumption]..].
      rewrite (o_eq _ _ OE). split; congruence.
    + destruct (o_spec OE e e') as [->|H|H]; simpl;
        [|split; [discriminate|intros E; injection E; intros; subst; exfalso; eapply (o_irrefl OE); eassumption]..].
      rewrite (o_eq _ _ OE). split; congruence.
    + destruct (o_spec OE e e') as [->|H|H]; simpl;
        [|split; [discriminate|intros E; injection E; intros; subst; exfalso; eapply (o_irrefl OE); eassumption]..].
      rewrite (o_eq _ _ OE). split; congruence.
  - intros [f s r|e c|e c] [f' s' r'|e' c'|e' c']; simpl; try reflexivity.
    + rewrite (o_opp _ _ OE f), (o_opp _ _ OE s), (o_opp _ _ OE r).
      destruct (element_cmp f f'), (element_cmp s s'); reflexivity.
    + rewrite (o_opp _ _ OE e), (o_opp _ _ OE c). destruct (element_cmp e e'); reflexivity.
    + rewrite (o_opp _ _ OE e), (o_opp _ _ OE c). destruct (element_cmp e e'); reflexivity.
  - intros [f s r|e c|e c] [f' s' r'|e' c'|e' c']; simpl;
      try (split; [discriminate|inversion 1]; fail);
      try (split; [constructor|reflexivity]; fail).
    + destruct (o_spec OE f f') as [->|H|H]; simpl.
      * destruct (o_spec OE s s') as [->|H|H]; simpl.
        -- rewrite (o_lt _ _ OE). split; [apply lt_role_3|].
           inversion 1; subst; try assumption; exfalso; eapply (o_irrefl OE); eassumption.
        -- split; [intros _; apply lt_role_2; exact H|reflexivity].
        -- split; [discriminate|]. inversion 1; subst; exfalso;
             first [eapply (o_irrefl OE); eassumption|eapply (o_asym OE); eassumption].
      * split; [intros _; apply lt_role_1; exact H|reflexivity].
      * split; [discriminate|]. inversion 1; subst; exfalso;
          first [eapply (o_irrefl OE); eassumption|eapply (o_asym OE); eassumption].
    + destruct (o_spec OE e e') as [->|H|H]; simpl.
      * rewrite (o_lt _ _ OE). split; [apply lt_ext_2|].
        inversion 1; subst; try assumption; exfalso; eapply (o_irrefl OE); eassumption.
      * split; [intros _; apply lt_ext_1; exact H|reflexivity].
      * split; [discriminate|]. inversion 1; subst; exfalso;
          first [eapply (o_irrefl OE); eassumption|eapply (o_asym OE); eassumption].
    + destruct (o_spec OE e e') as [->|H|H]; simpl.
      * rewrite (o_lt _ _ OE). split; [apply lt_not_2|].
        inversion 1; subst; try assumption; exfalso; eapply (o_irrefl OE); eassumption.
      * split; [intros _; apply lt_not_1; exact H|reflexivity].
      * split; [discriminate|]. inversion 1; subst; exfalso;
          first [eapply (o_irrefl OE); eassumption|eapply (o_asym OE); eassumption].
  - intros x y z H1 H2. inversion H1; subst; inversion H2; subst;
      solve [ constructor; solve [assumption | eapply (o_trans _ _ OE); eassumption]
            | apply lt_role_1; solve [assumption | eapply (o_trans _ _ OE); eassumption]
            | apply lt_role_2; solve [assumption | eapply (o_trans _ _ OE); eassumption]
            | apply lt_role_3; solve [assumption | eapply (o_trans _ _ OE); eassumption]
            | apply lt_ext_1; solve [assumption | eapply (o_trans _ _ OE); eassumption]
            | apply lt_ext_2; solve [assumption | eapply (o_trans _ _ OE); eassumption]
            | apply lt_not_1; solve [assumption | eapply (o_trans _ _ OE); eassumption]
            | apply lt_not_2; solve [assumption | eapply (o_trans _ _ OE); eassumption] ].
Qed.

(** ** Boolean equalities *)

Lemma str_eqb_eq a b : str_eqb a b = true <-> a = b.
Proof.
  revert b. induction a as [|x a IH]; intros [|y b]; simpl; try (split; congruence).
  rewrite andb_true_iff, N.eqb_eq, IH. split; [intros [-> ->]; reflexivity|intros E; injection E; auto].
Qed.

Lemma str_eqb_neq a b : str_eqb a b = false <-> a <> b.
Proof.
  destruct (str_eqb a b) eqn:E.
  - apply str_eqb_eq in E. split; congruence.
  - split; [|reflexivity]. intros _ ->. rewrite (proj2 (str_eqb_eq b b) eq_refl) in E. discriminate.
Qed.

Lemma str_eqb_refl a : str_eqb a a = true.
Proof. apply str_eqb_eq. reflexivity. Qed.

Lemma str_eqb_spec a b : reflect (a = b) (str_eqb a b).
Proof. destruct (str_eqb a b) eqn:E; constructor; [apply str_eqb_eq, E|apply str_eqb_neq, E]. Qed.

Lemma opt_str_eqb_eq a b : opt_str_eqb a b = true <-> a = b.
Proof.
  destruct a, b; simpl; try (split; congruence). rewrite str_eqb_eq. split; congruence.
Qed.

Lemma element_eqb_eq a b : element_eqb a b = true <-> a = b.
Proof.
  destruct a, b. unfold element_eqb. simpl.
  rewrite !andb_true_iff, str_eqb_eq, !opt_str_eqb_eq. split; [intros [[-> ->] ->]; reflexivity|].
  intros E; injection E; auto.
Qed.

Lemma element_eqb_spec a b : reflect (a = b) (element_eqb a b).
Proof.
  destruct (element_eqb a b) eqn:E; constructor; [apply element_eqb_eq, E|].
  intros H. apply element_eqb_eq in H. congruence.
Qed.

Lemma entry_eqb_eq a b : entry_eqb a b = true <-> a = b.
Proof.
  destruct a, b; simpl; try (split; congruence); rewrite ?andb_true_iff, ?element_eqb_eq;
    (split; [intuition congruence|intros E; injection E; auto]).
Qed.

Definition str_dec : forall a b : str, {a = b} + {a <> b} := o_dec str_order.
Definition trip_dec : forall a b : trip, {a = b} + {a <> b} := o_dec trip_order.
Definition element_dec : forall a b : element, {a = b} + {a <> b} := o_dec element_order.
Definition entry_dec : forall a b : entry, {a = b} + {a <> b} := o_dec entry_order.
