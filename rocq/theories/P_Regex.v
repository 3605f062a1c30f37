(** * Derivatives and longest match are correct *)
From Coq Require Import List Arith NArith Bool Lia String.
From Verif Require Import M_Base M_Data M_Regex M_Lexer S_Lexer.
Import ListNotations.
Open Scope list_scope.

Lemma in_ranges_iff rs c : in_ranges rs c = true <-> exists a b, In (a, b) rs /\ (a <= c <= b)%N.
Proof.
  unfold in_ranges. rewrite existsb_exists. split.
  - intros ([a b] & H1 & H2). simpl in H2. apply andb_true_iff in H2. rewrite !N.leb_le in H2. exists a, b. tauto.
  - intros (a & b & H1 & H2). exists (a, b). split; [exact H1|]. simpl. apply andb_true_iff. rewrite !N.leb_le. exact H2.
Qed.

Lemma m_cls_iff k x : matches (RCls k) x <-> exists c, x = [c] /\ in_cls k c = true.
Proof.
  destruct k as [neg rs]. unfold in_cls. simpl. split.
  - intros H. inversion H as [|n' rs' c K1 K2| | | | |]; subst. exists c. split; [reflexivity|].
    destruct (in_ranges rs c) eqn:E; destruct neg; try reflexivity; simpl.
    + apply in_ranges_iff in E. destruct E as (a & b & J1 & J2). exfalso. eapply K2; eauto.
    + assert (in_ranges rs c = true) by (apply in_ranges_iff; auto). congruence.
  - intros (c & -> & H). constructor.
    + intros ->. destruct (in_ranges rs c) eqn:E; [|discriminate]. apply in_ranges_iff, E.
    + intros -> a b H1 H2. assert (in_ranges rs c = true) as E by (apply in_ranges_iff; eauto).
      rewrite E in H. discriminate.
Qed.

Lemma m_none x : ~ matches RNone x.
Proof. intros H. inversion H. Qed.

Lemma m_eps_iff x : matches REps x <-> x = [].
Proof. split; [intros H; inversion H; reflexivity|intros ->; constructor]. Qed.

Lemma m_seq_iff a b x : matches (RSeq a b) x <-> exists y z, x = y ++ z /\ matches a y /\ matches b z.
Proof.
  split.
  - intros H. inversion H; subst. eauto.
  - intros (y & z & -> & H1 & H2). constructor; assumption.
Qed.

Lemma m_alt_iff a b x : matches (RAlt a b) x <-> matches a x \/ matches b x.
Proof.
  split; [intros H; inversion H; subst; auto|intros [H|H]; [apply m_alt_l|apply m_alt_r]; exact H].
Qed.

Lemma nullable_iff r : nullable r = true <-> matches r [].
Proof.
  induction r as [| |k|a IHa b IHb|a IHa b IHb|a IHa]; simpl.
  - split; [discriminate|intros H; inversion H].
  - split; [constructor|reflexivity].
  - split; [discriminate|]. intros H. apply m_cls_iff in H. destruct H as (c & H & _). discriminate.
  - rewrite andb_true_iff, IHa, IHb, m_seq_iff. split.
    + intros [H1 H2]. exists [], []. auto.
    + intros (y & z & E & H1 & H2). symmetry in E. apply app_eq_nil in E. destruct E; subst. auto.
  - rewrite orb_true_iff, IHa, IHb, m_alt_iff. reflexivity.
  - split; [constructor|reflexivity].
Qed.

Lemma seq_s_iff a b x : matches (seq_s a b) x <-> matches (RSeq a b) x.
Proof.
  destruct a; simpl; try reflexivity.
  - split; [intros H; inversion H|]. rewrite m_seq_iff. intros (y & z & _ & H & _). inversion H.
  - rewrite m_seq_iff. split.
    + intros H. exists [], x. repeat split; [constructor|exact H].
    + intros (y & z & -> & H & H'). inversion H; subst. exact H'.
Qed.

Lemma alt_s_iff a b x : matches (alt_s a b) x <-> matches a x \/ matches b x.
Proof.
  destruct a; simpl; [split; [auto|intros [H|H]; [inversion H|exact H]]|..];
    (destruct b; [split; [auto|intros [H|H]; [exact H|inversion H]]|..]; apply m_alt_iff).
Qed.

Lemma m_star_cons_iff a c s :
  matches (RStar a) (c :: s) <-> exists y z, s = y ++ z /\ matches a (c :: y) /\ matches (RStar a) z.
Proof.
  split.
  - intros H. remember (RStar a) as r eqn:Er. remember (c :: s) as x eqn:Ex.
    revert c s Ex. induction H as [| | | | |a'|a' x y H1 _ H2 IH]; intros c0 s0 Ex; try discriminate.
    injection Er as ->. destruct x as [|d x].
    + simpl in Ex. apply IH; auto.
    + injection Ex as <- <-. exists x, y. auto.
  - intros (y & z & -> & H1 & H2). change (c :: y ++ z) with ((c :: y) ++ z). constructor; assumption.
Qed.

Lemma deriv_iff c r : forall s, matches (deriv c r) s <-> matches r (c :: s).
Proof.
  induction r as [| |k|a IHa b IHb|a IHa b IHb|a IHa]; intros s; simpl.
  - split; intros H; inversion H.
  - split; intros H; inversion H.
  - rewrite m_cls_iff. destruct (in_cls k c) eqn:E.
    + rewrite m_eps_iff. split; [intros ->; eauto|intros (d & H & _); congruence].
    + split; [intros H; inversion H|]. intros (d & H & H'). injection H as <- ->. congruence.
  - assert (L : matches (RSeq a b) (c :: s) <->
        matches (RSeq (deriv c a) b) s \/ (nullable a = true /\ matches (deriv c b) s)).
    { rewrite !m_seq_iff. split.
      - intros (y & z & E & H1 & H2). destruct y as [|d y].
        + simpl in E. subst z. right. rewrite nullable_iff. split; [exact H1|]. apply IHb, H2.
        + injection E as <- ->. left. exists y, z. rewrite IHa. auto.
      - intros [(y & z & -> & H1 & H2)|[H1 H2]].
        + exists (c :: y), z. rewrite IHa in H1. auto.
        + exists [], (c :: s). rewrite nullable_iff in H1. rewrite IHb in H2. auto. }
    rewrite L. destruct (nullable a) eqn:E.
    + rewrite alt_s_iff, seq_s_iff. tauto.
    + rewrite seq_s_iff. split; [auto|]. intros [H|[H _]]; [exact H|discriminate].
  - rewrite alt_s_iff, IHa, IHb, m_alt_iff. reflexivity.
  - rewrite seq_s_iff, m_star_cons_iff, m_seq_iff. split; intros (y & z & H1 & H2 & H3); exists y, z.
    + rewrite IHa in H2. auto.
    + rewrite IHa. auto.
Qed.

(** ** Longest match *)

Definition is_longest (r : regex) (s : str) (o : option nat) : Prop :=
  match o with
  | Some n => n <= List.length s /\ matches r (firstn n s)
              /\ forall m, n < m -> m <= List.length s -> ~ matches r (firstn m s)
  | None => forall m, m <= List.length s -> ~ matches r (firstn m s)
  end.

Lemma longest_from_spec : forall s r n best,
  match longest_from r s n best with
  | Some k => (exists m, k = n + m /\ m <= List.length s /\ matches r (firstn m s)
                /\ forall m', m < m' -> m' <= List.length s -> ~ matches r (firstn m' s))
              \/ (best = Some k /\ forall m, m <= List.length s -> ~ matches r (firstn m s))
  | None => best = None /\ forall m, m <= List.length s -> ~ matches r (firstn m s)
  end.
Proof.
  induction s as [|c s IH]; intros r n best; simpl.
  - destruct (nullable r) eqn:E.
    + apply nullable_iff in E. left. exists 0. simpl. repeat split; auto; intros; lia.
    + assert (forall m, m <= 0 -> ~ matches r (firstn m [])) as K.
      { intros m _. rewrite firstn_nil. rewrite <- nullable_iff. congruence. }
      destruct best; auto.
  - set (best' := if nullable r then Some n else best).
    specialize (IH (deriv c r) (S n) best').
    destruct (longest_from (deriv c r) s (S n) best') as [k|].
    + destruct IH as [(m & E & L & M & X)|[E X]].
      * left. exists (S m). split; [lia|]. split; [lia|]. split; [apply deriv_iff, M|].
        intros m' Lm Lm' M'. destruct m' as [|m']; [lia|]. apply (X m'); [lia|lia|]. apply deriv_iff, M'.
      * unfold best' in E. destruct (nullable r) eqn:En.
        -- left. exists 0. injection E as <-. split; [lia|]. split; [lia|]. split; [apply nullable_iff, En|].
           intros m' Lm Lm' M'. destruct m' as [|m']; [lia|]. apply (X m'); [lia|]. apply deriv_iff, M'.
        -- right. split; [exact E|]. intros [|m] Lm M.
           ++ rewrite <- nullable_iff in M. congruence.
           ++ apply (X m); [lia|]. apply deriv_iff, M.
    + destruct IH as [E X]. unfold best' in E. destruct (nullable r) eqn:En; [discriminate|].
      split; [exact E|]. intros [|m] Lm M.
      * rewrite <- nullable_iff in M. congruence.
      * apply (X m); [lia|]. apply deriv_iff, M.
Qed.

Lemma longest_spec r s : is_longest r s (longest r s).
Proof.
  unfold longest, is_longest. pose proof (longest_from_spec s r 0 None) as H.
  destruct (longest_from r s 0 None) as [k|].
  - destruct H as [(m & -> & H)|[H _]]; [exact H|discriminate].
  - apply H.
Qed.

(** ** The winning rule *)

Lemma best_rule_spec {K} (rules : list (rule K)) s :
  match best_rule rules s with
  | Some (n, r) => In r rules /\ 0 < n /\ n <= List.length s /\ matches (r_re r) (firstn n s)
                   /\ forall r' m, In r' rules -> 0 < m -> m <= List.length s -> matches (r_re r') (firstn m s) ->
                      m < n \/ (m = n /\ r_prio r' <= r_prio r)
  | None => forall r' m, In r' rules -> 0 < m -> m <= List.length s -> ~ matches (r_re r') (firstn m s)
  end.
Proof.
  induction rules as [|r rest IH]; [intros ? ? []|]. cbn [best_rule].
  pose proof (longest_spec (r_re r) s) as L. unfold is_longest in L.
  destruct (longest (r_re r) s) as [[|n]|].
  - destruct L as (_ & _ & L). destruct (best_rule rest s) as [[m r']|].
    + destruct IH as (I1 & I2 & I3 & I4 & I5). split; [right; exact I1|]. repeat split; auto.
      intros r'' k [<-|Hi] K1 K2 K3; [|eapply I5; eauto]. exfalso. exact (L k K1 K2 K3).
    + intros r'' k [<-|Hi] K1 K2 K3; [exact (L k K1 K2 K3)|]. exact (IH _ _ Hi K1 K2 K3).
  - destruct L as (L1 & L2 & L3). destruct (best_rule rest s) as [[m r']|].
    + destruct IH as (I1 & I2 & I3 & I4 & I5).
      assert (F : forall k, 0 < k -> k <= List.length s -> matches (r_re r) (firstn k s) -> k <= S n).
      { intros k K1 K2 K3. destruct (le_lt_dec k (S n)); [assumption|]. exfalso. eapply L3; eauto. }
      destruct (Nat.ltb_spec (S n) m) as [Q|Q]; [|destruct (Nat.ltb_spec m (S n)) as [Q2|Q2];
        [|destruct (Nat.ltb_spec (r_prio r) (r_prio r')) as [Q3|Q3]]].
      * split; [right; exact I1|]. repeat split; auto.
        intros r'' k [<-|Hi] K1 K2 K3; [|eapply I5; eauto]. specialize (F k K1 K2 K3). lia.
      * split; [left; reflexivity|]. split; [lia|]. repeat split; auto.
        intros r'' k [<-|Hi] K1 K2 K3; [specialize (F k K1 K2 K3); lia|].
        specialize (I5 _ _ Hi K1 K2 K3). lia.
      * split; [right; exact I1|]. repeat split; auto.
        intros r'' k [<-|Hi] K1 K2 K3; [|eapply I5; eauto]. specialize (F k K1 K2 K3). lia.
      * split; [left; reflexivity|]. split; [lia|]. repeat split; auto.
        intros r'' k [<-|Hi] K1 K2 K3; [specialize (F k K1 K2 K3); lia|].
        specialize (I5 _ _ Hi K1 K2 K3). lia.
    + split; [left; reflexivity|]. split; [lia|]. repeat split; auto.
      intros r'' k [<-|Hi] K1 K2 K3; [|exfalso; eapply IH; eauto].
      destruct (le_lt_dec k (S n)); [lia|]. exfalso. eapply L3; eauto.
  - destruct (best_rule rest s) as [[m r']|].
    + destruct IH as (I1 & I2 & I3 & I4 & I5). split; [right; exact I1|]. repeat split; auto.
      intros r'' k [<-|Hi] K1 K2 K3; [|eapply I5; eauto]. exfalso. exact (L k K2 K3).
    + intros r'' k [<-|Hi] K1 K2 K3; [exact (L k K2 K3)|]. exact (IH _ _ Hi K1 K2 K3).
Qed.
