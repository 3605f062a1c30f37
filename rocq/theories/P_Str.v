(** * UTF-8 order is code point order *)
From Coq Require Import List Arith NArith Bool Lia ZArith.
From Verif Require Import M_Base S_Order S_Str P_Ord.
Import ListNotations.
Open Scope list_scope.

Lemma cmp_first x y l m : (x < y)%N -> list_cmp N.compare (x :: l) (y :: m) = Lt.
Proof. intros H. simpl. apply N.compare_lt_iff in H. rewrite H. reflexivity. Qed.

Lemma cmp_same x l m : list_cmp N.compare (x :: l) (x :: m) = list_cmp N.compare l m.
Proof. simpl. rewrite N.compare_refl. reflexivity. Qed.

Lemma divmod_lt k c d : (0 < k)%N -> (c < d)%N -> (c / k < d / k \/ (c / k = d / k /\ c mod k < d mod k))%N.
Proof.
  intros K L.
  assert (c / k <= d / k)%N by (apply N.div_le_mono; lia).
  destruct (N.eq_dec (c / k) (d / k)) as [E|E]; [right|left; lia].
  split; [exact E|]. pose proof (N.div_mod c k ltac:(lia)). pose proof (N.div_mod d k ltac:(lia)).
  rewrite E in H0. lia.
Qed.

Lemma utf8_char_lt c d r r' : scalar d -> (c < d)%N ->
  list_cmp N.compare (utf8_char c ++ r) (utf8_char d ++ r') = Lt.
Proof.
  intros Sd L.
  assert (Sd' : (d < 0x110000)%N) by (unfold scalar in Sd; lia).
  unfold utf8_char.
  destruct (N.ltb_spec c 0x80) as [C1|C1]; [|destruct (N.ltb_spec c 0x800) as [C2|C2];
    [|destruct (N.ltb_spec c 0x10000) as [C3|C3]]];
  (destruct (N.ltb_spec d 0x80) as [D1|D1]; [|destruct (N.ltb_spec d 0x800) as [D2|D2];
    [|destruct (N.ltb_spec d 0x10000) as [D3|D3]]]); try lia; cbn [app].
  - apply cmp_first. lia.
  - apply cmp_first. generalize (d / 64)%N. lia.
  - apply cmp_first. generalize (d / 4096)%N. lia.
  - apply cmp_first. generalize (d / 262144)%N. lia.
  - destruct (divmod_lt 64 c d ltac:(lia) L) as [H|[H H']].
    + apply cmp_first. lia.
    + rewrite H, cmp_same. apply cmp_first. lia.
  - apply cmp_first. assert (c / 64 < 32)%N by (apply N.div_lt_upper_bound; lia).
    remember (c / 64)%N as u; remember (c / 4096)%N as v; remember (d / 64)%N; remember (d / 4096)%N; remember (d / 262144)%N; lia.
  - apply cmp_first. assert (c / 64 < 32)%N by (apply N.div_lt_upper_bound; lia).
    remember (c / 64)%N as u; remember (c / 4096)%N as v; remember (d / 64)%N; remember (d / 4096)%N; remember (d / 262144)%N; lia.
  - destruct (divmod_lt 64 c d ltac:(lia) L) as [H|[H H']].
    + destruct (divmod_lt 64 _ _ ltac:(lia) H) as [K|[K K']];
        rewrite !N.div_div in K by lia; change (64 * 64)%N with 4096%N in K.
      * apply cmp_first. lia.
      * rewrite K, cmp_same. apply cmp_first. lia.
    + assert (c / 4096 = d / 4096)%N as ->
        by (change 4096%N with (64 * 64)%N; rewrite <- !N.div_div by lia; rewrite H; reflexivity).
      rewrite H, !cmp_same. apply cmp_first. lia.
  - apply cmp_first. assert (c / 4096 < 16)%N by (apply N.div_lt_upper_bound; lia).
    remember (c / 64)%N as u; remember (c / 4096)%N as v; remember (d / 64)%N; remember (d / 4096)%N; remember (d / 262144)%N; lia.
  - destruct (divmod_lt 64 c d ltac:(lia) L) as [H|[H H']].
    + destruct (divmod_lt 64 _ _ ltac:(lia) H) as [K|[K K']].
      * destruct (divmod_lt 64 _ _ ltac:(lia) K) as [J|[J J']];
          rewrite !N.div_div in J by lia; change (64 * (64 * 64))%N with 262144%N in J.
        -- apply cmp_first. lia.
        -- rewrite J, cmp_same. rewrite !N.div_div in J' by lia. change (64 * 64)%N with 4096%N in J'.
           apply cmp_first. lia.
      * assert (c / 262144 = d / 262144)%N as ->
          by (change 262144%N with (64 * 64 * 64)%N; rewrite <- !N.div_div by lia; rewrite K; reflexivity).
        rewrite !N.div_div in K by lia. change (64 * 64)%N with 4096%N in K.
        rewrite K, !cmp_same. apply cmp_first. lia.
    + assert (c / 262144 = d / 262144)%N as ->
        by (change 262144%N with (64 * (64 * 64))%N; rewrite <- !N.div_div by lia; rewrite H; reflexivity).
      assert (c / 4096 = d / 4096)%N as ->
        by (change 4096%N with (64 * 64)%N; rewrite <- !N.div_div by lia; rewrite H; reflexivity).
      rewrite H, !cmp_same. apply cmp_first. lia.
Qed.

Lemma cmp_app_same l m m' : list_cmp N.compare (l ++ m) (l ++ m') = list_cmp N.compare m m'.
Proof. induction l; [reflexivity|]. cbn [app]. rewrite cmp_same. exact IHl. Qed.

Lemma utf8_char_nonempty c : exists x l, utf8_char c = x :: l.
Proof.
  unfold utf8_char. destruct (c <? 0x80)%N; [eauto|]. destruct (c <? 0x800)%N; [eauto|].
  destruct (c <? 0x10000)%N; eauto.
Qed.

Lemma bytes_opp l m : list_cmp N.compare m l = CompOpp (list_cmp N.compare l m).
Proof.
  revert m. induction l as [|x l IH]; intros [|y m]; simpl; try reflexivity.
  rewrite (N.compare_antisym x y). destruct (N.compare x y); simpl; auto.
Qed.

Lemma utf8_order : forall a b, valid_str a -> valid_str b ->
  list_cmp N.compare (utf8 a) (utf8 b) = str_cmp a b.
Proof.
  unfold str_cmp, valid_str.
  induction a as [|c a IH]; intros [|d b] Va Vb.
  - reflexivity.
  - simpl. destruct (utf8_char_nonempty d) as (x & l & ->). reflexivity.
  - simpl. destruct (utf8_char_nonempty c) as (x & l & ->). reflexivity.
  - inversion Va; inversion Vb; subst. simpl.
    destruct (N.compare_spec c d) as [E|E|E].
    + subst. rewrite cmp_app_same. apply IH; assumption.
    + apply utf8_char_lt; assumption.
    + rewrite bytes_opp, utf8_char_lt by assumption. reflexivity.
Qed.

Lemma utf8_order_lex a b : valid_str a -> valid_str b ->
  (lex N.lt (utf8 a) (utf8 b) <-> str_lt a b) /\ (utf8 a = utf8 b <-> a = b)
  /\ (str_cmp a b = Lt <-> lex N.lt (utf8 a) (utf8 b)) /\ (str_cmp a b = Eq <-> a = b)
  /\ (str_cmp a b = Gt <-> lex N.lt (utf8 b) (utf8 a)).
Proof.
  intros Va Vb. pose proof (list_order _ _ N_order) as O. pose proof (utf8_order a b Va Vb) as E.
  assert (X : str_cmp a b = Lt <-> lex N.lt (utf8 a) (utf8 b)) by (rewrite <- E; apply (o_lt _ _ O)).
  assert (Y : str_cmp a b = Eq <-> utf8 a = utf8 b) by (rewrite <- E; apply (o_eq _ _ O)).
  assert (Y' : str_cmp a b = Eq <-> a = b) by apply (o_eq _ _ str_order).
  split; [|split; [|split; [exact X|split; [exact Y'|]]]].
  - rewrite <- X. apply (o_lt _ _ str_order).
  - rewrite <- Y. exact Y'.
  - rewrite <- E. apply (o_gt O).
Qed.
