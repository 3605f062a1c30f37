(** * Derived orders, equalities and hashes: proofs *)
From Coq Require Import List NArith Bool Lia.
From Verif Require Import M_Base M_Data M_Regex M_Lexer M_Parser M_Interp M_Derive S_Order S_Str S_Derive
  P_Ord P_Str P_Display P_Interp.
Import ListNotations.
Open Scope list_scope.

Lemma order_decides {A} cmp lt : @is_order A cmp lt -> decides_order cmp lt.
Proof. intros O a b. split; [apply (o_eq _ _ O)|]. split; [apply (o_lt _ _ O)|apply (o_gt O)]. Qed.

Lemma order_total {A} cmp lt : @is_order A cmp lt -> strict_total lt.
Proof.
  intros O. split; [apply (o_irrefl O)|]. split; [apply (o_trans _ _ O)|].
  intros a b. destruct (o_spec O a b); auto.
Qed.

Lemma slot_order : is_order slot_cmp slot_lt.
Proof.
  pose proof str_order as O. split.
  - intros [x|x|] [y|y|]; simpl; try (split; congruence); rewrite (o_eq _ _ O); split; congruence.
  - intros [x|x|] [y|y|]; simpl; try reflexivity; apply (o_opp _ _ O).
  - intros [x|x|] [y|y|]; simpl; try (split; [discriminate|inversion 1]; fail); try (split; [constructor|reflexivity]; fail);
      rewrite (o_lt _ _ O); (split; [constructor; assumption|inversion 1; assumption]).
  - intros a b c H1 H2. inversion H1; subst; inversion H2; subst; constructor; eapply (o_trans _ _ O); eassumption.
Qed.

Lemma query_order : is_order query_cmp query_lt.
Proof.
  pose (p := fun t => (q1 t, q2 t)).
  assert (O2 : is_order (fun x y : slot * slot => then_cmp (slot_cmp (fst x) (fst y)) (slot_cmp (snd x) (snd y)))
                 (fun x y => slot_lt (fst x) (fst y) \/ (fst x = fst y /\ slot_lt (snd x) (snd y)))).
  { apply pair_order; [apply slot_order..|]. intros [] []; simpl; congruence. }
  exact (pair_order _ _ _ _ q0 p slot_order O2
           ltac:(intros [] []; unfold p; simpl; congruence)).
Qed.

Lemma slot_eqb_eq : decides_eq slot_eqb.
Proof.
  intros [x|x|] [y|y|]; simpl; try (split; congruence); rewrite str_eqb_eq; split; congruence.
Qed.

Lemma query_eqb_eq : decides_eq query_eqb.
Proof.
  intros [a b c] [a' b' c']. unfold query_eqb. simpl. rewrite !andb_true_iff, (slot_eqb_eq a), (slot_eqb_eq b), (slot_eqb_eq c). split; [intros [[-> ->] ->]; reflexivity|].
  intros E. injection E. auto.
Qed.

Lemma trip_eqb_eq : decides_eq trip_eqb.
Proof.
  intros [a b c] [a' b' c']. unfold trip_eqb. simpl. rewrite !andb_true_iff, !str_eqb_eq. split; [intros [[-> ->] ->]; reflexivity|].
  intros E. injection E. auto.
Qed.

Lemma values_eqb_eq : decides_eq values_eqb.
Proof.
  intros a. induction a as [|x a IH]; intros [|y b]; simpl; try (split; congruence).
  rewrite andb_true_iff, value_eqb_eq, (IH b). split; [intros [-> ->]; reflexivity|]. intros E. injection E. auto.
Qed.

Lemma call_eqb_eq : decides_eq call_eqb.
Proof.
  intros [n a] [m b]. unfold call_eqb. simpl. rewrite andb_true_iff, element_eqb_eq, (values_eqb_eq a).
  split; [intros [-> ->]; reflexivity|]. intros E. injection E. auto.
Qed.

(** ** Hash feeds *)

Lemma utf8_char_not_255 c : scalar c -> Forall (fun b => (b < 255)%N) (utf8_char c).
Proof.
  intros S. assert (B : (c < 0x110000)%N) by (unfold scalar in S; lia). unfold utf8_char.
  destruct (N.ltb_spec c 0x80); [repeat constructor; lia|].
  assert (M : forall x, (0x80 + x mod 64 < 255)%N) by (intros x; pose proof (N.mod_upper_bound x 64); lia).
  destruct (N.ltb_spec c 0x800).
  { repeat constructor; [|apply M]. pose proof (N.div_lt_upper_bound c 64 32). lia. }
  destruct (N.ltb_spec c 0x10000).
  { repeat constructor; try apply M. pose proof (N.div_lt_upper_bound c 4096 16). lia. }
  repeat constructor; try apply M. pose proof (N.div_lt_upper_bound c 262144 5). lia.
Qed.

Lemma utf8_not_255 s : valid_str s -> Forall (fun b => (b < 255)%N) (utf8 s).
Proof.
  induction 1; [constructor|]. cbn [utf8 flat_map]. apply Forall_app. split; [apply utf8_char_not_255; assumption|assumption].
Qed.

Lemma until_255 : forall a b (r r' : list N), Forall (fun b => (b < 255)%N) a -> Forall (fun b => (b < 255)%N) b ->
  a ++ 255%N :: r = b ++ 255%N :: r' -> a = b /\ r = r'.
Proof.
  intros a. induction a as [|x a IH]; intros [|y b] r r' Ha Hb E; simpl in E.
  - injection E. auto.
  - injection E as E1 _. inversion Hb as [|? ? H ?]; subst. exfalso. revert H. apply N.lt_irrefl.
  - injection E as E1 _. inversion Ha as [|? ? H ?]; subst. exfalso. revert H. apply N.lt_irrefl.
  - injection E as -> E. inversion Ha; inversion Hb; subst. destruct (IH b r r') as [-> ->]; auto.
Qed.

Lemma tells_str : tells_apart valid_str hash_str.
Proof.
  intros a b r r' Va Vb E. unfold hash_str in E. rewrite <- !app_assoc in E.
  apply until_255 in E; [|apply utf8_not_255; assumption..]. destruct E as [E ->]. split; [|reflexivity].
  destruct (utf8_order_lex a b Va Vb) as (_ & Y & _). apply Y, E.
Qed.

Lemma tells_opt : tells_apart opt_text hash_opt.
Proof.
  intros [a|] [b|] r r' Ta Tb E; simpl in E; try discriminate; injection E as E.
  - apply tells_str in E; [|apply Ta; reflexivity|apply Tb; reflexivity]. destruct E as [-> ->]. auto.
  - auto.
Qed.

Lemma tells_element : tells_apart element_text hash_element.
Proof.
  intros [a n l] [a' n' l'] r r' (A & B & C) (A' & B' & C') E. unfold hash_element in E. simpl in *.
  rewrite <- !app_assoc in E. apply tells_str in E; [|assumption..]. destruct E as [-> E].
  apply tells_opt in E; [|assumption..]. destruct E as [-> E].
  apply tells_opt in E; [|assumption..]. destruct E as [-> E]. auto.
Qed.

Lemma tells_entry : tells_apart entry_text hash_entry.
Proof.
  intros a b r r' Ta Tb E. destruct a as [f s o|e c|e c], b as [f' s' o'|e' c'|e' c']; simpl in E; try discriminate;
    injection E as E; rewrite <- !app_assoc in E; simpl in Ta, Tb.
  - destruct Ta as (A & B & C), Tb as (A' & B' & C').
    do 3 (apply tells_element in E; [|assumption..]; destruct E as [-> E]). auto.
  - destruct Ta as (A & B), Tb as (A' & B').
    do 2 (apply tells_element in E; [|assumption..]; destruct E as [-> E]). auto.
  - destruct Ta as (A & B), Tb as (A' & B').
    do 2 (apply tells_element in E; [|assumption..]; destruct E as [-> E]). auto.
Qed.

Lemma hash_value_kind a b : hash_value a = hash_value b <-> same_kind a b.
Proof.
  destruct a, b; simpl; split; intros H; try discriminate; try reflexivity; try constructor; inversion H.
Qed.
