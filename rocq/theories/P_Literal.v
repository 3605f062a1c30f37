(** * The [{:?}] texts are Rust literals *)
From Coq Require Import List Arith NArith Bool String Lia.
From Verif Require Import M_Base M_Data M_Regex M_Lexer M_Display M_Debug S_Str S_Errors P_Bytes P_Debug.
Import ListNotations.
Open Scope list_scope.

Lemma figure d : (d < 16)%N -> hex_figure d (hex_digit d).
Proof.
  intros H. unfold hex_digit. destruct (N.ltb_spec d 10); [constructor; assumption|].
  replace d with (10 + (d - 10))%N at 1 by lia. replace (87 + d)%N with (97 + (d - 10))%N by lia. constructor. lia.
Qed.

Lemma hexval_snoc l d : hexval (l ++ [d]) = (hexval l * 16 + d)%N.
Proof. unfold hexval. rewrite fold_left_app. reflexivity. Qed.

Lemma hexval_pos l : forall a, (0 < a)%N -> (0 < fold_left (fun acc d => acc * 16 + d)%N l a)%N.
Proof. induction l as [|d l IH]; intros a H; [exact H|]. cbn [fold_left]. apply IH. lia. Qed.

Lemma digits_number l : forall d, (d <> 0)%N -> Forall (fun d => (d < 16)%N) (d :: l) ->
  hex_number (hexval (d :: l)) (map hex_digit (d :: l)).
Proof.
  induction l as [|x l IH] using rev_ind; intros d Hd Hf.
  - inversion Hf; subst. unfold hexval. cbn [fold_left map]. replace (0 * 16 + d)%N with d by lia. constructor. apply figure. assumption.
  - rewrite app_comm_cons, hexval_snoc, map_app, N.mul_comm. cbn [map]. rewrite app_comm_cons in Hf. apply Forall_app in Hf as [H1 H2].
    inversion H2; subst. constructor; [apply IH; assumption| |apply figure; assumption].
    unfold hexval. cbn [fold_left]. pose proof (hexval_pos l (0 * 16 + d)%N ltac:(lia)). lia.
Qed.

Lemma strip_form l : l <> [] -> (exists d, strip_zeros l = [d]) \/ exists d r, strip_zeros l = d :: r /\ d <> 0%N.
Proof.
  induction l as [|d r IH]; [congruence|]. intros _. cbn [strip_zeros]. destruct r as [|e r']; [left; eauto|].
  destruct (N.eqb_spec d 0); [apply IH; discriminate|right; eauto].
Qed.

Lemma hex_is_number c : (c < 16 ^ 6)%N -> hex_number c (hex c).
Proof.
  intros H. unfold hex. pose proof (strip_small _ (hex_digits_small c)) as F.
  assert (V : hexval (strip_zeros (hex_digits c)) = c) by (rewrite strip_val; apply digits_val, H).
  destruct (strip_form (hex_digits c)) as [[d E]|(d & r & E & Hd)]; [unfold hex_digits; discriminate| |]; rewrite E in *.
  - unfold hexval in V. cbn [fold_left] in V. rewrite <- V. cbn [map]. inversion F; subst.
    replace (0 * 16 + d)%N with d by lia. constructor. apply figure. assumption.
  - rewrite <- V. apply digits_number; assumption.
Qed.

Section Shown.
  Context (shown : N -> bool).

  Lemma debug_char_literal c s l : (c < 16 ^ 6)%N -> literal s l -> literal (c :: s) (debug_char shown c ++ l).
  Proof.
    intros Hc H. unfold debug_char.
    destruct (N.eqb_spec c 0) as [->|H0]; [apply (li_nul _ _ H)|].
    destruct (N.eqb_spec c 9) as [->|H9]; [apply (li_tab _ _ H)|].
    destruct (N.eqb_spec c 10) as [->|H10]; [apply (li_newline _ _ H)|].
    destruct (N.eqb_spec c 13) as [->|H13]; [apply (li_return _ _ H)|].
    destruct (N.eqb_spec c 34) as [->|H34]; [apply (li_quote _ _ H)|].
    destruct (N.eqb_spec c 92) as [->|H92]; [apply (li_backslash _ _ H)|].
    destruct ((N.leb 32 c && N.leb c 126) || (N.leb 128 c && shown c)) eqn:E.
    - apply orb_true_iff in E as [E|E]; apply andb_true_iff in E as [E _]; apply N.leb_le in E; apply (li_plain c); try assumption; lia.
    - pose proof (li_unicode c (hex c) s l (hex_is_number c Hc) H) as K.
      change (lit "\u{") with [92; 117; 123]%N in K. change (lit "}") with [125%N] in K. rewrite <- !app_assoc. exact K.
  Qed.

  Lemma debug_str_quoted s : valid_str s -> quoted s (debug_str shown s).
  Proof.
    intros V. apply valid_small in V. unfold debug_str. apply (quoted_literal s (flat_map (debug_char shown) s)).
    induction V as [|c s Hc _ IH]; [constructor|]. cbn [flat_map]. apply debug_char_literal; assumption.
  Qed.

  Lemma debug_opt_shown ty o : valid_opt o -> maybe_shown ty o (debug_opt shown ty o).
  Proof. destruct o as [s|]; intros V; [|constructor]. cbn [debug_opt]. constructor. apply debug_str_quoted, V. Qed.

  Lemma debug_token_shown t : valid_token t -> token_shown t (debug_token shown t).
  Proof.
    destruct t as [s|s| | | | | | |[n ns lang]| | |s]; intros V; cbn [debug_token]; try (constructor; apply debug_str_quoted; exact V); try constructor.
    destruct V as (V1 & V2 & V3). cbn [el_name el_ns el_lang] in *. unfold debug_element. cbn [el_name el_ns el_lang].
    pose proof (ts_element n ns lang _ _ _ (debug_str_quoted n V1) (debug_opt_shown (lit "Namespace") ns V2) (debug_opt_shown (lit "LangTag") lang V3)) as K.
    match type of K with token_shown _ ?x => match goal with |- token_shown _ ?y => replace y with x; [exact K|] end end.
    change (lit "Element(Element(") with (lit "Element(" ++ lit "Element("). change (lit "))") with (lit ")" ++ lit ")").
    rewrite <- !app_assoc. reflexivity.
  Qed.

  Lemma debug_peek_message o : valid_peek o -> parse_message o (error_text shown (WParse o)).
  Proof.
    destruct o as [t|]; intros V; cbn [error_text debug_peek]; [|constructor].
    pose proof (pm_token t _ (debug_token_shown t V)) as K.
    change (lit "Error parsing Some(") with (lit "Error parsing " ++ lit "Some(") in K. rewrite <- app_assoc in K. exact K.
  Qed.
End Shown.

(** ** A literal denotes one string *)
Lemma figure_fun d e c : hex_figure d c -> hex_figure e c -> d = e.
Proof. intros H H'. inversion H; inversion H'; subst; lia. Qed.

Lemma number_fun n l : hex_number n l -> forall m, hex_number m l -> n = m.
Proof.
  induction 1 as [d c H|n l d c H IH Hn Hf]; intros m Hm.
  - inversion Hm as [d' c' H' E1 E2|n' l' d' c' H' Hn' Hf' E1 E2]; subst; [eapply figure_fun; eassumption|].
    destruct l' as [|x l']; [inversion H'; subst; destruct l; discriminate|]. destruct l'; discriminate.
  - inversion Hm as [d' c' H' E1 E2|n' l' d' c' H' Hn' Hf' E1 E2]; subst.
    + destruct l as [|x l]; [inversion H; subst; destruct l; discriminate|]. destruct l; discriminate.
    + apply app_inj_tail in E2 as [-> ->]. rewrite (IH _ H'). f_equal. eapply figure_fun; eassumption.
Qed.

Lemma number_figures n l : hex_number n l -> ~ In 125%N l.
Proof.
  assert (F : forall d c, hex_figure d c -> c <> 125%N) by (intros d c H; inversion H; lia).
  induction 1 as [d c H|n l d c H IH Hn Hf]; intros K.
  - destruct K as [K|[]]. exact (F _ _ H K).
  - apply in_app_or in K as [K|[K|[]]]; [exact (IH K)|exact (F _ _ Hf K)].
Qed.

Lemma upto_brace : forall x y l m : str, ~ In 125%N x -> ~ In 125%N y -> x ++ 125%N :: l = y ++ 125%N :: m -> x = y /\ l = m.
Proof.
  induction x as [|a x IH]; intros [|b y] l m Hx Hy E; cbn in E; [injection E as ->; auto|injection E as E1 E2; subst ..].
  - exfalso. apply Hy. left. reflexivity.
  - exfalso. apply Hx. left. reflexivity.
  - destruct (IH y l m) as [-> ->]; auto; intros K; [apply Hx|apply Hy]; right; exact K.
Qed.

Lemma literal_fun s l : literal s l -> forall s', literal s' l -> s = s'.
Proof.
  induction 1 as [|c s l H1 H2 H3 H IH|s l H IH|s l H IH|s l H IH|s l H IH|s l H IH|s l H IH|c x s l Hn H IH]; intros s' H';
    inversion H'; subst; try congruence; try (f_equal; auto; fail).
  match goal with Hm : hex_number ?d ?y, E : ?y ++ _ = x ++ _ |- _ =>
    change (y ++ 125%N :: l0 = x ++ 125%N :: l) in E;
    destruct (upto_brace y x l0 l (number_figures _ _ Hm) (number_figures _ _ Hn) E) as [-> ->];
    rewrite (number_fun _ _ Hn _ Hm) end.
  f_equal. apply IH. assumption.
Qed.

Lemma quoted_fun s q : quoted s q -> forall s', quoted s' q -> s = s'.
Proof.
  intros [s1 l H] s' H'. inversion H' as [s2 l' H2 E1 E]. subst. apply app_inv_tail in E. subst. eapply literal_fun; eassumption.
Qed.
