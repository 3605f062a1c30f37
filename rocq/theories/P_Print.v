(** * Printing tells values apart: proofs *)
From Coq Require Import List Arith NArith Bool Lia String.
From Verif Require Import M_Base M_Data M_Regex M_Lexer M_Graph M_Parser M_Display
  S_Order S_Graph S_Lexer S_Parser S_Display P_Ord P_Agree P_Graph P_Regex P_Lexer P_LexMore P_Parser P_Display.
Import ListNotations.
Open Scope list_scope.

Lemma ptok_inj a b : ptok a = ptok b -> same_name a b.
Proof. unfold ptok. intros E. injection E as E. apply json_body_inj, E. Qed.

Lemma entry_tail_unique e e' r r' : toks_entry e ++ r = toks_entry e' ++ r' -> same_names_entry e e' /\ r = r'.
Proof.
  destruct e as [f s o|a c|a c], e' as [f' s' o'|a' c'|a' c']; cbn [toks_entry app]; intros E;
    injection E; intros; try discriminate; subst; (split; [|reflexivity]);
    constructor; apply ptok_inj; unfold ptok; congruence.
Qed.

Lemma toks_entry_first e : exists s x, toks_entry e = TString s :: x.
Proof. destruct e; eexists _, _; reflexivity. Qed.

Lemma entries_unique : forall n m r r', toks_entries n ++ TCloseBrace :: r = toks_entries m ++ TCloseBrace :: r' ->
  Forall2 same_names_entry n m /\ r = r'.
Proof.
  intros n. induction n as [|e n IH]; intros [|e' m] r r' E.
  - cbn in E. injection E as ->. auto.
  - exfalso. destruct (toks_entry_first e') as (s & x & Ex). destruct m; cbn in E; rewrite Ex in E; discriminate.
  - exfalso. destruct (toks_entry_first e) as (s & x & Ex). destruct n; cbn in E; rewrite Ex in E; discriminate.
  - destruct n as [|e2 n], m as [|e2' m].
    + cbn in E. apply entry_tail_unique in E as [A E]. injection E as ->. auto.
    + change (toks_entries (e' :: e2' :: m)) with (toks_entry e' ++ TComma :: sp :: toks_entries (e2' :: m)) in E.
      rewrite <- app_assoc in E. cbn [toks_entries app] in E. apply entry_tail_unique in E as [_ E]. discriminate.
    + change (toks_entries (e :: e2 :: n)) with (toks_entry e ++ TComma :: sp :: toks_entries (e2 :: n)) in E.
      rewrite <- app_assoc in E. cbn [toks_entries app] in E. apply entry_tail_unique in E as [_ E]. discriminate.
    + change (toks_entries (e :: e2 :: n)) with (toks_entry e ++ TComma :: sp :: toks_entries (e2 :: n)) in E.
      change (toks_entries (e' :: e2' :: m)) with (toks_entry e' ++ TComma :: sp :: toks_entries (e2' :: m)) in E.
      rewrite <- !app_assoc in E. apply entry_tail_unique in E as [A E].
      rewrite <- !app_comm_cons in E. injection E as E. destruct (IH (e2' :: m) r r' E) as [B ->]. auto.
Qed.

Lemma toks_first v : exists t x, toks v = t :: x /\ t <> TCloseParen.
Proof. destruct v; eexists _, _; (split; [reflexivity|discriminate]). Qed.

Lemma toks_unique : forall v w r r', toks v ++ r = toks w ++ r' -> same_names v w /\ r = r'.
Proof.
  intros v. induction v as [e|n|q IH] using value_ind'; intros [f|p|m] r r' E; try discriminate.
  - change (ptok e :: r = ptok f :: r') in E. assert (E1 : ptok e = ptok f) by congruence. assert (E2 : r = r') by congruence.
    split; [constructor; apply ptok_inj, E1|exact E2].
  - change (TOpenBrace :: (toks_entries n ++ [TCloseBrace]) ++ r = TOpenBrace :: (toks_entries m ++ [TCloseBrace]) ++ r') in E.
    injection E as E. rewrite <- !app_assoc in E. apply entries_unique in E as [A ->]. split; [constructor; exact A|reflexivity].
  - rewrite !toks_quote in E. cbn [app] in E. injection E as E. rewrite <- !app_assoc in E. cbn [app] in E.
    assert (K : Forall2 same_names q p /\ r = r'); [|destruct K as [K ->]; split; [constructor; exact K|reflexivity]].
    revert p r r' E. induction IH as [|x q Hx Hq IHq]; intros [|y p] r r' E.
    + cbn in E. injection E as ->. auto.
    + exfalso. cbn [toks_items] in E. destruct (toks_first y) as (t & z & Ez & N). rewrite Ez in E. cbn in E. congruence.
    + exfalso. cbn [toks_items] in E. destruct (toks_first x) as (t & z & Ez & N). rewrite Ez in E. cbn in E. congruence.
    + cbn [toks_items] in E. rewrite <- !app_assoc in E. apply Hx in E as [A E].
      destruct q as [|x2 q], p as [|y2 p].
      * cbn in E. injection E as ->. auto.
      * cbn [app toks_items] in E. discriminate.
      * cbn [app toks_items] in E. discriminate.
      * cbn [app] in E. injection E as E. destruct (IHq (y2 :: p) r r' E) as [B ->]. auto.
Qed.

Lemma display_same v w : display v = display w -> same_names v w.
Proof.
  intros E. pose proof (reads_whole _ _ (reads_display v)) as A. pose proof (reads_whole _ _ (reads_display w)) as B.
  rewrite E, B in A. injection A as A. apply (toks_unique v w [] []). rewrite !app_nil_r. congruence.
Qed.

Lemma Forall2_len {A B} (R : A -> B -> Prop) l m : Forall2 R l m -> List.length l = List.length m.
Proof. induction 1; cbn; congruence. Qed.

Lemma display_entry_same e e' : same_names_entry e e' -> display_entry e = display_entry e'.
Proof. unfold display_entry, display_element. destruct 1; unfold same_name in *; congruence. Qed.

Lemma same_display : forall v w, same_names v w -> display v = display w.
Proof.
  intros v. induction v as [e|n|q IH] using value_ind'; intros w H; inversion H as [? f N|? m F|? p F]; subst.
  - cbn. unfold same_name in N. congruence.
  - cbn [display]. unfold display_network. rewrite (Forall2_len _ _ _ F). do 2 f_equal. generalize 0. generalize (List.length m).
    clear H. intros total. induction F as [|e e' n m A F IHF]; intros i; [reflexivity|]. cbn [display_entries].
    rewrite (display_entry_same e e' A), IHF. reflexivity.
  - rewrite !display_quote. do 2 f_equal. clear H. revert IH. induction F as [|x y q p A F IHF]; intros IH; [reflexivity|].
    inversion IH as [|? ? Hx Hq]; subst. cbn [display_items]. rewrite (Hx y A), (IHF Hq). inversion F; reflexivity.
Qed.

Lemma bare_same a b : bare a -> bare b -> same_name a b -> a = b.
Proof. destruct a, b. unfold bare, same_name. cbn. intuition congruence. Qed.

Lemma bare_entry_same a b : bare_entry a -> bare_entry b -> same_names_entry a b -> a = b.
Proof.
  intros A B H. destruct H; cbn in A, B; intuition (f_equal; apply bare_same; assumption).
Qed.

Lemma bare_names : forall v w, bare_value v -> bare_value w -> same_names v w -> v = w.
Proof.
  intros v. induction v as [e|n|q IH] using value_ind'; intros w A B H; inversion H as [? f N|? m F|? p F]; subst;
    inversion A as [? A1|? A1|? A1]; inversion B as [? B1|? B1|? B1]; subst.
  - f_equal. apply bare_same; assumption.
  - f_equal. clear A B H. revert A1 B1. induction F as [|x y n m R F IHF]; intros Fa Fb; [reflexivity|].
    inversion Fa; inversion Fb; subst. f_equal; [apply bare_entry_same; assumption|auto].
  - f_equal. clear A B H. revert IH A1 B1. induction F as [|x y q p R F IHF]; intros IH Fa Fb; [reflexivity|].
    inversion Fa; inversion Fb; inversion IH; subst. f_equal; auto.
Qed.

(** ** The same for texts with something after them *)

Lemma string_tail a b r r' : json_string a ++ r = json_string b ++ r' -> a = b /\ r = r'.
Proof.
  unfold json_string. cbn [app]. intros E. injection E as E. rewrite <- !app_assoc in E. cbn [app] in E.
  pose proof (body_prefix _ (json_body_string a) _ _ _ (json_body_string b) E) as Eb. rewrite Eb in E.
  apply app_inv_head in E. injection E as ->. split; [apply json_body_inj, Eb|reflexivity].
Qed.

Lemma entry_text_tail e e' r r' : display_entry e ++ r = display_entry e' ++ r' -> same_names_entry e e' /\ r = r'.
Proof.
  destruct e as [f s o|a c|a c], e' as [f' s' o'|a' c'|a' c']; unfold display_entry, display_element; rewrite <- !app_assoc; intros E;
    apply string_tail in E as [A E]; cbn [app] in E; try discriminate.
  - apply (app_inv_head (lit " ")) in E. apply string_tail in E as [B E]. apply (app_inv_head (lit " ")) in E.
    apply string_tail in E as [C E]. split; [constructor; assumption|exact E].
  - apply (app_inv_head (lit " : ")) in E. apply string_tail in E as [C E]. split; [constructor; assumption|exact E].
  - apply (app_inv_head (lit " " ++ role_not_extends ++ lit " ")) in E. apply string_tail in E as [C E]. split; [constructor; assumption|exact E].
Qed.

Fixpoint show_entries (es : list entry) : str :=
  match es with
  | [] => []
  | [e] => display_entry e
  | e :: rest => display_entry e ++ lit ", " ++ show_entries rest
  end.

Lemma show_entries_eq : forall es i total, total = i + List.length es -> display_entries total i es = show_entries es.
Proof.
  induction es as [|e es IH]; intros i total E; [reflexivity|]. cbn [display_entries]. destruct es as [|e2 es].
  - simpl in E. assert (Nat.ltb (S i) total = false) as -> by (apply Nat.ltb_ge; lia). cbn. apply app_nil_r.
  - assert (Nat.ltb (S i) total = true) as -> by (apply Nat.ltb_lt; simpl in E; lia).
    rewrite (IH (S i) total) by (simpl in *; lia). reflexivity.
Qed.

Lemma entries_text_tail : forall n m r r', show_entries n ++ 125%N :: r = show_entries m ++ 125%N :: r' -> r = r'.
Proof.
  intros n. induction n as [|e n IH]; intros [|e' m] r r' E.
  - cbn in E. injection E as ->. auto.
  - exfalso. destruct (display_entry_first e') as (x & Ex). destruct m; cbn in E; rewrite Ex in E; discriminate.
  - exfalso. destruct (display_entry_first e) as (x & Ex). destruct n; cbn in E; rewrite Ex in E; discriminate.
  - destruct n as [|e2 n], m as [|e2' m].
    + cbn in E. apply entry_text_tail in E as [A E]. injection E as ->. auto.
    + change (show_entries (e' :: e2' :: m)) with (display_entry e' ++ lit ", " ++ show_entries (e2' :: m)) in E.
      rewrite <- app_assoc in E. cbn [show_entries] in E. apply entry_text_tail in E as [_ E]. discriminate.
    + change (show_entries (e :: e2 :: n)) with (display_entry e ++ lit ", " ++ show_entries (e2 :: n)) in E.
      rewrite <- app_assoc in E. cbn [show_entries] in E. apply entry_text_tail in E as [_ E]. discriminate.
    + change (show_entries (e :: e2 :: n)) with (display_entry e ++ lit ", " ++ show_entries (e2 :: n)) in E.
      change (show_entries (e' :: e2' :: m)) with (display_entry e' ++ lit ", " ++ show_entries (e2' :: m)) in E.
      rewrite <- !app_assoc in E. apply entry_text_tail in E as [A E].
      apply (app_inv_head (lit ", ")) in E. apply (IH (e2' :: m) r r' E).
Qed.

Lemma display_start v : exists c x, display v = c :: x /\ In c [34; 40; 123]%N.
Proof. destruct v; eexists _, _; (split; [reflexivity|cbn; tauto]). Qed.

Lemma display_tail : forall v w r r', display v ++ r = display w ++ r' -> r = r'.
Proof.
  intros v. induction v as [e|n|q IH] using value_ind'; intros [f|p|m] r r' E; try discriminate.
  - apply string_tail in E. apply E.
  - cbn [display] in E. unfold display_network in E. rewrite !(show_entries_eq _ 0) in E by reflexivity.
    rewrite <- !app_assoc in E. apply (app_inv_head (lit "{")) in E. apply (entries_text_tail n m r r' E).
  - rewrite !display_quote in E. rewrite <- !app_assoc in E. apply (app_inv_head (lit "(")) in E.
    revert p r r' E. induction IH as [|x q Hx Hq IHq]; intros [|y p] r r' E.
    + exact (app_inv_head (lit ")") _ _ E).
    + exfalso. cbn [display_items] in E. destruct (display_start y) as (c & z & Ez & N). rewrite Ez in E.
      change (lit ")") with [41%N] in E. cbn [app] in E. injection E as K _. subst c. cbn in N. intuition discriminate.
    + exfalso. cbn [display_items] in E. destruct (display_start x) as (c & z & Ez & N). rewrite Ez in E.
      change (lit ")") with [41%N] in E. cbn [app] in E. injection E as K _. subst c. cbn in N. intuition discriminate.
    + cbn [display_items] in E. rewrite <- !app_assoc in E. apply Hx in E. destruct q as [|x2 q], p as [|y2 p].
      * exact (app_inv_head (lit ")") _ _ E).
      * discriminate.
      * discriminate.
      * apply (app_inv_head (lit " ")) in E. apply (IHq (y2 :: p) r r' E).
Qed.

Lemma display_prefix v w x : display w = display v ++ x -> x = [].
Proof. intros E. rewrite <- (app_nil_r (display w)) in E. apply display_tail in E. congruence. Qed.
