(** * Proofs: what is made of text is text *)
From Coq Require Import List Arith NArith Bool String Lia.
From Verif Require Import M_Base M_Data M_Regex M_Lexer M_Graph M_Parser M_Display M_Interp M_Debug
  S_Order S_Str S_Store S_Graph S_Lexer S_Parser S_Display S_GraphHist S_Names S_Errors P_Display P_Names P_Bytes P_Debug.
Import ListNotations.
Open Scope list_scope.

Lemma documented_valid n : documented n -> valid_str n.
Proof.
  intros [->|(name & c & Hi & Hd)]; [apply lit_valid|]. revert Hi Hd.
  unfold common. intros Hi Hd. repeat (destruct Hi as [E|Hi]; [injection E as <- <-; destruct Hd as [->| ->]; apply lit_valid|]).
  destruct Hi.
Qed.

(** Each token is a piece of the script. *)
Lemma token_piece x ts : lexes x ts -> forall t, In t ts -> exists y p q, lexeme t y /\ x = p ++ y ++ q.
Proof.
  induction 1 as [|s t y rest ts [E [Hx _]] _ IH]; intros t' [].
  - subst. exists y, [], rest. auto.
  - destruct (IH t' H) as (y' & p & q & Hx' & E'). exists y', (y ++ p), q. split; [exact Hx'|]. rewrite E, E', app_assoc. reflexivity.
Qed.

Lemma lexed_valid x ts : valid_str x -> lexes x ts -> Forall valid_token ts.
Proof.
  intros V L. apply Forall_forall. intros t Ht. destruct (token_piece _ _ L t Ht) as (y & p & q & Hy & ->).
  apply Forall_app in V as [_ V]. apply Forall_app in V as [V _].
  destruct Hy; cbn; try exact Logic.I; try exact V; try (split; [exact V|split; exact Logic.I]).
  inversion V as [|? ? _ V']; subst. apply Forall_app in V' as [V' _]. exact V'.
Qed.

Lemma said_valid x n : valid_str x -> said x n -> valid_str n.
Proof.
  intros V (ts & L & H). pose proof (lexed_valid _ _ V L) as F. rewrite Forall_forall in F.
  destruct H as [H|H]; specialize (F _ H); [exact F|exact (proj1 F)].
Qed.

Lemma kept_valid ts kept : keeps ts kept -> Forall valid_token ts -> Forall valid_token kept.
Proof.
  induction 1 as [|s ts k _ IH|s ts k _ IH|b ts k _ IH|t ts k _ _ _ _ IH]; intros F; inversion F; subst; auto.
  constructor; [|auto]. split; [assumption|split; exact Logic.I].
Qed.

Lemma stray_peek_valid ts next : stray_in ts next -> Forall valid_token ts -> valid_peek next.
Proof.
  intros (p & cs & pre & vs & t & rest & -> & _ & _ & _ & ->) F.
  apply Forall_app in F as [_ F]. apply Forall_app in F as [_ F]. inversion F as [|? ? _ F2]; subst.
  destruct rest as [|u rest]; [exact Logic.I|]. inversion F2; subst. assumption.
Qed.

Lemma display_valid v : (forall n, named v n -> valid_str n) -> valid_str (display v).
Proof.
  intros HN.
  assert (HE : forall e, (forall n, names_of e n -> valid_str n) -> valid_str (display_entry e)).
  { intros e He. unfold names_of in He. destruct e; cbn [display_entry]; unfold display_element; cbn [subject object role_name] in He;
      repeat (apply valid_app); try apply lit_valid; try (apply json_valid, He; auto).
    unfold role_not_extends. apply ascii_valid. repeat constructor; lia. }
  induction v as [e|n|q IH] using value_ind'.
  - apply json_valid. apply HN. constructor.
  - cbn [display]. unfold display_network. apply valid_app; [apply lit_valid|]. apply valid_app; [|apply lit_valid].
    assert (HN' : forall e m, In e n -> names_of e m -> valid_str m) by (intros e m He Hm; apply HN; econstructor; eassumption).
    clear HN. generalize 0 as i. generalize (List.length n) as total. induction n as [|e n IHn]; intros total i; [constructor|]. cbn [display_entries].
    apply valid_app; [apply HE; intros m; apply HN'; left; reflexivity|].
    apply valid_app; [destruct (Nat.ltb (Datatypes.S i) total); [apply lit_valid|constructor]|].
    apply IHn. intros e' m He. apply HN'. right. exact He.
  - rewrite display_quote. apply valid_app; [apply lit_valid|]. apply valid_app; [|apply lit_valid].
    induction IH as [|x q Hx _ IHq]; [constructor|]. cbn [display_items]. apply valid_app.
    + apply Hx. intros n Hn. apply HN. econstructor; [left; reflexivity|exact Hn].
    + apply valid_app; [destruct q; [constructor|apply lit_valid]|]. apply IHq.
      intros n Hn. inversion Hn; subst. apply HN. econstructor; [right; eassumption|assumption].
Qed.

Lemma explained_valid shown script present e : valid_str script -> explained script valid_str present e ->
  valid_str (error_text shown e).
Proof.
  intros V H. destruct H; cbn [error_text].
  - apply lit_valid.
  - apply valid_app; [apply lit_valid|]. apply dpeek_valid. eapply stray_peek_valid; [eassumption|].
    eapply kept_valid; [eassumption|]. eapply lexed_valid; eassumption.
  - apply valid_app; [apply lit_valid|]. eapply said_valid; eassumption.
  - unfold usage in H. apply in_map_iff in H as (s & <- & _). apply lit_valid.
  - apply lit_valid.
  - apply valid_app; [apply lit_valid|]. apply valid_app; [apply display_valid; assumption|].
    apply valid_app; [apply lit_valid|apply display_valid; assumption].
  - apply valid_app; [apply lit_valid|]. apply valid_app; [eapply said_valid; eassumption|apply lit_valid].
Qed.
