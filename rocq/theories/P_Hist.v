(** * Histories: how [live] and [added] change with the last call *)
From Coq Require Import List NArith Bool.
From Verif Require Import M_Base M_Data S_Order P_Ord S_Store.
Import ListNotations.
Open Scope list_scope.

(** Splitting [h ++ [o]] around one call. *)
Lemma snoc_split {A} (h h1 h2 : list A) (o a : A) :
  h ++ [o] = h1 ++ a :: h2 ->
  (h2 = [] /\ h1 = h /\ a = o) \/ (exists h2', h2 = h2' ++ [o] /\ h = h1 ++ a :: h2').
Proof.
  destruct h2 as [|b h2] using rev_ind; intros E.
  - apply app_inj_tail in E. left. destruct E; auto.
  - right. clear IHh2. rewrite app_comm_cons, app_assoc in E. apply app_inj_tail in E as [-> ->]. eauto.
Qed.

Lemma op_dec (a b : op) : {a = b} + {a <> b}.
Proof.
  decide equality; try apply str_dec; apply (list_eq_dec trip_dec).
Qed.

Lemma live_nil c : ~ live [] c.
Proof. intros (h1 & h2 & E & _). destruct h1; discriminate. Qed.

Lemma live_snoc h o c :
  live (h ++ [o]) c <-> o = OAddColl c \/ (live h c /\ o <> ORemColl c).
Proof.
  split.
  - intros (h1 & h2 & E & Hn). apply snoc_split in E as [(-> & -> & <-)|(h2' & -> & ->)]; [auto|].
    right. split.
    + exists h1, h2'. split; [reflexivity|]. intros H. apply Hn, in_or_app. auto.
    + intros ->. apply Hn, in_or_app. right; left; reflexivity.
  - intros [->|[(h1 & h2 & -> & Hn) Ho]].
    + exists h, []. split; [reflexivity|intros []].
    + exists h1, (h2 ++ [o]). rewrite <- app_assoc. split; [reflexivity|].
      intros H. apply in_app_or in H as [H|[H|[]]]; auto.
Qed.

Lemma added_nil kills c t : ~ added kills [] c t.
Proof. intros (h1 & ts & h2 & E & _). destruct h1; discriminate. Qed.

Lemma added_snoc kills h o c t :
  added kills (h ++ [o]) c t
  <-> (exists ts, o = OAdd c ts /\ In t ts /\ live h c) \/ (added kills h c t /\ ~ kills o).
Proof.
  split.
  - intros (h1 & ts & h2 & E & Ht & Hl & Hk).
    apply snoc_split in E as [(-> & -> & <-)|(h2' & -> & ->)]; [left; eauto|].
    right. split.
    + exists h1, ts, h2'. repeat split; auto. intros o' Ho'. apply Hk, in_or_app; auto.
    + apply Hk, in_or_app. right; left; reflexivity.
  - intros [(ts & -> & Ht & Hl)|[(h1 & ts & h2 & -> & Ht & Hl & Hk) Ho]].
    + exists h, ts, []. repeat split; auto; intros ? [].
    + exists h1, ts, (h2 ++ [o]). rewrite <- app_assoc. repeat split; auto.
      intros o' Ho'. apply in_app_or in Ho' as [H|[<-|[]]]; auto.
Qed.

(** What is in a collection implies that the collection is live (for kill sets
    that include removing the collection). *)
Lemma added_live (kills : op -> Prop) h c t : (kills (ORemColl c)) -> added kills h c t -> live h c.
Proof.
  intros Hr. induction h as [|o h IH] using rev_ind; intros H.
  - exfalso. exact (added_nil _ _ _ H).
  - apply added_snoc in H. apply live_snoc. right.
    destruct H as [(ts & -> & Ht & Hl)|[H Hk]].
    + split; [assumption|discriminate].
    + split; [auto|]. intros ->. auto.
Qed.

Section Impl.
  Context {S : Type} (I : trips_impl S).

  Lemma after_app s h1 h2 : after I s (h1 ++ h2) = after I (after I s h1) h2.
  Proof. revert s. induction h1 as [|o h1 IH]; simpl; intros s; [reflexivity|apply IH]. Qed.

  Lemma after_snoc s h o : after I s (h ++ [o]) = snd (call_op I (after I s h) o).
  Proof. rewrite after_app. reflexivity. Qed.

  Lemma acked_app s h1 h2 : acked I s (h1 ++ h2) = acked I s h1 ++ acked I (after I s h1) h2.
  Proof.
    revert s. induction h1 as [|o h1 IH]; simpl; intros s; [reflexivity|].
    destruct (call_op I s o) as [[a|e|w] s'] eqn:E; simpl; rewrite IH; reflexivity.
  Qed.

  Lemma acked_snoc s h o :
    acked I s (h ++ [o])
    = acked I s h ++ match fst (call_op I (after I s h) o) with Ok _ => [o] | _ => [] end.
  Proof.
    rewrite acked_app. f_equal. simpl. destruct (call_op I (after I s h) o) as [[| |] ?]; reflexivity.
  Qed.
End Impl.

(** Closing concrete examples. *)
Lemma live_in h c : live h c -> In (OAddColl c) h.
Proof. intros (h1 & h2 & -> & _). apply in_or_app. right; left; reflexivity. Qed.

Ltac not_in := intros H; vm_compute in H; repeat (destruct H as [H|H]; [discriminate H|]); destruct H.
