(** * Names are opaque to the stores *)
From Coq Require Import List Arith NArith Bool String Lia.
From Verif Require Import M_Base M_Data M_Mem M_Heed M_Duck S_Order S_Str S_Store S_Equiv S_Rename
  P_Hist P_HeedHist P_Conc P_Equiv P_Rename.
Import ListNotations.
Open Scope list_scope.

(** C96.  Renaming the names in all calls of a history, different names to
    different names, changes nothing but the names: each call answers as before
    (the text of an error may name the collection), and afterwards the reading
    calls show the same, renamed. *)
Theorem C96_mem : forall f h, injective f ->
  Forall2 same_kind (answers_of mem_impl mem_new h) (answers_of mem_impl mem_new (map (ren_op f) h))
  /\ ren_store mem_impl f (after mem_impl mem_new h) (after mem_impl mem_new (map (ren_op f) h)).
Proof.
  intros f h Hf. split; [|apply mem_ren_store, Hf]. apply ren_answers. intros h1 o h2 _. apply mem_ren_step, Hf.
Qed.
Print Assumptions C96_mem.

(** On LMDB the new names must be storable where the old ones were. *)
Theorem C96_lmdb : forall f h, injective f -> (total_weight h < 2 ^ 64)%N ->
  (forall o v, In o h -> op_name o v -> (storable v <-> storable (f v))) ->
  Forall2 same_kind (answers_of heed_impl heed_new h) (answers_of heed_impl heed_new (map (ren_op f) h))
  /\ ren_store heed_impl f (after heed_impl heed_new h) (after heed_impl heed_new (map (ren_op f) h)).
Proof.
  intros f h Hf W F. split; [|apply heed_ren_store; assumption]. apply ren_answers. intros h1 o h2 ->.
  assert (F1 : fits f (h1 ++ [o])).
  { intros x v Hx. apply F. apply in_app_or in Hx as [Hx|[<-|[]]]; apply in_or_app; [left; exact Hx|right; left; reflexivity]. }
  assert (W1 : (total_weight (h1 ++ [o]) < 2 ^ 64)%N).
  { change (o :: h2) with ([o] ++ h2) in W. rewrite app_assoc, total_weight_app in W. lia. }
  assert (W2 : (total_weight h1 < 2 ^ 64)%N) by (rewrite total_weight_app in W1; lia).
  pose proof (heed_ren_step f Hf h1 o F1 W1 (heed_sync_reach f Hf h1 (fits_app f h1 [o] F1) W2)) as E.
  unfold lm in E. rewrite <- E. destruct (fst (call_op heed_impl (after heed_impl heed_new h1) o)) as [[]| |]; constructor.
Qed.
Print Assumptions C96_lmdb.

Theorem C96_duck : forall f h, injective f -> (dtotal h < 2 ^ 63)%N ->
  Forall2 same_kind (answers_of duck_impl duck_new h) (answers_of duck_impl duck_new (map (ren_op f) h))
  /\ ren_store duck_impl f (after duck_impl duck_new h) (after duck_impl duck_new (map (ren_op f) h)).
Proof.
  intros f h Hf W. split; [|apply duck_ren_store_of, duck_sync_reach; assumption]. apply ren_answers. intros h1 o h2 ->.
  assert (W1 : (dtotal (h1 ++ [o]) < 2 ^ 63)%N).
  { change (o :: h2) with ([o] ++ h2) in W. rewrite app_assoc, P_Duck.dtotal_app in W. lia. }
  apply duck_ren_step; [exact Hf|exact W1|]. apply duck_sync_reach; [exact Hf|]. rewrite P_Duck.dtotal_app in W1. lia.
Qed.
Print Assumptions C96_duck.

(** Renaming two names to one is different: removing one then removes the other. *)
Definition rn_h : list op :=
  [OAddColl (lit "n"); OAdd (lit "n") [Trip (lit "a") (lit "b") (lit "c"); Trip (lit "d") (lit "b") (lit "c")];
   ORem (lit "n") [Trip (lit "a") (lit "b") (lit "c")]; ORemColl (lit "m"); OAdd (lit "m") []].
Definition rn_f (v : str) : str := (120 :: v)%N.
Definition rn_g (v : str) : str := if str_eqb v (lit "d") then lit "a" else v.

Example C96_case :
  injective rn_f
  /\ answers_of duck_impl duck_new rn_h = [Ok tt; Ok tt; Ok tt; Ok tt; Err (lit "Collection m not found.")]
  /\ answers_of duck_impl duck_new (map (ren_op rn_f) rn_h) = [Ok tt; Ok tt; Ok tt; Ok tt; Err (lit "Collection xm not found.")]
  /\ answers_of heed_impl heed_new (map (ren_op rn_f) rn_h) = [Ok tt; Ok tt; Ok tt; Panic PTodo; Panic PTodo]
  /\ (forall o v, In o rn_h -> op_name o v -> (storable v <-> storable (rn_f v)))
  /\ t_triples heed_impl (after heed_impl heed_new rn_h) (lit "n") = Ok [Trip (lit "d") (lit "b") (lit "c")]
  /\ t_triples heed_impl (after heed_impl heed_new (map (ren_op rn_f) rn_h)) (lit "xn") = Ok [Trip (lit "xd") (lit "xb") (lit "xc")]
  /\ t_triples heed_impl (after heed_impl heed_new (map (ren_op rn_g) rn_h)) (lit "n") = Ok []
  /\ (total_weight rn_h < 2 ^ 64)%N /\ (dtotal rn_h < 2 ^ 63)%N.
Proof.
  split; [intros a b E; injection E as E; exact E|].
  do 3 (split; [vm_compute; reflexivity|]). split.
  - assert (X : forall v, List.length v = 1 -> Forall (fun c => (c < 128)%N) v -> storable v <-> storable (rn_f v)).
    { intros v L A. destruct v as [|c [|]]; try discriminate L. inversion A; subst. unfold storable, rn_f, utf8. cbn [flat_map].
      assert (E : utf8_char c = [c]) by (unfold utf8_char; destruct (N.ltb_spec c 0x80); [reflexivity|lia]). rewrite E.
      cbn. split; intros _; split; try lia; reflexivity. }
    intros o v Ho Hv. apply X.
    + repeat (destruct Ho as [<-|Ho]; [cbn in Hv|]); try (destruct Ho; fail);
        repeat match goal with
        | H : _ \/ _ |- _ => destruct H
        | H : part_of _ _ |- _ => destruct H as (? & ? & ?)
        | H : In _ _ |- _ => cbn in H
        | H : part _ _ |- _ => destruct H as [|[|]]
        | H : False |- _ => destruct H
        end; subst; reflexivity.
    + repeat (destruct Ho as [<-|Ho]; [cbn in Hv|]); try (destruct Ho; fail);
        repeat match goal with
        | H : _ \/ _ |- _ => destruct H
        | H : part_of _ _ |- _ => destruct H as (? & ? & ?)
        | H : In _ _ |- _ => cbn in H
        | H : part _ _ |- _ => destruct H as [|[|]]
        | H : False |- _ => destruct H
        end; subst; repeat constructor.
  - repeat match goal with |- _ /\ _ => split end; vm_compute; reflexivity.
Qed.
