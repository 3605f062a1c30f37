(** * Any damage is explained by a clean history (LMDB) *)
From Coq Require Import List Arith NArith Bool String Lia.
From Verif Require Import M_Base M_Data M_Heed M_Txn M_Open S_Order S_Str S_Store S_Txn S_Open S_Trouble P_Hist P_Txn P_Open Prop_Heed.
Import ListNotations.
Open Scope list_scope.

Lemma in_trouble t d o : let (r, d') := call_op (with_trouble t) d o in
  (r = Ok tt /\ call_op heed_impl d o = (Ok tt, d')) \/ (r = Ok tt /\ t <> Fine /\ d' = d) \/ (r <> Ok tt /\ d' = d).
Proof.
  assert (Ok_or : forall r d', call_op heed_impl d o = (r, d') ->
            (r = Ok tt /\ call_op heed_impl d o = (Ok tt, d')) \/ (r <> Ok tt /\ d' = d)).
  { intros r d' E. destruct r as [[]|e|w]; [left; auto| |]; right; (split; [discriminate|]); apply (heed_not_ok_unchanged _ _ _ _ E); discriminate. }
  destruct (call_op (with_trouble t) d o) as [r d'] eqn:E. destruct t as [| |j|opens]; cbn [with_trouble] in E.
  - destruct (Ok_or _ _ E) as [H|H]; auto.
  - right. pose proof (failed_commit d o) as F. rewrite E in F. cbn in F. subst d'.
    destruct r as [[]|e|w]; [left; repeat split; discriminate|right; split; [discriminate|reflexivity]..].
  - destruct (write_failure d o) as (n & _ & A & C). destruct (le_lt_dec n j) as [L|L].
    + rewrite (A j L) in E. destruct (Ok_or _ _ E) as [H|H]; auto.
    + destruct (C j L) as [H|[w H]]; rewrite H in E; injection E as <- <-.
      * right. left. repeat split. discriminate.
      * right. right. split; [discriminate|reflexivity].
  - destruct (gated_call opens d o) as [H|[w H]].
    + rewrite H in E. destruct (Ok_or _ _ E) as [X|X]; auto.
    + rewrite H in E. injection E as <- <-. right. right. split; [discriminate|reflexivity].
Qed.

Lemma explained h : forall d, exists g, clean h (answers_t d h) g /\ after_t d h = after heed_impl d g /\ acked heed_impl d g = g.
Proof.
  induction h as [|[o t] h IH]; intros d; cbn [answers_t after_t].
  - exists []. repeat split. constructor.
  - pose proof (in_trouble t d o) as T. destruct (call_op (with_trouble t) d o) as [r d'] eqn:E. cbn [fst snd].
    destruct T as [[-> H]|[(-> & N & ->)|[N ->]]].
    + destruct (IH d') as (g & C & A & K). exists (o :: g). split; [constructor; exact C|]. cbn [after acked]. rewrite H. cbn [snd].
      split; [exact A|]. rewrite K. reflexivity.
    + destruct (IH d) as (g & C & A & K). exists g. split; [apply cl_lost; assumption|]. auto.
    + destruct (IH d) as (g & C & A & K). exists g. split; [apply cl_refused; assumption|]. auto.
Qed.

(** C106.  Whatever goes wrong in whichever calls - commits, single writes, tables
    that do not open - the file is the one an untroubled store has after some of
    these calls, all of which it acknowledges: none that was not answered Ok, and
    every one that was answered Ok without trouble.  So whatever holds of every
    untroubled history holds of every troubled one. *)
Theorem C106_clean_history : forall h, exists g,
  clean h (answers_t heed_new h) g
  /\ after_t heed_new h = after heed_impl heed_new g
  /\ acked heed_impl heed_new g = g.
Proof. intros h. apply explained. Qed.
Print Assumptions C106_clean_history.

(** In particular its contents are the contract's meaning of those calls. *)
Theorem C106_contents : forall h, (forall c t, In (OAddColl c, t) h -> storable c) -> exists g,
  clean h (answers_t heed_new h) g
  /\ let d := after_t heed_new h in
     (exists l, t_collections heed_impl d = Ok l /\ is_set str_lt l /\ forall c, In c l <-> live g c)
     /\ (forall c, live g c ->
         exists l, t_triples heed_impl d c = Ok l /\ is_set trip_lt l /\ forall t, In t l <-> holds_after g c t)
     /\ (forall c, ~ live g c -> exists w, t_triples heed_impl d c = Panic w).
Proof.
  intros h Hs. destruct (C106_clean_history h) as (g & C & A & K). exists g. split; [exact C|].
  destruct (C15_heed_contents_by_history g) as (X & Y & Z).
  - assert (P : forall o, In o g -> exists t, In (o, t) h).
    { clear - C. revert C. generalize (answers_t heed_new h) as rs. intros rs C. induction C as [|o t h rs g C IH|o t h rs g _ C IH|o t r h rs g _ C IH]; intros x Hx.
      - destruct Hx.
      - destruct Hx as [<-|Hx]; [exists t; left; reflexivity|]. destruct (IH x Hx) as [t' Ht]. exists t'. right. exact Ht.
      - destruct (IH x Hx) as [t' Ht]. exists t'. right. exact Ht.
      - destruct (IH x Hx) as [t' Ht]. exists t'. right. exact Ht. }
    intros c Hc. destruct (P _ Hc) as [t Ht]. exact (Hs c t Ht).
  - rewrite K in X, Y, Z. rewrite A. auto.
Qed.
Print Assumptions C106_contents.

(** A call in each kind of trouble; only the first addition is there afterwards. *)
Example C106_case :
  let add x := OAdd (lit "n") [Trip x x x] in
  let h := [(OAddColl (lit "n"), Fine); (add (lit "a"), Fine); (add (lit "b"), CommitFails); (add (lit "c"), WriteFails 4);
            (add (lit "d"), CannotOpen (fun _ => Some PUnwrap)); (add (lit "e"), WriteFails 99)] in
  (forall c t, In (OAddColl c, t) h -> storable c)
  /\ answers_t heed_new h = [Ok tt; Ok tt; Ok tt; Panic PUnwrap; Panic PUnwrap; Ok tt]
  /\ t_triples heed_impl (after_t heed_new h) (lit "n") = Ok [Trip (lit "a") (lit "a") (lit "a"); Trip (lit "e") (lit "e") (lit "e")].
Proof.
  split.
  - intros c t [H|[H|[H|[H|[H|[H|[]]]]]]]; try discriminate H.
    injection H as <- <-. vm_compute. split; [constructor|discriminate].
  - split; vm_compute; reflexivity.
Qed.
