(** * Collections do not interfere *)
From Coq Require Import List NArith Bool Arith Lia String.
From Verif Require Import M_Base M_Data M_Mem M_Heed M_Duck S_Order S_Str S_Store S_Interp S_Frame P_Ord P_Hist P_Mem P_Frame.
Import ListNotations.
Open Scope list_scope.

(** C81.  What the calls on a collection answered, and what is seen of it now, is
    what it would be had no call on another collection ever been made. *)
Theorem C81_mem : forall h c,
  let h' := calls_on c h in
  answers_on mem_impl mem_new c h = answers_on mem_impl mem_new c h'
  /\ same_at mem_impl (after mem_impl mem_new h) (after mem_impl mem_new h') c.
Proof. exact mem_frame. Qed.
Print Assumptions C81_mem.

Theorem C81_duck : forall h c, (dtotal h < 2 ^ 63)%N ->
  let h' := calls_on c h in
  answers_on duck_impl duck_new c h = answers_on duck_impl duck_new c h'
  /\ same_at duck_impl (after duck_impl duck_new h) (after duck_impl duck_new h') c.
Proof. exact duck_frame. Qed.
Print Assumptions C81_duck.

Theorem C81_heed : forall h c, (total_weight h < 2 ^ 64)%N -> knows_own c h ->
  let h' := calls_on c h in
  answers_on heed_impl heed_new c h = answers_on heed_impl heed_new c h'
  /\ same_at heed_impl (after heed_impl heed_new h) (after heed_impl heed_new h') c.
Proof. exact heed_frame. Qed.
Print Assumptions C81_heed.

(** On LMDB [knows_own] cannot be left out: collections share one dictionary, and
    removing a triple with a word that is not in it panics. *)
Theorem C81_heed_removal_leaks : exists h c,
  (total_weight h < 2 ^ 64)%N
  /\ answers_on heed_impl heed_new c h = [Ok tt; Ok tt]
  /\ answers_on heed_impl heed_new c (calls_on c h) = [Ok tt; Panic PTodo].
Proof.
  exists [OAddColl (lit "n"); OAddColl (lit "m"); OAdd (lit "m") [Trip (lit "a") (lit "b") (lit "c")];
          ORem (lit "n") [Trip (lit "a") (lit "b") (lit "c")]], (lit "n").
  split; [|split]; vm_compute; reflexivity.
Qed.
Print Assumptions C81_heed_removal_leaks.

(** So calls on different collections may be reordered: two histories with, for
    every collection, the same calls on it in the same order, answer the same and
    look the same. *)
Theorem C81_reorder : forall h h', (forall c, calls_on c h = calls_on c h') ->
  (after mem_impl mem_new h = after mem_impl mem_new h'
   /\ forall c, answers_on mem_impl mem_new c h = answers_on mem_impl mem_new c h')
  /\ ((dtotal h < 2 ^ 63)%N -> (dtotal h' < 2 ^ 63)%N -> forall c,
      answers_on duck_impl duck_new c h = answers_on duck_impl duck_new c h'
      /\ same_at duck_impl (after duck_impl duck_new h) (after duck_impl duck_new h') c)
  /\ ((total_weight h < 2 ^ 64)%N -> (total_weight h' < 2 ^ 64)%N -> forall c, knows_own c h -> knows_own c h' ->
      answers_on heed_impl heed_new c h = answers_on heed_impl heed_new c h'
      /\ same_at heed_impl (after heed_impl heed_new h) (after heed_impl heed_new h') c).
Proof.
  assert (T : forall S (I : trips_impl S) a b d c, same_at I a b c -> same_at I d b c -> same_at I a d c).
  { intros S I a b d c (H1 & H2 & H3) (K1 & K2 & K3). split; [rewrite H1; symmetry; exact K1|]. split; [congruence|].
    intros p. rewrite H3, K3. reflexivity. }
  intros h h' E. split; [|split].
  - split.
    + apply mem_ext; [apply mem_inv_reach..|]. intros c.
      destruct (mem_frame h c) as [_ F]. destruct (mem_frame h' c) as [_ F']. cbn zeta in F, F'. rewrite <- E in F'.
      destruct (T _ _ _ _ _ _ F F') as (_ & H & _). cbn in H. unfold mem_triples in H.
      destruct (bm_get str_cmp c (after mem_impl mem_new h)), (bm_get str_cmp c (after mem_impl mem_new h')); congruence.
    + intros c. destruct (mem_frame h c) as [F _]. destruct (mem_frame h' c) as [F' _]. cbn zeta in F, F'. rewrite <- E in F'. congruence.
  - intros W W' c. destruct (duck_frame h c W) as [F K]. destruct (duck_frame h' c W') as [F' K']. cbn zeta in *. rewrite <- E in F', K'.
    split; [congruence|exact (T _ _ _ _ _ _ K K')].
  - intros W W' c H1 H2. destruct (heed_frame h c W H1) as [F K]. destruct (heed_frame h' c W' H2) as [F' K']. cbn zeta in *. rewrite <- E in F', K'.
    split; [congruence|exact (T _ _ _ _ _ _ K K')].
Qed.
Print Assumptions C81_reorder.

(** Two clients' calls, in two orders. *)
Definition fr_a : trip := Trip (lit "a") (lit "b") (lit "c").
Definition fr_1 : list op := [OAddColl (lit "n"); OAdd (lit "n") [fr_a]; ORem (lit "n") [fr_a]].
Definition fr_2 : list op := [OAddColl (lit "m"); OAdd (lit "m") [fr_a]].
Definition fr_h : list op := [OAddColl (lit "m"); OAddColl (lit "n"); OAdd (lit "n") [fr_a]; OAdd (lit "m") [fr_a]; ORem (lit "n") [fr_a]].

Example C81_case :
  calls_on (lit "n") fr_h = fr_1 /\ calls_on (lit "m") fr_h = fr_2
  /\ (forall c, calls_on c fr_h = calls_on c (fr_1 ++ fr_2)) /\ knows_own (lit "n") fr_h
  /\ (total_weight fr_h = 8)%N /\ (dtotal fr_h = 10)%N
  /\ t_triples heed_impl (after heed_impl heed_new fr_h) (lit "m") = Ok [fr_a].
Proof.
  split; [vm_compute; reflexivity|]. split; [vm_compute; reflexivity|]. split; [|split; [|vm_compute; auto]].
  - intros c. unfold calls_on, fr_h, fr_1, fr_2. cbn [filter app].
    destruct (on c (OAddColl (lit "m"))) eqn:Em.
    + apply on_true in Em. cbn [target] in Em. subst c. vm_compute. reflexivity.
    + destruct (on c (OAddColl (lit "n"))) eqn:En.
      * apply on_true in En. cbn [target] in En. subst c. vm_compute. reflexivity.
      * apply on_false in Em, En. unfold on. cbn [target] in *.
        destruct (list_eq_dec N.eq_dec (lit "n") c); [contradiction|]. destruct (list_eq_dec N.eq_dec (lit "m") c); [contradiction|]. reflexivity.
  - intros h1 ts h2 E v Hv.
    do 5 (destruct h1 as [|? h1]; [try discriminate E|cbn [app] in E; injection E as <- E]); [|destruct h1; discriminate E].
    injection E as <- <-. destruct Hv as (t & [<-|[]] & Hp). split.
    + destruct Hp as [->|[->| ->]]; split; vm_compute; auto; discriminate.
    + exists (lit "n"), [fr_a]. split; [vm_compute; auto|]. exists fr_a. split; [left; reflexivity|exact Hp].
Qed.
