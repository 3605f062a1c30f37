(** * Properties: what the clients of one LMDB file see *)
From Coq Require Import List Arith NArith Bool String Lia.
From Verif Require Import M_Base M_Data M_Heed M_Regex M_Lexer M_Graph M_Parser M_Display M_Interp M_Conc
  S_Order S_Str S_Store S_Graph S_Parser S_Interp S_Conc S_ConcSee P_Ord P_Hist P_Agree P_Heed P_HeedHist P_HeedMore P_Space P_Graph P_Interp P_InterpStores P_Conc P_ConcFoot P_ConcSee.
Import ListNotations.
Open Scope list_scope.

(** C118.  There is one order of all the calls, and every call is answered as if
    the calls before it had been made one after the other by a single client. *)
Theorem C118_one_history : forall {S : Type} (L : lig_impl S) sched x l1 e l2,
  events L sched x = l1 ++ e :: l2 ->
  said e = fst (perform L (what e) (fold_left (fun s q => snd (perform L q s)) (map what l1) (shared x))).
Proof.
  intros S L sched x l1 e l2 E. destruct (events_split L _ _ _ _ _ E) as (s1 & s2 & -> & E1 & H). cbn zeta in H.
  destruct H as (_ & -> & _). rewrite one_order, E1. reflexivity.
Qed.
Print Assumptions C118_one_history.

(** No script removes a network or entries of one. *)
Theorem C118_scripts_keep : forall script, keeps_all (p_run common script).
Proof. exact script_keeps. Qed.
Print Assumptions C118_scripts_keep.

(** Reads only grow: if no client removes, a later read of a network that was read
    before, by whichever client, succeeds and answers at least what was answered
    before, whichever commits fail. *)
Theorem C118_reads_grow : forall h bs cl sched l1 i c es l2 j c' a l3,
  (forall k, keeps_all (cl k)) ->
  events (graph_impl (flaky heed_impl_c)) sched (Pool (after_f heed_impl_c heed_new h, bs) cl)
    = l1 ++ Event i (QEntries c) (Ok es) :: l2 ++ Event j (QEntries c') a :: l3 ->
  el_name c = el_name c' ->
  exists es', a = Ok es' /\ incl es es'.
Proof.
  intros h bs cl sched l1 i c es l2 j c' a l3 K E En.
  destruct (events_split _ _ _ _ _ _ E) as (s1 & s2 & -> & E1 & H). cbn zeta in H. cbn [who what said] in H.
  destruct (flow s1 h bs cl) as (h1 & bs1 & X1 & _).
  pose proof (keeps_interleave FG s1 (Pool (after_f heed_impl_c heed_new h, bs) cl) K) as K1.
  set (y := interleave FG s1 (Pool (after_f heed_impl_c heed_new h, bs) cl)) in *.
  destruct H as ((k & Ek) & R1 & E2). pose proof (keeps_turn FG i y K1) as K2.
  assert (Y : exists cl2, turn FG i y = Pool (after_f heed_impl_c heed_new h1, bs1) cl2).
  { unfold turn. rewrite Ek, X1. cbn [perform]. eauto. }
  destruct Y as (cl2 & Y). rewrite Y in *. cbn [clients] in K2.
  destruct (events_split _ _ _ _ _ _ E2) as (s3 & s4 & -> & E3 & H). cbn zeta in H. cbn [who what said] in H. destruct H as (_ & R2 & _).
  destruct (flow s3 h1 bs1 cl2) as (h2 & bs2 & X2 & A & B & _). rewrite X2 in R2. rewrite X1 in R1. cbn [perform fst] in R1, R2.
  symmetry in R1. destruct (read_answer _ _ _ _ R1) as [P1 Q1]. rewrite En in P1, Q1.
  destruct (read_ok h2 bs2 c' (A K2 _ P1)) as (es' & R3). exists es'. split; [congruence|].
  intros n Hn. apply Q1 in Hn as (t & Ht & ->). apply (proj2 (read_answer _ _ _ _ R3)). exists t. split; [apply (B K2), Ht|reflexivity].
Qed.
Print Assumptions C118_reads_grow.

(** Nothing is invented, whether clients remove or not and whichever commits fail:
    what a read answers was there at the start, or a call before it put it there
    and was answered Ok; the network existed at the start, or a call before it
    created it and was answered Ok. *)
Theorem C118_no_invention : forall h bs cl sched l1 i c es l2,
  let G := graph_impl (flaky heed_impl_c) in
  let s := (after_f heed_impl_c heed_new h, bs) in
  events G sched (Pool s cl) = l1 ++ Event i (QEntries c) (Ok es) :: l2 ->
  ((exists es0, l_entries G s c = Ok es0) \/ exists e, In e l1 /\ created_by e (el_name c))
  /\ forall n, In n es ->
       (exists es0, l_entries G s c = Ok es0 /\ In n es0) \/ exists e, In e l1 /\ put_by e (el_name c) n.
Proof.
  intros h bs cl sched l1 i c es l2 G s E. subst G s.
  destruct (events_split _ _ _ _ _ _ E) as (s1 & s2 & -> & E1 & H). cbn zeta in H. cbn [who what said] in H. destruct H as (_ & R & _).
  destruct (flow s1 h bs cl) as (h1 & bs1 & X1 & _ & _ & C & D & _). rewrite X1 in R. cbn [perform fst] in R. symmetry in R. rewrite E1 in C, D.
  destruct (read_answer _ _ _ _ R) as [P Q]. split.
  - destruct (D _ P) as [Hh|He]; [left; exact (read_ok h bs c Hh)|right; exact He].
  - intros n Hn. apply Q in Hn as (t & Ht & ->). destruct (C _ _ Ht) as [Hh|(e & He & Ha)].
    + left. destruct (fholds_has h _ _ Hh bs) as (es0 & R0). exists es0. split; [exact R0|].
      apply (proj2 (read_answer _ _ _ _ R0)). eauto.
    + right. exists e. split; [exact He|]. apply put_added. eauto.
Qed.
Print Assumptions C118_no_invention.

(** When all commits succeed and no client removes, a read answers exactly what was
    there at the start and what calls before it put there and were answered Ok, no
    matter by which client; and it succeeds if the network existed at the start or
    was created before. *)
Theorem C118_exact : forall h cl sched l1 i c a l2,
  (forall k, keeps_all (cl k)) ->
  let G := graph_impl (flaky heed_impl_c) in
  let s := (after_f heed_impl_c heed_new h, []) in
  events G sched (Pool s cl) = l1 ++ Event i (QEntries c) a :: l2 ->
  storable (el_name c) ->
  ((exists es, a = Ok es) <-> (exists es0, l_entries G s c = Ok es0) \/ exists e, In e l1 /\ created_by e (el_name c))
  /\ forall es, a = Ok es -> forall n,
       In n es <-> (exists es0, l_entries G s c = Ok es0 /\ In n es0) \/ exists e, In e l1 /\ put_by e (el_name c) n.
Proof.
  intros h cl sched l1 i c a l2 K G s E Hs. split.
  - split.
    + intros (es & ->). exact (proj1 (C118_no_invention _ _ _ _ _ _ _ _ _ E)).
    + subst G s. destruct (events_split _ _ _ _ _ _ E) as (s1 & s2 & -> & E1 & H). cbn zeta in H. cbn [who what said] in H. destruct H as (_ & R & _).
      destruct (flow s1 h [] cl) as (h1 & bs1 & X1 & A & _ & _ & _ & _ & _ & F). rewrite X1 in R. cbn [perform fst] in R. rewrite E1 in F.
      intros H. assert (Hh : fhas h1 (el_name c)).
      { destruct H as [(es0 & R0)|(e & He & Hc)]; [apply (A K), (read_answer _ _ _ _ R0)|exact (F K eq_refl e _ He Hc Hs)]. }
      destruct (read_ok h1 bs1 c Hh) as (es & R1). exists es. congruence.
  - intros es -> n. split; [intros Hn; exact (proj2 (C118_no_invention _ _ _ _ _ _ _ _ _ E) n Hn)|].
    subst G s. destruct (events_split _ _ _ _ _ _ E) as (s1 & s2 & -> & E1 & H). cbn zeta in H. cbn [who what said] in H. destruct H as (_ & R & _).
    destruct (flow s1 h [] cl) as (h1 & bs1 & X1 & _ & B & _ & _ & _ & F & _). rewrite X1 in R. cbn [perform fst] in R. symmetry in R. rewrite E1 in F.
    intros H. apply (proj2 (read_answer _ _ _ _ R)). destruct H as [(es0 & R0 & Hn)|(e & He & Hp)].
    + apply (read_answer _ _ _ _ R0) in Hn as (t & Ht & ->). exists t. split; [apply (B K), Ht|reflexivity].
    + apply put_added in Hp as (t & -> & Ha). exists t. split; [exact (F K eq_refl e _ _ He Ha)|reflexivity].
Qed.
Print Assumptions C118_exact.

(** A client can lose its own write: when the second commit fails, the let of a
    script is answered Ok and the read after it finds the network empty. *)
Definition cs_own : str := lit "let n {a b c}, read n".
Definition cs_look : str := lit "read n, read n".
Definition cs_scripts (j : nat) : str := match j with 0 => cs_own | 1 => cs_look | _ => [] end.

Theorem C118_own_write_lost :
  let G := graph_impl (flaky heed_impl_c) in
  let x0 := Pool (heed_new, [true; false]) (fun j => p_run common (cs_scripts j)) in
  exists sched l1 c es l2, es <> []
  /\ events G sched x0 = l1 ++ Event 0 (QAddEntries c es) (Ok tt) :: l2 ++ [Event 0 (QEntries c) (Ok [])]
  /\ clients (interleave G sched x0) 0 = Done (Ok (VNetwork [])).
Proof.
  exists [0; 0; 0], [Event 0 (QAddCollection (mkE (lit "n"))) (Ok tt)], (mkE (lit "n")), [Role (mkE (lit "a")) (mkE (lit "c")) (mkE (lit "b"))], [].
  split; [discriminate|]. split; vm_compute; reflexivity.
Qed.
Print Assumptions C118_own_write_lost.

(** A client that writes and reads, and one that reads twice, taking turns: five
    calls, the second client's first read between the creation and the addition. *)
Example C118_case :
  let G := graph_impl (flaky heed_impl_c) in
  let n := mkE (lit "n") in let e := Role (mkE (lit "a")) (mkE (lit "c")) (mkE (lit "b")) in
  let cl := fun j => p_run common (cs_scripts j) in
  let x0 := Pool (after_f heed_impl_c heed_new [], []) cl in
  (forall j, keeps_all (cl j)) /\ storable (el_name n)
  /\ events G [0; 1; 0; 1; 0] x0
     = [Event 0 (QAddCollection n) (Ok tt); Event 1 (QEntries n) (Ok []); Event 0 (QAddEntries n [e]) (Ok tt);
        Event 1 (QEntries n) (Ok [e]); Event 0 (QEntries n) (Ok [e])]
  /\ put_by (Event 0 (QAddEntries n [e]) (Ok tt)) (el_name n) e /\ created_by (Event 0 (QAddCollection n) (Ok tt)) (el_name n).
Proof.
  cbv zeta. split; [intros j; apply script_keeps|]. split; [split; vm_compute; auto; discriminate|]. split; [vm_compute; reflexivity|]. split.
  - exists 0, (mkE (lit "n")). eexists _, _. split; [reflexivity|]. split; [reflexivity|]. split; [left; reflexivity|]. apply normalises_iff. vm_compute. reflexivity.
  - exists 0, (mkE (lit "n")). auto.
Qed.
