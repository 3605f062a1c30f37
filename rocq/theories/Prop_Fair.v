(** * C132: under fair schedules everybody ends *)
From Coq Require Import List Arith NArith Bool String Lia Permutation.
From Verif Require Import M_Base M_Data M_Heed M_Txn M_Regex M_Lexer M_Graph M_Parser M_Display M_Interp M_Conc M_TxnConc
  S_Order S_Str S_Store S_Txn S_Graph S_Lexer S_Parser S_Interp S_Names S_Json S_Conc S_ConcSee S_Wander S_Rewrite S_TxnConc S_Footprint S_Isolated S_ConcFail S_Fair
  P_Conc P_Rewrite P_ConcFoot P_TxnConc P_Fair S_Failing.
From Verif Require Prop_TxnConc Prop_ConcFail Prop_Retry.
Import ListNotations.
Open Scope list_scope.

(** C132.  Finitely many clients of one LMDB file, whatever programs they are; an
    endless schedule of operations and deaths in which everyone who does not die
    is given turns again and again; writes and commits fail.  There is a time at
    which all have ended, and so they have ever after. *)
Theorem C132_all_end : forall n d fs cl happens,
  (forall i, n <= i -> exists r, cl i = Done r) ->
  (forall i, i < n -> gets_turns happens i) ->
  exists T, forall t, T <= t -> forall i, ended i (at_time happens t (start d fs cl)).
Proof.
  intros n d fs cl happens HD Fair. destruct (all_end n happens (start d fs cl) (inv_start n d fs cl HD) Fair) as [T H].
  exists T. intros t Ht i. apply (ended_later i happens _ T t Ht). destruct (Nat.lt_ge_cases i n) as [Hi|Hi]; [exact (H i Hi)|].
  apply (ended_later i happens _ 0 T); [lia|]. destruct (HD i Hi) as [r E]. exists r. cbn. rewrite E. reflexivity.
Qed.
Print Assumptions C132_all_end.

(** A client that only reads ends when it is given turns again and again, however
    many others there are, whatever they do and whether they are given turns. *)
Theorem C132_readers : forall d fs cl happens i,
  (forall q, asks (cl i) q -> writing q = false) -> gets_turns happens i ->
  exists T, forall t, T <= t -> ended i (at_time happens t (start d fs cl)).
Proof.
  intros d fs cl happens i R Fair. destruct (reader_ends happens (start d fs cl) i R Fair) as [T H].
  exists T. intros t Ht. exact (ended_later i happens _ T t Ht H).
Qed.
Print Assumptions C132_readers.

(** What has ended stays as it is, unless its thread is killed again. *)
Theorem C132_once : forall happens i s r t t', t <= t' -> (forall k, happens k <> Dies i) ->
  doing (at_time happens t s) i = Idle (Done r) -> doing (at_time happens t' s) i = Idle (Done r).
Proof.
  intros happens i s r t t' H N E. induction H as [|t' _ IH]; [exact E|]. rewrite at_time_next. specialize (N t').
  destruct (happens t') as [j|j]; cbn [happen].
  - unfold move. destruct (Nat.eq_dec i j) as [<-|Nj]; [rewrite IH; exact IH|].
    destruct (doing (at_time happens t' s) j) as [[r'|q k]|q k x m]; [exact IH|..].
    + destruct (writing q); [destruct (writer (at_time happens t' s))|]; [exact IH|cbn [doing]; rewrite now_other by exact Nj; exact IH..].
    + destruct m as [[a b]|B op c]; [destruct (writing q)|destruct (op x)]; cbn [doing]; rewrite now_other by exact Nj; exact IH.
  - cbn [die doing]. rewrite now_other; [exact IH|]. intros ->. apply N. reflexivity.
Qed.
Print Assumptions C132_once.

(** So independent scripts, at the same time on a disk that fails, under any fair
    schedule: from some time on all have ended, and they have done what they do one
    after the other, in any order, on a disk that fails. *)
Theorem C132_scripts : forall h fs ss ts happens w n,
  ForallOrdPairs independent ss -> Permutation ss ts ->
  (forall i, i < List.length ss -> forall t, exists t', t <= t' /\ happens t' = Moves i) -> (forall i t, happens t <> Dies i) ->
  (forall x, In x ss -> costs (p_run common x) n) -> (total_weight h + N.of_nat (List.length ss) * n < 2 ^ 64)%N ->
  let d := after heed_impl heed_new h in
  shows heed_impl d w ->
  exists T, forall t, T <= t ->
    let s := at_time happens t (start d fs (fun j => p_run common (nth j ss []))) in
    exists os os' w', List.length os = List.length ss
      /\ (forall j, j < List.length ss -> exists r, doing s j = Idle (Done r) /\ nth_error os j = Some (outcome_of r))
      /\ Permutation (combine ss os) (combine ts os')
      /\ all_mean_on lets_failing w ts os' w' /\ shows heed_impl (file s) w'.
Proof.
  intros h fs ss ts happens w n Ind P Fair ND HC W d Sw. set (cl := fun j => p_run common (nth j ss [])).
  assert (HD : forall i, List.length ss <= i -> exists r, cl i = Done r).
  { intros i Hi. unfold cl. rewrite nth_overflow by exact Hi. vm_compute. eexists. reflexivity. }
  destruct (C132_all_end (List.length ss) d fs cl happens HD (fun i Hi => or_introl (Fair i Hi))) as [T H].
  exists T. intros t Ht s. apply (Prop_ConcFail.C131_ended h fs ss ts (map happens (seq 0 t)) w Ind P).
  - eapply N.le_lt_trans; [|exact W]. apply N.add_le_mono_l. rewrite <- budget_const.
    apply (answered_costs (graph_impl lmdb_at_once) (List.length ss)); [exact HD|].
    intros j Hj. apply HC, nth_In, Hj.
  - intros j Hj. split.
    + intros K. apply in_map_iff in K as (k & E & _). exact (ND j k E).
    + exact (H t Ht j).
  - exact Sw.
Qed.
Print Assumptions C132_scripts.

(** The two scripts of C131, given turns in alternation for ever, on a disk on which
    the fourth commit fails: the hypotheses of C132_scripts are met.  Both end; what
    the first says is in the store, what the second says is not (its commit failed). *)
Definition by_turns : endless := fun t => Moves (Nat.modulo t 2).

Example C132_case :
  (forall i, i < List.length Prop_ConcFail.cl_ss -> forall t, exists t', t <= t' /\ by_turns t' = Moves i)
  /\ (forall i t, by_turns t <> Dies i)
  /\ ForallOrdPairs independent Prop_ConcFail.cl_ss
  /\ (forall x, In x Prop_ConcFail.cl_ss -> costs (p_run common x) 100)
  /\ (total_weight [] + N.of_nat (List.length Prop_ConcFail.cl_ss) * 100 < 2 ^ 64)%N
  /\ (let s := at_time by_turns 400 (start heed_new [no_fault; no_fault; no_fault; (None, false)] (fun j => p_run common (nth j Prop_ConcFail.cl_ss []))) in
      map (fun j => match doing s j with Idle (Done r) => Some (outcome_of r) | _ => None end) [0; 1]
        = [Some (Answers (VNetwork [])); Some (Answers (VNetwork []))]
      /\ l_entries (graph_impl heed_impl) (file s) (mkE (lit "n")) = Ok Prop_Retry.rt_n
      /\ l_entries (graph_impl heed_impl) (file s) (mkE (lit "m")) = Ok []).
Proof.
  split; [|split; [|split; [|split; [|split]]]].
  - intros i Hi t. exists (2 * t + i). split; [lia|]. unfold by_turns. f_equal. cbn in Hi.
    rewrite Nat.add_comm, Nat.mul_comm, Nat.mod_add by lia. apply Nat.mod_small. lia.
  - discriminate.
  - apply Prop_ConcFail.C131_case.
  - apply Prop_ConcFail.C131_case.
  - reflexivity.
  - repeat split; vm_compute; reflexivity.
Qed.
Print Assumptions C132_case.
