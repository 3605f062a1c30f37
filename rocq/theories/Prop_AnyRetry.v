(** * C129: any client that only adds, begun again after kills and failures *)
From Coq Require Import List Arith NArith Bool String Lia.
From Verif Require Import M_Base M_Data M_Heed M_Txn M_Regex M_Lexer M_Graph M_Parser M_Display M_Interp M_Conc M_Commands M_HostConc M_TxnConc
  S_Order S_Store S_Graph S_Interp S_Parser S_Conc S_Commands S_HostConc S_Txn S_TxnConc S_Wander S_Rewrite S_Monotone S_AnyRetry
  P_Ord P_Hist P_Parser P_Conc P_ConcFoot P_Commands P_HostConc P_Retry P_AnyRetry.
From Verif Require P_Again Prop_HostConc.
Import ListNotations.
Open Scope list_scope.

(** C129.  A client [p] of an LMDB file, whatever program it is, creates
    collections, adds entries, reads and searches; a call that panics is the last
    it makes; and it reads no collection that it changes.  Run at first on a disk
    that is well, it would have had the result [r] and left [d1], with [g] for its
    writing calls.  It is begun any number of times and killed after any number of
    its calls, or not, while writes and commits fail in any pattern.  Once more,
    on a disk that is well, it has the result [r] and leaves a store that looks
    like [d1]. *)
Theorem C129_retry : forall p ms h fs r d1 g,
  gathers p -> unwinds p -> (forall c, may_ask p c -> ~ may_change p c) ->
  let d := after heed_impl heed_new h in
  solo (graph_impl (logged heed_impl)) p (d, h) = (r, (d1, h ++ g)) ->
  (total_weight h + N.of_nat (S (List.length ms)) * total_weight g < 2 ^ 64)%N ->
  exists d2, solo (graph_impl heed_impl) p (fst (begun (graph_impl lmdb_at_once) p ms (d, fs))) = (r, d2)
    /\ look_alike heed_impl d1 d2.
Proof.
  intros p ms h fs r d1 g A U D d E F. destruct (begun_under p ms h fs r d1 g A U D E F) as (_ & _ & g' & X & _ & _ & d2 & Y & Z).
  exists d2. unfold d. change (after heed_impl heed_new h) with (lm h). rewrite X. auto.
Qed.
Print Assumptions C129_retry.

(** The same when it is killed between any two operations on the file. *)
Theorem C129_operations : forall p ns h fs r d1 g,
  gathers p -> unwinds p -> (forall c, may_ask p c -> ~ may_change p c) ->
  let d := after heed_impl heed_new h in
  solo (graph_impl (logged heed_impl)) p (d, h) = (r, (d1, h ++ g)) ->
  (total_weight h + N.of_nat (S (List.length ns)) * total_weight g < 2 ^ 64)%N ->
  exists d2, solo (graph_impl heed_impl) p (fst (begun_operations p ns (d, fs))) = (r, d2)
    /\ look_alike heed_impl d1 d2.
Proof.
  intros p ns h fs r d1 g A U D d E F. destruct (operations_begun p ns d fs) as (ms & El & ->). rewrite <- El in F.
  exact (C129_retry p ms h fs r d1 g A U D E F).
Qed.
Print Assumptions C129_operations.

(** On the way the store always has at least what it had at first, and at most
    what the client leaves in the end. *)
Theorem C129_between : forall p ns h fs r d1 g w v f,
  gathers p -> unwinds p -> (forall c, may_ask p c -> ~ may_change p c) ->
  let d := after heed_impl heed_new h in
  solo (graph_impl (logged heed_impl)) p (d, h) = (r, (d1, h ++ g)) ->
  (total_weight h + N.of_nat (S (List.length ns)) * total_weight g < 2 ^ 64)%N ->
  shows heed_impl d w -> shows heed_impl (fst (begun_operations p ns (d, fs))) v -> shows heed_impl d1 f ->
  below w v /\ below v f.
Proof.
  intros p ns h fs r d1 g w v f A U D d E F Sw Sv Sf. destruct (operations_begun p ns d fs) as (ms & El & X). rewrite X in Sv. rewrite <- El in F.
  destruct (begun_under p ms h fs r d1 g A U D E F) as (-> & _ & g' & Y & G1 & G2 & _). unfold d in Sv. change (after heed_impl heed_new h) with (lm h) in Sv. rewrite Y in Sv.
  split; [exact (P_Again.grows_below h g' w v G1 Sw Sv)|exact (P_Again.grows_below g' (h ++ g) v f G2 Sv Sf)].
Qed.
Print Assumptions C129_between.

(** Calls with a table of commands of the host's make such a client, if the
    commands make such calls only: what a command has run, a panic ends. *)
Theorem C129_host_client : forall cs calls,
  (forall n x, In (n, x) cs -> gatherer x) -> gathers (host_calls cs calls) /\ unwinds (host_calls cs calls).
Proof. intros cs calls H. split; [apply gathers_deep, H|apply falls_unwinds, falls_deep]. Qed.
Print Assumptions C129_host_client.

(** The standard commands do. *)
Theorem C129_prelude : forall n x, In (n, x) prelude -> gatherer x.
Proof. exact prelude_gathers. Qed.
Print Assumptions C129_prelude.

(** So, by the rules of C126: calls with commands of the host's, begun any number
    of times, killed between any two operations, on a failing disk, and run once
    more when it is well. *)
Theorem C129_host : forall cs calls ns h fs r d1 g,
  no_name_twice cs -> (forall n x, In (n, x) cs -> modest x) -> (forall n x, In (n, x) cs -> gatherer x) ->
  (forall c, may_ask (host_calls cs calls) c -> ~ may_change (host_calls cs calls) c) ->
  let d := after heed_impl heed_new h in
  runs_to (graph_impl (logged heed_impl)) cs calls (d, h) r (d1, h ++ g) ->
  (total_weight h + N.of_nat (S (List.length ns)) * total_weight g < 2 ^ 64)%N ->
  exists d2, runs_to (graph_impl heed_impl) cs calls (fst (begun_operations (host_calls cs calls) ns (d, fs))) r d2
    /\ look_alike heed_impl d1 d2.
Proof.
  intros cs calls ns h fs r d1 g T M A D d E F. destruct (C129_host_client cs calls A) as [A' U].
  apply (Prop_HostConc.C128_alone _ (graph_impl (logged heed_impl)) cs calls (d, h) r (d1, h ++ g) T M) in E.
  destruct (C129_operations (host_calls cs calls) ns h fs r d1 g A' U D E F) as (d2 & X & L). exists d2. split; [|exact L].
  apply (Prop_HostConc.C128_alone _ (graph_impl heed_impl) cs calls _ r d2 T M). exact X.
Qed.
Print Assumptions C129_host.

(** A case: the copying command of the host's, after a collection was written.  It
    is begun three times: killed after six operations on the file, begun with a
    commit that fails, begun with a write that fails. *)
Definition ar_calls : list call := [Call (mkE (lit "copy")) [VElement (mkE (lit "a")); VElement (mkE (lit "b"))]].
Definition ar_t : list trip := [Trip (lit "x") (lit "y") (lit "z")].
Definition ar_h : list op := [OAddColl (lit "a"); OAdd (lit "a") ar_t].
Definition ar_n : list entry := [Role (mkE (lit "x")) (mkE (lit "z")) (mkE (lit "y"))].

Example C129_case :
  let hosts := Prop_HostConc.hosts in
  let p := host_calls hosts ar_calls in
  let d := after heed_impl heed_new ar_h in
  let g := [OAddColl (lit "b"); OAdd (lit "b") ar_t] in
  let fs := [no_fault; (None, false); no_fault; (Some 1, true)] in
  let cut := begun_operations p [14; 60; 60] (d, fs) in
  no_name_twice hosts /\ (forall n x, In (n, x) hosts -> modest x) /\ (forall n x, In (n, x) hosts -> gatherer x)
  /\ (forall c, may_ask p c -> ~ may_change p c)
  /\ (exists r d1, solo (graph_impl (logged heed_impl)) p (d, ar_h) = (r, (d1, ar_h ++ g)) /\ r = Ok (VNetwork ar_n)
       /\ runs_to (graph_impl (logged heed_impl)) hosts ar_calls (d, ar_h) r (d1, ar_h ++ g)
       /\ l_entries (graph_impl heed_impl) d1 (mkE (lit "b")) = Ok ar_n)
  /\ (total_weight ar_h + 4 * total_weight g < 2 ^ 64)%N
  /\ t_collections heed_impl (fst cut) = Ok [lit "a"; lit "b"] /\ l_entries (graph_impl heed_impl) (fst cut) (mkE (lit "b")) = Ok [].
Proof.
  cbv zeta.
  assert (T : no_name_twice Prop_HostConc.hosts) by (unfold no_name_twice; vm_compute; repeat constructor; cbn; intuition discriminate).
  assert (M : forall n x, In (n, x) Prop_HostConc.hosts -> modest x).
  { intros n x [[= <- <-]|I]; [|exact (prelude_modest n x I)]. intros l args. cbn [cmd_does]. unfold Prop_HostConc.b_copy.
    destruct args as [|a [|b [|z args]]]; try constructor; destruct a as [a| |]; try constructor; destruct b as [b| |]; try constructor.
    intros [es|e|w]; constructor. intros _. constructor. intros _. constructor. }
  assert (A : forall n x, In (n, x) Prop_HostConc.hosts -> gatherer x).
  { intros n x [[= <- <-]|I]; [|exact (prelude_gathers n x I)]. intros l args. cbn [cmd_does]. unfold Prop_HostConc.b_copy.
    destruct args as [|a [|b [|z args]]]; try apply go_done; destruct a as [a| |]; try apply go_done; destruct b as [b| |]; try apply go_done.
    apply go_ask; [constructor|]. intros [es|e|w]; try apply go_done. apply go_ask; [constructor|]. intros _. apply go_ask; [constructor|]. intros _. apply go_done. }
  split; [exact T|]. split; [exact M|]. split; [exact A|]. split; [|split; [|split; [|split]]].
  - assert (Q : forall q, asks (host_calls Prop_HostConc.hosts ar_calls) q ->
      q = QEntries (mkE (lit "a")) \/ q = QAddCollection (mkE (lit "b")) \/ exists es, q = QAddEntries (mkE (lit "b")) es).
    { intros q Hq. set (a := lit "a") in *. set (b := lit "b") in *. cbn in Hq. destruct Hq as [->|[[es|e|w] Hq]]; [auto| | |]; cbn in Hq; try contradiction.
      destruct Hq as [->|[[x|e|w] Hq]]; [auto| | |]; cbn in Hq; try contradiction.
      all: destruct Hq as [->|[[y|e'|w'] Hq]]; [eauto| | |]; cbn in Hq; try contradiction. }
    intros c (q & e & Hq & Ec & K) (q' & e' & Hq' & Ec' & K').
    destruct (Q q Hq) as [X|[X|[es X]]]; subst q; [|destruct K as [K|[f K]]; discriminate K..]. destruct K as [K|[f K]]; [|discriminate K]. injection K as <-.
    destruct (Q q' Hq') as [X|[X|[es X]]]; subst q'.
    + destruct K' as [K'|[K'|[[es K']|[es K']]]]; discriminate K'.
    + destruct K' as [K'|[K'|[[es K']|[es K']]]]; try discriminate K'. injection K' as <-. rewrite <- Ec in Ec'. vm_compute in Ec'. discriminate Ec'.
    + destruct K' as [K'|[K'|[[es' K']|[es' K']]]]; try discriminate K'. injection K' as <- _. rewrite <- Ec in Ec'. vm_compute in Ec'. discriminate Ec'.
  - destruct (solo (graph_impl (logged heed_impl)) (host_calls Prop_HostConc.hosts ar_calls) (after heed_impl heed_new ar_h, ar_h)) as [r [d1 g1]] eqn:E.
    exists r, d1. assert (g1 = ar_h ++ [OAddColl (lit "b"); OAdd (lit "b") ar_t]) as ->.
    { change g1 with (snd (snd (r, (d1, g1)))). rewrite <- E. vm_compute. reflexivity. }
    split; [reflexivity|]. split; [change r with (fst (r, (d1, ar_h ++ [OAddColl (lit "b"); OAdd (lit "b") ar_t]))); rewrite <- E; vm_compute; reflexivity|].
    split; [apply (Prop_HostConc.C128_alone _ (graph_impl (logged heed_impl)) _ _ _ _ _ T M), E|].
    change d1 with (fst (snd (r, (d1, ar_h ++ [OAddColl (lit "b"); OAdd (lit "b") ar_t])))). rewrite <- E. vm_compute. reflexivity.
  - vm_compute. reflexivity.
  - vm_compute. reflexivity.
  - vm_compute. reflexivity.
Qed.
Print Assumptions C129_case.
