(** * Properties: calls that overlap in time *)
From Coq Require Import List Arith NArith Bool String Lia.
From Verif Require Import M_Base M_Data M_Heed M_Txn M_Regex M_Lexer M_Graph M_Parser M_Display M_Interp M_Conc M_TxnConc
  S_Order S_Str S_Store S_Txn S_Graph S_Parser S_Interp S_Conc S_ConcSee S_TxnConc S_Wander S_Footprint
  P_Ord P_Heed P_Txn P_Conc P_TxnConc P_TxnSee Prop_ConcFoot.
Import ListNotations.
Open Scope list_scope.

(** C119.  The operations of the transactions of any number of clients of one
    LMDB file interleave in any way, writes and commits fail, clients die in the
    middle of calls: it is as if every call had been made at once, at one moment
    between its beginning and its end, or not at all.  The file is what the calls
    made at those moments leave; a client between calls is where it would be; of a
    client in the middle of a call the call has been made (reading) or not
    (writing); and every client was given the answers the calls made at once were
    given, in the same order, but for one reading call that has not returned. *)
Theorem C119_at_once : forall d fs cl l,
  let s0 := start d fs cl in
  let y0 := Pool (d, fs) cl in
  let G := graph_impl lmdb_at_once in
  let s := go_on l s0 in
  let y := at_once G (moments l s0) y0 in
  shared y = (file s, faults s)
  /\ forall i,
     (forall p, doing s i = Idle p -> clients y i = p)
     /\ (forall q k x m, doing s i = Busy q k x m ->
           if writing q then clients y i = Ask q k else exists a, clients y i = k a)
     /\ exists p, of_client i (answered G (moments l s0) y0) = of_client i (returned l s0) ++ p
          /\ (p = [] \/ exists q a, p = [Event i q a] /\ writing q = false
                                    /\ ((exists k x m, doing s i = Busy q k x m) \/ In (Dies i) l)).
Proof.
  intros d fs cl l s0 y0 G s y. pose proof (along_run l s0 y0 (along_start d fs cl)) as A. destruct A as [A1 A2].
  split; [exact A1|]. intros i. specialize (A2 i). split; [|split].
  - intros p E. unfold s, y in *. rewrite E in A2. apply A2.
  - intros q k x m E. unfold s, y in *. rewrite E in A2. cbn [stands] in A2. destruct (writing q); [apply A2|]. eexists. apply A2.
  - destruct (all_answers l s0 y0 i (along_start d fs cl)) as (p & E & H). exists p. split; [exact E|].
    destruct H as [->|[Hd (q & a & -> & Q)]]; [|right; exists q, a; auto].
    destruct (pending_read i (go_on l s0)) as [->|(q & a & -> & Q & K)]; [auto|right; exists q, a; auto].
Qed.
Print Assumptions C119_at_once.

(** The order of the moments is that of time: what has happened up to some point
    is a beginning of what happens in all, so a call that had returned by then
    comes before one that had not begun. *)
Theorem C119_real_time : forall d fs cl l1 l2,
  let s0 := start d fs cl in
  let y0 := Pool (d, fs) cl in
  let G := graph_impl lmdb_at_once in
  let s1 := go_on l1 s0 in
  let y1 := at_once G (moments l1 s0) y0 in
  moments (l1 ++ l2) s0 = moments l1 s0 ++ moments l2 s1
  /\ answered G (moments (l1 ++ l2) s0) y0 = answered G (moments l1 s0) y0 ++ answered G (moments l2 s1) y1
  /\ returned (l1 ++ l2) s0 = returned l1 s0 ++ returned l2 s1.
Proof.
  intros d fs cl l1 l2 s0 y0 G s1 y1. split; [apply moments_app|]. split; [|apply returned_app].
  rewrite moments_app. apply answered_app.
Qed.
Print Assumptions C119_real_time.

(** The store whose calls are made at once is, when nothing fails, the one of the
    other properties. *)
Theorem C119_no_faults : forall q d,
  perform (graph_impl lmdb_at_once) q (d, []) = let (a, d') := perform (graph_impl heed_impl) q d in (a, (d', [])).
Proof. exact at_once_plain. Qed.
Print Assumptions C119_no_faults.

(** Nobody waits for ever: whatever has happened, every client can still come to
    its end, nobody dying. *)
Theorem C119_no_deadlock : forall d fs cl l i, exists l' r,
  (forall e, In e l' -> exists j, e = Moves j) /\ doing (go_on (l ++ l') (start d fs cl)) i = Idle (Done r).
Proof.
  intros d fs cl l i. destruct (done_any i _ _ (along_run l _ _ (along_start d fs cl))) as (l' & r & H & E).
  exists l', r. split; [exact H|]. rewrite go_on_app. exact E.
Qed.
Print Assumptions C119_no_deadlock.

(** Reading never waits: whatever the others are in the middle of, a reading call
    is completed by its client alone.  A writing call is completed by its client
    alone if nobody is writing. *)
Theorem C119_never_waits : forall s i q k,
  doing s i = Idle (Ask q k) -> (writing q = true -> writer s = None) ->
  exists n a, let s' := go_on (repeat (Moves i) n) s in
    doing s' i = Idle (k a) /\ forall j, j <> i -> doing s' j = doing s j.
Proof. intros s i q k E W. destruct (begins i q k s E W) as (n & a & H1 & H2 & _). exists n, a. auto. Qed.
Print Assumptions C119_never_waits.

(** So what the properties of clients whose calls are made at once say (C74, C75,
    C116, C118) is true of calls that overlap: when nothing fails and nobody dies
    there is a schedule of calls that leaves the same file, and every client that
    is between calls where it is, having got the same answers. *)
Theorem C119_lifts : forall d cl l, (forall i, ~ In (Dies i) l) ->
  let s := go_on l (start d [] cl) in
  let G := graph_impl heed_impl in
  exists sched, let y := interleave G sched (Pool d cl) in
    map Moves sched = moments l (start d [] cl)
    /\ shared y = file s
    /\ forall i p, doing s i = Idle p ->
         clients y i = p /\ of_client i (events G sched (Pool d cl)) = of_client i (returned l (start d [] cl)).
Proof.
  intros d cl l Hd s G.
  assert (Hm : only_moves l) by (intros [i|i] He; [eauto|destruct (Hd i He)]).
  destruct (moments_moves l Hm (start d [] cl)) as (sched & Es). exists sched.
  destruct (plain_run sched d cl) as (P1 & P2 & P3). destruct (C119_at_once d [] cl l) as [A1 A2]. cbv zeta in *. rewrite Es in *.
  split; [reflexivity|]. split.
  - rewrite P1 in A1. unfold s, G. congruence.
  - intros i p E. destruct (A2 i) as (B1 & _ & q & B2 & B3). split.
    + unfold G. rewrite <- P2. apply B1, E.
    + unfold G. rewrite <- P3, B2. destruct B3 as [->|(q' & a & _ & _ & [(k & x & m & E')|H])]; [apply app_nil_r|unfold s in E; rewrite E in E'; discriminate E'|destruct (Hd i H)].
Qed.
Print Assumptions C119_lifts.

(** For scripts: C116 when the operations interleave. *)
Theorem C119_undisturbed : forall h scripts l i r,
  (forall j n, j <> i -> lets_name (scripts j) n -> ~ looks_at (scripts i) n) ->
  (forall j, ~ In (Dies j) l) ->
  let G := graph_impl heed_impl in
  let d := after heed_impl heed_new h in
  let cl := fun j => p_run common (scripts j) in
  (forall sched, map Moves sched = moments l (start d [] cl) -> total_weight h + calls_weight (calls_made G sched (Pool d cl)) < 2 ^ 64)%N ->
  let s := go_on l (start d [] cl) in
  doing s i = Idle (Done r) ->
  exists d', run G common (scripts i) d = (r, d') /\ forall c, looks_at (scripts i) c -> same_for G c (file s) d'.
Proof.
  intros h scripts l i r HO Hd G d cl W s E.
  destruct (C119_lifts d cl l Hd) as (sched & Es & E1 & E2). cbv zeta in *. fold s in E1, E2. destruct (E2 i _ E) as [E3 _].
  destruct (C116_undisturbed h scripts sched i r HO (W sched Es) E3) as (d' & R & O). exists d'. split; [exact R|].
  intros c Hc. unfold G. rewrite <- E1. apply O, Hc.
Qed.
Print Assumptions C119_undisturbed.

(** Reads only grow, in the order of time: if no client removes, a read that begins
    after another one of the same network has returned, by whichever client,
    succeeds and answers at least the same, whatever failed and whoever died. *)
Theorem C119_reads_grow : forall h fs cl l1 l2 i c es j p c' a,
  (forall k, keeps_all (cl k)) ->
  let s0 := start (after_f heed_impl_c heed_new h) fs cl in
  let s1 := go_on l1 s0 in
  In (Event i (QEntries c) (Ok es)) (returned l1 s0) -> doing s1 j = Idle p ->
  In (Event j (QEntries c') a) (returned l2 s1) -> el_name c = el_name c' ->
  exists es', a = Ok es' /\ incl es es'.
Proof. exact reads_grow. Qed.
Print Assumptions C119_reads_grow.

(** Two writers and a reader: the second writer waits, the reader began before the
    first commit and reads the old state after it; a writer that dies in the
    middle of its call leaves nothing behind. *)
Definition tc_scripts (j : nat) : str :=
  match j with 0 => lit "let n {a b c}" | 1 => lit "read n" | 2 => lit "let n {d e f}" | _ => [] end.
Definition tc_first : list happening :=
  repeat (Moves 0) 20 ++ [Moves 1; Moves 1; Moves 2] ++ repeat (Moves 0) 20 ++ repeat (Moves 1) 20.
Definition tc_then : list happening := repeat (Moves 2) 24.

Example C119_case :
  let d := after heed_impl heed_new [OAddColl (lit "n")] in
  let cl := fun j => p_run common (tc_scripts j) in
  let s0 := start d [] cl in
  let G := graph_impl lmdb_at_once in
  let n := mkE (lit "n") in let e := Role (mkE (lit "a")) (mkE (lit "c")) (mkE (lit "b")) in
  let created := Event 0 (QAddCollection n) (Ok tt) in
  let added := Event 0 (QAddEntries n [e]) (Ok tt) in
  let read := Event 1 (QEntries n) (Ok []) in
  moments tc_first s0 = [Moves 0; Moves 1; Moves 0]
  /\ returned tc_first s0 = [created; added; read]
  /\ answered G (moments tc_first s0) (Pool (d, []) cl) = [created; read; added]
  /\ (let s := go_on tc_first s0 in
      t_triples heed_impl (file s) (lit "n") = Ok [Trip (lit "a") (lit "b") (lit "c")]
      /\ let s' := go_on tc_then s in let s'' := happen (Dies 2) s' in
         writer s' = Some 2 /\ returned tc_then s = [Event 2 (QAddCollection n) (Ok tt)]
         /\ writer s'' = None /\ file s'' = file s)
  /\ forall j i, ~ In (Dies i) (if j : bool then tc_first else tc_then).
Proof.
  cbv zeta. repeat match goal with |- _ /\ _ => split end; try (vm_compute; reflexivity).
  intros [|] i H; vm_compute in H; repeat destruct H as [H|H]; try discriminate H; exact H.
Qed.
