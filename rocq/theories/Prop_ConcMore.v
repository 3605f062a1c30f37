(** * Several clients of one store: order, convergence, bounds *)
From Coq Require Import List Arith NArith Bool String Lia.
From Verif Require Import M_Base M_Data M_Mem M_Heed M_Regex M_Lexer M_Graph M_Parser M_Display M_Interp M_Conc
  S_Order S_Str S_Store S_Graph S_Parser S_Interp S_Conc P_Ord P_Hist P_Parser P_Conc P_ConcMore.
Import ListNotations.
Open Scope list_scope.

(** Whatever the clients and the schedule, the store is the one a single client
    leaves that makes the same calls in the order they were made. *)
Theorem C75_one_order : forall (St : Type) (L : lig_impl St) sched x,
  shared (interleave L sched x)
  = fold_left (fun s q => snd (perform L q s)) (map snd (calls_made L sched x)) (shared x).
Proof. intros St L. exact (in_order L). Qed.
Print Assumptions C75_one_order.

(** C75.  Clients that only let literal networks into collections, whatever they
    share, and however their calls interleave: when all are done, every one has
    answered Ok, and the store holds what it held plus all that any of them let. *)
Theorem C75_converge : forall h scripts jobs sched,
  (forall j, only_lets (scripts j) (jobs j)) -> (forall j c n, In (c, n) (jobs j) -> storable (el_name c)) ->
  let G := graph_impl heed_impl in
  let d := after heed_impl heed_new h in
  let x0 := Pool d (fun j => p_run common (scripts j)) in
  (total_weight h + calls_weight (calls_made G sched x0) < 2 ^ 64)%N ->
  let x := interleave G sched x0 in
  finished x ->
  (forall j, clients x j = Done (Ok (VNetwork [])))
  /\ forall c,
     (has heed_impl (shared x) c <-> has heed_impl d c \/ exists j e n, In (e, n) (jobs j) /\ el_name e = c)
     /\ forall t, holds heed_impl (shared x) c t <->
          holds heed_impl d c t \/ exists j e n, In (e, n) (jobs j) /\ el_name e = c /\ In t (map entry_to_trip n).
Proof.
  intros h scripts jobs sched Hl Hs G d x0 W x F.
  destruct (converge h scripts jobs sched Hl Hs W F) as (H1 & h' & _ & H2). split; [exact H1|exact H2].
Qed.
Print Assumptions C75_converge.

(** So the order does not matter: any two schedules that finish leave the same to read. *)
Theorem C75_order_irrelevant : forall h scripts jobs sched sched',
  (forall j, only_lets (scripts j) (jobs j)) -> (forall j c n, In (c, n) (jobs j) -> storable (el_name c)) ->
  let G := graph_impl heed_impl in
  let x0 := Pool (after heed_impl heed_new h) (fun j => p_run common (scripts j)) in
  (total_weight h + calls_weight (calls_made G sched x0) < 2 ^ 64)%N ->
  (total_weight h + calls_weight (calls_made G sched' x0) < 2 ^ 64)%N ->
  finished (interleave G sched x0) -> finished (interleave G sched' x0) ->
  forall c, same_for G c (shared (interleave G sched x0)) (shared (interleave G sched' x0)).
Proof. exact converge_same. Qed.
Print Assumptions C75_order_irrelevant.

Definition cy_scripts (j : nat) : str :=
  match j with 0 => lit "let n {a b c}, let m {x y z}" | 1 => lit "let m {a b c}, let n {d e f}" | _ => [] end.
Definition cy_role (a b c : string) : entry := Role (mkE (lit a)) (mkE (lit c)) (mkE (lit b)).
Definition cy_jobs (j : nat) : list (element * list entry) :=
  match j with
  | 0 => [(mkE (lit "n"), [cy_role "a" "b" "c"]); (mkE (lit "m"), [cy_role "x" "y" "z"])]
  | 1 => [(mkE (lit "m"), [cy_role "a" "b" "c"]); (mkE (lit "n"), [cy_role "d" "e" "f"])]
  | _ => []
  end.

Example C75_case :
  let G := graph_impl heed_impl in
  let x0 := Pool heed_new (fun j => p_run common (cy_scripts j)) in
  let x := interleave G [0; 1; 1; 0; 1; 0; 0; 1] x0 in
  (forall j, only_lets (cy_scripts j) (cy_jobs j)) /\ (forall j c n, In (c, n) (cy_jobs j) -> storable (el_name c))
  /\ calls_weight (calls_made G [0; 1; 1; 0; 1; 0; 0; 1] x0) = 16%N
  /\ finished x /\ exists l, l_entries G (shared x) (mkE (lit "n")) = Ok l /\ List.length l = 2.
Proof.
  split; [|split; [|split; [|split]]].
  - intros j. destruct j as [|[|j]]; (eexists; eexists; split; [vm_compute; reflexivity|]; split; [apply parse_ok; vm_compute; reflexivity|]);
      repeat constructor.
  - intros j c n H. destruct j as [|[|j]]; [| |destruct H]; destruct H as [E|[E|[]]]; injection E as <- <-; split; vm_compute; auto; discriminate.
  - vm_compute. reflexivity.
  - intros j. destruct j as [|[|j]]; eexists; vm_compute; reflexivity.
  - eexists. split; vm_compute; reflexivity.
Qed.

(** On the in-memory store, of two lets into one collection the earlier is lost. *)
Example C75_mem_loses :
  let G := graph_impl mem_impl in
  let s1 := snd (run G common (lit "let n {a b c}") mem_new) in
  let s2 := snd (run G common (lit "let n {d e f}") s1) in
  l_entries G s2 (mkE (lit "n")) = Ok [cy_role "d" "e" "f"].
Proof. vm_compute. reflexivity. Qed.

(** C76.  On any store, with any other clients and any schedule, a script has its
    result after at most as many calls of the store as it has characters; no
    other client can delay it, and it cannot loop. *)
Theorem C76_bounded : forall (St : Type) (L : lig_impl St) cs script sched i x,
  clients x i = p_run cs script -> List.length script <= scheduled i sched ->
  exists r, clients (interleave L sched x) i = Done r.
Proof. intros St L cs script sched i x. apply bounded_run. Qed.
Print Assumptions C76_bounded.

Theorem C76_calls_bounded : forall (St : Type) (L : lig_impl St) cs script sched i x,
  clients x i = p_run cs script -> turns_of i (calls_made L sched x) <= List.length script.
Proof. intros St L cs script sched i x E. apply most_made. rewrite E. apply most_run. Qed.
Print Assumptions C76_calls_bounded.

(** A script that makes three calls, and so is not done after two. *)
Example C76_case :
  let G := graph_impl heed_impl in
  let x0 := Pool heed_new (fun _ => p_run common (lit "let n {}, read n")) in
  (forall r, clients (interleave G [0; 1; 0; 1; 1] x0) 0 <> Done r)
  /\ clients (interleave G [0; 1; 0; 1; 1; 0] x0) 0 = Done (Ok (VNetwork []))
  /\ turns_of 0 (calls_made G [0; 1; 0; 1; 1; 0; 0] x0) = 3.
Proof. split; [intros r; vm_compute; discriminate|]. split; vm_compute; reflexivity. Qed.
