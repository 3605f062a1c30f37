(** * C128: host commands on a shared LMDB file *)
From Coq Require Import List Arith NArith Bool String Lia.
From Verif Require Import M_Base M_Data M_Heed M_Regex M_Lexer M_Graph M_Parser M_Display M_Interp M_Conc M_Commands M_HostConc M_Txn M_TxnConc
  S_Order S_Store S_Graph S_Interp S_Parser S_Conc S_Commands S_HostConc S_Txn S_TxnConc S_Wander P_Ord P_Hist P_Graph P_Parser P_Interp P_Conc P_ConcFoot P_Commands P_HostConc P_Retry P_HostLmdb.
From Verif Require Prop_TxnConc.
Import ListNotations.
Open Scope list_scope.

(** C128.  A program with a table of commands of the host's, run alone, does what
    the rules of C126 say, on every store: the client written out as a sequence
    of store calls is the interpreter. *)
Theorem C128_alone : forall (St : Type) (L : lig_impl St) cs calls st r st',
  no_name_twice cs -> (forall n x, In (n, x) cs -> modest x) ->
  (solo L (host_calls cs calls) st = (r, st') <-> runs_to L cs calls st r st').
Proof. exact (fun St L cs calls st r st' => host_solo L cs calls st r st'). Qed.
Print Assumptions C128_alone.

(** More room for recursion makes no difference to it. *)
Theorem C128_room : forall cs calls n,
  no_name_twice cs -> (forall n x, In (n, x) cs -> modest x) -> quotes_deep calls <= n ->
  same_client (deep_prog cs (S n) calls) (host_calls cs calls).
Proof. intros cs calls n T M H. exact (deep_same cs M T (quotes_deep calls) n (quotes_deep calls) calls (Nat.le_refl _) H (Nat.le_refl _)). Qed.
Print Assumptions C128_room.

(** With the nine standard commands it is the client of the other properties. *)
Theorem C128_prelude : forall script, same_client (host_run prelude script) (p_run common script).
Proof. exact prelude_host. Qed.
Print Assumptions C128_prelude.

(** Clients that are the same cannot be told apart among other clients. *)
Theorem C128_same_clients : forall (St : Type) (L : lig_impl St) sched d cl cl',
  (forall i, same_client (cl i) (cl' i)) ->
  let x := interleave L sched (Pool d cl) in let x' := interleave L sched (Pool d cl') in
  shared x = shared x' /\ forall i, same_client (clients x i) (clients x' i).
Proof. exact (fun St L sched => same_pool L sched). Qed.
Print Assumptions C128_same_clients.

(** A script with commands that stay with their arguments (the standard ones do),
    on an LMDB file other clients use at the same time, whatever programs they
    are: if they change no collection named in the script, it has the outcome it
    has alone, and leaves the collections it names as it does alone. *)
Theorem C128_isolated : forall h cl sched i cs script ts calls r,
  no_name_twice cs -> (forall n x, In (n, x) cs -> homely x) ->
  tokenize_and_filter script = Ok ts -> g_script ts calls -> cl i = host_run cs script ->
  (forall j c, j <> i -> may_change (cl j) c -> ~ names calls c) ->
  let G := graph_impl heed_impl in
  let d := after heed_impl heed_new h in
  (total_weight h + calls_weight (calls_made G sched (Pool d cl)) < 2 ^ 64)%N ->
  let x := interleave G sched (Pool d cl) in
  clients x i = Done r ->
  exists d', runs_to G cs calls d r d' /\ forall c, names calls c -> same_for G c (shared x) d'.
Proof.
  intros h cl sched i cs script ts calls r T M E1 E2 Ei HO G d W x Hr.
  assert (R : host_run cs script = host_calls cs calls) by (unfold host_run; rewrite E1, (proj2 (parse_ok ts calls) E2); reflexivity).
  assert (K : kept (names calls) (cl i)) by (rewrite Ei, R; apply (kept_deep cs M T)).
  destruct (host_among h cl sched i (names calls) r) as (d' & S & O); auto.
  - intros c Hc. exact (kept_uses _ _ _ K Hc).
  - exact (kept_local _ _ K).
  - exists d'. split; [|exact O]. apply (host_solo G cs calls); [exact T|intros n y Hy; apply homely_modest, (M _ _ Hy)|]. rewrite <- R, <- Ei. exact S.
Qed.
Print Assumptions C128_isolated.

(** The same when the operations of the calls on the file interleave. *)
Theorem C128_isolated_operations : forall h cl l i cs script ts calls r,
  no_name_twice cs -> (forall n x, In (n, x) cs -> homely x) ->
  tokenize_and_filter script = Ok ts -> g_script ts calls -> cl i = host_run cs script ->
  (forall j c, j <> i -> may_change (cl j) c -> ~ names calls c) ->
  (forall j, ~ In (Dies j) l) ->
  let G := graph_impl heed_impl in
  let d := after heed_impl heed_new h in
  (forall sched, map Moves sched = moments l (start d [] cl) -> total_weight h + calls_weight (calls_made G sched (Pool d cl)) < 2 ^ 64)%N ->
  let s := go_on l (start d [] cl) in
  doing s i = Idle (Done r) ->
  exists d', runs_to G cs calls d r d' /\ forall c, names calls c -> same_for G c (file s) d'.
Proof.
  intros h cl l i cs script ts calls r T M E1 E2 Ei HO Hd G d W s E.
  destruct (Prop_TxnConc.C119_lifts d cl l Hd) as (sched & Es & F1 & F2). cbv zeta in *. fold s in F1, F2. destruct (F2 i _ E) as [F3 _].
  destruct (C128_isolated h cl sched i cs script ts calls r T M E1 E2 Ei HO (W sched Es) F3) as (d' & R & O). exists d'. split; [exact R|].
  intros c Hc. unfold G. rewrite <- F1. apply O, Hc.
Qed.
Print Assumptions C128_isolated_operations.

(** The standard commands are such commands. *)
Theorem C128_prelude_homely : forall n x, In (n, x) prelude -> homely x.
Proof. exact prelude_homely. Qed.
Print Assumptions C128_prelude_homely.

(** A program killed between any two operations on the file: it leaves what the
    first of the writing calls of its run leave, in order, each whole. *)
Theorem C128_killed : forall h cs calls r d1 n,
  no_name_twice cs -> (forall n x, In (n, x) cs -> modest x) ->
  let G := graph_impl heed_impl in
  let d := after heed_impl heed_new h in
  runs_to G cs calls d r d1 ->
  exists g, d1 = after heed_impl heed_new (h ++ g)
    /\ exists b, begins b g
       /\ file (die 0 (go_on (repeat (Moves 0) n) (start d [] (fun _ => host_calls cs calls)))) = after heed_impl heed_new (h ++ b).
Proof.
  intros h cs calls r d1 n T M G d R. apply (host_solo G cs calls) in R; [|exact T|exact M].
  destruct (solo_history (host_calls cs calls) h) as (g & E & K). change (lm h) with d in E, K. unfold G in R. rewrite R in E. exists g. split; [exact E|].
  destruct (operations_alone (host_calls cs calls) d [] n) as [m Em]. cbv zeta in Em. rewrite alone_no_faults in Em. destruct (K m) as (b & Eb & B). exists b. split; [exact B|].
  change (file (die 0 ?s)) with (file s). apply (f_equal fst) in Em. cbn [fst] in Em. rewrite Em.
  destruct (alone (graph_impl heed_impl) m (host_calls cs calls) d) as [p' d']. cbn [fst snd] in *. exact Eb.
Qed.
Print Assumptions C128_killed.

(** Also while writes and commits fail: what it leaves, killed, it could have left
    running to its end with other failures. *)
Theorem C128_kill_is_failure : forall d fs cs calls n,
  no_name_twice cs -> (forall n x, In (n, x) cs -> modest x) ->
  let s := die 0 (go_on (repeat (Moves 0) n) (start d fs (fun _ => host_calls cs calls))) in
  exists fs' r, runs_to (graph_impl lmdb_at_once) cs calls (d, fs') r (file s, []).
Proof.
  intros d fs cs calls n T M s. destruct (operations_alone (host_calls cs calls) d fs n) as [m Em]. cbv zeta in Em.
  destruct (kill_fails m (host_calls cs calls) d fs) as (fs1 & r & H). specialize (H []). rewrite app_nil_r, <- Em in H. cbn [fst] in H.
  exists fs1, r. apply (host_solo (graph_impl lmdb_at_once) cs calls); [exact T|exact M|exact H].
Qed.
Print Assumptions C128_kill_is_failure.

(** ** A case: a host's command that copies a collection into another one *)
Definition b_copy (_ : list (str * str)) (args : list value) : body :=
  match args with
  | [VElement a; VElement b] =>
      BAsk (QEntries a) (fun x : lres (list entry) =>
        match x with
        | Ok es => BAsk (QAddCollection b) (fun _ => BAsk (QAddEntries b es) (fun _ => BDone (Ok (VNetwork es))))
        | Err e => BDone (Err (WErr e))
        | Panic w => BDone (Panic w)
        end)
  | _ => BDone (Err (WErr (lit "copy takes two names.")))
  end.
Definition hosts : table := (lit "copy", Cmd (lit "Copy.") b_copy) :: prelude.
Definition hc_script (j : nat) : str :=
  match j with 0 => lit "let a {x y z}, assert-fail (id), copy a b, read b" | 1 => lit "let c {p q r}, copy c d" | _ => [] end.

Example C128_case :
  no_name_twice hosts /\ (forall n x, In (n, x) hosts -> homely x)
  /\ (exists ts calls, tokenize_and_filter (hc_script 0) = Ok ts /\ g_script ts calls
        /\ forall c, may_change (host_run hosts (hc_script 1)) c -> ~ names calls c)
  /\ let cl := fun j => host_run hosts (hc_script j) in
     let x := interleave (graph_impl heed_impl) [1; 0; 1; 0; 0; 1; 0; 1; 0; 1; 0] (Pool heed_new cl) in
     clients x 0 = Done (Ok (VNetwork [Role (mkE (lit "x")) (mkE (lit "z")) (mkE (lit "y"))])).
Proof.
  assert (T : no_name_twice hosts) by (unfold no_name_twice; vm_compute; repeat constructor; cbn; intuition discriminate).
  assert (M : forall n x, In (n, x) hosts -> homely x).
  { intros n x [[= <- <-]|I]; [|exact (prelude_homely n x I)]. intros l args. cbn [cmd_does]. unfold b_copy.
    destruct args as [|a [|b [|z args]]]; try constructor; destruct a as [a| |]; try constructor; destruct b as [b| |]; try constructor.
    apply (sw_ask _ _ _ a); [apply wi_here; left; reflexivity|reflexivity|discriminate|]. intros [es|e|w]; try constructor.
    apply (sw_ask _ _ _ b); [apply wi_here; right; left; reflexivity|reflexivity|discriminate|]. intros _.
    apply (sw_ask _ _ _ b); [apply wi_here; right; left; reflexivity|reflexivity|discriminate|]. intros _. constructor. }
  split; [exact T|]. split; [exact M|]. split; [|vm_compute; reflexivity].
  destruct (tokenize_and_filter (hc_script 0)) as [ts|e|w] eqn:E1; [|vm_compute in E1; discriminate|vm_compute in E1; discriminate].
  destruct (parse ts) as [calls|e|w] eqn:E2; [|vm_compute in E1; injection E1 as <-; vm_compute in E2; discriminate|vm_compute in E1; injection E1 as <-; vm_compute in E2; discriminate].
  exists ts, calls. split; [reflexivity|]. split; [apply parse_ok, E2|]. vm_compute in E1. injection E1 as <-. vm_compute in E2. injection E2 as <-.
  intros c Hc. destruct (tokenize_and_filter (hc_script 1)) as [ts1|e|w] eqn:F1; [|vm_compute in F1; discriminate|vm_compute in F1; discriminate].
  destruct (parse ts1) as [calls1|e|w] eqn:F2; [|vm_compute in F1; injection F1 as <-; vm_compute in F2; discriminate|vm_compute in F1; injection F1 as <-; vm_compute in F2; discriminate].
  apply changes_may in Hc. destruct Hc as (q & Hq & A & _).
  unfold host_run in Hq. rewrite F1, F2 in Hq. assert (U : uses (host_calls hosts calls1) c) by (exists q; auto).
  apply (kept_uses (names calls1)) in U; [|apply (kept_deep hosts M T)].
  vm_compute in F1. injection F1 as <-. vm_compute in F2. injection F2 as <-.
  intros N. destruct U as (x & v & Hx & Hv & V). destruct N as (x2 & v2 & Hx2 & Hv2 & V2).
  repeat (destruct Hx as [<-|Hx]; [|]); try destruct Hx; repeat (destruct Hv as [<-|Hv]; [|]); try destruct Hv; inversion V; subst; cbn [el_name] in *;
  repeat (destruct Hx2 as [<-|Hx2]; [|]); try destruct Hx2; repeat (destruct Hv2 as [<-|Hv2]; [|]); try destruct Hv2; inversion V2; subst; cbn [el_name In] in *; try discriminate; try contradiction.
Qed.
