(** * Several clients of one LMDB store *)
From Coq Require Import List Arith NArith Bool String Lia.
From Verif Require Import M_Base M_Data M_Heed M_Regex M_Lexer M_Graph M_Parser M_Display M_Interp M_Conc
  S_Order S_Str S_Store S_Graph S_Parser S_Interp S_Conc P_Ord P_Hist P_Parser P_Conc.
Import ListNotations.
Open Scope list_scope.

(** The interpreter that makes one call at a time is the interpreter: run alone
    it gives the same result and leaves the same store, on every store. *)
Theorem C74_same_interpreter : forall (St : Type) (L : lig_impl St) script st,
  solo L (p_run common script) st = run L common script st.
Proof. intros St L script st. rewrite solo_run. reflexivity. Qed.
Print Assumptions C74_same_interpreter.

(** Likewise with any table whose host commands do not use the store. *)
Theorem C74_same_interpreter_hosts : forall (St : Type) (L : lig_impl St) (cs : @commands unit) script st,
  solo L (p_run cs script) st = run L (on_store cs) script st.
Proof. intros St L cs script st. apply solo_run. Qed.
Print Assumptions C74_same_interpreter_hosts.

(** C74.  Clients of one LMDB file, any number, any schedule: a client that
    shares no collection with the others is, after its n-th call, where it would
    be after its n-th call without them, and so are its collections. *)
Theorem C74_isolated : forall h cl sched i,
  (forall j c, j <> i -> uses (cl i) c -> ~ uses (cl j) c) -> local (cl i) ->
  let G := graph_impl heed_impl in
  let d := after heed_impl heed_new h in
  let made := calls_made G sched (Pool d cl) in
  (total_weight h + calls_weight made < 2 ^ 64)%N ->
  let x := interleave G sched (Pool d cl) in
  let a := alone G (turns_of i made) (cl i) d in
  clients x i = fst a /\ forall c, uses (cl i) c -> same_for G c (shared x) (snd a).
Proof. exact isolated. Qed.
Print Assumptions C74_isolated.

(** For scripts: one that shares no name with the others gives the result it
    gives alone and leaves its collections as alone. *)
Theorem C74_scripts_isolated : forall h scripts sched i r,
  (forall j c, j <> i -> script_names (scripts i) c -> ~ script_names (scripts j) c) ->
  let G := graph_impl heed_impl in
  let d := after heed_impl heed_new h in
  let x0 := Pool d (fun j => p_run common (scripts j)) in
  (total_weight h + calls_weight (calls_made G sched x0) < 2 ^ 64)%N ->
  let x := interleave G sched x0 in
  clients x i = Done r ->
  exists d', run G common (scripts i) d = (r, d')
    /\ forall c, script_names (scripts i) c -> same_for G c (shared x) d'.
Proof. exact isolated_scripts. Qed.
Print Assumptions C74_scripts_isolated.

Definition cx_a : str := lit "let n {a b c}, let m (read n), read m".
Definition cx_b : str := lit "let k {d e f}, assert-equal (read k) {d e f}".
Definition cx_scripts (j : nat) : str := match j with 0 => cx_a | 1 => cx_b | _ => [] end.
Definition cx_sched : list nat := [0; 1; 1; 0; 0; 1; 0; 0; 0; 0].

Lemma cx_names : forall j c, script_names (cx_scripts j) c ->
  match j with 0 => In c (map lit ["n"; "m"])%string | 1 => In c (map lit ["k"])%string | _ => False end.
Proof.
  intros j c (ts & calls & E & Gs & x & v & Hx & Hv & Hc). apply parse_ok in Gs. revert E Gs. revert ts.
  assert (K : forall s, (exists ts, tokenize_and_filter s = Ok ts /\ parse ts = Ok calls) ->
     match tokenize_and_filter s with Ok ts => parse ts = Ok calls | _ => False end).
  { intros s (ts & -> & E). exact E. }
  intros ts E Gs. specialize (K (cx_scripts j) (ex_intro _ ts (conj E Gs))). clear E Gs ts.
  destruct j as [|[|j]]; vm_compute in K; injection K as <-.
  all: repeat (destruct Hx as [<-|Hx]; [repeat (destruct Hv as [<-|Hv]; [|]); try destruct Hv|]); try destruct Hx.
  all: inversion Hc as [e0 He|h0 q0 u Hu Hcu]; subst; try (vm_compute; tauto).
  all: repeat (destruct Hu as [<-|Hu]; [|]); try destruct Hu.
  all: inversion Hcu; subst; vm_compute; tauto.
Qed.

Example C74_case :
  let G := graph_impl heed_impl in
  let x0 := Pool heed_new (fun j => p_run common (cx_scripts j)) in
  let x := interleave G cx_sched x0 in
  (forall j c, j <> 0 -> script_names (cx_scripts 0) c -> ~ script_names (cx_scripts j) c)
  /\ (exists l, clients x 0 = Done (Ok (VNetwork l)) /\ l <> []) /\ clients x 1 = Done (Ok (VNetwork []))
  /\ (total_weight [] + calls_weight (calls_made G cx_sched x0) = 12)%N.
Proof.
  split; [|split; [|split]].
  - intros j c Hj H0 H1. apply cx_names in H0, H1. destruct j as [|[|j]]; [destruct (Hj eq_refl)| |exact H1].
    cbn [map In] in H0, H1. destruct H1 as [<-|[]]. destruct H0 as [E|[E|[]]]; discriminate E.
  - eexists. split; [vm_compute; reflexivity|discriminate].
  - vm_compute. reflexivity.
  - vm_compute. reflexivity.
Qed.

(** Removing entries is different, and [C74_isolated] must leave it out: the ids of all
    collections come from one dictionary, and removing an entry whose names are
    not in it panics; so whether a client crashes when it removes from its own
    collection can depend on what others wrote into theirs.  (No Wander script
    removes entries.) *)
Definition cr_n : element := mkE (lit "n").
Definition cr_m : element := mkE (lit "m").
Definition cr_e : entry := Role (mkE (lit "a")) (mkE (lit "c")) (mkE (lit "b")).
Definition done_unit (a : lres unit) : prog :=
  Done match a with Ok _ => Ok unit_value | Err e => Err (WErr e) | Panic w => Panic w end.
Definition cr_clients (j : nat) : prog :=
  match j with
  | 0 => Ask (QRemoveEntries cr_n [cr_e]) done_unit
  | 1 => Ask (QAddEntries cr_m [cr_e]) done_unit
  | _ => Done (Ok unit_value)
  end.

Theorem C74_removing_not_isolated :
  exists h cl sched, let G := graph_impl heed_impl in let d := after heed_impl heed_new h in
  (forall j c, j <> 0 -> uses (cl 0) c -> ~ uses (cl j) c)
  /\ clients (interleave G sched (Pool d cl)) 0 = Done (Ok unit_value)
  /\ exists w, solo G (cl 0) d = (Panic w, d).
Proof.
  exists [OAddColl (lit "n"); OAddColl (lit "m")], cr_clients, [1; 0]. cbv zeta. split; [|split].
  - intros j c Hj (q & Hq & E) (q' & Hq' & E'). destruct j as [|[|j]]; [destruct (Hj eq_refl)| |destruct Hq'].
    destruct Hq as [->|(a & [])]. destruct Hq' as [->|(a & [])]. rewrite <- E in E'. discriminate E'.
  - vm_compute. reflexivity.
  - eexists. vm_compute. reflexivity.
Qed.
Print Assumptions C74_removing_not_isolated.

(** Nor is a script a transaction: two reads of one script can give different
    networks, which no order of the two scripts one after the other gives. *)
Definition ca_a : str := lit "assert-equal (read n) (read n)".
Definition ca_b : str := lit "let n {d e f}".
Definition ca_scripts (j : nat) : str := match j with 0 => ca_a | 1 => ca_b | _ => [] end.

Theorem C74_scripts_not_atomic :
  exists h sched, let G := graph_impl heed_impl in let d := after heed_impl heed_new h in
  let x := interleave G sched (Pool d (fun j => p_run common (ca_scripts j))) in
  (exists e, clients x 0 = Done (Err e)) /\ clients x 1 = Done (Ok (VNetwork []))
  /\ fst (run G common ca_a d) = Ok (VNetwork [])
  /\ fst (run G common ca_a (snd (run G common ca_b d))) = Ok (VNetwork []).
Proof.
  exists [OAddColl (lit "n")], [0; 1; 1; 0]. cbv zeta. split; [eexists; vm_compute; reflexivity|].
  split; [vm_compute; reflexivity|]. split; vm_compute; reflexivity.
Qed.
Print Assumptions C74_scripts_not_atomic.
