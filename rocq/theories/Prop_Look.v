(** * Scripts never delete; sessions see only what reads show *)
From Coq Require Import List Arith NArith Bool String Lia.
From Verif Require Import M_Base M_Data M_Mem M_Heed M_Duck M_Regex M_Lexer M_Graph M_Parser M_Display M_Interp M_Conc
  S_Order S_Str S_Store S_Graph S_Lexer S_Parser S_Interp S_GraphHist S_Names S_Conc S_Frame S_Equiv S_Look
  P_Hist P_HeedHist P_InterpStores P_Conc P_Frame P_Look Prop_Display.
Import ListNotations.
Open Scope list_scope.

(** C93.  On LMDB, whatever the scripts of a session are, whatever they answer
    and whichever of their commits fail, every collection and every triple that
    could be read before can be read after. *)
Theorem C93_lmdb : forall h commits scripts,
  let d := after_f heed_impl_c heed_new h in
  let d' := fst (snd (session (graph_impl (flaky heed_impl_c)) scripts (d, commits))) in
  (forall c, has heed_impl d c -> has heed_impl d' c) /\ (forall c t, holds heed_impl d c t -> holds heed_impl d' c t).
Proof.
  intros h bs scripts d d'. destruct (session_ops (flaky heed_impl_c) scripts (d, bs)) as (g & E & H).
  unfold d'. rewrite E. apply lmdb_keeps. intros o Ho. destruct (H o Ho) as (x & c & _ & _ & Hc). exists c. exact Hc.
Qed.
Print Assumptions C93_lmdb.

Theorem C93_duck : forall h scripts,
  let d := after duck_impl duck_new h in
  let d' := snd (session (graph_impl duck_impl) scripts d) in
  (forall c, has duck_impl d c -> has duck_impl d' c) /\ (forall c t, holds duck_impl d c t -> holds duck_impl d' c t).
Proof.
  intros h scripts d d'. destruct (session_ops duck_impl scripts d) as (g & E & H).
  unfold d'. rewrite E. apply duck_keeps. intros o Ho. destruct (H o Ho) as (x & c & _ & _ & Hc). exists c. exact Hc.
Qed.
Print Assumptions C93_duck.

(** In memory no collection goes either, but let empties its collection first: a
    triple stays if no script lets its collection. *)
Theorem C93_mem : forall h scripts,
  let d := after mem_impl mem_new h in
  let d' := snd (session (graph_impl mem_impl) scripts d) in
  (forall c, has mem_impl d c -> has mem_impl d' c)
  /\ (forall c t, (forall x, In x scripts -> ~ lets x c) -> holds mem_impl d c t -> holds mem_impl d' c t).
Proof.
  intros h scripts d d'. destruct (session_ops mem_impl scripts d) as (g & E & H). unfold d'. rewrite E.
  assert (Hg : forall o, In o g -> exists c, extends c o) by (intros o Ho; destruct (H o Ho) as (x & c & _ & _ & Hc); exists c; exact Hc).
  destruct (mem_keeps h g Hg) as [K1 K2]. split; [exact K1|]. intros c t Hn. apply K2. intros o Ho <-.
  destruct (H o Ho) as (x & c & Hi & Hl & He). apply extends_target in He. subst c. exact (Hn x Hi Hl).
Qed.
Print Assumptions C93_mem.

Definition lk_t : trip := Trip (lit "a") (lit "b") (lit "c").
Definition lk_h : list op := [OAddColl (lit "n"); OAdd (lit "n") [lk_t]].
Definition lk_script : str := lit "let n {}".

Example C93_mem_let_empties :
  let d := after mem_impl mem_new lk_h in
  let d' := snd (session (graph_impl mem_impl) [lk_script] d) in
  lets lk_script (lit "n") /\ holds mem_impl d (lit "n") lk_t /\ has mem_impl d' (lit "n") /\ ~ holds mem_impl d' (lit "n") lk_t.
Proof.
  split; [|split; [|split]].
  - eexists _, _. split; [vm_compute; reflexivity|]. split; [vm_compute; reflexivity|].
    eexists. split; [left; reflexivity|]. apply mw_let. reflexivity.
  - eexists. split; [vm_compute; reflexivity|]. left. reflexivity.
  - eexists. split; [vm_compute; reflexivity|]. left. reflexivity.
  - intros (l & E & Hi). vm_compute in E. injection E as <-. exact Hi.
Qed.

Example C93_case :
  let d := after heed_impl heed_new lk_h in let e := after duck_impl duck_new lk_h in
  after_f heed_impl_c heed_new (map (fun o => (o, true)) lk_h) = d
  /\ holds heed_impl d (lit "n") lk_t /\ holds duck_impl e (lit "n") lk_t
  /\ fst (session (graph_impl heed_impl) [lk_script; lit "let m {x y z}, let n {d e f}, nope"; lit "read n"] d)
     = [Ok (VNetwork []); Err (WErr (lit "Could not find command: nope")); Ok (VNetwork [Role (mkE (lit "a")) (mkE (lit "c")) (mkE (lit "b")); Role (mkE (lit "d")) (mkE (lit "f")) (mkE (lit "e"))])].
Proof.
  split; [vm_compute; reflexivity|]. split; [|split].
  - eexists. split; [vm_compute; reflexivity|]. left. reflexivity.
  - eexists. split; [vm_compute; reflexivity|]. left. reflexivity.
  - vm_compute. reflexivity.
Qed.

(** C94.  Two stores of one kind that the reading calls show to be the same give
    the same answers to every session of scripts, and still look the same after
    it: no script can find out how a store came to be what it is.  Nothing may
    run out of ids, for which each call counts what it can use up. *)
Theorem C94_mem : forall h h' scripts,
  let d := after mem_impl mem_new h in let d' := after mem_impl mem_new h' in
  let G := graph_impl mem_impl in
  looks_same mem_impl d d' ->
  fst (session G scripts d) = fst (session G scripts d')
  /\ looks_same mem_impl (snd (session G scripts d)) (snd (session G scripts d')).
Proof. exact mem_session. Qed.
Print Assumptions C94_mem.

Theorem C94_lmdb : forall h h' scripts,
  let d := after heed_impl heed_new h in let d' := after heed_impl heed_new h' in
  let G := graph_impl heed_impl in
  let n := total_needed 3 (session_calls G scripts d) in
  (total_weight h + n < 2 ^ 64)%N -> (total_weight h' + n < 2 ^ 64)%N -> looks_same heed_impl d d' ->
  fst (session G scripts d) = fst (session G scripts d')
  /\ looks_same heed_impl (snd (session G scripts d)) (snd (session G scripts d')).
Proof. exact lmdb_session. Qed.
Print Assumptions C94_lmdb.

Theorem C94_duck : forall h h' scripts,
  let d := after duck_impl duck_new h in let d' := after duck_impl duck_new h' in
  let G := graph_impl duck_impl in
  let n := total_needed 4 (session_calls G scripts d) in
  (dtotal h + n < 2 ^ 63)%N -> (dtotal h' + n < 2 ^ 63)%N -> looks_same duck_impl d d' ->
  fst (session G scripts d) = fst (session G scripts d')
  /\ looks_same duck_impl (snd (session G scripts d)) (snd (session G scripts d')).
Proof. exact duck_session. Qed.
Print Assumptions C94_duck.

(** Two different LMDB stores (the second has dead words and a dead id) that look
    the same, and the room a session needs. *)
Definition lk_h' : list op :=
  [OAddColl (lit "z"); OAdd (lit "z") [Trip (lit "q") (lit "r") (lit "s")]; ORemColl (lit "z");
   OAddColl (lit "n"); OAdd (lit "n") [lk_t; Trip (lit "q") (lit "r") (lit "s")]; ORem (lit "n") [Trip (lit "q") (lit "r") (lit "s")]].
Definition lk_scripts : list str := [lit "let m (read n), let n {d e f}"; lit "read n"; lit "read m"].

Example C94_case :
  let d := after heed_impl heed_new lk_h in let d' := after heed_impl heed_new lk_h' in
  d <> d' /\ t_collections heed_impl d = t_collections heed_impl d' /\ t_triples heed_impl d (lit "n") = t_triples heed_impl d' (lit "n")
  /\ session_calls (graph_impl heed_impl) [lit "let m (read n), read m"] d
     = [QEntries (mkE (lit "n")); QAddCollection (mkE (lit "m"));
        QAddEntries (mkE (lit "m")) [Role (mkE (lit "a")) (mkE (lit "c")) (mkE (lit "b"))]; QEntries (mkE (lit "m"))]
  /\ total_needed 3 (session_calls (graph_impl heed_impl) lk_scripts d) = 8%N
  /\ (total_weight lk_h + 8 < 2 ^ 64)%N /\ (total_weight lk_h' + 8 < 2 ^ 64)%N
  /\ fst (session (graph_impl heed_impl) lk_scripts d) = fst (session (graph_impl heed_impl) lk_scripts d')
  /\ List.length (fst (session (graph_impl heed_impl) lk_scripts d)) = 3.
Proof.
  cbn zeta. split; [intros E; apply (f_equal h_c2i) in E; vm_compute in E; discriminate E|].
  repeat match goal with |- _ /\ _ => split end; vm_compute; reflexivity.
Qed.
