(** * C130: one client among others that die, on a failing disk *)
From Coq Require Import List Arith NArith Bool String Lia.
From Verif Require Import M_Base M_Data M_Heed M_Txn M_Regex M_Lexer M_Graph M_Parser M_Display M_Interp M_Conc M_Commands M_HostConc M_TxnConc
  S_Order S_Str S_Store S_Txn S_Graph S_Lexer S_Parser S_Interp S_Conc S_ConcSee S_Commands S_HostConc S_Wander S_Rewrite S_TxnConc S_Footprint S_Failing S_AnyRetry S_Isolated
  P_Ord P_Hist P_HeedHist P_Lexer P_LexMore P_Parser P_Wander P_WanderRun P_Conc P_ConcFoot P_HostConc P_HostLmdb P_Retry P_AnyRetry P_Isolated.
From Verif Require Prop_HostConc Prop_Failing.
Import ListNotations.
Open Scope list_scope.

(** C130.  Clients of one LMDB file, their operations interleaved in any way; writes
    and commits fail; clients die, also in the middle of calls.  One client makes
    calls about collections of [C] only, removes no entries and does not list the
    collections, a panic of a call is its panic; no other client changes a
    collection of [C].  Then, whatever the others do, and whoever died, the client
    is where it could be alone on the file as it was, with some failures of its
    own, or both have panicked; and the collections of [C] are as they are then. *)
Theorem C130_alone : forall h fs cl l i (C : str -> Prop),
  (forall c, uses (cl i) c -> C c) -> (forall j c, j <> i -> may_change (cl j) c -> ~ C c) -> local (cl i) -> falls (cl i) ->
  let d := after heed_impl heed_new h in
  let s0 := start d fs cl in
  let made := answered (graph_impl lmdb_at_once) (moments l s0) (Pool (d, fs) cl) in
  (total_weight h + events_weight made < 2 ^ 64)%N ->
  let s := go_on l s0 in
  exists fs' p d',
    alone (graph_impl lmdb_at_once) (List.length (of_client i made)) (cl i) (d, fs') = (p, (d', []))
    /\ (forall c, C c -> same_for (graph_impl heed_impl) c (file s) d')
    /\ (~ In (Dies i) l -> forall p0, doing s i = Idle p0 -> alike_clients p0 p).
Proof.
  intros h fs cl l i C HU HO HL HF d s0 made W s.
  destruct (isolated h fs cl l i C [] HU HO HL HF W) as (hs' & ha' & fs' & p & tr & E1 & E2 & E3 & _ & E5).
  exists fs', p, (lm ha'). split; [exact (alone_log _ _ _ _ _ _ _ _ E2)|]. split; [|exact E5].
  intros c Hc. replace (file s) with (lm hs') by (symmetry; exact E1). apply obs_same_for, E3, Hc.
Qed.
Print Assumptions C130_alone.

(** When it has ended: as its run alone, with some failures. *)
Theorem C130_ended : forall h fs cl l i (C : str -> Prop) r,
  (forall c, uses (cl i) c -> C c) -> (forall j c, j <> i -> may_change (cl j) c -> ~ C c) -> local (cl i) -> falls (cl i) ->
  let d := after heed_impl heed_new h in
  let s0 := start d fs cl in
  let made := answered (graph_impl lmdb_at_once) (moments l s0) (Pool (d, fs) cl) in
  (total_weight h + events_weight made < 2 ^ 64)%N ->
  let s := go_on l s0 in
  ~ In (Dies i) l -> doing s i = Idle (Done r) ->
  exists fs' r' d', solo (graph_impl lmdb_at_once) (cl i) (d, fs') = (r', (d', [])) /\ alike r r'
    /\ forall c, C c -> same_for (graph_impl heed_impl) c (file s) d'.
Proof.
  intros h fs cl l i C r HU HO HL HF d s0 made W s N Er.
  destruct (C130_alone h fs cl l i C HU HO HL HF W) as (fs' & p & d' & E1 & E2 & E3).
  destruct (alike_done r p (E3 N _ Er)) as (r' & -> & A). exists fs', r', d'. split; [exact (alone_all _ _ _ _ _ _ E1)|]. auto.
Qed.
Print Assumptions C130_ended.

(** Whether it has ended, is in the middle or has died: the collections of [C] are
    as some run of it alone leaves them. *)
Theorem C130_at_any_time : forall h fs cl l i (C : str -> Prop),
  (forall c, uses (cl i) c -> C c) -> (forall j c, j <> i -> may_change (cl j) c -> ~ C c) -> local (cl i) -> falls (cl i) ->
  let d := after heed_impl heed_new h in
  let s0 := start d fs cl in
  let made := answered (graph_impl lmdb_at_once) (moments l s0) (Pool (d, fs) cl) in
  (total_weight h + events_weight made < 2 ^ 64)%N ->
  exists fs' r' d', solo (graph_impl lmdb_at_once) (cl i) (d, fs') = (r', (d', []))
    /\ forall c, C c -> same_for (graph_impl heed_impl) c (file (go_on l s0)) d'.
Proof.
  intros h fs cl l i C HU HO HL HF d s0 made W.
  destruct (C130_alone h fs cl l i C HU HO HL HF W) as (fs' & p & d' & E1 & E2 & _).
  destruct (kill_fails (List.length (of_client i made)) (cl i) d fs') as (fs1 & r & H). specialize (H []). rewrite app_nil_r in H.
  exists fs1, r, d'. split; [|exact E2]. rewrite H. unfold made, s0, d in *. rewrite E1. reflexivity.
Qed.
Print Assumptions C130_at_any_time.

(** A Wander script among any other programs that change no network it looks at. *)
Theorem C130_script : forall h fs cl l i script r,
  cl i = p_run common script -> (forall j c, j <> i -> may_change (cl j) c -> ~ looks_at script c) ->
  let d := after heed_impl heed_new h in
  let s0 := start d fs cl in
  (total_weight h + events_weight (answered (graph_impl lmdb_at_once) (moments l s0) (Pool (d, fs) cl)) < 2 ^ 64)%N ->
  let s := go_on l s0 in
  ~ In (Dies i) l -> doing s i = Idle (Done r) ->
  exists fs' r' d', run (graph_impl lmdb_at_once) common script (d, fs') = (r', (d', [])) /\ outcome_of r = outcome_of r'
    /\ forall c, looks_at script c -> same_for (graph_impl heed_impl) c (file s) d'.
Proof.
  intros h fs cl l i script r Ei HO d s0 W s N Er. pose proof (footed_script script) as F. rewrite <- Ei in F.
  destruct (C130_ended h fs cl l i (looks_at script) r) as (fs' & r' & d' & E1 & E2 & E3); try assumption.
  - intros c. exact (footed_uses _ _ _ c F).
  - exact (footed_local _ _ _ F).
  - rewrite Ei. apply falls_script.
  - exists fs', r', d'. rewrite Ei, solo_common in E1. split; [exact E1|]. split; [exact (alike_outcome _ _ E2)|exact E3].
Qed.
Print Assumptions C130_script.

(** By the reference of C125: its outcome, and what the networks it looks at are in
    the end, are what the reference says of it, begun in the world of the start. *)
Theorem C130_reference : forall h fs cl l i script r w v,
  cl i = p_run common script -> (forall j c, j <> i -> may_change (cl j) c -> ~ looks_at script c) ->
  let d := after heed_impl heed_new h in
  let s0 := start d fs cl in
  (total_weight h + events_weight (answered (graph_impl lmdb_at_once) (moments l s0) (Pool (d, fs) cl)) < 2 ^ 64)%N ->
  let s := go_on l s0 in
  ~ In (Dies i) l -> doing s i = Idle (Done r) ->
  shows heed_impl d w -> shows heed_impl (file s) v ->
  exists w', means_on lets_failing w script (outcome_of r) w' /\ agree_on (looks_at script) w' v.
Proof.
  intros h fs cl l i script r w v Ei HO d s0 W s N Er Sw Sv. pose proof (footed_script script) as F. rewrite <- Ei in F.
  destruct (isolated h fs cl l i (looks_at script) h) as (hs' & ha' & fs' & p & tr & E1 & E2 & E3 & E4 & E5); try assumption.
  - intros c. exact (footed_uses _ _ _ c F).
  - exact (footed_local _ _ _ F).
  - rewrite Ei. apply falls_script.
  - destruct (alike_done r p (E5 N _ Er)) as (r' & -> & A). apply alone_all in E2. rewrite Ei, log_common in E2.
    destruct (Prop_Failing.C125_reference h script w fs' r' (lm ha') [] (h ++ tr) Sw E2) as (_ & w' & M & S').
    + rewrite total_weight_app. eapply N.le_lt_trans; [apply N.add_le_mono_l; eapply N.le_trans; [exact E4|apply client_weight]|exact W].
    + exists w'. rewrite (alike_outcome _ _ A). split; [exact M|]. intros n Hn.
      assert (Sv' : shows heed_impl (lm hs') v) by (rewrite <- E1; exact Sv). exact (obs_world n hs' ha' v w' (E3 n Hn) Sv' S').
Qed.
Print Assumptions C130_reference.

(** Among other scripts it is enough that they let nothing it looks at. *)
Theorem C130_other_scripts : forall (scripts : nat -> str) (i : nat),
  (forall j n, j <> i -> lets_name (scripts j) n -> ~ looks_at (scripts i) n) ->
  let cl := fun j => p_run common (scripts j) in
  forall j c, j <> i -> may_change (cl j) c -> ~ looks_at (scripts i) c.
Proof.
  intros scripts i H cl j c Hj M. apply (H j c Hj). apply changes_may in M. exact (footed_changes _ _ _ c (footed_script (scripts j)) M).
Qed.
Print Assumptions C130_other_scripts.

(** A script with commands of the host's, by the rules of C126. *)
Theorem C130_host : forall h fs cl l i cs script ts calls r,
  no_name_twice cs -> (forall n x, In (n, x) cs -> homely x) ->
  tokenize_and_filter script = Ok ts -> g_script ts calls -> cl i = host_run cs script ->
  (forall j c, j <> i -> may_change (cl j) c -> ~ names calls c) ->
  let d := after heed_impl heed_new h in
  let s0 := start d fs cl in
  (total_weight h + events_weight (answered (graph_impl lmdb_at_once) (moments l s0) (Pool (d, fs) cl)) < 2 ^ 64)%N ->
  let s := go_on l s0 in
  ~ In (Dies i) l -> doing s i = Idle (Done r) ->
  exists fs' r' d', runs_to (graph_impl lmdb_at_once) cs calls (d, fs') r' (d', []) /\ alike r r'
    /\ forall c, names calls c -> same_for (graph_impl heed_impl) c (file s) d'.
Proof.
  intros h fs cl l i cs script ts calls r T M E1 E2 Ei HO d s0 W s N Er.
  assert (R : cl i = host_calls cs calls) by (rewrite Ei; unfold host_run; rewrite E1, (proj2 (parse_ok ts calls) E2); reflexivity).
  assert (K : kept (names calls) (cl i)) by (rewrite R; apply (kept_deep cs M T)).
  destruct (C130_ended h fs cl l i (names calls) r) as (fs' & r' & d' & X1 & X2 & X3); try assumption.
  - intros c Hc. exact (kept_uses _ _ _ K Hc).
  - exact (kept_local _ _ K).
  - rewrite R. apply falls_deep.
  - exists fs', r', d'. rewrite R in X1. split; [|auto]. apply (Prop_HostConc.C128_alone _ (graph_impl lmdb_at_once) cs calls); [exact T| |exact X1].
    intros n x Hx. apply homely_modest, (M n x Hx).
Qed.
Print Assumptions C130_host.

(** A case.  Client 0 lets [n] and reads it; client 1 lets [m] and dies in the
    middle of creating it; client 2 removes [m], which panics.  The commit of client 0's adding
    fails, and the removal would have.  It answers the empty network: as alone with
    another list of failures, in which the adding comes second, not third. *)
Definition is_script : str := lit "let n { a b c }, read n".
Definition is_clients (j : nat) : prog :=
  match j with
  | 0 => p_run common is_script
  | 1 => p_run common (lit "let m { d e f }")
  | 2 => Ask (QRemoveCollection (mkE (lit "m"))) (fun _ => Done (Ok unit_value))
  | _ => Done (Ok unit_value)
  end.
Definition is_faults : list fault := [no_fault; (Some 0, false); (None, false)].
Definition is_happens : list happening :=
  repeat (Moves 1) 5 ++ [Dies 1] ++ repeat (Moves 0) 11 ++ [Moves 2; Moves 2] ++ repeat (Moves 0) 3 ++ repeat (Moves 2) 10 ++ repeat (Moves 0) 60.

Example C130_case :
  let d := heed_new in
  let s0 := start d is_faults is_clients in
  let made := answered (graph_impl lmdb_at_once) (moments is_happens s0) (Pool (d, is_faults) is_clients) in
  let s := go_on is_happens s0 in
  let outcome a := match a with Idle (Done r) => Some (outcome_of r) | _ => None end in
  outcome (doing s 0) = Some (Answers (VNetwork []))
  /\ map who made = [0; 2; 0; 0] /\ ~ In (Dies 0) is_happens
  /\ (total_weight [] + events_weight made < 2 ^ 64)%N
  /\ (forall j c, j <> 0 -> may_change (is_clients j) c -> ~ looks_at is_script c)
  /\ (let (r, st) := run (graph_impl lmdb_at_once) common is_script (d, [no_fault; (None, false)]) in
      outcome_of r = Answers (VNetwork []) /\ t_collections heed_impl (fst st) = Ok [lit "n"])
  /\ t_collections heed_impl (file s) = Ok [lit "n"].
Proof.
  cbv zeta. split; [vm_compute; reflexivity|]. split; [vm_compute; reflexivity|]. split; [|split; [vm_compute; reflexivity|split; [|split; vm_compute; auto]]].
  - intros H. vm_compute in H. repeat destruct H as [H|H]; try discriminate H; exact H.
  - assert (T : forall s toks k cs, tokenize s = Ok toks -> tokenize_and_filter s = Ok k -> parse k = Ok cs -> forall ds, reads_as s ds -> ds = cs).
    { intros s toks k cs E Ef Ep ds (ts & k2 & L & K2 & Gs). destruct (filter_keeps _ _ E) as (k' & Ek & K & U). rewrite Ef in Ek. injection Ek as <-.
      apply tokenize_ok in L. assert (ts = toks) as -> by congruence. apply U in K2. subst k2. apply parse_ok in Gs. congruence. }
    let e := fresh in evar (e : list call); assert (T0 : forall ds, reads_as is_script ds -> ds = e) by (subst e; eapply T; vm_compute; reflexivity); subst e.
    let e := fresh in evar (e : list call); assert (T1 : forall ds, reads_as (lit "let m { d e f }") ds -> ds = e) by (subst e; eapply T; vm_compute; reflexivity); subst e.
    assert (Lk : forall c, looks_at is_script c -> c = lit "n").
    { intros n (ds & d & R & Hd & H). rewrite (T0 _ R) in Hd. cbn [In] in Hd. repeat destruct Hd as [Hd|Hd]; subst; try contradiction; cbn [c_name c_args el_name] in H.
      all: repeat match goal with
        | K : call_looks _ _ _ |- _ => inversion K; clear K; subst; try discriminate
        | K : value_looks _ _ |- _ => inversion K; clear K; subst; try discriminate end; reflexivity. }
    assert (Lt : forall c, lets_name (lit "let m { d e f }") c -> c = lit "m").
    { intros n (ds & d & R & Hd & H). rewrite (T1 _ R) in Hd. cbn [In] in Hd. repeat destruct Hd as [Hd|Hd]; subst; try contradiction; cbn [c_name c_args el_name] in H.
      all: repeat match goal with
        | K : call_lets _ _ _ |- _ => inversion K; clear K; subst; try discriminate
        | K : value_lets _ _ |- _ => inversion K; clear K; subst; try discriminate end; reflexivity. }
    intros j c Hj M Hc. apply Lk in Hc. subst c. destruct j as [|[|[|j]]]; [destruct (Hj eq_refl)|..]; cbn [is_clients] in M.
    + apply changes_may in M. apply (footed_changes _ _ _ _ (footed_script _)) in M. apply Lt in M. discriminate M.
    + destruct M as (q & x & Hq & Hx & M). cbn [asks] in Hq. destruct Hq as [->|[a []]]. repeat destruct M as [M|M]; try discriminate M; try (injection M as <-; discriminate Hx); destruct M as [es M]; discriminate M.
    + destruct M as (q & x & [] & _).
Qed.
Print Assumptions C130_case.
