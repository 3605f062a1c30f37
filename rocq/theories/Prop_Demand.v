(** * C135: how many ids a script can use up *)
From Coq Require Import List Arith NArith Bool String Lia Permutation.
From Verif Require Import M_Base M_Data M_Heed M_Txn M_Regex M_Lexer M_Graph M_Parser M_Display M_Interp M_Conc M_TxnConc
  S_Order S_Str S_Store S_Txn S_Graph S_Lexer S_Parser S_Interp S_Conc S_ConcSee S_Wander S_Rewrite S_TxnConc S_Footprint S_Isolated S_ConcFail S_Fair S_Gens S_Demand
  P_Ord P_Hist P_HeedHist P_Lexer P_LexMore P_Parser P_Conc P_Retry P_Fair P_Demand.
From Verif Require Prop_ConcFail Prop_Fair Prop_Gens.
From Verif Require Import S_Failing.
Import ListNotations.
Open Scope list_scope.

(** The room a text needs. *)
Definition room_of (script : str) : N := (28 * N.of_nat (List.length script))%N.

(** C135.  A script that lets nothing it reads or searches for can use up no more
    than 28 ids for each of its characters, whatever the store answers it. *)
Theorem C135_costs : forall script, frugal script -> costs (p_run common script) (room_of script).
Proof. exact text_costs. Qed.
Print Assumptions C135_costs.

(** So a run of it, on any store, makes calls that can use up no more than that; *)
Theorem C135_run : forall (S : Type) (I : trips_impl S) script st g r st' g', frugal script ->
  run (graph_impl (logged I)) common script (st, g) = (r, (st', g')) -> (total_weight g' <= total_weight g + room_of script)%N.
Proof.
  intros S I script st g r st' g' F E.
  assert (K : forall p n st g, costs p n -> (total_weight (snd (snd (solo (graph_impl (logged I)) p (st, g)))) <= total_weight g + n)%N).
  { clear. induction p as [r|q k IH]; intros n st g H; cbn [solo]; [cbn [snd]; lia|]. destruct H as [Hq H]. rewrite log_perform.
    specialize (IH (fst (perform (graph_impl I) q st)) _ (snd (perform (graph_impl I) q st)) (g ++ ops_of q) (H _)).
    rewrite total_weight_app in IH. pose proof (weight_of q). lia. }
  specialize (K _ _ st g (text_costs script F)). rewrite log_common, E in K. exact K.
Qed.
Print Assumptions C135_run.

(** Without the hypothesis there is no bound: what is read can be as large as it
    likes. *)
Theorem C135_reads_unbounded : forall n, ~ costs (p_run common (lit "let a (read b)")) n.
Proof.
  intros n C.
  pose (e := Role (mkE (lit "x")) (mkE (lit "y")) (mkE (lit "z"))). pose (es := repeat e (S (N.to_nat n))).
  assert (E : tokenize_and_filter (lit "let a (read b)") = Ok [TElement (mkE (lit "let")); TElement (mkE (lit "a")); TOpenParen; TElement (mkE (lit "read")); TElement (mkE (lit "b")); TCloseParen]) by (vm_compute; reflexivity).
  unfold p_run in C. rewrite E in C. clear E.
  match type of C with context [parse ?t] => assert (E : parse t = Ok [Call (mkE (lit "let")) [VElement (mkE (lit "a")); VQuote [VElement (mkE (lit "read")); VElement (mkE (lit "b"))]]]) by (vm_compute; reflexivity) end.
  rewrite E in C. clear E. unfold p_calls in C. cbn [p_calls_loop c_name c_args] in C.
  change (cmd_get common (el_name (mkE (lit "let")))) with (Some (@Command unit (lit "Set a named network.") FLet)) in C.
  cbn [cmd_fun_of p_exec p_let] in C.
  assert (E : p_quote common [VElement (mkE (lit "read")); VElement (mkE (lit "b"))] = pbind (p_read [VElement (mkE (lit "b"))]) (fun out => match out with Ok v => Done (Ok v) | Err e => Done (Err e) | Panic w => Done (Panic w) end)) by reflexivity.
  rewrite E in C. clear E. cbn [p_read pbind costs] in C. destruct C as [_ C]. specialize (C (Ok es)). cbn [pbind p_let_store costs] in C.
  destruct C as [_ C]. specialize (C (Ok tt)). cbn [pbind costs] in C. destruct C as [C _]. cbn [req_weight] in C. unfold es in C. rewrite repeat_length, Nat2N.inj_succ, N2Nat.id in C. lia.
Qed.
Print Assumptions C135_reads_unbounded.

(** ** What it is for: the room hypotheses of C131, C132 and C133 from the texts *)

Lemma costs_longest ss L : (forall x, In x ss -> frugal x /\ List.length x <= L) -> forall x, In x ss -> costs (p_run common x) (28 * N.of_nat L).
Proof. intros H x Hx. destruct (H x Hx) as [F B]. apply (costs_more _ (room_of x)); [unfold room_of; lia|apply C135_costs, F]. Qed.

(** Independent scripts at the same time, with deaths, on a failing disk (C131): at
    any time, and nothing is asked but that the texts are short enough. *)
Theorem C135_at_once : forall h fs ss ts l w L,
  (forall x, In x ss -> frugal x /\ List.length x <= L) -> (total_weight h + N.of_nat (List.length ss) * (28 * N.of_nat L) < 2 ^ 64)%N ->
  ForallOrdPairs independent ss -> Permutation ss ts ->
  let d := after heed_impl heed_new h in
  let s := go_on l (start d fs (fun j => p_run common (nth j ss []))) in
  shows heed_impl d w ->
  exists os os' w', List.length os = List.length ss
    /\ (forall j r, j < List.length ss -> ~ In (Dies j) l -> doing s j = Idle (Done r) -> nth_error os j = Some (outcome_of r))
    /\ Permutation (combine ss os) (combine ts os')
    /\ all_mean_on lets_failing w ts os' w' /\ shows heed_impl (file s) w'.
Proof.
  intros h fs ss ts l w L HL W Ind P d s Sw. pose proof (costs_longest ss L HL) as HC.
  apply (Prop_ConcFail.C131_serial h fs ss ts l w Ind P); [| |exact Sw].
  - eapply N.le_lt_trans; [|exact W]. apply N.add_le_mono_l. rewrite <- budget_const.
    apply (answered_costs (graph_impl lmdb_at_once) (List.length ss)).
    + intros i Hi. rewrite nth_overflow by exact Hi. vm_compute. eexists. reflexivity.
    + intros j Hj. apply HC, nth_In, Hj.
  - intros j Hj. right. intros fs'. pose proof (HC _ (nth_In _ [] Hj)) as C.
    pose proof (Prop_ConcFail.costs_solo _ _ ((d, fs'), h) C) as K. rewrite log_common in K. cbn [snd] in K.
    eapply N.le_lt_trans; [exact K|]. eapply N.le_lt_trans; [|exact W]. apply N.add_le_mono_l.
    assert (X : (1 <= N.of_nat (List.length ss))%N) by lia. nia.
Qed.
Print Assumptions C135_at_once.

(** Under any fair schedule (C132). *)
Theorem C135_fair : forall h fs ss ts happens w L,
  (forall x, In x ss -> frugal x /\ List.length x <= L) -> (total_weight h + N.of_nat (List.length ss) * (28 * N.of_nat L) < 2 ^ 64)%N ->
  ForallOrdPairs independent ss -> Permutation ss ts ->
  (forall i, i < List.length ss -> forall t, exists t', t <= t' /\ happens t' = Moves i) -> (forall i t, happens t <> Dies i) ->
  let d := after heed_impl heed_new h in
  shows heed_impl d w ->
  exists T, forall t, T <= t ->
    let s := at_time happens t (start d fs (fun j => p_run common (nth j ss []))) in
    exists os os' w', List.length os = List.length ss
      /\ (forall j, j < List.length ss -> exists r, doing s j = Idle (Done r) /\ nth_error os j = Some (outcome_of r))
      /\ Permutation (combine ss os) (combine ts os')
      /\ all_mean_on lets_failing w ts os' w' /\ shows heed_impl (file s) w'.
Proof.
  intros h fs ss ts happens w L HL W Ind P Fair ND d Sw.
  exact (Prop_Fair.C132_scripts h fs ss ts happens w (28 * N.of_nat L) Ind P Fair ND (costs_longest ss L HL) W Sw).
Qed.
Print Assumptions C135_fair.

(** In any number of lives of the process (C133). *)
Theorem C135_lives : forall gs tss h w L,
  (forall g x, In g gs -> In x (g_scripts g) -> frugal x /\ List.length x <= L) ->
  (total_weight h + N.of_nat (List.length (flat_map g_scripts gs)) * (28 * N.of_nat L) < 2 ^ 64)%N ->
  Forall2 (fun g ts => Permutation (g_scripts g) ts) gs tss ->
  (forall g, In g gs -> ForallOrdPairs independent (g_scripts g)) ->
  let d0 := after heed_impl heed_new h in
  shows heed_impl d0 w ->
  exists (ws : nat -> world) (oss : nat -> list outcome), ws 0 = w
    /\ forall k g ts, nth_error gs k = Some g -> nth_error tss k = Some ts ->
       let d := file_after (firstn k gs) d0 in
       all_mean_on lets_failing (ws k) ts (oss k) (ws (S k))
       /\ shows heed_impl (file_after (firstn (S k) gs) d0) (ws (S k))
       /\ exists os, List.length os = List.length (g_scripts g) /\ Permutation (combine (g_scripts g) os) (combine ts (oss k))
          /\ forall j r, heard g d j r -> nth_error os j = Some (outcome_of r).
Proof.
  intros gs tss h w L HL W P Ind d0 Sw.
  exact (Prop_Gens.C133_lives gs tss h w (28 * N.of_nat L) P Ind (fun g x Hg Hx => costs_longest (g_scripts g) L (fun y Hy => HL g y Hg Hy) x Hx) W Sw).
Qed.
Print Assumptions C135_lives.

(** ** A case *)

(** The scripts of C131's case let only what they say, are 28 characters at most,
    and so need no more than 1,568 ids between them; and reading back is what the
    hypothesis is about. *)
Example C135_case :
  (forall x, In x Prop_ConcFail.cl_ss -> frugal x /\ List.length x <= 28)
  /\ ForallOrdPairs independent Prop_ConcFail.cl_ss
  /\ (total_weight [] + N.of_nat (List.length Prop_ConcFail.cl_ss) * (28 * N.of_nat 28) = 1568)%N
  /\ ~ frugal (lit "let a (read b)").
Proof.
  assert (T : forall s toks k cs, tokenize s = Ok toks -> tokenize_and_filter s = Ok k -> parse k = Ok cs -> forall ds, reads_as s ds -> ds = cs).
  { intros s toks k cs E Ef Ep ds (ts & k2 & L & K2 & Gs). destruct (filter_keeps _ _ E) as (k' & Ek & K & U). rewrite Ef in Ek. injection Ek as <-.
    apply tokenize_ok in L. assert (ts = toks) as -> by congruence. apply U in K2. subst k2. apply parse_ok in Gs. congruence. }
  assert (R : forall s toks k cs, tokenize s = Ok toks -> tokenize_and_filter s = Ok k -> parse k = Ok cs -> reads_as s cs).
  { intros s toks k cs E Ef Ep. destruct (filter_keeps _ _ E) as (k' & Ek & K & U). rewrite Ef in Ek. injection Ek as <-.
    exists toks, k. split; [apply tokenize_ok, E|]. split; [exact K|apply parse_ok, Ep]. }
  split; [|split; [|split; [vm_compute; reflexivity|]]].
  - assert (F : forall s cs, (forall ds, reads_as s ds -> ds = cs) -> (forall c, In c cs -> ~ lets_a_read (el_name (c_name c)) (c_args c)) -> frugal s).
    { intros s cs U H ds c Rd Hc. rewrite (U ds Rd) in Hc. apply H, Hc. }
    intros x [<-|[<-|[]]]; (split; [|apply Nat.leb_le; vm_compute; reflexivity]).
    all: eapply F; [eapply T; vm_compute; reflexivity|]; intros c Hc; cbn [In] in Hc; repeat destruct Hc as [<-|Hc]; try contradiction; cbn [c_name c_args el_name]; intros K.
    all: repeat match goal with
      | K : In _ [] |- _ => destruct K
      | K : In _ (_ :: _) |- _ => destruct K as [K|K]; [try discriminate K; subst|]
      | K : VQuote _ = VQuote _ |- _ => injection K; clear K; intros; subst
      | K : lets_a_read _ _ |- _ => inversion K; clear K; subst; try discriminate
      | K : asks_back (VElement _) |- _ => inversion K
      | K : asks_back (VNetwork _) |- _ => inversion K
      | K : asks_back (VQuote (_ :: _)) |- _ => inversion K; clear K; subst; try discriminate
      | K : _ \/ _ |- _ => destruct K; discriminate
      end.
  - exact (proj1 (proj2 (proj2 (proj2 (proj2 (proj2 (proj2 Prop_ConcFail.C131_case))))))).
  - intros F. eapply F; [eapply R; vm_compute; reflexivity|left; reflexivity|].
    cbn [c_name c_args el_name]. eapply lr_here; [right; left; reflexivity|]. apply ab_here. left. reflexivity.
Qed.
Print Assumptions C135_case.
