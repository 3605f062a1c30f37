(** * Proofs: a database file over many lives of its process *)
From Coq Require Import List Arith NArith Bool String Lia Permutation.
From Verif Require Import M_Base M_Data M_Heed M_Txn M_Regex M_Lexer M_Graph M_Parser M_Display M_Interp M_Conc M_HostConc M_TxnConc
  S_Order S_Str S_Store S_Txn S_Graph S_Lexer S_Parser S_Interp S_Names S_Json S_Conc S_ConcSee S_Wander S_Rewrite S_TxnConc S_Footprint S_Deaths S_HostConc S_Isolated S_ConcFail S_Gens
  P_Ord P_Hist P_HeedHist P_Lexer P_LexMore P_Parser P_Wander P_WanderDet P_WanderRun P_Conc P_Rewrite P_Footprint P_ConcFoot P_FailRun P_Retry P_HostLmdb P_Isolated P_ConcFail P_Fair S_Failing.
From Verif Require Prop_TxnConc Prop_ConcFail.
Import ListNotations.
Open Scope list_scope.

(** The file is always what some history of calls leaves, not heavier than the calls made. *)
Lemma at_once_history l : forall hs fs cl, let y0 := Pool (lm hs, fs) cl in
  exists hs', fst (shared (at_once AO l y0)) = lm hs' /\ (total_weight hs' <= total_weight hs + events_weight (answered AO l y0))%N.
Proof.
  induction l as [|[j|j] l IH]; intros hs fs cl y0.
  - exists hs. split; [reflexivity|]. cbn. lia.
  - unfold y0. cbn [at_once fold_left answered]. fold (at_once AO l). cbn [happen_at_once clients shared]. unfold turn. cbn [clients shared].
    destruct (cl j) as [r|q k] eqn:Ej; [exact (IH hs fs cl)|]. destruct (any_step q hs fs) as (e & He & Es). pose proof (weight_part q e He) as We.
    destruct (perform AO q (lm hs, fs)) as [a [d1 fs1]] eqn:Ep. cbn [fst snd List.app] in *. subst d1.
    destruct (IH (hs ++ e) fs1 (update cl j (k a))) as (hs' & E1 & E2). exists hs'. split; [exact E1|].
    unfold events_weight in *. cbn [fold_right what]. rewrite total_weight_app in E2. lia.
  - unfold y0. cbn [at_once fold_left answered happen_at_once clients shared List.app]. fold (at_once AO l). exact (IH hs fs (update cl j gone)).
Qed.

(** One life leaves a file that a history leaves. *)
Lemma life_history h g n : (forall x, In x (g_scripts g) -> costs (p_run common x) n) ->
  exists h', file (end_of g (lm h)) = lm h' /\ (total_weight h' <= total_weight h + N.of_nat (List.length (g_scripts g)) * n)%N
    /\ (events_weight (answered AO (moments (g_happens g) (start (lm h) (g_faults g) (fun j => p_run common (nth j (g_scripts g) []))))
          (Pool (lm h, g_faults g) (fun j => p_run common (nth j (g_scripts g) [])))) <= N.of_nat (List.length (g_scripts g)) * n)%N.
Proof.
  intros HC. set (cl := fun j => p_run common (nth j (g_scripts g) [])). set (s0 := start (lm h) (g_faults g) cl). set (y0 := Pool (lm h, g_faults g) cl).
  assert (W : (events_weight (answered AO (moments (g_happens g) s0) y0) <= N.of_nat (List.length (g_scripts g)) * n)%N).
  { rewrite <- budget_const. apply (answered_costs AO (List.length (g_scripts g))).
    - intros i Hi. unfold cl. rewrite nth_overflow by exact Hi. vm_compute. eexists. reflexivity.
    - intros j Hj. apply HC, nth_In, Hj. }
  destruct (at_once_history (moments (g_happens g) s0) h (g_faults g) cl) as (h' & E1 & E2).
  destruct (Prop_TxnConc.C119_at_once (lm h) (g_faults g) cl (g_happens g)) as [A1 _]. cbv zeta in A1. fold s0 y0 in A1, E1, E2.
  exists h'. split; [rewrite A1 in E1; exact E1|]. split; [lia|exact W].
Qed.
