(** * C131: independent scripts at the same time, with deaths, on a failing disk *)
From Coq Require Import List Arith NArith Bool String Lia Permutation.
From Verif Require Import M_Base M_Data M_Heed M_Txn M_Regex M_Lexer M_Graph M_Parser M_Display M_Interp M_Conc M_TxnConc
  S_Order S_Str S_Store S_Txn S_Graph S_Lexer S_Parser S_Interp S_Names S_Json S_Conc S_ConcSee S_Wander S_Rewrite S_TxnConc S_Footprint S_Deaths S_HostConc S_Isolated S_ConcFail
  P_Ord P_Hist P_HeedHist P_Lexer P_LexMore P_Parser P_Wander P_WanderDet P_WanderRun P_Conc P_Rewrite P_Footprint P_ConcFoot P_FailRun P_Retry P_HostLmdb P_Isolated P_ConcFail S_Failing.
From Verif Require Prop_Failing Prop_Isolated Prop_Retry Prop_Wander.
Import ListNotations.
Open Scope list_scope.

(** The reference of C125: of two scripts of which neither lets what the other looks
    at, it does not matter which comes first; so for any number of them. *)
Theorem C131_any_order : forall w ss ts os w1,
  ForallOrdPairs independent ss -> Permutation ss ts -> all_mean_on lets_failing w ss os w1 ->
  exists os' w2, all_mean_on lets_failing w ts os' w2 /\ Permutation (combine ss os) (combine ts os') /\ same_world w1 w2.
Proof. intros w ss ts os w1 Ind P A. exact (reorder_on lets_failing failing_on ss ts P Ind w os w1 A). Qed.
Print Assumptions C131_any_order.

(** What it does depends on what it looks at only, and changes what it lets only. *)
Theorem C131_depends : forall script w o w' u,
  means_on lets_failing w script o w' -> agree_on (looks_at script) w u ->
  exists u', means_on lets_failing u script o u' /\ agree_on (looks_at script) w' u' /\ forall n, ~ lets_name script n -> u' n = u n.
Proof. intros script w o w' u M A. exact (means_on_on lets_failing failing_on script w o w' M (looks_at script) u (fun _ H => H) A). Qed.
Print Assumptions C131_depends.

(** One of them, in the reference: as it could be alone. *)
Lemma one_of h fs ss l w wx i : let cl := fun j => p_run common (nth j ss []) in
  let d := after heed_impl heed_new h in
  let s0 := start d fs cl in
  (total_weight h + events_weight (answered (graph_impl lmdb_at_once) (moments l s0) (Pool (d, fs) cl)) < 2 ^ 64)%N ->
  let s := go_on l s0 in
  (forall j c, j <> i -> may_change (cl j) c -> ~ looks_at (nth i ss []) c) ->
  (~ In (Dies i) l /\ (exists r, doing s i = Idle (Done r))
   \/ forall fs', (total_weight (snd (snd (run (graph_impl (logged lmdb_at_once)) common (nth i ss []) ((d, fs'), h)))) < 2 ^ 64)%N) ->
  shows heed_impl d w -> shows heed_impl (file s) wx ->
  exists o v, means_on lets_failing w (nth i ss []) o v /\ agree_on (looks_at (nth i ss [])) v wx
    /\ forall r, ~ In (Dies i) l -> doing s i = Idle (Done r) -> o = outcome_of r.
Proof.
  intros cl d s0 W s HO HR Sw Sx.
  assert (D : (~ In (Dies i) l /\ exists r, doing s i = Idle (Done r)) \/ ~ (~ In (Dies i) l /\ exists r, doing s i = Idle (Done r))).
  { assert (E : In (Dies i) l \/ ~ In (Dies i) l).
    { clear. induction l as [|[j|j] l [H|H]]; [right; intros []|left; right; exact H| |left; right; exact H|].
      - right. intros [K|K]; [discriminate K|exact (H K)].
      - destruct (Nat.eq_dec i j) as [->|N]; [left; left; reflexivity|]. right. intros [K|K]; [congruence|exact (H K)]. }
    destruct E as [E|E]; [right; intros [N _]; exact (N E)|].
    destruct (doing s i) as [[r|q k]|q k u t]; [left; split; [exact E|eexists; reflexivity]|right; intros [_ [r Er]]; discriminate Er..]. }
  destruct D as [[N (r & Er)]|ND].
  - destruct (Prop_Isolated.C130_reference h fs cl l i (nth i ss []) r w wx eq_refl HO W N Er Sw Sx) as (v & M & A).
    exists (outcome_of r), v. split; [exact M|]. split; [exact A|]. intros r' _ E. congruence.
  - destruct HR as [HR|Rm]; [destruct (ND HR)|].
    pose proof (footed_script (nth i ss [])) as F.
    destruct (isolated h fs cl l i (looks_at (nth i ss [])) h) as (hs' & ha' & fs' & p & tr & E1 & E2 & E3 & _ & _); try assumption.
    + intros c. exact (footed_uses _ _ _ c F).
    + exact (footed_local _ _ _ F).
    + exact (falls_script _).
    + apply alone_log in E2.
      destruct (kill_fails (List.length (of_client i (answered (graph_impl lmdb_at_once) (moments l s0) (Pool (d, fs) cl)))) (cl i) d fs') as (fs1 & r & H).
      specialize (H []). rewrite app_nil_r in H. change (after heed_impl heed_new h) with (lm h) in *. unfold s0, d in H. change (after heed_impl heed_new h) with (lm h) in H. rewrite E2 in H. cbn [fst snd] in H.
      destruct (run (graph_impl (logged lmdb_at_once)) common (nth i ss []) ((d, fs1), h)) as [r1 [[d1 f1] h1]] eqn:ER.
      specialize (Rm fs1). rewrite ER in Rm. cbn [snd] in Rm.
      destruct (Prop_Failing.C125_reference h (nth i ss []) w fs1 r1 d1 f1 h1 Sw ER Rm) as (RA & v & M & Sv).
      unfold cl in H. rewrite log_common in H. change (lm h) with d in H. assert (X : d1 = lm ha') by (apply logged_run in ER; rewrite ER in H; congruence). subst d1.
      exists (outcome_of r1), v. split; [exact M|]. split; [|intros r' N E; destruct ND; split; [exact N|eauto]].
      intros n Hn. assert (Sx' : shows heed_impl (lm hs') wx) by (rewrite <- E1; exact Sx). exact (obs_world n hs' ha' wx v (E3 n Hn) Sx' Sv).
Qed.

(** C131.  Scripts of which none lets what another looks at, all begun at once on
    one LMDB file, their operations interleaved in any way; writes and commits fail;
    clients die, also in the middle of calls.  At any time the file shows what it
    could show if they had been run one after the other, in any order, on a disk
    that fails; and the outcomes of those that have ended are the outcomes then. *)
Theorem C131_serial : forall h fs ss ts l w,
  ForallOrdPairs independent ss -> Permutation ss ts ->
  let d := after heed_impl heed_new h in
  let cl := fun j => p_run common (nth j ss []) in
  let s0 := start d fs cl in
  (total_weight h + events_weight (answered (graph_impl lmdb_at_once) (moments l s0) (Pool (d, fs) cl)) < 2 ^ 64)%N ->
  let s := go_on l s0 in
  (forall j, j < List.length ss -> (~ In (Dies j) l /\ exists r, doing s j = Idle (Done r))
     \/ forall fs', (total_weight (snd (snd (run (graph_impl (logged lmdb_at_once)) common (nth j ss []) ((d, fs'), h)))) < 2 ^ 64)%N) ->
  shows heed_impl d w ->
  exists os os' w', List.length os = List.length ss
    /\ (forall j r, j < List.length ss -> ~ In (Dies j) l -> doing s j = Idle (Done r) -> nth_error os j = Some (outcome_of r))
    /\ Permutation (combine ss os) (combine ts os')
    /\ all_mean_on lets_failing w ts os' w' /\ shows heed_impl (file s) w'.
Proof.
  intros h fs ss ts l w Ind P d cl s0 W s HR Sw.
  assert (Out : forall j, List.length ss <= j -> forall c, ~ may_change (cl j) c).
  { intros j Hj c M. unfold cl in M. rewrite nth_overflow in M by exact Hj. destruct M as (q & x & Hq & _). exact (no_script_asks q Hq). }
  assert (Away : forall i, i < List.length ss -> forall j c, j <> i -> may_change (cl j) c -> ~ looks_at (nth i ss []) c).
  { intros i Hi j c Hj M. destruct (Nat.lt_ge_cases j (List.length ss)) as [Lj|Lj]; [|destruct (Out j Lj c M)].
    apply (proj1 (pairwise ss Ind j i Lj Hi Hj)). apply changes_may in M. exact (footed_changes _ _ _ _ (footed_script _) M). }
  assert (Quiet : forall C : str -> Prop, (forall n j, C n -> j < List.length ss -> ~ lets_name (nth j ss []) n) -> exists hx, file s = lm hx /\ forall n, C n -> obs n (lm hx) (lm h)).
  { intros C No. pose proof (footed_script []) as F.
    assert (Ei : cl (List.length ss) = p_run common []) by (unfold cl; rewrite nth_overflow; reflexivity).
    destruct (isolated h fs cl l (List.length ss) C h) as (hs' & ha' & fs' & p & tr & E1 & E2 & E3 & _ & _); try assumption.
    - intros c (q & Hq & _). rewrite Ei in Hq. destruct (no_script_asks q Hq).
    - intros j c Hj M Hc. destruct (Nat.lt_ge_cases j (List.length ss)) as [Lj|Lj]; [|destruct (Out j Lj c M)].
      apply (No c j Hc Lj). apply changes_may in M. exact (footed_changes _ _ _ _ (footed_script _) M).
    - rewrite Ei. exact (footed_local _ _ _ F).
    - rewrite Ei. apply falls_script.
    - exists hs'. split; [exact E1|]. assert (X : lm ha' = lm h).
      { rewrite Ei in E2. assert (Y : exists r, p_run common [] = Done r) by (vm_compute; eauto). destruct Y as [r Y]. rewrite Y, alone_done in E2. congruence. }
      rewrite <- X. exact E3. }
  assert (Ex : exists hx, file s = lm hx).
  { destruct (Quiet (fun _ => False)) as (hx & E & _); [intros n j []|]. exists hx. exact E. }
  destruct Ex as (hx & Ex). destruct (a_world Lmdb heed_impl heed_new _ im_lmdb hx) as (wx & Hx).
  assert (Sx : shows heed_impl (file s) wx) by (rewrite Ex; exact Hx).
  destruct (choose (fun j (t : str * outcome * world) => fst (fst t) = nth j ss []
     /\ (forall r, ~ In (Dies j) l -> doing s j = Idle (Done r) -> snd (fst t) = outcome_of r)
     /\ means_on lets_failing w (nth j ss []) (snd (fst t)) (snd t) /\ forall c, looks_at (nth j ss []) c -> wx c = snd t c) (List.length ss)) as (tl & El & Hl).
  { intros i Hi. destruct (one_of h fs ss l w wx i W (Away i Hi) (HR i Hi) Sw Sx) as (o & v & M & A & E).
    exists (nth i ss [], o, v). cbn [fst snd]. split; [reflexivity|]. split; [exact E|]. split; [exact M|]. exact A. }
  assert (Es : map (fun t => fst (fst t)) tl = ss).
  { apply (nth_ext _ _ [] []); rewrite map_length; [exact El|]. intros j Hj.
    destruct (nth_error tl j) as [t|] eqn:Et; [|apply nth_error_None in Et; lia].
    rewrite (nth_error_nth _ _ [] (map_nth_error (fun t => fst (fst t)) j tl Et)). destruct (Hl j t Et) as (-> & _). reflexivity. }
  assert (Hin : forall x o v, In (x, o, v) tl -> exists j, j < List.length ss /\ x = nth j ss [] /\ means_on lets_failing w x o v /\ forall c, looks_at x c -> wx c = v c).
  { intros x o v Hi. apply In_nth_error in Hi as (j & Ej). destruct (Hl j _ Ej) as (Es' & _ & M & O). cbn [fst snd] in *. rewrite <- Es' in M, O.
    exists j. split; [rewrite <- El; apply nth_error_Some; congruence|]. auto. }
  destruct (gather_on lets_failing failing_on tl w) with (u := w) as (z & Az & Lz & Fz).
  - rewrite Es. exact Ind.
  - intros x o v Hi. destruct (Hin x o v Hi) as (_ & _ & _ & M & _). exact M.
  - intros x o v Hi n _. reflexivity.
  - rewrite Es in Az.
    assert (Sz : same_world wx z).
    { intros n. destruct (network_dec (wx n) (z n)) as [Hn|Hn]; [exact Hn|]. exfalso.
      apply (not_not_em (exists j, j < List.length ss /\ lets_name (nth j ss []) n)). intros [(j & Hj & Lj)|No]; apply Hn.
      - destruct (nth_error tl j) as [[[x o] v]|] eqn:Et; [|apply nth_error_None in Et; lia].
        destruct (Hl j _ Et) as (Es' & _ & _ & O). cbn [fst snd] in *. rewrite (O n (script_lets_looks _ _ Lj)).
        symmetry. apply (Lz x o v); [eapply nth_error_In, Et|]. rewrite Es'. apply script_lets_looks, Lj.
      - rewrite Fz.
        + destruct (Quiet (fun c => c = n)) as (hu & Eu & Ou); [intros c j -> Lj Hc; apply No; eauto|].
          apply (obs_world n hx h); [|exact Hx|exact Sw]. assert (Eh : lm hx = lm hu) by congruence. rewrite Eh. apply Ou. reflexivity.
        + intros x o v Hi L. destruct (Hin x o v Hi) as (j & Hj & -> & _). apply No. exists j. auto. }
    destruct (reorder_on lets_failing failing_on ss ts P Ind _ _ _ Az) as (os & v2 & A3 & Pm & Sv).
    exists (map (fun t => snd (fst t)) tl), os, v2. split; [rewrite map_length; exact El|]. split; [|split; [exact Pm|split; [exact A3|]]].
    + intros j r Hj N Er. destruct (nth_error tl j) as [t|] eqn:Et; [|apply nth_error_None in Et; lia].
      destruct (Hl j t Et) as (_ & E & _). rewrite nth_error_map, Et. cbn. rewrite (E r N Er). reflexivity.
    + eapply shows_same; [|exact Sx]. intros n. rewrite (Sz n). apply Sv.
Qed.
Print Assumptions C131_serial.

(** When all have ended and nobody died: nothing about room but that there are ids
    for the calls that were made. *)
Theorem C131_ended : forall h fs ss ts l w,
  ForallOrdPairs independent ss -> Permutation ss ts ->
  let d := after heed_impl heed_new h in
  let cl := fun j => p_run common (nth j ss []) in
  let s0 := start d fs cl in
  (total_weight h + events_weight (answered (graph_impl lmdb_at_once) (moments l s0) (Pool (d, fs) cl)) < 2 ^ 64)%N ->
  let s := go_on l s0 in
  (forall j, j < List.length ss -> ~ In (Dies j) l /\ exists r, doing s j = Idle (Done r)) ->
  shows heed_impl d w ->
  exists os os' w', List.length os = List.length ss
    /\ (forall j, j < List.length ss -> exists r, doing s j = Idle (Done r) /\ nth_error os j = Some (outcome_of r))
    /\ Permutation (combine ss os) (combine ts os')
    /\ all_mean_on lets_failing w ts os' w' /\ shows heed_impl (file s) w'.
Proof.
  intros h fs ss ts l w Ind P d cl s0 W s E Sw.
  destruct (C131_serial h fs ss ts l w Ind P W (fun j Hj => or_introl (E j Hj)) Sw) as (os & os' & w' & E1 & E2 & E3 & E4 & E5).
  exists os, os', w'. split; [exact E1|]. split; [|auto]. intros j Hj. destruct (E j Hj) as (N & r & Er). exists r. split; [exact Er|]. exact (E2 j r Hj N Er).
Qed.
Print Assumptions C131_ended.

(** And such a run one after the other there really is: with some list of failures. *)
Theorem C131_a_run : forall h fs ss ts l,
  ForallOrdPairs independent ss -> Permutation ss ts ->
  let d := after heed_impl heed_new h in
  let cl := fun j => p_run common (nth j ss []) in
  let s0 := start d fs cl in
  (total_weight h + events_weight (answered (graph_impl lmdb_at_once) (moments l s0) (Pool (d, fs) cl)) < 2 ^ 64)%N ->
  let s := go_on l s0 in
  (forall j, j < List.length ss -> (~ In (Dies j) l /\ exists r, doing s j = Idle (Done r))
     \/ forall fs', (total_weight (snd (snd (run (graph_impl (logged lmdb_at_once)) common (nth j ss []) ((d, fs'), h)))) < 2 ^ 64)%N) ->
  (forall fs', (total_weight (snd (snd (session (graph_impl (logged lmdb_at_once)) ts ((d, fs'), h)))) < 2 ^ 64)%N) ->
  exists os os' fs' rs d' h', List.length os = List.length ss
    /\ (forall j r, j < List.length ss -> ~ In (Dies j) l -> doing s j = Idle (Done r) -> nth_error os j = Some (outcome_of r))
    /\ Permutation (combine ss os) (combine ts os')
    /\ session (graph_impl (logged lmdb_at_once)) ts ((d, fs'), h) = (rs, ((d', []), h')) /\ map outcome_of rs = os'
    /\ look_alike heed_impl (file s) d'.
Proof.
  intros h fs ss ts l Ind P d cl s0 W s HR Rm. destruct (a_world Lmdb heed_impl heed_new _ im_lmdb h) as (w & Sw).
  destruct (C131_serial h fs ss ts l w Ind P W HR Sw) as (os & os' & w' & E1 & E2 & E3 & E4 & E5).
  destruct (Prop_Failing.C125_conversely h ts w os' w' Sw Rm E4) as (fs' & rs & d' & h' & X1 & X2 & X3).
  exists os, os', fs', rs, d', h'. split; [exact E1|]. split; [exact E2|]. split; [exact E3|]. split; [exact X1|]. split; [exact X2|].
  eapply alike_same; [exact E5|exact X3|apply same_refl].
Qed.
Print Assumptions C131_a_run.

(** There is room for a script, and for scripts one after the other, whatever fails,
    when what they can ask for is small enough. *)
Lemma costs_solo p : forall n st, costs p n ->
  (total_weight (snd (snd (solo (graph_impl (logged lmdb_at_once)) p st))) <= total_weight (snd st) + n)%N.
Proof.
  induction p as [r|q k IH]; intros n [s g] H; cbn [solo]; [cbn [snd]; lia|]. destruct H as [Hq H].
  rewrite log_perform. specialize (IH (fst (perform (graph_impl lmdb_at_once) q s)) _ (snd (perform (graph_impl lmdb_at_once) q s), g ++ ops_of q) (H _)).
  cbn [snd fst] in *. rewrite total_weight_app in IH. pose proof (weight_of q). lia.
Qed.

Theorem C131_room : forall scripts n h d fs,
  (forall x, In x scripts -> costs (p_run common x) n) -> (total_weight h + N.of_nat (List.length scripts) * n < 2 ^ 64)%N ->
  (total_weight (snd (snd (session (graph_impl (logged lmdb_at_once)) scripts ((d, fs), h)))) < 2 ^ 64)%N.
Proof.
  assert (K : forall scripts n st, (forall x, In x scripts -> costs (p_run common x) n) ->
    (total_weight (snd (snd (session (graph_impl (logged lmdb_at_once)) scripts st))) <= total_weight (snd st) + N.of_nat (List.length scripts) * n)%N).
  { induction scripts as [|x scripts IH]; intros n st H; [cbn; lia|]. cbn [session].
    pose proof (costs_solo _ n st (H x (or_introl eq_refl))) as W. rewrite log_common in W. destruct (run (graph_impl (logged lmdb_at_once)) common x st) as [r st1].
    specialize (IH n st1 (fun y Hy => H y (or_intror Hy))). destruct (session _ scripts st1) as [rs st2]. cbn [snd List.length] in *. lia. }
  intros scripts n h d fs H W. eapply N.le_lt_trans; [apply (K scripts n _ H)|]. exact W.
Qed.
Print Assumptions C131_room.

(** A case.  Client 0 lets [n] and dies when it has created it; client 1 lets [m]
    and reads it, and the commit of its adding fails: it answers the empty network.
    The file has both names and no entries. *)
Definition cl_ss : list str := [Prop_Retry.rt_let; lit "let m { d e f }, read m"].
Definition cl_faults : list fault := [no_fault; no_fault; (None, false)].
Definition cl_happens : list happening := repeat (Moves 0) 14 ++ repeat (Moves 1) 6 ++ [Dies 0] ++ repeat (Moves 1) 80.

Example C131_case :
  let d := heed_new in
  let cl := fun j => p_run common (nth j cl_ss []) in
  let s0 := start d cl_faults cl in
  let made := answered (graph_impl lmdb_at_once) (moments cl_happens s0) (Pool (d, cl_faults) cl) in
  let s := go_on cl_happens s0 in
  map who made = [0; 1; 1; 1]
  /\ (match doing s 1 with Idle (Done r) => Some (outcome_of r) | _ => None end) = Some (Answers (VNetwork []))
  /\ t_collections heed_impl (file s) = Ok [lit "m"; lit "n"]
  /\ l_entries (graph_impl heed_impl) (file s) (mkE (lit "m")) = Ok [] /\ l_entries (graph_impl heed_impl) (file s) (mkE (lit "n")) = Ok []
  /\ (total_weight [] + events_weight made < 2 ^ 64)%N
  /\ ForallOrdPairs independent cl_ss
  /\ ~ In (Dies 1) cl_happens
  /\ (forall x, In x cl_ss -> costs (p_run common x) 100).
Proof.
  cbv zeta. do 4 (split; [vm_compute; reflexivity|]). split; [vm_compute; reflexivity|]. split; [vm_compute; reflexivity|]. split; [|split].
  - assert (T : forall s toks k cs, tokenize s = Ok toks -> tokenize_and_filter s = Ok k -> parse k = Ok cs -> forall ds, reads_as s ds -> ds = cs).
    { intros s toks k cs E Ef Ep ds (ts & k2 & L & K2 & Gs). destruct (filter_keeps _ _ E) as (k' & Ek & K & U). rewrite Ef in Ek. injection Ek as <-.
      apply tokenize_ok in L. assert (ts = toks) as -> by congruence. apply U in K2. subst k2. apply parse_ok in Gs. congruence. }
    let e := fresh in evar (e : list call); assert (T0 : forall ds, reads_as Prop_Retry.rt_let ds -> ds = e) by (subst e; eapply T; vm_compute; reflexivity); subst e.
    let e := fresh in evar (e : list call); assert (T1 : forall ds, reads_as (lit "let m { d e f }, read m") ds -> ds = e) by (subst e; eapply T; vm_compute; reflexivity); subst e.
    constructor; [|constructor; [constructor|constructor]]. constructor; [|constructor].
    split; intros n (cs & c & R & Hc & H) (ds & d & R' & Hd & H'); first [rewrite (T0 _ R) in Hc|rewrite (T1 _ R) in Hc]; first [rewrite (T1 _ R') in Hd|rewrite (T0 _ R') in Hd];
      cbn [In] in Hc, Hd; repeat destruct Hc as [Hc|Hc]; repeat destruct Hd as [Hd|Hd]; subst; try contradiction; cbn [c_name c_args el_name] in H, H'.
    all: repeat match goal with
      | K : call_lets _ _ _ |- _ => inversion K; clear K; subst; try discriminate
      | K : value_lets _ _ |- _ => inversion K; clear K; subst; try discriminate
      | K : call_looks _ _ _ |- _ => inversion K; clear K; subst; try discriminate
      | K : value_looks _ _ |- _ => inversion K; clear K; subst; try discriminate end.
  - intros H. vm_compute in H. repeat destruct H as [H|H]; try discriminate H; exact H.
  - intros x [<-|[<-|[]]]; vm_compute.
    all: repeat first [exact Logic.I | discriminate | match goal with |- _ /\ _ => split | |- forall a, _ => let a := fresh in intros a; destruct a; vm_compute
      | |- context [match ?a with _ => _ end] => destruct a; vm_compute end].
Qed.
Print Assumptions C131_case.
