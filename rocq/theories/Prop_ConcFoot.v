(** * Properties: independent scripts at the same time *)
From Coq Require Import List Arith NArith Bool String Lia Permutation.
From Verif Require Import M_Base M_Data M_Mem M_Heed M_Duck M_Regex M_Lexer M_Graph M_Parser M_Display M_Interp M_Conc
  S_Order S_Str S_Store S_Graph S_Lexer S_Parser S_Interp S_Names S_Json S_Conc P_Ord P_Hist P_Mem P_HeedHist P_HeedMore P_Duck P_Graph
  P_Lexer P_LexMore P_Parser P_Interp P_Conc S_Wander P_WanderRun P_WanderDet S_Rewrite P_Rewrite S_Footprint P_Footprint P_ConcFoot Prop_Graph Prop_Wander Prop_Footprint Prop_Conc.
Import ListNotations.
Open Scope list_scope.

(** C116.  Clients of one LMDB file, any number, any schedule: a script that looks
    at nothing that another one lets gives the result it gives alone, and leaves
    what it looks at as it does alone. *)
Theorem C116_undisturbed : forall h scripts sched i r,
  (forall j n, j <> i -> lets_name (scripts j) n -> ~ looks_at (scripts i) n) ->
  let G := graph_impl heed_impl in
  let d := after heed_impl heed_new h in
  let x0 := Pool d (fun j => p_run common (scripts j)) in
  (total_weight h + calls_weight (calls_made G sched x0) < 2 ^ 64)%N ->
  let x := interleave G sched x0 in
  clients x i = Done r ->
  exists d', run G common (scripts i) d = (r, d')
    /\ forall c, looks_at (scripts i) c -> same_for G c (shared x) d'.
Proof.
  intros h scripts sched i r HO G d x0 W x Hr.
  destruct (among sched h h (fun j => p_run common (scripts j)) i (looks_at (scripts i))) as (hs & ha & E1 & E2 & O & _).
  - intros c Hu. exact (footed_uses _ _ _ _ (footed_script _) Hu).
  - intros j c Hj Hu. apply (HO j c Hj). exact (footed_changes _ _ _ _ (footed_script _) Hu).
  - exact (footed_local _ _ _ (footed_script _)).
  - intros c _. apply obs_refl.
  - lia.
  - exact W.
  - pose proof (eq_trans E2 (f_equal (fun c => (c, (lm ha, ha))) Hr)) as E3.
    apply alone_done in E3. rewrite C74_same_interpreter in E3. apply logged_run in E3.
    exists (lm ha). split; [exact E3|]. intros c Hc. replace (shared x) with (lm hs) by (symmetry; exact E1). apply obs_same_for, O, Hc.
Qed.
Print Assumptions C116_undisturbed.

(** Scripts of which none lets what another looks at, all at the same time under
    any schedule, do what they do one after the other, in any order: each has the
    same outcome, and the stores look alike in the end. *)
Theorem C116_serial : forall h ss ts sched rs d' h1,
  ForallOrdPairs independent ss -> Permutation ss ts ->
  let G := graph_impl heed_impl in
  let d := after heed_impl heed_new h in
  let x0 := Pool d (fun j => p_run common (nth j ss [])) in
  (total_weight h + calls_weight (calls_made G sched x0) < 2 ^ 64)%N ->
  let x := interleave G sched x0 in
  finished x ->
  session (graph_impl (logged heed_impl)) ts (d, h) = (rs, (d', h1)) -> (total_weight h1 < 2 ^ 64)%N ->
  exists os, List.length os = List.length ss
    /\ (forall j, j < List.length ss -> exists r, clients x j = Done r /\ nth_error os j = Some (outcome_of r))
    /\ Permutation (combine ss os) (combine ts (map outcome_of rs))
    /\ look_alike heed_impl (shared x) d'.
Proof.
  intros h ss ts sched rs d' h1 Ind P G d x0 W x Fin E R.
  destruct (a_world Lmdb heed_impl heed_new _ im_lmdb h) as (w & Hw).
  pose proof (implements_abides _ _ _ _ _ im_lmdb) as AB.
  set (cl := fun j => p_run common (nth j ss [])) in *.
  assert (Out : forall j, List.length ss <= j -> forall c, ~ changes (cl j) c).
  { intros j Hj c (q & Hq & _). unfold cl in Hq. rewrite nth_overflow in Hq by exact Hj. exact (no_script_asks q Hq). }
  assert (X : exists hx, shared x = lm hx).
  { destruct (among sched h h cl (List.length ss) (fun _ => False)) as (hx & _ & E1 & _).
    - intros c (q & Hq & _). unfold cl in Hq. rewrite nth_overflow in Hq by lia. destruct (no_script_asks q Hq).
    - intros j c _ _ [].
    - exact (footed_local _ _ _ (footed_script _)).
    - intros c [].
    - lia.
    - exact W.
    - exists hx. exact E1. }
  destruct X as (hx & Ex). destruct (a_world Lmdb heed_impl heed_new _ im_lmdb hx) as (wx & Hx).
  destruct (choose (fun j (t : str * outcome * world) => fst (fst t) = nth j ss []
     /\ (exists r, clients x j = Done r /\ snd (fst t) = outcome_of r)
     /\ means Lmdb w (nth j ss []) (snd (fst t)) (snd t) /\ forall c, looks_at (nth j ss []) c -> wx c = snd t c) (List.length ss)) as (l & El & Hl).
  { intros i Hi. destruct (Fin i) as (r & Hr).
    destruct (among sched h h cl i (looks_at (nth i ss []))) as (hs & ha & E1 & E2 & O & Wa & Wt).
    - intros c Hu. exact (footed_uses _ _ _ _ (footed_script _) Hu).
    - intros j c Hj Hu. destruct (Nat.lt_ge_cases j (List.length ss)) as [Lj|Lj]; [|destruct (Out j Lj c Hu)].
      apply (proj1 (pairwise ss Ind j i Lj Hi Hj)). exact (footed_changes _ _ _ _ (footed_script _) Hu).
    - exact (footed_local _ _ _ (footed_script _)).
    - intros c _. apply obs_refl.
    - lia.
    - exact W.
    - pose proof (eq_trans E2 (f_equal (fun c => (c, (lm ha, ha))) Hr)) as E3.
      apply alone_done in E3. unfold cl in E3. rewrite C74_same_interpreter in E3.
      destruct (C101_reference Lmdb _ heed_impl heed_new _ h (nth i ss []) w r _ _ im_lmdb Hw E3) as (_ & wi & M & Hwi).
      { cbn beta. lia. }
      exists (nth i ss [], outcome_of r, wi). cbn [fst snd]. split; [reflexivity|]. split; [exists r; auto|]. split; [exact M|].
      intros c Hc. apply (obs_world c hx ha); [|exact Hx|exact Hwi].
      assert (Eh : lm hx = lm hs) by (rewrite <- Ex; exact E1). rewrite Eh. apply O, Hc. }
  assert (Es : map (fun t => fst (fst t)) l = ss).
  { apply (nth_ext _ _ [] []); rewrite map_length; [exact El|]. intros j Hj.
    destruct (nth_error l j) as [t|] eqn:Et; [|apply nth_error_None in Et; lia].
    rewrite (nth_error_nth _ _ [] (map_nth_error (fun t => fst (fst t)) j l Et)). destruct (Hl j t Et) as (-> & _). reflexivity. }
  assert (Hin : forall s o v, In (s, o, v) l -> exists j, j < List.length ss /\ s = nth j ss [] /\ means Lmdb w s o v /\ forall c, looks_at s c -> wx c = v c).
  { intros s o v Hi. apply In_nth_error in Hi as (j & Ej). destruct (Hl j _ Ej) as (Es' & _ & M & O). cbn [fst snd] in *. rewrite <- Es' in M, O.
    exists j. split; [rewrite <- El; apply nth_error_Some; congruence|]. auto. }
  destruct (gather Lmdb l w) with (u := w) as (z & Az & Lz & Fz).
  - rewrite Es. exact Ind.
  - intros s o v Hi. destruct (Hin s o v Hi) as (_ & _ & _ & M & _). exact M.
  - intros s o v Hi n _. reflexivity.
  - rewrite Es in Az.
    assert (Sz : same_world wx z).
    { intros n. destruct (network_dec (wx n) (z n)) as [Hn|Hn]; [exact Hn|]. exfalso.
      apply (not_not_em (exists j, j < List.length ss /\ lets_name (nth j ss []) n)). intros [(j & Hj & Lj)|No]; apply Hn.
      - destruct (nth_error l j) as [[[s o] v]|] eqn:Et; [|apply nth_error_None in Et; lia].
        destruct (Hl j _ Et) as (Es' & _ & _ & O). cbn [fst snd] in *. rewrite (O n (script_lets_looks _ _ Lj)).
        symmetry. apply (Lz s o v); [eapply nth_error_In, Et|]. rewrite Es'. apply script_lets_looks, Lj.
      - rewrite Fz.
        + destruct (unchanged sched h cl n) as (hu & Eu & Ou).
          * intros j Hc. destruct (Nat.lt_ge_cases j (List.length ss)) as [Lj|Lj]; [|destruct (Out j Lj n Hc)].
            apply No. exists j. split; [exact Lj|]. exact (footed_changes _ _ _ _ (footed_script _) Hc).
          * apply (obs_world n hx h); [|exact Hx|exact Hw]. assert (Eh : lm hx = lm hu) by (rewrite <- Ex; exact Eu). rewrite Eh. exact Ou.
        + intros s o v Hi L. destruct (Hin s o v Hi) as (j & Hj & -> & _). apply No. exists j. auto. }
    destruct (reorder Lmdb ss ts P Ind _ _ _ Az) as (os & v2 & A3 & Pm & Sv).
    destruct (reference_session Lmdb heed_impl heed_new _ AB ts h w rs d' h1 Hw E R) as (_ & _ & v1 & A2 & S2).
    destruct (all_mean_fun Lmdb _ _ _ _ A3 _ _ _ (same_refl _) A2) as [E' Sv2]. subst os.
    exists (map (fun t => snd (fst t)) l). split; [rewrite map_length; exact El|]. split; [|split; [exact Pm|]].
    + intros j Hj. destruct (nth_error l j) as [t|] eqn:Et; [|apply nth_error_None in Et; lia].
      destruct (Hl j t Et) as (_ & (r & Hr & Er) & _). exists r. split; [exact Hr|]. rewrite nth_error_map, Et. cbn. rewrite Er. reflexivity.
    + rewrite Ex. eapply alike_same; [exact Hx|exact S2|]. intros n. rewrite (Sz n), (Sv n). apply Sv2.
Qed.
Print Assumptions C116_serial.

(** It is enough that one of two scripts lets what the other reads: a script that
    compares a network with itself fails while another one lets it, though it
    succeeds before and after. *)
Definition cf_a : str := lit "assert-equal (read n) (read n)".
Definition cf_b : str := lit "let n {d e f}".
Definition cf_scripts (j : nat) : str := match j with 0 => cf_a | 1 => cf_b | _ => [] end.

Theorem C116_reader_disturbed :
  (forall n, ~ lets_name cf_a n)
  /\ exists h sched, let G := graph_impl heed_impl in let d := after heed_impl heed_new h in
  let x := interleave G sched (Pool d (fun j => p_run common (cf_scripts j))) in
  (exists e, clients x 0 = Done (Err e)) /\ (exists v, clients x 1 = Done (Ok v))
  /\ fst (run G common cf_a d) = Ok (VNetwork [])
  /\ fst (run G common cf_a (snd (run G common cf_b d))) = Ok (VNetwork []).
Proof.
  split.
  - assert (T : forall s toks k cs, tokenize s = Ok toks -> tokenize_and_filter s = Ok k -> parse k = Ok cs -> forall ds, reads_as s ds -> ds = cs).
    { intros s toks k cs E Ef Ep ds (ts & k2 & L & K2 & G). destruct (filter_keeps _ _ E) as (k' & Ek & K & U). rewrite Ef in Ek. injection Ek as <-.
      apply tokenize_ok in L. assert (ts = toks) as -> by congruence. apply U in K2. subst k2. apply parse_ok in G. congruence. }
    let e := fresh in evar (e : list call); assert (T1 : forall ds, reads_as cf_a ds -> ds = e) by (subst e; eapply T; vm_compute; reflexivity); subst e.
    intros n (cs & c & R & Hc & H). rewrite (T1 _ R) in Hc. destruct Hc as [<-|[]]. cbn [c_name c_args el_name] in H.
    repeat match goal with
    | K : call_lets _ _ _ |- _ => inversion K; clear K; subst; try discriminate
    | K : value_lets _ _ |- _ => inversion K; clear K; subst; try discriminate end.
  - exists [OAddColl (lit "n")], [0; 1; 1; 0]. cbv zeta. split; [eexists; vm_compute; reflexivity|].
    split; [eexists; vm_compute; reflexivity|]. split; vm_compute; reflexivity.
Qed.
Print Assumptions C116_reader_disturbed.

(** Three scripts, two of which read the same network, taking turns. *)
Example C116_case : ForallOrdPairs independent fx
  /\ let G := graph_impl heed_impl in
     let h := [OAddColl (lit "c"); OAdd (lit "c") []] in
     let x0 := Pool (after heed_impl heed_new h) (fun j => p_run common (nth j fx [])) in
     let sched := [0; 2; 1; 0; 1; 0; 1; 0; 2] in
     let x := interleave G sched x0 in
     finished x
     /\ (total_weight h + calls_weight (calls_made G sched x0) < 2 ^ 64)%N
     /\ map (fun j => match clients x j with Done r => outcome_of r | Ask _ _ => Crashes end) [0; 1; 2]
        = [Answers done; Answers (VNetwork [Role (mkE (lit "x")) (mkE (lit "z")) (mkE (lit "y"))]); Answers done].
Proof.
  split; [exact (proj1 C114_case)|]. cbv zeta. split; [|split; vm_compute; reflexivity].
  intros j. do 3 (destruct j as [|j]; [eexists; vm_compute; reflexivity|]).
  rewrite clients_idle by (intros K; cbn [In] in K; repeat destruct K as [K|K]; try discriminate K; exact K).
  exists (match p_run common [] with Done r => r | _ => Ok done end). cbn [clients].
  rewrite nth_overflow by (cbn; lia). vm_compute. reflexivity.
Qed.
