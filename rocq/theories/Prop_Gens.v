(** * C133: a database file over many lives of its process *)
From Coq Require Import List Arith NArith Bool String Lia Permutation.
From Verif Require Import M_Base M_Data M_Heed M_Txn M_Regex M_Lexer M_Graph M_Parser M_Display M_Interp M_Conc M_HostConc M_TxnConc
  S_Order S_Str S_Store S_Txn S_Graph S_Lexer S_Parser S_Interp S_Names S_Json S_Conc S_ConcSee S_Wander S_Rewrite S_TxnConc S_Footprint S_Lines S_Monotone S_Again S_Deaths S_HostConc S_Isolated S_ConcFail S_Gens
  P_Ord P_Hist P_HeedHist P_Lexer P_LexMore P_Parser P_Wander P_WanderDet P_WanderRun P_Conc P_Rewrite P_Footprint P_ConcFoot P_FailRun P_Retry P_HostLmdb P_Isolated P_ConcFail P_Fair P_Gens P_GensRetry S_Failing.
From Verif Require P_Again Prop_Failing Prop_ConcFail Prop_ConcFoot Prop_TxnConc Prop_Retry.
Import ListNotations.
Open Scope list_scope.

Lemma room_one x n h d fs : costs (p_run common x) n -> (total_weight h + n < 2 ^ 64)%N ->
  (total_weight (snd (snd (run (graph_impl (logged lmdb_at_once)) common x ((d, fs), h)))) < 2 ^ 64)%N.
Proof. intros H W. pose proof (Prop_ConcFail.costs_solo _ n ((d, fs), h) H) as K. rewrite log_common in K. cbn [snd] in K. lia. Qed.

(** One life. *)
Lemma one_life g ts h w n : Permutation (g_scripts g) ts -> ForallOrdPairs independent (g_scripts g) ->
  (forall x, In x (g_scripts g) -> costs (p_run common x) n) ->
  (total_weight h + N.of_nat (List.length (g_scripts g)) * n < 2 ^ 64)%N -> shows heed_impl (lm h) w ->
  exists os os' w', List.length os = List.length (g_scripts g) /\ Permutation (combine (g_scripts g) os) (combine ts os')
    /\ (forall j r, heard g (lm h) j r -> nth_error os j = Some (outcome_of r))
    /\ all_mean_on lets_failing w ts os' w' /\ shows heed_impl (file (end_of g (lm h))) w'.
Proof.
  intros P Ind HC W Sw. destruct (life_history h g n HC) as (h' & E & Wh & We).
  destruct (Prop_ConcFail.C131_serial h (g_faults g) (g_scripts g) ts (g_happens g) w Ind P) as (os & os' & w' & E1 & E2 & E3 & E4 & E5).
  - eapply N.le_lt_trans; [apply N.add_le_mono_l, We|exact W].
  - intros j Hj. right. intros fs'. apply (room_one _ n); [apply HC, nth_In, Hj|].
    assert (1 * n <= N.of_nat (List.length (g_scripts g)) * n)%N by (apply N.mul_le_mono_r; lia). lia.
  - exact Sw.
  - exists os, os', w'. split; [exact E1|]. split; [exact E3|]. split; [|split; [exact E4|exact E5]].
    intros j r (Hj & N & D). exact (E2 j r Hj N D).
Qed.

(** C133.  A file is used in any number of lives of a process.  In each of them
    independent scripts are begun at once, writes and commits fail, scripts die, and
    at some moment the process is gone.  Then there are worlds, the one shown at
    first and one after each life, such that after each life the file shows its
    world, and it is the one left by the scripts of that life one after the other
    (in any order) on a disk that fails, begun in the world before; and all that was
    heard is what they answer then. *)
Theorem C133_lives : forall gs tss h w n,
  Forall2 (fun g ts => Permutation (g_scripts g) ts) gs tss ->
  (forall g, In g gs -> ForallOrdPairs independent (g_scripts g)) ->
  (forall g x, In g gs -> In x (g_scripts g) -> costs (p_run common x) n) ->
  (total_weight h + N.of_nat (List.length (flat_map g_scripts gs)) * n < 2 ^ 64)%N ->
  let d0 := after heed_impl heed_new h in
  shows heed_impl d0 w ->
  exists (ws : nat -> world) (oss : nat -> list outcome), ws 0 = w
    /\ forall k g ts, nth_error gs k = Some g -> nth_error tss k = Some ts ->
       let d := file_after (firstn k gs) d0 in
       all_mean_on lets_failing (ws k) ts (oss k) (ws (S k))
       /\ shows heed_impl (file_after (firstn (S k) gs) d0) (ws (S k))
       /\ exists os, List.length os = List.length (g_scripts g) /\ Permutation (combine (g_scripts g) os) (combine ts (oss k))
          /\ forall j r, heard g d j r -> nth_error os j = Some (outcome_of r).
Proof.
  induction gs as [|g gs IH]; intros tss h w n F Ind HC W d0 Sw; inversion F as [|? ts ? tss' P F']; subst.
  - exists (fun _ => w), (fun _ => []). split; [reflexivity|]. intros k g ts E. destruct k; discriminate E.
  - cbn [flat_map] in W. rewrite app_length, Nat2N.inj_add, N.mul_add_distr_r in W.
    destruct (one_life g ts h w n P (Ind g (or_introl eq_refl)) (fun x Hx => HC g x (or_introl eq_refl) Hx)) as (os & os' & w' & E1 & E2 & E3 & E4 & E5); [lia|exact Sw|].
    destruct (life_history h g n (fun x Hx => HC g x (or_introl eq_refl) Hx)) as (h' & Eh & Wh & _).
    destruct (IH tss' h' w' n F') as (ws & oss & E0 & K).
    + intros g' Hg. apply Ind. right. exact Hg.
    + intros g' x Hg. apply HC. right. exact Hg.
    + lia.
    + change (after heed_impl heed_new h') with (lm h'). rewrite <- Eh. exact E5.
    + exists (fun k => match k with 0 => w | S k => ws k end), (fun k => match k with 0 => os' | S k => oss k end). split; [reflexivity|].
      intros [|k] g' ts' Eg Et; cbn [nth_error] in Eg, Et.
      * injection Eg as <-. injection Et as <-. cbn [firstn file_after]. rewrite E0. split; [exact E4|]. split; [exact E5|].
        exists os. split; [exact E1|]. split; [exact E2|exact E3].
      * cbn [firstn file_after]. destruct (K k g' ts' Eg Et) as (K1 & K2 & K3). unfold d0. change (after heed_impl heed_new h) with (lm h). rewrite Eh. split; [exact K1|]. split; [exact K2|exact K3].
Qed.
Print Assumptions C133_lives.

Lemma chain_concat tss : forall (ws : nat -> world) (oss : nat -> list outcome),
  (forall k ts, nth_error tss k = Some ts -> all_mean_on lets_failing (ws k) ts (oss k) (ws (S k))) ->
  all_mean_on lets_failing (ws 0) (List.concat tss) (List.concat (map oss (seq 0 (List.length tss)))) (ws (List.length tss)).
Proof.
  assert (A : forall x w os w1, all_mean_on lets_failing w x os w1 -> forall y os2 w2, all_mean_on lets_failing w1 y os2 w2 -> all_mean_on lets_failing w (x ++ y) (os ++ os2) w2).
  { induction 1 as [|w x rest o os w1 w2 M _ IH]; intros y os2 w3 K; [exact K|]. cbn [List.app]. econstructor; [exact M|]. apply IH, K. }
  induction tss as [|ts tss IH]; intros ws oss H; [constructor|]. cbn [List.concat List.length seq map]. apply (A _ _ _ _ (H 0 ts eq_refl)).
  rewrite <- seq_shift, map_map. exact (IH (fun k => ws (S k)) (fun k => oss (S k)) (fun k ts' E => H (S k) ts' E)).
Qed.

(** So all the lives together leave a file that looks like one that one process
    leaves that runs all the scripts one after the other, with some failures. *)
Theorem C133_one_session : forall gs tss h n,
  Forall2 (fun g ts => Permutation (g_scripts g) ts) gs tss ->
  (forall g, In g gs -> ForallOrdPairs independent (g_scripts g)) ->
  (forall g x, In g gs -> In x (g_scripts g) -> costs (p_run common x) n) ->
  (total_weight h + N.of_nat (List.length (flat_map g_scripts gs)) * n < 2 ^ 64)%N ->
  let d0 := after heed_impl heed_new h in
  exists fs rs d, session (graph_impl lmdb_at_once) (List.concat tss) (d0, fs) = (rs, (d, []))
    /\ look_alike heed_impl (file_after gs d0) d.
Proof.
  intros gs tss h n F Ind HC W d0. destruct (a_world Lmdb heed_impl heed_new _ im_lmdb h) as (w & Sw).
  destruct (C133_lives gs tss h w n F Ind HC W Sw) as (ws & oss & E0 & K).
  assert (L : List.length gs = List.length tss) by (clear -F; induction F; simpl; congruence).
  assert (A : all_mean_on lets_failing w (List.concat tss) (List.concat (map oss (seq 0 (List.length tss)))) (ws (List.length tss))).
  { rewrite <- E0. apply chain_concat. intros k ts Et. destruct (nth_error gs k) as [g|] eqn:Eg; [|apply nth_error_None in Eg; assert (k < List.length tss) by (apply nth_error_Some; congruence); lia].
    exact (proj1 (K k g ts Eg Et)). }
  assert (Sd : shows heed_impl (file_after gs d0) (ws (List.length tss))).
  { destruct gs as [|g0 gs0] eqn:Egs; [destruct tss; [|discriminate L]; cbn; rewrite E0; exact Sw|].
    rewrite <- Egs in *. assert (H : List.length tss = S (Nat.pred (List.length tss))) by (rewrite <- L, Egs; reflexivity).
    destruct (nth_error gs (Nat.pred (List.length tss))) as [g|] eqn:Eg; [|apply nth_error_None in Eg; lia].
    destruct (nth_error tss (Nat.pred (List.length tss))) as [ts|] eqn:Et; [|apply nth_error_None in Et; lia].
    destruct (K _ g ts Eg Et) as (_ & K2 & _). rewrite <- H in K2. rewrite firstn_all2 in K2 by lia. exact K2. }
  destruct (Prop_Failing.C125_conversely h (List.concat tss) w (List.concat (map oss (seq 0 (List.length tss)))) (ws (List.length tss)) Sw) with (2 := A) as (fs & rs & d & h' & X1 & X2 & X3).
  - intros fs. apply (Prop_ConcFail.C131_room _ n).
    + intros x Hx. apply in_concat in Hx as (ts & Ht & Hx). apply In_nth_error in Ht as (k & Et).
      destruct (nth_error gs k) as [g|] eqn:Eg; [|apply nth_error_None in Eg; assert (k < List.length tss) by (apply nth_error_Some; congruence); lia].
      assert (Pk : Permutation (g_scripts g) ts).
      { clear -F Eg Et. revert k Eg Et. induction F as [|a b l m Hab F IH]; intros [|k] Eg Et; cbn in *; try discriminate; [congruence|eauto]. }
      apply (HC g x); [eapply nth_error_In, Eg|]. eapply Permutation_in; [symmetry; exact Pk|exact Hx].
    + assert (E : List.length (List.concat tss) = List.length (flat_map g_scripts gs)).
      { clear -F. induction F as [|a b l m Hab F IH]; [reflexivity|]. cbn. rewrite !app_length, IH, (Permutation_length Hab). reflexivity. }
      rewrite E. exact W.
  - exists fs, rs, d. split.
    + apply logged_session in X1. exact X1.
    + eapply P_Rewrite.alike_same; [exact Sd|exact X3|apply same_refl].
Qed.
Print Assumptions C133_one_session.

(** Where the lives lead, in the reference: to a world between the one at first and
    the one that the scripts, all run when all is well, would have led to. *)
Lemma lives_between ss : ForallOrdPairs independent ss -> (forall x n, In x ss -> reads_name x n -> ~ lets_name x n) ->
  forall gs h w0 w os F n, all_mean Lmdb w0 ss os F ->
  (forall g, In g gs -> incl (g_scripts g) ss) -> (forall g, In g gs -> ForallOrdPairs independent (g_scripts g)) ->
  (forall g x, In g gs -> In x (g_scripts g) -> costs (p_run common x) n) ->
  (total_weight h + N.of_nat (List.length (flat_map g_scripts gs)) * n < 2 ^ 64)%N ->
  shows heed_impl (lm h) w -> P_Again.between (fun m => exists x, In x ss /\ reads_name x m) w0 w F ->
  exists v, shows heed_impl (file_after gs (lm h)) v /\ P_Again.between (fun m => exists x, In x ss /\ reads_name x m) w0 v F.
Proof.
  intros Ind Own. induction gs as [|g gs IH]; intros h w0 w os F n A HI HP HC W Sw Bt; [exists w; split; [exact Sw|exact Bt]|].
  cbn [flat_map] in W. rewrite app_length, Nat2N.inj_add, N.mul_add_distr_r in W.
  destruct (one_life g (g_scripts g) h w n (Permutation_refl _) (HP g (or_introl eq_refl)) (fun x Hx => HC g x (or_introl eq_refl) Hx)) as (o1 & o2 & w' & _ & _ & _ & M & S1); [lia|exact Sw|].
  destruct (life_history h g n (fun x Hx => HC g x (or_introl eq_refl) Hx)) as (h' & Eh & Wh & _).
  cbn [file_after]. rewrite Eh in *. apply (IH h' w0 w' os F n A).
  - intros g' Hg. apply HI. right. exact Hg.
  - intros g' Hg. apply HP. right. exact Hg.
  - intros g' x Hg. apply HC. right. exact Hg.
  - lia.
  - exact S1.
  - apply (attempts_between ss Ind Own w0 os F A (g_scripts g) w o2 w' (HI g (or_introl eq_refl)) Bt M).
Qed.

(** Begun again until all is well: a batch of independent scripts, each of which
    reads nothing it lets.  In any number of lives some or all of them are begun at
    once, writes and commits fail, scripts die, the process goes away.  When all is
    well again they are run once more: each has the outcome it would have had at
    first, and the store looks like the one it would have been then. *)
Theorem C133_retry : forall ss gs h n,
  ForallOrdPairs independent ss -> (forall x m, In x ss -> reads_name x m -> ~ lets_name x m) ->
  (forall g, In g gs -> incl (g_scripts g) ss) -> (forall g, In g gs -> ForallOrdPairs independent (g_scripts g)) ->
  (forall x, In x ss -> costs (p_run common x) n) ->
  (total_weight h + N.of_nat (List.length (flat_map g_scripts gs) + List.length ss) * n < 2 ^ 64)%N ->
  let G := graph_impl heed_impl in
  let d := after heed_impl heed_new h in
  exists rs d1 rs' d2, session G ss d = (rs, d1) /\ session G ss (file_after gs d) = (rs', d2)
    /\ map outcome_of rs' = map outcome_of rs /\ look_alike heed_impl d1 d2.
Proof.
  intros ss gs h n Ind Own HI HP HC W G d. destruct (a_world Lmdb heed_impl heed_new _ im_lmdb h) as (w & Sw).
  rewrite Nat2N.inj_add, N.mul_add_distr_r in W.
  destruct (sure_session n ss h w Sw HC) as (rs & g1 & F & _ & E1 & A & SF & _); [lia|].
  assert (HC' : forall g x, In g gs -> In x (g_scripts g) -> costs (p_run common x) n) by (intros g x Hg Hx; apply HC, (HI g Hg x Hx)).
  destruct (lives_between ss Ind Own gs h w w _ F n A HI HP HC') as (v & Sv & Bt).
  { lia. } { exact Sw. }
  { split; [intros m _; reflexivity|]. split; [apply below_refl|]. clear -A. induction A as [|w x r o os w1 w2 M A IH]; [apply below_refl|exact (below_trans _ _ _ (P_Again.means_up _ _ _ _ M) IH)]. }
  destruct (lives_history gs n h HC') as (h2 & E2 & W2). rewrite E2 in Sv.
  destruct (sure_session n ss h2 v Sv HC) as (rs' & g2 & F2 & _ & E3 & A2 & SF2 & _); [lia|].
  destruct (again_good ss Ind Own ss (incl_refl _) w _ F A F (below_refl F) v Bt) as (y & Ay & (_ & B1 & B2)).
  destruct (all_mean_fun Lmdb _ _ _ _ Ay _ _ _ (same_refl v) A2) as [Eo Ey].
  exists rs, (lm g1), rs', (lm g2). split; [exact E1|]. split; [unfold d; change (after heed_impl heed_new h) with (lm h); rewrite E2; exact E3|]. split; [symmetry; exact Eo|].
  apply (P_Rewrite.alike_same heed_impl _ _ F F2 SF SF2). apply (P_Again.same_by_below g1 g2 F F2 SF SF2).
  - intros m l El. destruct (B1 m l El) as (k & Ek & I). exists k. rewrite <- (Ey m). auto.
  - intros m l El. rewrite <- (Ey m) in El. exact (B2 m l El).
Qed.
Print Assumptions C133_retry.

(** And so they are when in the last life, in which all is well, they are begun all
    at once again, and come to their ends. *)
Theorem C133_retry_at_once : forall ss gs l h n rs d1,
  ForallOrdPairs independent ss -> (forall x m, In x ss -> reads_name x m -> ~ lets_name x m) ->
  (forall g, In g gs -> incl (g_scripts g) ss) -> (forall g, In g gs -> ForallOrdPairs independent (g_scripts g)) ->
  (forall x, In x ss -> costs (p_run common x) n) ->
  (total_weight h + N.of_nat (List.length (flat_map g_scripts gs) + List.length ss) * n < 2 ^ 64)%N ->
  let G := graph_impl heed_impl in
  let d := after heed_impl heed_new h in
  session G ss d = (rs, d1) ->
  let s := end_of (Gen ss [] l) (file_after gs d) in
  (forall j, ~ In (Dies j) l) -> (forall j, j < List.length ss -> exists r, doing s j = Idle (Done r)) ->
  exists os, List.length os = List.length ss
    /\ (forall j, j < List.length ss -> exists r, doing s j = Idle (Done r) /\ nth_error os j = Some (outcome_of r))
    /\ Permutation (combine ss os) (combine ss (map outcome_of rs))
    /\ look_alike heed_impl (file s) d1.
Proof.
  intros ss gs l h n rs d1 Ind Own HI HP HC W G d E1 s ND Fin.
  destruct (C133_retry ss gs h n Ind Own HI HP HC W) as (rs0 & d0 & rs' & d2 & X1 & X2 & X3 & X4). fold G d in X1, X2. rewrite E1 in X1. injection X1 as <- <-.
  assert (HC' : forall g x, In g gs -> In x (g_scripts g) -> costs (p_run common x) n) by (intros g x Hg Hx; apply HC, (HI g Hg x Hx)).
  rewrite Nat2N.inj_add, N.mul_add_distr_r in W.
  destruct (lives_history gs n h HC') as (h2 & E2 & W2). change d with (lm h) in X2. rewrite E2 in X2.
  assert (Es0 : s = go_on l (start (lm h2) [] (fun j => p_run common (nth j ss [])))) by (unfold s; change d with (lm h); rewrite E2; reflexivity). clearbody s.
  destruct (a_world Lmdb heed_impl heed_new _ im_lmdb h2) as (v & Sv).
  destruct (sure_session n ss h2 v Sv HC) as (rs2 & g2 & F2 & L2 & E3 & A2 & SF2 & Wg); [lia|]. unfold G in X2. rewrite E3 in X2. injection X2 as -> <-.
  set (cl := fun j => p_run common (nth j ss [])) in *.
  destruct (Prop_TxnConc.C119_lifts (lm h2) cl l ND) as (sched & Es & S1 & S2). cbv zeta in S1, S2. rewrite <- Es0 in S1, S2.
  assert (Out : forall j, List.length ss <= j -> exists r, cl j = Done r) by (intros j Hj; unfold cl; rewrite nth_overflow by exact Hj; vm_compute; eexists; reflexivity).
  assert (Fs : finished (interleave G sched (Pool (lm h2) cl))).
  { intros j. destruct (Nat.lt_ge_cases j (List.length ss)) as [Hj|Hj].
    - destruct (Fin j Hj) as [r Er]. exists r. apply (proj1 (S2 j _ Er)).
    - destruct (Out j Hj) as [r Er]. exists r.
      assert (K : forall sched x, clients x j = Done r -> clients (interleave G sched x) j = Done r).
      { clear. induction sched as [|i sched IH]; intros x E; [exact E|]. cbn [interleave]. apply IH. unfold turn. destruct (clients x i) as [r'|q k] eqn:Ei; [exact E|].
        destruct (perform G q (shared x)) as [a st]. cbn [clients]. rewrite update_other; [exact E|congruence]. }
      apply K. exact Er. }
  destruct (Prop_ConcFoot.C116_serial h2 ss ss sched rs' (lm g2) g2 Ind (Permutation_refl _)) as (os & Lo & C & Pm & Al).
  - eapply N.le_lt_trans; [apply N.add_le_mono_l, (calls_cost G (List.length ss) sched (lm h2) cl (fun _ => n) Out)|].
    + intros j Hj. apply HC, nth_In, Hj.
    + rewrite budget_const. lia.
  - exact Fs.
  - exact L2.
  - lia.
  - exists os. split; [exact Lo|]. split; [|split].
    + intros j Hj. destruct (C j Hj) as (r & Er & No). destruct (Fin j Hj) as (r' & Er'). exists r'. split; [exact Er'|].
      pose proof (proj1 (S2 j _ Er')) as Y. assert (Done r = Done r') as Q by exact (eq_trans (eq_sym Er) Y). injection Q as <-. exact No.
    + rewrite <- X3. exact Pm.
    + rewrite <- S1. intros u. etransitivity; [exact (Al u)|symmetry; apply X4].
Qed.
Print Assumptions C133_retry_at_once.

(** Two scripts.  In the first life client 0 has created [n] when it dies, client 1
    creates [m] and the commit of its adding fails; in the second, only the second
    script is begun, and the process goes away before its first commit; in the third
    both are begun, the first stores [n], the second is not heard of any more.  Then
    all is well. *)
Definition gn_ss : list str := [Prop_Retry.rt_let; lit "let m { d e f }"].
Definition gn_gs : list generation :=
  [Gen gn_ss [no_fault; no_fault; (None, false)] (repeat (Moves 0) 14 ++ repeat (Moves 1) 6 ++ [Dies 0] ++ repeat (Moves 1) 80);
   Gen [lit "let m { d e f }"] [] (repeat (Moves 0) 3);
   Gen gn_ss [] (repeat (Moves 0) 60 ++ repeat (Moves 1) 4)].

Example C133_case :
  ForallOrdPairs independent gn_ss
  /\ (forall x m, In x gn_ss -> reads_name x m -> ~ lets_name x m)
  /\ (forall g, In g gn_gs -> incl (g_scripts g) gn_ss)
  /\ (forall g, In g gn_gs -> ForallOrdPairs independent (g_scripts g))
  /\ (forall x, In x gn_ss -> costs (p_run common x) 100)
  /\ (total_weight [] + N.of_nat (List.length (flat_map g_scripts gn_gs) + List.length gn_ss) * 100 < 2 ^ 64)%N
  /\ (let n d := l_entries (graph_impl heed_impl) d (mkE (lit "n")) in let m d := l_entries (graph_impl heed_impl) d (mkE (lit "m")) in
      let f k := file_after (firstn k gn_gs) heed_new in
      t_collections heed_impl (f 1) = Ok [lit "m"; lit "n"] /\ n (f 1) = Ok [] /\ m (f 1) = Ok []
      /\ look_alike heed_impl (f 1) (f 2)
      /\ n (f 3) = Ok Prop_Retry.rt_n /\ m (f 3) = Ok []
      /\ (exists e, m (snd (session (graph_impl heed_impl) gn_ss (f 3))) = Ok [e])
      /\ heard (nth 0 gn_gs (Gen [] [] [])) heed_new 1 (Ok (VNetwork []))).
Proof.
  assert (T : forall s toks k cs, tokenize s = Ok toks -> tokenize_and_filter s = Ok k -> parse k = Ok cs -> forall ds, reads_as s ds -> ds = cs).
  { intros s toks k cs E Ef Ep ds (ts & k2 & L & K2 & Gs). destruct (filter_keeps _ _ E) as (k' & Ek & K & U). rewrite Ef in Ek. injection Ek as <-.
    apply tokenize_ok in L. assert (ts = toks) as -> by congruence. apply U in K2. subst k2. apply parse_ok in Gs. congruence. }
  let e := fresh in evar (e : list call); assert (T0 : forall ds, reads_as Prop_Retry.rt_let ds -> ds = e) by (subst e; eapply T; vm_compute; reflexivity); subst e.
  let e := fresh in evar (e : list call); assert (T1 : forall ds, reads_as (lit "let m { d e f }") ds -> ds = e) by (subst e; eapply T; vm_compute; reflexivity); subst e.
  assert (Ind : ForallOrdPairs independent gn_ss).
  { constructor; [|constructor; [constructor|constructor]]. constructor; [|constructor].
    split; intros n (cs & c & R & Hc & H) (ds & d & R' & Hd & H'); first [rewrite (T0 _ R) in Hc|rewrite (T1 _ R) in Hc]; first [rewrite (T1 _ R') in Hd|rewrite (T0 _ R') in Hd];
      cbn [In] in Hc, Hd; repeat destruct Hc as [Hc|Hc]; repeat destruct Hd as [Hd|Hd]; subst; try contradiction; cbn [c_name c_args el_name] in H, H'.
    all: repeat match goal with
      | K : call_lets _ _ _ |- _ => inversion K; clear K; subst; try discriminate
      | K : value_lets _ _ |- _ => inversion K; clear K; subst; try discriminate
      | K : call_looks _ _ _ |- _ => inversion K; clear K; subst; try discriminate
      | K : value_looks _ _ |- _ => inversion K; clear K; subst; try discriminate end. }
  split; [exact Ind|]. split; [|split; [|split; [|split; [|split]]]].
  - intros x m [<-|[<-|[]]] (cs & c & R & Hc & H) _; first [rewrite (T0 _ R) in Hc|rewrite (T1 _ R) in Hc]; cbn [In] in Hc; repeat destruct Hc as [Hc|Hc]; subst; try contradiction; cbn [c_name c_args el_name] in H.
    all: repeat match goal with
      | K : call_reads _ _ _ |- _ => inversion K; clear K; subst; try discriminate
      | K : value_reads _ _ |- _ => inversion K; clear K; subst; try discriminate end.
  - intros g [<-|[<-|[<-|[]]]] x Hx; cbn [g_scripts] in Hx; first [exact Hx|right; exact Hx].
  - intros g [<-|[<-|[<-|[]]]]; first [exact Ind|constructor; constructor].
  - intros x [<-|[<-|[]]]; vm_compute.
    all: repeat first [exact Logic.I | discriminate | match goal with |- _ /\ _ => split | |- forall a, _ => let a := fresh in intros a; destruct a; vm_compute
      | |- context [match ?a with _ => _ end] => destruct a; vm_compute end].
  - reflexivity.
  - cbv zeta. do 3 (split; [vm_compute; reflexivity|]). split; [|split; [vm_compute; reflexivity|split; [vm_compute; reflexivity|split]]].
    + assert (E : file_after (firstn 2 gn_gs) heed_new = file_after (firstn 1 gn_gs) heed_new) by (vm_compute; reflexivity). rewrite E. intros u. reflexivity.
    + eexists. vm_compute. reflexivity.
    + split; [cbn; lia|]. split; [|vm_compute; reflexivity].
      intros H. vm_compute in H. repeat destruct H as [H|H]; try discriminate H; exact H.
Qed.
Print Assumptions C133_case.
