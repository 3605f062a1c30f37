(** * Properties: more data, more answers *)
From Coq Require Import List Arith NArith Bool String Lia.
From Verif Require Import M_Base M_Data M_Mem M_Heed M_Duck M_Regex M_Lexer M_Graph M_Parser M_Display M_Interp M_Hosts
  S_Order S_Str S_Store S_Graph S_Lexer S_Parser S_Interp S_Names S_Json P_Ord P_Hist P_Mem P_HeedHist P_HeedMore P_Duck P_Graph
  P_Lexer P_LexMore P_Parser P_Interp S_Wander P_WanderRun P_WanderDet S_Rewrite P_Rewrite S_Monotone P_Monotone Prop_Graph Prop_Wander.
Import ListNotations.
Open Scope list_scope.

(** C115.  A script that answers on two stores, of which the second shows all that
    the first shows: it answers the same, or a network with all the entries of
    the first answer, and the second store still shows all that the first shows. *)
Theorem C115_more : forall B S (I : trips_impl S) s0 room h k script w v a s1 h1 b s2 k1, implements B I s0 room ->
  shows I (after I s0 h) w -> shows I (after I s0 k) v -> below w v ->
  run (graph_impl (logged I)) common script (after I s0 h, h) = (Ok a, (s1, h1)) -> room h1 ->
  run (graph_impl (logged I)) common script (after I s0 k, k) = (Ok b, (s2, k1)) -> room k1 ->
  below_value a b /\ forall w' v', shows I s1 w' -> shows I s2 v' -> below w' v'.
Proof.
  intros B S I s0 room h k script w v a s1 h1 b s2 k1 HI Hw Hv Bl E1 R1 E2 R2.
  destruct (C101_reference B S I s0 room h script w _ s1 h1 HI Hw E1 R1) as [_ (w1 & M1 & S1)].
  destruct (C101_reference B S I s0 room k script v _ s2 k1 HI Hv E2 R2) as [_ (v1 & M2 & S2)].
  destruct (means_mono B script w a w1 v b v1 Bl M1 M2) as [Bv Bl1]. split; [exact Bv|].
  intros w' v' Hw' Hv' n l E. rewrite <- (shows_fun I _ _ _ S1 Hw' n) in E. destruct (Bl1 n l E) as (m & Em & Im).
  exists m. split; [rewrite <- (shows_fun I _ _ _ S2 Hv' n); exact Em|exact Im].
Qed.
Print Assumptions C115_more.

(** In memory and on LMDB a script without assertions and without searches for
    variables that answers on the first store also answers on the second. *)
Theorem C115_still_answers : forall B S (I : trips_impl S) s0 room h k script w v a s1 h1 r s2 k1, implements B I s0 room -> B <> DuckDb ->
  plain_script script -> shows I (after I s0 h) w -> shows I (after I s0 k) v -> below w v ->
  run (graph_impl (logged I)) common script (after I s0 h, h) = (Ok a, (s1, h1)) -> room h1 ->
  run (graph_impl (logged I)) common script (after I s0 k, k) = (r, (s2, k1)) -> room k1 ->
  exists b, r = Ok b /\ below_value a b.
Proof.
  intros B S I s0 room h k script w v a s1 h1 r s2 k1 HI ND Pl Hw Hv Bl E1 R1 E2 R2.
  destruct (C101_reference B S I s0 room h script w _ s1 h1 HI Hw E1 R1) as [_ (w1 & M1 & S1)].
  destruct (C101_reference B S I s0 room k script v _ s2 k1 HI Hv E2 R2) as [_ (v1 & M2 & S2)].
  destruct (means_stay B ND script w a w1 v Pl Bl M1) as (b & v2 & M3).
  destruct (means_fun B script v _ _ v _ _ (same_refl v) M3 M2) as [E _]. exists b. split; [apply ok_outcome; symmetry; exact E|].
  exact (proj1 (means_mono B script w a w1 v b v2 Bl M1 M3)).
Qed.
Print Assumptions C115_still_answers.

(** Sessions in which every script answers. *)
Theorem C115_sessions : forall B S (I : trips_impl S) s0 room h k scripts w v (xs ys : list value) s1 h1 s2 k1, implements B I s0 room ->
  shows I (after I s0 h) w -> shows I (after I s0 k) v -> below w v ->
  session (graph_impl (logged I)) scripts (after I s0 h, h) = (map Ok xs, (s1, h1)) -> room h1 ->
  session (graph_impl (logged I)) scripts (after I s0 k, k) = (map Ok ys, (s2, k1)) -> room k1 ->
  Forall2 below_value xs ys /\ forall w' v', shows I s1 w' -> shows I s2 v' -> below w' v'.
Proof.
  intros B S I s0 room h k scripts w v xs ys s1 h1 s2 k1 HI Hw Hv Bl E1 R1 E2 R2.
  pose proof (implements_abides _ _ _ _ _ HI) as AB.
  destruct (reference_session B I s0 room AB scripts h w _ s1 h1 Hw E1 R1) as (_ & _ & w1 & A1 & S1).
  destruct (reference_session B I s0 room AB scripts k v _ s2 k1 Hv E2 R2) as (_ & _ & v1 & A2 & S2).
  rewrite map_map in A1, A2. cbn [outcome_of] in A1, A2. clear E1 E2 Hw Hv.
  assert (G : Forall2 below_value xs ys /\ below w1 v1).
  { clear S1 S2 R1 R2. revert w v xs ys w1 v1 Bl A1 A2. induction scripts as [|x rest IH]; intros w v xs ys w1 v1 Bl A1 A2.
    - inversion A1 as [? Ew Ex|]; subst. inversion A2 as [? Ev Ey|]; subst. destruct xs; [|discriminate]. destruct ys; [|discriminate]. split; [constructor|exact Bl].
    - inversion A1 as [|? ? ? o os w2 ? M1 A1' Ew Ex Eo]; subst. inversion A2 as [|? ? ? o' os' v2 ? M2 A2' Ev Ey Eo']; subst.
      destruct xs as [|a xs]; [discriminate|]. destruct ys as [|b ys]; [discriminate|]. cbn [map] in Eo, Eo'. injection Eo as -> ->. injection Eo' as -> ->.
      destruct (means_mono B x w a w2 v b v2 Bl M1 M2) as [Bv Bl2]. destruct (IH _ _ _ _ _ _ Bl2 A1' A2') as [F Bl3]. split; [constructor; assumption|exact Bl3]. }
  destruct G as [F Bl1]. split; [exact F|]. intros w' v' Hw' Hv' n l E. rewrite <- (shows_fun I _ _ _ S1 Hw' n) in E. destruct (Bl1 n l E) as (m & Em & Im).
  exists m. split; [rewrite <- (shows_fun I _ _ _ S2 Hv' n); exact Em|exact Im].
Qed.
Print Assumptions C115_sessions.

(** Why scripts must answer: more data can make an assertion fail, a search for a
    variable crash, and on DuckDB a let crash; and a script that stops earlier can
    leave more behind. *)
Definition mo_a : op := OAddColl (lit "a").
Definition mo_t : trip := Trip (lit "x") (lit "y") (lit "z").

Theorem C115_not_always :
  (exists s, grun (lit "assert-equal (read a) {}") (mem_after [mo_a]) = (Ok done, s))
  /\ (exists e s, grun (lit "assert-equal (read a) {}") (mem_after [mo_a; OAdd (lit "a") [mo_t]]) = (Err e, s))
  /\ (exists n s, grun (lit "filter a ""?v"" y z") (mem_after [mo_a]) = (Ok (VNetwork n), s))
  /\ (exists p s, grun (lit "filter a ""?v"" y z") (mem_after [mo_a; OAdd (lit "a") [mo_t]]) = (Panic p, s))
  /\ (exists s, run (graph_impl duck_impl) common (lit "let a {}") duck_new = (Ok done, s))
  /\ (exists p s, run (graph_impl duck_impl) common (lit "let a {}") (after duck_impl duck_new [mo_a]) = (Panic p, s))
  /\ (let script := lit "read b, let a {}" in
      let few := [mo_a; OAdd (lit "a") [mo_t]] in
      let more := few ++ [OAddColl (lit "b")] in
      exists e s s', grun script (mem_after few) = (Err e, s) /\ grun script (mem_after more) = (Ok done, s')
        /\ holds mem_impl s (lit "a") mo_t /\ ~ holds mem_impl s' (lit "a") mo_t).
Proof.
  repeat match goal with |- _ /\ _ => split end.
  - eexists. vm_compute. reflexivity.
  - do 2 eexists. vm_compute. reflexivity.
  - do 2 eexists. vm_compute. reflexivity.
  - do 2 eexists. vm_compute. reflexivity.
  - eexists. vm_compute. reflexivity.
  - do 2 eexists. vm_compute. reflexivity.
  - do 3 eexists. split; [vm_compute; reflexivity|]. split; [vm_compute; reflexivity|]. split.
    + eexists. split; [vm_compute; reflexivity|]. left. reflexivity.
    + intros (l & E & H). vm_compute in E. injection E as <-. destruct H.
Qed.
Print Assumptions C115_not_always.

(** A script that reads, searches and stores, on less and on more. *)
Definition mo_script : str := lit "let b (read a), filter b x ""?"" z".
Example C115_case : plain_script mo_script
  /\ fst (grun mo_script (mem_after [mo_a])) = Ok done
  /\ fst (grun mo_script (mem_after [mo_a; OAdd (lit "a") [mo_t]])) = Ok (VNetwork [Role (mkE (lit "x")) (mkE (lit "z")) (mkE (lit "y"))]).
Proof.
  split; [|split; vm_compute; reflexivity].
  assert (T : forall s toks k cs, tokenize s = Ok toks -> tokenize_and_filter s = Ok k -> parse k = Ok cs -> forall ds, reads_as s ds -> ds = cs).
  { intros s toks k cs E Ef Ep ds (ts & k2 & L & K2 & G). destruct (filter_keeps _ _ E) as (k' & Ek & K & U). rewrite Ef in Ek. injection Ek as <-.
    apply tokenize_ok in L. assert (ts = toks) as -> by congruence. apply U in K2. subst k2. apply parse_ok in G. congruence. }
  let e := fresh in evar (e : list call); assert (T1 : forall ds, reads_as mo_script ds -> ds = e) by (subst e; eapply T; vm_compute; reflexivity); subst e.
  assert (NV : forall e, match el_name e with 63%N :: _ :: _ => False | _ => True end -> ~ variable_name (el_name e)).
  { intros e H (r & E & N). rewrite E in H. destruct r; [congruence|exact H]. }
  intros cs c R Hc. rewrite (T1 _ R) in Hc. destruct Hc as [<-|[<-|[]]]; cbn [c_name c_args el_name]; constructor; try (vm_compute; discriminate).
  - intros c n qargs _ E. injection E as _ <- <-. cbn [el_name]. constructor; try (vm_compute; discriminate); try (intros; discriminate).
  - intros _ e He. repeat (destruct He as [He|He]; [injection He as <-; apply NV; exact Logic.I|]). destruct He.
Qed.
