(** * C127: kills and failing disks together; scripts begun again after failures *)
From Coq Require Import List Arith NArith Bool String Lia.
From Verif Require Import M_Base M_Data M_Mem M_Heed M_Duck M_Txn M_Regex M_Lexer M_Graph M_Parser M_Display M_Interp M_Conc M_TxnConc
  S_Order S_Str S_Store S_Txn S_Graph S_Lexer S_Parser S_Interp S_Names S_Conc S_ConcSee S_TxnConc
  P_Ord P_Hist P_Parser P_Interp P_InterpMore P_Graph P_Wander P_WanderRun P_WanderDet P_Failing P_FailRun P_Conc P_TxnConc
  S_Wander S_Rewrite S_Lines S_Footprint S_Monotone S_Again S_Deaths S_Failing S_Retry P_Retry.
From Verif Require P_Again P_Monotone P_RetryPlain Prop_TxnConc Prop_Again.
Import ListNotations.
Open Scope list_scope.

(** C127.  Scripts are run on an LMDB store or are killed on their way, after any
    number of their store calls, while writes and commits fail.  A kill does
    nothing that a failing disk could not have done: with other failures all the
    scripts, none of them killed, leave the very same file, and those that were
    not killed have the same results. *)
Theorem C127_kill_is_failure : forall ds d fs, let G := graph_impl lmdb_at_once in
  let (rs, x) := life G ds (d, fs) in
  exists fs' all, session G (scripts_of ds) (d, fs') = (all, (fst x, [])) /\ seen ds all = rs.
Proof.
  intros ds d fs G. destruct (life_fails ds d fs) as (fs1 & all & H & Hs). unfold G. destruct (life (graph_impl lmdb_at_once) ds (d, fs)) as [rs x]. cbn [fst snd] in *.
  exists fs1, all. split; [|exact Hs]. specialize (H []). rewrite app_nil_r in H. exact H.
Qed.
Print Assumptions C127_kill_is_failure.

(** This is also so for a script killed in the middle of a store call, between two
    operations on the file, whatever fails: it leaves what it would leave killed
    between two calls. *)
Theorem C127_operations : forall script d fs n,
  let s := go_on (repeat (Moves 0) n) (start d fs (fun _ => p_run common script)) in
  file (die 0 s) = file s
  /\ exists m, file s = fst (snd (alone (graph_impl lmdb_at_once) m (p_run common script) (d, fs))).
Proof.
  intros script d fs n s. split; [reflexivity|]. set (cl := fun _ : nat => p_run common script) in *.
  destruct (Prop_TxnConc.C119_at_once d fs cl (repeat (Moves 0) n)) as [E _].
  assert (Z : forall l s, (forall e, In e l -> e = Moves 0) -> exists k, moments l s = repeat (Moves 0) k).
  { clear. induction l as [|e l IH]; intros s H; [exists 0; reflexivity|]. cbn [moments]. destruct (IH (happen e s) (fun x Hx => H x (or_intror Hx))) as [k ->].
    rewrite (H e (or_introl eq_refl)). destruct (moment 0 s); [exists (S k)|exists k]; reflexivity. }
  destruct (Z (repeat (Moves 0) n) (start d fs cl)) as [k Ek]; [intros e He; apply repeat_spec in He; exact He|]. rewrite Ek in E. exists k.
  assert (Y : forall k x c p, c 0 = p -> shared (at_once (graph_impl lmdb_at_once) (repeat (Moves 0) k) (Pool x c)) = snd (alone (graph_impl lmdb_at_once) k p x)).
  { clear. induction k as [|k IH]; intros x c p Hp; [destruct p; reflexivity|]. unfold at_once. cbn [repeat fold_left]. fold (at_once (graph_impl lmdb_at_once) (repeat (Moves 0) k)).
    cbn [happen_at_once]. unfold turn. cbn [clients shared]. rewrite Hp. destruct p as [r|q kk].
    - unfold at_once in IH. rewrite (IH x c (Done r) Hp). destruct k; reflexivity.
    - cbn [alone]. destruct (perform (graph_impl lmdb_at_once) q x) as [a x']. apply IH. reflexivity. }
  rewrite (Y k (d, fs) cl (p_run common script) eq_refl) in E. unfold s. rewrite E. reflexivity.
Qed.
Print Assumptions C127_operations.

(** So lives of LMDB stores with kills and failures are those of the reference of
    C125, in which every let may go well or fail in three ways; of the outcomes of
    killed scripts nobody hears. *)
Theorem C127_reference : forall h ds w fs rs d' fs',
  let d := after heed_impl heed_new h in
  shows heed_impl d w ->
  (forall fs, (total_weight (snd (snd (session (graph_impl (logged lmdb_at_once)) (scripts_of ds) ((d, fs), h)))) < 2 ^ 64)%N) ->
  life (graph_impl lmdb_at_once) ds (d, fs) = (rs, (d', fs')) ->
  exists os w', all_mean_on lets_failing w (scripts_of ds) os w' /\ seen ds os = map outcome_of rs /\ shows heed_impl d' w'.
Proof.
  intros h ds w fs rs d' fs' d Sw Rm E. assert (A : at_f ((d, []), h)) by (exists h; split; [reflexivity|apply N.le_refl]).
  destruct (life_reference ds h d w fs A Sw Rm) as (os & w' & M & Hs & S'). rewrite E in Hs, S'. exists os, w'. auto.
Qed.
Print Assumptions C127_reference.

(** And every such life is lived. *)
Theorem C127_reached : forall h ds w os w',
  let d := after heed_impl heed_new h in
  shows heed_impl d w ->
  (forall fs, (total_weight (snd (snd (session (graph_impl (logged lmdb_at_once)) (scripts_of ds) ((d, fs), h)))) < 2 ^ 64)%N) ->
  all_mean_on lets_failing w (scripts_of ds) os w' ->
  exists ds' fs rs d', Forall2 same_deed ds ds' /\ life (graph_impl lmdb_at_once) ds' (d, fs) = (rs, (d', []))
    /\ map outcome_of rs = seen ds os /\ shows heed_impl d' w'.
Proof.
  intros h ds w os w' d Sw Rm M. assert (A : at_f ((d, []), h)) by (exists h; split; [reflexivity|apply N.le_refl]).
  exact (life_reached ds h d w os w' A Sw Rm M).
Qed.
Print Assumptions C127_reached.

(** A script that reads nothing it lets.  It was begun any number of times, killed
    at any moment or not, while writes and commits failed.  When the disk is well
    again it is run once more: it has the outcome it would have had at first, and
    leaves a store that looks like the one it would have left then. *)
Theorem C127_retry : forall script ms h fs,
  (forall n, reads_name script n -> ~ lets_name script n) ->
  let G := graph_impl heed_impl in
  let d := after heed_impl heed_new h in
  (forall fs, (total_weight (snd (snd (session (graph_impl (logged lmdb_at_once)) (repeat script (S (List.length ms))) ((d, fs), h)))) < 2 ^ 64)%N) ->
  exists r d1 r' d2, run G common script d = (r, d1)
    /\ run G common script (fst (attempts (graph_impl lmdb_at_once) script ms (d, fs))) = (r', d2)
    /\ outcome_of r' = outcome_of r /\ look_alike heed_impl d1 d2.
Proof. intros script ms h fs D G d Rm. exact (retry_exact script ms h fs D Rm). Qed.
Print Assumptions C127_retry.

(** A script that may read what it lets, without assertions and searches for
    variables, that answers at first.  Begun [n] times, killed at any moment or not,
    while writes and commits failed, and run once more when the disk is well, it
    answers and leaves at least what one run would have answered and left, and at
    most what the last of [n + 1] runs would have, on a disk that is well. *)
Theorem C127_between : forall script ms h fs a d1 rs d3,
  plain_script script ->
  let G := graph_impl heed_impl in
  let d := after heed_impl heed_new h in
  (forall fs, (total_weight (snd (snd (session (graph_impl (logged lmdb_at_once)) (repeat script (S (List.length ms))) ((d, fs), h)))) < 2 ^ 64)%N) ->
  run G common script d = (Ok a, d1) ->
  session G (repeat script (S (List.length ms))) d = (rs, d3) ->
  exists b c d2, run G common script (fst (attempts (graph_impl lmdb_at_once) script ms (d, fs))) = (Ok b, d2)
    /\ nth_error rs (List.length ms) = Some (Ok c)
    /\ below_value a b /\ below_value b c
    /\ forall w1 w2 w3, shows heed_impl d1 w1 -> shows heed_impl d2 w2 -> shows heed_impl d3 w3 -> below w1 w2 /\ below w2 w3.
Proof. intros script ms h fs a d1 rs d3 Pl G d Rm E ES. exact (P_RetryPlain.retry_between script ms h fs a d1 rs d3 Pl Rm E ES). Qed.
Print Assumptions C127_between.

(** In the reference: an attempt at a script that reads nothing it lets, on a failing disk answers what it
    would on one that is well, or crashes, and leaves no more than it would. *)
Theorem C127_attempt : forall script w o w1 o2 w2,
  (forall n, reads_name script n -> ~ lets_name script n) ->
  means Lmdb w script o w1 -> means_on lets_failing w script o2 w2 ->
  (o2 = o \/ o2 = Crashes) /\ below w w2 /\ below w2 w1 /\ forall n, ~ lets_name script n -> w2 n = w n.
Proof.
  intros script w o w1 o2 w2 D M M2. destruct (means_under script w o w1 o2 w2 D M M2) as [B E]. split; [exact E|].
  split; [exact (means_below _ _ _ _ M2)|]. split; [exact B|]. exact (means_only script w o2 w2 M2).
Qed.
Print Assumptions C127_attempt.

(** A script that stores a network is begun three times: it is killed when it has
    created the collection; it is not killed, and the commit of its adding fails;
    the second write of its adding fails, and it crashes.  Then the disk is well,
    and it stores the network.  There is room for this whatever fails. *)
Definition rt_let : str := lit "let n { a b c }".
Definition rt_n : list entry := [Role (mkE (lit "a")) (mkE (lit "c")) (mkE (lit "b"))].

Lemma rt_grows st : let h := snd st in
  let h' := snd (snd (run (graph_impl (logged lmdb_at_once)) common rt_let st)) in
  h' = h ++ [OAddColl (lit "n")] \/ h' = h ++ [OAddColl (lit "n"); OAdd (lit "n") (trips_of rt_n)].
Proof.
  assert (E : run (graph_impl (logged lmdb_at_once)) common rt_let st = let_store (graph_impl (logged lmdb_at_once)) (mkE (lit "n")) rt_n st).
  { destruct (run_outcomes _ (graph_impl (logged lmdb_at_once)) common rt_let st) as [_ X].
    destruct (X _ eq_refl) as (_ & _ & Y). erewrite Y; [|apply parse_ok; vm_compute; reflexivity].
    match goal with |- run_calls _ _ ?cs _ = _ => replace cs with [Call (mkE (lit "let")) [VElement (mkE (lit "n")); VNetwork rt_n]] by (vm_compute; reflexivity) end.
    destruct (let_store (graph_impl (logged lmdb_at_once)) (mkE (lit "n")) rt_n st) as [r st'] eqn:El. apply (does_iff _ _ common_table).
    apply (acts_does _ FLet); [discriminate|reflexivity|]. apply ac_let_network, stores_iff, El. }
  cbv zeta. rewrite E. destruct st as [[d fs] h]. unfold let_store. rewrite fail_coll. cbn [el_name snd].
  destruct (attempt _ _ _) as [[u|e|x] d1]; cbn [err_todo]; [|left; reflexivity..].
  rewrite fail_add. cbn [el_name]. destruct (attempt _ _ _) as [[u2|e|x] d2]; cbn [snd]; right; rewrite <- app_assoc; reflexivity.
Qed.

Lemma weight_app g h : total_weight (g ++ h) = (total_weight g + total_weight h)%N.
Proof. induction g as [|o g IH]; cbn [app total_weight fold_right]; [reflexivity|]. unfold total_weight in *. rewrite IH. apply N.add_assoc. Qed.

Lemma rt_room k : forall st, (total_weight (snd (snd (session (graph_impl (logged lmdb_at_once)) (repeat rt_let k) st))) <= total_weight (snd st) + N.of_nat k * 100)%N.
Proof.
  induction k as [|k IH]; intros st; [cbn [repeat session snd]; lia|]. cbn [repeat session]. pose proof (rt_grows st) as G. cbv zeta in G.
  destruct (run _ _ _ st) as [r st1]. cbn [snd] in G. specialize (IH st1). destruct (session _ _ st1) as [rs st2]. cbn [snd] in *.
  assert (W : (total_weight (snd st1) <= total_weight (snd st) + 100)%N).
  { destruct G as [->| ->]; rewrite weight_app; apply N.add_le_mono_l; vm_compute; discriminate. }
  lia.
Qed.

Example C127_case :
  let G := graph_impl heed_impl in
  let ms := [1; 9; 9] in
  let fs := [no_fault; no_fault; (None, false); no_fault; (Some 1, true)] in
  let cut := attempts (graph_impl lmdb_at_once) rt_let ms (heed_new, fs) in
  (forall n, reads_name rt_let n -> ~ lets_name rt_let n)
  /\ (forall fs, (total_weight (snd (snd (session (graph_impl (logged lmdb_at_once)) (repeat rt_let (S (List.length ms))) ((heed_new, fs), [])))) < 2 ^ 64)%N)
  /\ l_entries G (fst cut) (mkE (lit "n")) = Ok [] /\ t_collections heed_impl (fst cut) = Ok [lit "n"]
  /\ l_entries G (snd (run G common rt_let (fst cut))) (mkE (lit "n")) = Ok rt_n
  /\ map outcome_of (fst (life (graph_impl lmdb_at_once) [DiesAfter rt_let 1; Runs rt_let; Runs rt_let] (heed_new, fs))) = [Answers done; Crashes]
  /\ plain_script rt_let /\ fst (run G common rt_let heed_new) = Ok done
  /\ shows heed_impl heed_new empty_world.
Proof.
  let e := fresh in evar (e : list call); assert (T1 : reads_as rt_let e /\ forall ds, reads_as rt_let ds -> ds = e)
    by (subst e; eapply Prop_Again.only_reading; vm_compute; reflexivity); subst e. destruct T1 as [R1 T1].
  split; [|split; [|split; [|split; [|split; [|split; [|split; [|split]]]]]]].
  - intros n (cs & c & R & Hc & H). rewrite (T1 _ R) in Hc. exfalso. repeat (destruct Hc as [<-|Hc]); [..|destruct Hc]; cbn [c_name c_args el_name] in H;
        repeat (match goal with K : call_reads _ _ _ |- _ => inversion K; clear K; subst | K : value_reads _ _ |- _ => inversion K; clear K; subst end).
  - intros fs. eapply N.le_lt_trans; [apply (rt_room 4)|]. vm_compute. reflexivity.
  - vm_compute. reflexivity.
  - vm_compute. reflexivity.
  - vm_compute. reflexivity.
  - vm_compute. reflexivity.
  - intros cs c R Hc. rewrite (T1 _ R) in Hc. destruct Hc as [<-|[]]; cbn [c_name c_args el_name]; constructor; try (vm_compute; discriminate); intros; discriminate.
  - vm_compute. reflexivity.
  - split.
    + intros n. split; [intros X; destruct (X eq_refl)|]. intros (l & E & H). injection E as <-. destruct H.
    + discriminate.
Qed.
Print Assumptions C127_case.
