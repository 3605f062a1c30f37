(** * Proofs: clients that have nothing to do with each other *)
From Coq Require Import List Arith NArith Bool String Lia Permutation.
From Verif Require Import M_Base M_Data M_Heed M_Txn M_Regex M_Lexer M_Graph M_Parser M_Display M_Interp M_Conc M_HostConc M_TxnConc
  S_Order S_Str S_Store S_Txn S_Graph S_Interp S_Conc S_ConcSee S_Wander S_Rewrite S_TxnConc S_HostConc S_AnyRetry S_Isolated S_ConcFail S_Apart
  P_Ord P_Hist P_HeedHist P_Conc P_ConcFoot P_FailRun P_Retry P_HostConc P_Isolated P_Fair P_Gens.
From Verif Require P_TxnConc Prop_TxnConc.
Import ListNotations.
Open Scope list_scope.

Lemma costs_falls_next q k a n : costs (Ask q k) n -> costs (k a) (n - req_weight q).
Proof. intros [_ H]. apply H. Qed.

Lemma uses_next q k a c : uses (k a) c -> uses (Ask q k) c.
Proof. intros (q' & Hq & E). exists q'. split; [right; exists a; exact Hq|exact E]. Qed.
Lemma change_next q k a c : may_change (k a) c -> may_change (Ask q k) c.
Proof. intros (q' & x & Hq & E). exists q', x. split; [right; exists a; exact Hq|exact E]. Qed.
Lemma local_next q k a : local (Ask q k) -> local (k a).
Proof. intros H q' Hq. apply H. right. exists a. exact Hq. Qed.

Lemma log_grows {S} (I : trips_impl S) p : forall st g, exists tr, snd (snd (solo (graph_impl (logged I)) p (st, g))) = g ++ tr
  /\ forall g2, solo (graph_impl (logged I)) p (st, g2) = (fst (solo (graph_impl (logged I)) p (st, g)), (fst (snd (solo (graph_impl (logged I)) p (st, g))), g2 ++ tr)).
Proof.
  induction p as [r|q k IH]; intros st g; cbn [solo]; [exists []; cbn [fst snd]; rewrite app_nil_r; split; [reflexivity|intros; rewrite app_nil_r; reflexivity]|].
  rewrite log_perform. destruct (IH (fst (perform (graph_impl I) q st)) (snd (perform (graph_impl I) q st)) (g ++ ops_of q)) as (tr & E & F).
  exists (ops_of q ++ tr). rewrite E, <- app_assoc. split; [reflexivity|]. intros g2. rewrite log_perform, F, <- app_assoc. reflexivity.
Qed.

(** What the calls of a client alone amount to. *)
Definition spent (h : list op) (x : prog * list fault) : N := total_weight (snd (snd (solo LG (fst x) ((lm h, snd x), [])))).

Lemma spent_step h q k fs : (forall e fs1, fst (snd (perform AO q (lm h, fs))) = lm (h ++ e) -> snd (snd (perform AO q (lm h, fs))) = fs1 ->
  spent h (Ask q k, fs) = total_weight (ops_of q) + spent (h ++ e) (k (fst (perform AO q (lm h, fs))), fs1))%N.
Proof.
  intros e fs1 E1 E2. unfold spent. cbn [fst snd solo]. rewrite log_perform. destruct (perform AO q (lm h, fs)) as [a [d1 f1]]. cbn [fst snd] in *. subst.
  destruct (log_grows lmdb_at_once (k a) (lm (h ++ e), fs1) []) as (tr & E & F). rewrite E. rewrite F. cbn [snd List.app]. rewrite total_weight_app. reflexivity.
Qed.

Lemma spent_solo p h fs : exists r st tr, solo LG p ((lm h, fs), []) = (r, (st, tr)) /\ spent h (p, fs) = total_weight tr.
Proof. unfold spent. cbn [fst snd]. destruct (solo LG p (lm h, fs, [])) as [r [st tr]]. eauto. Qed.

(** What a client does on one file under some failures, it does on another one that
    looks the same for its collections, under some failures. *)
Lemma carried p : forall ha hs fs, local p -> falls p ->
  (total_weight ha + spent ha (p, fs) < 2 ^ 64)%N -> (total_weight hs + spent ha (p, fs) < 2 ^ 64)%N ->
  (forall c, uses p c -> obs c (lm ha) (lm hs)) ->
  exists ha' hs' ff r', fst (snd (solo AO p (lm ha, fs))) = lm ha'
    /\ solo AO p (lm hs, ff) = (r', (lm hs', []))
    /\ alike (fst (solo AO p (lm ha, fs))) r'
    /\ (forall c, obs c (lm ha) (lm hs) -> obs c (lm ha') (lm hs'))
    /\ (forall c, ~ may_change p c -> obs c (lm hs') (lm hs))
    /\ (total_weight hs' <= total_weight hs + spent ha (p, fs))%N.
Proof.
  induction p as [r|q k IH]; intros ha hs fs HL HF Wa Ws O.
  - exists ha, hs, [], r. cbn [solo fst snd List.app]. split; [reflexivity|]. split; [reflexivity|]. split; [left; reflexivity|]. split; [auto|]. split; [intros; apply obs_refl|lia].
  - assert (Hl : q <> QCollections /\ forall c es, q <> QRemoveEntries c es) by (apply HL; left; reflexivity).
    assert (Ha : exists c, about q = Some c) by (destruct q; cbn; eauto; destruct (proj1 Hl eq_refl)).
    destruct Ha as (c0 & Ha). assert (U0 : uses (Ask q k) c0) by (exists q; split; [left; reflexivity|exact Ha]).
    assert (G0 : (total_weight (ops_of q) <= spent ha (Ask q k, fs))%N).
    { unfold spent. cbn [fst snd solo]. rewrite log_perform. destruct (log_grows lmdb_at_once (k (fst (perform AO q (lm ha, fs)))) (snd (perform AO q (lm ha, fs))) ([] ++ ops_of q)) as (tr & E & _).
      rewrite E. cbn [List.app]. rewrite total_weight_app. lia. }
    destruct (own_step_fits q c0 ha hs fs Ha (proj2 Hl) ltac:(rewrite total_weight_app; lia) ltac:(rewrite total_weight_app; lia) (O c0 U0)) as (ff & e & He & O0 & Es & Er).
    pose proof (spent_step ha q k fs e _ Es eq_refl) as Sp.
    assert (We : (total_weight e <= total_weight (ops_of q))%N) by (destruct He as [->| ->]; [cbn; lia|lia]). rewrite Sp in *. clear Sp. cbn [solo].
    destruct (perform AO q (lm ha, fs)) as [a [d1 fs1]] eqn:Ep. cbn [fst snd] in Es, Er, Wa, Ws, G0 |- *. subst d1.
    assert (Step : forall c, obs c (lm ha) (lm hs) -> obs c (lm (ha ++ e)) (lm (hs ++ e))).
    { intros c Hc. destruct (str_dec c c0) as [->|Hn]; [exact O0|]. destruct He as [->| ->]; [rewrite !app_nil_r; exact Hc|].
      assert (Hn' : about q <> Some c) by congruence.
      eapply obs_trans; [apply perform_other, Hn'|]. eapply obs_trans; [exact Hc|]. apply obs_sym, perform_other, Hn'. }
    assert (Stay : forall c, ~ may_change (Ask q k) c -> obs c (lm (hs ++ e)) (lm hs)).
    { intros c N. destruct He as [->| ->]; [rewrite app_nil_r; apply obs_refl|]. destruct (writing q) eqn:Wq.
      - apply perform_other. intros E'. apply N. apply (may_change_of _ q); [left; reflexivity|exact E'|exact Wq].
      - destruct q; try discriminate Wq; unfold ops_of; cbn [op_of]; rewrite app_nil_r; apply obs_refl. }
    assert (Same : forall c, uses (k a) c -> obs c (lm (ha ++ e)) (lm (hs ++ e))) by (intros c Hc; apply Step, O, (uses_next q k a c), Hc).
    destruct (IH a (ha ++ e) (hs ++ e) fs1) as (ha' & hs' & ff2 & r' & S1 & S2 & S3 & S4 & S5 & S6).
    + exact (local_next _ _ _ HL).
    + exact (falls_next _ _ _ HF).
    + rewrite total_weight_app. lia.
    + rewrite total_weight_app. lia.
    + exact Same.
    + destruct (Er ff2) as [Er1 Er2]. rewrite total_weight_app in S6. destruct Er2 as [Ea|(w & w' & Ew & Ew')].
      * exists ha', hs', (ff ++ ff2), r'. split; [exact S1|]. split.
        { rewrite (surjective_pairing (perform AO q (lm hs, ff ++ ff2))), Er1, <- Ea. exact S2. }
        split; [exact S3|]. split; [intros c Hc; apply S4, Step, Hc|]. split; [|lia].
        intros c N. eapply obs_trans; [apply S5; intros K; apply N, (change_next q k a c K)|exact (Stay c N)].
      * destruct HF as [HF _]. cbn [fst] in Ew. pose proof (HF a w Ew) as K1. pose proof (HF _ w' Ew') as K2. rewrite K1 in *. cbn [solo fst snd] in *.
        exists ha', (hs ++ e), ff, (Panic w').
        assert (ff2 = []) as -> by congruence. assert (Eh : lm ha' = lm (ha ++ e)) by congruence.
        split; [exact S1|]. split.
        { rewrite app_nil_r in Er1, K2. rewrite (surjective_pairing (perform AO q (lm hs, ff))), Er1, K2. reflexivity. }
        split; [right; exists w, w'; split; reflexivity|]. split; [intros c Hc; rewrite Eh; apply Step, Hc|]. split; [exact Stay|rewrite total_weight_app; lia].
Qed.

(** One after the other on one file, each as from another one that looks the same for it. *)
Definition sum_of (l : list N) : N := fold_right N.add 0%N l.

Lemma carried_in_turn h : forall (items : list (prog * list fault)) hs,
  (forall p fs, In (p, fs) items -> local p /\ falls p /\ (total_weight h + spent h (p, fs) < 2 ^ 64)%N) -> ForallOrdPairs apart (map fst items) ->
  (total_weight hs + sum_of (map (spent h) items) < 2 ^ 64)%N ->
  (forall p fs c, In (p, fs) items -> uses p c -> obs c (lm h) (lm hs)) ->
  exists hs' ff rs, in_turn AO (map fst items) (lm hs, ff) = (rs, (lm hs', []))
    /\ (forall k p fs, nth_error items k = Some (p, fs) -> exists ha' r', fst (snd (solo AO p (lm h, fs))) = lm ha'
        /\ nth_error rs k = Some r' /\ alike (fst (solo AO p (lm h, fs))) r' /\ forall c, uses p c -> obs c (lm ha') (lm hs'))
    /\ (forall c, (forall p fs, In (p, fs) items -> ~ may_change p c) -> obs c (lm hs') (lm hs))
    /\ (total_weight hs' <= total_weight hs + sum_of (map (spent h) items))%N.
Proof.
  induction items as [|[p fs] items IH]; intros hs HP Ap Ws O.
  - exists hs, [], []. split; [reflexivity|]. split; [intros [|k] p fs E; discriminate E|]. split; [intros; apply obs_refl|cbn; lia].
  - cbn [map fst sum_of fold_right] in *. fold (sum_of (map (spent h) items)) in Ws. inversion Ap as [|? ? Ap1 Ap2]; subst. destruct (HP p fs (or_introl eq_refl)) as (HL & HF & HC).
    destruct (carried p h hs fs HL HF HC) as (ha' & hs1 & ff1 & r1 & S1 & S2 & S3 & S4 & S5 & S6); [lia|intros c Hc; exact (O p fs c (or_introl eq_refl) Hc)|].
    destruct (IH hs1) as (hs' & ff & rs & E1 & E2 & E3 & E4).
    + intros q gs Hq. apply (HP q gs). right. exact Hq.
    + exact Ap2.
    + lia.
    + intros q gs c Hq U. eapply obs_trans; [apply (O q gs c (or_intror Hq) U)|]. apply obs_sym, S5. intros M.
      rewrite Forall_forall in Ap1. apply (proj1 (Ap1 q (in_map fst _ _ Hq)) c M U).
    + destruct (solo_uses p (lm hs) ff1) as (ff0 & H). rewrite S2 in H. cbn [fst snd] in H.
      exists hs', (ff0 ++ ff), (r1 :: rs). split; [cbn [in_turn]; rewrite H, E1; reflexivity|]. split.
      * intros [|k] q gs E; cbn [nth_error] in E.
        -- injection E as <- <-. exists ha', r1. split; [exact S1|]. split; [reflexivity|]. split; [exact S3|].
           intros c U. eapply obs_trans; [apply S4, (O p fs c (or_introl eq_refl) U)|]. apply obs_sym, E3. intros q gs Hq M.
           rewrite Forall_forall in Ap1. apply (proj2 (Ap1 q (in_map fst _ _ Hq)) c M U).
        -- destruct (E2 k q gs E) as (hq & rq & K1 & K2 & K3 & K4). exists hq, rq. auto.
      * split; [|fold (sum_of (map (spent h) items)); lia]. intros c N. eapply obs_trans; [apply E3; intros q gs Hq; apply (N q gs); right; exact Hq|]. apply S5. apply (N p fs). left. reflexivity.
Qed.

(** The calls of some clients are no more than the calls. *)
Lemma some_clients made : forall o, NoDup o -> (sum_of (map (fun i => events_weight (of_client i made)) o) <= events_weight made)%N.
Proof.
  induction made as [|e made IH]; intros o ND; [clear; induction o as [|i o IH]; cbn in *; [lia|exact IH]|].
  specialize (IH o ND). assert (K : (sum_of (map (fun i => events_weight (of_client i (e :: made))) o) <= req_weight (what e) + sum_of (map (fun i => events_weight (of_client i made)) o))%N); [|change (events_weight (e :: made)) with (req_weight (what e) + events_weight made)%N; lia].
  clear IH. assert (K0 : forall o, ~ In (who e) o -> sum_of (map (fun i => events_weight (of_client i (e :: made))) o) = sum_of (map (fun i => events_weight (of_client i made)) o)).
  { intros o' N. f_equal. apply map_ext_in. intros i Hi. cbn [of_client filter]. fold (of_client i made). rewrite (proj2 (Nat.eqb_neq (who e) i)); [reflexivity|intros <-; contradiction]. }
  induction ND as [|i o Hi ND IH]; [cbn; lia|].
  change (sum_of (map (fun i => events_weight (of_client i (e :: made))) (i :: o))) with (events_weight (of_client i (e :: made)) + sum_of (map (fun i => events_weight (of_client i (e :: made))) o))%N.
  change (sum_of (map (fun i => events_weight (of_client i made)) (i :: o))) with (events_weight (of_client i made) + sum_of (map (fun i => events_weight (of_client i made)) o))%N.
  destruct (Nat.eq_dec (who e) i) as [E|E].
  - rewrite K0 by (rewrite E; exact Hi). assert (X : events_weight (of_client i (e :: made)) = (req_weight (what e) + events_weight (of_client i made))%N).
    { cbn [of_client filter]. rewrite (proj2 (Nat.eqb_eq (who e) i) E). reflexivity. }
    rewrite X. lia.
  - assert (X : of_client i (e :: made) = of_client i made) by (cbn [of_client filter]; rewrite (proj2 (Nat.eqb_neq (who e) i) E); reflexivity).
    rewrite X. lia.
Qed.

Lemma sum_le {A} (f g : A -> N) l : (forall x, In x l -> f x <= g x)%N -> (sum_of (map f l) <= sum_of (map g l))%N.
Proof. induction l as [|x l IH]; intros H; [cbn; lia|]. cbn [map sum_of fold_right]. fold (sum_of (map f l)) (sum_of (map g l)). specialize (IH (fun y Hy => H y (or_intror Hy))). pose proof (H x (or_introl eq_refl)). lia. Qed.

Lemma sum_plus {A} (f : A -> N) n l : sum_of (map (fun x => f x + n)%N l) = (sum_of (map f l) + N.of_nat (List.length l) * n)%N.
Proof. induction l as [|x l IH]; [cbn; lia|]. cbn [map sum_of fold_right List.length]. fold (sum_of (map f l)) (sum_of (map (fun x => f x + n)%N l)). rewrite IH. lia. Qed.

Lemma change_uses p c : may_change p c -> uses p c.
Proof. intros (q & e & Hq & E & [->|[->|[[es ->]|[es ->]]]]); eexists; (split; [exact Hq|cbn; congruence]). Qed.
