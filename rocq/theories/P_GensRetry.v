(** * Proofs: a batch of scripts begun again and again *)
From Coq Require Import List Arith NArith Bool String Lia Permutation.
From Verif Require Import M_Base M_Data M_Heed M_Txn M_Regex M_Lexer M_Graph M_Parser M_Display M_Interp M_Conc M_HostConc M_TxnConc
  S_Order S_Str S_Store S_Txn S_Graph S_Lexer S_Parser S_Interp S_Names S_Json S_Conc S_ConcSee S_Wander S_Rewrite S_TxnConc S_Footprint S_Lines S_Monotone S_Again S_Deaths S_HostConc S_Isolated S_ConcFail S_Gens
  P_Ord P_Hist P_HeedHist P_Lexer P_LexMore P_Parser P_Wander P_WanderDet P_WanderRun P_Conc P_Rewrite P_Footprint P_ConcFoot P_FailRun P_Retry P_HostLmdb P_Isolated P_ConcFail P_Fair P_Gens S_Failing.
From Verif Require P_Again Prop_ConcFail.
Import ListNotations.
Open Scope list_scope.

Lemma within_dec (o : option (list entry)) l : (exists k, o = Some k /\ incl l k) \/ ~ (exists k, o = Some k /\ incl l k).
Proof.
  destruct o as [k|]; [|right; intros (k & E & _); discriminate E].
  assert (D : incl l k \/ ~ incl l k).
  { induction l as [|x l IH]; [left; intros y []|]. destruct (in_dec entry_dec x k) as [I|N]; [|right; intros H; apply N, H; left; reflexivity].
    destruct IH as [H|H]; [left|right; intros K; apply H; intros y Hy; apply K; right; exact Hy]. intros y [<-|Hy]; [exact I|exact (H y Hy)]. }
  destruct D as [D|D]; [left; eauto|right]. intros (k' & E & H). injection E as <-. exact (D H).
Qed.

Scheme vreads_mut := Induction for value_reads Sort Prop with creads_mut := Induction for call_reads Sort Prop.
Combined Scheme reads_mut from vreads_mut, creads_mut.

Lemma reads_looks_at : (forall v n, value_reads v n -> value_looks v n) /\ (forall name args n, call_reads name args n -> call_looks name args n).
Proof.
  apply (reads_mut (fun v n _ => value_looks v n) (fun name args n _ => call_looks name args n)); intros.
  - constructor; assumption.
  - constructor.
  - apply cl_let_in; assumption.
  - apply cl_left; assumption.
  - apply cl_right; assumption.
  - apply cl_fail; assumption.
Qed.

Lemma reads_looks s n : reads_name s n -> looks_at s n.
Proof. intros (cs & c & Rd & Hc & H). exists cs, c. split; [exact Rd|]. split; [exact Hc|]. apply reads_looks_at, H. Qed.

Section Batch.
  Variable ss : list str.
  Hypothesis Ind : ForallOrdPairs independent ss.
  Hypothesis Own : forall x n, In x ss -> reads_name x n -> ~ lets_name x n.
  Let R n := exists x, In x ss /\ reads_name x n.
  Let L n := exists x, In x ss /\ lets_name x n.

  Lemma pair_of x y : In x ss -> In y ss -> x = y \/ independent x y.
  Proof.
    clear Own R L. revert x y. induction Ind as [|a l Ha Hl IH]; [intros x y []|]. intros x y [<-|Hx] [<-|Hy].
    - left. reflexivity.
    - right. rewrite Forall_forall in Ha. exact (Ha y Hy).
    - right. rewrite Forall_forall in Ha. destruct (Ha x Hx) as [A B]. split; assumption.
    - exact (IH Hl x y Hx Hy).
  Qed.

  Lemma apart n : R n -> ~ L n.
  Proof.
    intros (x & Hx & Rx) (y & Hy & Ly). destruct (pair_of x y Hx Hy) as [<-|[_ I]]; [exact (Own x n Hx Rx Ly)|]. apply (I n Ly). apply reads_looks, Rx.
  Qed.

  (** In the good runs one after the other each does what it does at first. *)
  Lemma each_at_first : forall xs, ForallOrdPairs independent xs -> forall w os F, all_mean Lmdb w xs os F ->
    forall x, In x xs -> exists o v, means Lmdb w x o v /\ below v F.
  Proof.
    induction xs as [|y xs IH]; intros I w os F A x Hx; [destruct Hx|]. inversion I as [|? ? Iy Ixs]; subst. inversion A as [|? ? ? o os1 w1 ? M A1]; subst.
    assert (Up : below w1 F) by (clear -A1; induction A1 as [|w x r o os w1 w2 M A IH]; [apply below_refl|exact (below_trans _ _ _ (P_Again.means_up _ _ _ _ M) IH)]).
    destruct Hx as [<-|Hx]; [exists o, w1; split; [exact M|exact Up]|].
    destruct (IH Ixs w1 os1 F A1 x Hx) as (ox & v1 & Mx & Bx). rewrite Forall_forall in Iy. destruct (Iy x Hx) as [I1 I2].
    pose proof (means_frame _ _ _ _ _ M) as Fr.
    destruct (P_Footprint.means_on Lmdb x w1 ox v1 Mx (looks_at x) w (fun _ H => H)) as (v & Mv & Av & Fv).
    { intros n Hn. symmetry. apply Fr. intros K. exact (I1 n K Hn). }
    exists ox, v. split; [exact Mv|]. intros n l E. destruct (within_dec (F n) l) as [D|D]; [exact D|]. exfalso.
    assert (NL : ~ lets_name x n).
    { intros K. apply D, (Bx n l). rewrite <- (Av n (script_lets_looks _ _ K)). exact E. }
    apply D. rewrite (Fv n NL) in E. destruct (P_Again.means_up _ _ _ _ M n l E) as (m & Em & Im). destruct (Up n _ Em) as (k & Ek & Ik).
    exists k. split; [exact Ek|]. intros z Hz. apply Ik, Im, Hz.
  Qed.

  Lemma good_keeps w x o w' : In x ss -> means Lmdb w x o w' -> agree_on R w w'.
  Proof. intros Hx M n Rn. apply (means_frame _ _ _ _ _ M). intros K. apply (apart n Rn). exists x. auto. Qed.

  (** An attempt at any of them stays between the world at first and the good end. *)
  Lemma attempt_between w os F : all_mean Lmdb w ss os F -> forall x u o u1, In x ss -> P_Again.between R w u F -> means_on lets_failing u x o u1 ->
    P_Again.between R w u1 F.
  Proof.
    intros A x u o u1 Hx Bt M. destruct (each_at_first ss Ind w os F A x Hx) as (ox & v & Mx & Bx).
    destruct (P_Again.means_steady R L apart x w ox v Mx) with (u := u) (F := F) as (u' & Mu & (_ & _ & Bu)); try assumption.
    - intros n Hn. exists x. auto.
    - intros n Hn. exists x. auto.
    - destruct (means_under x u ox u' o u1 (fun n Rn => Own x n Hx Rn) Mu M) as [B1 _]. destruct Bt as (A0 & B0 & _). split; [|split].
      + intros n Rn. rewrite <- (A0 n Rn). apply (means_only x u o u1 M). intros K. apply (apart n Rn). exists x. auto.
      + exact (below_trans _ _ _ B0 (means_below _ _ _ _ M)).
      + exact (below_trans _ _ _ B1 Bu).
  Qed.

  Lemma attempts_between w os F : all_mean Lmdb w ss os F -> forall ts u os' u1, incl ts ss -> P_Again.between R w u F -> all_mean_on lets_failing u ts os' u1 ->
    P_Again.between R w u1 F.
  Proof.
    intros A ts u os' u1 I Bt K. revert I Bt. induction K as [u|u x rest o os1 u1 u2 M _ IH]; intros I Bt; [exact Bt|].
    apply IH; [intros y Hy; apply I; right; exact Hy|]. eapply attempt_between; [exact A|apply I; left; reflexivity|exact Bt|exact M].
  Qed.

  (** Run again when all is well they do what they do at first. *)
  Lemma again_good xs : incl xs ss -> forall w os F, all_mean Lmdb w xs os F -> forall T, below F T -> forall u, P_Again.between R w u T ->
    exists u', all_mean Lmdb u xs os u' /\ P_Again.between R F u' T.
  Proof.
    intros I w os F A T. induction A as [w|w x rest o os w1 w2 M A1 IH]; intros BT u Bt; [exists u; split; [constructor|exact Bt]|].
    assert (Up : below w1 w2) by (clear -A1; induction A1 as [|w x r o os w1 w2 M A IH]; [apply below_refl|exact (below_trans _ _ _ (P_Again.means_up _ _ _ _ M) IH)]).
    destruct (P_Again.means_steady R L apart x w o w1 M) with (u := u) (F := T) as (u' & Mu & Bu).
    - intros n Hn. exists x. split; [apply I; left; reflexivity|exact Hn].
    - intros n Hn. exists x. split; [apply I; left; reflexivity|exact Hn].
    - exact Bt.
    - exact (below_trans _ _ _ Up BT).
    - destruct (IH (fun y Hy => I y (or_intror Hy)) BT u' Bu) as (u2 & A2 & B2). exists u2. split; [econstructor; eassumption|exact B2].
  Qed.
End Batch.

(** Scripts one after the other when all is well. *)
Lemma costs_solo_sure p : forall n st, costs p n ->
  (total_weight (snd (snd (solo (graph_impl (logged heed_impl)) p st))) <= total_weight (snd st) + n)%N.
Proof.
  induction p as [r|q k IH]; intros n [s g] H; cbn [solo]; [cbn [snd]; lia|]. destruct H as [Hq H].
  rewrite log_perform. specialize (IH (fst (perform (graph_impl heed_impl) q s)) _ (snd (perform (graph_impl heed_impl) q s), g ++ ops_of q) (H _)).
  cbn [snd fst] in *. rewrite total_weight_app in IH. pose proof (weight_of q). lia.
Qed.

Lemma sure_session n xs : forall g w, shows heed_impl (lm g) w -> (forall x, In x xs -> costs (p_run common x) n) ->
  (total_weight g + N.of_nat (List.length xs) * n < 2 ^ 64)%N ->
  exists rs g1 w1, session (graph_impl (logged heed_impl)) xs (lm g, g) = (rs, (lm g1, g1)) /\ session G xs (lm g) = (rs, lm g1)
    /\ all_mean Lmdb w xs (map outcome_of rs) w1 /\ shows heed_impl (lm g1) w1
    /\ (total_weight g1 <= total_weight g + N.of_nat (List.length xs) * n)%N.
Proof.
  induction xs as [|x xs IH]; intros g w Sw HC W.
  - exists [], g, w. cbn. split; [reflexivity|]. split; [reflexivity|]. split; [apply am_none|]. split; [exact Sw|lia].
  - cbn [List.length] in W. pose proof (costs_solo_sure (p_run common x) n (lm g, g) (HC x (or_introl eq_refl))) as K. rewrite log_common in K. cbn [snd] in K.
    destruct (P_Again.whole_run x g w Sw) as (r & g1 & w1 & E1 & E2 & M & S1).
    { change (with_log g) with (lm g, g). lia. }
    change (with_log g) with (lm g, g) in E1. change (with_log g1) with (lm g1, g1) in E1. rewrite E1 in K. cbn [snd] in K.
    destruct (IH g1 w1 S1 (fun y Hy => HC y (or_intror Hy))) as (rs & g2 & w2 & F1 & F2 & A & S2 & W2); [lia|].
    exists (r :: rs), g2, w2. cbn [session]. rewrite E1, E2, F1, F2. cbn [map]. split; [reflexivity|]. split; [reflexivity|]. split; [eapply am_more; eassumption|]. split; [exact S2|cbn [List.length]; lia].
Qed.

(** The calls made cost no more than the budget. *)
Lemma calls_cost {St} (Lg : lig_impl St) m l : forall st cl b, (forall j, m <= j -> exists r, cl j = Done r) -> (forall j, j < m -> costs (cl j) (b j)) ->
  (calls_weight (calls_made Lg l (Pool st cl)) <= budget b m)%N.
Proof.
  induction l as [|j l IH]; intros st cl b HD HC; [cbn; lia|]. cbn [calls_made]. unfold turn. cbn [clients shared].
  destruct (cl j) as [r|q k] eqn:Ej; [apply (IH st cl b HD HC)|].
  assert (Hj : j < m) by (destruct (Nat.lt_ge_cases j m) as [H|H]; [exact H|destruct (HD j H) as [r E]; congruence]).
  pose proof (HC j Hj) as Hc. rewrite Ej in Hc. destruct Hc as [Hq Hk].
  destruct (perform Lg q st) as [a st1] eqn:Ep. unfold calls_weight. cbn [fold_right snd].
  rewrite (budget_spend b m j (req_weight q) Hj Hq).
  specialize (IH st1 (update cl j (k a)) (fun i => if Nat.eqb i j then b j - req_weight q else b i)%N).
  unfold calls_weight in IH. rewrite N.add_comm. apply N.add_le_mono_r. apply IH.
  + intros i Hi. rewrite update_other by lia. exact (HD i Hi).
  + intros i Hi. destruct (Nat.eqb_spec i j) as [->|N]; [rewrite update_same; apply Hk|rewrite update_other by exact N; exact (HC i Hi)].
Qed.

(** The lives. *)
Lemma lives_history gs n : forall h, (forall g x, In g gs -> In x (g_scripts g) -> costs (p_run common x) n) ->
  exists h', file_after gs (lm h) = lm h' /\ (total_weight h' <= total_weight h + N.of_nat (List.length (flat_map g_scripts gs)) * n)%N.
Proof.
  induction gs as [|g gs IH]; intros h HC; [exists h; split; [reflexivity|cbn; lia]|].
  destruct (life_history h g n (fun x Hx => HC g x (or_introl eq_refl) Hx)) as (h1 & E & W & _).
  destruct (IH h1 (fun g' x Hg => HC g' x (or_intror Hg))) as (h2 & E2 & W2). exists h2. cbn [file_after]. rewrite E. split; [exact E2|].
  cbn [flat_map]. rewrite app_length. lia.
Qed.
