(** * C137: when nothing fails and nobody dies, at the same time is one after the other *)
From Coq Require Import List Arith NArith Bool String Lia Permutation.
From Verif Require Import M_Base M_Data M_Heed M_Txn M_Lexer M_Graph M_Parser M_Interp M_Conc M_TxnConc
  S_Order S_Str S_Store S_Txn S_Graph S_Interp S_Conc S_ConcSee S_Wander S_Rewrite S_TxnConc S_Footprint S_Lexer S_Parser S_HostConc S_AnyRetry S_Isolated S_ConcFail S_Fair S_Apart
  P_Ord P_Hist P_HeedHist P_Conc P_Rewrite P_Footprint P_ConcFoot P_HostConc P_HostLmdb P_Isolated P_Apart P_Alike P_InTurn.
From Verif Require P_Lexer P_LexMore P_Parser P_TxnConc Prop_TxnConc Prop_ConcFail Prop_Fair Prop_Apart.
Import ListNotations.
Open Scope list_scope.

(** Programs that make any calls but listing the collections and removing entries,
    and none of which may change a collection that another makes calls about, begun
    at once on one LMDB file; their calls overlap in any way, nothing fails and
    nobody dies.  Once all have ended: run one after the other in any order, on any
    file that looked the same, each has exactly the result it has here, a panic
    included, and the file looks as it looks here. *)
Theorem C137_in_turn : forall ps order h h0 l,
  (forall p, In p ps -> local p) -> ForallOrdPairs apart ps -> Permutation order (seq 0 (List.length ps)) ->
  (forall i, ~ In (Dies i) l) ->
  let d := after heed_impl heed_new h in
  let d0 := after heed_impl heed_new h0 in
  look_alike heed_impl d d0 ->
  let cl := fun j => nth j ps gone in
  let made := answered (graph_impl lmdb_at_once) (moments l (start d [] cl)) (Pool (d, []) cl) in
  let s := go_on l (start d [] cl) in
  (forall j, j < List.length ps -> ended j s) ->
  (total_weight h + events_weight made < 2 ^ 64)%N -> (total_weight h0 + events_weight made < 2 ^ 64)%N ->
  exists rs d', in_turn (graph_impl heed_impl) (map cl order) d0 = (rs, d')
    /\ map (doing s) order = map (fun r => Idle (Done r)) rs
    /\ look_alike heed_impl (file s) d'.
Proof.
  intros ps order h h0 l HL Ap P ND d d0 LA cl made s HE W W0.
  assert (Out : forall j, List.length ps <= j -> cl j = gone) by (intros j Hj; unfold cl; apply nth_overflow, Hj).
  assert (Pair : forall i j c, i <> j -> changes (cl j) c -> ~ uses (cl i) c).
  { intros i j c Hij M U. apply changes_may in M. destruct (Nat.lt_ge_cases j (List.length ps)) as [Hj|Hj]; [|rewrite (Out j Hj) in M; destruct M as (q & e & [] & _)].
    destruct (Nat.lt_ge_cases i (List.length ps)) as [Hi|Hi]; [|rewrite (Out i Hi) in U; destruct U as (q & [] & _)].
    assert (K : apart (cl i) (cl j) \/ apart (cl j) (cl i)).
    { unfold cl. clear -Ap Hi Hj Hij. revert i j Hi Hj Hij. induction Ap as [|a l Ha Hl IH]; intros i j Hi Hj Hij; [cbn in Hi; lia|]. rewrite Forall_forall in Ha.
      destruct i as [|i], j as [|j]; cbn [nth List.length] in *; [congruence|left; apply Ha, nth_In; lia|right; apply Ha, nth_In; lia|apply IH; lia]. }
    destruct K as [[_ K]|[K _]]; exact (K c M U). }
  destruct (Prop_TxnConc.C119_lifts d cl l ND) as (sched & E1 & E2 & E3). cbv zeta in E2, E3. fold s in E2, E3.
  assert (Em : made = events G sched (Pool (lm h) cl)).
  { unfold made. rewrite <- E1. exact (proj2 (proj2 (P_TxnConc.plain_run sched d cl))). }
  assert (Io : forall i, In i order -> i < List.length ps) by (intros i Hi; apply (Permutation_in _ P), in_seq in Hi; lia).
  assert (NDo : NoDup order) by (apply (Permutation_NoDup (Permutation_sym P)), seq_NoDup).
  assert (Oz : forall c, obs c (lm h) (lm h0)) by exact (alike_obs h h0 LA).
  rewrite Em in W, W0. pose proof (some_clients (events G sched (Pool (lm h) cl)) order NDo) as Sm.
  destruct (one_by_one h cl sched W Pair order NDo h0) as (z' & rs & F1 & F2 & F3 & F4 & _).
  - intros i Hi. split; [exact (HL _ (nth_In _ _ (Io i Hi)))|]. destruct (HE i (Io i Hi)) as (r & Er). exists r. exact (proj1 (E3 i _ Er)).
  - lia.
  - intros i c _ _. apply Oz.
  - exists rs, (lm z'). split; [exact F1|]. split.
    + clear -F2 E3 HE Io. revert rs F2. induction order as [|i order IH]; intros [|r rs] F2; try discriminate F2; [reflexivity|]. cbn [map] in *.
      injection F2 as F2 F3. rewrite (IH (fun j Hj => Io j (or_intror Hj)) rs F3). destruct (HE i (Io i (or_introl eq_refl))) as (r0 & Er). pose proof (proj1 (E3 i _ Er)) as K.
      change (lm h) with d in F2. rewrite Er. f_equal. rewrite <- K. f_equal. symmetry. exact F2.
    + destruct (among_own sched h h cl (List.length ps) (fun c => forall j, ~ changes (cl j) c)) as (hx & z1 & X1 & _ & X3 & X4 & _).
      * rewrite (Out _ (le_n _)). intros c (q & [] & _).
      * intros j c _ M N. exact (N j M).
      * rewrite (Out _ (le_n _)). intros q [].
      * intros c _. apply obs_refl.
      * exact W.
      * assert (N1 : NoDup [List.length ps]) by (constructor; [intros []|constructor]). pose proof (some_clients (events G sched (Pool (lm h) cl)) [List.length ps] N1) as K. cbn [map sum_of fold_right] in K. lia.
      * rewrite (Out _ (le_n _)) in X3. unfold gone in X3. rewrite alone_done in X3. injection X3 as _ X3.
        change (lm h) with d in X1. change (after heed_impl heed_new h) with d in X1. rewrite X1 in E2. rewrite <- E2. change (lm h) with d in F3. rewrite X1 in F3.
        apply obs_alike. intros c. apply obs_stable. intros N.
        apply (not_not_em (exists i, i < List.length ps /\ uses (cl i) c)). intros [(i & Hi & U)|No]; apply N.
        -- apply (F3 i c); [|exact U]. apply (Permutation_in _ (Permutation_sym P)), in_seq. lia.
        -- assert (NC : forall j, ~ changes (cl j) c).
           { intros j M. apply changes_may in M. destruct (Nat.lt_ge_cases j (List.length ps)) as [Hj|Hj]; [|rewrite (Out j Hj) in M; destruct M as (q & e & [] & _)].
             apply No. exists j. split; [exact Hj|apply change_uses, M]. }
           eapply obs_trans; [exact (X4 c NC)|]. rewrite <- X3. eapply obs_trans; [apply Oz|]. apply obs_sym, F4. intros i _. apply NC.
Qed.
Print Assumptions C137_in_turn.

(** So the order does not matter, nor how the calls overlapped. *)
Theorem C137_any_order : forall ps order order' h l l',
  (forall p, In p ps -> local p) -> ForallOrdPairs apart ps ->
  Permutation order (seq 0 (List.length ps)) -> Permutation order' (seq 0 (List.length ps)) ->
  (forall i, ~ In (Dies i) l) -> (forall i, ~ In (Dies i) l') ->
  let d := after heed_impl heed_new h in
  let cl := fun j => nth j ps gone in
  let used l := events_weight (answered (graph_impl lmdb_at_once) (moments l (start d [] cl)) (Pool (d, []) cl)) in
  let s := go_on l (start d [] cl) in
  let s' := go_on l' (start d [] cl) in
  (forall j, j < List.length ps -> ended j s) -> (forall j, j < List.length ps -> ended j s') ->
  (total_weight h + used l < 2 ^ 64)%N -> (total_weight h + used l' < 2 ^ 64)%N ->
  (forall j, j < List.length ps -> doing s j = doing s' j) /\ look_alike heed_impl (file s) (file s')
  /\ exists rs rs' d1 d2, in_turn (graph_impl heed_impl) (map cl order) d = (rs, d1)
       /\ in_turn (graph_impl heed_impl) (map cl order') d = (rs', d2)
       /\ look_alike heed_impl d1 d2 /\ map (doing s) order = map (fun r => Idle (Done r)) rs /\ map (doing s) order' = map (fun r => Idle (Done r)) rs'.
Proof.
  intros ps order order' h l l' HL Ap P P' ND ND' d cl used s s' HE HE' W W'.
  assert (Rf : look_alike heed_impl d d) by (apply (obs_alike h h); intros c; apply obs_refl).
  destruct (C137_in_turn ps order h h l HL Ap P ND Rf HE W W) as (rs & d1 & A1 & A2 & A3).
  destruct (C137_in_turn ps order h h l' HL Ap P ND' Rf HE' W' W') as (rs1 & d1' & B1 & B2 & B3).
  destruct (C137_in_turn ps order' h h l HL Ap P' ND Rf HE W W) as (rs' & d2 & D1 & D2 & D3).
  fold d in A1, B1, D1. fold cl in A1, B1, D1. fold s in A2, A3, D2, D3. fold s' in B2, B3.
  rewrite A1 in B1. injection B1 as <- <-. split; [|split; [|exists rs, rs', d1, d2; split; [exact A1|split; [exact D1|split; [|split; [exact A2|exact D2]]]]]].
  - intros j Hj. assert (Hin : In j order) by (apply (Permutation_in _ (Permutation_sym P)), in_seq; lia).
    rewrite <- B2 in A2. clear -A2 Hin. induction order as [|i o IH]; [destruct Hin|]. cbn [map] in A2. injection A2 as E1 E2. destruct Hin as [<-|Hin]; [exact E1|exact (IH E2 Hin)].
  - intros w. exact (iff_trans (A3 w) (iff_sym (B3 w))).
  - intros w. exact (iff_trans (iff_sym (A3 w)) (D3 w)).
Qed.
Print Assumptions C137_any_order.

(** Under any fair schedule all of them end, whatever they do, and it is so from some
    time on. *)
Theorem C137_fair : forall ps order h happens,
  (forall p, In p ps -> local p) -> ForallOrdPairs apart ps -> Permutation order (seq 0 (List.length ps)) ->
  (forall i, i < List.length ps -> forall t, exists t', t <= t' /\ happens t' = Moves i) -> (forall i t, happens t <> Dies i) ->
  let d := after heed_impl heed_new h in
  let cl := fun j => nth j ps gone in
  (forall t, total_weight h + events_weight (answered (graph_impl lmdb_at_once) (moments (map happens (seq 0 t)) (start d [] cl)) (Pool (d, []) cl)) < 2 ^ 64)%N ->
  exists T rs d', in_turn (graph_impl heed_impl) (map cl order) d = (rs, d')
    /\ forall t, T <= t -> let s := at_time happens t (start d [] cl) in
         map (doing s) order = map (fun r => Idle (Done r)) rs /\ look_alike heed_impl (file s) d'.
Proof.
  intros ps order h happens HL Ap P Fair ND d cl W.
  destruct (Prop_Fair.C132_all_end (List.length ps) d [] cl happens) as [T H].
  - intros i Hi. unfold cl. rewrite nth_overflow by exact Hi. eexists. reflexivity.
  - intros i Hi. left. exact (Fair i Hi).
  - exists T. destruct (in_turn (graph_impl heed_impl) (map cl order) d) as [rs d'] eqn:E. exists rs, d'. split; [reflexivity|]. intros t Ht s.
    assert (N : forall i, ~ In (Dies i) (map happens (seq 0 t))) by (intros i K; apply in_map_iff in K as (j & Q & _); exact (ND i j Q)).
    destruct (C137_in_turn ps order h h (map happens (seq 0 t)) HL Ap P N) as (rs1 & d1 & E1 & E2 & E3).
    + apply (obs_alike h h). intros c. apply obs_refl.
    + intros j Hj. exact (H t Ht j).
    + apply W.
    + apply W.
    + fold d cl in E1. rewrite E in E1. injection E1 as <- <-. split; [exact E2|exact E3].
Qed.
Print Assumptions C137_fair.

(** A case.  A program that goes on whatever it is answered, and two Wander scripts;
    the calls of all of them overlap. *)
Definition it_careless : prog :=
  Ask (QRemoveCollection (mkE (lit "m"))) (fun r : lres unit =>
    Ask (QAddEntries (mkE (lit "m")) [Role (mkE (lit "p")) (mkE (lit "r")) (mkE (lit "q"))]) (fun a : lres unit =>
      Ask (QEntries (mkE (lit "m"))) (fun b : lres (list entry) =>
        match a, b with Err e, Ok l => Done (Err (WErr e)) | _, Ok l => Done (Ok (VNetwork l)) | _, _ => Done (Ok (VElement (mkE (lit "whatever")))) end))).
Definition it_ps : list prog := [p_run common (lit "let a {x y z}, read a"); it_careless; p_run common (lit "let b {x y z}, read b")].
Definition it_happens : list happening := List.concat (repeat [Moves 0; Moves 1; Moves 2; Moves 2; Moves 0] 60).
Lemma it_careless_asks q : asks it_careless q -> q = QRemoveCollection (mkE (lit "m")) \/ q = QEntries (mkE (lit "m")) \/ q = QAddEntries (mkE (lit "m")) [Role (mkE (lit "p")) (mkE (lit "r")) (mkE (lit "q"))].
Proof.
  unfold it_careless. cbn [asks]. intros [->|(a & [->|(b & [->|(e & H)])])]; auto.
  destruct b, e; destruct H.
Qed.

Ltac it_uses U := apply (footed_uses _ _ _ _ (footed_script _)) in U;
  let T := fresh in
  assert (T : forall s toks k cs, tokenize s = Ok toks -> tokenize_and_filter s = Ok k -> parse k = Ok cs -> forall ds, reads_as s ds -> ds = cs);
  [intros s0 toks0 k0 cs0 E0 Ef0 Ep0 ds0 (ts0 & k20 & L0 & K20 & Gs0); destruct (P_LexMore.filter_keeps _ _ E0) as (k'0 & Ek0 & K0 & Un0); rewrite Ef0 in Ek0; injection Ek0 as <-;
   apply P_Lexer.tokenize_ok in L0; assert (ts0 = toks0) as -> by congruence; apply Un0 in K20; subst k20; apply P_Parser.parse_ok in Gs0; congruence|];
  let e := fresh in let T0 := fresh in
  match type of U with looks_at ?sc _ => evar (e : list call); assert (T0 : forall ds, reads_as sc ds -> ds = e) by (subst e; eapply T; vm_compute; reflexivity); subst e end;
  let ds := fresh in let dd := fresh in let R := fresh in let Hd := fresh in let HH := fresh in
  destruct U as (ds & dd & R & Hd & HH); rewrite (T0 _ R) in Hd; cbn [In] in Hd; repeat destruct Hd as [Hd|Hd]; subst; try contradiction; cbn [c_name c_args el_name] in HH;
  repeat match goal with
    | K : call_looks _ _ _ |- _ => inversion K; clear K; subst; try discriminate
    | K : value_looks _ _ |- _ => inversion K; clear K; subst; try discriminate end; try reflexivity.

Lemma it_uses_a c : uses (p_run common (lit "let a {x y z}, read a")) c -> c = lit "a".
Proof. intros U. it_uses U. Qed.
Lemma it_uses_b c : uses (p_run common (lit "let b {x y z}, read b")) c -> c = lit "b".
Proof. intros U. it_uses U. Qed.
Lemma it_uses_m c : uses it_careless c -> c = lit "m".
Proof. intros (q & Hq & E). destruct (it_careless_asks q Hq) as [->|[->| ->]]; injection E as <-; reflexivity. Qed.

Example C137_case :
  let d := after heed_impl heed_new [OAddColl (lit "m")] in
  let cl := fun j => nth j it_ps gone in
  let s := go_on it_happens (start d [] cl) in
  (forall p, In p it_ps -> local p) /\ ForallOrdPairs apart it_ps /\ (forall i, ~ In (Dies i) it_happens)
  /\ ~ falls it_careless
  /\ (forall j, j < List.length it_ps -> ended j s)
  /\ (total_weight [OAddColl (lit "m")] + events_weight (answered (graph_impl lmdb_at_once) (moments it_happens (start d [] cl)) (Pool (d, []) cl)) < 2 ^ 64)%N
  /\ map who (answered (graph_impl lmdb_at_once) (moments it_happens (start d [] cl)) (Pool (d, []) cl)) = [0; 1; 2; 2; 2; 0; 0; 1; 1]
  /\ map (doing s) [2; 0; 1]
     = map (fun r => Idle (Done r))
         [Ok (VNetwork [Role (mkE (lit "x")) (mkE (lit "z")) (mkE (lit "y"))]); Ok (VNetwork [Role (mkE (lit "x")) (mkE (lit "z")) (mkE (lit "y"))]);
          Ok (VElement (mkE (lit "whatever")))]
  /\ fst (in_turn (graph_impl heed_impl) (map cl [2; 0; 1]) d)
     = [Ok (VNetwork [Role (mkE (lit "x")) (mkE (lit "z")) (mkE (lit "y"))]); Ok (VNetwork [Role (mkE (lit "x")) (mkE (lit "z")) (mkE (lit "y"))]);
          Ok (VElement (mkE (lit "whatever")))].
Proof.
  cbv zeta. repeat match goal with |- _ /\ _ => split end.
  - intros p [<-|[<-|[<-|[]]]]; [apply Prop_Apart.C134_script|intros q Hq; destruct (it_careless_asks q Hq) as [->|[->| ->]]; split; discriminate|apply Prop_Apart.C134_script].
  - repeat constructor; intros c M U; apply change_uses in M; first [apply it_uses_a in M|apply it_uses_b in M|apply it_uses_m in M]; first [apply it_uses_a in U|apply it_uses_b in U|apply it_uses_m in U]; subst; discriminate.
  - intros i H. vm_compute in H. repeat destruct H as [H|H]; try discriminate H; exact H.
  - intros [F _]. specialize (F (Panic PTodo) PTodo eq_refl). discriminate F.
  - intros [|[|[|j]]] Hj; [eexists; vm_compute; reflexivity..|cbn in Hj; lia].
  - vm_compute. reflexivity.
  - vm_compute. reflexivity.
  - vm_compute. reflexivity.
  - vm_compute. reflexivity.
Qed.
