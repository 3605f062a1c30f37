(** * C134: any clients that have nothing to do with each other *)
From Coq Require Import List Arith NArith Bool String Lia Permutation.
From Verif Require Import M_Base M_Data M_Heed M_Txn M_Regex M_Lexer M_Graph M_Parser M_Display M_Interp M_Conc M_Commands M_HostConc M_TxnConc
  S_Order S_Str S_Store S_Txn S_Graph S_Lexer S_Parser S_Interp S_Conc S_ConcSee S_Wander S_Rewrite S_TxnConc S_Footprint S_Commands S_HostConc S_AnyRetry S_Isolated S_ConcFail S_Fair S_Apart
  P_Ord P_Hist P_HeedHist P_Parser P_Conc P_Rewrite P_Footprint P_ConcFoot P_FailRun P_Retry P_HostConc P_HostLmdb P_AnyRetry P_Isolated P_ConcFail P_Fair P_Gens P_Apart P_Alike.
From Verif Require P_Lexer P_LexMore P_TxnConc Prop_TxnConc Prop_Retry Prop_HostConc Prop_ConcFail Prop_Fair.
Import ListNotations.
Open Scope list_scope.

(** The same, begun on another file that looks the same. *)
Lemma in_turn_from : forall ps order h z fs l n,
  (forall p, In p ps -> local p /\ falls p) -> ForallOrdPairs apart ps -> Permutation order (seq 0 (List.length ps)) ->
  let d := after heed_impl heed_new h in
  (forall c, obs c (lm h) (lm z)) ->
  let cl := fun j => nth j ps gone in
  let made := answered (graph_impl lmdb_at_once) (moments l (start d fs cl)) (Pool (d, fs) cl) in
  let s := go_on l (start d fs cl) in
  (forall j, j < List.length ps -> ~ In (Dies j) l /\ ended j s \/ costs (nth j ps gone) n) ->
  (total_weight h + events_weight made + N.of_nat (List.length ps) * n < 2 ^ 64)%N ->
  (total_weight z + events_weight made + N.of_nat (List.length ps) * n < 2 ^ 64)%N ->
  exists hx z' fs' rs, file s = lm hx /\ (total_weight hx <= total_weight h + events_weight made)%N
    /\ in_turn (graph_impl lmdb_at_once) (map cl order) (lm z, fs') = (rs, (lm z', []))
    /\ (forall k i r, nth_error order k = Some i -> ~ In (Dies i) l -> doing s i = Idle (Done r) -> exists r', nth_error rs k = Some r' /\ alike r r')
    /\ (forall c, obs c (lm hx) (lm z'))
    /\ (total_weight z' <= total_weight z + events_weight made + N.of_nat (List.length ps) * n)%N.
Proof.
  intros ps order h z fs l n HP Ap P d Oz cl made s HR W Wz. set (s0 := start d fs cl) in *. set (y0 := Pool (d, fs) cl) in *.
  assert (Out : forall j, List.length ps <= j -> cl j = gone) by (intros j Hj; unfold cl; apply nth_overflow, Hj).
  assert (We : (total_weight h + events_weight (answered AO (moments l s0) y0) < 2 ^ 64)%N) by (unfold made in W; lia).
  assert (Pair : forall i j, i < List.length ps -> i <> j -> forall c, may_change (cl j) c -> ~ uses (cl i) c).
  { intros i j Hi Hij c M U. destruct (Nat.lt_ge_cases j (List.length ps)) as [Hj|Hj].
    - assert (K : apart (cl i) (cl j) \/ apart (cl j) (cl i)).
      { unfold cl. clear -Ap Hi Hj Hij. revert i j Hi Hj Hij. induction Ap as [|a l Ha Hl IH]; intros i j Hi Hj Hij; [cbn in Hi; lia|]. rewrite Forall_forall in Ha.
        destruct i as [|i], j as [|j]; cbn [nth List.length] in *; [congruence|left; apply Ha, nth_In; lia|right; apply Ha, nth_In; lia|apply IH; lia]. }
      destruct K as [[_ K]|[K _]]; exact (K c M U).
    - rewrite (Out j Hj) in M. destruct M as (q & e & [] & _). }
  destruct (at_once_history (moments l s0) h fs cl) as (hx & X1 & X2).
  destruct (Prop_TxnConc.C119_at_once d fs cl l) as [A1 _]. cbv zeta in A1. fold s0 y0 in A1. fold s in A1. change (lm h) with d in X1. fold y0 in X1. rewrite A1 in X1. cbn [fst] in X1.
  assert (Each : forall i, i < List.length ps -> exists fi, (spent h (cl i, fi) <= events_weight (of_client i made) + n)%N /\ forall ha, fst (snd (solo AO (cl i) (lm h, fi))) = lm ha ->
     (forall c, uses (cl i) c -> obs c (lm hx) (lm ha))
     /\ forall r, ~ In (Dies i) l -> doing s i = Idle (Done r) -> alike r (fst (solo AO (cl i) (lm h, fi)))).
  { intros i Hi. destruct (HP (cl i) (nth_In _ _ Hi)) as (HL & HF).
    destruct (isolated h fs cl l i (uses (cl i)) []) as (hs' & ha' & fs' & p & tr & E1 & E2 & E3 & E4 & E5); try assumption.
    - intros c U. exact U.
    - intros j c Hj M. exact (Pair i j Hi (not_eq_sym Hj) c M).
    - change (file (go_on l (start (lm h) fs cl))) with (file s) in E1. pose proof E2 as EL. apply alone_log in E2. cbv zeta in E2, EL, E4. set (m := List.length (of_client i (answered AO (moments l (start (lm h) fs cl)) (Pool (lm h, fs) cl)))) in *.
      assert (Lx : lm hx = lm hs') by congruence.
      assert (D : (exists r, p = Done r) \/ ~ exists r, p = Done r) by (destruct p; [left; eauto|right; intros [r E]; discriminate E]).
      destruct D as [[r ->]|ND].
      + exists fs'. split.
        { apply alone_all in EL. unfold spent. cbn [fst snd]. rewrite EL. cbn [snd List.app]. unfold made, s0, y0. change d with (lm h). lia. }
        intros ha Eh. apply alone_all in E2. rewrite E2 in Eh |- *. cbn [fst snd] in Eh |- *. split.
        * intros c U. rewrite Lx, <- Eh. exact (E3 c U).
        * intros r0 N Er. destruct (E5 N _ Er) as [Q|(w & w' & Q & Q')].
          -- left. congruence.
          -- right. exists w, w'. split; congruence.
      + assert (Ct : costs (cl i) n).
        { destruct (HR i Hi) as [(N & r & Er)|Ct]; [|exact Ct]. destruct ND. destruct (E5 N _ Er) as [Q|(w & w' & _ & Q')]; eauto. }
        destruct (kill_fails m (cl i) (lm h) fs') as (f1 & r1 & K). rewrite E2 in K. cbn [fst snd] in K. exists f1. split.
        { unfold spent. cbn [fst snd]. pose proof (Prop_ConcFail.costs_solo (cl i) n ((lm h, f1), []) Ct) as Q. cbn [snd] in Q. change (total_weight []) with 0%N in Q. lia. }
        intros ha Eh. specialize (K []). rewrite app_nil_r in K. rewrite K in Eh |- *. cbn [fst snd] in Eh |- *. split.
        * intros c U. rewrite Lx, <- Eh. exact (E3 c U).
        * intros r0 N Er. destruct ND. destruct (E5 N _ Er) as [Q|(w & w' & _ & Q')]; [exists r0; congruence|eauto]. }
  destruct (choose _ (List.length ps) Each) as (fl & Lf & Hf).
  set (items := map (fun i => (cl i, nth i fl [])) order).
  assert (Em : map fst items = map cl order) by (unfold items; rewrite map_map; reflexivity).
  assert (Io : forall i, In i order -> i < List.length ps) by (intros i Hi; apply (Permutation_in _ P), in_seq in Hi; lia).
  assert (Ii : forall p gs, In (p, gs) items -> exists i, In i order /\ i < List.length ps /\ p = cl i) by (intros p gs Hi; unfold items in Hi; apply in_map_iff in Hi as (i & E & Hi); exists i; split; [exact Hi|split; [exact (Io i Hi)|congruence]]).
  assert (Lo : List.length order = List.length ps) by (rewrite (Permutation_length P), seq_length; reflexivity).
  assert (ND : NoDup order) by (apply (Permutation_NoDup (Permutation_sym P)), seq_NoDup).
  assert (Sm : (sum_of (map (spent h) items) <= events_weight made + N.of_nat (List.length ps) * n)%N).
  { unfold items. rewrite map_map. eapply N.le_trans; [apply (sum_le _ (fun i => events_weight (of_client i made) + n)%N)|].
    - intros i Hi. destruct (nth_error fl i) as [fi|] eqn:Ef; [|apply nth_error_None in Ef; specialize (Io i Hi); lia].
      rewrite (nth_error_nth _ _ [] Ef). apply (Hf i fi Ef).
    - rewrite sum_plus, Lo. pose proof (some_clients made order ND). lia. }
  destruct (carried_in_turn h items z) as (hz & ff & rs & Z1 & Z2 & Z3 & Z4).
  - intros p gs Hi. assert (Sp : (spent h (p, gs) <= sum_of (map (spent h) items))%N).
    { clear -Hi. induction items as [|x items IH]; [destruct Hi|]. cbn [map sum_of fold_right]. fold (sum_of (map (spent h) items)). destruct Hi as [->|Hi]; [lia|specialize (IH Hi); lia]. }
    destruct (Ii p gs Hi) as (i & _ & Hl & ->). destruct (HP (cl i) (nth_In _ _ Hl)) as (HL & HF). split; [exact HL|]. split; [exact HF|lia].
  - rewrite Em. clear -ND Io Pair.
    induction order as [|i o IH]; [constructor|]. inversion ND as [|? ? Ni NDo]; subst. cbn [map]. constructor.
    + apply Forall_forall. intros q Hq. apply in_map_iff in Hq as (j & <- & Hj). assert (i <> j) by (intros ->; contradiction).
      split; intros c M U; [exact (Pair j i (Io j (or_intror Hj)) (not_eq_sym H) c M U)|exact (Pair i j (Io i (or_introl eq_refl)) H c M U)].
    + apply IH; [intros j Hj; apply Io; right; exact Hj|exact NDo].
  - lia.
  - intros p gs c _ _. apply Oz.
  - rewrite Em in Z1. exists hx, hz, ff, rs. split; [exact X1|]. split; [exact X2|]. split; [exact Z1|]. split; [|split; [|lia]].
    + intros k i r Ek N Er. assert (Hi : i < List.length ps) by (apply Io; eapply nth_error_In, Ek).
      destruct (Z2 k (cl i) (nth i fl [])) as (ha & r' & Y1 & Y2 & Y3 & _); [unfold items; rewrite nth_error_map, Ek; reflexivity|].
      destruct (nth_error fl i) as [fi|] eqn:Ef; [|apply nth_error_None in Ef; lia]. rewrite (nth_error_nth _ _ [] Ef) in Y1, Y3.
      destruct (Hf i fi Ef) as [_ Hg]. destruct (Hg ha Y1) as (_ & B). pose proof (B r N Er) as B1. exists r'. split; [exact Y2|].
      destruct B1 as [->|(w & w' & -> & B2)]; [exact Y3|]. right. destruct Y3 as [<-|(u & u' & Q & ->)]; [exists w, w'; split; [reflexivity|congruence]|exists w, u'; split; reflexivity].
    + intros c. apply obs_stable. intros E.
      apply (not_not_em (exists i, i < List.length ps /\ uses (cl i) c)). intros [(i & Hi & U)|No]; apply E.
      * assert (Hin : In i order) by (apply (Permutation_in _ (Permutation_sym P)), in_seq; lia). apply In_nth_error in Hin as (k & Ek).
        destruct (Z2 k (cl i) (nth i fl [])) as (ha & r' & Y1 & _ & _ & Y4); [unfold items; rewrite nth_error_map, Ek; reflexivity|].
        destruct (nth_error fl i) as [fi|] eqn:Ef; [|apply nth_error_None in Ef; lia]. rewrite (nth_error_nth _ _ [] Ef) in Y1.
        destruct (Hf i fi Ef) as [_ Hg]. destruct (Hg ha Y1) as (B & _). eapply obs_trans; [exact (B c U)|exact (Y4 c U)].
      * eapply obs_trans; [|apply obs_sym, Z3].
        -- destruct (isolated h fs cl l (List.length ps) (fun c' => c' = c) h) as (hs' & ha' & fs' & p & tr & E1 & E2 & E3 & _ & _).
           ++ rewrite (Out (List.length ps) (le_n _)). intros c' (q & [] & _).
           ++ intros j c' Hj M ->. destruct (Nat.lt_ge_cases j (List.length ps)) as [L|L]; [apply No; exists j; split; [exact L|apply change_uses, M]|].
              rewrite (Out j L) in M. destruct M as (q & e & [] & _).
           ++ rewrite (Out (List.length ps) (le_n _)). intros q [].
           ++ rewrite (Out (List.length ps) (le_n _)). exact Logic.I.
           ++ exact We.
           ++ change (file (go_on l (start (lm h) fs cl))) with (file s) in E1. rewrite (Out (List.length ps) (le_n _)) in E2. unfold gone in E2. rewrite alone_done in E2.
              assert (Lx : lm hx = lm hs') by congruence. assert (La : lm ha' = lm h) by congruence. rewrite Lx. eapply obs_trans; [exact (E3 c eq_refl)|]. rewrite La. apply Oz.
        -- intros p gs Hi M. destruct (Ii p gs Hi) as (i & _ & Hl & ->). apply No. exists i. split; [exact Hl|apply change_uses, M].
Qed.

(** C134.  Clients, whatever programs they are, each of which removes no entries,
    does not list the collections and is ended by a panic of a call, and none of
    which may change a collection that another one makes calls about.  All are begun
    at once on one LMDB file, their operations interleave in any way, writes and
    commits fail, clients die.  At any time the file looks as if they had been run
    one after the other, in any order, on a disk that fails; and whoever has ended
    has the result it has then (or panics as it does then).  (Those that have not
    ended, or have died, must not be able to use up more than [n] ids.) *)
Theorem C134_in_turn : forall ps order h fs l n,
  (forall p, In p ps -> local p /\ falls p) -> ForallOrdPairs apart ps -> Permutation order (seq 0 (List.length ps)) ->
  let d := after heed_impl heed_new h in
  let cl := fun j => nth j ps gone in
  let made := answered (graph_impl lmdb_at_once) (moments l (start d fs cl)) (Pool (d, fs) cl) in
  let s := go_on l (start d fs cl) in
  (forall j, j < List.length ps -> ~ In (Dies j) l /\ ended j s \/ costs (nth j ps gone) n) ->
  (total_weight h + events_weight made + N.of_nat (List.length ps) * n < 2 ^ 64)%N ->
  exists fs' rs d', in_turn (graph_impl lmdb_at_once) (map cl order) (d, fs') = (rs, (d', []))
    /\ (forall k i r, nth_error order k = Some i -> ~ In (Dies i) l -> doing s i = Idle (Done r) -> exists r', nth_error rs k = Some r' /\ alike r r')
    /\ look_alike heed_impl (file s) d'.
Proof.
  intros ps order h fs l n HP Ap P d cl made s HR W.
  destruct (in_turn_from ps order h h fs l n HP Ap P (fun c => obs_refl c _) HR W W) as (hx & z' & fs' & rs & E1 & _ & E2 & E3 & E4 & _).
  exists fs', rs, (lm z'). split; [exact E2|]. split; [exact E3|]. fold cl in E1. fold d in E1. fold s in E1. rewrite E1. apply obs_alike, E4.
Qed.
Print Assumptions C134_in_turn.

(** How many ids the calls use up, when that can be said of each client. *)
Theorem C134_room : forall ps d fs l n, (forall p, In p ps -> costs p n) ->
  let cl := fun j => nth j ps gone in
  (events_weight (answered (graph_impl lmdb_at_once) l (Pool (d, fs) cl)) <= N.of_nat (List.length ps) * n)%N.
Proof.
  intros ps d fs l n HC cl. rewrite <- budget_const. apply (answered_costs AO (List.length ps)).
  - intros j Hj. unfold cl. rewrite nth_overflow by exact Hj. eexists. reflexivity.
  - intros j Hj. apply HC, nth_In, Hj.
Qed.
Print Assumptions C134_room.

(** Under any fair schedule, when nobody dies: from some time on all have ended, and
    there is one run of them in turn in which each has the result it has (or panics,
    too) and that leaves the file looking as it looks. *)
Theorem C134_fair : forall ps order h fs happens,
  (forall p, In p ps -> local p /\ falls p) -> ForallOrdPairs apart ps -> Permutation order (seq 0 (List.length ps)) ->
  (forall i, i < List.length ps -> forall t, exists t', t <= t' /\ happens t' = Moves i) -> (forall i t, happens t <> Dies i) ->
  let d := after heed_impl heed_new h in
  let cl := fun j => nth j ps gone in
  (forall t, total_weight h + events_weight (answered (graph_impl lmdb_at_once) (moments (map happens (seq 0 t)) (start d fs cl)) (Pool (d, fs) cl)) < 2 ^ 64)%N ->
  exists T, forall t, T <= t ->
    let s := at_time happens t (start d fs cl) in
    exists fs' rs d', in_turn (graph_impl lmdb_at_once) (map cl order) (d, fs') = (rs, (d', []))
      /\ (forall k i, nth_error order k = Some i -> exists r r', doing s i = Idle (Done r) /\ nth_error rs k = Some r' /\ alike r r')
      /\ look_alike heed_impl (file s) d'.
Proof.
  intros ps order h fs happens HP Ap P Fair ND d cl W.
  destruct (Prop_Fair.C132_all_end (List.length ps) d fs cl happens) as [T H].
  - intros i Hi. unfold cl. rewrite nth_overflow by exact Hi. eexists. reflexivity.
  - intros i Hi. left. exact (Fair i Hi).
  - exists T. intros t Ht s.
    assert (N : forall i, ~ In (Dies i) (map happens (seq 0 t))) by (intros i K; apply in_map_iff in K as (j & E & _); exact (ND i j E)).
    destruct (C134_in_turn ps order h fs (map happens (seq 0 t)) 0 HP Ap P) as (fs' & rs & d' & E1 & E2 & E3).
    + intros j Hj. left. split; [apply N|]. exact (H t Ht j).
    + rewrite N.mul_0_r, N.add_0_r. apply W.
    + exists fs', rs, d'. split; [exact E1|]. split; [|exact E3]. intros k i Ek. destruct (H t Ht i) as [r Er].
      destruct (E2 k i r Ek (N i) Er) as (r' & X1 & X2). exists r, r'. auto.
Qed.
Print Assumptions C134_fair.

(** Which clients these are.  Wander scripts of which neither lets what the other
    looks at; *)
Theorem C134_scripts : forall s s', independent s s' -> apart (p_run common s) (p_run common s').
Proof.
  intros s s' [I1 I2]. split; intros c M U; apply changes_may in M.
  - apply (I1 c); [exact (footed_changes _ _ _ c (footed_script s) M)|exact (footed_uses _ _ _ c (footed_script s') U)].
  - apply (I2 c); [exact (footed_changes _ _ _ c (footed_script s') M)|exact (footed_uses _ _ _ c (footed_script s) U)].
Qed.
Print Assumptions C134_scripts.

Theorem C134_script : forall s, local (p_run common s) /\ falls (p_run common s).
Proof. intros s. split; [exact (footed_local _ _ _ (footed_script s))|apply falls_script]. Qed.
Print Assumptions C134_script.

(** scripts with commands of the host's that stay with their arguments, of which
    neither names a collection that the other names; *)
Theorem C134_hosts : forall cs calls cs' calls',
  no_name_twice cs -> (forall n x, In (n, x) cs -> homely x) -> no_name_twice cs' -> (forall n x, In (n, x) cs' -> homely x) ->
  (forall c, names calls c -> ~ names calls' c) -> apart (host_calls cs calls) (host_calls cs' calls').
Proof.
  intros cs calls cs' calls' T M T' M' H. pose proof (kept_deep cs M T (S (quotes_deep calls)) calls) as K. pose proof (kept_deep cs' M' T' (S (quotes_deep calls')) calls') as K'.
  split; intros c C U; apply change_uses in C.
  - apply (H c); [exact (kept_uses _ _ _ K C)|exact (kept_uses _ _ _ K' U)].
  - apply (H c); [exact (kept_uses _ _ _ K U)|exact (kept_uses _ _ _ K' C)].
Qed.
Print Assumptions C134_hosts.

Theorem C134_host : forall cs calls, no_name_twice cs -> (forall n x, In (n, x) cs -> homely x) ->
  local (host_calls cs calls) /\ falls (host_calls cs calls).
Proof.
  intros cs calls T M. pose proof (kept_deep cs M T (S (quotes_deep calls)) calls) as K. split; [exact (kept_local _ _ K)|apply falls_deep].
Qed.
Print Assumptions C134_host.

(** and any clients of which neither makes calls about a collection that the other
    makes calls about. *)
Theorem C134_strangers : forall p q, (forall c, uses p c -> ~ uses q c) -> apart p q.
Proof. intros p q H. split; intros c M U; apply change_uses in M; [exact (H c M U)|exact (H c U M)]. Qed.
Print Assumptions C134_strangers.

(** A case.  A script of a host's with a command that copies; a program that adds an
    entry to a collection when it finds none there; a Wander script.  The commit of the
    fourth writing call fails, and the third client dies in the middle of a call. *)
Definition ap_counts : prog :=
  Ask (QAddCollection (mkE (lit "m"))) (fun c : lres unit =>
    match c with
    | Panic w => Done (Panic w)
    | _ => Ask (QEntries (mkE (lit "m"))) (fun a : lres (list entry) =>
        match a with
        | Ok [] => Ask (QAddEntries (mkE (lit "m")) [Role (mkE (lit "p")) (mkE (lit "r")) (mkE (lit "q"))]) (fun b : lres unit =>
            match b with Ok _ => Done (Ok (VElement (mkE (lit "began")))) | Err e => Done (Err (WErr e)) | Panic w => Done (Panic w) end)
        | Ok es => Done (Ok (VNetwork es))
        | Err e => Done (Err (WErr e))
        | Panic w => Done (Panic w)
        end)
    end).
Definition ap_ps : list prog := [host_run Prop_HostConc.hosts (lit "let a {x y z}, copy a b, read b"); ap_counts; p_run common Prop_Retry.rt_let].
Definition ap_faults : list fault := [no_fault; no_fault; no_fault; (None, false)].
Definition ap_happens : list happening :=
  repeat (Moves 1) 5 ++ repeat (Moves 0) 8 ++ repeat (Moves 1) 8 ++ repeat (Moves 2) 18 ++ repeat (Moves 0) 3 ++ repeat (Moves 1) 12 ++ [Dies 2] ++ repeat (Moves 0) 90 ++ repeat (Moves 1) 40 ++ repeat (Moves 0) 60.

Lemma ap_host : exists calls, ap_ps = [host_calls Prop_HostConc.hosts calls; ap_counts; p_run common Prop_Retry.rt_let]
  /\ forall c, names calls c -> c = lit "a" \/ c = lit "b" \/ c = lit "x" \/ c = lit "y" \/ c = lit "z".
Proof.
  unfold ap_ps, host_run. destruct (tokenize_and_filter (lit "let a {x y z}, copy a b, read b")) as [ts|e|w] eqn:E1; [|vm_compute in E1; discriminate|vm_compute in E1; discriminate].
  destruct (parse ts) as [calls|e|w] eqn:E2; [|vm_compute in E1; injection E1 as <-; vm_compute in E2; discriminate|vm_compute in E1; injection E1 as <-; vm_compute in E2; discriminate].
  exists calls. split; [reflexivity|]. vm_compute in E1. injection E1 as <-. vm_compute in E2. injection E2 as <-.
  intros c (x2 & v2 & Hx2 & Hv2 & V2).
  repeat (destruct Hx2 as [<-|Hx2]; [|]); try destruct Hx2; repeat (destruct Hv2 as [<-|Hv2]; [|]); try destruct Hv2; inversion V2; subst; cbn [el_name In] in *; auto 6; try discriminate; try contradiction.
Qed.

Lemma ap_counts_asks q : asks ap_counts q -> q = QAddCollection (mkE (lit "m")) \/ q = QEntries (mkE (lit "m")) \/ q = QAddEntries (mkE (lit "m")) [Role (mkE (lit "p")) (mkE (lit "r")) (mkE (lit "q"))].
Proof.
  unfold ap_counts. cbn [asks]. intros [->|[a H]]; [auto|].
  repeat match goal with
  | H : False |- _ => destruct H
  | H : _ \/ _ |- _ => destruct H as [H|H]
  | H : exists _, _ |- _ => destruct H as [? H]
  | H : q = _ |- _ => rewrite H; auto
  | H : context [match ?x with _ => _ end] |- _ => destruct x; cbn [asks] in H
  end.
Qed.

Lemma ap_counts_falls : falls ap_counts.
Proof.
  assert (D : forall r, falls (Done r)) by (intros; exact I).
  split; [intros a w H; destruct a as [u|e|w']; try discriminate H; injection H as ->; reflexivity|].
  assert (A : falls (Ask (QAddEntries (mkE (lit "m")) [Role (mkE (lit "p")) (mkE (lit "r")) (mkE (lit "q"))]) (fun b : lres unit =>
            match b with Ok _ => Done (Ok (VElement (mkE (lit "began")))) | Err e => Done (Err (WErr e)) | Panic w => Done (Panic w) end))).
  { split; [intros a w H; destruct a as [u|e|w']; try discriminate H; injection H as ->; reflexivity|]. intros [u|e|w]; apply D. }
  intros [u|e|w]; [..|apply D]; (split; [intros a w H; destruct a as [es|e'|w']; try discriminate H; injection H as ->; reflexivity|]; intros [[|x es]|e'|w]; [exact A|apply D..]).
Qed.

Lemma ap_counts_uses c : uses ap_counts c -> c = lit "m".
Proof. intros (q & Hq & E). destruct (ap_counts_asks q Hq) as [->|[->| ->]]; injection E as <-; reflexivity. Qed.

Lemma ap_script_uses c : uses (p_run common Prop_Retry.rt_let) c -> c = lit "n".
Proof.
  intros U. apply (footed_uses _ _ _ c (footed_script _)) in U.
  assert (T : forall s toks k cs, tokenize s = Ok toks -> tokenize_and_filter s = Ok k -> parse k = Ok cs -> forall ds, reads_as s ds -> ds = cs).
  { intros s toks k cs E Ef Ep ds (ts & k2 & L & K2 & Gs). destruct (P_LexMore.filter_keeps _ _ E) as (k' & Ek & K & Un). rewrite Ef in Ek. injection Ek as <-.
    apply P_Lexer.tokenize_ok in L. assert (ts = toks) as -> by congruence. apply Un in K2. subst k2. apply parse_ok in Gs. congruence. }
  let e := fresh in evar (e : list call); assert (T0 : forall ds, reads_as Prop_Retry.rt_let ds -> ds = e) by (subst e; eapply T; vm_compute; reflexivity); subst e.
  destruct U as (ds & d & R & Hd & H). rewrite (T0 _ R) in Hd. cbn [In] in Hd. repeat destruct Hd as [Hd|Hd]; subst; try contradiction; cbn [c_name c_args el_name] in H.
  all: repeat match goal with
    | K : call_looks _ _ _ |- _ => inversion K; clear K; subst; try discriminate
    | K : value_looks _ _ |- _ => inversion K; clear K; subst; try discriminate end; reflexivity.
Qed.

Example C134_case :
  let d := heed_new in
  let cl := fun j => nth j ap_ps gone in
  let s0 := start d ap_faults cl in
  let s := go_on ap_happens s0 in
  let made := answered (graph_impl lmdb_at_once) (moments ap_happens s0) (Pool (d, ap_faults) cl) in
  (forall p, In p ap_ps -> local p /\ falls p)
  /\ ForallOrdPairs apart ap_ps
  /\ (forall j, j < List.length ap_ps -> ~ In (Dies j) ap_happens /\ ended j s \/ costs (nth j ap_ps gone) 100)
  /\ (total_weight [] + events_weight made + N.of_nat (List.length ap_ps) * 100 < 2 ^ 64)%N
  /\ map who made = [1; 1; 2; 0; 0; 0; 0; 0; 0; 1]
  /\ map (fun j => match doing s j with Idle (Done r) => Some (outcome_of r) | _ => None end) [0; 1]
     = [Some (Answers (VNetwork [])); Some (Answers (VElement (mkE (lit "began"))))]
  /\ In (Dies 2) ap_happens
  /\ map (fun c => l_entries (graph_impl heed_impl) (file s) (mkE (lit c))) ["a"; "b"; "m"; "n"]%string
     = [Ok []; Ok []; Ok [Role (mkE (lit "p")) (mkE (lit "r")) (mkE (lit "q"))]; Ok []]
  (* one after the other, in the order 2, 0, 1, with a commit of client 2 and one of
     client 0 that fail: as the theorem says *)
  /\ (let (rs, st) := in_turn (graph_impl lmdb_at_once) (map cl [2; 0; 1]) (d, [no_fault; (None, false); no_fault; (None, false)]) in
      map outcome_of (tl rs) = [Answers (VNetwork []); Answers (VElement (mkE (lit "began")))]
      /\ map (fun c => l_entries (graph_impl heed_impl) (fst st) (mkE (lit c))) ["a"; "b"; "m"; "n"]%string
         = [Ok []; Ok []; Ok [Role (mkE (lit "p")) (mkE (lit "r")) (mkE (lit "q"))]; Ok []]).
Proof.
  cbv zeta. destruct Prop_HostConc.C128_case as (T & M & _). destruct ap_host as (calls & Eps & Hn).
  assert (HC : costs (nth 2 ap_ps gone) 100) by (change (nth 2 ap_ps gone) with (p_run common Prop_Retry.rt_let); apply Prop_ConcFail.C131_case; left; reflexivity).
  split; [|split; [|split; [|split; [vm_compute; reflexivity|split; [vm_compute; reflexivity|split; [vm_compute; reflexivity|split; [|split; [vm_compute; reflexivity|]]]]]]]].
  - intros p Hp. split; rewrite Eps in Hp; destruct Hp as [<-|[<-|[<-|[]]]].
    + apply C134_host; assumption.
    + intros q Hq. destruct (ap_counts_asks q Hq) as [->|[->| ->]]; split; discriminate.
    + apply C134_script.
    + apply C134_host; assumption.
    + exact ap_counts_falls.
    + apply C134_script.
  - rewrite Eps. constructor; [|constructor; [|constructor; [constructor|constructor]]].
    + constructor; [|constructor; [|constructor]]; apply C134_strangers; intros c U U'.
      all: apply (kept_uses (names calls)) in U; [|apply (kept_deep _ M T)]; apply Hn in U.
      * apply ap_counts_uses in U'. subst c. repeat destruct U as [U|U]; discriminate U.
      * apply ap_script_uses in U'. subst c. repeat destruct U as [U|U]; discriminate U.
    + constructor; [|constructor]. apply C134_strangers. intros c U U'. apply ap_counts_uses in U. apply ap_script_uses in U'. subst c. discriminate U'.
  - intros j Hj. destruct j as [|[|[|j]]]; [left|left|right; exact HC|cbn in Hj; lia].
    all: split; [intros H; vm_compute in H; repeat destruct H as [H|H]; try discriminate H; exact H|unfold ended; eexists; vm_compute; reflexivity].
  - unfold ap_happens. do 6 (apply in_or_app; right). apply in_or_app. left. left. reflexivity.
  - vm_compute. split; reflexivity.
Qed.
Print Assumptions C134_case.
