(** * Laws for clients of a knowledge graph *)
From Coq Require Import List Arith NArith Bool Lia String.
From Verif Require Import M_Base M_Data M_Mem M_Heed M_Duck M_Graph S_Order S_Str S_Store S_Interp S_Frame S_Equiv S_Undo S_Graph S_GraphHist S_GraphLaws
  P_Hist P_Conc P_GraphHist P_Frame P_Equiv P_Undo P_GraphLaws Prop_Equiv Prop_Undo.
Import ListNotations.
Open Scope list_scope.

Notation GM := (graph_impl mem_impl).
Notation GH := (graph_impl heed_impl).
Notation GD := (graph_impl duck_impl).
Notation within_d h := (l_total l_dweight h < 2 ^ 63)%N.
Notation within_w h := (l_total l_weight h < 2 ^ 64)%N.

(** C107.  Networks do not interfere: what the calls on networks of one name
    answered, and what is seen of it now, is what it would be had no call on a
    network of another name been made. *)
Theorem C107_apart_mem : forall h n,
  g_answers_on GM mem_new n h = g_answers_on GM mem_new n (g_calls_on n h)
  /\ g_same_at GM (l_after GM mem_new h) (l_after GM mem_new (g_calls_on n h)) n.
Proof. intros h n. apply frame_graph, mem_frame. Qed.
Print Assumptions C107_apart_mem.

Theorem C107_apart_duckdb : forall h n, within_d h ->
  g_answers_on GD duck_new n h = g_answers_on GD duck_new n (g_calls_on n h)
  /\ g_same_at GD (l_after GD duck_new h) (l_after GD duck_new (g_calls_on n h)) n.
Proof. intros h n W. apply frame_graph, duck_frame, dlimit, W. Qed.
Print Assumptions C107_apart_duckdb.

Theorem C107_apart_lmdb : forall h n, within_w h -> g_knows_own GH heed_new n h ->
  g_answers_on GH heed_new n h = g_answers_on GH heed_new n (g_calls_on n h)
  /\ g_same_at GH (l_after GH heed_new h) (l_after GH heed_new (g_calls_on n h)) n.
Proof. intros h n W K. apply frame_graph, heed_frame; [apply wlimit, W|apply knows_own_ops, K]. Qed.
Print Assumptions C107_apart_lmdb.

(** And what reads show is all there is: two graphs that look the same have the
    same future; on LMDB, if the same names were stored in both. *)
Theorem C107_reads_mem : forall h h',
  g_looks_same GM (l_after GM mem_new h) (l_after GM mem_new h') ->
  g_same_future GM (fun _ => True) (l_after GM mem_new h) (l_after GM mem_new h').
Proof. intros h h'. rewrite !l_after_eq. intros L. apply (future_graph mem_impl (fun _ => True)); [auto|]. apply mem_future, mem_back, L. Qed.
Print Assumptions C107_reads_mem.

Theorem C107_reads_duckdb : forall h h',
  g_looks_same GD (l_after GD duck_new h) (l_after GD duck_new h') ->
  g_same_future GD (fun g => within_d (h ++ g) /\ within_d (h' ++ g)) (l_after GD duck_new h) (l_after GD duck_new h').
Proof.
  intros h h'. rewrite !l_after_eq. intros L. eapply future_graph; [|apply duck_future, duck_back, L].
  intros g [A B]. cbv beta. fold (ops h) (ops h') (ops g). rewrite <- !ops_app. split; apply dlimit; assumption.
Qed.
Print Assumptions C107_reads_duckdb.

Theorem C107_reads_lmdb : forall h h',
  g_looks_same GH (l_after GH heed_new h) (l_after GH heed_new h') ->
  (forall v, g_known GH heed_new h v <-> g_known GH heed_new h' v) ->
  g_same_future GH (fun g => within_w (h ++ g) /\ within_w (h' ++ g)) (l_after GH heed_new h) (l_after GH heed_new h').
Proof.
  intros h h'. rewrite !l_after_eq. intros L K. eapply future_graph; [|apply heed_future; [apply heed_back, L|]].
  - intros g [A B]. cbv beta. fold (ops h) (ops h') (ops g). rewrite <- !ops_app. split; apply wlimit; assumption.
  - intros v. rewrite !known_ops. apply K.
Qed.
Print Assumptions C107_reads_lmdb.

(** Two networks' calls interleaved; a namespace does not make another network. *)
Definition gl_e : entry := Role (mkE (lit "a")) (mkE (lit "b")) (mkE (lit "r")).
Definition gl_h : list lop :=
  [LAddColl (mkE (lit "n")); LAddColl (mkE (lit "m")); LAdd (Elem (lit "n") (Some (lit "x")) None) [gl_e];
   LAdd (mkE (lit "m")) [gl_e]; LRem (mkE (lit "n")) [gl_e]].
Example C107_case :
  g_knows_own GH heed_new (lit "n") gl_h /\ within_w gl_h /\ within_d gl_h
  /\ List.length (g_calls_on (lit "n") gl_h) = 3
  /\ l_entries GH (l_after GH heed_new gl_h) (mkE (lit "m")) = Ok [gl_e]
  /\ g_answers_on GH heed_new (lit "n") gl_h = [Ok tt; Ok tt; Ok tt].
Proof.
  split.
  - intros h1 c es h2 E <- e v He Hv. unfold gl_h in E.
    do 4 (destruct h1 as [|? h1]; [discriminate E|injection E as <- E]).
    destruct h1 as [|? h1]; [|injection E as _ E; destruct h1; discriminate E]. injection E as <- <- <-. destruct He as [<-|[]].
    assert (Q : v = lit "a" \/ v = lit "r" \/ v = lit "b") by exact Hv.
    split; [destruct Q as [->|[->| ->]]; split; vm_compute; auto; discriminate|].
    exists (Elem (lit "n") (Some (lit "x")) None), [gl_e], gl_e. split; [vm_compute; auto|]. split; [left; reflexivity|exact Hv].
  - repeat match goal with |- _ /\ _ => split end; vm_compute; reflexivity.
Qed.

(** C108.  Repeating a call at once is invisible. *)
Theorem C108_again_mem : forall h o,
  fst (call_lop GM (l_after GM mem_new (h ++ [o])) o) = fst (call_lop GM (l_after GM mem_new h) o)
  /\ g_looks_same GM (l_after GM mem_new (h ++ [o; o])) (l_after GM mem_new (h ++ [o]))
  /\ g_same_future GM (fun _ => True) (l_after GM mem_new (h ++ [o; o])) (l_after GM mem_new (h ++ [o])).
Proof.
  intros h o. destruct (C84_mem (ops h) (op_of o)) as (A & B & C). rewrite !l_after_eq, !call_lop_eq. cbn [fst]. fold (ops h) (ops (h ++ [o])) (ops (h ++ [o; o])).
  rewrite !ops_app. cbn [ops map]. fold (ops h). split; [f_equal; exact A|]. split; [apply looks_graph, B|].
  apply (future_graph mem_impl (fun _ => True)); auto.
Qed.
Print Assumptions C108_again_mem.

Theorem C108_again_lmdb : forall h o, within_w (h ++ [o; o]) ->
  let first := fst (call_lop GH (l_after GH heed_new h) o) in
  let again := fst (call_lop GH (l_after GH heed_new (h ++ [o])) o) in
  (forall c, o = LRemColl c -> again = Panic PTodo)
  /\ ((forall c, o <> LRemColl c) -> again = first)
  /\ g_looks_same GH (l_after GH heed_new (h ++ [o; o])) (l_after GH heed_new (h ++ [o]))
  /\ g_same_future GH (fun g => within_w (h ++ [o; o] ++ g)) (l_after GH heed_new (h ++ [o; o])) (l_after GH heed_new (h ++ [o])).
Proof.
  intros h o W first again. apply wlimit in W. rewrite ops_app in W. destruct (C84_lmdb (ops h) (op_of o) W) as (A & B & C & D).
  subst first again. rewrite !l_after_eq, !call_lop_eq. cbn [fst]. fold (ops h) (ops (h ++ [o])) (ops (h ++ [o; o])). rewrite !ops_app. cbn [ops map]. fold (ops h).
  split; [intros c ->; rewrite (A (el_name c) eq_refl); reflexivity|]. split; [intros N; f_equal; apply B; intros c E; destruct o; try discriminate E; eapply N; reflexivity|].
  split; [apply looks_graph, C|]. eapply future_graph; [|exact D]. intros g Hg. cbv beta. apply wlimit in Hg. rewrite !ops_app in Hg. exact Hg.
Qed.
Print Assumptions C108_again_lmdb.

Theorem C108_again_duckdb : forall h o, within_d (h ++ [o; o]) ->
  let first := fst (call_lop GD (l_after GD duck_new h) o) in
  let again := fst (call_lop GD (l_after GD duck_new (h ++ [o])) o) in
  (forall c, o = LAddColl c -> again = Panic PUnwrap)
  /\ ((forall c, o <> LAddColl c) -> again = first)
  /\ g_looks_same GD (l_after GD duck_new (h ++ [o; o])) (l_after GD duck_new (h ++ [o]))
  /\ g_same_future GD (fun g => within_d (h ++ [o; o] ++ g)) (l_after GD duck_new (h ++ [o; o])) (l_after GD duck_new (h ++ [o])).
Proof.
  intros h o W first again. apply dlimit in W. rewrite ops_app in W. destruct (C84_duckdb (ops h) (op_of o) W) as (A & B & C & D).
  subst first again. rewrite !l_after_eq, !call_lop_eq. cbn [fst]. fold (ops h) (ops (h ++ [o])) (ops (h ++ [o; o])). rewrite !ops_app. cbn [ops map]. fold (ops h).
  split; [intros c ->; rewrite (A (el_name c) eq_refl); reflexivity|]. split; [intros N; f_equal; apply B; intros c E; destruct o; try discriminate E; eapply N; reflexivity|].
  split; [apply looks_graph, C|]. eapply future_graph; [|exact D]. intros g Hg. cbv beta. apply dlimit in Hg. rewrite !ops_app in Hg. exact Hg.
Qed.
Print Assumptions C108_again_duckdb.

(** Batches of entries can be split and merged; what counts is their normal
    forms. *)
Theorem C108_batches_mem : forall h c a b ab, g_merges a b ab ->
  let s := l_after GM mem_new h in
  (g_answers GM s [LAdd c a; LAdd c b] = repeat (fst (call_lop GM s (LAdd c ab))) 2
   /\ g_same_future GM (fun _ => True) (l_after GM s [LAdd c a; LAdd c b]) (l_after GM s [LAdd c ab]))
  /\ (g_answers GM s [LRem c a; LRem c b] = repeat (fst (call_lop GM s (LRem c ab))) 2
   /\ g_same_future GM (fun _ => True) (l_after GM s [LRem c a; LRem c b]) (l_after GM s [LRem c ab])).
Proof.
  intros h c a b ab M s. destruct (C85_mem (ops h) (el_name c) _ _ _ (merges_ops _ _ _ M)) as [[A B] [C D]].
  subst s. rewrite !g_answers_eq, !l_after_eq, !call_lop_eq. cbn [fst map op_of]. fold (ops h). rewrite A, C.
  split; (split; [reflexivity|apply (future_graph mem_impl (fun _ => True)); auto]).
Qed.
Print Assumptions C108_batches_mem.

Theorem C108_batches_duckdb : forall h c a b ab, g_merges a b ab ->
  within_d (h ++ [LAdd c a; LAdd c b]) -> within_d (h ++ [LAdd c ab]) ->
  let s := l_after GD duck_new h in
  (g_answers GD s [LAdd c a; LAdd c b] = repeat (fst (call_lop GD s (LAdd c ab))) 2
   /\ g_same_future GD (fun g => within_d (h ++ [LAdd c a; LAdd c b] ++ g) /\ within_d (h ++ [LAdd c ab] ++ g))
        (l_after GD s [LAdd c a; LAdd c b]) (l_after GD s [LAdd c ab]))
  /\ (g_answers GD s [LRem c a; LRem c b] = repeat (fst (call_lop GD s (LRem c ab))) 2
   /\ g_same_future GD (fun g => within_d (h ++ g)) (l_after GD s [LRem c a; LRem c b]) (l_after GD s [LRem c ab])).
Proof.
  intros h c a b ab M W W' s. apply dlimit in W, W'. rewrite ops_app in W, W'.
  destruct (C85_duckdb (ops h) (el_name c) _ _ _ (merges_ops _ _ _ M) W W') as [[A B] [C D]].
  subst s. rewrite !g_answers_eq, !l_after_eq, !call_lop_eq. cbn [fst map op_of]. fold (ops h). rewrite A, C.
  split; (split; [reflexivity|]).
  - eapply future_graph; [|exact B]. intros g [X Y]. apply dlimit in X, Y. rewrite !ops_app in X, Y. split; [exact X|exact Y].
  - eapply future_graph; [|exact D]. intros g X. apply dlimit in X. rewrite ops_app in X. exact X.
Qed.
Print Assumptions C108_batches_duckdb.

Theorem C108_batches_lmdb : forall h c a b ab, g_merges a b ab ->
  within_w (h ++ [LAdd c a; LAdd c b]) -> within_w (h ++ [LAdd c ab]) ->
  let s := l_after GH heed_new h in
  (g_answers GH s [LAdd c a; LAdd c b] = repeat (fst (call_lop GH s (LAdd c ab))) 2
   /\ g_same_future GH (fun g => within_w (h ++ [LAdd c a; LAdd c b] ++ g) /\ within_w (h ++ [LAdd c ab] ++ g))
        (l_after GH s [LAdd c a; LAdd c b]) (l_after GH s [LAdd c ab]))
  /\ ((fst (call_lop GH s (LRem c ab)) = Ok tt <-> g_answers GH s [LRem c a; LRem c b] = [Ok tt; Ok tt])
   /\ (fst (call_lop GH s (LRem c ab)) = Ok tt ->
       g_same_future GH (fun g => within_w (h ++ g)) (l_after GH s [LRem c a; LRem c b]) (l_after GH s [LRem c ab]))).
Proof.
  intros h c a b ab M W W' s. apply wlimit in W, W'. rewrite ops_app in W, W'.
  destruct (C85_lmdb (ops h) (el_name c) _ _ _ (merges_ops _ _ _ M) W W') as [[A B] [C D]].
  subst s. rewrite !g_answers_eq, !l_after_eq, !call_lop_eq. cbn [fst map op_of]. fold (ops h). rewrite A, !err_todo_ok.
  split; [split; [reflexivity|]|split].
  - eapply future_graph; [|exact B]. intros g [X Y]. apply wlimit in X, Y. rewrite !ops_app in X, Y. split; [exact X|exact Y].
  - rewrite C. generalize (answers_of heed_impl (after heed_impl heed_new (ops h)) [ORem (el_name c) (P_Graph.trips_of a); ORem (el_name c) (P_Graph.trips_of b)]).
    intros l. split; [intros ->; reflexivity|]. destruct l as [|x [|y [|z l]]]; cbn [map]; intros E; try discriminate E.
    injection E as E1 E2. rewrite (proj1 (err_todo_ok _ _) E1), (proj1 (err_todo_ok _ _) E2). reflexivity.
  - intros E. eapply future_graph; [|exact (D E)]. intros g X. apply wlimit in X. rewrite ops_app in X. exact X.
Qed.
Print Assumptions C108_batches_lmdb.

(** Calls can be taken back, last one first. *)
Theorem C108_undo_mem : forall h os us,
  let s := l_after GM mem_new h in
  g_undo_all GM s os us ->
  (forall r, In r (g_answers GM s (os ++ us)) -> r = Ok tt)
  /\ g_looks_same GM (l_after GM s (os ++ us)) s
  /\ g_same_future GM (fun _ => True) (l_after GM s (os ++ us)) s.
Proof.
  intros h os us s U. subst s. rewrite l_after_eq in *. fold (ops h) in *. destruct (C99_mem (ops h) (ops os) (ops us) (undo_all_ops _ _ _ _ U)) as (A & B & C).
  rewrite !l_after_eq, g_answers_eq. fold (ops (os ++ us)). rewrite ops_app. split; [|split; [apply looks_graph, B|apply (future_graph mem_impl (fun _ => True)); auto]].
  intros r Hr. apply in_map_iff in Hr as (x & <- & Hx). apply err_todo_ok, A, Hx.
Qed.
Print Assumptions C108_undo_mem.

Theorem C108_undo_duckdb : forall h os us, within_d (h ++ os ++ us) ->
  let s := l_after GD duck_new h in
  g_undo_all GD s os us ->
  (forall r, In r (g_answers GD s (os ++ us)) -> r = Ok tt)
  /\ g_looks_same GD (l_after GD s (os ++ us)) s
  /\ g_same_future GD (fun g => within_d (h ++ os ++ us ++ g)) (l_after GD s (os ++ us)) s.
Proof.
  intros h os us W s U. subst s. apply dlimit in W. rewrite !ops_app in W. rewrite l_after_eq in *. fold (ops h) in *.
  destruct (C99_duckdb (ops h) (ops os) (ops us) W (undo_all_ops _ _ _ _ U)) as (A & B & C).
  rewrite !l_after_eq, g_answers_eq. fold (ops (os ++ us)). rewrite ops_app. split; [|split; [apply looks_graph, B|]].
  - intros r Hr. apply in_map_iff in Hr as (x & <- & Hx). apply err_todo_ok, A, Hx.
  - eapply future_graph; [|exact C]. intros g X. apply dlimit in X. rewrite !ops_app in X. exact X.
Qed.
Print Assumptions C108_undo_duckdb.

Theorem C108_undo_lmdb : forall h os us, within_w (h ++ os ++ us) ->
  let s := l_after GH heed_new h in
  g_undo_all GH s os us -> (forall o, In o os -> l_storable o) ->
  (forall r, In r (g_answers GH s (os ++ us)) -> r = Ok tt)
  /\ g_looks_same GH (l_after GH s (os ++ us)) s
  /\ ((forall v, l_mentioned os v -> g_known GH heed_new h v) ->
      g_same_future GH (fun g => within_w (h ++ os ++ us ++ g)) (l_after GH s (os ++ us)) s).
Proof.
  intros h os us W s U K. subst s. apply wlimit in W. rewrite !ops_app in W. rewrite l_after_eq in *. fold (ops h) in *.
  destruct (C99_lmdb (ops h) (ops os) (ops us) W (undo_all_ops _ _ _ _ U)) as (A & B & C).
  { intros o Ho. unfold ops in Ho. apply in_map_iff in Ho as (x & <- & Hx). apply storable_ops, K, Hx. }
  rewrite !l_after_eq, g_answers_eq. fold (ops (os ++ us)). rewrite ops_app. split; [|split; [apply looks_graph, B|]].
  - intros r Hr. apply in_map_iff in Hr as (x & <- & Hx). apply err_todo_ok, A, Hx.
  - intros N. eapply future_graph; [|apply C].
    + intros g X. apply wlimit in X. rewrite !ops_app in X. exact X.
    + intros v Hv. unfold ops in Hv. apply mentioned_ops in Hv. apply known_ops, N, Hv.
Qed.
Print Assumptions C108_undo_lmdb.

(** An entry and its normal form, in one batch and in two; an addition taken back. *)
Example C108_case :
  let plain := Role (mkE (lit "a")) (mkE (lit "b")) (mkE (lit ":")) in
  let ext := Extends (mkE (lit "a")) (mkE (lit "b")) in
  let h := [LAddColl (mkE (lit "n"))] in
  g_merges [plain] [ext] [ext]
  /\ g_undo_all GH (l_after GH heed_new h) [LAddColl (mkE (lit "m")); LAdd (mkE (lit "n")) [gl_e]] [LRem (mkE (lit "n")) [gl_e]; LRemColl (mkE (lit "m"))]
  /\ within_w (h ++ [LAddColl (mkE (lit "m")); LAdd (mkE (lit "n")) [gl_e]] ++ [LRem (mkE (lit "n")) [gl_e]; LRemColl (mkE (lit "m"))]).
Proof.
  cbn zeta. split; [|split; [|vm_compute; reflexivity]].
  - intros e'. split; intros (e & He & N).
    + exists e. destruct He as [<-|[]]. split; [right; left; reflexivity|exact N].
    + exists (Extends (mkE (lit "a")) (mkE (lit "b"))). split; [left; reflexivity|]. destruct He as [<-|[<-|[]]]; exact N.
  - change [LRem (mkE (lit "n")) [gl_e]; LRemColl (mkE (lit "m"))] with (([] ++ [LRem (mkE (lit "n")) [gl_e]]) ++ [LRemColl (mkE (lit "m"))]).
    constructor.
    + constructor. intros (l & c & E & Hc & En). vm_compute in E. injection E as <-. destruct Hc as [<-|[]]. discriminate En.
    + constructor; [|constructor]. constructor.
      * eexists. exists (mkE (lit "n")). split; [vm_compute; reflexivity|]. split; [right; left; reflexivity|reflexivity].
      * intros e e' _ _ (l & E & He). vm_compute in E. injection E as <-. destruct He.
Qed.
