(** * Taking calls back *)
From Coq Require Import List NArith Bool Arith Lia String.
From Verif Require Import M_Base M_Data M_Mem M_Heed M_Duck S_Order S_Str S_Store S_Interp S_Frame S_Equiv S_Undo
  P_Ord P_Hist P_Mem P_HeedHist P_Duck P_Conc P_Equiv P_Undo.
Import ListNotations.
Open Scope list_scope.

(** C99.  Taking back a sequence of calls, last one first, brings the store back
    to where it was: every call succeeds, every read shows what it showed before,
    and nothing later can tell the difference. *)
Theorem C99_mem : forall h os us,
  let s := after mem_impl mem_new h in
  undo_all mem_impl s os us ->
  (forall r, In r (answers_of mem_impl s (os ++ us)) -> r = Ok tt)
  /\ looks_same mem_impl (after mem_impl s (os ++ us)) s
  /\ same_future mem_impl (fun _ => True) (after mem_impl s (os ++ us)) s.
Proof.
  intros h os us s U. destruct (mem_undo h os us U) as [A M]. apply meq_looks in M. unfold s. rewrite <- after_app.
  split; [exact A|]. split; [exact M|]. apply mem_future, M.
Qed.
Print Assumptions C99_mem.

Theorem C99_duckdb : forall h os us, (dtotal (h ++ os ++ us) < 2 ^ 63)%N ->
  let s := after duck_impl duck_new h in
  undo_all duck_impl s os us ->
  (forall r, In r (answers_of duck_impl s (os ++ us)) -> r = Ok tt)
  /\ looks_same duck_impl (after duck_impl s (os ++ us)) s
  /\ same_future duck_impl (fun g => (dtotal (h ++ os ++ us ++ g) < 2 ^ 63)%N) (after duck_impl s (os ++ us)) s.
Proof.
  intros h os us W s U. destruct (duck_undo h os us U W) as [A M]. apply dqe_looks in M. unfold s. rewrite <- after_app.
  split; [exact A|]. split; [exact M|]. intros g Wg. apply duck_future; [exact M|].
  rewrite !dtotal_app in *. lia.
Qed.
Print Assumptions C99_duckdb.

(** On LMDB the words must be ones it can store as keys, and for the future to be
    the same the additions must not have brought new words. *)
Theorem C99_lmdb : forall h os us, (total_weight (h ++ os ++ us) < 2 ^ 64)%N ->
  let s := after heed_impl heed_new h in
  undo_all heed_impl s os us -> (forall o, In o os -> storable_words o) ->
  (forall r, In r (answers_of heed_impl s (os ++ us)) -> r = Ok tt)
  /\ looks_same heed_impl (after heed_impl s (os ++ us)) s
  /\ ((forall v, mentioned os v -> known h v) ->
      same_future heed_impl (fun g => (total_weight (h ++ os ++ us ++ g) < 2 ^ 64)%N) (after heed_impl s (os ++ us)) s).
Proof.
  intros h os us W s U G. destruct (heed_undo h os us U W G) as [A [M MK]]. apply heq_looks in M. unfold s. rewrite <- after_app.
  split; [exact A|]. split; [exact M|]. intros K g Wg. apply (heed_future (h ++ os ++ us) h); [exact M| |].
  - intros v. split; [|apply MK]. intros Hv. apply known_app in Hv as [Hv|(c & ts & Hi & Hp)]; [exact Hv|].
    apply in_app_or in Hi as [Hi|Hi].
    + apply K. exists c, ts. split; assumption.
    + destruct (undo_words h os us v U G) as [Hv|Hv]; [exists c, ts; split; assumption|exact Hv|apply K, Hv].
  - rewrite !total_weight_app in *. lia.
Qed.
Print Assumptions C99_lmdb.

(** Neither condition can be left out.  An addition that brings a new word leaves
    it known, and a later removal tells. *)
Theorem C99_lmdb_new_words_refuted :
  let h := [OAddColl (lit "c"); OAdd (lit "c") [Trip (lit "a") (lit "b") (lit "b")]] in
  let s := after heed_impl heed_new h in
  let t := Trip (lit "new") (lit "new") (lit "new") in
  undo_all heed_impl s [OAdd (lit "c") [t]] [ORem (lit "c") [t]]
  /\ looks_same heed_impl (after heed_impl s [OAdd (lit "c") [t]; ORem (lit "c") [t]]) s
  /\ fst (call_op heed_impl s (ORem (lit "c") [t])) = Panic PTodo
  /\ fst (call_op heed_impl (after heed_impl s [OAdd (lit "c") [t]; ORem (lit "c") [t]]) (ORem (lit "c") [t])) = Ok tt.
Proof.
  cbv zeta.
  match goal with |- ?A /\ _ => assert (U : A) end.
  { apply (UA_cons heed_impl _ _ _ [] []); [|constructor]. apply U_added.
    - eexists. split; [vm_compute; reflexivity|]. left. reflexivity.
    - intros t [<-|[]] (l & E & Hi). vm_compute in E. injection E as <-. destruct Hi as [Hi|[]]. discriminate Hi. }
  split; [exact U|]. split; [|split; vm_compute; reflexivity].
  pose proof (C99_lmdb [OAddColl (lit "c"); OAdd (lit "c") [Trip (lit "a") (lit "b") (lit "b")]] [OAdd (lit "c") [Trip (lit "new") (lit "new") (lit "new")]]
    [ORem (lit "c") [Trip (lit "new") (lit "new") (lit "new")]]) as L. cbv zeta in L. refine (proj1 (proj2 (L _ U _))); [vm_compute; reflexivity|].
  intros o [<-|[]] v (t & [<-|[]] & Hv). unfold part in Hv. cbn in Hv. destruct Hv as [->|[->| ->]]; (split; vm_compute; [repeat constructor|discriminate]).
Qed.
Print Assumptions C99_lmdb_new_words_refuted.

(** An addition with a word LMDB cannot store cannot be taken back: it succeeds and
    its removal panics, in every state. *)
Theorem C99_lmdb_unstorable_refuted : forall h c ts v, (total_weight (h ++ [OAdd c ts; ORem c ts]) < 2 ^ 64)%N ->
  let s := after heed_impl heed_new h in
  has heed_impl s c -> part_of v ts -> ~ storable v ->
  answers_of heed_impl s [OAdd c ts; ORem c ts] = [Ok tt; Panic PTodo]
  /\ forall t, In t ts -> holds heed_impl (after heed_impl s [OAdd c ts; ORem c ts]) c t.
Proof.
  intros h c ts v W s Hc Hv Hn. unfold s in *. rewrite snoc2 in W. fold (lm h) in *.
  assert (W1 : (total_weight (h ++ [OAdd c ts]) < 2 ^ 64)%N) by (rewrite (total_weight_app (h ++ _)) in W; lia).
  pose proof (proj1 (heed_ans h _ W1) Hc) as E1. pose proof (heed_effect h (OAdd c ts) c) as F1. cbn zeta in F1. rewrite E1 in F1. 
  assert (E2 : fst (call_op heed_impl (lm (h ++ [OAdd c ts])) (ORem c ts)) = Panic PTodo).
  { apply (heed_ans _ _ W). intros [_ K]. destruct (K v Hv) as [Hs _]. contradiction. }
  pose proof (heed_effect (h ++ [OAdd c ts]) (ORem c ts) c) as F2. cbn zeta in F2. rewrite E2 in F2.
  split.
  - cbn [answers_of]. rewrite E1, <- lm_snoc, E2. reflexivity.
  - intros t Ht. replace (after heed_impl (lm h) [OAdd c ts; ORem c ts]) with (lm ((h ++ [OAdd c ts]) ++ [ORem c ts]))
      by (rewrite !lm_snoc; reflexivity). rewrite F2. apply F1. left. eauto.
Qed.
Print Assumptions C99_lmdb_unstorable_refuted.

(** Cases: a whole stack of calls, on each store. *)
Definition c99_h : list op := [OAddColl (lit "p"); OAdd (lit "p") [Trip (lit "a") (lit "b") (lit "c"); Trip (lit "x") (lit "y") (lit "z")]].
Definition c99_do : list op :=
  [OAddColl (lit "n"); OAdd (lit "n") [Trip (lit "a") (lit "a") (lit "a")]; ORem (lit "p") [Trip (lit "a") (lit "b") (lit "c")]; OAdd (lit "p") [Trip (lit "c") (lit "b") (lit "a")]].
Definition c99_undo : list op :=
  [ORem (lit "p") [Trip (lit "c") (lit "b") (lit "a")]; OAdd (lit "p") [Trip (lit "a") (lit "b") (lit "c")]; ORem (lit "n") [Trip (lit "a") (lit "a") (lit "a")]; ORemColl (lit "n")].

Ltac has_it := eexists; split; [vm_compute; reflexivity|cbn; tauto].
Ltac no_col := intros (l & E & Hi); vm_compute in E; injection E as <-; cbn in Hi; repeat (destruct Hi as [Hi|Hi]; [discriminate Hi|]); exact Hi.
Ltac no_trip := intros ? [<-|[]] (l & E & Hi); vm_compute in E; injection E as <-; cbn in Hi; repeat (destruct Hi as [Hi|Hi]; [discriminate Hi|]); exact Hi.
Ltac yes_trip := intros ? [<-|[]]; has_it.

Example C99_case : 
  undo_all mem_impl (after mem_impl mem_new c99_h) c99_do c99_undo
  /\ undo_all duck_impl (after duck_impl duck_new c99_h) c99_do c99_undo
  /\ undo_all heed_impl (after heed_impl heed_new c99_h) c99_do c99_undo
  /\ (total_weight (c99_h ++ c99_do ++ c99_undo) < 2 ^ 64)%N /\ (dtotal (c99_h ++ c99_do ++ c99_undo) < 2 ^ 63)%N
  /\ (forall o, In o c99_do -> storable_words o) /\ (forall v, mentioned c99_do v -> known c99_h v).
Proof.
  repeat match goal with |- _ /\ _ => split end.
  1-3: unfold c99_do, c99_undo;
    apply (UA_cons _ _ _ _ _ [_; _; _]); [apply U_collection; no_col|];
    apply (UA_cons _ _ _ _ _ [_; _]); [apply U_added; [has_it|no_trip]|];
    apply (UA_cons _ _ _ _ _ [_]); [apply U_removed; [has_it|yes_trip]|];
    apply (UA_cons _ _ _ _ _ []); [apply U_added; [has_it|no_trip]|]; constructor.
  - reflexivity.
  - reflexivity.
  - intros o Ho. unfold c99_do in Ho. cbn [In] in Ho.
    destruct Ho as [<-|[<-|[<-|[<-|[]]]]]; [(split; vm_compute; [repeat constructor|discriminate])|..];
      intros v (t & [<-|[]] & Hv); unfold part in Hv; cbn in Hv; destruct Hv as [->|[->| ->]]; (split; vm_compute; [repeat constructor|discriminate]).
  - intros v (c & ts & Hi & t & Ht & Hv). unfold c99_do in Hi. cbn [In] in Hi.
    assert (M : forall w, In w [lit "a"; lit "b"; lit "c"] -> known c99_h w).
    { intros w Hw. split.
      - destruct Hw as [<-|[<-|[<-|[]]]]; (split; vm_compute; [repeat constructor|discriminate]).
      - exists (lit "p"), [Trip (lit "a") (lit "b") (lit "c"); Trip (lit "x") (lit "y") (lit "z")]. split; [vm_compute; tauto|].
        exists (Trip (lit "a") (lit "b") (lit "c")). split; [left; reflexivity|]. unfold part. cbn [t0 t1 t2]. 
        destruct Hw as [<-|[<-|[<-|[]]]]; auto. }
    destruct Hi as [K|[K|[K|[K|[]]]]]; try discriminate K; injection K as <- <-; destruct Ht as [<-|[]];
      unfold part in Hv; cbn [t0 t1 t2] in Hv; destruct Hv as [->|[->| ->]]; apply M; cbn; tauto.
Qed.
