(** * What reads show decides the future; retries; batches *)
From Coq Require Import List NArith Bool Arith Lia String.
From Verif Require Import M_Base M_Data M_Mem M_Heed M_Duck S_Order S_Str S_Store S_Interp S_Frame S_Equiv
  P_Ord P_Hist P_Mem P_HeedHist P_Duck P_Conc P_Equiv.
Import ListNotations.
Open Scope list_scope.

(** C83.  Two histories after which every read looks the same have the same
    future: whatever is called next answers the same and leaves stores that look
    the same - even where a later call fails or panics. *)
Theorem C83_mem : forall h h',
  looks_same mem_impl (after mem_impl mem_new h) (after mem_impl mem_new h') ->
  same_future mem_impl (fun _ => True) (after mem_impl mem_new h) (after mem_impl mem_new h').
Proof. exact mem_future. Qed.
Print Assumptions C83_mem.

Theorem C83_duckdb : forall h h',
  looks_same duck_impl (after duck_impl duck_new h) (after duck_impl duck_new h') ->
  same_future duck_impl (fun g => (dtotal (h ++ g) < 2 ^ 63)%N /\ (dtotal (h' ++ g) < 2 ^ 63)%N)
    (after duck_impl duck_new h) (after duck_impl duck_new h').
Proof. exact duck_future. Qed.
Print Assumptions C83_duckdb.

(** On LMDB the two must also know the same words. *)
Theorem C83_lmdb : forall h h',
  looks_same heed_impl (after heed_impl heed_new h) (after heed_impl heed_new h') ->
  (forall v, known h v <-> known h' v) ->
  same_future heed_impl (fun g => (total_weight (h ++ g) < 2 ^ 64)%N /\ (total_weight (h' ++ g) < 2 ^ 64)%N)
    (after heed_impl heed_new h) (after heed_impl heed_new h').
Proof. exact heed_future. Qed.
Print Assumptions C83_lmdb.

(** That cannot be left out, and it is the only hidden state: whenever a
    collection is present, two stores that look the same but do not know the same
    words are told apart by one removal. *)
Theorem C83_lmdb_words_tell : forall h h' c v,
  looks_same heed_impl (after heed_impl heed_new h) (after heed_impl heed_new h') ->
  has heed_impl (after heed_impl heed_new h) c ->
  (total_weight (h ++ [ORem c [Trip v v v]]) < 2 ^ 64)%N -> (total_weight (h' ++ [ORem c [Trip v v v]]) < 2 ^ 64)%N ->
  known h v -> ~ known h' v ->
  fst (call_op heed_impl (after heed_impl heed_new h) (ORem c [Trip v v v])) = Ok tt
  /\ fst (call_op heed_impl (after heed_impl heed_new h') (ORem c [Trip v v v])) = Panic PTodo.
Proof.
  intros h h' c v L H W W' K N. pose proof (heed_ans h _ W) as R. pose proof (heed_ans h' _ W') as R'. cbn zeta in R, R'. fold (lm h) (lm h') in *.
  assert (P : forall w, part_of w [Trip v v v] <-> w = v).
  { intros w. split; [intros (t & [<-|[]] & E); unfold part in E; cbn in E; intuition congruence|intros ->; exists (Trip v v v); split; [left; reflexivity|]; unfold part; cbn; auto]. }
  split.
  - apply R. split; [exact H|]. intros w Hw. apply P in Hw as ->. exact K.
  - apply R'. intros [_ A]. apply N, A, P. reflexivity.
Qed.
Print Assumptions C83_lmdb_words_tell.

(** C84.  Making the same call again at once changes nothing, now or later; it
    answers what it answered before, except that LMDB panics on removing a
    collection again and DuckDB on adding one again. *)
Theorem C84_mem : forall h o,
  fst (call_op mem_impl (after mem_impl mem_new (h ++ [o])) o) = fst (call_op mem_impl (after mem_impl mem_new h) o)
  /\ looks_same mem_impl (after mem_impl mem_new (h ++ [o; o])) (after mem_impl mem_new (h ++ [o]))
  /\ same_future mem_impl (fun _ => True) (after mem_impl mem_new (h ++ [o; o])) (after mem_impl mem_new (h ++ [o])).
Proof.
  intros h o. destruct (mem_retry h o) as [E A]. split; [exact A|]. apply meq_looks in E. split; [exact E|]. apply mem_future, E.
Qed.
Print Assumptions C84_mem.

Theorem C84_lmdb : forall h o, (total_weight (h ++ [o; o]) < 2 ^ 64)%N ->
  let first := fst (call_op heed_impl (after heed_impl heed_new h) o) in
  let again := fst (call_op heed_impl (after heed_impl heed_new (h ++ [o])) o) in
  (forall c, o = ORemColl c -> again = Panic PTodo)
  /\ ((forall c, o <> ORemColl c) -> again = first)
  /\ looks_same heed_impl (after heed_impl heed_new (h ++ [o; o])) (after heed_impl heed_new (h ++ [o]))
  /\ same_future heed_impl (fun g => (total_weight (h ++ [o; o] ++ g) < 2 ^ 64)%N)
       (after heed_impl heed_new (h ++ [o; o])) (after heed_impl heed_new (h ++ [o])).
Proof.
  intros h o W first again. pose proof (heed_retry_answer h o W) as A. cbn zeta in A. destruct (heed_retry_look h o) as [L K].
  apply heq_looks in L. split; [|split; [|split; [exact L|]]].
  - intros c ->. exact A.
  - intros N. destruct o; try exact A. destruct (N c eq_refl).
  - intros g Wg. apply heed_future; [exact L|exact K|]. split; [rewrite <- app_assoc; exact Wg|].
    revert Wg. rewrite !total_weight_app. cbn [total_weight fold_right]. rewrite ?total_weight_app. cbn [total_weight fold_right]. lia.
Qed.
Print Assumptions C84_lmdb.

Theorem C84_duckdb : forall h o, (dtotal (h ++ [o; o]) < 2 ^ 63)%N ->
  let first := fst (call_op duck_impl (after duck_impl duck_new h) o) in
  let again := fst (call_op duck_impl (after duck_impl duck_new (h ++ [o])) o) in
  (forall c, o = OAddColl c -> again = Panic PUnwrap)
  /\ ((forall c, o <> OAddColl c) -> again = first)
  /\ looks_same duck_impl (after duck_impl duck_new (h ++ [o; o])) (after duck_impl duck_new (h ++ [o]))
  /\ same_future duck_impl (fun g => (dtotal (h ++ [o; o] ++ g) < 2 ^ 63)%N)
       (after duck_impl duck_new (h ++ [o; o])) (after duck_impl duck_new (h ++ [o])).
Proof.
  intros h o W first again. pose proof (duck_retry_answer h o W) as A. cbn zeta in A. pose proof (duck_retry_look h o) as L.
  apply dqe_looks in L. split; [|split; [|split; [exact L|]]].
  - intros c ->. exact A.
  - intros N. destruct o; try exact A. destruct (N c eq_refl).
  - intros g Wg. apply duck_future; [exact L|]. split; [rewrite <- app_assoc; exact Wg|].
    revert Wg. rewrite !dtotal_app. cbn [dtotal fold_right]. rewrite ?dtotal_app. cbn [dtotal fold_right]. lia.
Qed.
Print Assumptions C84_duckdb.

(** C85.  Adding two batches is adding their union, in either order; removing
    likewise. *)
Theorem C85_mem : forall h c a b ab, merges a b ab ->
  let s := after mem_impl mem_new h in
  (answers_of mem_impl s [OAdd c a; OAdd c b] = repeat (fst (call_op mem_impl s (OAdd c ab))) 2
   /\ same_future mem_impl (fun _ => True) (after mem_impl s [OAdd c a; OAdd c b]) (after mem_impl s [OAdd c ab]))
  /\ (answers_of mem_impl s [ORem c a; ORem c b] = repeat (fst (call_op mem_impl s (ORem c ab))) 2
   /\ same_future mem_impl (fun _ => True) (after mem_impl s [ORem c a; ORem c b]) (after mem_impl s [ORem c ab])).
Proof.
  intros h c a b ab M s. destruct (mem_merge h c a b ab M) as [A R]. unfold s. rewrite <- !after_app. split; split.
  - apply mem_merge_answers.
  - apply mem_future, meq_looks, A.
  - apply mem_merge_rem_answers.
  - apply mem_future, meq_looks, R.
Qed.
Print Assumptions C85_mem.

Theorem C85_duckdb : forall h c a b ab, merges a b ab ->
  (dtotal (h ++ [OAdd c a; OAdd c b]) < 2 ^ 63)%N -> (dtotal (h ++ [OAdd c ab]) < 2 ^ 63)%N ->
  let s := after duck_impl duck_new h in
  (answers_of duck_impl s [OAdd c a; OAdd c b] = repeat (fst (call_op duck_impl s (OAdd c ab))) 2
   /\ same_future duck_impl (fun g => (dtotal (h ++ [OAdd c a; OAdd c b] ++ g) < 2 ^ 63)%N /\ (dtotal (h ++ [OAdd c ab] ++ g) < 2 ^ 63)%N)
        (after duck_impl s [OAdd c a; OAdd c b]) (after duck_impl s [OAdd c ab]))
  /\ (answers_of duck_impl s [ORem c a; ORem c b] = repeat (fst (call_op duck_impl s (ORem c ab))) 2
   /\ same_future duck_impl (fun g => (dtotal (h ++ g) < 2 ^ 63)%N)
        (after duck_impl s [ORem c a; ORem c b]) (after duck_impl s [ORem c ab])).
Proof.
  intros h c a b ab M W W' s. destruct (duck_merge_add h c a b ab M W W') as [A EA].
  assert (V : forall g, (dtotal (h ++ g) < 2 ^ 63)%N -> (dtotal ((h ++ [ORem c a; ORem c b]) ++ g) < 2 ^ 63)%N /\ (dtotal ((h ++ [ORem c ab]) ++ g) < 2 ^ 63)%N).
  { intros g. rewrite !dtotal_app. cbn [dtotal fold_right dweight]. fold (dtotal g). lia. }
  assert (W0 : (dtotal (h ++ []) < 2 ^ 63)%N) by (rewrite app_nil_r; rewrite dtotal_app in W; lia).
  destruct (V [] W0) as [V1 V2]. rewrite !app_nil_r in V1, V2.
  destruct (duck_merge_rem h c a b ab M V1 V2) as [R ER]. unfold s. rewrite <- !after_app. split; split.
  - exact EA.
  - intros g. rewrite !app_assoc. apply duck_future, dqe_looks, A.
  - exact ER.
  - intros g Wg. apply duck_future; [apply dqe_looks, R|apply V, Wg].
Qed.
Print Assumptions C85_duckdb.

(** On LMDB the same for adding.  Removing a merged batch is acknowledged exactly
    when removing its halves is, and then leaves the same. *)
Theorem C85_lmdb : forall h c a b ab, merges a b ab ->
  (total_weight (h ++ [OAdd c a; OAdd c b]) < 2 ^ 64)%N -> (total_weight (h ++ [OAdd c ab]) < 2 ^ 64)%N ->
  let s := after heed_impl heed_new h in
  (answers_of heed_impl s [OAdd c a; OAdd c b] = repeat (fst (call_op heed_impl s (OAdd c ab))) 2
   /\ same_future heed_impl (fun g => (total_weight (h ++ [OAdd c a; OAdd c b] ++ g) < 2 ^ 64)%N /\ (total_weight (h ++ [OAdd c ab] ++ g) < 2 ^ 64)%N)
        (after heed_impl s [OAdd c a; OAdd c b]) (after heed_impl s [OAdd c ab]))
  /\ ((fst (call_op heed_impl s (ORem c ab)) = Ok tt <-> answers_of heed_impl s [ORem c a; ORem c b] = [Ok tt; Ok tt])
   /\ (fst (call_op heed_impl s (ORem c ab)) = Ok tt ->
       same_future heed_impl (fun g => (total_weight (h ++ g) < 2 ^ 64)%N)
        (after heed_impl s [ORem c a; ORem c b]) (after heed_impl s [ORem c ab]))).
Proof.
  intros h c a b ab M W W' s. destruct (heed_merge_add h c a b ab M W W') as [A EA].
  assert (V : forall g, (total_weight (h ++ g) < 2 ^ 64)%N -> (total_weight ((h ++ [ORem c a; ORem c b]) ++ g) < 2 ^ 64)%N /\ (total_weight ((h ++ [ORem c ab]) ++ g) < 2 ^ 64)%N).
  { intros g. rewrite !total_weight_app. cbn [total_weight fold_right weight]. fold (total_weight g). lia. }
  assert (W0 : (total_weight (h ++ []) < 2 ^ 64)%N) by (rewrite app_nil_r; rewrite total_weight_app in W; lia).
  destruct (V [] W0) as [V1 V2]. rewrite !app_nil_r in V1, V2.
  destruct (heed_merge_rem h c a b ab M V1 V2) as [I R]. unfold s. rewrite <- !after_app. split; split.
  - exact EA.
  - intros g. rewrite !app_assoc. apply heed_future; [apply heq_looks, A|apply A].
  - exact I.
  - intros E g Wg. destruct (R E) as [L K]. apply heed_future; [apply heq_looks, L|exact K|apply V, Wg].
Qed.
Print Assumptions C85_lmdb.

(** A refused merged removal is not a refused pair: the half it can remove goes. *)
Theorem C85_lmdb_refused_halves : exists h c a b t,
  let s := after heed_impl heed_new h in
  fst (call_op heed_impl s (ORem c (a ++ b))) = Panic PTodo
  /\ holds heed_impl (after heed_impl s [ORem c (a ++ b)]) c t
  /\ answers_of heed_impl s [ORem c a; ORem c b] = [Ok tt; Panic PTodo]
  /\ ~ holds heed_impl (after heed_impl s [ORem c a; ORem c b]) c t.
Proof.
  exists [OAddColl (lit "n"); OAdd (lit "n") [Trip (lit "a") (lit "b") (lit "c")]], (lit "n"),
    [Trip (lit "a") (lit "b") (lit "c")], [Trip (lit "x") (lit "b") (lit "c")], (Trip (lit "a") (lit "b") (lit "c")).
  split; [|split; [|split]].
  - vm_compute. reflexivity.
  - eexists. split; [vm_compute; reflexivity|]. left. reflexivity.
  - vm_compute. reflexivity.
  - intros (l & E & Hi). vm_compute in E. injection E as <-. destruct Hi.
Qed.
Print Assumptions C85_lmdb_refused_halves.

(** ** Cases *)
Definition eq_t (s : string) : trip := Trip (lit s) (lit "b") (lit "c").
Definition eq_0 : list op := [OAddColl (lit "n")].
Definition eq_h : list op := eq_0 ++ [OAdd (lit "n") [eq_t "x"]; OAdd (lit "n") [eq_t "y"]].
Definition eq_h' : list op := eq_0 ++ [OAdd (lit "n") [eq_t "y"; eq_t "x"; eq_t "y"]].

Lemma eq_merges : merges [eq_t "x"] [eq_t "y"] [eq_t "y"; eq_t "x"; eq_t "y"].
Proof. intros t. cbn [In]. tauto. Qed.

Lemma eq_room : (total_weight eq_h < 2 ^ 64)%N /\ (total_weight eq_h' < 2 ^ 64)%N /\ (dtotal eq_h < 2 ^ 63)%N /\ (dtotal eq_h' < 2 ^ 63)%N.
Proof. cbn zeta. repeat (match goal with |- _ /\ _ => split end); vm_compute; reflexivity. Qed.
Lemma eq_heq : heq eq_h eq_h'.
Proof. exact (proj1 (heed_merge_add eq_0 (lit "n") _ _ _ eq_merges (proj1 eq_room) (proj1 (proj2 eq_room)))). Qed.
Lemma eq_dqe : dqe eq_h eq_h'.
Proof. exact (proj1 (duck_merge_add eq_0 (lit "n") _ _ _ eq_merges (proj1 (proj2 (proj2 eq_room))) (proj2 (proj2 (proj2 eq_room))))). Qed.
Lemma eq_meq : meq (mm eq_h) (mm eq_h').
Proof. exact (proj1 (mem_merge eq_0 (lit "n") _ _ _ eq_merges)). Qed.

Lemma heq_after h h' : heq h h' -> looks_same heed_impl (after heed_impl heed_new h) (after heed_impl heed_new h').
Proof. intros [H _]. apply heq_looks, H. Qed.
Lemma dqe_after h h' : dqe h h' -> looks_same duck_impl (after duck_impl duck_new h) (after duck_impl duck_new h').
Proof. apply dqe_looks. Qed.
Lemma meq_after h h' : meq (mm h) (mm h') -> looks_same mem_impl (after mem_impl mem_new h) (after mem_impl mem_new h').
Proof. apply meq_looks. Qed.

(** Different histories that look the same on all three stores - and on LMDB know
    the same words - although the stores are not the same inside, with room left
    within the limits; and a future in which one call fails. *)
Example C83_case :
  looks_same mem_impl (after mem_impl mem_new eq_h) (after mem_impl mem_new eq_h')
  /\ looks_same duck_impl (after duck_impl duck_new eq_h) (after duck_impl duck_new eq_h')
  /\ after duck_impl duck_new eq_h <> after duck_impl duck_new eq_h'
  /\ looks_same heed_impl (after heed_impl heed_new eq_h) (after heed_impl heed_new eq_h')
  /\ after heed_impl heed_new eq_h <> after heed_impl heed_new eq_h'
  /\ (forall v, known eq_h v <-> known eq_h' v)
  /\ (total_weight (eq_h ++ eq_h) < 2 ^ 64)%N /\ (total_weight (eq_h' ++ eq_h) < 2 ^ 64)%N
  /\ (dtotal (eq_h ++ eq_h) < 2 ^ 63)%N /\ (dtotal (eq_h' ++ eq_h) < 2 ^ 63)%N
  /\ answers_of duck_impl (after duck_impl duck_new eq_h) eq_h = [Panic PUnwrap; Ok tt; Ok tt].
Proof.
  split; [exact (meq_after _ _ eq_meq)|].
  split; [exact (dqe_after _ _ eq_dqe)|].
  split; [vm_compute; discriminate|].
  split; [exact (heq_after _ _ eq_heq)|].
  split; [vm_compute; discriminate|].
  split; [exact (proj2 eq_heq)|].
  repeat (match goal with |- _ /\ _ => split end); vm_compute; reflexivity.
Qed.

(** Words that tell two stores apart: "y" was added and removed in one of them. *)
Example C83_words_case :
  let h := eq_0 ++ [OAdd (lit "n") [eq_t "y"]; ORem (lit "n") [eq_t "y"]] in
  t_collections heed_impl (after heed_impl heed_new h) = t_collections heed_impl (after heed_impl heed_new eq_0)
  /\ t_triples heed_impl (after heed_impl heed_new h) (lit "n") = t_triples heed_impl (after heed_impl heed_new eq_0) (lit "n")
  /\ fst (call_op heed_impl (after heed_impl heed_new h) (ORem (lit "n") [eq_t "y"])) = Ok tt
  /\ fst (call_op heed_impl (after heed_impl heed_new eq_0) (ORem (lit "n") [eq_t "y"])) = Panic PTodo.
Proof. cbn zeta. repeat (match goal with |- _ /\ _ => split end); vm_compute; reflexivity. Qed.

(** Retries of calls that changed something. *)
Example C84_case :
  let o := OAdd (lit "n") [eq_t "x"] in
  (total_weight (eq_0 ++ [o; o]) < 2 ^ 64)%N /\ (dtotal (eq_0 ++ [o; o]) < 2 ^ 63)%N
  /\ answers_of heed_impl heed_new (eq_0 ++ [o; o; ORemColl (lit "n"); ORemColl (lit "n")]) = [Ok tt; Ok tt; Ok tt; Ok tt; Panic PTodo]
  /\ answers_of duck_impl duck_new (eq_0 ++ eq_0 ++ [o; o]) = [Ok tt; Panic PUnwrap; Ok tt; Ok tt]
  /\ t_triples heed_impl (after heed_impl heed_new (eq_0 ++ [o; o])) (lit "n") = Ok [eq_t "x"]
  /\ t_triples duck_impl (after duck_impl duck_new (eq_0 ++ [o; o])) (lit "n") = Ok [eq_t "x"].
Proof. cbn zeta. repeat (match goal with |- _ /\ _ => split end); vm_compute; reflexivity. Qed.

Example C85_case :
  let a := [eq_t "x"] in let b := [eq_t "y"] in let ab := [eq_t "y"; eq_t "x"; eq_t "y"] in let c := lit "n" in
  merges a b ab
  /\ (total_weight (eq_0 ++ [OAdd c a; OAdd c b]) < 2 ^ 64)%N /\ (total_weight (eq_0 ++ [OAdd c ab]) < 2 ^ 64)%N
  /\ (dtotal (eq_0 ++ [OAdd c a; OAdd c b]) < 2 ^ 63)%N /\ (dtotal (eq_0 ++ [OAdd c ab]) < 2 ^ 63)%N
  /\ t_triples heed_impl (after heed_impl heed_new (eq_0 ++ [OAdd c ab; ORem c a])) c = Ok [eq_t "y"].
Proof. cbn zeta. split; [apply eq_merges|]. repeat (match goal with |- _ /\ _ => split end); vm_compute; reflexivity. Qed.
