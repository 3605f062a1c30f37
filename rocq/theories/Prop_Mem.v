(** * Properties of the in-memory triple store (trips/src/mem.rs) *)
From Coq Require Import List NArith Bool String.
From Verif Require Import M_Base M_Data M_Mem S_Order S_Store P_Ord P_Hist P_Mem.
Import ListNotations.
Open Scope list_scope.

(** A sample history used by the examples. *)
Definition ex_a : trip := Trip (lit "a") (lit "b") (lit "c").
Definition ex_b : trip := Trip (lit "a") (lit "b") (lit "d").
Definition ex_h : list op :=
  [OAddColl (lit "n"); OAdd (lit "n") [ex_a; ex_b]; OAddColl (lit "m"); ORem (lit "n") [ex_b];
   OAdd (lit "m") [ex_b]].

(** C01.  Whatever calls were made on a fresh store, reading a collection that
    was added and not removed since gives the sorted set of the triples added
    since it was last (re-)added and not removed since; reading any other fails. *)
Theorem C01_mem_contents_by_history : forall h c,
  let s := after mem_impl mem_new h in
  (live h c ->
   exists l, t_triples mem_impl s c = Ok l /\ is_set trip_lt l
             /\ forall t, In t l <-> mem_holds_after h c t)
  /\ (~ live h c -> exists e, t_triples mem_impl s c = Err e).
Proof. exact mem_history. Qed.
Print Assumptions C01_mem_contents_by_history.

Example C01_case :
  live ex_h (lit "n") /\ ~ live ex_h (lit "x")
  /\ t_triples mem_impl (after mem_impl mem_new ex_h) (lit "n") = Ok [ex_a].
Proof.
  split; [|split; [|reflexivity]].
  - exists [], (tl ex_h). split; [reflexivity|]. not_in.
  - intros H. apply live_in in H. revert H. not_in.
Qed.

(** C02.  The trait says adding an existing collection does nothing.  Here it
    empties the collection. *)
Theorem C02_mem_add_collection_idempotent_refuted :
  exists h c t,
    let s := after mem_impl mem_new h in
    has mem_impl s c /\ holds mem_impl s c t
    /\ fst (t_add_collection mem_impl s c) = Ok tt
    /\ ~ holds mem_impl (snd (t_add_collection mem_impl s c)) c t.
Proof.
  exists ex_h, (lit "n"), ex_a. split; [|split; [|split]].
  - eexists. split; [reflexivity|]. right. left. reflexivity.
  - eexists. split; [reflexivity|]. left. reflexivity.
  - reflexivity.
  - intros (l & E & H). vm_compute in E. injection E as <-. exact H.
Qed.
Print Assumptions C02_mem_add_collection_idempotent_refuted.

(** C02, the part that holds: adding an absent collection makes it exist, empty,
    and touches nothing else. *)
Theorem C02_mem_add_collection_absent : forall h c,
  let s := after mem_impl mem_new h in
  ~ has mem_impl s c ->
  let r := t_add_collection mem_impl s c in
  fst r = Ok tt
  /\ has mem_impl (snd r) c
  /\ (forall t, ~ holds mem_impl (snd r) c t)
  /\ (forall c', c' <> c -> same_at mem_impl s (snd r) c').
Proof. exact mem_add_coll_absent. Qed.
Print Assumptions C02_mem_add_collection_absent.

Example C02_case : ~ has mem_impl (after mem_impl mem_new ex_h) (lit "x").
Proof. intros (l & E & H). vm_compute in E. injection E as <-. revert H. not_in. Qed.

(** C03.  remove_collection removes exactly that collection. *)
Theorem C03_mem_remove_collection : forall h c,
  let s := after mem_impl mem_new h in
  let r := t_remove_collection mem_impl s c in
  fst r = Ok tt
  /\ ~ has mem_impl (snd r) c
  /\ (exists e, t_triples mem_impl (snd r) c = Err e)
  /\ (forall c', c' <> c -> same_at mem_impl s (snd r) c')
  /\ (~ has mem_impl s c -> snd r = s).
Proof. exact mem_remove_coll. Qed.
Print Assumptions C03_mem_remove_collection.

Example C03_case :
  let s := after mem_impl mem_new ex_h in
  has mem_impl s (lit "n") /\ has mem_impl s (lit "m")
  /\ t_collections mem_impl (snd (t_remove_collection mem_impl s (lit "n"))) = Ok [lit "m"].
Proof.
  split; [|split; [|reflexivity]]; eexists; (split; [reflexivity|]); vm_compute; auto.
Qed.

(** C04.  add_triples is set union on one collection, and empties the caller's set. *)
Theorem C04_mem_add_triples : forall h c ts,
  let s := after mem_impl mem_new h in
  has mem_impl s c ->
  let '(r, s', ts') := t_add_triples mem_impl s c ts in
  r = Ok tt
  /\ (forall t, holds mem_impl s' c t <-> holds mem_impl s c t \/ In t ts)
  /\ (forall c', c' <> c -> same_at mem_impl s s' c')
  /\ (forall c', has mem_impl s' c' <-> has mem_impl s c')
  /\ ts' = [].
Proof. exact mem_add. Qed.
Print Assumptions C04_mem_add_triples.

(** C05.  remove_triples is set difference on one collection. *)
Theorem C05_mem_remove_triples : forall h c ts,
  let s := after mem_impl mem_new h in
  has mem_impl s c ->
  let '(r, s', ts') := t_remove_triples mem_impl s c ts in
  r = Ok tt
  /\ (forall t, holds mem_impl s' c t <-> holds mem_impl s c t /\ ~ In t ts)
  /\ (forall c', c' <> c -> same_at mem_impl s s' c')
  /\ (forall c', has mem_impl s' c' <-> has mem_impl s c')
  /\ ts' = ts.
Proof. exact mem_rem. Qed.
Print Assumptions C05_mem_remove_triples.

Example C04_C05_case :
  let s := after mem_impl mem_new ex_h in
  has mem_impl s (lit "n")
  /\ t_triples mem_impl (snd (fst (t_add_triples mem_impl s (lit "n") [ex_b]))) (lit "n") = Ok [ex_a; ex_b]
  /\ t_triples mem_impl (snd (fst (t_remove_triples mem_impl s (lit "n") [ex_a]))) (lit "n") = Ok [].
Proof.
  split; [|split; reflexivity]. eexists. split; [reflexivity|]. vm_compute; auto.
Qed.

(** C06.  The trait promises [Err] for a write to a missing collection; here
    both writes panic instead (leaving the store unchanged). *)
Theorem C06_mem_write_to_missing_panics : forall h c ts,
  let s := after mem_impl mem_new h in
  ~ has mem_impl s c ->
  t_add_triples mem_impl s c ts = (Panic PTodo, s, ts)
  /\ t_remove_triples mem_impl s c ts = (Panic PTodo, s, ts).
Proof. exact mem_write_missing. Qed.
Print Assumptions C06_mem_write_to_missing_panics.

Theorem C06_mem_write_to_missing_refuted :
  exists h c ts,
    let s := after mem_impl mem_new h in
    ~ has mem_impl s c
    /\ (forall e, fst (call_op mem_impl s (OAdd c ts)) <> Err e)
    /\ (forall e, fst (call_op mem_impl s (ORem c ts)) <> Err e).
Proof.
  exists ex_h, (lit "x"), [ex_a]. split; [|split; intros e E; vm_compute in E; discriminate E].
  intros (l & E & H). vm_compute in E. injection E as <-. revert H. not_in.
Qed.
Print Assumptions C06_mem_write_to_missing_refuted.

(** C07.  collections() is strictly increasing and lists exactly the live names. *)
Theorem C07_mem_collections : forall h,
  exists l, t_collections mem_impl (after mem_impl mem_new h) = Ok l
            /\ is_set str_lt l /\ forall c, In c l <-> live h c.
Proof. exact mem_listing. Qed.
Print Assumptions C07_mem_collections.

Example C07_case : t_collections mem_impl (after mem_impl mem_new ex_h) = Ok [lit "m"; lit "n"].
Proof. reflexivity. Qed.

(** C08.  filter without variables returns exactly the fitting triples. *)
Theorem C08_mem_filter : forall h c q,
  no_variables q ->
  let s := after mem_impl mem_new h in
  (has mem_impl s c ->
   exists l, t_filter mem_impl s c q = Ok l /\ is_set trip_lt l
             /\ forall t, In t l <-> holds mem_impl s c t /\ fits q t)
  /\ (~ has mem_impl s c -> exists e, t_filter mem_impl s c q = Err e).
Proof. exact mem_filter_ok. Qed.
Print Assumptions C08_mem_filter.

(** C08.  What the errors say; the pattern does not matter. *)
Theorem C08_mem_texts : forall h c q, let s := after mem_impl mem_new h in ~ has mem_impl s c ->
  t_filter mem_impl s c q = Err (lit "Collection not found.")
  /\ t_triples mem_impl s c = Err (lit "Collection `" ++ c ++ lit "` not found.").
Proof.
  intros h c q s N. cbn [t_filter t_triples mem_impl]. unfold mem_filter, mem_triples. destruct (bm_get str_cmp c s) as [l|] eqn:E; [|auto].
  exfalso. apply N, mem_has. eauto.
Qed.
Print Assumptions C08_mem_texts.


Example C08_case :
  let q := Query Any (Value (lit "b")) Any in
  no_variables q /\ t_filter mem_impl (after mem_impl mem_new ex_h) (lit "n") q = Ok [ex_a].
Proof. split; [|reflexivity]. repeat split; intros [x E]; discriminate E. Qed.

(** C09.  filter with a variable panics exactly when some triple of the
    collection agrees with all slots before the first variable; otherwise it
    returns the empty set. *)
Theorem C09_mem_filter_variable : forall h c q,
  ~ no_variables q ->
  let s := after mem_impl mem_new h in
  has mem_impl s c ->
  ((exists t, holds mem_impl s c t /\ meets_variable q t) <-> exists w, t_filter mem_impl s c q = Panic w)
  /\ ((~ exists t, holds mem_impl s c t /\ meets_variable q t) -> t_filter mem_impl s c q = Ok []).
Proof. exact mem_filter_variable. Qed.
Print Assumptions C09_mem_filter_variable.

Example C09_case :
  let s := after mem_impl mem_new ex_h in
  t_filter mem_impl s (lit "n") (Query (Value (lit "a")) (Variable_ (lit "v")) Any) = Panic PTodo
  /\ t_filter mem_impl s (lit "n") (Query (Value (lit "z")) (Variable_ (lit "v")) Any) = Ok [].
Proof. split; reflexivity. Qed.

(** C10.  match_query_single computes the unique binding of exactly the query's
    variables that makes the query equal to the triple, or None if there is none. *)
Theorem C10_match_query_single : forall q t,
  (forall m, match_query_single q t = Some m <-> solves q t m)
  /\ (match_query_single q t = None <-> forall m, ~ solves q t m).
Proof. exact (fun q t => conj (match_single_iff q t) (match_single_none q t)). Qed.
Print Assumptions C10_match_query_single.

(** Solutions are unique. *)
Theorem C10_solution_unique : forall q t m m', solves q t m -> solves q t m' -> m = m'.
Proof. exact solves_unique. Qed.
Print Assumptions C10_solution_unique.

Example C10_case :
  match_query_single (Query (Variable_ (lit "x")) Any (Variable_ (lit "x"))) ex_a = None
  /\ match_query_single (Query (Variable_ (lit "x")) (Variable_ (lit "w")) (Value (lit "c"))) ex_a
     = Some [(lit "w", lit "b"); (lit "x", lit "a")].
Proof. split; reflexivity. Qed.

(** C11.  match_query returns one solution per matching triple, in order, and
    nothing else (and [answers] determines that list). *)
Theorem C11_match_query : forall q ts ms, answers q ts ms <-> ms = match_query q ts.
Proof.
  exact (fun q ts ms => conj (answers_unique q ts ms)
           (fun E => eq_ind_r (answers q ts) (match_query_answers q ts) E)).
Qed.
Print Assumptions C11_match_query.

Example C11_case :
  match_query (Query Any Any (Variable_ (lit "x"))) [ex_a; ex_b]
  = [[(lit "x", lit "c")]; [(lit "x", lit "d")]].
Proof. reflexivity. Qed.
