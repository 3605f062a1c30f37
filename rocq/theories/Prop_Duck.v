(** * Properties of the DuckDB triple store (trips/src/duckdb.rs) *)
From Coq Require Import List Arith NArith Bool String.
From Verif Require Import M_Base M_Data M_Duck S_Order S_Store P_Ord P_Hist P_Duck.
Import ListNotations.
Open Scope list_scope.

Definition dx_a : trip := Trip (lit "a") (lit "b") (lit "c").
Definition dx_b : trip := Trip (lit "a") (lit "b") (lit "d").

(** A sample history: the second and last calls fail. *)
Definition dx : list op :=
  [OAddColl (lit "n"); OAddColl (lit "n"); OAdd (lit "n") [dx_a; dx_b]; OAddColl (lit "m");
   ORem (lit "n") [dx_b]; OAdd (lit "n") [dx_a]; OAdd (lit "x") [dx_b]].

(** The DuckDB store after a history, starting from a fresh database. *)
Definition duckdb (h : list op) : duck := after duck_impl duck_new h.

(** C22 (and C07 for DuckDB).  Whatever calls were made, the store shows exactly
    the contract's meaning of the calls that answered Ok. *)
Theorem C22_duck_contents_by_history : forall h,
  let H := acked duck_impl duck_new h in
  (exists l, t_collections duck_impl (duckdb h) = Ok l /\ NoDup l /\ forall c, In c l <-> live H c)
  /\ (forall c, exists l, t_triples duck_impl (duckdb h) c = Ok l /\ is_set trip_lt l
                          /\ forall t, In t l <-> holds_after H c t).
Proof. exact duck_history. Qed.
Print Assumptions C22_duck_contents_by_history.

Theorem C07_duck_collections : forall h,
  exists l, t_collections duck_impl (duckdb h) = Ok l /\ NoDup l
            /\ forall c, In c l <-> live (acked duck_impl duck_new h) c.
Proof. exact (fun h => proj1 (duck_history h)). Qed.
Print Assumptions C07_duck_collections.

Example C22_case :
  acked duck_impl duck_new dx
  = [OAddColl (lit "n"); OAdd (lit "n") [dx_a; dx_b]; OAddColl (lit "m"); ORem (lit "n") [dx_b]; OAdd (lit "n") [dx_a]]
  /\ t_collections duck_impl (duckdb dx) = Ok [lit "n"; lit "m"]
  /\ t_triples duck_impl (duckdb dx) (lit "n") = Ok [dx_a].
Proof. split; [|split]; vm_compute; reflexivity. Qed.

(** C23.  Calls outside the contract, and that they change nothing. *)
Theorem C23_duck_outside_contract : forall h c,
  let d := duckdb h in
  (has duck_impl d c -> call_op duck_impl d (OAddColl c) = (Panic PUnwrap, d))
  /\ (forall t, holds duck_impl d c t -> call_op duck_impl d (ORemColl c) = (Panic PUnwrap, d))
  /\ (~ has duck_impl d c -> t_triples duck_impl d c = Ok [] /\ call_op duck_impl d (ORemColl c) = (Ok tt, d)).
Proof. exact duck_outside. Qed.
Print Assumptions C23_duck_outside_contract.

Example C23_case : has duck_impl (duckdb dx) (lit "n") /\ holds duck_impl (duckdb dx) (lit "n") dx_a.
Proof. split; eexists; (split; [vm_compute; reflexivity|]); vm_compute; auto. Qed.

(** C02 is therefore false for DuckDB: adding an existing collection panics. *)
Theorem C02_duck_add_collection_idempotent_refuted :
  exists h c, has duck_impl (duckdb h) c /\ fst (t_add_collection duck_impl (duckdb h) c) <> Ok tt.
Proof.
  exists dx, (lit "n"). split; [exact (proj1 C23_case)|]. vm_compute. discriminate.
Qed.
Print Assumptions C02_duck_add_collection_idempotent_refuted.

(** What every call answers while fewer than 2^63 sequence numbers were used. *)
Theorem C23_duck_answers : forall h o,
  (dtotal (h ++ [o]) < 2 ^ 63)%N ->
  let d := duckdb h in
  let r := fst (call_op duck_impl d o) in
  match o with
  | OAddColl c => (~ has duck_impl d c -> r = Ok tt) /\ (has duck_impl d c -> r = Panic PUnwrap)
  | ORemColl c => ((forall t, ~ holds duck_impl d c t) -> r = Ok tt)
                  /\ ((exists t, holds duck_impl d c t) -> r = Panic PUnwrap)
  | OAdd c _ | ORem c _ => (has duck_impl d c -> r = Ok tt) /\ (~ has duck_impl d c -> exists e, r = Err e)
  end.
Proof. exact duck_answers. Qed.
Print Assumptions C23_duck_answers.

Example C23_answers_case : (dtotal (dx ++ [ORemColl (lit "n")]) < 2 ^ 63)%N.
Proof. reflexivity. Qed.

(** C24.  Adding the same triple n times is observed once and removed at once. *)
Theorem C24_duck_set_semantics : forall h c t n,
  let d := duckdb h in
  has duck_impl d c -> 0 < n -> (dtotal (h ++ repeat (OAdd c [t]) n) < 2 ^ 63)%N ->
  let d1 := after duck_impl d (repeat (OAdd c [t]) n) in
  let r := call_op duck_impl d1 (ORem c [t]) in
  (exists l, t_triples duck_impl d1 c = Ok l /\ is_set trip_lt l
             /\ forall t', In t' l <-> holds duck_impl d c t' \/ t' = t)
  /\ fst r = Ok tt
  /\ (exists l, t_triples duck_impl (snd r) c = Ok l /\ is_set trip_lt l
                /\ forall t', In t' l <-> holds duck_impl d c t' /\ t' <> t).
Proof. exact duck_repeat_remove. Qed.
Print Assumptions C24_duck_set_semantics.

Example C24_case :
  has duck_impl (duckdb dx) (lit "n") /\ (dtotal (dx ++ repeat (OAdd (lit "n") [dx_b]) 3) < 2 ^ 63)%N
  /\ List.length (d_trip (after duck_impl (duckdb dx) (repeat (OAdd (lit "n") [dx_b]) 3))) = 5.
Proof. split; [exact (proj1 C23_case)|]. split; reflexivity. Qed.

(** C25 and C06 for DuckDB.  Writing to a missing collection returns an error
    naming it and changes neither the database nor the caller's set. *)
Theorem C25_duck_missing_err : forall h c ts,
  let d := duckdb h in
  ~ has duck_impl d c ->
  let e := lit "Collection " ++ c ++ lit " not found." in
  t_add_triples duck_impl d c ts = (Err e, d, ts)
  /\ t_remove_triples duck_impl d c ts = (Err e, d, ts).
Proof. exact duck_missing_err. Qed.
Print Assumptions C25_duck_missing_err.

Theorem C06_duck_write_to_missing : forall h c ts,
  let d := duckdb h in
  ~ has duck_impl d c ->
  (exists e, call_op duck_impl d (OAdd c ts) = (Err e, d)) /\ (exists e, call_op duck_impl d (ORem c ts) = (Err e, d)).
Proof.
  intros h c ts d Hn. destruct (duck_missing_err h c ts Hn) as [E E']. 
  split; eexists; [exact (f_equal fst E)|exact (f_equal fst E')].
Qed.
Print Assumptions C06_duck_write_to_missing.

Example C25_case : ~ has duck_impl (duckdb dx) (lit "x").
Proof. intros (l & E & H). vm_compute in E. injection E as <-. revert H. not_in. Qed.
