(** * DuckDB calls, statement by statement: trips/src/duckdb.rs

    [M_Duck] assumes that statements fail only for the reasons it models
    (constraints, exhausted sequence).  Here any statement, the beginning of a
    transaction and its commit can fail (disk, memory, interrupt). *)
From Coq Require Import List NArith Bool String.
From Verif Require Import M_Base M_Data M_Duck.
Import ListNotations.
Open Scope list_scope.

(** Code working on the connection; the number says how many statements will
    still succeed ([None]: all). *)
Definition dact (A : Type) := duck * option nat -> tres A * (duck * option nat).

Definition dret {A : Type} (a : A) : dact A := fun x => (Ok a, x).
Definition dbind {A B : Type} (m : dact A) (k : A -> dact B) : dact B :=
  fun x => match m x with
           | (Ok a, x') => k a x'
           | (Err e, x') => (Err e, x')
           | (Panic w, x') => (Panic w, x')
           end.

(** One statement.  Every call site unwraps: [tx.execute(..).unwrap()],
    [stmt.query_map(..).unwrap()], [self.conn.transaction().unwrap()],
    [tx.commit().unwrap()]. *)
Definition stmt {A : Type} (f : duck -> tres A * duck) : dact A :=
  fun x => match snd x with
           | Some O => (Panic PUnwrap, x)
           | Some (S k) => let (r, d) := f (fst x) in (r, (d, Some k))
           | None => let (r, d) := f (fst x) in (r, (d, None))
           end.

(** A statement given by the new database. *)
Definition stmt_d (f : duck -> tres duck) : dact unit :=
  stmt (fun d => match f d with Ok d' => (Ok tt, d') | Err e => (Err e, d) | Panic w => (Panic w, d) end).

(** A call outside a transaction is one statement, committed by itself; in a
    transaction an early return or a panic drops it, which rolls back. *)
Definition run_dact {A : Type} (m : dact A) (left : option nat) (d : duck) : tres unit * duck :=
  match m (d, left) with
  | (Ok _, (d', _)) => (Ok tt, d')
  | (Err e, _) => (Err e, d)
  | (Panic w, _) => (Panic w, d)
  end.

(** duckdb.rs:146, 163 [self.conn.transaction().unwrap()] and 154, 168
    [tx.commit().unwrap()] *)
Definition dbegin : dact unit := stmt (fun d => (Ok tt, d)).
Definition dcommit : dact unit := stmt (fun d => (Ok tt, d)).

(** duckdb.rs:148-153: one turn of the loop.  ([add_trip(..);] without [?]: its
    result is ignored, but it is always Ok.) *)
Fixpoint fine_duck_add_loop (cid : N) (ts : list trip) : dact unit :=
  match ts with
  | [] => dret tt
  | t :: rest =>
      dbind (stmt_d (fun d => duck_add_part d (t0 t))) (fun _ =>
      dbind (stmt_d (fun d => duck_add_part d (t1 t))) (fun _ =>
      dbind (stmt_d (fun d => duck_add_part d (t2 t))) (fun _ =>
      dbind (stmt_d (fun d => duck_add_trip d cid t)) (fun _ =>
      fine_duck_add_loop cid rest))))
  end.

(** duckdb.rs:165-167 *)
Fixpoint fine_duck_remove_loop (cid : N) (ts : list trip) : dact unit :=
  match ts with
  | [] => dret tt
  | t :: rest =>
      dbind (stmt_d (fun d => Ok (duck_remove_trip d cid t))) (fun _ => fine_duck_remove_loop cid rest)
  end.

(** duckdb.rs:141-156 *)
Definition fine_duck_add_triples (c : str) (ts : list trip) : dact unit :=
  dbind dbegin (fun _ =>
  dbind (stmt (fun d => (duck_get_collection_id d c, d))) (fun cid =>
  dbind (fine_duck_add_loop cid ts) (fun _ => dcommit))).

(** duckdb.rs:158-170 *)
Definition fine_duck_remove_triples (c : str) (ts : list trip) : dact unit :=
  dbind dbegin (fun _ =>
  dbind (stmt (fun d => (duck_get_collection_id d c, d))) (fun cid =>
  dbind (fine_duck_remove_loop cid ts) (fun _ => dcommit))).

(** duckdb.rs:85-205 again, for a given number of statements that succeed in
    each call. *)
Definition duck_impl_w (left : option nat) : trips_impl duck :=
  TripsImpl duck_collections
    (fun d c => run_dact (stmt (fun d => duck_add_collection d c)) left d)
    (fun d c => run_dact (stmt (fun d => duck_remove_collection d c)) left d)
    duck_triples
    (fun d c ts => (run_dact (fine_duck_add_triples c ts) left d, ts))
    (fun d c ts => (run_dact (fine_duck_remove_triples c ts) left d, ts))
    duck_filter.
