(** * DuckDB calls on a database that keeps its rows as it likes: trips/src/duckdb.rs

    [M_Duck] and [M_DuckTxn] keep rows in the order they were inserted, and
    give the numbers drawn by a failed or rolled back statement back.  A real
    DuckDB promises neither: rows have no order, and a number drawn from the
    sequence may be lost.  Here both are left open, at every single statement. *)
From Coq Require Import List NArith Bool String Permutation.
From Verif Require Import M_Base M_Data M_Duck.
Import ListNotations.
Open Scope list_scope.

(** What happens when the [n]-th statement is run: it fails (disk, memory,
    interrupt), or it is run on the database as it has become meanwhile. *)
Definition weather := nat -> option (duck -> duck).

(** The database, and how many statements were run so far. *)
Definition rduck := (duck * nat)%type.
Definition sact (A : Type) := rduck -> tres A * rduck.

Definition sret {A : Type} (a : A) : sact A := fun x => (Ok a, x).
Definition sbind {A B : Type} (m : sact A) (k : A -> sact B) : sact B :=
  fun x => match m x with
           | (Ok a, x') => k a x'
           | (Err e, x') => (Err e, x')
           | (Panic w, x') => (Panic w, x')
           end.

Section World.
  Variable w : weather.

  (** One statement; every call site unwraps (see [M_DuckTxn.stmt]). *)
  Definition rstmt {A : Type} (f : duck -> tres A * duck) : sact A :=
    fun x => match w (snd x) with
             | None => (Panic PUnwrap, (fst x, S (snd x)))
             | Some moved => let (r, d) := f (moved (fst x)) in (r, (d, S (snd x)))
             end.

  (** A statement given by the new database. *)
  Definition rstmt_d (f : duck -> tres duck) : sact unit :=
    rstmt (fun d => match f d with Ok d' => (Ok tt, d') | Err e => (Err e, d) | Panic v => (Panic v, d) end).

  (** A call that does not answer Ok is rolled back (the numbers it drew are lost
      or not: see [moved] of the next statement). *)
  Definition run_sact {A : Type} (m : sact A) (x : rduck) : tres unit * rduck :=
    match m x with
    | (Ok _, x') => (Ok tt, x')
    | (Err e, x') => (Err e, (fst x, snd x'))
    | (Panic v, x') => (Panic v, (fst x, snd x'))
    end.

  (** duckdb.rs:146, 163 and 154, 168 *)
  Definition rbegin : sact unit := rstmt (fun d => (Ok tt, d)).
  Definition rcommit : sact unit := rstmt (fun d => (Ok tt, d)).

  (** duckdb.rs:148-153 *)
  Fixpoint real_add_loop (cid : N) (ts : list trip) : sact unit :=
    match ts with
    | [] => sret tt
    | t :: rest =>
        sbind (rstmt_d (fun d => duck_add_part d (t0 t))) (fun _ =>
        sbind (rstmt_d (fun d => duck_add_part d (t1 t))) (fun _ =>
        sbind (rstmt_d (fun d => duck_add_part d (t2 t))) (fun _ =>
        sbind (rstmt_d (fun d => duck_add_trip d cid t)) (fun _ =>
        real_add_loop cid rest))))
    end.

  (** duckdb.rs:165-167 *)
  Fixpoint real_remove_loop (cid : N) (ts : list trip) : sact unit :=
    match ts with
    | [] => sret tt
    | t :: rest =>
        sbind (rstmt_d (fun d => Ok (duck_remove_trip d cid t))) (fun _ => real_remove_loop cid rest)
    end.

  (** duckdb.rs:141-156 *)
  Definition real_add_triples (c : str) (ts : list trip) : sact unit :=
    sbind rbegin (fun _ =>
    sbind (rstmt (fun d => (duck_get_collection_id d c, d))) (fun cid =>
    sbind (real_add_loop cid ts) (fun _ => rcommit))).

  (** duckdb.rs:158-170 *)
  Definition real_remove_triples (c : str) (ts : list trip) : sact unit :=
    sbind rbegin (fun _ =>
    sbind (rstmt (fun d => (duck_get_collection_id d c, d))) (fun cid =>
    sbind (real_remove_loop cid ts) (fun _ => rcommit))).

  (** duckdb.rs:86-94, 113-139: reading is one statement, too.  (It does not
      change the database, so the statements are counted on without it.) *)
  Definition rread {A : Type} (f : duck -> tres A) (x : rduck) : tres A :=
    match w (snd x) with
    | None => Panic PUnwrap
    | Some moved => f (moved (fst x))
    end.

  (** duckdb.rs:85-205 [impl Trips for TripsDuckDB] *)
  Definition real_impl : trips_impl rduck :=
    TripsImpl (rread duck_collections)
      (fun x c => run_sact (rstmt (fun d => duck_add_collection d c)) x)
      (fun x c => run_sact (rstmt (fun d => duck_remove_collection d c)) x)
      (fun x c => rread (fun d => duck_triples d c) x)
      (fun x c ts => (run_sact (real_add_triples c ts) x, ts))
      (fun x c ts => (run_sact (real_remove_triples c ts) x, ts))
      (fun x c p => duck_filter (fst x) c p).
End World.
