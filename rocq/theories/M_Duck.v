(** * The DuckDB triple store: trips/src/duckdb.rs *)
From Coq Require Import List NArith Bool String.
From Verif Require Import M_Base M_Data.
Import ListNotations.
Open Scope list_scope.

(** duckdb.rs:24-41: one sequence and three tables.  Rows in insertion order.
    The id columns of [trip] are nullable, hence [option N]. *)
Record trip_row := TripRow {
  tr_id : N; tr_collection : option N; tr_first : option N; tr_second : option N; tr_third : option N }.

Record duck := Duck {
  d_seq : N;                       (* last value handed out by NEXTVAL('seq') *)
  d_part : list (N * str);         (* part(id, part UNIQUE) *)
  d_coll : list (N * str);         (* collection(id, name UNIQUE) *)
  d_trip : list trip_row           (* trip(id, collection, first, second, third) *)
}.

(** duckdb.rs:21-46 [TripsDuckDB::new] *)
Definition duck_new : duck := Duck 0 [] [] [].

(** NEXTVAL: DuckDB sequences run from 1 to 2^63 - 1 and then raise an error. *)
Definition seq_max : N := 9223372036854775807.
Definition nextval (n : N) : option N :=
  if N.ltb n seq_max then Some (n + 1)%N else None.

(** [SELECT id FROM t WHERE name = ?], first row. *)
Fixpoint sel_id (rows : list (N * str)) (name : str) : option N :=
  match rows with
  | [] => None
  | (i, n) :: r => if str_eqb n name then Some i else sel_id r name
  end.

(** [LEFT JOIN t ON t.id = k]: the text column, or NULL. *)
Fixpoint sel_name (rows : list (N * str)) (k : N) : option str :=
  match rows with
  | [] => None
  | (i, n) :: r => if N.eqb i k then Some n else sel_name r k
  end.

Definition join_name (rows : list (N * str)) (k : option N) : option str :=
  match k with Some i => sel_name rows i | None => None end.

(** SQL [=]: NULL is equal to nothing. *)
Definition sql_eq (a b : option N) : bool :=
  match a, b with Some x, Some y => N.eqb x y | _, _ => false end.

(** duckdb.rs:86-94 *)
Definition duck_collections (d : duck) : tres (list str) := Ok (map snd (d_coll d)).

(** duckdb.rs:96-104: plain insert; a UNIQUE violation (or an exhausted
    sequence) makes [execute] fail and [unwrap] panic.  (Simplification: a real
    sequence keeps the number drawn by a failed insert; only exhaustion after
    2^63 - 1 numbers could tell.) *)
Definition duck_add_collection (d : duck) (c : str) : tres unit * duck :=
  match nextval (d_seq d) with
  | None => (Panic PUnwrap, d)
  | Some i =>
      match sel_id (d_coll d) c with
      | Some _ => (Panic PUnwrap, d)
      | None => (Ok tt, Duck i (d_part d) (d_coll d ++ [(i, c)]) (d_trip d))
      end
  end.

(** duckdb.rs:106-111.  The foreign key [trip.collection REFERENCES
    collection(id)] makes the delete fail while a trip row refers to the row. *)
Definition duck_remove_collection (d : duck) (c : str) : tres unit * duck :=
  match sel_id (d_coll d) c with
  | Some i =>
      if existsb (fun r => sql_eq (tr_collection r) (Some i)) (d_trip d)
      then (Panic PUnwrap, d)
      else (Ok tt, Duck (d_seq d) (d_part d)
                     (filter (fun row => negb (str_eqb (snd row) c)) (d_coll d)) (d_trip d))
  | None => (Ok tt, d)
  end.

(** duckdb.rs:118-123: rows whose joined collection name is [c]; 127-137: a NULL
    text column makes [row.get(..).unwrap()] panic. *)
Fixpoint duck_triples_loop (d : duck) (c : str) (rows : list trip_row) (acc : list trip)
    : tres (list trip) :=
  match rows with
  | [] => Ok acc
  | r :: rest =>
      match join_name (d_coll d) (tr_collection r) with
      | Some n =>
          if str_eqb n c then
            match join_name (d_part d) (tr_first r), join_name (d_part d) (tr_second r),
                  join_name (d_part d) (tr_third r) with
            | Some a, Some b, Some e => duck_triples_loop d c rest (bs_insert trip_cmp (Trip a b e) acc)
            | _, _, _ => Panic PUnwrap
            end
          else duck_triples_loop d c rest acc
      | None => duck_triples_loop d c rest acc
      end
  end.

(** duckdb.rs:113-139 *)
Definition duck_triples (d : duck) (c : str) : tres (list trip) :=
  duck_triples_loop d c (d_trip d) [].

(** duckdb.rs:49-60 [get_collection_id] *)
Definition duck_get_collection_id (d : duck) (c : str) : tres N :=
  match sel_id (d_coll d) c with
  | Some i => Ok i
  | None => Err (lit "Collection " ++ c ++ lit " not found.")
  end.

(** duckdb.rs:62-69 [add_part]: INSERT ... ON CONFLICT DO NOTHING.  The default
    value NEXTVAL is drawn whether or not the row is kept. *)
Definition duck_add_part (d : duck) (p : str) : tres duck :=
  match nextval (d_seq d) with
  | None => Panic PUnwrap
  | Some i =>
      match sel_id (d_part d) p with
      | Some _ => Ok (Duck i (d_part d) (d_coll d) (d_trip d))
      | None => Ok (Duck i (d_part d ++ [(i, p)]) (d_coll d) (d_trip d))
      end
  end.

(** duckdb.rs:71-76 [add_trip] *)
Definition duck_add_trip (d : duck) (cid : N) (t : trip) : tres duck :=
  match nextval (d_seq d) with
  | None => Panic PUnwrap
  | Some i =>
      Ok (Duck i (d_part d) (d_coll d)
            (d_trip d ++ [TripRow i (Some cid) (sel_id (d_part d) (t0 t))
                            (sel_id (d_part d) (t1 t)) (sel_id (d_part d) (t2 t))]))
  end.

(** duckdb.rs:78-83 [remove_trip] *)
Definition duck_remove_trip (d : duck) (cid : N) (t : trip) : duck :=
  Duck (d_seq d) (d_part d) (d_coll d)
    (filter (fun r => negb (sql_eq (tr_collection r) (Some cid)
                            && sql_eq (tr_first r) (sel_id (d_part d) (t0 t))
                            && sql_eq (tr_second r) (sel_id (d_part d) (t1 t))
                            && sql_eq (tr_third r) (sel_id (d_part d) (t2 t))))
       (d_trip d)).

(** [bind] for [?] inside a transaction. *)
Definition tbind {A B : Type} (r : tres A) (f : A -> tres B) : tres B :=
  match r with Ok a => f a | Err e => Err e | Panic w => Panic w end.

(** duckdb.rs:148-153 *)
Fixpoint duck_add_loop (d : duck) (cid : N) (ts : list trip) : tres duck :=
  match ts with
  | [] => Ok d
  | t :: rest =>
      tbind (duck_add_part d (t0 t)) (fun d1 =>
      tbind (duck_add_part d1 (t1 t)) (fun d2 =>
      tbind (duck_add_part d2 (t2 t)) (fun d3 =>
      tbind (duck_add_trip d3 cid t) (fun d4 =>
      duck_add_loop d4 cid rest))))
  end.

(** duckdb.rs:141-156.  An [Err] (or a panic) drops the transaction, which rolls
    back.  (The failing NEXTVAL calls of a rolled back transaction may still
    advance a real sequence; here no NEXTVAL precedes the [Err].) *)
Definition duck_add_triples (d : duck) (c : str) (ts : list trip) : tres unit * duck * list trip :=
  match tbind (duck_get_collection_id d c) (fun cid => duck_add_loop d cid ts) with
  | Ok d' => (Ok tt, d', ts)
  | Err e => (Err e, d, ts)
  | Panic w => (Panic w, d, ts)
  end.

(** duckdb.rs:158-170 *)
Definition duck_remove_triples (d : duck) (c : str) (ts : list trip) : tres unit * duck * list trip :=
  match duck_get_collection_id d c with
  | Ok cid => (Ok tt, fold_left (fun acc t => duck_remove_trip acc cid t) ts d, ts)
  | Err e => (Err e, d, ts)
  | Panic w => (Panic w, d, ts)
  end.

(** duckdb.rs:172-174: [todo!()] *)
Definition duck_filter (d : duck) (c : str) (p : query) : tres (list trip) := Panic PTodo.

(** duckdb.rs:85-205 [impl Trips for TripsDuckDB] *)
Definition duck_impl : trips_impl duck :=
  TripsImpl duck_collections duck_add_collection duck_remove_collection duck_triples
    duck_add_triples duck_remove_triples duck_filter.
