(** * The in-memory triple store: trips/src/mem.rs *)
From Coq Require Import List NArith Bool String.
From Verif Require Import M_Base M_Data.
Import ListNotations.
Open Scope list_scope.

(** trips/src/mem.rs:16-22 [TripsMem { collections: BTreeMap<String, BTreeSet<Trip>> }] *)
Definition mem := list (str * list trip).

(** trips/src/mem.rs:26-32 [TripsMem::new] *)
Definition mem_new : mem := [].

(** trips/src/mem.rs:43-46 *)
Definition mem_collections (s : mem) : tres (list str) := Ok (map fst s).

(** trips/src/mem.rs:48-51: [self.collections.insert(collection, BTreeSet::new())] *)
Definition mem_add_collection (s : mem) (c : str) : tres unit * mem :=
  (Ok tt, bm_insert str_cmp c [] s).

(** trips/src/mem.rs:53-56 *)
Definition mem_remove_collection (s : mem) (c : str) : tres unit * mem :=
  (Ok tt, bm_remove str_cmp c s).

(** trips/src/mem.rs:61-64: the message of [format!] *)
Definition mem_not_found (c : str) : str :=
  lit "Collection `" ++ c ++ lit "` not found.".

(** trips/src/mem.rs:58-66 *)
Definition mem_triples (s : mem) (c : str) : tres (list trip) :=
  match bm_get str_cmp c s with
  | Some r => Ok r
  | None => Err (mem_not_found c)
  end.

(** trips/src/mem.rs:68-80.  [get_mut] + [append]: the stored set is replaced by
    the union; [append] leaves the caller's set empty. *)
Definition mem_add_triples (s : mem) (c : str) (ts : list trip) : tres unit * mem * list trip :=
  match bm_get str_cmp c s with
  | Some r => (Ok tt, bm_insert str_cmp c (bs_append trip_cmp r ts) s, [])
  | None => (Panic PTodo, s, ts)
  end.

(** trips/src/mem.rs:82-96 *)
Definition mem_remove_triples (s : mem) (c : str) (ts : list trip) : tres unit * mem * list trip :=
  match bm_get str_cmp c s with
  | Some r =>
      (Ok tt, bm_insert str_cmp c (fold_left (fun acc t => bs_remove trip_cmp t acc) ts r) s, ts)
  | None => (Panic PTodo, s, ts)
  end.

(** One [match pattern.i] block of the loop body, trips/src/mem.rs:140-150,
    151-161, 162-172: go on, [continue], or [todo!()]. *)
Inductive slot_outcome := Pass | Skip | Boom.

Definition slot_check (p : slot) (v : str) : slot_outcome :=
  match p with
  | Any => Pass
  | Value x => if str_eqb x v then Pass else Skip
  | Variable_ _ => Boom
  end.

(** trips/src/mem.rs:139-174: the [for trip in collection.iter()] loop. *)
Fixpoint mem_filter_loop (p : query) (ts : list trip) (results : list trip) : tres (list trip) :=
  match ts with
  | [] => Ok results
  | t :: rest =>
      match slot_check (q0 p) (t0 t) with
      | Boom => Panic PTodo
      | Skip => mem_filter_loop p rest results
      | Pass =>
          match slot_check (q1 p) (t1 t) with
          | Boom => Panic PTodo
          | Skip => mem_filter_loop p rest results
          | Pass =>
              match slot_check (q2 p) (t2 t) with
              | Boom => Panic PTodo
              | Skip => mem_filter_loop p rest results
              | Pass => mem_filter_loop p rest (bs_insert trip_cmp t results)
              end
          end
      end
  end.

(** trips/src/mem.rs:135-179 *)
Definition mem_filter (s : mem) (c : str) (p : query) : tres (list trip) :=
  match bm_get str_cmp c s with
  | Some ts => mem_filter_loop p ts []
  | None => Err (lit "Collection not found.")
  end.

(** trips/src/mem.rs:42-180 [impl Trips for TripsMem] *)
Definition mem_impl : trips_impl mem :=
  TripsImpl mem_collections mem_add_collection mem_remove_collection mem_triples
    mem_add_triples mem_remove_triples mem_filter.

(** ** Pattern matching with bindings *)

(** [BTreeMap<String, String>] *)
Definition binding := list (str * str).

(** One later slot of trips/src/mem.rs:209-231 and 232-254: check an already
    bound variable, bind a new one, compare a value.  [None] is [return None]. *)
Definition match_slot (p : slot) (v : str) (result : binding) : option binding :=
  match p with
  | Variable_ x =>
      match bm_get str_cmp x result with
      | Some y => if str_eqb y v then Some result else None
      | None => Some (bm_insert str_cmp x v result)
      end
  | Value y => if str_eqb y v then Some result else None
  | Any => Some result
  end.

(** trips/src/mem.rs:193-256 [match_query_single].  The first slot
    (195-208) inserts without looking the variable up. *)
Definition match_query_single (q : query) (t : trip) : option binding :=
  let first :=
    match q0 q with
    | Variable_ x => Some (bm_insert str_cmp x (t0 t) [])
    | Value y => if str_eqb y (t0 t) then Some [] else None
    | Any => Some []
    end in
  match first with
  | None => None
  | Some r0 =>
      match match_slot (q1 q) (t1 t) r0 with
      | None => None
      | Some r1 => match_slot (q2 q) (t2 t) r1
      end
  end.

(** trips/src/mem.rs:182-191 [match_query] *)
Fixpoint match_query (q : query) (ts : list trip) : list binding :=
  match ts with
  | [] => []
  | t :: rest =>
      match match_query_single q t with
      | Some r => r :: match_query q rest
      | None => match_query q rest
      end
  end.
