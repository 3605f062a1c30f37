(** * The LMDB triple store: trips/src/heed.rs *)
From Coq Require Import List NArith Bool String.
From Verif Require Import M_Base M_Data.
Import ListNotations.
Open Scope list_scope.

(** ** u64 and its big-endian bytes *)

Definition u64_max : N := 18446744073709551615.

(** [value + 1] on u64 (heed.rs:94, 277, 295, 313): overflow panics in a debug
    build ([None]).  For release builds, where it wraps round, see [M_HeedRel]. *)
Definition u64_add1 (n : N) : option N :=
  if N.ltb n u64_max then Some (n + 1)%N else None.

(** [u64::to_be_bytes] (heed.rs:339-342, 430-433). *)
Definition to_be_bytes (n : N) : list N :=
  map (fun k => (N.div n (2 ^ (8 * k)) mod 256)%N) [7; 6; 5; 4; 3; 2; 1; 0]%N.

(** [u64::from_be_bytes] (heed.rs:628). *)
Definition from_be_bytes (l : list N) : N :=
  fold_left (fun acc b => (acc * 256 + b)%N) l 0%N.

(** [arr[idx] = v]; [None] is the index-out-of-bounds panic. *)
Fixpoint arr_set (arr : list N) (idx : nat) (v : N) : option (list N) :=
  match arr, idx with
  | [], _ => None
  | _ :: r, O => Some (v :: r)
  | x :: r, S i =>
      match arr_set r i v with
      | Some r' => Some (x :: r')
      | None => None
      end
  end.

(** The loop [for val in a { res[index] = val; index = index + 1; }] used in
    heed.rs:624-627 and 634-649. *)
Fixpoint copy_loop (src : list N) (dst : list N) (index : nat) : option (list N * nat) :=
  match src with
  | [] => Some (dst, index)
  | v :: rest =>
      match arr_set dst index v with
      | Some dst' => copy_loop rest dst' (S index)
      | None => None
      end
  end.

(** heed.rs:621-629 [read_id]; [None] is a panic. *)
Definition read_id (encoded : list N) : option N :=
  match copy_loop encoded (repeat 0%N 8) 0 with
  | Some (id, _) => Some (from_be_bytes id)
  | None => None
  end.

(** heed.rs:631-651 [merge_arrays]; [None] is a panic. *)
Definition merge_arrays (a b c d : list N) : option (list N) :=
  match copy_loop a (repeat 0%N 32) 0 with
  | None => None
  | Some (r1, i1) =>
      match copy_loop b r1 i1 with
      | None => None
      | Some (r2, i2) =>
          match copy_loop c r2 i2 with
          | None => None
          | Some (r3, i3) =>
              match copy_loop d r3 i3 with
              | None => None
              | Some (r4, _) => Some r4
              end
          end
      end
  end.

(** [&entry[a..b]]; [None] is the out-of-bounds panic. *)
Definition slice (l : list N) (a b : nat) : option (list N) :=
  if Nat.leb b (List.length l) then Some (firstn (b - a) (skipn a l)) else None.

(** ** LMDB tables (external: lmdb through heed 0.20)

    A table is an ordered map.  [Str] keys are UTF-8 bytes, whose order is code
    point order (C61); [U64<BigEndian>] keys are 8 bytes whose order is numeric
    order (C12), so the model keys those tables by the number. *)

(** Number of bytes of a code point in UTF-8. *)
Definition utf8_len1 (c : N) : N :=
  if N.ltb c 128 then 1%N
  else if N.ltb c 2048 then 2%N
  else if N.ltb c 65536 then 3%N
  else 4%N.

Definition utf8_len (s : str) : N := fold_right (fun c n => (utf8_len1 c + n)%N) 0%N s.

(** LMDB refuses empty keys, and refuses to store keys over 511 bytes. *)
Definition key_readable (k : str) : bool := negb (N.eqb (utf8_len k) 0).
Definition key_storable (k : str) : bool := key_readable k && N.leb (utf8_len k) 511.

(** [db.get] on a [Str]-keyed table: [Err] for an empty key. *)
Definition sget {V : Type} (t : list (str * V)) (k : str) : res unit (option V) :=
  if key_readable k then Ok (bm_get str_cmp k t) else Err tt.

(** [db.put] on a [Str]-keyed table.  Every call site ignores the returned
    [Result], so a refused put is just a table left unchanged. *)
Definition sput {V : Type} (t : list (str * V)) (k : str) (v : V) : list (str * V) :=
  if key_storable k then bm_insert str_cmp k v t else t.

(** [db.delete] on a [Str]-keyed table; result ignored. *)
Definition sdel {V : Type} (t : list (str * V)) (k : str) : list (str * V) :=
  if key_readable k then bm_remove str_cmp k t else t.

(** The same on [U64]-keyed tables; 8-byte keys are always accepted. *)
Definition nget {V : Type} (t : list (N * V)) (k : N) : option V := bm_get N.compare k t.
Definition nput {V : Type} (t : list (N * V)) (k : N) (v : V) : list (N * V) :=
  bm_insert N.compare k v t.
Definition ndel {V : Type} (t : list (N * V)) (k : N) : list (N * V) := bm_remove N.compare k t.

(** [Bytes] -> [Unit] tables are sets of byte strings. *)
Definition bytes_cmp : list N -> list N -> comparison := list_cmp N.compare.
Definition rput (t : list (list N)) (k : list N) : list (list N) := bs_insert bytes_cmp k t.
Definition rdel (t : list (list N)) (k : list N) : list (list N) := bs_remove bytes_cmp k t.

(** heed.rs:21-31: the eleven tables of the environment. *)
Record heed := Heed {
  h_ids : list (str * N);
  h_c2i : list (str * N);
  h_i2c : list (N * str);
  h_v2i : list (str * N);
  h_i2v : list (N * str);
  h_cfst : list (list N);
  h_cfts : list (list N);
  h_csft : list (list N);
  h_cstf : list (list N);
  h_ctfs : list (list N);
  h_ctsf : list (list N)
}.

(** heed.rs:35-50 [TripsHeed::new] on a fresh environment: eleven empty tables.
    (On an existing environment [create_database] opens the tables as they are.) *)
Definition heed_new : heed := Heed [] [] [] [] [] [] [] [] [] [] [].

(** A write transaction either reaches [tx.commit()] with a new database, or is
    dropped (early return or unwinding panic), which aborts it. *)
Inductive tx (A : Type) :=
| TCommit (r : tres A) (d : heed)
| TAbort (r : tres A).
Arguments TCommit {A} r d.
Arguments TAbort {A} r.

(** [tx.commit();] ignores the result: with [commit = false] the commit failed,
    nothing is installed, and the call still returns its value. *)
Definition run_tx {A : Type} (commit : bool) (d : heed) (t : tx A) : tres A * heed :=
  match t with
  | TCommit r d' => (r, if commit then d' else d)
  | TAbort r => (r, d)
  end.

(** heed.rs:54-70 *)
Definition heed_collections (d : heed) : tres (list str) := Ok (map fst (h_c2i d)).

(** The key of the id counter. *)
Definition id_key : str := lit "id".

(** heed.rs:87-105: allocate the next id, starting at 0. *)
Definition next_collection_id (d : heed) : tres (N * heed) :=
  match sget (h_ids d) id_key with
  | Ok (Some value) =>
      match u64_add1 value with
      | Some next_id =>
          Ok (next_id,
              Heed (sput (h_ids d) id_key next_id) (h_c2i d) (h_i2c d) (h_v2i d) (h_i2v d)
                (h_cfst d) (h_cfts d) (h_csft d) (h_cstf d) (h_ctfs d) (h_ctsf d))
      | None => Panic POverflow
      end
  | Ok None =>
      Ok (0%N,
          Heed (sput (h_ids d) id_key 0%N) (h_c2i d) (h_i2c d) (h_v2i d) (h_i2v d)
            (h_cfst d) (h_cfts d) (h_csft d) (h_cstf d) (h_ctfs d) (h_ctsf d))
  | _ => Panic PTodo
  end.

(** heed.rs:72-128 *)
Definition heed_add_collection_tx (d : heed) (c : str) : tx unit :=
  match sget (h_c2i d) c with
  | Ok (Some _) => TAbort (Ok tt)
  | _ =>
      match next_collection_id d with
      | Ok (id, d1) =>
          TCommit (Ok tt)
            (Heed (h_ids d1) (sput (h_c2i d1) c id) (nput (h_i2c d1) id c) (h_v2i d1) (h_i2v d1)
               (h_cfst d1) (h_cfts d1) (h_csft d1) (h_cstf d1) (h_ctfs d1) (h_ctsf d1))
      | Err e => TAbort (Err e)
      | Panic w => TAbort (Panic w)
      end
  end.

Definition heed_add_collection (commit : bool) (d : heed) (c : str) : tres unit * heed :=
  run_tx commit d (heed_add_collection_tx d c).

(** heed.rs:130-165 *)
Definition heed_remove_collection_tx (d : heed) (c : str) : tx unit :=
  match sget (h_c2i d) c with
  | Ok (Some id) =>
      TCommit (Ok tt)
        (Heed (h_ids d) (sdel (h_c2i d) c) (ndel (h_i2c d) id) (h_v2i d) (h_i2v d)
           (h_cfst d) (h_cfts d) (h_csft d) (h_cstf d) (h_ctfs d) (h_ctsf d))
  | _ => TAbort (Panic PTodo)
  end.

Definition heed_remove_collection (commit : bool) (d : heed) (c : str) : tres unit * heed :=
  run_tx commit d (heed_remove_collection_tx d c).

(** heed.rs:186-190: decode one row. *)
Definition decode_row (row : list N) : option (N * N * N * N) :=
  match slice row 0 8, slice row 8 16, slice row 16 24, slice row 24 32 with
  | Some a, Some b, Some c, Some d =>
      match read_id a, read_id b, read_id c, read_id d with
      | Some cid, Some fid, Some sid, Some tid => Some (cid, fid, sid, tid)
      | _, _, _, _ => None
      end
  | _, _, _, _ => None
  end.

(** heed.rs:184-226: the [for_each] over the cfst table. *)
Fixpoint heed_triples_loop (d : heed) (collection_id : N) (rows : list (list N))
    (results : list trip) : tres (list trip) :=
  match rows with
  | [] => Ok results
  | row :: rest =>
      match decode_row row with
      | None => Panic PIndex
      | Some (cid, fid, sid, tid) =>
          if N.eqb collection_id cid then
            match nget (h_i2v d) fid, nget (h_i2v d) sid, nget (h_i2v d) tid with
            | Some a, Some b, Some c =>
                heed_triples_loop d collection_id rest (bs_insert trip_cmp (Trip a b c) results)
            | _, _, _ => Panic PTodo
            end
          else heed_triples_loop d collection_id rest results
      end
  end.

(** heed.rs:167-231 *)
Definition heed_triples (d : heed) (c : str) : tres (list trip) :=
  match sget (h_c2i d) c with
  | Ok (Some collection_id) => heed_triples_loop d collection_id (h_cfst d) []
  | _ => Panic PTodo
  end.

(** heed.rs:268-285, 286-303, 304-321 (three copies of the same code): look a
    value up, or allocate [value_id + 1] and store it in both dictionaries. *)
Definition intern (d : heed) (value_id : N) (v : str) : tres (N * N * heed) :=
  match sget (h_v2i d) v with
  | Ok (Some id) => Ok (id, value_id, d)
  | _ =>
      match u64_add1 value_id with
      | None => Panic POverflow
      | Some value_id' =>
          Ok (value_id', value_id',
              Heed (h_ids d) (h_c2i d) (h_i2c d) (sput (h_v2i d) v value_id')
                (nput (h_i2v d) value_id' v)
                (h_cfst d) (h_cfts d) (h_csft d) (h_cstf d) (h_ctfs d) (h_ctsf d))
      end
  end.

(** heed.rs:339-349 and 430-440: the six row keys of a triple. *)
Definition row_keys (cid fid sid tid : N)
    : option (list N * list N * list N * list N * list N * list N) :=
  let cb := to_be_bytes cid in
  let fb := to_be_bytes fid in
  let sb := to_be_bytes sid in
  let tb := to_be_bytes tid in
  match merge_arrays cb fb sb tb, merge_arrays cb fb tb sb, merge_arrays cb sb fb tb,
        merge_arrays cb sb tb fb, merge_arrays cb tb fb sb, merge_arrays cb tb sb fb with
  | Some k1, Some k2, Some k3, Some k4, Some k5, Some k6 => Some (k1, k2, k3, k4, k5, k6)
  | _, _, _, _, _, _ => None
  end.

(** heed.rs:261-387: the loop over the triples.  [value_id] is the local
    counter, written back to the [ids] table in every iteration (327-337). *)
Fixpoint heed_add_loop (d : heed) (collection_id value_id : N) (ts : list trip) : tres heed :=
  match ts with
  | [] => Ok d
  | t :: rest =>
      match intern d value_id (t0 t) with
      | Panic w => Panic w
      | Err e => Err e
      | Ok (fid, v1, d1) =>
          match intern d1 v1 (t1 t) with
          | Panic w => Panic w
          | Err e => Err e
          | Ok (sid, v2, d2) =>
              match intern d2 v2 (t2 t) with
              | Panic w => Panic w
              | Err e => Err e
              | Ok (tid, v3, d3) =>
                  match row_keys collection_id fid sid tid with
                  | None => Panic PIndex
                  | Some (k1, k2, k3, k4, k5, k6) =>
                      heed_add_loop
                        (Heed (sput (h_ids d3) id_key v3) (h_c2i d3) (h_i2c d3) (h_v2i d3) (h_i2v d3)
                           (rput (h_cfst d3) k1) (rput (h_cfts d3) k2) (rput (h_csft d3) k3)
                           (rput (h_cstf d3) k4) (rput (h_ctfs d3) k5) (rput (h_ctsf d3) k6))
                        collection_id v3 rest
                  end
              end
          end
      end
  end.

(** heed.rs:233-390 *)
Definition heed_add_triples_tx (d : heed) (c : str) (ts : list trip) : tx unit :=
  match sget (h_c2i d) c with
  | Ok (Some collection_id) =>
      match sget (h_ids d) id_key with
      | Ok (Some value_id) =>
          match heed_add_loop d collection_id value_id ts with
          | Ok d' => TCommit (Ok tt) d'
          | Err e => TAbort (Err e)
          | Panic w => TAbort (Panic w)
          end
      | _ => TAbort (Panic PTodo)
      end
  | _ => TAbort (Panic PTodo)
  end.

(** The caller's set is only iterated, so it is returned unchanged. *)
Definition heed_add_triples (commit : bool) (d : heed) (c : str) (ts : list trip)
    : tres unit * heed * list trip :=
  (run_tx commit d (heed_add_triples_tx d c ts), ts).

(** heed.rs:416-478: the loop over the triples to remove. *)
Fixpoint heed_remove_loop (d : heed) (collection_id : N) (ts : list trip) : tres heed :=
  match ts with
  | [] => Ok d
  | t :: rest =>
      match sget (h_v2i d) (t0 t), sget (h_v2i d) (t1 t), sget (h_v2i d) (t2 t) with
      | Ok (Some fid), Ok (Some sid), Ok (Some tid) =>
          match row_keys collection_id fid sid tid with
          | None => Panic PIndex
          | Some (k1, k2, k3, k4, k5, k6) =>
              heed_remove_loop
                (Heed (h_ids d) (h_c2i d) (h_i2c d) (h_v2i d) (h_i2v d)
                   (rdel (h_cfst d) k1) (rdel (h_cfts d) k2) (rdel (h_csft d) k3)
                   (rdel (h_cstf d) k4) (rdel (h_ctfs d) k5) (rdel (h_ctsf d) k6))
                collection_id rest
          end
      | _, _, _ => Panic PTodo
      end
  end.

(** heed.rs:392-484 *)
Definition heed_remove_triples_tx (d : heed) (c : str) (ts : list trip) : tx unit :=
  match sget (h_c2i d) c with
  | Ok (Some collection_id) =>
      match heed_remove_loop d collection_id ts with
      | Ok d' => TCommit (Ok tt) d'
      | Err e => TAbort (Err e)
      | Panic w => TAbort (Panic w)
      end
  | _ => TAbort (Panic PTodo)
  end.

Definition heed_remove_triples (commit : bool) (d : heed) (c : str) (ts : list trip)
    : tres unit * heed * list trip :=
  (run_tx commit d (heed_remove_triples_tx d c ts), ts).

(** heed.rs:486-542: [todo!()] *)
Definition heed_filter (d : heed) (c : str) (p : query) : tres (list trip) := Panic PTodo.

(** heed.rs:53-604 [impl Trips for TripsHeed], for a given commit outcome. *)
Definition heed_impl_c (commit : bool) : trips_impl heed :=
  TripsImpl heed_collections (heed_add_collection commit) (heed_remove_collection commit)
    heed_triples (heed_add_triples commit) (heed_remove_triples commit) heed_filter.

(** The store when every commit succeeds. *)
Definition heed_impl : trips_impl heed := heed_impl_c true.
