(** * The LMDB triple store once more, on bytes: trips/src/heed.rs

    [M_Heed] keys its tables by names and numbers.  LMDB knows neither: it maps
    byte strings to byte strings, and heed encodes every key and value before a
    call and decodes what it finds.  This file models the same Rust functions
    over such tables, with every encoding and decoding in its place. *)
From Coq Require Import List Arith NArith Bool String.
From Verif Require Import M_Base M_Data M_Heed S_Str M_Bytes.
Import ListNotations.
Open Scope list_scope.

Definition bytes := list N.

(** ** LMDB (external): a table is a map from byte strings to byte strings,
    ordered by [memcmp], shorter keys first among equals ([bytes_cmp]). *)
Definition btable := list (bytes * bytes).

(** [mdb_get]: an empty key is an error (MDB_BAD_VALSIZE). *)
Definition lm_get (t : btable) (k : bytes) : res unit (option bytes) :=
  if Nat.eqb (List.length k) 0 then Err tt else Ok (bm_get bytes_cmp k t).

(** [mdb_put]: an empty key, or one over 511 bytes, is an error; every call site
    of heed.rs ignores it. *)
Definition lm_put (t : btable) (k v : bytes) : btable :=
  if Nat.eqb (List.length k) 0 then t
  else if Nat.leb (List.length k) 511 then bm_insert bytes_cmp k v t else t.

(** [mdb_del]: an empty key is an error; ignored at every call site. *)
Definition lm_del (t : btable) (k : bytes) : btable :=
  if Nat.eqb (List.length k) 0 then t else bm_remove bytes_cmp k t.

(** ** The codecs of heed_types 0.20 named in heed.rs:12

    [Str] is UTF-8 ([std::str::from_utf8] on the way back), [U64<BigEndian>] is
    8 bytes (on the way back [read_u64] takes the first 8 and fails if there are
    fewer), [Bytes] is the bytes themselves, [Unit] is no byte.  [None] is a
    decoding error. *)
Definition str_decode (b : bytes) : option str := from_utf8 b.
Definition u64_decode (b : bytes) : option N :=
  if Nat.leb 8 (List.length b) then Some (from_be_bytes (firstn 8 b)) else None.
Definition unit_decode (b : bytes) : option unit :=
  match b with [] => Some tt | _ :: _ => None end.

(** [db.get]: encode the key, look it up, decode the data. *)
Definition db_get {V : Type} (decode : bytes -> option V) (t : btable) (k : bytes)
    : res unit (option V) :=
  match lm_get t k with
  | Ok None => Ok None
  | Ok (Some data) => match decode data with Some v => Ok (Some v) | None => Err tt end
  | Err e => Err e
  | Panic w => Panic w
  end.

(** heed.rs:21-31: the eleven tables of the environment. *)
Record heedb := HeedB {
  b_ids : btable; b_c2i : btable; b_i2c : btable; b_v2i : btable; b_i2v : btable;
  b_cfst : btable; b_cfts : btable; b_csft : btable; b_cstf : btable; b_ctfs : btable; b_ctsf : btable
}.

(** heed.rs:35-50 on a fresh environment. *)
Definition heedb_new : heedb := HeedB [] [] [] [] [] [] [] [] [] [] [].

(** A write transaction, as in [M_Heed]. *)
Inductive btx (A : Type) :=
| BCommit (r : tres A) (b : heedb)
| BAbort (r : tres A).
Arguments BCommit {A} r b.
Arguments BAbort {A} r.

Definition run_btx {A : Type} (commit : bool) (b : heedb) (t : btx A) : tres A * heedb :=
  match t with
  | BCommit r b' => (r, if commit then b' else b)
  | BAbort r => (r, b)
  end.

(** heed.rs:61-65: [for entry in db.iter(&tx).unwrap()], [entry.unwrap().0]; a
    key or data that does not decode makes [unwrap] panic. *)
Fixpoint names_loop (t : btable) (results : list str) : tres (list str) :=
  match t with
  | [] => Ok results
  | (k, v) :: rest =>
      match str_decode k, u64_decode v with
      | Some name, Some _ => names_loop rest (results ++ [name])
      | _, _ => Panic PUnwrap
      end
  end.

(** heed.rs:54-70 *)
Definition heedb_collections (b : heedb) : tres (list str) := names_loop (b_c2i b) [].

(** heed.rs:72-128 *)
Definition heedb_add_collection_tx (b : heedb) (c : str) : btx unit :=
  match db_get u64_decode (b_c2i b) (utf8 c) with
  | Ok (Some _) => BAbort (Ok tt)
  | _ =>
      let finish (id : N) (ids' : btable) : btx unit :=
        BCommit (Ok tt)
          (HeedB ids' (lm_put (b_c2i b) (utf8 c) (to_be_bytes id)) (lm_put (b_i2c b) (to_be_bytes id) (utf8 c))
             (b_v2i b) (b_i2v b) (b_cfst b) (b_cfts b) (b_csft b) (b_cstf b) (b_ctfs b) (b_ctsf b)) in
      match db_get u64_decode (b_ids b) (utf8 (lit "id")) with
      | Ok (Some value) =>
          match u64_add1 value with
          | Some next_id => finish next_id (lm_put (b_ids b) (utf8 (lit "id")) (to_be_bytes next_id))
          | None => BAbort (Panic POverflow)
          end
      | Ok None => finish 0%N (lm_put (b_ids b) (utf8 (lit "id")) (to_be_bytes 0))
      | _ => BAbort (Panic PTodo)
      end
  end.

Definition heedb_add_collection (commit : bool) (b : heedb) (c : str) : tres unit * heedb :=
  run_btx commit b (heedb_add_collection_tx b c).

(** heed.rs:130-165 *)
Definition heedb_remove_collection_tx (b : heedb) (c : str) : btx unit :=
  match db_get u64_decode (b_c2i b) (utf8 c) with
  | Ok (Some id) =>
      BCommit (Ok tt)
        (HeedB (b_ids b) (lm_del (b_c2i b) (utf8 c)) (lm_del (b_i2c b) (to_be_bytes id))
           (b_v2i b) (b_i2v b) (b_cfst b) (b_cfts b) (b_csft b) (b_cstf b) (b_ctfs b) (b_ctsf b))
  | _ => BAbort (Panic PTodo)
  end.

Definition heedb_remove_collection (commit : bool) (b : heedb) (c : str) : tres unit * heedb :=
  run_btx commit b (heedb_remove_collection_tx b c).

(** heed.rs:184-226.  [entry.unwrap()] decodes the data as [Unit], too. *)
Fixpoint heedb_triples_loop (b : heedb) (collection_id : N) (rows : btable) (results : list trip)
    : tres (list trip) :=
  match rows with
  | [] => Ok results
  | (key, data) :: rest =>
      match unit_decode data with
      | None => Panic PUnwrap
      | Some _ =>
          match decode_row key with
          | None => Panic PIndex
          | Some (cid, fid, sid, tid) =>
              if N.eqb collection_id cid then
                match db_get str_decode (b_i2v b) (to_be_bytes fid) with
                | Ok (Some first) =>
                    match db_get str_decode (b_i2v b) (to_be_bytes sid) with
                    | Ok (Some second) =>
                        match db_get str_decode (b_i2v b) (to_be_bytes tid) with
                        | Ok (Some third) =>
                            heedb_triples_loop b collection_id rest
                              (bs_insert trip_cmp (Trip first second third) results)
                        | _ => Panic PTodo
                        end
                    | _ => Panic PTodo
                    end
                | _ => Panic PTodo
                end
              else heedb_triples_loop b collection_id rest results
          end
      end
  end.

(** heed.rs:167-231 *)
Definition heedb_triples (b : heedb) (c : str) : tres (list trip) :=
  match db_get u64_decode (b_c2i b) (utf8 c) with
  | Ok (Some collection_id) => heedb_triples_loop b collection_id (b_cfst b) []
  | _ => Panic PTodo
  end.

(** heed.rs:268-285, 286-303, 304-321 *)
Definition internb (b : heedb) (value_id : N) (v : str) : tres (N * N * heedb) :=
  match db_get u64_decode (b_v2i b) (utf8 v) with
  | Ok (Some id) => Ok (id, value_id, b)
  | _ =>
      match u64_add1 value_id with
      | None => Panic POverflow
      | Some value_id' =>
          Ok (value_id', value_id',
              HeedB (b_ids b) (b_c2i b) (b_i2c b)
                (lm_put (b_v2i b) (utf8 v) (to_be_bytes value_id'))
                (lm_put (b_i2v b) (to_be_bytes value_id') (utf8 v))
                (b_cfst b) (b_cfts b) (b_csft b) (b_cstf b) (b_ctfs b) (b_ctsf b))
      end
  end.

(** heed.rs:261-387 *)
Fixpoint heedb_add_loop (b : heedb) (collection_id value_id : N) (ts : list trip) : tres heedb :=
  match ts with
  | [] => Ok b
  | t :: rest =>
      match internb b value_id (t0 t) with
      | Panic w => Panic w
      | Err e => Err e
      | Ok (fid, v1, b1) =>
          match internb b1 v1 (t1 t) with
          | Panic w => Panic w
          | Err e => Err e
          | Ok (sid, v2, b2) =>
              match internb b2 v2 (t2 t) with
              | Panic w => Panic w
              | Err e => Err e
              | Ok (tid, v3, b3) =>
                  match row_keys collection_id fid sid tid with
                  | None => Panic PIndex
                  | Some (k1, k2, k3, k4, k5, k6) =>
                      heedb_add_loop
                        (HeedB (lm_put (b_ids b3) (utf8 (lit "id")) (to_be_bytes v3))
                           (b_c2i b3) (b_i2c b3) (b_v2i b3) (b_i2v b3)
                           (lm_put (b_cfst b3) k1 []) (lm_put (b_cfts b3) k2 []) (lm_put (b_csft b3) k3 [])
                           (lm_put (b_cstf b3) k4 []) (lm_put (b_ctfs b3) k5 []) (lm_put (b_ctsf b3) k6 []))
                        collection_id v3 rest
                  end
              end
          end
      end
  end.

(** heed.rs:233-390 *)
Definition heedb_add_triples_tx (b : heedb) (c : str) (ts : list trip) : btx unit :=
  match db_get u64_decode (b_c2i b) (utf8 c) with
  | Ok (Some collection_id) =>
      match db_get u64_decode (b_ids b) (utf8 (lit "id")) with
      | Ok (Some value_id) =>
          match heedb_add_loop b collection_id value_id ts with
          | Ok b' => BCommit (Ok tt) b'
          | Err e => BAbort (Err e)
          | Panic w => BAbort (Panic w)
          end
      | _ => BAbort (Panic PTodo)
      end
  | _ => BAbort (Panic PTodo)
  end.

Definition heedb_add_triples (commit : bool) (b : heedb) (c : str) (ts : list trip)
    : tres unit * heedb * list trip :=
  (run_btx commit b (heedb_add_triples_tx b c ts), ts).

(** heed.rs:416-478 *)
Fixpoint heedb_remove_loop (b : heedb) (collection_id : N) (ts : list trip) : tres heedb :=
  match ts with
  | [] => Ok b
  | t :: rest =>
      match db_get u64_decode (b_v2i b) (utf8 (t0 t)) with
      | Ok (Some fid) =>
          match db_get u64_decode (b_v2i b) (utf8 (t1 t)) with
          | Ok (Some sid) =>
              match db_get u64_decode (b_v2i b) (utf8 (t2 t)) with
              | Ok (Some tid) =>
                  match row_keys collection_id fid sid tid with
                  | None => Panic PIndex
                  | Some (k1, k2, k3, k4, k5, k6) =>
                      heedb_remove_loop
                        (HeedB (b_ids b) (b_c2i b) (b_i2c b) (b_v2i b) (b_i2v b)
                           (lm_del (b_cfst b) k1) (lm_del (b_cfts b) k2) (lm_del (b_csft b) k3)
                           (lm_del (b_cstf b) k4) (lm_del (b_ctfs b) k5) (lm_del (b_ctsf b) k6))
                        collection_id rest
                  end
              | _ => Panic PTodo
              end
          | _ => Panic PTodo
          end
      | _ => Panic PTodo
      end
  end.

(** heed.rs:392-484 *)
Definition heedb_remove_triples_tx (b : heedb) (c : str) (ts : list trip) : btx unit :=
  match db_get u64_decode (b_c2i b) (utf8 c) with
  | Ok (Some collection_id) =>
      match heedb_remove_loop b collection_id ts with
      | Ok b' => BCommit (Ok tt) b'
      | Err e => BAbort (Err e)
      | Panic w => BAbort (Panic w)
      end
  | _ => BAbort (Panic PTodo)
  end.

Definition heedb_remove_triples (commit : bool) (b : heedb) (c : str) (ts : list trip)
    : tres unit * heedb * list trip :=
  (run_btx commit b (heedb_remove_triples_tx b c ts), ts).

(** heed.rs:486-542: [todo!()] *)
Definition heedb_filter (b : heedb) (c : str) (p : query) : tres (list trip) := Panic PTodo.

(** heed.rs:53-604 [impl Trips for TripsHeed], for a given commit outcome. *)
Definition heedb_impl_c (commit : bool) : trips_impl heedb :=
  TripsImpl heedb_collections (heedb_add_collection commit) (heedb_remove_collection commit)
    heedb_triples (heedb_add_triples commit) (heedb_remove_triples commit) heedb_filter.

Definition heedb_impl : trips_impl heedb := heedb_impl_c true.
