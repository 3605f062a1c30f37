(** * The LMDB triple store in a release build: trips/src/heed.rs

    In a release build [value + 1] does not panic at the end of u64: it starts
    at 0 again.  Everything else is as in [M_Heed]. *)
From Coq Require Import List NArith Bool String.
From Verif Require Import M_Base M_Data M_Heed.
Import ListNotations.
Open Scope list_scope.

(** [value + 1] on u64 (heed.rs:94, 277, 295, 313), compiled without overflow checks. *)
Definition u64_wrap1 (n : N) : N := ((n + 1) mod 2 ^ 64)%N.

(** heed.rs:87-105 *)
Definition rel_next_collection_id (d : heed) : tres (N * heed) :=
  match sget (h_ids d) id_key with
  | Ok (Some value) =>
      let next_id := u64_wrap1 value in
      Ok (next_id,
          Heed (sput (h_ids d) id_key next_id) (h_c2i d) (h_i2c d) (h_v2i d) (h_i2v d)
            (h_cfst d) (h_cfts d) (h_csft d) (h_cstf d) (h_ctfs d) (h_ctsf d))
  | Ok None =>
      Ok (0%N,
          Heed (sput (h_ids d) id_key 0%N) (h_c2i d) (h_i2c d) (h_v2i d) (h_i2v d)
            (h_cfst d) (h_cfts d) (h_csft d) (h_cstf d) (h_ctfs d) (h_ctsf d))
  | _ => Panic PTodo
  end.

(** heed.rs:72-128 *)
Definition rel_add_collection_tx (d : heed) (c : str) : tx unit :=
  match sget (h_c2i d) c with
  | Ok (Some _) => TAbort (Ok tt)
  | _ =>
      match rel_next_collection_id d with
      | Ok (id, d1) =>
          TCommit (Ok tt)
            (Heed (h_ids d1) (sput (h_c2i d1) c id) (nput (h_i2c d1) id c) (h_v2i d1) (h_i2v d1)
               (h_cfst d1) (h_cfts d1) (h_csft d1) (h_cstf d1) (h_ctfs d1) (h_ctsf d1))
      | Err e => TAbort (Err e)
      | Panic w => TAbort (Panic w)
      end
  end.

(** heed.rs:268-285, 286-303, 304-321 *)
Definition rel_intern (d : heed) (value_id : N) (v : str) : tres (N * N * heed) :=
  match sget (h_v2i d) v with
  | Ok (Some id) => Ok (id, value_id, d)
  | _ =>
      let value_id' := u64_wrap1 value_id in
      Ok (value_id', value_id',
          Heed (h_ids d) (h_c2i d) (h_i2c d) (sput (h_v2i d) v value_id')
            (nput (h_i2v d) value_id' v)
            (h_cfst d) (h_cfts d) (h_csft d) (h_cstf d) (h_ctfs d) (h_ctsf d))
  end.

(** heed.rs:261-387 *)
Fixpoint rel_add_loop (d : heed) (collection_id value_id : N) (ts : list trip) : tres heed :=
  match ts with
  | [] => Ok d
  | t :: rest =>
      match rel_intern d value_id (t0 t) with
      | Panic w => Panic w
      | Err e => Err e
      | Ok (fid, v1, d1) =>
          match rel_intern d1 v1 (t1 t) with
          | Panic w => Panic w
          | Err e => Err e
          | Ok (sid, v2, d2) =>
              match rel_intern d2 v2 (t2 t) with
              | Panic w => Panic w
              | Err e => Err e
              | Ok (tid, v3, d3) =>
                  match row_keys collection_id fid sid tid with
                  | None => Panic PIndex
                  | Some (k1, k2, k3, k4, k5, k6) =>
                      rel_add_loop
                        (Heed (sput (h_ids d3) id_key v3) (h_c2i d3) (h_i2c d3) (h_v2i d3) (h_i2v d3)
                           (rput (h_cfst d3) k1) (rput (h_cfts d3) k2) (rput (h_csft d3) k3)
                           (rput (h_cstf d3) k4) (rput (h_ctfs d3) k5) (rput (h_ctsf d3) k6))
                        collection_id v3 rest
                  end
              end
          end
      end
  end.

(** heed.rs:233-390 *)
Definition rel_add_triples_tx (d : heed) (c : str) (ts : list trip) : tx unit :=
  match sget (h_c2i d) c with
  | Ok (Some collection_id) =>
      match sget (h_ids d) id_key with
      | Ok (Some value_id) =>
          match rel_add_loop d collection_id value_id ts with
          | Ok d' => TCommit (Ok tt) d'
          | Err e => TAbort (Err e)
          | Panic w => TAbort (Panic w)
          end
      | _ => TAbort (Panic PTodo)
      end
  | _ => TAbort (Panic PTodo)
  end.

(** heed.rs:53-604 [impl Trips for TripsHeed]; removing and reading do not count. *)
Definition release_impl_c (commit : bool) : trips_impl heed :=
  TripsImpl heed_collections
    (fun d c => run_tx commit d (rel_add_collection_tx d c)) (heed_remove_collection commit)
    heed_triples (fun d c ts => (run_tx commit d (rel_add_triples_tx d c ts), ts)) (heed_remove_triples commit) heed_filter.
Definition release_impl : trips_impl heed := release_impl_c true.
