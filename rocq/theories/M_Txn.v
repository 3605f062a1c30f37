(** * LMDB write transactions, step by step: trips/src/heed.rs

    [M_Heed] treats a call as one transaction whose writes all succeed.  Here the
    same functions are written as the sequences of LMDB operations they are, so
    that a write in the middle can fail (map full, no memory, I/O error). *)
From Coq Require Import List NArith Bool String.
From Verif Require Import M_Base M_Data M_Heed.
Import ListNotations.
Open Scope list_scope.

(** External (lmdb 0.9): a transaction in progress.  [x_left] is the number of
    writes that will still succeed ([None]: all).  A write that fails sets
    MDB_TXN_ERROR ([x_bad]); from then on every [get], [put], [delete] and
    [open_database] of the transaction answers MDB_BAD_TXN, and [commit] aborts. *)
Record txn := Txn { x_db : heed; x_left : option nat; x_bad : bool }.

(** A piece of Rust code working on the transaction. *)
Definition act (A : Type) := txn -> tres A * txn.

Definition ret {A : Type} (a : A) : act A := fun x => (Ok a, x).
Definition fail {A : Type} (w : why) : act A := fun x => (Panic w, x).
Definition bind {A B : Type} (m : act A) (k : A -> act B) : act B :=
  fun x => match m x with
           | (Ok a, x') => k a x'
           | (Err e, x') => (Err e, x')
           | (Panic w, x') => (Panic w, x')
           end.
Notation "x <- m ; k" := (bind m (fun x => k)) (at level 61, m at next level, right associativity).
Notation "m ;; k" := (bind m (fun _ => k)) (at level 61, right associativity).

(** [self.env.open_database(&tx, name).unwrap()]: the eleven tables exist. *)
Definition open_db : act unit := fun x => if x_bad x then (Panic PUnwrap, x) else (Ok tt, x).

(** [db.get(&tx, key)] *)
Definition get_db {V : Type} (f : heed -> res unit (option V)) : act (res unit (option V)) :=
  fun x => if x_bad x then (Ok (Err tt), x) else (Ok (f (x_db x)), x).

(** [db.put(&mut tx, ..)], [db.delete(&mut tx, ..)], result ignored.  [touches]
    says whether LMDB gets as far as changing a page (it does not for a key it
    refuses, or when there is nothing to delete). *)
Definition write_db (touches : heed -> bool) (f : heed -> heed) : act unit :=
  fun x =>
    if x_bad x then (Ok tt, x)
    else if touches (x_db x) then
      match x_left x with
      | None => (Ok tt, Txn (f (x_db x)) None false)
      | Some O => (Ok tt, Txn (x_db x) (Some O) true)
      | Some (S k) => (Ok tt, Txn (f (x_db x)) (Some k) false)
      end
    else (Ok tt, x).

(** The function ended: [true], it called [tx.commit();] and answered [Ok(())];
    [false], it answered [Ok(())] without.  The result of commit is ignored. *)
Definition run_act (m : act bool) (left : option nat) (d : heed) : tres unit * heed :=
  match m (Txn d left false) with
  | (Ok true, x) => (Ok tt, if x_bad x then d else x_db x)
  | (Ok false, _) => (Ok tt, d)
  | (Err e, _) => (Err e, d)
  | (Panic w, _) => (Panic w, d)
  end.

(** ** The writes *)

Definition set_ids (d : heed) (t : list (str * N)) : heed :=
  Heed t (h_c2i d) (h_i2c d) (h_v2i d) (h_i2v d) (h_cfst d) (h_cfts d) (h_csft d) (h_cstf d) (h_ctfs d) (h_ctsf d).
Definition set_c2i (d : heed) (t : list (str * N)) : heed :=
  Heed (h_ids d) t (h_i2c d) (h_v2i d) (h_i2v d) (h_cfst d) (h_cfts d) (h_csft d) (h_cstf d) (h_ctfs d) (h_ctsf d).
Definition set_i2c (d : heed) (t : list (N * str)) : heed :=
  Heed (h_ids d) (h_c2i d) t (h_v2i d) (h_i2v d) (h_cfst d) (h_cfts d) (h_csft d) (h_cstf d) (h_ctfs d) (h_ctsf d).
Definition set_v2i (d : heed) (t : list (str * N)) : heed :=
  Heed (h_ids d) (h_c2i d) (h_i2c d) t (h_i2v d) (h_cfst d) (h_cfts d) (h_csft d) (h_cstf d) (h_ctfs d) (h_ctsf d).
Definition set_i2v (d : heed) (t : list (N * str)) : heed :=
  Heed (h_ids d) (h_c2i d) (h_i2c d) (h_v2i d) t (h_cfst d) (h_cfts d) (h_csft d) (h_cstf d) (h_ctfs d) (h_ctsf d).
Definition set_cfst (d : heed) (t : list (list N)) : heed :=
  Heed (h_ids d) (h_c2i d) (h_i2c d) (h_v2i d) (h_i2v d) t (h_cfts d) (h_csft d) (h_cstf d) (h_ctfs d) (h_ctsf d).
Definition set_cfts (d : heed) (t : list (list N)) : heed :=
  Heed (h_ids d) (h_c2i d) (h_i2c d) (h_v2i d) (h_i2v d) (h_cfst d) t (h_csft d) (h_cstf d) (h_ctfs d) (h_ctsf d).
Definition set_csft (d : heed) (t : list (list N)) : heed :=
  Heed (h_ids d) (h_c2i d) (h_i2c d) (h_v2i d) (h_i2v d) (h_cfst d) (h_cfts d) t (h_cstf d) (h_ctfs d) (h_ctsf d).
Definition set_cstf (d : heed) (t : list (list N)) : heed :=
  Heed (h_ids d) (h_c2i d) (h_i2c d) (h_v2i d) (h_i2v d) (h_cfst d) (h_cfts d) (h_csft d) t (h_ctfs d) (h_ctsf d).
Definition set_ctfs (d : heed) (t : list (list N)) : heed :=
  Heed (h_ids d) (h_c2i d) (h_i2c d) (h_v2i d) (h_i2v d) (h_cfst d) (h_cfts d) (h_csft d) (h_cstf d) t (h_ctsf d).
Definition set_ctsf (d : heed) (t : list (list N)) : heed :=
  Heed (h_ids d) (h_c2i d) (h_i2c d) (h_v2i d) (h_i2v d) (h_cfst d) (h_cfts d) (h_csft d) (h_cstf d) (h_ctfs d) t.

(** [db.put(&mut tx, key, value)] on the tables with string keys: a refused key
    changes no page. *)
Definition put_ids (v : N) : act unit :=
  write_db (fun _ => key_storable id_key) (fun d => set_ids d (sput (h_ids d) id_key v)).
Definition put_c2i (c : str) (v : N) : act unit :=
  write_db (fun _ => key_storable c) (fun d => set_c2i d (sput (h_c2i d) c v)).
Definition put_v2i (s : str) (v : N) : act unit :=
  write_db (fun _ => key_storable s) (fun d => set_v2i d (sput (h_v2i d) s v)).
(** On the tables with number and row keys. *)
Definition put_i2c (v : N) (c : str) : act unit :=
  write_db (fun _ => true) (fun d => set_i2c d (nput (h_i2c d) v c)).
Definition put_i2v (v : N) (s : str) : act unit :=
  write_db (fun _ => true) (fun d => set_i2v d (nput (h_i2v d) v s)).
Definition put_row (get : heed -> list (list N)) (set : heed -> list (list N) -> heed) (k : list N) : act unit :=
  write_db (fun _ => true) (fun d => set d (rput (get d) k)).
(** [db.delete(&mut tx, key)]: nothing is touched when the key is absent. *)
Definition del_c2i (c : str) : act unit :=
  write_db (fun d => match sget (h_c2i d) c with Ok (Some _) => true | _ => false end)
           (fun d => set_c2i d (sdel (h_c2i d) c)).
Definition del_i2c (v : N) : act unit :=
  write_db (fun d => match nget (h_i2c d) v with Some _ => true | None => false end)
           (fun d => set_i2c d (ndel (h_i2c d) v)).
Definition del_row (get : heed -> list (list N)) (set : heed -> list (list N) -> heed) (k : list N) : act unit :=
  write_db (fun d => existsb (fun r => match bytes_cmp k r with Eq => true | _ => false end) (get d))
           (fun d => set d (rdel (get d) k)).

(** ** The four writing calls *)

(** heed.rs:87-105 *)
Definition fine_next_id : act N :=
  open_db ;;
  r <- get_db (fun d => sget (h_ids d) id_key) ;
  match r with
  | Ok (Some value) =>
      match u64_add1 value with
      | Some next_id => put_ids next_id ;; ret next_id
      | None => fail POverflow
      end
  | Ok None => put_ids 0%N ;; ret 0%N
  | _ => fail PTodo
  end.

(** heed.rs:72-128 *)
Definition fine_add_collection (c : str) : act bool :=
  open_db ;;
  r <- get_db (fun d => sget (h_c2i d) c) ;
  match r with
  | Ok (Some _) => ret false
  | _ =>
      id <- fine_next_id ;
      open_db ;; put_c2i c id ;;
      open_db ;; put_i2c id c ;;
      ret true
  end.

(** heed.rs:130-165 *)
Definition fine_remove_collection (c : str) : act bool :=
  open_db ;;
  r <- get_db (fun d => sget (h_c2i d) c) ;
  match r with
  | Ok (Some id) => open_db ;; del_c2i c ;; open_db ;; del_i2c id ;; ret true
  | _ => fail PTodo
  end.

(** heed.rs:268-285, 286-303, 304-321; the pair is the id and the counter. *)
Definition fine_intern (value_id : N) (v : str) : act (N * N) :=
  r <- get_db (fun d => sget (h_v2i d) v) ;
  match r with
  | Ok (Some id) => ret (id, value_id)
  | _ =>
      open_db ;;
      match u64_add1 value_id with
      | None => fail POverflow
      | Some value_id' => put_v2i v value_id' ;; put_i2v value_id' v ;; ret (value_id', value_id')
      end
  end.

(** heed.rs:351-386 *)
Definition fine_put_rows (k1 k2 k3 k4 k5 k6 : list N) : act unit :=
  open_db ;; put_row h_cfst set_cfst k1 ;;
  open_db ;; put_row h_cfts set_cfts k2 ;;
  open_db ;; put_row h_csft set_csft k3 ;;
  open_db ;; put_row h_cstf set_cstf k4 ;;
  open_db ;; put_row h_ctfs set_ctfs k5 ;;
  open_db ;; put_row h_ctsf set_ctsf k6.

(** heed.rs:262-386: one turn of the loop; the new counter. *)
Definition fine_add_one (collection_id value_id : N) (t : trip) : act N :=
  open_db ;;
  f <- fine_intern value_id (t0 t) ;
  s <- fine_intern (snd f) (t1 t) ;
  o <- fine_intern (snd s) (t2 t) ;
  open_db ;; put_ids (snd o) ;;
  match row_keys collection_id (fst f) (fst s) (fst o) with
  | None => fail PIndex
  | Some (k1, k2, k3, k4, k5, k6) => fine_put_rows k1 k2 k3 k4 k5 k6 ;; ret (snd o)
  end.

(** heed.rs:261-387 *)
Fixpoint fine_add_loop (collection_id value_id : N) (ts : list trip) : act unit :=
  match ts with
  | [] => ret tt
  | t :: rest => v <- fine_add_one collection_id value_id t ; fine_add_loop collection_id v rest
  end.

(** heed.rs:233-390 *)
Definition fine_add_triples (c : str) (ts : list trip) : act bool :=
  open_db ;;
  r <- get_db (fun d => sget (h_c2i d) c) ;
  match r with
  | Ok (Some collection_id) =>
      open_db ;;
      q <- get_db (fun d => sget (h_ids d) id_key) ;
      match q with
      | Ok (Some value_id) => fine_add_loop collection_id value_id ts ;; ret true
      | _ => fail PTodo
      end
  | _ => fail PTodo
  end.

(** heed.rs:442-477 *)
Definition fine_del_rows (k1 k2 k3 k4 k5 k6 : list N) : act unit :=
  open_db ;; del_row h_cfst set_cfst k1 ;;
  open_db ;; del_row h_cfts set_cfts k2 ;;
  open_db ;; del_row h_csft set_csft k3 ;;
  open_db ;; del_row h_cstf set_cstf k4 ;;
  open_db ;; del_row h_ctfs set_ctfs k5 ;;
  open_db ;; del_row h_ctsf set_ctsf k6.

(** heed.rs:417-428: a value that must be known. *)
Definition fine_known (v : str) : act N :=
  r <- get_db (fun d => sget (h_v2i d) v) ;
  match r with Ok (Some id) => ret id | _ => fail PTodo end.

(** heed.rs:416-478 *)
Fixpoint fine_remove_loop (collection_id : N) (ts : list trip) : act unit :=
  match ts with
  | [] => ret tt
  | t :: rest =>
      f <- fine_known (t0 t) ;
      s <- fine_known (t1 t) ;
      o <- fine_known (t2 t) ;
      match row_keys collection_id f s o with
      | None => fail PIndex
      | Some (k1, k2, k3, k4, k5, k6) =>
          fine_del_rows k1 k2 k3 k4 k5 k6 ;; fine_remove_loop collection_id rest
      end
  end.

(** heed.rs:392-484 *)
Definition fine_remove_triples (c : str) (ts : list trip) : act bool :=
  open_db ;;
  r <- get_db (fun d => sget (h_c2i d) c) ;
  match r with
  | Ok (Some collection_id) => open_db ;; fine_remove_loop collection_id ts ;; ret true
  | _ => fail PTodo
  end.

(** heed.rs:53-604 again, for a given number of writes that succeed in each
    call. *)
Definition heed_impl_w (left : option nat) : trips_impl heed :=
  TripsImpl heed_collections
    (fun d c => run_act (fine_add_collection c) left d)
    (fun d c => run_act (fine_remove_collection c) left d)
    heed_triples
    (fun d c ts => (run_act (fine_add_triples c ts) left d, ts))
    (fun d c ts => (run_act (fine_remove_triples c ts) left d, ts))
    heed_filter.
