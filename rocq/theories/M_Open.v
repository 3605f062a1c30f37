(** * Opening the LMDB environment: trips/src/heed.rs:21-50

    [TripsHeed::new] creates the eleven tables and ignores every result, the
    commit's too.  An LMDB environment has room for [max_dbs] named tables (set by
    the caller of [new], e.g. trips/tests/tests.rs), so tables can be missing when
    a later call opens them.  Here each [open_database] is checked; [M_Txn] and
    [M_Heed] are the same functions when all eleven can be opened. *)
From Coq Require Import List NArith Bool String.
From Verif Require Import M_Base M_Data M_Heed M_Txn.
Import ListNotations.
Open Scope list_scope.

(** heed.rs:21-31: the table names. *)
Inductive tab :=
| Tids | Tc2i | Ti2c | Tv2i | Ti2v | Tcfst | Tcfts | Tcsft | Tcstf | Tctfs | Tctsf.

Definition tab_eq_dec (a b : tab) : {a = b} + {a <> b}.
Proof. decide equality. Defined.

(** heed.rs:37-47: the order in which [new] creates them. *)
Definition creation_order : list tab :=
  [Tids; Tc2i; Ti2c; Tv2i; Ti2v; Tcfst; Tcfts; Tcsft; Tcstf; Tctfs; Tctsf].

(** An LMDB file: the tables' contents, and which of them exist. *)
Record file := File { f_db : heed; f_made : list tab }.
Definition fresh : file := File heed_new [].

Definition mem_tab (t : tab) (l : list tab) : bool := if in_dec tab_eq_dec t l then true else false.

(** External (lmdb 0.9, heed 0.20): [create_database] inside the transaction of
    [new], with [slots] tables allowed.  The pair is the handles opened so far and
    the tables existing so far.  A full environment answers MDB_DBS_FULL, which
    [new] ignores; the transaction goes on. *)
Definition create_database (slots : nat) (st : list tab * list tab) (t : tab) : list tab * list tab :=
  let '(handles, made) := st in
  if mem_tab t handles then (handles, made)
  else if Nat.ltb (List.length handles) slots
  then (t :: handles, if mem_tab t made then made else t :: made)
  else (handles, made).

(** heed.rs:35-50 [TripsHeed::new] on [f].  [ok]: the commit succeeded (a failed
    table creation makes it fail).  What comes back: the file, and what
    [open_database] of a table meets in the calls that follow: [None], the table;
    [Some PUnwrap], an error (no room for another table), so [.unwrap()] panics;
    [Some PTodo], [Ok(None)] (no such table), so [todo!()] panics.
    Simplification: after a failed commit the handles are closed again and each
    call opens the tables that exist anew; the limit then is not counted within
    the call, so for [ok = false] the model is exact when no table existed before
    or [slots] is at least 11. *)
Definition trips_heed_new (slots : nat) (ok : bool) (f : file) : file * (tab -> option why) :=
  let '(handles, made) := fold_left (create_database slots) creation_order ([], f_made f) in
  if ok
  then (File (f_db f) made, fun t => if mem_tab t handles then None else Some PUnwrap)
  else (f, fun t => if mem_tab t (f_made f) then None
                    else match slots with O => Some PUnwrap | _ => Some PTodo end).

Section Opens.
  Variable opens : tab -> option why.

  (** [match self.env.open_database(&tx, name).unwrap() { Some(db) => .., None => todo!() }] *)
  Definition gopen (t : tab) : act unit :=
    match opens t with
    | Some w => fail w
    | None => open_db
    end.

  (** heed.rs:87-105 *)
  Definition g_next_id : act N :=
    gopen Tids ;;
    r <- get_db (fun d => sget (h_ids d) id_key) ;
    match r with
    | Ok (Some value) =>
        match u64_add1 value with
        | Some next_id => put_ids next_id ;; ret next_id
        | None => fail POverflow
        end
    | Ok None => put_ids 0%N ;; ret 0%N
    | _ => fail PTodo
    end.

  (** heed.rs:72-128 *)
  Definition g_add_collection (c : str) : act bool :=
    gopen Tc2i ;;
    r <- get_db (fun d => sget (h_c2i d) c) ;
    match r with
    | Ok (Some _) => ret false
    | _ =>
        id <- g_next_id ;
        gopen Tc2i ;; put_c2i c id ;;
        gopen Ti2c ;; put_i2c id c ;;
        ret true
    end.

  (** heed.rs:130-165 *)
  Definition g_remove_collection (c : str) : act bool :=
    gopen Tc2i ;;
    r <- get_db (fun d => sget (h_c2i d) c) ;
    match r with
    | Ok (Some id) => gopen Tc2i ;; del_c2i c ;; gopen Ti2c ;; del_i2c id ;; ret true
    | _ => fail PTodo
    end.

  (** heed.rs:268-321 *)
  Definition g_intern (value_id : N) (v : str) : act (N * N) :=
    r <- get_db (fun d => sget (h_v2i d) v) ;
    match r with
    | Ok (Some id) => ret (id, value_id)
    | _ =>
        gopen Ti2v ;;
        match u64_add1 value_id with
        | None => fail POverflow
        | Some value_id' => put_v2i v value_id' ;; put_i2v value_id' v ;; ret (value_id', value_id')
        end
    end.

  (** heed.rs:351-386 *)
  Definition g_put_rows (k1 k2 k3 k4 k5 k6 : list N) : act unit :=
    gopen Tcfst ;; put_row h_cfst set_cfst k1 ;;
    gopen Tcfts ;; put_row h_cfts set_cfts k2 ;;
    gopen Tcsft ;; put_row h_csft set_csft k3 ;;
    gopen Tcstf ;; put_row h_cstf set_cstf k4 ;;
    gopen Tctfs ;; put_row h_ctfs set_ctfs k5 ;;
    gopen Tctsf ;; put_row h_ctsf set_ctsf k6.

  (** heed.rs:262-386 *)
  Definition g_add_one (collection_id value_id : N) (t : trip) : act N :=
    gopen Tv2i ;;
    f <- g_intern value_id (t0 t) ;
    s <- g_intern (snd f) (t1 t) ;
    o <- g_intern (snd s) (t2 t) ;
    gopen Tids ;; put_ids (snd o) ;;
    match row_keys collection_id (fst f) (fst s) (fst o) with
    | None => fail PIndex
    | Some (k1, k2, k3, k4, k5, k6) => g_put_rows k1 k2 k3 k4 k5 k6 ;; ret (snd o)
    end.

  (** heed.rs:261-387 *)
  Fixpoint g_add_loop (collection_id value_id : N) (ts : list trip) : act unit :=
    match ts with
    | [] => ret tt
    | t :: rest => v <- g_add_one collection_id value_id t ; g_add_loop collection_id v rest
    end.

  (** heed.rs:233-390 *)
  Definition g_add_triples (c : str) (ts : list trip) : act bool :=
    gopen Tc2i ;;
    r <- get_db (fun d => sget (h_c2i d) c) ;
    match r with
    | Ok (Some collection_id) =>
        gopen Tids ;;
        q <- get_db (fun d => sget (h_ids d) id_key) ;
        match q with
        | Ok (Some value_id) => g_add_loop collection_id value_id ts ;; ret true
        | _ => fail PTodo
        end
    | _ => fail PTodo
    end.

  (** heed.rs:442-477 *)
  Definition g_del_rows (k1 k2 k3 k4 k5 k6 : list N) : act unit :=
    gopen Tcfst ;; del_row h_cfst set_cfst k1 ;;
    gopen Tcfts ;; del_row h_cfts set_cfts k2 ;;
    gopen Tcsft ;; del_row h_csft set_csft k3 ;;
    gopen Tcstf ;; del_row h_cstf set_cstf k4 ;;
    gopen Tctfs ;; del_row h_ctfs set_ctfs k5 ;;
    gopen Tctsf ;; del_row h_ctsf set_ctsf k6.

  (** heed.rs:416-478 *)
  Fixpoint g_remove_loop (collection_id : N) (ts : list trip) : act unit :=
    match ts with
    | [] => ret tt
    | t :: rest =>
        f <- fine_known (t0 t) ;
        s <- fine_known (t1 t) ;
        o <- fine_known (t2 t) ;
        match row_keys collection_id f s o with
        | None => fail PIndex
        | Some (k1, k2, k3, k4, k5, k6) =>
            g_del_rows k1 k2 k3 k4 k5 k6 ;; g_remove_loop collection_id rest
        end
    end.

  (** heed.rs:392-484 *)
  Definition g_remove_triples (c : str) (ts : list trip) : act bool :=
    gopen Tc2i ;;
    r <- get_db (fun d => sget (h_c2i d) c) ;
    match r with
    | Ok (Some collection_id) => gopen Tv2i ;; g_remove_loop collection_id ts ;; ret true
    | _ => fail PTodo
    end.

  (** heed.rs:54-70 *)
  Definition g_collections (d : heed) : tres (list str) :=
    match opens Tc2i with
    | Some w => Panic w
    | None => heed_collections d
    end.

  (** heed.rs:184-226: here the inner [open_database] is matched without
      [unwrap], so either failure is [todo!()]. *)
  Fixpoint g_triples_loop (d : heed) (collection_id : N) (rows : list (list N))
      (results : list trip) : tres (list trip) :=
    match rows with
    | [] => Ok results
    | row :: rest =>
        match decode_row row with
        | None => Panic PIndex
        | Some (cid, fid, sid, tid) =>
            if N.eqb collection_id cid then
              match opens Ti2v with
              | Some _ => Panic PTodo
              | None =>
                  match nget (h_i2v d) fid, nget (h_i2v d) sid, nget (h_i2v d) tid with
                  | Some a, Some b, Some c =>
                      g_triples_loop d collection_id rest (bs_insert trip_cmp (Trip a b c) results)
                  | _, _, _ => Panic PTodo
                  end
              end
            else g_triples_loop d collection_id rest results
        end
    end.

  (** heed.rs:167-231 *)
  Definition g_triples (d : heed) (c : str) : tres (list trip) :=
    match opens Tc2i with
    | Some w => Panic w
    | None =>
        match sget (h_c2i d) c with
        | Ok (Some collection_id) =>
            match opens Tcfst with
            | Some w => Panic w
            | None => g_triples_loop d collection_id (h_cfst d) []
            end
        | _ => Panic PTodo
        end
    end.

  (** heed.rs:53-604; all writes and commits of the calls succeed. *)
  Definition heed_impl_o : trips_impl heed :=
    TripsImpl g_collections
      (fun d c => run_act (g_add_collection c) None d)
      (fun d c => run_act (g_remove_collection c) None d)
      g_triples
      (fun d c ts => (run_act (g_add_triples c ts) None d, ts))
      (fun d c ts => (run_act (g_remove_triples c ts) None d, ts))
      heed_filter.
End Opens.
