(** * Transactions of several clients of one LMDB file at the same time

    [M_Conc] lets a client make a whole call at once.  Here a call is what
    trips/src/heed.rs makes of it: the beginning of a transaction, its
    operations one by one, and its end; between any two of these another client
    may go on. *)
From Coq Require Import List Arith NArith Bool String.
From Verif Require Import M_Base M_Data M_Heed M_Txn M_Regex M_Lexer M_Graph M_Parser M_Interp M_Conc.
Import ListNotations.
Open Scope list_scope.

(** ** Code in the middle of a transaction *)

(** It has come to its end, or does one LMDB operation and goes on. *)
Inductive tx (R : Type) : Type :=
| TEnd (r : R)
| TOp (B : Set) (op : act B) (k : tres B -> tx R).
Arguments TEnd {R}.
Arguments TOp {R B}.

Definition seq_tx {A B : Type} (m : tx (tres A)) (k : A -> tx (tres B)) : tx (tres B) :=
  (fix go (m : tx (tres A)) : tx (tres B) :=
     match m with
     | TEnd (Ok a) => k a
     | TEnd (Err e) => TEnd (Err e)
     | TEnd (Panic w) => TEnd (Panic w)
     | TOp op c => TOp op (fun r => go (c r))
     end) m.

Definition map_tx {A B : Type} (f : A -> B) (m : tx A) : tx B :=
  (fix go (m : tx A) : tx B :=
     match m with
     | TEnd r => TEnd (f r)
     | TOp op c => TOp op (fun r => go (c r))
     end) m.

Definition one {B : Set} (op : act B) : tx (tres B) := TOp op TEnd.
Notation "x <~ m ; k" := (seq_tx m (fun x => k)) (at level 61, m at next level, right associativity).
Notation "m >> k" := (seq_tx m (fun _ => k)) (at level 61, right associativity).

(** ** The calls, operation by operation

    The functions of [M_Txn] once more, in a form that can be stopped after every
    operation; C119 proves that they are the same. *)

(** heed.rs:87-105 *)
Definition st_next_id : tx (tres N) :=
  one open_db >>
  r <~ one (get_db (fun d => sget (h_ids d) id_key)) ;
  match r with
  | Ok (Some value) =>
      match u64_add1 value with
      | Some next_id => one (put_ids next_id) >> TEnd (Ok next_id)
      | None => TEnd (Panic POverflow)
      end
  | Ok None => one (put_ids 0%N) >> TEnd (Ok 0%N)
  | _ => TEnd (Panic PTodo)
  end.

(** heed.rs:72-128 *)
Definition st_add_collection (c : str) : tx (tres bool) :=
  one open_db >>
  r <~ one (get_db (fun d => sget (h_c2i d) c)) ;
  match r with
  | Ok (Some _) => TEnd (Ok false)
  | _ =>
      id <~ st_next_id ;
      one open_db >> one (put_c2i c id) >>
      one open_db >> one (put_i2c id c) >>
      TEnd (Ok true)
  end.

(** heed.rs:130-165 *)
Definition st_remove_collection (c : str) : tx (tres bool) :=
  one open_db >>
  r <~ one (get_db (fun d => sget (h_c2i d) c)) ;
  match r with
  | Ok (Some id) => one open_db >> one (del_c2i c) >> one open_db >> one (del_i2c id) >> TEnd (Ok true)
  | _ => TEnd (Panic PTodo)
  end.

(** heed.rs:268-285, 286-303, 304-321 *)
Definition st_intern (value_id : N) (v : str) : tx (tres (N * N)) :=
  r <~ one (get_db (fun d => sget (h_v2i d) v)) ;
  match r with
  | Ok (Some id) => TEnd (Ok (id, value_id))
  | _ =>
      one open_db >>
      match u64_add1 value_id with
      | None => TEnd (Panic POverflow)
      | Some value_id' => one (put_v2i v value_id') >> one (put_i2v value_id' v) >> TEnd (Ok (value_id', value_id'))
      end
  end.

(** heed.rs:351-386 *)
Definition st_put_rows (k1 k2 k3 k4 k5 k6 : list N) : tx (tres unit) :=
  one open_db >> one (put_row h_cfst set_cfst k1) >>
  one open_db >> one (put_row h_cfts set_cfts k2) >>
  one open_db >> one (put_row h_csft set_csft k3) >>
  one open_db >> one (put_row h_cstf set_cstf k4) >>
  one open_db >> one (put_row h_ctfs set_ctfs k5) >>
  one open_db >> one (put_row h_ctsf set_ctsf k6).

(** heed.rs:262-386 *)
Definition st_add_one (collection_id value_id : N) (t : trip) : tx (tres N) :=
  one open_db >>
  f <~ st_intern value_id (t0 t) ;
  s <~ st_intern (snd f) (t1 t) ;
  o <~ st_intern (snd s) (t2 t) ;
  one open_db >> one (put_ids (snd o)) >>
  match row_keys collection_id (fst f) (fst s) (fst o) with
  | None => TEnd (Panic PIndex)
  | Some (k1, k2, k3, k4, k5, k6) => st_put_rows k1 k2 k3 k4 k5 k6 >> TEnd (Ok (snd o))
  end.

(** heed.rs:261-387 *)
Fixpoint st_add_loop (collection_id value_id : N) (ts : list trip) : tx (tres unit) :=
  match ts with
  | [] => TEnd (Ok tt)
  | t :: rest => v <~ st_add_one collection_id value_id t ; st_add_loop collection_id v rest
  end.

(** heed.rs:233-390 *)
Definition st_add_triples (c : str) (ts : list trip) : tx (tres bool) :=
  one open_db >>
  r <~ one (get_db (fun d => sget (h_c2i d) c)) ;
  match r with
  | Ok (Some collection_id) =>
      one open_db >>
      q <~ one (get_db (fun d => sget (h_ids d) id_key)) ;
      match q with
      | Ok (Some value_id) => st_add_loop collection_id value_id ts >> TEnd (Ok true)
      | _ => TEnd (Panic PTodo)
      end
  | _ => TEnd (Panic PTodo)
  end.

(** heed.rs:442-477 *)
Definition st_del_rows (k1 k2 k3 k4 k5 k6 : list N) : tx (tres unit) :=
  one open_db >> one (del_row h_cfst set_cfst k1) >>
  one open_db >> one (del_row h_cfts set_cfts k2) >>
  one open_db >> one (del_row h_csft set_csft k3) >>
  one open_db >> one (del_row h_cstf set_cstf k4) >>
  one open_db >> one (del_row h_ctfs set_ctfs k5) >>
  one open_db >> one (del_row h_ctsf set_ctsf k6).

(** heed.rs:417-428 *)
Definition st_known (v : str) : tx (tres N) :=
  r <~ one (get_db (fun d => sget (h_v2i d) v)) ;
  match r with Ok (Some id) => TEnd (Ok id) | _ => TEnd (Panic PTodo) end.

(** heed.rs:416-478 *)
Fixpoint st_remove_loop (collection_id : N) (ts : list trip) : tx (tres unit) :=
  match ts with
  | [] => TEnd (Ok tt)
  | t :: rest =>
      f <~ st_known (t0 t) ;
      s <~ st_known (t1 t) ;
      o <~ st_known (t2 t) ;
      match row_keys collection_id f s o with
      | None => TEnd (Panic PIndex)
      | Some (k1, k2, k3, k4, k5, k6) =>
          st_del_rows k1 k2 k3 k4 k5 k6 >> st_remove_loop collection_id rest
      end
  end.

(** heed.rs:392-484 *)
Definition st_remove_triples (c : str) (ts : list trip) : tx (tres bool) :=
  one open_db >>
  r <~ one (get_db (fun d => sget (h_c2i d) c)) ;
  match r with
  | Ok (Some collection_id) => one open_db >> st_remove_loop collection_id ts >> TEnd (Ok true)
  | _ => TEnd (Panic PTodo)
  end.

(** The rows of a table of the transaction.  (Simplification: a cursor reads one
    after the other; a read transaction sees one state of the file to its end.) *)
Definition rows_db {V : Set} (f : heed -> list V) : act (list V) :=
  fun x => if x_bad x then (Panic PUnwrap, x) else (Ok (f (x_db x)), x).

(** heed.rs:54-70 *)
Definition st_collections : tx (tres (list str)) :=
  one open_db >>
  l <~ one (rows_db h_c2i) ;
  TEnd (Ok (map fst l)).

(** heed.rs:195-211: the text of an id (the lookups and their unwraps). *)
Definition st_text (i : N) : tx (tres str) :=
  r <~ one (get_db (fun d => Ok (nget (h_i2v d) i))) ;
  match r with Ok (Some v) => TEnd (Ok v) | _ => TEnd (Panic PTodo) end.

(** heed.rs:182-227 *)
Fixpoint st_triples_loop (collection_id : N) (rows : list (list N)) (results : list trip) : tx (tres (list trip)) :=
  match rows with
  | [] => TEnd (Ok results)
  | row :: rest =>
      match decode_row row with
      | None => TEnd (Panic PIndex)
      | Some (cid, fid, sid, tid) =>
          if N.eqb collection_id cid then
            one open_db >>
            a <~ st_text fid ;
            b <~ st_text sid ;
            c <~ st_text tid ;
            st_triples_loop collection_id rest (bs_insert trip_cmp (Trip a b c) results)
          else st_triples_loop collection_id rest results
      end
  end.

(** heed.rs:167-231 *)
Definition st_triples (c : str) : tx (tres (list trip)) :=
  one open_db >>
  r <~ one (get_db (fun d => sget (h_c2i d) c)) ;
  match r with
  | Ok (Some collection_id) =>
      one open_db >>
      rows <~ one (rows_db h_cfst) ;
      st_triples_loop collection_id rows []
  | _ => TEnd (Panic PTodo)
  end.

(** A writing call has ended: what it answers, and whether it called [commit]. *)
Definition wrote (r : tres bool) : lres unit * bool :=
  match r with
  | Ok b => (Ok tt, b)
  | Err _ => (Panic PTodo, false)
  | Panic w => (Panic w, false)
  end.

(** A call of trait [Ligature] on a graph on LMDB (ligature-graph/src/lib.rs:32-166;
    trips/src/heed.rs): does it write; what it does in its transaction, what it
    answers, and whether it called [commit]. *)
Definition writing (q : req) : bool :=
  match q with
  | QAddCollection _ | QRemoveCollection _ | QAddEntries _ _ | QRemoveEntries _ _ => true
  | QCollections | QEntries _ | QFilter _ _ => false
  end.

Definition call_tx (q : req) : tx (ans q * bool) :=
  match q with
  | QCollections =>
      map_tx (fun r => (match err_todo r with Ok l => Ok (map mkE l) | Err e => Err e | Panic w => Panic w end, false)) st_collections
  | QAddCollection c => map_tx wrote (st_add_collection (el_name c))
  | QRemoveCollection c => map_tx wrote (st_remove_collection (el_name c))
  | QEntries c =>
      map_tx (fun r => (match r with Ok l => Ok (bs_collect entry_cmp (map trip_to_entry l)) | Err e => Err e | Panic w => Panic w end, false))
        (st_triples (el_name c))
  | QAddEntries c es => map_tx wrote (st_add_triples (el_name c) (bs_collect trip_cmp (map entry_to_trip es)))
  | QRemoveEntries c es => map_tx wrote (st_remove_triples (el_name c) (bs_collect trip_cmp (map entry_to_trip es)))
  | QFilter c p => TEnd (Panic PTodo, false)
  end.

(** ** The file and its clients

    External (lmdb 0.9): a write transaction waits until no other one is in
    progress in any thread or process; a transaction sees the file as it was when
    it began, and what it wrote itself; [commit] replaces the file's contents at
    once, unless a write failed before or it fails itself; a transaction that is
    dropped, or whose process dies, has no effect, and the next writer goes on. *)

(** Between calls, or in the middle of one. *)
Inductive activity :=
| Idle (p : prog)
| Busy (q : req) (k : ans q -> prog) (x : txn) (m : tx (ans q * bool)).

(** What goes wrong in the writing calls to come, in the order in which they
    begin: how many writes succeed, whether the commit does. *)
Definition fault := (option nat * bool)%type.
Definition no_fault : fault := (None, true).

Record system := System {
  file : heed;
  faults : list fault;
  writer : option nat;            (* who is in a write transaction *)
  doing : nat -> activity
}.

Definition now (f : nat -> activity) (i : nat) (a : activity) : nat -> activity :=
  fun j => if Nat.eqb j i then a else f j.

(** Client [i] does one thing: begins a call (a writing one only if nobody is
    writing, otherwise it goes on waiting), does an operation, or ends the call. *)
Definition move (i : nat) (s : system) : system :=
  match doing s i with
  | Idle (Done _) => s
  | Idle (Ask q k) =>
      if writing q then
        match writer s with
        | Some _ => s
        | None => System (file s) (faults s) (Some i)
                    (now (doing s) i (Busy q k (Txn (file s) (fst (hd no_fault (faults s))) false) (call_tx q)))
        end
      else System (file s) (faults s) (writer s) (now (doing s) i (Busy q k (Txn (file s) None false) (call_tx q)))
  | Busy q k x (TOp op c) =>
      let (r, x') := op x in System (file s) (faults s) (writer s) (now (doing s) i (Busy q k x' (c r)))
  | Busy q k x (TEnd (a, commits)) =>
      if writing q then
        System (if commits && negb (x_bad x) && snd (hd no_fault (faults s)) then x_db x else file s)
          (tl (faults s)) None (now (doing s) i (Idle (k a)))
      else System (file s) (faults s) (writer s) (now (doing s) i (Idle (k a)))
  end.

(** Client [i] dies, wherever it is. *)
Definition gone : prog := Done (Err (WErr (lit "killed"))).
Definition die (i : nat) (s : system) : system :=
  System (file s) (faults s)
    (match writer s with Some j => if Nat.eqb j i then None else Some j | None => None end)
    (now (doing s) i (Idle gone)).

Inductive happening := Moves (i : nat) | Dies (i : nat).
Definition happen (e : happening) (s : system) : system :=
  match e with Moves i => move i s | Dies i => die i s end.
Definition go_on (l : list happening) (s : system) : system := fold_left (fun s e => happen e s) l s.
