(** * Specification vocabulary: a store file used in several sessions *)
From Coq Require Import List Arith.
From Verif Require Import M_Base M_Data M_Heed M_Open S_Store.
Import ListNotations.
Open Scope list_scope.

(** A session: the file is opened with room for [se_slots] tables, the commit in
    [TripsHeed::new] succeeds or not, then the calls are made. *)
Record session := Session { se_slots : nat; se_commit : bool; se_calls : list op }.

(** The store a session works with. *)
Definition session_impl (f : file) (s : session) : trips_impl heed :=
  heed_impl_o (snd (trips_heed_new (se_slots s) (se_commit s) f)).

(** The file after a session; its calls that answered Ok. *)
Definition after_session (f : file) (s : session) : file :=
  let f1 := fst (trips_heed_new (se_slots s) (se_commit s) f) in
  File (after (session_impl f s) (f_db f1) (se_calls s)) (f_made f1).
Definition acked_session (f : file) (s : session) : list op :=
  acked (session_impl f s) (f_db (fst (trips_heed_new (se_slots s) (se_commit s) f))) (se_calls s).

Fixpoint after_sessions (f : file) (ss : list session) : file :=
  match ss with
  | [] => f
  | s :: r => after_sessions (after_session f s) r
  end.
Fixpoint acked_sessions (f : file) (ss : list session) : list op :=
  match ss with
  | [] => []
  | s :: r => acked_session f s ++ acked_sessions (after_session f s) r
  end.

(** How many tables, in the order [new] creates them, a call needs. *)
Definition tables_needed (o : op) : nat :=
  match o with
  | OAddColl _ => 3
  | ORemColl _ => 3
  | OAdd _ [] => 2
  | OAdd _ _ => 11
  | ORem _ [] => 4
  | ORem _ _ => 11
  end.
