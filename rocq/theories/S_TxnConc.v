(** * Specification vocabulary: calls that overlap in time *)
From Coq Require Import List Arith NArith Bool String.
From Verif Require Import M_Base M_Data M_Heed M_Txn M_Regex M_Lexer M_Graph M_Parser M_Interp M_Conc M_TxnConc S_Store S_Graph S_Conc S_ConcSee.
Import ListNotations.
Open Scope list_scope.

(** ** Calls made at once *)

(** The LMDB store whose calls happen at once, with the faults of the writing
    calls to come: writes may fail ([heed_impl_w]), the commit may. *)
Definition write_at_once (f : option nat -> tres unit * heed) (s : heed * list fault) : tres unit * (heed * list fault) :=
  let now := hd no_fault (snd s) in
  let (r, d) := f (fst now) in
  (r, (if snd now then d else fst s, tl (snd s))).

Definition lmdb_at_once : trips_impl (heed * list fault) :=
  TripsImpl
    (fun s => t_collections heed_impl (fst s))
    (fun s c => write_at_once (fun l => t_add_collection (heed_impl_w l) (fst s) c) s)
    (fun s c => write_at_once (fun l => t_remove_collection (heed_impl_w l) (fst s) c) s)
    (fun s c => t_triples heed_impl (fst s) c)
    (fun s c ts => (write_at_once (fun l => fst (t_add_triples (heed_impl_w l) (fst s) c ts)) s, ts))
    (fun s c ts => (write_at_once (fun l => fst (t_remove_triples (heed_impl_w l) (fst s) c ts)) s, ts))
    (fun s c p => t_filter heed_impl (fst s) c p).

(** A client makes its next call at once, or dies between calls. *)
Definition happen_at_once {S : Type} (L : lig_impl S) (e : happening) (x : pool S) : pool S :=
  match e with
  | Moves i => turn L i x
  | Dies i => Pool (shared x) (update (clients x) i gone)
  end.
Definition at_once {S : Type} (L : lig_impl S) (l : list happening) (x : pool S) : pool S :=
  fold_left (fun x e => happen_at_once L e x) l x.

(** The calls so made, with the answers. *)
Fixpoint answered {S : Type} (L : lig_impl S) (l : list happening) (x : pool S) : list event :=
  match l with
  | [] => []
  | e :: rest =>
      match e with
      | Moves i => match clients x i with Done _ => [] | Ask q _ => [Event i q (fst (perform L q (shared x)))] end
      | Dies _ => []
      end ++ answered L rest (happen_at_once L e x)
  end.

(** ** Calls that take time *)

(** The calls that have returned, with the answers. *)
Fixpoint returned (l : list happening) (s : system) : list event :=
  match l with
  | [] => []
  | e :: rest =>
      match e with
      | Moves i => match doing s i with Busy q _ _ (TEnd (a, _)) => [Event i q a] | _ => [] end
      | Dies _ => []
      end ++ returned rest (happen e s)
  end.

(** One moment of every call: a reading call's first, a writing call's last. *)
Definition moment (i : nat) (s : system) : bool :=
  match doing s i with
  | Idle (Ask q _) => negb (writing q)
  | Busy q _ _ (TEnd _) => writing q
  | _ => false
  end.
Fixpoint moments (l : list happening) (s : system) : list happening :=
  match l with
  | [] => []
  | e :: rest =>
      match e with Moves i => if moment i s then [e] else [] | Dies _ => [e] end ++ moments rest (happen e s)
  end.

(** Nobody is in the middle of a call. *)
Definition start (d : heed) (fs : list fault) (cl : nat -> prog) : system := System d fs None (fun i => Idle (cl i)).

(** The events of one client. *)
Definition of_client (i : nat) (l : list event) : list event := filter (fun e => Nat.eqb (who e) i) l.
