(** * Specification vocabulary: an LMDB store in trouble *)
From Coq Require Import List NArith.
From Verif Require Import M_Base M_Data M_Heed M_Txn M_Open S_Str S_Store.
Import ListNotations.
Open Scope list_scope.

(** What can go wrong while a call is made: nothing; its commit fails; its [j]-th
    write fails (disk full, I/O error); some tables cannot be opened. *)
Inductive trouble := Fine | CommitFails | WriteFails (j : nat) | CannotOpen (opens : tab -> option why).

Definition with_trouble (t : trouble) : trips_impl heed :=
  match t with
  | Fine => heed_impl
  | CommitFails => heed_impl_c false
  | WriteFails j => heed_impl_w (Some j)
  | CannotOpen opens => heed_impl_o opens
  end.

(** The store after calls made in whatever trouble, and what they answered. *)
Fixpoint after_t (d : heed) (h : list (op * trouble)) : heed :=
  match h with [] => d | (o, t) :: r => after_t (snd (call_op (with_trouble t) d o)) r end.
Fixpoint answers_t (d : heed) (h : list (op * trouble)) : list (tres unit) :=
  match h with
  | [] => []
  | (o, t) :: r => fst (call_op (with_trouble t) d o) :: answers_t (snd (call_op (with_trouble t) d o)) r
  end.

(** [g] are some of the calls of [h] that were answered [rs]: none that was not
    answered Ok, and all that were answered Ok without trouble. *)
Inductive clean : list (op * trouble) -> list (tres unit) -> list op -> Prop :=
| cl_none : clean [] [] []
| cl_kept o t h rs g : clean h rs g -> clean ((o, t) :: h) (Ok tt :: rs) (o :: g)
| cl_lost o t h rs g : t <> Fine -> clean h rs g -> clean ((o, t) :: h) (Ok tt :: rs) g
| cl_refused o t r h rs g : r <> Ok tt -> clean h rs g -> clean ((o, t) :: h) (r :: rs) g.
