(** * Specification vocabulary: schedules without end *)
From Coq Require Import List Arith.
From Verif Require Import M_Base M_Data M_Heed M_Graph M_Interp M_Conc M_TxnConc.
Import ListNotations.

(** What happens, for ever: [happens t] is what happens as the [t]-th. *)
Definition endless := nat -> happening.

(** After the first [t] things have happened. *)
Definition at_time (happens : endless) (t : nat) (s : system) : system := go_on (map happens (seq 0 t)) s.

(** The client is given a turn again and again, or dies at some time. *)
Definition gets_turns (happens : endless) (i : nat) : Prop :=
  (forall t, exists t', t <= t' /\ happens t' = Moves i) \/ exists t, happens t = Dies i.

(** The client has ended (or is dead). *)
Definition ended (i : nat) (s : system) : Prop := exists r, doing s i = Idle (Done r).
