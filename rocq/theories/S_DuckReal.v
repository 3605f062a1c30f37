(** * Specification vocabulary: what a DuckDB may do of its own accord *)
From Coq Require Import List NArith Permutation.
From Verif Require Import M_Base M_Data M_Duck M_DuckReal S_Store.
Import ListNotations.
Open Scope list_scope.

(** The rows of the tables may come in another order, and numbers of the sequence
    may be lost; the sequence does not run past its end by that. *)
Record drifts (d d' : duck) : Prop := {
  dr_parts : Permutation (d_part d) (d_part d');
  dr_colls : Permutation (d_coll d) (d_coll d');
  dr_trips : Permutation (d_trip d) (d_trip d');
  dr_numbers : (d_seq d <= d_seq d')%N;
  dr_end : (d_seq d' <= N.max (d_seq d) seq_max)%N
}.

(** A weather in which nothing worse happens than that statements fail and the
    database drifts. *)
Definition harmless (w : weather) : Prop := forall n f d, w n = Some f -> drifts d (f d).

(** No statement fails. *)
Definition healthy (w : weather) : Prop := forall n, w n <> None.

(** At the [n]-th statement at most [lost n] numbers are lost. *)
Definition loses (w : weather) (lost : nat -> N) : Prop :=
  forall n f d, w n = Some f -> (d_seq (f d) <= d_seq d + lost n)%N.
Fixpoint lost_by (lost : nat -> N) (n : nat) : N :=
  match n with O => 0 | S m => lost_by lost m + lost m end%N.

(** Example weathers: statements fail from the [k]-th on ([None]: never), and
    nothing else happens. *)
Definition failing (k : option nat) : weather :=
  fun n => match k with
           | None => Some (fun d => d)
           | Some k => if Nat.ltb n k then Some (fun d => d) else None
           end.

(** At every statement all rows are turned round and up to three numbers are lost. *)
Definition restless : weather :=
  fun _ => Some (fun d => Duck (if N.leb (d_seq d + 3) seq_max then d_seq d + 3 else d_seq d)%N
                            (rev (d_part d)) (rev (d_coll d)) (rev (d_trip d))).
