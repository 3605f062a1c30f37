(** * Specification vocabulary: calls in which a write fails *)
From Coq Require Import List Arith.
From Verif Require Import M_Base M_Data S_Store.
Import ListNotations.
Open Scope list_scope.

(** A call makes at most this many writes: three to create a collection, two to
    remove one; per triple, two for each of its three values, one for the
    counter and six rows; six rows per triple removed. *)
Definition writes_bound (o : op) : nat :=
  match o with
  | OAddColl _ => 3
  | ORemColl _ => 2
  | OAdd _ ts => 13 * List.length ts
  | ORem _ ts => 6 * List.length ts
  end.

(** The SQL statements a call makes when it succeeds. *)
Definition statements (o : op) : nat :=
  match o with
  | OAddColl _ => 1
  | ORemColl _ => 1
  | OAdd _ ts => 3 + 4 * List.length ts
  | ORem _ ts => 3 + List.length ts
  end.

Section Writes.
  (** The store when all writes succeed, and when in each call only the first
      few writes (or SQL statements) do ([None]: all). *)
  Context {S : Type} (I : trips_impl S) (W : option nat -> trips_impl S).

  (** If the call succeeds, making [n + 1] writes, then: with more than [n]
      writes possible nothing changes; with [n], the call still answers Ok and
      nothing is stored; with fewer it panics and nothing is stored.  If the call
      panics, it panics with failing writes, too. *)
  Definition only_last_unnoticed (d : S) (o : op) : Prop :=
    match call_op I d o with
    | (Ok _, d') => exists n,
          (forall j, n < j -> call_op (W (Some j)) d o = (Ok tt, d'))
          /\ call_op (W (Some n)) d o = (Ok tt, d)
          /\ forall j, j < n -> exists w, call_op (W (Some j)) d o = (Panic w, d)
    | _ => forall j, exists w, call_op (W (Some j)) d o = (Panic w, d)
    end.

  (** Every failing write is noticed: if the call succeeds, making [n] writes,
      then with [n] possible nothing changes, and with fewer it panics and
      nothing is stored; if it panics, it panics with failing writes, too. *)
  Definition always_noticed (d : S) (o : op) : Prop :=
    match call_op I d o with
    | (Ok _, d') => exists n,
          (forall j, n <= j -> call_op (W (Some j)) d o = (Ok tt, d'))
          /\ forall j, j < n -> exists w, call_op (W (Some j)) d o = (Panic w, d)
    | _ => forall j, exists w, call_op (W (Some j)) d o = (Panic w, d)
    end.

  (** The store after calls, each with its number of possible writes. *)
  Fixpoint after_w (d : S) (h : list (op * option nat)) : S :=
    match h with
    | [] => d
    | (o, l) :: r => after_w (snd (call_op (W l) d o)) r
    end.

  (** Those of the calls that answered Ok. *)
  Fixpoint acked_w (d : S) (h : list (op * option nat)) : list op :=
    match h with
    | [] => []
    | (o, l) :: r => match call_op (W l) d o with
                     | (Ok _, d') => o :: acked_w d' r
                     | (_, d') => acked_w d' r
                     end
    end.
End Writes.
