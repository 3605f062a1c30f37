(** * Specification vocabulary: futures of a store *)
From Coq Require Import List NArith.
From Verif Require Import M_Base M_Data M_Heed S_Order S_Str S_Store.
Import ListNotations.
Open Scope list_scope.

(** What the calls of a history answer, one after the other. *)
Fixpoint answers_of {S : Type} (I : trips_impl S) (s : S) (h : list op) : list (tres unit) :=
  match h with
  | [] => []
  | o :: r => fst (call_op I s o) :: answers_of I (snd (call_op I s o)) r
  end.

(** From now on nobody can tell the two stores apart: any further calls (within
    the limits) answer the same, and after them every reading call shows the same. *)
Definition same_future {S : Type} (I : trips_impl S) (limit : list op -> Prop) (a b : S) : Prop :=
  forall g, limit g ->
    answers_of I a g = answers_of I b g /\ looks_same I (after I a g) (after I b g).

(** Two batches of triples together are the third. *)
Definition merges (a b ab : list trip) : Prop := forall t, In t ab <-> In t a \/ In t b.

(** The words an LMDB store has a number for after a history: the storable ones
    that some acknowledged addition mentioned. *)
Definition known (h : list op) (v : str) : Prop := storable v /\ mentioned (acked heed_impl heed_new h) v.
