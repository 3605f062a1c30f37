(** * Specification vocabulary: calls and the calls that undo them *)
From Coq Require Import List NArith.
From Verif Require Import M_Base M_Data S_Str S_Store.
Import ListNotations.
Open Scope list_scope.

(** In the state [s], [u] is what a user would call to take back [o]: removing a
    collection that was not there before it was added; removing triples none of
    which was there before they were added; adding back triples all of which were
    there before they were removed. *)
Inductive undoable {S : Type} (I : trips_impl S) (s : S) : op -> op -> Prop :=
| U_collection c : ~ has I s c -> undoable I s (OAddColl c) (ORemColl c)
| U_added c ts : has I s c -> (forall t, In t ts -> ~ holds I s c t) -> undoable I s (OAdd c ts) (ORem c ts)
| U_removed c ts : has I s c -> (forall t, In t ts -> holds I s c t) -> undoable I s (ORem c ts) (OAdd c ts).

(** A sequence of calls [os] from [s] and the calls [us] that take them back, last
    one first. *)
Inductive undo_all {S : Type} (I : trips_impl S) : S -> list op -> list op -> Prop :=
| UA_nil s : undo_all I s [] []
| UA_cons s o u os us : undoable I s o u -> undo_all I (snd (call_op I s o)) os us ->
    undo_all I s (o :: os) (us ++ [u]).

(** Every word of a call - the collection's name if it creates one, every part of
    every triple - is one LMDB can store as a key. *)
Definition storable_words (o : op) : Prop :=
  match o with
  | OAddColl c => storable c
  | ORemColl _ => True
  | OAdd _ ts | ORem _ ts => forall v, part_of v ts -> storable v
  end.
