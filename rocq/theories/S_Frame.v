(** * Specification: the calls on one collection, in order *)
From Coq Require Import List NArith Bool.
From Verif Require Import M_Base M_Data M_Heed S_Order S_Str S_Store S_Interp.
Import ListNotations.
Open Scope list_scope.

(** The call is about [c]. *)
Definition on (c : str) (o : op) : bool := if list_eq_dec N.eq_dec (target o) c then true else false.

(** The calls of a history that are about [c]. *)
Definition calls_on (c : str) (h : list op) : list op := filter (on c) h.

(** What they answered when the whole history was run. *)
Fixpoint answers_on {S : Type} (I : trips_impl S) (s : S) (c : str) (h : list op) : list (tres unit) :=
  match h with
  | [] => []
  | o :: r => (if on c o then [fst (call_op I s o)] else []) ++ answers_on I (snd (call_op I s o)) c r
  end.

(** On LMDB: every word of a triple removed from [c] is in a triple added to [c]
    before (a disciplined client, which removes only what is there, does this). *)
Definition knows_own (c : str) (h : list op) : Prop :=
  forall h1 ts h2, h = h1 ++ ORem c ts :: h2 ->
  forall v, part_of v ts -> storable v /\ mentioned (acked heed_impl heed_new (calls_on c h1)) v.
