(** * Specification vocabulary: renaming *)
From Coq Require Import List NArith.
From Verif Require Import M_Base M_Data S_Store S_Str.
Import ListNotations.
Open Scope list_scope.

Definition injective (f : str -> str) : Prop := forall a b, f a = f b -> a = b.

(** A triple, a call and the names in it, renamed. *)
Definition ren_trip (f : str -> str) (t : trip) : trip := Trip (f (t0 t)) (f (t1 t)) (f (t2 t)).
Definition ren_op (f : str -> str) (o : op) : op :=
  match o with
  | OAddColl c => OAddColl (f c)
  | ORemColl c => ORemColl (f c)
  | OAdd c ts => OAdd (f c) (map (ren_trip f) ts)
  | ORem c ts => ORem (f c) (map (ren_trip f) ts)
  end.
Definition op_name (o : op) (v : str) : Prop :=
  match o with
  | OAddColl c | ORemColl c => v = c
  | OAdd c ts | ORem c ts => v = c \/ part_of v ts
  end.

(** Both answers are Ok, both an error (whose text may name a collection), or
    both the same panic. *)
Inductive same_kind : tres unit -> tres unit -> Prop :=
| sk_ok : same_kind (Ok tt) (Ok tt)
| sk_err e e' : same_kind (Err e) (Err e')
| sk_panic w : same_kind (Panic w) (Panic w).

(** [s'] shows what [s] shows, renamed, and nothing else. *)
Definition ren_store {S : Type} (I : trips_impl S) (f : str -> str) (s s' : S) : Prop :=
  (forall x, has I s' x <-> exists c, x = f c /\ has I s c)
  /\ (forall x u, holds I s' x u <-> exists c t, x = f c /\ u = ren_trip f t /\ holds I s c t)
  /\ (forall c, readable I s' (f c) <-> readable I s c).
