(** * Specification vocabulary: orders and sorted sets

    The strict orders of the data types, written as relations.  Only data types
    of the model are used, none of its functions. *)
From Coq Require Import List NArith Sorted.
From Verif Require Import M_Base M_Data.
Import ListNotations.
Open Scope list_scope.

(** Dictionary order: a proper prefix comes first, otherwise the first
    difference decides. *)
Inductive lex {A : Type} (lt : A -> A -> Prop) : list A -> list A -> Prop :=
| lex_nil y m : lex lt [] (y :: m)
| lex_here x y l m : lt x y -> lex lt (x :: l) (y :: m)
| lex_next x l m : lex lt l m -> lex lt (x :: l) (x :: m).

Definition str_lt : str -> str -> Prop := lex N.lt.

(** [None] before every [Some]. *)
Inductive opt_lt {A : Type} (lt : A -> A -> Prop) : option A -> option A -> Prop :=
| opt_none y : opt_lt lt None (Some y)
| opt_some x y : lt x y -> opt_lt lt (Some x) (Some y).

Definition trip_lt (a b : trip) : Prop :=
  str_lt (t0 a) (t0 b)
  \/ (t0 a = t0 b /\ (str_lt (t1 a) (t1 b) \/ (t1 a = t1 b /\ str_lt (t2 a) (t2 b)))).

Definition element_lt (a b : element) : Prop :=
  str_lt (el_name a) (el_name b)
  \/ (el_name a = el_name b
      /\ (opt_lt str_lt (el_ns a) (el_ns b)
          \/ (el_ns a = el_ns b /\ opt_lt str_lt (el_lang a) (el_lang b)))).

(** Roles, then Extends, then NotExtends; each kind field after field. *)
Inductive entry_lt : entry -> entry -> Prop :=
| lt_role_1 f s r f' s' r' : element_lt f f' -> entry_lt (Role f s r) (Role f' s' r')
| lt_role_2 f s r s' r' : element_lt s s' -> entry_lt (Role f s r) (Role f s' r')
| lt_role_3 f s r r' : element_lt r r' -> entry_lt (Role f s r) (Role f s r')
| lt_role_ext f s r e c : entry_lt (Role f s r) (Extends e c)
| lt_role_not f s r e c : entry_lt (Role f s r) (NotExtends e c)
| lt_ext_1 e c e' c' : element_lt e e' -> entry_lt (Extends e c) (Extends e' c')
| lt_ext_2 e c c' : element_lt c c' -> entry_lt (Extends e c) (Extends e c')
| lt_ext_not e c e' c' : entry_lt (Extends e c) (NotExtends e' c')
| lt_not_1 e c e' c' : element_lt e e' -> entry_lt (NotExtends e c) (NotExtends e' c')
| lt_not_2 e c c' : element_lt c c' -> entry_lt (NotExtends e c) (NotExtends e c').

(** A [BTreeSet]'s contents in iteration order: strictly increasing, hence
    without duplicates. *)
Definition is_set {A : Type} (lt : A -> A -> Prop) (l : list A) : Prop := StronglySorted lt l.

(** Two lists with the same members. *)
Definition same_members {A : Type} (l m : list A) : Prop := forall x, In x l <-> In x m.
