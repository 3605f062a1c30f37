(** * Specification vocabulary: patterns with variable names *)
From Coq Require Import List.
From Verif Require Import M_Base M_Data S_Graph.

(** The role position of the pattern holds a variable name. *)
Definition variable_role (p : entry) : Prop :=
  match p with Role _ _ r => variable_name (el_name r) | _ => False end.

(** Reading the pattern's positions (subject, role, object) against the entry, a
    variable name is met before any mismatch. *)
Definition reaches_variable (p e : entry) : Prop :=
  variable_name (subject p)
  \/ agrees (subject p) (subject e) /\ variable_role p
  \/ agrees (subject p) (subject e) /\ role_agrees p (role_name e) /\ variable_name (object p).
