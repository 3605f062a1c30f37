(** * Specification vocabulary: clients that have nothing to do with each other *)
From Coq Require Import List.
From Verif Require Import M_Base M_Data M_Lexer M_Graph M_Parser M_Interp M_Conc S_Conc S_HostConc.
Import ListNotations.

(** Neither may change a collection that the other makes calls about. *)
Definition apart (p q : prog) : Prop :=
  (forall c, may_change p c -> ~ uses q c) /\ (forall c, may_change q c -> ~ uses p c).

(** Clients one after the other, each from its beginning to its end. *)
Fixpoint in_turn {S : Type} (L : lig_impl S) (ps : list prog) (st : S) : list (wres value) * S :=
  match ps with
  | [] => ([], st)
  | p :: rest => let (r, st1) := solo L p st in let (rs, st2) := in_turn L rest st1 in (r :: rs, st2)
  end.
