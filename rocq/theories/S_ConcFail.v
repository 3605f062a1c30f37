(** * Specification vocabulary: how many ids a program can use up *)
From Coq Require Import List NArith.
From Verif Require Import M_Base M_Data M_Graph M_Interp M_Conc S_Store S_Conc.
Import ListNotations.

(** Whatever it is answered, the calls it makes can use up no more than [n] ids. *)
Fixpoint costs (p : prog) (n : N) : Prop :=
  match p with
  | Done _ => True
  | Ask q k => (req_weight q <= n)%N /\ forall a, costs (k a) (n - req_weight q)%N
  end.
