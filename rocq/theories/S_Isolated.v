(** * Specification vocabulary: one client among others that die, on a failing disk *)
From Coq Require Import List Arith NArith Bool String.
From Verif Require Import M_Base M_Data M_Regex M_Lexer M_Graph M_Parser M_Display M_Interp M_Conc M_TxnConc S_Conc S_ConcSee.
Import ListNotations.
Open Scope list_scope.

(** Two results that are the same, or both panics. *)
Definition alike (r r' : wres value) : Prop := r = r' \/ exists w w', r = Panic w /\ r' = Panic w'.

(** Two clients that are the same, or have both panicked. *)
Definition alike_clients (p p' : prog) : Prop := p = p' \/ exists w w', p = Done (Panic w) /\ p' = Done (Panic w').

(** The ids the calls can use up. *)
Definition events_weight (l : list event) : N := fold_right (fun e n => (req_weight (what e) + n)%N) 0%N l.
