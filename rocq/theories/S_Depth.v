(** * Specification vocabulary: how deep evaluation recurses *)
From Coq Require Import List NArith Bool String.
From Verif Require Import M_Base M_Data M_Lexer M_Parser M_Graph M_Display M_Interp.
Import ListNotations.
Open Scope list_scope.

(** At most [k] quotes stand inside one another. *)
Inductive nested : nat -> value -> Prop :=
| ne_element k e : nested k (VElement e)
| ne_network k n : nested k (VNetwork n)
| ne_quote k q : (forall v, In v q -> nested k v) -> nested (S k) (VQuote q).

(** A machine whose stack has room for [room] activations of [run_quote] at the
    same time.  Every cycle of calls in wander goes through [run_quote] (run_calls,
    a command, run_quote, run_calls, ...); tokenizer and parser are loops.  The
    activation for which there is no room ends the program with [PFuel]. *)
Definition run_calls_in {St : Type} (room : nat) (lig : lig_impl St) (cs : @commands St) (calls : list call) (st : St)
    : wres value * St :=
  run_calls_loop lig (run_quote_f lig room cs) cs calls (VNetwork []) st.

Definition run_in {St : Type} (room : nat) (lig : lig_impl St) (cs : @commands St) (script : str) (st : St)
    : wres value * St :=
  match tokenize_and_filter script with
  | Err e => (Err e, st)
  | Panic w => (Panic w, st)
  | Ok tokens =>
      match parse tokens with
      | Err e => (Err e, st)
      | Panic w => (Panic w, st)
      | Ok calls => run_calls_in room lig cs calls st
      end
  end.

(** assert-fail (assert-fail (... (x))): [n + 1] quotes inside one another. *)
Fixpoint tower (n : nat) : list value :=
  match n with
  | 0 => [VElement (Elem (lit "x") None None)]
  | S m => [VElement (Elem (lit "assert-fail") None None); VQuote (tower m)]
  end.
