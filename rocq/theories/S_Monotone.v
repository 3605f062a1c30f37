(** * Specification vocabulary: more data *)
From Coq Require Import List NArith Bool String.
From Verif Require Import M_Base M_Data M_Regex M_Lexer M_Graph M_Parser M_Interp S_Order S_Str S_Store S_Graph S_Lexer S_Parser S_Wander S_Rewrite.
Import ListNotations.
Open Scope list_scope.

(** The second world has what the first has, and maybe more. *)
Definition below (w v : world) : Prop := forall n l, w n = Some l -> exists m, v n = Some m /\ incl l m.

(** The second answer is the first, or a network with more entries. *)
Inductive below_value : value -> value -> Prop :=
| bv_same a : below_value a a
| bv_more l m : incl l m -> below_value (VNetwork l) (VNetwork m).

(** A call that makes no assertion and searches for no variable, also in the
    quotes that it runs. *)
Inductive plain : str -> list value -> Prop :=
| pl_call name args :
    name <> lit "assert-equal" -> name <> lit "assert-fail" ->
    (name = lit "filter" -> forall e, In (VElement e) args -> ~ variable_name (el_name e)) ->
    (forall c n qargs, name = lit "let" -> args = [VElement c; VQuote (VElement n :: qargs)] -> plain (el_name n) qargs) ->
    plain name args.

Definition plain_script (script : str) : Prop :=
  forall cs c, reads_as script cs -> In c cs -> plain (el_name (c_name c)) (c_args c).
