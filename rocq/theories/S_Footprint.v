(** * Specification vocabulary: what a script depends on *)
From Coq Require Import List NArith Bool String.
From Verif Require Import M_Base M_Data M_Regex M_Lexer M_Graph M_Parser M_Interp S_Order S_Str S_Store S_Graph S_Lexer S_Parser S_Wander S_Rewrite.
Import ListNotations.
Open Scope list_scope.

(** The networks a call looks up or lets, by name; quotes count where they are
    run: in a let, an assert-fail and an assert-equal. *)
Inductive value_looks : value -> str -> Prop :=
| vl_call c args n : call_looks (el_name c) args n -> value_looks (VQuote (VElement c :: args)) n
with call_looks : str -> list value -> str -> Prop :=
| cl_read c : call_looks (lit "read") [VElement c] (el_name c)
| cl_filter c s r x : call_looks (lit "filter") [VElement c; VElement s; VElement r; VElement x] (el_name c)
| cl_let c v : call_looks (lit "let") [VElement c; v] (el_name c)
| cl_let_in c v n : value_looks v n -> call_looks (lit "let") [VElement c; v] n
| cl_left l r n : value_looks l n -> call_looks (lit "assert-equal") [l; r] n
| cl_right l r n : value_looks r n -> call_looks (lit "assert-equal") [l; r] n
| cl_fail v n : value_looks v n -> call_looks (lit "assert-fail") [v] n.

(** Those of them that it lets. *)
Inductive value_lets : value -> str -> Prop :=
| ve_call c args n : call_lets (el_name c) args n -> value_lets (VQuote (VElement c :: args)) n
with call_lets : str -> list value -> str -> Prop :=
| ce_let c v : call_lets (lit "let") [VElement c; v] (el_name c)
| ce_let_in c v n : value_lets v n -> call_lets (lit "let") [VElement c; v] n
| ce_left l r n : value_lets l n -> call_lets (lit "assert-equal") [l; r] n
| ce_right l r n : value_lets r n -> call_lets (lit "assert-equal") [l; r] n
| ce_fail v n : value_lets v n -> call_lets (lit "assert-fail") [v] n.

(** The same for scripts; one that is not a program looks at nothing. *)
Definition looks_at (script n : str) : Prop :=
  exists cs c, reads_as script cs /\ In c cs /\ call_looks (el_name (c_name c)) (c_args c) n.
Definition lets_name (script n : str) : Prop :=
  exists cs c, reads_as script cs /\ In c cs /\ call_lets (el_name (c_name c)) (c_args c) n.

(** Neither lets what the other looks at. *)
Definition independent (x y : str) : Prop :=
  (forall n, lets_name x n -> ~ looks_at y n) /\ (forall n, lets_name y n -> ~ looks_at x n).

(** Two worlds that are the same for the names of [W]. *)
Definition agree_on (W : str -> Prop) (w v : world) : Prop := forall n, W n -> v n = w n.

(** Names written in a script. *)
Definition name_in (script n : str) : Prop :=
  exists ts, lexes script ts /\ ((exists e, In (TElement e) ts /\ n = el_name e) \/ In (TString n) ts).
