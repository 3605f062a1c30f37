(** * Specification vocabulary: what a script leaves that dies on its way

    A continuation of the reference for Wander (S_Wander): which worlds a program
    that is killed at some moment can leave.  Nothing of the interpreter, of its
    calls to the store or of the store is mentioned. *)
From Coq Require Import List Arith NArith Bool String.
From Verif Require Import M_Base M_Data M_Regex M_Lexer M_Graph M_Parser M_Interp M_Conc S_Order S_Str S_Store S_Lexer S_Parser S_Conc S_Wander.
Import ListNotations.
Open Scope list_scope.

Section Reference.
  Variable B : backend.

  (** [dies_value v w w']: evaluating [v] in [w] was begun and may have left [w'].
      [dies_call name args]: the same for a call. *)
  Inductive dies_value : value -> world -> world -> Prop :=
  | dv_before v w : dies_value v w w
  | dv_call n args w w' : dies_call (el_name n) args w w' -> dies_value (VQuote (VElement n :: args)) w w'
  with dies_call : str -> list value -> world -> world -> Prop :=
  (* nothing, or all of it, has happened *)
  | dc_before name args w : dies_call name args w w
  | dc_after name args w o w' : calls B name args w o w' -> dies_call name args w w'
  (* assert-equal: in its left side; in its right side *)
  | dc_left l r w w' : dies_value l w w' -> dies_call (lit "assert-equal") [l; r] w w'
  | dc_right l r w v w1 w' :
      gives B l w (Answers v) w1 -> dies_value r w1 w' -> dies_call (lit "assert-equal") [l; r] w w'
  (* assert-fail: in its quote *)
  | dc_fail q w w' : dies_value (VQuote q) w w' -> dies_call (lit "assert-fail") [VQuote q] w w'
  (* let: in its quote; or when the name is bound and nothing is stored under it yet *)
  | dc_let_in c q w w' : dies_value (VQuote q) w w' -> dies_call (lit "let") [VElement c; VQuote q] w w'
  | dc_let c n w o w' : binds w (el_name c) [] B o w' -> dies_call (lit "let") [VElement c; VNetwork n] w w'
  | dc_let_quote c q w n w1 o w' :
      gives B (VQuote q) w (Answers (VNetwork n)) w1 -> binds w1 (el_name c) [] B o w' ->
      dies_call (lit "let") [VElement c; VQuote q] w w'.

  (** One call after the other: in one of them, those before having answered. *)
  Inductive dies_calls : list call -> world -> world -> Prop :=
  | ds_none w : dies_calls [] w w
  | ds_here c rest w w' : dies_call (el_name (c_name c)) (c_args c) w w' -> dies_calls (c :: rest) w w'
  | ds_later c rest w v w1 w' :
      calls B (el_name (c_name c)) (c_args c) w (Answers v) w1 -> dies_calls rest w1 w' -> dies_calls (c :: rest) w w'.

  (** A script: a text that is no program does nothing. *)
  Inductive dies_in (w : world) (script : str) : world -> Prop :=
  | di_before : dies_in w script w
  | di_runs tokens kept cs w' :
      lexes script tokens -> keeps tokens kept -> g_script kept cs -> dies_calls cs w w' -> dies_in w script w'.

  (** ** The life of a store *)

  (** What happens to a store: a script is run, or is begun and dies. *)
  Inductive deed := Runs (script : str) | DiesAfter (script : str) (calls : nat).

  (** [lived w ds os w']: the deeds [ds], beginning in [w], may end in [w'], with the
      outcomes [os] of those that were run. *)
  Inductive lived : world -> list deed -> list outcome -> world -> Prop :=
  | li_none w : lived w [] [] w
  | li_runs w x o w1 ds os w2 : means B w x o w1 -> lived w1 ds os w2 -> lived w (Runs x :: ds) (o :: os) w2
  | li_dies w x m w1 ds os w2 : dies_in w x w1 -> lived w1 ds os w2 -> lived w (DiesAfter x m :: ds) os w2.
End Reference.

(** ** The code's side *)

(** The deeds done to a store, dying scripts after as many store calls as said:
    the results of those that were run, and the store. *)
Fixpoint life {S : Type} (L : lig_impl S) (ds : list deed) (s : S) : list (wres value) * S :=
  match ds with
  | [] => ([], s)
  | Runs x :: r => let (a, s1) := run L common x s in let (rs, s2) := life L r s1 in (a :: rs, s2)
  | DiesAfter x m :: r => life L r (snd (alone L m (p_run common x) s))
  end.

(** The same deeds, dying scripts after another number of store calls. *)
Inductive same_deed : deed -> deed -> Prop :=
| sd_runs x : same_deed (Runs x) (Runs x)
| sd_dies x m n : same_deed (DiesAfter x m) (DiesAfter x n).
