(** * Specification vocabulary: lines printed *)
From Coq Require Import List Arith NArith Bool String Sorted.
From Verif Require Import M_Base M_Data M_Regex M_Lexer M_Graph M_Parser M_Interp S_Order S_Str S_Store S_Graph S_Lexer S_Parser S_Wander S_Rewrite.
Import ListNotations.
Open Scope list_scope.

(** The line for a triple. *)
Definition line_of (t : trip) : str := lit "Adding - " ++ t0 t ++ lit " " ++ t1 t ++ lit " " ++ t2 t ++ [10%N].

(** The words of the triples given to the store, in the order given. *)
Definition words_given (H : list op) : list str :=
  flat_map (fun o => match o with OAdd _ ts => flat_map (fun t => [t0 t; t1 t; t2 t]) ts | _ => [] end) H.

(** [a] comes up for the first time before [b] does. *)
Definition first_at (l : list str) (a : str) (n : nat) : Prop :=
  nth_error l n = Some a /\ forall m, m < n -> nth_error l m <> Some a.
Definition sooner (l : list str) (a b : str) : Prop :=
  exists n m, first_at l a n /\ first_at l b m /\ n < m.

(** Triples by the age of their words: first word, then second, then third. *)
Definition sooner_triple (l : list str) (t u : trip) : Prop :=
  sooner l (t0 t) (t0 u)
  \/ t0 t = t0 u /\ sooner l (t1 t) (t1 u)
  \/ t0 t = t0 u /\ t1 t = t1 u /\ sooner l (t2 t) (t2 u).

(** The networks a call reads, by name: quotes count where they are run. *)
Inductive value_reads : value -> str -> Prop :=
| vr_call c args n : call_reads (el_name c) args n -> value_reads (VQuote (VElement c :: args)) n
with call_reads : str -> list value -> str -> Prop :=
| cr_read c : call_reads (lit "read") [VElement c] (el_name c)
| cr_let c v n : value_reads v n -> call_reads (lit "let") [VElement c; v] n
| cr_left l r n : value_reads l n -> call_reads (lit "assert-equal") [l; r] n
| cr_right l r n : value_reads r n -> call_reads (lit "assert-equal") [l; r] n
| cr_fail v n : value_reads v n -> call_reads (lit "assert-fail") [v] n.
Definition reads_name (script n : str) : Prop :=
  exists cs c, reads_as script cs /\ In c cs /\ call_reads (el_name (c_name c)) (c_args c) n.

(** A word without spaces and line breaks. *)
Definition unbroken (v : str) : Prop := ~ In 32%N v /\ ~ In 10%N v.

(** How many times [t] was given to [c], counted from the last time [c] was removed. *)
Definition same_str : forall a b : str, {a = b} + {a <> b} := list_eq_dec N.eq_dec.
Definition same_trip : forall a b : trip, {a = b} + {a <> b}.
Proof. decide equality; apply same_str. Defined.
Definition times_given (c : str) (t : trip) (H : list op) : nat :=
  fold_left (fun n o => match o with
    | OAdd c' ts => if same_str c' c then n + count_occ same_trip ts t else n
    | ORemColl c' => if same_str c' c then 0 else n
    | _ => n end) H 0.
