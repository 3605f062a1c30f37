(** * Specification vocabulary: scripts that store only what they say *)
From Coq Require Import List NArith String.
From Verif Require Import M_Base M_Data M_Lexer M_Parser S_Rewrite.
Import ListNotations.
Open Scope list_scope.

(** A quote that reads or searches the store, or has such a quote in it. *)
Inductive asks_back : value -> Prop :=
| ab_here h args : el_name h = lit "read" \/ el_name h = lit "filter" -> asks_back (VQuote (VElement h :: args))
| ab_deep h args v : In v args -> asks_back v -> asks_back (VQuote (h :: args)).

(** A [let] of what such a quote answers, here or within a quote. *)
Inductive lets_a_read : str -> list value -> Prop :=
| lr_here v args : In v args -> asks_back v -> lets_a_read (lit "let") args
| lr_deep name args h q : In (VQuote (VElement h :: q)) args -> lets_a_read (el_name h) q -> lets_a_read name args.

(** A script that lets only what it says itself, or the commands' documentation. *)
Definition frugal (script : str) : Prop :=
  forall cs c, reads_as script cs -> In c cs -> ~ lets_a_read (el_name (c_name c)) (c_args c).
