(** * DuckDB calls in which a statement fails (disk, memory, interrupt) *)
From Coq Require Import List Arith NArith Bool String Lia.
From Verif Require Import M_Base M_Data M_Duck M_DuckTxn S_Order S_Str S_Store S_Txn P_Ord P_Hist P_Duck P_DuckTxn.
Import ListNotations.
Open Scope list_scope.

(** The calls written out statement by statement are, as long as none fails, the
    functions the other theorems are about. *)
Theorem C73_step_by_step : forall d,
  (forall o, call_op (duck_impl_w None) d o = call_op duck_impl d o)
  /\ (forall c ts, snd (t_add_triples (duck_impl_w None) d c ts) = snd (t_add_triples duck_impl d c ts)
                   /\ snd (t_remove_triples (duck_impl_w None) d c ts) = snd (t_remove_triples duck_impl d c ts)).
Proof. exact duck_step_by_step. Qed.
Print Assumptions C73_step_by_step.

(** C73.  A call makes some number n of statements.  If one of them fails the
    call panics and the database is as before; otherwise the failure is never
    met and the call does what it does anyway. *)
Theorem C73_failure_panics : forall d o, exists n,
  n <= statements o
  /\ (forall j, n <= j -> call_op (duck_impl_w (Some j)) d o = call_op duck_impl d o)
  /\ (forall j, j < n -> call_op (duck_impl_w (Some j)) d o = (Panic PUnwrap, d)).
Proof. exact duck_failure. Qed.
Print Assumptions C73_failure_panics.

(** A successful call makes exactly [statements o] of them: the begin of the
    transaction, the search for the collection, four per triple added, one per
    triple removed, the commit; one for a collection. *)
Theorem C73_every_statement_counts : forall d o,
  fst (call_op duck_impl d o) = Ok tt ->
  (forall j, statements o <= j -> call_op (duck_impl_w (Some j)) d o = call_op duck_impl d o)
  /\ (forall j, j < statements o -> call_op (duck_impl_w (Some j)) d o = (Panic PUnwrap, d)).
Proof. exact duck_exact. Qed.
Print Assumptions C73_every_statement_counts.

(** Ok means stored, whatever statements failed in whatever calls: the store
    shows the contract's meaning of the calls that answered Ok. *)
Theorem C73_ok_means_stored : forall h,
  let H := acked_w duck_impl_w duck_new h in
  let d := after_w duck_impl_w duck_new h in
  (exists l, t_collections duck_impl d = Ok l /\ NoDup l /\ forall c, In c l <-> live H c)
  /\ (forall c, exists l, t_triples duck_impl d c = Ok l /\ is_set trip_lt l
                          /\ forall t, In t l <-> holds_after H c t).
Proof. exact duck_ok_stored. Qed.
Print Assumptions C73_ok_means_stored.

(** A failing statement is as if the call had not been made: the same calls
    without those that failed give the same database and answers. *)
Theorem C73_failed_calls_do_not_count : forall h, exists h',
  after_w duck_impl_w duck_new h = after duck_impl duck_new h'
  /\ acked_w duck_impl_w duck_new h = acked duck_impl duck_new h'
  /\ List.length h' <= List.length h.
Proof. exact (duck_skip duck_new). Qed.
Print Assumptions C73_failed_calls_do_not_count.

(** One triple: seven statements.  The last (the commit) failing is noticed. *)
Example C73_case :
  let d := after duck_impl duck_new [OAddColl (lit "n")] in
  let o := OAdd (lit "n") [Trip (lit "a") (lit "b") (lit "c")] in
  fst (call_op duck_impl d o) = Ok tt /\ statements o = 7
  /\ call_op (duck_impl_w (Some 6)) d o = (Panic PUnwrap, d)
  /\ call_op (duck_impl_w (Some 3)) d o = (Panic PUnwrap, d)
  /\ fst (call_op (duck_impl_w (Some 7)) d o) = Ok tt
  /\ acked_w duck_impl_w duck_new [(OAddColl (lit "n"), None); (o, Some 6); (o, Some 7)] = [OAddColl (lit "n"); o].
Proof. repeat split; vm_compute; reflexivity. Qed.
