(** * LMDB calls in which a write fails (map full, no memory, I/O error) *)
From Coq Require Import List Arith NArith Bool String Lia.
From Verif Require Import M_Base M_Data M_Heed M_Txn M_Regex M_Lexer M_Graph M_Parser M_Display M_Interp
  S_Order S_Str S_Store S_Txn P_Ord P_Hist P_Heed P_HeedHist P_Txn P_TxnRem.
Import ListNotations.
Open Scope list_scope.

(** The transactions written out operation by operation are, as long as no write
    fails, the functions the other theorems are about. *)
Theorem C72_step_by_step : forall d,
  (forall o, call_op (heed_impl_w None) d o = call_op heed_impl d o)
  /\ (forall c ts, snd (t_add_triples (heed_impl_w None) d c ts) = snd (t_add_triples heed_impl d c ts)
                   /\ snd (t_remove_triples (heed_impl_w None) d c ts) = snd (t_remove_triples heed_impl d c ts)).
Proof. intros d. split; [exact (no_failure d)|]. intros c ts. split; reflexivity. Qed.
Print Assumptions C72_step_by_step.

(** C72.  Whatever write of a call fails, the call changes nothing: it installs
    all of its effect or none.  It never answers Err; it answers Ok or panics. *)
Theorem C72_all_or_nothing : forall d o,
  exists n, n <= writes_bound o
    /\ (forall j, n <= j -> call_op (heed_impl_w (Some j)) d o = call_op heed_impl d o)
    /\ (forall j, j < n -> call_op (heed_impl_w (Some j)) d o = (Ok tt, d)
                           \/ exists w, call_op (heed_impl_w (Some j)) d o = (Panic w, d)).
Proof. exact write_failure. Qed.
Print Assumptions C72_all_or_nothing.

(** The caller is told, by a panic, of every failing write but the last; if the
    last write fails the call answers Ok. *)
Theorem C72_add_triples_failure : forall d c ts, ts <> [] -> only_last_unnoticed heed_impl heed_impl_w d (OAdd c ts).
Proof. exact add_triples_unnoticed. Qed.
Print Assumptions C72_add_triples_failure.

Theorem C72_add_collection_failure : forall d c, ~ has heed_impl d c -> only_last_unnoticed heed_impl heed_impl_w d (OAddColl c).
Proof. exact add_collection_unnoticed. Qed.
Print Assumptions C72_add_collection_failure.

(** Every state reached with failing writes is a state reached with failing
    commits: what C13-C21 say of all histories holds after failing writes. *)
Theorem C72_states : forall h, exists h', map fst h' = map fst h
  /\ after_w heed_impl_w heed_new h = after_f heed_impl_c heed_new h'.
Proof. intros h. apply faulty_history. Qed.
Print Assumptions C72_states.

Lemma inv_after_w h : inv (after_w heed_impl_w heed_new h).
Proof. destruct (faulty_history h heed_new) as (h' & _ & ->). apply inv_reach. Qed.

(** Removing.  In every store that can arise: the failure of the last write goes
    unnoticed when the last of the triples is stored (and was not already removed
    by the same call); when it is not stored, every failure is noticed. *)
Theorem C72_remove_triples_failure : forall h c ts t,
  let d := after_w heed_impl_w heed_new h in
  (holds heed_impl d c t -> ~ In t ts -> only_last_unnoticed heed_impl heed_impl_w d (ORem c (ts ++ [t])))
  /\ (~ holds heed_impl d c t \/ In t ts -> always_noticed heed_impl heed_impl_w d (ORem c (ts ++ [t]))).
Proof.
  intros h c ts t d. split.
  - exact (remove_triples_unnoticed d c ts t (inv_after_w h)).
  - exact (remove_triples_noticed d c ts t (inv_after_w h)).
Qed.
Print Assumptions C72_remove_triples_failure.

Theorem C72_remove_collection_failure : forall h c,
  only_last_unnoticed heed_impl heed_impl_w (after_w heed_impl_w heed_new h) (ORemColl c).
Proof. intros h c. exact (remove_collection_unnoticed _ c (inv_after_w h)). Qed.
Print Assumptions C72_remove_collection_failure.

(** Answers Ok, nothing is stored: a call, and a whole script. *)
Theorem C72_full_disk_can_be_silent :
  (exists d c t, has heed_impl d c /\ call_op (heed_impl_w (Some 12)) d (OAdd c [t]) = (Ok tt, d)
                 /\ ~ holds heed_impl d c t)
  /\ (exists s d, run (graph_impl (heed_impl_w (Some 12))) common (lit "let n {a b c}") heed_new = (Ok s, d)
                  /\ heed_triples d (lit "n") = Ok []).
Proof.
  split.
  - exists (after heed_impl heed_new [OAddColl (lit "n")]), (lit "n"), (Trip (lit "a") (lit "b") (lit "c")).
    split; [|split].
    + exists [lit "n"]. split; [reflexivity|left; reflexivity].
    + vm_compute. reflexivity.
    + intros (l & E & Hi). vm_compute in E. injection E as <-. destruct Hi.
  - do 2 eexists. split; [vm_compute; reflexivity|reflexivity].
Qed.
Print Assumptions C72_full_disk_can_be_silent.

(** Thirteen writes for one triple: the eleventh failing is noticed, the
    thirteenth is not, with thirteen possible all is stored. *)
Example C72_case :
  let d := after heed_impl heed_new [OAddColl (lit "n")] in
  let o := OAdd (lit "n") [Trip (lit "a") (lit "b") (lit "c")] in
  call_op (heed_impl_w (Some 10)) d o = (Panic PUnwrap, d)
  /\ call_op (heed_impl_w (Some 12)) d o = (Ok tt, d)
  /\ call_op (heed_impl_w (Some 13)) d o = call_op heed_impl d o
  /\ snd (call_op heed_impl d o) <> d /\ ~ has heed_impl heed_new (lit "n").
Proof.
  split; [vm_compute; reflexivity|]. split; [vm_compute; reflexivity|]. split; [vm_compute; reflexivity|].
  split; [vm_compute; discriminate|]. intros (l & E & Hi). vm_compute in E. injection E as <-. destruct Hi.
Qed.

(** Six rows per triple removed; the twelfth failing is not noticed, the sixth is. *)
Example C72_remove_case :
  let t1 := Trip (lit "a") (lit "b") (lit "c") in
  let t2 := Trip (lit "b") (lit "c") (lit "a") in
  let h := [(OAddColl (lit "n"), None); (OAdd (lit "n") [t1; t2], Some 40)] in
  let d := after_w heed_impl_w heed_new h in
  let o := ORem (lit "n") [t1; t2] in
  heed_triples d (lit "n") = Ok [t1; t2]
  /\ call_op (heed_impl_w (Some 12)) d o = call_op heed_impl d o
  /\ heed_triples (snd (call_op heed_impl d o)) (lit "n") = Ok []
  /\ call_op (heed_impl_w (Some 11)) d o = (Ok tt, d)
  /\ call_op (heed_impl_w (Some 5)) d o = (Panic PTodo, d)
  /\ call_op (heed_impl_w (Some 5)) d (ORem (lit "n") [t1; Trip (lit "b") (lit "b") (lit "a")]) = (Panic PTodo, d)
  /\ call_op (heed_impl_w (Some 1)) d (ORemColl (lit "n")) = (Ok tt, d)
  /\ call_op (heed_impl_w (Some 0)) d (ORemColl (lit "n")) = (Panic PUnwrap, d).
Proof. vm_compute. repeat split. Qed.
