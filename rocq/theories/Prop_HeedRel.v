(** * C122: debug and release builds of the LMDB store *)
From Coq Require Import List NArith Bool Lia String.
From Verif Require Import M_Base M_Data M_Heed M_HeedRel S_Order S_Store S_Equiv P_HeedRel.
Import ListNotations.
Open Scope list_scope.

(** C122.  On any database file a call does the same in both builds, unless the
    debug build panics because the numbers have run out (and changes nothing). *)
Theorem C122_same : forall commit d o,
  call_op (release_impl_c commit) d o = call_op (heed_impl_c commit) d o
  \/ call_op (heed_impl_c commit) d o = (Panic POverflow, d).
Proof. intros b d o. destruct (release_same b d o) as [E|E]; [left; symmetry|right]; exact E. Qed.
Print Assumptions C122_same.

(** Starting with an empty file, until 2^64 numbers have been used (one per
    collection, three per triple): the same answers and the same file. *)
Theorem C122_histories : forall h, (total_weight h <= 2 ^ 64)%N ->
  answers_of release_impl heed_new h = answers_of heed_impl heed_new h
  /\ after release_impl heed_new h = after heed_impl heed_new h
  /\ ~ In (Panic POverflow) (answers_of heed_impl heed_new h).
Proof.
  intros h B. destruct (release_histories h B) as [E1 E2]. split; [exact E1|]. split; [exact E2|]. apply debug_no_overflow, B.
Qed.
Print Assumptions C122_histories.

(** And not one number more.  There are calls, all of them answered Ok, that use
    up exactly 2^64 numbers, after which
    - the debug build answers the next new collection with a panic,
    - the release build answers Ok, and then shows a triple in that collection
      that nobody put there,
    - and with a new word added it has lost a triple nobody removed. *)
Theorem C122_wraps : exists h a m t u,
  let h1 := h ++ [OAddColl m] in
  let h2 := h ++ [OAddColl m; OAdd a [u]] in
  total_weight h = (2 ^ 64)%N
  /\ (forall r, In r (answers_of heed_impl heed_new h) -> r = Ok tt)
  /\ (forall r, In r (answers_of release_impl heed_new h2) -> r = Ok tt)
  /\ call_op heed_impl (after heed_impl heed_new h) (OAddColl m) = (Panic POverflow, after heed_impl heed_new h)
  /\ t_triples release_impl (after release_impl heed_new h1) m = Ok [t] /\ ~ holds_after h1 m t
  /\ t_triples release_impl (after release_impl heed_new h2) a = Ok [u] /\ u <> t /\ holds_after h2 a t.
Proof.
  exists (wear worn_out), wa, wm, wt, wu. destruct worn_out_ok as [E1 E2].
  destruct (wraps_from (wear worn_out) worn_out_weight E1 E2 (wear_holds worn_out)) as (A & B & C & D & E & F).
  split; [exact worn_out_weight|]. split; [exact E2|]. split; [exact B|]. split; [exact A|]. split; [exact C|].
  split; [exact D|]. split; [exact E|]. split; [discriminate|exact F].
Qed.
Print Assumptions C122_wraps.

(** However often the numbers have started again, a release build can read every
    collection it lists: each triple once, in their order. *)
Theorem C122_still_reads : forall h l c,
  let d := after release_impl heed_new h in
  t_collections release_impl d = Ok l -> In c l -> exists ts, t_triples release_impl d c = Ok ts /\ is_set trip_lt ts.
Proof. intros h l c d E Hi. apply release_readable. exists l. auto. Qed.
Print Assumptions C122_still_reads.

(** An ordinary history is far from the bound. *)
Example C122_case :
  let n := lit "n"%string in
  let h := [OAddColl n; OAdd n [Trip (lit "a") (lit "b") (lit "c")]; ORemColl n; OAddColl n; OAdd (lit "x") []] in
  (total_weight h <= 2 ^ 64)%N
  /\ answers_of release_impl heed_new h = [Ok tt; Ok tt; Ok tt; Ok tt; Panic PTodo]
  /\ t_triples release_impl (after release_impl heed_new h) n = Ok [].
Proof. cbv zeta. split; [vm_compute; discriminate|]. split; vm_compute; reflexivity. Qed.
