(** * C121: the order DuckDB keeps rows in and the numbers it loses do not show *)
From Coq Require Import List Arith NArith Bool Lia String Permutation.
From Verif Require Import M_Base M_Data M_Duck M_DuckTxn M_DuckReal S_Order S_Store S_Equiv S_DuckReal P_Duck P_DuckReal.
Import ListNotations.
Open Scope list_scope.

(** C121.  At every statement the rows may have been put in another order,
    numbers may have been lost, and the statement may fail.  Whatever of that
    happens: a new store shows exactly what the calls that answered Ok mean,
    and a reading call that shows nothing is one whose own statement failed. *)
Theorem C121_contents : forall w h, harmless w ->
  let s := after (real_impl w) (duck_new, 0) h in
  let H := acked (real_impl w) (duck_new, 0) h in
  match t_collections (real_impl w) s with
  | Ok l => NoDup l /\ forall c, In c l <-> live H c
  | Err _ => False
  | Panic v => v = PUnwrap /\ w (snd s) = None
  end
  /\ forall c, match t_triples (real_impl w) s c with
     | Ok l => is_set trip_lt l /\ forall t, In t l <-> holds_after H c t
     | Err _ => False
     | Panic v => v = PUnwrap /\ w (snd s) = None
     end.
Proof. exact real_contents. Qed.
Print Assumptions C121_contents.

(** Where no statement fails, and the numbers used and lost are fewer than the
    sequence has, every call answers what it answers when rows stay in the order
    they were inserted in and no number is lost; the same calls count, and the
    reading calls show the same (collections: in some order). *)
Theorem C121_same_answers : forall w lost h, harmless w -> healthy w -> loses w lost ->
  let s := after (real_impl w) (duck_new, 0) h in
  (dtotal h + lost_by lost (snd s) < 2 ^ 63)%N ->
  answers_of (real_impl w) (duck_new, 0) h = answers_of duck_impl duck_new h
  /\ acked (real_impl w) (duck_new, 0) h = acked duck_impl duck_new h
  /\ (forall c, t_triples (real_impl w) s c = t_triples duck_impl (after duck_impl duck_new h) c)
  /\ exists l l', t_collections (real_impl w) s = Ok l
       /\ t_collections duck_impl (after duck_impl duck_new h) = Ok l' /\ Permutation l l'.
Proof.
  intros w lost h HW HH HL s B. destruct (real_same w lost h HW HH HL B) as [E1 E2].
  split; [exact E1|]. split; [exact E2|]. exact (real_same_reads w lost h HW HH HL B).
Qed.
Print Assumptions C121_same_answers.

(** The database of C22 is one of these (nothing happens of its own accord), and
    so is the one of C73 (the statements of a call fail from some point on). *)
Theorem C121_includes :
  (forall k, harmless (failing k)) /\ healthy (failing None)
  /\ (forall h, answers_of (real_impl (failing None)) (duck_new, 0) h = answers_of duck_impl duck_new h
        /\ fst (after (real_impl (failing None)) (duck_new, 0) h) = after duck_impl duck_new h)
  /\ (forall k d n o, n <= k ->
        let x := call_op (real_impl (failing (Some k))) (d, n) o in
        (fst x, fst (snd x)) = call_op (duck_impl_w (Some (k - n))) d o).
Proof.
  split; [exact failing_harmless|]. split; [intros n; discriminate|]. split.
  - intros h. apply real_calm.
  - intros k d n o H x. symmetry. exact (real_includes (Some k) d n o H).
Qed.
Print Assumptions C121_includes.

(** Rows turned round and three numbers lost at every statement: the tables differ
    from those of a quiet database, what is shown does not (collections come in
    the other order). *)
Example C121_case :
  let n := lit "n"%string in let m := lit "m"%string in
  let a := Trip (lit "a"%string) (lit "b"%string) (lit "c"%string) in
  let b := Trip (lit "c"%string) (lit "b"%string) (lit "a"%string) in
  let h := [OAddColl n; OAddColl m; OAdd n [a; b; a]; OAdd (lit "x"%string) [a]; ORemColl n; ORem n [b]; OAdd m [b]] in
  let s := after (real_impl restless) (duck_new, 0) h in
  (harmless restless /\ healthy restless /\ loses restless (fun _ => 3%N))
  /\ (dtotal h + lost_by (fun _ => 3%N) (snd s) < 2 ^ 63)%N
  /\ answers_of (real_impl restless) (duck_new, 0) h =
       [Ok tt; Ok tt; Ok tt; Err (lit "Collection x not found."%string); Panic PUnwrap; Ok tt; Ok tt]
  /\ fst s <> after duck_impl duck_new h
  /\ d_seq (after duck_impl duck_new h) = 18%N /\ d_seq (fst s) = 102%N
  /\ t_triples (real_impl restless) s n = Ok [a] /\ t_triples (real_impl restless) s m = Ok [b]
  /\ t_collections (real_impl restless) s = Ok [m; n]
  /\ t_collections duck_impl (after duck_impl duck_new h) = Ok [n; m].
Proof.
  split; [exact restless_harmless|]. split; [vm_compute; reflexivity|]. split; [vm_compute; reflexivity|].
  split; [intros E; apply (f_equal d_seq) in E; vm_compute in E; discriminate|].
  repeat match goal with |- _ /\ _ => split end; vm_compute; reflexivity.
Qed.
