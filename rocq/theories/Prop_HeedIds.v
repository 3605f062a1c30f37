(** * C14, more: LMDB numbers are never reused *)
From Coq Require Import List Arith NArith Bool String.
From Verif Require Import M_Base M_Data M_Heed S_Order S_Store S_Codec S_Str P_Ord P_Hist P_Codec P_Heed P_HeedHist P_HeedIds Prop_Heed.
Import ListNotations.
Open Scope list_scope.

(** C14.  Whatever happens later, a number that was a collection's is never
    another's, a number that was a word's is never another's, and words keep their
    numbers for ever. *)
Theorem C14_heed_ids_not_reused : forall h h',
  let d := lmdb h in let d' := lmdb (h ++ h') in
  (forall c c' i, In (c, i) (h_c2i d) -> In (c', i) (h_c2i d') -> c' = c)
  /\ (forall v v' i, In (v, i) (h_v2i d) -> In (v', i) (h_v2i d') -> v' = v)
  /\ (forall v i, In (v, i) (h_v2i d) -> In (v, i) (h_v2i d'))
  /\ (forall v i, In (i, v) (h_i2v d) -> In (i, v) (h_i2v d'))
  /\ (forall v v' i, In (i, v) (h_i2v d) -> In (i, v') (h_i2v d') -> v' = v).
Proof. exact ids_once. Qed.
Print Assumptions C14_heed_ids_not_reused.

(** A collection that was removed and is there again has a new, greater number. *)
Theorem C14_heed_recreated_number : forall h h1 h2 c i j,
  In (c, i) (h_c2i (lmdb h)) -> ~ has heed_impl (lmdb (h ++ h1)) c -> In (c, j) (h_c2i (lmdb ((h ++ h1) ++ h2))) -> (i < j)%N.
Proof. exact ids_renewed. Qed.
Print Assumptions C14_heed_recreated_number.

Example C14_numbers_case :
  let h1 := [(ORemColl (lit "n"), true)] in
  let h2 := [(OAddColl (lit "n"), false); (OAddColl (lit "n"), true)] in
  In (lit "n", 0%N) (h_c2i (lmdb hx)) /\ ~ has heed_impl (lmdb (hx ++ h1)) (lit "n")
  /\ In (lit "n", 6%N) (h_c2i (lmdb ((hx ++ h1) ++ h2))).
Proof.
  split; [vm_compute; auto|]. split; [|vm_compute; auto].
  intros X. apply heed_has in X as [i E]. vm_compute in E. discriminate.
Qed.

(** C07 for LMDB in full: also with failing commits, and with names LMDB cannot
    store, which are never there. *)
Theorem C07_heed_collections_all : forall h,
  exists l, t_collections heed_impl (lmdb h) = Ok l /\ is_set str_lt l
            /\ forall c, In c l <-> storable c /\ live (installed heed_impl_c heed_new h) c.
Proof. exact (fun h => proj1 (C15_heed_contents_with_faults h)). Qed.
Print Assumptions C07_heed_collections_all.
