(** * Properties of the LMDB triple store (trips/src/heed.rs)

    A history is a list of calls, each with the outcome of the commit it makes;
    [sure h] is the history in which every commit succeeds. *)
From Coq Require Import List Arith NArith Bool String.
From Verif Require Import M_Base M_Data M_Heed S_Order S_Store S_Codec S_Str
  P_Ord P_Hist P_Codec P_Heed P_HeedHist P_HeedMore.
Import ListNotations.
Open Scope list_scope.

Definition hx_a : trip := Trip (lit "a") (lit "b") (lit "c").
Definition hx_b : trip := Trip (lit "a") (lit "b") (lit "d").

(** A sample history: the third call's commit fails. *)
Definition hx : list (op * bool) :=
  [(OAddColl (lit "n"), true); (OAdd (lit "n") [hx_a; hx_b], true); (OAddColl (lit "lost"), false);
   (OAddColl (lit "m"), true); (ORem (lit "n") [hx_b], true); (OAdd (lit "m") [hx_b], true)].

(** The LMDB store after a history, starting from a fresh environment. *)
Definition lmdb (h : list (op * bool)) : heed := after_f heed_impl_c heed_new h.

(** C02.  Adding an existing collection answers Ok and changes nothing at all. *)
Theorem C02_heed_add_collection_idempotent : forall h c b,
  has heed_impl (lmdb h) c -> call_op (heed_impl_c b) (lmdb h) (OAddColl c) = (Ok tt, lmdb h).
Proof. exact heed_add_existing. Qed.
Print Assumptions C02_heed_add_collection_idempotent.

Example C02_heed_case : has heed_impl (lmdb hx) (lit "n") /\ holds heed_impl (lmdb hx) (lit "n") hx_a.
Proof.
  split; eexists; (split; [vm_compute; reflexivity|]); vm_compute; auto.
Qed.

(** C06.  A write to a missing collection panics instead of returning Err. *)
Theorem C06_heed_write_to_missing_panics : forall h c ts b,
  ~ has heed_impl (lmdb h) c ->
  call_op (heed_impl_c b) (lmdb h) (OAdd c ts) = (Panic PTodo, lmdb h)
  /\ call_op (heed_impl_c b) (lmdb h) (ORem c ts) = (Panic PTodo, lmdb h).
Proof. exact heed_write_missing. Qed.
Print Assumptions C06_heed_write_to_missing_panics.

Theorem C06_heed_write_to_missing_refuted :
  exists h c ts,
    ~ has heed_impl (lmdb h) c
    /\ (forall e, fst (call_op heed_impl (lmdb h) (OAdd c ts)) <> Err e)
    /\ (forall e, fst (call_op heed_impl (lmdb h) (ORem c ts)) <> Err e).
Proof.
  exists hx, (lit "lost"), [hx_a]. split; [|split; intros e E; vm_compute in E; discriminate E].
  intros (l & E & H). vm_compute in E. injection E as <-. revert H. not_in.
Qed.
Print Assumptions C06_heed_write_to_missing_refuted.

(** C15 (and C07 for LMDB), general form.  Whatever calls were made, with
    whatever commit outcomes, the store shows the contract's meaning of the
    calls that answered Ok and were committed; names that are not storable keys
    are never there. *)
Theorem C15_heed_contents_with_faults : forall h,
  let H := installed heed_impl_c heed_new h in
  (exists l, t_collections heed_impl (lmdb h) = Ok l /\ is_set str_lt l
             /\ forall c, In c l <-> storable c /\ live H c)
  /\ (forall c, storable c -> live H c ->
      exists l, t_triples heed_impl (lmdb h) c = Ok l /\ is_set trip_lt l
                /\ forall t, In t l <-> holds_after H c t)
  /\ (forall c, ~ (storable c /\ live H c) -> exists w, t_triples heed_impl (lmdb h) c = Panic w).
Proof. exact heed_history. Qed.
Print Assumptions C15_heed_contents_with_faults.

(** C15.  All commits succeed and all names used for collections are storable:
    exactly the contract applied to the calls that answered Ok. *)
Theorem C15_heed_contents_by_history : forall h,
  (forall c, In (OAddColl c) h -> storable c) ->
  let d := after heed_impl heed_new h in
  let H := acked heed_impl heed_new h in
  (exists l, t_collections heed_impl d = Ok l /\ is_set str_lt l /\ forall c, In c l <-> live H c)
  /\ (forall c, live H c ->
      exists l, t_triples heed_impl d c = Ok l /\ is_set trip_lt l /\ forall t, In t l <-> holds_after H c t)
  /\ (forall c, ~ live H c -> exists w, t_triples heed_impl d c = Panic w).
Proof. exact heed_history_sure. Qed.
Print Assumptions C15_heed_contents_by_history.

(** C07 for LMDB. *)
Theorem C07_heed_collections : forall h,
  (forall c, In (OAddColl c) h -> storable c) ->
  exists l, t_collections heed_impl (after heed_impl heed_new h) = Ok l
            /\ is_set str_lt l /\ forall c, In c l <-> live (acked heed_impl heed_new h) c.
Proof. exact (fun h H => proj1 (heed_history_sure h H)). Qed.
Print Assumptions C07_heed_collections.

Example C15_case :
  installed heed_impl_c heed_new hx
  = [OAddColl (lit "n"); OAdd (lit "n") [hx_a; hx_b]; OAddColl (lit "m"); ORem (lit "n") [hx_b];
     OAdd (lit "m") [hx_b]]
  /\ t_collections heed_impl (lmdb hx) = Ok [lit "m"; lit "n"]
  /\ t_triples heed_impl (lmdb hx) (lit "n") = Ok [hx_a].
Proof. split; [|split]; vm_compute; reflexivity. Qed.

Example C15_case_names : forall c, In (OAddColl c) (map fst hx) -> storable c.
Proof.
  intros c H. simpl in H. repeat (destruct H as [H|H]; [try discriminate H; injection H as <-|]); try destruct H;
  split; vm_compute; auto; discriminate.
Qed.

(** C12.  The row key of four ids. *)
Theorem C12_row_key_decodes : forall a b c d,
  is_u64 a -> is_u64 b -> is_u64 c -> is_u64 d ->
  exists k, merge_arrays (to_be_bytes a) (to_be_bytes b) (to_be_bytes c) (to_be_bytes d) = Some k
            /\ List.length k = 32 /\ row_of k a b c d /\ decode_row k = Some (a, b, c, d).
Proof. exact row_key_code. Qed.
Print Assumptions C12_row_key_decodes.

Theorem C12_row_key_injective : forall k a b c d a' b' c' d',
  row_of k a b c d -> row_of k a' b' c' d' -> a = a' /\ b = b' /\ c = c' /\ d = d'.
Proof. exact row_of_fun. Qed.
Print Assumptions C12_row_key_injective.

Theorem C12_row_key_order : forall k k' a b c d a' b' c' d',
  row_of k a b c d -> row_of k' a' b' c' d' ->
  (bytes_lt k k' <-> lex N.lt [a; b; c; d] [a'; b'; c'; d']).
Proof. exact row_of_order. Qed.
Print Assumptions C12_row_key_order.

Theorem C12_read_id : forall l,
  (List.length l = 8 -> read_id l = Some (be_value l)) /\ (8 < List.length l -> read_id l = None).
Proof. exact (fun l => conj (read_id_8 l) (read_id_long l)). Qed.
Print Assumptions C12_read_id.

Example C12_case : exists k, row_of k 1 256 18446744073709551615 0 /\ nth 15 k 9%N = 0%N /\ nth 14 k 9%N = 1%N.
Proof.
  destruct (row_key_code 1 256 18446744073709551615 0) as (k & E & _ & H & _); try reflexivity.
  exists k. split; [exact H|]. vm_compute in E. injection E as <-. split; reflexivity.
Qed.

(** C13.  The six index tables hold the same rows, each in its own order, and
    only 32-byte row keys. *)
Theorem C13_heed_indexes_agree : forall h,
  let d := lmdb h in
  (forall c f s t,
     let here := exists r, In r (h_cfst d) /\ row_of r c f s t in
     (here <-> exists r, In r (h_cfts d) /\ row_of r c f t s)
     /\ (here <-> exists r, In r (h_csft d) /\ row_of r c s f t)
     /\ (here <-> exists r, In r (h_cstf d) /\ row_of r c s t f)
     /\ (here <-> exists r, In r (h_ctfs d) /\ row_of r c t f s)
     /\ (here <-> exists r, In r (h_ctsf d) /\ row_of r c t s f))
  /\ (forall r, In r (h_cfst d) \/ In r (h_cfts d) \/ In r (h_csft d)
                \/ In r (h_cstf d) \/ In r (h_ctfs d) \/ In r (h_ctsf d) ->
      exists a b c e, row_of r a b c e).
Proof. exact heed_indexes. Qed.
Print Assumptions C13_heed_indexes_agree.

Example C13_case : exists r, In r (h_ctsf (lmdb hx)).
Proof. eexists. vm_compute. left. reflexivity. Qed.

(** C14.  Dictionaries agree, ids are bounded by the counter, the counter never
    decreases. *)
Theorem C14_heed_dictionary : forall h,
  let d := lmdb h in
  let bounded (i : N) := exists k, In (id_key, k) (h_ids d) /\ (i <= k)%N in
  (forall c i, In (c, i) (h_c2i d) -> In (i, c) (h_i2c d) /\ bounded i)
  /\ (forall i c, In (i, c) (h_i2c d) -> bounded i)
  /\ (forall v i, In (v, i) (h_v2i d) -> In (i, v) (h_i2v d) /\ bounded i)
  /\ (forall i v, In (i, v) (h_i2v d) -> bounded i /\ (storable v -> In (v, i) (h_v2i d)))
  /\ (forall r a b c e, In r (h_cfst d) -> row_of r a b c e ->
      bounded a /\ (exists x, In (b, x) (h_i2v d)) /\ (exists x, In (c, x) (h_i2v d)) /\ (exists x, In (e, x) (h_i2v d))).
Proof. exact heed_dictionary. Qed.
Print Assumptions C14_heed_dictionary.

Theorem C14_heed_counter_monotone : forall h h' k k',
  In (id_key, k) (h_ids (lmdb h)) -> In (id_key, k') (h_ids (lmdb (h ++ h'))) -> (k <= k')%N.
Proof. exact heed_counter_monotone. Qed.
Print Assumptions C14_heed_counter_monotone.

Example C14_case : In (id_key, 5%N) (h_ids (lmdb hx)) /\ In (lit "d", 4%N) (h_v2i (lmdb hx)).
Proof. split; vm_compute; auto 10. Qed.

(** C16.  Removing a collection and adding it again gives an empty one. *)
Theorem C16_heed_recreated_is_empty : forall h c,
  has heed_impl (lmdb h) c ->
  (total_weight (map fst h) + 1 < 2 ^ 64)%N ->
  let r1 := call_op heed_impl (lmdb h) (ORemColl c) in
  let r2 := call_op heed_impl (snd r1) (OAddColl c) in
  fst r1 = Ok tt /\ fst r2 = Ok tt /\ has heed_impl (snd r2) c /\ t_triples heed_impl (snd r2) c = Ok [].
Proof. exact heed_recreate. Qed.
Print Assumptions C16_heed_recreated_is_empty.

Example C16_case : has heed_impl (lmdb hx) (lit "n") /\ (total_weight (map fst hx) + 1 < 2 ^ 64)%N.
Proof. split; [exact (proj1 C02_heed_case)|reflexivity]. Qed.

(** C17.  A call either leaves the database as it was, or answered Ok, was
    committed and had its full effect. *)
Theorem C17_heed_atomic : forall h o b,
  let H := installed heed_impl_c heed_new h in
  let r := fst (call_op (heed_impl_c b) (lmdb h) o) in
  let d' := snd (call_op (heed_impl_c b) (lmdb h) o) in
  (d' = lmdb h
   \/ (r = Ok tt /\ b = true
       /\ (forall c, has heed_impl d' c <-> storable c /\ live (H ++ [o]) c)
       /\ (forall c t, holds heed_impl d' c t <-> holds_after (H ++ [o]) c t)))
  /\ (r <> Ok tt -> d' = lmdb h) /\ (b = false -> d' = lmdb h).
Proof. exact heed_atomic. Qed.
Print Assumptions C17_heed_atomic.

Example C17_case :
  let o := ORem (lit "n") [hx_a; Trip (lit "never") (lit "b") (lit "c")] in
  call_op heed_impl (lmdb hx) o = (Panic PTodo, lmdb hx).
Proof. vm_compute. reflexivity. Qed.

(** C18.  As stated it is false: the result of the commit is ignored, so a call
    whose commit fails answers Ok although nothing was written. *)
Theorem C18_heed_ok_means_durable_refuted :
  exists h c t,
    fst (call_op (heed_impl_c false) (lmdb h) (OAdd c [t])) = Ok tt
    /\ ~ holds heed_impl (snd (call_op (heed_impl_c false) (lmdb h) (OAdd c [t]))) c t.
Proof.
  exists hx, (lit "m"), hx_a. split; [vm_compute; reflexivity|].
  intros (l & E & H). vm_compute in E. injection E as <-. revert H. not_in.
Qed.
Print Assumptions C18_heed_ok_means_durable_refuted.

(** C18, what holds: a committed write stays, through any later calls and commit
    failures, until a call removes it. *)
Theorem C18_heed_committed_triples_stay : forall h c ts t h',
  fst (call_op heed_impl (lmdb h) (OAdd c ts)) = Ok tt -> In t ts ->
  (forall o b, In (o, b) h' -> ~ removes c t o) ->
  holds heed_impl (lmdb (h ++ (OAdd c ts, true) :: h')) c t.
Proof. exact heed_durable. Qed.
Print Assumptions C18_heed_committed_triples_stay.

Theorem C18_heed_committed_collection_stays : forall h c h',
  fst (call_op heed_impl (lmdb h) (OAddColl c)) = Ok tt -> storable c ->
  (forall b, ~ In (ORemColl c, b) h') ->
  has heed_impl (lmdb (h ++ (OAddColl c, true) :: h')) c.
Proof. exact heed_durable_coll. Qed.
Print Assumptions C18_heed_committed_collection_stays.

Example C18_case :
  fst (call_op heed_impl (lmdb hx) (OAdd (lit "m") [hx_a])) = Ok tt
  /\ (forall o b, In (o, b) [(ORem (lit "m") [hx_b], false); (ORemColl (lit "n"), true)] -> ~ removes (lit "m") hx_a o).
Proof.
  split; [vm_compute; reflexivity|]. intros o b [E|[E|[]]] R; injection E as <- <-; inversion R; subst.
  match goal with H : In _ _ |- _ => revert H; not_in end.
Qed.

(** C19.  As stated it is false: an empty (or over-long) name answers Ok and is
    not stored. *)
Theorem C19_heed_any_name_refuted :
  exists c, fst (call_op heed_impl heed_new (OAddColl c)) = Ok tt
            /\ ~ has heed_impl (snd (call_op heed_impl heed_new (OAddColl c))) c.
Proof.
  exists []. split; [vm_compute; reflexivity|].
  intros (l & E & H). vm_compute in E. injection E as <-. exact H.
Qed.
Print Assumptions C19_heed_any_name_refuted.

(** C19, exactly: it is listed iff it is one to 511 bytes long. *)
Theorem C19_heed_listed_iff_storable : forall h c,
  fst (call_op heed_impl (lmdb h) (OAddColl c)) = Ok tt ->
  (has heed_impl (snd (call_op heed_impl (lmdb h) (OAddColl c))) c <-> storable c).
Proof. exact heed_add_collection_listed. Qed.
Print Assumptions C19_heed_listed_iff_storable.

Example C19_case : storable (lit "n") /\ ~ storable (repeat 97%N 512).
Proof. split; [split; vm_compute; auto; discriminate|]. intros [_ H]. vm_compute in H. auto. Qed.

(** C20.  What every call answers, as long as fewer than 2^64 ids were used. *)
Theorem C20_heed_answers : forall h o b,
  (total_weight (map fst h ++ [o]) < 2 ^ 64)%N ->
  let d := lmdb h in
  let H := installed heed_impl_c heed_new h in
  let r := fst (call_op (heed_impl_c b) d o) in
  match o with
  | OAddColl c => r = Ok tt
  | ORemColl c | OAdd c _ =>
      (has heed_impl d c -> r = Ok tt) /\ (~ has heed_impl d c -> r = Panic PTodo)
  | ORem c ts =>
      (has heed_impl d c /\ (forall v, part_of v ts -> storable v /\ mentioned H v) -> r = Ok tt)
      /\ (~ (has heed_impl d c /\ (forall v, part_of v ts -> storable v /\ mentioned H v)) -> r = Panic PTodo)
  end.
Proof. exact heed_answers. Qed.
Print Assumptions C20_heed_answers.

Theorem C20_heed_triples_missing : forall h c,
  (has heed_impl (lmdb h) c -> exists l, t_triples heed_impl (lmdb h) c = Ok l)
  /\ (~ has heed_impl (lmdb h) c -> t_triples heed_impl (lmdb h) c = Panic PTodo).
Proof. exact heed_triples_missing. Qed.
Print Assumptions C20_heed_triples_missing.

Example C20_case :
  fst (call_op heed_impl (lmdb hx) (ORem (lit "m") [hx_a])) = Ok tt
  /\ fst (call_op heed_impl (lmdb hx) (ORem (lit "m") [Trip (lit "a") (lit "b") (lit "n")])) = Panic PTodo
  /\ fst (call_op heed_impl (lmdb hx) (ORemColl (lit "lost"))) = Panic PTodo.
Proof. split; [|split]; vm_compute; reflexivity. Qed.

(** C21.  As stated it is false: removing a collection leaves its rows behind. *)
Theorem C21_heed_remove_frees_rows_refuted :
  exists h c i r a b e,
    In (c, i) (h_c2i (lmdb h))
    /\ fst (call_op heed_impl (lmdb h) (ORemColl c)) = Ok tt
    /\ row_of r i a b e /\ In r (h_cfst (snd (call_op heed_impl (lmdb h) (ORemColl c)))).
Proof.
  exists hx, (lit "n"), 0%N.
  destruct (row_key_code 0 1 2 3) as (k & E & _ & H & _); try reflexivity.
  exists k, 1%N, 2%N, 3%N. split; [vm_compute; auto|]. split; [vm_compute; reflexivity|].
  split; [exact H|]. vm_compute in E. injection E as <-. vm_compute. left. reflexivity.
Qed.
Print Assumptions C21_heed_remove_frees_rows_refuted.

(** C21, exactly: it never changes an index table or a dictionary. *)
Theorem C21_heed_remove_keeps_rows : forall h c b,
  let d := lmdb h in
  let d' := snd (call_op (heed_impl_c b) d (ORemColl c)) in
  h_cfst d' = h_cfst d /\ h_cfts d' = h_cfts d /\ h_csft d' = h_csft d
  /\ h_cstf d' = h_cstf d /\ h_ctfs d' = h_ctfs d /\ h_ctsf d' = h_ctsf d
  /\ h_v2i d' = h_v2i d /\ h_i2v d' = h_i2v d.
Proof. exact heed_remove_keeps_rows. Qed.
Print Assumptions C21_heed_remove_keeps_rows.
