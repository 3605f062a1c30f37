(** * Properties: what is in an LMDB file (trips/src/heed.rs on bytes)

    [M_HeedBytes] models heed.rs over tables of byte strings, with every encoding
    and decoding.  Names are strings a Rust [String] can hold ([valid_history]). *)
From Coq Require Import List Arith NArith Bool String.
From Verif Require Import M_Base M_Data M_Heed M_HeedBytes S_Order S_Store S_Codec S_Str S_HeedBytes
  P_Ord P_Hist P_HeedHist P_HeedBytes Prop_Heed.
Import ListNotations.
Open Scope list_scope.

(** The file after a history of calls and commit outcomes on a fresh environment. *)
Definition lmdb_file (h : list (op * bool)) : heedb := after_f heedb_impl_c heedb_new h.

(** C102.  The store on bytes shows the contract's meaning of the calls that
    answered Ok and were committed. *)
Theorem C102_contents : forall h, valid_history h ->
  let H := installed heedb_impl_c heedb_new h in
  (exists l, t_collections heedb_impl (lmdb_file h) = Ok l /\ is_set str_lt l
             /\ forall c, In c l <-> storable c /\ live H c)
  /\ (forall c, valid_str c -> storable c -> live H c ->
      exists l, t_triples heedb_impl (lmdb_file h) c = Ok l /\ is_set trip_lt l
                /\ forall t, In t l <-> holds_after H c t)
  /\ (forall c, valid_str c -> ~ (storable c /\ live H c) ->
      exists w, t_triples heedb_impl (lmdb_file h) c = Panic w).
Proof. exact file_contents. Qed.
Print Assumptions C102_contents.

(** C102.  What the records are: a live collection has a record under its UTF-8
    name; a triple is in a collection exactly if there is an index row made of the
    collection's id and three ids under which its three components are recorded. *)
Theorem C102_records : forall h, valid_history h ->
  let H := installed heedb_impl_c heedb_new h in
  let f := lmdb_file h in
  (forall c, valid_str c -> (storable c /\ live H c <-> exists id, record (b_c2i f) (utf8 c) id))
  /\ (forall c t, valid_str c -> valid_trip t ->
      (holds_after H c t <->
       exists lc lf ls lt, record (b_c2i f) (utf8 c) lc
         /\ record (b_i2v f) lf (utf8 (t0 t)) /\ record (b_i2v f) ls (utf8 (t1 t))
         /\ record (b_i2v f) lt (utf8 (t2 t))
         /\ record (b_cfst f) (lc ++ lf ++ ls ++ lt) [])).
Proof. exact file_records. Qed.
Print Assumptions C102_records.

(** C102.  The shape of the file: one counter; ids of eight bytes; both
    dictionaries written in both directions; index rows of 32 bytes without data,
    the same rows in each of the six orders. *)
Theorem C102_shape : forall h, valid_history h ->
  let f := lmdb_file h in
  (forall k v, record (b_ids f) k v -> k = utf8 (lit "id") /\ List.length v = 8)
  /\ (forall k v, record (b_c2i f) k v -> (0 < List.length k <= 511 /\ List.length v = 8) /\ record (b_i2c f) v k)
  /\ (forall k v, record (b_i2c f) k v -> List.length k = 8)
  /\ (forall k v, record (b_v2i f) k v -> (0 < List.length k <= 511 /\ List.length v = 8) /\ record (b_i2v f) v k)
  /\ (forall k v, record (b_i2v f) k v -> List.length k = 8 /\ (0 < List.length v <= 511 -> record (b_v2i f) v k))
  /\ (forall t, In t [b_cfst f; b_cfts f; b_csft f; b_cstf f; b_ctfs f; b_ctsf f] ->
      forall k v, record t k v -> List.length k = 32 /\ v = [])
  /\ (forall a b c d, List.length a = 8 -> List.length b = 8 -> List.length c = 8 -> List.length d = 8 ->
      let here := record (b_cfst f) (a ++ b ++ c ++ d) [] in
      (here <-> record (b_cfts f) (a ++ b ++ d ++ c) [])
      /\ (here <-> record (b_csft f) (a ++ c ++ b ++ d) [])
      /\ (here <-> record (b_cstf f) (a ++ c ++ d ++ b) [])
      /\ (here <-> record (b_ctfs f) (a ++ d ++ b ++ c) [])
      /\ (here <-> record (b_ctsf f) (a ++ d ++ c ++ b) [])).
Proof. exact file_shape. Qed.
Print Assumptions C102_shape.

(** C102.  Every table is strictly increasing in byte order. *)
Theorem C102_sorted : forall h t, valid_history h -> In t (tables (lmdb_file h)) ->
  is_set bytes_lt (map fst t).
Proof. exact file_sorted. Qed.
Print Assumptions C102_sorted.

(** C102.  The file is the store of [M_Heed], written down record by record, and
    every call answers as [M_Heed] says: what C12-C19 and the others prove of that
    store is true of the file. *)
Theorem C102_written : forall h, valid_history h -> written (lmdb_file h) (lmdb h).
Proof. exact file_written. Qed.
Print Assumptions C102_written.

Theorem C102_answers : forall h b o c, valid_history h -> valid_op o -> valid_str c ->
  fst (call_op (heedb_impl_c b) (lmdb_file h) o) = fst (call_op (heed_impl_c b) (lmdb h) o)
  /\ t_collections (heedb_impl_c b) (lmdb_file h) = t_collections (heed_impl_c b) (lmdb h)
  /\ t_triples (heedb_impl_c b) (lmdb_file h) c = t_triples (heed_impl_c b) (lmdb h) c.
Proof. exact file_answers. Qed.
Print Assumptions C102_answers.

(** C102.  Any file at all, whoever wrote it: a listing that succeeds lists
    exactly the keys of the collection table, one by one; it fails only with a
    panic, and then some key is not UTF-8 or some id is too short. *)
Theorem C102_any_file_names : forall b,
  (exists l, t_collections heedb_impl b = Ok l /\ map fst (b_c2i b) = map utf8 l /\ Forall valid_str l)
  \/ (t_collections heedb_impl b = Panic PUnwrap
      /\ exists k v, record (b_c2i b) k v
         /\ ((forall s, valid_str s -> utf8 s <> k) \/ List.length v < 8)).
Proof.
  intros b. destruct (names_loop_fails (b_c2i b) []) as [[l E]|H]; [left|right; exact H].
  exists l. split; [exact E|]. destruct (names_loop_any _ _ _ E) as (m & -> & Hm & Vm). auto.
Qed.
Print Assumptions C102_any_file_names.

(** C102.  Any file at all: reading a collection invents nothing. *)
Theorem C102_any_file_triples : forall b c l, file_of_bytes b -> t_triples heedb_impl b c = Ok l ->
  exists lc more, List.length lc = 8 /\ record (b_c2i b) (utf8 c) (lc ++ more)
    /\ forall t, In t l -> valid_trip t
       /\ exists lf ls lt rest, List.length lf = 8 /\ List.length ls = 8 /\ List.length lt = 8
          /\ record (b_cfst b) (lc ++ lf ++ ls ++ lt ++ rest) []
          /\ record (b_i2v b) lf (utf8 (t0 t)) /\ record (b_i2v b) ls (utf8 (t1 t))
          /\ record (b_i2v b) lt (utf8 (t2 t)).
Proof. exact triples_any. Qed.
Print Assumptions C102_any_file_triples.

(** A case: a history with a lost commit and a two-byte letter, and its file. *)
Definition hb : list (op * bool) :=
  [(OAddColl [233%N], true); (OAddColl (lit "x"), false); (OAdd [233%N] [Trip (lit "a") (lit "a") (lit "b")], true)].

Example C102_case :
  valid_history hb
  /\ lmdb_file hb
     = (HeedB [([105; 100], [0; 0; 0; 0; 0; 0; 0; 2])]
         [([195; 169], [0; 0; 0; 0; 0; 0; 0; 0])] [([0; 0; 0; 0; 0; 0; 0; 0], [195; 169])]
         [([97], [0; 0; 0; 0; 0; 0; 0; 1]); ([98], [0; 0; 0; 0; 0; 0; 0; 2])]
         [([0; 0; 0; 0; 0; 0; 0; 1], [97]); ([0; 0; 0; 0; 0; 0; 0; 2], [98])]
         [([0; 0; 0; 0; 0; 0; 0; 0; 0; 0; 0; 0; 0; 0; 0; 1; 0; 0; 0; 0; 0; 0; 0; 1; 0; 0; 0; 0; 0; 0; 0; 2], [])]
         [([0; 0; 0; 0; 0; 0; 0; 0; 0; 0; 0; 0; 0; 0; 0; 1; 0; 0; 0; 0; 0; 0; 0; 2; 0; 0; 0; 0; 0; 0; 0; 1], [])]
         [([0; 0; 0; 0; 0; 0; 0; 0; 0; 0; 0; 0; 0; 0; 0; 1; 0; 0; 0; 0; 0; 0; 0; 1; 0; 0; 0; 0; 0; 0; 0; 2], [])]
         [([0; 0; 0; 0; 0; 0; 0; 0; 0; 0; 0; 0; 0; 0; 0; 1; 0; 0; 0; 0; 0; 0; 0; 2; 0; 0; 0; 0; 0; 0; 0; 1], [])]
         [([0; 0; 0; 0; 0; 0; 0; 0; 0; 0; 0; 0; 0; 0; 0; 2; 0; 0; 0; 0; 0; 0; 0; 1; 0; 0; 0; 0; 0; 0; 0; 1], [])]
         [([0; 0; 0; 0; 0; 0; 0; 0; 0; 0; 0; 0; 0; 0; 0; 2; 0; 0; 0; 0; 0; 0; 0; 1; 0; 0; 0; 0; 0; 0; 0; 1], [])])%N
  /\ t_triples heedb_impl (lmdb_file hb) [233%N] = Ok [Trip (lit "a") (lit "a") (lit "b")].
Proof.
  split; [|split; vm_compute; reflexivity].
  repeat constructor; try (left; reflexivity); right; split; discriminate.
Qed.

(** A file nobody would write: a name that is not UTF-8. *)
Example C102_broken_case :
  t_collections heedb_impl (HeedB [] [([255%N], [])] [] [] [] [] [] [] [] [] []) = Panic PUnwrap.
Proof. reflexivity. Qed.
