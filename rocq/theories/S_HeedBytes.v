(** * Specification vocabulary: the records of an LMDB file *)
From Coq Require Import List NArith.
From Verif Require Import M_Base M_Data M_Heed M_HeedBytes S_Str S_Codec S_Order S_Store.
Import ListNotations.
Open Scope list_scope.

(** A record of a table from names to ids, of one from ids to names, and of an
    index: names in UTF-8, ids as eight bytes, most significant first, index
    rows without data. *)
Definition name_id (r : bytes * bytes) (p : str * N) : Prop :=
  fst r = utf8 (fst p) /\ encodes (snd r) (snd p).
Definition id_name (r : bytes * bytes) (p : N * str) : Prop :=
  encodes (fst r) (fst p) /\ snd r = utf8 (snd p).
Definition row_only (r : bytes * bytes) (k : list N) : Prop := r = (k, []).

(** The file [b] is the written form of the store [d], record by record. *)
Record written (b : heedb) (d : heed) : Prop := {
  wr_ids : Forall2 name_id (b_ids b) (h_ids d);
  wr_c2i : Forall2 name_id (b_c2i b) (h_c2i d);
  wr_i2c : Forall2 id_name (b_i2c b) (h_i2c d);
  wr_v2i : Forall2 name_id (b_v2i b) (h_v2i d);
  wr_i2v : Forall2 id_name (b_i2v b) (h_i2v d);
  wr_cfst : Forall2 row_only (b_cfst b) (h_cfst d);
  wr_cfts : Forall2 row_only (b_cfts b) (h_cfts d);
  wr_csft : Forall2 row_only (b_csft b) (h_csft d);
  wr_cstf : Forall2 row_only (b_cstf b) (h_cstf d);
  wr_ctfs : Forall2 row_only (b_ctfs b) (h_ctfs d);
  wr_ctsf : Forall2 row_only (b_ctsf b) (h_ctsf d)
}.

(** All tables of a file. *)
Definition tables (b : heedb) : list btable :=
  [b_ids b; b_c2i b; b_i2c b; b_v2i b; b_i2v b;
   b_cfst b; b_cfts b; b_csft b; b_cstf b; b_ctfs b; b_ctsf b].

(** The record [k -> v] is in the table. *)
Definition record (t : btable) (k v : bytes) : Prop := In (k, v) t.

(** Names that a Rust string can hold. *)
Definition valid_trip (t : trip) : Prop := valid_str (t0 t) /\ valid_str (t1 t) /\ valid_str (t2 t).
Definition valid_op (o : op) : Prop :=
  match o with
  | OAddColl c | ORemColl c => valid_str c
  | OAdd c ts | ORem c ts => valid_str c /\ Forall valid_trip ts
  end.

Definition valid_history (h : list (op * bool)) : Prop := Forall (fun ob => valid_op (fst ob)) h.

(** Any file at all: eleven tables of byte strings. *)
Definition file_of_bytes (b : heedb) : Prop :=
  forall t, In t (tables b) -> forall k v, record t k v -> Forall is_byte k /\ Forall is_byte v.
