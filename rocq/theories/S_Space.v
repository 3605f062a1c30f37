(** * Specification vocabulary: how much is stored *)
From Coq Require Import List NArith Bool.
From Verif Require Import M_Base M_Data M_Mem M_Heed S_Order S_Str S_Store.
Import ListNotations.
Open Scope list_scope.

(** There are exactly [n] things with [P]. *)
Definition number {A : Type} (P : A -> Prop) (n : nat) : Prop :=
  exists l, NoDup l /\ (forall x, In x l <-> P x) /\ List.length l = n.

(** A triple and the collection it is in after [H], by the trait's contract, and
    in the in-memory store. *)
Definition kept (H : list op) (p : str * trip) : Prop := holds_after H (fst p) (snd p).
Definition mem_kept (H : list op) (p : str * trip) : Prop := mem_holds_after H (fst p) (snd p).

(** How many triples were still in collections when these were removed. *)
Inductive abandoned : list op -> nat -> Prop :=
| ab_none : abandoned [] 0
| ab_remove H c n k : abandoned H n -> number (holds_after H c) k -> abandoned (H ++ [ORemColl c]) (n + k)
| ab_other H o n : abandoned H n -> (forall c, o <> ORemColl c) -> abandoned (H ++ [o]) n.

(** How many times a collection was created, that is, added when it was not there. *)
Inductive creations : list op -> nat -> Prop :=
| cr_none : creations [] 0
| cr_new H c n : creations H n -> ~ live H c -> creations (H ++ [OAddColl c]) (S n)
| cr_other H o n : creations H n -> (forall c, o = OAddColl c -> live H c) -> creations (H ++ [o]) n.

(** All names used are storable keys. *)
Definition storable_history (H : list op) : Prop :=
  (forall c, In (OAddColl c) H -> storable c) /\ (forall v, mentioned H v -> storable v).

(** An adding of a triple that no later call took back: the [j]-th triple of the
    [i]-th call. *)
Definition standing (H : list op) (p : nat * nat) : Prop :=
  exists h1 c ts t h2, H = h1 ++ OAdd c ts :: h2 /\ List.length h1 = fst p
    /\ nth_error ts (snd p) = Some t /\ forall o, In o h2 -> ~ removes c t o.

(** The calls [h], made [n] times over. *)
Fixpoint times (n : nat) (h : list op) : list op :=
  match n with O => [] | S m => times m h ++ h end.

(** How many records each of the eleven tables of an LMDB file has: the six
    indexes, the four dictionaries, the counter. *)
Definition heed_sizes (d : heed) : list nat :=
  map (fun t : list _ => List.length t) [h_cfst d; h_cfts d; h_csft d; h_cstf d; h_ctfs d; h_ctsf d]
  ++ [List.length (h_v2i d); List.length (h_i2v d); List.length (h_c2i d); List.length (h_i2c d); List.length (h_ids d)].

(** How many triples the maps of an in-memory store hold together. *)
Definition mem_total (s : mem) : nat := fold_right (fun e n => List.length (snd e) + n) 0 s.
