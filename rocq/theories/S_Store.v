(** * Specification vocabulary: stores, histories, patterns

    What a client of the [Trips] trait can do and see.  Only data types of the
    model are used, none of its functions. *)
From Coq Require Import List NArith Bool.
From Verif Require Import M_Base M_Data S_Order S_Str.
Import ListNotations.
Open Scope list_scope.

(** ** Calls and histories *)

(** The four writing calls of the trait. *)
Inductive op :=
| OAddColl (c : str)
| ORemColl (c : str)
| OAdd (c : str) (ts : list trip)
| ORem (c : str) (ts : list trip).

Section Impl.
  Context {S : Type} (I : trips_impl S).

  (** Make one call: its answer and the store afterwards. *)
  Definition call_op (s : S) (o : op) : tres unit * S :=
    match o with
    | OAddColl c => t_add_collection I s c
    | ORemColl c => t_remove_collection I s c
    | OAdd c ts => fst (t_add_triples I s c ts)
    | ORem c ts => fst (t_remove_triples I s c ts)
    end.

  (** The store after a history of calls, whatever they answered. *)
  Fixpoint after (s : S) (h : list op) : S :=
    match h with
    | [] => s
    | o :: r => after (snd (call_op s o)) r
    end.

  (** The calls of a history that answered [Ok]. *)
  Fixpoint acked (s : S) (h : list op) : list op :=
    match h with
    | [] => []
    | o :: r =>
        match call_op s o with
        | (Ok _, s') => o :: acked s' r
        | (_, s') => acked s' r
        end
    end.

  (** ** What a client sees *)

  (** The name [c] is listed. *)
  Definition has (s : S) (c : str) : Prop :=
    exists l, t_collections I s = Ok l /\ In c l.

  (** Reading [c] succeeds and shows [t]. *)
  Definition holds (s : S) (c : str) (t : trip) : Prop :=
    exists l, t_triples I s c = Ok l /\ In t l.

  (** Reading [c] succeeds. *)
  Definition readable (s : S) (c : str) : Prop := exists l, t_triples I s c = Ok l.

  (** Two stores look the same to every reading call. *)
  Definition looks_same (s s' : S) : Prop :=
    t_collections I s = t_collections I s'
    /\ (forall c, t_triples I s c = t_triples I s' c)
    /\ (forall c p, t_filter I s c p = t_filter I s' c p).

  (** Reading [c] gives the same answer in both stores. *)
  Definition same_at (s s' : S) (c : str) : Prop :=
    (has s c <-> has s' c) /\ t_triples I s c = t_triples I s' c
    /\ (forall p, t_filter I s c p = t_filter I s' c p).
End Impl.

(** ** Histories in which commits may fail

    Each call comes with the outcome of the commit it makes (if it makes one). *)
Section Faulty.
  Context {S : Type} (I : bool -> trips_impl S).

  Fixpoint after_f (s : S) (h : list (op * bool)) : S :=
    match h with
    | [] => s
    | (o, b) :: r => after_f (snd (call_op (I b) s o)) r
    end.

  (** The calls that answered [Ok] and whose commit succeeded. *)
  Fixpoint installed (s : S) (h : list (op * bool)) : list op :=
    match h with
    | [] => []
    | (o, b) :: r =>
        match call_op (I b) s o with
        | (Ok _, s') => if b then o :: installed s' r else installed s' r
        | (_, s') => installed s' r
        end
    end.
End Faulty.

(** ** What a history means *)

(** [c] was added, and not removed since. *)
Definition live (h : list op) (c : str) : Prop :=
  exists h1 h2, h = h1 ++ OAddColl c :: h2 /\ ~ In (ORemColl c) h2.

(** [t] was added to [c] when [c] was live, and nothing in [kills] happened since. *)
Definition added (kills : op -> Prop) (h : list op) (c : str) (t : trip) : Prop :=
  exists h1 ts h2,
    h = h1 ++ OAdd c ts :: h2 /\ In t ts /\ live h1 c /\ (forall o, In o h2 -> ~ kills o).

(** The trait's contract: removing the triple or the collection. *)
Inductive removes (c : str) (t : trip) : op -> Prop :=
| removes_triple ts : In t ts -> removes c t (ORem c ts)
| removes_coll : removes c t (ORemColl c).

(** The in-memory store: adding the collection again clears it, too. *)
Inductive clears (c : str) (t : trip) : op -> Prop :=
| clears_triple ts : In t ts -> clears c t (ORem c ts)
| clears_coll : clears c t (ORemColl c)
| clears_again : clears c t (OAddColl c).

(** Content of [c] after [h] by the contract, and in the in-memory store. *)
Definition holds_after (h : list op) (c : str) (t : trip) : Prop := added (removes c t) h c t.
Definition mem_holds_after (h : list op) (c : str) (t : trip) : Prop := added (clears c t) h c t.

(** [v] is a component of the triple, of one of the triples, of a triple some
    call added. *)
Definition part (v : str) (t : trip) : Prop := v = t0 t \/ v = t1 t \/ v = t2 t.
Definition part_of (v : str) (ts : list trip) : Prop := exists t, In t ts /\ part v t.
Definition mentioned (h : list op) (v : str) : Prop := exists c ts, In (OAdd c ts) h /\ part_of v ts.

(** How many ids a call can use up: one per collection, three per triple. *)
Definition weight (o : op) : N :=
  match o with
  | OAddColl _ => 1
  | OAdd _ ts => 3 * N.of_nat (List.length ts)
  | _ => 0
  end%N.
Definition total_weight (h : list op) : N := fold_right (fun o n => (weight o + n)%N) 0%N h.

(** How many sequence numbers a call can use up in the DuckDB store. *)
Definition dweight (o : op) : N :=
  match o with OAddColl _ => 1 | OAdd _ ts => 4 * N.of_nat (List.length ts) | _ => 0 end%N.
Definition dtotal (h : list op) : N := fold_right (fun o n => (dweight o + n)%N) 0%N h.

(** ** Disciplined clients

    What a client may do after [h]: create absent collections under storable
    names, write storable values to present collections, remove triples that
    are there, remove collections that are present and empty. *)
Definition allowed (h : list op) (o : op) : Prop :=
  match o with
  | OAddColl c => storable c /\ ~ live h c
  | ORemColl c => live h c /\ forall t, ~ holds_after h c t
  | OAdd c ts => live h c /\ forall v, part_of v ts -> storable v
  | ORem c ts => live h c /\ forall t, In t ts -> holds_after h c t
  end.

(** Every call of [h] was allowed when it was made. *)
Definition disciplined (h : list op) : Prop :=
  forall h1 o h2, h = h1 ++ o :: h2 -> allowed h1 o.

(** ** Patterns *)

(** A slot without variable admits a value. *)
Definition admits (p : slot) (v : str) : Prop :=
  match p with
  | Any => True
  | Value x => x = v
  | Variable_ _ => False
  end.

Definition is_variable (p : slot) : Prop := exists x, p = Variable_ x.

Definition no_variables (q : query) : Prop :=
  ~ is_variable (q0 q) /\ ~ is_variable (q1 q) /\ ~ is_variable (q2 q).

Definition fits (q : query) (t : trip) : Prop :=
  admits (q0 q) (t0 t) /\ admits (q1 q) (t1 t) /\ admits (q2 q) (t2 t).

(** Reading the slots of [q] left to right against [t], a variable is met
    before any mismatch. *)
Definition meets_variable (q : query) (t : trip) : Prop :=
  is_variable (q0 q)
  \/ (admits (q0 q) (t0 t) /\ is_variable (q1 q))
  \/ (admits (q0 q) (t0 t) /\ admits (q1 q) (t1 t) /\ is_variable (q2 q)).

(** ** Bindings *)

(** Variables of a query. *)
Definition slot_var (p : slot) (x : str) : Prop := p = Variable_ x.
Definition query_var (q : query) (x : str) : Prop :=
  slot_var (q0 q) x \/ slot_var (q1 q) x \/ slot_var (q2 q) x.

(** Under binding [m] the slot denotes [v]. *)
Definition slot_denotes (m : list (str * str)) (p : slot) (v : str) : Prop :=
  match p with
  | Variable_ x => In (x, v) m
  | Value y => y = v
  | Any => True
  end.

(** [m] is a map that makes [q] equal to [t] and binds exactly the variables of [q]. *)
Definition solves (q : query) (t : trip) (m : list (str * str)) : Prop :=
  is_set str_lt (map fst m)
  /\ slot_denotes m (q0 q) (t0 t) /\ slot_denotes m (q1 q) (t1 t) /\ slot_denotes m (q2 q) (t2 t)
  /\ (forall x, In x (map fst m) <-> query_var q x).

(** The solutions of [q] over a list of triples, in order. *)
Inductive answers (q : query) : list trip -> list (list (str * str)) -> Prop :=
| answers_nil : answers q [] []
| answers_hit t ts m ms : solves q t m -> answers q ts ms -> answers q (t :: ts) (m :: ms)
| answers_miss t ts ms : (forall m, ~ solves q t m) -> answers q ts ms -> answers q (t :: ts) ms.
