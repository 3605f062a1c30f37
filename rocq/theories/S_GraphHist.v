(** * Specification vocabulary: histories of calls on a knowledge graph

    What a client of the trait [Ligature] can do, and what the contents of a
    network are according to the calls made. *)
From Coq Require Import List NArith Bool.
From Verif Require Import M_Base M_Data S_Str S_Graph.
Import ListNotations.
Open Scope list_scope.

(** The four writing calls of the trait. *)
Inductive lop :=
| LAddColl (c : element)
| LRemColl (c : element)
| LAdd (c : element) (es : list entry)
| LRem (c : element) (es : list entry).

Section Impl.
  Context {S : Type} (G : lig_impl S).

  (** Make one call: its answer and the store afterwards. *)
  Definition call_lop (s : S) (o : lop) : lres unit * S :=
    match o with
    | LAddColl c => l_add_collection G s c
    | LRemColl c => l_remove_collection G s c
    | LAdd c es => fst (l_add_entries G s c es)
    | LRem c es => fst (l_remove_entries G s c es)
    end.

  (** The store after a history of calls, whatever they answered. *)
  Fixpoint l_after (s : S) (h : list lop) : S :=
    match h with [] => s | o :: r => l_after (snd (call_lop s o)) r end.

  (** The calls of a history that answered Ok. *)
  Fixpoint l_acked (s : S) (h : list lop) : list lop :=
    match h with
    | [] => []
    | o :: r => match call_lop s o with
                | (Ok _, s') => o :: l_acked s' r
                | (_, s') => l_acked s' r
                end
    end.
End Impl.

(** Each call comes with the outcome of the commit it makes. *)
Section Faulty.
  Context {S : Type} (G : bool -> lig_impl S).

  Fixpoint l_after_f (s : S) (h : list (lop * bool)) : S :=
    match h with [] => s | (o, b) :: r => l_after_f (snd (call_lop (G b) s o)) r end.

  (** The calls that answered Ok and whose commit succeeded. *)
  Fixpoint l_installed (s : S) (h : list (lop * bool)) : list lop :=
    match h with
    | [] => []
    | (o, b) :: r => match call_lop (G b) s o with
                     | (Ok _, s') => if b then o :: l_installed s' r else l_installed s' r
                     | (_, s') => l_installed s' r
                     end
    end.
End Faulty.

(** The network named [n] was added, and not removed since.  Networks go by
    their names: namespaces and language tags do not count. *)
Definition l_live (h : list lop) (n : str) : Prop :=
  exists h1 c h2, h = h1 ++ LAddColl c :: h2 /\ el_name c = n
                  /\ forall c', In (LRemColl c') h2 -> el_name c' <> n.

(** An entry with the normal form [e'] was added to the network while it was
    live, and nothing in [kills] happened since. *)
Definition l_added (kills : lop -> Prop) (h : list lop) (n : str) (e' : entry) : Prop :=
  exists h1 c es h2 e, h = h1 ++ LAdd c es :: h2 /\ el_name c = n /\ In e es /\ normalises e e' /\ l_live h1 n
                       /\ forall o, In o h2 -> ~ kills o.

(** The contract: removing an entry with that normal form, or the network. *)
Inductive l_removes (n : str) (e' : entry) : lop -> Prop :=
| l_removes_entry c es e : el_name c = n -> In e es -> normalises e e' -> l_removes n e' (LRem c es)
| l_removes_coll c : el_name c = n -> l_removes n e' (LRemColl c).

(** In memory, adding the network again clears it, too. *)
Inductive l_clears (n : str) (e' : entry) : lop -> Prop :=
| l_clears_removed o : l_removes n e' o -> l_clears n e' o
| l_clears_again c : el_name c = n -> l_clears n e' (LAddColl c).

Definition l_holds (h : list lop) (n : str) (e' : entry) : Prop := l_added (l_removes n e') h n e'.
Definition l_mem_holds (h : list lop) (n : str) (e' : entry) : Prop := l_added (l_clears n e') h n e'.

(** The three names of an entry. *)
Definition names_of (e : entry) (v : str) : Prop := v = subject e \/ v = role_name e \/ v = object e.

(** Some call added an entry with the name. *)
Definition l_mentioned (h : list lop) (v : str) : Prop := exists c es e, In (LAdd c es) h /\ In e es /\ names_of e v.

(** Ids (LMDB) and sequence numbers (DuckDB) a call can use up. *)
Definition l_weight (o : lop) : N :=
  match o with LAddColl _ => 1 | LAdd _ es => 3 * N.of_nat (List.length es) | _ => 0 end%N.
Definition l_dweight (o : lop) : N :=
  match o with LAddColl _ => 1 | LAdd _ es => 4 * N.of_nat (List.length es) | _ => 0 end%N.
Definition l_total (w : lop -> N) (h : list lop) : N := fold_right (fun o n => (w o + n)%N) 0%N h.

(** Disciplined clients of a graph: create absent networks under storable names,
    add entries of storable names to networks that are there, remove entries that
    are there, remove networks that are there and empty. *)
Definition l_allowed (h : list lop) (o : lop) : Prop :=
  match o with
  | LAddColl c => storable (el_name c) /\ ~ l_live h (el_name c)
  | LRemColl c => l_live h (el_name c) /\ forall e, ~ l_holds h (el_name c) e
  | LAdd c es => l_live h (el_name c) /\ forall e v, In e es -> names_of e v -> storable v
  | LRem c es => l_live h (el_name c) /\ forall e e', In e es -> normalises e e' -> l_holds h (el_name c) e'
  end.
Definition l_disciplined (h : list lop) : Prop := forall h1 o h2, h = h1 ++ o :: h2 -> l_allowed h1 o.
