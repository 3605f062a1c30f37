(** * Specification vocabulary: laws for clients of a knowledge graph *)
From Coq Require Import List NArith Bool.
From Verif Require Import M_Base M_Data S_Str S_Graph S_GraphHist.
Import ListNotations.
Open Scope list_scope.

Section Impl.
  Context {S : Type} (G : lig_impl S).

  (** What the calls of a history answer, one after the other. *)
  Fixpoint g_answers (s : S) (h : list lop) : list (lres unit) :=
    match h with
    | [] => []
    | o :: r => fst (call_lop G s o) :: g_answers (snd (call_lop G s o)) r
    end.

  (** A network of that name is listed; reading a network succeeds and shows [e]. *)
  Definition g_has (s : S) (n : str) : Prop :=
    exists l c, l_collections G s = Ok l /\ In c l /\ el_name c = n.
  Definition g_holds (s : S) (c : element) (e : entry) : Prop :=
    exists l, l_entries G s c = Ok l /\ In e l.

  (** Two graphs look the same to every reading call. *)
  Definition g_looks_same (s s' : S) : Prop :=
    l_collections G s = l_collections G s'
    /\ (forall c, l_entries G s c = l_entries G s' c)
    /\ (forall c p, l_filter G s c p = l_filter G s' c p).

  (** The network of one name looks the same. *)
  Definition g_same_at (s s' : S) (n : str) : Prop :=
    (g_has s n <-> g_has s' n)
    /\ forall c, el_name c = n ->
       l_entries G s c = l_entries G s' c /\ forall p, l_filter G s c p = l_filter G s' c p.

  (** From now on nobody can tell the two graphs apart. *)
  Definition g_same_future (limit : list lop -> Prop) (a b : S) : Prop :=
    forall g, limit g -> g_answers a g = g_answers b g /\ g_looks_same (l_after G a g) (l_after G b g).

  (** In the graph [s], [u] is what a user would call to take back [o]. *)
  Inductive g_undoable (s : S) : lop -> lop -> Prop :=
  | gu_collection c : ~ g_has s (el_name c) -> g_undoable s (LAddColl c) (LRemColl c)
  | gu_added c es : g_has s (el_name c) ->
      (forall e e', In e es -> normalises e e' -> ~ g_holds s c e') -> g_undoable s (LAdd c es) (LRem c es)
  | gu_removed c es : g_has s (el_name c) ->
      (forall e e', In e es -> normalises e e' -> g_holds s c e') -> g_undoable s (LRem c es) (LAdd c es).

  (** Calls [os] from [s] and the calls [us] that take them back, last one first. *)
  Inductive g_undo_all : S -> list lop -> list lop -> Prop :=
  | gua_nil s : g_undo_all s [] []
  | gua_cons s o u os us : g_undoable s o u -> g_undo_all (snd (call_lop G s o)) os us ->
      g_undo_all s (o :: os) (us ++ [u]).
End Impl.

(** The name of the network a call is about, and the calls about one. *)
Definition l_about (o : lop) : str :=
  match o with LAddColl c | LRemColl c | LAdd c _ | LRem c _ => el_name c end.
Definition g_on (n : str) (o : lop) : bool := if list_eq_dec N.eq_dec (l_about o) n then true else false.
Definition g_calls_on (n : str) (h : list lop) : list lop := filter (g_on n) h.

(** What they answered when the whole history was run. *)
Fixpoint g_answers_on {S : Type} (G : lig_impl S) (s : S) (n : str) (h : list lop) : list (lres unit) :=
  match h with
  | [] => []
  | o :: r => (if g_on n o then [fst (call_lop G s o)] else []) ++ g_answers_on G (snd (call_lop G s o)) n r
  end.

(** The batch [ab] has the normal forms of [a] and of [b]. *)
Definition g_merges (a b ab : list entry) : Prop :=
  forall e', (exists e, In e ab /\ normalises e e') <-> (exists e, In e (a ++ b) /\ normalises e e').

(** Every name of a call is one LMDB can store as a key. *)
Definition l_storable (o : lop) : Prop :=
  match o with
  | LAddColl c => storable (el_name c)
  | LRemColl _ => True
  | LAdd _ es | LRem _ es => forall e v, In e es -> names_of e v -> storable v
  end.

(** Removals from the network of that name mention only names that were added to
    it before. *)
Definition g_knows_own {S : Type} (G : lig_impl S) (s : S) (n : str) (h : list lop) : Prop :=
  forall h1 c es h2, h = h1 ++ LRem c es :: h2 -> el_name c = n ->
  forall e v, In e es -> names_of e v -> storable v /\ l_mentioned (l_acked G s (g_calls_on n h1)) v.

(** The storable names some acknowledged addition mentioned. *)
Definition g_known {S : Type} (G : lig_impl S) (s : S) (h : list lop) (v : str) : Prop :=
  storable v /\ l_mentioned (l_acked G s h) v.
