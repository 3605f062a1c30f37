(** * Data types: ligature/src/lib.rs and trips/src/lib.rs *)
From Coq Require Import List NArith Bool String.
From Verif Require Import M_Base.
Import ListNotations.
Open Scope list_scope.

(** ligature/src/lib.rs:16-25 [LangTag(String)], [Namespace(String)],
    [Element(String, Option<Namespace>, Option<LangTag>)].  The two newtypes
    are modelled by their string. *)
Record element := Elem { el_name : str; el_ns : option str; el_lang : option str }.

(** The one-argument [Element(x)] every other crate of the repository writes
    (e.g. ligature-graph/src/lib.rs:36, wander/src/lexer.rs:64).  At the pinned
    commit these uses were not yet adapted to the three-field struct; the model
    reads them as [Element(x, None, None)]. *)
Definition mkE (s : str) : element := Elem s None None.

(** [#[derive(PartialOrd, Ord)]] of [Element], ligature/src/lib.rs:24 *)
Definition element_cmp (a b : element) : comparison :=
  then_cmp (str_cmp (el_name a) (el_name b))
    (then_cmp (option_cmp str_cmp (el_ns a) (el_ns b))
       (option_cmp str_cmp (el_lang a) (el_lang b))).

Definition opt_str_eqb (a b : option str) : bool :=
  match a, b with
  | None, None => true
  | Some x, Some y => str_eqb x y
  | _, _ => false
  end.

(** [#[derive(PartialEq)]] of [Element], ligature/src/lib.rs:24 *)
Definition element_eqb (a b : element) : bool :=
  str_eqb (el_name a) (el_name b) && opt_str_eqb (el_ns a) (el_ns b)
  && opt_str_eqb (el_lang a) (el_lang b).

(** ligature/src/lib.rs:35-59 [Entry] *)
Inductive entry :=
| Role (first second role : element)
| Extends (elem concept : element)
| NotExtends (elem concept : element).

(** [#[derive(PartialOrd, Ord)]] of [Entry] (ligature/src/lib.rs:34): variants
    in declaration order, then fields in declaration order. *)
Definition entry_cmp (a b : entry) : comparison :=
  match a, b with
  | Role f s r, Role f' s' r' =>
      then_cmp (element_cmp f f') (then_cmp (element_cmp s s') (element_cmp r r'))
  | Role _ _ _, _ => Lt
  | Extends _ _, Role _ _ _ => Gt
  | Extends e c, Extends e' c' => then_cmp (element_cmp e e') (element_cmp c c')
  | Extends _ _, NotExtends _ _ => Lt
  | NotExtends e c, NotExtends e' c' => then_cmp (element_cmp e e') (element_cmp c c')
  | NotExtends _ _, _ => Gt
  end.

(** [#[derive(PartialEq)]] of [Entry], ligature/src/lib.rs:34 *)
Definition entry_eqb (a b : entry) : bool :=
  match a, b with
  | Role f s r, Role f' s' r' => element_eqb f f' && element_eqb s s' && element_eqb r r'
  | Extends e c, Extends e' c' => element_eqb e e' && element_eqb c c'
  | NotExtends e c, NotExtends e' c' => element_eqb e e' && element_eqb c c'
  | _, _ => false
  end.

(** trips/src/lib.rs:20 [Trip(String, String, String)] *)
Record trip := Trip { t0 : str; t1 : str; t2 : str }.

(** [#[derive(PartialOrd, Ord)]] of [Trip], trips/src/lib.rs:19 *)
Definition trip_cmp (a b : trip) : comparison :=
  then_cmp (str_cmp (t0 a) (t0 b))
    (then_cmp (str_cmp (t1 a) (t1 b)) (str_cmp (t2 a) (t2 b))).

(** trips/src/lib.rs:24-31 [Slot] *)
Inductive slot := Variable_ (name : str) | Value (v : str) | Any.

(** trips/src/lib.rs:35 [Query(Slot, Slot, Slot)] *)
Record query := Query { q0 : slot; q1 : slot; q2 : slot }.

(** [TripsError(String)] (trips/src/lib.rs:39) and [LigatureError(String)]
    (ligature/src/lib.rs:62) are modelled by their message. *)
Definition tres := res str.
Definition lres := res str.

(** trips/src/lib.rs:43-84 trait [Trips].  A [&mut BTreeSet<Trip>] argument the
    callee may change is returned as third component. *)
Record trips_impl (S : Type) := TripsImpl {
  t_collections : S -> tres (list str);
  t_add_collection : S -> str -> tres unit * S;
  t_remove_collection : S -> str -> tres unit * S;
  t_triples : S -> str -> tres (list trip);
  t_add_triples : S -> str -> list trip -> tres unit * S * list trip;
  t_remove_triples : S -> str -> list trip -> tres unit * S * list trip;
  t_filter : S -> str -> query -> tres (list trip)
}.
Arguments TripsImpl {S}.
Arguments t_collections {S}.
Arguments t_add_collection {S}.
Arguments t_remove_collection {S}.
Arguments t_triples {S}.
Arguments t_add_triples {S}.
Arguments t_remove_triples {S}.
Arguments t_filter {S}.

(** ligature/src/lib.rs:66-109 trait [Ligature]. *)
Record lig_impl (S : Type) := LigImpl {
  l_collections : S -> lres (list element);
  l_add_collection : S -> element -> lres unit * S;
  l_remove_collection : S -> element -> lres unit * S;
  l_entries : S -> element -> lres (list entry);
  l_add_entries : S -> element -> list entry -> lres unit * S * list entry;
  l_remove_entries : S -> element -> list entry -> lres unit * S * list entry;
  l_filter : S -> element -> entry -> lres (list entry)
}.
Arguments LigImpl {S}.
Arguments l_collections {S}.
Arguments l_add_collection {S}.
Arguments l_remove_collection {S}.
Arguments l_entries {S}.
Arguments l_add_entries {S}.
Arguments l_remove_entries {S}.
Arguments l_filter {S}.
