(** * The knowledge graph over a triple store: ligature-graph/src/lib.rs *)
From Coq Require Import List NArith Bool String.
From Verif Require Import M_Base M_Data.
Import ListNotations.
Open Scope list_scope.

(** The two reserved roles, written ":" and "¬:" in lib.rs:56,61,87,95. *)
Definition role_extends : str := lit ":".
Definition role_not_extends : str := 172%N :: lit ":".

(** [.map_err(|e| todo!())]: an error of the store becomes a panic. *)
Definition err_todo {A : Type} (r : tres A) : lres A :=
  match r with Ok a => Ok a | Err _ => Panic PTodo | Panic w => Panic w end.

(** lib.rs:55-73: a stored triple as an entry. *)
Definition trip_to_entry (t : trip) : entry :=
  if str_eqb (t1 t) role_extends then Extends (mkE (t0 t)) (mkE (t2 t))
  else if str_eqb (t1 t) role_not_extends then NotExtends (mkE (t0 t)) (mkE (t2 t))
  else Role (mkE (t0 t)) (mkE (t2 t)) (mkE (t1 t)).

(** lib.rs:85-97 (add_entries) and 109-121 (remove_entries): an entry as a
    triple; only the names ([.0]) are used. *)
Definition entry_to_trip (e : entry) : trip :=
  match e with
  | Extends e c => Trip (el_name e) role_extends (el_name c)
  | Role f s r => Trip (el_name f) (el_name r) (el_name s)
  | NotExtends e c => Trip (el_name e) role_not_extends (el_name c)
  end.

(** lib.rs:201-211 [check_value] *)
Definition check_value (v : str) : slot :=
  if str_eqb v (lit "?") then Any
  else match v with
       | c :: rest => if N.eqb c 63 then Variable_ rest else Value v
       | [] => Value v
       end.

(** lib.rs:132-153: a pattern entry as a query. *)
Definition entry_to_query (p : entry) : query :=
  match p with
  | Extends e c => Query (check_value (el_name e)) (Value role_extends) (check_value (el_name c))
  | Role f s r => Query (check_value (el_name f)) (check_value (el_name r)) (check_value (el_name s))
  | NotExtends e c =>
      Query (check_value (el_name e)) (Value role_not_extends) (check_value (el_name c))
  end.

(** lib.rs:157-163: a filtered triple as an entry ([match trip.1.as_str()]). *)
Definition filter_trip_to_entry (t : trip) : entry :=
  if str_eqb (t1 t) role_extends then Extends (mkE (t0 t)) (mkE (t2 t))
  else if str_eqb (t1 t) role_not_extends then NotExtends (mkE (t0 t)) (mkE (t2 t))
  else Role (mkE (t0 t)) (mkE (t2 t)) (mkE (t1 t)).

Section Graph.
  Context {S : Type} (store : trips_impl S).

  (** lib.rs:33-38 *)
  Definition graph_collections (s : S) : lres (list element) :=
    match err_todo (t_collections store s) with
    | Ok l => Ok (map mkE l)
    | Err e => Err e
    | Panic w => Panic w
    end.

  (** lib.rs:40-42 *)
  Definition graph_add_collection (s : S) (c : element) : lres unit * S :=
    let (r, s') := t_add_collection store s (el_name c) in (err_todo r, s').

  (** lib.rs:44-48 *)
  Definition graph_remove_collection (s : S) (c : element) : lres unit * S :=
    let (r, s') := t_remove_collection store s (el_name c) in (err_todo r, s').

  (** lib.rs:50-77; here errors are passed on (line 76). *)
  Definition graph_entries (s : S) (c : element) : lres (list entry) :=
    match t_triples store s (el_name c) with
    | Ok l => Ok (bs_collect entry_cmp (map trip_to_entry l))
    | Err e => Err e
    | Panic w => Panic w
    end.

  (** lib.rs:79-101.  The caller's set is only iterated. *)
  Definition graph_add_entries (s : S) (c : element) (es : list entry) : lres unit * S * list entry :=
    let '(r, s', _) :=
      t_add_triples store s (el_name c) (bs_collect trip_cmp (map entry_to_trip es)) in
    (err_todo r, s', es).

  (** lib.rs:103-125 *)
  Definition graph_remove_entries (s : S) (c : element) (es : list entry) : lres unit * S * list entry :=
    let '(r, s', _) :=
      t_remove_triples store s (el_name c) (bs_collect trip_cmp (map entry_to_trip es)) in
    (err_todo r, s', es).

  (** lib.rs:127-166 *)
  Definition graph_filter (s : S) (c : element) (p : entry) : lres (list entry) :=
    match err_todo (t_filter store s (el_name c) (entry_to_query p)) with
    | Ok l => Ok (bs_collect entry_cmp (map filter_trip_to_entry l))
    | Err e => Err e
    | Panic w => Panic w
    end.

  (** lib.rs:32-199 [impl Ligature for LigatureGraph], for the store given to
      [LigatureGraph::from_trips] (lib.rs:19-21). *)
  Definition graph_impl : lig_impl S :=
    LigImpl graph_collections graph_add_collection graph_remove_collection graph_entries
      graph_add_entries graph_remove_entries graph_filter.
End Graph.
