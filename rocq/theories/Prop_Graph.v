(** * Properties of the knowledge graph over a triple store (ligature-graph/src/lib.rs) *)
From Coq Require Import List Arith NArith Bool String.
From Verif Require Import M_Base M_Data M_Mem M_Heed M_Duck M_Graph S_Order S_Str S_Store S_Graph P_Ord P_Hist P_Graph.
Import ListNotations.
Open Scope list_scope.

(** The three stores after a history. *)
Definition mem_after (h : list op) : mem := after mem_impl mem_new h.
Definition lmdb_after (h : list (op * bool)) : heed := after_f heed_impl_c heed_new h.
Definition duck_after (h : list op) : duck := after duck_impl duck_new h.

(** Facts about the specification: every entry has exactly one normal form, and
    an entry without namespace, language tag and reserved role is its own. *)
Theorem C28_normal_form_exists_unique : forall e,
  (exists e', normalises e e') /\ (forall e1 e2, normalises e e1 -> normalises e e2 -> e1 = e2)
  /\ (normal e -> forall e', normalises e e' <-> e' = e).
Proof.
  exact (fun e => conj (normalises_total e) (conj (normalises_unique e) (fun N e' => normalises_normal e e' N))).
Qed.
Print Assumptions C28_normal_form_exists_unique.

(** C28.  add_entries enlarges the collection by the normal forms of the
    entries, leaves the caller's set and every other collection alone. *)
Theorem C28_mem_add_entries : forall h c es,
  let G := graph_impl mem_impl in
  let s := mem_after h in
  has mem_impl s (el_name c) ->
  exists s', l_add_entries G s c es = (Ok tt, s', es) /\ enlarged G s c es s'.
Proof. exact (fun h c es Hh => ex_intro _ _ (add_entries_spec mem_impl _ c es _ (mem_add_effect h (el_name c) _ Hh))). Qed.
Print Assumptions C28_mem_add_entries.

Theorem C28_heed_add_entries : forall h c es,
  let G := graph_impl heed_impl in
  let s := lmdb_after h in
  has heed_impl s (el_name c) ->
  (total_weight (map fst h) + 3 * N.of_nat (List.length es) < 2 ^ 64)%N ->
  exists s', l_add_entries G s c es = (Ok tt, s', es) /\ enlarged G s c es s'.
Proof. exact heed_add_entries. Qed.
Print Assumptions C28_heed_add_entries.

Theorem C28_duck_add_entries : forall h c es,
  let G := graph_impl duck_impl in
  let s := duck_after h in
  has duck_impl s (el_name c) ->
  (dtotal h + 4 * N.of_nat (List.length es) < 2 ^ 63)%N ->
  exists s', l_add_entries G s c es = (Ok tt, s', es) /\ enlarged G s c es s'.
Proof. exact duck_add_entries. Qed.
Print Assumptions C28_duck_add_entries.

Definition rx_role : entry := Role (mkE (lit "a")) (mkE (lit "b")) (mkE (lit "r")).
Definition rx_odd : entry := Role (Elem (lit "a") (Some (lit "ns")) None) (mkE (lit "b")) (mkE (lit ":")).
Definition rx_ext : entry := Extends (mkE (lit "a")) (mkE (lit "b")).
Definition rx_h : list op := [OAddColl (lit "n"); OAdd (lit "n") [Trip (lit "x") (lit "y") (lit "z")]; OAddColl (lit "m")].

(** C28, the collapse: two different entries can become one. *)
Theorem C28_entries_collapse :
  exists e1 e2 e, e1 <> e2 /\ normalises e1 e /\ normalises e2 e.
Proof.
  exists rx_odd, rx_ext, rx_ext. split; [discriminate|]. repeat split.
Qed.
Print Assumptions C28_entries_collapse.

Example C28_case :
  has mem_impl (mem_after rx_h) (lit "n")
  /\ l_entries (graph_impl mem_impl) (snd (fst (l_add_entries (graph_impl mem_impl) (mem_after rx_h) (mkE (lit "n")) [rx_role; rx_odd; rx_ext])))
       (mkE (lit "n"))
     = Ok [rx_role; Role (mkE (lit "x")) (mkE (lit "z")) (mkE (lit "y")); rx_ext].
Proof. split; [eexists; (split; [vm_compute; reflexivity|]); vm_compute; auto|vm_compute; reflexivity]. Qed.

Example C28_case_bounds :
  has heed_impl (lmdb_after (map (fun o => (o, true)) rx_h)) (lit "n")
  /\ (total_weight (map fst (map (fun o => (o, true)) rx_h)) + 3 * 3 < 2 ^ 64)%N
  /\ has duck_impl (duck_after rx_h) (lit "n") /\ (dtotal rx_h + 4 * 3 < 2 ^ 63)%N.
Proof.
  split; [|split; [reflexivity|split; [|reflexivity]]]; eexists; (split; [vm_compute; reflexivity|]); vm_compute; auto.
Qed.

(** C27.  Entries storage can represent survive it exactly. *)
Theorem C27_entries_survive : forall h c es,
  let G := graph_impl mem_impl in
  let s := mem_after h in
  has mem_impl s (el_name c) -> Forall normal es ->
  exists s' l l', l_add_entries G s c es = (Ok tt, s', es) /\ l_entries G s c = Ok l /\ l_entries G s' c = Ok l'
    /\ is_set entry_lt l' /\ forall e, In e l' <-> In e l \/ In e es.
Proof.
  exact (fun h c es Hh N => enlarged_normal _ _ c es _ N (add_entries_spec mem_impl _ c es _ (mem_add_effect h (el_name c) _ Hh))).
Qed.
Print Assumptions C27_entries_survive.

Theorem C27_heed_entries_survive : forall h c es,
  let G := graph_impl heed_impl in
  let s := lmdb_after h in
  has heed_impl s (el_name c) -> Forall normal es ->
  (total_weight (map fst h) + 3 * N.of_nat (List.length es) < 2 ^ 64)%N ->
  exists s' l l', l_add_entries G s c es = (Ok tt, s', es) /\ l_entries G s c = Ok l /\ l_entries G s' c = Ok l'
    /\ is_set entry_lt l' /\ forall e, In e l' <-> In e l \/ In e es.
Proof.
  intros h c es G s Hh N Hw. destruct (heed_add_entries h c es Hh Hw) as (s' & H). exact (enlarged_normal G s c es s' N H).
Qed.
Print Assumptions C27_heed_entries_survive.

Theorem C27_duck_entries_survive : forall h c es,
  let G := graph_impl duck_impl in
  let s := duck_after h in
  has duck_impl s (el_name c) -> Forall normal es ->
  (dtotal h + 4 * N.of_nat (List.length es) < 2 ^ 63)%N ->
  exists s' l l', l_add_entries G s c es = (Ok tt, s', es) /\ l_entries G s c = Ok l /\ l_entries G s' c = Ok l'
    /\ is_set entry_lt l' /\ forall e, In e l' <-> In e l \/ In e es.
Proof.
  intros h c es G s Hh N Hw. destruct (duck_add_entries h c es Hh Hw) as (s' & H). exact (enlarged_normal G s c es s' N H).
Qed.
Print Assumptions C27_duck_entries_survive.

Example C27_case : Forall normal [rx_role; rx_ext].
Proof. repeat constructor; discriminate. Qed.

(** C29.  remove_entries removes exactly the normal forms of the entries. *)
Theorem C29_mem_remove_entries : forall h c es,
  let G := graph_impl mem_impl in
  let s := mem_after h in
  has mem_impl s (el_name c) ->
  exists s', l_remove_entries G s c es = (Ok tt, s', es) /\ reduced G s c es s'.
Proof. exact (fun h c es Hh => ex_intro _ _ (remove_entries_spec mem_impl _ c es _ (mem_rem_effect h (el_name c) _ Hh))). Qed.
Print Assumptions C29_mem_remove_entries.

Theorem C29_duck_remove_entries : forall h c es,
  let G := graph_impl duck_impl in
  let s := duck_after h in
  has duck_impl s (el_name c) ->
  exists s', l_remove_entries G s c es = (Ok tt, s', es) /\ reduced G s c es s'.
Proof. exact (fun h c es Hh => ex_intro _ _ (remove_entries_spec duck_impl _ c es _ (duck_rem_effect h (el_name c) _ Hh))). Qed.
Print Assumptions C29_duck_remove_entries.

(** On LMDB every name must have been stored before (else the call panics, C20). *)
Theorem C29_heed_remove_entries : forall h c es,
  let G := graph_impl heed_impl in
  let s := lmdb_after h in
  has heed_impl s (el_name c) ->
  (forall e v, In e es -> v = subject e \/ v = role_name e \/ v = object e ->
     storable v /\ mentioned (installed heed_impl_c heed_new h) v) ->
  exists s', l_remove_entries G s c es = (Ok tt, s', es) /\ reduced G s c es s'.
Proof. exact heed_remove_entries. Qed.
Print Assumptions C29_heed_remove_entries.

Example C29_case :
  let G := graph_impl mem_impl in
  l_entries G (snd (fst (l_remove_entries G (mem_after rx_h) (mkE (lit "n"))
     [Role (mkE (lit "x")) (mkE (lit "z")) (mkE (lit "y")); rx_role]))) (mkE (lit "n")) = Ok [].
Proof. vm_compute. reflexivity. Qed.

(** C30.  filter returns exactly the matching entries. *)
Theorem C30_mem_filter : forall h c p,
  no_variable_names p ->
  let G := graph_impl mem_impl in
  let s := mem_after h in
  (has mem_impl s (el_name c) ->
   exists l k, l_entries G s c = Ok l /\ l_filter G s c p = Ok k
               /\ is_set entry_lt k /\ forall e, In e k <-> In e l /\ matches p e)
  /\ (~ has mem_impl s (el_name c) -> exists w, l_filter G s c p = Panic w).
Proof. exact graph_filter_ok. Qed.
Print Assumptions C30_mem_filter.

(** On LMDB and DuckDB filter is not implemented. *)
Theorem C30_other_stores_panic : forall c p,
  (forall s, l_filter (graph_impl heed_impl) s c p = Panic PTodo)
  /\ (forall s, l_filter (graph_impl duck_impl) s c p = Panic PTodo).
Proof. exact (fun c p => conj (fun s => eq_refl) (fun s => eq_refl)). Qed.
Print Assumptions C30_other_stores_panic.

Example C30_case :
  let p := Role (mkE (lit "x")) (mkE (lit "?")) (mkE (lit "?")) in
  no_variable_names p
  /\ l_filter (graph_impl mem_impl) (mem_after rx_h) (mkE (lit "n")) p = Ok [Role (mkE (lit "x")) (mkE (lit "z")) (mkE (lit "y"))].
Proof.
  split; [|vm_compute; reflexivity].
  repeat split; intros (r & E & Hr); vm_compute in E; try discriminate E; injection E as <-; apply Hr; reflexivity.
Qed.

(** C31.  As stated it is false: only the name of the element is used. *)
Theorem C31_namespaces_refuted :
  exists a b, a <> b /\ el_name a = el_name b /\ el_ns a <> el_ns b
    /\ (forall h, let G := graph_impl mem_impl in
        let s1 := snd (l_add_collection G (mem_after h) a) in
        let s2 := snd (l_add_collection G s1 b) in s2 = s1).
Proof.
  exists (Elem (lit "n") (Some (lit "p")) None), (Elem (lit "n") (Some (lit "q")) None).
  split; [discriminate|]. split; [reflexivity|]. split; [discriminate|]. intros h. exact (mem_add_coll_twice (mem_after h) (lit "n")).
Qed.
Print Assumptions C31_namespaces_refuted.

(** C31, exactly: every call depends on the collection element only through its name. *)
Theorem C31_only_names_matter : forall (St : Type) (I : trips_impl St) (s : St) c c' es p,
  el_name c = el_name c' ->
  let G := graph_impl I in
  l_add_collection G s c = l_add_collection G s c' /\ l_remove_collection G s c = l_remove_collection G s c'
  /\ l_entries G s c = l_entries G s c' /\ l_add_entries G s c es = l_add_entries G s c' es
  /\ l_remove_entries G s c es = l_remove_entries G s c' es /\ l_filter G s c p = l_filter G s c' p.
Proof. exact @names_only. Qed.
Print Assumptions C31_only_names_matter.
