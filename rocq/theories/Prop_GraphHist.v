(** * What a knowledge graph contains, by the calls made on it *)
From Coq Require Import List Arith NArith Bool Lia String Permutation.
From Verif Require Import M_Base M_Data M_Mem M_Heed M_Duck M_Graph S_Order P_Ord S_Str S_Store S_Graph S_GraphHist P_Hist
  P_Mem P_Heed P_HeedHist P_Duck P_Agree P_Graph P_GraphHist.
Import ListNotations.
Open Scope list_scope.

(** The three graphs after calls of the trait [Ligature] on fresh stores; on LMDB
    each commit may fail. *)
Definition g_mem (h : list lop) : mem := l_after (graph_impl mem_impl) mem_new h.
Definition g_lmdb (h : list (lop * bool)) : heed := l_after_f (fun b => graph_impl (heed_impl_c b)) heed_new h.
Definition g_duck (h : list lop) : duck := l_after (graph_impl duck_impl) duck_new h.

(** C77, in memory.  collections() is the set of the live names, entries(c) the
    set of the normal forms of the entries added since the network was last
    (re-)added and not removed since; of any other network it is an error that
    names the network. *)
Theorem C77_mem_contents : forall h,
  let G := graph_impl mem_impl in
  (exists l, l_collections G (g_mem h) = Ok l /\ is_set element_lt l
             /\ forall c, In c l <-> bare c /\ l_live h (el_name c))
  /\ (forall c, l_live h (el_name c) ->
      exists l, l_entries G (g_mem h) c = Ok l /\ is_set entry_lt l /\ forall e, In e l <-> l_mem_holds h (el_name c) e)
  /\ (forall c, ~ l_live h (el_name c) ->
      l_entries G (g_mem h) c = Err (lit "Collection `" ++ el_name c ++ lit "` not found.")).
Proof.
  intros h G. unfold g_mem. rewrite l_after_eq. split; [|split].
  - destruct (mem_listing (map op_of h)) as (l & E & Hs & Hi). exists (map mkE l).
    split; [apply colls_by, E|]. split; [apply set_mkE, Hs|]. intros c. rewrite in_mkE, Hi, live_ops. reflexivity.
  - intros c Hl. apply live_ops in Hl. destruct (proj1 (mem_history (map op_of h) (el_name c)) Hl) as (l & E & _ & Hi).
    apply (entries_by mem_impl _ c l); [exact E|intros e'; apply l_added_normal|]. intros e' N. rewrite Hi. apply mem_holds_ops, N.
  - intros c Hl. rewrite <- live_ops in Hl. destruct (proj2 (mem_history (map op_of h) (el_name c)) Hl) as (e & E).
    cbn [G l_entries graph_impl]. unfold graph_entries. rewrite E. f_equal. cbn [t_triples mem_impl] in E. unfold mem_triples in E.
    destruct (bm_get str_cmp (el_name c) (after mem_impl mem_new (map op_of h))); [discriminate|].
    injection E as <-. reflexivity.
Qed.
Print Assumptions C77_mem_contents.

(** C77, LMDB, with commits that may fail: of the calls that answered Ok and were
    committed; names that are no storable key are never there. *)
Theorem C77_lmdb_contents : forall h,
  let G := graph_impl heed_impl in
  let H := l_installed (fun b => graph_impl (heed_impl_c b)) heed_new h in
  (exists l, l_collections G (g_lmdb h) = Ok l /\ is_set element_lt l
             /\ forall c, In c l <-> bare c /\ storable (el_name c) /\ l_live H (el_name c))
  /\ (forall c, storable (el_name c) -> l_live H (el_name c) ->
      exists l, l_entries G (g_lmdb h) c = Ok l /\ is_set entry_lt l /\ forall e, In e l <-> l_holds H (el_name c) e)
  /\ (forall c, ~ (storable (el_name c) /\ l_live H (el_name c)) -> exists w, l_entries G (g_lmdb h) c = Panic w).
Proof.
  intros h G H. unfold g_lmdb. rewrite l_after_f_eq.
  destruct (heed_history (fops h)) as (HL & HE & HN). rewrite <- l_installed_eq in HL, HE, HN. fold H in HL, HE, HN. split; [|split].
  - destruct HL as (l & E & Hs & Hi). exists (map mkE l).
    split; [exact (colls_by heed_impl _ l E)|]. split; [apply set_mkE, Hs|]. intros c. rewrite in_mkE, Hi, live_ops. reflexivity.
  - intros c Hst Hl. apply live_ops in Hl. destruct (HE _ Hst Hl) as (l & E & _ & Hi).
    apply (entries_by heed_impl _ c l); [exact E|intros e'; apply l_added_normal|]. intros e' N. rewrite Hi. apply holds_ops, N.
  - intros c Hn. rewrite <- live_ops in Hn. destruct (HN _ Hn) as (w & E). exists w.
    cbn [G l_entries graph_impl]. unfold graph_entries. rewrite E. reflexivity.
Qed.
Print Assumptions C77_lmdb_contents.

(** C77, DuckDB: of the calls that answered Ok; a network that is not there reads
    as empty. *)
Theorem C77_duck_contents : forall h,
  let G := graph_impl duck_impl in
  let H := l_acked G duck_new h in
  (exists l, l_collections G (g_duck h) = Ok l /\ NoDup l /\ forall c, In c l <-> bare c /\ l_live H (el_name c))
  /\ (forall c, exists l, l_entries G (g_duck h) c = Ok l /\ is_set entry_lt l /\ forall e, In e l <-> l_holds H (el_name c) e)
  /\ (forall c, ~ l_live H (el_name c) -> l_entries G (g_duck h) c = Ok []).
Proof.
  intros h G H. unfold g_duck. rewrite l_after_eq.
  pose proof (duck_history (map op_of h)) as (HL & HE). rewrite <- l_acked_eq in HL, HE. fold G in HL, HE. fold H in HL, HE.
  split; [|split].
  - destruct HL as (l & E & Hs & Hi). exists (map mkE l).
    split; [exact (colls_by duck_impl _ l E)|]. split; [apply nodup_mkE, Hs|]. intros c. rewrite in_mkE, Hi, live_ops. reflexivity.
  - intros c. destruct (HE (el_name c)) as (l & E & _ & Hi).
    apply (entries_by duck_impl _ c l); [exact E|intros e'; apply l_added_normal|]. intros e' N. rewrite Hi. apply holds_ops, N.
  - intros c Hn. pose proof (proj2 (proj2 (duck_outside (map op_of h) (el_name c)))) as O.
    destruct O as [E _].
    + destruct HL as (l & E & _ & Hi). intros (l' & E' & Hi'). rewrite E in E'. injection E' as <-.
      apply Hn, live_ops, Hi, Hi'.
    + cbn [G l_entries graph_impl]. unfold graph_entries. rewrite E. reflexivity.
Qed.
Print Assumptions C77_duck_contents.

(** C78.  No writing call on a graph ever answers an error: it answers Ok, or
    panics, whatever the triple store below. *)
Theorem C78_never_an_error : forall S (I : trips_impl S) s o e, fst (call_lop (graph_impl I) s o) <> Err e.
Proof. intros S I s o e. rewrite call_lop_eq. cbn [fst]. destruct (fst (call_op I s (op_of o))); discriminate. Qed.
Print Assumptions C78_never_an_error.

(** In memory: which calls answer Ok; the others panic and change nothing. *)
Theorem C78_mem_answers : forall h o,
  let G := graph_impl mem_impl in
  match o with
  | LAddColl _ | LRemColl _ => fst (call_lop G (g_mem h) o) = Ok tt
  | LAdd c _ | LRem c _ =>
      (l_live h (el_name c) -> fst (call_lop G (g_mem h) o) = Ok tt)
      /\ (~ l_live h (el_name c) -> exists w, call_lop G (g_mem h) o = (Panic w, g_mem h))
  end.
Proof.
  intros h o G. unfold g_mem, G. rewrite l_after_eq, call_lop_eq. set (s := after mem_impl mem_new (map op_of h)).
  assert (HL : forall n, l_live h n <-> has mem_impl s n).
  { intros n. rewrite <- live_ops. destruct (mem_listing (map op_of h)) as (l & E & _ & Hi). rewrite <- Hi. split.
    - intros H. exists l. auto.
    - intros (l' & E' & H). unfold s in E'. rewrite E in E'. injection E' as <-. exact H. }
  destruct o as [c|c|c es|c es]; cbn [op_of call_op]; try reflexivity.
  - rewrite HL. split.
    + intros H. apply mem_has in H as (r & Er). cbn [t_add_triples mem_impl]. unfold mem_add_triples. rewrite Er. reflexivity.
    + intros H. destruct (mem_write_missing (map op_of h) (el_name c) (trips_of es) H) as [E _]. fold s in E. rewrite E. exists PTodo. reflexivity.
  - rewrite HL. split.
    + intros H. apply mem_has in H as (r & Er). cbn [t_remove_triples mem_impl]. unfold mem_remove_triples. rewrite Er. reflexivity.
    + intros H. destruct (mem_write_missing (map op_of h) (el_name c) (trips_of es) H) as [_ E]. fold s in E. rewrite E. exists PTodo. reflexivity.
Qed.
Print Assumptions C78_mem_answers.

(** LMDB, as long as fewer than 2^64 ids were used. *)
Theorem C78_lmdb_answers : forall h o b,
  (l_total l_weight (map fst h ++ [o]) < 2 ^ 64)%N ->
  let G := graph_impl (heed_impl_c b) in
  let H := l_installed (fun b => graph_impl (heed_impl_c b)) heed_new h in
  let there n := storable n /\ l_live H n in
  let r := fst (call_lop G (g_lmdb h) o) in
  match o with
  | LAddColl c => r = Ok tt
  | LRemColl c | LAdd c _ => (there (el_name c) -> r = Ok tt) /\ (~ there (el_name c) -> exists w, r = Panic w)
  | LRem c es =>
      let known := forall e v, In e es -> names_of e v -> storable v /\ l_mentioned H v in
      (there (el_name c) /\ known -> r = Ok tt) /\ (~ (there (el_name c) /\ known) -> exists w, r = Panic w)
  end
  /\ (r <> Ok tt -> snd (call_lop G (g_lmdb h) o) = g_lmdb h).
Proof.
  intros h o b W G H there r. unfold r, G, g_lmdb. rewrite l_after_f_eq, call_lop_eq. cbn [fst snd].
  pose proof (weight_ops (map fst h ++ [o])) as WO. rewrite map_app, <- fst_fops in WO.
  assert (W' : (total_weight (map fst (fops h) ++ [op_of o]) < 2 ^ 64)%N).
  { eapply N.le_lt_trans; [exact WO|exact W]. }
  pose proof (heed_answers (fops h) (op_of o) b W') as A. pose proof (heed_atomic (fops h) (op_of o) b) as (_ & At & _).
  set (d := after_f heed_impl_c heed_new (fops h)) in *. rewrite <- l_installed_eq in A. fold H in A.
  assert (HL : forall n, there n <-> has heed_impl d n).
  { intros n. unfold there. rewrite <- live_ops. destruct (heed_history (fops h)) as ((l & E & _ & Hi) & _). rewrite <- l_installed_eq in Hi.
    fold H in Hi. rewrite <- Hi. split.
    - intros K. exists l. auto.
    - intros (l' & E' & K). unfold d in E'. rewrite E in E'. injection E' as <-. exact K. }
  split.
  - destruct o as [c|c|c es|c es]; cbn [op_of] in A |- *.
    + rewrite A. reflexivity.
    + rewrite HL. destruct A as [A1 A2]. split; intros K; [rewrite (A1 K); reflexivity|rewrite (A2 K); exists PTodo; reflexivity].
    + rewrite HL. destruct A as [A1 A2]. split; intros K; [rewrite (A1 K); reflexivity|rewrite (A2 K); exists PTodo; reflexivity].
    + cbn zeta. rewrite HL. destruct A as [A1 A2].
      assert (KN : (forall v, part_of v (trips_of es) -> storable v /\ mentioned (map op_of H) v)
                   <-> forall e v, In e es -> names_of e v -> storable v /\ l_mentioned H v).
      { split.
        - intros K e v Hi Hn. rewrite <- mentioned_ops. apply K, part_trips. eauto.
        - intros K v Hp. apply part_trips in Hp as (e & Hi & Hn). rewrite mentioned_ops. eauto. }
      rewrite <- KN. split; intros K; [rewrite (A1 K); reflexivity|rewrite (A2 K); exists PTodo; reflexivity].
  - intros K. apply At. intros K'. apply K. rewrite K'. reflexivity.
Qed.
Print Assumptions C78_lmdb_answers.

(** DuckDB, as long as fewer than 2^63 sequence numbers were used. *)
Theorem C78_duck_answers : forall h o,
  (l_total l_dweight (h ++ [o]) < 2 ^ 63)%N ->
  let G := graph_impl duck_impl in
  let H := l_acked G duck_new h in
  let r := fst (call_lop G (g_duck h) o) in
  match o with
  | LAddColl c => (~ l_live H (el_name c) -> r = Ok tt) /\ (l_live H (el_name c) -> exists w, r = Panic w)
  | LRemColl c => ((forall e, ~ l_holds H (el_name c) e) -> r = Ok tt)
                  /\ ((exists e, l_holds H (el_name c) e) -> exists w, r = Panic w)
  | LAdd c _ | LRem c _ => (l_live H (el_name c) -> r = Ok tt) /\ (~ l_live H (el_name c) -> exists w, r = Panic w)
  end
  /\ (r <> Ok tt -> snd (call_lop G (g_duck h) o) = g_duck h).
Proof.
  intros h o W G H r. unfold r, G, g_duck. rewrite l_after_eq, call_lop_eq. cbn [fst snd].
  pose proof (dweight_ops (h ++ [o])) as WO. rewrite map_app in WO.
  assert (W' : (dtotal (map op_of h ++ [op_of o]) < 2 ^ 63)%N) by (eapply N.le_lt_trans; [exact WO|exact W]).
  pose proof (duck_answers (map op_of h) (op_of o) W') as A.
  pose proof (duck_history (map op_of h)) as ((l & El & _ & Hi) & HE). rewrite <- l_acked_eq in Hi, HE. fold G in Hi, HE. fold H in Hi, HE.
  set (d := after duck_impl duck_new (map op_of h)) in *.
  assert (HL : forall n, l_live H n <-> has duck_impl d n).
  { intros n. rewrite <- live_ops, <- Hi. split.
    - intros K. exists l. auto.
    - intros (l' & E' & K). rewrite El in E'. injection E' as <-. exact K. }
  assert (HH : forall n, (exists e, l_holds H n e) <-> exists t, holds duck_impl d n t).
  { intros n. destruct (HE n) as (k & Ek & _ & Hk). split.
    - intros (e & He). pose proof (l_added_normal _ _ _ _ He) as N. exists (view e), k. split; [exact Ek|]. apply Hk, holds_ops; assumption.
    - intros (t & k' & Ek' & Ht). rewrite Ek in Ek'. injection Ek' as <-. apply Hk in Ht.
      destruct (trip_to_entry_normal t) as [N V]. exists (trip_to_entry t). apply holds_ops; [exact N|]. rewrite V. exact Ht. }
  split.
  - destruct o as [c|c|c es|c es]; cbn [op_of] in A |- *; rewrite ?HL, ?HH; destruct A as [A1 A2];
      (split; intros K; [|first [rewrite (A2 K)|destruct (A2 K) as (e & ->)]; eexists; reflexivity]); rewrite A1; try reflexivity; try exact K.
    intros t Ht. destruct (proj2 (HH (el_name c))) as (e & He); [eauto|]. exact (K e He).
  - intros K. assert (K' : fst (call_op duck_impl d (op_of o)) <> Ok tt) by (intros E; apply K; rewrite E; reflexivity).
    clear - K'. destruct o as [c|c|c es|c es]; cbn [op_of call_op t_add_collection t_remove_collection t_add_triples t_remove_triples duck_impl fst snd] in *.
    + unfold duck_add_collection in *. destruct (nextval (d_seq d)); [|reflexivity]. destruct (sel_id (d_coll d) (el_name c)); [reflexivity|]. destruct (K' eq_refl).
    + unfold duck_remove_collection in *. destruct (sel_id (d_coll d) (el_name c)) as [i|]; [|reflexivity].
      destruct (existsb _ _); [reflexivity|]. destruct (K' eq_refl).
    + unfold duck_add_triples in *. destruct (tbind _ _); [destruct (K' eq_refl)|reflexivity..].
    + unfold duck_remove_triples in *. destruct (duck_get_collection_id _ _); [destruct (K' eq_refl)|reflexivity..].
Qed.
Print Assumptions C78_duck_answers.

(** C79.  Disciplined clients of a graph cannot tell the three stores apart:
    every call was answered Ok, the same networks are listed (DuckDB in its own
    order) and every network reads the same, as the contract says. *)
Theorem C79_graphs_agree : forall h,
  l_disciplined h -> (l_total l_dweight h < 2 ^ 63)%N ->
  let M := graph_impl mem_impl in
  let D := graph_impl heed_impl in
  let Q := graph_impl duck_impl in
  let m := l_after M mem_new h in
  let d := l_after D heed_new h in
  let q := l_after Q duck_new h in
  (l_acked M mem_new h = h /\ l_acked D heed_new h = h /\ l_acked Q duck_new h = h)
  /\ (exists l l', l_collections M m = Ok l /\ l_collections D d = Ok l /\ l_collections Q q = Ok l'
                   /\ Permutation l l' /\ forall c, In c l <-> bare c /\ l_live h (el_name c))
  /\ (forall c, l_live h (el_name c) ->
      exists l, l_entries M m c = Ok l /\ l_entries D d c = Ok l /\ l_entries Q q c = Ok l /\ is_set entry_lt l
                /\ forall e, In e l <-> l_holds h (el_name c) e).
Proof.
  intros h HD W M D Q m d q.
  assert (W' : (dtotal (map op_of h) < 2 ^ 63)%N) by (eapply N.le_lt_trans; [apply dweight_ops|exact W]).
  destruct (stores_agree (map op_of h) (disciplined_ops h HD) W') as ((A1 & A2 & A3) & (l & l' & E1 & E2 & E3 & P & Hi) & HC).
  assert (AK : forall S (I : trips_impl S) s, acked I s (map op_of h) = map op_of h -> l_acked (graph_impl I) s h = h).
  { intros S I s E. assert (HA : forall h s, acked I s (map op_of h) = map op_of h -> l_acked (graph_impl I) s h = h).
    { clear. intros h. assert (L : forall h s, List.length (acked I s h) <= List.length h).
      { clear. induction h as [|o h IH]; intros s; [apply le_n|]. cbn [acked]. destruct (call_op I s o) as [[u|e|w] s']; cbn [List.length];
          specialize (IH s'); lia. }
      induction h as [|o h IH]; intros s E; [reflexivity|]. cbn [l_acked map acked] in *. rewrite call_lop_eq.
      destruct (call_op I s (op_of o)) as [[u|e|w] s'] eqn:Ec; cbn [fst snd err_todo].
      - injection E as E. rewrite IH by exact E. reflexivity.
      - exfalso. pose proof (L (map op_of h) s') as K. rewrite E in K. cbn [List.length] in K. lia.
      - exfalso. pose proof (L (map op_of h) s') as K. rewrite E in K. cbn [List.length] in K. lia. }
    apply HA, E. }
  unfold m, d, q, M, D, Q. rewrite !l_after_eq. split; [|split].
  - split; [apply AK, A1|]. split; [apply AK, A2|apply AK, A3].
  - exists (map mkE l), (map mkE l'). split; [apply colls_by, E1|]. split; [apply colls_by, E2|]. split; [apply colls_by, E3|].
    split; [apply Permutation_map, P|]. intros c. rewrite in_mkE, Hi, live_ops. reflexivity.
  - intros c Hl. apply live_ops in Hl. destruct (HC _ Hl) as (k & F1 & F2 & F3 & Hk).
    destruct (entries_by mem_impl _ c k (l_holds h (el_name c)) F1) as (es & Ee & Hs & He);
      [intros e'; apply l_added_normal|intros e' N; rewrite Hk; apply holds_ops, N|].
    exists es. split; [exact Ee|].
    assert (SE : forall S (I : trips_impl S) s, t_triples I s (el_name c) = Ok k -> l_entries (graph_impl I) s c = Ok es).
    { intros S I s E. cbn [l_entries graph_impl] in *. unfold graph_entries in *. rewrite E. rewrite F1 in Ee. exact Ee. }
    split; [apply SE, F2|]. split; [apply SE, F3|]. split; [exact Hs|exact He].
Qed.
Print Assumptions C79_graphs_agree.

(** A history on which all of this is at work: a namespaced name for the same
    network, two entries with one normal form, one removed again. *)
Definition gh_n : element := Elem (lit "n") (Some (lit "ns")) None.
Definition gh_ext : entry := Extends (mkE (lit "a")) (mkE (lit "b")).
Definition gh_role : entry := Role (mkE (lit "a")) (Elem (lit "b") None (Some (lit "en"))) (mkE (lit ":")).
Definition gh_other : entry := Role (mkE (lit "a")) (mkE (lit "b")) (mkE (lit "r")).
Definition gh : list lop :=
  [LAddColl (mkE (lit "n")); LAdd gh_n [gh_ext; gh_role; gh_other]; LRem (mkE (lit "n")) [gh_other]].

Lemma gh_names e v : In e [gh_ext; gh_role; gh_other] -> names_of e v -> storable v.
Proof. intros [<-|[<-|[<-|[]]]] [->|[->| ->]]; split; vm_compute; auto; discriminate. Qed.

Example C77_case :
  l_live gh (lit "n") /\ ~ l_live gh (lit "x")
  /\ l_entries (graph_impl mem_impl) (g_mem gh) gh_n = Ok [gh_ext]
  /\ l_entries (graph_impl heed_impl) (g_lmdb (map (fun o => (o, true)) gh)) gh_n = Ok [gh_ext]
  /\ l_entries (graph_impl duck_impl) (g_duck gh) gh_n = Ok [gh_ext].
Proof.
  split; [|split; [|vm_compute; auto]].
  - exists [], (mkE (lit "n")), (tl gh). split; [reflexivity|]. split; [reflexivity|]. intros c' [E|[E|[]]]; discriminate.
  - intros (h1 & c & h2 & E & Ec & _). assert (Hi : In (LAddColl c) gh) by (rewrite E; apply in_or_app; right; left; reflexivity).
    destruct Hi as [Hi|[Hi|[Hi|[]]]]; try discriminate. injection Hi as <-. discriminate.
Qed.

Example C78_case :
  (exists w, fst (call_lop (graph_impl heed_impl) (g_lmdb (map (fun o => (o, true)) gh)) (LRem gh_n [Extends (mkE (lit "z")) (mkE (lit "b"))])) = Panic w)
  /\ fst (call_lop (graph_impl mem_impl) (g_mem gh) (LRem gh_n [Extends (mkE (lit "z")) (mkE (lit "b"))])) = Ok tt
  /\ (exists w, fst (call_lop (graph_impl duck_impl) (g_duck gh) (LRemColl gh_n)) = Panic w)
  /\ (l_total l_weight (gh ++ [LRemColl gh_n]) < 2 ^ 64)%N /\ (l_total l_dweight (gh ++ [LRemColl gh_n]) < 2 ^ 63)%N.
Proof.
  split; [eexists; vm_compute; reflexivity|]. split; [vm_compute; reflexivity|]. split; [eexists; vm_compute; reflexivity|].
  split; reflexivity.
Qed.

Example C79_case : l_disciplined gh /\ (l_total l_dweight gh < 2 ^ 63)%N.
Proof.
  split; [|reflexivity]. intros h1 o h2 E.
  assert (L1 : forall es, l_live [LAddColl (mkE (lit "n"))] (lit "n") /\ l_live [LAddColl (mkE (lit "n")); LAdd gh_n es] (lit "n")).
  { intros es. split; [exists [], (mkE (lit "n")), [] | exists [], (mkE (lit "n")), [LAdd gh_n es]];
      (split; [reflexivity|split; [reflexivity|]]); cbn; intuition discriminate. }
  destruct h1 as [|o1 [|o2 [|o3 h1]]].
  - injection E as <- <-. split; [split; vm_compute; auto; discriminate|]. intros (k1 & c & k2 & K & _). destruct k1; discriminate.
  - injection E as <- <- <-. split; [apply (L1 [])|]. intros e v Hi Hn. eapply gh_names; eassumption.
  - injection E as <- <- <- <-. split; [apply L1|]. intros e e' [<-|[]] He.
    exists [LAddColl (mkE (lit "n"))], gh_n, [gh_ext; gh_role; gh_other], [], gh_other. split; [reflexivity|]. split; [reflexivity|].
    split; [right; right; left; reflexivity|]. split; [exact He|]. split; [apply (L1 [])|]. intros o' [].
  - destruct h1; discriminate.
Qed.
