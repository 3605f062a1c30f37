(** * A graph and the interpreter on any store that keeps the contract *)
From Coq Require Import List Arith NArith Bool String Lia.
From Verif Require Import M_Base M_Data M_Mem M_Heed M_Duck M_Regex M_Lexer M_Graph M_Parser M_Display M_Interp M_Conc
  S_Order S_Str S_Store S_Graph S_Filter S_GraphHist S_Parser S_Conc S_Names S_Wander S_Contract
  P_Ord P_Hist P_Mem P_HeedHist P_Graph P_GraphHist P_Parser P_Conc P_Contract.
Import ListNotations.
Open Scope list_scope.

(** C120.  A store that does what the comments of the trait say has, after every
    history, the collections and triples the history means, answers every call on
    an absent collection with an error, and every other call with Ok. *)
Theorem C120_history : forall (S : Type) (I : trips_impl S) s0, conforms I s0 -> forall h, let s := after I s0 h in
  (forall c, has I s c <-> live h c)
  /\ (forall c, live h c -> exists l, t_triples I s c = Ok l /\ is_set trip_lt l /\ forall t, In t l <-> holds_after h c t)
  /\ (forall c, ~ live h c -> exists e, t_triples I s c = Err e)
  /\ (forall c, fst (call_op I s (OAddColl c)) = Ok tt /\ fst (call_op I s (ORemColl c)) = Ok tt)
  /\ (forall c ts, live h c -> fst (call_op I s (OAdd c ts)) = Ok tt /\ fst (call_op I s (ORem c ts)) = Ok tt)
  /\ (forall c ts, ~ live h c -> (exists e, fst (call_op I s (OAdd c ts)) = Err e) /\ (exists e, fst (call_op I s (ORem c ts)) = Err e)).
Proof.
  intros S I s0 (E0 & good & G0 & K) h s. pose proof (good_after I good K h s0 G0) as G. fold s in G.
  assert (HH : forall c, has I s c <-> live h c) by (intros c; apply (has_history I good K s0 G0 E0)).
  split; [exact HH|]. destruct (K s G) as (_ & A & B & _). split; [|split].
  - intros c Hc. apply HH in Hc. destruct (A c Hc) as (l & E & Hs). exists l. split; [exact E|]. split; [exact Hs|].
    intros t. rewrite <- (holds_history I good K s0 G0 E0). fold s. unfold holds. rewrite E. split; [eauto|].
    intros (l' & E' & Hi). injection E' as <-. exact Hi.
  - intros c Hc. apply B. rewrite HH. exact Hc.
  - pose proof (fun o => answer_one I good K s o G) as W. split; [|split].
    + intros c. split; [exact (W (OAddColl c))|exact (W (ORemColl c))].
    + intros c ts Hc. apply HH in Hc. split; [exact (proj1 (W (OAdd c ts)) Hc)|exact (proj1 (W (ORem c ts)) Hc)].
    + intros c ts Hc. rewrite <- HH in Hc. split; [exact (proj2 (W (OAdd c ts)) Hc)|exact (proj2 (W (ORem c ts)) Hc)].
Qed.
Print Assumptions C120_history.

(** A knowledge graph over such a store: its networks are those the history of
    calls on the graph means, with the entries in normal form; filter gives the
    matching entries.  Reading an absent network is an error; writing into or
    searching one is a panic, not the error the contract promises. *)
Theorem C120_graph : forall (S : Type) (I : trips_impl S) s0, conforms I s0 -> forall h,
  let G := graph_impl I in let s := l_after G s0 h in
  (exists l, l_collections G s = Ok l /\ forall c, In c l <-> bare c /\ l_live h (el_name c))
  /\ (forall c, l_live h (el_name c) -> exists es, l_entries G s c = Ok es /\ is_set entry_lt es
        /\ (forall e, In e es <-> l_holds h (el_name c) e)
        /\ forall p, no_variable_names p -> exists k, l_filter G s c p = Ok k /\ is_set entry_lt k
             /\ forall e, In e k <-> In e es /\ matches p e)
  /\ (forall c, ~ l_live h (el_name c) -> (exists e, l_entries G s c = Err e)
        /\ forall p, no_variable_names p -> exists w, l_filter G s c p = Panic w)
  /\ (forall c, fst (call_lop G s (LAddColl c)) = Ok tt /\ fst (call_lop G s (LRemColl c)) = Ok tt)
  /\ (forall c es, l_live h (el_name c) -> fst (call_lop G s (LAdd c es)) = Ok tt /\ fst (call_lop G s (LRem c es)) = Ok tt)
  /\ (forall c es, ~ l_live h (el_name c) ->
        (exists w, fst (call_lop G s (LAdd c es)) = Panic w) /\ (exists w, fst (call_lop G s (LRem c es)) = Panic w)).
Proof.
  intros S I s0 C h G s. pose proof (C120_history S I s0 C (map P_GraphHist.op_of h)) as (A1 & A2 & A3 & A4 & A5 & A6).
  subst G s. rewrite l_after_eq. set (s := after I s0 (map P_GraphHist.op_of h)) in *.
  assert (Gd : exists good, good s /\ keeps_contract I good).
  { destruct C as (_ & good & G0 & K). exists good. split; [apply (good_after I good K), G0|exact K]. }
  destruct Gd as (good & Gs & K). destruct (K s Gs) as ((lc & Ec) & _ & _ & F & _).
  split; [|split; [|split; [|split; [|split]]]].
  - exists (map mkE lc). split; [apply colls_by, Ec|]. intros c. rewrite in_mkE, <- live_ops, <- A1. unfold has. rewrite Ec.
    split; intros [B H]; (split; [exact B|]); [eauto|destruct H as (l & E & H); injection E as <-; exact H].
  - intros c Hc. apply live_ops in Hc. destruct (A2 _ Hc) as (l & E & Hs & Hl).
    destruct (entries_by I s c l (fun e => l_holds h (el_name c) e) E) as (es & Ee & He & Hes).
    + intros e'. apply l_added_normal.
    + intros e' N. rewrite Hl. apply holds_ops, N.
    + exists es. split; [exact Ee|]. split; [exact He|]. split; [exact Hes|].
      intros p V. destruct (F (el_name c) _ (query_no_variables p V)) as [F1 _]. destruct F1 as (k & Ek & Hk); [apply A1, Hc|].
      exists (bs_collect entry_cmp (map filter_trip_to_entry k)). cbn. unfold graph_filter. rewrite Ek. cbn.
      split; [reflexivity|]. split; [apply (is_set_collect entry_order)|].
      intros e. rewrite (in_bs_collect entry_order), in_map_iff, Hes.
      assert (HH : forall t, holds I s (el_name c) t <-> In t l).
      { intros t. unfold holds. rewrite E. split; [intros (l' & E' & Hi); injection E' as <-; exact Hi|eauto]. }
      split.
      * intros (t & Et & Ht). rewrite filter_trip_to_entry_eq in Et. apply trip_to_entry_iff in Et as [N <-]. apply Hk in Ht as [Ht Hf].
        split; [apply holds_ops; [exact N|]; apply Hl, HH, Ht|]. apply fits_matches; assumption.
      * intros [Ht Hm]. pose proof (l_added_normal _ _ _ _ Ht) as N. exists (view e). split; [rewrite filter_trip_to_entry_eq; apply trip_to_entry_iff; auto|].
        apply Hk. split; [apply HH, Hl, holds_ops; assumption|]. apply fits_matches; assumption.
  - intros c Hc. rewrite <- live_ops in Hc. split.
    + cbn. unfold graph_entries. destruct (A3 _ Hc) as [e ->]. eauto.
    + intros p V. destruct (F (el_name c) _ (query_no_variables p V)) as [_ F2]. destruct F2 as [e E]; [rewrite A1; exact Hc|].
      cbn. unfold graph_filter. rewrite E. cbn. eauto.
  - intros c. rewrite !call_lop_eq. cbn [fst P_GraphHist.op_of]. destruct (A4 (el_name c)) as [-> ->]. auto.
  - intros c es Hc. apply live_ops in Hc. rewrite !call_lop_eq. cbn [fst P_GraphHist.op_of].
    destruct (A5 _ (trips_of es) Hc) as [-> ->]. auto.
  - intros c es Hc. rewrite <- live_ops in Hc. rewrite !call_lop_eq. cbn [fst P_GraphHist.op_of].
    destruct (A6 _ (trips_of es) Hc) as [[e1 ->] [e2 ->]]. cbn. eauto.
Qed.
Print Assumptions C120_graph.

(** Scripts cannot tell one such store from another, but for the texts of the
    errors: with the same contents before, the outcomes are similar and the
    contents are the same after.  (No name in it is a variable: what those do the
    trait does not say.) *)
Theorem C120_scripts : forall (S T : Type) (I : trips_impl S) (J : trips_impl T) s0 t0 h k script,
  conforms I s0 -> conforms J t0 -> (forall n, script_names script n -> ~ variable_name n) ->
  let s := after I s0 h in let t := after J t0 k in
  same_contents I s J t ->
  let x := run (graph_impl I) common script s in let y := run (graph_impl J) common script t in
  similar (outcome_of (fst x)) (outcome_of (fst y)) /\ same_contents I (snd x) J (snd y).
Proof.
  intros S T I J s0 t0 h k script (_ & good & G0 & K) (_ & fine & F0 & L) V s t C x y.
  pose proof (good_after I good K h s0 G0) as G. pose proof (good_after J fine L k t0 F0) as F. fold s in G. fold t in F.
  apply (mates_iff I J good fine K L s t G F) in C.
  destruct (twin_solo I J good fine K L _ _ (twin_script script V) s t C) as [A B].
  rewrite !solo_run, !on_store_common in A, B. fold x in A, B. fold y in A, B. split.
  - destruct (fst x), (fst y); cbn in A |- *; try destruct A; constructor.
  - apply (mates_iff I J good fine K L); [apply B|apply B|exact B].
Qed.
Print Assumptions C120_scripts.

(** A session of scripts, likewise. *)
Theorem C120_sessions : forall (S T : Type) (I : trips_impl S) (J : trips_impl T) s0 t0 h k scripts,
  conforms I s0 -> conforms J t0 -> (forall x n, In x scripts -> script_names x n -> ~ variable_name n) ->
  let s := after I s0 h in let t := after J t0 k in
  same_contents I s J t ->
  let x := session (graph_impl I) scripts s in let y := session (graph_impl J) scripts t in
  Forall2 (fun r r' => similar (outcome_of r) (outcome_of r')) (fst x) (fst y) /\ same_contents I (snd x) J (snd y).
Proof.
  intros S T I J s0 t0 h k scripts (_ & good & G0 & K) (_ & fine & F0 & L) V s t C.
  pose proof (good_after I good K h s0 G0) as G. pose proof (good_after J fine L k t0 F0) as F. fold s in G. fold t in F.
  apply (mates_iff I J good fine K L s t G F) in C. clearbody s t. clear G F h k. revert s t C V.
  induction scripts as [|a scripts IH]; intros s t C V; cbn [session fst snd].
  - split; [constructor|]. apply (mates_iff I J good fine K L); [apply C|apply C|exact C].
  - destruct (twin_solo I J good fine K L _ _ (twin_script a (fun n => V a n (in_eq a scripts))) s t C) as [A B].
    rewrite !solo_run, !on_store_common in A, B.
    destruct (run (graph_impl I) common a s) as [r s'], (run (graph_impl J) common a t) as [r' t']. cbn [fst snd] in *.
    destruct (IH s' t' B) as [X Y]; [intros x n Hx; apply V; right; exact Hx|].
    destruct (session (graph_impl I) scripts s') as [rs s2], (session (graph_impl J) scripts t') as [rs' t2]. cbn [fst snd] in *.
    split; [|exact Y]. constructor; [|exact X]. destruct r, r'; cbn in A |- *; try destruct A; constructor.
Qed.
Print Assumptions C120_sessions.

(** None of the three shipped stores is such a store: memory forgets the triples
    of a collection that is added again, LMDB panics at reading an absent
    collection, and DuckDB at adding a collection twice. *)
Theorem C120_none_shipped :
  ~ conforms mem_impl mem_new /\ ~ conforms heed_impl heed_new /\ ~ conforms duck_impl duck_new.
Proof.
  split; [|split]; intros C.
  - destruct (C120_history _ _ _ C [OAddColl (lit "n"); OAdd (lit "n") [Trip (lit "a") (lit "b") (lit "c")]; OAddColl (lit "n")])
      as (_ & B & _). destruct (B (lit "n")) as (l & E & _ & H).
    + exists [OAddColl (lit "n"); OAdd (lit "n") [Trip (lit "a") (lit "b") (lit "c")]], []. split; [reflexivity|intros []].
    + vm_compute in E. injection E as <-. apply (proj2 (H (Trip (lit "a") (lit "b") (lit "c")))).
      exists [OAddColl (lit "n")], [Trip (lit "a") (lit "b") (lit "c")], [OAddColl (lit "n")].
      split; [reflexivity|]. split; [left; reflexivity|]. split; [exists [], []; split; [reflexivity|intros []]|].
      intros o [<-|[]] X. inversion X.
  - destruct (C120_history _ _ _ C []) as (_ & _ & B & _). destruct (B (lit "n")) as [e E].
    + intros H. exact (live_nil _ H).
    + vm_compute in E. discriminate.
  - destruct (C120_history _ _ _ C [OAddColl (lit "n")]) as (_ & _ & _ & B & _). destruct (B (lit "n")) as [E _].
    vm_compute in E. discriminate.
Qed.
Print Assumptions C120_none_shipped.

(** ** A store that keeps the contract: the in-memory store with two repairs *)
Definition careful_impl : trips_impl mem :=
  TripsImpl mem_collections
    (fun s c => match bm_get str_cmp c s with Some _ => (Ok tt, s) | None => mem_add_collection s c end)
    mem_remove_collection mem_triples
    (fun s c ts => match bm_get str_cmp c s with Some _ => mem_add_triples s c ts | None => (Err (mem_not_found c), s, ts) end)
    (fun s c ts => match bm_get str_cmp c s with Some _ => mem_remove_triples s c ts | None => (Err (mem_not_found c), s, ts) end)
    mem_filter.

Lemma careful_has (s : mem) c : has careful_impl s c <-> exists l, get c s = Some l.
Proof. exact (mem_has s c). Qed.
Lemma careful_holds (s : mem) c t : holds careful_impl s c t <-> exists l, get c s = Some l /\ In t l.
Proof. exact (mem_holds s c t). Qed.
Lemma careful_triples (s : mem) c l : get c s = Some l -> t_triples careful_impl s c = Ok l.
Proof. intros E. cbn. unfold mem_triples. rewrite E. reflexivity. Qed.

Lemma careful_others (s : mem) c (s' : mem) : (forall x, x <> c -> get x s' = get x s) -> others_as_before careful_impl s c s'.
Proof. intros H x Hx _. cbn. unfold mem_triples. rewrite (H x Hx). reflexivity. Qed.

Lemma careful_keeps : keeps_contract careful_impl mem_inv.
Proof.
  intros s G. split; [eexists; reflexivity|]. split; [|split; [|split]].
  - intros c Hc. apply careful_has in Hc as [l E]. exists l. split; [apply careful_triples, E|]. apply (proj2 G c), E.
  - intros c Hc. rewrite careful_has in Hc. cbn. unfold mem_triples. destruct (get c s); [exfalso; eauto|eauto].
  - intros c q V. split.
    + intros Hc. apply careful_has in Hc as [ts Ets]. cbn. unfold mem_filter. rewrite Ets.
      destruct (mem_filter_loop_spec q ts []) as [[(t & _ & Hm) _]|[_ (r & E & _ & Hr)]].
      * exfalso. eapply no_variables_meets; eassumption.
      * exists r. split; [exact E|]. intros t. rewrite Hr, careful_holds, Ets. split.
        -- intros [[]|[H1 H2]]. eauto.
        -- intros [(l & E' & H) H2]. injection E' as <-. auto.
    + intros Hc. rewrite careful_has in Hc. cbn. unfold mem_filter. destruct (get c s); [exfalso; eauto|eauto].
  - intros [c|c|c ts|c ts].
    + cbn [call_op careful_impl t_add_collection promised]. destruct (get c s) as [l|] eqn:E; cbn [fst snd].
      * split; [exact G|]. split; [reflexivity|]. split; [|split].
        -- intros x. split; [auto|]. intros [H| ->]; [exact H|]. apply careful_has. eauto.
        -- exists l. split; [apply careful_triples, E|]. intros t. rewrite careful_holds, E. split; [eauto|]. intros (l' & E' & H). congruence.
        -- apply careful_others. reflexivity.
      * split; [apply mem_inv_insert; [exact G|constructor]|]. split; [reflexivity|].
        pose proof (fun x => get_add_coll s c x) as N. cbn in N. split; [|split].
        -- intros x. rewrite !careful_has. cbn. rewrite N. destruct (str_dec x c) as [->|Hx]; [split; [auto|eauto]|].
           split; [auto|intros [H|H]; [exact H|congruence]].
        -- exists []. split; [apply careful_triples; cbn; rewrite N; destruct (str_dec c c); congruence|].
           intros t. rewrite careful_holds, E. split; [intros []|intros (l & E' & _); discriminate].
        -- apply careful_others. intros x Hx. cbn. rewrite N. destruct (str_dec x c); congruence.
    + cbn [call_op careful_impl t_remove_collection promised fst snd mem_remove_collection].
      split; [apply mem_inv_remove, G|]. split; [reflexivity|]. pose proof (fun x => get_rem_coll s c x G) as N. cbn in N. split.
      * intros x. rewrite !careful_has, N. destruct (str_dec x c) as [->|Hx]; [split; [intros [l H]; discriminate|tauto]|tauto].
      * apply careful_others. intros x Hx. rewrite N. destruct (str_dec x c); congruence.
    + pose proof (mem_inv_step s (OAdd c ts) G) as G'. pose proof (fun x => get_add s c ts x) as N. cbn in G', N.
      cbn [call_op careful_impl t_add_triples promised]. destruct (get c s) as [l|] eqn:E.
      * unfold mem_add_triples in *. rewrite E in *. cbn [fst snd] in *. split; [exact G'|]. split; [|split; [|split]].
        -- intros x. rewrite !careful_has, N. destruct (str_dec x c) as [->|Hx]; [|tauto]. rewrite E. cbn. split; eauto.
        -- apply careful_others. intros x Hx. rewrite N. destruct (str_dec x c); congruence.
        -- intros _. split; [reflexivity|]. eexists. split; [apply careful_triples; rewrite N; destruct (str_dec c c); [reflexivity|congruence]|].
           intros t. rewrite (in_bs_append trip_order), careful_holds, E. split.
           ++ intros [H|H]; [left; eauto|auto].
           ++ intros [(l' & E' & H)|H]; [injection E' as <-; auto|auto].
        -- intros Hn. exfalso. apply Hn, careful_has. eauto.
      * cbn [fst snd]. split; [exact G|]. split; [intros x; reflexivity|]. split; [apply careful_others; reflexivity|].
        split; [|intros _; eauto]. intros H. apply careful_has in H as [l H]. congruence.
    + pose proof (mem_inv_step s (ORem c ts) G) as G'. pose proof (fun x => get_rem s c ts x) as N. cbn in G', N.
      cbn [call_op careful_impl t_remove_triples promised]. destruct (get c s) as [l|] eqn:E.
      * unfold mem_remove_triples in *. rewrite E in *. cbn [fst snd] in *. split; [exact G'|]. split; [|split; [|split]].
        -- intros x. rewrite !careful_has, N. destruct (str_dec x c) as [->|Hx]; [|tauto]. rewrite E. cbn. split; eauto.
        -- apply careful_others. intros x Hx. rewrite N. destruct (str_dec x c); congruence.
        -- intros _. split; [reflexivity|]. eexists. split; [apply careful_triples; rewrite N; destruct (str_dec c c); [reflexivity|congruence]|].
           intros t. rewrite (in_remove_all trip_order _ _ _ (proj2 G c l E)), careful_holds, E. split.
           ++ intros [H H']. split; [eauto|exact H'].
           ++ intros [(l' & E' & H) H']. injection E' as <-. auto.
        -- intros Hn. exfalso. apply Hn, careful_has. eauto.
      * cbn [fst snd]. split; [exact G|]. split; [intros x; reflexivity|]. split; [apply careful_others; reflexivity|].
        split; [|intros _; eauto]. intros H. apply careful_has in H as [l H]. congruence.
Qed.

(** The names of a value and of a program are quick to list. *)
Fixpoint value_names (v : value) : list str :=
  match v with
  | VElement e => [el_name e]
  | VQuote (_ :: q) => (fix go l := match l with [] => [] | x :: r => value_names x ++ go r end) q
  | _ => []
  end.

Lemma value_names_ok n v : in_value n v -> In n (value_names v).
Proof.
  induction 1 as [e E|h q v Hi _ IH]; cbn; [left; exact E|].
  induction q as [|x q IHq]; [destruct Hi|]. cbn. apply in_app_iff. destruct Hi as [->|Hi]; [left; exact IH|right; exact (IHq Hi)].
Qed.

Definition variable_nameb (n : str) : bool := match n with c :: _ :: _ => N.eqb c 63 | _ => false end.

Lemma no_variables_in script ts calls : tokenize_and_filter script = Ok ts -> parse ts = Ok calls ->
  forallb (fun c => forallb (fun v => forallb (fun n => negb (variable_nameb n)) (value_names v)) (c_args c)) calls = true ->
  forall n, script_names script n -> ~ variable_name n.
Proof.
  intros E1 E2 B n (ts' & calls' & E1' & E2' & c & v & Hc & Hv & Hn) (r & -> & Hr). rewrite E1 in E1'. injection E1' as <-.
  apply parse_ok in E2'. rewrite E2 in E2'. injection E2' as <-.
  rewrite forallb_forall in B. specialize (B c Hc). rewrite forallb_forall in B. specialize (B v Hv). rewrite forallb_forall in B.
  specialize (B _ (value_names_ok _ _ Hn)). destruct r; [congruence|discriminate B].
Qed.

(** It keeps the contract, and what a session answers on it: binding a name twice
    adds to it, reading an absent one is an error that assert-fail can catch. *)
Example C120_case :
  conforms careful_impl mem_new
  /\ (let scripts := [lit "let n {a b c}, let n {d e f}"; lit "filter n ? b ?"; lit "assert-fail (read m)"; lit "read n"; lit "read m"] in
      (forall x n, In x scripts -> script_names x n -> ~ variable_name n)
      /\ exists e, map outcome_of (fst (session (graph_impl careful_impl) scripts mem_new))
           = let a := Role (mkE (lit "a")) (mkE (lit "c")) (mkE (lit "b")) in
             let d := Role (mkE (lit "d")) (mkE (lit "f")) (mkE (lit "e")) in
             [Answers done; Answers (VNetwork [a]); Answers done; Answers (VNetwork [a; d]); Fails e]).
Proof.
  split; [|split].
  - split; [intros c H; apply careful_has in H as [l H]; discriminate|]. exists mem_inv. split; [apply mem_inv_new|apply careful_keeps].
  - intros x n Hx.
    repeat (destruct Hx as [<-|Hx]; [eapply no_variables_in; vm_compute; reflexivity|]). destruct Hx.
  - eexists. vm_compute. reflexivity.
Qed.
