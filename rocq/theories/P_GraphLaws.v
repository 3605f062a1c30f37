(** * Laws of the triple stores, carried to knowledge graphs *)
From Coq Require Import List Arith NArith Bool Lia String.
From Verif Require Import M_Base M_Data M_Mem M_Heed M_Duck M_Graph S_Order P_Ord S_Str S_Store S_Interp S_Frame S_Equiv S_Undo S_Graph S_GraphHist S_GraphLaws
  P_Hist P_Mem P_Heed P_HeedHist P_Duck P_Agree P_InterpStores P_Conc P_Graph P_GraphHist P_Frame P_Equiv P_Undo.
Import ListNotations.
Open Scope list_scope.

Section Generic.
  Context {S : Type} (I : trips_impl S).
  Notation G := (graph_impl I).

  Lemma g_answers_eq h : forall s, g_answers G s h = map err_todo (answers_of I s (map op_of h)).
  Proof. induction h as [|o h IH]; intros s; [reflexivity|]. cbn [g_answers map answers_of]. rewrite call_lop_eq. cbn [fst snd]. rewrite IH. reflexivity. Qed.

  Lemma looks_graph s s' : looks_same I s s' -> g_looks_same G s s'.
  Proof.
    intros (H1 & H2 & H3). split; [|split].
    - cbn. unfold graph_collections. rewrite H1. reflexivity.
    - intros c. cbn. unfold graph_entries. rewrite H2. reflexivity.
    - intros c p. cbn. unfold graph_filter. rewrite H3. reflexivity.
  Qed.

  Lemma future_graph (L : list op -> Prop) (L' : list lop -> Prop) a b :
    (forall g, L' g -> L (map op_of g)) -> same_future I L a b -> g_same_future G L' a b.
  Proof.
    intros HL F g Hg. destruct (F (map op_of g) (HL g Hg)) as [A B]. rewrite !g_answers_eq, A. split; [reflexivity|].
    rewrite !l_after_eq. apply looks_graph, B.
  Qed.

  Lemma g_has_iff s n : g_has G s n <-> has I s n.
  Proof.
    unfold g_has, has. cbn [graph_impl l_collections]. unfold graph_collections. destruct (t_collections I s) as [l|e|w]; cbn [err_todo].
    - split.
      + intros (l' & c & E & Hc & <-). injection E as <-. apply in_mkE in Hc as [_ Hc]. eauto.
      + intros (l' & E & Hn). injection E as <-. exists (map mkE l), (mkE n). split; [reflexivity|]. split; [apply in_map; exact Hn|reflexivity].
    - split; [intros (l' & c & E & _); discriminate E|intros (l' & E & _); discriminate E].
    - split; [intros (l' & c & E & _); discriminate E|intros (l' & E & _); discriminate E].
  Qed.

  Lemma in_entries l e : In e (bs_collect entry_cmp (map trip_to_entry l)) <-> normal e /\ In (view e) l.
  Proof.
    rewrite (in_bs_collect entry_order), in_map_iff. split.
    - intros (t & E & Ht). apply trip_to_entry_iff in E as [N <-]. auto.
    - intros [N Hv]. exists (view e). split; [apply trip_to_entry_iff; auto|exact Hv].
  Qed.

  Lemma g_holds_iff s c e : g_holds G s c e <-> normal e /\ holds I s (el_name c) (view e).
  Proof.
    unfold g_holds, holds. cbn [graph_impl l_entries]. unfold graph_entries. destruct (t_triples I s (el_name c)) as [l|x|w].
    - split.
      + intros (l' & E & He). injection E as <-. apply in_entries in He as [N Hv]. eauto.
      + intros [N (l' & E & Hv)]. injection E as <-. eexists. split; [reflexivity|]. apply in_entries. auto.
    - split; [intros (l' & E & _); discriminate E|intros [_ (l' & E & _)]; discriminate E].
    - split; [intros (l' & E & _); discriminate E|intros [_ (l' & E & _)]; discriminate E].
  Qed.

  Lemma same_at_graph s s' n : same_at I s s' n -> g_same_at G s s' n.
  Proof.
    intros (H1 & H2 & H3). split; [rewrite !g_has_iff; exact H1|]. intros c <-. split.
    - cbn. unfold graph_entries. rewrite H2. reflexivity.
    - intros p. cbn. unfold graph_filter. rewrite H3. reflexivity.
  Qed.

  (** Back: what a graph shows determines what its store shows. *)
  Lemma collections_back s s' l l' : l_collections G s = l_collections G s' ->
    t_collections I s = Ok l -> t_collections I s' = Ok l' -> t_collections I s = t_collections I s'.
  Proof.
    cbn. unfold graph_collections. intros E E1 E2. rewrite E1, E2 in *. cbn [err_todo] in E. injection E as E. f_equal.
    clear E1 E2. revert l' E. induction l as [|x l IH]; intros [|y l'] E; try discriminate E; [reflexivity|].
    cbn in E. injection E as E1 E2. f_equal; [exact E1|apply IH, E2].
  Qed.

  Lemma triples_back s s' n : l_entries G s (mkE n) = l_entries G s' (mkE n) ->
    (forall l, t_triples I s n = Ok l -> is_set trip_lt l) -> (forall l, t_triples I s' n = Ok l -> is_set trip_lt l) ->
    t_triples I s n = t_triples I s' n.
  Proof.
    cbn. unfold graph_entries. cbn [el_name mkE]. intros E H H'.
    destruct (t_triples I s n) as [l|e|w]; destruct (t_triples I s' n) as [l'|e'|w']; try discriminate E; [|congruence..].
    injection E as E. f_equal. apply (set_eq trip_order); [apply H; reflexivity|apply H'; reflexivity|].
    intros t. destruct (trip_to_entry_normal t) as [N V].
    assert (A : forall k, In t k <-> In (trip_to_entry t) (bs_collect entry_cmp (map trip_to_entry k))).
    { intros k. rewrite in_entries, V. tauto. }
    rewrite (A l), (A l'), E. reflexivity.
  Qed.
End Generic.

(** ** What reads show is all there is *)
Notation GM := (graph_impl mem_impl).
Notation GH := (graph_impl heed_impl).
Notation GD := (graph_impl duck_impl).
Definition ops (h : list lop) : list op := map op_of h.

Lemma mem_back h h' : g_looks_same GM (mm h) (mm h') -> looks_same mem_impl (mm h) (mm h').
Proof.
  intros (_ & H2 & _). apply meq_looks. intros c.
  assert (T : t_triples mem_impl (mm h) c = t_triples mem_impl (mm h') c).
  { apply triples_back; [apply H2|..]; intros l E; cbn [mem_impl t_triples] in E; unfold mem_triples in E;
      [destruct (bm_get str_cmp c (mm h)) as [k|] eqn:Ek|destruct (bm_get str_cmp c (mm h')) as [k|] eqn:Ek]; try discriminate E; injection E as <-;
      [exact (proj2 (mem_inv_reach h) c _ Ek)|exact (proj2 (mem_inv_reach h') c _ Ek)]. }
  cbn [mem_impl t_triples] in T. unfold mem_triples in T.
  destruct (bm_get str_cmp c (mm h)), (bm_get str_cmp c (mm h')); congruence.
Qed.

Lemma heed_triples_set h c l : t_triples heed_impl (lm h) c = Ok l -> is_set trip_lt l.
Proof.
  assert (I : inv (lm h)) by (rewrite lm_f; apply inv_reach). intros E. cbn in E. pose proof (heed_triples_spec (lm h) c I) as T.
  destruct (sg c (h_c2i (lm h))) as [cid|].
  - destruct T as (l' & E' & H & _). congruence.
  - congruence.
Qed.

Lemma heed_back h h' : g_looks_same GH (lm h) (lm h') -> looks_same heed_impl (lm h) (lm h').
Proof.
  intros (H1 & H2 & _). apply heq_looks. pose proof (heed_history (sure h)) as (HA & _). pose proof (heed_history (sure h')) as (HB & _).
  rewrite <- lm_f in HA, HB. destruct HA as (l & El & Sl & _). destruct HB as (l' & El' & Sl' & _).
  pose proof (collections_back heed_impl _ _ _ _ H1 El El') as C.
  assert (T : forall c, t_triples heed_impl (lm h) c = t_triples heed_impl (lm h') c).
  { intros c. apply triples_back; [apply H2|..]; intros k E; [exact (heed_triples_set h c k E)|exact (heed_triples_set h' c k E)]. }
  intros c. unfold obs, has, holds. rewrite C, T. split; [|intros t]; reflexivity.
Qed.

Lemma duck_back h h' : g_looks_same GD (dk h) (dk h') -> looks_same duck_impl (dk h) (dk h').
Proof.
  intros (H1 & H2 & _). apply dqe_looks. split.
  - eapply collections_back; [exact H1|reflexivity..].
  - assert (T : forall c, t_triples duck_impl (dk h) c = t_triples duck_impl (dk h') c).
    { intros c. destruct (proj2 (duck_history h) c) as (l & El & Sl & _). destruct (proj2 (duck_history h') c) as (l' & El' & Sl' & _).
      apply triples_back; [apply H2|..]; intros k E; unfold dk in E; congruence. }
    intros c. unfold dobs, holds. rewrite T. split; [|intros t; reflexivity].
    rewrite !duck_has_in. assert (C : t_collections duck_impl (dk h) = t_collections duck_impl (dk h')) by (eapply collections_back; [exact H1|reflexivity..]).
    cbn in C. unfold duck_collections in C. injection C as C. rewrite C. reflexivity.
Qed.

(** ** Limits *)
Lemma ops_app h g : ops (h ++ g) = ops h ++ ops g.
Proof. apply map_app. Qed.
Lemma dlimit h : (l_total l_dweight h < 2 ^ 63)%N -> (dtotal (ops h) < 2 ^ 63)%N.
Proof. pose proof (dweight_ops h). unfold ops. lia. Qed.
Lemma wlimit h : (l_total l_weight h < 2 ^ 64)%N -> (total_weight (ops h) < 2 ^ 64)%N.
Proof. pose proof (weight_ops h). unfold ops. lia. Qed.

Lemma known_ops h v : known (ops h) v <-> g_known GH heed_new h v.
Proof. unfold known, g_known. rewrite <- mentioned_ops, l_acked_eq. reflexivity. Qed.

(** ** One network's calls *)
Lemma on_ops n o : on n (op_of o) = g_on n o.
Proof. destruct o; reflexivity. Qed.
Lemma calls_on_ops n h : calls_on n (ops h) = ops (g_calls_on n h).
Proof.
  unfold calls_on, g_calls_on, ops. induction h as [|o h IH]; [reflexivity|]. cbn [map filter]. rewrite on_ops, IH. destruct (g_on n o); reflexivity.
Qed.
Lemma answers_on_ops {S} (I : trips_impl S) n h : forall s, g_answers_on (graph_impl I) s n h = map err_todo (answers_on I s n (ops h)).
Proof.
  induction h as [|o h IH]; intros s; [reflexivity|]. cbn [g_answers_on ops map answers_on]. rewrite call_lop_eq, on_ops, map_app. cbn [fst snd].
  fold (ops h). rewrite IH. destruct (g_on n o); reflexivity.
Qed.

Lemma knows_own_ops n h : g_knows_own GH heed_new n h -> knows_own n (ops h).
Proof.
  intros K h1 ts h2 E v Hv. unfold ops in E. apply map_split in E as (k1 & y & k2 & -> & <- & Ey & _).
  destruct y as [c|c|c es|c es]; try discriminate Ey. cbn in Ey. injection Ey as En <-.
  apply part_trips in Hv as (e & He & Hv). destruct (K k1 c es k2 eq_refl En e v He Hv) as [Hs Hm].
  split; [exact Hs|]. fold (ops k1). rewrite calls_on_ops. unfold ops. rewrite <- l_acked_eq, mentioned_ops. exact Hm.
Qed.

Lemma frame_graph {S} (I : trips_impl S) s n h :
  answers_on I s n (ops h) = answers_on I s n (calls_on n (ops h)) /\ same_at I (after I s (ops h)) (after I s (calls_on n (ops h))) n ->
  g_answers_on (graph_impl I) s n h = g_answers_on (graph_impl I) s n (g_calls_on n h)
  /\ g_same_at (graph_impl I) (l_after (graph_impl I) s h) (l_after (graph_impl I) s (g_calls_on n h)) n.
Proof.
  intros [A B]. rewrite !answers_on_ops, A, calls_on_ops. split; [reflexivity|]. rewrite calls_on_ops in B. rewrite !l_after_eq. apply same_at_graph, B.
Qed.

(** ** Batches *)
Lemma in_trips t es : In t (trips_of es) <-> exists e, In e es /\ view e = t.
Proof.
  unfold trips_of. rewrite (in_bs_collect trip_order), in_map_iff. split; intros (e & H1 & H2); exists e; rewrite entry_to_trip_view in *; auto.
Qed.

Lemma normal_form_trips t es : In t (trips_of es) <-> exists e, In e es /\ normalises e (trip_to_entry t).
Proof.
  rewrite in_trips. split; intros (e & He & E); exists e; (split; [exact He|]).
  - apply normalises_iff. rewrite entry_to_trip_view, E. reflexivity.
  - apply normalises_iff in E. rewrite entry_to_trip_view in E. apply trip_to_entry_iff in E as [_ E]. destruct (trip_to_entry_normal t) as [_ V]. congruence.
Qed.

Lemma merges_ops a b ab : g_merges a b ab -> merges (trips_of a) (trips_of b) (trips_of ab).
Proof.
  intros M t. rewrite !normal_form_trips, (M (trip_to_entry t)). split.
  - intros (e & He & N). apply in_app_or in He as [He|He]; [left|right]; eauto.
  - intros [(e & He & N)|(e & He & N)]; exists e; (split; [apply in_or_app; auto|exact N]).
Qed.

(** ** Taking back *)
Lemma undoable_ops {S} (I : trips_impl S) s o u : g_undoable (graph_impl I) s o u -> undoable I s (op_of o) (op_of u).
Proof.
  intros U. destruct U as [c H|c es H N|c es H N]; cbn [op_of]; rewrite ?g_has_iff in *; constructor; auto.
  - intros t Ht Hh. apply normal_form_trips in Ht as (e & He & E). apply (N e _ He E). apply g_holds_iff.
    destruct (trip_to_entry_normal t) as [A V]. rewrite V. auto.
  - intros t Ht. apply normal_form_trips in Ht as (e & He & E). pose proof (N e _ He E) as K. apply g_holds_iff in K.
    destruct (trip_to_entry_normal t) as [A V]. rewrite V in K. apply K.
Qed.

Lemma undo_all_ops {S} (I : trips_impl S) s os us : g_undo_all (graph_impl I) s os us -> undo_all I s (ops os) (ops us).
Proof.
  intros U. induction U as [s|s o u os us U1 U2 IH]; [constructor|]. rewrite ops_app. cbn [ops map].
  apply UA_cons; [apply undoable_ops, U1|]. rewrite call_lop_eq in IH. exact IH.
Qed.

Lemma storable_ops o : l_storable o -> storable_words (op_of o).
Proof. destruct o as [c|c|c es|c es]; cbn; auto; intros H v Hv; apply part_trips in Hv as (e & He & Hv); exact (H e v He Hv). Qed.

Lemma err_todo_ok {A} (r : tres A) a : err_todo r = Ok a <-> r = Ok a.
Proof. destruct r; cbn; split; congruence. Qed.
