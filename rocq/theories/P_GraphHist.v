(** * Histories of calls on a knowledge graph *)
From Coq Require Import List Arith NArith Bool Lia String.
From Verif Require Import M_Base M_Data M_Mem M_Heed M_Duck M_Graph S_Order P_Ord S_Str S_Store S_Graph S_GraphHist P_Hist
  P_Mem P_Heed P_HeedHist P_Duck P_Agree P_Graph.
Import ListNotations.
Open Scope list_scope.

(** The call on the triple store a call on the graph makes. *)
Definition op_of (o : lop) : op :=
  match o with
  | LAddColl c => OAddColl (el_name c)
  | LRemColl c => ORemColl (el_name c)
  | LAdd c es => OAdd (el_name c) (trips_of es)
  | LRem c es => ORem (el_name c) (trips_of es)
  end.

Section Generic.
  Context {S : Type}.

  Lemma call_lop_eq (I : trips_impl S) s o : call_lop (graph_impl I) s o = (err_todo (fst (call_op I s (op_of o))), snd (call_op I s (op_of o))).
  Proof.
    destruct o as [c|c|c es|c es]; cbn [call_lop call_op op_of graph_impl l_add_collection l_remove_collection l_add_entries l_remove_entries].
    - unfold graph_add_collection. destruct (t_add_collection I s (el_name c)); reflexivity.
    - unfold graph_remove_collection. destruct (t_remove_collection I s (el_name c)); reflexivity.
    - unfold graph_add_entries. fold (trips_of es). destruct (t_add_triples I s (el_name c) (trips_of es)) as [[r s'] x]; reflexivity.
    - unfold graph_remove_entries. fold (trips_of es). destruct (t_remove_triples I s (el_name c) (trips_of es)) as [[r s'] x]; reflexivity.
  Qed.

  Lemma l_after_eq (I : trips_impl S) h : forall s, l_after (graph_impl I) s h = after I s (map op_of h).
  Proof. induction h as [|o h IH]; intros s; [reflexivity|]. cbn [l_after map after]. rewrite call_lop_eq. apply IH. Qed.

  Lemma l_acked_eq (I : trips_impl S) h : forall s, map op_of (l_acked (graph_impl I) s h) = acked I s (map op_of h).
  Proof.
    induction h as [|o h IH]; intros s; [reflexivity|]. cbn [l_acked map acked]. rewrite call_lop_eq.
    destruct (call_op I s (op_of o)) as [[u|e|w] s']; cbn [fst snd err_todo map]; rewrite IH; reflexivity.
  Qed.

  Definition fops (h : list (lop * bool)) : list (op * bool) := map (fun p => (op_of (fst p), snd p)) h.

  Lemma l_after_f_eq (I : bool -> trips_impl S) h : forall s, l_after_f (fun b => graph_impl (I b)) s h = after_f I s (fops h).
  Proof.
    induction h as [|[o b] h IH]; intros s; [reflexivity|]. cbn [l_after_f fops map after_f fst snd]. rewrite call_lop_eq. apply IH.
  Qed.

  Lemma l_installed_eq (I : bool -> trips_impl S) h : forall s,
    map op_of (l_installed (fun b => graph_impl (I b)) s h) = installed I s (fops h).
  Proof.
    induction h as [|[o b] h IH]; intros s; [reflexivity|]. cbn [l_installed fops map installed fst snd]. rewrite call_lop_eq.
    destruct (call_op (I b) s (op_of o)) as [[u|e|w] s']; cbn [fst snd err_todo]; [destruct b; cbn [map]|..]; rewrite ?IH; reflexivity.
  Qed.
End Generic.

(** ** The two readings of a history agree *)
Lemma map_split {A B} (f : A -> B) h h1 x h2 : map f h = h1 ++ x :: h2 ->
  exists k1 y k2, h = k1 ++ y :: k2 /\ map f k1 = h1 /\ f y = x /\ map f k2 = h2.
Proof.
  intros E. apply map_eq_app in E as (k1 & k & -> & E1 & E). destruct k as [|y k2]; [discriminate|].
  cbn in E. injection E as E2 E3. exists k1, y, k2. auto.
Qed.

Lemma live_ops h n : live (map op_of h) n <-> l_live h n.
Proof.
  split.
  - intros (h1 & h2 & E & Hn). apply map_split in E as (k1 & y & k2 & -> & <- & Ey & <-).
    destruct y as [c|c|c es|c es]; try discriminate. injection Ey as Ec. exists k1, c, k2. split; [reflexivity|]. split; [exact Ec|].
    intros c' Hi Ec'. apply Hn, in_map_iff. exists (LRemColl c'). cbn. rewrite Ec'. auto.
  - intros (h1 & c & h2 & -> & <- & Hn). exists (map op_of h1), (map op_of h2). split; [rewrite map_app; reflexivity|].
    intros Hi. apply in_map_iff in Hi as (o & Eo & Hi). destruct o as [c'|c'|c' es|c' es]; try discriminate.
    injection Eo as Ec. exact (Hn c' Hi Ec).
Qed.

Lemma removes_ops n e' o : normal e' -> (removes n (view e') (op_of o) <-> l_removes n e' o).
Proof.
  intros N. split.
  - intros H. destruct o as [c|c|c es|c es]; cbn [op_of] in H; inversion H; subst.
    + constructor. reflexivity.
    + apply view_normal_form in H1 as (e & Hi & Hn); [|exact N]. econstructor; eauto.
  - intros H. inversion H as [c es e Ec Hi Hn|c Ec]; subst; cbn [op_of].
    + apply removes_triple, view_normal_form; eauto.
    + apply removes_coll.
Qed.

Lemma clears_ops n e' o : normal e' -> (clears n (view e') (op_of o) <-> l_clears n e' o).
Proof.
  intros N. split.
  - intros H. destruct o as [c|c|c es|c es]; cbn [op_of] in H; inversion H; subst.
    + apply l_clears_again. reflexivity.
    + apply l_clears_removed. constructor. reflexivity.
    + apply l_clears_removed. apply view_normal_form in H1 as (e & Hi & Hn); [|exact N]. econstructor; eauto.
  - intros H. inversion H as [o' Hr|c Ec]; subst; [|cbn [op_of]; apply clears_again].
    inversion Hr as [c es e Ec Hi Hn|c Ec]; subst; cbn [op_of].
    + apply clears_triple, view_normal_form; eauto.
    + apply clears_coll.
Qed.

Lemma added_ops (K : op -> Prop) (L : lop -> Prop) h n e' : normal e' -> (forall o, K (op_of o) <-> L o) ->
  (added K (map op_of h) n (view e') <-> l_added L h n e').
Proof.
  intros N HK. split.
  - intros (h1 & ts & h2 & E & Hi & Hl & Hn). apply map_split in E as (k1 & y & k2 & -> & <- & Ey & <-).
    destruct y as [c|c|c es|c es]; try discriminate. injection Ey as Ec Et. subst ts.
    apply view_normal_form in Hi as (e & Hi & He); [|exact N].
    exists k1, c, es, k2, e. split; [reflexivity|]. split; [exact Ec|]. split; [exact Hi|]. split; [exact He|]. split; [apply live_ops, Hl|].
    intros o Ho HL. apply (Hn (op_of o)); [apply in_map, Ho|]. apply HK, HL.
  - intros (h1 & c & es & h2 & e & -> & <- & Hi & He & Hl & Hn).
    exists (map op_of h1), (trips_of es), (map op_of h2). split; [rewrite map_app; reflexivity|].
    split; [apply view_normal_form; eauto|]. split; [apply live_ops, Hl|].
    intros o Ho HO. apply in_map_iff in Ho as (o' & <- & Ho). apply (Hn o' Ho), HK, HO.
Qed.

Lemma holds_ops h n e' : normal e' -> (holds_after (map op_of h) n (view e') <-> l_holds h n e').
Proof. intros N. apply added_ops; [exact N|]. intros o. apply removes_ops, N. Qed.
Lemma mem_holds_ops h n e' : normal e' -> (mem_holds_after (map op_of h) n (view e') <-> l_mem_holds h n e').
Proof. intros N. apply added_ops; [exact N|]. intros o. apply clears_ops, N. Qed.

Lemma l_added_normal K h n e' : l_added K h n e' -> normal e'.
Proof. intros (h1 & c & es & h2 & e & _ & _ & _ & (N & _) & _). exact N. Qed.

(** ** Reading *)
Lemma entries_by {S} (I : trips_impl S) s c l (P : entry -> Prop) :
  t_triples I s (el_name c) = Ok l -> (forall e', P e' -> normal e') -> (forall e', normal e' -> (In (view e') l <-> P e')) ->
  exists es, l_entries (graph_impl I) s c = Ok es /\ is_set entry_lt es /\ forall e', In e' es <-> P e'.
Proof.
  intros E HN HP. destruct (entries_spec I s c l E) as (es & Ee & Hs & Hi). exists es. split; [exact Ee|]. split; [exact Hs|].
  intros e'. rewrite Hi. split.
  - intros [N H]. apply HP; assumption.
  - intros H. pose proof (HN _ H) as N. split; [exact N|]. apply HP; assumption.
Qed.

Lemma colls_by {S} (I : trips_impl S) s l : t_collections I s = Ok l ->
  l_collections (graph_impl I) s = Ok (map mkE l).
Proof. intros E. cbn. unfold graph_collections. rewrite E. reflexivity. Qed.

Lemma in_mkE c l : In c (map mkE l) <-> bare c /\ In (el_name c) l.
Proof.
  rewrite in_map_iff. split.
  - intros (n & <- & H). split; [apply bare_mkE|exact H].
  - intros [B H]. exists (el_name c). split; [symmetry; apply bare_eq, B|exact H].
Qed.

Lemma set_mkE l : is_set str_lt l -> is_set element_lt (map mkE l).
Proof.
  intros H. unfold is_set in *. induction H as [|x l Hs IH Hf]; cbn; [constructor|]. constructor; [exact IH|].
  apply Forall_map. eapply Forall_impl; [|exact Hf]. intros y Hy. apply (o_lt _ _ element_order). unfold element_cmp. cbn.
  apply (o_lt _ _ str_order) in Hy. rewrite Hy. reflexivity.
Qed.

Lemma nodup_mkE l : NoDup l -> NoDup (map mkE l).
Proof.
  intros H. induction H as [|x l Hn Hd IH]; cbn; constructor; [|exact IH].
  intros Hi. apply in_mkE in Hi as [_ Hi]. exact (Hn Hi).
Qed.

(** ** Answers *)
Lemma part_trips v es : part_of v (trips_of es) <-> exists e, In e es /\ names_of e v.
Proof.
  unfold part_of. split.
  - intros (t & Hi & Hp). apply in_trips_of in Hi as (e & Hi & <-). exists e. split; [exact Hi|]. exact Hp.
  - intros (e & Hi & Hp). exists (view e). split; [apply in_trips_of; eauto|exact Hp].
Qed.

Lemma mentioned_ops h v : mentioned (map op_of h) v <-> l_mentioned h v.
Proof.
  split.
  - intros (c & ts & Hi & Hp). apply in_map_iff in Hi as (o & Eo & Hi). destruct o as [c'|c'|c' es|c' es]; try discriminate.
    injection Eo as Ec Et. subst. apply part_trips in Hp as (e & He & Hn). exists c', es, e. auto.
  - intros (c & es & e & Hi & He & Hn). exists (el_name c), (trips_of es). split.
    + apply in_map_iff. exists (LAdd c es). auto.
    + apply part_trips. eauto.
Qed.

Lemma length_insert {A} (cmp : A -> A -> comparison) x l : List.length (bs_insert cmp x l) <= S (List.length l).
Proof. induction l as [|y l IH]; cbn; [lia|]. destruct (cmp x y); cbn; lia. Qed.

Lemma length_collect {A} (cmp : A -> A -> comparison) l : List.length (bs_collect cmp l) <= List.length l.
Proof.
  unfold bs_collect. assert (H : forall l acc, List.length (fold_left (fun acc x => bs_insert cmp x acc) l acc) <= List.length acc + List.length l).
  { clear l. induction l as [|x l IH]; intros acc; cbn; [lia|]. specialize (IH (bs_insert cmp x acc)). pose proof (length_insert cmp x acc). lia. }
  specialize (H l []). cbn in H. exact H.
Qed.

Lemma length_trips es : List.length (trips_of es) <= List.length es.
Proof. unfold trips_of. etransitivity; [apply length_collect|]. rewrite map_length. reflexivity. Qed.

Lemma weight_ops h : (total_weight (map op_of h) <= l_total l_weight h)%N.
Proof.
  induction h as [|o h IH]; [reflexivity|]. cbn [map total_weight l_total fold_right]. fold (total_weight (map op_of h)).
  fold (l_total l_weight h). apply N.add_le_mono; [|exact IH]. destruct o as [c|c|c es|c es]; cbn [op_of weight l_weight]; try reflexivity.
  pose proof (length_trips es). lia.
Qed.
Lemma dweight_ops h : (dtotal (map op_of h) <= l_total l_dweight h)%N.
Proof.
  induction h as [|o h IH]; [reflexivity|]. cbn [map dtotal l_total fold_right]. fold (dtotal (map op_of h)).
  fold (l_total l_dweight h). apply N.add_le_mono; [|exact IH]. destruct o as [c|c|c es|c es]; cbn [op_of dweight l_dweight]; try reflexivity.
  pose proof (length_trips es). lia.
Qed.

Lemma fst_fops h : map fst (fops h) = map op_of (map fst h).
Proof. unfold fops. rewrite !map_map. reflexivity. Qed.

(** ** Disciplined clients *)
Lemma allowed_ops h o : l_allowed h o -> allowed (map op_of h) (op_of o).
Proof.
  destruct o as [c|c|c es|c es]; cbn [l_allowed op_of allowed].
  - rewrite live_ops. auto.
  - intros [Hl Hn]. split; [apply live_ops, Hl|]. intros t Ht. destruct (trip_to_entry_normal t) as [N V].
    rewrite <- V in Ht. apply holds_ops in Ht; [|exact N]. exact (Hn _ Ht).
  - intros [Hl Hn]. split; [apply live_ops, Hl|]. intros v Hv. apply part_trips in Hv as (e & Hi & He). eauto.
  - intros [Hl Hn]. split; [apply live_ops, Hl|]. intros t Ht. apply in_trips_of in Ht as (e & Hi & <-).
    destruct (normalises_total e) as (e' & He). pose proof He as (N & E1 & E2 & E3).
    replace (view e) with (view e') by (unfold view; congruence). apply holds_ops; [exact N|]. eauto.
Qed.

Lemma disciplined_ops h : l_disciplined h -> disciplined (map op_of h).
Proof.
  intros D h1 o h2 E. apply map_split in E as (k1 & y & k2 & -> & <- & <- & _). apply allowed_ops, (D k1 y k2). reflexivity.
Qed.
