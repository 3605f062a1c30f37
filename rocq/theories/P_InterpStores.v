(** * Proofs about the interpreter on the three stores *)
From Coq Require Import List Arith NArith Bool String Lia Permutation.
From Verif Require Import M_Base M_Data M_Mem M_Heed M_Duck M_Regex M_Lexer M_Graph M_Parser M_Display M_Interp
  S_Order S_Str S_Store S_Graph S_Interp P_Ord P_Hist P_Parser P_Mem P_Heed P_HeedHist P_HeedMore P_Duck P_Agree P_Graph
  P_Interp P_InterpMore.
Import ListNotations.
Open Scope list_scope.

(** ** A store call changes only the collection it is about *)
Lemma live_other h o c : target o <> c -> (live (h ++ [o]) c <-> live h c).
Proof.
  intros Hn. rewrite live_snoc. split; [intros [->|[H _]]; [destruct (Hn eq_refl)|exact H]|].
  intros H. right. split; [exact H|]. intros ->. exact (Hn eq_refl).
Qed.

Lemma holds_after_other h o c t : target o <> c -> (holds_after (h ++ [o]) c t <-> holds_after h c t).
Proof.
  intros Hn. rewrite holds_after_snoc. split.
  - intros [(ts & -> & _)|[H _]]; [destruct (Hn eq_refl)|exact H].
  - intros H. right. split; [exact H|]. intros R. apply Hn. inversion R; reflexivity.
Qed.

Lemma mem_other h o c : target o <> c ->
  t_triples mem_impl (snd (call_op mem_impl (after mem_impl mem_new h) o)) c = t_triples mem_impl (after mem_impl mem_new h) c.
Proof.
  intros Hn. pose proof (mem_inv_reach h) as Hi. cbn [t_triples mem_impl]. unfold mem_triples.
  destruct o as [x|x|x ts|x ts]; cbn [target] in Hn.
  - rewrite get_add_coll. destruct (str_dec c x) as [->|_]; [destruct (Hn eq_refl)|reflexivity].
  - rewrite get_rem_coll by exact Hi. destruct (str_dec c x) as [->|_]; [destruct (Hn eq_refl)|reflexivity].
  - rewrite get_add. destruct (str_dec c x) as [->|_]; [destruct (Hn eq_refl)|reflexivity].
  - rewrite get_rem. destruct (str_dec c x) as [->|_]; [destruct (Hn eq_refl)|reflexivity].
Qed.

Lemma heed_has_dec h c : let d := hafter heed_new h in has heed_impl d c \/ ~ has heed_impl d c.
Proof.
  intros d. unfold has. destruct (t_collections heed_impl d) as [k|k|k].
  - destruct (In_dec str_dec c k) as [H|H]; [left; eauto|right]. intros (l & E & Hl). injection E as <-. exact (H Hl).
  - right. intros (l & E & _). discriminate E.
  - right. intros (l & E & _). discriminate E.
Qed.

Lemma heed_other h o b c : target o <> c ->
  t_triples heed_impl (snd (hcall b (hafter heed_new h) o)) c = t_triples heed_impl (hafter heed_new h) c.
Proof.
  intros Hn. destruct (heed_atomic h o b) as [[->|(Hr & -> & HH & HT)] _]; [reflexivity|].
  pose proof (heed_history h) as (_ & HO & HM).
  set (H := installed heed_impl_c heed_new h) in *. set (d := hafter heed_new h) in *.
  pose proof (heed_history (h ++ [(o, true)])) as (_ & HO' & HM').
  rewrite installed_snoc, after_f_snoc in HO', HM'. fold d H in HO', HM'. rewrite Hr in HO', HM'.
  pose proof (proj2 (heed_triples_missing h c)) as HP. fold d in HP.
  pose proof (proj2 (heed_triples_missing (h ++ [(o, true)]) c)) as HP'. rewrite after_f_snoc in HP'. fold d in HP'.
  specialize (HO c). specialize (HO' c). specialize (HH c).
  rewrite (live_other H o c Hn) in HO', HH.
  pose proof (sim_has true _ _ c (heed_simulates h)) as HS. fold d H in HS. fold heed_impl in HS.
  destruct (heed_has_dec h c) as [Hx|Hx]; fold d in Hx.
  - apply HS in Hx as [Hx Hy].
    destruct (HO Hx Hy) as (l1 & E1 & S1 & I1). destruct (HO' Hx Hy) as (l2 & E2 & S2 & I2).
    rewrite E1, E2. f_equal. apply (set_eq trip_order); [assumption..|].
    intros t. rewrite I1, I2. apply holds_after_other, Hn.
  - rewrite (HP Hx), HP'; [reflexivity|]. rewrite HH, <- HS. exact Hx.
Qed.

Lemma duck_other h o c : target o <> c ->
  t_triples duck_impl (snd (dcall (dafter duck_new h) o)) c = t_triples duck_impl (dafter duck_new h) c.
Proof.
  intros Hn. destruct (duck_history h) as (_ & H1). destruct (duck_history (h ++ [o])) as (_ & H2).
  rewrite after_snoc, acked_snoc in H2. specialize (H1 c). specialize (H2 c).
  destruct H1 as (l & -> & S1 & I1). destruct H2 as (l' & -> & S2 & I2). f_equal.
  apply (set_eq trip_order); [assumption..|]. intros t. rewrite I1, I2.
  destruct (fst (dcall (dafter duck_new h) o)); [apply holds_after_other, Hn|rewrite app_nil_r; reflexivity..].
Qed.

(** ** Iterated *)
Lemma mem_others h' : forall h c, (forall o, In o h' -> target o <> c) ->
  t_triples mem_impl (after mem_impl mem_new (h ++ h')) c = t_triples mem_impl (after mem_impl mem_new h) c.
Proof.
  induction h' as [|o h' IH]; intros h c H; [rewrite app_nil_r; reflexivity|].
  change (o :: h') with ([o] ++ h'). rewrite app_assoc, IH by (intros o' Ho; apply H; right; exact Ho).
  rewrite after_snoc. apply mem_other, H. left; reflexivity.
Qed.

Lemma duck_others h' : forall h c, (forall o, In o h' -> target o <> c) ->
  t_triples duck_impl (dafter duck_new (h ++ h')) c = t_triples duck_impl (dafter duck_new h) c.
Proof.
  induction h' as [|o h' IH]; intros h c H; [rewrite app_nil_r; reflexivity|].
  change (o :: h') with ([o] ++ h'). rewrite app_assoc, IH by (intros o' Ho; apply H; right; exact Ho).
  rewrite after_snoc. apply duck_other, H. left; reflexivity.
Qed.

Lemma heed_others h' : forall h c, (forall o b, In (o, b) h' -> target o <> c) ->
  t_triples heed_impl (hafter heed_new (h ++ h')) c = t_triples heed_impl (hafter heed_new h) c.
Proof.
  induction h' as [|[o b] h' IH]; intros h c H; [rewrite app_nil_r; reflexivity|].
  change ((o, b) :: h') with ([(o, b)] ++ h'). rewrite app_assoc, IH by (intros o' b' Ho; apply (H o' b'); right; exact Ho).
  rewrite after_f_snoc. apply heed_other, (H o b). left; reflexivity.
Qed.

(** The history a flaky store goes through. *)
Fixpoint schedule (h : list op) (bs : list bool) : list (op * bool) :=
  match h with
  | [] => []
  | o :: r => (o, hd true bs) :: schedule r (tl bs)
  end.

Lemma flaky_after {S} (I : bool -> trips_impl S) h : forall s bs,
  fst (after (flaky I) (s, bs) h) = after_f I s (schedule h bs).
Proof.
  induction h as [|o h IH]; intros s bs; [reflexivity|]. cbn [after schedule after_f].
  assert (E : snd (call_op (flaky I) (s, bs) o) = (snd (call_op (I (hd true bs)) s o), tl bs)).
  { destruct o as [c|c|c ts|c ts]; cbn [call_op flaky t_add_collection t_remove_collection t_add_triples t_remove_triples fst snd].
    - destruct (t_add_collection (I (hd true bs)) s c) as [r x]. reflexivity.
    - destruct (t_remove_collection (I (hd true bs)) s c) as [r x]. reflexivity.
    - destruct (t_add_triples (I (hd true bs)) s c ts) as [[r x] y]. reflexivity.
    - destruct (t_remove_triples (I (hd true bs)) s c ts) as [[r x] y]. reflexivity. }
  rewrite E. apply IH.
Qed.

Lemma in_schedule o b h : forall bs, In (o, b) (schedule h bs) -> In o h.
Proof.
  induction h as [|o' h IH]; intros bs H; [destruct H|]. destruct H as [H|H]; [injection H as <- _; left; reflexivity|].
  right. exact (IH _ H).
Qed.

(** ** C48: a program leaves the collections it does not name alone *)
Lemma extends_target x o : extends x o -> target o = x.
Proof. intros [->|(ts & ->)]; reflexivity. Qed.

Lemma mem_untouched h calls c : ~ calls_may_write calls (el_name c) ->
  let G := graph_impl mem_impl in
  let s := after mem_impl mem_new h in
  l_entries G (snd (run_calls G common calls s)) c = l_entries G s c.
Proof.
  intros Hn G s. destruct (run_calls_via mem_impl calls s) as (h' & E & H). fold G in E. rewrite E.
  apply entries_same. unfold s. rewrite <- after_app. apply mem_others.
  intros o Ho Et. destruct (H o Ho) as (x & Hx & He). apply extends_target in He. subst x. rewrite Et in Hx. exact (Hn Hx).
Qed.

Lemma duck_untouched h calls c : ~ calls_may_write calls (el_name c) ->
  let G := graph_impl duck_impl in
  let s := dafter duck_new h in
  l_entries G (snd (run_calls G common calls s)) c = l_entries G s c.
Proof.
  intros Hn G s. destruct (run_calls_via duck_impl calls s) as (h' & E & H). fold G in E. rewrite E.
  apply entries_same. unfold s. rewrite <- after_app. apply duck_others.
  intros o Ho Et. destruct (H o Ho) as (x & Hx & He). apply extends_target in He. subst x. rewrite Et in Hx. exact (Hn Hx).
Qed.

Lemma heed_untouched h bs calls c : ~ calls_may_write calls (el_name c) ->
  let G := graph_impl (flaky heed_impl_c) in
  let s := (hafter heed_new h, bs) in
  l_entries G (snd (run_calls G common calls s)) c = l_entries G s c.
Proof.
  intros Hn G s. destruct (run_calls_via (flaky heed_impl_c) calls s) as (h' & E & H). fold G in E. rewrite E.
  apply entries_same. cbn [t_triples flaky]. unfold s. rewrite flaky_after. cbn [fst]. rewrite <- after_f_app.
  apply heed_others. intros o b Ho Et. apply in_schedule in Ho.
  destruct (H o Ho) as (x & Hx & He). apply extends_target in He. subst x. rewrite Et in Hx. exact (Hn Hx).
Qed.

(** ** C47: let *)
Lemma run_one {St} (lig : lig_impl St) (cs : @commands St) n c args st : is_table cs -> In (el_name n, c) cs ->
  run_calls lig cs [Call n args] st = exec lig (run_quote lig cs) cs (cmd_fun_of c) args st.
Proof.
  intros Ht Hc. unfold run_calls. cbn [run_calls_loop c_name c_args]. rewrite (proj2 (cmd_get_iff cs _ _ Ht) Hc).
  destruct (exec lig (run_quote lig cs) cs (cmd_fun_of c) args st) as [[v|e|w] st']; reflexivity.
Qed.

Lemma let_network {St} (lig : lig_impl St) c n st :
  run_calls lig common [Call (mkE (lit "let")) [VElement c; VNetwork n]] st = let_store lig c n st.
Proof.
  rewrite (run_one lig common (mkE (lit "let")) (Command (lit "Set a named network.") FLet));
    [reflexivity|apply common_table|]. do 3 right. left. reflexivity.
Qed.

Lemma add_collection_eq {S} (I : trips_impl S) s c :
  l_add_collection (graph_impl I) s c = (err_todo (fst (call_op I s (OAddColl (el_name c)))), snd (call_op I s (OAddColl (el_name c)))).
Proof. cbn. unfold graph_add_collection. destruct (t_add_collection I s (el_name c)). reflexivity. Qed.

Lemma let_store_ok {S} (I : trips_impl S) s c n s1 s2 :
  call_op I s (OAddColl (el_name c)) = (Ok tt, s1) ->
  l_add_entries (graph_impl I) s1 c n = (Ok tt, s2, n) ->
  let_store (graph_impl I) c n s = (Ok (VNetwork []), s2).
Proof. intros E1 E2. unfold let_store. rewrite add_collection_eq, E1. cbn [fst snd err_todo]. rewrite E2. reflexivity. Qed.

Lemma mem_let h c n :
  let G := graph_impl mem_impl in
  let s := after mem_impl mem_new h in
  exists s', let_store G c n s = (Ok (VNetwork []), s') /\ replaced G s c n s'.
Proof.
  intros G s. set (h1 := h ++ [OAddColl (el_name c)]).
  assert (E1 : call_op mem_impl s (OAddColl (el_name c)) = (Ok tt, after mem_impl mem_new h1)).
  { unfold h1. rewrite after_snoc. reflexivity. }
  assert (Hg : bm_get str_cmp (el_name c) (after mem_impl mem_new h1) = Some []).
  { unfold h1. rewrite after_snoc, get_add_coll. destruct (str_dec (el_name c) (el_name c)) as [_|X]; [reflexivity|destruct (X eq_refl)]. }
  assert (Hh : has mem_impl (after mem_impl mem_new h1) (el_name c)) by (apply mem_has; eauto).
  destruct (add_entries_spec mem_impl _ c n _ (mem_add_effect h1 (el_name c) _ Hh)) as [E2 [(l & l' & El & El' & Hs & Hi) Ho]].
  eexists. split; [eapply let_store_ok; [exact E1|exact E2]|]. split.
  - exists l'. split; [exact El'|]. split; [exact Hs|]. intros e'. rewrite Hi.
    assert (l = []) as ->. { cbn in El. unfold graph_entries in El. cbn in El. unfold mem_triples in El. rewrite Hg in El. cbn in El. congruence. }
    split; [intros [[]|H]; exact H|auto].
  - intros c' Hn. etransitivity; [exact (Ho c' Hn)|]. apply entries_same. unfold h1. rewrite after_snoc. apply mem_other. cbn. congruence.
Qed.

(** Creating a collection on LMDB: there afterwards, with what it held before. *)
Lemma heed_create h c :
  let G := graph_impl heed_impl in
  let s := hafter heed_new h in
  let h1 := h ++ [(OAddColl (el_name c), true)] in
  storable (el_name c) -> (total_weight (map fst h) + 1 < 2 ^ 64)%N ->
  call_op heed_impl s (OAddColl (el_name c)) = (Ok tt, hafter heed_new h1)
  /\ has heed_impl (hafter heed_new h1) (el_name c)
  /\ (exists l, l_entries G (hafter heed_new h1) c = Ok l /\ is_set entry_lt l
                /\ forall e', In e' l <-> exists l, l_entries G s c = Ok l /\ In e' l)
  /\ others_same G s (hafter heed_new h1) c.
Proof.
  intros G s h1 Hc Hw.
  assert (A1 : fst (hcall true s (OAddColl (el_name c))) = Ok tt).
  { refine (heed_answers h (OAddColl (el_name c)) true _). rewrite total_weight_app. cbn [total_weight fold_right weight].
    fold (total_weight (map fst h)). lia. }
  assert (E1 : call_op heed_impl s (OAddColl (el_name c)) = (Ok tt, hafter heed_new h1)).
  { unfold h1. rewrite after_f_snoc. fold s. unfold heed_impl. rewrite <- A1. apply surjective_pairing. }
  assert (Hh : has heed_impl (hafter heed_new h1) (el_name c)).
  { unfold h1. rewrite after_f_snoc. apply heed_add_collection_listed; assumption. }
  split; [exact E1|]. split; [exact Hh|]. split.
  - destruct (heed_has_dec h (el_name c)) as [Hx|Hx].
    + assert (hafter heed_new h1 = s) as Es.
      { unfold h1. rewrite after_f_snoc, (heed_add_existing h _ true Hx). reflexivity. }
      rewrite Es. destruct (heed_history h1) as (_ & HO & _).
      destruct (proj1 (heed_triples_missing h (el_name c)) Hx) as [k Ek]. fold s in Ek.
      destruct (entries_spec heed_impl s c k Ek) as (l & El & Hs & _). exists l. split; [exact El|]. split; [exact Hs|].
      intros e'. split; [eauto|]. intros (m & Em & Hm). unfold G in Em. congruence.
    + destruct (heed_history h1) as (_ & HO & _). unfold h1 in HO. rewrite after_f_snoc, installed_snoc in HO. fold s in HO.
      rewrite A1 in HO. destruct (HO (el_name c) Hc) as (k & Ek & _ & Ik); [apply live_snoc; auto|].
      assert (k = []) as ->.
      { destruct k as [|t k]; [reflexivity|]. exfalso. destruct (proj1 (Ik t) (or_introl eq_refl)) as (h3 & ts & h4 & E & Ht & Hl & Hk).
        apply Hx. pose proof (sim_has true _ _ (el_name c) (heed_simulates h)) as HS. apply HS. split; [exact Hc|].
        assert (HA : holds_after (installed heed_impl_c heed_new h ++ [OAddColl (el_name c)]) (el_name c) t) by (exists h3, ts, h4; auto).
        apply holds_after_snoc in HA as [(? & X & _)|[HA _]]; [discriminate X|]. exact (holds_after_live _ _ _ HA). }
      exists []. split.
      * unfold h1. rewrite after_f_snoc. fold s. cbn. unfold graph_entries. cbn in Ek |- *.
        unfold heed_impl. cbn. rewrite Ek. reflexivity.
      * split; [constructor|]. intros e'. split; [intros []|]. intros (k & Ek' & _). exfalso.
        pose proof (proj2 (heed_triples_missing h (el_name c)) Hx) as Hp. cbn in Ek'. unfold graph_entries in Ek'. unfold s in Ek'.
        rewrite Hp in Ek'. discriminate Ek'.
  - intros c' Hn. apply entries_same. unfold h1. rewrite after_f_snoc. apply heed_other. cbn. congruence.
Qed.

Lemma heed_let h c n :
  let G := graph_impl heed_impl in
  let s := hafter heed_new h in
  storable (el_name c) -> (total_weight (map fst h) + 1 + 3 * N.of_nat (List.length n) < 2 ^ 64)%N ->
  exists s', let_store G c n s = (Ok (VNetwork []), s') /\ merged G s c n s'.
Proof.
  intros G s Hc Hw. set (h1 := h ++ [(OAddColl (el_name c), true)]).
  destruct (heed_create h c Hc) as (E1 & Hh & (l0 & El0 & _ & H0) & Ho1); [lia|]. fold s G h1 in E1, Hh, El0, H0, Ho1.
  destruct (heed_add_entries h1 c n Hh) as (s' & E2 & (l & l' & El & El' & Hs & Hi) & Ho).
  { unfold h1. rewrite map_app, total_weight_app. cbn [map fst total_weight fold_right weight]. fold (total_weight (map fst h)). lia. }
  exists s'. split; [eapply let_store_ok; [exact E1|exact E2]|]. split.
  - exists l'. split; [exact El'|]. split; [exact Hs|]. intros e'. rewrite Hi, <- H0.
    assert (l0 = l) as -> by (unfold G in El0; congruence). reflexivity.
  - intros c' Hn. etransitivity; [exact (Ho c' Hn)|exact (Ho1 c' Hn)].
Qed.

Lemma duck_let h c n :
  let G := graph_impl duck_impl in
  let s := dafter duck_new h in
  (dtotal h + 1 + 4 * N.of_nat (List.length n) < 2 ^ 63)%N ->
  (~ has duck_impl s (el_name c) -> exists s', let_store G c n s = (Ok (VNetwork []), s') /\ replaced G s c n s')
  /\ (has duck_impl s (el_name c) -> let_store G c n s = (Panic PUnwrap, s)).
Proof.
  intros G s Hw. set (h1 := h ++ [OAddColl (el_name c)]). split; intros Hh0.
  - assert (A1 : fst (dcall s (OAddColl (el_name c))) = Ok tt).
    { pose proof (duck_answers h (OAddColl (el_name c))) as HA. cbv zeta in HA. fold s in HA. apply HA; [|exact Hh0].
      rewrite dtotal_app. cbn [dtotal fold_right dweight]. fold (dtotal h). lia. }
    assert (E1 : dcall s (OAddColl (el_name c)) = (Ok tt, dafter duck_new h1)).
    { unfold h1. rewrite after_snoc. fold s. rewrite <- A1. apply surjective_pairing. }
    destruct (duck_history h1) as ((k & Ek & _ & Hk) & HT). 
    assert (Hack : acked duck_impl duck_new h1 = acked duck_impl duck_new h ++ [OAddColl (el_name c)]).
    { unfold h1. rewrite acked_snoc. fold s. rewrite A1. reflexivity. }
    assert (Hh : has duck_impl (dafter duck_new h1) (el_name c)).
    { exists k. split; [exact Ek|]. apply Hk. rewrite Hack. apply live_snoc. auto. }
    destruct (duck_add_entries h1 c n Hh) as (s' & E2 & (l & l' & El & El' & Hs & Hi) & Ho).
    { unfold h1. rewrite dtotal_app. cbn [dtotal fold_right dweight]. fold (dtotal h). lia. }
    exists s'. split; [eapply let_store_ok; [exact E1|exact E2]|]. split.
    + exists l'. split; [exact El'|]. split; [exact Hs|]. intros e'. rewrite Hi.
      assert (l = []) as ->.
      { destruct (HT (el_name c)) as (k' & Ek' & _ & Ik).
        assert (k' = []) as ->.
        { destruct k' as [|t k']; [reflexivity|]. exfalso. pose proof (proj1 (Ik t) (or_introl eq_refl)) as HA. rewrite Hack in HA.
          apply holds_after_snoc in HA as [(? & X & _)|[HA _]]; [discriminate X|]. apply holds_after_live in HA.
          apply Hh0. destruct (duck_history h) as ((k0 & Ek0 & _ & Hk0) & _). exists k0. split; [exact Ek0|]. apply Hk0, HA. }
        cbn in El. unfold graph_entries in El. cbn in Ek', El. rewrite Ek' in El. cbn in El. congruence. }
      split; [intros [[]|H]; exact H|auto].
    + intros c' Hn. etransitivity; [exact (Ho c' Hn)|]. apply entries_same. unfold h1. rewrite after_snoc. apply duck_other. cbn. congruence.
  - destruct (duck_outside h (el_name c)) as (E & _). specialize (E Hh0). fold s in E.
    unfold let_store. unfold G. rewrite add_collection_eq, E. reflexivity.
Qed.
