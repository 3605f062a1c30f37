(** * Proofs: what reading an LMDB collection prints *)
From Coq Require Import List Arith NArith Bool String Lia Sorted Permutation.
From Verif Require Import M_Base M_Data M_Heed M_Regex M_Lexer M_Graph M_Parser M_Display M_Interp M_Conc M_Lines
  S_Order S_Str S_Store S_Codec S_Graph S_Lexer S_Parser S_Interp S_Conc S_Space S_Lines
  S_Rewrite P_Ord P_Hist P_Codec P_Heed P_HeedHist P_HeedMore P_Space S_Lexer S_Wander P_Lexer P_LexMore P_Parser P_Interp P_InterpStores P_Agree P_Graph P_Conc P_ConcFoot.
Import ListNotations.
Open Scope list_scope.

(** ** The answers are the same *)
Lemma loop_same d cid rows : forall res out, fst (triples_loop_p d cid rows res out) = heed_triples_loop d cid rows res.
Proof.
  induction rows as [|r rows IH]; intros res out; [reflexivity|]. cbn [triples_loop_p heed_triples_loop].
  destruct (decode_row r) as [[[[c f] s] t]|]; [|reflexivity]. destruct (N.eqb cid c); [|apply IH].
  destruct (nget (h_i2v d) f), (nget (h_i2v d) s), (nget (h_i2v d) t); try reflexivity. apply IH.
Qed.

Lemma triples_same d c : fst (heed_triples_p d c) = heed_triples d c.
Proof. unfold heed_triples_p, heed_triples. destruct (sget (h_c2i d) c) as [[i|]|e|w]; try reflexivity. apply loop_same. Qed.

Lemma solo_same p : forall d out, fst (solo_p p d out) = solo (graph_impl heed_impl) p d.
Proof.
  induction p as [r|q k IH]; intros d out; [reflexivity|]. cbn [solo_p solo]. destruct (perform (graph_impl heed_impl) q d) as [a d']. apply IH.
Qed.

(** ** The lines, row by row *)
Definition by_ids (x y : N * N * N * trip) : Prop :=
  let '(f, s, e, _) := x in let '(f', s', e', _) := y in lex N.lt [f; s; e] [f'; s'; e'].

Definition row_shows (d : heed) (cid : N) (rows : list (list N)) (x : N * N * N * trip) : Prop :=
  let '(f, s, e, t) := x in In (enc cid f s e) rows
    /\ ng f (h_i2v d) = Some (t0 t) /\ ng s (h_i2v d) = Some (t1 t) /\ ng e (h_i2v d) = Some (t2 t).

Lemma loop_prints d ko cid : inv_b ko d -> is_u64 cid ->
  forall rows res out, (forall r, In r rows -> In r (h_cfst d)) -> StronglySorted bytes_lt rows ->
  exists l, snd (triples_loop_p d cid rows res out) = out ++ map line_of (map snd l)
    /\ StronglySorted by_ids l /\ (forall x, In x l <-> row_shows d cid rows x).
Proof.
  intros I Hcid. induction rows as [|r rows IH]; intros res out Hsub Hso.
  - exists []. cbn. rewrite app_nil_r. split; [reflexivity|]. split; [constructor|]. intros [[[f s] e] t]. cbn. tauto.
  - apply StronglySorted_inv in Hso as [Hso Hr].
    destruct (iv_cfst _ _ I r (Hsub r (or_introl eq_refl))) as (c & f & s & e & a & b & x & -> & Hc & Ha & Hb & Hx).
    assert (Uc : is_u64 c) by (eapply u64_below; eassumption).
    assert (UU : forall i v, ng i (h_i2v d) = Some v -> is_u64 i) by (intros i v H; eapply u64_below, (iv_i2v_le _ _ I); eassumption).
    cbn [triples_loop_p]. rewrite decode_enc by eauto. unfold nget.
    assert (Hsub' : forall r, In r rows -> In r (h_cfst d)) by (intros r H; apply Hsub; right; exact H).
    destruct (N.eqb_spec cid c) as [<-|Hn].
    + rewrite Ha, Hb, Hx. destruct (IH (bs_insert trip_cmp (Trip a b x) res) (out ++ [adding_line a b x]) Hsub' Hso) as (l & E & Sl & Hl).
      exists ((f, s, e, Trip a b x) :: l). split; [rewrite E, <- app_assoc; reflexivity|]. split.
      * constructor; [exact Sl|]. rewrite Forall_forall. intros [[[f' s'] e'] t'] Hi. apply Hl in Hi as (Hi & H1 & H2 & H3).
        rewrite Forall_forall in Hr. apply Hr in Hi. cbn [by_ids].
        assert (R1 : row_of (enc cid f s e) cid f s e) by (apply row_of_enc; repeat split; eauto).
        assert (R2 : row_of (enc cid f' s' e') cid f' s' e') by (apply row_of_enc; repeat split; eauto).
        apply (proj1 (row_of_order _ _ _ _ _ _ _ _ _ _ R1 R2)) in Hi. inversion Hi; subst; [lia|assumption].
      * intros [[[f' s'] e'] t']. cbn [In row_shows]. rewrite Hl. cbn [row_shows]. split.
        -- intros [H|(Hi & H)]; [|auto]. injection H as <- <- <- <-. cbn. auto.
        -- intros ([Hi|Hi] & H1 & H2 & H3); [|auto]. left. apply enc_inj in Hi; eauto. destruct Hi as (_ & -> & -> & ->).
           destruct t'; cbn in *. congruence.
    + destruct (IH res out Hsub' Hso) as (l & E & Sl & Hl). exists l. split; [exact E|]. split; [exact Sl|].
      intros [[[f' s'] e'] t']. rewrite Hl. cbn [row_shows In]. split; [tauto|]. intros ([Hi|Hi] & H1 & H2 & H3); [|auto].
      exfalso. apply Hn. apply enc_inj in Hi; eauto. destruct Hi; congruence.
Qed.

Lemma triples_prints d c cid : inv d -> sg c (h_c2i d) = Some cid ->
  exists l, snd (heed_triples_p d c) = map line_of (map snd l)
    /\ StronglySorted by_ids l /\ (forall x, In x l <-> row_shows d cid (h_cfst d) x).
Proof.
  intros I E. pose proof (iv_b _ I) as B. unfold heed_triples_p. rewrite sget_case by apply (iv_c2i_key _ _ B). rewrite E.
  destruct (loop_prints d _ cid B) with (rows := h_cfst d) (res := @nil trip) (out := @nil str) as (l & El & H).
  - eapply u64_below, c2i_below; eassumption.
  - auto.
  - apply B.
  - exists l. auto.
Qed.

Lemma missing_prints d c : inv d -> sg c (h_c2i d) = None -> snd (heed_triples_p d c) = [].
Proof. intros I E. unfold heed_triples_p. rewrite sget_case by apply (iv_c2i_key _ _ (iv_b _ I)). rewrite E. reflexivity. Qed.

(** ** First come, first served *)
Lemma first_app l l' a n : first_at l a n -> first_at (l ++ l') a n.
Proof.
  intros [H K]. assert (L : n < List.length l) by (apply nth_error_Some; congruence). split; [rewrite nth_error_app1; assumption|].
  intros m Hm. rewrite nth_error_app1 by lia. apply K, Hm.
Qed.
Lemma sooner_app l l' a b : sooner l a b -> sooner (l ++ l') a b.
Proof. intros (n & m & A & B & H). exists n, m. split; [apply first_app, A|]. split; [apply first_app, B|exact H]. Qed.

Lemma first_in l a : In a l -> exists n, first_at l a n.
Proof.
  induction l as [|x l IH]; intros H; [destruct H|]. destruct (str_dec x a) as [->|N].
  - exists 0. split; [reflexivity|]. intros m Hm. lia.
  - destruct H as [H|H]; [contradiction|]. destruct (IH H) as (n & E & K). exists (S n). split; [exact E|].
    intros [|m] Hm; [cbn; congruence|]. cbn. apply K. lia.
Qed.

Lemma first_new l a : ~ In a l -> first_at (l ++ [a]) a (List.length l).
Proof.
  intros H. split; [rewrite nth_error_app2, Nat.sub_diag by lia; reflexivity|].
  intros m Hm E. rewrite nth_error_app1 in E by exact Hm. apply H. eapply nth_error_In, E.
Qed.

Record ages (d : heed) (L : list str) : Prop := {
  ag_has : forall v, storable v -> In v L -> exists i, sg v (h_v2i d) = Some i;
  ag_in : forall v i, sg v (h_v2i d) = Some i -> In v L;
  ag_lt : forall a b i j, sg a (h_v2i d) = Some i -> sg b (h_v2i d) = Some j -> (i < j)%N -> sooner L a b
}.

Lemma ages_same d d' L : h_v2i d' = h_v2i d -> ages d L -> ages d' L.
Proof. intros E [A B C]. split; rewrite ?E; assumption. Qed.

Lemma intern_ages d k v id k' d' L : inv_b (Some k) d -> ages d L -> intern d k v = Ok (id, k', d') -> ages d' (L ++ [v]).
Proof.
  intros B [A1 A2 A3] E. unfold intern in E. rewrite sget_case in E by apply (iv_v2i_key _ _ B).
  destruct (sg v (h_v2i d)) as [i|] eqn:G.
  - injection E as _ _ <-. split.
    + intros w Hw Hi. apply in_app_or in Hi as [Hi|[<-|[]]]; [exact (A1 w Hw Hi)|eauto].
    + intros w j Hj. apply in_or_app. left. exact (A2 w j Hj).
    + intros a b i1 j1 Ha Hb Hl. apply sooner_app. exact (A3 _ _ _ _ Ha Hb Hl).
  - unfold u64_add1 in E. destruct (N.ltb_spec k u64_max) as [Lk|Lk]; [|discriminate]. injection E as _ _ <-. cbn [h_v2i].
    destruct (storable_dec v) as [Hs|Hs].
    + assert (Nv : ~ In v L) by (intros H; destruct (A1 v Hs H) as (i & Hi); congruence). split; cbn [h_v2i].
      * intros w Hw Hi. destruct (str_dec w v) as [->|Hn]; [eexists; apply sg_sput_same, Hs|]. rewrite sg_sput_other by exact Hn.
        apply in_app_or in Hi as [Hi|[<-|[]]]; [exact (A1 w Hw Hi)|congruence].
      * intros w j Hj. apply in_or_app. destruct (str_dec w v) as [->|Hn]; [right; left; reflexivity|]. rewrite sg_sput_other in Hj by exact Hn. left. eauto.
      * assert (Le : forall w i, sg w (h_v2i d) = Some i -> (i <= k)%N).
        { intros w i Hi. apply (iv_v2i _ _ B), (iv_i2v_le _ _ B) in Hi as (x & Ex & Hx). injection Ex as <-. exact Hx. }
        intros a b i j Ha Hb Hl. destruct (str_dec a v) as [->|Na], (str_dec b v) as [->|Nb].
        -- congruence || (exfalso; rewrite sg_sput_same in Ha, Hb by exact Hs; injection Ha as <-; injection Hb as <-; lia).
        -- exfalso. rewrite sg_sput_same in Ha by exact Hs. rewrite sg_sput_other in Hb by exact Nb. injection Ha as <-. apply Le in Hb. lia.
        -- rewrite sg_sput_other in Ha by exact Na. destruct (first_in L a (A2 _ _ Ha)) as (n & Hn). exists n, (List.length L).
           split; [apply first_app, Hn|]. split; [apply first_new, Nv|]. apply nth_error_Some. rewrite (proj1 Hn). discriminate.
        -- rewrite sg_sput_other in Ha by exact Na. rewrite sg_sput_other in Hb by exact Nb. apply sooner_app. exact (A3 _ _ _ _ Ha Hb Hl).
    + rewrite sput_unstorable by exact Hs. split; cbn [h_v2i].
      * intros w Hw Hi. apply in_app_or in Hi as [Hi|[<-|[]]]; [exact (A1 w Hw Hi)|contradiction].
      * intros w j Hj. apply in_or_app. left. exact (A2 w j Hj).
      * intros a b i1 j1 Ha Hb Hl. apply sooner_app. exact (A3 _ _ _ _ Ha Hb Hl).
Qed.

Definition words_in (ts : list trip) : list str := flat_map (fun t => [t0 t; t1 t; t2 t]) ts.

Lemma add_loop_ages cid : forall ts d k d' L, inv d -> counter d = Some k -> below (Some k) cid ->
  ages d L -> heed_add_loop d cid k ts = Ok d' -> ages d' (L ++ words_in ts).
Proof.
  induction ts as [|t ts IH]; intros d k d' L I Hk Hcid F E; [cbn in E; injection E as <-; cbn; rewrite app_nil_r; exact F|].
  pose proof (iv_b _ I) as B. rewrite Hk in B. cbn [heed_add_loop] in E.
  destruct (intern_spec d k (t0 t) B) as [(f & k1 & d1 & E1 & B1 & X1 & F1 & L1 & L1' & _)|[E1 Hov]]; [|rewrite E1 in E; discriminate].
  rewrite E1 in E. pose proof (intern_ages _ _ _ _ _ _ _ B F E1) as W1.
  destruct (intern_spec d1 k1 (t1 t) B1) as [(s & k2 & d2 & E2 & B2 & X2 & F2 & L2 & L2' & _)|[E2 Hov]]; [|rewrite E2 in E; discriminate].
  rewrite E2 in E. pose proof (intern_ages _ _ _ _ _ _ _ B1 W1 E2) as W2.
  destruct (intern_spec d2 k2 (t2 t) B2) as [(e & k3 & d3 & E3 & B3 & X3 & F3 & L3 & L3' & _)|[E3 Hov]]; [|rewrite E3 in E; discriminate].
  rewrite E3 in E. pose proof (intern_ages _ _ _ _ _ _ _ B2 W2 E3) as W3.
  rewrite row_keys_enc in E.
  assert (X : extends_dict d d3) by (eapply extends_dict_trans; [|eapply extends_dict_trans]; eassumption).
  change (Heed (sput (h_ids d3) id_key k3) _ _ _ _ _ _ _ _ _ _) with (with_row d3 (sput (h_ids d3) id_key k3) cid f s e) in E.
  assert (Hc3 : below (Some k3) cid) by (eapply below_mono; [|exact Hcid]; lia).
  assert (C4 : counter (with_row d3 (sput (h_ids d3) id_key k3) cid f s e) = Some k3) by apply counter_sput.
  apply (IH _ k3 d' (((L ++ [t0 t]) ++ [t1 t]) ++ [t2 t])) in E.
  - cbn [words_in flat_map]. rewrite <- !app_assoc in E. exact E.
  - split.
    + apply is_map_sput. rewrite (xd_ids _ _ X). apply I.
    + apply keys_ok_sput. rewrite (xd_ids _ _ X). apply I.
    + rewrite C4. eapply with_row_inv; [exact B3|exact Hc3| | |]; [apply (xd_i2v _ _ X3), (xd_i2v _ _ X2), F1|apply (xd_i2v _ _ X3), F2|exact F3].
  - exact C4.
  - exact Hc3.
  - eapply ages_same; [|exact W3]. reflexivity.
Qed.

Lemma ages_step d o L : inv d -> fst (hcall true d o) = Ok tt -> ages d L -> ages (snd (hcall true d o)) (L ++ words_given [o]).
Proof.
  intros I E F. pose proof (iv_b _ I) as B. destruct o as [c|c|c ts|c ts]; cbn [words_given flat_map]; rewrite ?app_nil_r.
  - cbn [call_op] in *. change (t_add_collection (heed_impl_c true)) with (heed_add_collection true) in *.
    unfold heed_add_collection in *. rewrite add_collection_tx_spec in * by exact I.
    destruct (sg c (h_c2i d)) as [i|] eqn:G; [cbn; exact F|].
    destruct (alloc_ok_dec d) as [HA|HA]; [|discriminate E]. cbn [run_tx snd]. eapply ages_same; [|exact F]. reflexivity.
  - cbn [call_op] in *. change (t_remove_collection (heed_impl_c true)) with (heed_remove_collection true) in *.
    unfold heed_remove_collection in *. rewrite remove_collection_tx_spec in * by exact I.
    destruct (sg c (h_c2i d)) as [i|] eqn:G; [|discriminate E]. cbn [run_tx snd]. eapply ages_same; [|exact F]. reflexivity.
  - cbn [call_op] in *. change (t_add_triples (heed_impl_c true)) with (heed_add_triples true) in *.
    unfold heed_add_triples in *. cbn [fst] in *. unfold heed_add_triples_tx in *.
    rewrite sget_case in * by apply B. destruct (sg c (h_c2i d)) as [cid|] eqn:G; [|discriminate E].
    rewrite sget_case in * by apply I. change (sg id_key (h_ids d)) with (counter d) in *.
    destruct (c2i_below _ _ _ _ B G) as (k & Ek & Hle). rewrite Ek in *.
    destruct (heed_add_loop d cid k ts) as [d'| |] eqn:El; [|discriminate E|discriminate E]. cbn [run_tx snd].
    eapply add_loop_ages; try eassumption. exists k; auto.
  - pose proof (step_ok_call d (ORem c ts) true I) as S.
    remember (snd (hcall true d (ORem c ts))) as d'. rewrite E in S. inversion S; subst; try exact F; try discriminate.
    match goal with R : removed_from _ _ _ _ |- _ => destruct R as [R1 R2 R3 R4 R5 R6 R7] end. eapply ages_same; [exact R5|exact F].
Qed.

Lemma words_given_app H H' : words_given (H ++ H') = words_given H ++ words_given H'.
Proof. unfold words_given. apply flat_map_app. Qed.

Notation lafter h := (after_f heed_impl_c heed_new h).
Notation lmeans h := (installed heed_impl_c heed_new h).

Lemma ages_reach h : ages (lafter h) (words_given (lmeans h)).
Proof.
  induction h as [|[o b] h IH] using rev_ind.
  - split; cbn; [intros v _ []|intros v i Hv; discriminate|intros a b i j Ha; discriminate].
  - destruct (lstep h o b) as [[E1 E2]|(-> & E0 & E1 & E2)]; rewrite E1, E2 in *; [exact IH|].
    rewrite words_given_app. apply ages_step; [apply inv_reach|exact E0|exact IH].
Qed.

(** ** Lines and triples *)
Lemma printed_members d cid l : inv d -> (forall x, In x l <-> row_shows d cid (h_cfst d) x) ->
  forall t, In t (map snd l) <-> vrow d cid t.
Proof.
  intros I Hl t. rewrite in_map_iff. split.
  - intros ([[[f s] e] t'] & <- & Hi). apply Hl in Hi. exists f, s, e. exact Hi.
  - intros (f & s & e & Hi). exists (f, s, e, t). split; [reflexivity|]. apply Hl. exact Hi.
Qed.

Lemma printed_sorted d cid l L : inv d -> ages d L -> (forall i v, ng i (h_i2v d) = Some v -> storable v) ->
  (forall x, In x l <-> row_shows d cid (h_cfst d) x) -> StronglySorted by_ids l -> StronglySorted (sooner_triple L) (map snd l).
Proof.
  intros I A F Hl S. pose proof (iv_b _ I) as B.
  assert (K : forall i v, ng i (h_i2v d) = Some v -> sg v (h_v2i d) = Some i) by (intros i v H; apply (iv_i2v _ _ B); eauto).
  assert (M : forall x, In x l -> row_shows d cid (h_cfst d) x) by (intros x; apply Hl). clear Hl.
  induction S as [|x l S IH H]; [constructor|]. cbn [map]. constructor; [apply IH; intros y Hy; apply M; right; exact Hy|].
  rewrite Forall_forall in *. intros t Ht. apply in_map_iff in Ht as (y & <- & Hy). specialize (H y Hy).
  pose proof (M x (or_introl eq_refl)) as Mx. pose proof (M y (or_intror Hy)) as My.
  destruct x as [[[f s] e] t]. destruct y as [[[f' s'] e'] t']. cbn [snd row_shows by_ids] in *.
  destruct Mx as (_ & X0 & X1 & X2). destruct My as (_ & Y0 & Y1 & Y2).
  assert (Q : forall i a b, ng i (h_i2v d) = Some a -> ng i (h_i2v d) = Some b -> a = b) by (intros; congruence).
  inversion H as [|? ? ? ? L0|? ? ? H1]; subst; [left; eapply (ag_lt _ _ A); eauto|].
  inversion H1 as [|? ? ? ? L1|? ? ? H2]; subst; [right; left; split; [eauto|eapply (ag_lt _ _ A); eauto]|].
  inversion H2 as [|? ? ? ? L2|? ? ? H3]; subst; [right; right; split; [eauto|]; split; [eauto|eapply (ag_lt _ _ A); eauto]|]. inversion H3.
Qed.

Lemma sooner_irrefl L a : ~ sooner L a a.
Proof.
  intros (n & m & [A1 A2] & [B1 B2] & H). exact (B2 n H A1).
Qed.

Lemma sorted_nodup {A} (R : A -> A -> Prop) l : (forall x, ~ R x x) -> StronglySorted R l -> NoDup l.
Proof.
  intros Hi. induction 1 as [|x l S IH H]; constructor; [|exact IH]. intros Hx. rewrite Forall_forall in H. exact (Hi x (H x Hx)).
Qed.

Lemma sooner_triple_irrefl L t : ~ sooner_triple L t t.
Proof. intros [H|[[_ H]|(_ & _ & H)]]; exact (sooner_irrefl _ _ H). Qed.

(** ** Scripts *)
Definition reading (R : str -> Prop) (p : prog) : Prop := forall c, asks p (QEntries c) -> R (el_name c).

Lemma reading_done R r : reading R (Done r).
Proof. intros q []. Qed.
Lemma reading_bind R p f : reading R p -> (forall r, reading R (f r)) -> reading R (pbind p f).
Proof. intros H1 H2 c Hq. apply asks_bind in Hq as [Hq|(r & Hq)]; [exact (H1 c Hq)|exact (H2 r c Hq)]. Qed.
Lemma reading_mono (R R' : str -> Prop) p : (forall c, R c -> R' c) -> reading R p -> reading R' p.
Proof. intros H Hp c Hq. apply H, Hp, Hq. Qed.
Lemma reading_ask (R : str -> Prop) q k : (forall c, q = QEntries c -> R (el_name c)) -> (forall a, reading R (k a)) -> reading R (Ask q k).
Proof. intros Hq Hk c [E|(a & H)]; [apply Hq; congruence|exact (Hk a c H)]. Qed.

Lemma reading_let (R : str -> Prop) c n : reading R (p_let_store c n).
Proof.
  apply reading_ask; [discriminate|]. intros [a|e|w]; try apply reading_done.
  all: apply reading_ask; [discriminate|]; intros [b|e'|w']; apply reading_done.
Qed.

Section Reading.
  Context (rq : list value -> prog) (Hq : forall q, reading (value_reads (VQuote q)) (rq q)).

  Lemma reading_value v : reading (value_reads v) (p_value rq v).
  Proof. destruct v; cbn; try apply reading_done. apply Hq. Qed.

  Lemma reading_exec cs n cmd args : cmd_get common n = Some cmd -> reading (call_reads n args) (p_exec rq cs (cmd_fun_of cmd) args).
  Proof.
    intros E. apply cmd_get_in in E. unfold common in E. cbn [In] in E.
    repeat match type of E with _ \/ _ => destruct E as [E|E] end; try (exfalso; exact E); injection E as <- <-; cbn [cmd_fun_of p_exec]; try apply reading_done.
    - unfold p_assert_equal. destruct args as [|l [|r [|x args]]]; try apply reading_done.
      apply reading_bind; [eapply reading_mono; [|apply reading_value]; intros; constructor; assumption|]. intros [lv|e|w]; try apply reading_done.
      apply reading_bind; [eapply reading_mono; [|apply reading_value]; intros; apply cr_right; assumption|]. intros [rv|e|w]; try apply reading_done.
      destruct (value_eqb lv rv); apply reading_done.
    - unfold p_assert_fail. destruct args as [|[e|q|n] [|x args]]; try apply reading_done.
      apply reading_bind; [eapply reading_mono; [|apply Hq]; intros; constructor; assumption|]. intros [v|e|w]; apply reading_done.
    - unfold p_let. destruct args as [|[c|q0|n0] [|[e|q|n] [|x args]]]; try apply reading_done.
      + apply reading_bind; [eapply reading_mono; [|apply Hq]; intros; apply cr_let; assumption|].
        intros [[e|q1|n]|e|w]; try apply reading_done. apply reading_let.
      + apply reading_let.
    - unfold p_read. destruct args as [|[c|q0|n0] [|x args]]; try apply reading_done.
      apply reading_ask; [|intros a; apply reading_done]. intros c' E. injection E as <-. constructor.
    - unfold p_filter. destruct args as [|[c|q0|n0] [|[a|q1|n1] [|[b|q2|n2] [|[d|q3|n3] [|x args]]]]]; try apply reading_done.
      apply reading_ask; [discriminate|intros r; apply reading_done].
  Qed.

  Lemma reading_loop calls : forall res, reading (fun n => exists c, In c calls /\ call_reads (el_name (c_name c)) (c_args c) n) (p_calls_loop rq common calls res).
  Proof.
    induction calls as [|c calls IH]; intros res; [apply reading_done|]. cbn [p_calls_loop].
    destruct (cmd_get common (el_name (c_name c))) as [cmd|] eqn:E; [|apply reading_done].
    apply reading_bind.
    - eapply reading_mono; [|apply (reading_exec common _ _ _ E)]. intros x Hx. exists c. split; [left; reflexivity|exact Hx].
    - intros [v|e|w]; try apply reading_done. eapply reading_mono; [|apply IH]. intros x (y & Hy & Hx). exists y. split; [right; exact Hy|exact Hx].
  Qed.
End Reading.

Lemma reading_quote_f fuel : forall q, reading (value_reads (VQuote q)) (p_quote_f fuel common q).
Proof.
  induction fuel as [|fuel IH]; intros q; [apply reading_done|]. cbn [p_quote_f].
  destruct q as [|[e|q0|n] args]; try apply reading_done.
  eapply reading_mono; [|apply (reading_loop _ IH)]. intros c (x & [<-|[]] & Hc). cbn in Hc. constructor. exact Hc.
Qed.

Lemma reading_script s : reading (reads_name s) (p_run common s).
Proof.
  unfold p_run. destruct (tokenize_and_filter s) as [ts|e|w] eqn:E1; try apply reading_done.
  destruct (parse ts) as [calls|e|w] eqn:E2; try apply reading_done.
  assert (R : reads_as s calls).
  { unfold tokenize_and_filter in E1. destruct (tokenize s) as [toks| |] eqn:Et; try discriminate.
    destruct (filter_keeps _ _ Et) as (k' & Ek & K & _). unfold tokenize_and_filter in Ek. rewrite Et in Ek. rewrite E1 in Ek. injection Ek as <-.
    exists toks, ts. split; [apply tokenize_ok; exact Et|]. split; [exact K|]. apply parse_ok. exact E2. }
  eapply reading_mono; [|apply (reading_loop (p_quote common))].
  - intros c (x & Hx & Hc). exists calls, x. auto.
  - intros q. apply reading_quote_f.
Qed.

(** A call that no script lacks keeps what is there. *)
Lemma perform_keeps h q c t : (forall x, q <> QRemoveCollection x) -> (forall x es, q <> QRemoveEntries x es) ->
  holds heed_impl (lm h) c t -> holds heed_impl (lm (h ++ ops_of q)) c t.
Proof.
  intros N1 N2 H. unfold ops_of. destruct (op_of q) as [o|] eqn:Eo; [|rewrite app_nil_r; exact H].
  pose proof (heed_effect h o c) as HE. cbn zeta in HE. destruct (fst (call_op heed_impl (lm h) o)); [|rewrite HE; exact H..].
  apply (proj2 HE t). right. split; [exact H|]. intros K.
  destruct q; cbn in Eo; try discriminate Eo; injection Eo as <-; try (inversion K; fail); [exact (N1 _ eq_refl)|exact (N2 _ _ eq_refl)].
Qed.

Lemma solo_lines (R RL W : str -> Prop) p : footed RL W p -> reading R p -> forall h out,
  exists r h' ls, solo_p p (lm h) out = (r, lm h', out ++ ls)
    /\ (forall c t, holds heed_impl (lm h) c t -> holds heed_impl (lm h') c t)
    /\ forall x, In x ls -> exists c t, R c /\ x = line_of t /\ holds heed_impl (lm h') c t.
Proof.
  induction p as [r|q k IH]; intros F Rd h out.
  - exists r, h, []. cbn. rewrite app_nil_r. split; [reflexivity|]. split; [auto|]. intros x [].
  - cbn [solo_p]. pose proof (perform_state q h) as Es. destruct (perform (graph_impl heed_impl) q (lm h)) as [a d'] eqn:Ep. cbn [snd] in Es. subst d'.
    destruct (IH a) with (h := h ++ ops_of q) (out := out ++ call_prints (lm h) q) as (r & h' & ls & E & Kp & Hl).
    + intros q' Hq'. apply F. right. exists a. exact Hq'.
    + intros c Hc. apply Rd. right. exists a. exact Hc.
    + assert (Fq : forall c t, holds heed_impl (lm h) c t -> holds heed_impl (lm (h ++ ops_of q)) c t).
      { intros c t. destruct (F q (or_introl eq_refl)) as (y & [(E0 & _)|(E0 & _)]); apply perform_keeps; intros; intros ->;
          destruct E0 as [E0|(es0 & E0)]; discriminate E0. }
      exists r, h', (call_prints (lm h) q ++ ls). rewrite app_assoc. split; [exact E|]. split; [intros c t H; apply Kp, Fq, H|].
      intros x Hx. apply in_app_or in Hx as [Hx|Hx]; [|exact (Hl x Hx)].
      destruct q; cbn [call_prints] in Hx; try (destruct Hx; fail).
      pose proof (inv_reach (sure h)) as I. rewrite <- lm_f in I.
      destruct (sg (el_name c) (h_c2i (lm h))) as [cid|] eqn:G; [|rewrite missing_prints in Hx by assumption; destruct Hx].
      destruct (triples_prints _ _ _ I G) as (l & El & _ & Ml). rewrite El in Hx.
      apply in_map_iff in Hx as (t & <- & Ht). exists (el_name c), t. split; [apply Rd; left; reflexivity|]. split; [reflexivity|].
      apply Kp, Fq. apply (heed_holds true); [exact I|]. apply (printed_members _ _ _ I Ml) in Ht. eauto.
Qed.
