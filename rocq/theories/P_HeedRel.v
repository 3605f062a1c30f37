(** * Proofs: the LMDB store in a release build *)
From Coq Require Import List Arith NArith Bool Lia String Sorted.
From Verif Require Import M_Base M_Data M_Heed M_HeedRel S_Order S_Str S_Store S_Equiv P_Ord P_Hist S_Codec P_Codec P_Heed P_HeedHist P_Duck P_DuckReal.
Import ListNotations.
Open Scope list_scope.

Lemma add1_wrap n m : u64_add1 n = Some m -> u64_wrap1 n = m.
Proof.
  unfold u64_add1, u64_wrap1. destruct (N.ltb_spec n u64_max) as [H|H]; [|discriminate]. intros E. injection E as <-.
  apply N.mod_small. unfold u64_max in H. change (2 ^ 64)%N with 18446744073709551616%N. lia.
Qed.

Lemma rel_intern_same d k v : intern d k v = rel_intern d k v \/ intern d k v = Panic POverflow.
Proof.
  unfold intern, rel_intern. destruct (sget (h_v2i d) v) as [[id|]|e|w]; auto;
    (destruct (u64_add1 k) as [m|] eqn:E; [left; rewrite (add1_wrap _ _ E); reflexivity|right; reflexivity]).
Qed.

Lemma rel_add_loop_same cid : forall ts d k, heed_add_loop d cid k ts = rel_add_loop d cid k ts \/ heed_add_loop d cid k ts = Panic POverflow.
Proof.
  induction ts as [|t ts IH]; intros d k; [left; reflexivity|]. cbn [heed_add_loop rel_add_loop].
  destruct (rel_intern_same d k (t0 t)) as [->| ->]; [|right; reflexivity]. destruct (rel_intern d k (t0 t)) as [[[f v1] d1]|e|w]; auto.
  destruct (rel_intern_same d1 v1 (t1 t)) as [->| ->]; [|right; reflexivity]. destruct (rel_intern d1 v1 (t1 t)) as [[[s v2] d2]|e|w]; auto.
  destruct (rel_intern_same d2 v2 (t2 t)) as [->| ->]; [|right; reflexivity]. destruct (rel_intern d2 v2 (t2 t)) as [[[e v3] d3]|e|w]; auto.
  destruct (row_keys cid f s e) as [[[[[[k1 k2] k3] k4] k5] k6]|]; auto.
Qed.

Lemma release_same b d o :
  call_op (heed_impl_c b) d o = call_op (release_impl_c b) d o \/ call_op (heed_impl_c b) d o = (Panic POverflow, d).
Proof.
  destruct o as [c|c|c ts|c ts]; try (left; reflexivity).
  - cbn [call_op heed_impl_c release_impl_c t_add_collection]. unfold heed_add_collection, heed_add_collection_tx, rel_add_collection_tx.
    assert (X : next_collection_id d = rel_next_collection_id d \/ next_collection_id d = Panic POverflow).
    { unfold next_collection_id, rel_next_collection_id. destruct (sget (h_ids d) id_key) as [[k|]|e|w]; auto.
      destruct (u64_add1 k) as [m|] eqn:E; [left; rewrite (add1_wrap _ _ E); reflexivity|right; reflexivity]. }
    destruct (sget (h_c2i d) c) as [[i|]|e|w]; try (left; reflexivity);
      (destruct X as [->| ->]; [left; reflexivity|right; reflexivity]).
  - cbn [call_op heed_impl_c release_impl_c t_add_triples fst]. unfold heed_add_triples, heed_add_triples_tx, rel_add_triples_tx. cbn [fst].
    destruct (sget (h_c2i d) c) as [[cid|]|e|w]; try (left; reflexivity).
    destruct (sget (h_ids d) id_key) as [[k|]|e|w]; try (left; reflexivity).
    destruct (rel_add_loop_same cid ts d k) as [->| ->]; [left; reflexivity|right; reflexivity].
Qed.

(** With ids to spare no call overflows (the last id may be used). *)
Lemma no_overflow_tight h o : (total_weight (h ++ [o]) <= 2 ^ 64)%N ->
  fst (call_op heed_impl (after heed_impl heed_new h) o) <> Panic POverflow.
Proof.
  intros Hw. rewrite total_weight_app in Hw. cbn [total_weight fold_right] in Hw. fold (total_weight h) in Hw.
  pose proof (used_bound (sure h)) as Hu. rewrite map_fst_sure in Hu. rewrite <- after_sure.
  set (d := hafter heed_new (sure h)) in *. assert (I : inv d) by apply inv_reach.
  pose proof (step_ok_call d o true I) as HS. revert HS.
  change (call_op heed_impl d o) with (hcall true d o).
  generalize (fst (hcall true d o)) as r. generalize (snd (hcall true d o)) as d'. intros d' r HS.
  change (2 ^ 64)%N with 18446744073709551616%N in Hw.
  inversion HS; subst; try discriminate.
  - exfalso. match goal with H : ~ alloc_ok d |- _ => apply H end. intros k Ek. unfold used, next_counter in Hu. rewrite Ek in Hu.
    cbn [weight] in Hw. unfold u64_max. lia.
  - exfalso. unfold used, next_counter in Hu. match goal with H : counter d = Some _ |- _ => rewrite H in Hu end. cbn [weight] in Hw.
    unfold u64_max in *. lia.
Qed.

Lemma release_histories h : (total_weight h <= 2 ^ 64)%N ->
  answers_of release_impl heed_new h = answers_of heed_impl heed_new h
  /\ after release_impl heed_new h = after heed_impl heed_new h.
Proof.
  induction h as [|o h IH] using rev_ind; intros B; [split; reflexivity|].
  destruct IH as [E1 E2]; [rewrite total_weight_app in B; lia|].
  rewrite !answers_snoc, !after_snoc, E1, E2. pose proof (no_overflow_tight h o B) as N.
  destruct (release_same true (after heed_impl heed_new h) o) as [E|E]; fold heed_impl release_impl in E.
  - rewrite E. split; reflexivity.
  - rewrite E in N. destruct (N eq_refl).
Qed.

(** ** What the wrap-around does *)
Definition wa : str := lit "a".
Definition wb : str := lit "b".
Definition wm : str := lit "m".
Definition wt : trip := Trip (lit "x") (lit "y") (lit "z").
Definition wu : trip := Trip (lit "p") (lit "y") (lit "z").

(** A collection with a triple, then [k] times a collection made and removed. *)
Fixpoint wear (k : nat) : list op :=
  match k with
  | O => [OAddColl wa; OAdd wa [wt]]
  | S j => (wear j ++ [OAddColl wb]) ++ [ORemColl wb]
  end.

Definition base : heed := Eval vm_compute in after heed_impl heed_new (wear 0).
Definition worn (k : N) : heed :=
  Heed [(id_key, k)] (h_c2i base) (h_i2c base) (h_v2i base) (h_i2v base) (h_cfst base) (h_cfts base) (h_csft base) (h_cstf base) (h_ctfs base) (h_ctsf base).
Definition worn_b (k : N) : heed :=
  Heed [(id_key, k)] (sput (h_c2i base) wb k) (nput (h_i2c base) k wb) (h_v2i base) (h_i2v base) (h_cfst base) (h_cfts base) (h_csft base) (h_cstf base) (h_ctfs base) (h_ctsf base).

Lemma wear_add k : (k < u64_max)%N -> call_op heed_impl (worn k) (OAddColl wb) = (Ok tt, worn_b (k + 1)).
Proof.
  intros H. cbn [call_op heed_impl heed_impl_c t_add_collection]. unfold heed_add_collection, heed_add_collection_tx.
  change (sget (h_c2i (worn k)) wb) with (@Ok unit (option N) None). cbn iota. unfold next_collection_id.
  change (sget (h_ids (worn k)) id_key) with (@Ok unit (option N) (Some k)). cbn iota. unfold u64_add1.
  replace (N.ltb k u64_max) with true by (symmetry; apply N.ltb_lt, H). reflexivity.
Qed.

Lemma wear_rem k : (0 < k)%N -> call_op heed_impl (worn_b k) (ORemColl wb) = (Ok tt, worn k).
Proof.
  intros H. cbn [call_op heed_impl heed_impl_c t_remove_collection]. unfold heed_remove_collection, heed_remove_collection_tx.
  change (sget (h_c2i (worn_b k)) wb) with (@Ok unit (option N) (Some k)). cbn iota. unfold run_tx, worn. f_equal. f_equal.
  cbn [worn_b h_i2c]. change (h_i2c base) with [(0%N, wa)]. unfold nput, ndel. destruct k as [|p]; [lia|]. cbn [bm_insert N.compare bm_remove].
  rewrite Pos.compare_refl. reflexivity.
Qed.

Lemma wear_after k : (3 + N.of_nat k <= u64_max)%N ->
  after heed_impl heed_new (wear k) = worn (3 + N.of_nat k) /\ answers_of heed_impl heed_new (wear k) = repeat (Ok tt) (2 + 2 * k).
Proof.
  induction k as [|k IH]; intros H; [split; vm_compute; reflexivity|].
  destruct IH as [E1 E2]; [lia|]. cbn [wear]. rewrite !after_snoc, !answers_snoc, after_snoc, E1, E2.
  rewrite wear_add by lia. cbn [fst snd]. rewrite wear_rem by lia. cbn [fst snd]. split; [f_equal; lia|].
  replace (2 + 2 * S k) with (2 + 2 * k + 1 + 1) by lia. rewrite !repeat_app. reflexivity.
Qed.

Lemma wear_weight k : total_weight (wear k) = (4 + N.of_nat k)%N.
Proof. induction k as [|k IH]; [reflexivity|]. cbn [wear]. rewrite !total_weight_app, IH. cbn [total_weight fold_right weight]. lia. Qed.

Lemma wear_live k : forall c, live (wear k) c <-> c = wa.
Proof.
  induction k as [|k IH]; intros c.
  - change (wear 0) with (([] ++ [OAddColl wa]) ++ [OAdd wa [wt]]). rewrite !live_snoc.
    split; [intros [H|[[H|[H _]] _]]; [discriminate|congruence|destruct (live_nil _ H)]|].
    intros ->. right. split; [left; reflexivity|discriminate].
  - cbn [wear]. rewrite live_snoc, live_snoc, IH. split.
    + intros [H|[[H|[H _]] N]]; [discriminate|injection H as <-; destruct (N eq_refl)|exact H].
    + intros ->. right. split; [right; split; [reflexivity|discriminate]|discriminate].
Qed.

Lemma wear_holds k : forall c t, holds_after (wear k) c t <-> c = wa /\ t = wt.
Proof.
  induction k as [|k IH]; intros c t.
  - change (wear 0) with (([] ++ [OAddColl wa]) ++ [OAdd wa [wt]]). rewrite holds_after_snoc'. split.
    + intros [(ts & E & Hi & _)|[H _]].
      * injection E as <- <-. destruct Hi as [<-|[]]. auto.
      * rewrite holds_after_snoc' in H. destruct H as [(ts & E & _)|[H _]]; [discriminate|destruct (added_nil _ _ _ H)].
    + intros [-> ->]. left. exists [wt]. split; [reflexivity|]. split; [left; reflexivity|]. rewrite live_snoc. left. reflexivity.
  - cbn [wear]. rewrite holds_after_snoc', holds_after_snoc', IH. split.
    + intros [(ts & E & _)|[[(ts & E & _)|[H _]] _]]; [discriminate|discriminate|exact H].
    + intros H. right. split; [right; split; [exact H|inversion 1]|]. destruct H as [-> ->]. inversion 1.
Qed.

(** All numbers used: 0 to u64_max. *)
Definition worn_out : nat := N.to_nat (u64_max - 3).
Lemma worn_out_N : (3 + N.of_nat worn_out = u64_max)%N.
Proof. unfold worn_out. rewrite N2Nat.id. reflexivity. Qed.
Lemma worn_out_weight : total_weight (wear worn_out) = (2 ^ 64)%N.
Proof. rewrite wear_weight. pose proof worn_out_N. change (2 ^ 64)%N with (u64_max + 1)%N. lia. Qed.

Lemma wraps_from h : total_weight h = (2 ^ 64)%N -> after heed_impl heed_new h = worn u64_max ->
  (forall r, In r (answers_of heed_impl heed_new h) -> r = Ok tt) -> (forall c t, holds_after h c t <-> c = wa /\ t = wt) ->
  let s := after release_impl heed_new (h ++ [OAddColl wm]) in
  let s2 := after release_impl heed_new (h ++ [OAddColl wm; OAdd wa [wu]]) in
  call_op heed_impl (after heed_impl heed_new h) (OAddColl wm) = (Panic POverflow, after heed_impl heed_new h)
  /\ (forall r, In r (answers_of release_impl heed_new (h ++ [OAddColl wm; OAdd wa [wu]])) -> r = Ok tt)
  /\ t_triples release_impl s wm = Ok [wt] /\ ~ holds_after (h ++ [OAddColl wm]) wm wt
  /\ t_triples release_impl s2 wa = Ok [wu] /\ holds_after (h ++ [OAddColl wm; OAdd wa [wu]]) wa wt.
Proof.
  intros W E1 HR HH s s2. destruct (release_histories h) as [R1 R2]; [rewrite W; apply N.le_refl|].
  assert (A : h ++ [OAddColl wm; OAdd wa [wu]] = (h ++ [OAddColl wm]) ++ [OAdd wa [wu]]) by (rewrite <- app_assoc; reflexivity).
  assert (Es : s = snd (call_op release_impl (worn u64_max) (OAddColl wm))) by (unfold s; rewrite after_snoc, R2, E1; reflexivity).
  assert (Es2 : s2 = snd (call_op release_impl s (OAdd wa [wu]))) by (unfold s2; rewrite A, after_snoc; fold s; reflexivity).
  rewrite E1. split; [vm_compute; reflexivity|]. split; [|split; [|split; [|split]]].
  - rewrite A, !answers_snoc, R1, R2, E1. fold s. intros r Hr.
    apply in_app_or in Hr as [Hr|[<-|[]]]; [apply in_app_or in Hr as [Hr|[<-|[]]]; [apply HR, Hr|vm_compute; reflexivity]|].
    rewrite Es. vm_compute. reflexivity.
  - rewrite Es. vm_compute. reflexivity.
  - rewrite holds_after_snoc'. intros [(ts & E & _)|[H _]]; [discriminate|]. apply HH in H as [H _]. discriminate.
  - rewrite Es2, Es. vm_compute. reflexivity.
  - rewrite A, !holds_after_snoc'. right. split; [|inversion 1]. right. split; [|inversion 1]. apply HH. auto.
Qed.

Lemma worn_out_ok : after heed_impl heed_new (wear worn_out) = worn u64_max
  /\ (forall r, In r (answers_of heed_impl heed_new (wear worn_out)) -> r = Ok tt).
Proof.
  destruct (wear_after worn_out) as [E1 E2]; [rewrite worn_out_N; apply N.le_refl|]. rewrite worn_out_N in E1.
  split; [exact E1|]. rewrite E2. intros r. apply repeat_spec.
Qed.

Lemma debug_no_overflow h : (total_weight h <= 2 ^ 64)%N -> ~ In (Panic POverflow) (answers_of heed_impl heed_new h).
Proof.
  induction h as [|o h IH] using rev_ind; intros B; [intros []|].
  rewrite answers_snoc. intros Hi. apply in_app_or in Hi as [Hi|[Hi|[]]].
  - apply IH; [rewrite total_weight_app in B; lia|exact Hi].
  - exact (no_overflow_tight h o B Hi).
Qed.

(** ** Reading works even after a wrap-around *)
Definition named (d : heed) (i : N) : Prop := is_u64 i /\ exists v, ng i (h_i2v d) = Some v.
Record winv (d : heed) : Prop := {
  wi_map : is_map (lt := str_lt) (h_c2i d);
  wi_keys : keys_ok (h_c2i d);
  wi_coll : forall c i, sg c (h_c2i d) = Some i -> is_u64 i;
  wi_word : forall v i, sg v (h_v2i d) = Some i -> named d i;
  wi_row : forall r, In r (h_cfst d) -> exists c f s t, r = enc c f s t /\ is_u64 c /\ named d f /\ named d s /\ named d t
}.

Lemma wrap_u64 n : is_u64 (u64_wrap1 n).
Proof. unfold is_u64, u64_wrap1. apply N.mod_lt. discriminate. Qed.

Lemma sget_sg {V} (t : list (str * V)) k v : sget t k = Ok (Some v) -> sg k t = Some v.
Proof. unfold sget. destruct (key_readable k); [|discriminate]. intros E. injection E. auto. Qed.

Lemma sg_sput {V} (t : list (str * V)) k v k' v' : sg k' (sput t k v) = Some v' -> sg k' t = Some v' \/ v' = v.
Proof.
  destruct (str_dec k' k) as [->|N]; [|rewrite sg_sput_other by exact N; auto].
  destruct (storable_dec k) as [H|H]; [rewrite sg_sput_same by exact H; intros E; injection E; auto|rewrite sput_unstorable by exact H; auto].
Qed.

Lemma ng_nput {V} (t : list (N * V)) k (v : V) i : (exists x, ng i t = Some x) -> exists x, ng i (nput t k v) = Some x.
Proof.
  intros [x E]. unfold nput. destruct (N.eq_dec i k) as [->|N]; [exists v; apply (bm_get_insert_same N_order)|].
  exists x. rewrite (bm_get_insert_other N_order) by exact N. exact E.
Qed.

Lemma winv_intern d k v : winv d -> exists id k' d', rel_intern d k v = Ok (id, k', d') /\ winv d' /\ named d' id
  /\ (forall i, named d i -> named d' i) /\ h_c2i d' = h_c2i d.
Proof.
  intros W. unfold rel_intern.
  assert (X : exists id k' d', Ok (u64_wrap1 k, u64_wrap1 k, Heed (h_ids d) (h_c2i d) (h_i2c d) (sput (h_v2i d) v (u64_wrap1 k)) (nput (h_i2v d) (u64_wrap1 k) v)
                (h_cfst d) (h_cfts d) (h_csft d) (h_cstf d) (h_ctfs d) (h_ctsf d)) = @Ok str _ (id, k', d') /\ winv d' /\ named d' id
      /\ (forall i, named d i -> named d' i) /\ h_c2i d' = h_c2i d).
  { set (n := u64_wrap1 k). eexists n, n, _. split; [reflexivity|].
    match goal with |- winv ?x /\ _ => set (d' := x) end.
    assert (M : forall i, named d i -> named d' i) by (intros i [U E]; split; [exact U|apply ng_nput, E]).
    assert (Nn : named d' n) by (split; [apply wrap_u64|]; exists v; apply (bm_get_insert_same N_order)).
    split; [|split; [exact Nn|split; [exact M|reflexivity]]]. destruct W as [W1 W2 W3 W4 W5]. split; try assumption.
    - intros v' i E. apply sg_sput in E as [E| ->]; [apply M, (W4 _ _ E)|exact Nn].
    - intros r Hr. destruct (W5 r Hr) as (c & f & s & t & -> & U & A & B & C). exists c, f, s, t. auto 8. }
  destruct (sget (h_v2i d) v) as [[id|]|e|w] eqn:E; try exact X.
  exists id, k, d. split; [reflexivity|]. split; [exact W|]. split; [exact (wi_word _ W _ _ (sget_sg _ _ _ E))|]. auto.
Qed.

Lemma winv_add_loop cid : is_u64 cid -> forall ts d k, winv d -> exists d', rel_add_loop d cid k ts = Ok d' /\ winv d'.
Proof.
  intros U. induction ts as [|t ts IH]; intros d k W; [exists d; auto|]. cbn [rel_add_loop].
  destruct (winv_intern d k (t0 t) W) as (f & v1 & d1 & -> & W1 & N1 & M1 & C1).
  destruct (winv_intern d1 v1 (t1 t) W1) as (s & v2 & d2 & -> & W2 & N2 & M2 & C2).
  destruct (winv_intern d2 v2 (t2 t) W2) as (e & v3 & d3 & -> & W3 & N3 & M3 & C3).
  rewrite row_keys_enc. apply IH. destruct W3 as [A B C D E]. split; try assumption. cbn [h_cfst]. intros r Hr.
  apply (in_bs_insert bytes_order) in Hr as [->|Hr]; [|exact (E r Hr)]. exists cid, f, s, e. split; [reflexivity|]. split; [exact U|].
  split; [apply M3, M2, N1|]. split; [apply M3, N2|exact N3].
Qed.

Lemma in_rdel t k r : In r (rdel t k) -> In r t.
Proof.
  unfold rdel. induction t as [|x t IH]; cbn; [auto|]. destruct (bytes_cmp k x); cbn; auto. intros [H|H]; auto.
Qed.

Lemma winv_remove_loop cid : forall ts d d', winv d -> heed_remove_loop d cid ts = Ok d' -> winv d'.
Proof.
  induction ts as [|t ts IH]; intros d d' W; cbn [heed_remove_loop]; [intros E; injection E as <-; exact W|].
  destruct (sget (h_v2i d) (t0 t)) as [[f|]|?|?]; try discriminate. destruct (sget (h_v2i d) (t1 t)) as [[s|]|?|?]; try discriminate.
  destruct (sget (h_v2i d) (t2 t)) as [[e|]|?|?]; try discriminate. rewrite row_keys_enc. apply IH.
  destruct W as [A B C D E]. split; try assumption. cbn [h_cfst]. intros r Hr. apply in_rdel in Hr. exact (E r Hr).
Qed.

Lemma winv_step d o : winv d -> winv (snd (call_op release_impl d o)).
Proof.
  intros W. pose proof W as [A B C D E]. destruct o as [c|c|c ts|c ts]; cbn [call_op release_impl release_impl_c t_add_collection t_remove_collection t_add_triples t_remove_triples].
  - unfold rel_add_collection_tx.
    assert (X : forall n i, winv (Heed i (sput (h_c2i d) c n) (nput (h_i2c d) n c) (h_v2i d) (h_i2v d) (h_cfst d) (h_cfts d) (h_csft d) (h_cstf d) (h_ctfs d) (h_ctsf d)) \/ ~ is_u64 n).
    { intros n i. destruct (N.ltb_spec n (2 ^ 64)) as [H|H]; [left|right; unfold is_u64; lia]. split; try assumption.
      - apply is_map_sput, A.
      - apply keys_ok_sput, B.
      - intros c' j Hj. apply sg_sput in Hj as [Hj| ->]; [exact (C _ _ Hj)|exact H]. }
    assert (Y : winv (snd (run_tx true d match rel_next_collection_id d with
                   | Ok (id, d1) => TCommit (Ok tt) (Heed (h_ids d1) (sput (h_c2i d1) c id) (nput (h_i2c d1) id c) (h_v2i d1) (h_i2v d1)
                        (h_cfst d1) (h_cfts d1) (h_csft d1) (h_cstf d1) (h_ctfs d1) (h_ctsf d1))
                   | Err e => TAbort (Err e) | Panic w => TAbort (Panic w) end))).
    { unfold rel_next_collection_id. destruct (sget (h_ids d) id_key) as [[k|]|?|?]; cbn [run_tx snd h_ids h_c2i h_i2c h_v2i h_i2v h_cfst h_cfts h_csft h_cstf h_ctfs h_ctsf]; try exact W.
      - destruct (X (u64_wrap1 k) (sput (h_ids d) id_key (u64_wrap1 k))) as [H|H]; [exact H|destruct (H (wrap_u64 k))].
      - destruct (X 0%N (sput (h_ids d) id_key 0%N)) as [H|H]; [exact H|]. exfalso. apply H. reflexivity. }
    destruct (sget (h_c2i d) c) as [[i|]|?|?]; try exact Y. exact W.
  - unfold heed_remove_collection, heed_remove_collection_tx. destruct (sget (h_c2i d) c) as [[i|]|?|?]; cbn [run_tx snd]; try exact W.
    assert (K : forall c' j, sg c' (sdel (h_c2i d) c) = Some j -> sg c' (h_c2i d) = Some j).
    { intros c' j. unfold sdel. destruct (key_readable c); [|auto]. destruct (str_dec c' c) as [->|N].
      - rewrite (bm_get_remove_same str_order) by exact A. discriminate.
      - rewrite (bm_get_remove_other str_order) by exact N. auto. }
    split; try assumption.
    + unfold h_c2i at 1. unfold sdel. destruct (key_readable c); [apply (is_map_remove str_order), A|exact A].
    + intros c' j Hj. apply (B c' j), K, Hj.
    + intros c' j Hj. apply (C c' j), K, Hj.
  - cbn [fst]. unfold rel_add_triples_tx. destruct (sget (h_c2i d) c) as [[cid|]|?|?] eqn:Ec; try exact W.
    destruct (sget (h_ids d) id_key) as [[k|]|?|?]; try exact W.
    destruct (winv_add_loop cid (C _ _ (sget_sg _ _ _ Ec)) ts d k W) as (d' & -> & W'). exact W'.
  - cbn [fst]. unfold heed_remove_triples, heed_remove_triples_tx. cbn [fst]. destruct (sget (h_c2i d) c) as [[cid|]|?|?]; try exact W.
    destruct (heed_remove_loop d cid ts) as [d'|?|?] eqn:Er; try exact W. exact (winv_remove_loop cid ts d d' W Er).
Qed.

Lemma winv_new : winv heed_new.
Proof. split; [apply SSorted_nil|intros k v H; discriminate H|intros; discriminate|intros; discriminate|intros r []]. Qed.

Lemma winv_reach h : winv (after release_impl heed_new h).
Proof. induction h as [|o h IH] using rev_ind; [exact winv_new|]. rewrite after_snoc. apply winv_step, IH. Qed.

Lemma winv_loop d cid : winv d -> forall rows acc, incl rows (h_cfst d) -> is_set trip_lt acc ->
  exists l, heed_triples_loop d cid rows acc = Ok l /\ is_set trip_lt l.
Proof.
  intros W. induction rows as [|r rows IH]; intros acc Hi Ha; [exists acc; auto|].
  destruct (wi_row _ W r (Hi r (or_introl eq_refl))) as (c & f & s & t & -> & U & [Uf [a Ea]] & [Us [b Eb]] & [Ut [e Ee]]).
  cbn [heed_triples_loop]. rewrite decode_enc by assumption. unfold nget. rewrite Ea, Eb, Ee.
  assert (Hi' : incl rows (h_cfst d)) by (intros x Hx; apply Hi; right; exact Hx).
  destruct (N.eqb cid c); apply IH; auto. apply (is_set_insert trip_order), Ha.
Qed.

Lemma release_has d c : has release_impl d c <-> exists i, sg c (h_c2i d) = Some i.
Proof. exact (heed_has true d c). Qed.

Lemma release_readable h c : has release_impl (after release_impl heed_new h) c ->
  exists l, t_triples release_impl (after release_impl heed_new h) c = Ok l /\ is_set trip_lt l.
Proof.
  pose proof (winv_reach h) as W. set (d := after release_impl heed_new h) in *. intros H. apply release_has in H as [i Ei].
  cbn [release_impl release_impl_c t_triples]. unfold heed_triples. rewrite (proj2 (sget_some _ _ _ (wi_keys _ W)) Ei).
  apply (winv_loop d i W); [apply incl_refl|constructor].
Qed.

Lemma release_storable h c : has release_impl (after release_impl heed_new h) c -> storable c.
Proof. intros H. apply release_has in H as [i Ei]. exact (wi_keys _ (winv_reach h) _ _ Ei). Qed.
