(** * Removing calls in which a write fails *)
From Coq Require Import List Arith NArith Bool Lia.
From Verif Require Import M_Base M_Data M_Heed M_Txn S_Order S_Str S_Store S_Codec S_Txn P_Ord P_Hist P_Codec P_Heed P_HeedHist P_Txn.
Import ListNotations.
Open Scope list_scope.

Lemma exact_at_ext {A} (m m' : act A) d : (forall l, m (Txn d l false) = m' (Txn d l false)) -> exact_at m' d -> exact_at m d.
Proof.
  intros E. unfold exact_at. rewrite (E None). destruct (m' (Txn d None false)) as [[a|e|w] x].
  - intros (n & H1 & H2 & H3 & H4 & H5). exists n. split; [exact H1|]. split; [exact H2|]. split; [|split].
    + intros j Hj. rewrite E. apply H3, Hj.
    + rewrite E. exact H4.
    + intros j Hj. rewrite E. apply H5, Hj.
  - intros H j. rewrite E. apply H.
  - intros H j. rewrite E. apply H.
Qed.

Lemma exact_bind_at {A B} b1 (m : act A) (k : A -> act B) d a d1 :
  tame b1 m -> m (Txn d None false) = (Ok a, Txn d1 None false) ->
  (forall a, brittle (k a)) -> exact_at (k a) d1 -> exact_at (bind m k) d.
Proof.
  intros T1 E0 HB X. destruct (proj2 T1 d) as (r & d1' & n1 & E1 & B1 & S1 & F1).
  rewrite E0 in E1. injection E1 as <- <-. unfold exact_at, bind. rewrite E0.
  assert (Broken : forall j, j < n1 -> exists w d', (match m (Txn d (Some j) false) with
            | (Ok a, x') => k a x' | (Err e, x') => (Err e, x') | (Panic w, x') => (Panic w, x') end)
            = (Panic w, Txn d' (Some 0) true)).
  { intros j Hj. destruct (F1 j Hj) as (r' & d' & -> & Nr). destruct r' as [a'|e|w].
    - destruct (HB a' d' (Some 0)) as (w & ->). eauto.
    - destruct (Nr e eq_refl).
    - eauto. }
  unfold exact_at in X. destruct (k a (Txn d1 None false)) as [r2 x2] eqn:E2. destruct r2 as [b|e|w].
  - destruct X as (n & Hb & Hl & Hs & Hlast & Hbad). exists (n1 + n). split; [exact Hb|]. split; [exact Hl|].
    split; [|split].
    + intros j Hj. rewrite S1 by lia. destruct (Hs (j - n1)) as (v & -> & Ev); [lia|]. exists v.
      split; [do 3 f_equal; lia|]. exact Ev.
    + rewrite S1 by lia. replace (n1 + n - n1) with n by lia. exact Hlast.
    + intros j Hj. destruct (le_lt_dec n1 j) as [Hle|Hlt].
      * rewrite S1 by exact Hle. apply Hbad. lia.
      * exact (Broken j Hlt).
  - intros j. destruct (le_lt_dec n1 j) as [Hle|Hlt].
    + rewrite S1 by exact Hle. apply X.
    + destruct (Broken j Hlt) as (w & d' & Hw). eauto.
  - intros j. destruct (le_lt_dec n1 j) as [Hle|Hlt].
    + rewrite S1 by exact Hle. apply X.
    + destruct (Broken j Hlt) as (w' & d' & Hw). eauto.
Qed.

(** ** Every failing write is noticed *)
Definition noisy_at {A} (m : act A) (d : heed) : Prop :=
  match m (Txn d None false) with
  | (Ok v, x0) => exists n, x_bad x0 = false
      /\ (forall j, n <= j -> m (Txn d (Some j) false) = (Ok v, Txn (x_db x0) (Some (j - n)) false))
      /\ (forall j, j < n -> exists w d', m (Txn d (Some j) false) = (Panic w, Txn d' (Some 0) true))
  | _ => forall j, exists w x, m (Txn d (Some j) false) = (Panic w, x)
  end.

Lemma noisy_bind_at {A B} b1 (m : act A) (k : A -> act B) d a d1 :
  tame b1 m -> m (Txn d None false) = (Ok a, Txn d1 None false) ->
  (forall a, brittle (k a)) -> noisy_at (k a) d1 -> noisy_at (bind m k) d.
Proof.
  intros T1 E0 HB X. destruct (proj2 T1 d) as (r & d1' & n1 & E1 & B1 & S1 & F1).
  rewrite E0 in E1. injection E1 as <- <-. unfold noisy_at, bind. rewrite E0.
  assert (Broken : forall j, j < n1 -> exists w d', (match m (Txn d (Some j) false) with
            | (Ok a, x') => k a x' | (Err e, x') => (Err e, x') | (Panic w, x') => (Panic w, x') end)
            = (Panic w, Txn d' (Some 0) true)).
  { intros j Hj. destruct (F1 j Hj) as (r' & d' & -> & Nr). destruct r' as [a'|e|w].
    - destruct (HB a' d' (Some 0)) as (w & ->). eauto.
    - destruct (Nr e eq_refl).
    - eauto. }
  unfold noisy_at in X. destruct (k a (Txn d1 None false)) as [r2 x2] eqn:E2. destruct r2 as [b|e|w].
  - destruct X as (n & Hb & Hs & Hbad). exists (n1 + n). split; [exact Hb|]. split.
    + intros j Hj. rewrite S1 by lia. rewrite Hs by lia. do 3 f_equal. lia.
    + intros j Hj. destruct (le_lt_dec n1 j) as [Hle|Hlt].
      * rewrite S1 by exact Hle. apply Hbad. lia.
      * exact (Broken j Hlt).
  - intros j. destruct (le_lt_dec n1 j) as [Hle|Hlt].
    + rewrite S1 by exact Hle. apply X.
    + destruct (Broken j Hlt) as (w & d' & Hw). eauto.
  - intros j. destruct (le_lt_dec n1 j) as [Hle|Hlt].
    + rewrite S1 by exact Hle. apply X.
    + destruct (Broken j Hlt) as (w' & d' & Hw). eauto.
Qed.

(** ** The removing loop *)
Lemma known_then {A} d v i (k : N -> act A) : sget (h_v2i d) v = Ok (Some i) ->
  forall l, bind (fine_known v) k (Txn d l false) = k i (Txn d l false).
Proof. intros G l. unfold fine_known, bind, get_db. cbn. rewrite G. reflexivity. Qed.

Lemma bind_assoc {A B C} (m : act A) (k : A -> act B) (k' : B -> act C) x : bind (bind m k) k' x = bind m (fun a => bind (k a) k') x.
Proof. unfold bind. destruct (m x) as [[a|e|w] y]; reflexivity. Qed.

Lemma bind_ext {A B} (m : act A) (k k' : A -> act B) x : (forall a y, k a y = k' a y) -> bind m k x = bind m k' x.
Proof. intros H. unfold bind. destruct (m x) as [[a|e|w] y]; [apply H|reflexivity..]. Qed.

Lemma remove_loop_app c ts ts' : forall x, fine_remove_loop c (ts ++ ts') x = bind (fine_remove_loop c ts) (fun _ => fine_remove_loop c ts') x.
Proof.
  induction ts as [|t ts IH]; intros x; [reflexivity|]. cbn [fine_remove_loop app].
  rewrite bind_assoc. apply bind_ext. intros f y. rewrite bind_assoc. apply bind_ext. intros s z. rewrite bind_assoc. apply bind_ext.
  intros o u. destruct (row_keys c f s o) as [[[[[[k1 k2] k3] k4] k5] k6]|]; [|reflexivity].
  rewrite bind_assoc. apply bind_ext. intros _ v. apply IH.
Qed.

Lemma brittle_remove_one c t ts : brittle (fine_remove_loop c (t :: ts)).
Proof. intros d l. exists PTodo. reflexivity. Qed.

Lemma remove_loop_panics c ts : forall d w, fst (fine_remove_loop c ts (Txn d None false)) = Panic w ->
  forall j, exists w x, fine_remove_loop c ts (Txn d (Some j) false) = (Panic w, x).
Proof.
  induction ts as [|t ts IH]; intros d w H j; [discriminate|]. cbn [fine_remove_loop] in *.
  destruct (sget (h_v2i d) (t0 t)) as [[f|]|e|w0] eqn:G0;
    [|exists PTodo, (Txn d (Some j) false); unfold fine_known, bind, get_db; cbn; rewrite G0; reflexivity..].
  rewrite (known_then _ _ _ _ G0) in H |- *.
  destruct (sget (h_v2i d) (t1 t)) as [[s|]|e|w1] eqn:G1;
    [|exists PTodo, (Txn d (Some j) false); unfold fine_known, bind, get_db; cbn; rewrite G1; reflexivity..].
  rewrite (known_then _ _ _ _ G1) in H |- *.
  destruct (sget (h_v2i d) (t2 t)) as [[o|]|e|w2] eqn:G2;
    [|exists PTodo, (Txn d (Some j) false); unfold fine_known, bind, get_db; cbn; rewrite G2; reflexivity..].
  rewrite (known_then _ _ _ _ G2) in H |- *.
  destruct (row_keys c f s o) as [[[[[[k1 k2] k3] k4] k5] k6]|]; [|eexists _, _; reflexivity].
  destruct ts as [|t' ts].
  { exfalso. rewrite (bind_ok _ _ _ _ _ (del_rows_all k1 k2 k3 k4 k5 k6 d)) in H. discriminate. }
  rewrite (bind_ok _ _ _ _ _ (del_rows_all k1 k2 k3 k4 k5 k6 d)) in H.
  destruct (proj2 (tame_del_rows k1 k2 k3 k4 k5 k6) d) as (r & d1 & n & E1 & _ & S1 & F1).
  rewrite del_rows_all in E1. injection E1 as <- <-. destruct (le_lt_dec n j) as [Hle|Hlt].
  - rewrite (bind_ok _ _ _ _ _ (S1 j Hle)). exact (IH _ _ H (j - n)).
  - destruct (F1 j Hlt) as (r & d' & E & Nr). unfold bind at 1. rewrite E. destruct r as [u|e|w'].
    + destruct (brittle_remove_one c t' ts d' (Some 0)) as (w' & ->). eauto.
    + destruct (Nr e eq_refl).
    + eauto.
Qed.

(** One row: all six deletes are writes, or none is. *)
Lemma row_in k l : existsb (fun r => match bytes_cmp k r with Eq => true | _ => false end) l = true <-> In k l.
Proof.
  rewrite existsb_exists. split.
  - intros (r & Hi & E). destruct (bytes_cmp k r) eqn:C; try discriminate. apply (o_eq _ _ bytes_order) in C. subst. exact Hi.
  - intros Hi. exists k. split; [exact Hi|]. rewrite (proj2 (o_eq _ _ bytes_order k k) eq_refl). reflexivity.
Qed.

Lemma exact_del_last g s k d : In k (g d) -> exact_at (del_row g s k) d.
Proof.
  intros Hi. apply row_in in Hi. unfold exact_at, del_row, write_db. cbn [x_bad x_db x_left]. rewrite Hi. exists 0.
  split; [reflexivity|]. split; [reflexivity|]. split; [|split; [|lia]].
  - intros [|j] Hj; [lia|]. exists tt. cbn. rewrite Nat.sub_0_r. auto.
  - exists tt, d. reflexivity.
Qed.

Lemma exact_del_rows k1 k2 k3 k4 k5 k6 d : In k6 (h_ctsf d) -> exact_at (fine_del_rows k1 k2 k3 k4 k5 k6) d.
Proof.
  intros Hi. unfold fine_del_rows.
  apply (exact_at_ext _ (del_row h_cfst set_cfst k1;; open_db ;; del_row h_cfts set_cfts k2 ;; open_db ;; del_row h_csft set_csft k3 ;;
    open_db ;; del_row h_cstf set_cstf k4 ;; open_db ;; del_row h_ctfs set_ctfs k5 ;; open_db ;; del_row h_ctsf set_ctsf k6)); [reflexivity|].
  do 4 (eapply (exact_bind_at 1); [apply tame_write|apply del_row_all; intros x; apply heed_eta|intros []; apply brittle_open|];
        eapply exact_at_ext; [intros l; apply open_then|]).
  eapply (exact_bind_at 1); [apply tame_write|apply del_row_all; intros x; apply heed_eta|intros []; apply brittle_open|].
  eapply exact_at_ext; [intros l; apply open_then|]. apply exact_del_last. exact Hi.
Qed.

Lemma idle_write {A} t f (k : unit -> act A) d l : t d = false -> bind (write_db t f) k (Txn d l false) = k tt (Txn d l false).
Proof. intros H. unfold bind, write_db. cbn [x_bad x_db x_left]. rewrite H. reflexivity. Qed.

Lemma idle_del_rows k1 k2 k3 k4 k5 k6 d l :
  ~ In k1 (h_cfst d) -> ~ In k2 (h_cfts d) -> ~ In k3 (h_csft d) -> ~ In k4 (h_cstf d) -> ~ In k5 (h_ctfs d) -> ~ In k6 (h_ctsf d) ->
  fine_del_rows k1 k2 k3 k4 k5 k6 (Txn d l false) = (Ok tt, Txn d l false).
Proof.
  intros H1 H2 H3 H4 H5 H6.
  assert (N : forall k t, ~ In k t -> existsb (fun r => match bytes_cmp k r with Eq => true | _ => false end) t = false).
  { intros k t Hn. apply not_true_iff_false. intros E. apply Hn, row_in, E. }
  unfold fine_del_rows. do 5 (rewrite open_then; unfold del_row at 1; rewrite idle_write by (apply N; assumption)).
  rewrite open_then. unfold del_row, write_db. cbn [x_bad x_db x_left]. rewrite N by assumption. reflexivity.
Qed.

(** ** The last turn *)
Lemma vrow_main d c t f s e : inv d -> sg (t0 t) (h_v2i d) = Some f -> sg (t1 t) (h_v2i d) = Some s -> sg (t2 t) (h_v2i d) = Some e ->
  (vrow d c t <-> In (enc c f s e) (h_cfst d)).
Proof.
  intros I Hf Hs He. pose proof (iv_b _ I) as B. split.
  - intros (f' & s' & e' & Hi & H1 & H2 & H3).
    assert (f' = f) as ->. { apply (iv_i2v _ _ B) in H1; [congruence|]. eapply (iv_v2i_key _ _ B), Hf. }
    assert (s' = s) as ->. { apply (iv_i2v _ _ B) in H2; [congruence|]. eapply (iv_v2i_key _ _ B), Hs. }
    assert (e' = e) as ->. { apply (iv_i2v _ _ B) in H3; [congruence|]. eapply (iv_v2i_key _ _ B), He. }
    exact Hi.
  - intros Hi. exists f, s, e. split; [exact Hi|].
    split; [exact (iv_v2i _ _ B _ _ Hf)|]. split; [exact (iv_v2i _ _ B _ _ Hs)|exact (iv_v2i _ _ B _ _ He)].
Qed.

Lemma index_in perm tab main c f s e : perm_inj perm -> index_ok perm tab main -> is_u64 c -> is_u64 f -> is_u64 s -> is_u64 e ->
  (In (perm c f s e) tab <-> In (enc c f s e) main).
Proof.
  intros PI H Uc Uf Us Ue. rewrite (H (perm c f s e)). split.
  - intros (c' & f' & s' & e' & U1 & U2 & U3 & U4 & E & Hi). apply PI in E; try assumption. destruct E as (-> & -> & -> & ->). exact Hi.
  - intros Hi. exists c, f, s, e. auto 10.
Qed.

Lemma last_turn c t d : inv d -> is_u64 c -> all_known d [t] ->
  (vrow d c t -> exact_at (fine_remove_loop c [t]) d) /\ (~ vrow d c t -> noisy_at (fine_remove_loop c [t]) d).
Proof.
  intros I Uc K. pose proof (iv_b _ I) as B.
  destruct (K (t0 t)) as [f Hf]; [exists t; split; [left; reflexivity|left; reflexivity]|].
  destruct (K (t1 t)) as [s Hs]; [exists t; split; [left; reflexivity|right; left; reflexivity]|].
  destruct (K (t2 t)) as [e He]; [exists t; split; [left; reflexivity|right; right; reflexivity]|].
  assert (Uf : is_u64 f) by (eapply u64_below, (iv_i2v_le _ _ B), (iv_v2i _ _ B); eassumption).
  assert (Us : is_u64 s) by (eapply u64_below, (iv_i2v_le _ _ B), (iv_v2i _ _ B); eassumption).
  assert (Ue : is_u64 e) by (eapply u64_below, (iv_i2v_le _ _ B), (iv_v2i _ _ B); eassumption).
  pose proof (row_keys_enc c f s e) as RK.
  destruct (row_keys c f s e) as [[[[[[k1 k2] k3] k4] k5] k6]|] eqn:ER; [|discriminate]. injection RK as -> -> -> -> -> ->.
  assert (EQ : forall l, fine_remove_loop c [t] (Txn d l false)
     = (fine_del_rows (enc c f s e) (enc c f e s) (enc c s f e) (enc c s e f) (enc c e f s) (enc c e s f) ;; ret tt) (Txn d l false)).
  { intros l. cbn [fine_remove_loop].
    rewrite (known_then _ _ f) by (apply sget_some; [apply B|exact Hf]).
    rewrite (known_then _ _ s) by (apply sget_some; [apply B|exact Hs]).
    rewrite (known_then _ _ e) by (apply sget_some; [apply B|exact He]). rewrite ER. reflexivity. }
  rewrite (vrow_main d c t f s e I Hf Hs He). split; intros Hv.
  - apply (exact_at_ext _ _ _ EQ).
    pose proof (exact_del_rows (enc c f s e) (enc c f e s) (enc c s f e) (enc c s e f) (enc c e f s) (enc c e s f) d) as X.
    specialize (X (proj2 (index_in _ _ _ c f s e perm_inj_tsf (iv_ctsf _ _ B) Uc Uf Us Ue) Hv)).
    revert X. unfold exact_at. unfold bind at 1 2 3 4 5. rewrite del_rows_all. intros (n & H1 & H2 & H3 & (v & d' & H4) & H5).
    exists n. split; [exact H1|]. split; [exact H2|]. split; [|split].
    + intros j Hj. destruct (H3 j Hj) as (v' & -> & _). exists tt. auto.
    + exists tt, d'. rewrite H4. reflexivity.
    + intros j Hj. destruct (H5 j Hj) as (w & d'' & ->). exists w, d''. reflexivity.
  - assert (ID : forall l, fine_remove_loop c [t] (Txn d l false) = (Ok tt, Txn d l false)).
    { intros l. rewrite EQ. erewrite bind_ok; [reflexivity|]. apply idle_del_rows.
      - exact Hv.
      - intros Hi. apply Hv, (index_in _ _ _ c f s e perm_inj_fts (iv_cfts _ _ B)); assumption.
      - intros Hi. apply Hv, (index_in _ _ _ c f s e perm_inj_sft (iv_csft _ _ B)); assumption.
      - intros Hi. apply Hv, (index_in _ _ _ c f s e perm_inj_stf (iv_cstf _ _ B)); assumption.
      - intros Hi. apply Hv, (index_in _ _ _ c f s e perm_inj_tfs (iv_ctfs _ _ B)); assumption.
      - intros Hi. apply Hv, (index_in _ _ _ c f s e perm_inj_tsf (iv_ctsf _ _ B)); assumption. }
    unfold noisy_at. rewrite ID. exists 0. split; [reflexivity|]. split; [|lia]. intros j _. rewrite ID, Nat.sub_0_r. reflexivity.
Qed.

(** ** Whole calls *)
Lemma remove_triples_at d c i ts : sget (h_c2i d) c = Ok (Some i) ->
  forall l, fine_remove_triples c ts (Txn d l false) = (fine_remove_loop i ts ;; ret true) (Txn d l false).
Proof. intros G l. unfold fine_remove_triples. rewrite open_then, get_then, G. apply open_then. Qed.

Lemma ends_remove_triples c ts : ends (fine_remove_triples c ts).
Proof.
  unfold fine_remove_triples. apply ends_bind. intros _. apply ends_bind. intros r.
  destruct r as [[i|]|e|w]; [|intros x v x' E; discriminate..]. repeat (apply ends_bind; intros ?). apply ends_ret.
Qed.

Lemma exact_at_then_ret {A B} (m : act A) (b : B) d : exact_at m d -> exact_at (m ;; ret b) d.
Proof.
  unfold exact_at, bind, ret. destruct (m (Txn d None false)) as [r x0]. destruct r as [a|e|w].
  - intros (n & Hb & Hl & Hs & Hlast & Hbad). exists n. split; [exact Hb|]. split; [exact Hl|]. split; [|split].
    + intros j Hj. destruct (Hs j Hj) as (v & -> & Ev). eexists. split; reflexivity.
    + destruct Hlast as (v & d' & ->). eauto.
    + intros j Hj. destruct (Hbad j Hj) as (w & d' & ->). eauto.
  - intros X j. destruct (X j) as (w & x & ->). eauto.
  - intros X j. destruct (X j) as (w' & x & ->). eauto.
Qed.

Lemma noisy_at_then_ret {A B} (m : act A) (b : B) d : noisy_at m d -> noisy_at (m ;; ret b) d.
Proof.
  unfold noisy_at, bind, ret. destruct (m (Txn d None false)) as [r x0]. destruct r as [a|e|w].
  - intros (n & Hb & Hs & Hbad). exists n. split; [exact Hb|]. split.
    + intros j Hj. rewrite (Hs j Hj). reflexivity.
    + intros j Hj. destruct (Hbad j Hj) as (w & d' & ->). eauto.
  - intros X j. destruct (X j) as (w & x & ->). eauto.
  - intros X j. destruct (X j) as (w' & x & ->). eauto.
Qed.

Lemma noisy_at_ext {A} (m m' : act A) d : (forall l, m (Txn d l false) = m' (Txn d l false)) -> noisy_at m' d -> noisy_at m d.
Proof.
  intros E. unfold noisy_at. rewrite (E None). destruct (m' (Txn d None false)) as [[a|e|w] x].
  - intros (n & H1 & H2 & H3). exists n. split; [exact H1|]. split; intros j Hj; rewrite E; auto.
  - intros H j. rewrite E. apply H.
  - intros H j. rewrite E. apply H.
Qed.

(** The loop over [ts ++ [t]] when nothing is unknown. *)
Lemma loop_before d i ts t : inv d -> is_u64 i -> all_known d (ts ++ [t]) ->
  exists d1, fine_remove_loop i ts (Txn d None false) = (Ok tt, Txn d1 None false)
             /\ inv d1 /\ all_known d1 [t] /\ (vrow d1 i t <-> vrow d i t /\ ~ In t ts).
Proof.
  intros I U K. assert (K1 : all_known d ts) by (intros v (t' & Hi & Hp); apply K; exists t'; split; [apply in_or_app; auto|exact Hp]).
  destruct (proj1 (remove_loop_spec i U ts d I) K1) as (d1 & E & R). exists d1.
  pose proof (remove_loop_all i ts d) as H. rewrite E in H. split; [exact H|]. split; [apply (rm_inv _ _ _ _ R)|]. split.
  - intros v (t' & Hi & Hp). rewrite (rm_v2i _ _ _ _ R). apply K. exists t'. split; [apply in_or_app; auto|exact Hp].
  - rewrite (rm_vrow _ _ _ _ R _ _ U). intuition.
Qed.

Lemma unknown_panics d i ts : inv d -> is_u64 i -> ~ all_known d ts ->
  (exists w, fst (fine_remove_loop i ts (Txn d None false)) = Panic w)
  /\ forall j, exists w x, fine_remove_loop i ts (Txn d (Some j) false) = (Panic w, x).
Proof.
  intros I U K. pose proof (remove_loop_all i ts d) as H. rewrite (proj2 (remove_loop_spec i U ts d I) K) in H.
  split; [eauto|]. intros j. exact (remove_loop_panics i ts d _ H j).
Qed.

Lemma remove_triples_unnoticed d c ts t : inv d -> holds heed_impl d c t -> ~ In t ts ->
  only_last_unnoticed heed_impl heed_impl_w d (ORem c (ts ++ [t])).
Proof.
  intros I Hh Hn. apply (heed_holds true d c t I) in Hh as (i & Ei & Hv).
  assert (U : is_u64 i) by (eapply u64_c2i; eassumption).
  apply (unnoticed_intro (fine_remove_triples c (ts ++ [t]))); [reflexivity| |intros l v x; apply ends_remove_triples].
  eapply exact_at_ext; [apply remove_triples_at, sget_some; [apply (iv_b _ I)|exact Ei]|]. apply exact_at_then_ret.
  destruct (all_known_dec d (ts ++ [t])) as [K|K].
  - destruct (loop_before d i ts t I U K) as (d1 & E1 & I1 & K1 & HV).
    eapply exact_at_ext; [intros l; apply remove_loop_app|].
    eapply exact_bind_at; [apply tame_remove_loop|exact E1|intros _; apply brittle_remove_one|].
    apply (last_turn i t d1 I1 U K1), HV. auto.
  - destruct (unknown_panics d i _ I U K) as ((w & Hw) & HP). unfold exact_at.
    destruct (fine_remove_loop i (ts ++ [t]) (Txn d None false)) as [r x]. cbn in Hw. subst r. exact HP.
Qed.

Lemma run_noisy m d : noisy_at m d -> (forall l v x, m (Txn d l false) = (Ok v, x) -> v = true) ->
  match run_act m None d with
  | (Ok _, d') => exists n, (forall j, n <= j -> run_act m (Some j) d = (Ok tt, d'))
        /\ forall j, j < n -> exists w, run_act m (Some j) d = (Panic w, d)
  | _ => forall j, exists w, run_act m (Some j) d = (Panic w, d)
  end.
Proof.
  intros X Ht. unfold noisy_at in X. unfold run_act at 1. destruct (m (Txn d None false)) as [r x0] eqn:E. destruct r as [v|e|w].
  - destruct X as (n & Hb & Hs & Hbad). pose proof (Ht _ _ _ E) as ->. rewrite Hb. exists n. split.
    + intros j Hj. unfold run_act. rewrite (Hs j Hj). reflexivity.
    + intros j Hj. destruct (Hbad j Hj) as (w & d'' & Ej). unfold run_act. rewrite Ej. eauto.
  - intros j. destruct (X j) as (w & x & Ej). unfold run_act. rewrite Ej. eauto.
  - intros j. destruct (X j) as (w' & x & Ej). unfold run_act. rewrite Ej. eauto.
Qed.

Lemma noticed_intro m d o : (forall l, call_op (heed_impl_w l) d o = run_act m l d) ->
  noisy_at m d -> (forall l v x, m (Txn d l false) = (Ok v, x) -> v = true) -> always_noticed heed_impl heed_impl_w d o.
Proof.
  intros Em X Ht. pose proof (run_noisy m d X Ht) as H. unfold always_noticed. rewrite <- no_failure, Em.
  destruct (run_act m None d) as [[u|e|w] d'].
  - destruct H as (n & H1 & H2). exists n. split; intros j Hj; rewrite Em; auto.
  - intros j. rewrite Em. apply H.
  - intros j. rewrite Em. apply H.
Qed.

Lemma remove_triples_noticed d c ts t : inv d -> ~ holds heed_impl d c t \/ In t ts ->
  always_noticed heed_impl heed_impl_w d (ORem c (ts ++ [t])).
Proof.
  intros I Hh. apply (noticed_intro (fine_remove_triples c (ts ++ [t]))); [reflexivity| |intros l v x; apply ends_remove_triples].
  destruct (sg c (h_c2i d)) as [i|] eqn:Ei.
  - assert (U : is_u64 i) by (eapply u64_c2i; eassumption).
    eapply noisy_at_ext; [apply remove_triples_at, sget_some; [apply (iv_b _ I)|exact Ei]|]. apply noisy_at_then_ret.
    destruct (all_known_dec d (ts ++ [t])) as [K|K].
    + destruct (loop_before d i ts t I U K) as (d1 & E1 & I1 & K1 & HV).
      eapply noisy_at_ext; [intros l; apply remove_loop_app|].
      eapply noisy_bind_at; [apply tame_remove_loop|exact E1|intros _; apply brittle_remove_one|].
      apply (last_turn i t d1 I1 U K1). rewrite HV. intros [Hv Hn]. destruct Hh as [Hh|Hh]; [|contradiction].
      apply Hh, (heed_holds true d c t I). eauto.
    + destruct (unknown_panics d i _ I U K) as ((w & Hw) & HP). unfold noisy_at.
      destruct (fine_remove_loop i (ts ++ [t]) (Txn d None false)) as [r x]. cbn in Hw. subst r. exact HP.
  - assert (G : forall i, sget (h_c2i d) c <> Ok (Some i)).
    { intros i G. apply sget_some in G; [congruence|apply (iv_b _ I)]. }
    assert (P : forall l, fine_remove_triples c (ts ++ [t]) (Txn d l false) = (Panic PTodo, Txn d l false)).
    { intros l. unfold fine_remove_triples. rewrite open_then, get_then.
      destruct (sget (h_c2i d) c) as [[i|]|e|w]; [destruct (G i eq_refl)|reflexivity..]. }
    unfold noisy_at. rewrite P. intros j. rewrite P. eauto.
Qed.

Lemma remove_collection_unnoticed d c : inv d -> only_last_unnoticed heed_impl heed_impl_w d (ORemColl c).
Proof.
  intros I. pose proof (iv_b _ I) as B.
  apply (unnoticed_intro (fine_remove_collection c)); [reflexivity| |].
  - destruct (sg c (h_c2i d)) as [i|] eqn:Ei.
    + pose proof (proj2 (sget_some _ _ _ (iv_c2i_key _ _ B)) Ei) as G.
      eapply exact_at_ext; [intros l; unfold fine_remove_collection; rewrite open_then, get_then, G; apply open_then|].
      eapply (exact_bind_at 1); [apply tame_write|apply del_c2i_all|intros []; apply brittle_open|].
      eapply exact_at_ext; [intros l; apply open_then|]. apply exact_at_then_ret.
      unfold exact_at, del_i2c, write_db. cbn [x_bad x_db x_left h_i2c set_c2i].
      assert (GI : nget (h_i2c d) i = Some c) by (apply (iv_c2i _ _ B), Ei). rewrite GI. exists 0.
      split; [reflexivity|]. split; [reflexivity|]. split; [|split; [|lia]].
      * intros [|j] Hj; [lia|]. exists tt. cbn. rewrite Nat.sub_0_r. auto.
      * eexists tt, _. reflexivity.
    + assert (G : forall i, sget (h_c2i d) c <> Ok (Some i)).
      { intros i G. apply sget_some in G; [congruence|apply B]. }
      assert (P : forall l, fine_remove_collection c (Txn d l false) = (Panic PTodo, Txn d l false)).
      { intros l. unfold fine_remove_collection. rewrite open_then, get_then.
        destruct (sget (h_c2i d) c) as [[i|]|e|w]; [destruct (G i eq_refl)|reflexivity..]. }
      unfold exact_at. rewrite P. intros j. rewrite P. eauto.
  - intros l v x. unfold fine_remove_collection. rewrite open_then, get_then.
    destruct (sget (h_c2i d) c) as [[i|]|e|w]; try discriminate. repeat (apply ends_bind; intros ?). apply ends_ret.
Qed.
