(** * Proofs: calls that overlap in time *)
From Coq Require Import List Arith NArith Bool String Lia.
From Verif Require Import M_Base M_Data M_Heed M_Txn M_Regex M_Lexer M_Graph M_Parser M_Display M_Interp M_Conc M_TxnConc
  S_Order S_Str S_Store S_Txn S_Graph S_Conc S_ConcSee S_TxnConc P_Ord P_Heed P_Txn P_Conc.
Import ListNotations.
Open Scope list_scope.

(** ** A transaction to its end *)
Fixpoint tx_run {R : Type} (m : tx R) (x : txn) : R * txn :=
  match m with
  | TEnd r => (r, x)
  | TOp op k => let (r, x') := op x in tx_run (k r) x'
  end.

Lemma run_map {A B} (f : A -> B) m : forall x, tx_run (map_tx f m) x = let (r, y) := tx_run m x in (f r, y).
Proof.
  induction m as [r|B0 op k IH]; intros x; [reflexivity|]. cbn. destruct (op x) as [r y]. apply IH.
Qed.

(** The step by step code does what the act does. *)
Definition same_code {A} (m : tx (tres A)) (a : act A) : Prop := forall x, tx_run m x = a x.

Lemma sc_one {B : Set} (op : act B) : same_code (one op) op.
Proof. intros x. cbn. destruct (op x). reflexivity. Qed.
Lemma sc_ret {A} (a : A) : same_code (TEnd (Ok a)) (ret a).
Proof. intros x. reflexivity. Qed.
Lemma sc_fail {A} w : same_code (TEnd (Panic w)) (@fail A w).
Proof. intros x. reflexivity. Qed.
Lemma sc_seq {A B} (m : tx (tres A)) (a : act A) (k : A -> tx (tres B)) (f : A -> act B) :
  same_code m a -> (forall v, same_code (k v) (f v)) -> same_code (seq_tx m k) (bind a f).
Proof.
  intros Hm Hk x. unfold bind. rewrite <- Hm. clear Hm a. revert x. induction m as [r|B0 op c IH]; intros x.
  - cbn [tx_run]. destruct r; cbn; [apply Hk|reflexivity|reflexivity].
  - cbn. destruct (op x) as [r y]. apply IH.
Qed.

Ltac sc := repeat first
  [ apply sc_one | apply sc_ret | apply sc_fail | apply sc_seq; [|intros ?]
  | match goal with |- same_code (match ?b with _ => _ end) _ => destruct b end ].

Lemma sc_next_id : same_code st_next_id fine_next_id.
Proof. unfold st_next_id, fine_next_id. sc. Qed.
Lemma sc_add_collection c : same_code (st_add_collection c) (fine_add_collection c).
Proof. unfold st_add_collection, fine_add_collection. repeat first [apply sc_next_id | progress sc]. Qed.
Lemma sc_remove_collection c : same_code (st_remove_collection c) (fine_remove_collection c).
Proof. unfold st_remove_collection, fine_remove_collection. sc. Qed.
Lemma sc_intern v s : same_code (st_intern v s) (fine_intern v s).
Proof. unfold st_intern, fine_intern. sc. Qed.
Lemma sc_put_rows k1 k2 k3 k4 k5 k6 : same_code (st_put_rows k1 k2 k3 k4 k5 k6) (fine_put_rows k1 k2 k3 k4 k5 k6).
Proof. unfold st_put_rows, fine_put_rows. sc. Qed.
Lemma sc_del_rows k1 k2 k3 k4 k5 k6 : same_code (st_del_rows k1 k2 k3 k4 k5 k6) (fine_del_rows k1 k2 k3 k4 k5 k6).
Proof. unfold st_del_rows, fine_del_rows. sc. Qed.
Lemma sc_add_one c v t : same_code (st_add_one c v t) (fine_add_one c v t).
Proof.
  unfold st_add_one, fine_add_one. apply sc_seq; [apply sc_one|intros _]. apply sc_seq; [apply sc_intern|intros f]. apply sc_seq; [apply sc_intern|intros s].
  apply sc_seq; [apply sc_intern|intros o]. apply sc_seq; [apply sc_one|intros _]. apply sc_seq; [apply sc_one|intros _].
  destruct (row_keys c (fst f) (fst s) (fst o)) as [[[[[[k1 k2] k3] k4] k5] k6]|]; [|apply sc_fail].
  apply sc_seq; [apply sc_put_rows|intros _; apply sc_ret].
Qed.
Lemma sc_add_loop c ts : forall v, same_code (st_add_loop c v ts) (fine_add_loop c v ts).
Proof. induction ts as [|t ts IH]; intros v; [apply sc_ret|]. cbn [st_add_loop fine_add_loop]. apply sc_seq; [apply sc_add_one|intros w; apply IH]. Qed.
Lemma sc_add_triples c ts : same_code (st_add_triples c ts) (fine_add_triples c ts).
Proof.
  unfold st_add_triples, fine_add_triples. apply sc_seq; [apply sc_one|intros _]. apply sc_seq; [apply sc_one|intros r].
  destruct r as [[i|]| |]; try apply sc_fail. apply sc_seq; [apply sc_one|intros _]. apply sc_seq; [apply sc_one|intros r].
  destruct r as [[j|]| |]; try apply sc_fail. apply sc_seq; [apply sc_add_loop|intros _; apply sc_ret].
Qed.
Lemma sc_known v : same_code (st_known v) (fine_known v).
Proof. unfold st_known, fine_known. sc. Qed.
Lemma sc_remove_loop c ts : same_code (st_remove_loop c ts) (fine_remove_loop c ts).
Proof.
  induction ts as [|t ts IH]; [apply sc_ret|]. cbn [st_remove_loop fine_remove_loop]. apply sc_seq; [apply sc_known|intros f]. apply sc_seq; [apply sc_known|intros s].
  apply sc_seq; [apply sc_known|intros o]. destruct (row_keys c f s o) as [[[[[[k1 k2] k3] k4] k5] k6]|]; [|apply sc_fail].
  apply sc_seq; [apply sc_del_rows|intros _; apply IH].
Qed.
Lemma sc_remove_triples c ts : same_code (st_remove_triples c ts) (fine_remove_triples c ts).
Proof.
  unfold st_remove_triples, fine_remove_triples. apply sc_seq; [apply sc_one|intros _]. apply sc_seq; [apply sc_one|intros r].
  destruct r as [[i|]| |]; try apply sc_fail. apply sc_seq; [apply sc_one|intros _]. apply sc_seq; [apply sc_remove_loop|intros _; apply sc_ret].
Qed.

(** Reading. *)
Lemma run_seq {A B} (m : tx (tres A)) (k : A -> tx (tres B)) x : tx_run (seq_tx m k) x =
  match tx_run m x with (Ok a, y) => tx_run (k a) y | (Err e, y) => (Err e, y) | (Panic w, y) => (Panic w, y) end.
Proof. revert x. induction m as [r|B0 op c IH]; intros x; [destruct r; reflexivity|]. cbn. destruct (op x) as [r y]. apply IH. Qed.

Notation rd d := (Txn d None false).
Lemma run_text d i : tx_run (st_text i) (rd d) = (match nget (h_i2v d) i with Some v => Ok v | None => Panic PTodo end, rd d).
Proof. unfold st_text. rewrite run_seq. cbn. destruct (nget (h_i2v d) i); reflexivity. Qed.

Lemma run_triples_loop d c rows : forall acc, tx_run (st_triples_loop c rows acc) (rd d) = (heed_triples_loop d c rows acc, rd d).
Proof.
  induction rows as [|row rows IH]; intros acc; [reflexivity|]. cbn [st_triples_loop heed_triples_loop].
  destruct (decode_row row) as [[[[i f] s] t]|]; [|reflexivity]. destruct (N.eqb c i); [|apply IH].
  rewrite run_seq. cbn [one tx_run open_db x_bad]. rewrite run_seq, run_text. destruct (nget (h_i2v d) f) as [a|]; [|reflexivity].
  rewrite run_seq, run_text. destruct (nget (h_i2v d) s) as [b|]; [|reflexivity]. rewrite run_seq, run_text. destruct (nget (h_i2v d) t) as [e|]; [apply IH|reflexivity].
Qed.
Lemma run_triples d c : tx_run (st_triples c) (rd d) = (heed_triples d c, rd d).
Proof.
  unfold st_triples, heed_triples. rewrite run_seq. cbn [one tx_run open_db x_bad]. rewrite run_seq. cbn [one tx_run get_db x_bad x_db].
  destruct (sget (h_c2i d) c) as [[i|]| |]; try reflexivity. rewrite run_seq. cbn [one tx_run open_db x_bad]. rewrite run_seq. cbn [one tx_run rows_db x_bad x_db].
  apply run_triples_loop.
Qed.
Lemma run_collections d : tx_run st_collections (rd d) = (heed_collections d, rd d).
Proof. reflexivity. Qed.

(** ** Whole calls *)
Notation AO := (graph_impl lmdb_at_once).

Lemma call_reads q d fs : writing q = false ->
  perform AO q (d, fs) = (fst (fst (tx_run (call_tx q) (rd d))), (d, fs)).
Proof.
  destruct q; try discriminate; intros _; cbn [perform call_tx].
  - rewrite run_map, run_collections. reflexivity.
  - rewrite run_map, run_triples. reflexivity.
  - reflexivity.
Qed.

Lemma wrote_run (m : tx (tres bool)) a (Hs : same_code m a) d fs :
  let now := hd no_fault fs in
  let '(r, c, x) := tx_run (map_tx wrote m) (Txn d (fst now) false) in
  (let (r', s) := write_at_once (fun l => run_act a l d) (d, fs) in (err_todo r', s))
  = (r, (if c && negb (x_bad x) && snd now then x_db x else d, tl fs)).
Proof.
  cbv zeta. rewrite run_map, Hs. unfold write_at_once, run_act. cbn [fst snd].
  destruct (a (Txn d (fst (hd no_fault fs)) false)) as [[[|]|e|w] x]; cbn [wrote err_todo andb];
    destruct (x_bad x), (snd (hd no_fault fs)); reflexivity.
Qed.

Lemma call_writes q d fs : writing q = true ->
  let now := hd no_fault fs in
  let '(a, c, x) := tx_run (call_tx q) (Txn d (fst now) false) in
  perform AO q (d, fs) = (a, (if c && negb (x_bad x) && snd now then x_db x else d, tl fs)).
Proof.
  destruct q; try discriminate; intros _; cbv zeta; cbn [perform call_tx graph_impl l_add_collection l_remove_collection l_add_entries l_remove_entries ans].
  - pose proof (wrote_run _ _ (sc_add_collection (el_name c)) d fs) as H. cbv zeta in H.
    destruct (tx_run (map_tx wrote (st_add_collection (el_name c))) _) as [[r b] x]. rewrite <- H. reflexivity.
  - pose proof (wrote_run _ _ (sc_remove_collection (el_name c)) d fs) as H. cbv zeta in H.
    destruct (tx_run (map_tx wrote (st_remove_collection (el_name c))) _) as [[r b] x]. rewrite <- H. reflexivity.
  - pose proof (wrote_run _ _ (sc_add_triples (el_name c) (bs_collect trip_cmp (map entry_to_trip es))) d fs) as H. cbv zeta in H.
    destruct (tx_run (map_tx wrote (st_add_triples (el_name c) _)) _) as [[r b] x]. rewrite <- H.
    unfold graph_add_entries. cbn [lmdb_at_once t_add_triples heed_impl_w fst]. destruct (write_at_once _ (d, fs)); reflexivity.
  - pose proof (wrote_run _ _ (sc_remove_triples (el_name c) (bs_collect trip_cmp (map entry_to_trip es))) d fs) as H. cbv zeta in H.
    destruct (tx_run (map_tx wrote (st_remove_triples (el_name c) _)) _) as [[r b] x]. rewrite <- H.
    unfold graph_remove_entries. cbn [lmdb_at_once t_remove_triples heed_impl_w fst]. destruct (write_at_once _ (d, fs)); reflexivity.
Qed.

(** ** Calls that take time happen at once *)
Definition stands (d : heed) (fs : list fault) (w : option nat) (i : nat) (a : activity) (c : prog) : Prop :=
  match a with
  | Idle p => w <> Some i /\ c = p
  | Busy q k x m =>
      if writing q
      then w = Some i /\ c = Ask q k /\ tx_run m x = tx_run (call_tx q) (Txn d (fst (hd no_fault fs)) false)
      else w <> Some i /\ c = k (fst (fst (tx_run m x)))
  end.
Definition along (s : system) (y : pool (heed * list fault)) : Prop :=
  shared y = (file s, faults s) /\ forall i, stands (file s) (faults s) (writer s) i (doing s i) (clients y i).

Lemma now_same f i a : now f i a i = a.
Proof. unfold now. rewrite Nat.eqb_refl. reflexivity. Qed.
Lemma now_other f i a j : j <> i -> now f i a j = f j.
Proof. intros H. unfold now. apply Nat.eqb_neq in H. rewrite H. reflexivity. Qed.

Definition mom (e : happening) (s : system) : list happening :=
  match e with Moves i => if moment i s then [e] else [] | Dies _ => [e] end.

(** A change of client [i] only. *)
Lemma along_change s y z i d fs w a :
  along s y ->
  (forall j, j <> i -> w = Some j <-> writer s = Some j) ->
  (forall j, j <> i -> writer s = Some j -> d = file s /\ fs = faults s) ->
  shared z = (d, fs) -> (forall j, j <> i -> clients z j = clients y j) ->
  stands d fs w i a (clients z i) ->
  along (System d fs w (now (doing s) i a)) z.
Proof.
  intros [H1 H2] Hw Hd Hs Hc Hi. split; [exact Hs|]. cbn [file faults writer doing]. intros j.
  destruct (Nat.eq_dec j i) as [->|Hn]; [rewrite now_same; exact Hi|]. rewrite now_other, Hc by exact Hn.
  specialize (H2 j). destruct (doing s j) as [p|q k x m]; cbn [stands] in *.
  - rewrite (Hw j Hn). exact H2.
  - destruct (writing q).
    + destruct H2 as (W & H2). destruct (Hd j Hn W) as [-> ->]. split; [apply (Hw j Hn), W|exact H2].
    + rewrite (Hw j Hn). exact H2.
Qed.

Lemma along_step e s y : along s y -> along (happen e s) (at_once AO (mom e s) y).
Proof.
  intros A. destruct A as [A1 A2]. pose proof (conj A1 A2 : along s y) as A. destruct e as [i|i]; cbn [happen mom].
  - unfold move, moment. pose proof (A2 i) as Ai. destruct (doing s i) as [[r|q k]|q k x [[a c]|B op c]] eqn:E; cbn [stands] in Ai.
    + exact A.
    + destruct Ai as [Wi Ei]. destruct (writing q) eqn:Q; cbn [negb].
      * destruct (writer s) as [j|] eqn:W; [exact A|]. cbn [at_once fold_left].
        apply (along_change s y); auto; try (rewrite W; intros j Hj; split; [intros K; injection K; congruence|discriminate]).
        cbn [stands]. rewrite Q. auto.
      * cbn [at_once fold_left happen_at_once]. unfold turn. rewrite Ei, A1, (call_reads q _ _ Q).
        apply (along_change s y); auto.
        -- tauto.
        -- intros j Hj. cbn [clients]. apply update_other, Hj.
        -- cbn [clients]. rewrite update_same. cbn [stands]. rewrite Q. auto.
    + destruct (writing q) eqn:Q.
      * destruct Ai as (Wi & Ei & Ri). cbn [at_once fold_left happen_at_once]. unfold turn. rewrite Ei, A1.
        pose proof (call_writes q (file s) (faults s) Q) as H. cbv zeta in H. rewrite <- Ri in H. cbn [tx_run] in H. rewrite H.
        apply (along_change s y); auto.
        -- intros j Hj. rewrite Wi. split; [discriminate|intros K; injection K; congruence].
        -- intros j Hj K. rewrite Wi in K. injection K. congruence.
        -- intros j Hj. cbn [clients]. apply update_other, Hj.
        -- cbn [clients]. rewrite update_same. cbn [stands]. split; [discriminate|reflexivity].
      * destruct Ai as (Wi & Ei). cbn [tx_run fst] in Ei. cbn [at_once fold_left]. apply (along_change s y); auto; try tauto. cbn [stands]. auto.
    + destruct (op x) as [r x'] eqn:Eo. replace (at_once AO (if writing q then [] else []) y) with y by (destruct (writing q); reflexivity).
      apply (along_change s y); auto; try tauto. cbn [stands]. destruct (writing q); cbn [tx_run] in Ai; rewrite Eo in Ai; exact Ai.
  - unfold die. cbn [at_once fold_left happen_at_once]. apply (along_change s y); auto.
    + intros j Hj. destruct (writer s) as [k|]; [|tauto]. destruct (Nat.eqb_spec k i) as [->|Hk]; [split; [discriminate|intros K; injection K; congruence]|tauto].
    + intros j Hj. cbn [clients]. apply update_other, Hj.
    + cbn [clients]. rewrite update_same. cbn [stands]. split; [|reflexivity].
      destruct (writer s) as [k|]; [|discriminate]. destruct (Nat.eqb_spec k i) as [->|Hk]; [discriminate|intros K; injection K; congruence].
Qed.

Lemma moments_cons e l s : moments (e :: l) s = mom e s ++ moments l (happen e s).
Proof. reflexivity. Qed.
Lemma at_once_app {S} (L : lig_impl S) l1 l2 y : at_once L (l1 ++ l2) y = at_once L l2 (at_once L l1 y).
Proof. apply fold_left_app. Qed.
Lemma go_on_app l1 l2 s : go_on (l1 ++ l2) s = go_on l2 (go_on l1 s).
Proof. apply fold_left_app. Qed.
Lemma moments_app l1 : forall l2 s, moments (l1 ++ l2) s = moments l1 s ++ moments l2 (go_on l1 s).
Proof. induction l1 as [|e l1 IH]; intros l2 s; [reflexivity|]. cbn [List.app]. rewrite !moments_cons, IH, app_assoc. reflexivity. Qed.
Lemma returned_app l1 : forall l2 s, returned (l1 ++ l2) s = returned l1 s ++ returned l2 (go_on l1 s).
Proof. induction l1 as [|e l1 IH]; intros l2 s; [reflexivity|]. cbn [List.app returned]. rewrite IH, app_assoc. reflexivity. Qed.
Lemma answered_app {S} (L : lig_impl S) l1 : forall l2 y, answered L (l1 ++ l2) y = answered L l1 y ++ answered L l2 (at_once L l1 y).
Proof. induction l1 as [|e l1 IH]; intros l2 y; [reflexivity|]. cbn [List.app answered]. rewrite IH, app_assoc. reflexivity. Qed.

Lemma along_run l : forall s y, along s y -> along (go_on l s) (at_once AO (moments l s) y).
Proof.
  induction l as [|e l IH]; intros s y A; [exact A|]. rewrite moments_cons, at_once_app. apply IH, along_step, A.
Qed.

Lemma along_start d fs cl : along (start d fs cl) (Pool (d, fs) cl).
Proof. split; [reflexivity|]. intros i. cbn. split; [discriminate|reflexivity]. Qed.

(** The answers. *)
Definition pending (i : nat) (s : system) : list event :=
  match doing s i with
  | Busy q k x m => if writing q then [] else [Event i q (fst (fst (tx_run m x)))]
  | Idle _ => []
  end.

Lemma of_app i l1 l2 : of_client i (l1 ++ l2) = of_client i l1 ++ of_client i l2.
Proof. apply filter_app. Qed.

(** One thing that happens, as client [i] sees it. *)
Lemma one_thing e s y i : along s y -> e <> Dies i ->
  pending i s ++ of_client i (answered AO (mom e s) y)
  = of_client i (returned [e] s) ++ pending i (happen e s).
Proof.
  intros [A1 A2] Hd. destruct e as [j|j].
  - cbn [mom happen returned]. rewrite app_nil_r. destruct (Nat.eq_dec j i) as [->|Hn].
    + pose proof (A2 i) as Ai. unfold moment, move, pending. destruct (doing s i) as [[r|q k]|q k x [[a c]|B op c]] eqn:E; cbn [stands] in Ai.
      * rewrite E. reflexivity.
      * destruct Ai as [_ Ei]. destruct (writing q) eqn:Q; cbn [negb].
        -- destruct (writer s) as [j|]; [rewrite E; reflexivity|]. cbn [doing]. rewrite now_same, Q. reflexivity.
        -- cbn [doing]. rewrite now_same, Q. cbn [answered]. rewrite Ei, A1, (call_reads q _ _ Q). cbn. rewrite Nat.eqb_refl. reflexivity.
      * destruct (writing q) eqn:Q.
        -- destruct Ai as (Wi & Ei & Ri). cbn [doing]. rewrite now_same. cbn [answered]. rewrite Ei, A1.
           pose proof (call_writes q (file s) (faults s) Q) as H. cbv zeta in H. rewrite <- Ri in H. cbn [tx_run] in H. rewrite H. rewrite !app_nil_r. reflexivity.
        -- cbn [doing answered]. rewrite now_same, !app_nil_r. cbn. rewrite Nat.eqb_refl. reflexivity.
      * destruct (op x) as [r x'] eqn:Eo. cbn [doing]. rewrite now_same. destruct (writing q); cbn; [reflexivity|]. rewrite Eo. reflexivity.
    + assert (P : forall z, of_client i (answered AO (if moment j s then [Moves j] else []) z) = []).
      { intros z. destruct (moment j s); [|reflexivity]. cbn [answered]. rewrite app_nil_r. destruct (clients z j); [reflexivity|].
        cbn. apply Nat.eqb_neq in Hn. rewrite Hn. reflexivity. }
      rewrite (P y). assert (D : doing (move j s) i = doing s i).
      { unfold move. destruct (doing s j) as [[r|q k]|q k x [[a c]|B op c]]; try reflexivity.
        - destruct (writing q); [destruct (writer s)|]; try reflexivity; cbn [doing]; apply now_other; congruence.
        - destruct (writing q); cbn [doing]; apply now_other; congruence.
        - destruct (op x); cbn [doing]; apply now_other; congruence. }
      assert (R : of_client i (match doing s j with Busy q _ _ (TEnd (a, _)) => [Event j q a] | _ => [] end) = []).
      { destruct (doing s j) as [p|q k x [[a c]|B op c]]; try reflexivity. cbn. apply Nat.eqb_neq in Hn. rewrite Hn. reflexivity. }
      rewrite R, app_nil_r. unfold pending. rewrite D. reflexivity.
  - cbn [mom happen returned answered]. cbn [List.app of_client filter]. rewrite app_nil_r. unfold pending, die. cbn [doing]. rewrite now_other by congruence. reflexivity.
Qed.

(** A client that is done does nothing any more. *)
Lemma done_stays l : forall s y i r, along s y -> doing s i = Idle (Done r) ->
  of_client i (answered AO (moments l s) y) = [] /\ of_client i (returned l s) = [].
Proof.
  induction l as [|e l IH]; intros s y i r A E; [split; reflexivity|].
  assert (X : exists r', doing (happen e s) i = Idle (Done r')).
  { destruct e as [j|j]; cbn [happen]; destruct (Nat.eq_dec i j) as [->|Hn].
    - unfold move. rewrite E. eauto.
    - exists r. unfold move. destruct (doing s j) as [[r0|q k]|q k x [[a c]|B op c]]; try exact E.
      + destruct (writing q); [destruct (writer s)|]; try exact E; cbn [doing]; rewrite now_other; auto.
      + destruct (writing q); cbn [doing]; rewrite now_other; auto.
      + destruct (op x); cbn [doing]; rewrite now_other; auto.
    - unfold die. cbn [doing]. rewrite now_same. unfold gone. eauto.
    - unfold die. cbn [doing]. rewrite now_other; eauto. }
  destruct X as (r' & E'). destruct (IH _ _ i r' (along_step e s y A) E') as [I1 I2].
  rewrite moments_cons, answered_app, of_app, I1, app_nil_r.
  change (returned (e :: l) s) with (returned ([e] ++ l) s). rewrite returned_app, of_app. change (go_on [e] s) with (happen e s). rewrite I2, app_nil_r.
  destruct e as [j|j]; [|split; reflexivity].
  assert (Hd : Moves j <> Dies i) by discriminate. pose proof (one_thing (Moves j) s y i A Hd) as H. unfold pending in H. rewrite E, E' in H. rewrite app_nil_r in H. cbn [List.app] in H.
  split; [|rewrite <- H]; cbn [mom]; unfold moment; destruct (Nat.eq_dec j i) as [->|Hn].
  - rewrite E. reflexivity.
  - destruct (match doing s j with Idle (Ask q _) => negb (writing q) | Busy q _ _ (TEnd _) => writing q | _ => false end); [|reflexivity].
    cbn [answered]. rewrite app_nil_r. destruct (clients y j); [reflexivity|]. cbn. apply Nat.eqb_neq in Hn. rewrite Hn. reflexivity.
  - rewrite E. reflexivity.
  - destruct (match doing s j with Idle (Ask q _) => negb (writing q) | Busy q _ _ (TEnd _) => writing q | _ => false end); [|reflexivity].
    cbn [answered]. rewrite app_nil_r. destruct (clients y j); [reflexivity|]. cbn. apply Nat.eqb_neq in Hn. rewrite Hn. reflexivity.
Qed.

Lemma pending_read i s : pending i s = [] \/ exists q a, pending i s = [Event i q a] /\ writing q = false /\ exists k x m, doing s i = Busy q k x m.
Proof.
  unfold pending. destruct (doing s i) as [p|q k x m]; [auto|]. destruct (writing q) eqn:Q; [auto|]. right. eexists q, _. eauto 7.
Qed.

Lemma all_answers l : forall s y i, along s y ->
  exists p, pending i s ++ of_client i (answered AO (moments l s) y) = of_client i (returned l s) ++ p
    /\ (p = pending i (go_on l s) \/ In (Dies i) l /\ exists q a, p = [Event i q a] /\ writing q = false).
Proof.
  induction l as [|e l IH]; intros s y i A.
  - exists (pending i s). cbn. rewrite app_nil_r. auto.
  - pose proof (along_step e s y A) as A'. rewrite moments_cons, answered_app, of_app.
    change (returned (e :: l) s) with (returned ([e] ++ l) s). rewrite returned_app, of_app. change (go_on [e] s) with (happen e s).
    assert (D : e = Dies i \/ e <> Dies i) by (destruct e as [j|j]; [right; discriminate|]; destruct (Nat.eq_dec j i) as [->|]; [auto|right; congruence]).
    destruct D as [->|D].
    + assert (E : doing (happen (Dies i) s) i = Idle gone) by (cbn; apply now_same).
      destruct (done_stays l _ _ i _ A' E) as [I1 I2]. rewrite I1, I2. cbn [mom answered returned List.app of_client filter]. rewrite !app_nil_r.
      exists (pending i s). split; [reflexivity|].
      destruct (pending_read i s) as [P|(q & a & P & Q & _)].
      * left. rewrite P. cbn [go_on fold_left].
        assert (G : forall l s r, doing s i = Idle (Done r) -> pending i (go_on l s) = []).
        { clear. induction l as [|e l IH]; intros s r E; [unfold pending; cbn; rewrite E; reflexivity|]. cbn [go_on fold_left]. 
          assert (X : exists r', doing (happen e s) i = Idle (Done r')).
          { destruct e as [j|j]; cbn [happen]; destruct (Nat.eq_dec i j) as [->|Hn].
            - unfold move. rewrite E. eauto.
            - exists r. unfold move. destruct (doing s j) as [[r0|q k]|q k x [[a c]|B op c]]; try exact E.
              + destruct (writing q); [destruct (writer s)|]; try exact E; cbn [doing]; rewrite now_other; auto.
              + destruct (writing q); cbn [doing]; rewrite now_other; auto.
              + destruct (op x); cbn [doing]; rewrite now_other; auto.
            - unfold die. cbn [doing]. rewrite now_same. unfold gone. eauto.
            - unfold die. cbn [doing]. rewrite now_other; eauto. }
          destruct X as (r' & X). exact (IH _ _ X). }
        symmetry. exact (G l _ _ E).
      * right. split; [left; reflexivity|]. eauto.
    + destruct (IH (happen e s) _ i A') as (p & E & H). exists p. split.
      * rewrite app_assoc, (one_thing e s y i A D), <- app_assoc, E, app_assoc. reflexivity.
      * destruct H as [H|[H1 H2]]; [left; exact H|right; split; [right; exact H1|exact H2]].
Qed.

(** ** Nobody waits for ever *)
Definition alone_on (i n : nat) : list happening := repeat (Moves i) n.

(** A call that has begun is ended by its client alone. *)
Lemma ends i q k m : forall x s, doing s i = Busy q k x m ->
  exists n a, let s' := go_on (alone_on i n) s in
    doing s' i = Idle (k a) /\ (forall j, j <> i -> doing s' j = doing s j)
    /\ writer s' = (if writing q then None else writer s).
Proof.
  induction m as [[a c]|B op c IH]; intros x s E.
  - exists 1, a. cbn [alone_on repeat go_on fold_left happen]. unfold move. rewrite E.
    destruct (writing q); cbn [doing writer]; (split; [apply now_same|]); (split; [intros j Hj; apply now_other, Hj|reflexivity]).
  - destruct (op x) as [r x'] eqn:Eo.
    set (s1 := System (file s) (faults s) (writer s) (now (doing s) i (Busy q k x' (c r)))).
    assert (E1 : doing s1 i = Busy q k x' (c r)) by (apply now_same).
    destruct (IH r x' s1 E1) as (n & a & H). cbv zeta in H. destruct H as (H1 & H2 & H3).
    exists (S n), a. cbv zeta. change (go_on (alone_on i (S n)) s) with (go_on (alone_on i n) (move i s)).
    assert (M : move i s = s1) by (unfold move; rewrite E, Eo; reflexivity). rewrite M. split; [exact H1|]. split; [|exact H3].
    intros j Hj. rewrite (H2 j Hj). apply now_other, Hj.
Qed.

(** A reading call, and a writing one when nobody writes. *)
Lemma begins i q k s : doing s i = Idle (Ask q k) -> (writing q = true -> writer s = None) ->
  exists n a, doing (go_on (alone_on i n) s) i = Idle (k a) /\ (forall j, j <> i -> doing (go_on (alone_on i n) s) j = doing s j)
    /\ writer (go_on (alone_on i n) s) = writer s.
Proof.
  intros E W. set (x := Txn (file s) (if writing q then fst (hd no_fault (faults s)) else None) false).
  set (s1 := System (file s) (faults s) (if writing q then Some i else writer s) (now (doing s) i (Busy q k x (call_tx q)))).
  assert (M : move i s = s1).
  { unfold move, s1, x. rewrite E. destruct (writing q); [rewrite (W eq_refl)|]; reflexivity. }
  destruct (ends i q k (call_tx q) x s1 (now_same _ _ _)) as (n & a & H). cbv zeta in H. destruct H as (H1 & H2 & H3).
  exists (S n), a. change (go_on (alone_on i (S n)) s) with (go_on (alone_on i n) (move i s)). rewrite M. split; [exact H1|]. split.
  - intros j Hj. rewrite (H2 j Hj). apply now_other, Hj.
  - rewrite H3. destruct (writing q); [symmetry; auto|reflexivity].
Qed.

Definition only_moves (l : list happening) : Prop := forall e, In e l -> exists i, e = Moves i.
Lemma moves_app l1 l2 : only_moves l1 -> only_moves l2 -> only_moves (l1 ++ l2).
Proof. intros H1 H2 e He. apply in_app_or in He as [He|He]; auto. Qed.
Lemma moves_alone i n : only_moves (alone_on i n).
Proof. intros e He. apply repeat_spec in He. eauto. Qed.

Lemma done_idle i p : forall s y, along s y -> doing s i = Idle p ->
  exists l r, only_moves l /\ doing (go_on l s) i = Idle (Done r).
Proof.
  induction p as [r|q k IH]; intros s y A E.
  - exists [], r. split; [intros e []|exact E].
  - assert (X : exists l, only_moves l /\ doing (go_on l s) i = Idle (Ask q k) /\ (writing q = true -> writer (go_on l s) = None)).
    { destruct (writer s) as [j|] eqn:W; [|exists []; split; [intros e []|]; auto].
      destruct A as [A1 A2]. pose proof (A2 j) as Aj. pose proof (A2 i) as Ai. rewrite E, W in Ai. cbn [stands] in Ai. destruct Ai as [Ai _].
      destruct (doing s j) as [p'|q' k' x' m'] eqn:Ej; cbn [stands] in Aj; [destruct Aj; congruence|].
      destruct (writing q') eqn:Q; [|destruct Aj; congruence].
      destruct (ends j q' k' m' x' s Ej) as (n & a & H). cbv zeta in H. destruct H as (H1 & H2 & H3). rewrite Q in H3.
      exists (alone_on j n). split; [apply moves_alone|]. split; [|auto]. rewrite H2, E; [reflexivity|]. intros ->. congruence. }
    destruct X as (l & Hl & E1 & W1). destruct (begins i q k _ E1 W1) as (n & a & E2 & _).
    destruct (IH a (go_on (l ++ alone_on i n) s) _ (along_run (l ++ alone_on i n) s y A)) as (l' & r & Hl' & E3); [rewrite go_on_app; exact E2|].
    exists ((l ++ alone_on i n) ++ l'), r. split; [apply moves_app; [apply moves_app; [exact Hl|apply moves_alone]|exact Hl']|].
    rewrite go_on_app. exact E3.
Qed.

Lemma done_any i s y : along s y -> exists l r, only_moves l /\ doing (go_on l s) i = Idle (Done r).
Proof.
  intros A. destruct (doing s i) as [p|q k x m] eqn:E; [exact (done_idle i p s y A E)|].
  destruct (ends i q k m x s E) as (n & a & H). cbv zeta in H. destruct H as (H1 & _).
  destruct (done_idle i _ _ _ (along_run (alone_on i n) s y A) H1) as (l & r & Hl & E').
  exists (alone_on i n ++ l), r. split; [apply moves_app; [apply moves_alone|exact Hl]|]. rewrite go_on_app. exact E'.
Qed.

(** ** Without faults and deaths *)
Notation LG := (graph_impl heed_impl).

Lemma at_once_plain q d : perform AO q (d, []) = let (a, d') := perform LG q d in (a, (d', [])).
Proof.
  destruct q; cbn [perform graph_impl l_collections l_add_collection l_remove_collection l_entries l_add_entries l_remove_entries l_filter]; try reflexivity.
  - unfold graph_add_collection. cbn [lmdb_at_once t_add_collection]. unfold write_at_once. cbn [fst snd hd tl no_fault].
    pose proof (no_failure d (OAddColl (el_name c))) as H. cbn [call_op] in H. rewrite H. destruct (t_add_collection heed_impl d (el_name c)). reflexivity.
  - unfold graph_remove_collection. cbn [lmdb_at_once t_remove_collection]. unfold write_at_once. cbn [fst snd hd tl no_fault].
    pose proof (no_failure d (ORemColl (el_name c))) as H. cbn [call_op] in H. rewrite H. destruct (t_remove_collection heed_impl d (el_name c)). reflexivity.
  - unfold graph_add_entries. cbn [lmdb_at_once t_add_triples]. unfold write_at_once. cbn [fst snd hd tl no_fault].
    pose proof (no_failure d (OAdd (el_name c) (bs_collect trip_cmp (map entry_to_trip es)))) as H. cbn [call_op] in H.
    destruct (t_add_triples heed_impl d (el_name c) _) as [[r d'] z]. destruct (t_add_triples (heed_impl_w None) d (el_name c) _) as [[r2 d2] z2].
    cbn [fst snd] in *. injection H as -> ->. reflexivity.
  - unfold graph_remove_entries. cbn [lmdb_at_once t_remove_triples]. unfold write_at_once. cbn [fst snd hd tl no_fault].
    pose proof (no_failure d (ORem (el_name c) (bs_collect trip_cmp (map entry_to_trip es)))) as H. cbn [call_op] in H.
    destruct (t_remove_triples heed_impl d (el_name c) _) as [[r d'] z]. destruct (t_remove_triples (heed_impl_w None) d (el_name c) _) as [[r2 d2] z2].
    cbn [fst snd] in *. injection H as -> ->. reflexivity.
Qed.

Lemma plain_run sched : forall d cl,
  let y := interleave LG sched (Pool d cl) in
  let z := at_once AO (map Moves sched) (Pool (d, []) cl) in
  shared z = (shared y, []) /\ (forall i, clients z i = clients y i)
  /\ answered AO (map Moves sched) (Pool (d, []) cl) = events LG sched (Pool d cl).
Proof.
  induction sched as [|i sched IH]; intros d cl; [cbn; auto|]. cbv zeta.
  change (at_once AO (map Moves (i :: sched)) (Pool (d, []) cl)) with (at_once AO (map Moves sched) (turn AO i (Pool (d, []) cl))).
  cbn [map answered happen_at_once interleave events clients shared]. unfold turn. cbn [clients shared].
  destruct (cl i) as [r|q k] eqn:E; [exact (IH d cl)|]. rewrite at_once_plain. destruct (perform LG q d) as [a d'] eqn:Ep.
  destruct (IH d' (update cl i (k a))) as (H1 & H2 & H3). split; [exact H1|]. split; [exact H2|]. cbn [fst List.app]. rewrite H3. reflexivity.
Qed.

Lemma moments_moves l : only_moves l -> forall s, exists sched, moments l s = map Moves sched.
Proof.
  induction l as [|e l IH]; intros H s; [exists []; reflexivity|]. rewrite moments_cons.
  destruct (IH (fun e' He => H e' (or_intror He)) (happen e s)) as (sched & ->).
  destruct (H e (or_introl eq_refl)) as (i & ->). cbn [mom]. destruct (moment i s); [exists (i :: sched)|exists sched]; reflexivity.
Qed.
