(** * Proofs: one client among others that die, on a failing disk *)
From Coq Require Import List Arith NArith Bool String Lia.
From Verif Require Import M_Base M_Data M_Heed M_Txn M_Regex M_Lexer M_Graph M_Parser M_Display M_Interp M_Conc M_Commands M_HostConc M_TxnConc
  S_Order S_Str S_Store S_Txn S_Graph S_Interp S_Conc S_ConcSee S_Commands S_HostConc S_Wander S_TxnConc S_AnyRetry S_Isolated
  P_Ord P_Hist P_Heed P_HeedHist P_HeedMore P_Txn P_Graph P_InterpStores P_Crash P_Conc P_ConcMore P_Failing P_FailRun P_Retry P_HostConc P_HostLmdb P_AnyRetry.
From Verif Require P_TxnConc P_ConcFoot Prop_TxnConc.
Import ListNotations.
Open Scope list_scope.

Notation AO := (graph_impl lmdb_at_once).
Notation G := (graph_impl heed_impl).
Notation LG := (graph_impl (logged lmdb_at_once)).
Notation fits g := (total_weight g < 2 ^ 64)%N.

(** ** Single calls *)
Lemma drop_lm g c : has heed_impl (lm g) c -> fits (g ++ [ORemColl c]) -> call_op heed_impl (lm g) (ORemColl c) = (Ok tt, lm (g ++ [ORemColl c])).
Proof.
  intros H W. rewrite lm_snoc. pose proof (heed_answers (sure g) (ORemColl c) true) as K. cbn zeta in K. rewrite map_fst_sure in K. rewrite <- lm_f in K.
  change (call_op (heed_impl_c true)) with (call_op heed_impl) in K. rewrite <- (proj1 (K W) H). apply surjective_pairing.
Qed.

Lemma drop_absent f d c : ~ has heed_impl d c -> exists x, attempt f d (ORemColl c) = (Panic x, d).
Proof.
  intros H. pose proof (not_has_get d c H) as E. unfold attempt.
  assert (exists x, call_op (heed_impl_w (fst f)) d (ORemColl c) = (Panic x, d)) as [x ->]; [|exists x; destruct (snd f); reflexivity].
  change (exists x, run_act (fine_remove_collection c) (fst f) d = (Panic x, d)). unfold run_act, fine_remove_collection. rewrite open_then, get_then.
  destruct (sget (h_c2i d) c) as [[i|]|e|x]; [destruct (E i eq_refl)|eexists; reflexivity..].
Qed.

Lemma run_first (m : act bool) d : (exists w, fst (m (Txn d (Some 0) false)) = Panic w) -> exists x, run_act m (Some 0) d = (Panic x, d).
Proof. intros [w E]. unfold run_act. destruct (m (Txn d (Some 0) false)) as [r x]. cbn in E. subst r. eauto. Qed.

Lemma write_first {A} t f (k : unit -> act A) d : t d = true -> brittle (k tt) -> exists w, fst (bind (write_db t f) k (Txn d (Some 0) false)) = Panic w.
Proof. intros T B. unfold bind, write_db. cbn [x_bad x_left x_db]. rewrite T. apply brittle_bad, B. Qed.

Lemma drop_first_fails g c : has heed_impl (lm g) c -> exists x, attempt (Some 0, true) (lm g) (ORemColl c) = (Panic x, lm g).
Proof.
  intros H. destruct (there_get g c H) as [i E]. unfold attempt. cbn [fst snd].
  assert (exists x, call_op (heed_impl_w (Some 0)) (lm g) (ORemColl c) = (Panic x, lm g)) as [x ->]; [|eauto].
  change (exists x, run_act (fine_remove_collection c) (Some 0) (lm g) = (Panic x, lm g)). apply run_first.
  unfold fine_remove_collection. rewrite open_then, get_then. change (hafter' g) with (lm g) in E. rewrite E. rewrite open_then.
  unfold del_c2i. apply write_first; [rewrite E; reflexivity|apply brittle_open].
Qed.

Lemma next_first d : (exists a, fine_next_id (Txn d (Some 0) false) = (Ok a, Txn d (Some 0) true)) \/ exists w, fst (fine_next_id (Txn d (Some 0) false)) = Panic w.
Proof.
  unfold fine_next_id. rewrite open_then, get_then. destruct (sget (h_ids d) id_key) as [[v|]|e|x]; try (right; eexists; reflexivity).
  - destruct (u64_add1 v) as [n|]; [left; eexists; reflexivity|right; eexists; reflexivity].
  - left. eexists. reflexivity.
Qed.

Lemma coll_first_fails d c : ~ has heed_impl d c -> exists x, attempt (Some 0, true) d (OAddColl c) = (Panic x, d).
Proof.
  intros H. pose proof (not_has_get d c H) as E. unfold attempt. cbn [fst snd].
  assert (exists x, call_op (heed_impl_w (Some 0)) d (OAddColl c) = (Panic x, d)) as [x ->]; [|eauto].
  change (exists x, run_act (fine_add_collection c) (Some 0) d = (Panic x, d)). apply run_first.
  unfold fine_add_collection. rewrite open_then, get_then.
  assert (N : exists w, fst (bind fine_next_id (fun id => bind open_db (fun _ => bind (put_c2i c id) (fun _ => bind open_db (fun _ => bind (put_i2c id c) (fun _ => ret true))))) (Txn d (Some 0) false)) = Panic w).
  { destruct (next_first d) as [[a X]|P]; [|apply panic_then, P]. unfold bind at 1. rewrite X. apply brittle_bad, brittle_open. }
  destruct (sget (h_c2i d) c) as [[i|]|e|x]; [destruct (E i eq_refl)|exact N..].
Qed.

(** What a call on one store does under some failure, it does on another that looks
    the same for it under some failure, up to why it panics. *)
Lemma mimic o c hs ha f : target o = c -> (forall c ts, o <> ORem c ts) ->
  fits (hs ++ [o]) -> fits (ha ++ [o]) -> obs c (lm hs) (lm ha) ->
  exists f' e, (e = [] \/ e = [o])
    /\ snd (attempt f (lm hs) o) = lm (hs ++ e) /\ snd (attempt f' (lm ha) o) = lm (ha ++ e)
    /\ (fst (attempt f (lm hs) o) = fst (attempt f' (lm ha) o)
        \/ exists w w', fst (attempt f (lm hs) o) = Panic w /\ fst (attempt f' (lm ha) o) = Panic w').
Proof.
  intros Ht Ho Ws Wa O. destruct (obs_own hs ha o c Ht Ho Ws Wa O) as [E _].
  destruct (cases_lm f hs o) as [X|(r & X & Hr)].
  { exists no_fault, [o]. rewrite X, attempt_sure, !lm_snoc. auto 6. }
  assert (Same : r = fst (call_op heed_impl (lm hs) o) -> exists f' e, (e = [] \/ e = [o])
    /\ snd (attempt f (lm hs) o) = lm (hs ++ e) /\ snd (attempt f' (lm ha) o) = lm (ha ++ e)
    /\ (fst (attempt f (lm hs) o) = fst (attempt f' (lm ha) o)
        \/ exists w w', fst (attempt f (lm hs) o) = Panic w /\ fst (attempt f' (lm ha) o) = Panic w')).
  { intros ->. exists (None, false), []. rewrite X, !app_nil_r. split; [auto|]. split; [reflexivity|]. unfold attempt. cbn [fst snd]. rewrite no_failure.
    destruct (call_op heed_impl (lm ha) o) as [r' d']. cbn [fst snd] in *. auto. }
  assert (Both : forall w f', r = Panic w -> (exists w', attempt f' (lm ha) o = (Panic w', lm ha)) -> exists f' e, (e = [] \/ e = [o])
    /\ snd (attempt f (lm hs) o) = lm (hs ++ e) /\ snd (attempt f' (lm ha) o) = lm (ha ++ e)
    /\ (fst (attempt f (lm hs) o) = fst (attempt f' (lm ha) o)
        \/ exists w w', fst (attempt f (lm hs) o) = Panic w /\ fst (attempt f' (lm ha) o) = Panic w')).
  { intros w f' -> [w' Y]. exists f', []. rewrite X, Y, !app_nil_r. split; [auto|]. split; [reflexivity|]. split; [reflexivity|]. right. exists w, w'. auto. }
  destruct Hr as [->|[-> |[w ->]]]; [|apply Same; reflexivity|].
  - (* it answered that all is well *)
    apply Same. destruct o as [x|x|x ts|x ts]; cbn in Ht; subst x; [|..|destruct (Ho c ts eq_refl)].
    + rewrite (coll_lm hs c Ws). reflexivity.
    + destruct (has_dec hs c) as [H|H]; [rewrite (drop_lm hs c H Ws); reflexivity|]. destruct (drop_absent f _ c H) as [y Y]. rewrite Y in X. discriminate X.
    + destruct (has_dec hs c) as [H|H]; [rewrite (add_lm hs c ts H Ws); reflexivity|]. destruct (add_absent f _ c ts H) as [y Y]. rewrite Y in X. discriminate X.
  - destruct o as [x|x|x ts|x ts]; cbn in Ht; subst x; [|..|destruct (Ho c ts eq_refl)].
    + destruct (has_dec hs c) as [H|H]; [pose proof (add_there f hs c H) as Y; change (hafter' hs) with (lm hs) in Y; rewrite Y in X; discriminate X|].
      apply (Both w (Some 0, true) eq_refl), coll_first_fails. intros K. apply H, O, K.
    + destruct (has_dec ha c) as [H|H]; [apply (Both w (Some 0, true) eq_refl), drop_first_fails, H|apply (Both w no_fault eq_refl), drop_absent, H].
    + destruct (has_dec ha c) as [H|H]; [|apply (Both w no_fault eq_refl), add_absent, H]. destruct ts as [|t ts].
      * rewrite add_nothing in X. apply Same. congruence.
      * apply (Both w (Some 0, true) eq_refl), add_first_fails. discriminate.
Qed.

Lemma obs_mimic o c hs ha e : target o = c -> (forall c ts, o <> ORem c ts) -> fits (hs ++ [o]) -> fits (ha ++ [o]) -> obs c (lm hs) (lm ha) ->
  (e = [] \/ e = [o]) -> obs c (lm (hs ++ e)) (lm (ha ++ e)).
Proof. intros Ht Ho Ws Wa O [->| ->]; [rewrite !app_nil_r; exact O|apply obs_own; assumption]. Qed.

Lemma perform_drop d fs c : perform AO (QRemoveCollection c) (d, fs)
  = let (r, d1) := attempt (hd no_fault fs) d (ORemColl (el_name c)) in (err_todo r, (d1, tl fs)).
Proof.
  cbn. unfold graph_remove_collection. cbn. unfold write_at_once, attempt. cbn [fst snd call_op heed_impl_w t_remove_collection].
  destruct (run_act (fine_remove_collection (el_name c)) (fst (hd no_fault fs)) d). reflexivity.
Qed.

(** The client's own call. *)
Lemma own_step_fits q c hs ha fs : about q = Some c -> (forall c es, q <> QRemoveEntries c es) ->
  fits (hs ++ ops_of q) -> fits (ha ++ ops_of q) -> obs c (lm hs) (lm ha) ->
  exists ff e, (e = [] \/ e = ops_of q) /\ obs c (lm (hs ++ e)) (lm (ha ++ e))
    /\ fst (snd (perform AO q (lm hs, fs))) = lm (hs ++ e)
    /\ forall rest, snd (perform AO q (lm ha, ff ++ rest)) = (lm (ha ++ e), rest)
        /\ (fst (perform AO q (lm hs, fs)) = fst (perform AO q (lm ha, ff ++ rest))
            \/ exists w w', ans_panic q (fst (perform AO q (lm hs, fs))) = Some w /\ ans_panic q (fst (perform AO q (lm ha, ff ++ rest))) = Some w').
Proof.
  intros Ha Hr WW WW' O.
  destruct (writing q) eqn:Wq.
  - destruct q as [|x|x|x|x es|x es|x p]; try discriminate Wq; cbn [about] in Ha; injection Ha as Ha.
    + change (ops_of (QAddCollection x)) with [OAddColl (el_name x)] in *.
      destruct (mimic (OAddColl (el_name x)) c hs ha (hd no_fault fs) Ha ltac:(discriminate) WW WW' O) as (f' & e & He & E1 & E2 & E3).
      exists [f'], e. split; [exact He|]. split; [exact (obs_mimic (OAddColl (el_name x)) c hs ha e Ha ltac:(discriminate) WW WW' O He)|].
      rewrite perform_coll. destruct (attempt (hd no_fault fs) (lm hs) _) as [r d1]. cbn [fst snd] in *. split; [exact E1|]. intros rest.
      rewrite perform_coll. cbn [List.app hd tl]. destruct (attempt f' (lm ha) _) as [r' d1']. cbn [fst snd] in *. split; [congruence|].
      destruct E3 as [-> |(w & w' & -> & ->)]; [left; reflexivity|right; exists w, w'; split; reflexivity].
    + change (ops_of (QRemoveCollection x)) with [ORemColl (el_name x)] in *.
      destruct (mimic (ORemColl (el_name x)) c hs ha (hd no_fault fs) Ha ltac:(discriminate) WW WW' O) as (f' & e & He & E1 & E2 & E3).
      exists [f'], e. split; [exact He|]. split; [exact (obs_mimic (ORemColl (el_name x)) c hs ha e Ha ltac:(discriminate) WW WW' O He)|].
      rewrite perform_drop. destruct (attempt (hd no_fault fs) (lm hs) _) as [r d1]. cbn [fst snd] in *. split; [exact E1|]. intros rest.
      rewrite perform_drop. cbn [List.app hd tl]. destruct (attempt f' (lm ha) _) as [r' d1']. cbn [fst snd] in *. split; [congruence|].
      destruct E3 as [-> |(w & w' & -> & ->)]; [left; reflexivity|right; exists w, w'; split; reflexivity].
    + change (ops_of (QAddEntries x es)) with [OAdd (el_name x) (trips_of es)] in *.
      destruct (mimic (OAdd (el_name x) (trips_of es)) c hs ha (hd no_fault fs) Ha ltac:(discriminate) WW WW' O) as (f' & e & He & E1 & E2 & E3).
      exists [f'], e. split; [exact He|]. split; [exact (obs_mimic (OAdd (el_name x) (trips_of es)) c hs ha e Ha ltac:(discriminate) WW WW' O He)|].
      rewrite perform_add. destruct (attempt (hd no_fault fs) (lm hs) _) as [r d1]. cbn [fst snd] in *. split; [exact E1|]. intros rest.
      rewrite perform_add. cbn [List.app hd tl]. destruct (attempt f' (lm ha) _) as [r' d1']. cbn [fst snd] in *. split; [congruence|].
      destruct E3 as [-> |(w & w' & -> & ->)]; [left; reflexivity|right; exists w, w'; split; reflexivity].
    + destruct (Hr x es eq_refl).
  - exists [], []. rewrite !app_nil_r. split; [auto|]. split; [exact O|].
    assert (Nq : ops_of q = [] /\ req_weight q = 0%N) by (destruct q; try discriminate Wq; split; reflexivity). destruct Nq as [Nq Zq].
    rewrite Nq, app_nil_r in WW, WW'.
    destruct (perform_own hs ha q c Ha Hr) as [E _]; [rewrite Zq, N.add_0_r; exact WW|rewrite Zq, N.add_0_r; exact WW'|exact O|].
    rewrite (perform_reads q _ fs Wq), P_TxnConc.at_once_plain. destruct (perform G q (lm hs)) as [a d1] eqn:P1. cbn [fst snd] in *. split; [reflexivity|].
    intros rest. cbn [List.app]. rewrite (perform_reads q _ rest Wq), P_TxnConc.at_once_plain. destruct (perform G q (lm ha)) as [a' d1'] eqn:P2. cbn [fst snd] in *.
    split; [reflexivity|]. left. exact E.
Qed.

Lemma own_step q c hs ha fs : about q = Some c -> (forall c es, q <> QRemoveEntries c es) ->
  (total_weight hs + req_weight q < 2 ^ 64)%N -> (total_weight ha + req_weight q < 2 ^ 64)%N -> obs c (lm hs) (lm ha) ->
  exists ff e, (e = [] \/ e = ops_of q) /\ obs c (lm (hs ++ e)) (lm (ha ++ e))
    /\ fst (snd (perform AO q (lm hs, fs))) = lm (hs ++ e)
    /\ forall rest, snd (perform AO q (lm ha, ff ++ rest)) = (lm (ha ++ e), rest)
        /\ (fst (perform AO q (lm hs, fs)) = fst (perform AO q (lm ha, ff ++ rest))
            \/ exists w w', ans_panic q (fst (perform AO q (lm hs, fs))) = Some w /\ ans_panic q (fst (perform AO q (lm ha, ff ++ rest))) = Some w').
Proof.
  intros Ha Hr Ws Wa O. pose proof (weight_snoc hs q) as Vs. pose proof (weight_snoc ha q) as Va.
  apply own_step_fits; [exact Ha|exact Hr|eapply N.le_lt_trans; [exact Vs|exact Ws]|eapply N.le_lt_trans; [exact Va|exact Wa]|exact O].
Qed.

(** ** One client among others *)
Lemma answered_done {S} (L : lig_impl S) l : forall s cl i r, cl i = Done r -> of_client i (answered L l (Pool s cl)) = [].
Proof.
  induction l as [|[j|j] l IH]; intros s cl i r E; [reflexivity|..]; cbn [answered happen_at_once clients shared]; unfold of_client; rewrite filter_app; fold (of_client i (answered L l (turn L j (Pool s cl)))).
  - unfold turn. cbn [clients shared]. destruct (cl j) as [x|q k] eqn:Ej.
    + cbn [filter List.app]. exact (IH s cl i r E).
    + destruct (perform L q s) as [a s']. cbn [filter who fst]. assert (N : j <> i) by (intros ->; congruence).
      rewrite (proj2 (Nat.eqb_neq j i) N). cbn [List.app]. apply (IH _ _ i r). rewrite update_other; [exact E|congruence].
  - cbn [filter List.app]. destruct (Nat.eq_dec i j) as [->|N].
    + eapply (IH _ _ j). rewrite update_same. reflexivity.
    + apply (IH _ _ i r). rewrite update_other; [exact E|exact N].
Qed.

Lemma alone_done {S} (L : lig_impl S) m r s : alone L m (Done r) s = (Done r, s).
Proof. destruct m; reflexivity. Qed.

Lemma falls_next q k a : falls (Ask q k) -> falls (k a).
Proof. intros [_ H]. apply H. Qed.

Lemma perform_unadd d fs c n : perform AO (QRemoveEntries c n) (d, fs)
  = let (r, d1) := attempt (hd no_fault fs) d (ORem (el_name c) (trips_of n)) in (err_todo r, (d1, tl fs)).
Proof.
  cbn. unfold graph_remove_entries. cbn. fold (trips_of n). unfold write_at_once, attempt. cbn [fst snd call_op heed_impl_w t_remove_triples].
  destruct (run_act (fine_remove_triples (el_name c) (trips_of n)) (fst (hd no_fault fs)) d). reflexivity.
Qed.

Lemma any_step q hs fs : exists e, (e = [] \/ e = ops_of q) /\ fst (snd (perform AO q (lm hs, fs))) = lm (hs ++ e).
Proof.
  assert (K : forall f o, exists e, (e = [] \/ e = [o]) /\ snd (attempt f (lm hs) o) = lm (hs ++ e)).
  { intros f o. destruct (cases_lm f hs o) as [X|(r & X & _)]; rewrite X; [exists [o]|exists []; rewrite app_nil_r; auto].
    rewrite lm_snoc. auto. }
  destruct q as [|x|x|x|x es|x es|x p].
  - exists []. rewrite app_nil_r. auto.
  - rewrite perform_coll. destruct (K (hd no_fault fs) (OAddColl (el_name x))) as (e & He & E). exists e. split; [exact He|]. destruct (attempt _ _ _). exact E.
  - rewrite perform_drop. destruct (K (hd no_fault fs) (ORemColl (el_name x))) as (e & He & E). exists e. split; [exact He|]. destruct (attempt _ _ _). exact E.
  - exists []. rewrite app_nil_r. auto.
  - rewrite perform_add. destruct (K (hd no_fault fs) (OAdd (el_name x) (trips_of es))) as (e & He & E). exists e. split; [exact He|]. destruct (attempt _ _ _). exact E.
  - rewrite perform_unadd. destruct (K (hd no_fault fs) (ORem (el_name x) (trips_of es))) as (e & He & E). exists e. split; [exact He|]. destruct (attempt _ _ _). exact E.
  - exists []. rewrite app_nil_r. auto.
Qed.

Lemma may_change_of p q : asks p q -> forall c, about q = Some c -> writing q = true -> may_change p c.
Proof.
  intros Hq c E W. destruct q as [|x|x|x|x es|x es|x f]; try discriminate W; cbn in E; injection E as E; eexists _, x; (split; [exact Hq|split; [exact E|eauto 8]]).
Qed.

Lemma wrote_some q : ops_of q <> [] -> writing q = true.
Proof. destruct q; try reflexivity; intros H; destruct (H eq_refl). Qed.

Lemma weight_part q e : e = [] \/ e = ops_of q -> (total_weight e <= req_weight q)%N.
Proof. pose proof (weight_of q). intros [->| ->]; [cbn; lia|exact H]. Qed.

Lemma among l : forall hs ha fs cl i (C : str -> Prop) g,
  (forall c, uses (cl i) c -> C c) -> (forall j c, j <> i -> may_change (cl j) c -> ~ C c) -> local (cl i) -> falls (cl i) ->
  (forall c, C c -> obs c (lm hs) (lm ha)) -> (total_weight ha <= total_weight hs)%N ->
  let y0 := Pool (lm hs, fs) cl in
  (total_weight hs + events_weight (answered AO l y0) < 2 ^ 64)%N ->
  let y := at_once AO l y0 in
  exists hs' ha' fs' p tr, fst (shared y) = lm hs'
    /\ alone LG (List.length (of_client i (answered AO l y0))) (cl i) ((lm ha, fs'), g) = (p, ((lm ha', []), g ++ tr))
    /\ (forall c, C c -> obs c (lm hs') (lm ha'))
    /\ (total_weight tr <= events_weight (of_client i (answered AO l y0)))%N
    /\ (~ In (Dies i) l -> alike_clients (clients y i) p).
Proof.
  induction l as [|[j|j] l IH]; intros hs ha fs cl i C g HU HO HL HF HB HW y0 W y.
  - exists hs, ha, [], (cl i), []. cbn [List.length of_client filter answered]. split; [reflexivity|]. split; [cbn [alone]; rewrite app_nil_r; destruct (cl i); reflexivity|].
    split; [exact HB|]. split; [cbn; lia|]. intros _. left. reflexivity.
  - unfold y. cbn [at_once fold_left]. fold (at_once AO l). unfold y0 in *. cbn [answered happen_at_once clients shared] in *. unfold turn in *. cbn [clients shared] in *.
    destruct (cl j) as [r|q k] eqn:Ej.
    + destruct (IH hs ha fs cl i C g HU HO HL HF HB HW W) as (hs' & ha' & fs' & p & tr & E1 & E2 & E3 & E4 & E5). cbn [List.app].
      exists hs', ha', fs', p, tr. split; [exact E1|]. split; [exact E2|]. split; [exact E3|]. split; [exact E4|]. intros N. apply E5. intros I. apply N. right. exact I.
    + cbn [List.app] in *. unfold events_weight in W. cbn [fold_right what] in W. fold (events_weight (answered AO l (let (a, s) := perform AO q (lm hs, fs) in Pool s (update cl j (k a))))) in W.
      destruct (Nat.eq_dec j i) as [->|Hj].
      * assert (Hl : q <> QCollections /\ forall c es, q <> QRemoveEntries c es) by (apply HL; rewrite Ej; left; reflexivity).
        assert (Ha : exists c, about q = Some c) by (destruct q; cbn; eauto; destruct (proj1 Hl eq_refl)).
        destruct Ha as (c0 & Ha).
        assert (Hc0 : C c0) by (apply HU; exists q; rewrite Ej; split; [left; reflexivity|exact Ha]).
        destruct (own_step q c0 hs ha fs Ha (proj2 Hl) ltac:(lia) ltac:(lia) (HB c0 Hc0)) as (ff & e & He & O0 & Es & Er).
        pose proof (weight_part q e He) as We.
        unfold of_client. cbn [filter who]. rewrite Nat.eqb_refl. cbn [List.length alone]. rewrite Ej. cbn [alone].
        fold (of_client i (answered AO l (let (a, s) := perform AO q (lm hs, fs) in Pool s (update cl i (k a))))).
        destruct (perform AO q (lm hs, fs)) as [a [d1 fs1]] eqn:Ep. cbn [fst snd] in Es, Er. subst d1.
        destruct (IH (hs ++ e) (ha ++ e) fs1 (update cl i (k a)) i C (g ++ ops_of q)) as (hs' & ha' & fs' & p & tr & E1 & E2 & E3 & E4 & E5).
        -- intros c (q' & Hq & E'). rewrite update_same in Hq. apply HU. exists q'. rewrite Ej. split; [right; exists a; exact Hq|exact E'].
        -- intros j c Hj M. rewrite (update_other _ _ _ _ Hj) in M. exact (HO j c Hj M).
        -- intros q' Hq. rewrite update_same in Hq. apply HL. rewrite Ej. right. exists a. exact Hq.
        -- rewrite update_same. rewrite Ej in HF. exact (falls_next _ _ _ HF).
        -- intros c Hc. destruct (str_dec c c0) as [->|Hn]; [exact O0|].
           destruct He as [->| ->]; [rewrite !app_nil_r; apply HB, Hc|].
           assert (Hn' : about q <> Some c) by congruence.
           eapply obs_trans; [apply perform_other, Hn'|]. eapply obs_trans; [apply HB, Hc|]. apply obs_sym, perform_other, Hn'.
        -- rewrite !total_weight_app. lia.
        -- rewrite total_weight_app. lia.
        -- destruct (Er fs') as [Er1 Er2]. rewrite update_same in E2.
           exists hs', ha', (ff ++ fs').
           assert (LGp : perform LG q (lm ha, ff ++ fs', g) = (fst (perform AO q (lm ha, ff ++ fs')), ((lm (ha ++ e), fs'), g ++ ops_of q))) by (rewrite log_perform, Er1; reflexivity).
           assert (Wt : (total_weight (ops_of q ++ tr) <= req_weight q + events_weight (of_client i (answered AO l (Pool (lm (hs ++ e), fs1) (update cl i (k a))))))%N)
             by (rewrite total_weight_app; pose proof (weight_of q); lia).
           destruct Er2 as [Ea|(w & w' & Ew & Ew')].
           ++ exists p, (ops_of q ++ tr). split; [exact E1|]. rewrite LGp, <- Ea, app_assoc. split; [exact E2|]. split; [exact E3|]. split; [exact Wt|].
              intros N. apply E5. intros I. apply N. right. exact I.
           ++ rewrite Ej in HF. destruct HF as [HF _]. cbn [fst] in Ew. pose proof (HF a w Ew) as K1. pose proof (HF _ w' Ew') as K2.
              rewrite K1, alone_done in E2. injection E2 as Ep2 Elm Efs Etr. subst fs'. assert (tr = []) as -> by (apply (app_inv_head (g ++ ops_of q)); rewrite app_nil_r; symmetry; exact Etr).
              exists (Done (Panic w')), (ops_of q). split; [exact E1|]. rewrite LGp, K2, alone_done. split; [rewrite Elm; reflexivity|]. split; [exact E3|].
              rewrite app_nil_r in Wt. split; [exact Wt|]. intros N. destruct E5 as [E5|(u & u' & E5 & E5')]; [intros I; apply N; right; exact I|..].
              ** right. exists w, w'. split; [exact (eq_trans E5 (eq_sym Ep2))|reflexivity].
              ** right. exists u, w'. split; [exact E5|reflexivity].
      * unfold of_client. cbn [filter who]. rewrite (proj2 (Nat.eqb_neq j i) Hj).
        fold (of_client i (answered AO l (let (a, s) := perform AO q (lm hs, fs) in Pool s (update cl j (k a))))).
        destruct (any_step q hs fs) as (e & He & Es). pose proof (weight_part q e He) as We.
        destruct (perform AO q (lm hs, fs)) as [a [d1 fs1]] eqn:Ep. cbn [fst snd] in Es. subst d1.
        assert (Hi : i <> j) by congruence.
        destruct (IH (hs ++ e) ha fs1 (update cl j (k a)) i C g) as (hs' & ha' & fs' & p & tr & E1 & E2 & E3 & E4 & E5).
        -- intros c Hu. rewrite (update_other _ _ _ _ Hi) in Hu. exact (HU c Hu).
        -- intros j' c Hj' M. destruct (Nat.eq_dec j' j) as [->|Hjj].
           ++ rewrite update_same in M. destruct M as (q' & x & Hq & Hx). apply (HO j c Hj). exists q', x. split; [rewrite Ej; right; exists a; exact Hq|exact Hx].
           ++ rewrite (update_other _ _ _ _ Hjj) in M. exact (HO j' c Hj' M).
        -- intros q' Hq. rewrite (update_other _ _ _ _ Hi) in Hq. exact (HL q' Hq).
        -- rewrite (update_other _ _ _ _ Hi). exact HF.
        -- intros c Hc. eapply obs_trans; [|apply HB, Hc]. destruct He as [->| ->]; [rewrite app_nil_r; apply obs_refl|].
           destruct (writing q) eqn:Wq.
           ++ apply perform_other. intros E'. apply (HO j c Hj); [|exact Hc]. apply (may_change_of _ q); [rewrite Ej; left; reflexivity|exact E'|exact Wq].
           ++ destruct q; try discriminate Wq; unfold ops_of; cbn [op_of]; rewrite app_nil_r; apply obs_refl.
        -- rewrite total_weight_app. lia.
        -- rewrite total_weight_app. lia.
        -- exists hs', ha', fs', p, tr. rewrite (update_other _ _ _ _ Hi) in E2. split; [exact E1|]. split; [exact E2|]. split; [exact E3|].
           split; [exact E4|]. intros N. apply E5. intros I. apply N. right. exact I.
  - unfold y. cbn [at_once fold_left]. fold (at_once AO l). unfold y0 in *. cbn [answered happen_at_once clients shared List.app] in *.
    assert (HO' : forall j' c, j' <> i -> may_change (update cl j gone j') c -> ~ C c).
    { intros j' c Hj' M. destruct (Nat.eq_dec j' j) as [->|Hjj]; [rewrite update_same in M; destruct M as (q' & x & [] & _)|]. rewrite (update_other _ _ _ _ Hjj) in M. exact (HO j' c Hj' M). }
    destruct (Nat.eq_dec i j) as [->|Hi].
    + destruct (IH hs ha fs (update cl j gone) j C g) as (hs' & ha' & fs' & p & tr & E1 & E2 & E3 & E4 & E5); try assumption.
      * rewrite update_same. intros c (q & [] & _).
      * rewrite update_same. intros q [].
      * rewrite update_same. exact I.
      * pose proof (answered_done AO l (lm hs, fs) (update cl j gone) j _ (update_same cl j gone)) as Z. rewrite Z in *. rewrite update_same in E2. cbn [List.length alone] in *.
        unfold gone in E2. cbn [alone] in E2. injection E2 as Ep Elm Efs Etr. subst fs'.
        assert (tr = []) as -> by (apply (app_inv_head g); rewrite app_nil_r; first [exact Etr|symmetry; exact Etr]).
        exists hs', ha', [], (cl j), []. split; [exact E1|]. rewrite app_nil_r, Elm. split; [destruct (cl j); reflexivity|]. split; [exact E3|]. split; [cbn; lia|]. intros N. destruct N. left. reflexivity.
    + destruct (IH hs ha fs (update cl j gone) i C g) as (hs' & ha' & fs' & p & tr & E1 & E2 & E3 & E4 & E5); try assumption; rewrite ?(update_other _ _ _ _ Hi); try assumption.
      rewrite (update_other _ _ _ _ Hi) in E2. exists hs', ha', fs', p, tr. split; [exact E1|]. split; [exact E2|]. split; [exact E3|]. split; [exact E4|].
      intros N. apply E5. intros I. apply N. right. exact I.
Qed.

Lemma client_weight i l : (events_weight (of_client i l) <= events_weight l)%N.
Proof. induction l as [|e l IH]; [cbn; lia|]. cbn [of_client filter]. destruct (Nat.eqb (who e) i); unfold events_weight in *; cbn [fold_right]; fold (of_client i l); lia. Qed.

(** ** Operation by operation *)
Lemma dies_moments i l : forall s, In (Dies i) (moments l s) -> In (Dies i) l.
Proof.
  induction l as [|[j|j] l IH]; intros s; cbn [moments]; [intros []|..].
  - destruct (moment j s); cbn [List.app In]; intros H; [destruct H as [H|H]; [discriminate H|right; exact (IH _ H)]|right; exact (IH _ H)].
  - intros [H|H]; [left; exact H|right; exact (IH _ H)].
Qed.

Lemma isolated h fs cl l i (C : str -> Prop) g :
  (forall c, uses (cl i) c -> C c) -> (forall j c, j <> i -> may_change (cl j) c -> ~ C c) -> local (cl i) -> falls (cl i) ->
  let s0 := start (lm h) fs cl in
  let y0 := Pool (lm h, fs) cl in
  (total_weight h + events_weight (answered AO (moments l s0) y0) < 2 ^ 64)%N ->
  let s := go_on l s0 in
  exists hs' ha' fs' p tr, file s = lm hs'
    /\ alone LG (List.length (of_client i (answered AO (moments l s0) y0))) (cl i) ((lm h, fs'), g) = (p, ((lm ha', []), g ++ tr))
    /\ (forall c, C c -> obs c (lm hs') (lm ha'))
    /\ (total_weight tr <= events_weight (of_client i (answered AO (moments l s0) y0)))%N
    /\ (~ In (Dies i) l -> forall p0, doing s i = Idle p0 -> alike_clients p0 p).
Proof.
  intros HU HO HL HF s0 y0 W s.
  destruct (among (moments l s0) h h fs cl i C g HU HO HL HF (fun c _ => obs_refl c (lm h)) (N.le_refl _) W) as (hs' & ha' & fs' & p & tr & E1 & E2 & E3 & E4 & E5).
  destruct (Prop_TxnConc.C119_at_once (lm h) fs cl l) as [A1 A2]. cbv zeta in *. fold s0 y0 s in A1, A2.
  exists hs', ha', fs', p, tr. split; [unfold y0 in A1; rewrite A1 in E1; exact E1|]. split; [exact E2|]. split; [exact E3|]. split; [exact E4|].
  intros N p0 Ep. destruct (A2 i) as (B & _). rewrite <- (B p0 Ep). apply E5. intros I. apply N, (dies_moments _ _ _ I).
Qed.

Lemma alone_log {S} (I : trips_impl S) m : forall p st g p' st' g',
  alone (graph_impl (logged I)) m p (st, g) = (p', (st', g')) -> alone (graph_impl I) m p st = (p', st').
Proof.
  induction m as [|m IH]; intros p st g p' st' g' E; [destruct p; cbn in *; congruence|]. destruct p as [r|q k]; [cbn in *; congruence|].
  cbn [alone] in *. rewrite log_perform in E. apply IH in E. destruct (perform (graph_impl I) q st) as [a st1]. exact E.
Qed.

Lemma alone_all {S} (L : lig_impl S) m : forall p st r st', alone L m p st = (Done r, st') -> solo L p st = (r, st').
Proof.
  induction m as [|m IH]; intros p st r st' E; [destruct p; cbn in *; congruence|]. destruct p as [r0|q k]; [cbn in *; congruence|].
  cbn [alone solo] in *. destruct (perform L q st) as [a st1]. exact (IH _ _ _ _ E).
Qed.

Lemma alike_outcome r r' : alike r r' -> outcome_of r = outcome_of r'.
Proof. intros [->|(w & w' & -> & ->)]; reflexivity. Qed.

Lemma alike_done r p : alike_clients (Done r) p -> exists r', p = Done r' /\ alike r r'.
Proof.
  intros [<-|(w & w' & E & ->)]; [exists r; split; [reflexivity|left; reflexivity]|]. injection E as ->. exists (Panic w'). split; [reflexivity|]. right. eauto.
Qed.

(** ** Scripts *)
Section Falls.
  Context (rq : list value -> prog) (Hq : forall q, falls (rq q)).

  Lemma falls_value v : falls (p_value rq v).
  Proof. destruct v; cbn; try exact I. apply Hq. Qed.

  Lemma falls_let c n : falls (p_let_store c n).
  Proof.
    unfold p_let_store. cbn [falls]. split; [intros [a|e|x] w E; try discriminate E; cbn in E; injection E as ->; reflexivity|].
    intros [a|e|w]; try exact I; cbn [falls]; (split; [intros [b|e'|x] w' E; try discriminate E; cbn in E; injection E as ->; reflexivity|intros [b|e'|w']; exact I]).
  Qed.

  Lemma falls_exec f args : (forall g, f <> FHost g) -> falls (p_exec rq common f args).
  Proof.
    intros Nf. destruct f; cbn [p_exec]; try exact I.
    - unfold p_assert_equal. destruct args as [|a [|b [|c args]]]; try exact I. apply falls_bind; [reflexivity|apply falls_value|].
      intros [v|e|w]; try exact I. apply falls_bind; [reflexivity|apply falls_value|]. intros [v'|e|w]; try exact I. destruct (value_eqb v v'); exact I.
    - unfold p_assert_fail. destruct args as [|[e|q|n] [|c args]]; try exact I. apply falls_bind; [reflexivity|apply Hq|]. intros [v|e|w]; exact I.
    - unfold p_let. destruct args as [|[c|q|n] [|[e|q2|n2] [|x args]]]; try exact I; [|apply falls_let].
      apply falls_bind; [reflexivity|apply Hq|]. intros [[e|q1|n]|e|w]; try exact I. apply falls_let.
    - unfold p_read. destruct args as [|[c|q|n] [|x args]]; try exact I. cbn [falls]. split; [|intros a; exact I]. intros [a|e|x] w E; try discriminate E. cbn in E. injection E as ->. reflexivity.
    - unfold p_filter. destruct args as [|[c|q0|n0] [|[a|q1|n1] [|[b|q2|n2] [|[d|q3|n3] [|x args]]]]]; try exact I.
      cbn [falls]. split; [|intros r; exact I]. intros [r|e|x] w E; try discriminate E. cbn in E. injection E as ->. reflexivity.
  Qed.

  Lemma falls_loop calls : forall res, falls (p_calls_loop rq common calls res).
  Proof.
    induction calls as [|c calls IH]; intros res; [exact I|]. cbn [p_calls_loop].
    destruct (cmd_get common (el_name (c_name c))) as [cmd|] eqn:E; [|exact I].
    apply falls_bind; [reflexivity| |intros [v|e|w]; [apply IH|exact I..]].
    apply falls_exec. intros g Eg. apply P_ConcFoot.cmd_get_in in E. unfold common in E. cbn [In] in E.
    repeat match type of E with _ \/ _ => destruct E as [E|E] end; try (exfalso; exact E); injection E as _ <-; cbn [cmd_fun_of] in Eg; discriminate Eg.
  Qed.
End Falls.

Lemma falls_quote fuel : forall q, falls (p_quote_f fuel common q).
Proof.
  induction fuel as [|fuel IH]; intros q; [exact I|]. cbn [p_quote_f]. destruct q as [|[e|q0|n] args]; try exact I. apply falls_loop, IH.
Qed.

Lemma falls_script script : falls (p_run common script).
Proof.
  unfold p_run. destruct (tokenize_and_filter script) as [ts|e|w]; try exact I. destruct (parse ts) as [calls|e|w]; try exact I.
  apply falls_loop. intros q. apply falls_quote.
Qed.
