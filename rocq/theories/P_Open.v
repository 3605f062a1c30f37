(** * Proofs: opening the LMDB environment *)
From Coq Require Import List NArith Bool Arith Lia.
From Verif Require Import M_Base M_Data M_Heed M_Txn M_Open S_Order S_Str S_Store S_Open S_Txn P_Txn P_TxnRem.
Import ListNotations.
Open Scope list_scope.

(** ** Either the same or a panic *)

Definition gates {A} (g m : act A) : Prop := forall x, g x = m x \/ exists w x', g x = (Panic w, x').

Lemma gates_refl {A} (m : act A) : gates m m.
Proof. intro x; left; reflexivity. Qed.
Lemma gates_bind {A B} (g m : act A) (k k' : A -> act B) : gates g m -> (forall a, gates (k a) (k' a)) -> gates (bind g k) (bind m k').
Proof.
  intros H1 H2 x. unfold bind. destruct (H1 x) as [E|(w & x' & E)]; rewrite E.
  - destruct (m x) as [[a|e|w] x']; [apply H2| |]; left; reflexivity.
  - right; eexists _, _; reflexivity.
Qed.
Lemma gates_open o t : gates (gopen o t) open_db.
Proof. intro x. unfold gopen. destruct (o t); [right; eexists _, _; reflexivity|left; reflexivity]. Qed.

Ltac gate :=
  repeat first
    [ apply gates_refl
    | apply gates_open
    | match goal with |- gates (match ?r with _ => _ end) _ => destruct r end
    | apply gates_bind; [|intro]
    ].

Lemma gates_next_id o : gates (g_next_id o) fine_next_id.
Proof. unfold g_next_id, fine_next_id. gate. Qed.
Lemma gates_add_collection o c : gates (g_add_collection o c) (fine_add_collection c).
Proof. unfold g_add_collection, fine_add_collection. gate; apply gates_next_id. Qed.
Lemma gates_remove_collection o c : gates (g_remove_collection o c) (fine_remove_collection c).
Proof. unfold g_remove_collection, fine_remove_collection. gate. Qed.
Lemma gates_intern o v s : gates (g_intern o v s) (fine_intern v s).
Proof. unfold g_intern, fine_intern. gate. Qed.
Lemma gates_put_rows o k1 k2 k3 k4 k5 k6 : gates (g_put_rows o k1 k2 k3 k4 k5 k6) (fine_put_rows k1 k2 k3 k4 k5 k6).
Proof. unfold g_put_rows, fine_put_rows. gate. Qed.
Lemma gates_del_rows o k1 k2 k3 k4 k5 k6 : gates (g_del_rows o k1 k2 k3 k4 k5 k6) (fine_del_rows k1 k2 k3 k4 k5 k6).
Proof. unfold g_del_rows, fine_del_rows. gate. Qed.
Lemma gates_add_one o c v t : gates (g_add_one o c v t) (fine_add_one c v t).
Proof.
  unfold g_add_one, fine_add_one. apply gates_bind; [gate|intro].
  apply gates_bind; [apply gates_intern|intro f]. apply gates_bind; [apply gates_intern|intro s]. apply gates_bind; [apply gates_intern|intro q].
  apply gates_bind; [gate|intro]. apply gates_bind; [gate|intro].
  destruct (row_keys c (fst f) (fst s) (fst q)) as [[[[[[? ?] ?] ?] ?] ?]|]; [|apply gates_refl].
  apply gates_bind; [apply gates_put_rows|intro; apply gates_refl].
Qed.
Lemma gates_add_loop o c ts : forall v, gates (g_add_loop o c v ts) (fine_add_loop c v ts).
Proof.
  induction ts as [|t r IH]; intro v; [apply gates_refl|].
  change (gates (bind (g_add_one o c v t) (fun v' => g_add_loop o c v' r)) (bind (fine_add_one c v t) (fun v' => fine_add_loop c v' r))).
  apply gates_bind; [apply gates_add_one|exact IH].
Qed.
Lemma gates_add_triples o c ts : gates (g_add_triples o c ts) (fine_add_triples c ts).
Proof.
  unfold g_add_triples, fine_add_triples. apply gates_bind; [gate|intro]. apply gates_bind; [gate|intros [[i|]| |]]; try apply gates_refl.
  apply gates_bind; [gate|intro]. apply gates_bind; [gate|intros [[j|]| |]]; try apply gates_refl.
  apply gates_bind; [apply gates_add_loop|intro; apply gates_refl].
Qed.
Lemma gates_remove_loop o c ts : gates (g_remove_loop o c ts) (fine_remove_loop c ts).
Proof.
  induction ts as [|t r IH]; [apply gates_refl|]. cbn [g_remove_loop fine_remove_loop].
  apply gates_bind; [apply gates_refl|intro f]. apply gates_bind; [apply gates_refl|intro s]. apply gates_bind; [apply gates_refl|intro q].
  destruct (row_keys c f s q) as [[[[[[? ?] ?] ?] ?] ?]|]; [|apply gates_refl].
  apply gates_bind; [apply gates_del_rows|intro; exact IH].
Qed.
Lemma gates_remove_triples o c ts : gates (g_remove_triples o c ts) (fine_remove_triples c ts).
Proof.
  unfold g_remove_triples, fine_remove_triples. apply gates_bind; [gate|intro]. apply gates_bind; [gate|intros [[i|]| |]]; try apply gates_refl.
  apply gates_bind; [gate|intro]. apply gates_bind; [apply gates_remove_loop|intro; apply gates_refl].
Qed.

Lemma gates_run (g m : act bool) d : gates g m -> run_act g None d = run_act m None d \/ exists w, run_act g None d = (Panic w, d).
Proof.
  intro H. unfold run_act. destruct (H (Txn d None false)) as [E|(w & x' & E)]; rewrite E; [left; reflexivity|right; eexists; reflexivity].
Qed.

Lemma gated_call o d q :
  call_op (heed_impl_o o) d q = call_op heed_impl d q \/ exists w, call_op (heed_impl_o o) d q = (Panic w, d).
Proof.
  rewrite <- no_failure. destruct q as [c|c|c ts|c ts]; cbn [call_op heed_impl_o heed_impl_w t_add_collection t_remove_collection t_add_triples t_remove_triples fst].
  - apply gates_run, gates_add_collection.
  - apply gates_run, gates_remove_collection.
  - apply gates_run, gates_add_triples.
  - apply gates_run, gates_remove_triples.
Qed.

Lemma g_triples_loop_same o d c rows : forall acc,
  g_triples_loop o d c rows acc = heed_triples_loop d c rows acc \/ exists w, g_triples_loop o d c rows acc = Panic w.
Proof.
  induction rows as [|r rest IH]; intro acc; [left; reflexivity|]. cbn [g_triples_loop heed_triples_loop].
  destruct (decode_row r) as [[[[cid fid] sid] tid]|]; [|left; reflexivity].
  destruct (N.eqb c cid); [|apply IH].
  destruct (o Ti2v); [right; eexists; reflexivity|].
  destruct (nget (h_i2v d) fid), (nget (h_i2v d) sid), (nget (h_i2v d) tid); try (left; reflexivity). apply IH.
Qed.
Lemma gated_triples o d c : g_triples o d c = heed_triples d c \/ exists w, g_triples o d c = Panic w.
Proof.
  unfold g_triples, heed_triples. destruct (o Tc2i); [right; eexists; reflexivity|].
  destruct (sget (h_c2i d) c) as [[i|]| |]; try (left; reflexivity).
  destruct (o Tcfst); [right; eexists; reflexivity|]. apply g_triples_loop_same.
Qed.
Lemma gated_collections o d : g_collections o d = heed_collections d \/ exists w, g_collections o d = Panic w.
Proof. unfold g_collections. destruct (o Tc2i); [right; eexists; reflexivity|left; reflexivity]. Qed.

(** ** Sessions *)

Lemma acked_app {S} (I : trips_impl S) h1 : forall s h2, acked I s (h1 ++ h2) = acked I s h1 ++ acked I (after I s h1) h2.
Proof.
  induction h1 as [|o r IH]; intros s h2; [reflexivity|]. cbn [app acked after].
  destruct (call_op I s o) as [[a|e|w] s']; cbn [snd app]; rewrite IH; reflexivity.
Qed.
Lemma after_app' {S} (I : trips_impl S) h1 : forall s h2, after I s (h1 ++ h2) = after I (after I s h1) h2.
Proof. induction h1 as [|o r IH]; intros s h2; [reflexivity|]. cbn [app after]. apply IH. Qed.

Lemma heed_not_ok_unchanged d q r d' : call_op heed_impl d q = (r, d') -> (forall a, r <> Ok a) -> d' = d.
Proof.
  unfold heed_impl, heed_impl_c. destruct q as [c|c|c ts|c ts]; cbn [call_op t_add_collection t_remove_collection t_add_triples t_remove_triples fst];
    unfold heed_add_collection, heed_remove_collection, heed_add_triples, heed_remove_triples; cbn [fst]; unfold run_tx.
  - unfold heed_add_collection_tx. destruct (sget (h_c2i d) c) as [[i|]| |]; try (intros E _; inversion E; reflexivity);
    destruct (next_collection_id d) as [[i0 d1]|e0|w0]; intros E H; inversion E; subst; try reflexivity; destruct (H tt eq_refl).
  - unfold heed_remove_collection_tx. destruct (sget (h_c2i d) c) as [[i|]| |]; intros E H; inversion E; subst; try reflexivity; destruct (H tt eq_refl).
  - unfold heed_add_triples_tx. destruct (sget (h_c2i d) c) as [[i|]| |]; try (intros E _; inversion E; reflexivity).
    destruct (sget (h_ids d) id_key) as [[j|]| |]; try (intros E _; inversion E; reflexivity).
    destruct (heed_add_loop d i j ts); intros E H; inversion E; subst; try reflexivity; destruct (H tt eq_refl).
  - unfold heed_remove_triples_tx. destruct (sget (h_c2i d) c) as [[i|]| |]; try (intros E _; inversion E; reflexivity).
    destruct (heed_remove_loop d i ts); intros E H; inversion E; subst; try reflexivity; destruct (H tt eq_refl).
Qed.

Lemma session_hist o h : forall d,
  after (heed_impl_o o) d h = after heed_impl d (acked (heed_impl_o o) d h)
  /\ acked heed_impl d (acked (heed_impl_o o) d h) = acked (heed_impl_o o) d h.
Proof.
  induction h as [|q r IH]; intro d; [split; reflexivity|]. cbn [after acked].
  destruct (gated_call o d q) as [E|(w & E)].
  - destruct (call_op (heed_impl_o o) d q) as [[a|e|w] d'] eqn:G; cbn [snd].
    + cbn [after acked]. rewrite <- E. cbn [snd]. destruct (IH d') as (E1 & E2). rewrite E2. split; [exact E1|reflexivity].
    + symmetry in E. apply heed_not_ok_unchanged in E; [subst d'|discriminate]. apply IH.
    + symmetry in E. apply heed_not_ok_unchanged in E; [subst d'|discriminate]. apply IH.
  - rewrite E. cbn [snd]. apply IH.
Qed.

Lemma new_keeps slots ok f : f_db (fst (trips_heed_new slots ok f)) = f_db f.
Proof. unfold trips_heed_new. destruct (fold_left _ _ _) as [h m]. destruct ok; reflexivity. Qed.

Lemma sessions_hist ss : forall f,
  f_db (after_sessions f ss) = after heed_impl (f_db f) (acked_sessions f ss)
  /\ acked heed_impl (f_db f) (acked_sessions f ss) = acked_sessions f ss.
Proof.
  induction ss as [|s r IH]; intro f; [split; reflexivity|]. cbn [after_sessions acked_sessions].
  destruct (IH (after_session f s)) as (E1 & E2).
  assert (Hs : f_db (after_session f s) = after heed_impl (f_db f) (acked_session f s)
               /\ acked heed_impl (f_db f) (acked_session f s) = acked_session f s).
  { unfold after_session, acked_session, session_impl. cbn [f_db]. rewrite new_keeps. apply session_hist. }
  destruct Hs as (H1 & H2). rewrite after_app', acked_app, E1, H1, H2. split; [reflexivity|].
  rewrite <- H1, E2. reflexivity.
Qed.

(** ** Which tables are open *)

Lemma handles_indep slots l : forall h m m', fst (fold_left (create_database slots) l (h, m)) = fst (fold_left (create_database slots) l (h, m')).
Proof.
  induction l as [|t l IH]; intros h m m'; [reflexivity|]. cbn [fold_left]. unfold create_database at 2 4.
  destruct (mem_tab t h); [apply IH|]. destruct (Nat.ltb (length h) slots); apply IH.
Qed.

Definition rank (t : tab) : nat :=
  match t with
  | Tids => 0 | Tc2i => 1 | Ti2c => 2 | Tv2i => 3 | Ti2v => 4
  | Tcfst => 5 | Tcfts => 6 | Tcsft => 7 | Tcstf => 8 | Tctfs => 9 | Tctsf => 10
  end.

Lemma opens_new slots f t :
  snd (trips_heed_new slots true f) t = if Nat.ltb (rank t) slots then None else Some PUnwrap.
Proof.
  unfold trips_heed_new. destruct (fold_left _ _ _) as [h m] eqn:E. cbn [snd].
  assert (Eh : h = fst (fold_left (create_database slots) creation_order ([], []))).
  { rewrite (handles_indep slots creation_order [] [] (f_made f)), E. reflexivity. }
  rewrite Eh. clear.
  do 11 (destruct slots as [|slots]; [destruct t; reflexivity|]). destruct t; reflexivity.
Qed.

Lemma opens_failed slots f t : f_made f = [] -> exists w, snd (trips_heed_new slots false f) t = Some w.
Proof.
  intro E. unfold trips_heed_new. rewrite E. destruct (fold_left _ _ _) as [h m]. cbn [snd]. destruct slots; eexists; reflexivity.
Qed.

(** ** The same when the tables needed are open *)

Definition same {A} (g m : act A) : Prop := forall x, g x = m x.
Lemma same_refl {A} (m : act A) : same m m. Proof. intro; reflexivity. Qed.
Lemma same_bind {A B} (g m : act A) (k k' : A -> act B) : same g m -> (forall a, same (k a) (k' a)) -> same (bind g k) (bind m k').
Proof. intros H1 H2 x. unfold bind. rewrite H1. destruct (m x) as [[a|e|w] x']; [apply H2| |]; reflexivity. Qed.
Lemma same_open o t : o t = None -> same (gopen o t) open_db.
Proof. intros E x. unfold gopen. rewrite E. reflexivity. Qed.
Lemma same_run (g m : act bool) d : same g m -> run_act g None d = run_act m None d.
Proof. intro H. unfold run_act. rewrite H. reflexivity. Qed.

Ltac sm :=
  repeat first
    [ apply same_refl
    | apply same_open; assumption
    | match goal with |- same (match ?r with _ => _ end) _ => destruct r end
    | apply same_bind; [|intro]
    ].

Lemma same_next_id o : o Tids = None -> same (g_next_id o) fine_next_id.
Proof. intro. unfold g_next_id, fine_next_id. sm. Qed.
Lemma same_add_collection o c : o Tids = None -> o Tc2i = None -> o Ti2c = None -> same (g_add_collection o c) (fine_add_collection c).
Proof. intros. unfold g_add_collection, fine_add_collection. sm; apply same_next_id; assumption. Qed.
Lemma same_remove_collection o c : o Tc2i = None -> o Ti2c = None -> same (g_remove_collection o c) (fine_remove_collection c).
Proof. intros. unfold g_remove_collection, fine_remove_collection. sm. Qed.
Lemma same_intern o v s : o Ti2v = None -> same (g_intern o v s) (fine_intern v s).
Proof. intros. unfold g_intern, fine_intern. sm. Qed.

Section All.
  Variable o : tab -> option why.
  Hypothesis all : forall t, o t = None.

  Lemma same_open_all t : same (gopen o t) open_db. Proof. apply same_open, all. Qed.
  Lemma same_put_rows k1 k2 k3 k4 k5 k6 : same (g_put_rows o k1 k2 k3 k4 k5 k6) (fine_put_rows k1 k2 k3 k4 k5 k6).
  Proof. unfold g_put_rows, fine_put_rows. repeat first [apply same_refl|apply same_open_all|apply same_bind; [|intro]]. Qed.
  Lemma same_del_rows k1 k2 k3 k4 k5 k6 : same (g_del_rows o k1 k2 k3 k4 k5 k6) (fine_del_rows k1 k2 k3 k4 k5 k6).
  Proof. unfold g_del_rows, fine_del_rows. repeat first [apply same_refl|apply same_open_all|apply same_bind; [|intro]]. Qed.
  Lemma same_add_one c v t : same (g_add_one o c v t) (fine_add_one c v t).
  Proof.
    unfold g_add_one, fine_add_one. apply same_bind; [apply same_open_all|intro].
    apply same_bind; [apply same_intern, all|intro f]. apply same_bind; [apply same_intern, all|intro s]. apply same_bind; [apply same_intern, all|intro q].
    apply same_bind; [apply same_open_all|intro]. apply same_bind; [apply same_refl|intro].
    destruct (row_keys c (fst f) (fst s) (fst q)) as [[[[[[? ?] ?] ?] ?] ?]|]; [|apply same_refl].
    apply same_bind; [apply same_put_rows|intro; apply same_refl].
  Qed.
  Lemma same_add_loop c ts : forall v, same (g_add_loop o c v ts) (fine_add_loop c v ts).
  Proof.
    induction ts as [|t r IH]; intro v; [apply same_refl|]. cbn [g_add_loop fine_add_loop].
    apply same_bind; [apply same_add_one|exact IH].
  Qed.
  Lemma same_remove_loop c ts : same (g_remove_loop o c ts) (fine_remove_loop c ts).
  Proof.
    induction ts as [|t r IH]; [apply same_refl|]. cbn [g_remove_loop fine_remove_loop].
    apply same_bind; [apply same_refl|intro f]. apply same_bind; [apply same_refl|intro s]. apply same_bind; [apply same_refl|intro q].
    destruct (row_keys c f s q) as [[[[[[? ?] ?] ?] ?] ?]|]; [|apply same_refl].
    apply same_bind; [apply same_del_rows|intro; exact IH].
  Qed.
End All.

Lemma same_add_triples o c ts : o Tc2i = None -> o Tids = None -> ts = [] \/ (forall t, o t = None) -> same (g_add_triples o c ts) (fine_add_triples c ts).
Proof.
  intros H1 H2 H. unfold g_add_triples, fine_add_triples. apply same_bind; [sm|intro]. apply same_bind; [sm|intros [[i|]| |]]; try apply same_refl.
  apply same_bind; [sm|intro]. apply same_bind; [sm|intros [[j|]| |]]; try apply same_refl.
  apply same_bind; [|intro; apply same_refl]. destruct H as [->|H]; [apply same_refl|apply same_add_loop, H].
Qed.
Lemma same_remove_triples o c ts : o Tc2i = None -> o Tv2i = None -> ts = [] \/ (forall t, o t = None) -> same (g_remove_triples o c ts) (fine_remove_triples c ts).
Proof.
  intros H1 H2 H. unfold g_remove_triples, fine_remove_triples. apply same_bind; [sm|intro]. apply same_bind; [sm|intros [[i|]| |]]; try apply same_refl.
  apply same_bind; [sm|intro]. apply same_bind; [|intro; apply same_refl]. destruct H as [->|H]; [apply same_refl|apply same_remove_loop, H].
Qed.

Definition limit (n : nat) (o : tab -> option why) : Prop := forall t, o t = if Nat.ltb (rank t) n then None else Some PUnwrap.

Lemma limit_open n o t : limit n o -> rank t < n -> o t = None.
Proof. intros L H. rewrite L. apply Nat.ltb_lt in H. rewrite H. reflexivity. Qed.
Lemma limit_shut n o t : limit n o -> n <= rank t -> o t = Some PUnwrap.
Proof. intros L H. rewrite L. apply Nat.ltb_ge in H. rewrite H. reflexivity. Qed.
Lemma limit_all n o : limit n o -> 11 <= n -> forall t, o t = None.
Proof. intros L H t. apply (limit_open n o t L). destruct t; cbn; lia. Qed.

Lemma enough_call n o d q : limit n o -> tables_needed q <= n -> call_op (heed_impl_o o) d q = call_op heed_impl d q.
Proof.
  intros L H. rewrite <- no_failure. destruct q as [c|c|c ts|c ts]; cbn [call_op heed_impl_o heed_impl_w t_add_collection t_remove_collection t_add_triples t_remove_triples fst tables_needed] in *.
  - apply same_run, same_add_collection; apply (limit_open n); cbn; try assumption; lia.
  - apply same_run, same_remove_collection; apply (limit_open n); cbn; try assumption; lia.
  - apply same_run, same_add_triples; [apply (limit_open n); [exact L|destruct ts; cbn; lia] ..|]. destruct ts; [left; reflexivity|right; apply (limit_all n); assumption].
  - apply same_run, same_remove_triples; [apply (limit_open n); [exact L|destruct ts; cbn; lia] ..|]. destruct ts; [left; reflexivity|right; apply (limit_all n); assumption].
Qed.

Lemma g_triples_loop_enough o d c rows : o Ti2v = None -> forall acc, g_triples_loop o d c rows acc = heed_triples_loop d c rows acc.
Proof.
  intro H. induction rows as [|r rest IH]; intro acc; [reflexivity|]. cbn [g_triples_loop heed_triples_loop]. rewrite H.
  destruct (decode_row r) as [[[[cid fid] sid] tid]|]; [|reflexivity].
  destruct (N.eqb c cid); [|apply IH].
  destruct (nget (h_i2v d) fid), (nget (h_i2v d) sid), (nget (h_i2v d) tid); try reflexivity. apply IH.
Qed.
Lemma enough_triples n o d c : limit n o -> 6 <= n -> g_triples o d c = heed_triples d c.
Proof.
  intros L H. unfold g_triples, heed_triples. rewrite (limit_open n o Tc2i L), (limit_open n o Tcfst L) by (cbn; lia).
  destruct (sget (h_c2i d) c) as [[i|]| |]; try reflexivity. apply g_triples_loop_enough, (limit_open n o Ti2v L). cbn; lia.
Qed.
Lemma few_triples n o d c : limit n o -> n < 6 -> exists w, g_triples o d c = Panic w.
Proof.
  intros L H. unfold g_triples. destruct (o Tc2i); [eexists; reflexivity|]. rewrite (limit_shut n o Tcfst L) by (cbn; lia).
  destruct (sget (h_c2i d) c) as [[i|]| |]; eexists; reflexivity.
Qed.
Lemma enough_collections n o d : limit n o -> 2 <= n -> g_collections o d = heed_collections d.
Proof. intros L H. unfold g_collections. rewrite (limit_open n o Tc2i L) by (cbn; lia). reflexivity. Qed.
Lemma few_collections n o d : limit n o -> n < 2 -> exists w, g_collections o d = Panic w.
Proof. intros L H. unfold g_collections. rewrite (limit_shut n o Tc2i L) by (cbn; lia). eexists; reflexivity. Qed.

(** ** A panic when they are not *)

Definition dies {A} (m : act A) : Prop := forall x, exists w x', m x = (Panic w, x').
Lemma dies_fail {A} w : dies (@fail A w). Proof. intro x; eexists _, _; reflexivity. Qed.
Lemma dies_open o t w : o t = Some w -> dies (gopen o t).
Proof. intros E x. unfold gopen. rewrite E. eexists _, _; reflexivity. Qed.
Lemma dies_first {A B} (m : act A) (k : A -> act B) : dies m -> dies (bind m k).
Proof. intros H x. destruct (H x) as (w & x' & E). unfold bind. rewrite E. eexists _, _; reflexivity. Qed.
Lemma dies_then {A B} (m : act A) (k : A -> act B) : never_err m -> (forall a, dies (k a)) -> dies (bind m k).
Proof.
  intros N H x. unfold bind. destruct (m x) as [[a|e|w] x'] eqn:E; [apply H|destruct (N _ _ _ E)|eexists _, _; reflexivity].
Qed.
Lemma ne_gates {A} (g m : act A) : gates g m -> never_err m -> never_err g.
Proof. intros G N x e x' E. destruct (G x) as [F|(w & y & F)]; rewrite E in F; [destruct (N x e x' (eq_sym F))|discriminate]. Qed.
Lemma ne_gopen o t : never_err (gopen o t).
Proof. apply (ne_gates _ _ (gates_open o t)), ne_open. Qed.
Lemma dies_run (g : act bool) d : dies g -> exists w, run_act g None d = (Panic w, d).
Proof. intro H. unfold run_act. destruct (H (Txn d None false)) as (w & x' & E). rewrite E. eexists; reflexivity. Qed.

(** Among the last table: every triple put or deleted opens it. *)
Lemma dies_put_rows o k1 k2 k3 k4 k5 k6 w : o Tctsf = Some w -> dies (g_put_rows o k1 k2 k3 k4 k5 k6).
Proof.
  intro E. unfold g_put_rows.
  repeat (first [apply dies_first, (dies_open _ _ w), E | apply dies_then; [first [apply ne_gopen|apply ne_write]|intro]]).
Qed.
Lemma dies_del_rows o k1 k2 k3 k4 k5 k6 w : o Tctsf = Some w -> dies (g_del_rows o k1 k2 k3 k4 k5 k6).
Proof.
  intro E. unfold g_del_rows.
  repeat (first [apply dies_first, (dies_open _ _ w), E | apply dies_then; [first [apply ne_gopen|apply ne_write]|intro]]).
Qed.
Lemma ne_g_intern o v s : never_err (g_intern o v s).
Proof. apply (ne_gates _ _ (gates_intern o v s)), ne_intern. Qed.
Lemma dies_add_one o c v t w : o Tctsf = Some w -> dies (g_add_one o c v t).
Proof.
  intro E. unfold g_add_one. apply dies_then; [apply ne_gopen|intro]. apply dies_then; [apply ne_g_intern|intro f]. apply dies_then; [apply ne_g_intern|intro s].
  apply dies_then; [apply ne_g_intern|intro q]. apply dies_then; [apply ne_gopen|intro]. apply dies_then; [apply ne_write|intro].
  destruct (row_keys c (fst f) (fst s) (fst q)) as [[[[[[? ?] ?] ?] ?] ?]|]; [|apply dies_fail].
  apply dies_first, (dies_put_rows _ _ _ _ _ _ _ w), E.
Qed.
Lemma ne_known s : never_err (fine_known s).
Proof. unfold fine_known. apply ne_bind; [apply ne_get|intros [[i|]| |]]; first [apply ne_ret|apply ne_fail]. Qed.

Lemma add_collection_few o d c w : o Ti2c = Some w -> (forall i, sget (h_c2i d) c <> Ok (Some i)) ->
  exists w' x', g_add_collection o c (Txn d None false) = (Panic w', x').
Proof.
  intros E H.
  assert (D : dies (bind (g_next_id o) (fun id => bind (gopen o Tc2i) (fun _ => bind (put_c2i c id) (fun _ => bind (gopen o Ti2c) (fun _ => bind (put_i2c id c) (fun _ => ret true))))))).
  { apply dies_then; [apply (ne_gates _ _ (gates_next_id o)), ne_next_id|intro]. apply dies_then; [apply ne_gopen|intro]. apply dies_then; [apply ne_write|intro].
    apply dies_first, (dies_open _ _ w), E. }
  unfold g_add_collection. unfold bind at 1. unfold gopen at 1. destruct (o Tc2i); [eexists _, _; reflexivity|]. unfold open_db at 1. cbn [x_bad].
  unfold bind at 1. unfold get_db at 1. cbn [x_bad x_db].
  destruct (sget (h_c2i d) c) as [[i|]| |]; [destruct (H i eq_refl)|apply D|apply D|apply D].
Qed.

Lemma few_call n o d q : limit n o -> n < tables_needed q ->
  (exists w, call_op (heed_impl_o o) d q = (Panic w, d))
  \/ n = 2 /\ (exists c, q = OAddColl c) /\ call_op (heed_impl_o o) d q = (Ok tt, d) /\ call_op heed_impl d q = (Ok tt, d).
Proof.
  intros L H. destruct q as [c|c|c ts|c ts]; cbn [call_op heed_impl_o t_add_collection t_remove_collection t_add_triples t_remove_triples fst tables_needed] in *.
  - destruct (Nat.eq_dec n 2) as [->|N].
    + destruct (sget (h_c2i d) c) as [[i|]| |] eqn:Eg.
      { right. split; [reflexivity|]. split; [eexists; reflexivity|]. split.
        - unfold run_act, g_add_collection, bind, gopen, get_db, open_db. rewrite (limit_open 2 o Tc2i L) by (cbn; lia). cbn [x_bad x_db]. rewrite Eg. reflexivity.
        - unfold heed_impl, heed_impl_c. cbn [t_add_collection]. unfold heed_add_collection, heed_add_collection_tx. rewrite Eg. reflexivity. }
      all: left; destruct (add_collection_few o d c PUnwrap (limit_shut 2 o Ti2c L (le_n 2))) as (w9 & x9 & E9); [intros i Ei; rewrite Eg in Ei; discriminate|];
        unfold run_act; rewrite E9; eexists; reflexivity.
    + left. apply dies_run. unfold g_add_collection. apply dies_first, (dies_open _ _ PUnwrap), (limit_shut n o Tc2i L). cbn; lia.
  - left. apply dies_run. unfold g_remove_collection. apply dies_then; [apply ne_gopen|intro]. apply dies_then; [apply ne_get|intros [[i|]| |]]; try apply dies_fail.
    apply dies_then; [apply ne_gopen|intro]. apply dies_then; [apply ne_write|intro]. apply dies_first, (dies_open _ _ PUnwrap), (limit_shut n o Ti2c L). cbn; lia.
  - left. apply dies_run. unfold g_add_triples. destruct ts as [|t ts].
    + apply dies_first, (dies_open _ _ PUnwrap), (limit_shut n o Tc2i L). cbn; lia.
    + apply dies_then; [apply ne_gopen|intro]. apply dies_then; [apply ne_get|intros [[i|]| |]]; try apply dies_fail.
      apply dies_then; [apply ne_gopen|intro]. apply dies_then; [apply ne_get|intros [[j|]| |]]; try apply dies_fail.
      apply dies_first. cbn [g_add_loop]. apply dies_first, (dies_add_one _ _ _ _ PUnwrap), (limit_shut n o Tctsf L). cbn; lia.
  - left. apply dies_run. unfold g_remove_triples. apply dies_then; [apply ne_gopen|intro]. apply dies_then; [apply ne_get|intros [[i|]| |]]; try apply dies_fail.
    destruct ts as [|t ts].
    + apply dies_first, (dies_open _ _ PUnwrap), (limit_shut n o Tv2i L). cbn; lia.
    + apply dies_then; [apply ne_gopen|intro]. apply dies_first. cbn [g_remove_loop].
      apply dies_then; [apply ne_known|intro f]. apply dies_then; [apply ne_known|intro s]. apply dies_then; [apply ne_known|intro q].
      destruct (row_keys i f s q) as [[[[[[? ?] ?] ?] ?] ?]|]; [|apply dies_fail].
      apply dies_first, (dies_del_rows _ _ _ _ _ _ _ PUnwrap), (limit_shut n o Tctsf L). cbn; lia.
Qed.

(** ** Nothing open *)

Lemma none_call o d q : (forall t, exists w, o t = Some w) -> exists w, call_op (heed_impl_o o) d q = (Panic w, d).
Proof.
  intro H. destruct (H Tc2i) as (w & E).
  destruct q as [c|c|c ts|c ts]; cbn [call_op heed_impl_o t_add_collection t_remove_collection t_add_triples t_remove_triples fst];
    apply dies_run; [unfold g_add_collection|unfold g_remove_collection|unfold g_add_triples|unfold g_remove_triples]; apply dies_first, (dies_open _ _ w), E.
Qed.
