(** * DuckDB calls in which a statement fails *)
From Coq Require Import List Arith NArith Bool Lia.
From Verif Require Import M_Base M_Data M_Duck M_DuckTxn S_Order S_Str S_Store S_Txn P_Ord P_Hist P_Duck.
Import ListNotations.
Open Scope list_scope.

(** At most [b] statements; exactly [b] if the outcome is Ok. *)
Definition strict {A} (b : nat) (m : dact A) : Prop := forall d, exists r d0 n,
  n <= b /\ (forall a, r = Ok a -> n = b)
  /\ m (d, None) = (r, (d0, None))
  /\ (forall j, n <= j -> m (d, Some j) = (r, (d0, Some (j - n))))
  /\ (forall j, j < n -> exists x, m (d, Some j) = (Panic PUnwrap, x)).

Lemma strict_ret {A} (a : A) : strict 0 (dret a).
Proof.
  intros d. exists (Ok a), d, 0. split; [lia|]. split; [reflexivity|]. split; [reflexivity|]. split; [|lia].
  intros j _. rewrite Nat.sub_0_r. reflexivity.
Qed.

Lemma strict_stmt {A} (f : duck -> tres A * duck) : strict 1 (stmt f).
Proof.
  intros d. exists (fst (f d)), (snd (f d)), 1. unfold stmt. cbn [fst snd]. destruct (f d) as [r d'] eqn:E. cbn [fst snd].
  split; [lia|]. split; [reflexivity|]. split; [reflexivity|]. split.
  - intros [|j] Hj; [lia|]. cbn. rewrite Nat.sub_0_r. reflexivity.
  - intros [|j] Hj; [eexists; reflexivity|lia].
Qed.

Lemma strict_bind {A B} b1 b2 (m : dact A) (k : A -> dact B) :
  strict b1 m -> (forall a, strict b2 (k a)) -> strict (b1 + b2) (dbind m k).
Proof.
  intros H HK d. destruct (H d) as (r & d1 & n1 & L1 & X1 & E1 & S1 & F1). unfold dbind. rewrite E1.
  destruct r as [a|e|w].
  - destruct (HK a d1) as (r2 & d2 & n2 & L2 & X2 & E2 & S2 & F2). exists r2, d2, (n1 + n2).
    split; [lia|]. split; [intros a2 E; rewrite (X1 a eq_refl), (X2 a2 E); reflexivity|]. split; [exact E2|]. split.
    + intros j Hj. rewrite S1 by lia. rewrite S2 by lia. do 3 f_equal. lia.
    + intros j Hj. destruct (le_lt_dec n1 j) as [Hl|Hl].
      * rewrite S1 by exact Hl. apply F2. lia.
      * destruct (F1 j Hl) as (x & ->). eauto.
  - exists (Err e), d1, n1. split; [lia|]. split; [discriminate|]. split; [reflexivity|]. split.
    + intros j Hj. rewrite S1 by exact Hj. reflexivity.
    + intros j Hj. destruct (F1 j Hj) as (x & ->). eauto.
  - exists (Panic w), d1, n1. split; [lia|]. split; [discriminate|]. split; [reflexivity|]. split.
    + intros j Hj. rewrite S1 by exact Hj. reflexivity.
    + intros j Hj. destruct (F1 j Hj) as (x & ->). eauto.
Qed.

Lemma strict_add_loop cid ts : strict (4 * List.length ts) (fine_duck_add_loop cid ts).
Proof.
  induction ts as [|t ts IH]; [apply strict_ret|]. cbn [fine_duck_add_loop List.length].
  replace (4 * S (List.length ts)) with (1 + (1 + (1 + (1 + 4 * List.length ts)))) by lia.
  do 4 (apply strict_bind; [apply strict_stmt|intros _]). exact IH.
Qed.
Lemma strict_remove_loop cid ts : strict (List.length ts) (fine_duck_remove_loop cid ts).
Proof.
  induction ts as [|t ts IH]; [apply strict_ret|]. cbn [fine_duck_remove_loop List.length].
  apply (strict_bind 1 (List.length ts)); [apply strict_stmt|intros _]. exact IH.
Qed.
Lemma strict_add c ts : strict (3 + 4 * List.length ts) (fine_duck_add_triples c ts).
Proof.
  unfold fine_duck_add_triples. replace (3 + 4 * List.length ts) with (1 + (1 + (4 * List.length ts + 1))) by lia.
  apply strict_bind; [apply strict_stmt|intros _].
  apply strict_bind; [apply strict_stmt|intros cid]. apply strict_bind; [apply strict_add_loop|intros _; apply strict_stmt].
Qed.
Lemma strict_remove c ts : strict (3 + List.length ts) (fine_duck_remove_triples c ts).
Proof.
  unfold fine_duck_remove_triples. replace (3 + List.length ts) with (1 + (1 + (List.length ts + 1))) by lia.
  apply strict_bind; [apply strict_stmt|intros _].
  apply strict_bind; [apply strict_stmt|intros cid]. apply strict_bind; [apply strict_remove_loop|intros _; apply strict_stmt].
Qed.

Definition agrees_none {A} (m : dact A) (d : duck) (r : tres duck) : Prop :=
  match r with
  | Ok d' => exists a, m (d, None) = (Ok a, (d', None))
  | Err e => fst (m (d, None)) = Err e
  | Panic w => fst (m (d, None)) = Panic w
  end.

Lemma none_stmt_d f d : agrees_none (stmt_d f) d (f d).
Proof. unfold agrees_none, stmt_d, stmt. cbn. destruct (f d); [eexists|..]; reflexivity. Qed.

Lemma none_bind {A B} (m : dact A) (k : A -> dact B) d r (g : duck -> tres duck) :
  agrees_none m d r -> (forall a d', agrees_none (k a) d' (g d')) -> agrees_none (dbind m k) d (tbind r g).
Proof.
  unfold agrees_none at 1 3. intros H HK. unfold dbind. destruct r as [d'|e|w]; cbn [tbind].
  - destruct H as (a & ->). apply HK.
  - destruct (m (d, None)) as [r x]. cbn in H. subst r. reflexivity.
  - destruct (m (d, None)) as [r x]. cbn in H. subst r. reflexivity.
Qed.

Lemma none_add_loop cid ts : forall d, agrees_none (fine_duck_add_loop cid ts) d (duck_add_loop d cid ts).
Proof.
  induction ts as [|t ts IH]; intros d; [exists tt; reflexivity|]. cbn [fine_duck_add_loop duck_add_loop].
  apply none_bind; [apply (none_stmt_d (fun d => duck_add_part d (t0 t)))|intros _ d1].
  apply none_bind; [apply (none_stmt_d (fun d => duck_add_part d (t1 t)))|intros _ d2].
  apply none_bind; [apply (none_stmt_d (fun d => duck_add_part d (t2 t)))|intros _ d3].
  apply none_bind; [apply (none_stmt_d (fun d => duck_add_trip d cid t))|intros _ d4]. apply IH.
Qed.

Lemma none_remove_loop cid ts : forall d,
  fine_duck_remove_loop cid ts (d, None) = (Ok tt, (fold_left (fun acc t => duck_remove_trip acc cid t) ts d, None)).
Proof. induction ts as [|t ts IH]; intros d; [reflexivity|]. cbn. apply IH. Qed.

Lemma duck_no_failure d o : call_op (duck_impl_w None) d o = call_op duck_impl d o.
Proof.
  destruct o as [c|c|c ts|c ts]; cbn [call_op duck_impl_w duck_impl t_add_collection t_remove_collection t_add_triples t_remove_triples fst].
  - unfold run_dact, stmt. cbn [fst snd]. unfold duck_add_collection.
    destruct (nextval _); [|reflexivity]. destruct (sel_id _ _); reflexivity.
  - unfold run_dact, stmt. cbn [fst snd]. unfold duck_remove_collection. destruct (sel_id _ _); [|reflexivity].
    destruct (existsb _ _); reflexivity.
  - unfold run_dact, duck_add_triples, fine_duck_add_triples. cbn. destruct (duck_get_collection_id d c) as [cid|e|w]; cbn; try reflexivity.
    pose proof (none_add_loop cid ts d) as H. unfold agrees_none in H. unfold dbind. destruct (duck_add_loop d cid ts) as [d'|e|w].
    + destruct H as (a & ->). reflexivity.
    + destruct (fine_duck_add_loop cid ts (d, None)) as [r x]. cbn in H. subst r. reflexivity.
    + destruct (fine_duck_add_loop cid ts (d, None)) as [r x]. cbn in H. subst r. reflexivity.
  - unfold run_dact, duck_remove_triples, fine_duck_remove_triples. cbn. destruct (duck_get_collection_id d c) as [cid|e|w]; cbn; try reflexivity.
    unfold dbind. rewrite none_remove_loop. reflexivity.
Qed.

Lemma duck_step_by_step d :
  (forall o, call_op (duck_impl_w None) d o = call_op duck_impl d o)
  /\ (forall c ts, snd (t_add_triples (duck_impl_w None) d c ts) = snd (t_add_triples duck_impl d c ts)
                   /\ snd (t_remove_triples (duck_impl_w None) d c ts) = snd (t_remove_triples duck_impl d c ts)).
Proof.
  split; [apply duck_no_failure|]. intros c ts. cbn. unfold duck_add_triples, duck_remove_triples. split.
  - destruct (tbind _ _); reflexivity.
  - destruct (duck_get_collection_id d c); reflexivity.
Qed.

Lemma run_strict {A} b (m : dact A) d : strict b m -> exists n,
  n <= b /\ (fst (run_dact m None d) = Ok tt -> n = b)
  /\ (forall j, n <= j -> run_dact m (Some j) d = run_dact m None d)
  /\ (forall j, j < n -> run_dact m (Some j) d = (Panic PUnwrap, d)).
Proof.
  intros H. destruct (H d) as (r & d0 & n & L & X & E & S1 & F1). exists n. unfold run_dact. rewrite E.
  split; [exact L|]. split; [destruct r; cbn; intros Eq; [exact (X _ eq_refl)|discriminate|discriminate]|]. split.
  - intros j Hj. rewrite (S1 j Hj). destruct r; reflexivity.
  - intros j Hj. destruct (F1 j Hj) as (x & ->). reflexivity.
Qed.

Lemma duck_failure_x d o : exists n,
  n <= statements o /\ (fst (call_op duck_impl d o) = Ok tt -> n = statements o)
  /\ (forall j, n <= j -> call_op (duck_impl_w (Some j)) d o = call_op duck_impl d o)
  /\ (forall j, j < n -> call_op (duck_impl_w (Some j)) d o = (Panic PUnwrap, d)).
Proof.
  assert (H : exists (m : dact unit), (forall l, call_op (duck_impl_w l) d o = run_dact m l d) /\ strict (statements o) m).
  { destruct o as [c|c|c ts|c ts]; eexists; (split; [intros l; reflexivity|]).
    - apply strict_stmt.
    - apply strict_stmt.
    - apply strict_add.
    - apply strict_remove. }
  destruct H as (m & Em & T). destruct (run_strict _ m d T) as (n & L & X & H1 & H2). exists n.
  rewrite <- duck_no_failure, Em. split; [exact L|]. split; [exact X|]. split.
  - intros j Hj. rewrite Em. apply H1, Hj.
  - intros j Hj. rewrite Em. apply H2, Hj.
Qed.

Lemma duck_failure d o : exists n,
  n <= statements o
  /\ (forall j, n <= j -> call_op (duck_impl_w (Some j)) d o = call_op duck_impl d o)
  /\ (forall j, j < n -> call_op (duck_impl_w (Some j)) d o = (Panic PUnwrap, d)).
Proof. destruct (duck_failure_x d o) as (n & L & _ & H). exists n. split; [exact L|exact H]. Qed.

Lemma duck_exact d o :
  fst (call_op duck_impl d o) = Ok tt ->
  (forall j, statements o <= j -> call_op (duck_impl_w (Some j)) d o = call_op duck_impl d o)
  /\ (forall j, j < statements o -> call_op (duck_impl_w (Some j)) d o = (Panic PUnwrap, d)).
Proof. intros E. destruct (duck_failure_x d o) as (n & _ & X & H). rewrite (X E) in H. exact H. Qed.

Lemma duck_one d o l : call_op (duck_impl_w l) d o = call_op duck_impl d o \/ call_op (duck_impl_w l) d o = (Panic PUnwrap, d).
Proof.
  destruct l as [j|]; [|left; apply duck_no_failure]. destruct (duck_failure d o) as (n & _ & H1 & H2).
  destruct (le_lt_dec n j) as [Hl|Hl]; [left; apply H1, Hl|right; apply H2, Hl].
Qed.

Lemma duck_skip d h : exists h',
  after_w duck_impl_w d h = after duck_impl d h'
  /\ acked_w duck_impl_w d h = acked duck_impl d h'
  /\ List.length h' <= List.length h.
Proof.
  revert d. induction h as [|[o l] h IH]; intros d; [exists []; repeat split; auto|]. cbn [after_w acked_w].
  destruct (duck_one d o l) as [E|E]; rewrite E.
  - destruct (call_op duck_impl d o) as [r d'] eqn:Ec. cbn [snd]. destruct (IH d') as (h' & A & B & L).
    exists (o :: h'). cbn [after acked]. rewrite Ec. cbn [snd List.length]. split; [exact A|]. split; [|lia].
    destruct r; [f_equal|..]; exact B.
  - cbn [snd]. destruct (IH d) as (h' & A & B & L). exists h'. cbn [List.length]. split; [exact A|]. split; [exact B|lia].
Qed.

Lemma duck_ok_stored h :
  let H := acked_w duck_impl_w duck_new h in
  let d := after_w duck_impl_w duck_new h in
  (exists l, t_collections duck_impl d = Ok l /\ NoDup l /\ forall c, In c l <-> live H c)
  /\ (forall c, exists l, t_triples duck_impl d c = Ok l /\ is_set trip_lt l
                          /\ forall t, In t l <-> holds_after H c t).
Proof.
  destruct (duck_skip duck_new h) as (h' & A & B & _). cbn zeta. rewrite A, B. exact (duck_history h').
Qed.
