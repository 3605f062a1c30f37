(** * Proofs: under fair schedules everybody ends *)
From Coq Require Import List Arith NArith Bool String Lia.
From Verif Require Import M_Base M_Data M_Heed M_Txn M_Regex M_Lexer M_Graph M_Parser M_Display M_Interp M_Conc M_TxnConc S_Conc S_TxnConc S_Fair P_TxnConc.
Import ListNotations.
Open Scope list_scope.

(** ** What is left of a client to do *)

(** All ends are one. *)
Definition left (a : activity) : activity := match a with Idle (Done _) => Idle gone | _ => a end.

(** One thing of it is done, or it dies. *)
Definition less (a' a : activity) : Prop :=
  match a with
  | Idle (Done _) => False
  | Idle (Ask q k) => a' = Idle gone \/ exists x, a' = Busy q k x (call_tx q)
  | Busy q k x m => a' = Idle gone \/
      match m with
      | TOp op c => exists r x', a' = Busy q k x' (c r)
      | TEnd r => a' = left (Idle (k (fst r)))
      end
  end.

Lemma less_gone r : Acc less (Idle (Done r)).
Proof. constructor. intros a []. Qed.

Lemma less_busy q k : (forall a, Acc less (left (Idle (k a)))) -> forall m x, Acc less (Busy q k x m).
Proof.
  intros Hk. induction m as [[a b]|B op c IH]; intros x; constructor; intros y [->|H]; try apply less_gone.
  - cbn in H. subst y. apply Hk.
  - destruct H as (r & x' & ->). apply IH.
Qed.

Lemma less_left p : Acc less (Idle p) -> Acc less (left (Idle p)).
Proof. destruct p; intros H; [apply less_gone|exact H]. Qed.

Lemma less_idle p : Acc less (Idle p).
Proof.
  induction p as [r|q k IH]; [apply less_gone|]. constructor. intros y [->|(x & ->)]; [apply less_gone|].
  apply less_busy. intros a. apply less_left, IH.
Qed.

Lemma less_acc a : Acc less a.
Proof. destruct a as [p|q k x m]; [apply less_idle|]. apply less_busy. intros a. apply less_left, less_idle. Qed.

(** One of several does one thing. *)
Definition step (l' l : list activity) : Prop := exists u a v a', l = u ++ a :: v /\ l' = u ++ a' :: v /\ less a' a.

Lemma step_cons a : Acc less a -> forall l, Acc step l -> Acc step (a :: l).
Proof.
  induction 1 as [a _ IHa]. intros l Hl. induction Hl as [l Hl IHl]. constructor. intros l' (u & b & v & b' & E1 & -> & Hb).
  destruct u as [|c u]; cbn [List.app] in *; injection E1 as <- ->.
  - apply IHa; [exact Hb|]. constructor. exact Hl.
  - apply IHl. exists u, b, v, b'. auto.
Qed.

Lemma step_acc l : Acc step l.
Proof.
  induction l as [|a l IH]; [|apply step_cons; [apply less_acc|exact IH]].
  constructor. intros l' (u & a & v & a' & E & _). destruct u; discriminate E.
Qed.

(** ** Systems with finitely many clients at work *)
Definition work (n : nat) (s : system) : list activity := map (fun i => left (doing s i)) (seq 0 n).

Definition inv (n : nat) (s : system) : Prop :=
  (forall j, writer s = Some j -> j < n /\ exists q k x m, doing s j = Busy q k x m /\ writing q = true)
  /\ forall i, n <= i -> ended i s.

(** It does not wait. *)
Definition free (c : nat) (s : system) : Prop :=
  match doing s c with
  | Idle (Done _) => False
  | Idle (Ask q _) => writing q = true -> writer s = None
  | Busy _ _ _ _ => True
  end.

Definition still (s s' : system) : Prop := writer s' = writer s /\ forall i, left (doing s' i) = left (doing s i).

Lemma seq_split n i : i < n -> seq 0 n = seq 0 i ++ i :: seq (S i) (n - S i).
Proof. intros H. replace n with (i + S (n - S i)) at 1 by lia. rewrite seq_app. reflexivity. Qed.

Lemma work_step n s s' i : i < n -> less (left (doing s' i)) (left (doing s i)) -> (forall j, j <> i -> doing s' j = doing s j) -> step (work n s') (work n s).
Proof.
  intros Hi Hl Ho. unfold work. rewrite (seq_split n i Hi), !map_app. cbn [map].
  exists (map (fun i => left (doing s i)) (seq 0 i)), (left (doing s i)), (map (fun i => left (doing s i)) (seq (S i) (n - S i))), (left (doing s' i)).
  split; [reflexivity|]. split; [|exact Hl].
  f_equal; [|f_equal]; apply map_ext_in; intros j Hj; apply in_seq in Hj; rewrite Ho by lia; reflexivity.
Qed.

Lemma work_still n s s' : still s s' -> work n s' = work n s.
Proof. intros [_ H]. unfold work. apply map_ext. intros i. apply H. Qed.

Lemma busy_tx a : left a = a \/ exists r, a = Idle (Done r).
Proof. destruct a as [[r|q k]|q k x m]; eauto. Qed.

(** Whatever happens, something is done or everything stays. *)
Lemma happens_one n e s : inv n s -> inv n (happen e s) /\ (step (work n (happen e s)) (work n s) \/ still s (happen e s)).
Proof.
  intros [I1 I2].
  assert (Upd : forall i a, i < n -> forall f fs w, (forall j, w = Some j -> j <> i -> writer s = Some j) -> (w = Some i -> exists q k x m, a = Busy q k x m /\ writing q = true) -> less (left a) (left (doing s i)) ->
    let s' := System f fs w (now (doing s) i a) in inv n s' /\ (step (work n s') (work n s) \/ still s s')).
  { intros i a Hi f fs w W1 W2 L s'. split.
    - split; cbn [writer doing s'].
      + intros j Ej. destruct (Nat.eq_dec j i) as [->|N]; [split; [exact Hi|]; rewrite now_same; exact (W2 Ej)|].
        rewrite now_other by exact N. exact (I1 j (W1 j Ej N)).
      + intros j Hj. unfold ended. cbn [doing s']. rewrite now_other by lia. exact (I2 j Hj).
    - left. apply (work_step n s s' i Hi); cbn [doing s'].
      + rewrite now_same. exact L.
      + intros j Hj. apply now_other, Hj. }
  destruct e as [i|i]; cbn [happen].
  - unfold move. destruct (doing s i) as [[r|q k]|q k x m] eqn:Ei.
    + split; [split; assumption|]. right. split; [reflexivity|]. reflexivity.
    + assert (Hi : i < n) by (destruct (Nat.lt_ge_cases i n) as [H|H]; [exact H|destruct (I2 i H) as [r E]; congruence]).
      destruct (writing q) eqn:Wq.
      * destruct (writer s) as [j|] eqn:Ew; [split; [split; [rewrite Ew|]; assumption|right; split; reflexivity]|].
        apply (Upd i _ Hi); [intros j Ej N; congruence|eauto 8|]. rewrite Ei. right. cbn. eauto.
      * apply (Upd i _ Hi); [auto| |rewrite Ei; right; cbn; eauto]. intros Ew. destruct (I1 i Ew) as (_ & q' & k' & x' & m' & E & _). congruence.
    + assert (Hi : i < n) by (destruct (Nat.lt_ge_cases i n) as [H|H]; [exact H|destruct (I2 i H) as [r E]; congruence]).
      assert (Wr : writer s = Some i -> writing q = true).
      { intros Ew. destruct (I1 i Ew) as (_ & q' & k' & x' & m' & E & H). rewrite Ei in E. injection E as -> _. exact H. }
      destruct m as [[a b]|B op c].
      * assert (L : less (left (Idle (k a))) (left (doing s i))) by (rewrite Ei; right; reflexivity).
        destruct (writing q) eqn:Wq.
        -- apply (Upd i _ Hi); [discriminate|discriminate|exact L].
        -- apply (Upd i _ Hi); [auto| |exact L]. intros Ew. discriminate (Wr Ew).
      * destruct (op x) as [r x'] eqn:Eo. apply (Upd i _ Hi); [auto| |rewrite Ei; right; cbn; eauto].
        intros Ew. exists q, k, x', (c r). auto.
  - unfold die. assert (D : ended i s \/ (i < n /\ less (Idle gone) (left (doing s i)))).
    { destruct (doing s i) as [[r|q k]|q k x m] eqn:Ei; [left; exists r; exact Ei|right..].
      all: split; [|left; reflexivity].
      all: destruct (Nat.lt_ge_cases i n) as [H|H]; [exact H|destruct (I2 i H) as [r E]; congruence]. }
    destruct D as [[r Er]|[Hi L]].
    + assert (Ew : (match writer s with Some j => if Nat.eqb j i then None else Some j | None => None end) = writer s).
      { destruct (writer s) as [j|] eqn:Ew; [|reflexivity]. destruct (Nat.eqb_spec j i) as [->|N]; [|reflexivity].
        destruct (I1 i eq_refl) as (_ & q & k & x & m & E & _). congruence. }
      rewrite Ew. split; [split; cbn [writer doing]|right; split; [reflexivity|]].
      * intros j Ej. destruct (I1 j Ej) as (Hj & q & k & x & m & E & Wq). split; [exact Hj|]. exists q, k, x, m. split; [|exact Wq].
        rewrite now_other; [exact E|]. intros ->. congruence.
      * intros j Hj. unfold ended. cbn [doing]. destruct (Nat.eq_dec j i) as [->|N]; [rewrite now_same; eexists; reflexivity|].
        rewrite now_other by exact N. exact (I2 j Hj).
      * intros j. cbn [doing]. destruct (Nat.eq_dec j i) as [->|N]; [rewrite now_same, Er; reflexivity|]. rewrite now_other by exact N. reflexivity.
    + apply (Upd i _ Hi); [| |exact L].
      * intros j Ej N. destruct (writer s) as [j'|]; [|discriminate Ej]. destruct (Nat.eqb j' i); [discriminate Ej|exact Ej].
      * intros Ej. destruct (writer s) as [j'|]; [|discriminate Ej]. destruct (Nat.eqb_spec j' i) as [->|N]; [discriminate Ej|congruence].
Qed.

Lemma inv_start n d fs cl : (forall i, n <= i -> exists r, cl i = Done r) -> inv n (start d fs cl).
Proof. intros H. split; [discriminate|]. intros i Hi. destruct (H i Hi) as [r E]. exists r. cbn. rewrite E. reflexivity. Qed.

(** Ended is ended. *)
Lemma ended_one i e s : ended i s -> ended i (happen e s).
Proof.
  intros [r E]. destruct e as [j|j]; cbn [happen].
  - unfold move. destruct (Nat.eq_dec i j) as [<-|N]; [rewrite E; exists r; exact E|].
    destruct (doing s j) as [[r'|q k]|q k x m]; [exists r; exact E|..].
    + destruct (writing q); [destruct (writer s)|]; [exists r; exact E|exists r; cbn [doing]; rewrite now_other by exact N; exact E..].
    + destruct m as [[a b]|B op c]; [destruct (writing q)|destruct (op x)]; exists r; cbn [doing]; rewrite now_other by exact N; exact E.
  - unfold die. destruct (Nat.eq_dec i j) as [<-|N]; [eexists; cbn [doing]; rewrite now_same; reflexivity|exists r; cbn [doing]; rewrite now_other by exact N; exact E].
Qed.

Lemma dead_ended i s : ended i (die i s).
Proof. eexists. cbn [die doing]. rewrite now_same. reflexivity. Qed.

Lemma ended_dec i s : ended i s \/ ~ ended i s.
Proof. unfold ended. destruct (doing s i) as [[r|q k]|q k x m]; [left; eauto|right; intros [r E]; discriminate E..]. Qed.

(** Who does not wait goes on when it is his turn, and who waits keeps to be so. *)
Lemma less_irrefl a : ~ less a a.
Proof. intros H. induction (less_acc a) as [a _ IH]. exact (IH a H H). Qed.

Lemma free_acts e c s : free c s -> e = Moves c \/ e = Dies c -> ~ still s (happen e s).
Proof.
  intros F He [_ St]. apply (less_irrefl (left (doing s c))). rewrite <- (St c) at 1. unfold free in F. destruct He as [->| ->]; cbn [happen].
  - unfold move. destruct (doing s c) as [[r|q k]|q k x m] eqn:Ec; [destruct F|..].
    + destruct (writing q); [rewrite (F eq_refl)|]; cbn [doing]; rewrite now_same; right; eexists; reflexivity.
    + destruct m as [[a b]|B op k']; [destruct (writing q)|destruct (op x) as [r x'] eqn:Eo]; cbn [doing]; rewrite now_same; right; cbn; eauto.
  - cbn [die doing]. rewrite now_same. destruct (doing s c) as [[r|q k]|q k x m]; [destruct F|left; reflexivity..].
Qed.

Lemma free_still c s s' : free c s -> still s s' -> free c s'.
Proof.
  intros F [W L]. specialize (L c). unfold free in *. destruct (doing s c) as [[r|q k]|q k x m]; [destruct F|..]; destruct (doing s' c) as [[r'|q' k']|q' k' x' m']; cbn [left] in L; try discriminate L; try exact Logic.I.
  - assert (q' = q) as -> by congruence. rewrite W. exact F.
Qed.

Lemma free_not_ended c s : free c s -> ~ ended c s.
Proof. unfold free. intros F [r E]. rewrite E in F. exact F. Qed.

Lemma all_or_free n s : inv n s -> (forall i, i < n -> ended i s) \/ exists c, c < n /\ free c s.
Proof.
  intros [I1 _].
  assert (D : (forall i, i < n -> ended i s) \/ exists c, c < n /\ ~ ended c s).
  { assert (K : forall m, m <= n -> (forall i, i < m -> ended i s) \/ exists c, c < n /\ ~ ended c s).
    { induction m as [|m IH]; intros Hm; [left; intros i Hi; lia|]. destruct (IH ltac:(lia)) as [H|H]; [|right; exact H].
      destruct (ended_dec m s) as [E|E]; [left; intros i Hi; destruct (Nat.eq_dec i m) as [->|N]; [exact E|apply H; lia]|right; exists m; auto]. }
    apply K. lia. }
  destruct D as [D|(c & Hc & N)]; [left; exact D|right]. destruct (writer s) as [j|] eqn:Ew.
  - destruct (I1 j eq_refl) as (Hj & q & k & x & m & E & _). exists j. split; [exact Hj|]. unfold free. rewrite E. exact Logic.I.
  - exists c. split; [exact Hc|]. unfold free. destruct (doing s c) as [[r|q k]|q k x m] eqn:Ec; [|intros _; exact Ew|exact Logic.I].
    apply N. exists r. exact Ec.
Qed.

(** ** Schedules *)
Lemma at_time_next happens t s : at_time happens (S t) s = happen (happens t) (at_time happens t s).
Proof. unfold at_time, go_on. rewrite seq_S, map_app, fold_left_app. reflexivity. Qed.

Lemma inv_time n happens s t : inv n s -> inv n (at_time happens t s).
Proof. intros H. induction t as [|t IH]; [exact H|]. rewrite at_time_next. exact (proj1 (happens_one n _ _ IH)). Qed.

Lemma ended_later i happens s t t' : t <= t' -> ended i (at_time happens t s) -> ended i (at_time happens t' s).
Proof. intros H E. induction H as [|t' _ IH]; [exact E|]. rewrite at_time_next. apply ended_one, IH. Qed.

Lemma dies_ended i happens s t t' : happens t = Dies i -> t < t' -> ended i (at_time happens t' s).
Proof. intros E H. apply (ended_later i happens s (S t) t' H). rewrite at_time_next, E. apply dead_ended. Qed.

Lemma acts_later happens s c t : gets_turns happens c -> ~ ended c (at_time happens t s) ->
  exists t', t <= t' /\ (happens t' = Moves c \/ happens t' = Dies c).
Proof.
  intros [H|(t' & E)] N; [destruct (H t) as (t' & L & E); eauto|]. exists t'. split; [|auto].
  destruct (Nat.le_gt_cases t t') as [L|L]; [exact L|]. destruct N. exact (dies_ended c happens s t' t E L).
Qed.

Lemma all_end n happens s0 : inv n s0 -> (forall i, i < n -> gets_turns happens i) ->
  exists T, forall i, i < n -> ended i (at_time happens T s0).
Proof.
  intros I0 Fair.
  assert (K : forall L, Acc step L -> forall t, work n (at_time happens t s0) = L -> exists T, forall i, i < n -> ended i (at_time happens T s0)).
  { induction 1 as [L _ IH]. intros t EL. destruct (all_or_free n _ (inv_time n happens s0 t I0)) as [A|(c & Hc & F)]; [exists t; exact A|].
    destruct (acts_later happens s0 c t (Fair c Hc) (free_not_ended _ _ F)) as (t' & Lt & Act).
    assert (Q : forall m t, t + m = t' -> work n (at_time happens t s0) = L -> free c (at_time happens t s0) -> exists T, forall i, i < n -> ended i (at_time happens T s0)).
    { clear t EL F Lt. induction m as [|m IHm]; intros t Et EL F.
      - replace t' with t in Act by lia. destruct (happens_one n (happens t) _ (inv_time n happens s0 t I0)) as [_ [S|S]]; [|destruct (free_acts _ c _ F Act S)].
        apply (IH _ ltac:(rewrite <- EL; exact S) (Datatypes.S t)). rewrite at_time_next. reflexivity.
      - destruct (happens_one n (happens t) _ (inv_time n happens s0 t I0)) as [_ [S|S]].
        + apply (IH _ ltac:(rewrite <- EL; exact S) (Datatypes.S t)). rewrite at_time_next. reflexivity.
        + apply (IHm (Datatypes.S t) ltac:(lia)); rewrite at_time_next; [rewrite (work_still n _ _ S); exact EL|exact (free_still c _ _ F S)]. }
    apply (Q (t' - t) t ltac:(lia) EL F). }
  exact (K _ (step_acc _) 0 eq_refl).
Qed.

(** ** A client that never waits ends whatever the others do *)
Definition reads_only (a : activity) : Prop :=
  match a with
  | Idle p => forall q, asks p q -> writing q = false
  | Busy q k _ _ => writing q = false /\ forall a q', asks (k a) q' -> writing q' = false
  end.

Lemma reader_one i e s : reads_only (doing s i) ->
  let s' := happen e s in reads_only (doing s' i)
  /\ (less (left (doing s' i)) (left (doing s i)) \/ left (doing s' i) = left (doing s i))
  /\ (e = Moves i \/ e = Dies i -> less (left (doing s' i)) (left (doing s i)) \/ ended i s).
Proof.
  intros R. destruct e as [j|j]; cbn [happen]; destruct (Nat.eq_dec j i) as [->|N].
  - unfold move. destruct (doing s i) as [[r|q k]|q k x m] eqn:Ei.
    + cbv zeta. rewrite Ei. split; [exact R|]. split; [right; reflexivity|]. intros _. right. exists r. exact Ei.
    + cbn [reads_only] in R. rewrite (R q (or_introl eq_refl)). cbn [doing]. rewrite now_same. cbn [reads_only].
      split; [split; [exact (R q (or_introl eq_refl))|intros a q' H; apply R; right; exists a; exact H]|].
      split; [left|intros _; left]; right; eexists; reflexivity.
    + destruct R as [Wq R]. destruct m as [[a b]|B op c].
      * rewrite Wq. cbn [doing]. rewrite now_same. split; [intros q' H; exact (R a q' H)|]. split; [left|intros _; left]; right; reflexivity.
      * destruct (op x) as [r x'] eqn:Eo. cbn [doing]. rewrite now_same. split; [split; assumption|]. split; [left|intros _; left]; right; cbn; eauto.
  - assert (E : doing (move j s) i = doing s i).
    { unfold move. destruct (doing s j) as [[r|q k]|q k x m]; [reflexivity|..].
      - destruct (writing q); [destruct (writer s)|]; try reflexivity; cbn [doing]; apply now_other; congruence.
      - destruct m as [[a b]|B op c]; [destruct (writing q)|destruct (op x)]; cbn [doing]; apply now_other; congruence. }
    cbv zeta. rewrite E. split; [exact R|]. split; [right; reflexivity|]. intros [H|H]; congruence.
  - cbn [die doing]. rewrite now_same. split; [intros q []|].
    destruct (doing s i) as [[r|q k]|q k x m] eqn:Ei; (split; [|intros _]).
    + right. reflexivity.
    + right. exists r. exact Ei.
    + left. left. reflexivity.
    + left. left. reflexivity.
    + left. left. reflexivity.
    + left. left. reflexivity.
  - cbn [die doing]. rewrite now_other by congruence. split; [exact R|]. split; [right; reflexivity|]. intros [H|H]; congruence.
Qed.

Lemma reader_ends happens s0 i : reads_only (doing s0 i) -> gets_turns happens i -> exists T, ended i (at_time happens T s0).
Proof.
  intros R0 Fair.
  assert (R : forall t, reads_only (doing (at_time happens t s0) i)).
  { induction t as [|t IH]; [exact R0|]. rewrite at_time_next. exact (proj1 (reader_one i (happens t) _ IH)). }
  assert (K : forall a, Acc less a -> forall t, left (doing (at_time happens t s0) i) = a -> exists T, ended i (at_time happens T s0)).
  { induction 1 as [a _ IH]. intros t Ea. destruct (ended_dec i (at_time happens t s0)) as [E|E]; [exists t; exact E|].
    destruct (acts_later happens s0 i t Fair E) as (t' & Lt & Act).
    assert (Q : forall m t, t + m = t' -> left (doing (at_time happens t s0) i) = a -> exists T, ended i (at_time happens T s0)).
    { clear t Ea E Lt. induction m as [|m IHm]; intros t Et Ea; destruct (reader_one i (happens t) _ (R t)) as (_ & S & D).
      - replace t' with t in Act by lia. destruct (D Act) as [L|L]; [|exists t; exact L].
        apply (IH _ ltac:(rewrite <- Ea; exact L) (Datatypes.S t)). rewrite at_time_next. reflexivity.
      - destruct S as [L|L].
        + apply (IH _ ltac:(rewrite <- Ea; exact L) (Datatypes.S t)). rewrite at_time_next. reflexivity.
        + apply (IHm (Datatypes.S t) ltac:(lia)). rewrite at_time_next, L. exact Ea. }
    exact (Q (t' - t) t ltac:(lia) Ea). }
  exact (K _ (less_acc _) 0 eq_refl).
Qed.

(** ** Room *)
From Verif Require Import S_ConcSee S_Isolated S_ConcFail P_Conc.

Definition budget (b : nat -> N) (m : nat) : N := fold_right (fun j n => (b j + n)%N) 0%N (seq 0 m).

Lemma budget_ext (b b' : nat -> N) (l : list nat) : (forall j, In j l -> b j = b' j) -> fold_right (fun j n => (b j + n)%N) 0%N l = fold_right (fun j n => (b' j + n)%N) 0%N l.
Proof. induction l as [|j l IH]; intros H; [reflexivity|]. cbn. rewrite (H j (or_introl eq_refl)), IH; [reflexivity|]. intros i Hi. apply H. right. exact Hi. Qed.

Lemma budget_app (b : nat -> N) (u v : list nat) : fold_right (fun j n => (b j + n)%N) 0%N (u ++ v) = (fold_right (fun j n => (b j + n)%N) 0%N u + fold_right (fun j n => (b j + n)%N) 0%N v)%N.
Proof. induction u as [|j u IH]; cbn [List.app fold_right]; [reflexivity|]. rewrite IH. lia. Qed.

Lemma budget_spend (b : nat -> N) (m j : nat) (w : N) : j < m -> (w <= b j)%N -> (budget b m = budget (fun i => if Nat.eqb i j then b j - w else b i) m + w)%N.
Proof.
  intros Hj Hw. unfold budget. rewrite (seq_split m j Hj), !budget_app. cbn [fold_right]. rewrite Nat.eqb_refl.
  rewrite (budget_ext (fun i => if Nat.eqb i j then b j - w else b i)%N b (seq 0 j)), (budget_ext (fun i => if Nat.eqb i j then b j - w else b i)%N b (seq (S j) (m - S j))).
  - lia.
  - intros i Hi. apply in_seq in Hi. destruct (Nat.eqb_spec i j); [lia|reflexivity].
  - intros i Hi. apply in_seq in Hi. destruct (Nat.eqb_spec i j); [lia|reflexivity].
Qed.

Lemma answered_costs {S} (L : lig_impl S) m l : forall st cl b, (forall j, m <= j -> exists r, cl j = Done r) -> (forall j, j < m -> costs (cl j) (b j)) ->
  (events_weight (answered L l (Pool st cl)) <= budget b m)%N.
Proof.
  induction l as [|[j|j] l IH]; intros st cl b HD HC; [cbn; lia|..]; cbn [answered happen_at_once clients shared].
  - unfold turn. cbn [clients shared]. destruct (cl j) as [r|q k] eqn:Ej; [apply (IH st cl b HD HC)|].
    assert (Hj : j < m) by (destruct (Nat.lt_ge_cases j m) as [H|H]; [exact H|destruct (HD j H) as [r E]; congruence]).
    pose proof (HC j Hj) as Hc. rewrite Ej in Hc. destruct Hc as [Hq Hk].
    destruct (perform L q st) as [a st1] eqn:Ep. cbn [fst List.app]. unfold events_weight. cbn [fold_right what].
    rewrite (budget_spend b m j (req_weight q) Hj Hq).
    specialize (IH st1 (update cl j (k a)) (fun i => if Nat.eqb i j then b j - req_weight q else b i)%N).
    unfold events_weight in IH. rewrite N.add_comm. apply N.add_le_mono_r. apply IH.
    + intros i Hi. rewrite update_other by lia. exact (HD i Hi).
    + intros i Hi. destruct (Nat.eqb_spec i j) as [->|N]; [rewrite update_same; apply Hk|rewrite update_other by exact N; exact (HC i Hi)].
  - cbn [List.app]. apply (IH st (update cl j gone) b).
    + intros i Hi. destruct (Nat.eq_dec i j) as [->|N]; [rewrite update_same; eexists; reflexivity|rewrite update_other by exact N; exact (HD i Hi)].
    + intros i Hi. destruct (Nat.eq_dec i j) as [->|N]; [rewrite update_same; exact I|rewrite update_other by exact N; exact (HC i Hi)].
Qed.

Lemma budget_const n m : budget (fun _ => n) m = (N.of_nat m * n)%N.
Proof.
  unfold budget. rewrite <- (seq_length m 0) at 2. induction (seq 0 m) as [|j l IH]; [reflexivity|]. cbn [fold_right List.length]. rewrite IH. lia.
Qed.
