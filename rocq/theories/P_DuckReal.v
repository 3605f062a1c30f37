(** * Proofs: DuckDB, whatever order its rows have and whatever numbers are lost *)
From Coq Require Import List Arith NArith Bool Lia String Permutation.
From Verif Require Import M_Base M_Data M_Duck M_DuckTxn M_DuckReal S_Order P_Ord S_Store S_Equiv S_DuckReal P_Hist P_Duck P_DuckTxn.
Import ListNotations.
Open Scope list_scope.

Lemma perm_in {A} (l l' : list A) x : Permutation l l' -> (In x l' <-> In x l).
Proof. intros P. split; apply Permutation_in; [symmetry|]; exact P. Qed.

Lemma drift_table s s' t t' : Permutation t t' -> (s <= s')%N -> table_ok s t -> table_ok s' t'.
Proof.
  intros P L (A & B & C). split; [|split].
  - eapply Permutation_NoDup; [apply Permutation_map, P|exact A].
  - eapply Permutation_NoDup; [apply Permutation_map, P|exact B].
  - intros i n Hi. apply (perm_in _ _ _ P) in Hi. apply C in Hi. lia.
Qed.

(** What drifting keeps. *)
Record kept_by (d d' : duck) : Prop := {
  kb_inv : dinv d';
  kb_coll : forall x, In x (d_coll d') <-> In x (d_coll d);
  kb_part : forall x, In x (d_part d') <-> In x (d_part d);
  kb_row : forall c t, drow d' c t <-> drow d c t
}.

Lemma drift_kept d d' : dinv d -> drifts d d' -> kept_by d d'.
Proof.
  intros [I1 I2 I3 I4] [Pp Pc Pt Ls Le].
  assert (C : forall x, In x (d_coll d') <-> In x (d_coll d)) by (intros x; apply perm_in, Pc).
  assert (P : forall x, In x (d_part d') <-> In x (d_part d)) by (intros x; apply perm_in, Pp).
  assert (S : forall r c t, shows d' r c t <-> shows d r c t).
  { intros r c t. unfold shows. setoid_rewrite C. setoid_rewrite P. reflexivity. }
  split; [|exact C|exact P|].
  - split.
    + lia.
    + eapply drift_table; eassumption.
    + eapply drift_table; eassumption.
    + intros r Hr. apply (perm_in _ _ _ Pt) in Hr. destruct (I4 r Hr) as (c & t & H). exists c, t. apply S, H.
  - intros c t. unfold drow. setoid_rewrite S. setoid_rewrite (fun r => perm_in _ _ r Pt). reflexivity.
Qed.

Section World.
  Variables (w : weather) (lost : nat -> N).
  Hypotheses (HW : harmless w) (HL : loses w lost).
  Notation L := (lost_by lost).

  Lemma kept_moved d n f : w n = Some f -> dinv d -> kept_by d (f d) /\ (d_seq (f d) + L n <= d_seq d + L (S n))%N.
  Proof. intros E I. split; [apply drift_kept; [exact I|exact (HW _ _ _ E)]|]. cbn [lost_by]. pose proof (HL _ _ d E). lia. Qed.

  (** ** Statements *)
  Lemma part_stmt d n p : dinv d ->
    match rstmt_d w (fun d => duck_add_part d p) (d, n) with
    | (Ok _, (d', n')) => n' = S n /\ dinv d' /\ (forall x, In x (d_coll d') <-> In x (d_coll d)) /\ incl (d_part d) (d_part d')
        /\ (exists i, In (i, p) (d_part d')) /\ (forall c t, drow d' c t <-> drow d c t) /\ (d_seq d' + L n <= d_seq d + 1 + L (S n))%N
    | (Err _, _) => False
    | (Panic v, (_, n')) => v = PUnwrap /\ n' = S n /\ (healthy w -> seq_max + L n <= d_seq d + L (S n))%N
    end.
  Proof.
    intros I. unfold rstmt_d, rstmt. cbn [fst snd]. destruct (w n) as [f|] eqn:E.
    2:{ split; [reflexivity|]. split; [reflexivity|]. intros H. destruct (H n E). }
    destruct (kept_moved d n f E I) as [[K1 K2 K3 K4] Q]. pose proof (add_part_spec (f d) p K1) as S.
    destruct (duck_add_part (f d) p) as [d'|e|v]; [|destruct S|].
    - destruct S as (S1 & S2 & S3 & S4 & S5 & S6 & _). split; [reflexivity|]. split; [exact S1|]. rewrite S2. split; [exact K2|].
      split; [intros x Hx; apply S4, K3, Hx|]. split; [exact S5|]. split; [|lia].
      intros c t. rewrite <- K4. apply drow_mono; assumption.
    - destruct S as [-> S]. split; [reflexivity|]. split; [reflexivity|]. intros _. lia.
  Qed.

  Lemma trip_stmt d n cid c t : dinv d -> In (cid, c) (d_coll d) ->
    (exists i, In (i, t0 t) (d_part d)) -> (exists i, In (i, t1 t) (d_part d)) -> (exists i, In (i, t2 t) (d_part d)) ->
    match rstmt_d w (fun d => duck_add_trip d cid t) (d, n) with
    | (Ok _, (d', n')) => n' = S n /\ dinv d' /\ (forall x, In x (d_coll d') <-> In x (d_coll d)) /\ incl (d_part d) (d_part d')
        /\ (forall c' t', drow d' c' t' <-> drow d c' t' \/ (c' = c /\ t' = t)) /\ (d_seq d' + L n <= d_seq d + 1 + L (S n))%N
    | (Err _, _) => False
    | (Panic v, (_, n')) => v = PUnwrap /\ n' = S n /\ (healthy w -> seq_max + L n <= d_seq d + L (S n))%N
    end.
  Proof.
    intros I Hc E0 E1 E2. unfold rstmt_d, rstmt. cbn [fst snd]. destruct (w n) as [f|] eqn:E.
    2:{ split; [reflexivity|]. split; [reflexivity|]. intros H. destruct (H n E). }
    destruct (kept_moved d n f E I) as [[K1 K2 K3 K4] Q].
    assert (PP : forall v, (exists i, In (i, v) (d_part d)) -> exists i, In (i, v) (d_part (f d))) by (intros v [i Hi]; exists i; apply K3, Hi).
    pose proof (add_trip_spec (f d) cid c t K1 (proj2 (K2 _) Hc) (PP _ E0) (PP _ E1) (PP _ E2)) as S.
    destruct (duck_add_trip (f d) cid t) as [d'|e|v]; [|destruct S|].
    - destruct S as (S1 & S2 & S3 & S4 & S5). split; [reflexivity|]. split; [exact S1|]. rewrite S2, S3. split; [exact K2|].
      split; [intros x Hx; apply K3, Hx|]. split; [|lia]. intros c' t'. rewrite S5, K4. reflexivity.
    - destruct S as [-> S]. split; [reflexivity|]. split; [reflexivity|]. intros _. lia.
  Qed.

  (** ** Loops *)
  Record radded (n n' : nat) (d d' : duck) (c : str) (ts : list trip) : Prop := {
    ra_inv : dinv d';
    ra_coll : forall x, In x (d_coll d') <-> In x (d_coll d);
    ra_seq : (d_seq d' + L n <= d_seq d + 4 * N.of_nat (List.length ts) + L n')%N;
    ra_row : forall c' t, drow d' c' t <-> drow d c' t \/ (c' = c /\ In t ts)
  }.

  Lemma lost_mono n m : n <= m -> (L n <= L m)%N.
  Proof. induction 1 as [|m H IH]; [lia|]. cbn [lost_by]. lia. Qed.

  Lemma real_add_loop_spec cid c : forall ts d n, dinv d -> In (cid, c) (d_coll d) ->
    match real_add_loop w cid ts (d, n) with
    | (Ok _, (d', n')) => n <= n' /\ radded n n' d d' c ts
    | (Err _, _) => False
    | (Panic v, (_, n')) => v = PUnwrap /\ n <= n' /\ (healthy w -> seq_max + L n < d_seq d + 4 * N.of_nat (List.length ts) + L n')%N
    end.
  Proof.
    induction ts as [|t ts IH]; intros d n I Hc; cbn [real_add_loop].
    - cbn. split; [lia|]. split; [exact I|tauto|cbn; lia|]. intros c' t. cbn. tauto.
    - unfold sbind at 1. pose proof (part_stmt d n (t0 t) I) as S1.
      destruct (rstmt_d w (fun d => duck_add_part d (t0 t)) (d, n)) as [[[]|e|v] [d1 n1]]; [|destruct S1|].
      2:{ destruct S1 as (-> & -> & S1). split; [reflexivity|]. split; [lia|]. intros H. specialize (S1 H). cbn [List.length]. lia. }
      destruct S1 as (-> & I1 & C1 & P1 & E1 & R1 & Q1).
      unfold sbind at 1. pose proof (part_stmt d1 (S n) (t1 t) I1) as S2.
      destruct (rstmt_d w (fun d => duck_add_part d (t1 t)) (d1, S n)) as [[[]|e|v] [d2 n2]]; [|destruct S2|].
      2:{ destruct S2 as (-> & -> & S2). split; [reflexivity|]. split; [lia|]. intros H. specialize (S2 H). cbn [List.length]. lia. }
      destruct S2 as (-> & I2 & C2 & P2 & E2 & R2 & Q2).
      unfold sbind at 1. pose proof (part_stmt d2 (S (S n)) (t2 t) I2) as S3.
      destruct (rstmt_d w (fun d => duck_add_part d (t2 t)) (d2, S (S n))) as [[[]|e|v] [d3 n3]]; [|destruct S3|].
      2:{ destruct S3 as (-> & -> & S3). split; [reflexivity|]. split; [lia|]. intros H. specialize (S3 H). cbn [List.length]. lia. }
      destruct S3 as (-> & I3 & C3 & P3 & E3 & R3 & Q3).
      assert (CC : forall x, In x (d_coll d3) <-> In x (d_coll d)) by (intros x; rewrite C3, C2, C1; reflexivity).
      assert (E1' : exists i, In (i, t0 t) (d_part d3)) by (destruct E1; eauto).
      assert (E2' : exists i, In (i, t1 t) (d_part d3)) by (destruct E2; eauto).
      unfold sbind at 1. pose proof (trip_stmt d3 (S (S (S n))) cid c t I3 (proj2 (CC _) Hc) E1' E2' E3) as S4.
      destruct (rstmt_d w (fun d => duck_add_trip d cid t) (d3, S (S (S n)))) as [[[]|e|v] [d4 n4]]; [|destruct S4|].
      2:{ destruct S4 as (-> & -> & S4). split; [reflexivity|]. split; [lia|]. intros H. specialize (S4 H). cbn [List.length]. lia. }
      destruct S4 as (-> & I4 & C4 & P4 & R4 & Q4).
      assert (Hc4 : In (cid, c) (d_coll d4)) by (apply C4, CC, Hc).
      specialize (IH d4 (S (S (S (S n)))) I4 Hc4).
      destruct (real_add_loop w cid ts (d4, S (S (S (S n))))) as [[[]|e|v] [d' n']]; [|destruct IH|].
      2:{ destruct IH as (-> & Le & IH). split; [reflexivity|]. split; [lia|]. intros H. specialize (IH H). cbn [List.length]. lia. }
      destruct IH as [Le [J1 J2 J3 J4]]. split; [lia|]. split; [exact J1| | |].
      + intros x. rewrite J2, C4, CC. reflexivity.
      + cbn [List.length]. lia.
      + intros c' t'. rewrite J4, R4, R3, R2, R1. cbn. intuition congruence.
  Qed.

  Record rremoved (n n' : nat) (d d' : duck) (c : str) (ts : list trip) : Prop := {
    rr_inv : dinv d';
    rr_coll : forall x, In x (d_coll d') <-> In x (d_coll d);
    rr_seq : (d_seq d' + L n <= d_seq d + L n')%N;
    rr_row : forall c' t, drow d' c' t <-> drow d c' t /\ ~ (c' = c /\ In t ts)
  }.

  Lemma real_remove_loop_spec cid c : forall ts d n, dinv d -> In (cid, c) (d_coll d) ->
    match real_remove_loop w cid ts (d, n) with
    | (Ok _, (d', n')) => n <= n' /\ rremoved n n' d d' c ts
    | (Err _, _) => False
    | (Panic v, (_, n')) => v = PUnwrap /\ n <= n' /\ ~ healthy w
    end.
  Proof.
    induction ts as [|t ts IH]; intros d n I Hc; cbn [real_remove_loop].
    - cbn. split; [lia|]. split; [exact I|tauto|lia|]. intros c' t. cbn. tauto.
    - unfold sbind, rstmt_d, rstmt. cbn [fst snd]. destruct (w n) as [f|] eqn:E.
      2:{ split; [reflexivity|]. split; [lia|]. intros H. destruct (H n E). }
      destruct (kept_moved d n f E I) as [[K1 K2 K3 K4] Q].
      destruct (remove_trip_spec (f d) cid c t K1 (proj2 (K2 _) Hc)) as [I1 C1 Q1 R1].
      assert (Hc1 : In (cid, c) (d_coll (duck_remove_trip (f d) cid t))) by (rewrite C1; apply K2, Hc).
      specialize (IH _ (S n) I1 Hc1). destruct (real_remove_loop w cid ts (duck_remove_trip (f d) cid t, S n)) as [[[]|e|v] [d' n']]; [|exact IH|].
      2:{ destruct IH as (-> & Le & IH). auto with arith. }
      destruct IH as [Le [J1 J2 J3 J4]]. split; [lia|]. split; [exact J1| | |].
      + intros x. rewrite J2, C1, K2. reflexivity.
      + lia.
      + intros c' t'. rewrite J4, R1, K4. cbn. intuition congruence.
  Qed.

  (** ** One call *)
  Definition missing (c : str) : str := lit "Collection "%string ++ c ++ lit " not found."%string.

  (** The answer a call gets where statements do not fail and numbers suffice. *)
  Definition fitting (d : duck) (o : op) (r : tres unit) : Prop :=
    match o with
    | OAddColl c => (~ dcoll d c /\ r = Ok tt) \/ (dcoll d c /\ r = Panic PUnwrap)
    | ORemColl c => ((forall t, ~ drow d c t) /\ r = Ok tt) \/ ((exists t, drow d c t) /\ r = Panic PUnwrap)
    | OAdd c _ | ORem c _ => (dcoll d c /\ r = Ok tt) \/ (~ dcoll d c /\ r = Err (missing c))
    end.

  Record effect (d d' : duck) (o : op) : Prop := {
    ef_coll : forall c, dcoll d' c <-> o = OAddColl c \/ (dcoll d c /\ o <> ORemColl c);
    ef_row : forall c t, drow d' c t <-> (exists ts, o = OAdd c ts /\ In t ts /\ dcoll d c) \/ (drow d c t /\ ~ removes c t o)
  }.

  Record rstep (s : rduck) (o : op) (r : tres unit) (s' : rduck) : Prop := {
    rs_inv : dinv (fst s');
    rs_count : snd s <= snd s';
    rs_ok : r = Ok tt -> effect (fst s) (fst s') o /\ fitting (fst s) o r;
    rs_else : r <> Ok tt -> fst s' = fst s;
    rs_seq : (d_seq (fst s') + L (snd s) <= d_seq (fst s) + dweight o + L (snd s'))%N;
    rs_fits : healthy w -> (d_seq (fst s) + dweight o + L (snd s') <= seq_max + L (snd s))%N -> fitting (fst s) o r
  }.

  Lemma drow_coll d c t : drow d c t -> dcoll d c.
  Proof. intros (r & Hr & ci & f & s & e & E1 & J1 & _). exists ci. exact J1. Qed.

  (** A call that is one statement. *)
  Lemma one_stmt o d n f d' r : (o = OAddColl f \/ o = ORemColl f) -> dinv d -> (exists g, w n = Some g /\ dcall (g d) o = (r, d')) ->
    rstep (d, n) o r (match r with Ok _ => d' | _ => d end, S n).
  Proof.
    intros Ho I (g & E & Hcall). destruct (kept_moved d n g E I) as [[K1 K2 K3 K4] Q].
    pose proof (dstep_call (g d) o K1) as S. rewrite Hcall in S. cbn [fst snd] in S.
    assert (KC : forall c, dcoll (g d) c <-> dcoll d c) by (intros c; unfold dcoll; setoid_rewrite K2; reflexivity).
    assert (LM : (L n <= L (Datatypes.S n))%N) by (apply lost_mono; lia).
    inversion S; subst; try (exfalso; destruct Ho; discriminate).
    - assert (EF : effect d d' (OAddColl c)).
      { split.
        - intros c'. unfold dcoll at 1. rewrite H1. split.
          + intros [i Hi]. apply in_app_or in Hi as [Hi|[Hi|[]]]; [right; split; [apply KC; exists i; exact Hi|discriminate]|]. left. congruence.
          + intros [E'|[Hl _]]; [injection E' as <-; eexists; apply in_or_app; right; left; reflexivity|].
            apply KC in Hl as [i Hi]. exists i. apply in_or_app. auto.
        - intros c' t. assert (Hs : drow d' c' t <-> drow (g d) c' t).
          { split; intros (r & Hr & Hs).
            - rewrite H3 in Hr. destruct (dv_row _ K1 r Hr) as (c0 & t' & Hs').
              assert (Hs'' : shows d' r c0 t') by (eapply shows_mono; [| |exact Hs']; [rewrite H1; apply incl_appl, incl_refl|rewrite H2; apply incl_refl]).
              destruct (shows_unique _ _ _ _ _ _ H0 Hs Hs'') as [-> ->]. exists r. auto.
            - exists r. rewrite H3. split; [exact Hr|].
              eapply shows_mono; [| |exact Hs]; [rewrite H1; apply incl_appl, incl_refl|rewrite H2; apply incl_refl]. }
          rewrite Hs, K4. split; [intros Hd; right; split; [exact Hd|inversion 1]|]. intros [(ts & E' & _)|[Hd _]]; [discriminate|exact Hd]. }
      assert (FI : fitting d (OAddColl c) (Ok tt)) by (left; split; [rewrite <- KC; assumption|reflexivity]).
      split; cbn [fst snd dweight]; auto; try congruence; try lia.
    - assert (FI : fitting d (OAddColl c) (Panic PUnwrap)) by (right; split; [rewrite <- KC; assumption|reflexivity]).
      split; cbn [fst snd dweight]; auto; try discriminate; try lia.
    - split; cbn [fst snd dweight]; auto; try discriminate; try lia.
    - assert (EF : effect d (g d) (ORemColl c)).
      { split.
        - intros c'. rewrite KC. split; [|intros [E'|[Hl _]]; [discriminate|exact Hl]]. intros Hl. right. split; [exact Hl|].
          intros E'. injection E' as ->. apply H, KC, Hl.
        - intros c' t. rewrite K4. split; [|intros [(ts & E' & _)|[Hd _]]; [discriminate|exact Hd]]. intros Hd. right. split; [exact Hd|].
          inversion 1; subst. apply H, KC. eapply drow_coll, Hd. }
      assert (FI : fitting d (ORemColl c) (Ok tt)).
      { left. split; [|reflexivity]. intros t Ht. apply H, KC. eapply drow_coll, Ht. }
      split; cbn [fst snd dweight]; auto; try congruence; try lia.
    - assert (FI : fitting d (ORemColl c) (Panic PUnwrap)) by (right; split; [exists t; apply K4; assumption|reflexivity]).
      split; cbn [fst snd dweight]; auto; try discriminate; try lia.
    - assert (EF : effect d d' (ORemColl c)).
      { split.
        - intros c'. split.
          + intros [i Hi]. apply H2 in Hi as [Hi Hne]. right. split; [apply KC; exists i; exact Hi|congruence].
          + intros [E'|[Hl Hne]]; [discriminate|]. apply KC in Hl as [i Hi]. exists i. apply H2. split; [exact Hi|congruence].
        - intros c' t. rewrite H3, K4. split; [|intros [(ts & E' & _)|[Hd _]]; [discriminate|exact Hd]]. intros Hd. right. split; [exact Hd|].
          inversion 1; subst. apply (H0 t), K4, Hd. }
      assert (FI : fitting d (ORemColl c) (Ok tt)) by (left; split; [intros t; rewrite <- K4; apply H0|reflexivity]).
      split; cbn [fst snd dweight]; auto; try congruence; try lia.
  Qed.

  Notation rcall := (call_op (real_impl w)).

  Lemma stay d n n' o r : dinv d -> n <= n' -> r <> Ok tt ->
    (healthy w -> (d_seq d + dweight o + L n' <= seq_max + L n)%N -> fitting d o r) -> rstep (d, n) o r (d, n').
  Proof.
    intros I Le N F. split; cbn [fst snd]; auto; try congruence. pose proof (lost_mono _ _ Le). lia.
  Qed.

  Lemma real_step d n o : dinv d -> rstep (d, n) o (fst (rcall (d, n) o)) (snd (rcall (d, n) o)).
  Proof.
    intros I. destruct o as [c|c|c ts|c ts].
    - cbn [call_op real_impl t_add_collection]. unfold run_sact, rstmt. cbn [fst snd]. destruct (w n) as [g|] eqn:E.
      + destruct (duck_add_collection (g d) c) as [r d'] eqn:Ec.
        pose proof (one_stmt (OAddColl c) d n c d' r (or_introl eq_refl) I (ex_intro _ g (conj E Ec))) as Q.
        destruct r as [[]|e|v]; exact Q.
      + cbn [fst snd]. apply stay; [exact I|lia|discriminate|]. intros H. destruct (H n E).
    - cbn [call_op real_impl t_remove_collection]. unfold run_sact, rstmt. cbn [fst snd]. destruct (w n) as [g|] eqn:E.
      + destruct (duck_remove_collection (g d) c) as [r d'] eqn:Ec.
        pose proof (one_stmt (ORemColl c) d n c d' r (or_intror eq_refl) I (ex_intro _ g (conj E Ec))) as Q.
        destruct r as [[]|e|v]; exact Q.
      + cbn [fst snd]. apply stay; [exact I|lia|discriminate|]. intros H. destruct (H n E).
    - pose (P := fun x : tres unit * rduck => rstep (d, n) (OAdd c ts) (fst x) (snd x)). change (P (run_sact (real_add_triples w c ts) (d, n))). unfold run_sact, real_add_triples. unfold sbind at 1, rbegin, rstmt at 1. cbn [fst snd].
      destruct (w n) as [g|] eqn:E; [|unfold P; cbn [fst snd]; apply stay; [exact I|lia|discriminate|]; intros H; destruct (H n E)].
      destruct (kept_moved d n g E I) as [[K1 K2 K3 K4] Q].
      unfold sbind at 1, rstmt at 1. cbn [fst snd].
      destruct (w (S n)) as [g2|] eqn:E2; [|unfold P; cbn [fst snd]; apply stay; [exact I|lia|discriminate|]; intros H; destruct (H _ E2)].
      destruct (kept_moved (g d) (S n) g2 E2 K1) as [[K1' K2' K3' K4'] Q'].
      assert (KC : forall c, dcoll (g2 (g d)) c <-> dcoll d c) by (intros c'; unfold dcoll; setoid_rewrite K2'; setoid_rewrite K2; reflexivity).
      unfold duck_get_collection_id. destruct (sel_id (d_coll (g2 (g d))) c) as [cid|] eqn:Es.
      2:{ unfold P; cbn [fst snd]; apply stay; [exact I|lia|discriminate|]. intros _ _. right. split; [|reflexivity]. rewrite <- KC.
          rewrite sel_id_none in Es. intros [i Hi]. exact (Es i Hi). }
      apply sel_id_in in Es. assert (Hd : dcoll d c) by (apply KC; exists cid; exact Es).
      unfold sbind at 1. pose proof (real_add_loop_spec cid c ts _ (S (S n)) K1' Es) as SL.
      destruct (real_add_loop w cid ts (g2 (g d), S (S n))) as [[[]|e|v] [d3 n3]]; [|destruct SL|].
      2:{ destruct SL as (-> & Le & SL). unfold P; cbn [fst snd]; apply stay; [exact I|lia|discriminate|]. intros H B. specialize (SL H). cbn [dweight] in B. lia. }
      destruct SL as [Le [J1 J2 J3 J4]]. unfold rcommit, rstmt. cbn [fst snd].
      destruct (w n3) as [g3|] eqn:E3; [|unfold P; cbn [fst snd]; apply stay; [exact I|lia|discriminate|]; intros H; destruct (H _ E3)].
      destruct (kept_moved d3 n3 g3 E3 J1) as [[M1 M2 M3 M4] Q3]. cbn [fst snd].
      assert (FI : fitting d (OAdd c ts) (Ok tt)) by (left; auto).
      assert (EF : effect d (g3 d3) (OAdd c ts)).
      { split.
        - intros c'. unfold dcoll. setoid_rewrite M2. setoid_rewrite J2. setoid_rewrite K2'. setoid_rewrite K2.
          split; [intros H; right; split; [exact H|discriminate]|]. intros [H|[H _]]; [discriminate|exact H].
        - intros c' t. rewrite M4, J4, K4', K4. split.
          + intros [H|[-> H]]; [right; split; [exact H|inversion 1]|]. left. exists ts. auto.
          + intros [(ts' & E' & H & _)|[H _]]; [injection E' as <- <-; auto|auto]. }
      unfold P. split; cbn [fst snd dweight]; auto; try congruence; try lia.
    - pose (P := fun x : tres unit * rduck => rstep (d, n) (ORem c ts) (fst x) (snd x)). change (P (run_sact (real_remove_triples w c ts) (d, n))). unfold run_sact, real_remove_triples. unfold sbind at 1, rbegin, rstmt at 1. cbn [fst snd].
      destruct (w n) as [g|] eqn:E; [|unfold P; cbn [fst snd]; apply stay; [exact I|lia|discriminate|]; intros H; destruct (H n E)].
      destruct (kept_moved d n g E I) as [[K1 K2 K3 K4] Q].
      unfold sbind at 1, rstmt at 1. cbn [fst snd].
      destruct (w (S n)) as [g2|] eqn:E2; [|unfold P; cbn [fst snd]; apply stay; [exact I|lia|discriminate|]; intros H; destruct (H _ E2)].
      destruct (kept_moved (g d) (S n) g2 E2 K1) as [[K1' K2' K3' K4'] Q'].
      assert (KC : forall c, dcoll (g2 (g d)) c <-> dcoll d c) by (intros c'; unfold dcoll; setoid_rewrite K2'; setoid_rewrite K2; reflexivity).
      unfold duck_get_collection_id. destruct (sel_id (d_coll (g2 (g d))) c) as [cid|] eqn:Es.
      2:{ unfold P; cbn [fst snd]; apply stay; [exact I|lia|discriminate|]. intros _ _. right. split; [|reflexivity]. rewrite <- KC.
          rewrite sel_id_none in Es. intros [i Hi]. exact (Es i Hi). }
      apply sel_id_in in Es. assert (Hd : dcoll d c) by (apply KC; exists cid; exact Es).
      unfold sbind at 1. pose proof (real_remove_loop_spec cid c ts _ (S (S n)) K1' Es) as SL.
      destruct (real_remove_loop w cid ts (g2 (g d), S (S n))) as [[[]|e|v] [d3 n3]]; [|destruct SL|].
      2:{ destruct SL as (-> & Le & SL). unfold P; cbn [fst snd]; apply stay; [exact I|lia|discriminate|]. intros H. destruct (SL H). }
      destruct SL as [Le [J1 J2 J3 J4]]. unfold rcommit, rstmt. cbn [fst snd].
      destruct (w n3) as [g3|] eqn:E3; [|unfold P; cbn [fst snd]; apply stay; [exact I|lia|discriminate|]; intros H; destruct (H _ E3)].
      destruct (kept_moved d3 n3 g3 E3 J1) as [[M1 M2 M3 M4] Q3]. cbn [fst snd].
      assert (FI : fitting d (ORem c ts) (Ok tt)) by (left; auto).
      assert (EF : effect d (g3 d3) (ORem c ts)).
      { split.
        - intros c'. unfold dcoll. setoid_rewrite M2. setoid_rewrite J2. setoid_rewrite K2'. setoid_rewrite K2.
          split; [intros H; right; split; [exact H|discriminate]|]. intros [H|[H _]]; [discriminate|exact H].
        - intros c' t. rewrite M4, J4, K4', K4. split.
          + intros [H Hne]. right. split; [exact H|]. inversion 1; subst. auto.
          + intros [(ts' & E' & _)|[H Hk]]; [discriminate|]. split; [exact H|]. intros [-> Hi]. apply Hk. constructor. exact Hi. }
      unfold P. split; cbn [fst snd dweight]; auto; try congruence; try lia.
  Qed.

  (** ** Histories *)
  Lemma effect_sim d d' H o : dsim d H -> effect d d' o -> dsim d' (H ++ [o]).
  Proof.
    intros [SC SR] [EC ER]. split.
    - intros c. rewrite live_snoc, EC, SC. reflexivity.
    - intros c t. rewrite holds_after_snoc', ER, SR. setoid_rewrite SC. reflexivity.
  Qed.

  Definition rnew : rduck := (duck_new, 0).
  Notation rafter h := (after (real_impl w) rnew h).
  Notation rmeans h := (acked (real_impl w) rnew h).

  Lemma real_reach h : dinv (fst (rafter h)) /\ dsim (fst (rafter h)) (rmeans h)
    /\ (d_seq (fst (rafter h)) <= dtotal h + L (snd (rafter h)))%N.
  Proof.
    induction h as [|o h (I & S & B)] using rev_ind; [split; [apply dinv_new|]; split; [apply dsim_new|cbn; lia]|].
    rewrite after_snoc, acked_snoc, dtotal_app. cbn [dtotal fold_right]. fold (dtotal h).
    destruct (rafter h) as [d n] eqn:E. cbn [fst snd] in *. pose proof (real_step d n o I) as [R1 R2 R3 R4 R5 R6]. cbn [fst snd] in *.
    split; [exact R1|]. split; [|lia].
    destruct (fst (rcall (d, n) o)) as [[]|e|v].
    - apply effect_sim with (d := d); [exact S|]. apply R3. reflexivity.
    - rewrite app_nil_r, R4 by discriminate. exact S.
    - rewrite app_nil_r, R4 by discriminate. exact S.
  Qed.
End World.

(** ** The plain model gives fitting answers *)
Lemma plain_fits h o : (dtotal (h ++ [o]) < 2 ^ 63)%N -> fitting (dafter duck_new h) o (fst (dcall (dafter duck_new h) o)).
Proof.
  intros B. pose proof (dinv_reach h) as I. rewrite dtotal_app in B. cbn [dtotal fold_right] in B. fold (dtotal h) in B.
  pose proof (dseq_bound h) as Hb. remember (dafter duck_new h) as d eqn:Hd. clear Hd. change (2 ^ 63)%N with 9223372036854775808%N in B.
  destruct o as [c|c|c ts|c ts]; cbn [dweight] in B.
  - pose proof (dstep_call d (OAddColl c) I) as K. destruct (dcall d (OAddColl c)) as [r d']. cbn [fst snd] in *.
    inversion K; subst; [left|right|exfalso; unfold seq_max in *; lia]; auto.
  - pose proof (dstep_call d (ORemColl c) I) as K. destruct (dcall d (ORemColl c)) as [r d']. cbn [fst snd] in *.
    inversion K; subst; [left|right|left]; eauto. split; [|reflexivity]. intros t Ht. apply drow_coll in Ht. contradiction.
  - pose proof (dstep_call d (OAdd c ts) I) as K. cbn [call_op duck_impl t_add_triples] in *. unfold duck_add_triples, duck_get_collection_id in *.
    destruct (sel_id (d_coll d) c) as [i|] eqn:Es; cbn [tbind fst snd] in *.
    + left. split; [exists i; apply sel_id_in, Es|]. destruct (duck_add_loop d i ts) as [d'|e|v]; cbn [fst snd] in *; [reflexivity| |]; exfalso; inversion K; subst; [|unfold seq_max in *; lia].
      apply sel_id_in in Es. match goal with H : ~ dcoll d c |- _ => apply H; exists i; exact Es end.
    + right. split; [|reflexivity]. rewrite sel_id_none in Es. intros [i Hi]. exact (Es i Hi).
  - cbn [call_op duck_impl t_remove_triples] in *. unfold duck_remove_triples, duck_get_collection_id in *.
    destruct (sel_id (d_coll d) c) as [i|] eqn:Es; cbn [fst snd] in *.
    + left. split; [exists i; apply sel_id_in, Es|reflexivity].
    + right. split; [|reflexivity]. rewrite sel_id_none in Es. intros [i Hi]. exact (Es i Hi).
Qed.

Lemma fitting_same d d' H o r r' : dsim d H -> dsim d' H -> fitting d o r -> fitting d' o r' -> r = r'.
Proof.
  intros [C R] [C' R'] F F'.
  assert (CC : forall c, dcoll d c <-> dcoll d' c) by (intros c; rewrite C, C'; reflexivity).
  assert (RR : forall c t, drow d c t <-> drow d' c t) by (intros c t; rewrite R, R'; reflexivity).
  destruct o as [c|c|c ts|c ts]; cbn [fitting] in *; try (rewrite CC in F).
  - destruct F as [[A ->]|[A ->]], F' as [[A' ->]|[A' ->]]; try reflexivity; contradiction.
  - destruct F as [[A ->]|[[t A] ->]], F' as [[A' ->]|[[t' A'] ->]]; try reflexivity; exfalso; [eapply A, RR, A'|eapply A', RR, A].
  - destruct F as [[A ->]|[A ->]], F' as [[A' ->]|[A' ->]]; try reflexivity; contradiction.
  - destruct F as [[A ->]|[A ->]], F' as [[A' ->]|[A' ->]]; try reflexivity; contradiction.
Qed.

Lemma answers_snoc {S} (I : trips_impl S) s h o : answers_of I s (h ++ [o]) = answers_of I s h ++ [fst (call_op I (after I s h) o)].
Proof. revert s. induction h as [|x h IH]; intros s; cbn; [reflexivity|]. rewrite IH. reflexivity. Qed.

Lemma real_same w lost h : harmless w -> healthy w -> loses w lost ->
  (dtotal h + lost_by lost (snd (after (real_impl w) rnew h)) < 2 ^ 63)%N ->
  answers_of (real_impl w) rnew h = answers_of duck_impl duck_new h /\ acked (real_impl w) rnew h = acked duck_impl duck_new h.
Proof.
  intros HW HH HL. induction h as [|o h IH] using rev_ind; intros B; [split; reflexivity|].
  rewrite !answers_snoc, !acked_snoc in *. rewrite after_snoc in B.
  destruct (real_reach w lost HW HL h) as (I & S & Bs).
  destruct (after (real_impl w) rnew h) as [d n] eqn:E. cbn [fst snd] in *.
  pose proof (real_step w lost HW HL d n o I) as [R1 R2 R3 R4 R5 R6]. cbn [fst snd] in *.
  rewrite dtotal_app in B. cbn [dtotal fold_right] in B. fold (dtotal h) in B.
  pose proof (lost_mono lost _ _ R2) as LM.
  change (2 ^ 63)%N with (seq_max + 1)%N in B.
  destruct IH as [IH1 IH2]; [change (2 ^ 63)%N with (seq_max + 1)%N; lia|].
  assert (FR : fitting d o (fst (call_op (real_impl w) (d, n) o))) by (apply R6; [exact HH|lia]).
  assert (FP : fitting (dafter duck_new h) o (fst (dcall (dafter duck_new h) o))).
  { apply plain_fits. rewrite dtotal_app. cbn [dtotal fold_right]. fold (dtotal h). change (2 ^ 63)%N with (seq_max + 1)%N. lia. }
  pose proof (duck_simulates h) as SP. rewrite IH2 in S.
  rewrite (fitting_same _ _ _ _ _ _ S SP FR FP), IH1, IH2. split; reflexivity.
Qed.

(** ** What the reading calls show *)
Lemma any_loss w : harmless w -> loses w (fun _ => seq_max).
Proof. intros H n f d E. destruct (H n f d E) as [_ _ _ _ Le]. lia. Qed.

Lemma real_contents w h : harmless w ->
  let s := after (real_impl w) rnew h in
  let H := acked (real_impl w) rnew h in
  match t_collections (real_impl w) s with
  | Ok l => NoDup l /\ forall c, In c l <-> live H c
  | Err _ => False
  | Panic v => v = PUnwrap /\ w (snd s) = None
  end
  /\ forall c, match t_triples (real_impl w) s c with
     | Ok l => is_set trip_lt l /\ forall t, In t l <-> holds_after H c t
     | Err _ => False
     | Panic v => v = PUnwrap /\ w (snd s) = None
     end.
Proof.
  intros HW s H. destruct (real_reach w _ HW (any_loss w HW) h) as (I & [SC SR] & _). fold s H in I, SC, SR.
  destruct s as [d n]. cbn [real_impl t_collections t_triples fst snd] in *. unfold rread. cbn [fst snd].
  destruct (w n) as [f|] eqn:E; [|split; [|intros c]; split; reflexivity].
  destruct (drift_kept d (f d) I (HW _ _ _ E)) as [K1 K2 K3 K4]. split.
  - unfold duck_collections. split; [apply (dv_coll _ K1)|]. intros c. rewrite <- SC. unfold dcoll. setoid_rewrite <- K2. rewrite in_map_iff. split.
    + intros ([i n'] & <- & Hi). eauto.
    + intros [i Hi]. exists (i, c). auto.
  - intros c. destruct (duck_triples_spec (f d) c K1) as (l & El & Hs & Hin). rewrite El. split; [exact Hs|].
    intros t. rewrite Hin, K4. apply SR.
Qed.

Lemma real_same_reads w lost h : harmless w -> healthy w -> loses w lost ->
  (dtotal h + lost_by lost (snd (after (real_impl w) rnew h)) < 2 ^ 63)%N ->
  let s := after (real_impl w) rnew h in
  (forall c, t_triples (real_impl w) s c = t_triples duck_impl (dafter duck_new h) c)
  /\ exists l l', t_collections (real_impl w) s = Ok l /\ t_collections duck_impl (dafter duck_new h) = Ok l' /\ Permutation l l'.
Proof.
  intros HW HH HL B s. destruct (real_same w lost h HW HH HL B) as [_ EH].
  destruct (real_contents w h HW) as [RC RT]. destruct (duck_history h) as [(l' & El' & N' & In') PT]. fold s in RC, RT. rewrite EH in RC, RT.
  split.
  - intros c. specialize (RT c). destruct (PT c) as (m & Em & Sm & Im). rewrite Em.
    destruct (t_triples (real_impl w) s c) as [l|e|v]; [|destruct RT|destruct RT as [_ RT]; destruct (HH _ RT)].
    destruct RT as [Sl Il]. f_equal. apply (is_set_ext trip_order _ _ Sl Sm). intros t. rewrite Il, Im. reflexivity.
  - destruct (t_collections (real_impl w) s) as [l|e|v]; [|destruct RC|destruct RC as [_ RC]; destruct (HH _ RC)].
    exists l, l'. split; [reflexivity|]. split; [exact El'|]. apply NoDup_Permutation; [apply RC|exact N'|].
    intros c. rewrite In'. apply RC.
Qed.

(** ** The models with fewer possibilities are among these *)
Definition still (k : option nat) (n : nat) : option nat := option_map (fun k => k - n) k.
Definition inside (k : option nat) (n : nat) : Prop := match k with Some k => n <= k | None => True end.

Definition copies {A} (k : option nat) (m : dact A) (m' : sact A) : Prop := forall d n, inside k n ->
  match m (d, still k n), m' (d, n) with
  | (Ok a, (d1, l)), (Ok a', (d2, n2)) => a = a' /\ d1 = d2 /\ inside k n2 /\ l = still k n2
  | (Err e, _), (Err e', _) => e = e'
  | (Panic v, _), (Panic v', _) => v = v'
  | _, _ => False
  end.

Lemma copies_ret {A} k (a : A) : copies k (dret a) (sret a).
Proof. intros d n H. cbn. auto. Qed.

Lemma copies_bind {A B} k (m : dact A) m' (f : A -> dact B) f' : copies k m m' -> (forall a, copies k (f a) (f' a)) -> copies k (dbind m f) (sbind m' f').
Proof.
  intros Hm Hf d n H. specialize (Hm d n H). unfold dbind, sbind.
  destruct (m (d, still k n)) as [[a|e|v] [d1 l]], (m' (d, n)) as [[a'|e'|v'] [d2 n2]]; try contradiction; auto.
  destruct Hm as (<- & <- & H2 & ->). apply Hf, H2.
Qed.

Lemma copies_stmt {A} k (f : duck -> tres A * duck) : copies k (stmt f) (rstmt (failing k) f).
Proof.
  intros d n H. unfold stmt, rstmt, failing. cbn [fst snd]. destruct k as [k|]; cbn [still option_map inside] in *.
  - destruct (Nat.ltb n k) eqn:E.
    + apply Nat.ltb_lt in E. destruct (k - n) as [|j] eqn:Ej; [lia|]. destruct (f d) as [[a|e|v] d']; auto.
      repeat split; auto. f_equal. lia.
    + apply Nat.ltb_ge in E. replace (k - n) with 0 by lia. reflexivity.
  - destruct (f d) as [[a|e|v] d']; auto.
Qed.

Lemma copies_add_loop k cid ts : copies k (fine_duck_add_loop cid ts) (real_add_loop (failing k) cid ts).
Proof.
  induction ts as [|t ts IH]; [apply copies_ret|].
  apply copies_bind; [apply copies_stmt|]. intros _. apply copies_bind; [apply copies_stmt|]. intros _.
  apply copies_bind; [apply copies_stmt|]. intros _. apply copies_bind; [apply copies_stmt|]. intros _. exact IH.
Qed.
Lemma copies_remove_loop k cid ts : copies k (fine_duck_remove_loop cid ts) (real_remove_loop (failing k) cid ts).
Proof. induction ts as [|t ts IH]; [apply copies_ret|]. apply copies_bind; [apply copies_stmt|]. intros _. exact IH. Qed.

Lemma copies_run {A} k (m : dact A) m' d n : copies k m m' -> inside k n ->
  run_dact m (still k n) d = (fst (run_sact m' (d, n)), fst (snd (run_sact m' (d, n)))).
Proof.
  intros Hm H. specialize (Hm d n H). unfold run_dact, run_sact.
  destruct (m (d, still k n)) as [[a|e|v] [d1 l]], (m' (d, n)) as [[a'|e'|v'] [d2 n2]]; try contradiction; cbn [fst snd]; try (subst; reflexivity).
  destruct Hm as (_ & <- & _). reflexivity.
Qed.

Lemma real_includes k d n o : inside k n ->
  call_op (duck_impl_w (still k n)) d o = (fst (call_op (real_impl (failing k)) (d, n) o), fst (snd (call_op (real_impl (failing k)) (d, n) o))).
Proof.
  intros H. destruct o as [c|c|c ts|c ts]; cbn [call_op real_impl duck_impl_w t_add_collection t_remove_collection t_add_triples t_remove_triples];
    cbn [fst]; apply copies_run; try exact H.
  - apply copies_stmt.
  - apply copies_stmt.
  - apply copies_bind; [apply copies_stmt|]. intros _. apply copies_bind; [apply copies_stmt|]. intros cid.
    apply copies_bind; [apply copies_add_loop|]. intros _. apply copies_stmt.
  - apply copies_bind; [apply copies_stmt|]. intros _. apply copies_bind; [apply copies_stmt|]. intros cid.
    apply copies_bind; [apply copies_remove_loop|]. intros _. apply copies_stmt.
Qed.

Lemma real_calm h : forall d n,
  answers_of (real_impl (failing None)) (d, n) h = answers_of duck_impl d h
  /\ fst (after (real_impl (failing None)) (d, n) h) = after duck_impl d h.
Proof.
  induction h as [|o h IH]; intros d n; [split; reflexivity|].
  pose proof (real_includes None d n o I) as E. rewrite duck_no_failure in E. cbn [answers_of after]. rewrite E. cbn [fst snd].
  destruct (call_op (real_impl (failing None)) (d, n) o) as [r [d' n']]. cbn [fst snd] in *.
  destruct (IH d' n') as [A B]. rewrite A, B. split; reflexivity.
Qed.

Lemma drifts_refl d : drifts d d.
Proof. split; auto; lia. Qed.
Lemma failing_harmless k : harmless (failing k).
Proof. intros n f d. unfold failing. destruct k as [k|]; [destruct (Nat.ltb n k)|]; intros E; try discriminate; injection E as <-; apply drifts_refl. Qed.

Lemma restless_harmless : harmless restless /\ healthy restless /\ loses restless (fun _ => 3%N).
Proof.
  split; [|split].
  - intros n f d E. injection E as <-. split; cbn [d_part d_coll d_trip d_seq]; try apply Permutation_rev;
      destruct (N.leb (d_seq d + 3) seq_max) eqn:E; try apply N.leb_le in E; lia.
  - intros n. discriminate.
  - intros n f d E. injection E as <-. cbn [d_seq]. destruct (N.leb (d_seq d + 3) seq_max); lia.
Qed.
