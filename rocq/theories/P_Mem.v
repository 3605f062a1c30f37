(** * In-memory store: proofs *)
From Coq Require Import List NArith Bool.
From Verif Require Import M_Base M_Data M_Mem S_Order P_Ord S_Store P_Hist.
Import ListNotations.
Open Scope list_scope.

Notation get := (bm_get str_cmp).

(** Every reachable store is a sorted map of sorted sets. *)
Definition mem_inv (s : mem) : Prop :=
  is_map (lt := str_lt) s /\ forall c l, get c s = Some l -> is_set trip_lt l.

Lemma mem_inv_new : mem_inv mem_new.
Proof. split; [constructor|]. intros c l H. discriminate H. Qed.

Lemma mem_inv_insert s c l : mem_inv s -> is_set trip_lt l -> mem_inv (bm_insert str_cmp c l s).
Proof.
  intros [Hm Hs] Hl. split; [apply (is_map_insert str_order), Hm|].
  intros c' l' H. destruct (str_dec c' c) as [->|Hn].
  - rewrite (bm_get_insert_same str_order) in H. congruence.
  - rewrite (bm_get_insert_other str_order) in H by exact Hn. eauto.
Qed.

Lemma mem_inv_remove s c : mem_inv s -> mem_inv (bm_remove str_cmp c s).
Proof.
  intros [Hm Hs]. split; [apply (is_map_remove str_order), Hm|].
  intros c' l' H. destruct (str_dec c' c) as [->|Hn].
  - rewrite (bm_get_remove_same str_order) in H by exact Hm. discriminate.
  - rewrite (bm_get_remove_other str_order) in H by exact Hn. eauto.
Qed.

Lemma mem_inv_step s o : mem_inv s -> mem_inv (snd (call_op mem_impl s o)).
Proof.
  intros H. destruct o as [c|c|c ts|c ts]; simpl.
  - apply mem_inv_insert; [exact H|constructor].
  - apply mem_inv_remove, H.
  - unfold mem_add_triples. destruct (get c s) as [l|] eqn:E; simpl; [|exact H].
    apply mem_inv_insert; [exact H|]. apply (is_set_append trip_order), (proj2 H c), E.
  - unfold mem_remove_triples. destruct (get c s) as [l|] eqn:E; simpl; [|exact H].
    apply mem_inv_insert; [exact H|]. apply (is_set_remove_all trip_order), (proj2 H c), E.
Qed.

Lemma mem_inv_after s h : mem_inv s -> mem_inv (after mem_impl s h).
Proof.
  revert s. induction h as [|o h IH]; simpl; intros s H; [exact H|]. apply IH, mem_inv_step, H.
Qed.

Lemma mem_inv_reach h : mem_inv (after mem_impl mem_new h).
Proof. apply mem_inv_after, mem_inv_new. Qed.

(** ** What the reading calls show *)

Lemma mem_has s c : has mem_impl s c <-> exists l, get c s = Some l.
Proof.
  unfold has. simpl. unfold mem_collections. rewrite (bm_get_in_keys str_order). split.
  - intros (l & E & H). injection E as <-. exact H.
  - intros H. eauto.
Qed.

Lemma mem_holds s c t : holds mem_impl s c t <-> exists l, get c s = Some l /\ In t l.
Proof.
  unfold holds. simpl. unfold mem_triples. destruct (get c s) as [l|]; split.
  - intros (l' & E & H). injection E as ->. eauto.
  - intros (l' & E & H). injection E as ->. eauto.
  - intros (l' & E & H). discriminate.
  - intros (l' & E & H). discriminate.
Qed.

Lemma mem_readable s c : readable mem_impl s c <-> has mem_impl s c.
Proof.
  rewrite mem_has. unfold readable. simpl. unfold mem_triples.
  destruct (get c s) as [l|]; split; intros [l' E]; try discriminate; eauto.
Qed.

(** A store is known by its [get]s. *)
Lemma mem_ext s s' : mem_inv s -> mem_inv s' -> (forall c, get c s = get c s') -> s = s'.
Proof.
  intros [Hm _] [Hm' _] HE.
  revert s' Hm' HE. unfold is_map, is_set in *. induction s as [|[k v] s IH]; intros s' Hm' HE.
  - destruct s' as [|[k' v'] s']; [reflexivity|]. specialize (HE k'). simpl in HE.
    rewrite (o_refl str_order) in HE. discriminate.
  - destruct s' as [|[k' v'] s'].
    { specialize (HE k). simpl in HE. rewrite (o_refl str_order) in HE. discriminate. }
    simpl in *. inversion Hm as [|? ? Hs Hf]; inversion Hm' as [|? ? Hs' Hf']; subst.
    rewrite Forall_forall in Hf, Hf'.
    assert (k = k') as <-.
    { pose proof (HE k) as E1. pose proof (HE k') as E2.
      rewrite (o_refl str_order) in E1, E2.
      destruct (o_spec str_order k k') as [E|E|E]; [exact E|exfalso|exfalso].
      - assert (In k (map fst s')) as Hi by (apply (bm_get_in_keys str_order); eauto).
        apply Hf' in Hi. eapply (o_asym str_order); eassumption.
      - assert (In k' (map fst s)) as Hi.
        { destruct (str_cmp k' k) eqn:E'; [|apply (bm_get_in_keys str_order); eauto..].
          apply (o_eq _ _ str_order) in E'. subst. exfalso. eapply (o_irrefl str_order); eassumption. }
        apply Hf in Hi. eapply (o_asym str_order); eassumption. }
    pose proof (HE k) as E1. rewrite (o_refl str_order) in E1. injection E1 as <-.
    f_equal. apply IH; [assumption..|]. intros c. specialize (HE c).
    destruct (o_spec str_order c k) as [Eck|E|E]; [|exact HE..]. rewrite Eck.
    rewrite (proj2 (bm_get_None str_order k s)), (proj2 (bm_get_None str_order k s')); [reflexivity|..].
    + intros Hi. eapply (o_irrefl str_order), Hf', Hi.
    + intros Hi. eapply (o_irrefl str_order), Hf, Hi.
Qed.

(** ** Each call, seen through [get] *)

Lemma get_add_coll s c c' :
  get c' (snd (call_op mem_impl s (OAddColl c))) = if str_dec c' c then Some [] else get c' s.
Proof.
  simpl. destruct (str_dec c' c) as [->|Hn].
  - apply (bm_get_insert_same str_order).
  - apply (bm_get_insert_other str_order), Hn.
Qed.

Lemma get_rem_coll s c c' : mem_inv s ->
  get c' (snd (call_op mem_impl s (ORemColl c))) = if str_dec c' c then None else get c' s.
Proof.
  intros [Hm _]. simpl. destruct (str_dec c' c) as [->|Hn].
  - apply (bm_get_remove_same str_order), Hm.
  - apply (bm_get_remove_other str_order), Hn.
Qed.

Lemma get_add s c ts c' :
  get c' (snd (call_op mem_impl s (OAdd c ts)))
  = if str_dec c' c then option_map (fun l => bs_append trip_cmp l ts) (get c s) else get c' s.
Proof.
  simpl. unfold mem_add_triples. destruct (get c s) as [l|] eqn:E; simpl; destruct (str_dec c' c) as [->|Hn].
  - apply (bm_get_insert_same str_order).
  - apply (bm_get_insert_other str_order), Hn.
  - exact E.
  - reflexivity.
Qed.

Lemma get_rem s c ts c' :
  get c' (snd (call_op mem_impl s (ORem c ts)))
  = if str_dec c' c then option_map (fold_left (fun acc t => bs_remove trip_cmp t acc) ts) (get c s)
    else get c' s.
Proof.
  simpl. unfold mem_remove_triples. destruct (get c s) as [l|] eqn:E; simpl; destruct (str_dec c' c) as [->|Hn].
  - apply (bm_get_insert_same str_order).
  - apply (bm_get_insert_other str_order), Hn.
  - exact E.
  - reflexivity.
Qed.

(** ** C01 *)

Lemma mem_history_get h c :
  match get c (after mem_impl mem_new h) with
  | Some l => live h c /\ is_set trip_lt l /\ (forall t, In t l <-> mem_holds_after h c t)
  | None => ~ live h c
  end.
Proof.
  induction h as [|o h IH] using rev_ind.
  - simpl. apply live_nil.
  - rewrite after_snoc. set (s := after mem_impl mem_new h) in *.
    assert (Hinv : mem_inv s) by apply mem_inv_reach.
    destruct o as [c'|c'|c' ts|c' ts].
    + rewrite get_add_coll. destruct (str_dec c c') as [->|Hn].
      * split; [apply live_snoc; auto|]. split; [constructor|]. intros t. split; [intros []|].
        intros H. apply added_snoc in H. destruct H as [(ts & E & _)|[_ Hk]]; [discriminate|].
        apply Hk. constructor.
      * destruct (get c s) as [l|] eqn:E.
        -- destruct IH as (Hl & Hs & Ht). split; [apply live_snoc; right; split; [assumption|congruence]|].
           split; [assumption|]. intros t. rewrite Ht. unfold mem_holds_after. rewrite added_snoc.
           split; [intros H; right; split; [exact H|]; inversion 1; congruence|].
           intros [(ts & E' & _)|[H _]]; [discriminate|exact H].
        -- rewrite live_snoc. intros [E'|[H _]]; [congruence|auto].
    + rewrite get_rem_coll by exact Hinv. destruct (str_dec c c') as [->|Hn].
      * rewrite live_snoc. intros [E|[_ E]]; congruence.
      * destruct (get c s) as [l|] eqn:E.
        -- destruct IH as (Hl & Hs & Ht). split; [apply live_snoc; right; split; [assumption|congruence]|].
           split; [assumption|]. intros t. rewrite Ht. unfold mem_holds_after. rewrite added_snoc.
           split; [intros H; right; split; [exact H|]; inversion 1; congruence|].
           intros [(ts & E' & _)|[H _]]; [discriminate|exact H].
        -- rewrite live_snoc. intros [E'|[H _]]; [congruence|auto].
    + rewrite get_add. destruct (str_dec c c') as [->|Hn].
      * destruct (get c' s) as [l|] eqn:E; simpl.
        -- destruct IH as (Hl & Hs & Ht). split; [apply live_snoc; right; split; [assumption|congruence]|].
           split; [apply (is_set_append trip_order), Hs|]. intros t.
           rewrite (in_bs_append trip_order), Ht. unfold mem_holds_after. rewrite added_snoc. split.
           ++ intros [H|H]; [right; split; [exact H|inversion 1]|left; eauto].
           ++ intros [(ts' & E' & H & _)|[H _]]; [injection E' as <-; auto|auto].
        -- rewrite live_snoc. intros [E'|[H _]]; [congruence|auto].
      * destruct (get c s) as [l|] eqn:E.
        -- destruct IH as (Hl & Hs & Ht). split; [apply live_snoc; right; split; [assumption|congruence]|].
           split; [assumption|]. intros t. rewrite Ht. unfold mem_holds_after. rewrite added_snoc.
           split; [intros H; right; split; [exact H|]; inversion 1; congruence|].
           intros [(ts' & E' & _)|[H _]]; [congruence|exact H].
        -- rewrite live_snoc. intros [E'|[H _]]; [congruence|auto].
    + rewrite get_rem. destruct (str_dec c c') as [->|Hn].
      * destruct (get c' s) as [l|] eqn:E; simpl.
        -- destruct IH as (Hl & Hs & Ht). split; [apply live_snoc; right; split; [assumption|congruence]|].
           split; [apply (is_set_remove_all trip_order), Hs|]. intros t.
           rewrite (in_remove_all trip_order) by exact Hs. rewrite Ht.
           unfold mem_holds_after. rewrite added_snoc. split.
           ++ intros [H Hn]. right. split; [exact H|]. inversion 1; subst; auto.
           ++ intros [(ts' & E' & H & _)|[H Hk]]; [discriminate|]. split; [exact H|].
              intros Hi. apply Hk. constructor. exact Hi.
        -- rewrite live_snoc. intros [E'|[H _]]; [congruence|auto].
      * destruct (get c s) as [l|] eqn:E.
        -- destruct IH as (Hl & Hs & Ht). split; [apply live_snoc; right; split; [assumption|congruence]|].
           split; [assumption|]. intros t. rewrite Ht. unfold mem_holds_after. rewrite added_snoc.
           split; [intros H; right; split; [exact H|]; inversion 1; congruence|].
           intros [(ts' & E' & _)|[H _]]; [discriminate|exact H].
        -- rewrite live_snoc. intros [E'|[H _]]; [congruence|auto].
Qed.

Lemma mem_history h c :
  let s := after mem_impl mem_new h in
  (live h c ->
   exists l, t_triples mem_impl s c = Ok l /\ is_set trip_lt l
             /\ forall t, In t l <-> mem_holds_after h c t)
  /\ (~ live h c -> exists e, t_triples mem_impl s c = Err e).
Proof.
  pose proof (mem_history_get h c) as H. simpl. unfold mem_triples.
  destruct (get c (after mem_impl mem_new h)) as [l|].
  - destruct H as (Hl & Hs & Ht). split; [intros _; eauto|intros Hn; contradiction].
  - split; [intros Hl; contradiction|eauto].
Qed.

(** ** C07 *)
Lemma mem_listing h :
  exists l, t_collections mem_impl (after mem_impl mem_new h) = Ok l
            /\ is_set str_lt l /\ forall c, In c l <-> live h c.
Proof.
  exists (map fst (after mem_impl mem_new h)). split; [reflexivity|]. split; [apply mem_inv_reach|].
  intros c. rewrite <- (bm_get_in_keys str_order). pose proof (mem_history_get h c) as H.
  destruct (get c (after mem_impl mem_new h)); [split; [tauto|eauto]|]. split; [intros []; discriminate|tauto].
Qed.

(** ** C03, C04, C05 *)

Lemma same_at_get s s' c : get c s = get c s' -> same_at mem_impl s s' c.
Proof.
  intros E. split; [|split].
  - rewrite !mem_has, E. reflexivity.
  - simpl. unfold mem_triples. rewrite E. reflexivity.
  - intros p. simpl. unfold mem_filter. rewrite E. reflexivity.
Qed.

Lemma mem_remove_coll h c :
  let s := after mem_impl mem_new h in
  let r := t_remove_collection mem_impl s c in
  fst r = Ok tt
  /\ ~ has mem_impl (snd r) c
  /\ (exists e, t_triples mem_impl (snd r) c = Err e)
  /\ (forall c', c' <> c -> same_at mem_impl s (snd r) c')
  /\ (~ has mem_impl s c -> snd r = s).
Proof.
  set (s := after mem_impl mem_new h). assert (Hinv : mem_inv s) by apply mem_inv_reach.
  simpl. pose proof (get_rem_coll s c c Hinv) as Hg. simpl in Hg.
  destruct (str_dec c c) as [_|]; [|congruence].
  split; [reflexivity|]. split; [|split; [|split]].
  - rewrite mem_has, Hg. intros [? ?]; discriminate.
  - unfold mem_triples. rewrite Hg. eauto.
  - intros c' Hn. apply same_at_get. symmetry. apply (bm_get_remove_other str_order), Hn.
  - intros H. apply (bm_remove_absent str_order); [apply Hinv|].
    rewrite mem_has in H. destruct (get c s); [exfalso; eauto|reflexivity].
Qed.

Lemma mem_add h c ts :
  let s := after mem_impl mem_new h in
  has mem_impl s c ->
  let '(r, s', ts') := t_add_triples mem_impl s c ts in
  r = Ok tt
  /\ (forall t, holds mem_impl s' c t <-> holds mem_impl s c t \/ In t ts)
  /\ (forall c', c' <> c -> same_at mem_impl s s' c')
  /\ (forall c', has mem_impl s' c' <-> has mem_impl s c')
  /\ ts' = [].
Proof.
  intros s Hh. apply mem_has in Hh as [l El]. simpl.
  pose proof (fun c' => get_add s c ts c') as Hg. simpl in Hg.
  unfold mem_add_triples in *. rewrite El in *. simpl in Hg.
  split; [reflexivity|]. split; [|split; [|split]].
  - intros t. rewrite !mem_holds, Hg, El. destruct (str_dec c c); [|congruence]. split.
    + intros (l' & E & H). injection E as <-. apply (in_bs_append trip_order) in H as [H|H]; eauto.
    + intros [(l' & E & H)|H]; [injection E as <-|]; eexists; (split; [reflexivity|]);
        apply (in_bs_append trip_order); auto.
  - intros c' Hn. apply same_at_get. rewrite Hg. destruct (str_dec c' c); congruence.
  - intros c'. rewrite !mem_has, Hg. destruct (str_dec c' c) as [->|]; [|reflexivity]. rewrite El. split; eauto.
  - reflexivity.
Qed.

Lemma mem_rem h c ts :
  let s := after mem_impl mem_new h in
  has mem_impl s c ->
  let '(r, s', ts') := t_remove_triples mem_impl s c ts in
  r = Ok tt
  /\ (forall t, holds mem_impl s' c t <-> holds mem_impl s c t /\ ~ In t ts)
  /\ (forall c', c' <> c -> same_at mem_impl s s' c')
  /\ (forall c', has mem_impl s' c' <-> has mem_impl s c')
  /\ ts' = ts.
Proof.
  intros s Hh. apply mem_has in Hh as [l El]. simpl.
  assert (Hinv : mem_inv s) by apply mem_inv_reach.
  pose proof (fun c' => get_rem s c ts c') as Hg. simpl in Hg.
  unfold mem_remove_triples in *. rewrite El in *. simpl in Hg.
  assert (Hs : is_set trip_lt l) by (apply (proj2 Hinv c), El).
  split; [reflexivity|]. split; [|split; [|split]].
  - intros t. rewrite !mem_holds, Hg, El. destruct (str_dec c c); [|congruence]. split.
    + intros (l' & E & H). injection E as <-. apply (in_remove_all trip_order) in H as [H1 H2]; eauto.
    + intros [(l' & E & H) Hn]. injection E as <-. eexists; (split; [reflexivity|]).
      apply (in_remove_all trip_order); auto.
  - intros c' Hn. apply same_at_get. rewrite Hg. destruct (str_dec c' c); congruence.
  - intros c'. rewrite !mem_has, Hg. destruct (str_dec c' c) as [->|]; [|reflexivity]. rewrite El. split; eauto.
  - reflexivity.
Qed.

(** ** C08, C09: filter *)

Lemma slot_check_spec p v :
  (slot_check p v = Pass <-> admits p v)
  /\ (slot_check p v = Boom <-> is_variable p).
Proof.
  unfold is_variable. destruct p as [x|y|]; simpl.
  - split; split; try discriminate; eauto; intros [].
  - destruct (str_eqb_spec y v); split; split; try discriminate; auto; try congruence; intros [? E]; discriminate E.
  - split; split; try discriminate; auto; intros [? E]; discriminate E.
Qed.

Lemma admits_dec p v : {admits p v} + {~ admits p v}.
Proof. destruct p; simpl; auto. apply str_dec. Qed.

Lemma is_variable_dec p : {is_variable p} + {~ is_variable p}.
Proof.
  destruct p; [left; unfold is_variable; eauto|right; intros [? E]; discriminate E..].
Qed.

Lemma admits_not_variable p v : admits p v -> ~ is_variable p.
Proof. intros H [x ->]. exact H. Qed.

Lemma mem_filter_loop_spec p : forall ts acc,
  (exists t, In t ts /\ meets_variable p t) /\ mem_filter_loop p ts acc = Panic PTodo
  \/ (~ exists t, In t ts /\ meets_variable p t)
     /\ exists r, mem_filter_loop p ts acc = Ok r
                  /\ (is_set trip_lt acc -> is_set trip_lt r)
                  /\ forall t, In t r <-> In t acc \/ (In t ts /\ fits p t).
Proof.
  induction ts as [|t ts IH]; intros acc.
  - right. split; [intros (t & [] & _)|]. exists acc. simpl. intuition.
  - assert (Hskip : ~ meets_variable p t -> ~ fits p t ->
       (exists t', In t' (t :: ts) /\ meets_variable p t') /\ mem_filter_loop p ts acc = Panic PTodo
       \/ (~ exists t', In t' (t :: ts) /\ meets_variable p t')
          /\ exists r, mem_filter_loop p ts acc = Ok r
                  /\ (is_set trip_lt acc -> is_set trip_lt r)
                  /\ forall t', In t' r <-> In t' acc \/ (In t' (t :: ts) /\ fits p t')).
    { intros Hm Hf. destruct (IH acc) as [[(t' & H1 & H2) E]|[Hn (r & E & Hs & Hr)]].
      - left. split; [exists t'; split; [right; exact H1|exact H2]|exact E].
      - right. split.
        + intros (t' & [->|H1] & H2); [auto|]. apply Hn. eauto.
        + exists r. split; [exact E|]. split; [exact Hs|]. intros t'. rewrite Hr. simpl.
          split; [intuition|]. intros [H|[[<-|H] H']]; auto. contradiction. }
    assert (Hboom : meets_variable p t ->
       (exists t', In t' (t :: ts) /\ meets_variable p t') /\ @Panic str (list trip) PTodo = Panic PTodo).
    { intros H. split; [exists t; split; [left; reflexivity|exact H]|reflexivity]. }
    cbn [mem_filter_loop]. unfold meets_variable, fits in *.
    destruct (slot_check_spec (q0 p) (t0 t)) as [A0 B0].
    destruct (slot_check_spec (q1 p) (t1 t)) as [A1 B1].
    destruct (slot_check_spec (q2 p) (t2 t)) as [A2 B2].
    destruct (slot_check (q0 p) (t0 t)) eqn:E0.
    + assert (H0 : admits (q0 p) (t0 t)) by (apply A0; reflexivity).
      pose proof (admits_not_variable _ _ H0) as V0.
      destruct (slot_check (q1 p) (t1 t)) eqn:E1.
      * assert (H1 : admits (q1 p) (t1 t)) by (apply A1; reflexivity).
        pose proof (admits_not_variable _ _ H1) as V1.
        destruct (slot_check (q2 p) (t2 t)) eqn:E2.
        -- assert (H2 : admits (q2 p) (t2 t)) by (apply A2; reflexivity).
           pose proof (admits_not_variable _ _ H2) as V2.
           destruct (IH (bs_insert trip_cmp t acc)) as [[(t' & Hi & Hm) E]|[Hn (r & E & Hs & Hr)]].
           ++ left. split; [exists t'; split; [right; exact Hi|exact Hm]|exact E].
           ++ right. split.
              ** intros (t' & [<-|Hi] & Hm); [tauto|]. apply Hn. eauto.
              ** exists r. split; [exact E|]. split.
                 { intros Ha. apply Hs, (is_set_insert trip_order), Ha. }
                 intros t'. rewrite Hr, (in_bs_insert trip_order). simpl.
                 split; [intros [[->|H]|[H H']]; auto|].
                 intros [H|[[<-|H] H']]; auto.
        -- apply Hskip; [|intros (_ & _ & H); apply A2 in H; discriminate].
           intros [H|[[_ H]|[_ [_ H]]]]; [tauto|tauto|apply B2 in H; discriminate].
        -- left. apply Hboom. right; right. split; [exact H0|]. split; [exact H1|apply B2; reflexivity].
      * apply Hskip; [|intros (_ & H & _); apply A1 in H; discriminate].
        intros [H|[[_ H]|[_ [H _]]]]; [tauto|apply B1 in H; discriminate|apply A1 in H; discriminate].
      * left. apply Hboom. right; left. split; [exact H0|apply B1; reflexivity].
    + apply Hskip; [|intros (H & _); apply A0 in H; discriminate].
      intros [H|[[H _]|[H _]]]; [apply B0 in H; discriminate|apply A0 in H; discriminate..].
    + left. apply Hboom. left. apply B0; reflexivity.
Qed.

Lemma no_variables_meets q t : no_variables q -> ~ meets_variable q t.
Proof. unfold no_variables, meets_variable. tauto. Qed.

Lemma mem_filter_ok h c q :
  no_variables q ->
  let s := after mem_impl mem_new h in
  (has mem_impl s c ->
   exists l, t_filter mem_impl s c q = Ok l /\ is_set trip_lt l
             /\ forall t, In t l <-> holds mem_impl s c t /\ fits q t)
  /\ (~ has mem_impl s c -> exists e, t_filter mem_impl s c q = Err e).
Proof.
  intros Hv. set (s := after mem_impl mem_new h). simpl. split.
  - intros Hh. apply mem_has in Hh as [ts Ets].
    unfold mem_filter. rewrite Ets.
    destruct (mem_filter_loop_spec q ts []) as [[(t & _ & Hm) _]|[_ (r & E & Hs & Hr)]].
    + exfalso. eapply no_variables_meets; eassumption.
    + exists r. split; [exact E|]. split; [apply Hs; constructor|]. intros t. rewrite Hr, mem_holds. simpl.
      split.
      * intros [[]|[H1 H2]]. split; [eauto|exact H2].
      * intros [(l & E' & H) H2]. rewrite Ets in E'. injection E' as <-. auto.
  - intros Hh. rewrite mem_has in Hh. unfold mem_filter. destruct (get c s); [exfalso; eauto|eauto].
Qed.

Lemma fits_no_variables q t : fits q t -> no_variables q.
Proof. intros (H0 & H1 & H2). repeat split; eapply admits_not_variable; eassumption. Qed.

Lemma mem_filter_variable h c q :
  ~ no_variables q ->
  let s := after mem_impl mem_new h in
  has mem_impl s c ->
  ((exists t, holds mem_impl s c t /\ meets_variable q t) <-> exists w, t_filter mem_impl s c q = Panic w)
  /\ ((~ exists t, holds mem_impl s c t /\ meets_variable q t) -> t_filter mem_impl s c q = Ok []).
Proof.
  intros Hv s Hh. apply mem_has in Hh as [ts Ets]. simpl. unfold mem_filter. rewrite Ets.
  assert (Hin : forall t, holds mem_impl s c t <-> In t ts).
  { intros t. rewrite mem_holds, Ets. split; [intros (l & E & H); injection E as <-; exact H|eauto]. }
  destruct (mem_filter_loop_spec q ts []) as [[(t & Hi & Hm) E]|[Hn (r & E & Hs & Hr)]].
  - split.
    + split; [eauto|]. intros _. exists t. rewrite Hin. auto.
    + intros H. exfalso. apply H. exists t. rewrite Hin. auto.
  - split.
    + split; [|rewrite E; intros [w E']; discriminate]. intros (t & Ht & Hm). exfalso. apply Hn.
      exists t. rewrite <- Hin. auto.
    + intros _. rewrite E. f_equal. destruct r as [|t r]; [reflexivity|]. exfalso.
      destruct (proj1 (Hr t)) as [[]|[_ Hf]]; [left; reflexivity|]. apply Hv. eapply fits_no_variables, Hf.
Qed.

(** ** C02, C06 for this store *)

Lemma mem_add_coll_absent h c :
  let s := after mem_impl mem_new h in
  ~ has mem_impl s c ->
  let r := t_add_collection mem_impl s c in
  fst r = Ok tt
  /\ has mem_impl (snd r) c
  /\ (forall t, ~ holds mem_impl (snd r) c t)
  /\ (forall c', c' <> c -> same_at mem_impl s (snd r) c').
Proof.
  intros s Hh. simpl.
  pose proof (get_add_coll s c) as Hg. simpl in Hg.
  split; [reflexivity|]. split; [|split].
  - rewrite mem_has, Hg. destruct (str_dec c c); [eauto|congruence].
  - intros t. rewrite mem_holds, Hg. destruct (str_dec c c); [|congruence].
    intros (l & E & H). injection E as <-. exact H.
  - intros c' Hn. apply same_at_get. rewrite Hg. destruct (str_dec c' c); congruence.
Qed.

Lemma mem_write_missing h c ts :
  let s := after mem_impl mem_new h in
  ~ has mem_impl s c ->
  t_add_triples mem_impl s c ts = (Panic PTodo, s, ts)
  /\ t_remove_triples mem_impl s c ts = (Panic PTodo, s, ts).
Proof.
  intros s Hh. rewrite mem_has in Hh. simpl.
  unfold mem_add_triples, mem_remove_triples. destruct (get c s); [exfalso; eauto|auto].
Qed.

(** ** C10, C11: bindings *)

Definition is_binding (m : list (str * str)) : Prop := is_map (lt := str_lt) m.

Lemma match_slot_spec p v r : is_binding r ->
  match match_slot p v r with
  | Some r' =>
      is_binding r' /\ slot_denotes r' p v /\ (forall x y, In (x, y) r -> In (x, y) r')
      /\ (forall x, In x (map fst r') <-> In x (map fst r) \/ slot_var p x)
  | None => forall m, is_binding m -> (forall x y, In (x, y) r -> In (x, y) m) -> ~ slot_denotes m p v
  end.
Proof.
  intros Hr. unfold slot_var. destruct p as [x|y|]; simpl.
  - destruct (get x r) as [y|] eqn:E.
    + destruct (str_eqb_spec y v) as [->|Hn].
      * assert (Hin : In (x, v) r) by (apply (bm_get_Some_in str_order), E).
        split; [exact Hr|]. split; [exact Hin|]. split; [auto|].
        intros z. split; [auto|]. intros [H|H]; [exact H|]. injection H as <-.
        change x with (fst (x, v)). apply in_map, Hin.
      * intros m Hm Hs H. apply (bm_get_Some_in str_order) in E. apply Hs in E.
        apply (bm_get_in str_order) in E, H; try exact Hm. congruence.
    + split; [apply (is_map_insert str_order), Hr|].
      split; [apply (in_map_insert str_order); auto|]. split.
      * intros a b Hab. apply (in_map_insert str_order); [exact Hr|]. right. split; [|exact Hab].
        intros ->. apply (bm_get_in str_order) in Hab; [congruence|exact Hr].
      * intros z. rewrite (in_keys_insert str_order). split; [intros [->|H]; auto|].
        intros [H|H]; [auto|]. injection H as <-. auto.
  - destruct (str_eqb_spec y v) as [->|Hn].
    + split; [exact Hr|]. split; [reflexivity|]. split; [auto|]. intros z. split; [auto|].
      intros [H|H]; [exact H|discriminate].
    + intros m Hm Hs H. congruence.
  - split; [exact Hr|]. split; [exact I|]. split; [auto|]. intros z. split; [auto|].
    intros [H|H]; [exact H|discriminate].
Qed.

Lemma match_single_first q t :
  match_query_single q t =
  match match_slot (q0 q) (t0 t) [] with
  | None => None
  | Some r0 =>
      match match_slot (q1 q) (t1 t) r0 with
      | None => None
      | Some r1 => match_slot (q2 q) (t2 t) r1
      end
  end.
Proof. unfold match_query_single. destruct (q0 q); reflexivity. Qed.

Lemma slot_denotes_mono m m' p v :
  (forall x y, In (x, y) m -> In (x, y) m') -> slot_denotes m p v -> slot_denotes m' p v.
Proof. destruct p; simpl; auto. Qed.

Lemma match_single_sound q t m : match_query_single q t = Some m -> solves q t m.
Proof.
  rewrite match_single_first.
  pose proof (match_slot_spec (q0 q) (t0 t) [] ltac:(constructor)) as S0.
  destruct (match_slot (q0 q) (t0 t) []) as [r0|]; [|discriminate].
  destruct S0 as (B0 & D0 & _ & K0).
  pose proof (match_slot_spec (q1 q) (t1 t) r0 B0) as S1.
  destruct (match_slot (q1 q) (t1 t) r0) as [r1|]; [|discriminate].
  destruct S1 as (B1 & D1 & M1 & K1).
  pose proof (match_slot_spec (q2 q) (t2 t) r1 B1) as S2.
  destruct (match_slot (q2 q) (t2 t) r1) as [r2|]; [|discriminate].
  destruct S2 as (B2 & D2 & M2 & K2). intros E. injection E as <-.
  split; [exact B2|]. split; [eapply slot_denotes_mono, D0; auto|].
  split; [eapply slot_denotes_mono, D1; auto|]. split; [exact D2|].
  intros x. rewrite K2, K1, K0. unfold query_var. simpl. tauto.
Qed.

(** The values a solution gives are forced. *)
Lemma solves_unique q t m m' : solves q t m -> solves q t m' -> m = m'.
Proof.
  assert (Hincl : forall m m', solves q t m -> solves q t m' -> forall x y, In (x, y) m -> In (x, y) m').
  { clear. intros m m' (B & D0 & D1 & D2 & K) (B' & D0' & D1' & D2' & K') x y Hxy.
    assert (Hx : query_var q x).
    { apply K. change x with (fst (x, y)). apply in_map, Hxy. }
    apply (bm_get_in str_order) in Hxy; [|exact B].
    destruct Hx as [Hx|[Hx|Hx]]; unfold slot_var in Hx; rewrite Hx in *; simpl in *.
    - assert (y = t0 t) as -> by (apply (bm_get_in str_order) in D0; [congruence|exact B]). exact D0'.
    - assert (y = t1 t) as -> by (apply (bm_get_in str_order) in D1; [congruence|exact B]). exact D1'.
    - assert (y = t2 t) as -> by (apply (bm_get_in str_order) in D2; [congruence|exact B]). exact D2'. }
  intros H H'.
  assert (Hiff : forall p, In p m <-> In p m') by (intros [x y]; split; eapply Hincl; eassumption).
  assert (Hg : forall c, get c m = get c m').
  { intros c. destruct H as (B & _), H' as (B' & _).
    destruct (get c m) as [y|] eqn:E.
    - symmetry. apply (bm_get_in str_order); [exact B'|]. apply Hiff, (bm_get_Some_in str_order), E.
    - destruct (get c m') as [y|] eqn:E'; [|reflexivity].
      apply (bm_get_Some_in str_order), Hiff in E'. apply (bm_get_in str_order) in E'; [congruence|exact B]. }
  destruct H as (B & _), H' as (B' & _). revert B B' Hiff. clear.
  revert m'. induction m as [|[k v] m IH]; intros [|[k' v'] m'] B B' Hiff.
  - reflexivity.
  - destruct (proj2 (Hiff (k', v'))); left; reflexivity.
  - destruct (proj1 (Hiff (k, v))); left; reflexivity.
  - inversion B as [|? ? Hs Hf]; inversion B' as [|? ? Hs' Hf']; subst. fold (map (@fst str str)) in *.
    rewrite Forall_forall in Hf, Hf'.
    assert (k = k').
    { destruct (proj1 (Hiff (k, v))) as [E|Hx]; [left; reflexivity|congruence|].
      destruct (proj2 (Hiff (k', v'))) as [E|Hy]; [left; reflexivity|congruence|].
      exfalso. apply (o_asym str_order k k').
      - apply Hf. change k' with (fst (k', v')). apply in_map, Hy.
      - apply Hf'. change k with (fst (k, v)). apply in_map, Hx. }
    subst k'.
    assert (v = v').
    { destruct (proj1 (Hiff (k, v))) as [E|Hx]; [left; reflexivity|congruence|].
      exfalso. apply (o_irrefl str_order k), Hf'. change k with (fst (k, v)). apply in_map, Hx. }
    subst v'. f_equal. apply IH; [assumption..|]. intros [x y]. split; intros Hz.
    + destruct (proj1 (Hiff (x, y))) as [E|]; [right; exact Hz| |assumption]. injection E as -> ->.
      exfalso. apply (o_irrefl str_order x), Hf. change x with (fst (x, y)). apply in_map, Hz.
    + destruct (proj2 (Hiff (x, y))) as [E|]; [right; exact Hz| |assumption]. injection E as -> ->.
      exfalso. apply (o_irrefl str_order x), Hf'. change x with (fst (x, y)). apply in_map, Hz.
Qed.

Lemma match_slot_least p v r r' m : is_binding r -> is_binding m ->
  (forall x y, In (x, y) r -> In (x, y) m) -> slot_denotes m p v ->
  match_slot p v r = Some r' -> (forall x y, In (x, y) r' -> In (x, y) m).
Proof.
  intros Hr Hm Hi Hd. destruct p as [x|y|]; simpl in *.
  - destruct (get x r) as [y|] eqn:E.
    + destruct (str_eqb y v); [|discriminate]. intros H; injection H as <-. exact Hi.
    + intros H; injection H as <-. intros a b Hab.
      apply (in_map_insert str_order) in Hab; [|exact Hr]. destruct Hab as [[-> ->]|[_ H]]; auto.
  - destruct (str_eqb y v); [|discriminate]. intros H; injection H as <-. exact Hi.
  - intros H; injection H as <-. exact Hi.
Qed.

Lemma match_single_complete q t : match_query_single q t = None -> forall m, ~ solves q t m.
Proof.
  rewrite match_single_first. intros HN m (B & D0 & D1 & D2 & K).
  assert (Hb0 : is_binding []) by constructor.
  pose proof (match_slot_spec (q0 q) (t0 t) [] Hb0) as S0.
  destruct (match_slot (q0 q) (t0 t) []) as [r0|] eqn:E0; [|apply (S0 m B); [intros ? ? []|exact D0]].
  assert (L0 : forall x y, In (x, y) r0 -> In (x, y) m).
  { eapply match_slot_least; [exact Hb0|exact B|intros ? ? []|exact D0|exact E0]. }
  destruct S0 as (B0 & _ & _ & _).
  pose proof (match_slot_spec (q1 q) (t1 t) r0 B0) as S1.
  destruct (match_slot (q1 q) (t1 t) r0) as [r1|] eqn:E1; [|apply (S1 m B L0 D1)].
  assert (L1 : forall x y, In (x, y) r1 -> In (x, y) m).
  { eapply match_slot_least; [exact B0|exact B|exact L0|exact D1|exact E1]. }
  destruct S1 as (B1 & _ & _ & _).
  pose proof (match_slot_spec (q2 q) (t2 t) r1 B1) as S2. rewrite HN in S2.
  exact (S2 m B L1 D2).
Qed.

Lemma match_single_iff q t m : match_query_single q t = Some m <-> solves q t m.
Proof.
  split; [apply match_single_sound|]. intros H.
  destruct (match_query_single q t) as [m'|] eqn:E.
  - f_equal. eapply solves_unique; [apply match_single_sound, E|exact H].
  - exfalso. eapply match_single_complete; eassumption.
Qed.

Lemma match_single_none q t : match_query_single q t = None <-> forall m, ~ solves q t m.
Proof.
  split; [apply match_single_complete|]. intros H.
  destruct (match_query_single q t) as [m'|] eqn:E; [|reflexivity].
  exfalso. eapply H, match_single_sound, E.
Qed.

Lemma match_query_answers q ts : answers q ts (match_query q ts).
Proof.
  induction ts as [|t ts IH]; simpl; [constructor|].
  destruct (match_query_single q t) as [m|] eqn:E.
  - apply answers_hit; [apply match_single_sound, E|exact IH].
  - apply answers_miss; [apply match_single_complete, E|exact IH].
Qed.

Lemma answers_unique q ts ms : answers q ts ms -> ms = match_query q ts.
Proof.
  induction 1 as [|t ts m ms Hs H IH|t ts ms Hs H IH]; simpl; [reflexivity|..].
  - apply match_single_iff in Hs. rewrite Hs, IH. reflexivity.
  - apply match_single_none in Hs. rewrite Hs, IH. reflexivity.
Qed.
