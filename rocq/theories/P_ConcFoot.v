(** * Proofs: independent scripts at the same time *)
From Coq Require Import List Arith NArith Bool String Lia Permutation.
From Verif Require Import M_Base M_Data M_Heed M_Regex M_Lexer M_Graph M_Parser M_Display M_Interp M_Conc
  S_Order S_Str S_Store S_Graph S_Lexer S_Parser S_Interp S_Conc P_Ord P_Hist P_Agree P_Heed P_HeedHist P_HeedMore P_Graph P_Lexer P_LexMore P_Parser P_Interp P_InterpStores P_Conc
  S_Wander P_Wander P_WanderRun P_WanderDet S_Rewrite S_Footprint P_Footprint.
Import ListNotations.
Open Scope list_scope.

(** ** The calls a script makes *)
Definition footed (R W : str -> Prop) (p : prog) : Prop :=
  forall q, asks p q -> exists c,
    (q = QAddCollection c \/ (exists es, q = QAddEntries c es)) /\ W (el_name c) /\ R (el_name c)
    \/ (q = QEntries c \/ exists e, q = QFilter c e) /\ R (el_name c).

Lemma footed_done R W r : footed R W (Done r).
Proof. intros q []. Qed.

Lemma footed_bind R W p f : footed R W p -> (forall r, footed R W (f r)) -> footed R W (pbind p f).
Proof. intros H1 H2 q Hq. apply asks_bind in Hq as [Hq|(r & Hq)]; [exact (H1 q Hq)|exact (H2 r q Hq)]. Qed.

Lemma footed_mono (R W R' W' : str -> Prop) p : (forall c, R c -> R' c) -> (forall c, W c -> W' c) -> footed R W p -> footed R' W' p.
Proof. intros H K Hp q Hq. destruct (Hp q Hq) as (c & [(E & Hw & Hr)|(E & Hr)]); exists c; [left|right]; auto. Qed.

Lemma footed_write (R W : str -> Prop) q k c : R (el_name c) -> W (el_name c) -> (q = QAddCollection c \/ exists es, q = QAddEntries c es) ->
  (forall a, footed R W (k a)) -> footed R W (Ask q k).
Proof. intros Hr Hw Hq Hk q' [->|(a & H)]; [exists c; left; auto|exact (Hk a q' H)]. Qed.

Lemma footed_read (R W : str -> Prop) q k c : R (el_name c) -> (q = QEntries c \/ exists e, q = QFilter c e) ->
  (forall a, footed R W (k a)) -> footed R W (Ask q k).
Proof. intros Hr Hq Hk q' [->|(a & H)]; [exists c; right; auto|exact (Hk a q' H)]. Qed.

Lemma footed_let (R W : str -> Prop) c n : R (el_name c) -> W (el_name c) -> footed R W (p_let_store c n).
Proof.
  intros Hr Hw. apply (footed_write _ _ _ _ c Hr Hw); [left; reflexivity|]. intros [a|e|w]; try apply footed_done.
  all: apply (footed_write _ _ _ _ c Hr Hw); [right; eexists; reflexivity|]; intros [b|e'|w']; apply footed_done.
Qed.

Lemma cmd_get_in {St} (cs : list (str * @command St)) n c : cmd_get cs n = Some c -> In (n, c) cs.
Proof.
  induction cs as [|[m d] cs IH]; cbn; intros E; [discriminate|]. destruct (str_eqb m n) eqn:Em; [|right; apply IH, E].
  apply str_eqb_eq in Em. injection E as ->. subst. left. reflexivity.
Qed.

Section Footed.
  Context (rq : list value -> prog) (Hq : forall q, footed (value_looks (VQuote q)) (value_lets (VQuote q)) (rq q)).

  Lemma footed_value v : footed (value_looks v) (value_lets v) (p_value rq v).
  Proof. destruct v; cbn; try apply footed_done. apply Hq. Qed.

  Lemma footed_exec cs n cmd args : cmd_get common n = Some cmd ->
    footed (call_looks n args) (call_lets n args) (p_exec rq cs (cmd_fun_of cmd) args).
  Proof.
    intros E. apply cmd_get_in in E. unfold common in E. cbn [In] in E.
    repeat match type of E with _ \/ _ => destruct E as [E|E] end; try (exfalso; exact E); injection E as <- <-; cbn [cmd_fun_of p_exec]; try apply footed_done.
    - unfold p_assert_equal. destruct args as [|l [|r [|x args]]]; try apply footed_done.
      apply footed_bind; [eapply footed_mono; [| |apply footed_value]; intros; constructor; assumption|]. intros [lv|e|w]; try apply footed_done.
      apply footed_bind; [eapply footed_mono; [| |apply footed_value]; intros; [apply cl_right|apply ce_right]; assumption|]. intros [rv|e|w]; try apply footed_done.
      destruct (value_eqb lv rv); apply footed_done.
    - unfold p_assert_fail. destruct args as [|[e|q|n] [|x args]]; try apply footed_done.
      apply footed_bind; [eapply footed_mono; [| |apply Hq]; intros; constructor; assumption|]. intros [v|e|w]; apply footed_done.
    - unfold p_let. destruct args as [|[c|q0|n0] [|[e|q|n] [|x args]]]; try apply footed_done.
      + apply footed_bind; [eapply footed_mono; [| |apply Hq]; intros; [apply cl_let_in|apply ce_let_in]; assumption|].
        intros [[e|q1|n]|e|w]; try apply footed_done. apply footed_let; constructor.
      + apply footed_let; constructor.
    - unfold p_read. destruct args as [|[c|q0|n0] [|x args]]; try apply footed_done.
      apply (footed_read _ _ _ _ c); [constructor|left; reflexivity|intros a; apply footed_done].
    - unfold p_filter. destruct args as [|[c|q0|n0] [|[a|q1|n1] [|[b|q2|n2] [|[d|q3|n3] [|x args]]]]]; try apply footed_done.
      apply (footed_read _ _ _ _ c); [constructor|right; eexists; reflexivity|intros r; apply footed_done].
  Qed.

  Lemma footed_loop calls : forall res, footed (program_looks calls) (program_lets calls) (p_calls_loop rq common calls res).
  Proof.
    induction calls as [|c calls IH]; intros res; [apply footed_done|]. cbn [p_calls_loop].
    destruct (cmd_get common (el_name (c_name c))) as [cmd|] eqn:E; [|apply footed_done].
    apply footed_bind.
    - eapply footed_mono; [| |apply (footed_exec common _ _ _ E)]; intros x Hx; exists c; (split; [left; reflexivity|exact Hx]).
    - intros [v|e|w]; try apply footed_done. eapply footed_mono; [| |apply IH]; intros x (y & Hy & Hx); exists y; (split; [right; exact Hy|exact Hx]).
  Qed.
End Footed.

Lemma footed_quote_f fuel : forall q, footed (value_looks (VQuote q)) (value_lets (VQuote q)) (p_quote_f fuel common q).
Proof.
  induction fuel as [|fuel IH]; intros q; [apply footed_done|]. cbn [p_quote_f].
  destruct q as [|[e|q0|n] args]; try apply footed_done.
  eapply footed_mono; [| |apply (footed_loop _ IH)]; intros c (x & [<-|[]] & Hc); cbn in Hc; constructor; exact Hc.
Qed.

Lemma footed_script s : footed (looks_at s) (lets_name s) (p_run common s).
Proof.
  unfold p_run. destruct (tokenize_and_filter s) as [ts|e|w] eqn:E1; try apply footed_done.
  destruct (parse ts) as [calls|e|w] eqn:E2; try apply footed_done.
  assert (R : reads_as s calls).
  { unfold tokenize_and_filter in E1. destruct (tokenize s) as [toks| |] eqn:Et; try discriminate.
    destruct (filter_keeps _ _ Et) as (k' & Ek & K & _). unfold tokenize_and_filter in Ek. rewrite Et in Ek. rewrite E1 in Ek. injection Ek as <-.
    exists toks, ts. split; [apply tokenize_ok; exact Et|]. split; [exact K|]. apply parse_ok. exact E2. }
  eapply footed_mono; [| |apply (footed_loop (p_quote common))].
  - intros c (x & Hx & Hc). exists calls, x. auto.
  - intros c (x & Hx & Hc). exists calls, x. auto.
  - intros q. apply footed_quote_f.
Qed.

(** ** One client among others *)
Notation G := (graph_impl heed_impl).
Notation LG := (graph_impl (logged heed_impl)).

(** The client may change the collection. *)
Definition changes (p : prog) (c : str) : Prop := exists q, asks p q /\ about q = Some c /\ op_of q <> None.

Lemma perform_logged q h : perform LG q (lm h, h) = (fst (perform G q (lm h)), (lm (h ++ ops_of q), h ++ ops_of q)).
Proof.
  assert (K : forall o, snd (call_op heed_impl (lm h) o) = lm (h ++ [o])) by (intros o; symmetry; apply lm_snoc).
  destruct q; unfold ops_of; cbn [op_of]; rewrite ?app_nil_r.
  - reflexivity.
  - pose proof (K (OAddColl (el_name c))) as E. cbn [perform graph_impl l_add_collection]. unfold graph_add_collection. cbn [logged t_add_collection call_op fst snd] in *.
    destruct (t_add_collection heed_impl (lm h) (el_name c)) as [r x]. cbn [snd fst] in *. subst x. reflexivity.
  - pose proof (K (ORemColl (el_name c))) as E. cbn [perform graph_impl l_remove_collection]. unfold graph_remove_collection. cbn [logged t_remove_collection call_op fst snd] in *.
    destruct (t_remove_collection heed_impl (lm h) (el_name c)) as [r x]. cbn [snd fst] in *. subst x. reflexivity.
  - reflexivity.
  - pose proof (K (OAdd (el_name c) (bs_collect trip_cmp (map entry_to_trip es)))) as E. cbn [perform graph_impl l_add_entries]. unfold graph_add_entries. cbn [logged t_add_triples call_op fst snd] in *.
    destruct (t_add_triples heed_impl (lm h) (el_name c) _) as [[r x] y]. cbn [snd fst] in *. subst x. reflexivity.
  - pose proof (K (ORem (el_name c) (bs_collect trip_cmp (map entry_to_trip es)))) as E. cbn [perform graph_impl l_remove_entries]. unfold graph_remove_entries. cbn [logged t_remove_triples call_op fst snd] in *.
    destruct (t_remove_triples heed_impl (lm h) (el_name c) _) as [[r x] y]. cbn [snd fst] in *. subst x. reflexivity.
  - reflexivity.
Qed.

Lemma among sched : forall hs ha cl i (C : str -> Prop),
  (forall c, uses (cl i) c -> C c) -> (forall j c, j <> i -> changes (cl j) c -> ~ C c) -> local (cl i) ->
  (forall c, C c -> obs c (lm hs) (lm ha)) -> (total_weight ha <= total_weight hs)%N ->
  (total_weight hs + calls_weight (calls_made G sched (Pool (lm hs) cl)) < 2 ^ 64)%N ->
  let x := interleave G sched (Pool (lm hs) cl) in
  exists hs' ha', shared x = lm hs'
    /\ alone LG (turns_of i (calls_made G sched (Pool (lm hs) cl))) (cl i) (lm ha, ha) = (clients x i, (lm ha', ha'))
    /\ (forall c, C c -> obs c (lm hs') (lm ha')) /\ (total_weight ha' <= total_weight hs' < 2 ^ 64)%N.
Proof.
  induction sched as [|j sched IH]; intros hs ha cl i C HU HO HL HB HW W.
  - exists hs, ha. split; [reflexivity|]. split; [cbn; destruct (cl i); reflexivity|]. split; [exact HB|]. cbn in W. lia.
  - cbn [interleave calls_made clients] in *. unfold turn in *. cbn [clients shared] in *. destruct (cl j) as [r|q k] eqn:Ej.
    + exact (IH hs ha cl i C HU HO HL HB HW W).
    + cbn [calls_weight fold_right snd] in W. fold (calls_weight (calls_made G sched (let (a, s) := perform G q (lm hs) in Pool s (update cl j (k a))))) in W.
      assert (Es : snd (perform G q (lm hs)) = lm (hs ++ ops_of q)) by apply perform_state.
      destruct (perform G q (lm hs)) as [a s] eqn:Ep. cbn [snd] in Es. subst s.
      pose proof (weight_snoc hs q) as V.
      destruct (Nat.eq_dec j i) as [->|Hj].
      * assert (Hl : q <> QCollections /\ forall c es, q <> QRemoveEntries c es) by (apply HL; rewrite Ej; left; reflexivity).
        assert (Ha : exists c, about q = Some c) by (destruct q; cbn; eauto; destruct (proj1 Hl eq_refl)).
        destruct Ha as (c0 & Ha).
        assert (Hc0 : C c0) by (apply HU; exists q; rewrite Ej; split; [left; reflexivity|exact Ha]).
        destruct (perform_own hs ha q c0 Ha (proj2 Hl) ltac:(lia) ltac:(lia) (HB c0 Hc0)) as [Ea O0].
        rewrite Ep in Ea. cbn [fst] in Ea.
        unfold turns_of. cbn [filter fst]. rewrite Nat.eqb_refl. cbn [List.length alone]. rewrite Ej. cbn [alone].
        rewrite (perform_logged q ha), <- Ea.
        destruct (IH (hs ++ ops_of q) (ha ++ ops_of q) (update cl i (k a)) i C) as (hs' & ha' & E1 & E2 & O').
        -- intros c (q' & Hq & E'). rewrite update_same in Hq. apply HU. exists q'. rewrite Ej. split; [right; exists a; exact Hq|exact E'].
        -- intros j c Hj (q' & Hq & E'). rewrite (update_other _ _ _ _ Hj) in Hq. apply (HO j c Hj). exists q'. auto.
        -- intros q' Hq. rewrite update_same in Hq. apply HL. rewrite Ej. right. exists a. exact Hq.
        -- intros c Hc. destruct (str_dec c c0) as [->|Hn]; [exact O0|].
           assert (Hn' : about q <> Some c) by congruence.
           eapply obs_trans; [apply perform_other, Hn'|]. eapply obs_trans; [apply HB, Hc|]. apply obs_sym, perform_other, Hn'.
        -- rewrite !total_weight_app. lia.
        -- lia.
        -- exists hs', ha'. split; [exact E1|]. rewrite update_same in E2. split; [exact E2|exact O'].
      * unfold turns_of. cbn [filter fst]. rewrite (proj2 (Nat.eqb_neq j i) Hj).
        assert (Hi : i <> j) by congruence.
        destruct (IH (hs ++ ops_of q) ha (update cl j (k a)) i C) as (hs' & ha' & E1 & E2 & O').
        -- intros c Hu. rewrite (update_other _ _ _ _ Hi) in Hu. exact (HU c Hu).
        -- intros j' c Hj' (q' & Hq & E'). destruct (Nat.eq_dec j' j) as [->|Hjj].
           ++ rewrite update_same in Hq. apply (HO j c Hj). exists q'. rewrite Ej. split; [right; exists a; exact Hq|exact E'].
           ++ rewrite (update_other _ _ _ _ Hjj) in Hq. apply (HO j' c Hj'). exists q'. split; assumption.
        -- intros q' Hq. rewrite (update_other _ _ _ _ Hi) in Hq. exact (HL q' Hq).
        -- intros c Hc. eapply obs_trans; [|apply HB, Hc]. destruct (op_of q) as [o|] eqn:Eo.
           ++ apply perform_other. intros E'. apply (HO j c Hj); [|exact Hc]. exists q. rewrite Ej.
              split; [left; reflexivity|]. split; [exact E'|congruence].
           ++ unfold ops_of. rewrite Eo, app_nil_r. apply obs_refl.
        -- rewrite total_weight_app. lia.
        -- lia.
        -- exists hs', ha'. split; [exact E1|]. rewrite (update_other _ _ _ _ Hi) in E2. split; [exact E2|exact O'].
Qed.

(** A collection that nobody may change stays. *)
Lemma unchanged sched : forall hs cl c, (forall j, ~ changes (cl j) c) ->
  exists hs', shared (interleave G sched (Pool (lm hs) cl)) = lm hs' /\ obs c (lm hs') (lm hs).
Proof.
  induction sched as [|j sched IH]; intros hs cl c H; [exists hs; split; [reflexivity|apply obs_refl]|].
  cbn [interleave]. unfold turn. cbn [clients shared]. destruct (cl j) as [r|q k] eqn:Ej; [apply IH, H|].
  pose proof (perform_state q hs) as Es. destruct (perform G q (lm hs)) as [a s]. cbn [snd] in Es. subst s.
  destruct (IH (hs ++ ops_of q) (update cl j (k a)) c) as (hs' & E & O).
  - intros j' (q' & Hq & E'). destruct (Nat.eq_dec j' j) as [->|N].
    + rewrite update_same in Hq. apply (H j). exists q'. rewrite Ej. split; [right; exists a; exact Hq|exact E'].
    + rewrite (update_other _ _ _ _ N) in Hq. apply (H j'). exists q'. auto.
  - exists hs'. split; [exact E|]. eapply obs_trans; [exact O|]. destruct (op_of q) as [o|] eqn:Eo.
    + apply perform_other. intros E'. apply (H j). exists q. rewrite Ej. split; [left; reflexivity|]. split; [exact E'|congruence].
    + unfold ops_of. rewrite Eo, app_nil_r. apply obs_refl.
Qed.

Lemma footed_local R W p : footed R W p -> local p.
Proof. intros H q Hq. destruct (H q Hq) as (c & [([->|(es & ->)] & _)|([->|(e & ->)] & _)]); (split; [|intros ? ?]; discriminate). Qed.
Lemma footed_uses R W p c : footed R W p -> uses p c -> R c.
Proof. intros H (q & Hq & E). destruct (H q Hq) as (x & [([->|(es & ->)] & _ & Hx)|([->|(e & ->)] & Hx)]); cbn in E; injection E as <-; exact Hx. Qed.
Lemma footed_changes R W p c : footed R W p -> changes p c -> W c.
Proof.
  intros H (q & Hq & E & N). destruct (H q Hq) as (x & [([->|(es & ->)] & Hx & _)|([->|(e & ->)] & Hx)]); cbn in E, N; try (exfalso; apply N; reflexivity); injection E as <-; exact Hx.
Qed.

(** Worlds of stores that look the same for a name. *)
Lemma obs_world c h k w v : obs c (lm h) (lm k) -> shows heed_impl (lm h) w -> shows heed_impl (lm k) v -> w c = v c.
Proof.
  intros O [A1 B1] [A2 B2]. destruct (obs_same_for h k c O) as [E _]. destruct O as [Oh _].
  destruct (w c) as [l|] eqn:Ew.
  - assert (Nv : v c <> None) by (apply A2, Oh, A1; congruence). destruct (v c) as [m|] eqn:Ev; [|congruence].
    pose proof (B1 (mkE c) l Ew) as F1. pose proof (B2 (mkE c) m Ev) as F2. rewrite E, F2 in F1. injection F1 as ->. reflexivity.
  - destruct (v c) as [m|] eqn:Ev; [|reflexivity]. exfalso. assert (X : v c <> None) by congruence. apply A2, Oh, A1 in X. congruence.
Qed.

(** ** Scripts one by one on the starting store, and one after the other *)
Section Gather.
  Variable B : backend.

  Lemma gather (l : list (str * outcome * world)) w : ForallOrdPairs independent (map (fun t => fst (fst t)) l) ->
    (forall s o v, In (s, o, v) l -> means B w s o v) ->
    forall u, (forall s o v, In (s, o, v) l -> agree_on (looks_at s) w u) ->
    exists z, all_mean B u (map (fun t => fst (fst t)) l) (map (fun t => snd (fst t)) l) z
      /\ (forall s o v, In (s, o, v) l -> agree_on (looks_at s) v z)
      /\ forall n, (forall s o v, In (s, o, v) l -> ~ lets_name s n) -> z n = u n.
  Proof.
    induction l as [|[[s o] v] l IH]; intros Ind M u A.
    - exists u. split; [constructor|]. split; [intros ? ? ? []|reflexivity].
    - cbn [map fst snd] in *. inversion Ind as [|? ? Hs Hl]; subst.
      destruct (means_on B s w o v (M s o v (or_introl eq_refl)) (looks_at s) u (fun _ H => H) (A s o v (or_introl eq_refl))) as (u1 & M1 & A1 & F1).
      assert (Dis : forall t p x, In (t, p, x) l -> independent s t).
      { intros t p x Hi. rewrite Forall_forall in Hs. apply Hs. apply in_map_iff. exists (t, p, x). auto. }
      destruct (IH Hl (fun t p x H => M t p x (or_intror H)) u1) as (z & Mz & Az & Fz).
      { intros t p x Hi n Hn. rewrite (F1 n); [exact (A t p x (or_intror Hi) n Hn)|]. intros L. exact (proj1 (Dis t p x Hi) n L Hn). }
      exists z. split; [econstructor; eassumption|]. split.
      + intros t p x [E|Hi]; [injection E as <- <- <-|exact (Az t p x Hi)]. intros n Hn.
        rewrite Fz; [exact (A1 n Hn)|]. intros t p x Hi L. exact (proj2 (Dis t p x Hi) n L Hn).
      + intros n N. rewrite Fz by (intros t p x Hi; exact (N t p x (or_intror Hi))). apply F1. exact (N s o v (or_introl eq_refl)).
  Qed.
End Gather.

Lemma element_dec (a b : element) : {a = b} + {a <> b}.
Proof. repeat decide equality. Qed.
Lemma entry_dec (a b : entry) : {a = b} + {a <> b}.
Proof. decide equality; apply element_dec. Qed.
Lemma network_dec (a b : option (list entry)) : {a = b} + {a <> b}.
Proof. decide equality. apply list_eq_dec, entry_dec. Qed.

Lemma not_not_em (P : Prop) : ~ ~ (P \/ ~ P).
Proof. tauto. Qed.

(** ** Lists of independent scripts *)
Lemma independent_sym x y : independent x y -> independent y x.
Proof. intros [A B]. split; assumption. Qed.

Lemma pairwise ss : ForallOrdPairs independent ss -> forall i j, i < List.length ss -> j < List.length ss -> i <> j ->
  independent (nth i ss []) (nth j ss []).
Proof.
  induction 1 as [|x ss Hx _ IH]; intros i j Hi Hj Hn; cbn [List.length] in *; [lia|]. rewrite Forall_forall in Hx.
  destruct i as [|i], j as [|j]; [lia|..]; cbn [nth].
  - apply Hx, nth_In. lia.
  - apply independent_sym, Hx, nth_In. lia.
  - apply IH; lia.
Qed.

Lemma choose {A} (P : nat -> A -> Prop) n : (forall j, j < n -> exists a, P j a) ->
  exists l, List.length l = n /\ forall j a, nth_error l j = Some a -> P j a.
Proof.
  induction n as [|n IH]; intros H; [exists []; split; [reflexivity|intros [|j] a E; discriminate E]|].
  destruct IH as (l & El & Hl); [intros j Hj; apply H; lia|]. destruct (H n ltac:(lia)) as (a & Ha).
  exists (l ++ [a]). split; [rewrite app_length; cbn; lia|]. intros j b E.
  destruct (Nat.lt_ge_cases j (List.length l)) as [Hj|Hj].
  - rewrite nth_error_app1 in E by exact Hj. exact (Hl j b E).
  - rewrite nth_error_app2 in E by exact Hj. destruct (j - List.length l) as [|k] eqn:Ek; [|destruct k; discriminate E].
    injection E as <-. replace j with n by lia. exact Ha.
Qed.

Lemma no_script_asks q : ~ asks (p_run common []) q.
Proof. vm_compute. exact (fun x => x). Qed.

Lemma clients_idle {St} (L : lig_impl St) sched : forall x j, ~ In j sched -> clients (interleave L sched x) j = clients x j.
Proof.
  induction sched as [|i sched IH]; intros x j H; [reflexivity|]. cbn [interleave]. rewrite IH by (intros K; apply H; right; exact K).
  unfold turn. destruct (clients x i) as [r|q k]; [reflexivity|]. destruct (perform L q (shared x)) as [a s]. cbn [clients].
  apply update_other. intros ->. apply H. left. reflexivity.
Qed.
