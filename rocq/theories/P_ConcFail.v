(** * Proofs: independent scripts at the same time, on a failing disk *)
From Coq Require Import List Arith NArith Bool String Lia Permutation.
From Verif Require Import M_Base M_Data M_Heed M_Regex M_Lexer M_Graph M_Parser M_Display M_Interp M_Conc M_TxnConc
  S_Order S_Str S_Store S_Graph S_Lexer S_Parser S_Interp S_Conc S_TxnConc S_Wander S_Rewrite S_Footprint
  P_Ord P_WanderDet P_Footprint P_FailRun S_Failing.
Import ListNotations.
Open Scope list_scope.

(** ** What a script depends on, whatever a let does *)
Section Footprint.
  Variable lets : world -> str -> list entry -> outcome -> world -> Prop.
  Hypothesis Hl : forall (W : str -> Prop) w u c n o w', W c -> agree_on W w u -> lets w c n o w' ->
    exists u', lets u c n o u' /\ agree_on W w' u' /\ (forall m, m <> c -> u' m = u m).

  Definition value_on' (v : value) (w : world) (o : outcome) (w' : world) : Prop := forall (W : str -> Prop) u,
    (forall n, value_looks v n -> W n) -> agree_on W w u ->
    exists u', gives_on lets v u o u' /\ agree_on W w' u' /\ frame (value_lets v) u u'.
  Definition call_on' (name : str) (args : list value) (w : world) (o : outcome) (w' : world) : Prop := forall (W : str -> Prop) u,
    (forall n, call_looks name args n -> W n) -> agree_on W w u ->
    exists u', calls_on lets name args u o u' /\ agree_on W w' u' /\ frame (call_lets name args) u u'.

  Ltac stay t := eexists; split; [apply t; try eassumption|split; [eassumption|apply frame_refl]].

  Lemma footprint_on :
    (forall v w o w', gives_on lets v w o w' -> value_on' v w o w')
    /\ (forall name args w o w', calls_on lets name args w o w' -> call_on' name args w o w').
  Proof.
    apply (reference_on_ind lets (fun v w o w' _ => value_on' v w o w') (fun name args w o w' _ => call_on' name args w o w'));
      unfold value_on', call_on'; intros.
    - stay fg_element.
    - stay fg_network.
    - stay fg_empty.
    - destruct (H W u) as (u' & K & A & F); [intros m Hm; apply H0; constructor; exact Hm|exact H1|].
      exists u'. split; [constructor; exact K|]. split; [exact A|]. eapply frame_weak; [|exact F]. intros m Hm. constructor. exact Hm.
    - stay fg_other.
    - stay fc_unknown.
    - stay fc_id.
    - stay fc_id_args.
    - stay fc_ignore.
    - stay fc_docs.
    - stay fc_docs_args.
    - stay fc_union.
    - stay fc_union_other.
    - stay fc_union_args.
    - exists u. split; [apply fc_read; eapply reads_on; [|eassumption]; apply H0, H; constructor|]. split; [exact H0|apply frame_refl].
    - stay fc_read_args.
    - exists u. split; [apply fc_filter; eapply finds_on; [|eassumption]; apply H0, H; constructor|]. split; [exact H0|apply frame_refl].
    - stay fc_filter_args.
    - stay fc_equal_args.
    - destruct (H W u) as (u' & K & A & F); [intros m Hm; apply H0; apply cl_left; exact Hm|exact H1|].
      exists u'. split; [eapply fc_equal_left; eassumption|]. split; [exact A|]. eapply frame_weak; [|exact F]. intros m Hm. apply ce_left. exact Hm.
    - destruct (H W u) as (u1 & K & A & F); [intros m Hm; apply H1; apply cl_left; exact Hm|exact H2|].
      destruct (H0 W u1) as (u2 & K2 & A2 & F2); [intros m Hm; apply H1; apply cl_right; exact Hm|exact A|].
      exists u2. split; [eapply fc_equal_right; eassumption|]. split; [exact A2|]. eapply frame_trans; [| |exact F|exact F2]; intros m Hm; [apply ce_left|apply ce_right]; exact Hm.
    - destruct (H W u) as (u1 & K & A & F); [intros m Hm; apply H1; apply cl_left; exact Hm|exact H2|].
      destruct (H0 W u1) as (u2 & K2 & A2 & F2); [intros m Hm; apply H1; apply cl_right; exact Hm|exact A|].
      exists u2. split; [eapply fc_equal; eassumption|]. split; [exact A2|]. eapply frame_trans; [| |exact F|exact F2]; intros m Hm; [apply ce_left|apply ce_right]; exact Hm.
    - destruct (H W u) as (u1 & K & A & F); [intros m Hm; apply H1; apply cl_left; exact Hm|exact H2|].
      destruct (H0 W u1) as (u2 & K2 & A2 & F2); [intros m Hm; apply H1; apply cl_right; exact Hm|exact A|].
      exists u2. split; [eapply fc_unequal; eassumption|]. split; [exact A2|]. eapply frame_trans; [| |exact F|exact F2]; intros m Hm; [apply ce_left|apply ce_right]; exact Hm.
    - stay fc_fail_args.
    - destruct (H W u) as (u' & K & A & F); [intros m Hm; apply H0; apply cl_fail; exact Hm|exact H1|].
      exists u'. split; [eapply fc_fail_not; eassumption|]. split; [exact A|]. eapply frame_weak; [|exact F]. intros m Hm. apply ce_fail. exact Hm.
    - destruct (H W u) as (u' & K & A & F); [intros m Hm; apply H0; apply cl_fail; exact Hm|exact H1|].
      exists u'. split; [eapply fc_fail; eassumption|]. split; [exact A|]. eapply frame_weak; [|exact F]. intros m Hm. apply ce_fail. exact Hm.
    - destruct (H W u) as (u' & K & A & F); [intros m Hm; apply H0; apply cl_fail; exact Hm|exact H1|].
      exists u'. split; [eapply fc_fail_crash; eassumption|]. split; [exact A|]. eapply frame_weak; [|exact F]. intros m Hm. apply ce_fail. exact Hm.
    - destruct (Hl W w u (el_name c) n o w') as (u' & K & A & F); [apply H; constructor|exact H0|assumption|].
      exists u'. split; [apply fc_let; exact K|]. split; [exact A|]. intros m N. apply F. intros ->. apply N. constructor.
    - destruct (H W u) as (u1 & K & A & F); [intros m Hm; apply H0; apply cl_let_in; exact Hm|exact H1|].
      destruct (Hl W w1 u1 (el_name c) n o w') as (u' & K' & A' & F'); [apply H0; constructor|exact A|assumption|].
      exists u'. split; [eapply fc_let_quote; eassumption|]. split; [exact A'|].
      intros m N. rewrite F' by (intros ->; apply N; constructor). apply F. intros X. apply N. apply ce_let_in. exact X.
    - destruct (H W u) as (u1 & K & A & F); [intros m Hm; apply H0; apply cl_let_in; exact Hm|exact H1|].
      exists u1. split; [eapply fc_let_other; eassumption|]. split; [exact A|]. eapply frame_weak; [|exact F]. intros m Hm. apply ce_let_in. exact Hm.
    - stay fc_let_args.
  Qed.

  Lemma performs_on_on cs w o w' : performs_on lets cs w o w' -> forall (W : str -> Prop) u, (forall n, program_looks cs n -> W n) -> agree_on W w u ->
    exists u', performs_on lets cs u o u' /\ agree_on W w' u' /\ frame (program_lets cs) u u'.
  Proof.
    destruct footprint_on as [_ FC].
    induction 1 as [w|c w o w' H|c d rest w a w1 o w' H K IH|c d rest w o w' H N]; intros W u HW A.
    - exists u. split; [constructor|]. split; [exact A|apply frame_refl].
    - destruct (FC _ _ _ _ _ H W u) as (u' & K & A' & F); [intros n Hn; apply HW; exists c; split; [left; reflexivity|exact Hn]|exact A|].
      exists u'. split; [constructor; exact K|]. split; [exact A'|]. eapply frame_weak; [|exact F]. intros n Hn. exists c. split; [left; reflexivity|exact Hn].
    - destruct (FC _ _ _ _ _ H W u) as (u1 & K1 & A1 & F1); [intros n Hn; apply HW; exists c; split; [left; reflexivity|exact Hn]|exact A|].
      destruct (IH W u1) as (u2 & K2 & A2 & F2); [intros n (x & Hx & Hn); apply HW; exists x; split; [right; exact Hx|exact Hn]|exact A1|].
      exists u2. split; [eapply fp_more; eassumption|]. split; [exact A2|].
      eapply frame_trans; [| |exact F1|exact F2].
      + intros n Hn. exists c. split; [left; reflexivity|exact Hn].
      + intros n (x & Hx & Hn). exists x. split; [right; exact Hx|exact Hn].
    - destruct (FC _ _ _ _ _ H W u) as (u' & K & A' & F); [intros n Hn; apply HW; exists c; split; [left; reflexivity|exact Hn]|exact A|].
      exists u'. split; [apply fp_stop; assumption|]. split; [exact A'|]. eapply frame_weak; [|exact F]. intros n Hn. exists c. split; [left; reflexivity|exact Hn].
  Qed.

  Lemma means_on_on script w o w' : means_on lets w script o w' -> forall (W : str -> Prop) u, (forall n, looks_at script n -> W n) -> agree_on W w u ->
    exists u', means_on lets u script o u' /\ agree_on W w' u' /\ frame (lets_name script) u u'.
  Proof.
    intros [ts k cs o1 w1 L K G P|ts k next L K St|ts k L K N1 N2|F] W u HW A.
    - assert (R : reads_as script cs) by (exists ts, k; auto).
      destruct (performs_on_on cs w o1 w1 P W u) as (u' & P' & A' & F); [intros n (c & Hc & Hn); apply HW; exists cs, c; auto|exact A|].
      exists u'. split; [eapply fm_runs; eassumption|]. split; [exact A'|]. eapply frame_weak; [|exact F]. intros n (c & Hc & Hn). exists cs, c. auto.
    - exists u. split; [eapply fm_stray; eassumption|]. split; [exact A|apply frame_refl].
    - exists u. split; [eapply fm_outside; eassumption|]. split; [exact A|apply frame_refl].
    - exists u. split; [apply fm_not_text; exact F|]. split; [exact A|apply frame_refl].
  Qed.

  Lemma means_on_frame script w o w' : means_on lets w script o w' -> frame (lets_name script) w w'.
  Proof.
    intros M. destruct (means_on_on script w o w' M (fun _ => True) w (fun _ _ => Logic.I) (agree_refl _ w)) as (u & M' & A & F).
    intros n N. rewrite <- (A n Logic.I). apply F, N.
  Qed.

  Lemma means_on_same script w o w' u : means_on lets w script o w' -> same_world w u -> exists u', means_on lets u script o u' /\ same_world w' u'.
  Proof.
    intros M E. destruct (means_on_on script w o w' M (fun _ => True) u (fun _ _ => Logic.I)) as (u' & M' & A & _); [intros n _; symmetry; apply E|].
    exists u'. split; [exact M'|]. intros n. symmetry. apply A. exact Logic.I.
  Qed.

  Lemma all_on_same scripts w os w' : all_mean_on lets w scripts os w' -> forall u, same_world w u -> exists u', all_mean_on lets u scripts os u' /\ same_world w' u'.
  Proof.
    induction 1 as [w|w x rest o os w1 w2 M _ IH]; intros u E; [exists u; split; [constructor|exact E]|].
    destruct (means_on_same _ _ _ _ _ M E) as (u1 & M1 & E1). destruct (IH u1 E1) as (u2 & A2 & E2). exists u2. split; [econstructor; eassumption|exact E2].
  Qed.

  Lemma swap_on x y w ox oy w1 w2 : independent x y -> means_on lets w x ox w1 -> means_on lets w1 y oy w2 ->
    exists u1 u2, means_on lets w y oy u1 /\ means_on lets u1 x ox u2 /\ same_world w2 u2.
  Proof.
    intros [I1 I2] M1 M2. pose proof (means_on_frame _ _ _ _ M1) as F1. pose proof (means_on_frame _ _ _ _ M2) as F2.
    destruct (means_on_on y w1 oy w2 M2 (looks_at y) w (fun _ H => H)) as (u1 & M3 & A3 & F3).
    { intros n Hn. symmetry. apply F1. intros X. exact (I1 n X Hn). }
    destruct (means_on_on x w ox w1 M1 (looks_at x) u1 (fun _ H => H)) as (u2 & M4 & A4 & F4).
    { intros n Hn. apply F3. intros X. exact (I2 n X Hn). }
    exists u1, u2. split; [exact M3|]. split; [exact M4|]. intros n. destruct (opt_dec (w2 n) (u2 n)) as [E|N]; [exact E|]. exfalso.
    assert (Nx : ~ lets_name x n).
    { intros X. apply N. rewrite (F2 n); [|intros Y; exact (I1 n X (script_lets_looks _ _ Y))]. symmetry. apply A4. apply script_lets_looks, X. }
    assert (Ny : ~ lets_name y n).
    { intros Y. apply N. rewrite (F4 n Nx). symmetry. apply A3. apply script_lets_looks, Y. }
    apply N. rewrite (F2 n Ny), (F1 n Nx), (F4 n Nx), (F3 n Ny). reflexivity.
  Qed.

  Lemma reorder_on ss ts : Permutation ss ts -> ForallOrdPairs independent ss -> forall w os w', all_mean_on lets w ss os w' ->
    exists os' w'', all_mean_on lets w ts os' w'' /\ Permutation (combine ss os) (combine ts os') /\ same_world w' w''.
  Proof.
    induction 1 as [|x ss ts P IH|x y ss|a b c P1 IH1 P2 IH2]; intros H w os w' A.
    - inversion A; subst. exists [], w'. split; [constructor|]. split; [constructor|apply same_refl].
    - inversion H as [|? ? Hx Hs]; subst. inversion A as [|? ? ? o os1 w1 ? M A1]; subst.
      destruct (IH Hs _ _ _ A1) as (os' & w'' & A2 & Pm & E). exists (o :: os'), w''. split; [econstructor; eassumption|]. split; [constructor; exact Pm|exact E].
    - inversion H as [|? ? Hx Hs]; subst. inversion Hx as [|? ? Hxy _]; subst.
      inversion A as [|? ? ? o os1 w1 ? M A1]; subst. inversion A1 as [|? ? ? o2 os2 w2 ? M2 A2]; subst.
      destruct (swap_on _ _ _ _ _ _ _ Hxy M M2) as (u1 & u2 & N1 & N2 & E). destruct (all_on_same _ _ _ _ A2 u2 E) as (u3 & A3 & E3).
      exists (o2 :: o :: os2), u3. split; [econstructor; [exact N1|]; econstructor; eassumption|]. split; [apply perm_swap|exact E3].
    - destruct (IH1 H _ _ _ A) as (o1 & w1 & A1 & Pm1 & E1).
      destruct (IH2 (pairs_perm _ independent_sym _ _ P1 H) _ _ _ A1) as (o2 & w2 & A2 & Pm2 & E2).
      exists o2, w2. split; [exact A2|]. split; [eapply Permutation_trans; eassumption|]. intros n. rewrite (E1 n). apply E2.
  Qed.

  (** Scripts one by one in the world of the start, and one after the other. *)
  Lemma gather_on (l : list (str * outcome * world)) w : ForallOrdPairs independent (map (fun t => fst (fst t)) l) ->
    (forall s o v, In (s, o, v) l -> means_on lets w s o v) ->
    forall u, (forall s o v, In (s, o, v) l -> agree_on (looks_at s) w u) ->
    exists z, all_mean_on lets u (map (fun t => fst (fst t)) l) (map (fun t => snd (fst t)) l) z
      /\ (forall s o v, In (s, o, v) l -> agree_on (looks_at s) v z)
      /\ forall n, (forall s o v, In (s, o, v) l -> ~ lets_name s n) -> z n = u n.
  Proof.
    induction l as [|[[s o] v] l IH]; intros Ind M u A.
    - exists u. split; [constructor|]. split; [intros ? ? ? []|reflexivity].
    - cbn [map fst snd] in *. inversion Ind as [|? ? Hs Hr]; subst.
      destruct (means_on_on s w o v (M s o v (or_introl eq_refl)) (looks_at s) u (fun _ H => H) (A s o v (or_introl eq_refl))) as (u1 & M1 & A1 & F1).
      assert (Dis : forall t p x, In (t, p, x) l -> independent s t).
      { intros t p x Hi. rewrite Forall_forall in Hs. apply Hs. apply in_map_iff. exists (t, p, x). auto. }
      destruct (IH Hr (fun t p x H => M t p x (or_intror H)) u1) as (z & Mz & Az & Fz).
      { intros t p x Hi n Hn. rewrite (F1 n); [exact (A t p x (or_intror Hi) n Hn)|]. intros L. exact (proj1 (Dis t p x Hi) n L Hn). }
      exists z. split; [econstructor; eassumption|]. split.
      + intros t p x [E|Hi]; [injection E as <- <- <-|exact (Az t p x Hi)]. intros n Hn.
        rewrite Fz; [exact (A1 n Hn)|]. intros t p x Hi L. exact (proj2 (Dis t p x Hi) n L Hn).
      + intros n N. rewrite Fz by (intros t p x Hi; exact (N t p x (or_intror Hi))). apply F1. exact (N s o v (or_introl eq_refl)).
  Qed.
End Footprint.

(** ** A let on a disk that fails *)
Lemma failing_on (W : str -> Prop) w u c n o w' : W c -> agree_on W w u -> lets_failing w c n o w' ->
  exists u', lets_failing u c n o u' /\ agree_on W w' u' /\ (forall m, m <> c -> u' m = u m).
Proof.
  intros Wc A H. destruct H as [o w' B|E|w' B|w' N B].
  - destruct (binds_on W w u c n Lmdb o w' Wc A B) as (u' & B' & A' & F). exists u'. split; [constructor; exact B'|auto].
  - exists u. split; [apply lf_no_name; rewrite (A c Wc); exact E|]. split; [exact A|reflexivity].
  - destruct (binds_on W w u c [] Lmdb _ w' Wc A B) as (u' & B' & A' & F). exists u'. split; [apply lf_unnoticed; exact B'|auto].
  - destruct (binds_on W w u c [] Lmdb _ w' Wc A B) as (u' & B' & A' & F). exists u'. split; [apply lf_noticed; assumption|auto].
Qed.

