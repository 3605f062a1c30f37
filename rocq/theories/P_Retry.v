(** * Proofs: a kill is a failing disk; scripts begun again after failures *)
From Coq Require Import List Arith NArith Bool String Lia.
From Verif Require Import M_Base M_Data M_Mem M_Heed M_Duck M_Txn M_Regex M_Lexer M_Graph M_Parser M_Display M_Interp M_Conc M_TxnConc
  S_Order S_Str S_Store S_Txn S_Graph S_Lexer S_Parser S_Interp S_Names S_Conc S_TxnConc S_Wander S_Rewrite S_Lines S_Footprint S_Monotone S_Again S_Deaths S_Failing S_Retry
  P_Ord P_Hist P_Lexer P_Parser P_Conc P_WanderDet P_WanderRun P_DeathRun P_Failing P_FailRun.
From Verif Require P_Again P_Rewrite P_Footprint P_TxnConc P_HeedHist.
Import ListNotations.
Open Scope list_scope.

Notation AO := (graph_impl lmdb_at_once).

(** ** Faults, one by one *)
Lemma perform_reads q d fs : writing q = false -> perform AO q (d, fs) = (fst (perform AO q (d, [])), (d, fs)).
Proof. destruct q; intros W; try discriminate W; reflexivity. Qed.

Lemma perform_writes q d fs : writing q = true ->
  perform AO q (d, fs) = (fst (perform AO q (d, [hd no_fault fs])), (fst (snd (perform AO q (d, [hd no_fault fs]))), tl fs)).
Proof.
  destruct q; intros W; try discriminate W; cbn [perform graph_impl l_add_collection l_remove_collection l_add_entries l_remove_entries];
    unfold graph_add_collection, graph_remove_collection, graph_add_entries, graph_remove_entries; cbn [lmdb_at_once t_add_collection t_remove_collection t_add_triples t_remove_triples];
    unfold write_at_once; cbn [fst snd hd tl].
  - destruct (t_add_collection (heed_impl_w (fst (hd no_fault fs))) d (el_name c)) as [r x]. reflexivity.
  - destruct (t_remove_collection (heed_impl_w (fst (hd no_fault fs))) d (el_name c)) as [r x]. reflexivity.
  - destruct (fst (t_add_triples (heed_impl_w (fst (hd no_fault fs))) d (el_name c) _)) as [r x]. reflexivity.
  - destruct (fst (t_remove_triples (heed_impl_w (fst (hd no_fault fs))) d (el_name c) _)) as [r x]. reflexivity.
Qed.

Definition no_commit : fault := (None, false).
Lemma perform_lost q d fs : writing q = true -> perform AO q (d, no_commit :: fs) = (fst (perform AO q (d, [no_commit])), (d, fs)).
Proof.
  intros W. rewrite perform_writes by exact W. cbn [hd tl]. f_equal. f_equal.
  destruct q; try discriminate W; cbn [perform graph_impl l_add_collection l_remove_collection l_add_entries l_remove_entries];
    unfold graph_add_collection, graph_remove_collection, graph_add_entries, graph_remove_entries; cbn [lmdb_at_once t_add_collection t_remove_collection t_add_triples t_remove_triples];
    unfold write_at_once; cbn [fst snd hd tl].
  - destruct (t_add_collection (heed_impl_w (fst no_commit)) d (el_name c)) as [r x]. reflexivity.
  - destruct (t_remove_collection (heed_impl_w (fst no_commit)) d (el_name c)) as [r x]. reflexivity.
  - destruct (fst (t_add_triples (heed_impl_w (fst no_commit)) d (el_name c) _)) as [r x]. reflexivity.
  - destruct (fst (t_remove_triples (heed_impl_w (fst no_commit)) d (el_name c) _)) as [r x]. reflexivity.
Qed.

(** A program uses up a list of faults. *)
Lemma solo_uses p : forall d fs, exists fs1, forall rest,
  solo AO p (d, fs1 ++ rest) = (fst (solo AO p (d, fs)), (fst (snd (solo AO p (d, fs))), rest)).
Proof.
  induction p as [r|q k IH]; intros d fs; [exists []; reflexivity|]. cbn [solo]. destruct (writing q) eqn:W.
  - rewrite (perform_writes q d fs W). cbv beta iota zeta. set (f := hd no_fault fs).
    destruct (IH (fst (perform AO q (d, [f]))) (fst (snd (perform AO q (d, [f])))) (tl fs)) as [fs1 H]. exists (f :: fs1). intros rest. cbn [List.app].
    rewrite (perform_writes q d (f :: fs1 ++ rest) W). cbn [hd tl]. apply H.
  - rewrite (perform_reads q d fs W). destruct (IH (fst (perform AO q (d, []))) d fs) as [fs1 H]. exists fs1. intros rest.
    rewrite (perform_reads q d (fs1 ++ rest) W). apply H.
Qed.

(** Nothing it writes may be kept. *)
Lemma solo_loses p : forall d, exists fs1 r, forall rest, solo AO p (d, fs1 ++ rest) = (r, (d, rest)).
Proof.
  induction p as [r|q k IH]; intros d; [exists [], r; reflexivity|]. cbn [solo]. destruct (writing q) eqn:W.
  - destruct (IH (fst (perform AO q (d, [no_commit]))) d) as (fs1 & r & H). exists (no_commit :: fs1), r. intros rest. cbn [List.app].
    rewrite perform_lost by exact W. apply H.
  - destruct (IH (fst (perform AO q (d, []))) d) as (fs1 & r & H). exists fs1, r. intros rest. rewrite perform_reads by exact W. apply H.
Qed.

(** So what is left when it is killed is also left when it is not, and its disk fails. *)
Lemma kill_fails m : forall p d fs, exists fs1 r, forall rest,
  solo AO p (d, fs1 ++ rest) = (r, (fst (snd (alone AO m p (d, fs))), rest)).
Proof.
  induction m as [|m IH]; intros p d fs.
  - destruct p as [r|q k]; exact (solo_loses _ d).
  - destruct p as [r|q k]; [exists [], r; reflexivity|]. cbn [alone solo]. destruct (writing q) eqn:W.
    + rewrite (perform_writes q d fs W). set (f := hd no_fault fs).
      destruct (IH (k (fst (perform AO q (d, [f])))) (fst (snd (perform AO q (d, [f])))) (tl fs)) as (fs1 & r & H). exists (f :: fs1), r. intros rest. cbn [List.app].
      rewrite (perform_writes q d (f :: fs1 ++ rest) W). cbn [hd tl]. apply H.
    + rewrite (perform_reads q d fs W). destruct (IH (k (fst (perform AO q (d, [])))) d fs) as (fs1 & r & H). exists fs1, r. intros rest.
      rewrite (perform_reads q d (fs1 ++ rest) W). apply H.
Qed.

Lemma solo_common x st : solo AO (p_run common x) st = run AO common x st.
Proof. rewrite solo_run, on_store_common. reflexivity. Qed.

Lemma run_uses x d fs : exists fs1, forall rest, run AO common x (d, fs1 ++ rest) = (fst (run AO common x (d, fs)), (fst (snd (run AO common x (d, fs))), rest)).
Proof. destruct (solo_uses (p_run common x) d fs) as [fs1 H]. exists fs1. intros rest. rewrite <- !solo_common. apply H. Qed.
Lemma run_killed x m d fs : exists fs1 r, forall rest, run AO common x (d, fs1 ++ rest) = (r, (fst (snd (alone AO m (p_run common x) (d, fs))), rest)).
Proof. destruct (kill_fails m (p_run common x) d fs) as (fs1 & r & H). exists fs1, r. intros rest. rewrite <- solo_common. apply H. Qed.

(** ** Lives *)
Lemma life_fails ds : forall d fs, exists fs1 all, (forall rest, session AO (scripts_of ds) (d, fs1 ++ rest) = (all, (fst (snd (life AO ds (d, fs))), rest)))
  /\ seen ds all = fst (life AO ds (d, fs)).
Proof.
  induction ds as [|[x|x m] ds IH]; intros d fs; cbn [life scripts_of session seen].
  - exists [], []. split; reflexivity.
  - destruct (run_uses x d fs) as [fa Ha]. destruct (run AO common x (d, fs)) as [a [d1 fs1]]. cbn [fst snd] in *.
    destruct (IH d1 fs1) as (fb & all & Hb & Hs). destruct (life AO ds (d1, fs1)) as [rs st2]. cbn [fst snd] in *.
    exists (fa ++ fb), (a :: all). split; [|cbn [seen]; rewrite Hs; reflexivity]. intros rest. rewrite <- app_assoc, Ha, Hb. reflexivity.
  - destruct (run_killed x m d fs) as (fa & r & Ha). destruct (alone AO m (p_run common x) (d, fs)) as [p [d1 fs1]]. cbn [fst snd] in *.
    destruct (IH d1 fs1) as (fb & all & Hb & Hs). destruct (life AO ds (d1, fs1)) as [rs st2]. cbn [fst snd] in *.
    exists (fa ++ fb), (r :: all). split; [|cbn [seen]; exact Hs]. intros rest. rewrite <- app_assoc, Ha, Hb. reflexivity.
Qed.

(** ** In the reference: a script on a failing disk and on one that is well *)

(** Only what is let changes. *)
Section Only.
  Variable lets : world -> str -> list entry -> outcome -> world -> Prop.
  Hypothesis Hl : forall w c n o w', lets w c n o w' -> forall m, m <> c -> w' m = w m.

  Lemma only_lets :
    (forall v w o w', gives_on lets v w o w' -> forall m, ~ value_lets v m -> w' m = w m)
    /\ (forall name args w o w', calls_on lets name args w o w' -> forall m, ~ call_lets name args m -> w' m = w m).
  Proof.
    apply (reference_on_ind lets (fun v w o w' _ => forall m, ~ value_lets v m -> w' m = w m)
      (fun name args w o w' _ => forall m, ~ call_lets name args m -> w' m = w m)); intros; try reflexivity.
    - apply H. intros K. apply H0. constructor. exact K.
    - apply H. intros K. apply H0, ce_left, K.
    - rewrite H0 by (intros K; apply H1, ce_right, K). apply H. intros K. apply H1, ce_left, K.
    - rewrite H0 by (intros K; apply H1, ce_right, K). apply H. intros K. apply H1, ce_left, K.
    - rewrite H0 by (intros K; apply H1, ce_right, K). apply H. intros K. apply H1, ce_left, K.
    - apply H. intros K. apply H0, ce_fail, K.
    - apply H. intros K. apply H0, ce_fail, K.
    - apply H. intros K. apply H0, ce_fail, K.
    - eapply Hl; [eassumption|]. intros ->. apply H. constructor.
    - transitivity (w1 m); [eapply Hl; [eassumption|]; intros ->; apply H0; constructor|]. apply H. intros K. apply H0, ce_let_in, K.
    - apply H. intros K. apply H0, ce_let_in, K.
  Qed.
End Only.

Lemma binds_only w c n o w' : binds w c n Lmdb o w' -> forall m, m <> c -> w' m = w m.
Proof. intros H m N. inversion H as [|? Sc [_ O]| | |]; subst; [exact (O m N)|reflexivity]. Qed.
Lemma failing_only w c n o w' : lets_failing w c n o w' -> forall m, m <> c -> w' m = w m.
Proof. intros [o1 w1 B|E|w1 B|w1 N B] m Nm; try reflexivity; exact (binds_only _ _ _ _ _ B m Nm). Qed.

Lemma sure_only :
  (forall v w o w', gives Lmdb v w o w' -> forall m, ~ value_lets v m -> w' m = w m)
  /\ (forall name args w o w', calls Lmdb name args w o w' -> forall m, ~ call_lets name args m -> w' m = w m).
Proof.
  destruct (only_lets (fun w c n o w' => binds w c n Lmdb o w') (fun w c n o w' H => binds_only w c n o w' H)) as [A B].
  destruct same_rules as [E1 E2]. split.
  - intros v w o w' H. apply E1 in H. exact (A _ _ _ _ H).
  - intros name args w o w' H. apply E2 in H. exact (B _ _ _ _ _ H).
Qed.

Lemma under_let u x c n o x' o2 u2 : below u x -> binds x c n Lmdb o x' -> lets_failing u c n o2 u2 -> below u2 x' /\ (o2 = o \/ o2 = Crashes).
Proof.
  intros Bx Hx Hu.
  assert (Q : forall k a v, incl k n -> binds u c k Lmdb a v -> below v x' /\ a = o).
  { intros k a v Ik Hk. inversion Hx as [|? Sc Rb|Sc| |]; subst; inversion Hk as [|? Sc' Rb'|Sc'| |]; subst; try contradiction.
    - destruct (P_Monotone.binds_below u x c k n Lmdb done done v x' Bx Ik Hk Hx) as (_ & _ & B). auto.
    - auto. }
  destruct Hu as [o1 w1 B|E|w1 B|w1 N B].
  - destruct (Q n o1 w1 (incl_refl n) B) as [B1 ->]. auto.
  - split; [|auto]. exact (below_trans _ _ _ Bx (binds_below _ _ _ _ _ Hx)).
  - destruct (Q [] _ w1 (incl_nil_l n) B) as [B1 <-]. auto.
  - destruct (Q [] _ w1 (incl_nil_l n) B) as [B1 _]. auto.
Qed.

Section Under.
  Variables R L : str -> Prop.
  Hypothesis RL : forall n, R n -> L n -> False.

  Definition value_under (v : value) (x : world) (o : outcome) (x' : world) : Prop :=
    (forall n, value_reads v n -> R n) -> (forall n, value_lets v n -> L n) ->
    forall u o2 u2, agree_on R x u -> below u x -> gives_on lets_failing v u o2 u2 -> below u2 x' /\ (o2 = o \/ o2 = Crashes).
  Definition call_under (name : str) (args : list value) (x : world) (o : outcome) (x' : world) : Prop :=
    (forall n, call_reads name args n -> R n) -> (forall n, call_lets name args n -> L n) ->
    forall u o2 u2, agree_on R x u -> below u x -> calls_on lets_failing name args u o2 u2 -> below u2 x' /\ (o2 = o \/ o2 = Crashes).

  Lemma agree_value v x o x' u o2 u2 : (forall n, value_lets v n -> L n) -> agree_on R x u -> gives Lmdb v x o x' -> gives_on lets_failing v u o2 u2 -> agree_on R x' u2.
  Proof.
    intros HL A H K n Rn. rewrite (proj1 sure_only _ _ _ _ H n), (proj1 (only_lets _ failing_only) _ _ _ _ K n); [exact (A n Rn)| |]; intros X; exact (RL n Rn (HL n X)).
  Qed.
  Lemma agree_call name args x o x' u o2 u2 : (forall n, call_lets name args n -> L n) -> agree_on R x u -> calls Lmdb name args x o x' ->
    calls_on lets_failing name args u o2 u2 -> agree_on R x' u2.
  Proof.
    intros HL A H K n Rn. rewrite (proj2 sure_only _ _ _ _ _ H n), (proj2 (only_lets _ failing_only) _ _ _ _ _ K n); [exact (A n Rn)| |]; intros X; exact (RL n Rn (HL n X)).
  Qed.

  Ltac same := split; [try assumption|left; reflexivity].

  Ltac side HR HL := first [exact (fun n H => HR n (vr_call _ _ n H)) | exact (fun n H => HL n (ve_call _ _ n H))
    | exact (fun n H => HR n (cr_left _ _ n H)) | exact (fun n H => HR n (cr_right _ _ n H)) | exact (fun n H => HR n (cr_fail _ n H)) | exact (fun n H => HR n (cr_let _ _ n H))
    | exact (fun n H => HL n (ce_left _ _ n H)) | exact (fun n H => HL n (ce_right _ _ n H)) | exact (fun n H => HL n (ce_fail _ n H)) | exact (fun n H => HL n (ce_let_in _ _ n H))].
  Ltac step :=
    match goal with
    | IH : (forall n1, value_reads ?v n1 -> R n1) -> (forall n2, value_lets ?v n2 -> L n2) -> _, G : gives Lmdb ?v ?w _ _, K : gives_on lets_failing ?v ?u _ _,
      A : agree_on R ?w ?u, B : below ?u ?w |- _ =>
        let B' := fresh "B" in let E' := fresh "E" in let A' := fresh "A" in let X := fresh "X" in let Y := fresh "Y" in
        match goal with
        | HR : forall n3, call_reads _ _ n3 -> R n3, HL : forall n4, call_lets _ _ n4 -> L n4 |- _ =>
            assert (X : forall n, value_reads v n -> R n) by side HR HL; assert (Y : forall n, value_lets v n -> L n) by side HR HL
        end;
        destruct (IH X Y _ _ _ A B K) as [B' E']; pose proof (agree_value _ _ _ _ _ _ _ Y A G K) as A'; clear K X Y
    end.

  Lemma under :
    (forall v x o x', gives Lmdb v x o x' -> value_under v x o x')
    /\ (forall name args x o x', calls Lmdb name args x o x' -> call_under name args x o x').
  Proof.
    apply (reference_ind Lmdb (fun v x o x' _ => value_under v x o x') (fun name args x o x' _ => call_under name args x o x'));
      unfold value_under, call_under; intros.
    all: match goal with K : gives_on _ _ ?x ?y ?z |- below ?z _ /\ (?y = _ \/ _) => inversion K; subst; clear K
         | K : calls_on _ _ _ ?x ?y ?z |- below ?z _ /\ (?y = _ \/ _) => inversion K; subst; clear K end.
    all: try other_command.
    all: try other_args.
    all: try (same; fail).
    all: repeat step.
    all: repeat match goal with
         | E : _ \/ _ |- _ => destruct E
         | E : Answers _ = Answers _ |- _ => injection E as E; subst
         | E : Answers _ = _ |- _ => discriminate E
         | E : Fails _ = Fails _ |- _ => injection E as E; subst
         | E : Fails _ = _ |- _ => discriminate E
         | E : Crashes = _ |- _ => discriminate E
         | E : ?a = _ |- _ => is_var a; subst a
         end.
    all: try other_args.
    all: try (exfalso; match goal with N : forall v, Answers _ <> Answers v |- _ => exact (N _ eq_refl) end).
    all: try (split; [first [assumption|eapply below_trans; [eassumption|]; eapply (proj1 P_Again.up); eassumption]|first [left; reflexivity|right; reflexivity]]; fail).
    - destruct (H (fun n0 K => H0 n0 (vr_call _ _ n0 K)) (fun n0 K => H1 n0 (ve_call _ _ n0 K)) _ _ _ H2 H3 H10) as [B E]. auto.
    - split; [assumption|left]. do 2 f_equal. eapply set_where_fun; [|eassumption|eassumption]. reflexivity.
    - split; [assumption|left]. do 2 f_equal. eapply set_where_fun; [|eassumption|eassumption]. reflexivity.
    - split; [assumption|left]. symmetry. eapply reads_fun; [apply same_refl|eassumption|]. eapply P_Footprint.reads_on; [|eassumption]. symmetry. apply (H1 (el_name c)), H. constructor.
    - split; [assumption|]. right. match goal with K : finds _ _ _ Lmdb o2 |- _ => inversion K end. reflexivity.
    - exfalso. eapply n. symmetry. eassumption.
    - exfalso. eapply n. symmetry. eassumption.
    - exfalso. eapply n. symmetry. eassumption.
    - exfalso. auto.
    - exfalso. auto.
    - split; [assumption|left]. repeat match goal with H : value_text _ _ |- _ => apply P_Wander.value_text_iff in H; subst end. reflexivity.
    - eapply under_let; eassumption.
    - eapply under_let; eassumption.
    - split; [|right; reflexivity]. eapply below_trans; [eassumption|]. eapply binds_below; eassumption.
    - exfalso. exact (n n0 (eq_sym H4)).
  Qed.

  Lemma performs_under cs x o x' : performs Lmdb cs x o x' ->
    (forall c n, In c cs -> call_reads (el_name (c_name c)) (c_args c) n -> R n) ->
    (forall c n, In c cs -> call_lets (el_name (c_name c)) (c_args c) n -> L n) ->
    forall u o2 u2, agree_on R x u -> below u x -> performs_on lets_failing cs u o2 u2 -> below u2 x' /\ (o2 = o \/ o2 = Crashes).
  Proof.
    induction 1 as [w|c w o w' H|c d rest w a w1 o w' H K IH|c d rest w o w' H N]; intros HR HL u o2 u2 A B P;
      inversion P as [|? ? ? ? H2|? ? ? ? v2 w3 ? ? H2 K2|? ? ? ? ? ? H2 N2]; subst.
    - auto.
    - exact (proj2 under _ _ _ _ _ H (fun n => HR c n (or_introl eq_refl)) (fun n => HL c n (or_introl eq_refl)) _ _ _ A B H2).
    - destruct (proj2 under _ _ _ _ _ H (fun n => HR c n (or_introl eq_refl)) (fun n => HL c n (or_introl eq_refl)) _ _ _ A B H2) as [B1 E].
      pose proof (agree_call _ _ _ _ _ _ _ _ (fun n => HL c n (or_introl eq_refl)) A H H2) as A1.
      exact (IH (fun x n Hx => HR x n (or_intror Hx)) (fun x n Hx => HL x n (or_intror Hx)) _ _ _ A1 B1 K2).
    - destruct (proj2 under _ _ _ _ _ H (fun n => HR c n (or_introl eq_refl)) (fun n => HL c n (or_introl eq_refl)) _ _ _ A B H2) as [B1 [E|E]]; [destruct (N2 _ E)|].
      split; [|right; exact E]. eapply below_trans; [exact B1|]. eapply P_Again.performs_up. exact K.
    - destruct (proj2 under _ _ _ _ _ H (fun n => HR c n (or_introl eq_refl)) (fun n => HL c n (or_introl eq_refl)) _ _ _ A B H2) as [B1 [E|E]]; [destruct (N _ (eq_sym E))|discriminate].
    - exact (proj2 under _ _ _ _ _ H (fun n => HR c n (or_introl eq_refl)) (fun n => HL c n (or_introl eq_refl)) _ _ _ A B H2).
  Qed.
End Under.

Lemma performs_only cs w o w' : performs_on lets_failing cs w o w' -> forall m, (forall c, In c cs -> ~ call_lets (el_name (c_name c)) (c_args c) m) -> w' m = w m.
Proof.
  destruct (only_lets _ failing_only) as [_ FO].
  induction 1 as [w|c w o w' H|c d rest w a w1 o w' H K IH|c d rest w o w' H N]; intros m Hm; try reflexivity; try exact (FO _ _ _ _ _ H m (Hm c (or_introl eq_refl))).
  rewrite (IH m (fun x Hx => Hm x (or_intror Hx))). exact (FO _ _ _ _ _ H m (Hm c (or_introl eq_refl))).
Qed.

Lemma means_only script w o w' : means_on lets_failing w script o w' -> forall m, ~ lets_name script m -> w' m = w m.
Proof.
  intros [ts k cs o1 w1 Lx K Gs P| | |] m Hm; try reflexivity. eapply performs_only; [exact P|]. intros c Hc X. apply Hm. exists cs, c. split; [exists ts, k; auto|auto].
Qed.

(** A script that reads nothing it lets: a failing run is below the sure one. *)
Lemma means_under script x o x' o2 u2 : (forall n, reads_name script n -> ~ lets_name script n) ->
  means Lmdb x script o x' -> means_on lets_failing x script o2 u2 -> below u2 x' /\ (o2 = o \/ o2 = Crashes).
Proof.
  intros D [ts kept cs o1 w1 Lx K Gs P|ts kept next Lx K Hs|ts kept Lx K N1 N2|F];
    intros [ts' kept' cs' o1' w1' L' K' Gs' P'|ts' kept' next' L' K' Hs'|ts' kept' L' K' N1' N2'|F'];
    try (assert (kept' = kept) as -> by exact (lexed_fun _ _ _ _ _ L' K' Lx K));
    try (exfalso; eapply lexes_not_fails; eassumption; fail).
  - apply parse_ok in Gs'. assert (Gs2 := Gs). apply parse_ok in Gs2. assert (cs' = cs) as -> by congruence.
    assert (Rd : reads_as script cs) by (exists ts, kept; auto).
    apply (performs_under (reads_name script) (lets_name script) D cs x o1 w1 P) with (u := x); try exact P'.
    + intros c n Hc Hn. exists cs, c. auto.
    + intros c n Hc Hn. exists cs, c. auto.
    + intros n _. reflexivity.
    + apply below_refl.
  - exfalso. apply parse_ok in Gs. pose proof (proj2 (parse_err kept (WParse next')) (ex_intro _ next' (conj eq_refl Hs'))). congruence.
  - destruct (N1' _ Gs).
  - exfalso. apply parse_ok in Gs'. pose proof (proj2 (parse_err kept (WParse next)) (ex_intro _ next (conj eq_refl Hs))). congruence.
  - pose proof (proj2 (parse_err kept (WParse next)) (ex_intro _ next (conj eq_refl Hs))).
    pose proof (proj2 (parse_err kept (WParse next')) (ex_intro _ next' (conj eq_refl Hs'))). split; [apply below_refl|left; congruence].
  - destruct (N2' _ Hs).
  - destruct (N1 _ Gs').
  - destruct (N2 _ Hs').
  - split; [apply below_refl|auto].
  - split; [apply below_refl|auto].
Qed.

(** Begun any number of times on a failing disk. *)
Lemma tries_between script w o F : (forall n, reads_name script n -> ~ lets_name script n) -> means Lmdb w script o F ->
  forall k os v, all_mean_on lets_failing w (repeat script k) os v -> P_Again.between (reads_name script) w v F.
Proof.
  intros D M. assert (Q : forall k u, P_Again.between (reads_name script) w u F -> forall os v, all_mean_on lets_failing u (repeat script k) os v -> P_Again.between (reads_name script) w v F).
  { induction k as [|k IH]; intros u Bt os v A; cbn [repeat] in A; inversion A as [|? ? ? o1 os1 u1 ? M1 A1]; subst; [exact Bt|].
    apply (IH u1) with (os := os1); [|exact A1].
    destruct (P_Again.means_steady (reads_name script) (lets_name script) D script w o F M (fun _ H => H) (fun _ H => H) u F Bt (below_refl F)) as (x & Mx & (_ & _ & Bx)).
    destruct (means_under script u o x o1 u1 D Mx M1) as [B1 _]. destruct Bt as (A0 & B0 & _). split; [|split].
    - intros n Rn. rewrite (means_only script u o1 u1 M1 n (D n Rn)). exact (A0 n Rn).
    - exact (below_trans _ _ _ B0 (means_below _ _ _ _ M1)).
    - exact (below_trans _ _ _ B1 Bx). }
  intros k os v A. apply (Q k w) with (os := os); [|exact A]. split; [intros n _; reflexivity|]. split; [apply below_refl|]. eapply P_Again.means_up. exact M.
Qed.

(** ** Logs *)
Lemma log_perform {S} (I : trips_impl S) q s h :
  perform (graph_impl (logged I)) q (s, h) = (fst (perform (graph_impl I) q s), (snd (perform (graph_impl I) q s), h ++ ops_of q)).
Proof.
  destruct q; unfold ops_of; cbn [op_of]; rewrite ?app_nil_r; cbn [perform graph_impl l_add_collection l_remove_collection l_add_entries l_remove_entries]; try reflexivity.
  - unfold graph_add_collection. cbn [logged t_add_collection call_op fst snd]. destruct (t_add_collection I s (el_name c)) as [r x]. reflexivity.
  - unfold graph_remove_collection. cbn [logged t_remove_collection call_op fst snd]. destruct (t_remove_collection I s (el_name c)) as [r x]. reflexivity.
  - unfold graph_add_entries. cbn [logged t_add_triples call_op fst snd]. destruct (t_add_triples I s (el_name c) _) as [[r x] z]. reflexivity.
  - unfold graph_remove_entries. cbn [logged t_remove_triples call_op fst snd]. destruct (t_remove_triples I s (el_name c) _) as [[r x] z]. reflexivity.
Qed.

Lemma log_solo p : forall d, exists ops, forall h g,
  solo LG p ((d, []), h) = (fst (solo (graph_impl heed_impl) p d), ((snd (solo (graph_impl heed_impl) p d), []), h ++ ops))
  /\ solo (graph_impl (logged heed_impl)) p (d, g) = (fst (solo (graph_impl heed_impl) p d), (snd (solo (graph_impl heed_impl) p d), g ++ ops)).
Proof.
  induction p as [r|q k IH]; intros d; cbn [solo].
  - exists []. intros h g. rewrite !app_nil_r. split; reflexivity.
  - destruct (perform (graph_impl heed_impl) q d) as [a d1] eqn:E. destruct (IH a d1) as [ops H]. exists (ops_of q ++ ops). intros h g.
    destruct (H (h ++ ops_of q) (g ++ ops_of q)) as [H1 H2]. rewrite !log_perform, P_TxnConc.at_once_plain, E. cbn [fst snd]. rewrite H1, H2, <- !app_assoc. split; reflexivity.
Qed.

Lemma log_common {S} (L : lig_impl S) x st : solo L (p_run common x) st = run L common x st.
Proof. rewrite solo_run, on_store_common. reflexivity. Qed.

(** A sure run, as the reference has it. *)
Lemma sure_run script d h w : at_f ((d, []), h) -> shows heed_impl d w -> hfits (snd (snd (run LG common script ((d, []), h)))) ->
  exists r d1 w1, run (graph_impl heed_impl) common script d = (r, d1) /\ means Lmdb w script (outcome_of r) w1 /\ shows heed_impl d1 w1
    /\ exists g1, d1 = hafter' g1.
Proof.
  intros (g & Eg & Wg) Sw F. cbn [fst snd] in Eg, Wg. subst d. destruct (log_solo (p_run common script) (hafter' g)) as [ops H]. destruct (H h g) as [H1 H2].
  rewrite !log_common in H1. rewrite !log_common in H2. rewrite H1 in F. cbn [snd] in F.
  destruct (P_Again.whole_run script g w Sw) as (r & g1 & w1 & E1 & E2 & M & S1).
  { change (with_log g) with (hafter' g, g). rewrite H2. cbn [snd]. rewrite P_HeedHist.total_weight_app in *. lia. }
  exists r, (hafter' g1), w1. split; [exact E2|]. split; [exact M|]. split; [exact S1|]. exists g1. reflexivity.
Qed.

Lemma logged_session scripts : forall st rs st', session LG scripts st = (rs, st') -> session AO scripts (fst st) = (rs, fst st').
Proof.
  induction scripts as [|x rest IH]; intros st rs st' E; cbn [session] in *.
  - injection E as <- <-. reflexivity.
  - destruct (run LG common x st) as [r st1] eqn:E1. destruct (session LG rest st1) as [rs2 st2] eqn:E2. injection E as <- <-.
    destruct st as [s h], st1 as [s1 h1]. cbn [fst]. rewrite (logged_run lmdb_at_once _ _ _ _ _ _ E1). cbn [fst]. pose proof (IH _ _ _ E2) as X. cbn [fst] in X. rewrite X. reflexivity.
Qed.

Lemma session_app {S} (L : lig_impl S) xs : forall ys s, session L (xs ++ ys) s
  = let (r1, s1) := session L xs s in let (r2, s2) := session L ys s1 in (r1 ++ r2, s2).
Proof.
  induction xs as [|x xs IH]; intros ys s; cbn [List.app session]; [destruct (session L ys s); reflexivity|].
  destruct (run L common x s) as [r s1]. rewrite IH. destruct (session L xs s1) as [r1 s2]. destruct (session L ys s2) as [r2 s3]. reflexivity.
Qed.

(** ** Lives in the reference *)
Lemma life_reference ds h d w fs : at_f ((d, []), h) -> shows heed_impl d w ->
  (forall fs, hfits (snd (snd (session LG (scripts_of ds) ((d, fs), h))))) ->
  exists os w', all_mean_on lets_failing w (scripts_of ds) os w' /\ seen ds os = map outcome_of (fst (life AO ds (d, fs)))
    /\ shows heed_impl (fst (snd (life AO ds (d, fs)))) w'.
Proof.
  intros A Sw Rm. destruct (life_fails ds d fs) as (fs1 & all & H & Hs). specialize (H []). rewrite app_nil_r in H.
  destruct (session LG (scripts_of ds) ((d, fs1), h)) as [rs st'] eqn:E. pose proof (logged_session _ _ _ _ E) as E'. cbn [fst] in E'. rewrite H in E'. injection E' as <- E'.
  pose proof (Rm fs1) as F. rewrite E in F. cbn [snd] in F.
  destruct (failing_session _ _ w _ _ (at_f_faults _ _ fs1 _ A) Sw E F) as (w' & M & S'). exists (map outcome_of all), w'. split; [exact M|]. split.
  - rewrite <- Hs. clear. revert all. induction ds as [|[x|x m] ds IH]; intros [|a all]; cbn [seen map]; try reflexivity; rewrite ?IH; reflexivity.
  - destruct st' as [[d2 fs2] h2]. cbn [fst] in *. injection E' as -> _. exact S'.
Qed.

(** Dying scripts let run to their ends. *)
Definition to_the_end (e : deed) : deed := match e with Runs x => Runs x | DiesAfter x _ => DiesAfter x (List.length x) end.
Lemma end_life ds : forall st, life AO (map to_the_end ds) st = (seen ds (fst (session AO (scripts_of ds) st)), snd (session AO (scripts_of ds) st)).
Proof.
  induction ds as [|[x|x m] ds IH]; intros st; cbn [map to_the_end life scripts_of session]; [reflexivity| |].
  - destruct (run AO common x st) as [r st1]. rewrite IH. destruct (session AO (scripts_of ds) st1) as [rs st2]. reflexivity.
  - rewrite P_Again.run_is_alone. cbn [snd]. destruct (run AO common x st) as [r st1]. cbn [snd]. rewrite IH. destruct (session AO (scripts_of ds) st1) as [rs st2]. reflexivity.
Qed.
Lemma end_same ds : Forall2 same_deed ds (map to_the_end ds).
Proof. induction ds as [|[x|x m] ds IH]; cbn [map]; constructor; try exact IH; constructor. Qed.

Lemma life_reached ds h d w os w' : at_f ((d, []), h) -> shows heed_impl d w ->
  (forall fs, hfits (snd (snd (session LG (scripts_of ds) ((d, fs), h))))) ->
  all_mean_on lets_failing w (scripts_of ds) os w' ->
  exists ds' fs rs d', Forall2 same_deed ds ds' /\ life AO ds' (d, fs) = (rs, (d', [])) /\ map outcome_of rs = seen ds os /\ shows heed_impl d' w'.
Proof.
  intros A Sw Rm M. destruct (reach_session w _ os w' M d h A Sw Rm) as (fs & rs & d' & h' & Eo & S' & K). specialize (K []). rewrite app_nil_r in K.
  apply logged_session in K. cbn [fst] in K. exists (map to_the_end ds), fs, (seen ds rs), d'. split; [apply end_same|]. split; [rewrite end_life, K; reflexivity|]. split; [|exact S'].
  rewrite <- Eo. clear. revert rs. induction ds as [|[x|x m] ds IH]; intros [|a all]; cbn [seen map]; try reflexivity; rewrite ?IH; reflexivity.
Qed.

(** ** Begun again *)
Lemma attempts_life script ms : forall st, snd (life AO (map (DiesAfter script) ms) st) = attempts AO script ms st.
Proof. induction ms as [|m ms IH]; intros st; [reflexivity|]. cbn [map life]. rewrite IH. reflexivity. Qed.
Lemma scripts_same script ms : scripts_of (map (DiesAfter script) ms) = repeat script (List.length ms).
Proof. induction ms as [|m ms IH]; [reflexivity|]. cbn [map scripts_of repeat List.length]. rewrite IH. reflexivity. Qed.

Lemma retry_exact script ms h fs : (forall n, reads_name script n -> ~ lets_name script n) ->
  let d := hafter' h in
  (forall fs, hfits (snd (snd (session LG (repeat script (S (List.length ms))) ((d, fs), h))))) ->
  exists r d1 r' d2, run (graph_impl heed_impl) common script d = (r, d1)
    /\ run (graph_impl heed_impl) common script (fst (attempts AO script ms (d, fs))) = (r', d2)
    /\ outcome_of r' = outcome_of r /\ look_alike heed_impl d1 d2.
Proof.
  intros D d Rm. destruct (P_Again.shown h) as (w & Sw). assert (A : at_f ((d, []), h)) by (exists h; split; [reflexivity|apply N.le_refl]).
  set (n := List.length ms) in *. set (ds := map (DiesAfter script) ms).
  (* the run at first *)
  assert (F0 : hfits (snd (snd (run LG common script ((d, []), h))))).
  { specialize (Rm []). cbn [repeat session] in Rm. destruct (run LG common script ((d, []), h)) as [r st1] eqn:E1. cbn [snd].
    destruct (session LG (repeat script n) st1) as [rs st2] eqn:E2. cbn [snd] in Rm.
    destruct (follows_run script _ _ _ E1 A) as (A1 & _). destruct (log_session _ _ _ _ E2 A1) as [_ [g Pg]]. rewrite Pg in Rm. exact (fits_before _ _ Rm). }
  destruct (sure_run script d h w A Sw F0) as (r & d1 & F & E1 & M & SF & g1 & Eg1).
  (* the attempts *)
  destruct (life_fails ds d fs) as (fs1 & all & H & Hs). unfold ds in H. rewrite scripts_same in H. fold n in H. rewrite attempts_life in H. specialize (H []). rewrite app_nil_r in H.
  set (da := fst (attempts AO script ms (d, fs))) in *.
  specialize (Rm fs1). replace (repeat script (S n)) with (repeat script n ++ [script]) in Rm by (rewrite <- P_Again.repeat_cons_tail; reflexivity).
  rewrite session_app in Rm. destruct (session LG (repeat script n) ((d, fs1), h)) as [rs [[d2 fs2] h2]] eqn:E2.
  pose proof (logged_session _ _ _ _ E2) as E2'. cbn [fst] in E2'. rewrite H in E2'. injection E2' as <- <- <-.
  cbn [session] in Rm. destruct (run LG common script ((da, []), h2)) as [r3 st3] eqn:E3. cbn [snd] in Rm.
  destruct (log_session _ _ _ _ E2 (at_f_faults _ _ fs1 _ A)) as [A2 [gg Pg]]. cbn [snd] in Pg.
  destruct (follows_run script _ _ _ E3 A2) as (A3 & [g3 P3] & _). cbn [snd] in P3.
  destruct (failing_session _ _ w _ _ (at_f_faults _ _ fs1 _ A) Sw E2) as (v & Mv & Sv). { cbn [snd]. rewrite P3 in Rm. exact (fits_before _ _ Rm). }
  cbn [fst] in Sv. apply lmdb_shows in Sv.
  (* once more *)
  destruct (sure_run script da h2 v A2 Sv) as (r' & d4 & x & E4 & Mx & Sx & g4 & Eg4). { rewrite E3. exact Rm. }
  pose proof (tries_between script w _ F D M n _ v Mv) as Bt.
  destruct (P_Again.means_steady (reads_name script) (lets_name script) D script w _ F M (fun _ H => H) (fun _ H => H) v F Bt (below_refl F)) as (y & My & (_ & B1 & B2)).
  destruct (means_fun Lmdb script v _ _ v _ _ (same_refl v) My Mx) as [Eo Ey].
  exists r, d1, r', d4. split; [exact E1|]. split; [exact E4|]. split; [symmetry; exact Eo|]. subst d1 d4.
  apply (P_Rewrite.alike_same heed_impl _ _ F x SF Sx). apply (P_Again.same_by_below g1 g4 F x SF Sx).
  - intros m l El. destruct (B1 m l El) as (k & Ek & I). exists k. rewrite <- (Ey m). auto.
  - intros m l El. rewrite <- (Ey m) in El. exact (B2 m l El).
Qed.
