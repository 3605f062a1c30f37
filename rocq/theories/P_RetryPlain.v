(** * Proofs: plain scripts begun again after kills and failures *)
From Coq Require Import List Arith NArith Bool String Lia.
From Verif Require Import M_Base M_Data M_Mem M_Heed M_Duck M_Txn M_Regex M_Lexer M_Graph M_Parser M_Display M_Interp M_Conc M_TxnConc
  S_Order S_Str S_Store S_Txn S_Graph S_Lexer S_Parser S_Interp S_Names S_Conc S_TxnConc S_Wander S_Rewrite S_Lines S_Footprint S_Monotone S_Again S_Deaths S_Failing S_Retry
  P_Ord P_Hist P_Lexer P_Parser P_Conc P_WanderDet P_WanderRun P_DeathRun P_Failing P_FailRun P_Retry.
From Verif Require P_Again P_Rewrite P_Footprint P_TxnConc P_HeedHist P_Monotone P_RewriteLaws.
Import P_Monotone.
Import ListNotations.
Open Scope list_scope.

Definition answer_below (o2 : outcome) (b : value) : Prop := forall a, o2 = Answers a -> below_value a b.

Lemma under_let_plain u x c n m o x' o2 u2 : below u x -> incl m n -> binds x c n Lmdb (Answers o) x' -> lets_failing u c m o2 u2 -> below u2 x' /\ answer_below o2 o.
Proof.
  intros Bx I Hx Hu.
  assert (Q : forall k a v, incl k n -> binds u c k Lmdb a v -> below v x' /\ a = Answers done /\ o = done).
  { intros k a v Ik Hk. inversion Hx as [|? Sc Rb|Sc| |]; subst. inversion Hk as [|? Sc' Rb'|Sc'| |]; subst; try contradiction.
    destruct (P_Monotone.binds_below u x c k n Lmdb done done v x' Bx Ik Hk Hx) as (_ & _ & B). auto. }
  assert (Bb : below u x') by (exact (P_FailRun.below_trans _ _ _ Bx (P_FailRun.binds_below _ _ _ _ _ Hx))).
  destruct Hu as [o1 w1 B|E|w1 B|w1 N B].
  - destruct (Q m o1 w1 I B) as (B1 & -> & ->). split; [exact B1|]. intros a Ea. injection Ea as <-. constructor.
  - split; [exact Bb|intros a Ea; discriminate].
  - destruct (Q [] _ w1 (incl_nil_l n) B) as (B1 & E1 & ->). split; [exact B1|]. intros a Ea. rewrite E1 in Ea || idtac. injection Ea as <-. constructor.
  - destruct (Q [] _ w1 (incl_nil_l n) B) as (B1 & _). split; [exact B1|intros a Ea; discriminate].
Qed.

Lemma plain_under :
  (forall v x o x', gives Lmdb v x o x' -> forall b, o = Answers b -> flat v -> plain_value v ->
     forall u o2 u2, below u x -> gives_on lets_failing v u o2 u2 -> below u2 x' /\ answer_below o2 b)
  /\ (forall name args x o x', calls Lmdb name args x o x' -> forall b, o = Answers b -> Forall flat args -> plain name args ->
     forall u o2 u2, below u x -> calls_on lets_failing name args u o2 u2 -> below u2 x' /\ answer_below o2 b).
Proof.
  apply (reference_ind Lmdb
    (fun v x o x' _ => forall b, o = Answers b -> flat v -> plain_value v -> forall u o2 u2, below u x -> gives_on lets_failing v u o2 u2 -> below u2 x' /\ answer_below o2 b)
    (fun name args x o x' _ => forall b, o = Answers b -> Forall flat args -> plain name args ->
       forall u o2 u2, below u x -> calls_on lets_failing name args u o2 u2 -> below u2 x' /\ answer_below o2 b));
    unfold answer_below; intros; subst; try discriminate.
  all: try (match goal with P : plain _ _ |- _ => inversion P as [? ? P1 P2 P3 P4]; subst end; congruence).
  all: match goal with K : gives_on _ _ ?x ?y ?z |- below ?z _ /\ _ => inversion K; subst; clear K
       | K : calls_on _ _ _ ?x ?y ?z |- below ?z _ /\ _ => inversion K; subst; clear K end.
  all: try other_command.
  all: try other_args.
  all: repeat match goal with E : Answers _ = Answers _ |- _ => injection E as <- end.
  all: try (split; [assumption|intros a Ea; first [discriminate|injection Ea as <-; constructor]]; fail).
  - pose proof (H1 _ eq_refl) as Fq. inversion Fq as [|? ? _ Fa]; subst. eapply H; [reflexivity| |apply H2; reflexivity|eassumption|eassumption].
    clear -Fa. induction Fa; constructor; [apply no_quote_flat; assumption|assumption].
  - split; [assumption|]. intros a Ea. injection Ea as <-. constructor. intros e He.
    match goal with X : set_where page ?m, Y : set_where page ?k |- In e ?m => destruct X as [_ X], Y as [_ Y]; apply X, Y, He end.
  - split; [assumption|]. intros a Ea. injection Ea as <-. constructor. intros e He.
    match goal with X : set_where _ ?m, Y : set_where _ ?k, Z : In e ?k |- In e ?m => destruct X as [_ X], Y as [_ Y]; apply X, Y, Z end.
  - split; [assumption|]. intros a ->. eapply reads_below; eassumption.
  - split; [assumption|]. intros a ->. eapply finds_below; eassumption.
  - eapply under_let_plain; [eassumption|apply incl_refl|eassumption|eassumption].
  - match goal with P : plain _ _ |- _ => inversion P as [? ? P1 P2 P3 P4]; subst end.
    match goal with F : Forall flat _ |- _ => inversion F as [|? ? _ F']; subst; inversion F' as [|? ? Fq _]; subst end.
    match goal with K : gives_on _ (VQuote q) _ (Answers (VNetwork ?m)) ?z |- _ =>
      destruct (H _ eq_refl Fq ltac:(intros k qargs E; injection E as ->; apply (P4 c k qargs eq_refl eq_refl)) _ _ _ ltac:(eassumption) K) as [Bl Av];
      assert (I : incl m n) by (pose proof (Av _ eq_refl) as X; inversion X; subst; [apply incl_refl|assumption]) end.
    eapply under_let_plain; eassumption.
  - match goal with P : plain _ _ |- _ => inversion P as [? ? P1 P2 P3 P4]; subst end.
    match goal with F : Forall flat _ |- _ => inversion F as [|? ? _ F']; subst; inversion F' as [|? ? Fq _]; subst end.
    match goal with K : gives_on _ (VQuote q) _ _ ?z |- _ =>
      destruct (H _ eq_refl Fq ltac:(intros k qargs E; injection E as ->; apply (P4 c k qargs eq_refl eq_refl)) _ _ _ ltac:(eassumption) K) as [Bl Av] end.
    split; [|intros a Ea; discriminate]. eapply P_FailRun.below_trans; [exact Bl|]. eapply P_FailRun.binds_below; eassumption.
Qed.

Lemma performs_plain_under cs x b x' : Forall flat_call cs -> (forall c, In c cs -> plain (el_name (c_name c)) (c_args c)) -> performs Lmdb cs x (Answers b) x' ->
  forall u o2 u2, below u x -> performs_on lets_failing cs u o2 u2 -> below u2 x' /\ answer_below o2 b.
Proof.
  intros F Pl H. remember (Answers b) as o eqn:Eo. revert b Eo F Pl.
  induction H as [w|c w o w' H|c d rest w v w1 o w' H K IH|c d rest w o w' H N]; intros b Eo F Pl u o2 u2 Bl P;
    inversion P as [|? ? ? ? H2|? ? ? ? v2 w3 ? ? H2 K2|? ? ? ? ? ? H2 N2]; subst.
  - split; [exact Bl|]. injection Eo as <-. intros a Ea. injection Ea as <-. constructor.
  - inversion F as [|? ? Fc _]; subst. exact (proj2 plain_under _ _ _ _ _ H _ eq_refl Fc (Pl c (or_introl eq_refl)) _ _ _ Bl H2).
  - inversion F as [|? ? Fc Fr]; subst. destruct (proj2 plain_under _ _ _ _ _ H _ eq_refl Fc (Pl c (or_introl eq_refl)) _ _ _ Bl H2) as [Bl1 _].
    exact (IH _ eq_refl Fr (fun x Hx => Pl x (or_intror Hx)) _ _ _ Bl1 K2).
  - inversion F as [|? ? Fc Fr]; subst. destruct (proj2 plain_under _ _ _ _ _ H _ eq_refl Fc (Pl c (or_introl eq_refl)) _ _ _ Bl H2) as [Bl1 _].
    split; [|intros a Ea; destruct (N2 a Ea)]. eapply P_FailRun.below_trans; [exact Bl1|]. eapply P_Again.performs_up. exact K.
  - destruct (N b eq_refl).
  - destruct (N b eq_refl).
Qed.

Lemma means_plain_under script x b x' u o2 u2 : plain_script script -> below u x -> means Lmdb x script (Answers b) x' -> means_on lets_failing u script o2 u2 ->
  below u2 x' /\ answer_below o2 b.
Proof.
  intros Pl Bl M M2. inversion M as [ts k cs o w1 L K G P| | |]; subst. assert (E := G). apply parse_ok in E.
  destruct M2 as [ts' kept' cs' o1' w1' L' K' Gs' P'|ts' kept' next' L' K' Hs'|ts' kept' L' K' N1' N2'|F'];
    try (assert (kept' = k) as -> by exact (lexed_fun _ _ _ _ _ L' K' L K)).
  - apply parse_ok in Gs'. assert (cs' = cs) as -> by congruence.
    eapply performs_plain_under; [eapply g_script_flat; exact G| |exact P|exact Bl|exact P'].
    intros c Hc. apply (Pl cs c); [exists ts, k; auto|exact Hc].
  - exfalso. pose proof (proj2 (parse_err k (WParse next')) (ex_intro _ next' (conj eq_refl Hs'))). congruence.
  - destruct (N1' _ G).
  - exfalso. eapply lexes_not_fails; eassumption.
Qed.

(** Begun [k] times on a failing disk: between the world of the beginning and that
    of [k] sure runs. *)
Lemma tries_plain script w a F : plain_script script -> means Lmdb w script (Answers a) F ->
  forall k os v, all_mean_on lets_failing w (repeat script k) os v ->
  below w v /\ exists us u, all_mean Lmdb w (repeat script k) us u /\ below v u.
Proof.
  intros Pl M k. assert (Q : forall k u x, below w u -> below w x -> below u x -> forall os v, all_mean_on lets_failing u (repeat script k) os v ->
    below u v /\ exists us y, all_mean Lmdb x (repeat script k) us y /\ below v y).
  { clear k. induction k as [|k IH]; intros u x Bu Bx Bux os v A; cbn [repeat] in A; inversion A as [|? ? ? o1 os1 u1 ? M1 A1]; subst.
    - split; [apply below_refl|]. exists [], x. split; [constructor|exact Bux].
    - destruct (means_stay Lmdb ltac:(discriminate) script w a F x Pl Bx M) as (b & x' & Mx).
      destruct (means_plain_under script x b x' u o1 u1 Pl Bux Mx M1) as [B1 _].
      assert (Bu1 : below u u1) by exact (P_FailRun.means_below _ _ _ _ M1).
      destruct (IH u1 x') with (os := os1) (v := v) as (B2 & us & y & Ay & By); [exact (P_FailRun.below_trans _ _ _ Bu Bu1)| |exact B1|exact A1|].
      + eapply P_FailRun.below_trans; [exact Bx|]. eapply P_Again.means_up. exact Mx.
      + split; [exact (P_FailRun.below_trans _ _ _ Bu1 B2)|]. exists (Answers b :: us), y. split; [|exact By]. cbn [repeat]. econstructor; eassumption. }
  intros os v A. exact (Q k w w (below_refl w) (below_refl w) (below_refl w) os v A).
Qed.

(** Sessions on a disk that is well, with and without faults to come and logs. *)
Lemma well_session xs : forall d h, exists rs d' h',
  session LG xs ((d, []), h) = (rs, ((d', []), h'))
  /\ session (graph_impl (logged heed_impl)) xs (d, h) = (rs, (d', h'))
  /\ session (graph_impl heed_impl) xs d = (rs, d').
Proof.
  induction xs as [|x xs IH]; intros d h; cbn [session]; [exists [], d, h; auto|].
  destruct (log_solo (p_run common x) d) as [ops H]. destruct (H h h) as [H1 H2]. rewrite !log_common in H1. rewrite !log_common in H2. rewrite H1, H2.
  destruct (run (graph_impl heed_impl) common x d) as [r d1]. cbn [fst snd].
  destruct (IH d1 (h ++ ops)) as (rs & d' & h' & E1 & E2 & E3). rewrite E1, E2, E3. exists (r :: rs), d', h'. auto.
Qed.

Lemma retry_between script ms h fs a d1 rs d3 : plain_script script ->
  let d := hafter' h in
  (forall fs, hfits (snd (snd (session LG (repeat script (S (List.length ms))) ((d, fs), h))))) ->
  run (graph_impl heed_impl) common script d = (Ok a, d1) ->
  session (graph_impl heed_impl) (repeat script (S (List.length ms))) d = (rs, d3) ->
  exists b c d2, run (graph_impl heed_impl) common script (fst (attempts AO script ms (d, fs))) = (Ok b, d2) /\ nth_error rs (List.length ms) = Some (Ok c)
    /\ below_value a b /\ below_value b c
    /\ forall w1 w2 w3, shows heed_impl d1 w1 -> shows heed_impl d2 w2 -> shows heed_impl d3 w3 -> below w1 w2 /\ below w2 w3.
Proof.
  intros Pl d Rm E1 ES. destruct (P_Again.shown h) as (w & Sw). assert (A : at_f ((d, []), h)) by (exists h; split; [reflexivity|apply N.le_refl]).
  set (n := List.length ms) in *. set (ds := map (DiesAfter script) ms).
  (* the run at first *)
  assert (F0 : hfits (snd (snd (run LG common script ((d, []), h))))).
  { specialize (Rm []). cbn [repeat session] in Rm. destruct (run LG common script ((d, []), h)) as [r st1] eqn:E0. cbn [snd].
    destruct (session LG (repeat script n) st1) as [rs' st2] eqn:E2. cbn [snd] in Rm.
    destruct (follows_run script _ _ _ E0 A) as (A1 & _). destruct (log_session _ _ _ _ E2 A1) as [_ [g Pg]]. rewrite Pg in Rm. exact (fits_before _ _ Rm). }
  destruct (sure_run script d h w A Sw F0) as (r & d1' & F & E1' & M & SF & g1 & Eg1). rewrite E1 in E1'. injection E1' as <- <-. cbn [outcome_of] in M.
  (* the sure session *)
  destruct (well_session (repeat script (S n)) d h) as (rs' & d3' & h3 & W1 & W2 & W3). rewrite ES in W3. injection W3 as <- <-.
  pose proof (Rm []) as R0. rewrite W1 in R0. cbn [snd] in R0.
  destruct (reference_session Lmdb heed_impl heed_new _ (implements_abides _ _ _ _ _ im_lmdb) _ h w rs d3 h3 Sw W2 R0) as (_ & _ & z & Az & Sz).
  (* the attempts *)
  destruct (life_fails ds d fs) as (fs1 & all & H & Hs). unfold ds in H. rewrite scripts_same in H. fold n in H. rewrite attempts_life in H. specialize (H []). rewrite app_nil_r in H.
  set (da := fst (attempts AO script ms (d, fs))) in *.
  specialize (Rm fs1). replace (repeat script (S n)) with (repeat script n ++ [script]) in Rm by (rewrite <- P_Again.repeat_cons_tail; reflexivity).
  rewrite session_app in Rm. destruct (session LG (repeat script n) ((d, fs1), h)) as [rs2 [[d2 fs2] h2]] eqn:E2.
  pose proof (logged_session _ _ _ _ E2) as E2'. cbn [fst] in E2'. rewrite H in E2'. injection E2' as <- <- <-.
  cbn [session] in Rm. destruct (run LG common script ((da, []), h2)) as [r3 st3] eqn:E3. cbn [snd] in Rm.
  destruct (log_session _ _ _ _ E2 (at_f_faults _ _ fs1 _ A)) as [A2 [gg Pg]]. cbn [snd] in Pg.
  destruct (follows_run script _ _ _ E3 A2) as (A3 & [g3 P3] & _). cbn [snd] in P3.
  destruct (failing_session _ _ w _ _ (at_f_faults _ _ fs1 _ A) Sw E2) as (v & Mv & Sv). { cbn [snd]. rewrite P3 in Rm. exact (fits_before _ _ Rm). }
  cbn [fst] in Sv. apply lmdb_shows in Sv.
  (* once more *)
  destruct (sure_run script da h2 v A2 Sv) as (r' & d4 & x & E4 & Mx & Sx & g4 & Eg4). { rewrite E3. exact Rm. }
  destruct (tries_plain script w a F Pl M n _ v Mv) as (B1 & us & u & Au & B2).
  destruct (means_stay Lmdb ltac:(discriminate) script w a F v Pl B1 M) as (b & x' & Mb).
  destruct (means_fun Lmdb script v _ _ v _ _ (same_refl v) Mx Mb) as [Eo _]. rewrite Eo in Mx. apply P_Rewrite.ok_outcome in Eo as ->.
  destruct (means_mono Lmdb script w a F v b x B1 M Mx) as [Bab BFx].
  destruct (means_stay Lmdb ltac:(discriminate) script v b x u Pl B2 Mx) as (c & u' & Mu).
  destruct (means_mono Lmdb script v b x u c u' B2 Mx Mu) as [Bbc Bxu].
  assert (Au' : all_mean Lmdb w (repeat script (S n)) (us ++ [Answers c]) u').
  { rewrite P_Again.repeat_cons_tail. apply P_Again.all_mean_app. exists us, [Answers c], u. split; [reflexivity|]. split; [exact Au|]. econstructor; [exact Mu|constructor]. }
  destruct (all_mean_fun Lmdb _ _ _ _ Az _ _ _ (same_refl w) Au') as [Er Ez].
  assert (Lo : List.length us = n).
  { clear -Au. assert (K : forall ys w os u, all_mean Lmdb w ys os u -> List.length os = List.length ys) by (induction 1; cbn; congruence).
    apply K in Au. rewrite repeat_length in Au. exact Au. }
  exists b, c, d4. split; [exact E4|]. split; [|split; [exact Bab|split; [exact Bbc|]]].
  - assert (X : nth_error (map outcome_of rs) n = Some (Answers c)) by (rewrite Er, <- Lo, nth_error_app2, Nat.sub_diag by lia; reflexivity).
    rewrite nth_error_map in X. destruct (nth_error rs n) as [q|]; [|discriminate]. cbn in X. injection X as X. apply P_Rewrite.ok_outcome in X as ->. reflexivity.
  - intros w1 w2 w3 S1 S2 S3. split; intros m l El.
    + rewrite <- (shows_fun heed_impl _ _ _ SF S1 m) in El. destruct (BFx m l El) as (k & Ek & I). exists k. rewrite <- (shows_fun heed_impl _ _ _ Sx S2 m). auto.
    + rewrite <- (shows_fun heed_impl _ _ _ Sx S2 m) in El. destruct (Bxu m l El) as (k & Ek & I). exists k.
      rewrite <- (shows_fun heed_impl _ _ _ Sz S3 m), (Ez m). auto.
Qed.
