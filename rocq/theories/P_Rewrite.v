(** * Proofs: programs that may stand for each other *)
From Coq Require Import List Arith NArith Bool String Lia.
From Verif Require Import M_Base M_Data M_Mem M_Heed M_Duck M_Regex M_Lexer M_Graph M_Parser M_Display M_Interp
  S_Order S_Str S_Store S_Graph S_Filter S_Lexer S_Parser S_Display S_Interp S_GraphHist S_Names S_Json
  P_Ord P_Hist P_Lexer P_LexMore P_Parser P_Display P_Mem P_Heed P_HeedHist P_HeedMore P_Duck P_Graph P_Interp P_InterpMore
  P_InterpStores P_Crash P_InterpProps P_Filter P_Agree P_Sim P_Names S_Wander P_Wander P_WanderStores P_WanderDet P_WanderRun S_Rewrite.
Import ListNotations.
Open Scope list_scope.

Lemma alike_same {S} (I : trips_impl S) s1 s2 w1 w2 : shows I s1 w1 -> shows I s2 w2 -> same_world w1 w2 -> look_alike I s1 s2.
Proof.
  intros H1 H2 E w. split; intros H.
  - eapply shows_same; [|exact H2]. intros n. rewrite <- E. exact (shows_fun I _ _ _ H1 H n).
  - eapply shows_same; [|exact H1]. intros n. rewrite E. exact (shows_fun I _ _ _ H2 H n).
Qed.

Lemma ok_outcome (r : wres value) v : outcome_of r = Answers v -> r = Ok v.
Proof. destruct r; cbn; congruence. Qed.

Lemma fail_outcome (r : wres value) e : outcome_of r = Fails e -> r = Err e.
Proof. destruct r; cbn; congruence. Qed.

Lemma crash_outcome (r : wres value) : outcome_of r = Crashes -> exists w, r = Panic w.
Proof. destruct r; cbn; try congruence. eauto. Qed.

Lemma outcome_dec (r : wres value) : (exists v, r = Ok v) \/ failed r.
Proof. destruct r; [eauto|right; intros v; discriminate..]. Qed.

Section Rewrite.
  Context (B : backend) {S : Type} (I : trips_impl S) (s0 : S) (room : list op -> Prop) (HI : implements B I s0 room).
  Notation G := (graph_impl I).
  Notation LG := (graph_impl (logged I)).
  Notation ast h := (after I s0 h).
  Notation exch := (exchange I s0 room).

  Let AB : abides B I s0 room := implements_abides _ _ _ _ _ HI.

  Lemma a_world h : exists w, shows I (ast h) w.
  Proof. eexists. apply world_of_shows. intros n. eapply implements_readable. exact HI. Qed.

  Lemma room_prefix h g : room (h ++ g) -> room h.
  Proof. apply (ab_prefix _ _ _ _ AB). Qed.

  (** A run of calls, followed in the reference. *)
  Lemma followed cs h r s1 h1 : Forall proper_call cs -> run_calls LG common cs (ast h, h) = (r, (s1, h1)) ->
    s1 = ast h1 /\ (exists g, h1 = h ++ g)
    /\ (room h1 -> forall w, shows I (ast h) w -> exists w1, performs B cs w (outcome_of r) w1 /\ shows I s1 w1).
  Proof.
    intros P E. apply (runs_iff _ _ common_table) in E. exact (follows_runs B I s0 room AB cs _ _ _ E P eq_refl).
  Qed.

  Lemma by_reference (C : world -> Prop) cs ds : Forall proper_call cs -> Forall proper_call ds ->
    (forall h w o1 w1 o2 w2, shows I (ast h) w -> C w -> performs B cs w o1 w1 -> performs B ds w o2 w2 -> o1 = o2 /\ same_world w1 w2) ->
    exch C cs ds.
  Proof.
    intros P1 P2 H h r s1 h1 r' s2 h2 (w & Hw & Cw) E1 R1 E2 R2.
    destruct (followed _ _ _ _ _ P1 E1) as (_ & _ & K1). destruct (followed _ _ _ _ _ P2 E2) as (_ & _ & K2).
    destruct (K1 R1 w Hw) as (w1 & M1 & S1). destruct (K2 R2 w Hw) as (w2 & M2 & S2).
    destruct (H h w _ _ _ _ Hw Cw M1 M2) as [E Es]. split; [exact E|]. eapply alike_same; eassumption.
  Qed.

  (** From stores that look alike a program does the same. *)
  Lemma on_alike cs h1 h2 r1 s1 k1 r2 s2 k2 : Forall proper_call cs -> look_alike I (ast h1) (ast h2) ->
    run_calls LG common cs (ast h1, h1) = (r1, (s1, k1)) -> room k1 ->
    run_calls LG common cs (ast h2, h2) = (r2, (s2, k2)) -> room k2 ->
    outcome_of r1 = outcome_of r2 /\ look_alike I s1 s2.
  Proof.
    intros P A E1 R1 E2 R2. destruct (followed _ _ _ _ _ P E1) as (_ & _ & K1). destruct (followed _ _ _ _ _ P E2) as (_ & _ & K2).
    destruct (a_world h1) as [w Hw]. destruct (K1 R1 w Hw) as (w1 & M1 & S1). destruct (K2 R2 w (proj1 (A w) Hw)) as (w2 & M2 & S2).
    destruct (performs_fun B cs w _ _ M1 w _ _ (same_refl w) M2) as [E Es]. split; [exact E|]. eapply alike_same; eassumption.
  Qed.

  Lemma alike_refl s : look_alike I s s.
  Proof. intros w. tauto. Qed.

  (** Before and after. *)
  Lemma run_app c1 c2 st r st' : c2 <> [] -> run_calls LG common (c1 ++ c2) st = (r, st') ->
    (failed r /\ run_calls LG common c1 st = (r, st')) \/ (exists v st1, run_calls LG common c1 st = (Ok v, st1) /\ run_calls LG common c2 st1 = (r, st')).
  Proof.
    intros N E. rewrite (calls_app LG common) in E. destruct (run_calls LG common c1 st) as [a st1] eqn:E1. destruct a as [v|e|w].
    - right. exists v, st1. split; [reflexivity|]. destruct c2; [destruct (N eq_refl)|exact E].
    - left. injection E as <- <-. split; [intros v; discriminate|reflexivity].
    - left. injection E as <- <-. split; [intros v; discriminate|reflexivity].
  Qed.

  Lemma prepend (C : world -> Prop) pre cs ds : Forall proper_call pre -> Forall proper_call cs -> Forall proper_call ds -> cs <> [] -> ds <> [] -> exch C cs ds ->
    exch (fun w => forall v w', performs B pre w (Answers v) w' -> C w') (pre ++ cs) (pre ++ ds).
  Proof.
    intros P Pc Pd N1 N2 H h r s1 h1 r' s2 h2 (w & Hw & HC) E1 R1 E2 R2.
    destruct (run_app _ _ _ _ _ N1 E1) as [[F1 X1]|(v & [sm hm] & X1 & Y1)]; destruct (run_app _ _ _ _ _ N2 E2) as [[F2 X2]|(v' & [x' y'] & X2 & Y2)].
    - rewrite X1 in X2. injection X2 as <- <- <-. split; [reflexivity|apply alike_refl].
    - rewrite X1 in X2. injection X2 as -> -> ->. destruct (F1 _ eq_refl).
    - rewrite X1 in X2. injection X2 as <- <- <-. destruct (F2 _ eq_refl).
    - rewrite X1 in X2. injection X2 as <- <- <-. destruct (followed _ _ _ _ _ P X1) as (-> & [g Pg] & K).
      destruct (followed _ _ _ _ _ Pc Y1) as (_ & [g' ->] & _).
      eapply (H hm); [|exact Y1|exact R1|exact Y2|exact R2].
      destruct (K (room_prefix _ _ R1) w Hw) as (w1 & M & Sw). exists w1. split; [exact Sw|]. exact (HC _ _ M).
  Qed.

  Lemma append (C : world -> Prop) cs ds post : Forall proper_call cs -> Forall proper_call ds -> Forall proper_call post -> exch C cs ds ->
    exch C (cs ++ post) (ds ++ post).
  Proof.
    intros Pc Pd Pp H. destruct post as [|p post]; [rewrite !app_nil_r; exact H|].
    intros h r s1 h1 r' s2 h2 HC E1 R1 E2 R2. assert (N : p :: post <> []) by discriminate.
    destruct (run_app _ _ _ _ _ N E1) as [[F1 X1]|(v & [x y] & X1 & Y1)]; destruct (run_app _ _ _ _ _ N E2) as [[F2 X2]|(v' & [x' y'] & X2 & Y2)].
    - exact (H h _ _ _ _ _ _ HC X1 R1 X2 R2).
    - exfalso. destruct (followed _ _ _ _ _ Pd X2) as (-> & _ & _). destruct (followed _ _ _ _ _ Pp Y2) as (_ & [g ->] & _).
      destruct (H h _ _ _ _ _ _ HC X1 R1 X2 (room_prefix _ _ R2)) as [E _]. exact (failed_outcome _ F1 _ E).
    - exfalso. destruct (followed _ _ _ _ _ Pc X1) as (-> & _ & _). destruct (followed _ _ _ _ _ Pp Y1) as (_ & [g ->] & _).
      destruct (H h _ _ _ _ _ _ HC X1 (room_prefix _ _ R1) X2 R2) as [E _]. exact (failed_outcome _ F2 _ (eq_sym E)).
    - destruct (followed _ _ _ _ _ Pc X1) as (-> & _ & _). destruct (followed _ _ _ _ _ Pd X2) as (-> & _ & _).
      destruct (followed _ _ _ _ _ Pp Y1) as (_ & [g1 ->] & _). destruct (followed _ _ _ _ _ Pp Y2) as (_ & [g2 ->] & _).
      destruct (H h _ _ _ _ _ _ HC X1 (room_prefix _ _ R1) X2 (room_prefix _ _ R2)) as [_ A].
      exact (on_alike _ _ _ _ _ _ _ _ _ Pp A Y1 R1 Y2 R2).
  Qed.

  Lemma surround (C : world -> Prop) pre cs ds post :
    Forall proper_call pre -> Forall proper_call cs -> Forall proper_call ds -> Forall proper_call post -> cs <> [] -> ds <> [] -> exch C cs ds ->
    exch (fun w => forall v w', performs B pre w (Answers v) w' -> C w') (pre ++ cs ++ post) (pre ++ ds ++ post).
  Proof.
    intros Pp Pc Pd Pq N1 N2 H. apply prepend; try (apply Forall_app; split; assumption); try assumption.
    - intros E. apply app_eq_nil in E as [E _]. contradiction.
    - intros E. apply app_eq_nil in E as [E _]. contradiction.
    - apply append; assumption.
  Qed.

  (** ** Inside quotes *)
  Lemma does_one n args st r st' : does LG common n args st r st' <-> run_calls LG common [Call n args] st = (r, st').
  Proof. apply (does_iff LG common common_table). Qed.

  Lemma one_proper n args : Forall proper args -> Forall proper_call [Call n args].
  Proof. intros H. constructor; [exact H|constructor]. Qed.

  Lemma quote_call x st r st' : quotes LG common (VElement (c_name x) :: c_args x) st r st' -> run_calls LG common [x] st = (r, st').
  Proof. intros H. destruct x as [n args]. apply does_one. inversion H as [|? ? ? ? ? K|? ? ? N]; subst; [exact K|]. destruct (N _ eq_refl). Qed.

  Lemma common_acts n f doc args st r st' : In (lit n, Command doc f) (@common (S * list op)) ->
    run_calls LG common [named n args] st = (r, st') -> acts LG common f args st r st'.
  Proof.
    intros Hc E. apply does_one in E. inversion E as [? ? ? N|? c ? ? ? ? Hi A]; subst; [destruct (N _ Hc)|].
    apply (cmd_get_iff _ _ _ common_table) in Hc. apply (cmd_get_iff _ _ _ common_table) in Hi. cbn [el_name] in Hi. rewrite Hc in Hi. injection Hi as <-. exact A.
  Qed.

  Definition inverted (r : wres value) (o : outcome) : Prop :=
    match r with
    | Ok _ => o = Fails (WErr (lit "Expected failure."))
    | Err _ => o = Answers done
    | Panic _ => o = Crashes
    end.

  Lemma fail_inv x st r st' : run_calls LG common [named "assert-fail" [quoted x]] st = (r, st') ->
    exists r1, run_calls LG common [x] st = (r1, st') /\ inverted r1 (outcome_of r).
  Proof.
    intros E. eapply (common_acts "assert-fail" FAssertFail) in E; [|vm_compute; tauto].
    inversion E as [? ? ? ? ? K| | | | | |? ? N|? ? ? ? K|? ? ? ? K|? ? ? ? K| | | | |]; subst.
    - inversion K.
    - destruct (N _ eq_refl).
    - eexists. split; [exact (quote_call _ _ _ _ K)|reflexivity].
    - eexists. split; [exact (quote_call _ _ _ _ K)|reflexivity].
    - eexists. split; [exact (quote_call _ _ _ _ K)|reflexivity].
  Qed.

  Lemma let_inv c x st r st' : run_calls LG common [named "let" [VElement c; quoted x]] st = (r, st') ->
    exists r1 st1, run_calls LG common [x] st = (r1, st1)
      /\ ((exists n, r1 = Ok (VNetwork n) /\ stores LG c n st1 r st')
          \/ ((forall n, r1 <> Ok (VNetwork n)) /\ st' = st1 /\ outcome_of r = Crashes)).
  Proof.
    intros E. eapply (common_acts "let" FLet) in E; [|vm_compute; tauto].
    inversion E as [? ? ? ? ? K| | | | | | | | | | |? ? ? ? ? ? ? K T|? ? ? ? ? K|? ? ? ? ? K N1 N2|? ? N1 N2]; subst.
    - inversion K.
    - do 2 eexists. split; [exact (quote_call _ _ _ _ K)|]. left. eauto.
    - do 2 eexists. split; [exact (quote_call _ _ _ _ K)|]. right. split; [intros n; discriminate|auto].
    - do 2 eexists. split; [exact (quote_call _ _ _ _ K)|]. right. auto.
    - destruct (N2 _ _ eq_refl).
  Qed.

  (** What assert-equal makes of the two values. *)
  Definition compared (a : value) (b : wres value) (o : outcome) : Prop :=
    match b with
    | Ok b => (a = b /\ o = Answers done)
              \/ (a <> b /\ o = Fails (WErr (lit "Assertion failed, " ++ display a ++ lit " != " ++ display b)))
    | Err e => o = Fails e
    | Panic _ => o = Crashes
    end.

  Lemma equal_inv l r st o st' : run_calls LG common [named "assert-equal" [l; r]] st = (o, st') ->
    exists a st1, evals LG common l st a st1
      /\ ((failed a /\ o = a /\ st' = st1)
          \/ exists v b, a = Ok v /\ evals LG common r st1 b st' /\ compared v b (outcome_of o)).
  Proof.
    intros E. eapply (common_acts "assert-equal" FAssertEqual) in E; [|vm_compute; tauto].
    inversion E as [? ? ? ? ? K|? ? N|? ? ? ? ? K F|? ? ? ? ? ? ? K1 K2 F|? ? ? ? ? ? K1 K2|? ? ? ? ? ? ? K1 K2 N| | | | | | | | |]; subst.
    - inversion K.
    - destruct (N eq_refl).
    - do 2 eexists. split; [exact K|]. left. auto.
    - do 2 eexists. split; [exact K1|]. right. do 2 eexists. split; [reflexivity|]. split; [exact K2|].
      destruct o; [destruct (F _ eq_refl)|reflexivity|reflexivity].
    - do 2 eexists. split; [exact K1|]. right. do 2 eexists. split; [reflexivity|]. split; [exact K2|]. left. auto.
    - do 2 eexists. split; [exact K1|]. right. do 2 eexists. split; [reflexivity|]. split; [exact K2|]. right. auto.
  Qed.

  Lemma compared_fun a b b' o o' : outcome_of b = outcome_of b' -> compared a b o -> compared a b' o' -> o = o'.
  Proof.
    destruct b, b'; cbn; intros E; try discriminate; try injection E as <-; try congruence.
    intros [[H1 H2]|[H1 H2]] [[H3 H4]|[H3 H4]]; congruence.
  Qed.

  Lemma inverted_fun r r' o o' : outcome_of r = outcome_of r' -> inverted r o -> inverted r' o' -> o = o'.
  Proof. destruct r, r'; cbn; intros E; try discriminate; congruence. Qed.

  Lemma eval_quoted x st r st' : evals LG common (quoted x) st r st' -> run_calls LG common [x] st = (r, st').
  Proof. intros H. inversion H; subst. apply quote_call. assumption. Qed.

  (** Evaluating a value, followed in the reference. *)
  Lemma followed_value v h r s1 h1 : proper v -> evals LG common v (ast h, h) r (s1, h1) ->
    s1 = ast h1 /\ (exists g, h1 = h ++ g)
    /\ (room h1 -> forall w, shows I (ast h) w -> exists w1, gives B v w (outcome_of r) w1 /\ shows I s1 w1).
  Proof. intros P E. destruct (follows_all B I s0 room AB) as (FE & _). exact (FE v _ _ _ E P eq_refl). Qed.

  Lemma value_on_alike v h1 h2 r1 s1 k1 r2 s2 k2 : proper v -> look_alike I (ast h1) (ast h2) ->
    evals LG common v (ast h1, h1) r1 (s1, k1) -> room k1 ->
    evals LG common v (ast h2, h2) r2 (s2, k2) -> room k2 ->
    outcome_of r1 = outcome_of r2 /\ look_alike I s1 s2.
  Proof.
    intros P A E1 R1 E2 R2. destruct (followed_value _ _ _ _ _ P E1) as (_ & _ & K1). destruct (followed_value _ _ _ _ _ P E2) as (_ & _ & K2).
    destruct (a_world h1) as [w Hw]. destruct (K1 R1 w Hw) as (w1 & M1 & S1). destruct (K2 R2 w (proj1 (A w) Hw)) as (w2 & M2 & S2).
    destruct (proj1 (reference_fun B) v w _ _ M1 w _ _ (same_refl w) M2) as [E Es]. split; [exact E|]. eapply alike_same; eassumption.
  Qed.

  Lemma stores_on_alike c n h1 h2 r1 s1 k1 r2 s2 k2 : look_alike I (ast h1) (ast h2) ->
    stores LG c n (ast h1, h1) r1 (s1, k1) -> room k1 ->
    stores LG c n (ast h2, h2) r2 (s2, k2) -> room k2 ->
    outcome_of r1 = outcome_of r2 /\ look_alike I s1 s2.
  Proof.
    intros A E1 R1 E2 R2. destruct (follows_stores B I s0 room AB c n _ _ _ E1 eq_refl) as (_ & _ & K1).
    destruct (follows_stores B I s0 room AB c n _ _ _ E2 eq_refl) as (_ & _ & K2).
    destruct (a_world h1) as [w Hw]. destruct (K1 R1 w Hw) as (w1 & M1 & S1). destruct (K2 R2 w (proj1 (A w) Hw)) as (w2 & M2 & S2).
    destruct (binds_fun _ _ _ _ _ _ _ _ _ (same_refl w) M1 M2) as [E Es]. split; [exact E|]. eapply alike_same; eassumption.
  Qed.

  Section One.
    Variables (C : world -> Prop) (x y : call).
    Hypothesis Px : proper_call x.
    Hypothesis Py : proper_call y.
    Hypothesis H : exch C [x] [y].

    Lemma px : Forall proper_call [x]. Proof. constructor; [exact Px|constructor]. Qed.
    Lemma py : Forall proper_call [y]. Proof. constructor; [exact Py|constructor]. Qed.

    Lemma inside_fail : exch C [named "assert-fail" [quoted x]] [named "assert-fail" [quoted y]].
    Proof.
      intros h r s1 h1 r' s2 h2 HC E1 R1 E2 R2.
      destruct (fail_inv _ _ _ _ E1) as (a & X1 & V1). destruct (fail_inv _ _ _ _ E2) as (b & X2 & V2).
      destruct (H h _ _ _ _ _ _ HC X1 R1 X2 R2) as [E A]. split; [|exact A]. exact (inverted_fun _ _ _ _ E V1 V2).
    Qed.

    Lemma inside_let c : exch C [named "let" [VElement c; quoted x]] [named "let" [VElement c; quoted y]].
    Proof.
      intros h r s1 h1 r' s2 h2 HC E1 R1 E2 R2.
      destruct (let_inv _ _ _ _ _ E1) as (a & [sa ha] & X1 & V1). destruct (let_inv _ _ _ _ _ E2) as (b & [sb hb] & X2 & V2).
      destruct (followed _ _ _ _ _ px X1) as (-> & _ & _). destruct (followed _ _ _ _ _ py X2) as (-> & _ & _).
      assert (Ra : room ha).
      { destruct V1 as [(n & _ & T)|(_ & T & _)].
        - destruct (follows_stores B I s0 room AB c n _ _ _ T eq_refl) as (_ & [g P] & _). cbn [snd] in P. rewrite P in R1. exact (room_prefix _ _ R1).
        - injection T as _ ->. exact R1. }
      assert (Rb : room hb).
      { destruct V2 as [(n & _ & T)|(_ & T & _)].
        - destruct (follows_stores B I s0 room AB c n _ _ _ T eq_refl) as (_ & [g P] & _). cbn [snd] in P. rewrite P in R2. exact (room_prefix _ _ R2).
        - injection T as _ ->. exact R2. }
      destruct (H h _ _ _ _ _ _ HC X1 Ra X2 Rb) as [E A].
      destruct V1 as [(n & -> & T1)|(N1 & T1 & O1)]; destruct V2 as [(m & -> & T2)|(N2 & T2 & O2)].
      - cbn in E. injection E as <-. exact (stores_on_alike _ _ _ _ _ _ _ _ _ _ A T1 R1 T2 R2).
      - symmetry in E. apply ok_outcome in E. destruct (N2 _ E).
      - apply ok_outcome in E. destruct (N1 _ E).
      - injection T1 as -> ->. injection T2 as -> ->. split; [congruence|exact A].
    Qed.

    Lemma inside_left v : proper v -> exch C [named "assert-equal" [quoted x; v]] [named "assert-equal" [quoted y; v]].
    Proof.
      intros Pv h r s1 h1 r' s2 h2 HC E1 R1 E2 R2.
      destruct (equal_inv _ _ _ _ _ E1) as (a & [sa ha] & X1 & V1). destruct (equal_inv _ _ _ _ _ E2) as (b & [sb hb] & X2 & V2).
      apply eval_quoted in X1, X2. destruct (followed _ _ _ _ _ px X1) as (-> & _ & _). destruct (followed _ _ _ _ _ py X2) as (-> & _ & _).
      assert (Ra : room ha).
      { destruct V1 as [(_ & _ & T)|(w & b0 & _ & T & _)].
        - injection T as _ ->. exact R1.
        - destruct (followed_value _ _ _ _ _ Pv T) as (_ & [g ->] & _). exact (room_prefix _ _ R1). }
      assert (Rb : room hb).
      { destruct V2 as [(_ & _ & T)|(w & b0 & _ & T & _)].
        - injection T as _ ->. exact R2.
        - destruct (followed_value _ _ _ _ _ Pv T) as (_ & [g ->] & _). exact (room_prefix _ _ R2). }
      destruct (H h _ _ _ _ _ _ HC X1 Ra X2 Rb) as [E A].
      destruct V1 as [(F1 & -> & T1)|(u & c1 & -> & T1 & O1)]; destruct V2 as [(F2 & -> & T2)|(u' & c2 & -> & T2 & O2)].
      - injection T1 as -> ->. injection T2 as -> ->. auto.
      - destruct (failed_outcome _ F1 _ E).
      - destruct (failed_outcome _ F2 _ (eq_sym E)).
      - cbn in E. injection E as <-. destruct (value_on_alike _ _ _ _ _ _ _ _ _ Pv A T1 R1 T2 R2) as [E A2]. split; [|exact A2].
        exact (compared_fun _ _ _ _ _ E O1 O2).
    Qed.

    Lemma inside_right v : proper v ->
      exch (fun w => forall a w', gives B v w (Answers a) w' -> C w') [named "assert-equal" [v; quoted x]] [named "assert-equal" [v; quoted y]].
    Proof.
      intros Pv h r s1 h1 r' s2 h2 (w & Hw & HC) E1 R1 E2 R2.
      destruct (equal_inv _ _ _ _ _ E1) as (a & [sa ha] & X1 & V1). destruct (equal_inv _ _ _ _ _ E2) as (b & [sb hb] & X2 & V2).
      assert (EX : a = b /\ sa = sb /\ ha = hb).
      { apply (evals_iff LG common common_table) in X1, X2. destruct v; rewrite X1 in X2; injection X2; auto. }
      destruct EX as (<- & <- & <-). destruct (followed_value _ _ _ _ _ Pv X1) as (-> & _ & K).
      destruct V1 as [(F1 & -> & T1)|(u & c1 & -> & T1 & O1)]; destruct V2 as [(F2 & -> & T2)|(u' & c2 & EQ & T2 & O2)].
      - injection T1 as -> ->. injection T2 as -> ->. split; [reflexivity|apply alike_refl].
      - subst a. destruct (F1 _ eq_refl).
      - destruct (F2 _ eq_refl).
      - injection EQ as <-. apply eval_quoted in T1, T2. destruct (followed _ _ _ _ _ px T1) as (_ & [g Pg] & _).
        assert (Ra : room ha) by (rewrite Pg in R1; exact (room_prefix _ _ R1)). destruct (K Ra w Hw) as (w1 & M & Sw).
        destruct (H ha _ _ _ _ _ _ (ex_intro _ w1 (conj Sw (HC _ _ M))) T1 R1 T2 R2) as [E A]. split; [|exact A].
        exact (compared_fun _ _ _ _ _ E O1 O2).
    Qed.
  End One.

  Lemma quoted_proper x : proper (quoted x) -> proper_call x.
  Proof. intros P. inversion P as [|q Hq|]; subst. inversion Hq; subst. assumption. Qed.

  Lemma deep_exchange (R : call -> call -> Prop) : (forall x y, R x y -> exch anywhere [x] [y]) ->
    forall x y, deep R x y -> proper_call x -> proper_call y -> exch anywhere [x] [y].
  Proof.
    intros HR x y D. induction D as [x y H|c x y D IH|x y D IH|v x y D IH|v x y D IH]; intros Px Py.
    - exact (HR _ _ H).
    - inversion Px as [|? ? _ Qx]; subst. inversion Qx; subst. inversion Py as [|? ? _ Qy]; subst. inversion Qy; subst.
      apply inside_let; try (apply quoted_proper; assumption). apply IH; apply quoted_proper; assumption.
    - inversion Px; subst. inversion Py; subst. apply inside_fail. apply IH; apply quoted_proper; assumption.
    - inversion Px as [|? ? ? Qx]; subst. inversion Qx; subst. inversion Py as [|? ? ? Qy]; subst.
      apply inside_left; try (apply quoted_proper; assumption); [|assumption]. apply IH; apply quoted_proper; assumption.
    - inversion Px as [|? ? ? Qx]; subst. inversion Qx; subst. inversion Py as [|? ? ? Qy]; subst. inversion Qy; subst.
      assert (PX : proper_call x) by (apply quoted_proper; assumption). assert (PY : proper_call y) by (apply quoted_proper; assumption).
      pose proof (inside_right anywhere x y PX (IH PX PY) v ltac:(assumption)) as K.
      intros h r s1 h1 r' s2 h2 (w & Hw & _). apply (K h r s1 h1 r' s2 h2). exists w. split; [exact Hw|]. intros; exact Logic.I.
  Qed.

  (** ** Scripts *)
  Lemma reads_as_run script cs st : reads_as script cs -> run LG common script st = run_calls LG common cs st.
  Proof.
    intros (ts & kept & L & K & Gs). apply tokenize_ok in L. destruct (filter_keeps _ _ L) as (k & Ek & Kp & _).
    assert (k = kept) as -> by (eapply keeps_unique; eassumption).
    exact (proj2 (proj2 (proj2 (run_outcomes _ LG common script st) _ Ek)) _ Gs).
  Qed.

  Lemma reads_as_proper script cs : reads_as script cs -> Forall proper_call cs.
  Proof. intros (ts & kept & _ & _ & Gs). exact (g_script_proper _ _ Gs). Qed.

  Lemma script_exchange (C : world -> Prop) x y cs ds : reads_as x cs -> reads_as y ds -> exch C cs ds -> exchange_scripts I s0 room C x y.
  Proof.
    intros Rx Ry H h r s1 h1 r' s2 h2 HC E1 R1 E2 R2. rewrite (reads_as_run _ _ _ Rx) in E1. rewrite (reads_as_run _ _ _ Ry) in E2.
    exact (H h _ _ _ _ _ _ HC E1 R1 E2 R2).
  Qed.
End Rewrite.
