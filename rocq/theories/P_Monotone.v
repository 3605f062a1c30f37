(** * Proofs: more data *)
From Coq Require Import List Arith NArith Bool String Lia.
From Verif Require Import M_Base M_Data M_Mem M_Heed M_Duck M_Regex M_Lexer M_Graph M_Parser M_Display M_Interp
  S_Order S_Str S_Store S_Graph S_Filter S_Lexer S_Parser S_Display S_Interp S_GraphHist S_Names S_Json
  P_Ord P_Agree P_Lexer P_LexMore P_Parser P_Display P_Graph P_Reread S_Wander P_Wander P_WanderDet S_Rewrite S_Rename S_Template P_Template S_Opaque P_Opaque S_Footprint P_Footprint S_Monotone.
Import ListNotations.
Open Scope list_scope.

(** Values whose quotes hold no quotes: what can be written. *)
Definition no_quote (v : value) : Prop := forall q, v <> VQuote q.
Definition flat (v : value) : Prop := forall q, v = VQuote q -> Forall no_quote q.
Definition flat_call (c : call) : Prop := Forall flat (c_args c).

Lemma g_quote_flat ts vs : g_quote ts vs -> Forall no_quote vs.
Proof. induction 1; constructor; try assumption; intros q; discriminate. Qed.

Lemma no_quote_flat v : no_quote v -> flat v.
Proof. intros N q ->. destruct (N q eq_refl). Qed.

Lemma g_values_flat ts vs : g_values ts vs -> Forall flat vs.
Proof.
  induction 1; constructor; try assumption; try (apply no_quote_flat; intros q'; discriminate).
  intros q' E. injection E as <-. eapply g_quote_flat; eassumption.
Qed.

Lemma g_call_flat ts c : g_call ts c -> flat_call c.
Proof. intros G. apply g_values_flat in G. inversion G; assumption. Qed.

Lemma g_commas_flat ts cs : g_commas ts cs -> Forall flat_call cs.
Proof. induction 1; constructor; [eapply g_call_flat; eassumption|assumption]. Qed.

Lemma g_script_flat ts cs : g_script ts cs -> Forall flat_call cs.
Proof.
  intros [ts' cs' G|ts' cs' ts2 c G Gc]; [eapply g_commas_flat; exact G|].
  apply Forall_app. split; [eapply g_commas_flat; exact G|constructor; [eapply g_call_flat; exact Gc|constructor]].
Qed.

Lemma reads_as_flat s cs : reads_as s cs -> Forall flat_call cs.
Proof. intros (ts & k & _ & _ & G). eapply g_script_flat; exact G. Qed.

Lemma agrees_dec p v : {agrees p v} + {~ agrees p v}.
Proof. unfold agrees. destruct (str_dec p wildcard); [left; auto|]. destruct (str_dec p v); [left; auto|right; tauto]. Qed.

Lemma matches_dec s x r e : {S_Graph.matches (Role s x r) e} + {~ S_Graph.matches (Role s x r) e}.
Proof.
  unfold S_Graph.matches, role_agrees. destruct (agrees_dec (subject (Role s x r)) (subject e)); [|right; tauto].
  destruct (agrees_dec (el_name r) (role_name e)); [|right; tauto]. destruct (agrees_dec (object (Role s x r)) (object e)); [left; auto|right; tauto].
Qed.

Lemma filter_set m s x r : exists k, set_where (fun e => In e m /\ S_Graph.matches (Role s x r) e) k.
Proof.
  set (l := List.filter (fun e => if matches_dec s x r e then true else false) m). exists (inserted l []).
  assert (X : set_of l (inserted l [])) by (apply set_of_collect; reflexivity). destruct X as [X1 X2]. split; [exact X1|].
  intros e. rewrite <- (X2 e). unfold l. rewrite filter_In. destruct (matches_dec s x r e); [tauto|]. split; [intros [_ H]; discriminate|tauto].
Qed.

Section Monotone.
  Variable B : backend.

  Lemma below_refl w : below w w.
  Proof. intros n l E. exists l. split; [exact E|apply incl_refl]. Qed.

  Lemma no_quote_gives v w o w' : no_quote v -> gives B v w o w' -> w' = w /\ o = Answers v.
  Proof. intros N H. destruct v as [e|q|n]; [inversion H; auto|destruct (N q eq_refl)|inversion H; auto]. Qed.

  (** A quote without quotes that fails leaves the world alone. *)
  Lemma fails_stay name args w e w' : Forall no_quote args -> calls B name args w (Fails e) w' -> w' = w.
  Proof.
    intros F H. inversion H; subst; try reflexivity;
    repeat match goal with K : Forall no_quote (_ :: _) |- _ => inversion K; clear K; subst end;
    repeat match goal with N : no_quote (VQuote ?q) |- _ => destruct (N q eq_refl) end;
    repeat match goal with N : no_quote ?v, K : gives B ?v _ _ _ |- _ => apply (no_quote_gives _ _ _ _ N) in K as [? ?]; subst end; try reflexivity.
    match goal with K : binds _ _ _ _ (Fails _) _ |- _ => inversion K end.
  Qed.

  Lemma quote_fails_stay q w e w' : Forall no_quote q -> gives B (VQuote q) w (Fails e) w' -> w' = w.
  Proof. intros F H. inversion H; subst. inversion F; subst. eapply fails_stay; eassumption. Qed.

  Lemma rebound_below w v c P Q w' v' : below w v -> rebound w c P w' -> rebound v c Q v' -> (forall e, P e -> Q e) -> below w' v'.
  Proof.
    intros Bl [(l & E & S & H) O] [(m & E' & S' & H') O'] PQ n k Ek. destruct (str_dec n c) as [->|N].
    - rewrite E in Ek. injection Ek as <-. exists m. split; [exact E'|]. intros e He. apply H', PQ, H, He.
    - rewrite (O n N) in Ek. rewrite (O' n N). apply Bl, Ek.
  Qed.

  Lemma stored_incl n m e : incl n m -> stored_form n e -> stored_form m e.
  Proof. intros I (x & Hx & K). exists x. split; [apply I, Hx|exact K]. Qed.

  Lemma reads_below w v c B0 a b : below w v -> reads w c B0 (Answers a) -> reads v c B0 (Answers b) -> below_value a b.
  Proof.
    intros Bl H H'. inversion H as [? l E| | |E]; subst; inversion H' as [? m E'| | |E']; subst.
    - destruct (Bl c l E) as (m' & Em & I). assert (m' = m) as -> by congruence. constructor. exact I.
    - destruct (Bl c l E) as (m' & Em & I). congruence.
    - constructor. intros e [].
    - constructor.
  Qed.

  Lemma finds_below w v c p B0 a b : below w v -> finds w c p B0 (Answers a) -> finds v c p B0 (Answers b) -> below_value a b.
  Proof.
    intros Bl H H'. inversion H as [l k E N [S K]| | | |]; subst. inversion H' as [l' k' E' N' [S' K']| | | |]; subst.
    destruct (Bl c l E) as (m & Em & I). assert (m = l') as -> by congruence. constructor. intros e He. apply K in He as [He M]. apply K'. split; [apply I, He|exact M].
  Qed.

  Lemma binds_below w v c n m B0 a b w' v' : below w v -> incl n m -> binds w c n B0 (Answers a) w' -> binds v c m B0 (Answers b) v' -> a = done /\ b = done /\ below w' v'.
  Proof.
    intros Bl I H H'. inversion H as [? R|? Sc R| |? E R|]; subst; inversion H' as [? R'|? Sc' R'| |? E' R'|]; subst; (split; [reflexivity|]; split; [reflexivity|]);
      (eapply rebound_below; [exact Bl|exact R|exact R'|]); intros e.
    - apply stored_incl, I.
    - intros [(l & E & He)|He]; [left|right; eapply stored_incl; eassumption]. destruct (Bl _ _ E) as (k & Ek & Ik). exists k. split; [exact Ek|apply Ik, He].
    - apply stored_incl, I.
  Qed.

  Definition value_mono (v : value) (w : world) (o : outcome) (w' : world) : Prop := flat v -> forall a, o = Answers a ->
    forall u b u', below w u -> gives B v u (Answers b) u' -> below_value a b /\ below w' u'.
  Definition call_mono (name : str) (args : list value) (w : world) (o : outcome) (w' : world) : Prop := Forall flat args -> forall a, o = Answers a ->
    forall u b u', below w u -> calls B name args u (Answers b) u' -> below_value a b /\ below w' u'.

  Lemma monotone :
    (forall v w o w', gives B v w o w' -> value_mono v w o w')
    /\ (forall name args w o w', calls B name args w o w' -> call_mono name args w o w').
  Proof.
    apply (reference_ind B (fun v w o w' _ => value_mono v w o w') (fun name args w o w' _ => call_mono name args w o w'));
      unfold value_mono, call_mono; intros; subst; try discriminate.
    all: match goal with K : gives _ _ ?x (Answers ?y) ?z |- below_value _ ?y /\ below _ ?z => inversion K; subst; clear K
         | K : calls _ _ _ ?x (Answers ?y) ?z |- below_value _ ?y /\ below _ ?z => inversion K; subst; clear K end.
    all: try other_command.
    all: try other_args.
    all: repeat match goal with E : Answers _ = Answers _ |- _ => injection E as <- end.
    all: try (split; [constructor|assumption]; fail).
    all: repeat match goal with K : Forall flat (_ :: _) |- _ => inversion K; clear K; subst end.
    - match goal with K : flat (VQuote (VElement _ :: _)) |- _ => pose proof (K _ eq_refl) as Fq end. inversion Fq as [|? ? _ Fa]; subst.
      eapply H; [|reflexivity|eassumption|eassumption]. clear -Fa. induction Fa; constructor; [apply no_quote_flat; assumption|assumption].
    - split; [|assumption]. constructor. intros e He. destruct s as [_ K]. match goal with X : set_where page ?m |- In e ?m => destruct X as [_ X]; apply X, K, He end.
    - split; [|assumption]. constructor. intros e He. destruct s as [_ K]. match goal with X : set_where _ ?m |- In e ?m => destruct X as [_ X]; apply X, K, He end.
    - split; [|assumption]. eapply reads_below; eassumption.
    - split; [|assumption]. eapply finds_below; eassumption.
    - split; [constructor|].
      match goal with K1 : gives _ _ u (Answers _) _ |- _ => destruct (H ltac:(assumption) _ eq_refl _ _ _ ltac:(eassumption) K1) as [_ Bl1] end.
      match goal with K2 : gives _ _ _ (Answers _) u' |- _ => destruct (H0 ltac:(assumption) _ eq_refl _ _ _ Bl1 K2) as [_ Bl2] end. exact Bl2.
    - split; [constructor|]. match goal with K : flat (VQuote ?q) |- _ => pose proof (K _ eq_refl) as Fq end.
      repeat match goal with K : gives _ (VQuote q) _ (Fails _) _ |- _ => apply (quote_fails_stay _ _ _ _ Fq) in K end. subst. assumption.
    - match goal with K : binds w _ _ _ _ _, K' : binds u _ _ _ _ _ |- _ => destruct (binds_below _ _ _ _ _ _ _ _ _ _ ltac:(eassumption) (incl_refl _) K K') as (-> & -> & Bl) end.
      split; [constructor|exact Bl].
    - match goal with K1 : gives _ _ u (Answers _) _ |- _ => destruct (H ltac:(assumption) _ eq_refl _ _ _ ltac:(eassumption) K1) as [Bv Bl1] end.
      assert (I : incl n n0) by (inversion Bv; subst; [apply incl_refl|assumption]).
      match goal with K : binds w1 _ _ _ _ _, K' : binds _ _ _ _ _ u' |- _ => destruct (binds_below _ _ _ _ _ _ _ _ _ _ Bl1 I K K') as (-> & -> & Bl) end.
      split; [constructor|exact Bl].
  Qed.

  Lemma performs_mono cs w a w' : Forall flat_call cs -> performs B cs w (Answers a) w' -> forall u b u', below w u -> performs B cs u (Answers b) u' ->
    below_value a b /\ below w' u'.
  Proof.
    intros F H. remember (Answers a) as o eqn:Eo. revert a Eo F.
    induction H as [w|c w o w' H|c d rest w v w1 o w' H K IH|c d rest w o w' H N]; intros a Eo F u b u' Bl P.
    - inversion P; subst. injection Eo as <-. split; [constructor|exact Bl].
    - inversion F; subst. inversion P; subst. eapply (proj2 monotone); [eassumption|assumption|reflexivity|eassumption|eassumption].
    - inversion F as [|? ? Fc Fr]; subst. inversion P as [| |? ? ? ? v2 u1 ? ? H2 K2|? ? ? ? ? ? H2 N2]; subst; [|destruct (N2 b eq_refl)].
      destruct (proj2 monotone _ _ _ _ _ H Fc _ eq_refl _ _ _ Bl H2) as [_ Bl1]. exact (IH _ eq_refl Fr _ _ _ Bl1 K2).
    - destruct (N a Eo).
  Qed.

  Lemma means_mono script w a w' u b u' : below w u -> means B w script (Answers a) w' -> means B u script (Answers b) u' -> below_value a b /\ below w' u'.
  Proof.
    intros Bl M M'. inversion M as [ts k cs o w1 L K G P| | |]; subst. inversion M' as [ts' k' cs' o' w1' L' K' G' P'| | |]; subst.
    assert (k' = k) as -> by exact (lexed_fun _ _ _ _ _ L' K' L K). apply parse_ok in G as E. apply parse_ok in G' as E'. assert (cs' = cs) as -> by congruence.
    eapply performs_mono; [eapply g_script_flat; exact G|exact P|exact Bl|exact P'].
  Qed.

  (** ** Answers stay answers *)
  Hypothesis ND : B <> DuckDb.

  Lemma reads_stay w u c a : below w u -> reads w c B (Answers a) -> exists b, reads u c B (Answers b).
  Proof.
    intros Bl H. remember B as B0 eqn:EB. inversion H as [? l E| | |E]; subst; [|congruence]. destruct (Bl c l E) as (m & Em & _). eexists. constructor. exact Em.
  Qed.

  Lemma binds_stay w u c n m a w' : below w u -> binds w c n B (Answers a) w' -> exists b u', binds u c m B (Answers b) u'.
  Proof.
    intros Bl H. assert (G : forall P : entry -> Prop, (exists l, forall e, In e l <-> P e) -> exists u', rebound u c P u').
    { intros P (l & Hl). exists (put u c (inserted l [])). apply put_rebound.
      assert (X : set_of l (inserted l [])) by (apply set_of_collect; reflexivity). destruct X as [X1 X2]. split; [exact X1|]. intros e. rewrite <- (X2 e). apply Hl. }
    assert (St : exists l, forall e, In e l <-> stored_form m e).
    { exists (map (fun e => read_entry (Elem (subject e) None None) (Elem (role_name e) None None) (Elem (object e) None None)) m). intros e. rewrite in_map_iff. split.
      - intros (x & <- & Hx). exists x. split; [exact Hx|]. unfold normalises. destruct (read_entry_names (Elem (subject x) None None) (Elem (role_name x) None None) (Elem (object x) None None)) as (N & E1 & E2 & E3); [split; reflexivity..|]. auto.
      - intros (x & Hx & N & E1 & E2 & E3). exists x. split; [|exact Hx].
        destruct (read_entry_names (Elem (subject x) None None) (Elem (role_name x) None None) (Elem (object x) None None)) as (N' & E1' & E2' & E3'); [split; reflexivity..|].
        cbn in E1', E2', E3'. apply normal_names; congruence. }
    remember B as B0 eqn:EB. inversion H as [? R|? Sc R| |? E R|]; subst; [| |congruence].
    - destruct (G _ St) as (u' & Ru). eexists. exists u'. constructor. exact Ru.
    - destruct St as (l & Hl). destruct (G (fun e => (exists k, u c = Some k /\ In e k) \/ stored_form m e)) as (u' & Ru).
      + exists (match u c with Some k => k | None => [] end ++ l). intros e. rewrite in_app_iff, (Hl e). destruct (u c) as [k|]; [|split; [intros [[]|]; auto|intros [(k & X & _)|]; [discriminate|auto]]].
        split; (intros [X|X]; [left|right; exact X]); [eauto|]. destruct X as (k' & E & X). injection E as <-. exact X.
      + eexists. exists u'. constructor; [exact Sc|exact Ru].
  Qed.

  Lemma finds_stay w u c s x r a : below w u -> ~ variable_name (el_name s) -> ~ variable_name (el_name x) -> ~ variable_name (el_name r) ->
    finds w c (Role s x r) B (Answers a) -> exists b, finds u c (Role s x r) B (Answers b).
  Proof.
    intros Bl Ns Nx Nr H. remember B as B0 eqn:EB. inversion H as [l k E N Hk| | | |]; subst. destruct (Bl c l E) as (m & Em & _).
    destruct (filter_set m s x r) as (k' & Hk'). eexists. eapply fi_found; [exact Em| |exact Hk'].
    intros e _ [V|[[_ V]|(_ & _ & V)]]; cbn in V; contradiction.
  Qed.

  Definition plain_value (v : value) : Prop := forall n qargs, v = VQuote (VElement n :: qargs) -> plain (el_name n) qargs.

  Lemma stays :
    (forall v w o w', gives B v w o w' -> forall a, o = Answers a -> flat v -> plain_value v -> forall u, below w u -> exists b u', gives B v u (Answers b) u')
    /\ (forall name args w o w', calls B name args w o w' -> forall a, o = Answers a -> Forall flat args -> plain name args -> forall u, below w u -> exists b u', calls B name args u (Answers b) u').
  Proof.
    apply (reference_ind B
      (fun v w o w' _ => forall a, o = Answers a -> flat v -> plain_value v -> forall u, below w u -> exists b u', gives B v u (Answers b) u')
      (fun name args w o w' _ => forall a, o = Answers a -> Forall flat args -> plain name args -> forall u, below w u -> exists b u', calls B name args u (Answers b) u'));
      intros; subst; try discriminate.
    all: try (match goal with P : plain _ _ |- _ => inversion P as [? ? P1 P2 P3 P4]; subst end; congruence).
    - do 2 eexists. constructor.
    - do 2 eexists. constructor.
    - do 2 eexists. constructor.
    - pose proof (H1 _ eq_refl) as Fq. inversion Fq as [|? ? _ Fa]; subst.
      destruct (H _ eq_refl) with (u := u) as (b & u' & K); [|apply H2; reflexivity|assumption|].
      + clear -Fa. induction Fa; constructor; [apply no_quote_flat; assumption|assumption].
      + do 2 eexists. constructor. exact K.
    - do 2 eexists. apply ca_id.
    - do 2 eexists. apply ca_ignore.
    - do 2 eexists. apply ca_docs. eassumption.
    - do 2 eexists. apply ca_union. eassumption.
    - destruct (reads_stay _ _ _ _ ltac:(eassumption) r) as (b & K). exists b, u. apply ca_read. exact K.
    - match goal with P : plain _ _ |- _ => inversion P as [? ? P1 P2 P3 P4]; subst end.
      destruct (finds_stay w u (el_name c) s x r a) as (b & K); [assumption|apply P3; [reflexivity|cbn; tauto]..|assumption|]. exists b, u. apply ca_filter. exact K.
    - destruct (binds_stay _ _ _ _ n _ _ ltac:(eassumption) b) as (b' & u' & K). exists b', u'. apply ca_let. exact K.
    - match goal with P : plain _ _ |- _ => inversion P as [? ? P1 P2 P3 P4]; subst end.
      match goal with F : Forall flat _ |- _ => inversion F as [|? ? _ F']; subst; inversion F' as [|? ? Fq _]; subst end.
      destruct (H _ eq_refl Fq) with (u := u) as (b1 & u1 & K); [|assumption|].
      + intros m qargs E. injection E as ->. apply (P4 c m qargs eq_refl eq_refl).
      + destruct (proj1 monotone _ _ _ _ g Fq _ eq_refl u b1 u1 ltac:(assumption) K) as [Bv Bl].
        assert (X : exists k, b1 = VNetwork k) by (inversion Bv; eauto). destruct X as (k & ->).
        destruct (binds_stay _ _ _ _ k _ _ Bl b) as (b' & u' & K'). exists b', u'. eapply ca_let_quote; eassumption.
  Qed.

  Lemma performs_stay cs w a w' : Forall flat_call cs -> (forall c, In c cs -> plain (el_name (c_name c)) (c_args c)) -> performs B cs w (Answers a) w' ->
    forall u, below w u -> exists b u', performs B cs u (Answers b) u'.
  Proof.
    intros F Pl H. remember (Answers a) as o eqn:Eo. revert a Eo F Pl.
    induction H as [w|c w o w' H|c d rest w v w1 o w' H K IH|c d rest w o w' H N]; intros a Eo F Pl u Bl.
    - do 2 eexists. constructor.
    - inversion F as [|? ? Fc _]; subst. destruct (proj2 stays _ _ _ _ _ H _ eq_refl Fc (Pl c (or_introl eq_refl)) u Bl) as (b & u' & K). do 2 eexists. constructor. exact K.
    - inversion F as [|? ? Fc Fr]; subst. destruct (proj2 stays _ _ _ _ _ H _ eq_refl Fc (Pl c (or_introl eq_refl)) u Bl) as (b & u1 & K1).
      destruct (proj2 monotone _ _ _ _ _ H Fc _ eq_refl _ _ _ Bl K1) as [_ Bl1].
      destruct (IH _ eq_refl Fr (fun x Hx => Pl x (or_intror Hx)) u1 Bl1) as (b2 & u2 & K2). do 2 eexists. eapply pe_more; eassumption.
    - destruct (N a Eo).
  Qed.

  Lemma means_stay script w a w' u : plain_script script -> below w u -> means B w script (Answers a) w' -> exists b u', means B u script (Answers b) u'.
  Proof.
    intros Pl Bl M. inversion M as [ts k cs o w1 L K G P| | |]; subst.
    destruct (performs_stay cs w a w') with (u := u) as (b & u' & P'); try assumption; [eapply g_script_flat; exact G| |].
    - intros c Hc. apply (Pl cs c); [exists ts, k; auto|exact Hc].
    - do 2 eexists. eapply me_runs; eassumption.
  Qed.
End Monotone.
