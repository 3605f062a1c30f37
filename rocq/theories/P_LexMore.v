(** * Composition of texts; quoted strings *)
From Coq Require Import List Arith NArith Bool Lia String.
From Verif Require Import M_Base M_Data M_Regex M_Lexer S_Lexer P_Regex P_Lexer.
Import ListNotations.
Open Scope list_scope.

(** ** Facts about lexemes *)

Lemma first_ws_lexeme t c x : ws_char c -> lexeme t (c :: x) -> t = TWS (c :: x) /\ Forall ws_char (c :: x).
Proof.
  intros W L. pose proof (lexeme_by_first _ _ L) as [[e ->]|B].
  - exfalso. inversion L; subst. match goal with F : Forall element_char _ |- _ => inversion F; subst end.
    eapply ws_not_element_char; eauto.
  - assert (t = TWS (c :: x)) as ->.
    { destruct W as [->|[->|[->| ->]]]; cbn in B; congruence. }
    split; [reflexivity|]. inversion L; subst. assumption.
Qed.

Lemma element_no_nl c : element_char c -> c <> 10%N.
Proof. intros E ->. eapply ws_not_element_char; [|exact E]. unfold ws_char. auto. Qed.

Lemma plain_no_nl b : string_body b -> ~ In 10%N b.
Proof.
  induction 1 as [|c s H _ IH|c s H _ IH|a b c d s A B C D _ IH]; cbn [In].
  - tauto.
  - unfold plain_char in H. intros [E|E]; [subst; lia|tauto].
  - intros [E|[E|E]]; [discriminate| |tauto]. subst. cbn in H. intuition discriminate.
  - unfold hex_char in *. intros [E|[E|[E|[E|[E|[E|E]]]]]]; try discriminate; try tauto; subst; lia.
Qed.

(** A lexeme with a newline in it that is not its last character is white space. *)
Lemma inner_nl t x y : lexeme t (x ++ 10%N :: y) ->
  Forall ws_char (x ++ 10%N :: y) \/ (y = [] /\ exists u, x = lit "--" ++ u /\ Forall (fun c => c <> 10%N) u).
Proof.
  intros L. remember (x ++ 10%N :: y) as z eqn:Ez.
  assert (Hin : In 10%N z) by (rewrite Ez; apply in_or_app; right; left; reflexivity).
  destruct L as [z H1 H2|b B| | | | | | |z H1 H2| | |u H|u H]; auto;
    try (exfalso; cbn in Hin; intuition discriminate).
  - exfalso. destruct Hin as [Hin|Hin]; [discriminate|]. apply in_app_or in Hin.
    destruct Hin as [Hin|[Hin|[]]]; [|discriminate]. eapply plain_no_nl; eauto.
  - exfalso. rewrite Forall_forall in H2. exact (element_no_nl _ (H2 _ Hin) eq_refl).
  - exfalso. rewrite Forall_forall in H. apply in_app_or in Hin. destruct Hin as [Hin|Hin].
    + cbn in Hin. intuition discriminate.
    + exact (H _ Hin eq_refl).
  - right. rewrite app_assoc in Ez.
    assert (N : ~ In 10%N (lit "--" ++ u)).
    { intros Hi. apply in_app_or in Hi. destruct Hi as [Hi|Hi]; [cbn in Hi; intuition discriminate|].
      rewrite Forall_forall in H. exact (H _ Hi eq_refl). }
    assert (y = []) as ->.
    { destruct (exists_last (l := 10%N :: y) ltac:(discriminate)) as (k & d & Ek).
      rewrite Ek, app_assoc in Ez. apply app_inj_tail in Ez. destruct Ez as [Ez _].
      destruct k as [|d' k].
      - injection Ek as _ Ek. destruct y; [reflexivity|discriminate].
      - injection Ek as <- _. exfalso. apply N. rewrite Ez. apply in_or_app. right. left. reflexivity. }
    split; [reflexivity|]. apply app_inj_tail in Ez. destruct Ez as [<- _]. exists u. auto.
Qed.

(** ** White space *)

Lemma next_ws w r : w <> [] -> Forall ws_char w -> (forall c r', r = c :: r' -> ~ ws_char c) ->
  next_token (w ++ r) (TWS w) w r.
Proof.
  intros Ne F H. split; [reflexivity|]. split; [constructor; assumption|]. split.
  - intros t' x' rest' E L'. destruct (le_lt_dec (List.length x') (List.length w)) as [Q|Q]; [assumption|exfalso].
    destruct w as [|c w]; [congruence|]. inversion F; subst.
    destruct x' as [|c' x']; [simpl in Q; lia|]. injection E as <- E.
    destruct (first_ws_lexeme t' c x') as [-> F']; [assumption|assumption|].
    inversion F'; subst.
    assert (exists c2 r2, r = c2 :: r2 /\ In c2 x') as (c2 & r2 & -> & Hi).
    { assert (K : firstn (List.length x') (w ++ r) = x')
        by (rewrite E; apply (proj1 (prefix_firstn _ x' rest' eq_refl))).
      rewrite firstn_app in K. rewrite firstn_all2 in K by (simpl in Q; lia).
      destruct r as [|c2 r2].
      - rewrite firstn_nil, app_nil_r in K. subst. simpl in Q. lia.
      - exists c2, r2. split; [reflexivity|]. rewrite <- K. apply in_or_app. right.
        destruct (List.length x' - List.length w) as [|k] eqn:Ek; [simpl in Q; lia|]. left. reflexivity. }
    apply (H c2 r2 eq_refl). match goal with F : Forall ws_char x' |- _ => rewrite Forall_forall in F; auto end.
  - discriminate.
Qed.

Lemma ws_dec c : {ws_char c} + {~ ws_char c}.
Proof.
  destruct (in_cls cls_ws c) eqn:E; [left; apply ws_iff, E|right]. intros H. apply ws_iff in H. congruence.
Qed.

Lemma ws_span s : exists v r, s = v ++ r /\ Forall ws_char v /\ (forall c r', r = c :: r' -> ~ ws_char c).
Proof.
  induction s as [|c s (v & r & -> & F & N)].
  - exists [], []. repeat split; [constructor|discriminate].
  - destruct (ws_dec c) as [W|W].
    + exists (c :: v), r. repeat split; auto.
    + exists [], (c :: v ++ r). repeat split; [constructor|]. intros c' r' E. injection E as <- _. exact W.
Qed.

Lemma ws_before w s2 : w <> [] -> Forall ws_char w ->
  (forall ts2, lexes s2 ts2 -> exists ts, lexes (w ++ s2) ts /\ filter significant ts = filter significant ts2)
  /\ (lex_fails s2 -> lex_fails (w ++ s2)).
Proof.
  intros Ne F. destruct (ws_span s2) as (v & r & -> & Fv & N). destruct v as [|c v].
  - simpl. pose proof (next_ws w r Ne F N) as K. split.
    + intros ts2 L. exists (TWS w :: ts2). split; [econstructor; eauto|reflexivity].
    + intros L. eapply lf_next; eauto.
  - assert (K : next_token (w ++ (c :: v) ++ r) (TWS (w ++ c :: v)) (w ++ c :: v) r).
    { rewrite app_assoc. apply next_ws; [|apply Forall_app; auto|exact N]. destruct w; discriminate. }
    assert (K2 : next_token ((c :: v) ++ r) (TWS (c :: v)) (c :: v) r) by (apply next_ws; auto; discriminate).
    split.
    + intros ts2 L. inversion L as [|s t x rest ts0 N' H0]; subst.
      destruct (next_token_unique _ _ _ _ _ _ _ K2 N') as (<- & <- & <-).
      exists (TWS (w ++ c :: v) :: ts0). split; [econstructor; eauto|reflexivity].
    + intros L. inversion L as [s' [_ St]|s' t' x' rest' N' F']; subst.
      * exfalso. destruct K2 as (E & Lx & _). exact (St _ _ _ E Lx).
      * destruct (next_token_unique _ _ _ _ _ _ _ K2 N') as (<- & <- & <-). eapply lf_next; eauto.
Qed.

(** ** A newline ends whatever was being read *)

Definition open_end (t : token) (rest : str) : Prop :=
  rest = [] /\ ((exists w, t = TWS w) \/ exists u, t = TComment (lit "--" ++ u) /\ Forall (fun c => c <> 10%N) u).

Lemma open_end_dec t x rest : lexeme t x -> open_end t rest \/ ~ open_end t rest.
Proof.
  intros L. unfold open_end. destruct rest as [|c rest]; [|right; intros [E _]; discriminate].
  destruct L as [x H1 H2|b B| | | | | | |x H1 H2| | |u H|u H];
    try (right; intros [_ [[w E]|[w [E _]]]]; discriminate).
  - left. eauto.
  - left. eauto.
  - right. intros [_ [[w E]|[w [E K]]]]; [discriminate|]. injection E as E. subst w.
    rewrite Forall_forall in K. apply (K 10%N); [|reflexivity]. apply in_or_app. right; left; reflexivity.
Qed.

Lemma prefix_split (s1 s2 x' rest' : str) : s1 ++ 10%N :: s2 = x' ++ rest' ->
  (exists r, s1 = x' ++ r) \/ (exists z, x' = s1 ++ 10%N :: z).
Proof.
  revert x'. induction s1 as [|c s1 IH]; intros x' E.
  - destruct x' as [|d x']; [left; exists []; reflexivity|]. right. injection E as <- E. exists x'. reflexivity.
  - destruct x' as [|d x']; [left; exists (c :: s1); reflexivity|]. injection E as <- E.
    destruct (IH _ E) as [[r ->]|[z ->]]; [left; exists r|right; exists z]; reflexivity.
Qed.

Lemma next_extend s1 t x rest s2 : next_token s1 t x rest -> ~ open_end t rest ->
  next_token (s1 ++ 10%N :: s2) t x (rest ++ 10%N :: s2).
Proof.
  intros (E & L & M & P) NO. split; [rewrite E, <- app_assoc; reflexivity|]. split; [exact L|]. split; [|exact P].
  intros t' x' rest' E' L'. destruct (prefix_split _ _ _ _ E') as [[r Er]|[z Ez]]; [eapply M; eauto|].
  exfalso. subst x'.
  assert (Lone : lexeme (TWS s1) s1 \/ (exists u, s1 = lit "--" ++ u /\ Forall (fun c => c <> 10%N) u)).
  { destruct (inner_nl _ _ _ L') as [W|[_ U]]; [left|right; exact U].
    apply Forall_app in W. destruct W as [W _]. constructor; [|exact W]. intros ->.
    apply lexeme_nonempty in L. destruct x; [congruence|discriminate]. }
  assert (Whole : exists t0, lexeme t0 s1 /\ t0 <> TElement (Elem s1 None None)
            /\ ((exists w, t0 = TWS w) \/ exists u, t0 = TComment (lit "--" ++ u) /\ Forall (fun c => c <> 10%N) u)).
  { destruct Lone as [W|(u & Eu & F)].
    - exists (TWS s1). split; [exact W|]. split; [discriminate|eauto].
    - exists (TComment (lit "--" ++ u)). rewrite Eu. split; [constructor; exact F|]. split; [discriminate|eauto]. }
  destruct Whole as (t0 & L0 & Ne & Kind).
  assert (rest = []) as ->.
  { specialize (M t0 s1 [] (eq_sym (app_nil_r _)) L0). rewrite E, app_length in M. destruct rest; [reflexivity|simpl in M; lia]. }
  rewrite app_nil_r in E. subst x.
  assert (t = t0) as ->.
  { assert ((exists e, t = TElement e) \/ (forall e, t <> TElement e)) as [[e ->]|De].
    { destruct t as [ | | | | | | | |e| | | ]; try (right; discriminate). left; eauto. }
    - symmetry. eapply P; eauto.
    - eapply lexeme_unique_nonelement; eauto. intros e ->. apply Ne. rewrite (lexeme_element_text _ _ L0). reflexivity. }
  apply NO. split; [reflexivity|exact Kind].
Qed.

Lemma next_comment_nl u s2 : Forall (fun c => c <> 10%N) u ->
  next_token ((lit "--" ++ u) ++ 10%N :: s2) (TComment (lit "--" ++ u ++ [10%N])) (lit "--" ++ u ++ [10%N]) s2.
Proof.
  intros F. split; [rewrite <- !app_assoc; reflexivity|]. split; [constructor; exact F|]. split; [|discriminate].
  intros t' x' rest' E L'. destruct (prefix_split _ _ _ _ E) as [[r Er]|[z Ez]].
  - apply (f_equal (@List.length N)) in Er. rewrite !app_length in *. simpl in *. lia.
  - subst x'. destruct (inner_nl _ _ _ L') as [W|[-> _]].
    + exfalso. inversion W as [|? ? K _]. unfold ws_char in K. cbn in K. intuition discriminate.
    + rewrite !app_length. simpl. lia.
Qed.

Lemma newline_composes s1 ts1 : lexes s1 ts1 -> forall s2,
  (forall ts2, lexes s2 ts2 -> exists ts, lexes (s1 ++ 10%N :: s2) ts
     /\ filter significant ts = filter significant ts1 ++ filter significant ts2)
  /\ (lex_fails s2 -> lex_fails (s1 ++ 10%N :: s2)).
Proof.
  induction 1 as [|s t x rest ts N L IH]; intros s2.
  - apply (ws_before [10%N] s2); [discriminate|]. constructor; [unfold ws_char; auto|constructor].
  - destruct (open_end_dec t x rest ltac:(apply N)) as [[-> [[w ->]|(u & -> & F)]]|NO].
    + assert (ts = []) as -> by (inversion L as [|? ? ? ? ? N' ?]; subst; [reflexivity|]; apply next_token_shorter in N'; tauto).
      destruct N as (E & Lx & _). rewrite app_nil_r in E. subst s. inversion Lx; subst.
      replace (x ++ 10%N :: s2) with ((x ++ [10%N]) ++ s2) by (rewrite <- app_assoc; reflexivity).
      apply ws_before; [destruct x; discriminate|]. apply Forall_app. split; [assumption|].
      constructor; [unfold ws_char; auto|constructor].
    + assert (ts = []) as -> by (inversion L as [|? ? ? ? ? N' ?]; subst; [reflexivity|]; apply next_token_shorter in N'; tauto).
      destruct N as (E & Lx & _). rewrite app_nil_r in E. subst s.
      apply lexeme_text in Lx. cbn [token_text] in Lx. subst x.
      pose proof (next_comment_nl u s2 F) as K. split.
      * intros ts2 L2. eexists. split; [econstructor; eauto|reflexivity].
      * intros L2. eapply lf_next; eauto.
    + pose proof (next_extend _ _ _ _ s2 N NO) as K. destruct (IH s2) as [I1 I2]. split.
      * intros ts2 L2. destruct (I1 ts2 L2) as (ts' & L' & E'). exists (t :: ts'). split; [econstructor; eauto|].
        cbn [filter]. rewrite E'. destruct (significant t); reflexivity.
      * intros L2. eapply lf_next; eauto.
Qed.

Lemma tokenize_and_filter_newline s1 t1 s2 : tokenize_and_filter s1 = Ok t1 ->
  tokenize_and_filter (s1 ++ 10%N :: s2)
  = match tokenize_and_filter s2 with Ok t2 => Ok (t1 ++ t2) | Err e => Err e | Panic w => Panic w end.
Proof.
  unfold tokenize_and_filter. destruct (tokenize s1) as [ts1|e|w] eqn:E1; try discriminate.
  intros H. injection H as <-. apply tokenize_ok in E1. destruct (newline_composes _ _ E1 s2) as [I1 I2].
  destruct (tokenize s2) as [ts2|e|w] eqn:E2.
  - apply tokenize_ok in E2. destruct (I1 _ E2) as (ts & L & Ef). apply tokenize_ok in L. rewrite L, Ef, map_app. reflexivity.
  - apply tokenize_err in E2. destruct E2 as [-> F]. destruct (tokenize (s1 ++ 10%N :: s2)) as [ts|e|w] eqn:E.
    + apply tokenize_ok in E. exfalso. eapply lexes_not_fails; eauto.
    + apply tokenize_err in E. destruct E as [-> _]. reflexivity.
    + exfalso. eapply tokenize_no_panic; eauto.
  - exfalso. eapply tokenize_no_panic; eauto.
Qed.

(** ** A text that is one token *)

Lemma lexes_whole t x : lexeme t x -> (forall e, t <> TElement e) -> lexes x [t].
Proof.
  intros L N. econstructor; [|constructor]. split; [symmetry; apply app_nil_r|]. split; [exact L|]. split.
  - intros t' x' rest' E _. rewrite E, app_length. lia.
  - intros e Ee. exfalso. exact (N e Ee).
Qed.

Lemma lexes_string b : string_body b -> lexes (34%N :: b ++ [34%N]) [TString b].
Proof. intros B. apply lexes_whole; [constructor; exact B|discriminate]. Qed.

Lemma plain_body s : Forall plain_char s -> string_body s.
Proof. induction 1; constructor; assumption. Qed.

Lemma quoted_verbatim b : string_body b ->
  tokenize ([34%N] ++ b ++ [34%N]) = Ok [TString b]
  /\ tokenize_and_filter ([34%N] ++ b ++ [34%N]) = Ok [TElement (Elem b None None)].
Proof.
  intros B. pose proof (proj2 (tokenize_ok _ _) (lexes_string b B)) as E. split; [exact E|].
  unfold tokenize_and_filter. change ([34%N] ++ b ++ [34%N]) with (34%N :: b ++ [34%N]). rewrite E. reflexivity.
Qed.

Lemma quoted_exactly b : tokenize ([34%N] ++ b ++ [34%N]) = Ok [TString b] <-> string_body b.
Proof.
  split; [|intros B; apply quoted_verbatim, B]. intros H. apply tokenize_ok in H.
  inversion H as [|s t x rest ts N L]; subst. destruct N as (_ & Lx & _). inversion Lx; subst. assumption.
Qed.

Lemma tokenize_and_filter_no_panic s w : tokenize_and_filter s <> Panic w.
Proof.
  unfold tokenize_and_filter. pose proof (tokenize_no_panic s w) as H. destruct (tokenize s); congruence.
Qed.

Lemma lexes_total s :
  (exists ts, lexes s ts /\ (forall ts', lexes s ts' -> ts' = ts) /\ ~ lex_fails s)
  \/ (lex_fails s /\ forall ts, ~ lexes s ts).
Proof.
  destruct (tokenize s) as [ts|e|w] eqn:E.
  - apply tokenize_ok in E. left. exists ts. split; [exact E|]. split; [|eapply lexes_not_fails; eauto].
    intros ts' H. symmetry. eapply lexes_unique; eauto.
  - apply tokenize_err in E. right. split; [apply E|]. intros ts L. eapply lexes_not_fails; [exact L|apply E].
  - exfalso. eapply tokenize_no_panic; eauto.
Qed.

Lemma what_is_kept s ts : tokenize s = Ok ts ->
  exists kept, tokenize_and_filter s = Ok kept
  /\ forall t, In t kept <->
       (In t ts /\ (forall w, t <> TWS w) /\ (forall c, t <> TComment c) /\ (forall b, t <> TString b))
       \/ (exists b, In (TString b) ts /\ t = TElement (Elem b None None)).
Proof.
  intros E. unfold tokenize_and_filter. rewrite E. eexists. split; [reflexivity|]. intros t.
  rewrite in_map_iff. split.
  - intros (u & Eu & Hu). apply filter_In in Hu. destruct Hu as [Hu Sg].
    destruct u; cbn in Eu, Sg; try discriminate; subst t;
      try (left; split; [exact Hu|]; repeat split; intros; discriminate).
    right. eauto.
  - intros [(Hi & N1 & N2 & N3)|(b & Hi & ->)].
    + exists t. split; [destruct t; try reflexivity; exfalso; eapply N3; reflexivity|]. apply filter_In.
      split; [exact Hi|]. destruct t; try reflexivity; exfalso; [eapply N1|eapply N2]; reflexivity.
    + exists (TString b). split; [reflexivity|]. apply filter_In. split; [exact Hi|reflexivity].
Qed.

Lemma keeps_filter ts : keeps ts (map string_to_element (filter significant ts)).
Proof.
  induction ts as [|t ts IH]; [constructor|].
  destruct t; simpl; first [apply kp_ws; exact IH | apply kp_comment; exact IH | apply kp_string; exact IH
    | apply kp_other; [discriminate|discriminate|discriminate|exact IH]].
Qed.

Lemma keeps_unique ts k1 : keeps ts k1 -> forall k2, keeps ts k2 -> k2 = k1.
Proof.
  induction 1 as [|s ts k H IH|s ts k H IH|b ts k H IH|t ts k H1 H2 H3 H IH]; intros k2 K; inversion K; subst; clear K;
    try reflexivity; try (apply IH; assumption); try (f_equal; apply IH; assumption);
    exfalso;
    match goal with
    | A : forall s, ?t <> _ |- _ => solve [eapply A; reflexivity]
    end.
Qed.

Lemma filter_keeps s ts : tokenize s = Ok ts ->
  exists kept, tokenize_and_filter s = Ok kept /\ keeps ts kept /\ (forall kept', keeps ts kept' -> kept' = kept).
Proof.
  intros H. unfold tokenize_and_filter. rewrite H. eexists. split; [reflexivity|].
  split; [apply keeps_filter|]. apply keeps_unique. apply keeps_filter.
Qed.

Lemma filter_err s e : tokenize_and_filter s = Err e <-> tokenize s = Err e.
Proof. unfold tokenize_and_filter. destruct (tokenize s); split; congruence. Qed.
