(** * Scripts made from templates *)
From Coq Require Import List Arith NArith Bool Lia String.
From Verif Require Import M_Base M_Data M_Regex M_Lexer M_Graph M_Parser M_Display M_Interp
  S_Order S_Graph S_Lexer S_Parser S_Display S_Template P_Ord P_Agree P_Graph P_Regex P_Lexer P_LexMore P_Parser P_Display P_Reread.
Import ListNotations.
Open Scope list_scope.

(** ** A quote ends whatever was being read *)
Definition open_comment (t : token) (rest : str) : Prop :=
  rest = [] /\ exists u, t = TComment (lit "--" ++ u) /\ Forall (fun c => c <> 10%N) u.

Lemma split_at (c : N) (s1 s2 x' rest' : str) : s1 ++ c :: s2 = x' ++ rest' ->
  (exists r, s1 = x' ++ r) \/ (exists z, x' = s1 ++ c :: z).
Proof.
  revert x'. induction s1 as [|d s1 IH]; intros x' E.
  - destruct x' as [|e x']; [left; exists []; reflexivity|]. right. injection E as <- E. exists x'. reflexivity.
  - destruct x' as [|e x']; [left; exists (d :: s1); reflexivity|]. injection E as <- E.
    destruct (IH _ E) as [[r ->]|[z ->]]; [left; exists r|right; exists z]; reflexivity.
Qed.

Lemma quote_char : ~ ws_char 34 /\ ~ element_char 34.
Proof. split; [apply quote_not_ws|]. intros E. apply element_char_iff in E. vm_compute in E. discriminate. Qed.

Lemma first_quote t x : lexeme t (34%N :: x) -> exists b, string_body b /\ x = b ++ [34%N] /\ t = TString b.
Proof.
  intros L. remember (34%N :: x) as z eqn:Ez.
  destruct L as [z H1 H2|b B| | | | | | |z H1 H2| | |u H|u H]; try discriminate; subst.
  - inversion H2; subst. destruct quote_char. tauto.
  - injection Ez as <-. eauto.
  - inversion H2; subst. destruct quote_char. tauto.
Qed.

Lemma inner_quote t d x z : lexeme t ((d :: x) ++ 34%N :: z) ->
  (d = 34%N /\ exists b, string_body b /\ x ++ 34%N :: z = b ++ [34%N])
  \/ exists u, d :: x = lit "--" ++ u /\ Forall (fun c => c <> 10%N) u.
Proof.
  intros L. remember ((d :: x) ++ 34%N :: z) as y eqn:Ey.
  assert (Hin : In 34%N y) by (rewrite Ey; apply in_or_app; right; left; reflexivity).
  destruct L as [y H1 H2|b B| | | | | | |y H1 H2| | |u H|u H]; try (exfalso; cbn in Hin; intuition discriminate).
  - exfalso. rewrite Forall_forall in H2. exact (proj1 quote_char (H2 _ Hin)).
  - left. injection Ey as <- Ey. split; [reflexivity|]. exists b. auto.
  - exfalso. rewrite Forall_forall in H2. exact (proj2 quote_char (H2 _ Hin)).
  - right. cbn [app] in Ey. destruct x as [|d2 x]; [discriminate|]. injection Ey as <- <- Ey.
    exists x. split; [reflexivity|]. rewrite Ey in H. apply Forall_app in H. apply H.
  - right. cbn [app] in Ey. destruct x as [|d2 x]; [discriminate|]. injection Ey as <- <- Ey.
    exists x. split; [reflexivity|].
    destruct (exists_last (l := 34%N :: z) ltac:(discriminate)) as (k & e & Ek). rewrite Ek, app_assoc in Ey.
    apply app_inj_tail in Ey. destruct Ey as [Ey _]. rewrite Ey in H. apply Forall_app in H. apply H.
Qed.

Lemma next_before_quote s1 t x rest s2 : next_token s1 t x rest -> ~ open_comment t rest ->
  next_token (s1 ++ 34%N :: s2) t x (rest ++ 34%N :: s2).
Proof.
  intros (E & L & M & P) NO. split; [rewrite E, <- app_assoc; reflexivity|]. split; [exact L|]. split; [|exact P].
  intros t' x' rest' E' L'. destruct (split_at _ _ _ _ _ E') as [[r Er]|[z Ez]]; [eapply M; eauto|].
  exfalso. subst x'. destruct s1 as [|d s1].
  { apply lexeme_nonempty in L. destruct x; [congruence|discriminate]. }
  destruct (inner_quote _ _ _ _ L') as [[-> (b & B & Eb)]|(u & Eu & F)].
  - destruct x as [|d x]; [exact (lexeme_nonempty _ _ L eq_refl)|]. injection E as <- E. destruct (first_quote _ _ L) as (b' & B' & -> & _).
    assert (X : b' = b).
    { apply (body_prefix b' B' b (rest ++ 34%N :: z) []); [exact B|]. rewrite <- Eb, E, <- !app_assoc. reflexivity. }
    subst b'. assert (List.length (s1 ++ 34%N :: z) = List.length (b ++ [34%N])) as X by (rewrite Eb; reflexivity).
    rewrite E in X. rewrite !app_length in X. cbn [List.length] in X. lia.
  - rewrite Eu in *.
    assert (L0 : lexeme (TComment (lit "--" ++ u)) (lit "--" ++ u)) by (constructor; exact F).
    assert (rest = []) as ->.
    { specialize (M _ _ [] (eq_sym (app_nil_r _)) L0). rewrite E, app_length in M. destruct rest; [reflexivity|simpl in M; lia]. }
    rewrite app_nil_r in E. subst x. apply NO. split; [reflexivity|]. exists u. split; [|exact F].
    assert ((exists e, t = TElement e) \/ (forall e, t <> TElement e)) as [[e ->]|De].
    { destruct t as [ | | | | | | | |e| | | ]; try (right; discriminate). left; eauto. }
    + symmetry. eapply P; eauto.
    + eapply lexeme_unique_nonelement; eauto. discriminate.
Qed.

Lemma before_quote p ts : lexes p ts -> (forall before c, ts = before ++ [TComment c] -> exists d, c = d ++ [10%N]) ->
  forall s2, (forall tr, lexes (34%N :: s2) tr -> lexes (p ++ 34%N :: s2) (ts ++ tr))
    /\ (lex_fails (34%N :: s2) -> lex_fails (p ++ 34%N :: s2)).
Proof.
  induction 1 as [|s t x rest ts N L IH]; intros C s2; [auto|].
  assert (NO : ~ open_comment t rest).
  { intros [-> (u & -> & F)].
    assert (ts = []) as -> by (inversion L as [|? ? ? ? ? N' ?]; subst; [reflexivity|]; apply next_token_shorter in N'; tauto).
    destruct (C [] _ eq_refl) as (d & Ed).
    assert (K : Forall (fun c => c <> 10%N) (lit "--" ++ u)).
    { apply Forall_app. split; [repeat constructor; discriminate|exact F]. }
    rewrite Ed in K. apply Forall_app in K. destruct K as [_ K]. inversion K; congruence. }
  pose proof (next_before_quote _ _ _ _ s2 N NO) as K. destruct (IH (fun b c E => C (t :: b) c (f_equal (cons t) E)) s2) as [I1 I2]. split.
  - intros tr T. cbn [app]. econstructor; [exact K|]. apply I1, T.
  - intros T. eapply lf_next; [exact K|]. apply I2, T.
Qed.

(** ** The tokens of a filled template *)
Definition qu (b : str) : str := 34%N :: b ++ [34%N].

Inductive filled_tokens : list str -> str -> list str -> list token -> Prop :=
| ft_last last ts : lexes last ts -> filled_tokens [] last [] ts
| ft_hole p ps last b bs ts us : lexes p ts -> filled_tokens ps last bs us -> filled_tokens (p :: ps) last (b :: bs) (ts ++ TString b :: us).

Lemma fill_lexes ps last : Forall ends_clean ps -> (exists ts, lexes last ts) -> forall bs, Forall string_body bs ->
  List.length ps = List.length bs -> exists ts, lexes (fill qu ps last bs) ts /\ filled_tokens ps last bs ts.
Proof.
  intros F (tl & Tl). induction F as [|p ps (ts & T & C) F IH]; intros [|b bs] B Len; try discriminate.
  - exists tl. split; [exact Tl|constructor; exact Tl].
  - inversion B; subst. destruct (IH bs) as (us & U & H); [assumption|simpl in Len; lia|].
    exists (ts ++ TString b :: us). split; [|constructor; assumption]. cbn [fill]. unfold qu. rewrite <- app_comm_cons.
    apply (before_quote p ts T C). exact (reads_string b ltac:(assumption) _ _ U).
Qed.

Lemma filled_unique ps last bs ts : filled_tokens ps last bs ts -> forall cs, List.length bs = List.length cs ->
  exists us, filled_tokens ps last cs us /\ forall R : str -> str -> Prop, (forall a, R a a) ->
    (forall i b c, nth_error bs i = Some b -> nth_error cs i = Some c -> R b c) ->
    Forall2 (fun t u => t = u \/ exists b c, t = TString b /\ u = TString c /\ R b c) ts us.
Proof.
  induction 1 as [last ts L|p ps last b bs ts us L H IH]; intros [|c cs] Len; try discriminate.
  - exists ts. split; [constructor; exact L|]. intros R _ _. clear. induction ts; constructor; auto.
  - destruct (IH cs) as (vs & V & K); [simpl in Len; lia|]. exists (ts ++ TString c :: vs). split; [constructor; assumption|].
    intros R Rr Rh. apply Forall2_app; [clear; induction ts; constructor; auto|]. constructor.
    + right. exists b, c. repeat split. apply (Rh 0); reflexivity.
    + apply K; [exact Rr|]. intros i x y Hx Hy. apply (Rh (S i)); assumption.
Qed.

(** ** Tokens that are alike are programs that are alike *)
Section Like.
  Variable R : str -> str -> Prop.
  Variable Rr : forall a, R a a.

  Inductive like_token : token -> token -> Prop :=
  | lt_same t : (forall e, t <> TElement e) -> (forall b, t <> TString b) -> like_token t t
  | lt_element a b : like_element R a b -> like_token (TElement a) (TElement b).

  Lemma kept_like ts us : Forall (fun t => forall e, t = TElement e -> bare e) ts ->
    Forall2 (fun t u => t = u \/ exists b c, t = TString b /\ u = TString c /\ R b c) ts us ->
    Forall2 like_token (kept ts) (kept us).
  Proof.
    intros B H. induction H as [|t u ts us Htu H IH]; [constructor|]. inversion B as [|? ? Bt Bts]; subst. specialize (IH Bts).
    destruct Htu as [<-|(b & c & -> & -> & Hr)].
    - unfold kept. cbn [filter]. destruct t; cbn [significant]; try exact IH; cbn [map string_to_element];
        (constructor; [|exact IH]); try (constructor; discriminate).
      + apply lt_element. constructor. apply Rr.
      + apply lt_element. destruct e as [n ns lg]. destruct (Bt _ eq_refl) as [X Y]. cbn in X, Y. subst. constructor. apply Rr.
    - unfold kept. cbn [filter significant map string_to_element]. constructor; [|exact IH]. apply lt_element. constructor. exact Hr.
  Qed.

  Lemma like_written a b c e a' b' c' : like_element R a a' -> like_element R b b' -> like_element R c c' -> written a b c e ->
    exists e', written a' b' c' e' /\ like_entry R e e'.
  Proof.
    intros Ha Hb Hc W. apply written_read in W. subst e. exists (read_entry a' b' c'). split; [apply written_read; reflexivity|].
    destruct Ha as [x x' Ha]. destruct Hb as [y y' Hb]. destruct Hc as [z z' Hc].
    destruct (read_entry_names (Elem x None None) (Elem y None None) (Elem z None None)) as (N & E1 & E2 & E3); [split; reflexivity..|].
    destruct (read_entry_names (Elem x' None None) (Elem y' None None) (Elem z' None None)) as (N' & E1' & E2' & E3'); [split; reflexivity..|].
    repeat split; try assumption; [rewrite E1, E1'|rewrite E2, E2'|rewrite E3, E3']; assumption.
  Qed.

  Ltac inv_like := repeat match goal with
    | H : Forall2 like_token [] _ |- _ => inversion H; subst; clear H
    | H : Forall2 like_token (_ :: _) _ |- _ => inversion H; subst; clear H
    | H : like_token (TElement _) _ |- _ => inversion H; subst; clear H; [exfalso; match goal with K : forall e, TElement ?x <> TElement e |- _ => exact (K x eq_refl) end|]
    | H : like_token TComma _ |- _ => inversion H; subst; clear H
    | H : like_token TOpenBrace _ |- _ => inversion H; subst; clear H
    | H : like_token TCloseBrace _ |- _ => inversion H; subst; clear H
    | H : like_token TOpenParen _ |- _ => inversion H; subst; clear H
    | H : like_token TCloseParen _ |- _ => inversion H; subst; clear H
    | H : like_token (TString _) _ |- _ => inversion H; subst; clear H; match goal with K : forall b, TString ?x <> TString b |- _ => destruct (K x eq_refl) end
    end.

  Lemma like_network ts es : g_network ts es -> forall us, Forall2 like_token ts us -> exists fs, g_network us fs /\ Forall2 (like_entry R) es fs.
  Proof.
    induction 1 as [|a r c e W|a r c e ts es W G IH]; intros us H; inv_like.
    - exists []. split; constructor.
    - destruct (like_written a r c e _ _ _ ltac:(eassumption) ltac:(eassumption) ltac:(eassumption) W) as (e' & W' & L).
      exists [e']. split; [constructor; exact W'|]. constructor; [exact L|constructor].
    - destruct (like_written a r c e _ _ _ ltac:(eassumption) ltac:(eassumption) ltac:(eassumption) W) as (e' & W' & L).
      destruct (IH _ ltac:(eassumption)) as (fs & G' & Lf).
      exists (e' :: fs). split; [constructor; assumption|]. constructor; assumption.
  Qed.

  Lemma like_set es fs n : Forall2 (like_entry R) es fs -> set_of es n -> exists m, set_of fs m /\ like_value R (VNetwork n) (VNetwork m).
  Proof.
    intros L Sn. exists (inserted fs []). assert (X : set_of fs (inserted fs [])) by (apply set_of_collect; reflexivity).
    split; [exact X|]. econstructor; eassumption.
  Qed.

  Lemma like_quote ts vs : g_quote ts vs -> forall us, Forall2 like_token ts us -> exists ws, g_quote us ws /\ Forall2 (like_value R) vs ws.
  Proof.
    induction 1 as [|e ts vs G IH|n es s ts vs Gn Se G IH]; intros us H.
    - inv_like. exists []. split; constructor.
    - inv_like. destruct (IH _ ltac:(eassumption)) as (ws & G' & L). eexists. split; [constructor; exact G'|].
      constructor; [constructor; assumption|exact L].
    - inversion H as [|? ? ? ? H1 H2]; subst. inv_like. apply Forall2_app_inv_l in H2. destruct H2 as (u1 & u2 & H1 & H2 & ->).
      destruct (like_network _ _ Gn _ H1) as (fs & Gf & Lf). destruct (like_set _ _ _ Lf Se) as (m & Sm & Lm).
      destruct (IH _ H2) as (ws & G' & L). eexists. split; [econstructor; eassumption|]. constructor; assumption.
  Qed.

  Lemma like_values ts vs : g_values ts vs -> forall us, Forall2 like_token ts us -> exists ws, g_values us ws /\ Forall2 (like_value R) vs ws.
  Proof.
    induction 1 as [|e ts vs G IH|b ts vs G IH|n es s ts vs Gn Se G IH|q qs ts vs Gq G IH]; intros us H.
    - inv_like. exists []. split; constructor.
    - inv_like. destruct (IH _ ltac:(eassumption)) as (ws & G' & L). eexists. split; [constructor; exact G'|].
      constructor; [constructor; assumption|exact L].
    - inv_like.
    - inversion H as [|? ? ? ? H1 H2]; subst. inv_like. apply Forall2_app_inv_l in H2. destruct H2 as (u1 & u2 & H1 & H2 & ->).
      destruct (like_network _ _ Gn _ H1) as (fs & Gf & Lf). destruct (like_set _ _ _ Lf Se) as (m & Sm & Lm).
      destruct (IH _ H2) as (ws & G' & L). eexists. split; [econstructor; eassumption|]. constructor; assumption.
    - inversion H as [|? ? ? ? H1 H2]; subst. inv_like. apply Forall2_app_inv_l in H2. destruct H2 as (u1 & u2 & H1 & H2 & ->).
      destruct (like_quote _ _ Gq _ H1) as (fs & Gf & Lf).
      destruct (IH _ H2) as (ws & G' & L). eexists. split; [econstructor; eassumption|]. constructor; [constructor; exact Lf|assumption].
  Qed.

  Lemma like_a_call ts c : g_call ts c -> forall us, Forall2 like_token ts us -> exists d, g_call us d /\ like_call R c d.
  Proof.
    intros G us H. destruct (like_values _ _ G us H) as (ws & G' & L). inversion L as [|? w ? ws' H1 H2]; subst.
    inversion H1 as [? e H3| |]; subst. exists (Call e ws'). split; [exact G'|]. split; assumption.
  Qed.

  Lemma like_commas ts cs : g_commas ts cs -> forall us, Forall2 like_token ts us -> exists ds, g_commas us ds /\ Forall2 (like_call R) cs ds.
  Proof.
    induction 1 as [|ts c ts' cs Gc G IH]; intros us H.
    - inv_like. exists []. split; constructor.
    - apply Forall2_app_inv_l in H. destruct H as (u1 & u2 & H1 & H2 & ->). inv_like.
      destruct (like_a_call _ _ Gc _ H1) as (d & Gd & Ld). destruct (IH _ ltac:(eassumption)) as (ds & Gs & Ls).
      exists (d :: ds). split; [constructor; assumption|]. constructor; assumption.
  Qed.

  Lemma like_script ts cs : g_script ts cs -> forall us, Forall2 like_token ts us -> exists ds, g_script us ds /\ Forall2 (like_call R) cs ds.
  Proof.
    intros [ts' cs' G|ts' cs' ts2 c G Gc] us H.
    - destruct (like_commas _ _ G _ H) as (ds & Gd & L). exists ds. split; [apply gs_trailing; exact Gd|exact L].
    - apply Forall2_app_inv_l in H. destruct H as (u1 & u2 & H1 & H2 & ->).
      destruct (like_commas _ _ G _ H1) as (ds & Gd & L). destruct (like_a_call _ _ Gc _ H2) as (d & Gd2 & Ld).
      exists (ds ++ [d]). split; [apply gs_last; assumption|]. apply Forall2_app; [exact L|]. constructor; [exact Ld|constructor].
  Qed.
End Like.

Lemma lexes_bare s ts : lexes s ts -> Forall (fun t => forall e, t = TElement e -> bare e) ts.
Proof.
  induction 1 as [|s t x rest ts (E & L & _) H IH]; constructor; [|exact IH]. intros e ->.
  rewrite (lexeme_element_text _ _ L). split; reflexivity.
Qed.

(** ** write_string *)
Lemma five_stuck s b : five_escapes s b -> forall b' r r', string_body b' -> b ++ 34%N :: r = b' ++ 34%N :: r' -> Forall writable s.
Proof.
  induction 1 as [|c l s b Hi H IH|c s b Hn H IH]; intros b' r r' B E; [constructor|..].
  - constructor.
    + cbn in Hi. unfold writable. repeat (destruct Hi as [Hi|Hi]; [injection Hi as <- <-; lia|]). destruct Hi.
    + destruct B as [|d y P K|d y P K|h1 h2 h3 h4 y A1 A2 A3 A4 K]; cbn [app] in E; injection E; intros; subst.
      * discriminate.
      * exfalso. unfold plain_char in P. lia.
      * eapply IH; eassumption.
      * exfalso. cbn in Hi. intuition congruence.
  - destruct B as [|d y P K|d y P K|h1 h2 h3 h4 y A1 A2 A3 A4 K]; cbn [app] in E; injection E; intros; subst.
    + exfalso. apply Hn. right. left. reflexivity.
    + constructor; [unfold plain_char in P; unfold writable; lia|]. eapply IH; eassumption.
    + exfalso. apply Hn. left. reflexivity.
    + exfalso. apply Hn. left. reflexivity.
Qed.

Lemma unwritable_stuck s b rest : five_escapes s b -> ~ Forall writable s -> lex_fails (qu b ++ rest).
Proof.
  intros F W. apply lf_here. split; [discriminate|]. intros t x r E L. unfold qu in E. cbn [app] in E.
  destruct x as [|c x]; [exact (lexeme_nonempty _ _ L eq_refl)|]. injection E as <- E.
  destruct (first_quote _ _ L) as (b' & B & -> & _). apply W.
  apply (five_stuck s b F b' rest r B). rewrite <- !app_assoc in E. exact E.
Qed.

Lemma next_string b rest : string_body b -> next_token (qu b ++ rest) (TString b) (qu b) rest.
Proof.
  intros B. split; [reflexivity|]. split; [constructor; exact B|]. split; [|discriminate].
  intros t' x' rest' E L. destruct x' as [|c x']; [simpl; lia|]. unfold qu in E. cbn [app] in E. injection E as <- E.
  destruct (first_quote _ _ L) as (b' & B' & -> & _). rewrite <- !app_assoc in E. cbn [app] in E.
  apply body_prefix in E; [|assumption..]. subst b'. reflexivity.
Qed.

Lemma writable_dec z : Forall writable z \/ ~ Forall writable z.
Proof.
  assert (D : forall c, writable c \/ ~ writable c) by (intros c; unfold writable; lia).
  induction z as [|c z [IH|IH]]; [left; constructor| |right; intros X; inversion X; tauto].
  destruct (D c); [left; constructor; assumption|right; intros X; inversion X; tauto].
Qed.

Lemma fill_fails ps last : Forall ends_clean ps -> forall ys, List.length ps = List.length ys -> ~ Forall (Forall writable) ys ->
  lex_fails (fill write_string ps last ys).
Proof.
  induction 1 as [|p ps (ts & T & C) F IH]; intros [|y ys] Len W; try discriminate.
  - exfalso. apply W. constructor.
  - cbn [fill]. rewrite write_string_chars. change (34%N :: flat_map five_char y ++ [34%N]) with (qu (flat_map five_char y)).
    assert (E : exists s2, qu (flat_map five_char y) ++ fill write_string ps last ys = 34%N :: s2) by (eexists; reflexivity).
    assert (K : lex_fails (qu (flat_map five_char y) ++ fill write_string ps last ys)).
    { destruct (writable_dec y) as [Wy|Wy].
      - eapply lf_next; [apply next_string; eapply json_means_body, five_means; [apply five_iff; reflexivity|exact Wy]|].
        apply IH; [simpl in Len; lia|]. intros X. apply W. constructor; assumption.
      - apply (unwritable_stuck y); [apply five_iff; reflexivity|exact Wy]. }
    destruct E as [s2 E]. rewrite E in *. apply (before_quote p ts T C s2). exact K.
Qed.
