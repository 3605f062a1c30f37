(** * The lexer of the lig crate *)
From Coq Require Import List Arith NArith Bool Lia String.
From Verif Require Import M_Base M_Data M_Regex M_Lexer M_Heed M_Lig S_Str S_Lexer S_Lig P_Regex P_Lexer P_Heed.
Import ListNotations.
Open Scope list_scope.

Lemma name_start_iff c : in_cls cls_name_start c = true <-> name_start c.
Proof.
  unfold cls_name_start, name_start. ranges. rewrite !orb_true_iff, !andb_true_iff, !N.leb_le.
  split; [intros [H|[H|[H|H]]]; try discriminate; lia|]. intros [->|[H|H]]; lia.
Qed.

Lemma name_char_iff c : in_cls cls_name_rest c = true <-> name_char c.
Proof.
  unfold cls_name_rest, name_char, name_start. ranges. rewrite !orb_true_iff, !andb_true_iff, !N.leb_le.
  split; [intros [H|[H|[H|[H|[H|[H|H]]]]]]; try discriminate; lia|]. intros [[->|[H|H]]|[H|[->| ->]]]; lia.
Qed.

Lemma start_char c : name_start c -> name_char c.
Proof. left. assumption. Qed.

Lemma m_name x : matches re_name x <-> exists c y, x = c :: y /\ name_start c /\ Forall name_char y.
Proof.
  unfold re_name. rewrite m_seq_iff. split.
  - intros (u & v & -> & H1 & H2). apply m_plus_cls in H1. destruct H1 as [Ne F]. apply m_star_cls in H2.
    destruct u as [|c u]; [congruence|]. inversion F as [|c' u' F1 F2]; subst. exists c, (u ++ v). split; [reflexivity|].
    split; [apply name_start_iff, F1|]. apply Forall_app. split.
    + eapply Forall_impl; [|exact F2]. intros a Ha. apply start_char, name_start_iff, Ha.
    + eapply Forall_impl; [|exact H2]. intros a Ha. apply name_char_iff, Ha.
  - intros (c & y & -> & H1 & H2). exists [c], y. split; [reflexivity|]. split.
    + apply m_plus_cls. split; [discriminate|]. constructor; [apply name_start_iff, H1|constructor].
    + apply m_star_cls. eapply Forall_impl; [|exact H2]. intros a Ha. apply name_char_iff, Ha.
Qed.

Lemma lig_trim_quoted b : lig_trim_string (34%N :: b ++ [34%N]) = Ok b.
Proof. unfold lig_trim_string. rewrite N.eqb_refl, rev_unit, N.eqb_refl, rev_involutive. reflexivity. Qed.

(** What the callback of a rule answers, as an optional token. *)
Definition answer (o : option ltoken) : res str ltoken :=
  match o with Some t => Ok t | None => Panic PTodo end.

Lemma lig_rule_lexeme r x : In r lig_rules -> matches (r_re r) x ->
  exists o, lig_token (r_kind r) x = answer o /\ lig_lexeme o x.
Proof.
  intros Hi M. unfold lig_rules in Hi. cbn [In] in Hi.
  repeat (destruct Hi as [Hi|Hi]; [subst r; cbn [r_re r_kind r_prio lig_token] in *|]); try destruct Hi.
  all: try (apply m_lit in M; subst; eexists (Some _); split; [reflexivity|]; constructor).
  - apply m_plus_cls in M. destruct M as [M1 M2]. exists (Some (LWS x)). split; [reflexivity|].
    constructor; [exact M1|]. eapply Forall_iff; [|exact M2]. intros. symmetry. apply ws_iff.
  - apply m_string in M. destruct M as (b & -> & B). rewrite lig_trim_quoted. exists (Some (LString b)). split; [reflexivity|].
    constructor. exact B.
  - apply m_name in M. destruct M as (c & y & -> & H1 & H2). exists None. split; [reflexivity|]. constructor; assumption.
  - apply m_comment in M. exists (Some (LComment x)). split; [reflexivity|].
    destruct M as (y & Y & [->| ->]); constructor; exact Y.
Qed.

Lemma lig_lexeme_rule o x : lig_lexeme o x ->
  exists r, In r lig_rules /\ matches (r_re r) x /\ lig_token (r_kind r) x = answer o.
Proof.
  intros H. destruct H as [x H1 H2|b B|c x H1 H2| | | | | | |x H|x H].
  - exists (Rule LKWS 1 re_ws). split; [unfold lig_rules; in_list|]. split; [|reflexivity].
    apply m_plus_cls. split; [exact H1|]. eapply Forall_iff; [|exact H2]. intros. apply ws_iff.
  - exists (Rule LKString 4 re_string). split; [unfold lig_rules; in_list|]. split; [apply m_string; eauto|].
    cbn [r_kind lig_token]. rewrite lig_trim_quoted. reflexivity.
  - exists (Rule LKName 2 re_name). split; [unfold lig_rules; in_list|]. split; [|reflexivity]. apply m_name. eauto.
  - exists (Rule LKOpenParen 2 (RLit (lit "("))). split; [unfold lig_rules; in_list|]. split; [apply m_lit|]; reflexivity.
  - exists (Rule LKCloseParen 2 (RLit (lit ")"))). split; [unfold lig_rules; in_list|]. split; [apply m_lit|]; reflexivity.
  - exists (Rule LKOpenBrace 2 (RLit (lit "{"))). split; [unfold lig_rules; in_list|]. split; [apply m_lit|]; reflexivity.
  - exists (Rule LKCloseBrace 2 (RLit (lit "}"))). split; [unfold lig_rules; in_list|]. split; [apply m_lit|]; reflexivity.
  - exists (Rule LKOpenSquare 2 (RLit (lit "["))). split; [unfold lig_rules; in_list|]. split; [apply m_lit|]; reflexivity.
  - exists (Rule LKCloseSquare 2 (RLit (lit "]"))). split; [unfold lig_rules; in_list|]. split; [apply m_lit|]; reflexivity.
  - exists (Rule LKComment 4 re_comment). split; [unfold lig_rules; in_list|]. split; [|reflexivity]. apply m_comment. eauto.
  - exists (Rule LKComment 4 re_comment). split; [unfold lig_rules; in_list|]. split; [|reflexivity]. apply m_comment. eauto.
Qed.

Lemma lig_lexeme_nonempty o x : lig_lexeme o x -> x <> [].
Proof. intros H. destruct H; try assumption; discriminate. Qed.

(** What a text reads as is decided by its first character. *)
Definition lig_by_first (x : str) : option (option ltoken) :=
  match x with
  | [] => None
  | c :: r =>
      if N.eqb c 40 then Some (Some LOpenParen) else if N.eqb c 41 then Some (Some LCloseParen)
      else if N.eqb c 123 then Some (Some LOpenBrace) else if N.eqb c 125 then Some (Some LCloseBrace)
      else if N.eqb c 91 then Some (Some LOpenSquare) else if N.eqb c 93 then Some (Some LCloseSquare)
      else if N.eqb c 34 then Some (Some (LString (removelast r)))
      else if N.eqb c 45 then Some (Some (LComment x))
      else if N.leb c 32 then Some (Some (LWS x))
      else Some None
  end.

Lemma lig_lexeme_by_first o x : lig_lexeme o x -> lig_by_first x = Some o.
Proof.
  intros H. destruct H as [x H1 H2|b B|c x H1 H2| | | | | | |x H|x H]; try reflexivity.
  - destruct x as [|c x]; [congruence|]. inversion H2 as [|c' x' H3 H4]; subst.
    destruct H3 as [->|[->|[->| ->]]]; reflexivity.
  - cbn [lig_by_first]. rewrite removelast_last. reflexivity.
  - unfold lig_by_first. unfold name_start in H1.
    repeat match goal with |- context[N.eqb c ?k] => destruct (N.eqb_spec c k); [lia|] end.
    destruct (N.leb_spec c 32); [lia|reflexivity].
Qed.

Lemma lig_next_unique s o x rest o' x' rest' :
  lig_next s o x rest -> lig_next s o' x' rest' -> o = o' /\ x = x' /\ rest = rest'.
Proof.
  intros (E & L & M) (E' & L' & M').
  assert (List.length x = List.length x') as EL by (apply Nat.le_antisymm; eauto).
  assert (x = x').
  { rewrite <- (proj1 (prefix_firstn _ _ _ E)), <- (proj1 (prefix_firstn _ _ _ E')), EL. reflexivity. }
  subst x'. assert (rest = rest') by (rewrite E in E'; apply app_inv_head in E'; exact E').
  subst rest'. split; [|auto]. apply lig_lexeme_by_first in L, L'. congruence.
Qed.

Definition lig_step (s : str) : option (option ltoken * str * str) :=
  match best_rule lig_rules s with
  | None => None
  | Some (n, r) => match lig_token (r_kind r) (firstn n s) with
                   | Ok t => Some (Some t, firstn n s, skipn n s)
                   | _ => Some (None, firstn n s, skipn n s)
                   end
  end.

Lemma lig_step_sound s : match lig_step s with
  | Some (o, x, rest) => lig_next s o x rest
  | None => forall o x rest, s = x ++ rest -> ~ lig_lexeme o x
  end.
Proof.
  unfold lig_step. pose proof (best_rule_spec lig_rules s) as B.
  destruct (best_rule lig_rules s) as [[n r]|].
  - destruct B as (I1 & I2 & I3 & I4 & I5).
    destruct (lig_rule_lexeme r _ I1 I4) as (o & Eo & Lo).
    assert (G : lig_next s o (firstn n s) (skipn n s)).
    { split; [symmetry; apply firstn_skipn|]. split; [exact Lo|].
      intros o' x' rest' E L'. rewrite firstn_length, Nat.min_l by exact I3.
      destruct (lig_lexeme_rule _ _ L') as (r' & R1 & R2 & R3). pose proof (lig_lexeme_nonempty _ _ L') as Ne.
      assert (List.length x' <= List.length s) by (rewrite E, app_length; lia).
      destruct (I5 r' (List.length x') R1) as [Q|[Q _]]; try lia.
      * destruct x'; [congruence|simpl; lia].
      * rewrite (proj1 (prefix_firstn _ _ _ E)). exact R2. }
    rewrite Eo. destruct o; exact G.
  - intros o x rest E L. destruct (lig_lexeme_rule _ _ L) as (r & R1 & R2 & R3). pose proof (lig_lexeme_nonempty _ _ L) as Ne.
    apply (B r (List.length x) R1).
    + destruct x; [congruence|simpl; lia].
    + rewrite E, app_length. lia.
    + rewrite (proj1 (prefix_firstn _ _ _ E)). exact R2.
Qed.

Lemma lig_loop_step fuel pos c s0 : let s := c :: s0 in
  lig_tokenize_loop (S fuel) pos s =
  match lig_step s with
  | None => Err lig_error
  | Some (None, _, _) => Panic PTodo
  | Some (Some t, x, rest) =>
      match lig_tokenize_loop fuel (pos + utf8_len x)%N rest with
      | Ok ts => Ok ((t, pos) :: ts) | Err e => Err e | Panic w => Panic w end
  end.
Proof.
  cbv zeta. cbn [lig_tokenize_loop]. unfold lig_step.
  pose proof (best_rule_spec lig_rules (c :: s0)) as B.
  destruct (best_rule lig_rules (c :: s0)) as [[n r]|]; [|reflexivity].
  destruct B as (I1 & I2 & I3 & I4 & I5).
  destruct (lig_rule_lexeme r _ I1 I4) as (o & Eo & _). rewrite Eo. destruct o; reflexivity.
Qed.

Lemma lig_next_shorter s o x rest : lig_next s o x rest -> List.length rest < List.length s /\ s <> [].
Proof.
  intros (E & L & _). pose proof (lig_lexeme_nonempty _ _ L). destruct x as [|c x]; [congruence|].
  subst s. simpl. rewrite app_length. split; [lia|discriminate].
Qed.

Lemma utf8_length_app a b : List.length (utf8 (a ++ b)) = List.length (utf8 a) + List.length (utf8 b).
Proof. unfold utf8. rewrite flat_map_app, app_length. reflexivity. Qed.

(** Reading stops before [rest]: at the end, stuck, or at a name. *)
Definition lig_stuck (s : str) : Prop := s <> [] /\ forall o x rest, s = x ++ rest -> ~ lig_lexeme o x.
Definition at_name (s : str) : Prop := exists x rest, lig_next s None x rest.

Lemma lig_loop_spec : forall fuel before s, List.length s <= fuel ->
  match lig_tokenize_loop fuel (N.of_nat (List.length (utf8 before))) s with
  | Ok ts => exists ps, lig_reads s ps [] /\ ts = located before ps
  | Err e => e = lig_error /\ exists ps rest, lig_reads s ps rest /\ lig_stuck rest
  | Panic w => w = PTodo /\ exists ps rest, lig_reads s ps rest /\ at_name rest
  end.
Proof.
  induction fuel as [|fuel IH]; intros before s Hl; destruct s as [|c s0];
    [exists []; split; [constructor|reflexivity]|simpl in Hl; lia|exists []; split; [constructor|reflexivity]|].
  rewrite lig_loop_step. pose proof (lig_step_sound (c :: s0)) as L.
  destruct (lig_step (c :: s0)) as [[[[t|] x] rest]|].
  - pose proof (lig_next_shorter _ _ _ _ L) as [Sh _]. simpl in Sh, Hl.
    specialize (IH (before ++ x) rest ltac:(lia)).
    rewrite utf8_length_app, Nat2N.inj_add, (utf8_len_eq x) in IH.
    destruct (lig_tokenize_loop fuel (N.of_nat (List.length (utf8 before)) + utf8_len x)%N rest) as [ts|e|w].
    + destruct IH as (ps & R & ->). exists ((t, x) :: ps). split; [econstructor; eauto|reflexivity].
    + destruct IH as (-> & ps & r & R & St). split; [reflexivity|]. exists ((t, x) :: ps), r. split; [econstructor; eauto|exact St].
    + destruct IH as (-> & ps & r & R & St). split; [reflexivity|]. exists ((t, x) :: ps), r. split; [econstructor; eauto|exact St].
  - split; [reflexivity|]. exists [], (c :: s0). split; [constructor|]. exists x, rest. exact L.
  - split; [reflexivity|]. exists [], (c :: s0). split; [constructor|]. split; [discriminate|exact L].
Qed.

Lemma lig_reads_unique s ps r : lig_reads s ps r -> (forall t x s', ~ lig_next r (Some t) x s') ->
  forall ps' r', lig_reads s ps' r' -> (forall t x s', ~ lig_next r' (Some t) x s') -> ps' = ps /\ r' = r.
Proof.
  induction 1 as [s|s t x s' ps rest N _ IH]; intros S1 ps' r' H' S2.
  - inversion H' as [s0|s0 t x s1 ps0 r0 N' H0]; subst; [auto|]. exfalso. exact (S1 _ _ _ N').
  - inversion H' as [s0|s0 t' x' s1 ps0 r0 N' H0]; subst.
    + exfalso. exact (S2 _ _ _ N).
    + destruct (lig_next_unique _ _ _ _ _ _ _ N N') as (E & -> & ->). injection E as ->.
      destruct (IH S1 _ _ H0 S2) as [-> ->]. auto.
Qed.

Lemma end_stops : forall t x s', ~ lig_next [] (Some t) x s'.
Proof. intros t x s' N. apply lig_next_shorter in N. tauto. Qed.
Lemma stuck_stops r : lig_stuck r -> forall t x s', ~ lig_next r (Some t) x s'.
Proof. intros [_ H] t x s' (E & L & _). exact (H _ _ _ E L). Qed.
Lemma name_stops r : at_name r -> forall t x s', ~ lig_next r (Some t) x s'.
Proof. intros (y & q & N) t x s' N'. destruct (lig_next_unique _ _ _ _ _ _ _ N N') as [E _]. discriminate. Qed.
Lemma end_not_stuck : ~ lig_stuck [].
Proof. intros [H _]. congruence. Qed.
Lemma end_not_name : ~ at_name [].
Proof. intros (x & r & N). apply lig_next_shorter in N. tauto. Qed.
Lemma stuck_not_name r : lig_stuck r -> ~ at_name r.
Proof. intros [_ H] (x & q & E & L & _). exact (H _ _ _ E L). Qed.

Lemma lig_spec s :
  match lig_tokenize s with
  | Ok ts => exists ps, lig_reads s ps [] /\ ts = located [] ps
  | Err e => e = lig_error /\ exists ps rest, lig_reads s ps rest /\ lig_stuck rest
  | Panic w => w = PTodo /\ exists ps rest, lig_reads s ps rest /\ at_name rest
  end.
Proof. exact (lig_loop_spec (List.length s) [] s (le_n _)). Qed.

Lemma lig_ok s ts : lig_tokenize s = Ok ts <-> exists ps, lig_reads s ps [] /\ ts = located [] ps.
Proof.
  pose proof (lig_spec s) as K. split; [intros E; rewrite E in K; exact K|].
  intros (ps & R & ->). destruct (lig_tokenize s) as [ts|e|w].
  - destruct K as (ps' & R' & ->). destruct (lig_reads_unique _ _ _ R end_stops _ _ R' end_stops) as [-> _]. reflexivity.
  - destruct K as (_ & ps' & r' & R' & St). destruct (lig_reads_unique _ _ _ R end_stops _ _ R' (stuck_stops _ St)) as [_ ->].
    destruct (end_not_stuck St).
  - destruct K as (_ & ps' & r' & R' & St). destruct (lig_reads_unique _ _ _ R end_stops _ _ R' (name_stops _ St)) as [_ ->].
    destruct (end_not_name St).
Qed.

Lemma lig_err s e : lig_tokenize s = Err e <->
  e = lit "Error tokenizing input." /\ exists ps rest, lig_reads s ps rest /\ lig_stuck rest.
Proof.
  pose proof (lig_spec s) as K. split; [intros E; rewrite E in K; exact K|].
  intros (-> & ps & r & R & St). destruct (lig_tokenize s) as [ts|e|w].
  - destruct K as (ps' & R' & _). destruct (lig_reads_unique _ _ _ R (stuck_stops _ St) _ _ R' end_stops) as [_ <-].
    destruct (end_not_stuck St).
  - destruct K as (-> & _). reflexivity.
  - destruct K as (_ & ps' & r' & R' & St'). destruct (lig_reads_unique _ _ _ R (stuck_stops _ St) _ _ R' (name_stops _ St')) as [_ ->].
    destruct (stuck_not_name _ St St').
Qed.

Lemma lig_panic s w : lig_tokenize s = Panic w <->
  w = PTodo /\ exists ps rest, lig_reads s ps rest /\ at_name rest.
Proof.
  pose proof (lig_spec s) as K. split; [intros E; rewrite E in K; exact K|].
  intros (-> & ps & r & R & St). destruct (lig_tokenize s) as [ts|e|w].
  - destruct K as (ps' & R' & _). destruct (lig_reads_unique _ _ _ R (name_stops _ St) _ _ R' end_stops) as [_ <-].
    destruct (end_not_name St).
  - destruct K as (_ & ps' & r' & R' & St'). destruct (lig_reads_unique _ _ _ R (name_stops _ St) _ _ R' (stuck_stops _ St')) as [_ ->].
    destruct (stuck_not_name _ St' St).
  - destruct K as (-> & _). reflexivity.
Qed.

(** ** Positions *)

Lemma lig_reads_text s ps rest : lig_reads s ps rest -> s = flat_map snd ps ++ rest.
Proof.
  induction 1 as [s|s t x s' ps rest (E & _) _ IH]; [reflexivity|]. cbn [flat_map snd]. rewrite E, IH, <- app_assoc. reflexivity.
Qed.

Lemma lig_reads_lexeme s ps rest : lig_reads s ps rest -> forall t x, In (t, x) ps -> lig_lexeme (Some t) x.
Proof.
  induction 1 as [s|s t x s' ps rest (_ & L & _) _ IH]; [intros t x []|].
  intros t' x' [E|H]; [injection E as <- <-; exact L|exact (IH _ _ H)].
Qed.

Lemma located_nth : forall ps before i t off, nth_error (located before ps) i = Some (t, off) ->
  exists x, nth_error ps i = Some (t, x)
    /\ off = N.of_nat (List.length (utf8 (before ++ flat_map snd (firstn i ps)))).
Proof.
  induction ps as [|[t0 x0] ps IH]; intros before i t off H; [destruct i; discriminate|].
  destruct i as [|i]; cbn [located nth_error] in H.
  - injection H as <- <-. exists x0. split; [reflexivity|]. cbn [firstn flat_map]. rewrite app_nil_r. reflexivity.
  - destruct (IH _ _ _ _ H) as (x & E & ->). exists x. split; [exact E|]. cbn [firstn flat_map snd]. rewrite <- app_assoc. reflexivity.
Qed.

Lemma located_length : forall ps before, List.length (located before ps) = List.length ps.
Proof. induction ps as [|[t x] ps IH]; intros before; [reflexivity|]. cbn [located List.length]. rewrite IH. reflexivity. Qed.

Lemma lig_positions s ts : lig_tokenize s = Ok ts -> forall i t off, nth_error ts i = Some (t, off) ->
  exists before x after, s = before ++ x ++ after /\ lig_lexeme (Some t) x /\ off = N.of_nat (List.length (utf8 before))
    /\ (forall t' off', nth_error ts (S i) = Some (t', off') -> off' = N.of_nat (List.length (utf8 (before ++ x))))
    /\ (S i = List.length ts -> after = []) /\ (i = 0 -> before = []).
Proof.
  intros H i t off Hn. apply lig_ok in H. destruct H as (ps & R & ->).
  destruct (located_nth _ _ _ _ _ Hn) as (x & Ex & ->). cbn [app].
  destruct (nth_error_split _ _ Ex) as (l1 & l2 & E & El).
  assert (F : firstn i ps = l1) by (rewrite E, <- El, firstn_app, Nat.sub_diag, firstn_all, app_nil_r; reflexivity).
  exists (flat_map snd l1), x, (flat_map snd l2). split.
  { rewrite (lig_reads_text _ _ _ R), E, flat_map_app, app_nil_r. reflexivity. }
  split; [eapply lig_reads_lexeme; [exact R|]; eapply nth_error_In; exact Ex|].
  split; [rewrite F; reflexivity|]. split; [|split].
  - intros t' off' Hn'. destruct (located_nth _ _ _ _ _ Hn') as (x' & Ex' & ->). cbn [app].
    assert (F' : firstn (S i) ps = l1 ++ [(t, x)]).
    { rewrite E, <- El. change (l1 ++ (t, x) :: l2) with (l1 ++ [(t, x)] ++ l2). rewrite app_assoc.
      replace (S (List.length l1)) with (List.length (l1 ++ [(t, x)])) by (rewrite app_length; simpl; lia).
      rewrite firstn_app, Nat.sub_diag, firstn_all, app_nil_r. reflexivity. }
    rewrite F', flat_map_app. cbn [flat_map snd]. rewrite app_nil_r. reflexivity.
  - rewrite located_length, E, app_length. cbn [List.length]. intros Hi. destruct l2; [reflexivity|simpl in Hi; lia].
  - intros ->. destruct l1; [reflexivity|discriminate El].
Qed.

Lemma lig_text s ts : lig_tokenize s = Ok ts ->
  exists texts, List.length texts = List.length ts /\ List.concat texts = s
    /\ forall i t off x, nth_error ts i = Some (t, off) -> nth_error texts i = Some x -> lig_lexeme (Some t) x.
Proof.
  intros H. apply lig_ok in H. destruct H as (ps & R & ->). exists (map snd ps). rewrite map_length, located_length.
  split; [reflexivity|]. split.
  - rewrite <- flat_map_concat_map, (lig_reads_text _ _ _ R), app_nil_r. reflexivity.
  - intros i t off x H1 H2. destruct (located_nth _ _ _ _ _ H1) as (x' & E & _).
    rewrite nth_error_map, E in H2. cbn in H2. injection H2 as <-. eapply lig_reads_lexeme; [exact R|]. eapply nth_error_In; exact E.
Qed.

(** ** Filtering, and the second tokenizer *)

Lemma lig_keeps_filter ts : lig_keeps ts (filter lig_significant ts).
Proof.
  induction ts as [|[t n] ts IH]; [constructor|].
  destruct t; cbn [filter lig_significant fst]; first [apply lk_ws; exact IH | apply lk_comment; exact IH
    | apply lk_other; [discriminate|discriminate|exact IH]].
Qed.

Lemma lig_keeps_unique ts k1 : lig_keeps ts k1 -> forall k2, lig_keeps ts k2 -> k2 = k1.
Proof.
  induction 1 as [|s n ts k H IH|s n ts k H IH|t n ts k H1 H2 H IH]; intros k2 K; inversion K; subst; clear K;
    try reflexivity; try (apply IH; assumption); try (f_equal; apply IH; assumption);
    exfalso; match goal with A : forall s, ?t <> _ |- _ => solve [eapply A; reflexivity] end.
Qed.

Lemma lig_filter s ts : lig_tokenize s = Ok ts ->
  exists kept, lig_tokenize_and_filter s = Ok kept /\ lig_keeps ts kept /\ (forall kept', lig_keeps ts kept' -> kept' = kept).
Proof.
  intros H. unfold lig_tokenize_and_filter. rewrite H. eexists. split; [reflexivity|].
  split; [apply lig_keeps_filter|]. apply lig_keeps_unique, lig_keeps_filter.
Qed.

Lemma lig_filter_fails s : (forall e, lig_tokenize_and_filter s = Err e <-> lig_tokenize s = Err e)
  /\ (forall w, lig_tokenize_and_filter s = Panic w <-> lig_tokenize s = Panic w).
Proof. unfold lig_tokenize_and_filter. destruct (lig_tokenize s); split; intros; split; congruence. Qed.

Lemma lig_read_loop : forall fuel pos s,
  lig_read_tokenize_loop fuel s = match lig_tokenize_loop fuel pos s with
    | Ok ts => Ok (map fst ts) | Err e => Err e | Panic w => Panic w end.
Proof.
  induction fuel as [|fuel IH]; intros pos s; destruct s as [|c s]; try reflexivity.
  cbn [lig_read_tokenize_loop lig_tokenize_loop]. destruct (best_rule lig_rules (c :: s)) as [[n r]|]; [|reflexivity].
  destruct (lig_token (r_kind r) (firstn n (c :: s))) as [t|e|w]; try reflexivity.
  rewrite (IH (pos + utf8_len (firstn n (c :: s)))%N).
  destruct (lig_tokenize_loop fuel (pos + utf8_len (firstn n (c :: s)))%N (skipn n (c :: s))); reflexivity.
Qed.

(** A text that begins with a letter or underscore. *)
Lemma longest_prefix (P : N -> Prop) (dec : forall c, {P c} + {~ P c}) (s : str) :
  exists x rest, s = x ++ rest /\ Forall P x /\ (forall x' rest', s = x' ++ rest' -> Forall P x' -> List.length x' <= List.length x).
Proof.
  induction s as [|c s (x & rest & E & F & M)].
  - exists [], []. split; [reflexivity|]. split; [constructor|]. intros x' r' E _. destruct x'; [simpl; lia|discriminate].
  - destruct (dec c) as [Hc|Hc].
    + exists (c :: x), rest. split; [rewrite E; reflexivity|]. split; [constructor; assumption|].
      intros x' r' E' F'. destruct x' as [|d x']; [simpl; lia|]. cbn [app] in E'. injection E' as <- E'. inversion F'; subst.
      simpl. apply le_n_S. eapply M; eauto.
    + exists [], (c :: s). split; [reflexivity|]. split; [constructor|]. intros x' r' E' F'. destruct x' as [|d x']; [simpl; lia|].
      cbn [app] in E'. injection E' as <- _. inversion F'; subst. contradiction.
Qed.

Lemma name_char_dec c : {name_char c} + {~ name_char c}.
Proof.
  destruct (in_cls cls_name_rest c) eqn:E; [left|right].
  - apply name_char_iff, E.
  - intros H. apply name_char_iff in H. congruence.
Qed.

Lemma at_name_start c s : name_start c -> at_name (c :: s).
Proof.
  intros Hc. destruct (longest_prefix name_char name_char_dec s) as (x & rest & E & F & M).
  exists (c :: x), rest. split; [rewrite E; reflexivity|]. split; [constructor; assumption|].
  intros o' x' rest' E' L'. destruct x' as [|d x']; [simpl; lia|]. injection E' as <- E'. simpl. apply le_n_S.
  pose proof (lig_lexeme_by_first _ _ L') as B.
  assert (B0 : o' = None).
  { pose proof (lig_lexeme_by_first None [c] (ll_name c [] Hc (Forall_nil _))) as Q. unfold lig_by_first in *. 
    unfold name_start in Hc. revert B.
    repeat match goal with |- context[N.eqb c ?k] => destruct (N.eqb_spec c k); [lia|] end.
    destruct (N.leb_spec c 32); [lia|]. intros B. injection B as <-. reflexivity. }
  subst o'. inversion L'; subst. eapply M; [exact E'|assumption].
Qed.
