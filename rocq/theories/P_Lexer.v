(** * The Wander lexer meets its lexical grammar *)
From Coq Require Import List Arith NArith Bool Lia String.
From Verif Require Import M_Base M_Data M_Regex M_Lexer S_Lexer P_Regex.
Import ListNotations.
Open Scope list_scope.

(** ** The patterns *)

Lemma m_star_cls k x : matches (RStar (RCls k)) x <-> Forall (fun c => in_cls k c = true) x.
Proof.
  split.
  - intros H. induction x as [|c x IH]; [constructor|].
    apply m_star_cons_iff in H. destruct H as (y & z & -> & H1 & H2).
    apply m_cls_iff in H1. destruct H1 as (d & E & H1). injection E as <- ->. constructor; auto.
  - induction 1 as [|c x H _ IH]; [constructor|]. change (c :: x) with ([c] ++ x). constructor; [|exact IH].
    apply m_cls_iff. eauto.
Qed.

Lemma m_plus_cls k x : matches (RPlus (RCls k)) x <-> x <> [] /\ Forall (fun c => in_cls k c = true) x.
Proof.
  unfold RPlus. rewrite m_seq_iff. split.
  - intros (y & z & -> & H1 & H2). apply m_cls_iff in H1. destruct H1 as (d & -> & H1).
    apply m_star_cls in H2. split; [discriminate|]. constructor; assumption.
  - intros [H1 H2]. destruct x as [|c x]; [congruence|]. inversion H2; subst.
    exists [c], x. repeat split; [apply m_cls_iff; eauto|apply m_star_cls; assumption].
Qed.

Lemma m_chr c x : matches (RChr c) x <-> x = [c].
Proof.
  unfold RChr. rewrite m_cls_iff. unfold in_cls, in_ranges. cbn [cls_neg cls_ranges existsb fst snd]. split.
  - intros (d & -> & H). rewrite xorb_false_l, orb_false_r in H.
    apply andb_true_iff in H. rewrite !N.leb_le in H. f_equal. lia.
  - intros ->. exists c. rewrite N.leb_refl. auto.
Qed.

Lemma m_lit s x : matches (RLit s) x <-> x = s.
Proof.
  revert x. induction s as [|c s IH]; intros x; simpl.
  - apply m_eps_iff.
  - rewrite m_seq_iff. split.
    + intros (y & z & -> & H1 & H2). apply m_chr in H1. apply IH in H2. subst. reflexivity.
    + intros ->. exists [c], s. rewrite m_chr, IH. auto.
Qed.

Ltac ranges :=
  unfold in_cls; cbn [cls_neg cls_ranges]; rewrite ?xorb_true_l, ?xorb_false_l;
  unfold in_ranges; cbn [existsb fst snd].

Lemma ws_iff c : in_cls cls_ws c = true <-> ws_char c.
Proof.
  unfold cls_ws, ws_char. ranges. rewrite !orb_true_iff, !andb_true_iff, !N.leb_le. 
  split; [intros [H|[H|[H|[H|H]]]]; try discriminate; lia|]. intros [->|[->|[->| ->]]]; lia.
Qed.

Lemma plain_iff c : in_cls cls_plain c = true <-> plain_char c.
Proof.
  unfold cls_plain, plain_char. ranges. rewrite negb_true_iff, !orb_false_iff, !andb_false_iff, !N.leb_gt. lia.
Qed.

Lemma hex_iff c : in_cls cls_hex c = true <-> hex_char c.
Proof.
  unfold cls_hex, hex_char. ranges. rewrite !orb_true_iff, !andb_true_iff, !N.leb_le.
  split; [intros [H|[H|[H|H]]]; try discriminate; lia|]. intros [H|[H|H]]; lia.
Qed.

Lemma escape_iff c : in_cls cls_escape c = true <-> In c [34; 92; 47; 98; 102; 110; 114; 116]%N.
Proof.
  unfold cls_escape. ranges. rewrite !orb_true_iff, !andb_true_iff, !N.leb_le. cbn [In].
  split.
  - intros [H|[H|[H|[H|[H|[H|[H|[H|H]]]]]]]]; try discriminate; lia.
  - intros [<-|[<-|[<-|[<-|[<-|[<-|[<-|[<-|[]]]]]]]]]; lia.
Qed.

Lemma dot_iff c : in_cls cls_dot c = true <-> c <> 10%N.
Proof. unfold cls_dot. ranges. rewrite negb_true_iff, !orb_false_iff, !andb_false_iff, !N.leb_gt. lia. Qed.

Ltac in_list := cbn [In]; repeat (first [left; reflexivity | right]).
Ltac range a b := exists a, b; split; [in_list|lia].

Lemma element_char_iff c : in_cls cls_element c = true <-> element_char c.
Proof.
  unfold in_cls, cls_element. cbn [cls_neg cls_ranges]. rewrite xorb_false_l, in_ranges_iff.
  unfold element_char. split.
  - intros (a & b & Hi & H). cbn [In] in Hi.
    repeat match type of Hi with _ \/ _ => destruct Hi as [Hi|Hi] end; first [injection Hi as <- <-|destruct Hi].
    1-3: left; lia.
    1-20: right; left; match goal with H : (?a <= _ <= ?a)%N |- _ => assert (c = a) as -> by lia end; in_list.
    1-3: right; right; lia.
    14: right; right; lia.
    all: right; right; right; right; right; left.
    all: match type of H with (?a <= _ <= _)%N =>
           let p := eval vm_compute in (a / 0x10000)%N in exists p end; lia.
  - intros [[H|[H|H]]|[H|[H|[H|[H|[(p & P & H)|H]]]]]].
    + range 97%N 122%N.
    + range 65%N 90%N.
    + range 48%N 57%N.
    + cbn in H. repeat match type of H with _ \/ _ => destruct H as [<-|H] end; [..|destruct H];
        match goal with |- exists _ _, _ /\ (_ <= ?k <= _)%N => range k k end.
    + range 0xA0%N 0xD7FF%N.
    + range 0xF900%N 0xFDCF%N.
    + range 0xFDF0%N 0xFFEF%N.
    + assert (p = 1 \/ p = 2 \/ p = 3 \/ p = 4 \/ p = 5 \/ p = 6 \/ p = 7 \/ p = 8 \/ p = 9 \/ p = 10
              \/ p = 11 \/ p = 12 \/ p = 13)%N as Q by lia.
      repeat match type of Q with _ \/ _ => destruct Q as [Q|Q] end; subst p.
      all: match type of H with (0x10000 * ?k <= _ <= _)%N =>
             let a := eval vm_compute in (0x10000 * k)%N in
             let b := eval vm_compute in (0x10000 * k + 0xFFFD)%N in range a b end.
    + range 0xE1000%N 0xEFFFD%N.
Qed.

(** ** Strings *)

Lemma m_rep4 x : matches (RRep 4 (RCls cls_hex)) x <->
  exists a b c d, x = [a; b; c; d] /\ hex_char a /\ hex_char b /\ hex_char c /\ hex_char d.
Proof.
  cbn [RRep]. split.
  - intros H. repeat (apply m_seq_iff in H; destruct H as (? & ? & -> & ?H1 & H)).
    apply m_eps_iff in H. subst.
    repeat match goal with K : matches (RCls _) _ |- _ =>
      apply m_cls_iff in K; destruct K as (? & -> & K); apply hex_iff in K end.
    simpl. eexists _, _, _, _. split; [reflexivity|]. repeat split; assumption.
  - intros (a & b & c & d & -> & A & B & C & D).
    change [a; b; c; d] with ([a] ++ [b] ++ [c] ++ [d] ++ []).
    repeat (constructor; [apply m_cls_iff; eexists; split; [reflexivity|]; apply hex_iff; assumption|]). constructor.
Qed.

Lemma m_item x : matches re_string_item x <->
  (exists c, x = [c] /\ plain_char c)
  \/ (exists c, x = [92%N; c] /\ In c [34; 92; 47; 98; 102; 110; 114; 116]%N)
  \/ (exists a b c d, x = [92%N; 117%N; a; b; c; d] /\ hex_char a /\ hex_char b /\ hex_char c /\ hex_char d).
Proof.
  unfold re_string_item. rewrite !m_alt_iff, m_cls_iff.
  assert (E1 : (exists c, x = [c] /\ in_cls cls_plain c = true) <-> (exists c, x = [c] /\ plain_char c)).
  { split; intros (c & E & H); exists c; (split; [exact E|]); apply plain_iff; exact H. }
  assert (E2 : matches (RSeq (RChr 92) (RCls cls_escape)) x <->
    (exists c, x = [92%N; c] /\ In c [34; 92; 47; 98; 102; 110; 114; 116]%N)).
  { rewrite m_seq_iff. split.
    - intros (y & z & -> & H1 & H2). apply m_chr in H1. apply m_cls_iff in H2. destruct H2 as (c & -> & H2).
      subst. exists c. split; [reflexivity|]. apply escape_iff, H2.
    - intros (c & -> & H). exists [92%N], [c]. rewrite m_chr, m_cls_iff. repeat split. exists c.
      split; [reflexivity|]. apply escape_iff, H. }
  assert (E3 : matches (RSeq (RChr 92) (RSeq (RChr 117) (RRep 4 (RCls cls_hex)))) x <->
    (exists a b c d, x = [92%N; 117%N; a; b; c; d] /\ hex_char a /\ hex_char b /\ hex_char c /\ hex_char d)).
  { rewrite m_seq_iff. split.
    - intros (y & z & -> & H1 & H2). apply m_chr in H1. apply m_seq_iff in H2. destruct H2 as (u & v & -> & H2 & H3).
      apply m_chr in H2. apply m_rep4 in H3. destruct H3 as (a & b & c & d & -> & H). subst.
      exists a, b, c, d. auto.
    - intros (a & b & c & d & -> & H). exists [92%N], [117%N; a; b; c; d]. rewrite m_chr, m_seq_iff. repeat split.
      exists [117%N], [a; b; c; d]. rewrite m_chr, m_rep4. repeat split. exists a, b, c, d. auto. }
  rewrite E1, E2, E3. reflexivity.
Qed.

Lemma m_body x : matches (RStar re_string_item) x <-> string_body x.
Proof.
  split.
  - intros H. remember (List.length x) as n eqn:En. revert x En H.
    induction n as [n IH] using lt_wf_ind. intros x En H. destruct x as [|c x]; [constructor|].
    apply m_star_cons_iff in H. destruct H as (y & z & -> & H1 & H2).
    assert (Hz : string_body z).
    { apply (IH (List.length z)); [|reflexivity|exact H2]. subst n. simpl. rewrite app_length. lia. }
    apply m_item in H1. destruct H1 as [(d & E & H)|[(d & E & H)|(a & b & d & e & E & A & B & C & D)]].
    + injection E as -> ->. constructor; assumption.
    + injection E as -> ->. constructor; assumption.
    + injection E as -> ->. constructor; assumption.
  - induction 1 as [|c s H _ IH|c s H _ IH|a b c d s A B C D _ IH].
    + constructor.
    + change (c :: s) with ([c] ++ s). constructor; [|exact IH]. apply m_item. eauto.
    + change (92%N :: c :: s) with ([92%N; c] ++ s). constructor; [|exact IH]. apply m_item. eauto.
    + change (92%N :: 117%N :: a :: b :: c :: d :: s) with ([92%N; 117%N; a; b; c; d] ++ s).
      constructor; [|exact IH]. apply m_item. right; right. exists a, b, c, d. auto.
Qed.

Lemma m_string x : matches re_string x <-> exists b, x = 34%N :: b ++ [34%N] /\ string_body b.
Proof.
  unfold re_string. rewrite m_seq_iff. split.
  - intros (y & z & -> & H1 & H2). apply m_chr in H1. apply m_seq_iff in H2. destruct H2 as (u & v & -> & H2 & H3).
    apply m_chr in H3. apply m_body in H2. subst. exists u. auto.
  - intros (b & -> & H). exists [34%N], (b ++ [34%N]). rewrite m_chr, m_seq_iff. repeat split.
    exists b, [34%N]. rewrite m_chr, m_body. auto.
Qed.

Lemma m_comment x : matches re_comment x <->
  exists y, Forall (fun c => c <> 10%N) y /\ (x = lit "--" ++ y \/ x = lit "--" ++ y ++ [10%N]).
Proof.
  assert (F : forall y, Forall (fun c => in_cls cls_dot c = true) y <-> Forall (fun c => c <> 10%N) y).
  { intros y. rewrite !Forall_forall. split; intros H c Hc; apply dot_iff; auto. }
  unfold re_comment. rewrite m_seq_iff. split.
  - intros (u & v & -> & H1 & H2). apply m_lit in H1. apply m_seq_iff in H2. destruct H2 as (y & z & -> & H2 & H3).
    apply m_star_cls in H2. rewrite F in H2. subst. exists y. split; [exact H2|].
    unfold ROpt in H3. apply m_alt_iff in H3. destruct H3 as [H3|H3].
    + apply m_eps_iff in H3. subst. rewrite app_nil_r. auto.
    + apply m_chr in H3. subst. auto.
  - intros (y & H & [->| ->]).
    + exists (lit "--"), y. rewrite m_lit, m_seq_iff. repeat split. exists y, []. rewrite app_nil_r, m_star_cls, F.
      repeat split; [exact H|]. apply m_alt_l. constructor.
    + exists (lit "--"), (y ++ [10%N]). rewrite m_lit, m_seq_iff. repeat split. exists y, [10%N]. rewrite m_star_cls, F.
      repeat split; [exact H|]. apply m_alt_r. apply m_chr. reflexivity.
Qed.

(** ** Rules and lexemes *)

Lemma trim_quoted b : trim_string (34%N :: b ++ [34%N]) = Ok b.
Proof. unfold trim_string. rewrite N.eqb_refl, rev_unit, N.eqb_refl, rev_involutive. reflexivity. Qed.

Lemma Forall_iff {A} (P Q : A -> Prop) l : (forall x, P x <-> Q x) -> (Forall P l <-> Forall Q l).
Proof. intros H. rewrite !Forall_forall. split; intros K x Hx; apply H; auto. Qed.

Lemma rule_lexeme r x : In r rules -> matches (r_re r) x -> exists t, mk_token (r_kind r) x = Ok t /\ lexeme t x
  /\ ((exists e, t = TElement e) \/ (exists w, t = TWS w) <-> r_prio r = 1) /\ 1 <= r_prio r.
Proof.
  intros Hi M. unfold rules in Hi. cbn [In] in Hi.
  repeat (destruct Hi as [Hi|Hi]; [subst r; cbn [r_re r_kind r_prio mk_token] in *|]); try destruct Hi.
  all: try (apply m_lit in M; subst; eexists; split; [reflexivity|]; split; [constructor|]; split; [|lia];
            split; [intros [[e H]|[e H]]; discriminate|discriminate]).
  - apply m_plus_cls in M. destruct M as [M1 M2]. exists (TWS x). split; [reflexivity|]. split.
    + constructor; [exact M1|]. eapply Forall_iff; [|exact M2]. intros. symmetry. apply ws_iff.
    + split; [|lia]. split; [reflexivity|eauto].
  - apply m_string in M. destruct M as (b & -> & B). rewrite trim_quoted. exists (TString b). split; [reflexivity|].
    split; [constructor; exact B|]. split; [|lia]. split; [intros [[e H]|[e H]]; discriminate|discriminate].
  - apply m_plus_cls in M. destruct M as [M1 M2]. exists (TElement (mkE x)). split; [reflexivity|]. split.
    + constructor; [exact M1|]. eapply Forall_iff; [|exact M2]. intros. symmetry. apply element_char_iff.
    + split; [|lia]. split; [reflexivity|eauto].
  - apply m_comment in M. exists (TComment x). split; [reflexivity|].
    split; [destruct M as (y & Y & [->| ->]); constructor; exact Y|]. split; [|lia].
    split; [intros [[e H]|[e H]]; discriminate|discriminate].
Qed.

Lemma lexeme_rule t x : lexeme t x -> exists r, In r rules /\ matches (r_re r) x /\ mk_token (r_kind r) x = Ok t.
Proof.
  intros H. destruct H as [x H1 H2|b B| | | | | | |x H1 H2| | |x H|x H].
  - exists (Rule KWS 1 re_ws). split; [unfold rules; in_list|]. split; [|reflexivity].
    apply m_plus_cls. split; [exact H1|]. eapply Forall_iff; [|exact H2]. intros. apply ws_iff.
  - exists (Rule KString 4 re_string). split; [unfold rules; in_list|]. split; [apply m_string; eauto|].
    cbn [r_kind mk_token]. rewrite trim_quoted. reflexivity.
  - exists (Rule KOpenParen 2 (RLit (lit "("))). split; [unfold rules; in_list|]. split; [apply m_lit|]; reflexivity.
  - exists (Rule KCloseParen 2 (RLit (lit ")"))). split; [unfold rules; in_list|]. split; [apply m_lit|]; reflexivity.
  - exists (Rule KOpenBrace 2 (RLit (lit "{"))). split; [unfold rules; in_list|]. split; [apply m_lit|]; reflexivity.
  - exists (Rule KCloseBrace 2 (RLit (lit "}"))). split; [unfold rules; in_list|]. split; [apply m_lit|]; reflexivity.
  - exists (Rule KOpenSquare 2 (RLit (lit "["))). split; [unfold rules; in_list|]. split; [apply m_lit|]; reflexivity.
  - exists (Rule KCloseSquare 2 (RLit (lit "]"))). split; [unfold rules; in_list|]. split; [apply m_lit|]; reflexivity.
  - exists (Rule KElement 1 re_element). split; [unfold rules; in_list|]. split; [|reflexivity].
    apply m_plus_cls. split; [exact H1|]. eapply Forall_iff; [|exact H2]. intros. apply element_char_iff.
  - exists (Rule KPipe 2 (RLit (lit "|"))). split; [unfold rules; in_list|]. split; [apply m_lit|]; reflexivity.
  - exists (Rule KComma 2 (RLit (lit ","))). split; [unfold rules; in_list|]. split; [apply m_lit|]; reflexivity.
  - exists (Rule KComment 4 re_comment). split; [unfold rules; in_list|]. split; [|reflexivity]. apply m_comment. eauto.
  - exists (Rule KComment 4 re_comment). split; [unfold rules; in_list|]. split; [|reflexivity]. apply m_comment. eauto.
Qed.

Lemma lexeme_nonempty t x : lexeme t x -> x <> [].
Proof. intros H. destruct H; try assumption; discriminate. Qed.

(** What a text reads as when it is not an element is decided by its first
    character. *)
Definition by_first (x : str) : option token :=
  match x with
  | [] => None
  | c :: r =>
      if N.eqb c 40 then Some TOpenParen else if N.eqb c 41 then Some TCloseParen
      else if N.eqb c 123 then Some TOpenBrace else if N.eqb c 125 then Some TCloseBrace
      else if N.eqb c 91 then Some TOpenSquare else if N.eqb c 93 then Some TCloseSquare
      else if N.eqb c 124 then Some TPipe else if N.eqb c 44 then Some TComma
      else if N.eqb c 34 then Some (TString (removelast r))
      else if N.eqb c 45 then Some (TComment x)
      else Some (TWS x)
  end.

Lemma lexeme_by_first t x : lexeme t x -> (exists e, t = TElement e) \/ by_first x = Some t.
Proof.
  intros H. destruct H as [x H1 H2|b B| | | | | | |x H1 H2| | |x H|x H]; try (right; reflexivity); eauto.
  - right. destruct x as [|c x]; [congruence|]. inversion H2 as [|c' x' H3 H4]; subst.
    destruct H3 as [->|[->|[->| ->]]]; reflexivity.
  - right. cbn [by_first]. rewrite removelast_last. reflexivity.
Qed.

Lemma lexeme_element_text e x : lexeme (TElement e) x -> e = Elem x None None.
Proof. intros H. inversion H. reflexivity. Qed.

Lemma lexeme_unique_nonelement t t' x :
  lexeme t x -> lexeme t' x -> (forall e, t <> TElement e) -> (forall e, t' <> TElement e) -> t = t'.
Proof.
  intros H H' N N'. apply lexeme_by_first in H, H'.
  destruct H as [[e H]|H]; [exfalso; exact (N e H)|]. destruct H' as [[e H']|H']; [exfalso; exact (N' e H')|].
  congruence.
Qed.

Lemma ws_not_element_char c : ws_char c -> ~ element_char c.
Proof. intros W E. apply element_char_iff in E. destruct W as [->|[->|[->| ->]]]; vm_compute in E; discriminate. Qed.

Lemma ws_not_element w e x : lexeme (TWS w) x -> ~ lexeme (TElement e) x.
Proof.
  intros H1 H2. inversion H1 as [y N1 F1| | | | | | | | | | | |]; subst.
  inversion H2 as [| | | | | | | |y N2 F2| | | |]; subst.
  destruct x as [|c x]; [congruence|]. inversion F1; inversion F2; subst. eapply ws_not_element_char; eauto.
Qed.

(** ** One step *)

Lemma prefix_firstn (s x rest : str) : s = x ++ rest -> firstn (List.length x) s = x /\ skipn (List.length x) s = rest.
Proof.
  intros ->. split.
  - rewrite firstn_app, Nat.sub_diag, firstn_all, app_nil_r. reflexivity.
  - rewrite skipn_app, Nat.sub_diag, skipn_all. reflexivity.
Qed.

Definition lex_step (s : str) : option (token * str * str) :=
  match best_rule rules s with
  | None => None
  | Some (n, r) => match mk_token (r_kind r) (firstn n s) with
                   | Ok t => Some (t, firstn n s, skipn n s)
                   | _ => None
                   end
  end.

Lemma lex_step_sound s : match lex_step s with
  | Some (t, x, rest) => next_token s t x rest
  | None => forall t x rest, s = x ++ rest -> ~ lexeme t x
  end.
Proof.
  unfold lex_step. pose proof (best_rule_spec rules s) as B.
  destruct (best_rule rules s) as [[n r]|].
  - destruct B as (I1 & I2 & I3 & I4 & I5).
    destruct (rule_lexeme r _ I1 I4) as (t & Et & Lt & P & P1). rewrite Et.
    split; [symmetry; apply firstn_skipn|]. split; [exact Lt|]. split.
    + intros t' x' rest' E L'. rewrite firstn_length, Nat.min_l by exact I3.
      destruct (lexeme_rule _ _ L') as (r' & R1 & R2 & R3). pose proof (lexeme_nonempty _ _ L') as Ne.
      assert (List.length x' <= List.length s) by (rewrite E, app_length; lia).
      destruct (I5 r' (List.length x') R1) as [Q|[Q _]]; try lia.
      * destruct x'; [congruence|simpl; lia].
      * rewrite (proj1 (prefix_firstn _ _ _ E)). exact R2.
    + intros e Ee t' L'.
      destruct (lexeme_rule _ _ L') as (r' & R1 & R2 & R3).
      destruct (rule_lexeme r' _ R1 R2) as (t'' & Et'' & _ & P' & P1'). assert (t'' = t') as -> by congruence.
      destruct (I5 r' n R1 I2 I3 R2) as [Q|[_ Q]]; [lia|].
      assert (r_prio r = 1) by (apply P; left; eauto).
      assert (r_prio r' = 1) as Q' by lia. apply P' in Q'. subst t.
      destruct Q' as [[e' ->]|[w ->]].
      * rewrite (lexeme_element_text _ _ L'), (lexeme_element_text _ _ Lt). reflexivity.
      * exfalso. eapply ws_not_element; eauto.
  - intros t x rest E L. destruct (lexeme_rule _ _ L) as (r & R1 & R2 & R3). pose proof (lexeme_nonempty _ _ L) as Ne.
    apply (B r (List.length x) R1).
    + destruct x; [congruence|simpl; lia].
    + rewrite E, app_length. lia.
    + rewrite (proj1 (prefix_firstn _ _ _ E)). exact R2.
Qed.

Lemma next_token_unique s t x rest t' x' rest' :
  next_token s t x rest -> next_token s t' x' rest' -> t = t' /\ x = x' /\ rest = rest'.
Proof.
  intros (E & L & M & P) (E' & L' & M' & P').
  assert (List.length x = List.length x') as EL by (apply Nat.le_antisymm; eauto).
  assert (x = x').
  { rewrite <- (proj1 (prefix_firstn _ _ _ E)), <- (proj1 (prefix_firstn _ _ _ E')), EL. reflexivity. }
  subst x'. assert (rest = rest') by (rewrite E in E'; apply app_inv_head in E'; exact E').
  subst rest'. split; [|auto].
  assert (D : forall t0 : token, (exists e, t0 = TElement e) \/ (forall e, t0 <> TElement e)).
  { intros [ | | | | | | | |e| | | ]; try (right; discriminate). left; eauto. }
  destruct (D t) as [[e Ee]|De].
  - symmetry. eapply P; eauto.
  - destruct (D t') as [[e Ee]|De'].
    + eapply P'; eauto.
    + eapply lexeme_unique_nonelement; eauto.
Qed.

(** [tokenize] in terms of steps. *)
Lemma tokenize_loop_step fuel c s0 : let s := c :: s0 in
  tokenize_loop (S fuel) s =
  match lex_step s with
  | None => Err tokenize_error
  | Some (t, _, rest) => match tokenize_loop fuel rest with
                         | Ok ts => Ok (t :: ts) | Err e => Err e | Panic w => Panic w end
  end.
Proof.
  cbv zeta. cbn [tokenize_loop]. unfold lex_step.
  pose proof (best_rule_spec rules (c :: s0)) as B.
  destruct (best_rule rules (c :: s0)) as [[n r]|]; [|reflexivity].
  destruct B as (I1 & I2 & I3 & I4 & I5).
  destruct (rule_lexeme r _ I1 I4) as (t & Et & _). rewrite Et. reflexivity.
Qed.

Lemma next_token_shorter s t x rest : next_token s t x rest -> List.length rest < List.length s /\ s <> [].
Proof.
  intros (E & L & _). pose proof (lexeme_nonempty _ _ L). destruct x as [|c x]; [congruence|].
  subst s. simpl. rewrite app_length. split; [lia|discriminate].
Qed.

Lemma tokenize_loop_spec : forall fuel s, List.length s <= fuel ->
  match tokenize_loop fuel s with
  | Ok ts => lexes s ts
  | Err e => e = tokenize_error /\ lex_fails s
  | Panic _ => False
  end.
Proof.
  induction fuel as [|fuel IH]; intros s Hl; destruct s as [|c s0];
    [constructor|simpl in Hl; lia|constructor|].
  rewrite tokenize_loop_step. pose proof (lex_step_sound (c :: s0)) as L.
  destruct (lex_step (c :: s0)) as [[[t x] rest]|].
  - pose proof (next_token_shorter _ _ _ _ L) as [Sh _]. simpl in Sh, Hl.
    specialize (IH rest ltac:(lia)). destruct (tokenize_loop fuel rest) as [ts|e|w].
    + econstructor; eauto.
    + split; [apply IH|]. eapply lf_next; [exact L|apply IH].
    + exact IH.
  - split; [reflexivity|]. apply lf_here. split; [discriminate|exact L].
Qed.

Lemma lexes_unique s ts : lexes s ts -> forall ts', lexes s ts' -> ts = ts'.
Proof.
  induction 1 as [|s t x rest ts N _ IH]; intros ts' H'.
  - inversion H' as [|s' t' x' rest' ts0 N' H0]; subst; [reflexivity|].
    exfalso. apply next_token_shorter in N'. tauto.
  - inversion H' as [|s' t' x' rest' ts0 N' H0]; subst.
    + exfalso. apply next_token_shorter in N. tauto.
    + destruct (next_token_unique _ _ _ _ _ _ _ N N') as (-> & -> & ->). f_equal. auto.
Qed.

Lemma lexes_not_fails s ts : lexes s ts -> ~ lex_fails s.
Proof.
  induction 1 as [|s t x rest ts N _ IH]; intros F.
  - inversion F as [s' [St _]|s' t' x' rest' N' F']; subst; [congruence|]. apply next_token_shorter in N'. tauto.
  - inversion F as [s' [_ St]|s' t' x' rest' N' F']; subst.
    + destruct N as (E & L & _). exact (St _ _ _ E L).
    + destruct (next_token_unique _ _ _ _ _ _ _ N N') as (-> & -> & ->). auto.
Qed.

Lemma tokenize_ok s ts : tokenize s = Ok ts <-> lexes s ts.
Proof.
  unfold tokenize. pose proof (tokenize_loop_spec (List.length s) s (le_n _)) as H.
  destruct (tokenize_loop (List.length s) s) as [ts'|e|w].
  - split; [intros E; injection E as <-; exact H|]. intros L. rewrite (lexes_unique _ _ H _ L). reflexivity.
  - split; [discriminate|]. intros L. exfalso. eapply lexes_not_fails; [exact L|apply H].
  - destruct H.
Qed.

Lemma tokenize_err s e : tokenize s = Err e <-> e = tokenize_error /\ lex_fails s.
Proof.
  unfold tokenize. pose proof (tokenize_loop_spec (List.length s) s (le_n _)) as H.
  destruct (tokenize_loop (List.length s) s) as [ts'|e'|w].
  - split; [discriminate|]. intros [_ F]. exfalso. eapply lexes_not_fails; eauto.
  - split; [intros E; injection E as <-; exact H|]. intros [-> _]. f_equal. apply H.
  - destruct H.
Qed.

Lemma tokenize_no_panic s w : tokenize s <> Panic w.
Proof.
  unfold tokenize. pose proof (tokenize_loop_spec (List.length s) s (le_n _)) as H. intros E. rewrite E in H. exact H.
Qed.

Lemma lexeme_text t x : lexeme t x -> token_text t = x.
Proof. intros H. destruct H; reflexivity. Qed.

Lemma lexes_text s ts : lexes s ts -> flat_map token_text ts = s.
Proof.
  induction 1 as [|s t x rest ts N _ IH]; [reflexivity|]. destruct N as (E & L & _).
  cbn [flat_map]. rewrite IH, (lexeme_text _ _ L). symmetry. exact E.
Qed.
