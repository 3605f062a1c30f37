(** * Properties: scripts made from templates *)
From Coq Require Import List Arith NArith Bool String Lia.
From Verif Require Import M_Base M_Data M_Mem M_Heed M_Duck M_Regex M_Lexer M_Graph M_Parser M_Display M_Interp M_Hosts
  S_Order S_Str S_Store S_Graph S_Lexer S_Parser S_Display S_Interp S_Wander S_Rewrite S_Template
  P_Ord P_Agree P_Graph P_Regex P_Lexer P_LexMore P_Parser P_Display P_Reread P_InterpProps P_Rewrite P_Template Prop_Graph.
Import ListNotations.
Open Scope list_scope.

Lemma nth_map_inv (f : str -> str) l i b : nth_error (map f l) i = Some b -> exists x, nth_error l i = Some x /\ f x = b.
Proof. rewrite nth_error_map. destruct (nth_error l i) as [x|]; [|discriminate]. intros E. injection E as <-. eauto. Qed.

Definition printed (n : str) : str := display (VElement (Elem n None None)).

Lemma printed_qu n : printed n = qu (json_body n).
Proof. reflexivity. Qed.

Lemma fill_map quote f pieces last : (forall n, quote n = qu (f n)) -> forall xs, fill quote pieces last xs = fill qu pieces last (map f xs).
Proof.
  intros H. induction pieces as [|p ps IH]; intros [|x xs]; try reflexivity. cbn [fill map]. rewrite IH, H. reflexivity.
Qed.

Lemma fill_like (R : str -> str -> Prop) pieces last bs cs prog : (forall a, R a a) -> template pieces last (List.length bs) -> List.length bs = List.length cs ->
  Forall string_body bs -> Forall string_body cs ->
  (forall i b c, nth_error bs i = Some b -> nth_error cs i = Some c -> R b c) ->
  reads_as (fill qu pieces last bs) prog -> exists prog', reads_as (fill qu pieces last cs) prog' /\ Forall2 (like_call R) prog prog'.
Proof.
  intros Rr (Len & F & Tl) Lc Bb Bc H (ts & k & L & K & G).
  destruct (fill_lexes _ _ F Tl bs Bb Len) as (ts' & L1 & T1). pose proof (lexes_unique _ _ L _ L1) as X. subst ts'.
  destruct (filled_unique _ _ _ _ T1 cs Lc) as (us & U & Like).
  destruct (fill_lexes _ _ F Tl cs Bc ltac:(congruence)) as (us' & L2 & T2).
  assert (us' = us) as ->.
  { clear -T2 U. revert us U. induction T2 as [last ts L|p ps last b bs ts us L H IH]; intros vs V; inversion V as [|? ? ? ? ? ts2 us2 L2 V2]; subst.
    - eapply lexes_unique; eassumption.
    - rewrite (lexes_unique _ _ L _ L2), (IH _ V2). reflexivity. }
  specialize (Like R Rr H).
  assert (Ek : k = kept ts).
  { apply tokenize_ok in L. destruct (filter_keeps _ _ L) as (k' & Ek & K' & U'). rewrite (U' k K).
    unfold tokenize_and_filter in Ek. rewrite L in Ek. injection Ek as <-. reflexivity. }
  subst k. pose proof (kept_like R Rr _ _ (lexes_bare _ _ L) Like) as KL.
  destruct (like_script R _ _ G _ KL) as (prog' & G' & Lp). exists prog'. split; [|exact Lp].
  exists us, (kept us). split; [exact L2|]. split; [|exact G'].
  apply tokenize_ok in L2. destruct (filter_keeps _ _ L2) as (k' & Ek & K' & _). unfold tokenize_and_filter in Ek. rewrite L2 in Ek.
  injection Ek as <-. exact K'.
Qed.

(** C112.  A template filled with printed names: whatever the names, the scripts
    are the same program but for the names in the holes. *)
Theorem C112_no_injection : forall pieces last xs ys cs, template pieces last (List.length xs) -> List.length xs = List.length ys ->
  reads_as (fill printed pieces last xs) cs ->
  exists ds, reads_as (fill printed pieces last ys) ds /\ Forall2 (like_call (same_or_filled json_text xs ys)) cs ds.
Proof.
  intros pieces last xs ys cs T Len H. rewrite (fill_map printed json_body _ _ printed_qu) in *.
  apply (fill_like (same_or_filled json_text xs ys) _ _ (map json_body xs) (map json_body ys)) in H.
  - exact H.
  - intros a. left. reflexivity.
  - rewrite map_length. exact T.
  - rewrite !map_length. exact Len.
  - apply Forall_forall. intros b Hb. apply in_map_iff in Hb. destruct Hb as (x & <- & _). apply json_body_string.
  - apply Forall_forall. intros b Hb. apply in_map_iff in Hb. destruct Hb as (x & <- & _). apply json_body_string.
  - intros i b c Eb Ec. rewrite nth_error_map in Eb, Ec. destruct (nth_error xs i) as [x|] eqn:Ex; [|discriminate].
    destruct (nth_error ys i) as [y|] eqn:Ey; [|discriminate]. injection Eb as <-. injection Ec as <-.
    right. exists i, x, y. repeat split; try assumption; apply json_text_body.
Qed.
Print Assumptions C112_no_injection.

(** So whether it is a program at all, how many calls it makes, with how many
    arguments, and which commands are not names from the template's holes, does
    not depend on the names. *)
Theorem C112_same_commands : forall pieces last xs ys cs, template pieces last (List.length xs) -> List.length xs = List.length ys ->
  reads_as (fill printed pieces last xs) cs ->
  (forall c x, In c cs -> In x xs -> ~ json_text x (el_name (c_name c))) ->
  exists ds, reads_as (fill printed pieces last ys) ds
    /\ Forall2 (fun c d => c_name c = c_name d /\ List.length (c_args c) = List.length (c_args d)) cs ds.
Proof.
  intros pieces last xs ys cs T Len H N. destruct (C112_no_injection pieces last xs ys cs T Len H) as (ds & R & L).
  exists ds. split; [exact R|]. clear R H. induction L as [|c d cs ds (Hn & Ha) L IH]; constructor.
  - split.
    + inversion Hn as [a b K E1 E2]. destruct K as [->|(i & x & y & Hx & _ & J & _)]; [reflexivity|]. exfalso.
      apply (N c x); [left; reflexivity|eapply nth_error_In; eassumption|]. rewrite <- E1. exact J.
    + clear -Ha. induction Ha; simpl; congruence.
  - apply IH. intros c' x Hc. apply N. right. exact Hc.
Qed.
Print Assumptions C112_same_commands.

Theorem C112_program_or_not : forall pieces last xs ys, template pieces last (List.length xs) -> List.length xs = List.length ys ->
  ((exists cs, reads_as (fill printed pieces last xs) cs) <-> (exists ds, reads_as (fill printed pieces last ys) ds))
  /\ (exists ts, lexes (fill printed pieces last xs) ts).
Proof.
  intros pieces last xs ys T Len. split.
  - split; intros [cs H].
    + destruct (C112_no_injection _ _ xs ys _ T Len H) as (ds & R & _). eauto.
    + rewrite Len in T. destruct (C112_no_injection _ _ ys xs _ T (eq_sym Len) H) as (ds & R & _). eauto.
  - destruct T as (L & F & Tl). rewrite (fill_map printed json_body _ _ printed_qu).
    destruct (fill_lexes _ _ F Tl (map json_body xs)) as (ts & H & _).
    + apply Forall_forall. intros b Hb. apply in_map_iff in Hb. destruct Hb as (x & <- & _). apply json_body_string.
    + rewrite map_length. exact L.
    + eauto.
Qed.
Print Assumptions C112_program_or_not.

(** With write_string in place of printing: the same for names without control
    characters other than tab, newline and carriage return; with one of those
    the script is rejected and nothing of it is run. *)
Theorem C112_write_string : forall pieces last (xs ys : list str) cs, template pieces last (List.length xs) -> List.length xs = List.length ys ->
  Forall (Forall writable) xs -> reads_as (fill write_string pieces last xs) cs ->
  (Forall (Forall writable) ys ->
     exists ds, reads_as (fill write_string pieces last ys) ds /\ Forall2 (like_call (same_or_filled five_escapes xs ys)) cs ds)
  /\ (~ Forall (Forall writable) ys -> forall (St : Type) (lig : lig_impl St) st,
       run lig common (fill write_string pieces last ys) st = (Err (WErr (lit "Error tokenizing input.")), st)).
Proof.
  intros pieces last xs ys cs T Len Wx H.
  assert (Q : forall n, write_string n = qu (flat_map five_char n)) by (intros n; apply write_string_chars).
  assert (B : forall zs : list str, Forall (Forall writable) zs -> Forall string_body (map (flat_map five_char) zs)).
  { intros zs W. apply Forall_forall. intros b Hb. apply in_map_iff in Hb. destruct Hb as (z & <- & Hz).
    rewrite Forall_forall in W. eapply json_means_body, five_means; [apply five_iff; reflexivity|]. apply W, Hz. }
  split.
  - intros Wy. rewrite (fill_map write_string _ _ _ Q) in *.
    apply (fill_like (same_or_filled five_escapes xs ys) _ _ _ (map (flat_map five_char) ys)) in H.
    + exact H.
    + intros a. left. reflexivity.
    + rewrite map_length. exact T.
    + rewrite !map_length. exact Len.
    + apply B, Wx.
    + apply B, Wy.
    + intros i b c Eb Ec. apply nth_map_inv in Eb, Ec. destruct Eb as (x & Ex & <-). destruct Ec as (y & Ey & <-).
      right. exists i, x, y. repeat split; try assumption; apply five_iff; reflexivity.
  - intros Wy St lig st.
    assert (F : lex_fails (fill write_string pieces last ys)).
    { clear H. destruct T as (L & F & _). apply fill_fails; [exact F|rewrite L; exact Len|exact Wy]. }
    rewrite (proj1 (run_outcomes _ lig common _ st) F). reflexivity.
Qed.
Print Assumptions C112_write_string.

(** Why pieces must not end inside a string, and names must be escaped: the name
    below, put between quotes as it is, or printed into a hole between quotes,
    adds a call that writes. *)
Definition tx_name : str := lit "a"", let b {}, read ""a".
Definition tx_name2 : str := lit ", let b {}, ignore ".

Theorem C112_conditions :
  (exists s, grun (lit "read ""a""") (mem_after [OAddColl (lit "a")]) = (Ok done, s) /\ ~ has mem_impl s (lit "b"))
  /\ (exists s, grun (lit "read """ ++ tx_name ++ lit """") (mem_after [OAddColl (lit "a")]) = (Ok done, s) /\ has mem_impl s (lit "b"))
  /\ (exists v s, grun (fill printed [lit "ignore """] (lit """") [lit "x"]) mem_new = (Ok v, s) /\ ~ has mem_impl s (lit "b"))
  /\ (exists v s, grun (fill printed [lit "ignore """] (lit """") [tx_name2]) mem_new = (Ok v, s) /\ has mem_impl s (lit "b")).
Proof.
  assert (N : forall s, t_collections mem_impl s = Ok [] \/ t_collections mem_impl s = Ok [lit "a"] -> ~ has mem_impl s (lit "b")).
  { intros s [E|E] (l & X & Hi); rewrite E in X; injection X as <-; [destruct Hi|]. destruct Hi as [Hi|[]]. vm_compute in Hi. discriminate. }
  repeat match goal with |- _ /\ _ => split end.
  - eexists. split; [vm_compute; reflexivity|]. apply N. right. vm_compute. reflexivity.
  - eexists. split; [vm_compute; reflexivity|]. eexists. split; [vm_compute; reflexivity|]. vm_compute. tauto.
  - eexists. eexists. split; [vm_compute; reflexivity|]. apply N. left. vm_compute. reflexivity.
  - eexists. eexists. split; [vm_compute; reflexivity|]. eexists. split; [vm_compute; reflexivity|]. vm_compute. tauto.
Qed.
Print Assumptions C112_conditions.

(** A template with three holes, and the hostile name in it. *)
Definition tx_pieces : list str := [lit "let "; lit " {"; lit " : "].
Definition tx_last : str := lit "}, docs".

Example C112_case : template tx_pieces tx_last 3
  /\ reads_as (fill printed tx_pieces tx_last [lit "n"; lit "a"; lit "c"])
       [let_ (mkE (lit "n")) [Extends (mkE (lit "a")) (mkE (lit "c"))]; S_Rewrite.named "docs" []]
  /\ exists b, json_text tx_name b /\ reads_as (fill printed tx_pieces tx_last [tx_name; lit "a"; lit "c"])
       [let_ (mkE b) [Extends (mkE (lit "a")) (mkE (lit "c"))]; S_Rewrite.named "docs" []].
Proof.
  assert (T : forall s cs toks, tokenize s = Ok toks -> forall kept, keeps toks kept -> parse kept = Ok cs -> reads_as s cs).
  { intros s cs toks E kept K Ep. exists toks, kept. split; [apply tokenize_ok; exact E|]. split; [exact K|]. apply parse_ok. exact Ep. }
  assert (C : forall p toks, tokenize p = Ok toks -> (forall c, ~ In (TComment c) toks) -> ends_clean p).
  { intros p toks E N. exists toks. split; [apply tokenize_ok; exact E|]. intros b c Eb. exfalso. apply (N c). rewrite Eb. apply in_or_app. right. left. reflexivity. }
  assert (X : forall s cs toks k, tokenize s = Ok toks -> tokenize_and_filter s = Ok k -> parse k = Ok cs -> reads_as s cs).
  { intros s cs toks k E Ef Ep. destruct (filter_keeps _ _ E) as (k' & Ek & K & _). rewrite Ef in Ek. injection Ek as <-. eapply T; eassumption. }
  split; [|split].
  - split; [reflexivity|]. split.
    + repeat apply Forall_cons; [..|apply Forall_nil]; (eapply C; [vm_compute; reflexivity|]; intros c H; cbn in H; intuition discriminate).
    + eexists. apply tokenize_ok. vm_compute. reflexivity.
  - eapply X; vm_compute; reflexivity.
  - eexists. split; [apply json_text_body|]. eapply X; vm_compute; reflexivity.
Qed.
