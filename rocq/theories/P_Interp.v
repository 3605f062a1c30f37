(** * Proofs about the interpreter: the model computes the semantics *)
From Coq Require Import List Arith NArith Bool String Lia Permutation.
From Verif Require Import M_Base M_Data M_Regex M_Lexer M_Graph M_Parser M_Display M_Interp
  S_Order S_Store S_Graph S_Interp P_Ord P_Hist P_Parser P_Display.
Import ListNotations.
Open Scope list_scope.

(** The commands that never evaluate a quote. *)
Definition simple {St : Type} (f : @cmd_fun St) : Prop :=
  match f with FAssertEqual | FAssertFail | FLet => False | _ => True end.

(** ** Equality of values *)
Lemma entries_eqb_eq : forall a b, entries_eqb a b = true <-> a = b.
Proof.
  induction a as [|x a IH]; intros [|y b]; simpl; try (split; congruence).
  rewrite andb_true_iff, entry_eqb_eq, IH. intuition congruence.
Qed.

Lemma value_eqb_eq : forall a b, value_eqb a b = true <-> a = b.
Proof.
  induction a as [e|n|q IH] using value_ind'; intros [f|q'|n']; simpl; try (split; congruence).
  - rewrite element_eqb_eq. intuition congruence.
  - rewrite entries_eqb_eq. intuition congruence.
  - assert (H : forall m,
      (fix go (l m : list value) : bool :=
         match l, m with
         | [], [] => true
         | v :: l', w :: m' => value_eqb v w && go l' m'
         | _, _ => false
         end) q m = true <-> q = m).
    { clear q'. induction IH as [|v q Hv _ IH]; intros [|w m]; try (split; congruence).
      rewrite andb_true_iff, Hv, IH. intuition congruence. }
    rewrite H. intuition congruence.
Qed.

(** ** Looking commands up *)
Lemma cmd_get_iff {St} (cs : @commands St) n c : is_table cs -> (cmd_get cs n = Some c <-> In (n, c) cs).
Proof.
  unfold is_table. induction cs as [|[m d] cs IH]; simpl; intros Ht; [split; [discriminate|intros []]|].
  inversion_clear Ht as [|? ? Hn Hd]. destruct (str_eqb m n) eqn:E.
  - apply str_eqb_eq in E as ->. split; [intros H; left; congruence|].
    intros [H|H]; [congruence|]. exfalso. apply Hn. apply (in_map fst) in H. exact H.
  - rewrite IH by exact Hd. split; [auto|]. intros [H|H]; [|exact H].
    injection H as -> ->. exfalso. rewrite (proj2 (str_eqb_eq n n) eq_refl) in E. discriminate.
Qed.

Lemma cmd_get_none {St} (cs : @commands St) n : is_table cs -> (cmd_get cs n = None <-> forall c, ~ In (n, c) cs).
Proof.
  intros Ht. split.
  - intros E c H. apply (cmd_get_iff cs n c Ht) in H. congruence.
  - intros H. destruct (cmd_get cs n) as [c|] eqn:E; [|reflexivity]. apply (cmd_get_iff cs n c Ht) in E. destruct (H _ E).
Qed.

Lemma depths_cons v l : depths (v :: l) = Nat.max (depth v) (depths l).
Proof. reflexivity. Qed.

Lemma depth_quote q : depth (VQuote q) = S (depths q).
Proof. reflexivity. Qed.

Scheme evals_mut := Induction for evals Sort Prop
  with quotes_mut := Induction for quotes Sort Prop
  with does_mut := Induction for does Sort Prop
  with acts_mut := Induction for acts Sort Prop.
Combined Scheme semantics_ind from evals_mut, quotes_mut, does_mut, acts_mut.

Section Interp.
  Context {St : Type} (lig : lig_impl St) (cs : @commands St) (Ht : is_table cs).

  Lemma exec_simple rq rq' f args st : simple f -> exec lig rq cs f args st = exec lig rq' cs f args st.
  Proof. destruct f; simpl; intros H; try destruct H; reflexivity. Qed.

  Lemma docs_in e :
    In e (bs_collect entry_cmp (map (fun nc => Role (mkE (fst nc)) (mkE (cmd_doc (snd nc))) (mkE (lit "docString"))) cs))
    <-> exists name c, In (name, c) cs
         /\ e = Role (Elem name None None) (Elem (cmd_doc c) None None) (Elem (lit "docString") None None).
  Proof.
    rewrite (in_bs_collect entry_order), in_map_iff. split.
    - intros ([n c] & <- & H). exists n, c. auto.
    - intros (n & c & H & ->). exists (n, c). auto.
  Qed.

  Lemma simply_simple f args st r st' : simply lig cs f args st r st' -> simple f.
  Proof. destruct 1; exact Logic.I. Qed.

  Lemma simply_exec rq f args st r st' : simply lig cs f args st r st' -> exec lig rq cs f args st = (r, st').
  Proof.
    destruct 1 as [v st|args st H|args st|n st Hs Hn|v args st|l r st|a b st H|args st H|c l st E|c e st E|c w st E|args st H
      |c a b d l st E|c a b d e st E|c a b d w st E|args st H|f args st]; cbn [exec]; try reflexivity.
    - unfold id_command. destruct args as [|v [|w args]]; try reflexivity. destruct (H eq_refl).
    - unfold docs_command. match goal with |- (Ok (VNetwork ?x), _) = _ => assert (x = n) as ->; [|reflexivity] end.
      apply (is_set_ext entry_order); [apply (is_set_collect entry_order)|exact Hs|].
      intros e. rewrite docs_in, Hn. reflexivity.
    - unfold union_command. destruct a as [| |l]; try reflexivity. destruct b as [| |r]; try reflexivity. destruct (H l r eq_refl).
    - unfold union_command. destruct args as [|a [|b [|c args]]]; try reflexivity. destruct (H eq_refl).
    - unfold read_command. rewrite E. reflexivity.
    - unfold read_command. rewrite E. reflexivity.
    - unfold read_command. rewrite E. reflexivity.
    - unfold read_command. destruct args as [|[c| |] [|]]; try reflexivity. destruct (H c eq_refl).
    - unfold filter_command. rewrite E. reflexivity.
    - unfold filter_command. rewrite E. reflexivity.
    - unfold filter_command. rewrite E. reflexivity.
    - unfold filter_command. destruct args as [|[c| |] [|[a| |] [|[b| |] [|[d| |] [|]]]]]; try reflexivity. destruct (H c a b d eq_refl).
    - apply surjective_pairing.
  Qed.

  Lemma exec_simply rq f args st : simple f ->
    simply lig cs f args st (fst (exec lig rq cs f args st)) (snd (exec lig rq cs f args st)).
  Proof.
    intros Hs. destruct f; try destruct Hs; cbn [exec].
    - apply si_ignore.
    - unfold read_command. destruct args as [|[c|q|n] [|y args]]; try (apply si_read_args; intros ?; discriminate).
      destruct (l_entries lig st c) as [l|e|w] eqn:E; cbn [fst snd]; [apply si_read|apply si_read_err|apply si_read_panic]; exact E.
    - unfold id_command. destruct args as [|v [|w args]]; try (apply si_id_args; discriminate). apply si_id.
    - unfold docs_command. destruct args as [|v args]; [|apply si_docs_args]. apply si_docs; [apply (is_set_collect entry_order)|apply docs_in].
    - unfold union_command. destruct args as [|a [|b [|c args]]]; try (apply si_union_args; discriminate).
      destruct a as [e|q|l]; try (apply si_union_other; intros ? ?; discriminate).
      destruct b as [e|q|r]; try (apply si_union_other; intros ? ?; discriminate). apply si_union.
    - unfold filter_command.
      destruct args as [|[c| |] [|[a| |] [|[b| |] [|[d| |] [|y args]]]]]; try (apply si_filter_args; intros ? ? ? ?; discriminate).
      destruct (l_filter lig st c (Role a d b)) as [l|e|w] eqn:E; cbn [fst snd];
        [apply si_filter|eapply si_filter_err|apply si_filter_panic]; exact E.
    - apply si_host.
  Qed.

  Lemma stores_iff c n st r st' : stores lig c n st r st' <-> let_store lig c n st = (r, st').
  Proof.
    unfold let_store. split.
    - intros [a st1 b st2 n' E1 H1 E2 H2|w st1 E1|a st1 w st2 n' E1 H1 E2]; rewrite E1.
      + destruct a as [x|e|w]; [| |destruct (H1 w eq_refl)];
          rewrite E2; destruct b as [y|e'|w]; try reflexivity; destruct (H2 w eq_refl).
      + reflexivity.
      + destruct a as [x|e|v]; [| |destruct (H1 v eq_refl)]; rewrite E2; reflexivity.
    - destruct (l_add_collection lig st c) as [a st1] eqn:E1. destruct a as [x|e|w].
      1, 2: destruct (l_add_entries lig st1 c n) as [[b st2] n'] eqn:E2;
        destruct b as [y|e'|w]; intros E; injection E as <- <-.
      7: intros E; injection E as <- <-.
      7: eapply st_first; exact E1.
      1, 2, 4, 5: eapply st_both; [exact E1|intros ?; discriminate|exact E2|intros ?; discriminate].
      all: eapply st_second; [exact E1|intros ?; discriminate|exact E2].
  Qed.

  (** The semantics determines what the functions compute, with any fuel above
      the nesting depth. *)
  Definition eval_with (rq : list value -> St -> wres value * St) (v : value) (st : St) :=
    match v with VQuote q => rq q st | v => (Ok v, st) end.

  Lemma complete :
    (forall v st r st', evals lig cs v st r st' ->
       forall fuel, depth v <= fuel -> eval_with (run_quote_f lig fuel cs) v st = (r, st'))
    /\ (forall q st r st', quotes lig cs q st r st' ->
       forall fuel, depths q < fuel -> run_quote_f lig fuel cs q st = (r, st'))
    /\ (forall n args st r st', does lig cs n args st r st' ->
       forall fuel res, depths args <= fuel ->
       run_calls_loop lig (run_quote_f lig fuel cs) cs [Call n args] res st = (r, st'))
    /\ (forall f args st r st', acts lig cs f args st r st' ->
       forall fuel, depths args <= fuel -> exec lig (run_quote_f lig fuel cs) cs f args st = (r, st')).
  Proof.
    apply semantics_ind; try (intros; reflexivity).
    - intros q st r st' _ IH fuel H. apply IH. exact H.
    - intros st [|fuel] H; [inversion H|]. reflexivity.
    - intros n args st r st' _ IH [|fuel] H; [inversion H|]. cbn [run_quote_f]. apply IH.
      rewrite depths_cons in H. simpl in H. lia.
    - intros v args st Hv [|fuel] H; [inversion H|]. cbn [run_quote_f].
      destruct v as [n| |]; [destruct (Hv n eq_refl)|reflexivity|reflexivity].
    - intros n args st H fuel res _. cbn [run_calls_loop c_name]. rewrite (proj2 (cmd_get_none cs _ Ht) H). reflexivity.
    - intros n c args st r st' H _ IH fuel res Hf. cbn [run_calls_loop c_name c_args].
      rewrite (proj2 (cmd_get_iff cs _ _ Ht) H), IH by exact Hf.
      destruct r; reflexivity.
    - intros f args st r st' Hs fuel _. apply simply_exec. exact Hs.
    - intros args st H fuel _. cbn [exec]. unfold assert_equal_command.
      destruct args as [|a [|b [|c args]]]; try reflexivity. destruct (H eq_refl).
    - intros l r st a st1 _ IH Hf fuel H. rewrite !depths_cons in H. cbn [exec]. unfold assert_equal_command.
      change (match l with VQuote q => run_quote_f lig fuel cs q st | v => (Ok v, st) end)
        with (eval_with (run_quote_f lig fuel cs) l st).
      rewrite IH by lia. destruct a as [v|e|w]; [destruct (Hf v eq_refl)|reflexivity|reflexivity].
    - intros l r st a st1 b st2 _ IH1 _ IH2 Hf fuel H. rewrite !depths_cons in H. cbn [exec]. unfold assert_equal_command.
      change (match l with VQuote q => run_quote_f lig fuel cs q st | v => (Ok v, st) end)
        with (eval_with (run_quote_f lig fuel cs) l st).
      rewrite IH1 by lia.
      change (match r with VQuote q => run_quote_f lig fuel cs q st1 | v => (Ok v, st1) end)
        with (eval_with (run_quote_f lig fuel cs) r st1).
      rewrite IH2 by lia. destruct b as [v|e|w]; [destruct (Hf v eq_refl)|reflexivity|reflexivity].
    - intros l r st a st1 st2 _ IH1 _ IH2 fuel H. rewrite !depths_cons in H. cbn [exec]. unfold assert_equal_command.
      change (match l with VQuote q => run_quote_f lig fuel cs q st | v => (Ok v, st) end)
        with (eval_with (run_quote_f lig fuel cs) l st).
      rewrite IH1 by lia.
      change (match r with VQuote q => run_quote_f lig fuel cs q st1 | v => (Ok v, st1) end)
        with (eval_with (run_quote_f lig fuel cs) r st1).
      rewrite IH2 by lia. rewrite (proj2 (value_eqb_eq a a) eq_refl). reflexivity.
    - intros l r st a st1 b st2 _ IH1 _ IH2 Hn fuel H. rewrite !depths_cons in H. cbn [exec]. unfold assert_equal_command.
      change (match l with VQuote q => run_quote_f lig fuel cs q st | v => (Ok v, st) end)
        with (eval_with (run_quote_f lig fuel cs) l st).
      rewrite IH1 by lia.
      change (match r with VQuote q => run_quote_f lig fuel cs q st1 | v => (Ok v, st1) end)
        with (eval_with (run_quote_f lig fuel cs) r st1).
      rewrite IH2 by lia. destruct (value_eqb a b) eqn:E; [apply value_eqb_eq in E; destruct (Hn E)|reflexivity].
    - intros args st H fuel _. cbn [exec]. unfold assert_fail_command.
      destruct args as [|[| |] [|? ?]]; try reflexivity. destruct (H _ eq_refl).
    - intros q st v st1 _ IH fuel H. rewrite depths_cons, depth_quote in H. cbn [exec]. unfold assert_fail_command.
      rewrite IH by lia. reflexivity.
    - intros q st v st1 _ IH fuel H. rewrite depths_cons, depth_quote in H. cbn [exec]. unfold assert_fail_command.
      rewrite IH by lia. reflexivity.
    - intros q st v st1 _ IH fuel H. rewrite depths_cons, depth_quote in H. cbn [exec]. unfold assert_fail_command.
      rewrite IH by lia. reflexivity.
    - intros c n st r st' H fuel _. apply stores_iff in H. exact H.
    - intros c q st n st1 r st' _ IH H fuel Hf. rewrite !depths_cons, depth_quote in Hf. cbn [exec]. unfold let_command.
      rewrite IH by lia. apply stores_iff in H. exact H.
    - intros c q st w st1 _ IH fuel Hf. rewrite !depths_cons, depth_quote in Hf. cbn [exec]. unfold let_command.
      rewrite IH by lia. reflexivity.
    - intros c q st a st1 _ IH H1 H2 fuel Hf. rewrite !depths_cons, depth_quote in Hf. cbn [exec]. unfold let_command.
      rewrite IH by lia. destruct a as [[e|q'|n]|e|w]; try reflexivity; [destruct (H1 n eq_refl)|destruct (H2 w eq_refl)].
    - intros args st H1 H2 fuel _. cbn [exec]. unfold let_command.
      destruct args as [|[c| |] [|[|q|n] [|? ?]]]; try reflexivity; [destruct (H2 c q eq_refl)|destruct (H1 c n eq_refl)].
  Qed.

  (** Every run has a derivation. *)
  Lemma failed_err {E A} (e : E) : failed (@Err E A e).
  Proof. intros v; discriminate. Qed.
  Lemma failed_panic {E A} w : failed (@Panic E A w).
  Proof. intros v; discriminate. Qed.
  Hint Resolve failed_err failed_panic : core.

  Lemma sound : forall fuel q st, depths q < fuel ->
    quotes lig cs q st (fst (run_quote_f lig fuel cs q st)) (snd (run_quote_f lig fuel cs q st)).
  Proof.
    induction fuel as [|fuel IH]; intros q st H; [inversion H|]. cbn [run_quote_f].
    destruct q as [|[n|q'|nw] args]; [constructor| |apply qu_other; intros ?; discriminate|apply qu_other; intros ?; discriminate].
    apply qu_call. rewrite depths_cons in H. simpl in H.
    assert (Hd : depths args <= fuel) by lia. clear H. cbn [run_calls_loop c_name c_args].
    destruct (cmd_get cs (el_name n)) as [c|] eqn:Ec.
    2: { apply do_unknown. apply cmd_get_none; assumption. }
    apply (do_known _ _ n c); [apply cmd_get_iff; assumption|].
    assert (HA : acts lig cs (cmd_fun_of c) args st
      (fst (exec lig (run_quote_f lig fuel cs) cs (cmd_fun_of c) args st))
      (snd (exec lig (run_quote_f lig fuel cs) cs (cmd_fun_of c) args st))).
    2: { destruct (exec lig (run_quote_f lig fuel cs) cs (cmd_fun_of c) args st) as [[v|e|w] st']; exact HA. }
    assert (HE : forall v st, depth v <= fuel ->
      evals lig cs v st (fst (eval_with (run_quote_f lig fuel cs) v st)) (snd (eval_with (run_quote_f lig fuel cs) v st))).
    { intros [e|q|m] s Hv; cbn [eval_with]; [apply ev_element| |apply ev_network].
      apply ev_quote, IH. rewrite depth_quote in Hv. lia. }
    assert (HS : simple (cmd_fun_of c) \/ cmd_fun_of c = FAssertEqual \/ cmd_fun_of c = FAssertFail \/ cmd_fun_of c = FLet)
      by (destruct (cmd_fun_of c); simpl; auto).
    destruct HS as [HS|[->|[->| ->]]].
    - apply ac_simple. apply exec_simply. exact HS.
    - cbn [exec]. unfold assert_equal_command.
      destruct args as [|l [|r [|x args]]]; try (apply ac_eq_args; discriminate).
      rewrite !depths_cons in Hd.
      pose proof (HE l st ltac:(lia)) as HL. fold (eval_with (run_quote_f lig fuel cs) l st).
      destruct (eval_with (run_quote_f lig fuel cs) l st) as [[a|e|w] st1]; cbn [fst snd] in HL |- *;
        [|apply ac_eq_left; auto|apply ac_eq_left; auto].
      pose proof (HE r st1 ltac:(lia)) as HR. fold (eval_with (run_quote_f lig fuel cs) r st1).
      destruct (eval_with (run_quote_f lig fuel cs) r st1) as [[b|e|w] st2]; cbn [fst snd] in HR |- *;
        [|eapply ac_eq_right; eauto|eapply ac_eq_right; eauto].
      destruct (value_eqb a b) eqn:E.
      + apply value_eqb_eq in E as ->. eapply ac_eq_same; eauto.
      + eapply ac_eq_differ; eauto. intros ->. rewrite (proj2 (value_eqb_eq b b) eq_refl) in E. discriminate.
    - cbn [exec]. unfold assert_fail_command.
      destruct args as [|[e|q|m] [|x args]]; try (apply ac_fail_args; intros ? ?; discriminate).
      rewrite depths_cons, depth_quote in Hd. pose proof (IH q st ltac:(lia)) as HQ.
      destruct (run_quote_f lig fuel cs q st) as [[v|e|w] st1]; cbn [fst snd] in HQ |- *.
      + eapply ac_fail_ok; eauto.
      + eapply ac_fail_err; eauto.
      + eapply ac_fail_panic; eauto.
    - cbn [exec]. unfold let_command.
      destruct args as [|[e|q|m] [|[e'|q'|m'] [|x args]]]; try (apply ac_let_args; intros ? ? ?; discriminate).
      + rewrite !depths_cons, depth_quote in Hd. pose proof (IH q' st ltac:(lia)) as HQ.
        destruct (run_quote_f lig fuel cs q' st) as [[[x|x|x]|y|w] st1]; cbn [fst snd] in HQ |- *.
        * eapply ac_let_other; [exact HQ|intros ?; discriminate|intros ?; discriminate].
        * eapply ac_let_other; [exact HQ|intros ?; discriminate|intros ?; discriminate].
        * eapply ac_let_quote; [exact HQ|]. apply stores_iff. apply surjective_pairing.
        * eapply ac_let_other; [exact HQ|intros ?; discriminate|intros ?; discriminate].
        * eapply ac_let_panic; exact HQ.
      + apply ac_let_network. apply stores_iff. apply surjective_pairing.
  Qed.

  Lemma quotes_iff q st r st' : quotes lig cs q st r st' <-> run_quote lig cs q st = (r, st').
  Proof.
    unfold run_quote. split.
    - intros H. apply (proj1 (proj2 complete) _ _ _ _ H). lia.
    - intros E. pose proof (sound (S (depths q)) q st ltac:(lia)) as H. rewrite E in H. exact H.
  Qed.

  Lemma fuel_irrelevant q st fuel : depths q < fuel -> run_quote_f lig fuel cs q st = run_quote lig cs q st.
  Proof.
    intros H. destruct (run_quote lig cs q st) as [r st'] eqn:E. apply quotes_iff in E.
    apply (proj1 (proj2 complete) _ _ _ _ E). exact H.
  Qed.

  (** Two evaluators that agree on the quotes among the arguments. *)
  Lemma exec_ext rq rq' f args st : (forall q s, In (VQuote q) args -> rq q s = rq' q s) ->
    exec lig rq cs f args st = exec lig rq' cs f args st.
  Proof.
    intros H. destruct f; cbn [exec]; try reflexivity.
    - unfold assert_equal_command. destruct args as [|l [|r [|x args]]]; try reflexivity.
      assert (HL : forall s, match l with VQuote q => rq q s | v => (Ok v, s) end
                 = match l with VQuote q => rq' q s | v => (Ok v, s) end)
        by (intros s; destruct l; try reflexivity; apply H; left; reflexivity).
      assert (HR : forall s, match r with VQuote q => rq q s | v => (Ok v, s) end
                 = match r with VQuote q => rq' q s | v => (Ok v, s) end)
        by (intros s; destruct r; try reflexivity; apply H; right; left; reflexivity).
      rewrite HL. destruct (match l with VQuote q => rq' q st | v => (Ok v, st) end) as [[a|e|w] st1]; try reflexivity.
      rewrite HR. reflexivity.
    - unfold assert_fail_command. destruct args as [|[e|q|m] [|x args]]; try reflexivity.
      rewrite H by (left; reflexivity). reflexivity.
    - unfold let_command. destruct args as [|[e|q|m] [|[e'|q'|m'] [|x args]]]; try reflexivity.
      rewrite H by (right; left; reflexivity). reflexivity.
  Qed.

  Lemma in_depth q args : In (VQuote q) args -> depths q < depths args.
  Proof.
    induction args as [|v args IH]; intros H; [destruct H|]. rewrite depths_cons.
    destruct H as [->|H]; [rewrite depth_quote; lia|]. specialize (IH H). lia.
  Qed.

  Lemma loop_ext fuel calls : forall res st, (forall c, In c calls -> depths (c_args c) <= fuel) ->
    run_calls_loop lig (run_quote_f lig fuel cs) cs calls res st = run_calls_loop lig (run_quote lig cs) cs calls res st.
  Proof.
    induction calls as [|c calls IH]; intros res st H; [reflexivity|]. cbn [run_calls_loop].
    destruct (cmd_get cs (el_name (c_name c))) as [cmd|]; [|reflexivity].
    rewrite (exec_ext (run_quote_f lig fuel cs) (run_quote lig cs)).
    - destruct (exec lig (run_quote lig cs) cs (cmd_fun_of cmd) (c_args c) st) as [[v|e|w] st']; try reflexivity.
      apply IH. intros c' Hc. apply H. right; exact Hc.
    - intros q s Hq. apply fuel_irrelevant. apply in_depth in Hq. specialize (H c (or_introl eq_refl)). lia.
  Qed.

  (** The equations of the Rust functions. *)
  Lemma run_quote_eq q st : run_quote lig cs q st =
    match q with
    | [] => (Ok (VNetwork []), st)
    | VElement n :: args => run_calls lig cs [Call n args] st
    | _ => (Panic PTodo, st)
    end.
  Proof.
    unfold run_quote, run_calls. cbn [run_quote_f]. destruct q as [|[n| |] args]; try reflexivity.
    apply loop_ext. intros c [<-|[]]. rewrite depths_cons. simpl. lia.
  Qed.

  Lemma does_iff n args st r st' : does lig cs n args st r st' <-> run_calls lig cs [Call n args] st = (r, st').
  Proof.
    pose proof (quotes_iff (VElement n :: args) st r st') as H. rewrite run_quote_eq in H. rewrite <- H.
    split; [apply qu_call|]. intros HQ. inversion HQ; subst; [assumption|].
    match goal with Hx : forall n, _ <> VElement n |- _ => destruct (Hx _ eq_refl) end.
  Qed.

  Lemma evals_iff v st r st' : evals lig cs v st r st' <->
    match v with VQuote q => run_quote lig cs q st | v => (Ok v, st) end = (r, st').
  Proof.
    destruct v as [e|q|n]; [| rewrite <- quotes_iff |].
    - split; [intros H; inversion H; reflexivity|]. intros E; injection E as <- <-. constructor.
    - split; [intros H; inversion H; assumption|apply ev_quote].
    - split; [intros H; inversion H; reflexivity|]. intros E; injection E as <- <-. constructor.
  Qed.

  (** One more call. *)
  Lemma loop_step c rest res st : run_calls_loop lig (run_quote lig cs) cs (c :: rest) res st =
    match run_calls lig cs [c] st with
    | (Ok v, st') => run_calls_loop lig (run_quote lig cs) cs rest v st'
    | (Err e, st') => (Err e, st')
    | (Panic w, st') => (Panic w, st')
    end.
  Proof.
    unfold run_calls. cbn [run_calls_loop]. destruct (cmd_get cs (el_name (c_name c))) as [cmd|]; [|reflexivity].
    destruct (exec lig (run_quote lig cs) cs (cmd_fun_of cmd) (c_args c) st) as [[v|e|w] st']; reflexivity.
  Qed.

  Lemma loop_result calls res res' st : calls <> [] ->
    run_calls_loop lig (run_quote lig cs) cs calls res st = run_calls_loop lig (run_quote lig cs) cs calls res' st.
  Proof. destruct calls as [|c calls]; intros H; [destruct (H eq_refl)|]. reflexivity. Qed.

  Lemma loop_app c1 c2 : forall res st,
    run_calls_loop lig (run_quote lig cs) cs (c1 ++ c2) res st =
    match run_calls_loop lig (run_quote lig cs) cs c1 res st with
    | (Ok v, st') => run_calls_loop lig (run_quote lig cs) cs c2 v st'
    | (Err e, st') => (Err e, st')
    | (Panic w, st') => (Panic w, st')
    end.
  Proof.
    induction c1 as [|c c1 IH]; intros res st; [reflexivity|]. cbn [app]. rewrite !loop_step.
    destruct (run_calls lig cs [c] st) as [[v|e|w] st']; try reflexivity. apply IH.
  Qed.

  Lemma runs_iff calls : forall st r st', runs lig cs calls st r st' <-> run_calls lig cs calls st = (r, st').
  Proof.
    intros st r st'. split.
    - induction 1 as [st|c st r st' H|c rest st v st1 r st' H Hne _ IH|c rest st r st' H Hf].
      + reflexivity.
      + apply does_iff in H. destruct c. exact H.
      + apply does_iff in H. destruct c as [n args]. cbn [c_name c_args] in H. unfold run_calls. rewrite loop_step, H.
        rewrite (loop_result rest v unit_value) by exact Hne. exact IH.
      + apply does_iff in H. destruct c as [n args]. cbn [c_name c_args] in H. unfold run_calls. rewrite loop_step, H.
        destruct r as [v|e|w]; [destruct (Hf v eq_refl)|reflexivity|reflexivity].
    - revert st r st'. induction calls as [|c rest IH]; intros st r st' E.
      + injection E as <- <-. constructor.
      + unfold run_calls in E. rewrite loop_step in E.
        destruct (run_calls lig cs [c] st) as [r1 st1] eqn:E1.
        assert (H : does lig cs (c_name c) (c_args c) st r1 st1) by (apply does_iff; destruct c; exact E1).
        destruct r1 as [v|e|w].
        * destruct rest as [|c' rest].
          -- injection E as <- <-. apply ru_last. exact H.
          -- eapply ru_more; [exact H|discriminate|]. apply IH. exact E.
        * injection E as <- <-. apply ru_stop; auto.
        * injection E as <- <-. apply ru_stop; auto.
  Qed.
End Interp.
