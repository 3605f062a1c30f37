(** * Programs on two stores that correspond *)
From Coq Require Import List Arith NArith Bool String Lia.
From Verif Require Import M_Base M_Data M_Regex M_Lexer M_Graph M_Parser M_Display M_Interp
  S_Order S_Store S_Graph S_Interp P_Ord P_Parser P_Interp P_InterpMore P_InterpStores P_Crash.
Import ListNotations.
Open Scope list_scope.

Section Sim.
  Context {A B : Type} (LA : lig_impl A) (LB : lig_impl B) (R : A -> B -> Prop) (okw : why -> Prop).

  (** Results that have to be the same on both sides. *)
  Definition tol {E V : Type} (r : res E V) : Prop := forall w, r = Panic w -> okw w.

  Definition same_panic {E V : Type} (r r' : res E V) : Prop := forall w, r = Panic w <-> r' = Panic w.

  Context
    (H_add : forall a b c r a', R a b -> l_add_collection LA a c = (r, a') -> tol r ->
       exists r' b', l_add_collection LB b c = (r', b') /\ R a' b' /\ same_panic r r')
    (H_ent : forall a b c n r a' n', R a b -> l_add_entries LA a c n = (r, a', n') -> tol r ->
       exists r' b' n'', l_add_entries LB b c n = (r', b', n'') /\ R a' b' /\ same_panic r r')
    (H_read : forall a b c, R a b -> tol (l_entries LA a c) -> l_entries LB b c = l_entries LA a c)
    (H_filter : forall a b c p, R a b -> tol (l_filter LA a c p) -> l_filter LB b c p = l_filter LA a c p).

  Lemma tol_ok {E V} (v : V) : tol (@Ok E V v). Proof. intros w; discriminate. Qed.
  Lemma tol_err {E V} (e : E) : tol (@Err E V e). Proof. intros w; discriminate. Qed.
  Lemma tol_no_panic {E V} (r : res E V) : (forall w, r <> Panic w) -> tol r.
  Proof. intros H w E1. destruct (H w E1). Qed.
  Lemma tol_panic {E V E' V'} w : tol (@Panic E V w) -> tol (@Panic E' V' w).
  Proof. intros H w' E1. injection E1 as <-. apply (H w). reflexivity. Qed.
  Hint Resolve tol_ok tol_err tol_no_panic tol_panic : core.

  Lemma sim_stores c n a r a' : stores LA c n a r a' -> tol r -> forall b, R a b ->
    exists b', stores LB c n b r b' /\ R a' b'.
  Proof.
    intros [x st1 y st2 n' E1 N1 E2 N2|w st1 E1|x st1 w st2 n' E1 N1 E2] T b Rab.
    - destruct (H_add _ _ _ _ _ Rab E1) as (r1 & b1 & F1 & R1 & P1); [auto|].
      destruct (H_ent _ _ _ _ _ _ _ R1 E2) as (r2 & b2 & m & F2 & R2 & P2); [auto|].
      exists b2. split; [|exact R2]. eapply st_both; [exact F1| |exact F2|].
      + intros w Ew. apply P1 in Ew. exact (N1 w Ew).
      + intros w Ew. apply P2 in Ew. exact (N2 w Ew).
    - destruct (H_add _ _ _ _ _ Rab E1) as (r1 & b1 & F1 & R1 & P1); [eauto|].
      assert (r1 = Panic w) as -> by (apply P1; reflexivity). exists b1. split; [apply st_first; exact F1|exact R1].
    - destruct (H_add _ _ _ _ _ Rab E1) as (r1 & b1 & F1 & R1 & P1); [auto|].
      destruct (H_ent _ _ _ _ _ _ _ R1 E2) as (r2 & b2 & m & F2 & R2 & P2); [eauto|].
      assert (r2 = Panic w) as -> by (apply P2; reflexivity).
      exists b2. split; [|exact R2]. eapply st_second; [exact F1| |exact F2].
      intros w' Ew. apply P1 in Ew. exact (N1 w' Ew).
  Qed.

  Lemma docs_common n : is_set entry_lt n ->
    (forall e, In e n <-> exists name c, In (name, c) (@common A)
         /\ e = Role (Elem name None None) (Elem (cmd_doc c) None None) (Elem (lit "docString") None None)) ->
    (forall e, In e n <-> exists name c, In (name, c) (@common B)
         /\ e = Role (Elem name None None) (Elem (cmd_doc c) None None) (Elem (lit "docString") None None)).
  Proof.
    intros _ H e. rewrite H. split; intros (name & c & Hc & ->);
      (exists name, (Command (cmd_doc c) (lift_fun (cmd_fun_of c))); split; [apply common_lift; exact Hc|reflexivity]).
  Qed.

  Lemma sim_simply f args a r a' : simply LA common f args a r a' -> (forall g, f <> FHost g) -> tol r ->
    a' = a /\ forall b, R a b -> simply LB common (lift_fun f) args b r b.
  Proof.
    intros H Hh T. destruct H; cbn [lift_fun]; try (split; [reflexivity|]; intros y Rab).
    - apply si_id.
    - apply si_id_args; assumption.
    - apply si_ignore.
    - apply si_docs; [assumption|]. apply docs_common; assumption.
    - apply si_docs_args.
    - apply si_union.
    - apply si_union_other; assumption.
    - apply si_union_args; assumption.
    - apply si_read. rewrite (H_read _ _ _ Rab); [assumption|]. rewrite H. auto.
    - apply si_read_err. rewrite (H_read _ _ _ Rab); [assumption|]. rewrite H. auto.
    - apply si_read_panic. rewrite (H_read _ _ _ Rab); [assumption|]. rewrite H. eauto.
    - apply si_read_args; assumption.
    - apply si_filter. rewrite (H_filter _ _ _ _ Rab); [assumption|]. rewrite H. auto.
    - eapply si_filter_err. rewrite (H_filter _ _ _ _ Rab); [eassumption|]. rewrite H. auto.
    - apply si_filter_panic. rewrite (H_filter _ _ _ _ Rab); [assumption|]. rewrite H. eauto.
    - apply si_filter_args; assumption.
    - destruct (Hh f eq_refl).
  Qed.

  Definition follows (runA : A -> wres value -> A -> Prop) (runB : B -> wres value -> B -> Prop)
      (a : A) (r : wres value) (a' : A) : Prop :=
    tol r -> forall b, R a b -> exists b', runB b r b' /\ R a' b'.

  Ltac done := eexists; split; [|eassumption].

  Lemma sim :
    (forall v st r st', evals LA common v st r st' -> follows (evals LA common v) (evals LB common v) st r st')
    /\ (forall q st r st', quotes LA common q st r st' -> follows (quotes LA common q) (quotes LB common q) st r st')
    /\ (forall n args st r st', does LA common n args st r st' -> follows (does LA common n args) (does LB common n args) st r st')
    /\ (forall f args st r st', acts LA common f args st r st' -> (forall g, f <> FHost g) ->
        follows (acts LA common f args) (acts LB common (lift_fun f) args) st r st').
  Proof.
    apply semantics_ind; unfold follows.
    - intros e st T b Rb. done. apply ev_element.
    - intros n st T b Rb. done. apply ev_network.
    - intros q st r st' _ IH T b Rb. destruct (IH T b Rb) as (b' & H & R'). done. apply ev_quote. exact H.
    - intros st T b Rb. done. apply qu_empty.
    - intros n args st r st' _ IH T b Rb. destruct (IH T b Rb) as (b' & H & R'). done. apply qu_call. exact H.
    - intros v args st H T b Rb. done. apply qu_other. exact H.
    - intros n args st H T b Rb. done. apply do_unknown. apply (common_unknown _ H).
    - intros n c args st r st' Hc _ IH T b Rb. destruct (IH (common_no_host _ _ Hc) T b Rb) as (b' & H & R'). done.
      eapply do_known; [exact (common_lift _ _ Hc)|exact H].
    - intros f args st r st' Hs Hh T b Rb. destruct (sim_simply _ _ _ _ _ Hs Hh T) as [-> K]. done. apply ac_simple. auto.
    - intros args st H _ T b Rb. done. apply ac_eq_args. exact H.
    - intros l r st x st1 _ IH Hf _ T b Rb. destruct (IH T b Rb) as (b' & H & R'). done. apply ac_eq_left; assumption.
    - intros l r st x st1 y st2 _ IH1 _ IH2 Hf _ T b Rb. destruct (IH1 (tol_ok _) b Rb) as (b1 & H1 & R1).
      destruct (IH2 T b1 R1) as (b2 & H2 & R2). done. eapply ac_eq_right; eassumption.
    - intros l r st x st1 st2 _ IH1 _ IH2 _ T b Rb. destruct (IH1 (tol_ok _) b Rb) as (b1 & H1 & R1).
      destruct (IH2 (tol_ok _) b1 R1) as (b2 & H2 & R2). done. eapply ac_eq_same; eassumption.
    - intros l r st x st1 y st2 _ IH1 _ IH2 Hn _ T b Rb. destruct (IH1 (tol_ok _) b Rb) as (b1 & H1 & R1).
      destruct (IH2 (tol_ok _) b1 R1) as (b2 & H2 & R2). done. eapply ac_eq_differ; eassumption.
    - intros args st H _ T b Rb. done. apply ac_fail_args. exact H.
    - intros q st v st1 _ IH _ T b Rb. destruct (IH (tol_ok _) b Rb) as (b' & H & R'). done. eapply ac_fail_ok; exact H.
    - intros q st e st1 _ IH _ T b Rb. destruct (IH (tol_err _) b Rb) as (b' & H & R'). done. eapply ac_fail_err; exact H.
    - intros q st w st1 _ IH _ T b Rb. destruct (IH T b Rb) as (b' & H & R'). done. eapply ac_fail_panic; exact H.
    - intros c n st r st' H _ T b Rb. destruct (sim_stores _ _ _ _ _ H T b Rb) as (b' & H' & R'). done. apply ac_let_network. exact H'.
    - intros c q st n st1 r st' _ IH H _ T b Rb. destruct (IH (tol_ok _) b Rb) as (b1 & H1 & R1).
      destruct (sim_stores _ _ _ _ _ H T b1 R1) as (b' & H' & R'). done. eapply ac_let_quote; eassumption.
    - intros c q st w st1 _ IH _ T b Rb. destruct (IH T b Rb) as (b' & H & R'). done. apply ac_let_panic. exact H.
    - intros c q st x st1 _ IH H1 H2 _ T b Rb. destruct (IH (tol_no_panic _ H2) b Rb) as (b' & H & R'). done.
      eapply ac_let_other; eassumption.
    - intros args st H1 H2 _ T b Rb. done. apply ac_let_args; assumption.
  Qed.

  Lemma sim_runs calls a r a' : runs LA common calls a r a' -> tol r -> forall b, R a b ->
    exists b', runs LB common calls b r b' /\ R a' b'.
  Proof.
    induction 1 as [st|c st r st' H|c rest st v st1 r st' H Hne _ IH|c rest st r st' H Hf]; intros T b Rb.
    - done. apply ru_none.
    - destruct (proj1 (proj2 (proj2 sim)) _ _ _ _ _ H T b Rb) as (b' & H' & R'). done. apply ru_last. exact H'.
    - destruct (proj1 (proj2 (proj2 sim)) _ _ _ _ _ H (tol_ok _) b Rb) as (b1 & H1 & R1).
      destruct (IH T b1 R1) as (b2 & H2 & R2). done. eapply ru_more; eassumption.
    - destruct (proj1 (proj2 (proj2 sim)) _ _ _ _ _ H T b Rb) as (b' & H' & R'). done. apply ru_stop; assumption.
  Qed.

  Lemma sim_run_calls calls a r a' b : run_calls LA common calls a = (r, a') -> tol r -> R a b ->
    exists b', run_calls LB common calls b = (r, b') /\ R a' b'.
  Proof.
    intros E T Rb. apply (runs_iff _ _ common_table) in E. destruct (sim_runs _ _ _ _ E T b Rb) as (b' & H & R').
    exists b'. split; [|exact R']. apply (runs_iff _ _ common_table). exact H.
  Qed.

  Lemma sim_script script a r a' b : run LA common script a = (r, a') -> tol r -> R a b ->
    exists b', run LB common script b = (r, b') /\ R a' b'.
  Proof.
    unfold run. destruct (tokenize_and_filter script) as [ts|e|w].
    - destruct (parse ts) as [calls|e|w].
      + apply sim_run_calls.
      + intros E _ Rb. injection E as <- <-. eauto.
      + intros E _ Rb. injection E as <- <-. eauto.
    - intros E _ Rb. injection E as <- <-. eauto.
    - intros E _ Rb. injection E as <- <-. eauto.
  Qed.
End Sim.
