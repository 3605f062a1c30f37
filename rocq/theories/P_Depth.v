(** * Recursion depth *)
From Coq Require Import List Arith NArith Bool Lia String.
From Verif Require Import M_Base M_Data M_Regex M_Lexer M_Parser M_Graph M_Display M_Interp S_Order S_Parser S_Interp S_Depth
  P_Parser P_Interp P_Display P_InterpMore.
Import ListNotations.
Open Scope list_scope.

Lemma nested_depth v : forall k, nested k v <-> depth v <= k.
Proof.
  induction v as [e|n|q IH] using value_ind'; intros k.
  - split; [intros _; simpl; lia|constructor].
  - split; [intros _; simpl; lia|constructor].
  - split.
    + intros H. inversion H as [| |k' q' Hq]; subst. simpl. apply le_n_S. clear H.
      induction q as [|x q IHq]; [simpl; lia|]. simpl. inversion IH as [|? ? Hx Hr]; subst.
      apply Nat.max_lub; [apply Hx, Hq; left; reflexivity|]. apply IHq; [exact Hr|]. intros v Hv. apply Hq. right. exact Hv.
    + destruct k as [|k]; [simpl; lia|]. intros H. constructor. intros v Hv. rewrite Forall_forall in IH. apply IH; [exact Hv|].
      simpl in H. apply le_S_n in H. clear IH. induction q as [|x q IHq]; [destruct Hv|]. simpl in H.
      destruct Hv as [->|Hv]; [lia|]. apply IHq; [lia|exact Hv].
Qed.

Lemma nested_depths k l : (forall v, In v l -> nested k v) <-> depths l <= k.
Proof.
  induction l as [|x l IH]; [split; [simpl; lia|intros _ v []]|]. rewrite depths_cons. split.
  - intros H. apply Nat.max_lub; [apply nested_depth, H; left; reflexivity|]. apply IH. intros v Hv. apply H. right. exact Hv.
  - intros H v [<-|Hv]; [apply nested_depth; lia|]. apply IH; [lia|exact Hv].
Qed.

Lemma room_enough {St : Type} (lig : lig_impl St) cs room calls st : is_table cs ->
  (forall c v, In c calls -> In v (c_args c) -> nested room v) ->
  run_calls_in room lig cs calls st = run_calls lig cs calls st.
Proof.
  intros Ht H. unfold run_calls_in, run_calls. apply loop_ext; [exact Ht|]. intros c Hc. apply nested_depths. intros v Hv. eapply H; eassumption.
Qed.

Lemma quote_flat ts q : g_quote ts q -> forall v, In v q -> nested 0 v.
Proof. induction 1; cbn [In]; intros v Hv; [destruct Hv| |]; (destruct Hv as [<-|Hv]; [constructor|auto]). Qed.

Lemma values_flat ts vs : g_values ts vs -> forall v, In v vs -> nested 1 v.
Proof.
  induction 1 as [| | | |q qs ts vs Hq]; cbn [In]; intros v Hv; [destruct Hv| | | |]; (destruct Hv as [<-|Hv]; [|auto]); constructor.
  eapply quote_flat. exact Hq.
Qed.

Lemma script_flat ts cs : parse ts = Ok cs -> forall c v, In c cs -> In v (c_args c) -> nested 1 v.
Proof.
  assert (G : forall ts c, g_call ts c -> forall v, In v (c_args c) -> nested 1 v).
  { intros ts' c Hc v Hv. eapply values_flat; [exact Hc|]. right. exact Hv. }
  assert (C : forall ts cs, g_commas ts cs -> forall c v, In c cs -> In v (c_args c) -> nested 1 v).
  { induction 1 as [|ts' c ts'' cs' Hc _ IH]; intros d v Hd Hv; [destruct Hd|]. destruct Hd as [<-|Hd]; eauto. }
  intros H. apply parse_ok in H. destruct H as [ts cs H|ts cs ts' c H Hc]; intros d v Hd Hv; [eapply C; eassumption|].
  apply in_app_or in Hd as [Hd|[<-|[]]]; [eapply C; eassumption|eapply G; eassumption].
Qed.

Lemma script_room {St : Type} (lig : lig_impl St) cs room script st : is_table cs -> 1 <= room ->
  run_in room lig cs script st = run lig cs script st.
Proof.
  intros Ht Hr. unfold run_in, run. destruct (tokenize_and_filter script) as [ts| |]; try reflexivity.
  destruct (parse ts) as [calls| |] eqn:E; try reflexivity. apply room_enough; [exact Ht|].
  intros c v Hc Hv. apply nested_depth. etransitivity; [|exact Hr]. apply nested_depth. eapply script_flat; eassumption.
Qed.

(** ** Answers *)
Lemma acts_answer {St : Type} (lig : lig_impl St) f args st r st' v : (forall g, f <> FHost g) ->
  acts lig common f args st r st' -> r = Ok v -> (exists n, v = VNetwork n) \/ In v args.
Proof.
  intros Hf H E. destruct H; subst; try discriminate; eauto.
  - match goal with H : simply _ _ _ _ _ _ _ |- _ => inversion H; subst end; try discriminate; eauto.
    all: try (match goal with H : Ok _ = Ok _ |- _ => injection H as <- end); eauto; first [right; left; reflexivity|exfalso; eapply Hf; reflexivity].
  - exfalso. match goal with H : failed _ |- _ => eapply H; reflexivity end.
  - exfalso. match goal with H : failed _ |- _ => eapply H; reflexivity end.
  - injection E as <-. eauto.
  - injection E as <-. eauto.
  - match goal with H : stores _ _ _ _ _ _ |- _ => inversion H; subst end; try discriminate; eauto.
  - match goal with H : stores _ _ _ _ _ _ |- _ => inversion H; subst end; try discriminate; eauto.
Qed.

Lemma common_no_host {St : Type} n c : In (n, c) (@common St) -> forall g, cmd_fun_of c <> FHost g.
Proof. intros H g. repeat (destruct H as [H|H]; [injection H as <- <-; discriminate|]). destruct H. Qed.

Lemma does_answer {St : Type} (lig : lig_impl St) n args st v st' :
  does lig common n args st (Ok v) st' -> (exists nw, v = VNetwork nw) \/ In v args.
Proof.
  intros H. inversion H as [|n' c args' st1 r st2 Hc Ha]; subst.
  eapply acts_answer; [|exact Ha|reflexivity]. eapply common_no_host. exact Hc.
Qed.

Lemma runs_answer {St : Type} (lig : lig_impl St) calls st r st' : runs lig common calls st r st' -> forall v, r = Ok v ->
  (exists n, v = VNetwork n) \/ exists c, In c calls /\ In v (c_args c).
Proof.
  induction 1 as [st|c st r st' H|c rest st v0 st1 r st' H Hne Hr IH|c rest st r st' H Hf]; intros v E; subst.
  - injection E as <-. eauto.
  - apply does_answer in H as [H|H]; [auto|]. right. exists c. split; [left; reflexivity|exact H].
  - destruct (IH v eq_refl) as [H1|(d & Hd & Hv)]; [auto|]. right. exists d. split; [right; exact Hd|exact Hv].
  - exfalso. eapply Hf. reflexivity.
Qed.

Lemma answer_flat {St : Type} (lig : lig_impl St) script st v st' : run lig common script st = (Ok v, st') -> nested 1 v.
Proof.
  unfold run. destruct (tokenize_and_filter script) as [ts| |]; try discriminate.
  destruct (parse ts) as [calls| |] eqn:E; try discriminate. intros H.
  pose proof (proj2 (runs_iff lig common common_table calls st _ _) H) as R.
  destruct (runs_answer _ _ _ _ _ R v eq_refl) as [[n ->]|(c & Hc & Hv)]; [constructor|]. eapply script_flat; eassumption.
Qed.

(** ** Towers *)
Lemma tower_nested n : nested (S n) (VQuote (tower n)) /\ ~ nested n (VQuote (tower n)).
Proof.
  induction n as [|n [IH IH']]; simpl.
  - split; [constructor; intros v [<-|[]]; constructor|]. intros H. inversion H.
  - split.
    + constructor. intros v [<-|[<-|[]]]; [constructor|exact IH].
    + intros H. inversion H as [| |k q Hq]; subst. apply IH', Hq. right. left. reflexivity.
Qed.

Lemma tower_step {St : Type} (lig : lig_impl St) k n st :
  run_quote_f lig (S k) common (tower (S n)) st
  = match run_quote_f lig k common (tower n) st with
    | (Ok _, st1) => (Err (WErr (lit "Expected failure.")), st1)
    | (Err _, st1) => (Ok unit_value, st1)
    | (Panic w, st1) => (Panic w, st1)
    end.
Proof.
  change (run_quote_f lig (S k) common (tower (S n)) st) with
      (run_calls_loop lig (run_quote_f lig k common) common
         [Call (Elem (lit "assert-fail") None None) [VQuote (tower n)]] unit_value st).
  generalize (run_quote_f lig k (@common St)) as rq. intros rq. generalize (tower n) as q. intros q. cbn [run_calls_loop c_name c_args el_name].
  replace (cmd_get common (lit "assert-fail")) with (Some (Command (St:=St) (lit "Accept a quote and run it. If the quote results in a failure continue otherwise fail.") FAssertFail)) by reflexivity.
  cbn [cmd_fun_of exec assert_fail_command]. destruct (rq q st) as [[v|e|w] st1]; reflexivity.
Qed.

Lemma tower_overflows {St : Type} (lig : lig_impl St) n st : run_quote_f lig n common (tower n) st = (Panic PFuel, st).
Proof. induction n as [|n IH]; [reflexivity|]. rewrite tower_step, IH. reflexivity. Qed.

Lemma tower_fits {St : Type} (lig : lig_impl St) n st :
  exists r, run_quote_f lig (S n) common (tower n) st = (r, st) /\ forall w, r <> Panic w.
Proof.
  induction n as [|n (r & E & Hr)].
  - eexists. split; [reflexivity|]. intros w; discriminate.
  - rewrite tower_step, E.
    destruct r as [v|e|w]; [eexists; split; [reflexivity|intros w; discriminate]..|exfalso; eapply Hr; reflexivity].
Qed.

(** The call [assert-fail (...)] around a tower. *)
Definition tower_call (n : nat) : list call := [Call (Elem (lit "assert-fail") None None) [VQuote (tower n)]].

Lemma tower_call_in {St : Type} (lig : lig_impl St) k n st :
  run_calls_in k lig common (tower_call n) st
  = match run_quote_f lig k common (tower n) st with
    | (Ok _, st1) => (Err (WErr (lit "Expected failure.")), st1)
    | (Err _, st1) => (Ok unit_value, st1)
    | (Panic w, st1) => (Panic w, st1)
    end.
Proof. rewrite <- tower_step. reflexivity. Qed.

Lemma tower_call_needs {St : Type} (lig : lig_impl St) n st :
  run_calls_in n lig common (tower_call n) st = (Panic PFuel, st)
  /\ (exists r, run_calls lig common (tower_call n) st = (r, st) /\ forall w, r <> Panic w).
Proof.
  rewrite tower_call_in, tower_overflows. split; [reflexivity|].
  rewrite <- (room_enough lig common (S n) (tower_call n) st common_table).
  - rewrite tower_call_in. destruct (tower_fits lig n st) as ([v|e|w] & E & Hr); rewrite E; try (eexists; split; [reflexivity|discriminate]).
    exfalso. eapply Hr. reflexivity.
  - intros c v [<-|[]] [<-|[]]. apply tower_nested.
Qed.
