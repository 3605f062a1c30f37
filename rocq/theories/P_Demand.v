(** * Proofs: how many ids a script can use up *)
From Coq Require Import List Arith NArith Bool String Lia.
From Verif Require Import M_Base M_Data M_Heed M_Txn M_Regex M_Lexer M_Graph M_Parser M_Display M_Interp M_Conc M_TxnConc
  S_Order S_Str S_Store S_Graph S_Lexer S_Parser S_Interp S_Conc S_Rewrite S_ConcFail S_Demand
  P_Ord P_Graph P_Lexer P_LexMore P_Parser P_Conc P_ConcMore.
Import ListNotations.
Open Scope list_scope.

(** The program uses up no more than [n], and what is left when it ends is [f]. *)
Fixpoint leaves (p : prog) (n : N) (f : wres value -> N -> Prop) : Prop :=
  match p with
  | Done r => f r n
  | Ask q k => (req_weight q <= n)%N /\ forall a, leaves (k a) (n - req_weight q)%N f
  end.

Lemma leaves_mono p : forall n (f g : wres value -> N -> Prop), (forall r m, f r m -> g r m) -> leaves p n f -> leaves p n g.
Proof. induction p as [r|q k IH]; intros n f g H L; [apply H, L|]. destruct L as [L1 L2]. split; [exact L1|]. intros a. apply (IH a _ f g H), L2. Qed.

Lemma leaves_bind p F : forall n f, leaves p n (fun r m => leaves (F r) m f) -> leaves (pbind p F) n f.
Proof. induction p as [r|q k IH]; intros n f L; [exact L|]. destruct L as [L1 L2]. split; [exact L1|]. intros a. apply IH, L2. Qed.

Lemma leaves_costs p : forall n f, leaves p n f -> costs p n.
Proof. induction p as [r|q k IH]; intros n f L; [exact I|]. destruct L as [L1 L2]. split; [exact L1|]. intros a. apply (IH a _ f), L2. Qed.

(** What a value can cost. *)
Definition PER : N := 28.
Fixpoint demand (v : value) : N :=
  match v with
  | VElement _ => 0
  | VNetwork n => 3 * N.of_nat (List.length n)
  | VQuote q => PER + fold_right (fun x n => demand x + n) 0 q
  end%N.
Definition demands (l : list value) : N := fold_right (fun x n => demand x + n)%N 0%N l.
Definition gives (r : wres value) : N := match r with Ok (VNetwork n) => 3 * N.of_nat (List.length n) | _ => 0 end%N.

Lemma demand_quote q : demand (VQuote q) = (PER + demands q)%N.
Proof. reflexivity. Qed.

Lemma insert_length {A} (cmp : A -> A -> comparison) x l : List.length (bs_insert cmp x l) <= S (List.length l).
Proof. induction l as [|y l IH]; cbn; [lia|]. destruct (cmp x y); cbn; lia. Qed.
Lemma append_le {A} (cmp : A -> A -> comparison) l : forall s, List.length (bs_append cmp s l) <= List.length s + List.length l.
Proof.
  unfold bs_append. induction l as [|x l IH]; intros s; cbn [fold_left List.length]; [lia|].
  specialize (IH (bs_insert cmp x s)). pose proof (insert_length cmp x s). lia.
Qed.

Definition quiet (args : list value) : Prop := forall v, In v args -> ~ asks_back v.

Section Quotes.
  Context (rq : list value -> prog).
  Hypothesis HQ : forall h args m, ~ lets_a_read (el_name h) args ->
    leaves (rq (VElement h :: args)) (PER + demands args + m) (fun r n => m <= n /\ (~ asks_back (VQuote (VElement h :: args)) -> m + gives r <= n))%N.
  Hypothesis HX : forall q, (forall h args, q <> VElement h :: args) -> exists r, rq q = Done r /\ gives r = 0%N.

  Lemma quote_leaves name args q m : In (VQuote q) args -> ~ lets_a_read name args ->
    leaves (rq q) (demand (VQuote q) + m) (fun r n => m <= n /\ (~ asks_back (VQuote q) -> m + gives r <= n))%N.
  Proof.
    intros Hq HL. rewrite demand_quote.
    assert (D : (exists h args, q = VElement h :: args) \/ forall h args, q <> VElement h :: args).
    { destruct q as [|[e|q0|n0] q]; [right; discriminate|left; eauto|right; discriminate|right; discriminate]. }
    destruct D as [(h & a & ->)|D].
    - cbn [demands fold_right demand]. fold (demands a). rewrite N.add_0_l. apply HQ. intros K. apply HL. eapply lr_deep; eauto.
    - destruct (HX q D) as (r & -> & E). cbn [leaves]. rewrite E. lia.
  Qed.

  Lemma value_leaves name args v m : In v args -> ~ lets_a_read name args ->
    leaves (p_value rq v) (demand v + m) (fun _ n => m <= n)%N.
  Proof.
    intros Hv HL. destruct v as [e|q|n]; cbn [p_value].
    - cbn [leaves demand]. lia.
    - eapply leaves_mono; [|eapply quote_leaves; eassumption]. intros r k [H _]. exact H.
    - cbn [leaves demand]. lia.
  Qed.

  Lemma store_leaves c es n m : (1 + 3 * N.of_nat (List.length es) + m <= n)%N ->
    leaves (p_let_store c es) n (fun r k => m <= k /\ gives r = 0)%N.
  Proof.
    intros H. split; [cbn [req_weight]; lia|]. intros a. cbn [req_weight].
    assert (A : leaves (Ask (QAddEntries c es) (fun b : lres unit => match b with Panic w => Done (Panic w) | _ => Done (Ok unit_value) end)) (n - 1) (fun r k => m <= k /\ gives r = 0)%N).
    { split; [cbn [req_weight]; lia|]. cbn [req_weight]. intros [u|e|w]; cbn [leaves gives unit_value List.length]; lia. }
    destruct a as [u|e|w]; [exact A|exact A|cbn [leaves gives]; lia].
  Qed.

  Lemma docs_leaves args : (gives (fst (docs_command (St := unit) args tt common)) <= 27)%N.
  Proof. destruct args; vm_compute; discriminate. Qed.

  Lemma exec_leaves name cmd args m : cmd_get common name = Some cmd -> ~ lets_a_read name args ->
    leaves (p_exec rq common (cmd_fun_of cmd) args) (PER + demands args + m)
      (fun r n => m <= n /\ (name <> lit "read" -> name <> lit "filter" -> quiet args -> m + gives r <= n))%N.
  Proof.
    intros G HL. unfold common in G. cbn [cmd_get] in G.
    assert (B : forall r, (gives r <= PER + demands args)%N -> leaves (Done r) (PER + demands args + m)
      (fun r k => m <= k /\ (name <> lit "read" -> name <> lit "filter" -> quiet args -> m + gives r <= k))%N) by (intros r H; cbn [leaves]; lia).
    assert (E0 : forall e, (gives (Err e) <= PER + demands args)%N) by (intros; cbn [gives]; lia).
    assert (P0 : forall w, (gives (Panic w) <= PER + demands args)%N) by (intros; cbn [gives]; lia).
    assert (U0 : (gives (Ok unit_value) <= PER + demands args)%N) by (cbn [gives unit_value List.length]; lia).
    repeat match type of G with (if str_eqb ?a ?b then _ else _) = _ => destruct (str_eqb_spec a b) as [<-|_]; [injection G as <-; cbn [cmd_fun_of p_exec]|] end; try discriminate G.
    - unfold p_assert_equal. destruct args as [|l [|r [|x args]]]; try (apply B; apply E0).
      apply leaves_bind. cbn [demands fold_right]. rewrite N.add_0_r.
      replace (PER + (demand l + demand r) + m)%N with (demand l + (demand r + (PER + m)))%N by lia.
      eapply leaves_mono; [|eapply value_leaves; [|exact HL]; left; reflexivity]. cbn beta. intros [lv|e|w] k Hk; [|cbn [leaves gives]; lia..].
      replace k with (demand r + (k - demand r))%N by lia.
      apply leaves_bind. eapply leaves_mono; [|eapply value_leaves; [|exact HL]; right; left; reflexivity]. cbn beta. intros [rv|e|w] k' Hk'; [|cbn [leaves gives]; lia..].
      destruct (value_eqb lv rv); cbn [leaves gives unit_value List.length]; lia.
    - unfold p_assert_fail. destruct args as [|[e|q|n] [|x args]]; try (apply B; apply E0).
      apply leaves_bind. cbn [demands fold_right]. rewrite N.add_0_r. replace (PER + demand (VQuote q) + m)%N with (demand (VQuote q) + (PER + m))%N by lia.
      eapply leaves_mono; [|eapply quote_leaves; [|exact HL]; left; reflexivity]. cbn beta. intros [v|e|w] k [Hk _]; cbn [leaves gives unit_value List.length]; lia.
    - apply B. exact U0.
    - unfold p_let. destruct args as [|[c|q0|n0] [|[e|q|n] [|x args]]]; try (apply B; apply E0).
      + apply leaves_bind. cbn [demands fold_right demand]. fold (demands q). replace (PER + (0 + (PER + demands q + 0)) + m)%N with (demand (VQuote q) + (PER + m))%N by (rewrite demand_quote; lia).
        eapply leaves_mono; [|eapply quote_leaves; [|exact HL]; right; left; reflexivity]. cbn beta.
        assert (NA : ~ asks_back (VQuote q)) by (intros A; apply HL; eapply lr_here; [right; left; reflexivity|exact A]).
        intros [[e|q1|n]|e|w] k [Hk Hg]; try (cbn [leaves gives]; lia). specialize (Hg NA). cbn [gives] in Hg.
        eapply leaves_mono; [|apply (store_leaves c n k m); unfold PER in *; lia]. cbn beta. intros r k' [K1 K2]. rewrite K2. lia.
      + eapply leaves_mono; [|apply (store_leaves c n _ m); cbn [demands fold_right demand]; unfold PER; lia]. cbn beta. intros r k' [K1 K2]. rewrite K2. lia.
    - unfold p_read. destruct args as [|[c|q0|n0] [|x args]]; try (apply B; apply P0).
      split; [cbn [req_weight]; lia|]. cbn [req_weight]. intros a. cbn [leaves]. split; [lia|]. intros N. destruct (N eq_refl).
    - apply B. unfold id_command. destruct args as [|v [|x args]]; cbn [fst gives]; [lia| |lia]. cbn [demands fold_right]. destruct v; cbn [demand]; lia.
    - apply B. pose proof (docs_leaves args). unfold PER. lia.
    - apply B. unfold union_command. destruct args as [|[e|q|n] [|[e'|q'|n'] [|x args]]]; cbn [fst gives]; try lia.
      pose proof (append_le entry_cmp n' n). cbn [demands fold_right demand]. lia.
    - unfold p_filter. destruct args as [|[c|q0|n0] [|[a|q1|n1] [|[b|q2|n2] [|[d|q3|n3] [|x args]]]]]; try (apply B; apply P0).
      split; [cbn [req_weight]; lia|]. cbn [req_weight]. intros r. cbn [leaves]. split; [lia|]. intros _ N. destruct (N eq_refl).
  Qed.

  Lemma one_leaves h args m : ~ lets_a_read (el_name h) args ->
    leaves (p_calls_loop rq common [Call h args] unit_value) (PER + demands args + m)
      (fun r n => m <= n /\ (~ asks_back (VQuote (VElement h :: args)) -> m + gives r <= n))%N.
  Proof.
    intros HL. cbn [p_calls_loop c_name c_args]. destruct (cmd_get common (el_name h)) as [cmd|] eqn:G; [|cbn [leaves gives]; lia].
    apply leaves_bind. eapply leaves_mono; [|apply (exec_leaves _ _ args m G HL)]. cbn beta. intros r k [H1 H2].
    assert (Q : ~ asks_back (VQuote (VElement h :: args)) -> (m + gives r <= k)%N).
    { intros NA. apply H2; [intros E; apply NA, ab_here; auto|intros E; apply NA, ab_here; auto|]. intros v Hv A. apply NA. eapply ab_deep; eauto. }
    destruct r as [v|e|w]; cbn [leaves]; auto.
  Qed.

  Lemma loop_leaves calls : forall res m, (forall c, In c calls -> ~ lets_a_read (el_name (c_name c)) (c_args c)) ->
    leaves (p_calls_loop rq common calls res) (fold_right (fun c n => PER + demands (c_args c) + n) m calls)%N (fun _ n => m <= n)%N.
  Proof.
    induction calls as [|c calls IH]; intros res m H; [cbn; lia|]. cbn [p_calls_loop fold_right].
    set (R := fold_right _ m calls) in *.
    assert (Rm : (m <= R)%N) by (unfold R; clear; induction calls as [|c calls IH]; cbn [fold_right]; lia).
    destruct (cmd_get common (el_name (c_name c))) as [cmd|] eqn:G; [|cbn [leaves]; lia].
    apply leaves_bind. eapply leaves_mono; [|apply (exec_leaves _ _ (c_args c) R G), H; left; reflexivity]. cbn beta. intros [v|e|w] k [H1 _]; [|cbn [leaves]; lia..].
    specialize (IH v (m + (k - R))%N (fun c' Hc => H c' (or_intror Hc))).
    assert (X : k = fold_right (fun c n => PER + demands (c_args c) + n)%N (m + (k - R))%N calls).
    { assert (Y : forall d, fold_right (fun c n => PER + demands (c_args c) + n)%N (m + d)%N calls = (R + d)%N).
      { intros d. unfold R. clear. induction calls as [|c calls IH]; cbn [fold_right]; [lia|]. rewrite IH. lia. }
      rewrite Y. lia. }
    rewrite X. eapply leaves_mono; [|exact IH]. cbn beta. intros r k' Hk. lia.
  Qed.
End Quotes.

Lemma quote_f_leaves fuel :
  (forall h args m, ~ lets_a_read (el_name h) args ->
    leaves (p_quote_f fuel common (VElement h :: args)) (PER + demands args + m) (fun r n => m <= n /\ (~ asks_back (VQuote (VElement h :: args)) -> m + gives r <= n))%N)
  /\ (forall q, (forall h args, q <> VElement h :: args) -> exists r, p_quote_f fuel common q = Done r /\ gives r = 0%N).
Proof.
  induction fuel as [|fuel [IH1 IH2]].
  - split; [intros h args m HL; cbn [p_quote_f leaves gives]; lia|]. intros q _. eexists. split; reflexivity.
  - split.
    + intros h args m HL. cbn [p_quote_f]. apply (one_leaves _ IH1 IH2 h args m HL).
    + intros [|[e|q|n] q'] D; cbn [p_quote_f]; try (eexists; split; reflexivity). destruct (D e q' eq_refl).
Qed.

Lemma p_quote_leaves : 
  (forall h args m, ~ lets_a_read (el_name h) args ->
    leaves (p_quote common (VElement h :: args)) (PER + demands args + m) (fun r n => m <= n /\ (~ asks_back (VQuote (VElement h :: args)) -> m + gives r <= n))%N)
  /\ (forall q, (forall h args, q <> VElement h :: args) -> exists r, p_quote common q = Done r /\ gives r = 0%N).
Proof. split; intros; apply quote_f_leaves; assumption. Qed.

(** ** By the length of the text *)
Lemma network_demand ts es : g_network ts es -> 3 * List.length es <= List.length ts.
Proof. induction 1; cbn [List.length] in *; lia. Qed.

Lemma set_demand es n : set_of es n -> List.length n <= List.length es.
Proof. intros [S M]. apply NoDup_incl_length; [exact (is_set_NoDup entry_order _ S)|intros x Hx; apply M, Hx]. Qed.

Lemma quote_demand ts vs : g_quote ts vs -> (demands vs <= PER * N.of_nat (List.length ts))%N.
Proof.
  induction 1 as [|e ts vs H IH|n es s ts vs Hn Hs H IH]; [cbn; lia|..]; cbn [demands fold_right demand List.length]; rewrite ?app_length; fold (demands vs); unfold PER in *; [lia|].
  apply network_demand in Hn. apply set_demand in Hs. lia.
Qed.

Lemma values_demand ts vs : g_values ts vs -> (demands vs <= PER * N.of_nat (List.length ts))%N.
Proof.
  induction 1 as [|e ts vs H IH|b ts vs H IH|n es s ts vs Hn Hs H IH|q qs ts vs Hq H IH]; [cbn; lia|..]; cbn [demands fold_right List.length]; rewrite ?app_length; fold (demands vs).
  - cbn [demand]. unfold PER in *. lia.
  - cbn [demand]. unfold PER in *. lia.
  - cbn [demand]. apply network_demand in Hn. apply set_demand in Hs. unfold PER in *. lia.
  - rewrite demand_quote. apply quote_demand in Hq. unfold PER in *. lia.
Qed.

Definition calls_demand (cs : list call) : N := fold_right (fun c n => PER + demands (c_args c) + n)%N 0%N cs.

Lemma call_demand ts c : g_call ts c -> (PER + demands (c_args c) <= PER * N.of_nat (List.length ts))%N.
Proof.
  intros H. unfold g_call in H. inversion H as [|e ts' vs H'|b ts' vs H'| |]; subst; apply values_demand in H'; cbn [List.length]; unfold PER in *; lia.
Qed.

Lemma commas_demand ts cs : g_commas ts cs -> (calls_demand cs <= PER * N.of_nat (List.length ts))%N.
Proof.
  induction 1 as [|ts c ts' cs Hc H IH]; [cbn; lia|]. cbn [calls_demand fold_right]. fold (calls_demand cs).
  apply call_demand in Hc. rewrite app_length. cbn [List.length]. unfold PER in *. lia.
Qed.

Lemma script_demand ts cs : g_script ts cs -> (calls_demand cs <= PER * N.of_nat (List.length ts))%N.
Proof.
  intros [ts0 cs0 H|ts0 cs0 ts' c H Hc]; [apply commas_demand, H|].
  apply commas_demand in H. apply call_demand in Hc. unfold calls_demand. rewrite fold_right_app. cbn [fold_right].
  assert (E : forall l m, fold_right (fun c n => PER + demands (c_args c) + n)%N m l = (calls_demand l + m)%N).
  { intros l m. induction l as [|x l IH]; [reflexivity|]. cbn [fold_right calls_demand]. rewrite IH. fold (calls_demand l). lia. }
  rewrite E, app_length. unfold PER in *. lia.
Qed.

Lemma costs_more p : forall n m, (n <= m)%N -> costs p n -> costs p m.
Proof. induction p as [r|q k IH]; intros n m H C; [exact I|]. destruct C as [C1 C2]. split; [lia|]. intros a. apply (IH a (n - req_weight q)%N); [lia|apply C2]. Qed.

Lemma text_costs s : frugal s -> costs (p_run common s) (PER * N.of_nat (List.length s)).
Proof.
  intros F. unfold p_run. destruct (tokenize_and_filter s) as [ts|e|w] eqn:E1; [|exact I..]. destruct (parse ts) as [cs|e|w] eqn:E2; [|exact I..].
  apply (costs_more _ (calls_demand cs)).
  - apply parse_ok, script_demand in E2. apply tokens_length in E1. unfold PER in *. lia.
  - eapply leaves_costs. apply (loop_leaves _ (proj1 p_quote_leaves) (proj2 p_quote_leaves)).
    intros c Hc. apply (F cs c); [|exact Hc]. destruct (tokenize s) as [toks|e|w] eqn:E; [|unfold tokenize_and_filter in E1; rewrite E in E1; discriminate..].
    destruct (filter_keeps _ _ E) as (k' & Ek & K & _). rewrite E1 in Ek. injection Ek as <-. exists toks, ts. split; [apply tokenize_ok; exact E|]. split; [exact K|apply parse_ok; exact E2].
Qed.
