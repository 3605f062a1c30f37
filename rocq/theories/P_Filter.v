(** * Proofs: filter with variable names *)
From Coq Require Import List NArith Bool String.
From Verif Require Import M_Base M_Data M_Mem M_Heed M_Duck M_Regex M_Lexer M_Graph M_Parser M_Display M_Interp
  S_Order S_Str S_Store S_Graph S_Filter S_Lexer S_Parser S_Interp P_Ord P_Hist P_Mem P_Graph
  P_Interp P_InterpMore P_InterpStores P_Crash P_InterpProps.
Import ListNotations.
Open Scope list_scope.

Lemma variable_dec p : variable_name p \/ ~ variable_name p.
Proof.
  destruct p as [|x [|y p]]; [right; intros (r & E & _); discriminate|right; intros (r & E & N); injection E as _ <-; exact (N eq_refl)|].
  destruct (N.eq_dec x 63) as [->|N]; [left; eexists; split; [reflexivity|discriminate]|right; intros (r & E & _); congruence].
Qed.

Lemma query_variables p : ~ no_variable_names p -> ~ no_variables (entry_to_query p).
Proof.
  intros H (H1 & H2 & H3). apply H.
  destruct p as [f s r|a b|a b]; simpl in *; rewrite ?check_value_var in *; split; [assumption|split; assumption|assumption|split; [assumption|exact I]|assumption|split; [assumption|exact I]].
Qed.

Lemma admits_check p v : admits (check_value p) v <-> ~ variable_name p /\ agrees p v.
Proof.
  split.
  - intro H. assert (N : ~ variable_name p). { intro V. apply check_value_var in V as (x & E). rewrite E in H. exact H. }
    split; [exact N|]. apply check_value_spec; assumption.
  - intros (N & A). apply check_value_spec; assumption.
Qed.

Lemma meets_reaches p e : meets_variable (entry_to_query p) (view e) <-> reaches_variable p e.
Proof.
  unfold meets_variable, reaches_variable, view.
  assert (F : forall s : str, ~ is_variable (Value s)) by (intros s (x & E); discriminate E).
  destruct p as [f s r|a b|a b]; cbn [entry_to_query q0 q1 q2 t0 t1 t2 subject object variable_role role_agrees];
    rewrite !check_value_var, !admits_check.
  - destruct (variable_dec (el_name f)), (variable_dec (el_name r)); tauto.
  - assert (Q : admits (Value role_extends) (role_name e) <-> role_name e = colon) by (split; [intro E; symmetry; exact E|intro E; symmetry; exact E]).
    rewrite Q. specialize (F role_extends). destruct (variable_dec (el_name a)); tauto.
  - assert (Q : admits (Value role_not_extends) (role_name e) <-> role_name e = not_colon) by (split; [intro E; symmetry; exact E|intro E; symmetry; exact E]).
    rewrite Q. specialize (F role_not_extends). destruct (variable_dec (el_name a)); tauto.
Qed.

Lemma graph_filter_variables h c p :
  ~ no_variable_names p ->
  let s := after mem_impl mem_new h in
  has mem_impl s (el_name c) ->
  exists l, l_entries (graph_impl mem_impl) s c = Ok l
    /\ ((exists e, In e l /\ reaches_variable p e) -> exists w, l_filter (graph_impl mem_impl) s c p = Panic w)
    /\ ((forall e, In e l -> ~ reaches_variable p e) -> l_filter (graph_impl mem_impl) s c p = Ok []).
Proof.
  intros Hv s Hh. destruct (mem_filter_variable h (el_name c) (entry_to_query p) (query_variables p Hv) Hh) as (H1 & H2).
  fold s in H1, H2.
  destruct (proj2 (mem_readable s (el_name c)) Hh) as [l El].
  destruct (entries_spec mem_impl s c l El) as (es & Ees & _ & Hes).
  exists es. split; [exact Ees|]. split.
  - intros (e & He & Hr). apply Hes in He as (N & He). apply meets_reaches in Hr.
    assert (M : exists t, holds mem_impl s (el_name c) t /\ meets_variable (entry_to_query p) t) by (exists (view e); split; [exists l; split; assumption|exact Hr]).
    apply H1 in M as (w & E). exists w. cbn [l_filter graph_impl]. unfold graph_filter. rewrite E. reflexivity.
  - intro Hn. assert (E : t_filter mem_impl s (el_name c) (entry_to_query p) = Ok []).
    { apply H2. intros (t & (l' & El' & Ht) & Hm). rewrite El in El'. injection El' as <-.
      destruct (proj1 (trip_to_entry_iff t (trip_to_entry t)) eq_refl) as (N & V).
      apply (Hn (trip_to_entry t)); [apply Hes; split; [exact N|rewrite V; exact Ht]|]. apply meets_reaches. rewrite V. exact Hm. }
    cbn [l_filter graph_impl]. unfold graph_filter. rewrite E. reflexivity.
Qed.

Lemma filter_run_variables h c a b d :
  let G := graph_impl mem_impl in
  let s := after mem_impl mem_new h in
  let go := run_calls G common [Call (mkE (lit "filter")) [VElement c; VElement a; VElement b; VElement d]] s in
  (variable_name (el_name a) \/ variable_name (el_name b) \/ variable_name (el_name d)) ->
  (has mem_impl s (el_name c) ->
   exists l, run_calls G common [Call (mkE (lit "read")) [VElement c]] s = (Ok (VNetwork l), s)
     /\ ((exists e, In e l /\ reaches_variable (Role a d b) e) -> exists w, go = (Panic w, s))
     /\ ((forall e, In e l -> ~ reaches_variable (Role a d b) e) -> go = (Ok (VNetwork []), s))).
Proof.
  intros G s go HV Hh. unfold go.
  rewrite (run_one G common (mkE (lit "filter")) (Command (lit "Filter a network.") FFilter));
    [|apply common_table|do 8 right; left; reflexivity].
  rewrite (run_one G common (mkE (lit "read")) (Command (lit "Read a network.") FRead));
    [|apply common_table|do 4 right; left; reflexivity].
  cbn [exec cmd_fun_of filter_command read_command].
  assert (Hv : ~ no_variable_names (Role a d b)) by (intros (X & Y & Z); cbn [subject object] in X, Y; destruct HV as [V|[V|V]]; auto).
  destruct (graph_filter_variables h c (Role a d b) Hv Hh) as (l & El & H1 & H2). exists l. fold G s in El, H1, H2. rewrite El.
  split; [reflexivity|]. split.
  - intro H. destruct (H1 H) as (w & E). rewrite E. eauto.
  - intro H. rewrite (H2 H). reflexivity.
Qed.
