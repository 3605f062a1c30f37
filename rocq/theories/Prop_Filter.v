(** * C30, C53: filter with variable names in the pattern (in-memory graph) *)
From Coq Require Import List NArith Bool String.
From Verif Require Import M_Base M_Data M_Mem M_Graph M_Parser M_Display M_Interp M_Hosts
  S_Order S_Str S_Store S_Graph S_Filter S_Interp P_InterpProps P_Filter Prop_Graph Prop_Parser Prop_Interp.
Import ListNotations.
Open Scope list_scope.

(** C30, the patterns left out there: a name beginning with the question mark is
    not supported.  The call panics exactly when an entry agrees with every
    position before the first such name, and answers the empty set otherwise. *)
Theorem C30_mem_filter_variables : forall h c p,
  ~ no_variable_names p ->
  let G := graph_impl mem_impl in
  let s := mem_after h in
  has mem_impl s (el_name c) ->
  exists l, l_entries G s c = Ok l
    /\ ((exists e, In e l /\ reaches_variable p e) -> exists w, l_filter G s c p = Panic w)
    /\ ((forall e, In e l -> ~ reaches_variable p e) -> l_filter G s c p = Ok []).
Proof. exact graph_filter_variables. Qed.
Print Assumptions C30_mem_filter_variables.

(** C53, the same of the command. *)
Theorem C53_filter_variables : forall h c a b d,
  let s := mem_after h in
  let go := run_calls glig common [Call (el "filter") [VElement c; VElement a; VElement b; VElement d]] s in
  variable_name (el_name a) \/ variable_name (el_name b) \/ variable_name (el_name d) ->
  has mem_impl s (el_name c) ->
  exists l, run_calls glig common [call_read c] s = (Ok (VNetwork l), s)
    /\ ((exists e, In e l /\ reaches_variable (Role a d b) e) -> exists w, go = (Panic w, s))
    /\ ((forall e, In e l -> ~ reaches_variable (Role a d b) e) -> go = (Ok (VNetwork []), s)).
Proof. exact filter_run_variables. Qed.
Print Assumptions C53_filter_variables.

Example C53_variables_case :
  variable_name (lit "?v")
  /\ has mem_impl (mem_after rx_h) (lit "n")
  /\ grun (lit "filter n ? ?v ?") (mem_after rx_h) = (Panic PTodo, mem_after rx_h)
  /\ grun (lit "filter n none ?v ?") (mem_after rx_h) = (Ok (VNetwork []), mem_after rx_h).
Proof.
  split; [eexists; split; [reflexivity|discriminate]|]. split; [eexists; (split; [vm_compute; reflexivity|]); vm_compute; auto|].
  split; vm_compute; reflexivity.
Qed.
