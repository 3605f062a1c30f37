(** * Properties of the Wander interpreter (wander/src/lib.rs, wander/src/prelude.rs) *)
From Coq Require Import List Arith NArith Bool String Lia Permutation.
From Verif Require Import M_Base M_Data M_Regex M_Lexer M_Graph M_Parser M_Mem M_Heed M_Duck M_Display M_Interp M_Hosts
  S_Order S_Str S_Store S_Graph S_Lexer S_Parser S_Interp P_Ord P_Hist P_Graph P_Interp P_InterpMore P_InterpStores P_Crash P_InterpProps
  Prop_Graph Prop_Parser.
Import ListNotations.
Open Scope list_scope.

(** ** C44.  Running always ends *)

(** For every program there is exactly one finite run, and run_calls and
    run_quote return its outcome. *)
Theorem C44_one_outcome : forall (St : Type) (lig : lig_impl St) (cs : @commands St) calls q st, is_table cs ->
  (exists! o, runs lig cs calls st (fst o) (snd o))
  /\ runs lig cs calls st (fst (run_calls lig cs calls st)) (snd (run_calls lig cs calls st))
  /\ quotes lig cs q st (fst (run_quote lig cs q st)) (snd (run_quote lig cs q st)).
Proof.
  exact (fun St lig cs calls q st Ht =>
    conj (one_outcome lig cs Ht calls st)
      (conj (proj2 (runs_iff lig cs Ht calls st _ _) (surjective_pairing _))
            (proj2 (quotes_iff lig cs Ht q st _ _) (surjective_pairing _)))).
Qed.
Print Assumptions C44_one_outcome.

(** The equation of run_quote (lib.rs:164-185), and that its step bound does not
    matter: every larger one gives the same outcome. *)
Theorem C44_equation : forall (St : Type) (lig : lig_impl St) (cs : @commands St) q st, is_table cs ->
  run_quote lig cs q st =
    match q with
    | [] => (Ok (VNetwork []), st)
    | VElement n :: args => run_calls lig cs [Call n args] st
    | _ => (Panic PTodo, st)
    end
  /\ forall bound, depths q < bound -> run_quote_f lig bound cs q st = run_quote lig cs q st.
Proof.
  exact (fun St lig cs q st Ht => conj (run_quote_eq lig cs Ht q st) (fun b => fuel_irrelevant lig cs Ht q st b)).
Qed.
Print Assumptions C44_equation.

(** No script, on any in-memory store, runs out of steps. *)
Theorem C44_never_out_of_steps : forall script (s : gstate), fst (grun script s) <> Panic PFuel.
Proof. exact (fun script s => script_no_fuel glig common script s common_table mem_never_fuel). Qed.
Print Assumptions C44_never_out_of_steps.

(** The table of common commands is a table. *)
Theorem C44_common_is_a_table : forall St, is_table (@common St).
Proof. exact (@common_table). Qed.
Print Assumptions C44_common_is_a_table.

Definition ix_nest : list value :=
  [VElement (el "assert-fail");
   VQuote [VElement (el "assert-equal"); VQuote [VElement (el "let"); VElement (el "n"); VNetwork [rx_role]]; VElement (el "x")]].
Example C44_case : quotes glig common ix_nest mem_new (Ok (VNetwork [])) [(lit "n", [Trip (lit "a") (lit "r") (lit "b")])].
Proof. apply (quotes_iff _ _ common_table). vm_compute. reflexivity. Qed.

(** ** C45.  Calls compose; the first failure ends the run and keeps its effects *)
Theorem C45_sequence : forall (St : Type) (lig : lig_impl St) (cs : @commands St) c1 c2 st, is_table cs -> c2 <> [] ->
  (forall v st1, run_calls lig cs c1 st = (Ok v, st1) -> run_calls lig cs (c1 ++ c2) st = run_calls lig cs c2 st1)
  /\ (forall r st1, run_calls lig cs c1 st = (r, st1) -> failed r -> run_calls lig cs (c1 ++ c2) st = (r, st1)).
Proof.
  intros St lig cs c1 c2 st Ht Hne. rewrite calls_app. split.
  - intros v st1 ->. destruct c2; [destruct (Hne eq_refl)|reflexivity].
  - intros r st1 -> Hf. destruct r; try reflexivity. destruct (Hf _ eq_refl).
Qed.
Print Assumptions C45_sequence.

(** No calls: the empty network; an unknown command: an error naming it, nothing
    done. *)
Theorem C45_none_and_unknown : forall (St : Type) (lig : lig_impl St) (cs : @commands St) n args rest st, is_table cs ->
  run_calls lig cs [] st = (Ok (VNetwork []), st)
  /\ ((forall c, ~ In (el_name n, c) cs) ->
      run_calls lig cs (Call n args :: rest) st = (Err (WErr (lit "Could not find command: " ++ el_name n)), st)).
Proof.
  intros St lig cs n args rest st Ht. split; [reflexivity|]. intros Hn.
  unfold run_calls. cbn [run_calls_loop c_name]. rewrite (proj2 (cmd_get_none cs (el_name n) Ht) Hn). reflexivity.
Qed.
Print Assumptions C45_none_and_unknown.

Example C45_case :
  grun (lit "let n {a b c}, nope, let m {a b c}") mem_new
  = (Err (WErr (lit "Could not find command: nope")), [(lit "n", [Trip (lit "a") (lit "b") (lit "c")])])
  /\ grun (lit "let n {a b c}, id x") mem_new = (Ok (VElement (el "x")), [(lit "n", [Trip (lit "a") (lit "b") (lit "c")])]).
Proof. split; vm_compute; reflexivity. Qed.

(** ** C46.  Queries change nothing *)
Theorem C46_queries_change_nothing : forall (St : Type) (lig : lig_impl St) n args st,
  In n ["id"; "ignore"; "docs"; "union"; "read"; "filter"]%string ->
  snd (run_calls lig common [Call (mkE (lit n)) args] st) = st.
Proof.
  intros St lig n args st H.
  assert (HI : exists c, In (lit n, c) (@common St) /\ In (cmd_fun_of c) [FId; FIgnore; FDocs; FUnion; FRead; FFilter]).
  { destruct H as [<-|[<-|[<-|[<-|[<-|[<-|[]]]]]]]; eexists.
    - split; [do 5 right; left; reflexivity|]. left; reflexivity.
    - split; [do 2 right; left; reflexivity|]. right; left; reflexivity.
    - split; [do 6 right; left; reflexivity|]. do 2 right; left; reflexivity.
    - split; [do 7 right; left; reflexivity|]. do 3 right; left; reflexivity.
    - split; [do 4 right; left; reflexivity|]. do 4 right; left; reflexivity.
    - split; [do 8 right; left; reflexivity|]. do 5 right; left; reflexivity. }
  destruct HI as (c & Hc & Hf). exact (query_same lig common common_table (mkE (lit n)) c args st Hc Hf).
Qed.
Print Assumptions C46_queries_change_nothing.

Example C46_case : fst (run_calls glig common [call_read (el "n")] (mem_after rx_h)) = Ok (VNetwork [Role (el "x") (el "z") (el "y")]).
Proof. vm_compute. reflexivity. Qed.

(** ** C47.  let, then read *)

(** On the default store: read answers the normal forms of the network and
    nothing else; other collections are as they were. *)
Theorem C47_let_then_read : forall h c n,
  let s := mem_after h in
  exists l s', run_calls glig common [call_let c (VNetwork n)] s = (Ok (VNetwork []), s')
    /\ run_calls glig common [call_let c (VNetwork n); call_read c] s = (Ok (VNetwork l), s')
    /\ is_set entry_lt l /\ (forall e', In e' l <-> exists e, In e n /\ normalises e e')
    /\ others_same glig s s' c.
Proof. exact mem_let_read. Qed.
Print Assumptions C47_let_then_read.

(** The same when the network comes from a quote that answers it. *)
Theorem C47_let_quote_then_read : forall h c q n s1,
  let s := mem_after h in
  run_quote glig common q s = (Ok (VNetwork n), s1) ->
  exists l s', run_calls glig common [call_let c (VQuote q)] s = (Ok (VNetwork []), s')
    /\ run_calls glig common [call_let c (VQuote q); call_read c] s = (Ok (VNetwork l), s')
    /\ is_set entry_lt l /\ (forall e', In e' l <-> exists e, In e n /\ normalises e e')
    /\ others_same glig s1 s' c.
Proof. exact mem_let_quote_read. Qed.
Print Assumptions C47_let_quote_then_read.

(** A quote that answers no network: let panics (prelude.rs:215), keeping the
    quote's effects; an argument list of another shape is refused. *)
Theorem C47_let_otherwise : forall (St : Type) (lig : lig_impl St) c q args st,
  (forall r st1, run_quote lig common q st = (r, st1) -> (forall n, r <> Ok (VNetwork n)) ->
     exists w, run_calls lig common [call_let c (VQuote q)] st = (Panic w, st1))
  /\ ((forall c n, args <> [VElement c; VNetwork n]) -> (forall c q, args <> [VElement c; VQuote q]) ->
      exists e, run_calls lig common [Call (el "let") args] st = (Err e, st)).
Proof.
  intros St lig c q args st. split.
  - intros r st1 E Hn. unfold call_let. rewrite (let_quote lig common common_table (mkE (lit "let")) _ c q st in_common_let), E.
    destruct r as [[e|q'|n]|e|w]; eauto. destruct (Hn n eq_refl).
  - intros H1 H2. unfold el. rewrite (run_one lig common (mkE (lit "let")) (Command (lit "Set a named network.") FLet) args st common_table in_common_let).
    cbn [exec cmd_fun_of]. unfold let_command. destruct args as [|[x|x|x] [|[y|y|y] [|z args]]]; eauto.
    + destruct (H2 x y eq_refl).
    + destruct (H1 x y eq_refl).
Qed.
Print Assumptions C47_let_otherwise.

(** On LMDB let does not replace: the collection keeps what it held. *)
Theorem C47_lmdb_let_merges : forall h c n,
  let G := graph_impl heed_impl in
  let s := lmdb_after h in
  storable (el_name c) -> (total_weight (map fst h) + 1 + 3 * N.of_nat (List.length n) < 2 ^ 64)%N ->
  exists s', run_calls G common [call_let c (VNetwork n)] s = (Ok (VNetwork []), s') /\ merged G s c n s'.
Proof.
  intros h c n G s Hc Hw. destruct (heed_let h c n Hc Hw) as (s' & E & H). exists s'. split; [|exact H].
  etransitivity; [apply let_network|exact E].
Qed.
Print Assumptions C47_lmdb_let_merges.

(** On DuckDB let works once for each name, and panics on an existing one. *)
Theorem C47_duckdb_let_once : forall h c n,
  let G := graph_impl duck_impl in
  let s := duck_after h in
  (dtotal h + 1 + 4 * N.of_nat (List.length n) < 2 ^ 63)%N ->
  (~ has duck_impl s (el_name c) ->
   exists s', run_calls G common [call_let c (VNetwork n)] s = (Ok (VNetwork []), s') /\ replaced G s c n s')
  /\ (has duck_impl s (el_name c) -> run_calls G common [call_let c (VNetwork n)] s = (Panic PUnwrap, s)).
Proof.
  intros h c n G s Hw. destruct (duck_let h c n Hw) as [H1 H2]. split.
  - intros Hh. destruct (H1 Hh) as (s' & E & H). exists s'. split; [|exact H]. etransitivity; [apply let_network|exact E].
  - intros Hh. etransitivity; [apply let_network|exact (H2 Hh)].
Qed.
Print Assumptions C47_duckdb_let_once.

Example C47_case :
  fst (run_calls glig common [call_let (el "n") (VNetwork [rx_role; rx_odd]); call_read (el "n")] (mem_after rx_h))
  = Ok (VNetwork [rx_role; rx_ext])
  /\ storable (lit "n") /\ (total_weight (map fst (map (fun o => (o, true)) rx_h)) + 1 + 3 * 2 < 2 ^ 64)%N
  /\ (dtotal rx_h + 1 + 4 * 2 < 2 ^ 63)%N /\ has duck_impl (duck_after rx_h) (lit "n")
  /\ fst (run_calls (graph_impl heed_impl) common [call_let (el "n") (VNetwork [rx_role; rx_odd]); call_read (el "n")]
            (lmdb_after (map (fun o => (o, true)) rx_h)))
     = Ok (VNetwork [rx_role; Role (el "x") (el "z") (el "y"); rx_ext]).
Proof.
  split; [vm_compute; reflexivity|]. split; [split; vm_compute; auto; discriminate|]. split; [reflexivity|]. split; [reflexivity|].
  split; [|vm_compute; reflexivity]. eexists; (split; [vm_compute; reflexivity|]); vm_compute; auto.
Qed.

(** ** C48.  A program changes only the collections its lets name *)
Theorem C48_only_named_mem : forall h calls c, ~ calls_may_write calls (el_name c) ->
  let s := mem_after h in
  l_entries glig (snd (run_calls glig common calls s)) c = l_entries glig s c.
Proof. exact mem_untouched. Qed.
Print Assumptions C48_only_named_mem.

(** On LMDB, also when commits fail, in every order. *)
Theorem C48_only_named_lmdb : forall h commits calls c, ~ calls_may_write calls (el_name c) ->
  let G := graph_impl (flaky heed_impl_c) in
  let s := (lmdb_after h, commits) in
  l_entries G (snd (run_calls G common calls s)) c = l_entries G s c.
Proof. exact heed_untouched. Qed.
Print Assumptions C48_only_named_lmdb.

Theorem C48_only_named_duckdb : forall h calls c, ~ calls_may_write calls (el_name c) ->
  let G := graph_impl duck_impl in
  let s := duck_after h in
  l_entries G (snd (run_calls G common calls s)) c = l_entries G s c.
Proof. exact duck_untouched. Qed.
Print Assumptions C48_only_named_duckdb.

(** On every store: the writes a program makes are creations and additions to
    named collections; it never removes. *)
Theorem C48_only_creates_and_adds : forall (S : Type) (I : trips_impl S) calls st,
  exists h, snd (run_calls (graph_impl I) common calls st) = after I st h
    /\ forall o, In o h -> exists x, calls_may_write calls x /\ extends x o.
Proof. exact (fun S I => run_calls_via I). Qed.
Print Assumptions C48_only_creates_and_adds.

Definition ix_calls : list call :=
  [call_let (el "n") (VQuote [VElement (el "let"); VElement (el "p"); VNetwork [rx_role]]); call_read (el "m")].
Example C48_case :
  ~ calls_may_write ix_calls (lit "m") /\ calls_may_write ix_calls (lit "p") /\ calls_may_write ix_calls (lit "n")
  /\ l_entries glig (snd (run_calls glig common ix_calls (mem_after rx_h))) (el "p") = Ok [rx_role].
Proof.
  split; [|split; [|split]].
  - intros (c & [<-|[<-|[]]] & H); inversion H; subst;
      match goal with Hi : In _ _ |- _ => cbn in Hi; decompose [or] Hi; try discriminate; try contradiction end.
    match goal with Hi : _ = VQuote _ |- _ => injection Hi as <- <- end.
    match goal with Hw : may_write _ [VElement (el "p"); _] _ |- _ => inversion Hw; subst end.
    match goal with Hi : In _ [_; _] |- _ => cbn in Hi; decompose [or] Hi; try discriminate; try contradiction end.
  - eexists. split; [left; reflexivity|]. eapply mw_nested; [right; left; reflexivity|]. apply mw_let. reflexivity.
  - eexists. split; [left; reflexivity|]. apply mw_let. reflexivity.
  - vm_compute. reflexivity.
Qed.

(** ** C49.  assert-equal *)
Theorem C49_equal : forall (St : Type) (lig : lig_impl St) l r st v st2,
  run_calls lig common [Call (el "assert-equal") [l; r]] st = (Ok v, st2)
  <-> v = VNetwork [] /\ exists a st1, evals lig common l st (Ok a) st1 /\ evals lig common r st1 (Ok a) st2.
Proof.
  exact (fun St lig l r st v st2 =>
    assert_equal_ok lig common common_table (el "assert-equal") _ l r st v st2 (or_introl eq_refl)).
Qed.
Print Assumptions C49_equal.

Theorem C49_not_equal : forall (St : Type) (lig : lig_impl St) l r st st2,
  (exists e, run_calls lig common [Call (el "assert-equal") [l; r]] st = (Err e, st2))
  <-> (exists e, evals lig common l st (Err e) st2)
      \/ exists a st1, evals lig common l st (Ok a) st1
           /\ ((exists e, evals lig common r st1 (Err e) st2) \/ exists b, evals lig common r st1 (Ok b) st2 /\ a <> b).
Proof.
  exact (fun St lig l r st st2 =>
    assert_equal_err lig common common_table (el "assert-equal") _ l r st st2 (or_introl eq_refl)).
Qed.
Print Assumptions C49_not_equal.

Theorem C49_two_arguments : forall (St : Type) (lig : lig_impl St) args st, List.length args <> 2 ->
  exists e, run_calls lig common [Call (el "assert-equal") args] st = (Err e, st).
Proof.
  exact (fun St lig args st => assert_equal_args lig common common_table (el "assert-equal") _ args st (or_introl eq_refl)).
Qed.
Print Assumptions C49_two_arguments.

Example C49_case :
  evals glig common (VQuote [VElement (el "read"); VElement (el "n")]) (mem_after rx_h)
    (Ok (VNetwork [Role (el "x") (el "z") (el "y")])) (mem_after rx_h)
  /\ evals glig common (VElement (el "n")) (mem_after rx_h) (Ok (VElement (el "n"))) (mem_after rx_h).
Proof. split; apply (evals_iff _ _ common_table); vm_compute; reflexivity. Qed.

(** ** C50.  assert-fail *)
Theorem C50_inverts_errors : forall (St : Type) (lig : lig_impl St) q st st1,
  let out := run_calls lig common [Call (el "assert-fail") [VQuote q]] st in
  (forall v, out = (Ok v, st1) <-> v = VNetwork [] /\ exists e, run_quote lig common q st = (Err e, st1))
  /\ ((exists e, out = (Err e, st1)) <-> exists v, run_quote lig common q st = (Ok v, st1))
  /\ (forall w, out = (Panic w, st1) <-> run_quote lig common q st = (Panic w, st1)).
Proof.
  exact (fun St lig q st st1 =>
    assert_fail_outcomes lig common common_table (el "assert-fail") _ q st st1 (or_intror (or_introl eq_refl))).
Qed.
Print Assumptions C50_inverts_errors.

Theorem C50_one_quote : forall (St : Type) (lig : lig_impl St) args st, (forall q, args <> [VQuote q]) ->
  exists e, run_calls lig common [Call (el "assert-fail") args] st = (Err e, st).
Proof.
  exact (fun St lig args st =>
    assert_fail_args lig common common_table (el "assert-fail") _ args st (or_intror (or_introl eq_refl))).
Qed.
Print Assumptions C50_one_quote.

(** An effect that stays although the quote failed. *)
Example C50_case :
  run_quote glig common [VElement (el "assert-equal");
     VQuote [VElement (el "let"); VElement (el "n"); VNetwork [rx_role]]; VElement (el "x")] mem_new
  = (Err (WErr (lit "Assertion failed, {} != ""x""")), [(lit "n", [Trip (lit "a") (lit "r") (lit "b")])])
  /\ run_calls glig common [Call (el "assert-fail") [VQuote [VElement (el "assert-equal");
     VQuote [VElement (el "let"); VElement (el "n"); VNetwork [rx_role]]; VElement (el "x")]]] mem_new
  = (Ok (VNetwork []), [(lit "n", [Trip (lit "a") (lit "r") (lit "b")])]).
Proof. split; vm_compute; reflexivity. Qed.

(** ** C51.  docs *)
Theorem C51_docs : forall (St : Type) (lig : lig_impl St) (cs : @commands St) n d st,
  is_table cs -> In (el_name n, Command d FDocs) cs ->
  exists l, run_calls lig cs [Call n []] st = (Ok (VNetwork l), st) /\ is_set entry_lt l
    /\ List.length l = List.length cs
    /\ forall e, In e l <-> exists name cmd, In (name, cmd) cs /\ e = Role (mkE name) (mkE (cmd_doc cmd)) (mkE (lit "docString")).
Proof.
  intros St lig cs n d st Ht Hc. destruct (docs_run lig cs Ht n d st Hc) as (l & E & Hs & Hl & Hi).
  exists l. split; [exact E|]. split; [exact Hs|]. split; [exact Hl|]. intros e. rewrite Hi. split.
  - intros ([name cmd] & H & ->). exists name, cmd. auto.
  - intros (name & cmd & H & ->). exists (name, cmd). auto.
Qed.
Print Assumptions C51_docs.

(** The order the hash map is iterated in has no effect on any program. *)
Theorem C51_order_irrelevant : forall (St : Type) (lig : lig_impl St) (cs cs' : @commands St) calls st,
  is_table cs -> Permutation cs cs' -> run_calls lig cs calls st = run_calls lig cs' calls st.
Proof. exact (@run_calls_order). Qed.
Print Assumptions C51_order_irrelevant.

Theorem C51_no_arguments : forall (St : Type) (lig : lig_impl St) (cs : @commands St) n d args st,
  is_table cs -> In (el_name n, Command d FDocs) cs -> args <> [] ->
  exists e, run_calls lig cs [Call n args] st = (Err e, st).
Proof. exact (fun St lig cs n d args st Ht => docs_args lig cs Ht n d args st). Qed.
Print Assumptions C51_no_arguments.

Example C51_case :
  In (lit "docs", Command (lit "Get a list of commands and a description.") FDocs) (@common gstate)
  /\ (exists l, fst (grun (lit "docs") mem_new) = Ok (VNetwork l) /\ List.length l = 9).
Proof. split; [do 6 right; left; reflexivity|]. eexists. split; vm_compute; reflexivity. Qed.

(** The commands every session has, and that is all of them. *)
Theorem C51_standard : forall (St : Type) (lig : lig_impl St) (st : St),
  exists l, run lig common (lit "docs") st = (Ok (VNetwork l), st)
    /\ (forall n, In n (map lit ["assert-equal"; "assert-fail"; "docs"; "filter"; "id"; "ignore"; "let"; "read"; "union"]%string)
         <-> exists d, In (Role (mkE n) d (mkE (lit "docString"))) l)
    /\ List.length l = 9.
Proof.
  intros St lig st.
  destruct (C51_docs St lig common (el "docs") _ st common_table (or_intror (or_intror (or_intror (or_intror (or_intror (or_intror (or_introl eq_refl)))))))) as (l & E & _ & Hl & Hi).
  exists l. split; [|split].
  - rewrite <- E. vm_compute. reflexivity.
  - intros n. split.
    + intros H. assert (X : exists c, In (n, c) (@common St)).
      { cbn in H. repeat (destruct H as [<-|H]; [eexists; cbn [In common]; do 8 (try (left; reflexivity); right); try (left; reflexivity); fail|]). destruct H. }
      destruct X as (c & Hc). exists (mkE (cmd_doc c)). apply Hi. exists n, c. auto.
    + intros (d & H). apply Hi in H as (name & c & Hc & He). injection He as -> _.
      cbn [In common] in Hc. cbn [map In].
      repeat (destruct Hc as [Hc|Hc]; [injection Hc as <- _; tauto|]). destruct Hc.
  - rewrite Hl. reflexivity.
Qed.
Print Assumptions C51_standard.

(** ** C52.  union *)
Theorem C52_union : forall (St : Type) (lig : lig_impl St) l r st, is_set entry_lt l ->
  exists u, run_calls lig common [Call (el "union") [VNetwork l; VNetwork r]] st = (Ok (VNetwork u), st)
    /\ is_set entry_lt u /\ forall e, In e u <-> In e l \/ In e r.
Proof.
  exact (fun St lig l r st =>
    union_run lig common common_table (el "union") _ l r st
      (or_intror (or_intror (or_intror (or_intror (or_intror (or_intror (or_intror (or_introl eq_refl))))))))).
Qed.
Print Assumptions C52_union.

(** Idempotent, commutative, associative, on sets. *)
Theorem C52_laws : forall (St : Type) (lig : lig_impl St) (st : St),
  let union a b := fst (run_calls lig common [Call (el "union") [VNetwork a; VNetwork b]] st) in
  forall a b c, is_set entry_lt a -> is_set entry_lt b -> is_set entry_lt c ->
  union a a = Ok (VNetwork a)
  /\ union a b = union b a
  /\ exists ab bc, union a b = Ok (VNetwork ab) /\ union b c = Ok (VNetwork bc) /\ union ab c = union a bc.
Proof.
  intros St lig st union a b c Ha Hb Hc. unfold union.
  destruct (C52_union St lig a a st Ha) as (aa & -> & Saa & Iaa). cbn [fst].
  destruct (C52_union St lig a b st Ha) as (ab & -> & Sab & Iab). cbn [fst].
  destruct (C52_union St lig b a st Hb) as (ba & -> & Sba & Iba). cbn [fst].
  destruct (C52_union St lig b c st Hb) as (bc & -> & Sbc & Ibc). cbn [fst].
  split; [|split].
  - do 2 f_equal. apply (is_set_ext entry_order _ _ Saa Ha). intros e. rewrite Iaa. intuition.
  - do 2 f_equal. apply (is_set_ext entry_order _ _ Sab Sba). intros e. rewrite Iab, Iba. intuition.
  - exists ab, bc. split; [reflexivity|]. split; [reflexivity|].
    destruct (C52_union St lig ab c st Sab) as (x & -> & Sx & Ix). cbn [fst].
    destruct (C52_union St lig a bc st Ha) as (y & -> & Sy & Iy). cbn [fst].
    do 2 f_equal. apply (is_set_ext entry_order _ _ Sx Sy). intros e. rewrite Ix, Iy, Iab, Ibc. intuition.
Qed.
Print Assumptions C52_laws.

Theorem C52_other_arguments : forall (St : Type) (lig : lig_impl St) args st,
  (List.length args <> 2 -> exists e, run_calls lig common [Call (el "union") args] st = (Err e, st))
  /\ (List.length args = 2 -> (forall l r, args <> [VNetwork l; VNetwork r]) ->
      run_calls lig common [Call (el "union") args] st = (Panic PTodo, st)).
Proof.
  exact (fun St lig args st =>
    union_args lig common common_table (el "union") _ args st
      (or_intror (or_intror (or_intror (or_intror (or_intror (or_intror (or_intror (or_introl eq_refl))))))))).
Qed.
Print Assumptions C52_other_arguments.

Example C52_case :
  is_set entry_lt [rx_role; rx_ext]
  /\ fst (run_calls glig common [Call (el "union") [VNetwork [rx_ext]; VNetwork [rx_role; rx_ext]]] mem_new) = Ok (VNetwork [rx_role; rx_ext]).
Proof. split; [|vm_compute; reflexivity]. repeat constructor. Qed.

(** ** C53.  filter *)
Theorem C53_filter : forall h c a b d,
  let s := mem_after h in
  let go := run_calls glig common [Call (el "filter") [VElement c; VElement a; VElement b; VElement d]] s in
  ~ variable_name (el_name a) -> ~ variable_name (el_name b) -> ~ variable_name (el_name d) ->
  (has mem_impl s (el_name c) ->
   exists l k, run_calls glig common [call_read c] s = (Ok (VNetwork l), s)
               /\ go = (Ok (VNetwork k), s) /\ is_set entry_lt k
               /\ forall e, In e k <-> In e l /\ agrees (el_name a) (subject e) /\ agrees (el_name b) (role_name e) /\ agrees (el_name d) (object e))
  /\ (~ has mem_impl s (el_name c) -> exists w, go = (Panic w, s)).
Proof. exact filter_run. Qed.
Print Assumptions C53_filter.

Example C53_case :
  let h := rx_h ++ [OAdd (lit "n") [Trip (lit "x") (lit "y") (lit "w"); Trip (lit "q") (lit "y") (lit "z"); Trip (lit "x") (lit ":") (lit "z")]] in
  has mem_impl (mem_after h) (lit "n") /\ ~ variable_name (lit "x") /\ ~ variable_name (lit "?")
  /\ fst (run_calls glig common [Call (el "filter") [VElement (el "n"); VElement (el "x"); VElement (el "?"); VElement (el "z")]] (mem_after h))
     = Ok (VNetwork [Role (el "x") (el "z") (el "y"); Extends (el "x") (el "z")]).
Proof.
  split; [eexists; (split; [vm_compute; reflexivity|]); vm_compute; auto|].
  split; [intros (r & E & _); discriminate E|]. split; [intros (r & E & N); injection E as <-; exact (N eq_refl)|]. vm_compute. reflexivity.
Qed.

(** ** C54.  A script that is not in the language changes nothing *)
Theorem C54_bad_script_no_effect : forall (St : Type) (lig : lig_impl St) (cs : @commands St) script st,
  (forall ts calls, tokenize_and_filter script = Ok ts -> ~ g_script ts calls) ->
  snd (run lig cs script st) = st /\ failed (fst (run lig cs script st)).
Proof. exact (@bad_script). Qed.
Print Assumptions C54_bad_script_no_effect.

Example C54_case :
  (forall ts calls, tokenize_and_filter (lit "let n {a b c}, let m {a b") = Ok ts -> ~ g_script ts calls)
  /\ grun (lit "let n {a b c}, let m {a b") (mem_after rx_h) = (Panic PTodo, mem_after rx_h).
Proof.
  split; [|vm_compute; reflexivity]. intros ts calls E H. apply P_Parser.parse_ok in H. revert E H.
  vm_compute. intros E. injection E as <-. vm_compute. discriminate.
Qed.

(** ** C60.  Crashes during a run *)

(** A run is a sequence of writes; a process that dies after k of them leaves
    exactly the first k, and the run is unfinished if there were more. *)
Theorem C60_crash_leaves_a_prefix : forall (S : Type) (I : trips_impl S) calls st,
  exists h, snd (run_calls (graph_impl I) common calls st) = after I st h
    /\ forall k, let out := run_calls (graph_impl (dying I)) common calls (st, k) in
         fst (snd out) = after I st (firstn k h)
         /\ (List.length h <= k -> fst out = fst (run_calls (graph_impl I) common calls st))
         /\ (k < List.length h -> fst out = Panic PUnwrap).
Proof. exact (fun S I => run_calls_crash I). Qed.
Print Assumptions C60_crash_leaves_a_prefix.

(** What a crash inside one let can leave on LMDB: nothing; the collection created
    but not filled; everything. *)
Theorem C60_let_crash_states : forall h c n k,
  let G := graph_impl heed_impl in
  let s := lmdb_after h in
  let s' := fst (snd (run_calls (graph_impl (dying heed_impl)) common [call_let c (VNetwork n)] (s, k))) in
  storable (el_name c) -> (total_weight (map fst h) + 1 + 3 * N.of_nat (List.length n) < 2 ^ 64)%N ->
  match k with
  | 0 => s' = s
  | 1 => merged G s c [] s'
  | _ => merged G s c n s'
  end.
Proof. exact let_crash. Qed.
Print Assumptions C60_let_crash_states.

(** So on a collection that exists, let is atomic as far as reading it shows. *)
Theorem C60_atomic_on_existing_partial : forall h c n k,
  let G := graph_impl heed_impl in
  let s := lmdb_after h in
  let s' := fst (snd (run_calls (graph_impl (dying heed_impl)) common [call_let c (VNetwork n)] (s, k))) in
  storable (el_name c) -> (total_weight (map fst h) + 1 + 3 * N.of_nat (List.length n) < 2 ^ 64)%N ->
  has heed_impl s (el_name c) ->
  l_entries G s' c = l_entries G s c \/ merged G s c n s'.
Proof.
  intros h c n k G s s' Hc Hw Hh. pose proof (let_crash h c n k Hc Hw) as H. fold s G in H.
  change (match k with 0 => s' = s | 1 => merged G s c [] s' | _ => merged G s c n s' end) in H.
  destruct k as [|[|k]]; [left; rewrite H; reflexivity| |right; exact H].
  left. destruct H as [(l' & El' & Hs' & Hi) _].
  destruct (proj1 (P_HeedMore.heed_triples_missing h (el_name c)) Hh) as [t Et]. fold s in Et.
  destruct (entries_spec heed_impl s c t Et) as (l & El & Hs & _). fold G in El.
  rewrite El, El'. f_equal. apply (is_set_ext entry_order _ _ Hs' Hs). intros e. rewrite Hi. split.
  - intros [(m & Em & Hm)|(x & [] & _)]. rewrite El in Em. injection Em as <-. exact Hm.
  - intros He. left. eauto.
Qed.
Print Assumptions C60_atomic_on_existing_partial.

(** On a new collection it is not: a crash between the two commits leaves it
    created and empty. *)
Theorem C60_let_atomic_refuted : exists h c n k,
  let G := graph_impl heed_impl in
  let s := lmdb_after h in
  let s' := fst (snd (run_calls (graph_impl (dying heed_impl)) common [call_let c (VNetwork n)] (s, k))) in
  l_entries G s' c <> l_entries G s c /\ ~ merged G s c n s'.
Proof.
  exists [], (el "n"), [rx_role], 1. cbv zeta. split; [vm_compute; discriminate|].
  intros [(l' & El' & _ & Hi) _]. vm_compute in El'. injection El' as <-.
  apply (proj2 (Hi rx_role)). right. exists rx_role. split; [left; reflexivity|]. repeat split; discriminate.
Qed.
Print Assumptions C60_let_atomic_refuted.

(** And without any crash: a let whose second commit fails answers like a let
    that stored everything, and has stored nothing. *)
Theorem C60_failed_commit_unnoticed : forall h c n b commits,
  let s := lmdb_after h in
  has heed_impl s (el_name c) ->
  (total_weight (map fst h) + 3 * N.of_nat (List.length n) < 2 ^ 64)%N ->
  let out := run_calls (graph_impl (flaky heed_impl_c)) common [call_let c (VNetwork n)] (s, b :: false :: commits) in
  fst out = Ok (VNetwork []) /\ fst (snd out) = s.
Proof. exact let_silent. Qed.
Print Assumptions C60_failed_commit_unnoticed.

Example C60_case :
  storable (lit "n") /\ (total_weight (map fst (map (fun o => (o, true)) rx_h)) + 1 + 3 * 2 < 2 ^ 64)%N
  /\ has heed_impl (lmdb_after (map (fun o => (o, true)) rx_h)) (lit "n").
Proof.
  split; [split; vm_compute; auto; discriminate|]. split; [reflexivity|].
  eexists; (split; [vm_compute; reflexivity|]); vm_compute; auto.
Qed.
