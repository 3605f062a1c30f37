(** * Properties of the host applications: ligature-wasm, ligature-zeromq, wander-repl,
    ligature-test-suite, ligature-redb *)
From Coq Require Import List Arith NArith ZArith Bool String Lia Permutation.
From Verif Require Import M_Base M_Data M_Mem M_Graph M_Regex M_Lexer M_Parser M_Display M_Interp M_Hosts
  S_Order S_Store S_Graph S_Hosts P_Ord P_Hist P_Hosts Prop_Graph Prop_Parser.
Import ListNotations.
Open Scope list_scope.

(** ** C55.  The exported graph *)

(** For every network: edges are exactly the entries' edges, nodes exactly the
    ends of edges; and this determines the graph. *)
Theorem C55_graph_of_a_network : forall es, graph_of es (graph_to_graphology es)
  /\ forall g, graph_of es g -> g = graph_to_graphology es.
Proof. exact (fun es => conj (graph_ok es) (fun g H => graph_of_unique es g _ H (graph_ok es))). Qed.
Print Assumptions C55_graph_of_a_network.

(** For every store: one graph for each collection, of its entries. *)
Theorem C55_export : forall h,
  let s := mem_after h in
  exists m, ligature_to_graphology glig s = Ok m
    /\ NoDup (map fst m)
    /\ (forall name, In name (map fst m) <-> has mem_impl s name)
    /\ (forall name g, In (name, g) m -> exists l, l_entries glig s (mkE name) = Ok l /\ graph_of l g).
Proof. exact mem_export. Qed.
Print Assumptions C55_export.

(** For every script: what the JavaScript caller of run gets. *)
Theorem C55_wasm_run : forall script,
  let s := snd (grun script mem_new) in
  match fst (grun script mem_new) with
  | Ok _ => exists m, wasm_run script = Ok m
              /\ NoDup (map fst m)
              /\ (forall name, In name (map fst m) <-> has mem_impl s name)
              /\ (forall name g, In (name, g) m -> exists l, l_entries glig s (mkE name) = Ok l /\ graph_of l g)
  | Err e => wasm_run script = Err e
  | Panic w => wasm_run script = Panic w
  end.
Proof. exact wasm_ok. Qed.
Print Assumptions C55_wasm_run.

Example C55_case :
  wasm_run (lit "let n {b r a, a : b}, let m {}")
  = Ok [(lit "m", Graphology [] []);
        (lit "n", Graphology [lit "a"; lit "b"] [Edge (lit ":") (lit "a") (lit "b"); Edge (lit "r") (lit "b") (lit "a")])].
Proof. vm_compute. reflexivity. Qed.

(** ** C56.  The server *)

(** Replies answer the first requests in order, each on the store the requests
    before it left.  If the server is up, all were answered; if it is down, the
    first unanswered request panicked. *)
Theorem C56_server : forall requests s replies s' up, serve requests s = (replies, s', up) ->
  List.length replies <= List.length requests
  /\ (forall k r, nth_error replies k = Some r -> exists q, nth_error requests k = Some q
        /\ answers (fst (grun q (store_after (firstn k requests) s))) r)
  /\ (up = true -> List.length replies = List.length requests /\ s' = store_after requests s)
  /\ (up = false -> exists q w, nth_error requests (List.length replies) = Some q
        /\ fst (grun q (store_after (firstn (List.length replies) requests) s)) = Panic w
        /\ s' = store_after (firstn (Datatypes.S (List.length replies)) requests) s).
Proof. exact serve_spec. Qed.
Print Assumptions C56_server.

Definition sx : list str := [lit "let n {a b c}"; lit "let"; lit "read n"; lit "read"; lit "read n"].
Example C56_case :
  serve sx mem_new
  = ([ReplyValue (lit "{}"); ReplyError (WErr (lit "Invalid call to let.")); ReplyValue (display (VNetwork [Role (el "a") (el "c") (el "b")]))],
     [(lit "n", [Trip (lit "a") (lit "b") (lit "c")])], false).
Proof. vm_compute. reflexivity. Qed.

(** ** C57.  The REPL *)

(** A line that begins with a colon: the store stays, no panic, and the session
    ends exactly for :q and :quit. *)
Theorem C57_commands : forall line st, first_char 58 line ->
  (repl_line line st = RStop st <-> is_first_word (lit ":q") line \/ is_first_word (lit ":quit") line)
  /\ (repl_line line st = RStop st \/ repl_line line st = RContinue st).
Proof. exact repl_command. Qed.
Print Assumptions C57_commands.

(** Any other line is a script: run, then go on; a panic, or a quote as result,
    ends the process. *)
Theorem C57_scripts : forall line st, ~ first_char 58 line ->
  match grun line st with
  | (Ok (VQuote _), _) => repl_line line st = RPanic PTodo
  | (Panic w, _) => repl_line line st = RPanic w
  | (_, st') => repl_line line st = RContinue st'
  end.
Proof. exact repl_script. Qed.
Print Assumptions C57_scripts.

Example C57_case :
  first_char 58 (lit "  :q now") /\ is_first_word (lit ":q") (lit "  :q now") /\ ~ first_char 58 (lit "read :q")
  /\ ~ is_first_word (lit ":q") (lit ":qq").
Proof.
  split; [|split; [|split]].
  - apply first_char_trim. vm_compute. reflexivity.
  - apply first_word_iff. vm_compute. reflexivity.
  - rewrite first_char_trim. vm_compute. discriminate.
  - rewrite <- first_word_iff. vm_compute. discriminate.
Qed.

(** ** C58.  The test suite *)

(** The two numbers printed are the number of *.wander files whose script succeeds
    on a fresh store and the number of *.wander files. *)
Theorem C58_totals : forall files ss ok, lists files ss ->
  (forall script w, In script ss -> fst (grun script mem_new) <> Panic w) ->
  counted (fun script => exists v, fst (grun script mem_new) = Ok v) ss ok ->
  suite files = Ok (Z.of_nat ok, Z.of_nat (List.length ss)).
Proof. exact suite_ok. Qed.
Print Assumptions C58_totals.

(** The suite dies without totals exactly if there is a file it cannot cope with;
    otherwise the directory lists scripts as above, none of which panics. *)
Theorem C58_panic : forall files, (exists w, suite files = Panic w) <-> exists f, In f files /\ deadly f.
Proof. exact suite_panics. Qed.
Print Assumptions C58_panic.

Theorem C58_otherwise : forall files, (forall f, In f files -> ~ deadly f) -> exists ss, lists files ss
  /\ forall script w, In script ss -> fst (grun script mem_new) <> Panic w.
Proof. exact listed. Qed.
Print Assumptions C58_otherwise.

(** The order read_dir lists the files in does not matter, except for which panic
    comes first. *)
Theorem C58_any_order : forall files files', Permutation files files' ->
  suite files = suite files' \/ ((exists w, suite files = Panic w) /\ exists w, suite files' = Panic w).
Proof. exact suite_perm. Qed.
Print Assumptions C58_any_order.

Definition sfiles : list dir_entry :=
  [DirEntry (Some (lit "a.wander")) (Some (lit "assert-equal a a")); DirEntry (Some (lit "notes.wander.txt")) None;
   DirEntry (Some (lit "b.wander")) (Some (lit "assert-equal a b")); DirEntry (Some (lit ".wander")) (Some (lit "let n {}, read n"))].
Example C58_case :
  exists ss, lists sfiles ss
  /\ (forall script w, In script ss -> fst (grun script mem_new) <> Panic w)
  /\ counted (fun script => exists v, fst (grun script mem_new) = Ok v) ss 2 /\ List.length ss = 3
  /\ deadly (DirEntry (Some (lit "c.wander")) (Some (lit "read"))).
Proof.
  eexists. split; [|split; [|split; [|split]]].
  - apply (li_script (lit "a")). apply li_other.
    + intros stem E. assert (H : ends_with (lit ".wander") (lit "notes.wander.txt") = true) by (apply ends_with_iff; eauto).
      vm_compute in H. discriminate H.
    + apply (li_script (lit "b")). apply (li_script []). constructor.
  - intros script w [<-|[<-|[<-|[]]]]; vm_compute; discriminate.
  - apply co_yes; [eexists; vm_compute; reflexivity|]. apply co_no; [intros [v E]; vm_compute in E; discriminate E|].
    apply co_yes; [eexists; vm_compute; reflexivity|]. constructor.
  - reflexivity.
  - right. exists (lit "c"). split; [reflexivity|right]. exists (lit "read"). eexists. split; [reflexivity|]. vm_compute. reflexivity.
Qed.

(** ** C59.  Ids *)

(** After any calls, the next id of a kind is the number of calls for that kind so
    far, up to the largest u64; then every call panics. *)
Theorem C59_ids : forall h k n, counted (eq k) h n ->
  fst (next_id k (fold_left (fun t k => snd (next_id k t)) h []))
  = if (N.of_nat n <? 2 ^ 64)%N then Ok (N.of_nat n) else Panic POverflow.
Proof. exact next_id_ok. Qed.
Print Assumptions C59_ids.

(** The table then holds the last id given for each kind asked for, under these
    keys, and nothing else. *)
Theorem C59_table : forall h key v, In (key, v) (fold_left (fun t k => snd (next_id k t)) h []) <->
  exists k n, In k h /\ key = match k with Datasets => lit "Datasets" | Identifiers => lit "Identifiers" | Strings => lit "Strings" end
    /\ counted (eq k) h n /\ v = N.min (N.of_nat n - 1) (2 ^ 64 - 1).
Proof. exact ids_table. Qed.
Print Assumptions C59_table.

(** So within one kind no id is given twice. *)
Theorem C59_no_repetition : forall h1 h2 k a b,
  fst (next_id k (fold_left (fun t k => snd (next_id k t)) h1 [])) = Ok a ->
  fst (next_id k (fold_left (fun t k => snd (next_id k t)) (h1 ++ k :: h2) [])) = Ok b ->
  (a < b)%N.
Proof.
  intros h1 h2 k a b.
  assert (D : forall x, k = x \/ k <> x) by (intros x; destruct k, x; auto; right; discriminate).
  destruct (counted_total (eq k) D h1) as [n1 C1]. destruct (counted_total (eq k) D h2) as [n2 C2].
  assert (C : counted (eq k) (h1 ++ k :: h2) (n1 + S n2)).
  { clear D. induction C1; cbn; [apply co_yes; auto|apply co_yes; auto|apply co_no; auto]. }
  fold (table_after h1) (table_after (h1 ++ k :: h2)).
  rewrite (next_id_ok h1 k n1 C1), (next_id_ok _ k _ C).
  destruct (N.ltb (N.of_nat n1) (2 ^ 64)); [|discriminate]. destruct (N.ltb (N.of_nat (n1 + S n2)) (2 ^ 64)); [|discriminate].
  intros E1 E2. injection E1 as <-. injection E2 as <-. lia.
Qed.
Print Assumptions C59_no_repetition.

Example C59_case :
  counted (eq Datasets) [Datasets; Strings; Datasets] 2
  /\ fst (next_id Datasets (fold_left (fun t k => snd (next_id k t)) [Datasets; Strings; Datasets] [])) = Ok 2%N.
Proof. split; [|vm_compute; reflexivity]. apply co_yes; [reflexivity|]. apply co_no; [discriminate|]. apply co_yes; [reflexivity|]. constructor. Qed.
