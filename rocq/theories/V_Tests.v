(** * The repository's own unit tests, replayed on the model

    Validation of the model, not properties: every active test under
    trips/tests, ligature-graph/tests and wander/tests, with the answer the test
    expects.  (The graph test search_empty_graph calls query, which is commented
    out in the source; lig/tests import items that do not exist.) *)
From Coq Require Import List NArith Bool String.
From Verif Require Import M_Base M_Data M_Mem M_Heed M_Duck M_Regex M_Lexer M_Graph M_Parser M_Interp.
Import ListNotations.
Open Scope list_scope.

(** ** trips/tests/tests.rs, for each of the three stores *)
Section Trips.
  Context {S : Type} (I : trips_impl S) (new : S).

  Definition T := lit "T".
  Definition n123 := Trip (lit "1") (lit "2") (lit "3").
  Definition n125 := Trip (lit "1") (lit "2") (lit "5").
  Definition n126 := Trip (lit "1") (lit "2") (lit "6").
  (** [BTreeSet::from([..])] sorts. *)
  Definition three : list trip := bs_collect trip_cmp [n123; n126; n125].

  (** tests.rs:36-42 *)
  Definition store_should_start_empty := t_collections I new = Ok [].
  (** tests.rs:44-51 *)
  Definition add_collection_to_store := t_collections I (snd (t_add_collection I new T)) = Ok [T].
  (** tests.rs:53-62 *)
  Definition remove_collection_from_store :=
    let s1 := snd (t_add_collection I new T) in
    let s2 := snd (t_add_collection I s1 (lit "S")) in
    let s3 := snd (t_remove_collection I s2 T) in
    t_collections I s3 = Ok [lit "S"].
  (** tests.rs:64-71 *)
  Definition triples_should_start_empty := t_triples I (snd (t_add_collection I new T)) T = Ok [].
  (** tests.rs:73-85 *)
  Definition add_triples_to_collection :=
    let s1 := snd (t_add_collection I new T) in
    let s2 := snd (fst (t_add_triples I s1 T [n123])) in
    t_triples I s2 T = Ok [n123].
  (** tests.rs:87-109 *)
  Definition remove_triples_from_collection :=
    let s1 := snd (t_add_collection I new T) in
    let s2 := snd (fst (t_add_triples I s1 T three)) in
    let s3 := snd (fst (t_remove_triples I s2 T [n123])) in
    t_triples I s3 T = Ok [n125; n126].
  (** tests.rs:111-131; [filter] itself panics (todo) on LMDB and DuckDB, where
      this test fails. *)
  Definition basic_filter :=
    let s1 := snd (t_add_collection I new T) in
    let s2 := snd (fst (t_add_triples I s1 T three)) in
    t_filter I s2 T (Query Any Any Any) = Ok [n123; n125; n126]
    /\ t_triples I s2 T = Ok [n123; n125; n126].

  Definition trips_tests :=
    store_should_start_empty /\ add_collection_to_store /\ remove_collection_from_store
    /\ triples_should_start_empty /\ add_triples_to_collection /\ remove_triples_from_collection.
End Trips.

Example trips_tests_mem : trips_tests mem_impl mem_new /\ basic_filter mem_impl mem_new.
Proof. repeat split; vm_compute; reflexivity. Qed.
Example trips_tests_heed : trips_tests heed_impl heed_new.
Proof. repeat split; vm_compute; reflexivity. Qed.
Example trips_tests_duck : trips_tests duck_impl duck_new.
Proof. repeat split; vm_compute; reflexivity. Qed.

(** ** ligature-graph/tests/lib_tests.rs *)
(** lib_tests.rs:10-14 *)
Example empty_graph : l_collections (graph_impl mem_impl) mem_new = Ok [].
Proof. reflexivity. Qed.

(** lib_tests.rs:76-86 *)
Example single_element_graph :
  let g := graph_impl mem_impl in
  let statement := Role (mkE (lit "a")) (mkE (lit "b")) (mkE (lit "c")) in
  let s1 := snd (l_add_collection g mem_new (mkE (lit "test"))) in
  let s2 := snd (fst (l_add_entries g s1 (mkE (lit "test")) [statement])) in
  l_entries g s2 (mkE (lit "test")) = Ok [statement].
Proof. vm_compute. reflexivity. Qed.

(** ** wander/tests/lexer_tests.rs *)
Definition tok (s : string) : token := TElement (mkE (lit s)).
Definition nl : str := [10%N].
Definition dq : str := [34%N].
Definition bs : str := [92%N].

(** lexer_tests.rs:8-19 *)
Example tokenize_true : tokenize_and_filter (lit "true") = Ok [tok "true"].
Proof. vm_compute. reflexivity. Qed.
(** 21-35 *)
Example tokenize_booleans :
  tokenize_and_filter (lit "true false false") = Ok [tok "true"; tok "false"; tok "false"].
Proof. vm_compute. reflexivity. Qed.
(** 37-46 *)
Example tokenize_integer : tokenize_and_filter (lit "123450") = Ok [tok "123450"].
Proof. vm_compute. reflexivity. Qed.
(** 48-62 *)
Example tokenize_integers : tokenize_and_filter (lit "0 -100 4200") = Ok [tok "0"; tok "-100"; tok "4200"].
Proof. vm_compute. reflexivity. Qed.
(** 64-70 *)
Example tokenize_strings : tokenize_and_filter (dq ++ lit "Hello, world" ++ dq) = Ok [tok "Hello, world"].
Proof. vm_compute. reflexivity. Qed.
(** 72-78 *)
Example tokenize_strings_with_quotes :
  tokenize_and_filter (dq ++ bs ++ dq ++ lit "Hello, world" ++ bs ++ dq ++ dq)
  = Ok [TElement (mkE (bs ++ dq ++ lit "Hello, world" ++ bs ++ dq))].
Proof. vm_compute. reflexivity. Qed.
(** 80-86 *)
Example tokenize_name : tokenize_and_filter (lit "hello123") = Ok [tok "hello123"].
Proof. vm_compute. reflexivity. Qed.
(** 88-101 *)
Example tokenize_function_call : tokenize_and_filter (lit "not false") = Ok [tok "not"; tok "false"].
Proof. vm_compute. reflexivity. Qed.
(** 117-123 *)
Example tokenize_comment : tokenize_and_filter (lit "-- hello") = Ok [].
Proof. vm_compute. reflexivity. Qed.
(** 125-131 *)
Example tokenize_complex_comment : tokenize_and_filter (lit "-- <<<>>> () {} }{ )( ><") = Ok [].
Proof. vm_compute. reflexivity. Qed.
(** 133-142 *)
Example multiline_comment :
  tokenize_and_filter (lit "-- <<<>>> () {} }{ )( ><" ++ nl ++ lit "5 -- five" ++ nl ++ lit "-- comment") = Ok [tok "5"].
Proof. vm_compute. reflexivity. Qed.

(** ** wander/tests/parser_tests.rs *)
(** parser_tests.rs:10-15 *)
Definition parse_str (script : str) : wres (list call) :=
  match tokenize_and_filter script with
  | Ok results => parse results
  | Err _ => Panic PTodo
  | Panic w => Panic w
  end.
Definition el (s : string) : element := mkE (lit s).
Definition ve (s : string) : value := VElement (el s).

(** 17-25 *)
Example no_arg_command : parse_str (lit "true") = Ok [Call (el "true") []].
Proof. vm_compute. reflexivity. Qed.
(** 27-35 *)
Example parse_integers : parse_str (lit "-100") = Ok [Call (el "-100") []].
Proof. vm_compute. reflexivity. Qed.
(** 37-45 *)
Example parse_strings : parse_str (dq ++ lit "Hello" ++ dq) = Ok [Call (el "Hello") []].
Proof. vm_compute. reflexivity. Qed.
(** 47-58 *)
Example parse_call_with_args : parse_str (lit "Bool.and x true") = Ok [Call (el "Bool.and") [ve "x"; ve "true"]].
Proof. vm_compute. reflexivity. Qed.
(** 60-74 *)
Example parse_applications :
  parse_str (lit "Bool.not x, true") = Ok [Call (el "Bool.not") [ve "x"]; Call (el "true") []].
Proof. vm_compute. reflexivity. Qed.
(** 76-84 *)
Example parse_empty_network : parse_str (lit "test {}") = Ok [Call (el "test") [VNetwork []]].
Proof. vm_compute. reflexivity. Qed.
(** 86-98 *)
Example parse_network_with_single_entry :
  parse_str (lit "test {a b c}") = Ok [Call (el "test") [VNetwork [Role (el "a") (el "c") (el "b")]]].
Proof. vm_compute. reflexivity. Qed.
(** 100-112 *)
Example parse_network_with_single_entry_and_trailing_comma :
  parse_str (lit "test {a b c,}") = Ok [Call (el "test") [VNetwork [Role (el "a") (el "c") (el "b")]]].
Proof. vm_compute. reflexivity. Qed.
(** 114-133 *)
Example parse_network_with_two_entries_and_trailing_comma :
  parse_str (lit "test {a b c, a : A,}")
  = Ok [Call (el "test") [VNetwork (bs_collect entry_cmp [Role (el "a") (el "c") (el "b"); Extends (el "a") (el "A")])]].
Proof. vm_compute. reflexivity. Qed.
(** 135-146 *)
Example parse_nested_function_calls :
  parse_str (lit "Bool.not (Bool.not false)") = Ok [Call (el "Bool.not") [VQuote [ve "Bool.not"; ve "false"]]].
Proof. vm_compute. reflexivity. Qed.

(** ** wander/tests/preludes_tests.rs *)
Definition run_new (script : string) : wres value := fst (run (graph_impl mem_impl) common (lit script) mem_new).

(** preludes_tests.rs:10-16 *)
Example calling_ignore : run_new "ignore" = Ok (VNetwork []).
Proof. vm_compute. reflexivity. Qed.
(** 18-24 *)
Example calling_ignore_with_args :
  run_new "ignore test (test {test test test}) {test test test}" = Ok (VNetwork []).
Proof. vm_compute. reflexivity. Qed.
(** 26-32 *)
Example passing_assert_eq_call : run_new "assert-equal true true" = Ok (VNetwork []).
Proof. vm_compute. reflexivity. Qed.
(** 34-39 *)
Example failing_assert_eq_call : exists e, run_new "assert-equal true bug" = Err e.
Proof. eexists. vm_compute. reflexivity. Qed.
