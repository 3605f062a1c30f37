(** * Specification vocabulary: Wander on an LMDB store whose disk fails

    The reference of S_Wander for LMDB again, with what a let does left open, so
    that it can be said what it does when writes and commits fail.  (C125_same_rules
    proves that with the let of S_Wander it is the reference of S_Wander.) *)
From Coq Require Import List Arith NArith Bool String.
From Verif Require Import M_Base M_Data M_Regex M_Lexer M_Graph M_Parser M_Interp M_TxnConc S_Order S_Str S_Store S_Lexer S_Parser S_Conc S_TxnConc S_Wander.
Import ListNotations.
Open Scope list_scope.

(** Letting a name have a network when the disk may fail at any moment.  All goes
    well; or the name is new and is not created, noticed or not, and the script
    crashes; or the name is there and the network is not stored, which is noticed
    (a crash) or not; with nothing to store there is nothing to notice. *)
Inductive lets_failing (w : world) (c : str) (n : list entry) : outcome -> world -> Prop :=
| lf_well o w' : binds w c n Lmdb o w' -> lets_failing w c n o w'
| lf_no_name : w c = None -> lets_failing w c n Crashes w
| lf_unnoticed w' : binds w c [] Lmdb (Answers done) w' -> lets_failing w c n (Answers done) w'
| lf_noticed w' : n <> [] -> binds w c [] Lmdb (Answers done) w' -> lets_failing w c n Crashes w'.

Section Reference.
  Variable lets : world -> str -> list entry -> outcome -> world -> Prop.

  (** [gives_on v]: evaluating a value.  [calls_on name args]: one call. *)
  Inductive gives_on : value -> world -> outcome -> world -> Prop :=
  | fg_element e w : gives_on (VElement e) w (Answers (VElement e)) w
  | fg_network n w : gives_on (VNetwork n) w (Answers (VNetwork n)) w
  | fg_empty w : gives_on (VQuote []) w (Answers done) w
  | fg_call n args w o w' : calls_on (el_name n) args w o w' -> gives_on (VQuote (VElement n :: args)) w o w'
  | fg_other v args w : (forall n, v <> VElement n) -> gives_on (VQuote (v :: args)) w Crashes w
  with calls_on : str -> list value -> world -> outcome -> world -> Prop :=
  | fc_unknown name args w :
      ~ In name (map fst manual) -> calls_on name args w (Fails (WErr (lit "Could not find command: " ++ name))) w
  (* id *)
  | fc_id v w : calls_on (lit "id") [v] w (Answers v) w
  | fc_id_args args w :
      List.length args <> 1 -> calls_on (lit "id") args w (Fails (WErr (lit "Id requires a single argument."))) w
  (* ignore *)
  | fc_ignore args w : calls_on (lit "ignore") args w (Answers done) w
  (* docs *)
  | fc_docs n w : set_where page n -> calls_on (lit "docs") [] w (Answers (VNetwork n)) w
  | fc_docs_args args w : args <> [] -> calls_on (lit "docs") args w (Fails (WErr (lit "docs takes no arguments."))) w
  (* union *)
  | fc_union l r n w :
      set_where (fun e => In e l \/ In e r) n -> calls_on (lit "union") [VNetwork l; VNetwork r] w (Answers (VNetwork n)) w
  | fc_union_other a b w :
      (forall l r, [a; b] <> [VNetwork l; VNetwork r]) -> calls_on (lit "union") [a; b] w Crashes w
  | fc_union_args args w :
      List.length args <> 2 -> calls_on (lit "union") args w (Fails (WErr (lit "union takes two arguments."))) w
  (* read *)
  | fc_read c w o : reads w (el_name c) Lmdb o -> calls_on (lit "read") [VElement c] w o w
  | fc_read_args args w : (forall c, args <> [VElement c]) -> calls_on (lit "read") args w Crashes w
  (* filter: the collection, then subject, role and object *)
  | fc_filter c s r x w o :
      finds w (el_name c) (Role s x r) Lmdb o ->
      calls_on (lit "filter") [VElement c; VElement s; VElement r; VElement x] w o w
  | fc_filter_args args w :
      (forall c s r x, args <> [VElement c; VElement s; VElement r; VElement x]) -> calls_on (lit "filter") args w Crashes w
  (* assert-equal: left, then right *)
  | fc_equal_args args w :
      List.length args <> 2 ->
      calls_on (lit "assert-equal") args w (Fails (WErr (lit "`assertEq` function requires two parameters."))) w
  | fc_equal_left l r w o w1 :
      gives_on l w o w1 -> (forall v, o <> Answers v) -> calls_on (lit "assert-equal") [l; r] w o w1
  | fc_equal_right l r w v w1 o w2 :
      gives_on l w (Answers v) w1 -> gives_on r w1 o w2 -> (forall v, o <> Answers v) ->
      calls_on (lit "assert-equal") [l; r] w o w2
  | fc_equal l r w v w1 w2 :
      gives_on l w (Answers v) w1 -> gives_on r w1 (Answers v) w2 -> calls_on (lit "assert-equal") [l; r] w (Answers done) w2
  | fc_unequal l r w a w1 b w2 ta tb :
      gives_on l w (Answers a) w1 -> gives_on r w1 (Answers b) w2 -> a <> b -> value_text a ta -> value_text b tb ->
      calls_on (lit "assert-equal") [l; r] w (Fails (WErr (lit "Assertion failed, " ++ ta ++ lit " != " ++ tb))) w2
  (* assert-fail: an error is not undone, and a crash is a crash *)
  | fc_fail_args args w :
      (forall q, args <> [VQuote q]) ->
      calls_on (lit "assert-fail") args w (Fails (WErr (lit "`assert-fail` function expected to be passed a Quote."))) w
  | fc_fail_not q w v w1 :
      gives_on (VQuote q) w (Answers v) w1 -> calls_on (lit "assert-fail") [VQuote q] w (Fails (WErr (lit "Expected failure."))) w1
  | fc_fail q w e w1 :
      gives_on (VQuote q) w (Fails e) w1 -> calls_on (lit "assert-fail") [VQuote q] w (Answers done) w1
  | fc_fail_crash q w w1 : gives_on (VQuote q) w Crashes w1 -> calls_on (lit "assert-fail") [VQuote q] w Crashes w1
  (* let: a network, or a quote that answers one *)
  | fc_let c n w o w' : lets w (el_name c) n o w' -> calls_on (lit "let") [VElement c; VNetwork n] w o w'
  | fc_let_quote c q w n w1 o w' :
      gives_on (VQuote q) w (Answers (VNetwork n)) w1 -> lets w1 (el_name c) n o w' ->
      calls_on (lit "let") [VElement c; VQuote q] w o w'
  | fc_let_other c q w o w1 :
      gives_on (VQuote q) w o w1 -> (forall n, o <> Answers (VNetwork n)) -> calls_on (lit "let") [VElement c; VQuote q] w Crashes w1
  | fc_let_args args w :
      (forall c n, args <> [VElement c; VNetwork n]) -> (forall c q, args <> [VElement c; VQuote q]) ->
      calls_on (lit "let") args w (Fails (WErr (lit "Invalid call to let."))) w.

  (** One call after the other; the first that does not answer is the last. *)
  Inductive performs_on : list call -> world -> outcome -> world -> Prop :=
  | fp_nothing w : performs_on [] w (Answers done) w
  | fp_last c w o w' : calls_on (el_name (c_name c)) (c_args c) w o w' -> performs_on [c] w o w'
  | fp_more c d rest w v w1 o w' :
      calls_on (el_name (c_name c)) (c_args c) w (Answers v) w1 -> performs_on (d :: rest) w1 o w' ->
      performs_on (c :: d :: rest) w o w'
  | fp_stop c d rest w o w' :
      calls_on (el_name (c_name c)) (c_args c) w o w' -> (forall v, o <> Answers v) -> performs_on (c :: d :: rest) w o w'.

  (** ** Scripts *)
  Inductive means_on (w : world) (script : str) : outcome -> world -> Prop :=
  | fm_runs tokens kept cs o w' :
      lexes script tokens -> keeps tokens kept -> g_script kept cs -> performs_on cs w o w' -> means_on w script o w'
  | fm_stray tokens kept next :
      lexes script tokens -> keeps tokens kept -> stray_in kept next -> means_on w script (Fails (WParse next)) w
  | fm_outside tokens kept :
      lexes script tokens -> keeps tokens kept -> (forall cs, ~ g_script kept cs) -> (forall next, ~ stray_in kept next) ->
      means_on w script Crashes w
  | fm_not_text : lex_fails script -> means_on w script (Fails (WErr (lit "Error tokenizing input."))) w.

  (** One script after the other on the same store. *)
  Inductive all_mean_on : world -> list str -> list outcome -> world -> Prop :=
  | fa_none w : all_mean_on w [] [] w
  | fa_more w x rest o os w1 w2 : means_on w x o w1 -> all_mean_on w1 rest os w2 -> all_mean_on w (x :: rest) (o :: os) w2.
End Reference.
