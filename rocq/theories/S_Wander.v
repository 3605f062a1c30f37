(** * A reference for Wander: from the text of a script to its answer

    Written without the interpreter, the stores or any of their functions: a
    reader who wants to know what a script does needs this file and the
    vocabularies of texts (S_Lexer, S_Parser, S_Display), entries (S_Graph) and
    patterns (S_Filter). *)
From Coq Require Import List NArith Bool String.
From Verif Require Import M_Base M_Data M_Mem M_Heed M_HeedRel M_Duck M_DuckReal M_Regex M_Lexer M_Graph M_Parser M_Display M_Interp
  S_Order S_Str S_Store S_Graph S_Filter S_Lexer S_Parser S_Display S_DuckReal.
Import ListNotations.
Open Scope list_scope.

(** The store under the interpreter.  They differ in three commands: read, let
    and filter. *)
Inductive backend := InMemory | Lmdb | DuckDb.

(** What a script sees of a store: for each name the network stored under it, if
    there is one. *)
Definition world := str -> option (list entry).

Definition same_world (w w' : world) : Prop := forall n, w n = w' n.

(** What becomes of a script: an answer, an error, or the end of the thread. *)
Inductive outcome := Answers (v : value) | Fails (e : werr) | Crashes.

Definition done : value := VNetwork [].

(** ** The text of a value in an error *)
Inductive in_quotes : str -> str -> Prop :=
| iq s b : json_text s b -> in_quotes s (34%N :: b ++ [34%N]).

Inductive entry_text : entry -> str -> Prop :=
| et_role f s r tf ts tr :
    in_quotes (el_name f) tf -> in_quotes (el_name s) ts -> in_quotes (el_name r) tr ->
    entry_text (Role f s r) (tf ++ lit " " ++ tr ++ lit " " ++ ts)
| et_extends a b ta tb :
    in_quotes (el_name a) ta -> in_quotes (el_name b) tb -> entry_text (Extends a b) (ta ++ lit " : " ++ tb)
| et_not_extends a b ta tb :
    in_quotes (el_name a) ta -> in_quotes (el_name b) tb ->
    entry_text (NotExtends a b) (ta ++ lit " " ++ not_colon ++ lit " " ++ tb).

(** Texts one after the other, [sep] between them. *)
Inductive between (sep : str) : list str -> str -> Prop :=
| bt_none : between sep [] []
| bt_one t : between sep [t] t
| bt_more t u ts r : between sep (u :: ts) r -> between sep (t :: u :: ts) (t ++ sep ++ r).

Inductive value_text : value -> str -> Prop :=
| vt_element e t : in_quotes (el_name e) t -> value_text (VElement e) t
| vt_network n ts t : Forall2 entry_text n ts -> between (lit ", ") ts t -> value_text (VNetwork n) (lit "{" ++ t ++ lit "}")
| vt_quote q ts t : Forall2 value_text q ts -> between (lit " ") ts t -> value_text (VQuote q) (lit "(" ++ t ++ lit ")").

(** ** The commands and what docs says about them *)
Definition manual : list (str * str) :=
  [ (lit "assert-equal", lit "Check if two arguments are equal (quotes are evaluated before comparing) and fail if they are not equal.");
    (lit "assert-fail", lit "Accept a quote and run it. If the quote results in a failure continue otherwise fail.");
    (lit "docs", lit "Get a list of commands and a description.");
    (lit "filter", lit "Filter a network.");
    (lit "id", lit "Return a value.");
    (lit "ignore", lit "Ignore all arguments to this command and return an empty network.");
    (lit "let", lit "Set a named network.");
    (lit "read", lit "Read a network.");
    (lit "union", lit "Combine two networks.") ].

Definition page (e : entry) : Prop :=
  exists name text, In (name, text) manual
    /\ e = Role (Elem name None None) (Elem text None None) (Elem (lit "docString") None None).

(** ** Networks *)

(** The set of the entries that satisfy [P]. *)
Definition set_where (P : entry -> Prop) (n : list entry) : Prop :=
  is_set entry_lt n /\ forall e, In e n <-> P e.

(** [w'] is [w] with the network of [c] replaced by the set of [P]. *)
Definition rebound (w : world) (c : str) (P : entry -> Prop) (w' : world) : Prop :=
  (exists l, w' c = Some l /\ set_where P l) /\ forall n, n <> c -> w' n = w n.

(** What storing the network [n] keeps of it: the names. *)
Definition stored_form (n : list entry) (e' : entry) : Prop := exists e, In e n /\ normalises e e'.

(** ** Reading, finding, binding *)
Inductive reads (w : world) (c : str) : backend -> outcome -> Prop :=
| rd_there B l : w c = Some l -> reads w c B (Answers (VNetwork l))
| rd_mem : w c = None -> reads w c InMemory (Fails (WErr (lit "Error Collection `" ++ c ++ lit "` not found.")))
| rd_lmdb : w c = None -> reads w c Lmdb Crashes
| rd_duck : w c = None -> reads w c DuckDb (Answers done).

(** Only the in-memory store can be searched; a variable must not be reached. *)
Inductive finds (w : world) (c : str) (p : entry) : backend -> outcome -> Prop :=
| fi_found l k :
    w c = Some l -> (forall e, In e l -> ~ reaches_variable p e) ->
    set_where (fun e => In e l /\ S_Graph.matches p e) k -> finds w c p InMemory (Answers (VNetwork k))
| fi_variable l e : w c = Some l -> In e l -> reaches_variable p e -> finds w c p InMemory Crashes
| fi_missing : w c = None -> finds w c p InMemory Crashes
| fi_lmdb : finds w c p Lmdb Crashes
| fi_duck : finds w c p DuckDb Crashes.

(** Binding a name: replaces what it had in memory; adds to it on LMDB, where the
    name must be storable; works once on DuckDB. *)
Inductive binds (w : world) (c : str) (n : list entry) : backend -> outcome -> world -> Prop :=
| bi_mem w' : rebound w c (stored_form n) w' -> binds w c n InMemory (Answers done) w'
| bi_lmdb w' :
    storable c -> rebound w c (fun e => (exists l, w c = Some l /\ In e l) \/ stored_form n e) w' ->
    binds w c n Lmdb (Answers done) w'
| bi_lmdb_name : ~ storable c -> binds w c n Lmdb Crashes w
| bi_duck w' : w c = None -> rebound w c (stored_form n) w' -> binds w c n DuckDb (Answers done) w'
| bi_duck_again l : w c = Some l -> binds w c n DuckDb Crashes w.

(** ** Values, calls, programs *)
Section Reference.
  Variable B : backend.

  (** [gives v]: evaluating a value.  [calls name args]: one call. *)
  Inductive gives : value -> world -> outcome -> world -> Prop :=
  | gi_element e w : gives (VElement e) w (Answers (VElement e)) w
  | gi_network n w : gives (VNetwork n) w (Answers (VNetwork n)) w
  | gi_empty w : gives (VQuote []) w (Answers done) w
  | gi_call n args w o w' : calls (el_name n) args w o w' -> gives (VQuote (VElement n :: args)) w o w'
  | gi_other v args w : (forall n, v <> VElement n) -> gives (VQuote (v :: args)) w Crashes w
  with calls : str -> list value -> world -> outcome -> world -> Prop :=
  | ca_unknown name args w :
      ~ In name (map fst manual) -> calls name args w (Fails (WErr (lit "Could not find command: " ++ name))) w
  (* id *)
  | ca_id v w : calls (lit "id") [v] w (Answers v) w
  | ca_id_args args w :
      List.length args <> 1 -> calls (lit "id") args w (Fails (WErr (lit "Id requires a single argument."))) w
  (* ignore *)
  | ca_ignore args w : calls (lit "ignore") args w (Answers done) w
  (* docs *)
  | ca_docs n w : set_where page n -> calls (lit "docs") [] w (Answers (VNetwork n)) w
  | ca_docs_args args w : args <> [] -> calls (lit "docs") args w (Fails (WErr (lit "docs takes no arguments."))) w
  (* union *)
  | ca_union l r n w :
      set_where (fun e => In e l \/ In e r) n -> calls (lit "union") [VNetwork l; VNetwork r] w (Answers (VNetwork n)) w
  | ca_union_other a b w :
      (forall l r, [a; b] <> [VNetwork l; VNetwork r]) -> calls (lit "union") [a; b] w Crashes w
  | ca_union_args args w :
      List.length args <> 2 -> calls (lit "union") args w (Fails (WErr (lit "union takes two arguments."))) w
  (* read *)
  | ca_read c w o : reads w (el_name c) B o -> calls (lit "read") [VElement c] w o w
  | ca_read_args args w : (forall c, args <> [VElement c]) -> calls (lit "read") args w Crashes w
  (* filter: the collection, then subject, role and object *)
  | ca_filter c s r x w o :
      finds w (el_name c) (Role s x r) B o ->
      calls (lit "filter") [VElement c; VElement s; VElement r; VElement x] w o w
  | ca_filter_args args w :
      (forall c s r x, args <> [VElement c; VElement s; VElement r; VElement x]) -> calls (lit "filter") args w Crashes w
  (* assert-equal: left, then right *)
  | ca_equal_args args w :
      List.length args <> 2 ->
      calls (lit "assert-equal") args w (Fails (WErr (lit "`assertEq` function requires two parameters."))) w
  | ca_equal_left l r w o w1 :
      gives l w o w1 -> (forall v, o <> Answers v) -> calls (lit "assert-equal") [l; r] w o w1
  | ca_equal_right l r w v w1 o w2 :
      gives l w (Answers v) w1 -> gives r w1 o w2 -> (forall v, o <> Answers v) ->
      calls (lit "assert-equal") [l; r] w o w2
  | ca_equal l r w v w1 w2 :
      gives l w (Answers v) w1 -> gives r w1 (Answers v) w2 -> calls (lit "assert-equal") [l; r] w (Answers done) w2
  | ca_unequal l r w a w1 b w2 ta tb :
      gives l w (Answers a) w1 -> gives r w1 (Answers b) w2 -> a <> b -> value_text a ta -> value_text b tb ->
      calls (lit "assert-equal") [l; r] w (Fails (WErr (lit "Assertion failed, " ++ ta ++ lit " != " ++ tb))) w2
  (* assert-fail: an error is not undone, and a crash is a crash *)
  | ca_fail_args args w :
      (forall q, args <> [VQuote q]) ->
      calls (lit "assert-fail") args w (Fails (WErr (lit "`assert-fail` function expected to be passed a Quote."))) w
  | ca_fail_not q w v w1 :
      gives (VQuote q) w (Answers v) w1 -> calls (lit "assert-fail") [VQuote q] w (Fails (WErr (lit "Expected failure."))) w1
  | ca_fail q w e w1 :
      gives (VQuote q) w (Fails e) w1 -> calls (lit "assert-fail") [VQuote q] w (Answers done) w1
  | ca_fail_crash q w w1 : gives (VQuote q) w Crashes w1 -> calls (lit "assert-fail") [VQuote q] w Crashes w1
  (* let: a network, or a quote that answers one *)
  | ca_let c n w o w' : binds w (el_name c) n B o w' -> calls (lit "let") [VElement c; VNetwork n] w o w'
  | ca_let_quote c q w n w1 o w' :
      gives (VQuote q) w (Answers (VNetwork n)) w1 -> binds w1 (el_name c) n B o w' ->
      calls (lit "let") [VElement c; VQuote q] w o w'
  | ca_let_other c q w o w1 :
      gives (VQuote q) w o w1 -> (forall n, o <> Answers (VNetwork n)) -> calls (lit "let") [VElement c; VQuote q] w Crashes w1
  | ca_let_args args w :
      (forall c n, args <> [VElement c; VNetwork n]) -> (forall c q, args <> [VElement c; VQuote q]) ->
      calls (lit "let") args w (Fails (WErr (lit "Invalid call to let."))) w.

  (** One call after the other; the first that does not answer is the last. *)
  Inductive performs : list call -> world -> outcome -> world -> Prop :=
  | pe_nothing w : performs [] w (Answers done) w
  | pe_last c w o w' : calls (el_name (c_name c)) (c_args c) w o w' -> performs [c] w o w'
  | pe_more c d rest w v w1 o w' :
      calls (el_name (c_name c)) (c_args c) w (Answers v) w1 -> performs (d :: rest) w1 o w' ->
      performs (c :: d :: rest) w o w'
  | pe_stop c d rest w o w' :
      calls (el_name (c_name c)) (c_args c) w o w' -> (forall v, o <> Answers v) -> performs (c :: d :: rest) w o w'.

  (** ** Scripts *)
  Inductive means (w : world) (script : str) : outcome -> world -> Prop :=
  | me_runs tokens kept cs o w' :
      lexes script tokens -> keeps tokens kept -> g_script kept cs -> performs cs w o w' -> means w script o w'
  | me_stray tokens kept next :
      lexes script tokens -> keeps tokens kept -> stray_in kept next -> means w script (Fails (WParse next)) w
  | me_outside tokens kept :
      lexes script tokens -> keeps tokens kept -> (forall cs, ~ g_script kept cs) -> (forall next, ~ stray_in kept next) ->
      means w script Crashes w
  | me_not_text : lex_fails script -> means w script (Fails (WErr (lit "Error tokenizing input."))) w.

  (** One script after the other on the same store. *)
  Inductive all_mean : world -> list str -> list outcome -> world -> Prop :=
  | am_none w : all_mean w [] [] w
  | am_more w x rest o os w1 w2 : means w x o w1 -> all_mean w1 rest os w2 -> all_mean w (x :: rest) (o :: os) w2.
End Reference.

(** ** The code's side *)

(** What the code answers, as an outcome: why it panicked is not asked. *)
Definition outcome_of (r : wres value) : outcome :=
  match r with Ok v => Answers v | Err e => Fails e | Panic _ => Crashes end.

(** The world that the reading calls of a graph show: the listed names, and the
    entries read under them. *)
Definition shows {S : Type} (I : trips_impl S) (s : S) (w : world) : Prop :=
  (forall n, w n <> None <-> has I s n)
  /\ (forall c l, w (el_name c) = Some l -> l_entries (graph_impl I) s c = Ok l).

(** The store with a log of the writing calls made on it. *)
Definition logged {S : Type} (I : trips_impl S) : trips_impl (S * list op) :=
  let write (s : S * list op) (o : op) : tres unit * (S * list op) :=
    let (r, x) := call_op I (fst s) o in (r, (x, snd s ++ [o])) in
  TripsImpl
    (fun s => t_collections I (fst s))
    (fun s c => write s (OAddColl c))
    (fun s c => write s (ORemColl c))
    (fun s c => t_triples I (fst s) c)
    (fun s c ts => (write s (OAdd c ts), ts))
    (fun s c ts => (write s (ORem c ts), ts))
    (fun s c p => t_filter I (fst s) c p).

(** Which reference is for which store, and how much it has room for: LMDB hands
    out 2^64 ids, DuckDB 2^63 sequence numbers.  LMDB also in a release build
    (C122), and DuckDB also when it keeps its rows in any order and loses numbers
    (C121), as long as no statement fails. *)
Inductive implements : backend -> forall S : Type, trips_impl S -> S -> (list op -> Prop) -> Prop :=
| im_mem : implements InMemory mem mem_impl mem_new (fun _ => True)
| im_lmdb : implements Lmdb heed heed_impl heed_new (fun h => total_weight h < 2 ^ 64)%N
| im_duck : implements DuckDb duck duck_impl duck_new (fun h => dtotal h < 2 ^ 63)%N
| im_release : implements Lmdb heed release_impl heed_new (fun h => total_weight h < 2 ^ 64)%N
| im_duck_real (w : weather) (lost : nat -> N) : harmless w -> healthy w -> loses w lost ->
    implements DuckDb rduck (real_impl w) (duck_new, 0)
      (fun h => (dtotal h + lost_by lost (snd (after (real_impl w) (duck_new, 0%nat) h)) < 2 ^ 63)%N).
Arguments implements B {S} I s0 room.

(** The empty world. *)
Definition empty_world : world := fun _ => None.
