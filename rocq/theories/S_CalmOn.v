(** * Specification vocabulary: scripts that can be seen not to crash, for each store *)
From Coq Require Import List NArith Bool String.
From Verif Require Import M_Base M_Data M_Regex M_Lexer M_Graph M_Parser M_Display M_Interp
  S_Order S_Str S_Store S_Graph S_Filter S_Lexer S_Parser S_Display S_Wander.
Import ListNotations.
Open Scope list_scope.

(** A check on the text of a program for the store [B]; [known] are names of
    collections that exist.  It also lists, in order, the names the program lets. *)
Section CalmOn.
  Variables (B : backend) (known : list str).

  (** The four words of a filter: in memory, an existing collection, no variables. *)
  Inductive searches_on : list value -> Prop :=
  | so c a b d : B = InMemory -> In (el_name c) known ->
      ~ variable_name (el_name a) -> ~ variable_name (el_name b) -> ~ variable_name (el_name d) ->
      searches_on [VElement c; VElement a; VElement b; VElement d].

  (** LMDB must be able to store the name of what is let. *)
  Definition may_let (c : str) : Prop := match B with Lmdb => storable c | _ => True end.

  (** Quotes that answer a network for sure, and what they let. *)
  Inductive sure_on : list value -> list str -> Prop :=
  | so_empty : sure_on [] []
  | so_ignore n args : el_name n = lit "ignore" -> sure_on (VElement n :: args) []
  | so_docs n : el_name n = lit "docs" -> sure_on [VElement n] []
  | so_id n es : el_name n = lit "id" -> sure_on [VElement n; VNetwork es] []
  | so_union n es fs : el_name n = lit "union" -> sure_on [VElement n; VNetwork es; VNetwork fs] []
  | so_read n c : el_name n = lit "read" -> In (el_name c) known \/ B = DuckDb -> sure_on [VElement n; VElement c] []
  | so_filter n args : el_name n = lit "filter" -> searches_on args -> sure_on (VElement n :: args) []
  | so_let n c es : el_name n = lit "let" -> may_let (el_name c) -> sure_on [VElement n; VElement c; VNetwork es] [el_name c]
  | so_let_quote n c q ls : el_name n = lit "let" -> may_let (el_name c) -> sure_on q ls ->
      sure_on [VElement n; VElement c; VQuote q] (ls ++ [el_name c]).

  (** Calls that do not crash (they may fail with an error), and what they let. *)
  Inductive calm_on : element -> list value -> list str -> Prop :=
  | co_unknown n args : ~ In (el_name n) (map fst manual) -> calm_on n args []
  | co_plain n args : In (el_name n) [lit "id"; lit "docs"; lit "ignore"] -> calm_on n args []
  | co_union n es fs : el_name n = lit "union" -> calm_on n [VNetwork es; VNetwork fs] []
  | co_union_args n args : el_name n = lit "union" -> List.length args <> 2 -> calm_on n args []
  | co_read n c : el_name n = lit "read" -> In (el_name c) known \/ B <> Lmdb -> calm_on n [VElement c] []
  | co_filter n args : el_name n = lit "filter" -> searches_on args -> calm_on n args []
  | co_equal n l r ls rs : el_name n = lit "assert-equal" -> calm_value_on l ls -> calm_value_on r rs -> calm_on n [l; r] (ls ++ rs)
  | co_equal_args n args : el_name n = lit "assert-equal" -> List.length args <> 2 -> calm_on n args []
  | co_fail n q ls : el_name n = lit "assert-fail" -> calm_value_on (VQuote q) ls -> calm_on n [VQuote q] ls
  | co_fail_args n args : el_name n = lit "assert-fail" -> (forall q, args <> [VQuote q]) -> calm_on n args []
  | co_let n c es : el_name n = lit "let" -> may_let (el_name c) -> calm_on n [VElement c; VNetwork es] [el_name c]
  | co_let_quote n c q ls : el_name n = lit "let" -> may_let (el_name c) -> sure_on q ls -> calm_on n [VElement c; VQuote q] (ls ++ [el_name c])
  | co_let_args n args : el_name n = lit "let" ->
      (forall c es, args <> [VElement c; VNetwork es]) -> (forall c q, args <> [VElement c; VQuote q]) -> calm_on n args []
  with calm_value_on : value -> list str -> Prop :=
  | vo_element e : calm_value_on (VElement e) []
  | vo_network es : calm_value_on (VNetwork es) []
  | vo_empty : calm_value_on (VQuote []) []
  | vo_quote n args ls : calm_on n args ls -> calm_value_on (VQuote (VElement n :: args)) ls.
End CalmOn.

(** Programs of such calls; what a call lets is known to the calls after it. *)
Inductive calm_calls_on (B : backend) : list str -> list call -> list str -> Prop :=
| cco_nil known : calm_calls_on B known [] []
| cco_let known n c v ls rest ms :
    el_name n = lit "let" -> calm_on B known n [VElement c; v] ls -> calm_calls_on B (el_name c :: known) rest ms ->
    calm_calls_on B known (Call n [VElement c; v] :: rest) (ls ++ ms)
| cco_call known c ls rest ms :
    calm_on B known (c_name c) (c_args c) ls -> calm_calls_on B known rest ms -> calm_calls_on B known (c :: rest) (ls ++ ms).

(** Scripts of such calls, and scripts that are rejected with an error. *)
Inductive calm_script_on (B : backend) (known : list str) (script : str) : list str -> Prop :=
| cso_calls tokens kept cs ls :
    lexes script tokens -> keeps tokens kept -> g_script kept cs -> calm_calls_on B known cs ls -> calm_script_on B known script ls
| cso_stray tokens kept next :
    lexes script tokens -> keeps tokens kept -> stray_in kept next -> calm_script_on B known script []
| cso_unlexable : lex_fails script -> calm_script_on B known script [].

(** DuckDB moreover wants every name let once, and new. *)
Definition new_names (B : backend) {S : Type} (I : trips_impl S) (s : S) (ls : list str) : Prop :=
  B = DuckDb -> NoDup ls /\ forall c, In c ls -> ~ has I s c.

(** Calls without quotes that crash on a store that shows the world [w]. *)
Inductive clumsy_on (w : world) : backend -> element -> list value -> Prop :=
| clo_read B n args : el_name n = lit "read" -> (forall c, args <> [VElement c]) -> clumsy_on w B n args
| clo_read_missing n c : el_name n = lit "read" -> w (el_name c) = None -> clumsy_on w Lmdb n [VElement c]
| clo_union B n a b : el_name n = lit "union" -> (forall es fs, [a; b] <> [VNetwork es; VNetwork fs]) -> clumsy_on w B n [a; b]
| clo_filter B n args : el_name n = lit "filter" ->
    (forall c a b d, args <> [VElement c; VElement a; VElement b; VElement d]) -> clumsy_on w B n args
| clo_filter_missing n c a b d : el_name n = lit "filter" -> w (el_name c) = None ->
    clumsy_on w InMemory n [VElement c; VElement a; VElement b; VElement d]
| clo_filter_variable n c a b d l e : el_name n = lit "filter" -> w (el_name c) = Some l -> In e l -> reaches_variable (Role a d b) e ->
    clumsy_on w InMemory n [VElement c; VElement a; VElement b; VElement d]
| clo_filter_lmdb n args : el_name n = lit "filter" -> clumsy_on w Lmdb n args
| clo_filter_duck n args : el_name n = lit "filter" -> clumsy_on w DuckDb n args
| clo_let_name n c es : el_name n = lit "let" -> ~ storable (el_name c) -> clumsy_on w Lmdb n [VElement c; VNetwork es]
| clo_let_again n c es l : el_name n = lit "let" -> w (el_name c) = Some l -> clumsy_on w DuckDb n [VElement c; VNetwork es].
