(** * Specification vocabulary: scripts that can be seen not to crash *)
From Coq Require Import List NArith Bool String.
From Verif Require Import M_Base M_Data M_Regex M_Lexer M_Graph M_Parser M_Display M_Interp S_Store S_Graph S_Lexer S_Parser.
Import ListNotations.
Open Scope list_scope.

(** A check on the text of a program, for the in-memory store; [known] are names
    of collections that exist. *)
Section Calm.
  Variable known : list str.

  (** The four words of a filter: an existing collection, no variables. *)
  Inductive searches : list value -> Prop :=
  | sea c a b d : In (el_name c) known -> ~ variable_name (el_name a) -> ~ variable_name (el_name b) -> ~ variable_name (el_name d) ->
      searches [VElement c; VElement a; VElement b; VElement d].

  (** Quotes that answer a network for sure. *)
  Inductive sure : list value -> Prop :=
  | su_empty : sure []
  | su_ignore n args : el_name n = lit "ignore" -> sure (VElement n :: args)
  | su_docs n : el_name n = lit "docs" -> sure [VElement n]
  | su_id n es : el_name n = lit "id" -> sure [VElement n; VNetwork es]
  | su_union n es fs : el_name n = lit "union" -> sure [VElement n; VNetwork es; VNetwork fs]
  | su_read n c : el_name n = lit "read" -> In (el_name c) known -> sure [VElement n; VElement c]
  | su_filter n args : el_name n = lit "filter" -> searches args -> sure (VElement n :: args)
  | su_let n c es : el_name n = lit "let" -> sure [VElement n; VElement c; VNetwork es].

  (** Calls that do not crash: they may fail with an error. *)
  Inductive calm : element -> list value -> Prop :=
  | ca_unknown n args : (forall c, ~ In (el_name n, c) (@common unit)) -> calm n args
  | ca_plain n args : In (el_name n) [lit "id"; lit "docs"; lit "ignore"] -> calm n args
  | ca_union n es fs : el_name n = lit "union" -> calm n [VNetwork es; VNetwork fs]
  | ca_union_args n args : el_name n = lit "union" -> List.length args <> 2 -> calm n args
  | ca_read n c : el_name n = lit "read" -> calm n [VElement c]
  | ca_filter n args : el_name n = lit "filter" -> searches args -> calm n args
  | ca_equal n l r : el_name n = lit "assert-equal" -> calm_value l -> calm_value r -> calm n [l; r]
  | ca_equal_args n args : el_name n = lit "assert-equal" -> List.length args <> 2 -> calm n args
  | ca_fail n q : el_name n = lit "assert-fail" -> calm_value (VQuote q) -> calm n [VQuote q]
  | ca_fail_args n args : el_name n = lit "assert-fail" -> (forall q, args <> [VQuote q]) -> calm n args
  | ca_let n c es : el_name n = lit "let" -> calm n [VElement c; VNetwork es]
  | ca_let_quote n c q : el_name n = lit "let" -> sure q -> calm n [VElement c; VQuote q]
  | ca_let_args n args : el_name n = lit "let" ->
      (forall c es, args <> [VElement c; VNetwork es]) -> (forall c q, args <> [VElement c; VQuote q]) -> calm n args
  with calm_value : value -> Prop :=
  | cv_element e : calm_value (VElement e)
  | cv_network es : calm_value (VNetwork es)
  | cv_empty : calm_value (VQuote [])
  | cv_quote n args : calm n args -> calm_value (VQuote (VElement n :: args)).
End Calm.

(** Programs of such calls; what a call lets is known to the calls after it. *)
Inductive calm_calls : list str -> list call -> Prop :=
| cc_nil known : calm_calls known []
| cc_let known n c v rest :
    el_name n = lit "let" -> calm known n [VElement c; v] -> calm_calls (el_name c :: known) rest ->
    calm_calls known (Call n [VElement c; v] :: rest)
| cc_call known c rest : calm known (c_name c) (c_args c) -> calm_calls known rest -> calm_calls known (c :: rest).

(** Scripts of such calls, and scripts that are rejected with an error. *)
Inductive calm_script (known : list str) (script : str) : Prop :=
| cs_calls tokens kept calls :
    lexes script tokens -> keeps tokens kept -> g_script kept calls -> calm_calls known calls -> calm_script known script
| cs_stray tokens kept next :
    lexes script tokens -> keeps tokens kept -> stray_in kept next -> calm_script known script
| cs_unlexable : lex_fails script -> calm_script known script.

(** Calls without quotes that crash on the store [s]. *)
Inductive clumsy {S : Type} (I : trips_impl S) (s : S) : element -> list value -> Prop :=
| cl_read n args : el_name n = lit "read" -> (forall c, args <> [VElement c]) -> clumsy I s n args
| cl_union n a b : el_name n = lit "union" -> (forall es fs, [a; b] <> [VNetwork es; VNetwork fs]) -> clumsy I s n [a; b]
| cl_filter n args : el_name n = lit "filter" ->
    (forall c a b d, args <> [VElement c; VElement a; VElement b; VElement d]) -> clumsy I s n args
| cl_missing n c a b d : el_name n = lit "filter" -> ~ has I s (el_name c) ->
    clumsy I s n [VElement c; VElement a; VElement b; VElement d].
