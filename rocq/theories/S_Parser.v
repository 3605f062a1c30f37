(** * Specification vocabulary: the grammar of Wander over tokens *)
From Coq Require Import List NArith Bool String.
From Verif Require Import M_Base M_Data M_Regex M_Lexer M_Parser S_Order S_Graph.
Import ListNotations.
Open Scope list_scope.

(** Three elements in a row are an entry: the middle one is the role, the bare
    roles ":" and "¬:" are reserved. *)
Inductive written : element -> element -> element -> entry -> Prop :=
| w_extends a c : written a (Elem colon None None) c (Extends a c)
| w_not_extends a c : written a (Elem not_colon None None) c (NotExtends a c)
| w_role a r c : r <> Elem colon None None -> r <> Elem not_colon None None -> written a r c (Role a c r).

(** The set with the given members. *)
Definition set_of (es n : list entry) : Prop := is_set entry_lt n /\ same_members es n.

(** A network after its opening brace, up to and including the closing one:
    entries separated by commas, a trailing comma allowed. *)
Inductive g_network : list token -> list entry -> Prop :=
| gn_end : g_network [TCloseBrace] []
| gn_last a r c e : written a r c e -> g_network [TElement a; TElement r; TElement c; TCloseBrace] [e]
| gn_more a r c e ts es :
    written a r c e -> g_network ts es ->
    g_network (TElement a :: TElement r :: TElement c :: TComma :: ts) (e :: es).

(** A quote after its opening parenthesis: elements and networks, no quotes. *)
Inductive g_quote : list token -> list value -> Prop :=
| gq_end : g_quote [TCloseParen] []
| gq_element e ts vs : g_quote ts vs -> g_quote (TElement e :: ts) (VElement e :: vs)
| gq_network n es s ts vs :
    g_network n es -> set_of es s -> g_quote ts vs -> g_quote (TOpenBrace :: n ++ ts) (VNetwork s :: vs).

(** The values of a call, its name included. *)
Inductive g_values : list token -> list value -> Prop :=
| gv_nil : g_values [] []
| gv_element e ts vs : g_values ts vs -> g_values (TElement e :: ts) (VElement e :: vs)
| gv_string b ts vs : g_values ts vs -> g_values (TString b :: ts) (VElement (Elem b None None) :: vs)
| gv_network n es s ts vs :
    g_network n es -> set_of es s -> g_values ts vs -> g_values (TOpenBrace :: n ++ ts) (VNetwork s :: vs)
| gv_quote q qs ts vs :
    g_quote q qs -> g_values ts vs -> g_values (TOpenParen :: q ++ ts) (VQuote qs :: vs).

(** A call begins with an element. *)
Definition g_call (ts : list token) (c : call) : Prop := g_values ts (VElement (c_name c) :: c_args c).

(** Calls each followed by a comma. *)
Inductive g_commas : list token -> list call -> Prop :=
| gp_nil : g_commas [] []
| gp_cons ts c ts' cs : g_call ts c -> g_commas ts' cs -> g_commas (ts ++ TComma :: ts') (c :: cs).

(** A script: calls separated by commas, a trailing comma allowed. *)
Inductive g_script : list token -> list call -> Prop :=
| gs_trailing ts cs : g_commas ts cs -> g_script ts cs
| gs_last ts cs ts' c : g_commas ts cs -> g_call ts' c -> g_script (ts ++ ts') (cs ++ [c]).

(** Tokens that cannot stand where a value of a call is expected. *)
Definition stray (t : token) : Prop :=
  match t with
  | TWS _ | TCloseParen | TCloseBrace | TOpenSquare | TCloseSquare | TPipe | TComment _ => True
  | _ => False
  end.

(** After complete calls and the beginning of a call comes a stray token; [next]
    is the token after it. *)
Definition stray_in (ts : list token) (next : option token) : Prop :=
  exists p cs pre vs t rest, ts = p ++ pre ++ t :: rest /\ g_commas p cs /\ g_values pre vs /\ stray t
    /\ next = hd_error rest.
