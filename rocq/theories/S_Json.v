(** * Specification vocabulary: JSON texts (RFC 8259) and well-formed values *)
From Coq Require Import List NArith String Permutation.
From Verif Require Import M_Base M_Data M_Regex M_Lexer M_Parser M_Hosts M_Serde S_Order S_Lexer S_Display.
Import ListNotations.
Open Scope list_scope.

(** Blanks between tokens. *)
Definition blank (w : str) : Prop := Forall (fun c => In c [32; 9; 10; 13]%N) w.

(** A number: here any run of digits, signs, points and exponents that starts
    with a digit or a minus (more than RFC 8259 allows). *)
Definition number (t : str) : Prop :=
  exists c x, t = c :: x /\ (c = 45 \/ 48 <= c <= 57)%N
    /\ Forall (fun d => 48 <= d <= 57 \/ In d [43; 45; 46; 69; 101])%N x.

(** [denotes t j]: the text [t] is the JSON value [j]. *)
Inductive denotes : str -> json -> Prop :=
| dn_null : denotes (lit "null") JNull
| dn_true : denotes (lit "true") (JBool true)
| dn_false : denotes (lit "false") (JBool false)
| dn_num t : number t -> denotes t (JNum t)
| dn_str b s : json_means b s -> denotes (34%N :: b ++ [34%N]) (JStr s)
| dn_arr0 w : blank w -> denotes (91%N :: w ++ [93%N]) (JArr [])
| dn_arr t l : items t l -> denotes (91%N :: t ++ [93%N]) (JArr l)
| dn_obj0 w : blank w -> denotes (123%N :: w ++ [125%N]) (JObj [])
| dn_obj t m : members t m -> denotes (123%N :: t ++ [125%N]) (JObj m)
with items : str -> list json -> Prop :=
| it_last w t w' j : blank w -> denotes t j -> blank w' -> items (w ++ t ++ w') [j]
| it_more w t w' j u l : blank w -> denotes t j -> blank w' -> items u l -> items (w ++ t ++ w' ++ 44%N :: u) (j :: l)
with members : str -> list (str * json) -> Prop :=
| mb_last w b k w1 w2 t w3 j :
    blank w -> json_means b k -> blank w1 -> blank w2 -> denotes t j -> blank w3 ->
    members (w ++ 34%N :: b ++ 34%N :: w1 ++ 58%N :: w2 ++ t ++ w3) [(k, j)]
| mb_more w b k w1 w2 t w3 j u m :
    blank w -> json_means b k -> blank w1 -> blank w2 -> denotes t j -> blank w3 -> members u m ->
    members (w ++ 34%N :: b ++ 34%N :: w1 ++ 58%N :: w2 ++ t ++ w3 ++ 44%N :: u) ((k, j) :: m).

(** A whole document. *)
Definition document (t : str) (j : json) : Prop :=
  exists w u w', t = w ++ u ++ w' /\ blank w /\ denotes u j /\ blank w'.

(** Values whose networks are sorted sets: all a program can hold. *)
Inductive proper : value -> Prop :=
| pr_element e : proper (VElement e)
| pr_quote q : Forall proper q -> proper (VQuote q)
| pr_network n : is_set entry_lt n -> proper (VNetwork n).
Definition proper_call (c : call) : Prop := Forall proper (c_args c).

(** The shape of serialized data: an element is an array of its text, namespace
    and language; an entry or value is an object with one key, its kind; other
    objects may list their fields in any order, and further fields, or be arrays
    of the fields' contents in order. *)
Definition opt_shape (o : option str) (j : json) : Prop :=
  (o = None /\ j = JNull) \/ (exists s, o = Some s /\ j = JStr s).
Definition element_shape (e : element) (j : json) : Prop :=
  exists a b, j = JArr [JStr (el_name e); a; b] /\ opt_shape (el_ns e) a /\ opt_shape (el_lang e) b.
Definition object_shape (fs : list (str * json)) (j : json) : Prop :=
  exists extra m, (forall k, In k (map fst fs) -> ~ In k (map fst extra)) /\ Permutation (fs ++ extra) m /\ j = JObj m.
Definition struct_shape (fs : list (str * json)) (j : json) : Prop := object_shape fs j \/ j = JArr (map snd fs).
Inductive entry_shape : entry -> json -> Prop :=
| es_role f s r jf js jr j : element_shape f jf -> element_shape s js -> element_shape r jr ->
    struct_shape [(lit "first", jf); (lit "second", js); (lit "role", jr)] j ->
    entry_shape (Role f s r) (JObj [(lit "Role", j)])
| es_extends e c je jc j : element_shape e je -> element_shape c jc ->
    struct_shape [(lit "element", je); (lit "concept", jc)] j ->
    entry_shape (Extends e c) (JObj [(lit "Extends", j)])
| es_not_extends e c je jc j : element_shape e je -> element_shape c jc ->
    struct_shape [(lit "element", je); (lit "concept", jc)] j ->
    entry_shape (NotExtends e c) (JObj [(lit "NotExtends", j)]).
(** A network may be listed in any order and with repetitions. *)
Inductive value_shape : value -> json -> Prop :=
| vs_element e j : element_shape e j -> value_shape (VElement e) (JObj [(lit "Element", j)])
| vs_quote q l : Forall2 value_shape q l -> value_shape (VQuote q) (JObj [(lit "Quote", JArr l)])
| vs_network n es l : is_set entry_lt n -> same_members n es -> Forall2 entry_shape es l ->
    value_shape (VNetwork n) (JObj [(lit "Network", JArr l)]).
Inductive call_shape : call -> json -> Prop :=
| cs_call n a jn l j : element_shape n jn -> Forall2 value_shape a l ->
    struct_shape [(lit "name", jn); (lit "arguments", JArr l)] j -> call_shape (Call n a) j.

(** ** JavaScript values of graphs *)
Definition node_js (k : str) (v : js) : Prop := v = JsObject [(lit "key", JsString k)].
Definition edge_js (d : edge) (v : js) : Prop :=
  v = JsObject [(lit "key", JsString (e_key d)); (lit "source", JsString (e_source d)); (lit "target", JsString (e_target d))].
Definition graph_js (g : graphology) (v : js) : Prop :=
  exists ns es, v = JsObject [(lit "nodes", JsArray ns); (lit "edges", JsArray es)]
    /\ Forall2 node_js (g_nodes g) ns /\ Forall2 edge_js (g_edges g) es.
