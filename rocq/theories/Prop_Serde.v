(** * Serialized data: what is written, what is read back *)
From Coq Require Import List NArith Bool String Permutation.
From Verif Require Import M_Base M_Data M_Mem M_Graph M_Regex M_Lexer M_Parser M_Display M_Interp M_Hosts M_Serde
  S_Order S_Graph S_Store S_Lexer S_Display S_Hosts S_Json P_Ord P_Display P_Serde Prop_Hosts.
Import ListNotations.
Open Scope list_scope.

(** C87.  What is written has the documented shape; what has that shape - also
    with its fields in another order, further fields, a network listed in any
    order - is read as the value, so writing and reading gives the value back. *)
Theorem C87_elements : forall e,
  element_shape e (ser_element e) /\ (forall j, element_shape e j -> de_element j = Some e).
Proof. intros e. split; [apply ser_element_shape|apply de_element_shape]. Qed.
Print Assumptions C87_elements.

Theorem C87_entries : forall e,
  entry_shape e (ser_entry e) /\ (forall j, entry_shape e j -> de_entry j = Some e).
Proof. intros e. split; [apply ser_entry_shape|apply de_entry_shape]. Qed.
Print Assumptions C87_entries.

Theorem C87_values : forall v, proper v ->
  value_shape v (ser_value v) /\ (forall j, value_shape v j -> de_value j = Some v).
Proof. intros v P. split; [apply ser_value_shape, P|apply de_value_shape]. Qed.
Print Assumptions C87_values.

Theorem C87_calls : forall c, proper_call c ->
  call_shape c (ser_call c) /\ (forall j, call_shape c j -> de_call j = Some c).
Proof. intros c P. split; [apply ser_call_shape, P|apply de_call_shape]. Qed.
Print Assumptions C87_calls.

Theorem C87_round_trip :
  (forall e, de_element (ser_element e) = Some e) /\ (forall e, de_entry (ser_entry e) = Some e)
  /\ (forall v, proper v -> de_value (ser_value v) = Some v) /\ (forall c, proper_call c -> de_call (ser_call c) = Some c).
Proof.
  split; [|split; [|split]].
  - intros e. apply de_element_shape, ser_element_shape.
  - intros e. apply de_entry_shape, ser_entry_shape.
  - intros v P. apply de_value_shape, ser_value_shape, P.
  - intros c P. apply de_call_shape, ser_call_shape, P.
Qed.
Print Assumptions C87_round_trip.

(** C87.  Nothing else is read, and what is read has exactly one value. *)
Theorem C87_exactly :
  (forall j e, de_element j = Some e <-> element_shape e j) /\ (forall j e, de_entry j = Some e <-> entry_shape e j)
  /\ (forall j v, de_value j = Some v <-> value_shape v j) /\ (forall j c, de_call j = Some c <-> call_shape c j).
Proof.
  split; [|split; [|split]]; intros j v; split.
  - apply de_element_only. - apply de_element_shape.
  - apply de_entry_only. - apply de_entry_shape.
  - apply de_value_only. - apply de_value_shape.
  - apply de_call_only. - apply de_call_shape.
Qed.
Print Assumptions C87_exactly.

(** Whatever JSON is read, the result is a value a program could have built: its
    networks are sorted and without repetitions. *)
Theorem C87_reads_proper : (forall j v, de_value j = Some v -> proper v) /\ (forall j c, de_call j = Some c -> proper_call c).
Proof. split; [exact de_proper|exact de_call_proper]. Qed.
Print Assumptions C87_reads_proper.

(** A reordered, extended, repeating document; and documents that are refused. *)
Example C87_case :
  let e := Elem (lit "a") (Some (lit "ns")) None in
  let je := JArr [JStr (lit "a"); JStr (lit "ns"); JNull] in
  let entry := JObj [(lit "Extends", JObj [(lit "concept", je); (lit "note", JNull); (lit "element", je)])] in
  proper (VQuote [VNetwork [Extends e e]; VElement e])
  /\ de_value (JObj [(lit "Quote", JArr [JObj [(lit "Network", JArr [entry; entry])]; JObj [(lit "Element", je)]])])
     = Some (VQuote [VNetwork [Extends e e]; VElement e])
  /\ de_entry (JObj [(lit "Extends", JArr [je; JArr [JStr (lit "b"); JNull; JNull]])]) = Some (Extends e (Elem (lit "b") None None))
  /\ de_element (JArr [JStr (lit "a"); JNull]) = None
  /\ de_entry (JObj [(lit "Extends", JObj [(lit "concept", je)])]) = None
  /\ de_entry (JObj [(lit "Extends", JObj [(lit "concept", je); (lit "element", je); (lit "element", je)])]) = None.
Proof.
  cbn zeta. split.
  - repeat constructor.
  - repeat match goal with |- _ /\ _ => split end; vm_compute; reflexivity.
Qed.

(** C88.  The JSON text is a JSON document of what was written and of nothing
    else, so every reader of JSON gets the value back, and different values have
    different texts. *)
Theorem C88_values : forall v, proper v ->
  document (json_print (ser_value v)) (ser_value v)
  /\ (forall j, document (json_print (ser_value v)) j -> de_value j = Some v).
Proof.
  intros v P. split; [apply document_print, plain_value_json|]. intros j D.
  apply document_unique in D as ->; [|apply plain_value_json]. apply de_value_shape, ser_value_shape, P.
Qed.
Print Assumptions C88_values.

Theorem C88_entries : forall e,
  document (json_print (ser_entry e)) (ser_entry e)
  /\ (forall j, document (json_print (ser_entry e)) j -> de_entry j = Some e).
Proof.
  intros e. split; [apply document_print, plain_entry_json|]. intros j D.
  apply document_unique in D as ->; [|apply plain_entry_json]. apply de_entry_shape, ser_entry_shape.
Qed.
Print Assumptions C88_entries.

Theorem C88_calls : forall c, proper_call c ->
  document (json_print (ser_call c)) (ser_call c)
  /\ (forall j, document (json_print (ser_call c)) j -> de_call j = Some c).
Proof.
  intros c P. split; [apply document_print, plain_call_json|]. intros j D.
  apply document_unique in D as ->; [|apply plain_call_json]. apply de_call_shape, ser_call_shape, P.
Qed.
Print Assumptions C88_calls.

Theorem C88_injective :
  (forall v v', proper v -> proper v' -> json_print (ser_value v) = json_print (ser_value v') -> v = v')
  /\ (forall e e', json_print (ser_element e) = json_print (ser_element e') -> e = e').
Proof.
  split.
  - intros v v' P P' E. destruct (C88_values v P) as [D _]. rewrite E in D. apply (C88_values v' P') in D.
    destruct C87_round_trip as (_ & _ & R & _). rewrite (R v P) in D. congruence.
  - intros e e' E. pose proof (document_print _ (plain_element_json e)) as D. rewrite E in D.
    apply document_unique in D; [|apply plain_element_json]. destruct C87_round_trip as (R & _).
    pose proof (R e) as H. rewrite D, R in H. congruence.
Qed.
Print Assumptions C88_injective.

(** Names with quotes, backslashes and newlines; the same document with blanks. *)
Example C88_case :
  json_print (ser_element (Elem (lit "a" ++ [34; 10]%N) None (Some (lit "en"))))
  = lit "[" ++ [34%N] ++ lit "a\" ++ [34%N] ++ lit "\n" ++ [34%N] ++ lit ",null," ++ [34%N] ++ lit "en" ++ [34%N] ++ lit "]"
  /\ document (lit " [ null,null ] ") (JArr [JNull; JNull])
  /\ json_print (ser_element (Elem (lit "a") (Some (lit "b")) None)) <> json_print (ser_element (Elem (lit "a") None (Some (lit "b")))).
Proof.
  split; [vm_compute; reflexivity|]. split.
  - exists (lit " "), (lit "[ null,null ]"), (lit " "). split; [reflexivity|]. split; [repeat constructor|]. split; [|repeat constructor].
    apply (dn_arr (lit " null,null ")). apply (it_more (lit " ") (lit "null") [] JNull (lit "null ") [JNull]); [repeat constructor|constructor|constructor|].
    apply (it_last [] (lit "null") (lit " ")); repeat constructor.
  - vm_compute. discriminate.
Qed.

(** C89.  The JavaScript caller of ligature-wasm: a Map from names to graphs if the
    script succeeded, a string if it failed. *)
Theorem C89_run : forall show script,
  let s := snd (grun script mem_new) in
  match fst (grun script mem_new) with
  | Ok _ => exists m, wasm_js show script = Ok (JsMap m)
              /\ NoDup (map fst m)
              /\ (forall name, In name (map fst m) <-> has mem_impl s name)
              /\ (forall name v, In (name, v) m ->
                    exists l g, l_entries glig s (mkE name) = Ok l /\ graph_of l g /\ graph_js g v)
  | Err e => wasm_js show script = Ok (JsString (show e))
  | Panic w => wasm_js show script = Panic w
  end.
Proof.
  intros show script s. pose proof (C55_wasm_run script) as W. cbn zeta in W. fold s in W. unfold wasm_js.
  destruct (fst (grun script mem_new)) as [v|e|w]; [|rewrite W; reflexivity|rewrite W; reflexivity].
  destruct W as (m & -> & N & K & G). eexists. split; [reflexivity|].
  assert (F : map fst (map (fun p => (fst p, js_graphology (snd p))) m) = map fst m) by (rewrite map_map; reflexivity).
  rewrite F. split; [exact N|]. split; [exact K|]. intros name x H. apply in_map_iff in H as ([n g] & E & H). cbn in E. injection E as <- <-.
  destruct (G n g H) as (l & E & Q). exists l, g. split; [exact E|]. split; [exact Q|].
  eexists _, _. split; [reflexivity|]. split.
  - apply Forall2_map_self. reflexivity.
  - apply Forall2_map_self. reflexivity.
Qed.
Print Assumptions C89_run.

Example C89_case : forall show,
  wasm_js show (lit "let n {a : b}")
  = Ok (JsMap [(lit "n", JsObject [(lit "nodes", JsArray [JsObject [(lit "key", JsString (lit "a"))]; JsObject [(lit "key", JsString (lit "b"))]]);
                                   (lit "edges", JsArray [JsObject [(lit "key", JsString (lit ":")); (lit "source", JsString (lit "a")); (lit "target", JsString (lit "b"))]])])])
  /\ wasm_js show (lit "nope a") = Ok (JsString (show (WErr (lit "Could not find command: nope")))).
Proof. intros show. split; vm_compute; reflexivity. Qed.
