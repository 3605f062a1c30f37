(** * Comparison and hashing keep their contracts *)
From Coq Require Import List NArith Bool String.
From Verif Require Import M_Base M_Data M_Regex M_Lexer M_Parser M_Interp M_Derive S_Order S_Str S_Derive
  P_Ord P_Str P_Interp P_Derive.
Import ListNotations.
Open Scope list_scope.

(** C86.  [==] and [cmp] of every data type agree with each other and with the
    documented field-by-field order, which is a strict total order. *)
Theorem C86_ligature :
  (decides_eq element_eqb /\ decides_order element_cmp element_lt /\ strict_total element_lt)
  /\ (decides_eq entry_eqb /\ decides_order entry_cmp entry_lt /\ strict_total entry_lt).
Proof.
  split; (split; [|split]).
  - exact element_eqb_eq.
  - apply order_decides, element_order.
  - eapply order_total, element_order.
  - exact entry_eqb_eq.
  - apply order_decides, entry_order.
  - eapply order_total, entry_order.
Qed.
Print Assumptions C86_ligature.

Theorem C86_trips :
  (decides_eq trip_eqb /\ decides_order trip_cmp trip_lt /\ strict_total trip_lt)
  /\ (decides_eq slot_eqb /\ decides_order slot_cmp slot_lt /\ strict_total slot_lt)
  /\ (decides_eq query_eqb /\ decides_order query_cmp query_lt /\ strict_total query_lt).
Proof.
  split; [|split]; (split; [|split]).
  - exact trip_eqb_eq.
  - apply order_decides, trip_order.
  - eapply order_total, trip_order.
  - exact slot_eqb_eq.
  - apply order_decides, slot_order.
  - eapply order_total, slot_order.
  - exact query_eqb_eq.
  - apply order_decides, query_order.
  - eapply order_total, query_order.
Qed.
Print Assumptions C86_trips.

(** Values and calls are compared part by part. *)
Theorem C86_wander : decides_eq value_eqb /\ decides_eq call_eqb.
Proof. split; [exact value_eqb_eq|exact call_eqb_eq]. Qed.
Print Assumptions C86_wander.

(** Elements and entries that differ feed different bytes to a hasher, also when
    more follows (in a tuple, in a struct). *)
Theorem C86_hash : tells_apart element_text hash_element /\ tells_apart entry_text hash_entry.
Proof. split; [exact tells_element|exact tells_entry]. Qed.
Print Assumptions C86_hash.

(** Values: equal values hash alike, as a hash map needs; beyond that the hash
    only tells elements, quotes and networks apart. *)
Theorem C86_hash_value : forall a b,
  (value_eqb a b = true -> hash_value a = hash_value b) /\ (hash_value a = hash_value b <-> same_kind a b).
Proof.
  intros a b. split; [|apply hash_value_kind]. intros E. apply value_eqb_eq in E as ->. reflexivity.
Qed.
Print Assumptions C86_hash_value.

(** The order on concrete cases; two elements whose names and namespaces, run
    together, are the same text still feed different bytes. *)
Example C86_case :
  query_lt (Query (Variable_ (lit "z")) Any Any) (Query (Value (lit "a")) (Value (lit "b")) Any)
  /\ ~ slot_lt Any (Value (lit "a"))
  /\ entry_lt (Role (mkE (lit "z")) (mkE (lit "z")) (mkE (lit "z"))) (Extends (mkE (lit "a")) (mkE (lit "a")))
  /\ element_text (Elem (lit "ab") (Some (lit "c")) None)
  /\ hash_element (Elem (lit "ab") (Some (lit "c")) None) <> hash_element (Elem (lit "a") (Some (lit "bc")) None)
  /\ hash_element (Elem (lit "a") (Some (lit "b")) None) <> hash_element (Elem (lit "a") None (Some (lit "b")))
  /\ hash_value (VElement (mkE (lit "a"))) = hash_value (VElement (mkE (lit "b")))
  /\ value_eqb (VElement (mkE (lit "a"))) (VElement (mkE (lit "b"))) = false.
Proof.
  assert (V : forall s, forallb (fun c => N.ltb c 0xD800) s = true -> valid_str s).
  { intros s H. apply Forall_forall. intros c Hc. rewrite forallb_forall in H. left. apply N.ltb_lt, H, Hc. }
  repeat match goal with |- _ /\ _ => split end.
  - left. constructor.
  - inversion 1.
  - constructor.
  - repeat split; simpl; [apply V; reflexivity|..]; intros s E; inversion E; subst. apply V. reflexivity.
  - vm_compute. discriminate.
  - vm_compute. discriminate.
  - reflexivity.
  - reflexivity.
Qed.
