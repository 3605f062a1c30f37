(** * What the [#[derive(..)]] attributes of the data types generate

    Orders and equalities of the trips types, and the bytes the [Hash]
    implementations feed to a hasher.  (The orders of Element, Entry and Trip are
    in M_Data.v, the equality of WanderValue in M_Interp.v.) *)
From Coq Require Import List NArith Bool.
From Verif Require Import M_Base M_Data M_Regex M_Lexer M_Parser M_Interp S_Str.
Import ListNotations.
Open Scope list_scope.

(** trips/src/lib.rs:22 [derive(PartialOrd, Ord)] of [Slot]: variants in
    declaration order (Variable, Value, Any), then the string. *)
Definition slot_cmp (a b : slot) : comparison :=
  match a, b with
  | Variable_ x, Variable_ y => str_cmp x y
  | Variable_ _, _ => Lt
  | Value _, Variable_ _ => Gt
  | Value x, Value y => str_cmp x y
  | Value _, Any => Lt
  | Any, Any => Eq
  | Any, _ => Gt
  end.

(** trips/src/lib.rs:22 [derive(PartialEq)] of [Slot] *)
Definition slot_eqb (a b : slot) : bool :=
  match a, b with
  | Variable_ x, Variable_ y => str_eqb x y
  | Value x, Value y => str_eqb x y
  | Any, Any => true
  | _, _ => false
  end.

(** trips/src/lib.rs:34 [derive(PartialOrd, Ord)] of [Query] *)
Definition query_cmp (a b : query) : comparison :=
  then_cmp (slot_cmp (q0 a) (q0 b)) (then_cmp (slot_cmp (q1 a) (q1 b)) (slot_cmp (q2 a) (q2 b))).

(** trips/src/lib.rs:34 [derive(PartialEq)] of [Query] *)
Definition query_eqb (a b : query) : bool :=
  slot_eqb (q0 a) (q0 b) && slot_eqb (q1 a) (q1 b) && slot_eqb (q2 a) (q2 b).

(** trips/src/lib.rs:19 [derive(PartialEq)] of [Trip] *)
Definition trip_eqb (a b : trip) : bool :=
  str_eqb (t0 a) (t0 b) && str_eqb (t1 a) (t1 b) && str_eqb (t2 a) (t2 b).

(** wander/src/lib.rs:46 [derive(PartialEq)] of [Call] *)
Fixpoint values_eqb (a b : list value) : bool :=
  match a, b with
  | [], [] => true
  | x :: a', y :: b' => value_eqb x y && values_eqb a' b'
  | _, _ => false
  end.
Definition call_eqb (a b : call) : bool :=
  element_eqb (c_name a) (c_name b) && values_eqb (c_args a) (c_args b).

(** ** [Hash]: the bytes written to the hasher *)

(** [Hash for str]: the bytes of the string, then 0xff. *)
Definition hash_str (s : str) : list N := utf8 s ++ [255%N].

(** [mem::discriminant(self).hash(state)]: the index of the variant, an [isize]
    (eight bytes on the 64-bit targets modelled, least significant first). *)
Definition hash_disc (n : N) : list N := [n; 0; 0; 0; 0; 0; 0; 0]%N.

(** derived [Hash] of [Option<Namespace>], [Option<LangTag>]
    (ligature/src/lib.rs:16-21; newtypes hash as their string) *)
Definition hash_opt (o : option str) : list N :=
  match o with
  | None => hash_disc 0
  | Some s => hash_disc 1 ++ hash_str s
  end.

(** ligature/src/lib.rs:24 [derive(Hash)] of [Element] *)
Definition hash_element (e : element) : list N :=
  hash_str (el_name e) ++ hash_opt (el_ns e) ++ hash_opt (el_lang e).

(** ligature/src/lib.rs:34 [derive(Hash)] of [Entry] *)
Definition hash_entry (e : entry) : list N :=
  match e with
  | Role f s r => hash_disc 0 ++ hash_element f ++ hash_element s ++ hash_element r
  | Extends e c => hash_disc 1 ++ hash_element e ++ hash_element c
  | NotExtends e c => hash_disc 2 ++ hash_element e ++ hash_element c
  end.

(** wander/src/lib.rs:73-77 [Hash for WanderValue]: only the discriminant. *)
Definition hash_value (v : value) : list N :=
  match v with
  | VElement _ => hash_disc 0
  | VQuote _ => hash_disc 1
  | VNetwork _ => hash_disc 2
  end.
