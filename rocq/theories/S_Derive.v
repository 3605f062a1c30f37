(** * Specification vocabulary: what comparison and hashing promise *)
From Coq Require Import List NArith.
From Verif Require Import M_Base M_Data M_Regex M_Lexer M_Parser S_Order S_Str.
Import ListNotations.
Open Scope list_scope.

(** [eq] decides equality. *)
Definition decides_eq {A : Type} (eq : A -> A -> bool) : Prop := forall a b, eq a b = true <-> a = b.

(** [cmp] decides the strict order [lt]. *)
Definition decides_order {A : Type} (cmp : A -> A -> comparison) (lt : A -> A -> Prop) : Prop :=
  forall a b, (cmp a b = Eq <-> a = b) /\ (cmp a b = Lt <-> lt a b) /\ (cmp a b = Gt <-> lt b a).

(** A strict total order. *)
Definition strict_total {A : Type} (lt : A -> A -> Prop) : Prop :=
  (forall a, ~ lt a a) /\ (forall a b c, lt a b -> lt b c -> lt a c) /\ (forall a b, lt a b \/ a = b \/ lt b a).

(** Variables, then values, then the wildcard; the first two by their text. *)
Inductive slot_lt : slot -> slot -> Prop :=
| sl_var x y : str_lt x y -> slot_lt (Variable_ x) (Variable_ y)
| sl_var_val x y : slot_lt (Variable_ x) (Value y)
| sl_var_any x : slot_lt (Variable_ x) Any
| sl_val x y : str_lt x y -> slot_lt (Value x) (Value y)
| sl_val_any x : slot_lt (Value x) Any.

(** Slot after slot. *)
Definition query_lt (a b : query) : Prop :=
  slot_lt (q0 a) (q0 b)
  \/ (q0 a = q0 b /\ (slot_lt (q1 a) (q1 b) \/ (q1 a = q1 b /\ slot_lt (q2 a) (q2 b)))).

(** A hash feed from whose bytes the value can be read off, whatever follows. *)
Definition tells_apart {A : Type} (ok : A -> Prop) (feed : A -> list N) : Prop :=
  forall a b r r', ok a -> ok b -> feed a ++ r = feed b ++ r' -> a = b /\ r = r'.

(** Made of Unicode text, as every Rust [String] is. *)
Definition opt_text (o : option str) : Prop := forall s, o = Some s -> valid_str s.
Definition element_text (e : element) : Prop :=
  valid_str (el_name e) /\ opt_text (el_ns e) /\ opt_text (el_lang e).
Definition entry_text (e : entry) : Prop :=
  match e with
  | Role f s r => element_text f /\ element_text s /\ element_text r
  | Extends x c => element_text x /\ element_text c
  | NotExtends x c => element_text x /\ element_text c
  end.

(** Both elements, both quotes or both networks. *)
Inductive same_kind : value -> value -> Prop :=
| sk_element a b : same_kind (VElement a) (VElement b)
| sk_quote a b : same_kind (VQuote a) (VQuote b)
| sk_network a b : same_kind (VNetwork a) (VNetwork b).
