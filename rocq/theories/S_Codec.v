(** * Specification vocabulary: big-endian numbers and row keys *)
From Coq Require Import List NArith.
From Verif Require Import M_Base S_Order.
Import ListNotations.
Open Scope list_scope.

Definition is_u64 (n : N) : Prop := (n < 2 ^ 64)%N.
Definition is_byte (b : N) : Prop := (b < 256)%N.

(** Positional value, most significant byte first. *)
Fixpoint be_value (l : list N) : N :=
  match l with
  | [] => 0
  | b :: r => b * 256 ^ N.of_nat (List.length r) + be_value r
  end%N.

(** [l] is the 8-byte big-endian encoding of [n]. *)
Definition encodes (l : list N) (n : N) : Prop :=
  List.length l = 8 /\ Forall is_byte l /\ be_value l = n.

(** [r] is the 32-byte row key of four ids. *)
Definition row_of (r : list N) (a b c d : N) : Prop :=
  exists la lb lc ld,
    r = la ++ lb ++ lc ++ ld /\ encodes la a /\ encodes lb b /\ encodes lc c /\ encodes ld d.

(** Byte string order. *)
Definition bytes_lt : list N -> list N -> Prop := lex N.lt.
