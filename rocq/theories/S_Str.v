(** * Specification vocabulary: UTF-8 and LMDB keys *)
From Coq Require Import List NArith.
From Verif Require Import M_Base S_Order.
Import ListNotations.
Open Scope list_scope.

(** The UTF-8 encoding of a code point (RFC 3629). *)
Definition utf8_char (c : N) : list N :=
  (if c <? 0x80 then [c]
   else if c <? 0x800 then [0xC0 + c / 64; 0x80 + c mod 64]
   else if c <? 0x10000 then [0xE0 + c / 4096; 0x80 + (c / 64) mod 64; 0x80 + c mod 64]
   else [0xF0 + c / 262144; 0x80 + (c / 4096) mod 64; 0x80 + (c / 64) mod 64; 0x80 + c mod 64])%N.

Definition utf8 (s : str) : list N := flat_map utf8_char s.

(** Unicode scalar values: what a Rust [char] can be. *)
Definition scalar (c : N) : Prop := (c < 0xD800 \/ (0xE000 <= c /\ c < 0x110000))%N.
Definition valid_str (s : str) : Prop := Forall scalar s.

(** A string that LMDB accepts as a key: one to 511 bytes. *)
Definition storable (s : str) : Prop :=
  0 < List.length (utf8 s) /\ (N.of_nat (List.length (utf8 s)) <= 511)%N.
