(** * Regular expressions and longest-match tokenising (the logos crate)

    The repository's lexers are [#[derive(Logos)]] enums: the code consists of
    regular expressions.  This file is the executable meaning the model gives
    them: Brzozowski derivatives over code points, longest match, and ties
    broken by priority.  S_Regex.v has the declarative meaning. *)
From Coq Require Import List NArith Bool.
From Verif Require Import M_Base.
Import ListNotations.
Open Scope list_scope.

(** A character class: a list of inclusive ranges, possibly negated. *)
Record cls := Cls { cls_neg : bool; cls_ranges : list (N * N) }.

Definition in_ranges (l : list (N * N)) (c : N) : bool :=
  existsb (fun r => N.leb (fst r) c && N.leb c (snd r)) l.

Definition in_cls (k : cls) (c : N) : bool := xorb (cls_neg k) (in_ranges (cls_ranges k) c).

Inductive regex :=
| RNone
| REps
| RCls (k : cls)
| RSeq (a b : regex)
| RAlt (a b : regex)
| RStar (a : regex).

(** Surface forms used by the patterns: a literal character, [+], [?], [{n}],
    a literal string. *)
Definition RChr (c : N) : regex := RCls (Cls false [(c, c)]).
Definition RPlus (a : regex) : regex := RSeq a (RStar a).
Definition ROpt (a : regex) : regex := RAlt REps a.
Fixpoint RRep (n : nat) (a : regex) : regex :=
  match n with O => REps | S m => RSeq a (RRep m a) end.
Fixpoint RLit (s : str) : regex :=
  match s with [] => REps | c :: r => RSeq (RChr c) (RLit r) end.

Fixpoint nullable (r : regex) : bool :=
  match r with
  | RNone => false
  | REps => true
  | RCls _ => false
  | RSeq a b => nullable a && nullable b
  | RAlt a b => nullable a || nullable b
  | RStar _ => true
  end.

Definition seq_s (a b : regex) : regex :=
  match a with RNone => RNone | REps => b | _ => RSeq a b end.

Definition alt_s (a b : regex) : regex :=
  match a with
  | RNone => b
  | _ => match b with RNone => a | _ => RAlt a b end
  end.

Fixpoint deriv (c : N) (r : regex) : regex :=
  match r with
  | RNone => RNone
  | REps => RNone
  | RCls k => if in_cls k c then REps else RNone
  | RSeq a b =>
      if nullable a then alt_s (seq_s (deriv c a) b) (deriv c b)
      else seq_s (deriv c a) b
  | RAlt a b => alt_s (deriv c a) (deriv c b)
  | RStar a => seq_s (deriv c a) (RStar a)
  end.

(** Length of the longest prefix of [s] matched by [r]; [n] characters are
    already read and [best] is the longest match so far. *)
Fixpoint longest_from (r : regex) (s : str) (n : nat) (best : option nat) : option nat :=
  let best' := if nullable r then Some n else best in
  match s with
  | [] => best'
  | c :: s' => longest_from (deriv c r) s' (S n) best'
  end.

Definition longest (r : regex) (s : str) : option nat := longest_from r s 0 None.

(** A token rule: pattern, logos priority, and what to build. *)
Record rule (K : Type) := Rule { r_kind : K; r_prio : nat; r_re : regex }.
Arguments Rule {K}.
Arguments r_kind {K}.
Arguments r_prio {K}.
Arguments r_re {K}.

(** logos: the longest match wins; among equally long ones the highest priority. *)
Fixpoint best_rule {K : Type} (rules : list (rule K)) (s : str) : option (nat * rule K) :=
  match rules with
  | [] => None
  | r :: rest =>
      match longest (r_re r) s, best_rule rest s with
      | None, o => o
      | Some O, o => o
      | Some n, None => Some (n, r)
      | Some n, Some (m, r') =>
          if Nat.ltb n m then Some (m, r')
          else if Nat.ltb m n then Some (n, r)
          else if Nat.ltb (r_prio r) (r_prio r') then Some (m, r')
          else Some (n, r)
      end
  end.
