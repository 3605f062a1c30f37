(** * Base vocabulary of the model: strings, results, ordered sets and maps.

    Models the pieces of the Rust standard library the repository is built on.
    No proofs here. *)
From Coq Require Import List NArith Bool Ascii String.
Import ListNotations.
Open Scope list_scope.

(** ** Strings

    A Rust [String] is a sequence of Unicode scalar values stored as UTF-8.
    The model keeps the sequence of code points.  (Simplification: the type
    admits every number; [valid_str] in S_Str.v singles out scalar values.) *)
Definition str := list N.

(** An ASCII string literal of the Rust source. *)
Definition lit (s : string) : str := map N_of_ascii (list_ascii_of_string s).

(** ** Comparison: what [#[derive(PartialOrd, Ord)]] generates. *)

(** Lexicographic comparison of sequences.  [Ord for str] compares UTF-8 bytes
    lexicographically; property C61 proves this is code point order. *)
Fixpoint list_cmp {A : Type} (c : A -> A -> comparison) (l1 l2 : list A) : comparison :=
  match l1, l2 with
  | [], [] => Eq
  | [], _ :: _ => Lt
  | _ :: _, [] => Gt
  | x :: r1, y :: r2 =>
      match c x y with
      | Eq => list_cmp c r1 r2
      | o => o
      end
  end.

Definition str_cmp : str -> str -> comparison := list_cmp N.compare.

(** Derived order on [Option<T>]: [None] first. *)
Definition option_cmp {A : Type} (c : A -> A -> comparison) (a b : option A) : comparison :=
  match a, b with
  | None, None => Eq
  | None, Some _ => Lt
  | Some _, None => Gt
  | Some x, Some y => c x y
  end.

(** Derived order on structs: field after field. *)
Definition then_cmp (a b : comparison) : comparison :=
  match a with Eq => b | o => o end.

(** [PartialEq for String]. *)
Fixpoint str_eqb (a b : str) : bool :=
  match a, b with
  | [], [] => true
  | x :: a', y :: b' => N.eqb x y && str_eqb a' b'
  | _, _ => false
  end.

(** ** Results and panics *)

(** Why a call panics: [todo!()], [unwrap()] on an error value, [assert_eq!],
    arithmetic overflow in a debug build, index out of bounds.  [PFuel] is not
    a Rust panic: it reports that a fuelled model function ran out of fuel,
    which C38 and C44 prove impossible. *)
Inductive why := PTodo | PUnwrap | PAssert | POverflow | PIndex | PFuel.

(** [Result<A, E>], with panicking as a third outcome. *)
Inductive res (E A : Type) : Type :=
| Ok (a : A)
| Err (e : E)
| Panic (w : why).
Arguments Ok {E A} a.
Arguments Err {E A} e.
Arguments Panic {E A} w.

(** ** [BTreeSet<A>]: a list kept strictly increasing for the order [cmp]. *)
Section Sets.
  Context {A : Type} (cmp : A -> A -> comparison).

  (** [BTreeSet::insert] *)
  Fixpoint bs_insert (x : A) (l : list A) : list A :=
    match l with
    | [] => [x]
    | y :: r =>
        match cmp x y with
        | Lt => x :: l
        | Eq => l
        | Gt => y :: bs_insert x r
        end
    end.

  (** [BTreeSet::remove] *)
  Fixpoint bs_remove (x : A) (l : list A) : list A :=
    match l with
    | [] => []
    | y :: r =>
        match cmp x y with
        | Lt => l
        | Eq => r
        | Gt => y :: bs_remove x r
        end
    end.

  (** [BTreeSet::append(&mut self, other)]: moves every element of [other]
      into [self].  (That [other] is left empty is modelled at the call site.) *)
  Definition bs_append (self other : list A) : list A :=
    fold_left (fun acc x => bs_insert x acc) other self.

  (** [iter.collect::<BTreeSet<_>>()], [BTreeSet::from_iter]. *)
  Definition bs_collect (l : list A) : list A :=
    fold_left (fun acc x => bs_insert x acc) l [].
End Sets.

(** ** [BTreeMap<K, V>]: an association list with strictly increasing keys. *)
Section Maps.
  Context {K V : Type} (cmp : K -> K -> comparison).

  (** [BTreeMap::get] *)
  Fixpoint bm_get (k : K) (m : list (K * V)) : option V :=
    match m with
    | [] => None
    | (k', v) :: r =>
        match cmp k k' with
        | Eq => Some v
        | _ => bm_get k r
        end
    end.

  (** [BTreeMap::insert]; overwrites. *)
  Fixpoint bm_insert (k : K) (v : V) (m : list (K * V)) : list (K * V) :=
    match m with
    | [] => [(k, v)]
    | (k', v') :: r =>
        match cmp k k' with
        | Lt => (k, v) :: m
        | Eq => (k, v) :: r
        | Gt => (k', v') :: bm_insert k v r
        end
    end.

  (** [BTreeMap::remove] *)
  Fixpoint bm_remove (k : K) (m : list (K * V)) : list (K * V) :=
    match m with
    | [] => []
    | (k', v') :: r =>
        match cmp k k' with
        | Lt => m
        | Eq => r
        | Gt => (k', v') :: bm_remove k r
        end
    end.
End Maps.
