(** * Specification vocabulary: scripts that any of the stores can run *)
From Coq Require Import List NArith Bool String.
From Verif Require Import M_Base M_Data M_Parser S_Str S_Store S_Graph.
Import ListNotations.
Open Scope list_scope.

(** One to 511 bytes of UTF-8, as a test. *)
Definition storableb (s : str) : bool :=
  negb (N.eqb (N.of_nat (List.length (utf8 s))) 0) && N.leb (N.of_nat (List.length (utf8 s))) 511.

Definition trip_eqb (t u : trip) : bool :=
  str_eqb (t0 t) (t0 u) && str_eqb (t1 t) (t1 u) && str_eqb (t2 t) (t2 u).

(** A store that watches its client and keeps a log of the writes made: it
    behaves as the store [I], but a write that a disciplined client would not
    make (S_Store.allowed) or for which the 2^63 sequence numbers would not
    suffice, a read of an absent collection, and a filter panic with [PAssert]
    and change nothing. *)
Section Watched.
  Context {S : Type} (I : trips_impl S).

  (** The name is listed; the triples read. *)
  Definition listed (s : S) (c : str) : bool :=
    match t_collections I s with Ok l => existsb (str_eqb c) l | _ => false end.
  Definition shown (s : S) (c : str) : list trip :=
    match t_triples I s c with Ok l => l | _ => [] end.

  Definition permits (s : S) (log : list op) (o : op) : bool :=
    N.ltb (dtotal (log ++ [o])) (2 ^ 63) &&
    match o with
    | OAddColl c => storableb c && negb (listed s c)
    | ORemColl c => listed s c && match shown s c with [] => true | _ => false end
    | OAdd c ts => listed s c && forallb (fun t => storableb (t0 t) && storableb (t1 t) && storableb (t2 t)) ts
    | ORem c ts => listed s c && forallb (fun t => existsb (trip_eqb t) (shown s c)) ts
    end.

  Definition watched : trips_impl (S * list op) :=
    let write (s : S * list op) (o : op) : tres unit * (S * list op) :=
      if permits (fst s) (snd s) o
      then let (r, x) := call_op I (fst s) o in (r, (x, snd s ++ [o]))
      else (Panic PAssert, s) in
    TripsImpl
      (fun s => t_collections I (fst s))
      (fun s c => write s (OAddColl c))
      (fun s c => write s (ORemColl c))
      (fun s c => if listed (fst s) c then t_triples I (fst s) c else Panic PAssert)
      (fun s c ts => (write s (OAdd c ts), ts))
      (fun s c ts => (write s (ORem c ts), ts))
      (fun s c p => Panic PAssert).
End Watched.

(** ** Programs that can be seen to be disciplined

    [known] are the collections that exist.  A tidy program creates every
    collection once, under a storable name and with storable names in it, and
    reads only collections that exist. *)
Inductive plain (known : list str) : value -> Prop :=
| plain_element e : plain known (VElement e)
| plain_network n : plain known (VNetwork n)
| plain_read r c :
    el_name r = lit "read" -> In (el_name c) known -> plain known (VQuote [VElement r; VElement c]).

Inductive tidy : list str -> list call -> Prop :=
| tidy_nil known : tidy known []
| tidy_let known l c n rest :
    el_name l = lit "let" -> storable (el_name c) -> ~ In (el_name c) known ->
    (forall e, In e n -> storable (subject e) /\ storable (role_name e) /\ storable (object e)) ->
    tidy (el_name c :: known) rest -> tidy known (Call l [VElement c; VNetwork n] :: rest)
| tidy_read known r c rest :
    el_name r = lit "read" -> In (el_name c) known -> tidy known rest ->
    tidy known (Call r [VElement c] :: rest)
| tidy_id known i v rest :
    el_name i = lit "id" -> tidy known rest -> tidy known (Call i [v] :: rest)
| tidy_ignore known i args rest :
    el_name i = lit "ignore" -> tidy known rest -> tidy known (Call i args :: rest)
| tidy_assert known a v w rest :
    el_name a = lit "assert-equal" -> plain known v -> plain known w -> tidy known rest ->
    tidy known (Call a [v; w] :: rest).

(** The sequence numbers a tidy program can use up. *)
Definition call_weight (c : call) : N :=
  match c_args c with [VElement _; VNetwork n] => 1 + 4 * N.of_nat (List.length n) | _ => 0 end%N.
Definition program_weight (calls : list call) : N := fold_right (fun c n => (call_weight c + n)%N) 0%N calls.
