(** * Specification vocabulary: the contents of a store as a script *)
From Coq Require Import List NArith Bool String.
From Verif Require Import M_Base M_Data M_Mem M_Heed M_Duck M_Regex M_Lexer M_Graph M_Parser M_Display M_Interp
  S_Order S_Str S_Store S_Graph S_Lexer S_Parser S_Display S_GraphHist S_Wander.
Import ListNotations.
Open Scope list_scope.

(** One collection: let, its name as it is printed, its entries as they are
    printed, a comma, a newline. *)
Definition dump_line (n : str) (l : list entry) : str :=
  lit "let " ++ display (VElement (Elem n None None)) ++ lit " " ++ display (VNetwork l) ++ lit "," ++ [10%N].

Inductive dump_of {S : Type} (I : trips_impl S) (s : S) : list str -> str -> Prop :=
| du_none : dump_of I s [] []
| du_more n ns l text :
    l_entries (graph_impl I) s (Elem n None None) = Ok l -> dump_of I s ns text ->
    dump_of I s (n :: ns) (dump_line n l ++ text).

(** A dump of the store: one line for every collection it lists, in any order. *)
Definition dump {S : Type} (I : trips_impl S) (s : S) (text : str) : Prop :=
  exists ns, NoDup ns /\ (forall n, In n ns <-> has I s n) /\ dump_of I s ns text.

(** [v] is [w] with every name in it JSON-escaped: the names of the collections
    and those in the entries. *)
Definition escapes_to (w v : world) : Prop :=
  (forall n l, w n = Some l -> exists b l', json_text n b /\ v b = Some l' /\ rereads_network l l')
  /\ (forall b l', v b = Some l' -> exists n l, w n = Some l /\ json_text n b /\ rereads_network l l').

(** No name in it needs an escape. *)
Definition plain_world (w : world) : Prop :=
  forall n l, w n = Some l -> Forall plain_char n /\ (forall e m, In e l -> names_of e m -> Forall plain_char m).

(** [w1] is [v], and [w0] where [v] has nothing. *)
Definition laid_over (v w0 w1 : world) : Prop :=
  forall n, w1 n = match v n with Some l => Some l | None => w0 n end.

(** Whether [v] can be added to [w0] on the store [B]: LMDB must be able to store
    the names, and in neither LMDB nor DuckDB may they be in use. *)
Definition fits (B : backend) (v w0 : world) : Prop :=
  (B = Lmdb -> forall n, v n <> None -> storable n) /\ (B <> InMemory -> forall n, v n <> None -> w0 n = None).
