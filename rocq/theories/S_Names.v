(** * Specification vocabulary: names *)
From Coq Require Import List NArith Bool String.
From Verif Require Import M_Base M_Data M_Mem M_Heed M_Duck M_Regex M_Lexer M_Graph M_Parser M_Display M_Interp
  S_Order S_Store S_Graph S_Lexer S_Parser S_GraphHist.
Import ListNotations.
Open Scope list_scope.

(** The script has [n] as one of its words, bare or between quotes. *)
Definition said (script : str) (n : str) : Prop :=
  exists ts, lexes script ts /\ (In (TString n) ts \/ In (TElement (Elem n None None)) ts).

(** [n] is a name in the value: in an element, an entry, or anything quoted.  An
    Extends counts ":" as its role, a NotExtends counts "¬:". *)
Inductive named : value -> str -> Prop :=
| nm_element e : named (VElement e) (el_name e)
| nm_network es e n : In e es -> names_of e n -> named (VNetwork es) n
| nm_quote q v n : In v q -> named v n -> named (VQuote q) n.

(** [n] can be read in some collection. *)
Definition stored {S : Type} (I : trips_impl S) (s : S) (n : str) : Prop :=
  exists c t, holds I s c t /\ part n t.

(** What the docs command tells: the commands and their descriptions. *)
Definition documented (n : str) : Prop :=
  n = lit "docString" \/ exists name (c : @command unit), In (name, c) common /\ (n = name \/ n = cmd_doc c).

(** A value without quotes in quotes, namespaces, language tags, or roles with
    reserved names; its networks are sets. *)
Definition tidy_item (v : value) : Prop :=
  match v with
  | VElement e => bare e
  | VNetwork n => is_set entry_lt n /\ Forall normal n
  | VQuote _ => False
  end.
Definition tidy_value (v : value) : Prop :=
  match v with VQuote q => Forall tidy_item q | _ => tidy_item v end.

(** Scripts run one after the other on the same store, whatever they answer: the
    answers and the store at the end. *)
Fixpoint session {S : Type} (G : lig_impl S) (scripts : list str) (s : S) : list (wres value) * S :=
  match scripts with
  | [] => ([], s)
  | x :: rest =>
      let (r, s1) := run G common x s in
      let (rs, s2) := session G rest s1 in (r :: rs, s2)
  end.

(** The stores of the crate [trips], each with its empty state. *)
Inductive shipped : forall S : Type, trips_impl S -> S -> Prop :=
| sh_mem : shipped mem mem_impl mem_new
| sh_lmdb : shipped heed heed_impl heed_new
| sh_duck : shipped duck duck_impl duck_new.
Arguments shipped {S} I s0.
