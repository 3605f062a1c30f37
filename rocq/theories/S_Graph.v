(** * Specification vocabulary: knowledge graphs *)
From Coq Require Import List NArith Bool String.
From Verif Require Import M_Base M_Data S_Order.
Import ListNotations.
Open Scope list_scope.

(** The reserved role names ":" and "¬:" (code points 58; 172, 58). *)
Definition colon : str := [58%N].
Definition not_colon : str := [172%N; 58%N].

(** An element without namespace and language tag. *)
Definition bare (e : element) : Prop := el_ns e = None /\ el_lang e = None.

(** An entry that storage can represent: bare elements, and no role with a
    reserved name. *)
Definition normal (e : entry) : Prop :=
  match e with
  | Role f s r => bare f /\ bare s /\ bare r /\ el_name r <> colon /\ el_name r <> not_colon
  | Extends a b | NotExtends a b => bare a /\ bare b
  end.

(** The three names an entry is made of. *)
Definition subject (e : entry) : str :=
  match e with Role f _ _ => el_name f | Extends a _ | NotExtends a _ => el_name a end.
Definition object (e : entry) : str :=
  match e with Role _ s _ => el_name s | Extends _ b | NotExtends _ b => el_name b end.
Definition role_name (e : entry) : str :=
  match e with Role _ _ r => el_name r | Extends _ _ => colon | NotExtends _ _ => not_colon end.

(** [e'] is the normal entry made of the names of [e]. *)
Definition normalises (e e' : entry) : Prop :=
  normal e' /\ subject e' = subject e /\ role_name e' = role_name e /\ object e' = object e.

(** ** Patterns *)

Definition wildcard : str := [63%N].

(** A pattern name: the wildcard, or the name itself. *)
Definition agrees (p v : str) : Prop := p = wildcard \/ p = v.

(** The pattern's own role slot: for [Extends] and [NotExtends] patterns it is
    fixed. *)
Definition role_agrees (p : entry) (v : str) : Prop :=
  match p with
  | Role _ _ r => agrees (el_name r) v
  | Extends _ _ => v = colon
  | NotExtends _ _ => v = not_colon
  end.

Definition matches (p e : entry) : Prop :=
  agrees (subject p) (subject e) /\ role_agrees p (role_name e) /\ agrees (object p) (object e).

(** A name that begins with the question mark but is not the wildcard. *)
Definition variable_name (p : str) : Prop := exists r, p = 63%N :: r /\ r <> [].

(** No position of the pattern holds such a name. *)
Definition no_variable_names (p : entry) : Prop :=
  ~ variable_name (subject p) /\ ~ variable_name (object p)
  /\ match p with Role _ _ r => ~ variable_name (el_name r) | _ => True end.

(** ** Effects of the writing calls of the trait [Ligature], as seen by [entries] *)
Section Effects.
  Context {S : Type} (G : lig_impl S).

  (** Every collection of another name reads the same. *)
  Definition others_same (s s' : S) (c : element) : Prop :=
    forall c', el_name c' <> el_name c -> l_entries G s' c' = l_entries G s c'.

  (** [s'] is [s] with [c] enlarged by the normal forms of [es]. *)
  Definition enlarged (s : S) (c : element) (es : list entry) (s' : S) : Prop :=
    (exists l l', l_entries G s c = Ok l /\ l_entries G s' c = Ok l' /\ is_set entry_lt l'
                  /\ forall e', In e' l' <-> In e' l \/ exists e, In e es /\ normalises e e')
    /\ others_same s s' c.

  (** [s'] is [s] with [c] reduced by the normal forms of [es]. *)
  Definition reduced (s : S) (c : element) (es : list entry) (s' : S) : Prop :=
    (exists l l', l_entries G s c = Ok l /\ l_entries G s' c = Ok l' /\ is_set entry_lt l'
                  /\ forall e', In e' l' <-> In e' l /\ ~ exists e, In e es /\ normalises e e')
    /\ others_same s s' c.
End Effects.
