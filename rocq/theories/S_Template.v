(** * Specification vocabulary: scripts made from templates *)
From Coq Require Import List NArith Bool String.
From Verif Require Import M_Base M_Data M_Regex M_Lexer M_Graph M_Parser S_Order S_Graph S_Lexer S_Parser.
Import ListNotations.
Open Scope list_scope.

(** The text of a script with holes: a piece of text before every hole, and one
    after the last.  [fill quote]: a name is put into each hole, quoted. *)
Fixpoint fill (quote : str -> str) (pieces : list str) (last : str) (names : list str) : str :=
  match pieces, names with
  | p :: ps, n :: ns => p ++ quote n ++ fill quote ps last ns
  | _, _ => last
  end.

(** The text is tokens, and does not end inside a comment (or a string, or it
    would not be tokens). *)
Definition ends_clean (p : str) : Prop :=
  exists ts, lexes p ts /\ forall before c, ts = before ++ [TComment c] -> exists d, c = d ++ [10%N].

Definition template (pieces : list str) (last : str) (holes : nat) : Prop :=
  List.length pieces = holes /\ Forall ends_clean pieces /\ exists ts, lexes last ts.

(** ** The same program but for some names *)
Section Like.
  Variable R : str -> str -> Prop.

  Inductive like_element : element -> element -> Prop :=
  | le_name a b : R a b -> like_element (Elem a None None) (Elem b None None).

  Definition like_entry (e f : entry) : Prop :=
    normal e /\ normal f /\ R (subject e) (subject f) /\ R (role_name e) (role_name f) /\ R (object e) (object f).

  (** Networks are sets, so that entries may fall together. *)
  Inductive like_value : value -> value -> Prop :=
  | lv_element a b : like_element a b -> like_value (VElement a) (VElement b)
  | lv_network es fs n m : Forall2 like_entry es fs -> set_of es n -> set_of fs m -> like_value (VNetwork n) (VNetwork m)
  | lv_quote p q : Forall2 like_value p q -> like_value (VQuote p) (VQuote q).

  Definition like_call (c d : call) : Prop := like_element (c_name c) (c_name d) /\ Forall2 like_value (c_args c) (c_args d).
End Like.

(** The same name, or what was put into the same hole. *)
Definition same_or_filled (escaped : str -> str -> Prop) (xs ys : list str) (a b : str) : Prop :=
  a = b \/ exists i x y, nth_error xs i = Some x /\ nth_error ys i = Some y /\ escaped x a /\ escaped y b.
