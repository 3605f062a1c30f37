(** * Specification vocabulary: names are opaque *)
From Coq Require Import List NArith Bool String.
From Verif Require Import M_Base M_Data M_Mem M_Heed M_Duck M_Regex M_Lexer M_Graph M_Parser M_Display M_Interp
  S_Order S_Str S_Store S_Graph S_Lexer S_Parser S_Display S_Wander S_Rename S_Template.
Import ListNotations.
Open Scope list_scope.

(** The names that Wander itself uses: commands, what docs says about them, the
    reserved roles, the wildcard. *)
Definition reserved (n : str) : Prop :=
  In n (map fst manual) \/ In n (map snd manual) \/ n = lit "docString" \/ n = colon \/ n = not_colon \/ n = wildcard.

(** A renaming: one to one, leaving the reserved names alone, making no variable
    and no unstorable name (that only matters on LMDB), and unmaking none. *)
Definition renaming (B : backend) (f : str -> str) : Prop :=
  injective f
  /\ (forall n, reserved n -> f n = n)
  /\ (forall n, variable_name (f n) <-> variable_name n)
  /\ (B = Lmdb -> forall n, storable (f n) <-> storable n).

Section Renamed.
  Variable f : str -> str.

  Definition to (a b : str) : Prop := b = f a.

  (** Values and calls that are the same but for the names, which are renamed. *)
  Definition ren_value : value -> value -> Prop := like_value to.
  Definition ren_call : call -> call -> Prop := like_call to.

  (** What the second store has under the new name is what the first has under
      the old, renamed. *)
  Definition ren_world (w v : world) : Prop := forall n,
    match w n, v (f n) with
    | Some l, Some m => ren_value (VNetwork l) (VNetwork m)
    | None, None => True
    | _, _ => False
    end.

  (** Names that are not new names. *)
  Definition others_alone (v v' : world) : Prop := forall n, (forall a, n <> f a) -> v' n = v n.

  (** Texts: token by token. *)
  Inductive ren_token : token -> token -> Prop :=
  | rt_element n : ren_token (TElement (Elem n None None)) (TElement (Elem (f n) None None))
  | rt_same t : (forall e, t <> TElement e) -> (forall b, t <> TString b) -> ren_token t t.

  (** Errors: the same sentence about other names. *)
  Definition sentences : list string :=
    [ "Id requires a single argument."; "docs takes no arguments."; "union takes two arguments.";
      "`assertEq` function requires two parameters."; "`assert-fail` function expected to be passed a Quote.";
      "Expected failure."; "Invalid call to let." ]%string.

  Inductive ren_error : werr -> werr -> Prop :=
  | re_sentence s : In s sentences -> ren_error (WErr (lit s)) (WErr (lit s))
  | re_command n : ren_error (WErr (lit "Could not find command: " ++ n)) (WErr (lit "Could not find command: " ++ f n))
  | re_missing n : ren_error (WErr (lit "Error Collection `" ++ n ++ lit "` not found.")) (WErr (lit "Error Collection `" ++ f n ++ lit "` not found."))
  | re_parse t t' : ren_token t t' -> ren_error (WParse (Some t)) (WParse (Some t'))
  | re_parse_end : ren_error (WParse None) (WParse None)
  | re_unequal a b a' b' ta tb ta' tb' :
      ren_value a a' -> ren_value b b' -> value_text a ta -> value_text b tb -> value_text a' ta' -> value_text b' tb' ->
      ren_error (WErr (lit "Assertion failed, " ++ ta ++ lit " != " ++ tb)) (WErr (lit "Assertion failed, " ++ ta' ++ lit " != " ++ tb')).

  Inductive ren_outcome : outcome -> outcome -> Prop :=
  | ro_answers a b : ren_value a b -> ren_outcome (Answers a) (Answers b)
  | ro_fails e e' : ren_error e e' -> ren_outcome (Fails e) (Fails e')
  | ro_crashes : ren_outcome Crashes Crashes.

  (** White space and comments aside. *)
  Definition ren_text (s t : str) : Prop :=
    exists ts us k l, lexes s ts /\ lexes t us /\ keeps ts k /\ keeps us l /\ Forall2 ren_token k l.
End Renamed.

(** Two names change places. *)
Definition swap (a b n : str) : str := if str_eqb n a then b else if str_eqb n b then a else n.

(** A name written in a piece of text. *)
Definition written_in (p : str) (n : str) : Prop :=
  exists ts, lexes p ts /\ ((exists e, In (TElement e) ts /\ n = el_name e) \/ In (TString n) ts).
