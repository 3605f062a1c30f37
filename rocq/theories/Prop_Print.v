(** * Printing tells values apart *)
From Coq Require Import List NArith Bool String.
From Verif Require Import M_Base M_Data M_Regex M_Lexer M_Graph M_Parser M_Display
  S_Order S_Graph S_Lexer S_Parser S_Display P_Display P_Print.
Import ListNotations.
Open Scope list_scope.

(** C90.  Two values - quotes nested to any depth, any characters in names - print
    the same exactly when they differ in namespaces and language tags only. *)
Theorem C90_printed_alike : forall v w, display v = display w <-> same_names v w.
Proof. intros v w. split; [apply display_same|apply same_display]. Qed.
Print Assumptions C90_printed_alike.

(** So without namespaces and language tags printing is injective. *)
Theorem C90_bare_injective : forall v w, bare_value v -> bare_value w -> display v = display w -> v = w.
Proof. intros v w A B E. apply bare_names; [exact A|exact B|]. apply display_same, E. Qed.
Print Assumptions C90_bare_injective.

(** Values one after the other, as in a quote or on a line: no printed value is a
    proper beginning of another. *)
Theorem C90_prefix : forall v w x, display w = display v ++ x -> x = [].
Proof. exact display_prefix. Qed.
Print Assumptions C90_prefix.

(** An Extends and a role named with a colon print differently; so do nested
    quotes with the same leaves; namespaces do not show. *)
Example C90_case :
  display (VNetwork [Extends (mkE (lit "a")) (mkE (lit "b"))])
    <> display (VNetwork [Role (mkE (lit "a")) (mkE (lit "b")) (mkE (lit ":"))])
  /\ display (VQuote [VQuote [VElement (mkE (lit "a"))]; VElement (mkE (lit "b"))])
    <> display (VQuote [VQuote [VElement (mkE (lit "a")); VElement (mkE (lit "b"))]])
  /\ display (VElement (mkE [97; 34; 32; 34; 98]%N)) <> display (VQuote [VElement (mkE (lit "a")); VElement (mkE (lit "b"))])
  /\ display (VElement (Elem (lit "a") (Some (lit "n")) None)) = display (VElement (mkE (lit "a")))
  /\ bare_value (VQuote [VQuote [VElement (mkE (lit "a"))]; VElement (mkE (lit "b"))]).
Proof.
  repeat match goal with |- _ /\ _ => split end; try (vm_compute; discriminate); try (vm_compute; reflexivity).
  repeat constructor.
Qed.
