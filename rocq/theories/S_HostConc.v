(** * Specification vocabulary: host commands as clients of a shared store *)
From Coq Require Import List Arith NArith Bool String.
From Verif Require Import M_Base M_Data M_Regex M_Lexer M_Parser M_Interp M_Conc M_Commands S_Parser S_Conc S_Commands.
Import ListNotations.
Open Scope list_scope.

(** Two clients that make the same calls, whatever the answers, and have the same
    result. *)
Inductive same_client : prog -> prog -> Prop :=
| sc_done r : same_client (Done r) (Done r)
| sc_ask q k k' : (forall a, same_client (k a) (k' a)) -> same_client (Ask q k) (Ask q k').

(** A value is among the arguments, or among the arguments of a quote among them,
    and so on. *)
Inductive within (v : value) : list value -> Prop :=
| wi_here l : In v l -> within v l
| wi_deep l h q : In (VQuote (h :: q)) l -> within v q -> within v l.

(** A command that stays with its arguments: it makes calls about collections
    named in them only, does not list the collections and removes no entries, and
    what it has run is a quote it was given or a part of one. *)
Inductive stays_with (args : list value) : body -> Prop :=
| sw_done r : stays_with args (BDone r)
| sw_ask q k e :
    within (VElement e) args -> about q = Some (el_name e) -> (forall c es, q <> QRemoveEntries c es) ->
    (forall a, stays_with args (k a)) -> stays_with args (BAsk q k)
| sw_run n qargs k :
    within (VQuote (VElement n :: qargs)) args -> (forall a, stays_with args (k a)) ->
    stays_with args (BRun [Call n qargs] k).

Definition homely (x : cmd) : Prop := forall l args, stays_with args (cmd_does x l args).

(** The client may make a writing call about the collection. *)
Definition may_change (p : prog) (c : str) : Prop :=
  exists q e, asks p q /\ el_name e = c
    /\ (q = QAddCollection e \/ q = QRemoveCollection e \/ (exists es, q = QAddEntries e es) \/ exists es, q = QRemoveEntries e es).

(** A sequence of store calls is a beginning of another. *)
Definition begins {A : Type} (l l' : list A) : Prop := exists m, l' = l ++ m.
