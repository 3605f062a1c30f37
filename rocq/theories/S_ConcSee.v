(** * Specification vocabulary: what the clients of a store see *)
From Coq Require Import List Arith NArith Bool String.
From Verif Require Import M_Base M_Data M_Regex M_Lexer M_Graph M_Parser M_Interp M_Conc S_Store S_Graph S_Conc.
Import ListNotations.
Open Scope list_scope.

(** A call: by whom, which, and what the store answered. *)
Record event := Event { who : nat; what : req; said : ans what }.

(** The calls of a schedule, in the order they were made. *)
Fixpoint events {S : Type} (L : lig_impl S) (sched : list nat) (x : pool S) : list event :=
  match sched with
  | [] => []
  | i :: rest =>
      match clients x i with
      | Done _ => events L rest x
      | Ask q _ => Event i q (fst (perform L q (shared x))) :: events L rest (turn L i x)
      end
  end.

(** A client that never removes. *)
Definition keeps_all (p : prog) : Prop :=
  forall q, asks p q -> (forall c, q <> QRemoveCollection c) /\ (forall c es, q <> QRemoveEntries c es).

(** The call put the entry (in the form in which it is read) into the collection,
    and the store said so; it created the collection, and the store said so. *)
Definition put_by (e : event) (c : str) (n : entry) : Prop :=
  exists i x es m, e = Event i (QAddEntries x es) (Ok tt) /\ el_name x = c /\ In m es /\ normalises m n.
Definition created_by (e : event) (c : str) : Prop :=
  exists i x, e = Event i (QAddCollection x) (Ok tt) /\ el_name x = c.
