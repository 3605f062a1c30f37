(** * Specification vocabulary: any client begun again after kills and failures *)
From Coq Require Import List Arith NArith Bool String.
From Verif Require Import M_Base M_Data M_Heed M_Graph M_Parser M_Interp M_Conc M_Commands M_TxnConc S_Store S_Conc S_TxnConc.
Import ListNotations.
Open Scope list_scope.

(** The client may ask what the collection holds. *)
Definition may_ask (p : prog) (c : str) : Prop :=
  exists q e, asks p q /\ el_name e = c /\ (q = QEntries e \/ exists f, q = QFilter e f).

(** A client that creates collections, adds entries, and reads and searches
    collections, and nothing else. *)
Inductive gathering : req -> Prop :=
| ga_create c : gathering (QAddCollection c)
| ga_add c es : gathering (QAddEntries c es)
| ga_read c : gathering (QEntries c)
| ga_filter c f : gathering (QFilter c f).
Definition gathers (p : prog) : Prop := forall q, asks p q -> gathering q.

(** A call that panics is the last it makes. *)
Fixpoint unwinds (p : prog) : Prop :=
  match p with
  | Done _ => True
  | Ask q k => (forall a w, ans_panic q a = Some w -> exists r, k a = Done r) /\ forall a, unwinds (k a)
  end.

(** A panic of a call is the panic of the whole. *)
Fixpoint falls (p : prog) : Prop :=
  match p with
  | Done _ => True
  | Ask q k => (forall a w, ans_panic q a = Some w -> k a = Done (Panic w)) /\ forall a, falls (k a)
  end.

(** The same of a command: its calls on the store. *)
Inductive gathers_only : body -> Prop :=
| go_done r : gathers_only (BDone r)
| go_ask q k : gathering q -> (forall a, gathers_only (k a)) -> gathers_only (BAsk q k)
| go_run calls k : (forall r, gathers_only (k r)) -> gathers_only (BRun calls k).
Definition gatherer (x : cmd) : Prop := forall l args, gathers_only (cmd_does x l args).

(** The store, and the failures still to come, after the client was begun once for
    every number of [ms] and killed each time after that many of its calls, if it
    had not ended. *)
Definition begun {S : Type} (L : lig_impl S) (p : prog) (ms : list nat) (s : S) : S :=
  fold_left (fun s m => snd (alone L m p s)) ms s.

(** The same, each time killed after that many operations on the LMDB file. *)
Definition begun_operations (p : prog) (ns : list nat) (s : heed * list fault) : heed * list fault :=
  fold_left (fun s n =>
    let x := die 0 (go_on (repeat (Moves 0) n) (start (fst s) (snd s) (fun _ => p))) in (file x, faults x)) ns s.
