(** * Specification vocabulary: many lives of a process, with any clients in them *)
From Coq Require Import List Arith NArith.
From Verif Require Import M_Base M_Data M_Heed M_Graph M_Parser M_Interp M_Conc M_TxnConc S_Conc S_TxnConc S_Isolated S_Apart.
Import ListNotations.

(** One life: clients begun all at once, what goes wrong with their writes and
    commits, what happens.  Then the process is gone, whoever has ended or not. *)
Record life := Life { l_clients : list prog; l_faults : list fault; l_happens : list happening }.

Definition client_of (l : life) (j : nat) : prog := nth j (l_clients l) gone.

Definition close_of (l : life) (d : heed) : system := go_on (l_happens l) (start d (l_faults l) (client_of l)).

(** What was committed is what the next life begins with. *)
Fixpoint remains (ls : list life) (d : heed) : heed :=
  match ls with [] => d | l :: rest => remains rest (file (close_of l d)) end.

(** The clients of the lives in the orders given for each life. *)
Fixpoint in_order (ls : list life) (orders : list (list nat)) : list prog :=
  match ls, orders with
  | l :: ls, o :: os => map (client_of l) o ++ in_order ls os
  | _, _ => []
  end.

(** The ids that the calls of a life can use up, and those of all lives, with [n] more
    for each client. *)
Definition used_up (l : life) (d : heed) : N :=
  events_weight (answered (graph_impl lmdb_at_once) (moments (l_happens l) (start d (l_faults l) (client_of l))) (Pool (d, l_faults l) (client_of l))).
Fixpoint lives_use (ls : list life) (d : heed) (n : N) : N :=
  match ls with
  | [] => 0
  | l :: rest => used_up l d + N.of_nat (List.length (l_clients l)) * n + lives_use rest (file (close_of l d)) n
  end%N.
