(** * Specification vocabulary: a database file over many lives of its process *)
From Coq Require Import List Arith.
From Verif Require Import M_Base M_Data M_Heed M_Regex M_Lexer M_Graph M_Parser M_Interp M_Conc M_TxnConc S_TxnConc.
Import ListNotations.

(** One life: scripts begun all at once, what goes wrong with their writes and
    commits, what happens (operations and deaths).  Then the process is gone, whoever
    has ended or not. *)
Record generation := Gen { g_scripts : list str; g_faults : list fault; g_happens : list happening }.

Definition end_of (g : generation) (d : heed) : system :=
  go_on (g_happens g) (start d (g_faults g) (fun j => p_run common (nth j (g_scripts g) []))).

(** What is left of the file: what was committed.  The next life begins with it. *)
Fixpoint file_after (gs : list generation) (d : heed) : heed :=
  match gs with [] => d | g :: rest => file_after rest (file (end_of g d)) end.

(** Script [j] came to its end, with result [r]. *)
Definition heard (g : generation) (d : heed) (j : nat) (r : wres value) : Prop :=
  j < List.length (g_scripts g) /\ ~ In (Dies j) (g_happens g) /\ doing (end_of g d) j = Idle (Done r).
