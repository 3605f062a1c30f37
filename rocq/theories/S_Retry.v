(** * Specification vocabulary: kills and failing disks together *)
From Coq Require Import List Arith NArith Bool String.
From Verif Require Import M_Base M_Data M_Heed M_Graph M_Parser M_Interp M_Conc M_TxnConc S_Store S_Conc S_TxnConc S_Wander S_Deaths S_Failing.
Import ListNotations.
Open Scope list_scope.

(** The scripts of the deeds done to a store. *)
Fixpoint scripts_of (ds : list deed) : list str :=
  match ds with
  | [] => []
  | Runs x :: r | DiesAfter x _ :: r => x :: scripts_of r
  end.

(** Of the results of all of them, those of the scripts that were not killed:
    the results somebody has seen. *)
Fixpoint seen {A : Type} (ds : list deed) (l : list A) : list A :=
  match ds, l with
  | Runs _ :: r, a :: l => a :: seen r l
  | DiesAfter _ _ :: r, _ :: l => seen r l
  | _, _ => []
  end.
