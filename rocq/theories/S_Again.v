(** * Specification vocabulary: a script that is begun again and again *)
From Coq Require Import List Arith NArith Bool String.
From Verif Require Import M_Base M_Data M_Heed M_Graph M_Parser M_Interp M_Conc S_Store S_Conc S_Wander.
Import ListNotations.
Open Scope list_scope.

(** The store after the script was begun once for every number of [ms], and died
    each time after that many of its store calls. *)
Definition attempts {S : Type} (L : lig_impl S) (script : str) (ms : list nat) (s : S) : S :=
  fold_left (fun s m => snd (alone L m (p_run common script) s)) ms s.

(** An LMDB store that the history [h] has made, with a log of the writing calls. *)
Definition with_log (h : list op) : heed * list op := (after heed_impl heed_new h, h).

(** Each time the script was begun, the numbers of the store would have lasted. *)
Definition numbers_last (script : str) (ms : list nat) (h : list op) : Prop :=
  forall k, let L := graph_impl (logged heed_impl) in
    (total_weight (snd (snd (run L common script (attempts L script (firstn k ms) (with_log h))))) < 2 ^ 64)%N.
