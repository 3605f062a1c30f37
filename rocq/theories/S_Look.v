(** * Specification vocabulary: the calls a session makes *)
From Coq Require Import List NArith Bool String.
From Verif Require Import M_Base M_Data M_Regex M_Lexer M_Graph M_Parser M_Display M_Interp M_Conc
  S_Store S_Interp S_Names S_Conc.
Import ListNotations.
Open Scope list_scope.

(** The store calls of a client that is alone, in order. *)
Fixpoint calls_alone {S : Type} (L : lig_impl S) (p : prog) (s : S) : list req :=
  match p with
  | Done _ => []
  | Ask q k => let (a, s') := perform L q s in q :: calls_alone L (k a) s'
  end.

(** The store calls of a session of scripts. *)
Fixpoint session_calls {S : Type} (L : lig_impl S) (scripts : list str) (s : S) : list req :=
  match scripts with
  | [] => []
  | x :: rest => calls_alone L (p_run common x) s ++ session_calls L rest (snd (run L common x s))
  end.

(** How many ids these calls can use up: LMDB needs one per collection and three
    per entry, DuckDB one and four. *)
Definition ids_needed (per_entry : N) (q : req) : N :=
  match q with
  | QAddCollection _ => 1
  | QAddEntries _ es => per_entry * N.of_nat (List.length es)
  | _ => 0
  end%N.
Definition total_needed (per_entry : N) (l : list req) : N := fold_right (fun q n => (ids_needed per_entry q + n)%N) 0%N l.

(** The script has a [let] for [c], at the top or inside a quote. *)
Definition lets (script : str) (c : str) : Prop :=
  exists tokens calls, tokenize_and_filter script = Ok tokens /\ parse tokens = Ok calls /\ calls_may_write calls c.
