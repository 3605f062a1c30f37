(** * Specification vocabulary: redb files *)
From Coq Require Import List NArith Bool String.
From Verif Require Import M_Base M_Redb.
Import ListNotations.
Open Scope list_scope.

(** The table of that name in the file at that path. *)
Definition shows (d : disk) (path name : str) : option table :=
  match bm_get str_cmp path d with
  | Some (RedbFile ts) => bm_get str_cmp name ts
  | _ => None
  end.

(** The tables a Ligature store has, with their types. *)
Definition wanted : list (str * (ty * ty)) :=
  [(lit "IDS", (TyStr, TyU64));
   (lit "DATASETS_ID", (TyStr, TyU64)); (lit "ID_DATASETS", (TyU64, TyStr));
   (lit "IDENTIFIER_ID", (TyStr, TyU64)); (lit "ID_IDENTIFIER", (TyStr, TyU64));
   (lit "EAV", (TyBytes, TyUnit))].

(** Nothing outside the program goes wrong. *)
Definition lucky (l : luck) : Prop :=
  l_create l = true /\ l_begin l = true /\ (forall n, In n (map fst wanted) -> l_table l n = true) /\ l_commit l = true.

(** The path is free, or holds a redb file none of whose tables has a wanted name
    and other types. *)
Definition suitable (d : disk) (path : str) : Prop :=
  (forall b, bm_get str_cmp path d <> Some (OtherFile b))
  /\ forall n k v t, In (n, (k, v)) wanted -> shows d path n = Some t -> tb_key t = k /\ tb_val t = v.

(** Any number of attempts to open stores, whatever the environment does. *)
Fixpoint after_opens (d : disk) (os : list (luck * str)) : disk :=
  match os with
  | [] => d
  | (l, p) :: r => after_opens (snd (redb_create l p d)) r
  end.
