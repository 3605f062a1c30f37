(** * Model of ligature-redb/src/lib.rs: opening a store

    Only the six tables are created; the functions that would use them are
    commented out, apart from [next_id] (in [M_Hosts]). *)
From Coq Require Import List NArith Bool String.
From Verif Require Import M_Base.
Import ListNotations.
Open Scope list_scope.

(** ** redb (external): a file holds named tables; a table has the types of its
    keys and values, and rows of bytes. *)
Inductive ty := TyStr | TyU64 | TyBytes | TyUnit.

Definition ty_eqb (a b : ty) : bool :=
  match a, b with
  | TyStr, TyStr | TyU64, TyU64 | TyBytes, TyBytes | TyUnit, TyUnit => true
  | _, _ => false
  end.

Record tdef := Tdef { td_name : str; td_key : ty; td_val : ty }.
Record table := Table { tb_key : ty; tb_val : ty; tb_rows : list (list N * list N) }.
Definition tables := list (str * table).

(** What a path of the file system holds. *)
Inductive content := RedbFile (ts : tables) | OtherFile (bytes : list N).
Definition disk := list (str * content).

(** The errors, by where they arise; their texts are not modelled. *)
Inductive rerr := EStorage | ENotRedb | ETypes (name : str).

(** What the environment does: whether each step that can fail for reasons outside
    the program succeeds. *)
Record luck := Luck { l_create : bool; l_begin : bool; l_table : str -> bool; l_commit : bool }.

(** External: [Database::create] opens an existing redb file, creates a new one
    where there is none, and refuses a file that is not redb's. *)
Definition database_create (l : luck) (path : str) (d : disk) : res rerr (tables * disk) :=
  if l_create l then
    match bm_get str_cmp path d with
    | Some (RedbFile ts) => Ok (ts, d)
    | Some (OtherFile _) => Err ENotRedb
    | None => Ok ([], bm_insert str_cmp path (RedbFile []) d)
    end
  else Err EStorage.

(** External: [WriteTransaction::open_table] creates the table if it is not there
    and refuses one of other types.  (The handle is dropped at once, so the table
    is never open already.) *)
Definition open_table (l : luck) (def : tdef) (ts : tables) : res rerr tables :=
  if l_table l (td_name def) then
    match bm_get str_cmp (td_name def) ts with
    | Some t => if ty_eqb (tb_key t) (td_key def) && ty_eqb (tb_val t) (td_val def) then Ok ts else Err (ETypes (td_name def))
    | None => Ok (bm_insert str_cmp (td_name def) (Table (td_key def) (td_val def) []) ts)
    end
  else Err EStorage.

(** lib.rs:18-44 [mod tables] *)
Definition IDS_TABLE : tdef := Tdef (lit "IDS") TyStr TyU64.
Definition DATASETS_ID_TABLE : tdef := Tdef (lit "DATASETS_ID") TyStr TyU64.
Definition ID_DATASETS_TABLE : tdef := Tdef (lit "ID_DATASETS") TyU64 TyStr.
Definition IDENTIFIER_ID_TABLE : tdef := Tdef (lit "IDENTIFIER_ID") TyStr TyU64.
Definition ID_IDENTIFIER_TABLE : tdef := Tdef (lit "ID_IDENTIFIER") TyStr TyU64.
Definition EAV_TABLE : tdef := Tdef (lit "EAV") TyBytes TyUnit.

(** The [?] after each call. *)
Definition and_then {A B : Type} (r : res rerr A) (k : A -> res rerr B) : res rerr B :=
  match r with Ok a => k a | Err e => Err e | Panic w => Panic w end.

(** lib.rs:96-111: the write transaction.  Dropping it without a commit (any [?]
    that returns) aborts it, so its tables are only written at the end. *)
Definition create_tables (l : luck) (ts : tables) : res rerr tables :=
  if l_begin l then
    and_then (open_table l IDS_TABLE ts) (fun ts =>
    and_then (open_table l DATASETS_ID_TABLE ts) (fun ts =>
    and_then (open_table l ID_DATASETS_TABLE ts) (fun ts =>
    and_then (open_table l IDENTIFIER_ID_TABLE ts) (fun ts =>
    and_then (open_table l ID_IDENTIFIER_TABLE ts) (fun ts =>
    and_then (open_table l EAV_TABLE ts) (fun ts =>
    if l_commit l then Ok ts else Err EStorage))))))
  else Err EStorage.

(** lib.rs:93-119 [LigatureRedb::create].  The instance is its path. *)
Definition redb_create (l : luck) (path : str) (d : disk) : res rerr str * disk :=
  match database_create l path d with
  | Ok (ts, d1) =>
      match create_tables l ts with
      | Ok ts' => (Ok path, bm_insert str_cmp path (RedbFile ts') d1)
      | Err e => (Err e, d1)
      | Panic w => (Panic w, d1)
      end
  | Err e => (Err e, d)
  | Panic w => (Panic w, d)
  end.

(** External: [PathBuf::push] of a relative component. *)
Definition push (p c : str) : str :=
  match p with
  | [] => c
  | _ => if N.eqb (last p 0%N) 47 then p ++ c else p ++ 47%N :: c
  end.

(** How [default] and [temp] end: an instance, an error, or a panic - of
    [.unwrap()] or with a message (and the error whose text it quotes). *)
Inductive ending := Made (path : str) | Refused (e : rerr) | CrashedUnwrap | Crashed (msg : str) (cause : option rerr).

Definition could_not : str := lit "Could not create LigatureRedb instance in default location.".

(** lib.rs:56-75 [Default for LigatureRedb].  [home] is [home_dir()], [dirs]
    whether [create_dir_all] succeeds; directories are not modelled otherwise. *)
Definition redb_default (home : option str) (dirs : bool) (l : luck) (d : disk) : ending * disk :=
  match home with
  | Some p =>
      let dir := push (push p (lit ".ligature")) (lit "redb") in
      if dirs then
        match redb_create l (push dir (lit "ligature.redb")) d with
        | (Ok i, d') => (Made i, d')
        | (Err e, d') => (Crashed (could_not ++ [10%N]) (Some e), d')
        | (Panic w, d') => (CrashedUnwrap, d')
        end
      else (CrashedUnwrap, d)
  | None => (Crashed could_not None, d)
  end.

(** lib.rs:78-91 [LigatureRedb::temp].  [suffix]: the eight random characters. *)
Definition redb_temp (suffix : str) (home : option str) (dirs : bool) (l : luck) (d : disk) : ending * disk :=
  match home with
  | Some p =>
      let dir := push (push p (lit ".ligature")) (lit "redb") in
      if dirs then
        match redb_create l (push dir (lit "ligature-" ++ suffix ++ lit ".redb")) d with
        | (Ok i, d') => (Made i, d')
        | (Err _, d') => (Crashed could_not None, d')
        | (Panic w, d') => (CrashedUnwrap, d')
        end
      else (CrashedUnwrap, d)
  | None => (Crashed could_not None, d)
  end.
