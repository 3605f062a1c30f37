(** * Several clients of one store

    Every call of the [Ligature] trait on an LMDB-backed graph is one LMDB
    transaction (trips/src/heed.rs), and LMDB runs write transactions of all
    threads and processes one after the other; so several clients of one file
    interleave call by call (C119 proves that from LMDB's rules, operation by
    operation).  The interpreter of [M_Interp] is written out here
    as a program that asks for one call after another (the same functions of
    wander/src/lib.rs and prelude.rs); C74 proves that it is the same interpreter. *)
From Coq Require Import List Arith NArith Bool String.
From Verif Require Import M_Base M_Data M_Regex M_Lexer M_Graph M_Parser M_Display M_Interp.
Import ListNotations.
Open Scope list_scope.

(** ** Calls, answers, programs *)

(** The calls of trait [Ligature], ligature/src/lib.rs:66-109. *)
Inductive req :=
| QCollections
| QAddCollection (c : element)
| QRemoveCollection (c : element)
| QEntries (c : element)
| QAddEntries (c : element) (es : list entry)
| QRemoveEntries (c : element) (es : list entry)
| QFilter (c : element) (p : entry).

Definition ans (q : req) : Type :=
  match q with
  | QCollections => lres (list element)
  | QAddCollection _ | QRemoveCollection _ | QAddEntries _ _ | QRemoveEntries _ _ => lres unit
  | QEntries _ | QFilter _ _ => lres (list entry)
  end.

(** Making the call.  (What [add_entries] does to the caller's set is not used by
    any command.) *)
Definition perform {S : Type} (L : lig_impl S) (q : req) (s : S) : ans q * S :=
  match q with
  | QCollections => (l_collections L s, s)
  | QAddCollection c => l_add_collection L s c
  | QRemoveCollection c => l_remove_collection L s c
  | QEntries c => (l_entries L s c, s)
  | QAddEntries c es => fst (l_add_entries L s c es)
  | QRemoveEntries c es => fst (l_remove_entries L s c es)
  | QFilter c p => (l_filter L s c p, s)
  end.

(** A client: it is done, or makes a call and goes on depending on the answer. *)
Inductive prog :=
| Done (r : wres value)
| Ask (q : req) (k : ans q -> prog).

Fixpoint pbind (p : prog) (f : wres value -> prog) : prog :=
  match p with
  | Done r => f r
  | Ask q k => Ask q (fun a => pbind (k a) f)
  end.

(** ** The interpreter as a program *)

(** prelude.rs:223-235 *)
Definition p_read (args : list value) : prog :=
  match args with
  | [VElement name] =>
      Ask (QEntries name) (fun a : lres (list entry) =>
        Done match a with
             | Ok es => Ok (VNetwork es)
             | Err e => Err (WErr (lit "Error " ++ e))
             | Panic w => Panic w
             end)
  | _ => Done (Panic PTodo)
  end.

(** prelude.rs:237-262 *)
Definition p_filter (args : list value) : prog :=
  match args with
  | [VElement collection; VElement first; VElement second; VElement third] =>
      Ask (QFilter collection (Role first third second)) (fun a : lres (list entry) =>
        Done match a with
             | Ok es => Ok (VNetwork es)
             | Err _ => Panic PTodo
             | Panic w => Panic w
             end)
  | _ => Done (Panic PTodo)
  end.

(** prelude.rs:206-207, 212-213 *)
Definition p_let_store (name : element) (network : list entry) : prog :=
  Ask (QAddCollection name) (fun a : lres unit =>
    match a with
    | Panic w => Done (Panic w)
    | _ =>
        Ask (QAddEntries name network) (fun b : lres unit =>
          match b with
          | Panic w => Done (Panic w)
          | _ => Done (Ok unit_value)
          end)
    end).

Section WithQuotes.
  Context (rq : list value -> prog).

  Definition p_value (v : value) : prog := match v with VQuote q => rq q | v => Done (Ok v) end.

  (** prelude.rs:144-180 *)
  Definition p_assert_equal (args : list value) : prog :=
    match args with
    | [l; r] =>
        pbind (p_value l) (fun lout =>
          match lout with
          | Ok lv =>
              pbind (p_value r) (fun rout =>
                match rout with
                | Ok rv =>
                    if value_eqb lv rv then Done (Ok unit_value)
                    else Done (Err (WErr (lit "Assertion failed, " ++ display lv ++ lit " != " ++ display rv)))
                | Err e => Done (Err e)
                | Panic w => Done (Panic w)
                end)
          | Err e => Done (Err e)
          | Panic w => Done (Panic w)
          end)
    | _ => Done (Err (WErr (lit "`assertEq` function requires two parameters.")))
    end.

  (** prelude.rs:182-197 *)
  Definition p_assert_fail (args : list value) : prog :=
    match args with
    | [VQuote q] =>
        pbind (rq q) (fun out =>
          match out with
          | Ok _ => Done (Err (WErr (lit "Expected failure.")))
          | Err _ => Done (Ok unit_value)
          | Panic w => Done (Panic w)
          end)
    | _ => Done (Err (WErr (lit "`assert-fail` function expected to be passed a Quote.")))
    end.

  (** prelude.rs:199-221 *)
  Definition p_let (args : list value) : prog :=
    match args with
    | [VElement name; VNetwork network] => p_let_store name network
    | [VElement name; VQuote q] =>
        pbind (rq q) (fun out =>
          match out with
          | Ok (VNetwork n) => p_let_store name n
          | Panic w => Done (Panic w)
          | _ => Done (Panic PTodo)
          end)
    | _ => Done (Err (WErr (lit "Invalid call to let.")))
    end.

  (** lib.rs:196.  Host commands here may not use the store: their state is [unit]. *)
  Definition p_exec (cs : @commands unit) (f : @cmd_fun unit) (args : list value) : prog :=
    match f with
    | FAssertEqual => p_assert_equal args
    | FAssertFail => p_assert_fail args
    | FIgnore => Done (fst (ignore_command args tt))
    | FLet => p_let args
    | FRead => p_read args
    | FId => Done (fst (id_command args tt))
    | FDocs => Done (fst (docs_command args tt cs))
    | FUnion => Done (fst (union_command args tt))
    | FFilter => p_filter args
    | FHost f => Done (fst (f args tt))
    end.

  (** lib.rs:188-208 *)
  Fixpoint p_calls_loop (cs : @commands unit) (calls : list call) (result : value) : prog :=
    match calls with
    | [] => Done (Ok result)
    | c :: rest =>
        match cmd_get cs (el_name (c_name c)) with
        | Some cmd =>
            pbind (p_exec cs (cmd_fun_of cmd) (c_args c)) (fun out =>
              match out with
              | Ok v => p_calls_loop cs rest v
              | Err e => Done (Err e)
              | Panic w => Done (Panic w)
              end)
        | None => Done (Err (WErr (lit "Could not find command: " ++ el_name (c_name c))))
        end
    end.
End WithQuotes.

(** lib.rs:164-185 *)
Fixpoint p_quote_f (fuel : nat) (cs : @commands unit) (q : list value) : prog :=
  match fuel with
  | O => Done (Panic PFuel)
  | S fuel' =>
      match q with
      | [] => Done (Ok unit_value)
      | VElement name :: args => p_calls_loop (p_quote_f fuel' cs) cs [Call name args] unit_value
      | _ => Done (Panic PTodo)
      end
  end.

Definition p_quote (cs : @commands unit) (q : list value) : prog := p_quote_f (S (depths q)) cs q.

(** lib.rs:188-208 *)
Definition p_calls (cs : @commands unit) (calls : list call) : prog :=
  p_calls_loop (p_quote cs) cs calls unit_value.

(** lib.rs:211-225 *)
Definition p_run (cs : @commands unit) (script : str) : prog :=
  match tokenize_and_filter script with
  | Err e => Done (Err e)
  | Panic w => Done (Panic w)
  | Ok tokens =>
      match parse tokens with
      | Err e => Done (Err e)
      | Panic w => Done (Panic w)
      | Ok calls => p_calls cs calls
      end
  end.

(** ** Running clients *)

(** Alone, to the end. *)
Fixpoint solo {S : Type} (L : lig_impl S) (p : prog) (s : S) : wres value * S :=
  match p with
  | Done r => (r, s)
  | Ask q k => let (a, s') := perform L q s in solo L (k a) s'
  end.

(** One store and its clients, numbered. *)
Record pool (S : Type) := Pool { shared : S; clients : nat -> prog }.
Arguments Pool {S}.
Arguments shared {S}.
Arguments clients {S}.

Definition update (f : nat -> prog) (i : nat) (p : prog) : nat -> prog :=
  fun j => if Nat.eqb j i then p else f j.

(** Client [i] makes its next call, if it is not done. *)
Definition turn {S : Type} (L : lig_impl S) (i : nat) (x : pool S) : pool S :=
  match clients x i with
  | Done _ => x
  | Ask q k => let (a, s) := perform L q (shared x) in Pool s (update (clients x) i (k a))
  end.

(** A schedule: whose turn it is, again and again. *)
Fixpoint interleave {S : Type} (L : lig_impl S) (sched : list nat) (x : pool S) : pool S :=
  match sched with
  | [] => x
  | i :: rest => interleave L rest (turn L i x)
  end.
