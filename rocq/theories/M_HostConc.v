(** * Host commands as clients of a shared store: wander/src/lib.rs

    [M_Conc] writes the interpreter with the nine commands out as a program that
    makes one call on the store after another.  Here the same for a table of any
    commands ([M_Commands]). *)
From Coq Require Import List Arith NArith Bool String.
From Verif Require Import M_Base M_Data M_Regex M_Lexer M_Graph M_Parser M_Display M_Interp M_Conc M_Commands.
Import ListNotations.
Open Scope list_scope.

Section Level.
  (** The program of the calls a command has run. *)
  Context (rp : list call -> prog).

  (** A command, wander/src/lib.rs:33-43: a panic of the store or of the calls it
      has run unwinds it. *)
  Fixpoint body_prog (b : body) : prog :=
    match b with
    | BDone r => Done r
    | BAsk q k =>
        Ask q (fun a => match ans_panic q a with Some w => Done (Panic w) | None => body_prog (k a) end)
    | BRun calls k =>
        pbind (rp calls) (fun out =>
          match out with
          | Ok v => body_prog (k (inl v))
          | Err e => body_prog (k (inr e))
          | Panic w => Done (Panic w)
          end)
    end.

  (** wander/src/lib.rs:188-208 [run_calls] *)
  Fixpoint calls_prog (cs : table) (calls : list call) (result : value) : prog :=
    match calls with
    | [] => Done (Ok result)
    | c :: rest =>
        match find_cmd cs (el_name (c_name c)) with
        | None => Done (Err (WErr (lit "Could not find command: " ++ el_name (c_name c))))
        | Some x =>
            pbind (body_prog (cmd_does x (listing cs) (c_args c))) (fun out =>
              match out with
              | Ok v => calls_prog cs rest v
              | Err e => Done (Err e)
              | Panic w => Done (Panic w)
              end)
        end
    end.
End Level.

(** [run_calls] with at most [n] of it open at a time; a deeper recursion is given
    up (with a panic that the code does not have: C128_room says when it is never
    seen). *)
Fixpoint deep_prog (cs : table) (n : nat) (calls : list call) : prog :=
  match n with
  | O => Done (Panic PFuel)
  | S n' => calls_prog (deep_prog cs n') cs calls unit_value
  end.

(** How deep quotes stand inside one another in the calls. *)
Definition quotes_deep (calls : list call) : nat := fold_right (fun c n => Nat.max (depths (c_args c)) n) 0 calls.

Definition host_calls (cs : table) (calls : list call) : prog := deep_prog cs (S (quotes_deep calls)) calls.

(** wander/src/lib.rs:211-225 [run] *)
Definition host_run (cs : table) (script : str) : prog :=
  match tokenize_and_filter script with
  | Err e => Done (Err e)
  | Panic w => Done (Panic w)
  | Ok tokens =>
      match parse tokens with
      | Err e => Done (Err e)
      | Panic w => Done (Panic w)
      | Ok calls => host_calls cs calls
      end
  end.
