(** * Commands as the functions they are: wander/src/lib.rs and prelude.rs

    [M_Interp] knows the nine commands of the prelude by name, and host commands
    that do not evaluate quotes.  Here a command is what a host may put into the
    table: any function of its arguments that makes calls on the store and has
    quotes, calls or scripts run on the way.  The nine commands are written once
    more as such functions. *)
From Coq Require Import List Arith NArith Bool String.
From Verif Require Import M_Base M_Data M_Regex M_Lexer M_Graph M_Parser M_Display M_Interp M_Conc.
Import ListNotations.
Open Scope list_scope.

(** What the code of a command does: it answers; it makes a call of the trait
    [Ligature] on the [&mut dyn Ligature] it was given; or it has calls run by
    [run_calls] (wander/src/lib.rs:188), with the commands and the store it was
    given, and goes on with their result.  A panic of either unwinds it.
    (Simplifications: a host function could run calls with another table of
    commands, keep state of its own in globals, or not return.) *)
Inductive body :=
| BDone (r : wres value)
| BAsk (q : req) (k : ans q -> body)
| BRun (calls : list call) (k : value + werr -> body).

(** wander/src/lib.rs:164-185 [run_quote(quote, commands, state)] *)
Definition quote_then (q : list value) (k : value + werr -> body) : body :=
  match q with
  | [] => k (inl unit_value)
  | VElement name :: args => BRun [Call name args] k
  | _ => BDone (Panic PTodo)
  end.

(** wander/src/lib.rs:211-225 [run(script, commands, state)] *)
Definition script_then (script : str) (k : value + werr -> body) : body :=
  match tokenize_and_filter script with
  | Err e => k (inr e)
  | Panic w => BDone (Panic w)
  | Ok tokens =>
      match parse tokens with
      | Err e => k (inr e)
      | Panic w => BDone (Panic w)
      | Ok calls => BRun calls k
      end
  end.

(** wander/src/lib.rs:33-43 [Command].  What a command can see of the table it is
    in is the names and documentation strings, in some order. *)
Record cmd := Cmd { cmd_says : str; cmd_does : list (str * str) -> list value -> body }.
Definition table := list (str * cmd).
Definition listing (cs : table) : list (str * str) := map (fun nc => (fst nc, cmd_says (snd nc))) cs.

(** [HashMap::get] *)
Fixpoint find_cmd (cs : table) (name : str) : option cmd :=
  match cs with
  | [] => None
  | (n, c) :: r => if str_eqb n name then Some c else find_cmd r name
  end.

(** ** The commands of the prelude *)

(** prelude.rs:80-99 *)
Definition b_docs (names : list (str * str)) (args : list value) : body :=
  BDone match args with
        | [] => Ok (VNetwork (bs_collect entry_cmp
                   (map (fun nd => Role (mkE (fst nd)) (mkE (snd nd)) (mkE (lit "docString"))) names)))
        | _ => Err (WErr (lit "docs takes no arguments."))
        end.

(** prelude.rs:101-123 *)
Definition b_union (_ : list (str * str)) (args : list value) : body :=
  BDone match args with
        | [l; r] =>
            match l with
            | VNetwork ln =>
                match r with
                | VNetwork rn => Ok (VNetwork (bs_append entry_cmp ln rn))
                | _ => Panic PTodo
                end
            | _ => Panic PTodo
            end
        | _ => Err (WErr (lit "union takes two arguments."))
        end.

(** prelude.rs:125-134 *)
Definition b_id (_ : list (str * str)) (args : list value) : body :=
  BDone match args with [v] => Ok v | _ => Err (WErr (lit "Id requires a single argument.")) end.

(** prelude.rs:136-142 *)
Definition b_ignore (_ : list (str * str)) (_ : list value) : body := BDone (Ok unit_value).

(** prelude.rs:150-157, 158-165: a quote is run and an error of it returned; any
    other value is itself. *)
Definition value_then (v : value) (k : value -> body) : body :=
  match v with
  | VQuote q => quote_then q (fun r => match r with inl x => k x | inr e => BDone (Err e) end)
  | v => k v
  end.

(** prelude.rs:144-180 *)
Definition b_assert_equal (_ : list (str * str)) (args : list value) : body :=
  match args with
  | [l; r] =>
      value_then l (fun lv =>
      value_then r (fun rv =>
        BDone (if value_eqb lv rv then Ok unit_value
               else Err (WErr (lit "Assertion failed, " ++ display lv ++ lit " != " ++ display rv)))))
  | _ => BDone (Err (WErr (lit "`assertEq` function requires two parameters.")))
  end.

(** prelude.rs:182-197 *)
Definition b_assert_fail (_ : list (str * str)) (args : list value) : body :=
  match args with
  | [VQuote q] =>
      quote_then q (fun r =>
        BDone match r with
              | inl _ => Err (WErr (lit "Expected failure."))
              | inr _ => Ok unit_value
              end)
  | _ => BDone (Err (WErr (lit "`assert-fail` function expected to be passed a Quote.")))
  end.

(** prelude.rs:206-207 and 212-213: what the two calls answer is ignored. *)
Definition store_body (name : element) (network : list entry) : body :=
  BAsk (QAddCollection name) (fun _ =>
  BAsk (QAddEntries name network) (fun _ =>
  BDone (Ok unit_value))).

(** prelude.rs:199-221 *)
Definition b_let (_ : list (str * str)) (args : list value) : body :=
  match args with
  | [VElement name; VNetwork network] => store_body name network
  | [VElement name; VQuote q] =>
      quote_then q (fun r =>
        match r with
        | inl (VNetwork n) => store_body name n
        | _ => BDone (Panic PTodo)
        end)
  | _ => BDone (Err (WErr (lit "Invalid call to let.")))
  end.

(** prelude.rs:223-235 *)
Definition b_read (_ : list (str * str)) (args : list value) : body :=
  match args with
  | [VElement name] =>
      BAsk (QEntries name) (fun a : lres (list entry) =>
        BDone match a with
              | Ok es => Ok (VNetwork es)
              | Err e => Err (WErr (lit "Error " ++ e))
              | Panic w => Panic w
              end)
  | _ => BDone (Panic PTodo)
  end.

(** prelude.rs:237-262 *)
Definition b_filter (_ : list (str * str)) (args : list value) : body :=
  match args with
  | [VElement collection; VElement first; VElement second; VElement third] =>
      BAsk (QFilter collection (Role first third second)) (fun a : lres (list entry) =>
        BDone match a with
              | Ok es => Ok (VNetwork es)
              | Err _ => Panic PTodo
              | Panic w => Panic w
              end)
  | _ => BDone (Panic PTodo)
  end.

(** prelude.rs:11-78 [common] *)
Definition prelude : table :=
  [ (lit "assert-equal", Cmd (lit "Check if two arguments are equal (quotes are evaluated before comparing) and fail if they are not equal.") b_assert_equal);
    (lit "assert-fail", Cmd (lit "Accept a quote and run it. If the quote results in a failure continue otherwise fail.") b_assert_fail);
    (lit "ignore", Cmd (lit "Ignore all arguments to this command and return an empty network.") b_ignore);
    (lit "let", Cmd (lit "Set a named network.") b_let);
    (lit "read", Cmd (lit "Read a network.") b_read);
    (lit "id", Cmd (lit "Return a value.") b_id);
    (lit "docs", Cmd (lit "Get a list of commands and a description.") b_docs);
    (lit "union", Cmd (lit "Combine two networks.") b_union);
    (lit "filter", Cmd (lit "Filter a network.") b_filter) ].

(** ** The interpreter *)

(** Whether the answer of a call is a panic. *)
Definition res_panic {A : Type} (r : lres A) : option why := match r with Panic w => Some w | _ => None end.
Definition ans_panic (q : req) : ans q -> option why :=
  match q with
  | QCollections => res_panic
  | QAddCollection _ | QRemoveCollection _ | QAddEntries _ _ | QRemoveEntries _ _ => res_panic
  | QEntries _ | QFilter _ _ => res_panic
  end.

Section Run.
  Context {St : Type} (L : lig_impl St) (cs : table).

  Section Level.
    (** [run_calls] for the calls a command has run; [None]: the recursion is
        deeper than was allowed for. *)
    Context (rc : list call -> St -> option (wres value * St)).

    Fixpoint body_run (b : body) (st : St) : option (wres value * St) :=
      match b with
      | BDone r => Some (r, st)
      | BAsk q k =>
          let (a, st') := perform L q st in
          match ans_panic q a with
          | Some w => Some (Panic w, st')
          | None => body_run (k a) st'
          end
      | BRun calls k =>
          match rc calls st with
          | None => None
          | Some (Ok v, st') => body_run (k (inl v)) st'
          | Some (Err e, st') => body_run (k (inr e)) st'
          | Some (Panic w, st') => Some (Panic w, st')
          end
      end.

    (** wander/src/lib.rs:188-208 [run_calls]: the loop with its [result]. *)
    Fixpoint calls_run (calls : list call) (result : value) (st : St) : option (wres value * St) :=
      match calls with
      | [] => Some (Ok result, st)
      | c :: rest =>
          match find_cmd cs (el_name (c_name c)) with
          | None => Some (Err (WErr (lit "Could not find command: " ++ el_name (c_name c))), st)
          | Some x =>
              match body_run (cmd_does x (listing cs) (c_args c)) st with
              | None => None
              | Some (Ok v, st') => calls_run rest v st'
              | Some (Err e, st') => Some (Err e, st')
              | Some (Panic w, st') => Some (Panic w, st')
              end
          end
      end.
  End Level.

  (** [run_calls], with at most [n] of it open at a time. *)
  Fixpoint run_deep (n : nat) (calls : list call) (st : St) : option (wres value * St) :=
    match n with
    | O => None
    | S n' => calls_run (run_deep n') calls unit_value st
    end.

  (** wander/src/lib.rs:211-225 [run] *)
  Definition script_deep (n : nat) (script : str) (st : St) : option (wres value * St) :=
    match tokenize_and_filter script with
    | Err e => Some (Err e, st)
    | Panic w => Some (Panic w, st)
    | Ok tokens =>
        match parse tokens with
        | Err e => Some (Err e, st)
        | Panic w => Some (Panic w, st)
        | Ok calls => run_deep n calls st
        end
    end.
End Run.
