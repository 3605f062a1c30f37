(** * The Wander interpreter: wander/src/lib.rs (run, run_calls, run_quote) and
    wander/src/prelude.rs (the commands) *)
From Coq Require Import List NArith Bool String.
From Verif Require Import M_Base M_Data M_Regex M_Lexer M_Graph M_Parser M_Display.
Import ListNotations.
Open Scope list_scope.

(** [#[derive(PartialEq)]] of [WanderValue] (wander/src/lib.rs:63).  Equality of
    [BTreeSet]s is elementwise equality. *)
Fixpoint entries_eqb (a b : list entry) : bool :=
  match a, b with
  | [], [] => true
  | x :: a', y :: b' => entry_eqb x y && entries_eqb a' b'
  | _, _ => false
  end.

Fixpoint value_eqb (a b : value) : bool :=
  match a, b with
  | VElement x, VElement y => element_eqb x y
  | VNetwork x, VNetwork y => entries_eqb x y
  | VQuote x, VQuote y =>
      (fix go (l m : list value) : bool :=
         match l, m with
         | [], [] => true
         | v :: l', w :: m' => value_eqb v w && go l' m'
         | _, _ => false
         end) x y
  | _, _ => false
  end.

(** The empty network every command without a result returns. *)
Definition unit_value : value := VNetwork [].

Section Interp.
  Context {St : Type} (lig : lig_impl St).

  (** wander/src/lib.rs:33-43 [Command]: a documentation string and a function
      pointer.  The nine functions of prelude.rs are named; [FHost] is any other
      host function that does not call back into the interpreter (those that do are
      in [M_Commands]). *)
  Inductive cmd_fun :=
  | FAssertEqual | FAssertFail | FIgnore | FLet | FRead | FId | FDocs | FUnion | FFilter
  | FHost (f : list value -> St -> wres value * St).

  Record command := Command { cmd_doc : str; cmd_fun_of : cmd_fun }.

  (** [HashMap<String, Command>]: a list of bindings; iteration order is not
      defined in Rust. *)
  Definition commands := list (str * command).

  (** [HashMap::get] *)
  Fixpoint cmd_get (cs : commands) (name : str) : option command :=
    match cs with
    | [] => None
    | (n, c) :: r => if str_eqb n name then Some c else cmd_get r name
    end.

  (** prelude.rs:80-99 *)
  Definition docs_command (args : list value) (st : St) (cs : commands) : wres value * St :=
    match args with
    | [] =>
        (Ok (VNetwork
               (bs_collect entry_cmp
                  (map (fun nc => Role (mkE (fst nc)) (mkE (cmd_doc (snd nc))) (mkE (lit "docString")))
                     cs))), st)
    | _ => (Err (WErr (lit "docs takes no arguments.")), st)
    end.

  (** prelude.rs:101-123 *)
  Definition union_command (args : list value) (st : St) : wres value * St :=
    match args with
    | [l; r] =>
        match l with
        | VNetwork ln =>
            match r with
            | VNetwork rn => (Ok (VNetwork (bs_append entry_cmp ln rn)), st)
            | _ => (Panic PTodo, st)
            end
        | _ => (Panic PTodo, st)
        end
    | _ => (Err (WErr (lit "union takes two arguments.")), st)
    end.

  (** prelude.rs:125-134 *)
  Definition id_command (args : list value) (st : St) : wres value * St :=
    match args with
    | [v] => (Ok v, st)
    | _ => (Err (WErr (lit "Id requires a single argument.")), st)
    end.

  (** prelude.rs:136-142 *)
  Definition ignore_command (args : list value) (st : St) : wres value * St :=
    (Ok unit_value, st).

  (** prelude.rs:223-235 *)
  Definition read_command (args : list value) (st : St) : wres value * St :=
    match args with
    | [VElement name] =>
        match l_entries lig st name with
        | Ok es => (Ok (VNetwork es), st)
        | Err e => (Err (WErr (lit "Error " ++ e)), st)
        | Panic w => (Panic w, st)
        end
    | _ => (Panic PTodo, st)
    end.

  (** prelude.rs:237-262; the pattern is Role{first, second: third, role: second} *)
  Definition filter_command (args : list value) (st : St) : wres value * St :=
    match args with
    | [VElement collection; VElement first; VElement second; VElement third] =>
        match l_filter lig st collection (Role first third second) with
        | Ok es => (Ok (VNetwork es), st)
        | Err _ => (Panic PTodo, st)
        | Panic w => (Panic w, st)
        end
    | _ => (Panic PTodo, st)
    end.

  (** prelude.rs:206-207 and 212-213: both [Result]s are ignored; only a panic
      gets through. *)
  Definition let_store (name : element) (network : list entry) (st : St) : wres value * St :=
    match l_add_collection lig st name with
    | (Panic w, st1) => (Panic w, st1)
    | (_, st1) =>
        match l_add_entries lig st1 name network with
        | (Panic w, st2, _) => (Panic w, st2)
        | (_, st2, _) => (Ok unit_value, st2)
        end
    end.

  Section WithQuotes.
    (** [run_quote], used by the commands that evaluate quotes. *)
    Context (rq : list value -> St -> wres value * St).

    (** prelude.rs:144-180 *)
    Definition assert_equal_command (args : list value) (st : St) : wres value * St :=
      match args with
      | [l; r] =>
          let lout := match l with VQuote q => rq q st | v => (Ok v, st) end in
          match lout with
          | (Ok lv, st1) =>
              let rout := match r with VQuote q => rq q st1 | v => (Ok v, st1) end in
              match rout with
              | (Ok rv, st2) =>
                  if value_eqb lv rv then (Ok unit_value, st2)
                  else (Err (WErr (lit "Assertion failed, " ++ display lv ++ lit " != " ++ display rv)), st2)
              | (Err e, st2) => (Err e, st2)
              | (Panic w, st2) => (Panic w, st2)
              end
          | (Err e, st1) => (Err e, st1)
          | (Panic w, st1) => (Panic w, st1)
          end
      | _ => (Err (WErr (lit "`assertEq` function requires two parameters.")), st)
      end.

    (** prelude.rs:182-197 *)
    Definition assert_fail_command (args : list value) (st : St) : wres value * St :=
      match args with
      | [VQuote q] =>
          match rq q st with
          | (Ok _, st1) => (Err (WErr (lit "Expected failure.")), st1)
          | (Err _, st1) => (Ok unit_value, st1)
          | (Panic w, st1) => (Panic w, st1)
          end
      | _ => (Err (WErr (lit "`assert-fail` function expected to be passed a Quote.")), st)
      end.

    (** prelude.rs:199-221 *)
    Definition let_command (args : list value) (st : St) : wres value * St :=
      match args with
      | [VElement name; VNetwork network] => let_store name network st
      | [VElement name; VQuote q] =>
          match rq q st with
          | (Ok (VNetwork n), st1) => let_store name n st1
          | (Panic w, st1) => (Panic w, st1)
          | (_, st1) => (Panic PTodo, st1)
          end
      | _ => (Err (WErr (lit "Invalid call to let.")), st)
      end.

    (** [(res.fun)(call.arguments, state, &commands)], lib.rs:196 *)
    Definition exec (cs : commands) (f : cmd_fun) (args : list value) (st : St) : wres value * St :=
      match f with
      | FAssertEqual => assert_equal_command args st
      | FAssertFail => assert_fail_command args st
      | FIgnore => ignore_command args st
      | FLet => let_command args st
      | FRead => read_command args st
      | FId => id_command args st
      | FDocs => docs_command args st cs
      | FUnion => union_command args st
      | FFilter => filter_command args st
      | FHost f => f args st
      end.

    (** wander/src/lib.rs:188-208 [run_calls]: the loop with its [result]. *)
    Fixpoint run_calls_loop (cs : commands) (calls : list call) (result : value) (st : St)
        : wres value * St :=
      match calls with
      | [] => (Ok result, st)
      | c :: rest =>
          match cmd_get cs (el_name (c_name c)) with
          | Some cmd =>
              match exec cs (cmd_fun_of cmd) (c_args c) st with
              | (Ok v, st') => run_calls_loop cs rest v st'
              | (Err e, st') => (Err e, st')
              | (Panic w, st') => (Panic w, st')
              end
          | None => (Err (WErr (lit "Could not find command: " ++ el_name (c_name c))), st)
          end
      end.
  End WithQuotes.

  (** wander/src/lib.rs:164-185 [run_quote].  The mutual recursion run_quote ->
      run_calls -> command -> run_quote is cut by fuel. *)
  Fixpoint run_quote_f (fuel : nat) (cs : commands) (q : list value) (st : St) : wres value * St :=
    match fuel with
    | O => (Panic PFuel, st)
    | S fuel' =>
        match q with
        | [] => (Ok unit_value, st)
        | VElement name :: args =>
            run_calls_loop (run_quote_f fuel' cs) cs [Call name args] unit_value st
        | _ => (Panic PTodo, st)
        end
    end.

  (** Nesting depth of quotes: enough fuel, as C44 proves. *)
  Fixpoint depth (v : value) : nat :=
    match v with
    | VQuote q => S (fold_right (fun x n => Nat.max (depth x) n) 0 q)
    | _ => 0
    end.

  Definition depths (l : list value) : nat := fold_right (fun x n => Nat.max (depth x) n) 0 l.

  Definition run_quote (cs : commands) (q : list value) (st : St) : wres value * St :=
    run_quote_f (S (depths q)) cs q st.

  (** wander/src/lib.rs:188-208 [run_calls] *)
  Definition run_calls (cs : commands) (calls : list call) (st : St) : wres value * St :=
    run_calls_loop (run_quote cs) cs calls unit_value st.

  (** wander/src/lib.rs:211-225 [run] *)
  Definition run (cs : commands) (script : str) (st : St) : wres value * St :=
    match tokenize_and_filter script with
    | Err e => (Err e, st)
    | Panic w => (Panic w, st)
    | Ok tokens =>
        match parse tokens with
        | Err e => (Err e, st)
        | Panic w => (Panic w, st)
        | Ok calls => run_calls cs calls st
        end
    end.

  (** prelude.rs:11-78 [common] *)
  Definition common : commands :=
    [ (lit "assert-equal", Command (lit "Check if two arguments are equal (quotes are evaluated before comparing) and fail if they are not equal.") FAssertEqual);
      (lit "assert-fail", Command (lit "Accept a quote and run it. If the quote results in a failure continue otherwise fail.") FAssertFail);
      (lit "ignore", Command (lit "Ignore all arguments to this command and return an empty network.") FIgnore);
      (lit "let", Command (lit "Set a named network.") FLet);
      (lit "read", Command (lit "Read a network.") FRead);
      (lit "id", Command (lit "Return a value.") FId);
      (lit "docs", Command (lit "Get a list of commands and a description.") FDocs);
      (lit "union", Command (lit "Combine two networks.") FUnion);
      (lit "filter", Command (lit "Filter a network.") FFilter) ].
End Interp.
