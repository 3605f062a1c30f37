(** * Specification vocabulary: running a table of commands *)
From Coq Require Import List NArith Bool String.
From Verif Require Import M_Base M_Data M_Regex M_Lexer M_Graph M_Parser M_Display M_Interp M_Conc M_Commands S_Interp.
Import ListNotations.
Open Scope list_scope.

(** A hash map: no name twice. *)
Definition no_name_twice (cs : table) : Prop := NoDup (map fst cs).

(** A call of the trait panicked. *)
Definition panicked (q : req) : ans q -> why -> Prop :=
  match q as q' return ans q' -> why -> Prop with
  | QCollections => fun a w => a = Panic w
  | QAddCollection _ => fun a w => a = Panic w
  | QRemoveCollection _ => fun a w => a = Panic w
  | QEntries _ => fun a w => a = Panic w
  | QAddEntries _ _ => fun a w => a = Panic w
  | QRemoveEntries _ _ => fun a w => a = Panic w
  | QFilter _ _ => fun a w => a = Panic w
  end.

(** What running means: a derivation is a finite run, however deep. *)
Section Meaning.
  Context {St : Type} (L : lig_impl St) (cs : table).

  Inductive runs_to : list call -> St -> wres value -> St -> Prop :=
  | rt_none st : runs_to [] st (Ok (VNetwork [])) st
  | rt_last c st r st' : call_to c st r st' -> runs_to [c] st r st'
  | rt_more c rest st v st1 r st' :
      call_to c st (Ok v) st1 -> rest <> [] -> runs_to rest st1 r st' -> runs_to (c :: rest) st r st'
  | rt_stop c rest st r st' : call_to c st r st' -> failed r -> runs_to (c :: rest) st r st'
  with call_to : call -> St -> wres value -> St -> Prop :=
  | ct_unknown c st :
      (forall x, ~ In (el_name (c_name c), x) cs) ->
      call_to c st (Err (WErr (lit "Could not find command: " ++ el_name (c_name c)))) st
  | ct_known c x st r st' :
      In (el_name (c_name c), x) cs -> goes_to (cmd_does x (listing cs) (c_args c)) st r st' -> call_to c st r st'
  with goes_to : body -> St -> wres value -> St -> Prop :=
  | gt_done r st : goes_to (BDone r) st r st
  | gt_ask q k st a st1 r st' :
      perform L q st = (a, st1) -> (forall w, ~ panicked q a w) -> goes_to (k a) st1 r st' -> goes_to (BAsk q k) st r st'
  | gt_ask_panic q k st a st1 w :
      perform L q st = (a, st1) -> panicked q a w -> goes_to (BAsk q k) st (Panic w) st1
  | gt_run_ok calls k st v st1 r st' :
      runs_to calls st (Ok v) st1 -> goes_to (k (inl v)) st1 r st' -> goes_to (BRun calls k) st r st'
  | gt_run_err calls k st e st1 r st' :
      runs_to calls st (Err e) st1 -> goes_to (k (inr e)) st1 r st' -> goes_to (BRun calls k) st r st'
  | gt_run_panic calls k st w st1 :
      runs_to calls st (Panic w) st1 -> goes_to (BRun calls k) st (Panic w) st1.
End Meaning.

(** A value is among the arguments, or in a quote among them, and so on. *)
Inductive inside (v : value) : list value -> Prop :=
| in_here l : In v l -> inside v l
| in_deep l q : In (VQuote q) l -> inside v q -> inside v l.

(** A command that keeps to its arguments: what it has run is a quote it was
    given, or a part of one. *)
Inductive keeps_to (args : list value) : body -> Prop :=
| kt_done r : keeps_to args (BDone r)
| kt_ask q k : (forall a, keeps_to args (k a)) -> keeps_to args (BAsk q k)
| kt_run n qargs k :
    inside (VQuote (VElement n :: qargs)) args -> (forall a, keeps_to args (k a)) ->
    keeps_to args (BRun [Call n qargs] k).

Definition modest (x : cmd) : Prop := forall l args, keeps_to args (cmd_does x l args).

(** A command that does not look at the table it is in. *)
Definition looks_away (x : cmd) : Prop := forall l l' args, cmd_does x l args = cmd_does x l' args.

(** A program mentions a name: calls it, or has a quote in it that does. *)
Definition mentions (calls : list call) (n : str) : Prop :=
  exists c, In c calls
    /\ (el_name (c_name c) = n
        \/ exists e qargs, inside (VQuote (VElement e :: qargs)) (c_args c) /\ el_name e = n).

(** Two stores, in states that are related, answer every call alike and are in
    related states afterwards. *)
Definition answer_alike {S T : Type} (L : lig_impl S) (M : lig_impl T) (R : S -> T -> Prop) : Prop :=
  forall q s t, R s t -> fst (perform L q s) = fst (perform M q t) /\ R (snd (perform L q s)) (snd (perform M q t)).

(** A command that runs the quote it is given and answers what it answers. *)
Definition b_do (_ : list (str * str)) (args : list value) : body :=
  match args with
  | [VQuote q] => quote_then q (fun r => BDone match r with inl v => Ok v | inr e => Err e end)
  | _ => BDone (Err (WErr (lit "do takes a quote.")))
  end.

(** A command that has the text it is given run as a script, and makes of the
    outcome what it likes. *)
Definition b_eval (f : value + werr -> wres value) (_ : list (str * str)) (args : list value) : body :=
  match args with
  | [VElement e] => script_then (el_name e) (fun r => BDone (f r))
  | _ => BDone (Err (WErr (lit "eval takes a text.")))
  end.

(** What a text says, as a program. *)
Definition says (script : str) (m : wres (list call)) : Prop :=
  (exists ts, tokenize_and_filter script = Ok ts /\ parse ts = m)
  \/ (exists e, tokenize_and_filter script = Err e /\ m = Err e)
  \/ (exists w, tokenize_and_filter script = Panic w /\ m = Panic w).
