(** * Properties of whole sessions of wander-repl, and of wander-pad *)
From Coq Require Import List Arith NArith ZArith Bool String Lia.
From Verif Require Import M_Base M_Data M_Mem M_Graph M_Regex M_Lexer M_Parser M_Display M_Interp M_Hosts
  S_Order S_Str S_Graph S_Display S_Hosts P_Ord P_Display P_Hosts P_Apps Prop_Graph Prop_Parser.
Import ListNotations.
Open Scope list_scope.

(** ** C68.  A whole REPL session *)

(** For every sequence of inputs and every store: the k-th answer is what the k-th
    input shows, read when the store is as the scripts typed before it left it.
    While the session waits, every input has been answered and none ended it; it
    ends at the first input that ends it; it dies at the first script that panics
    or gives a quote, and that script's effects on the store have happened. *)
Theorem C68_session : forall inputs st os st' status, session inputs st = (os, st', status) ->
  List.length os <= List.length inputs
  /\ (forall k o, nth_error os k = Some o -> exists i ss, nth_error inputs k = Some i
        /\ typed (firstn k inputs) ss /\ shows (store_after ss st) i o)
  /\ match status with
     | Waiting => List.length os = List.length inputs /\ exists ss, typed inputs ss /\ st' = store_after ss st
     | Ended => exists n i ss, List.length os = S n /\ nth_error inputs n = Some i /\ ends_session i
                  /\ typed (firstn n inputs) ss /\ st' = store_after ss st
     | Dead w => exists n line ss, List.length os = S n /\ nth_error inputs n = Some (InLine line) /\ script_line line
                  /\ typed (firstn n inputs) ss /\ st' = store_after (ss ++ [line]) st
                  /\ (fst (grun line (store_after ss st)) = Panic w
                      \/ (w = PTodo /\ exists q, fst (grun line (store_after ss st)) = Ok (VQuote q)))
     end.
Proof. exact session_ok. Qed.
Print Assumptions C68_session.

(** The answer to an input is determined by the input and the store. *)
Theorem C68_shows_unique : forall st i o o', shows st i o -> shows st i o' ->
  o = o' \/ exists t, out_text o t /\ out_text o' t.
Proof. exact shows_unique. Qed.
Print Assumptions C68_shows_unique.

Definition rx : list repl_input :=
  [InLine (lit "let n {b r a, a : b}"); InLine (lit " :s now"); InLine (lit "let"); InLine (lit "read n"); InLine (lit ":nope x");
   InLine (lit "id n"); InLine (lit "(id n)"); InLine (lit "id (a)"); InLine (lit "read n")].

Example C68_case : session rx mem_new =
  ([ [OText (lit "{}" ++ [10%N])];
     [OText (lit "..." ++ [10%N])];
     [ODebug (WErr (lit "Invalid call to let."))];
     [OText (lit "{" ++ [10%N]);
      OText ([32; 32; 34; 98; 34; 32; 34; 114; 34; 32; 34; 97; 34; 10]%N);
      OText ([32; 32; 34; 97; 34; 32; 58; 32; 34; 98; 34; 10]%N); OText (lit "}" ++ [10%N])];
     [OText (lit "Unknown command - :nope" ++ [10%N])];
     [OText (lit "n" ++ [10%N])];
     [] ],
   [(lit "n", [Trip (lit "a") (lit ":") (lit "b"); Trip (lit "b") (lit "r") (lit "a")])], Dead PTodo)
  /\ snd (session [InLine (lit "id a"); InLine (lit ":quit"); InLine (lit "id a")] mem_new) = Ended
  /\ snd (session [InLine (lit "id a")] mem_new) = Waiting.
Proof. vm_compute. repeat split. Qed.

(** ** C69.  What the REPL prints for a network, given back to it *)

(** An empty network reads back as itself, a network of one entry as the entry with
    JSON-escaped names; a network of two or more entries, printed without commas,
    panics whoever reads it. *)
Theorem C69_empty : forall t, printed (VNetwork []) t -> forall st, grun (lit "id " ++ t) st = (Ok (VNetwork []), st).
Proof. exact repl_empty. Qed.
Print Assumptions C69_empty.

Theorem C69_one : forall e t, printed (VNetwork [e]) t -> forall st,
  exists e', rereads_entry e e' /\ grun (lit "id " ++ t) st = (Ok (VNetwork [e']), st).
Proof. exact repl_single. Qed.
Print Assumptions C69_one.

Theorem C69_more : forall n t, printed (VNetwork n) t -> 2 <= List.length n ->
  forall st, grun (lit "id " ++ t) st = (Panic PTodo, st).
Proof. exact repl_many. Qed.
Print Assumptions C69_more.

Example C69_case : exists t, printed (VNetwork [Role (el "b") (el "a") (el "r"); Extends (el "a") (el "b")]) t
  /\ t = [123; 10; 32; 32; 34; 98; 34; 32; 34; 114; 34; 32; 34; 97; 34; 10; 32; 32; 34; 97; 34; 32; 58; 32; 34; 98; 34; 10; 125; 10]%N.
Proof.
  eexists. split; [apply pr_network; [discriminate|]|].
  - constructor; [apply el_role; apply json_text_body|]. constructor; [apply el_extends; apply json_text_body|]. constructor.
  - vm_compute. reflexivity.
Qed.

(** ** C70.  The pad *)

(** What is shown is the answer of the text that stood in the editor when Run was
    last clicked, on an empty store, however often and with whatever text it was
    clicked before. *)
Theorem C70_shown : forall before f after p,
  f_clicked f = true -> Forall (fun g => f_clicked g = false) after ->
  pad_run (before ++ f :: after) pad_default = Ok p ->
  p_script p = text_after (before ++ f :: after) /\ answers (fst (grun (text_after before) mem_new)) (p_result p).
Proof. exact pad_last. Qed.
Print Assumptions C70_shown.

Theorem C70_never_clicked : forall frames, Forall (fun g => f_clicked g = false) frames ->
  pad_run frames pad_default = Ok (Pad (text_after frames) (ReplyValue [])).
Proof. exact pad_never. Qed.
Print Assumptions C70_never_clicked.

(** The pad dies exactly if Run is clicked on a text that panics. *)
Theorem C70_panic : forall frames, (exists w, pad_run frames pad_default = Panic w) <->
  exists before f after w, frames = before ++ f :: after /\ f_clicked f = true
    /\ fst (grun (text_after before) mem_new) = Panic w.
Proof. exact pad_panic_iff. Qed.
Print Assumptions C70_panic.

Definition px : list frame :=
  [Frame false (lit "let n {a r b}, read n"); Frame true (lit "let"); Frame true (lit "id a"); Frame false (lit "id b")].
Example C70_case :
  pad_run (firstn 2 px) pad_default = Ok (Pad (lit "let") (ReplyValue (display (VNetwork [Role (el "a") (el "b") (el "r")]))))
  /\ pad_run px pad_default = Ok (Pad (lit "id b") (ReplyError (WErr (lit "Invalid call to let.")))).
Proof. vm_compute. split; reflexivity. Qed.
