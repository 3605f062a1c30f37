(** * Properties of whole scripts (wander/src/lib.rs:211-225 run) *)
From Coq Require Import List Arith NArith Bool String Lia.
From Verif Require Import M_Base M_Data M_Regex M_Lexer M_Graph M_Parser M_Mem M_Display M_Interp M_Hosts
  S_Order S_Str S_Store S_Graph S_Lexer S_Parser S_Interp P_Ord P_Hist P_Lexer P_LexMore P_Parser P_Interp P_InterpProps P_Script
  Prop_Graph Prop_Parser.
Import ListNotations.
Open Scope list_scope.

(** ** C64.  Scripts concatenate *)

(** A script whose last call is followed by a comma (or that has no calls),
    a newline, and another script: the second runs after the first, on the store
    the first leaves; if the first fails, the second does not run. *)
Theorem C64_after_a_comma : forall (St : Type) (lig : lig_impl St) (cs : @commands St) s1 t1 c1 s2 t2 c2 st,
  tokenize_and_filter s1 = Ok t1 -> g_commas t1 c1 -> tokenize_and_filter s2 = Ok t2 -> g_script t2 c2 -> c2 <> [] ->
  (forall v st1, run lig cs s1 st = (Ok v, st1) -> run lig cs (s1 ++ [10%N] ++ s2) st = run lig cs s2 st1)
  /\ (forall r st1, run lig cs s1 st = (r, st1) -> failed r -> run lig cs (s1 ++ [10%N] ++ s2) st = (r, st1)).
Proof.
  intros St lig cs s1 t1 c1 s2 t2 c2 st E1 G1 E2 G2 Ne.
  rewrite (join_commas lig cs s1 t1 c1 s2 t2 c2 st E1 G1 E2 G2), calls_app.
  rewrite (run_text lig cs s1 t1 c1 st E1 (gs_trailing _ _ G1)). split.
  - intros v st1 ->. rewrite (run_text lig cs s2 t2 c2 st1 E2 G2). destruct c2; [destruct (Ne eq_refl)|reflexivity].
  - intros r st1 -> Hf. destruct r; try reflexivity. destruct (Hf _ eq_refl).
Qed.
Print Assumptions C64_after_a_comma.

(** A script that ends with a call: put a comma on a line of its own between. *)
Theorem C64_after_a_call : forall (St : Type) (lig : lig_impl St) (cs : @commands St) s1 p q c1 c s2 t2 c2 st,
  tokenize_and_filter s1 = Ok (p ++ q) -> g_commas p c1 -> g_call q c ->
  tokenize_and_filter s2 = Ok t2 -> g_script t2 c2 -> c2 <> [] ->
  let both := s1 ++ [10%N] ++ lit "," ++ [10%N] ++ s2 in
  (forall v st1, run lig cs s1 st = (Ok v, st1) -> run lig cs both st = run lig cs s2 st1)
  /\ (forall r st1, run lig cs s1 st = (r, st1) -> failed r -> run lig cs both st = (r, st1)).
Proof.
  intros St lig cs s1 p q c1 c s2 t2 c2 st E1 G1 C E2 G2 Ne both. unfold both.
  rewrite (join_last lig cs s1 p q c1 c s2 t2 c2 st E1 G1 C E2 G2), calls_app.
  rewrite (run_text lig cs s1 (p ++ q) (c1 ++ [c]) st E1 (gs_last _ _ _ _ G1 C)). split.
  - intros v st1 ->. rewrite (run_text lig cs s2 t2 c2 st1 E2 G2). destruct c2; [destruct (Ne eq_refl)|reflexivity].
  - intros r st1 -> Hf. destruct r; try reflexivity. destruct (Hf _ eq_refl).
Qed.
Print Assumptions C64_after_a_call.

(** These are the only two kinds of script: by definition of the grammar every
    script is calls each followed by a comma, with or without one last call. *)
Theorem C64_no_other_scripts : forall t calls, g_script t calls ->
  g_commas t calls \/ exists p q c1 c, t = p ++ q /\ calls = c1 ++ [c] /\ g_commas p c1 /\ g_call q c.
Proof. intros t calls [ts cs G|ts cs ts' c G C]; [left; exact G|right]. exists ts, ts', cs, c. auto. Qed.
Print Assumptions C64_no_other_scripts.

(** A newline alone does not separate two calls: the second becomes arguments of
    the first. *)
Theorem C64_newline_is_not_enough : exists s1 s2 v st1 v2 st2,
  grun s1 mem_new = (Ok v, st1) /\ grun s2 st1 = (Ok v2, st2)
  /\ exists e, grun (s1 ++ [10%N] ++ s2) mem_new = (Err e, mem_new).
Proof.
  exists (lit "let n {a b c}"), (lit "id x"). do 4 eexists. repeat split; try (vm_compute; reflexivity).
  eexists. vm_compute. reflexivity.
Qed.
Print Assumptions C64_newline_is_not_enough.

Example C64_case :
  (exists t1 c1, tokenize_and_filter (lit "let n {a b c}, --first") = Ok t1 /\ g_commas t1 c1 /\ c1 <> [])
  /\ (exists p q c1 c, tokenize_and_filter (lit "let n {a b c}, read n") = Ok (p ++ q) /\ g_commas p c1 /\ g_call q c)
  /\ (exists t2 c2, tokenize_and_filter (lit "id x") = Ok t2 /\ g_script t2 c2 /\ c2 <> []).
Proof.
  assert (W : written (el "a") (el "b") (el "c") (Role (el "a") (el "c") (el "b"))) by (constructor; discriminate).
  assert (G : forall rest vs, g_values rest vs ->
     g_values ([TElement (el "let"); TElement (el "n"); TOpenBrace; TElement (el "a"); TElement (el "b"); TElement (el "c"); TCloseBrace] ++ rest)
       ([VElement (el "let"); VElement (el "n"); VNetwork [Role (el "a") (el "c") (el "b")]] ++ vs)).
  { intros rest vs H. cbn [app]. do 2 apply gv_element.
    apply (gv_network [TElement (el "a"); TElement (el "b"); TElement (el "c"); TCloseBrace] [Role (el "a") (el "c") (el "b")] _ rest vs).
    - apply gn_last. exact W.
    - split; [repeat constructor|]. intros e. reflexivity.
    - exact H. }
  specialize (G [] [] gv_nil). rewrite !app_nil_r in G.
  assert (GC : g_commas ([TElement (el "let"); TElement (el "n"); TOpenBrace; TElement (el "a"); TElement (el "b"); TElement (el "c"); TCloseBrace] ++ [TComma])
     [Call (el "let") [VElement (el "n"); VNetwork [Role (el "a") (el "c") (el "b")]]]).
  { apply gp_cons; [exact G|constructor]. }
  split; [|split].
  - eexists _, _. split; [vm_compute; reflexivity|]. split; [exact GC|discriminate].
  - eexists _, [TElement (el "read"); TElement (el "n")], _, (Call (el "read") [VElement (el "n")]).
    split; [|split; [exact GC|]]; [vm_compute; reflexivity|]. repeat constructor.
  - exists [TElement (el "id"); TElement (el "x")], [Call (el "id") [VElement (el "x")]].
    split; [vm_compute; reflexivity|]. split; [|discriminate].
    apply (gs_last [] [] [TElement (el "id"); TElement (el "x")]); [constructor|]. repeat constructor.
Qed.

(** ** C65.  White space and comments do not change what a script does *)

(** Blank lines and comments before a script, after it, or between two of its
    lines. *)
Theorem C65_blank_text : forall (St : Type) (lig : lig_impl St) (cs : @commands St) b ts s1 s2 st t1,
  lexes b ts -> Forall (fun t => (exists w, t = TWS w) \/ (exists c, t = TComment c)) ts ->
  tokenize_and_filter s1 = Ok t1 ->
  run lig cs (b ++ [10%N] ++ s2) st = run lig cs s2 st
  /\ run lig cs (s1 ++ [10%N] ++ b) st = run lig cs s1 st
  /\ run lig cs (s1 ++ [10%N] ++ b ++ [10%N] ++ s2) st = run lig cs (s1 ++ [10%N] ++ s2) st.
Proof.
  intros St lig cs b ts s1 s2 st t1 L F E. pose proof (lexes_blank b ts L F) as Eb.
  split; [apply blank_before; exact Eb|]. split; [apply (blank_after lig cs s1 t1); assumption|].
  apply (blank_between lig cs s1 t1); assumption.
Qed.
Print Assumptions C65_blank_text.

(** Any text after two dashes is such a comment, whatever it contains, up to the
    end of its line. *)
Theorem C65_any_line_can_be_commented : forall line, Forall (fun c => c <> 10%N) line ->
  exists ts, lexes (lit "--" ++ line) ts /\ Forall (fun t => (exists w, t = TWS w) \/ (exists c, t = TComment c)) ts.
Proof.
  intros line F. destruct (line_lexes line F) as (t & L & c & ->). exists [TComment c]. split; [exact L|].
  constructor; [right; eauto|constructor].
Qed.
Print Assumptions C65_any_line_can_be_commented.

(** But only where a token can start: two dashes inside a name are part of it. *)
Theorem C65_dashes_in_a_name : exists s c, Forall (fun x => x <> 10%N) c
  /\ tokenize_and_filter s = Ok [TElement (el "id"); TElement (el "x")]
  /\ tokenize_and_filter (s ++ lit "--" ++ c) = Ok [TElement (el "id"); TElement (el "x--note")].
Proof.
  exists (lit "id x"), (lit "note"). split; [repeat constructor; discriminate|]. split; vm_compute; reflexivity.
Qed.
Print Assumptions C65_dashes_in_a_name.

Example C65_case : lexes (lit "   --read n") [TWS (lit "   "); TComment (lit "--read n")]
  /\ tokenize_and_filter (lit "let n {a b c},") <> Ok [].
Proof. split; [apply tokenize_ok; vm_compute; reflexivity|vm_compute; discriminate]. Qed.
