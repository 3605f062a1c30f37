(** * What an error says *)
From Coq Require Import List Arith NArith Bool String Lia.
From Verif Require Import M_Base M_Data M_Mem M_Heed M_Duck M_Regex M_Lexer M_Graph M_Parser M_Display M_Interp M_Hosts M_Bytes M_Debug
  S_Order S_Str S_Store S_Graph S_Lexer S_Parser S_Display S_GraphHist S_Names S_Errors
  P_Hist P_Lexer P_Parser P_Display P_Names P_Bytes P_Debug P_Literal P_Errors P_Texts Prop_Parser Prop_Names.
Import ListNotations.
Open Scope list_scope.

(** C97.  On each store an error answered by a script is one of a short list, and
    says a cause that is there: a text that has no tokens; a stray token; a word
    of the script that is no command; a misused command; an assertion about two
    different values made of names at hand; a collection the script asks for and
    that does not exist. *)
Theorem C97_catalogue : forall S (I : trips_impl S) s0 h script e s', shipped I s0 ->
  let s := after I s0 h in
  run (graph_impl I) common script s = (Err e, s') ->
  explained script (fun n => said script n \/ stored I s n \/ documented n) (has I s') e.
Proof.
  intros S I s0 h script e s' HS s E. pose proof (shipped_honest _ _ HS) as HI. pose proof (shipped_complains _ _ HS) as HC.
  set (Q := fun n => said script n \/ stored I s n \/ documented n).
  refine (explained_run I s0 HI HC (fun _ => True) Q (fun n H => or_intror (or_intror H)) script s e s' _ _ E).
  - intros n Hn. split; [exact Logic.I|left; exact Hn].
  - exists h. split; [reflexivity|]. split; [|trivial]. intros c t n Ht Hn. right. left. exists c, t. auto.
Qed.
Print Assumptions C97_catalogue.

(** Every kind in the list occurs. *)
Example C97_case :
  let go := fun x => fst (run (graph_impl mem_impl) common x (after mem_impl mem_new [OAddColl (lit "m")])) in
  let shown := fun _ : N => true in
  let says := fun x t => match go (lit x) with Err e => error_text shown e = lit t | _ => False end in
  says "id ^"%string "Error tokenizing input."%string
  /\ says "id a ) b"%string "Error parsing Some(Element(Element(""b"", None, None)))"%string
  /\ says "id a )"%string "Error parsing None"%string
  /\ says "ida a"%string "Could not find command: ida"%string
  /\ says "id"%string "Id requires a single argument."%string
  /\ says "docs a"%string "docs takes no arguments."%string
  /\ says "union {}"%string "union takes two arguments."%string
  /\ says "assert-equal a"%string "`assertEq` function requires two parameters."%string
  /\ says "assert-fail a"%string "`assert-fail` function expected to be passed a Quote."%string
  /\ says "let a"%string "Invalid call to let."%string
  /\ says "assert-fail (id a)"%string "Expected failure."%string
  /\ says "assert-equal (id a) {a : b}"%string "Assertion failed, ""a"" != {""a"" : ""b""}"%string
  /\ says "read n"%string "Error Collection `n` not found."%string.
Proof. cbv zeta. repeat match goal with |- _ /\ _ => split end; vm_compute; reflexivity. Qed.

(** What a client is sent is text: whatever bytes arrive, every reply of the
    server can be decoded, errors included. *)
Theorem C97_replies_are_text : forall shown requests replies st up,
  serve_bytes (error_text shown) requests mem_new = (replies, st, up) ->
  forall reply, In reply replies -> exists text, from_utf8 reply = Some text.
Proof.
  intros shown requests.
  assert (G : forall st0, keeps_names mem_impl mem_new (fun _ => True) valid_str st0 ->
    forall replies st up, serve_bytes (error_text shown) requests st0 = (replies, st, up) ->
    forall reply, In reply replies -> exists text, from_utf8 reply = Some text).
  { induction requests as [|b rest IH]; intros st0 K replies st up E reply Hr; cbn [serve_bytes] in E.
    - injection E as <- _ _. destruct Hr.
    - destruct (from_utf8 b) as [q|] eqn:Eq; [|injection E as <- _ _; destruct Hr].
      apply from_utf8_iff in Eq as [V _]. destruct (grun q st0) as [r st1] eqn:Er.
      assert (HS : forall n, said q n -> True /\ valid_str n) by (intros n Hn; split; [exact Logic.I|eapply said_valid; eassumption]).
      destruct (names_run mem_impl mem_new honest_mem (fun _ => True) valid_str documented_valid q st0 r st1 HS K Er) as [K1 Hv].
      destruct r as [v|e|w].
      + destruct (serve_bytes (error_text shown) rest st1) as [[rs st2] u] eqn:E2. injection E as <- _ _.
        destruct Hr as [<-|Hr]; [|exact (IH st1 K1 _ _ _ E2 reply Hr)].
        exists (display v). apply from_utf8_complete, display_valid. exact (ok_named _ _ (Hv v eq_refl)).
      + destruct (serve_bytes (error_text shown) rest st1) as [[rs st2] u] eqn:E2. injection E as <- _ _.
        destruct Hr as [<-|Hr]; [|exact (IH st1 K1 _ _ _ E2 reply Hr)].
        exists (error_text shown e). apply from_utf8_complete. eapply (explained_valid shown q); [exact V|].
        exact (explained_run mem_impl mem_new honest_mem (shipped_complains _ _ sh_mem) (fun _ => True) valid_str documented_valid q st0 e st1 HS K Er).
      + injection E as <- _ _. destruct Hr. }
  intros replies st up E. refine (G mem_new _ replies st up E). exists []. split; [reflexivity|]. split; [|trivial].
  intros c t n (l & El & _). discriminate.
Qed.
Print Assumptions C97_replies_are_text.

(** The text of a parse error tells the token it shows apart from every other. *)
Theorem C97_parse_text : forall shown S (I : trips_impl S) s0 h x y a b s1 s2, shipped I s0 ->
  valid_str x -> valid_str y ->
  run (graph_impl I) common x (after I s0 h) = (Err (WParse a), s1) ->
  run (graph_impl I) common y (after I s0 h) = (Err (WParse b), s2) ->
  error_text shown (WParse a) = error_text shown (WParse b) -> a = b.
Proof.
  intros shown S I s0 h x y a b s1 s2 HS Vx Vy Ex Ey E.
  assert (V : forall z c s3, valid_str z -> run (graph_impl I) common z (after I s0 h) = (Err (WParse c), s3) -> valid_peek c).
  { intros z c s3 Vz Ez. apply C97_catalogue in Ez; [|exact HS]. inversion Ez as [|tokens kept next L K Hs E1| | | | |]; subst.
    eapply stray_peek_valid; [eassumption|]. eapply kept_valid; [eassumption|]. eapply lexed_valid; eassumption. }
  cbn [error_text] in E. apply app_inv_head in E. exact (dpeek_inj shown a b (V _ _ _ Vx Ex) (V _ _ _ Vy Ey) E).
Qed.
Print Assumptions C97_parse_text.

(** The exact text of a parse error: the words and the token as Rust code writes
    it, its strings as literals. *)
Theorem C97_parse_message : forall shown S (I : trips_impl S) s0 h script next s', shipped I s0 -> valid_str script ->
  run (graph_impl I) common script (after I s0 h) = (Err (WParse next), s') ->
  parse_message next (error_text shown (WParse next)).
Proof.
  intros shown S I s0 h z c s3 HS Vz Ez. apply debug_peek_message.
  apply C97_catalogue in Ez; [|exact HS]. inversion Ez as [|tokens kept next L K Hs E1| | | | |]; subst.
  eapply stray_peek_valid; [eassumption|]. eapply kept_valid; [eassumption|]. eapply lexed_valid; eassumption.
Qed.
Print Assumptions C97_parse_message.

(** And of the line the REPL prints: the text of the error as a literal. *)
Theorem C97_repl_line : forall shown S (I : trips_impl S) s0 h script e s', shipped I s0 -> valid_str script ->
  (forall n, stored I (after I s0 h) n -> valid_str n) ->
  run (graph_impl I) common script (after I s0 h) = (Err e, s') ->
  exists q, quoted (error_text shown e) q /\ debug_error shown e = lit "WanderError(" ++ q ++ lit ")".
Proof.
  intros shown S I s0 h z e s3 HS Vz HN Ez. exists (debug_str shown (error_text shown e)). split; [|reflexivity].
  apply debug_str_quoted. apply C97_catalogue in Ez; [|exact HS]. apply (explained_valid shown z (has I s3)); [exact Vz|].
  assert (K : forall n, said z n \/ stored I (after I s0 h) n \/ documented n -> valid_str n).
  { intros n [H|[H|H]]; [eapply said_valid; eassumption|apply HN, H|apply documented_valid, H]. }
  destruct Ez; [apply ex_lex|eapply ex_parse|apply ex_unknown|apply ex_usage|apply ex_expected|apply ex_assert|apply ex_missing]; eauto.
Qed.
Print Assumptions C97_repl_line.

(** A literal is a literal of one string. *)
Theorem C97_literals_read_one_way : forall s s' q, quoted s q -> quoted s' q -> s = s'.
Proof. intros s s' q H H'. exact (quoted_fun s q H s' H'). Qed.
Print Assumptions C97_literals_read_one_way.

(** But it shows the token after the stray one: which token was stray, the error
    never says. *)
Theorem C97_not_the_culprit : forall (St : Type) (lig : lig_impl St) cs st x before calls begun values t t' rest y,
  g_commas before calls -> g_values begun values -> stray t -> stray t' ->
  tokenize_and_filter x = Ok (before ++ begun ++ t :: rest) ->
  tokenize_and_filter y = Ok (before ++ begun ++ t' :: rest) ->
  run lig cs x st = (Err (WParse (hd_error rest)), st) /\ run lig cs y st = (Err (WParse (hd_error rest)), st).
Proof.
  intros St lig cs st x p calls pre vs t t' rest y Hp Hv Ht Ht' Ex Ey. split.
  - apply (proj2 (run_outcomes St lig cs x st) _ Ex). exists p, calls, pre, vs, t, rest. auto.
  - apply (proj2 (run_outcomes St lig cs y st) _ Ey). exists p, calls, pre, vs, t', rest. auto.
Qed.
Print Assumptions C97_not_the_culprit.

Example C97_case_culprit :
  tokenize_and_filter (lit "ignore, id a ) b") = Ok ([tk "ignore"; TComma] ++ [tk "id"; tk "a"] ++ TCloseParen :: [tk "b"])
  /\ tokenize_and_filter (lit "ignore, id a ] b") = Ok ([tk "ignore"; TComma] ++ [tk "id"; tk "a"] ++ TCloseSquare :: [tk "b"])
  /\ g_commas [tk "ignore"; TComma] [Call (el "ignore") []] /\ g_values [tk "id"; tk "a"] [VElement (el "id"); VElement (el "a")].
Proof.
  split; [vm_compute; reflexivity|]. split; [vm_compute; reflexivity|]. split; [|repeat constructor].
  apply (gp_cons [tk "ignore"] (Call (el "ignore") []) [] []); repeat constructor.
Qed.

(** The line the REPL prints for an error has no control character, so it is one
    line, and different texts give different lines. *)
Theorem C97_one_line : forall shown e, Forall (fun c => 32 <= c)%N (debug_error shown e)
  /\ forall e', valid_str (error_text shown e) -> valid_str (error_text shown e') ->
     debug_error shown e = debug_error shown e' -> error_text shown e = error_text shown e'.
Proof.
  intros shown e. split.
  - apply Forall_forall. intros c H. unfold debug_error in H. apply in_app_or in H as [H|H].
    + cbn in H. repeat (destruct H as [<-|H]; [lia|]). destruct H.
    + apply in_app_or in H as [H|[<-|[]]]; [exact (dstr_chars shown _ _ H)|vm_compute; discriminate].
  - intros e' V V' E. unfold debug_error in E. apply app_inv_head in E. apply app_inv_tail in E. exact (dstr_inj shown _ _ V V' E).
Qed.
Print Assumptions C97_one_line.

Example C97_case_line :
  debug_error (fun _ => true) (WErr (lit "Could not find command: a" ++ [10; 34; 233; 127]%N))
  = lit "WanderError(""Could not find command: a" ++ [92; 110; 92; 34; 233; 92; 117; 123; 55; 102; 125]%N ++ lit """)".
Proof. vm_compute. reflexivity. Qed.
