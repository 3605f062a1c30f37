(** * REPL sessions, what they print, and the pad *)
From Coq Require Import List Arith NArith ZArith Bool String Lia.
From Verif Require Import M_Base M_Data M_Mem M_Graph M_Regex M_Lexer M_Parser M_Display M_Interp M_Hosts
  S_Order S_Str S_Graph S_Lexer S_Parser S_Display S_Hosts P_Ord P_Lexer P_LexMore P_Parser P_Display P_Reread P_Hosts P_Script.
Import ListNotations.
Open Scope list_scope.

Lemma first_char_dec c s : first_char c s \/ ~ first_char c s.
Proof. rewrite first_char_trim. destruct (starts_with c (trim s)); [left; reflexivity|right; discriminate]. Qed.

Lemma colon_word line : first_char 58 line -> exists w, first_word line = Some w.
Proof.
  intros (b & a & -> & Hb & Hn). unfold first_word. rewrite (proj2 (trim_start_cons _ 58%N a)) by eauto. eauto.
Qed.

Lemma word_colon w line : is_first_word (58%N :: w) line -> first_char 58 line.
Proof.
  intros (b & a & -> & Hb & _ & Hn & _). exists b, (w ++ a). split; [reflexivity|]. split; [exact Hb|].
  inversion Hn; assumption.
Qed.

Lemma entry_line_printed e : exists s, repl_entry e = OText s /\ entry_line e s.
Proof.
  destruct e as [f s r|a c|a c]; (eexists; split; [reflexivity|]); unfold display_element, json_string;
    rewrite <- ?app_assoc; cbn [app].
  - apply (el_role f s r); apply json_text_body.
  - apply (el_extends a c); apply json_text_body.
  - apply (el_not_extends a c); apply json_text_body.
Qed.

Lemma out_text_app os1 t1 : out_text os1 t1 -> forall os2 t2, out_text os2 t2 -> out_text (os1 ++ os2) (t1 ++ t2).
Proof. induction 1; intros os2 t2 K; [exact K|]. rewrite <- app_assoc. constructor. auto. Qed.

Lemma entries_printed n : exists lines, Forall2 entry_line n lines /\ out_text (map repl_entry n) (List.concat lines).
Proof.
  induction n as [|e n (lines & F & O)]; [exists []; split; constructor|].
  destruct (entry_line_printed e) as (s & E & L). exists (s :: lines). split; [constructor; assumption|].
  cbn [map List.concat]. rewrite E. constructor. exact O.
Qed.

Lemma out_text_one s : out_text [OText s] s.
Proof. rewrite <- (app_nil_r s) at 2. constructor. constructor. Qed.

Lemma print_value v : (forall q, v <> VQuote q) -> exists os t, repl_print v = Ok os /\ printed v t /\ out_text os t.
Proof.
  intros Nq. destruct v as [e|q|n]; [|destruct (Nq q eq_refl)|].
  - eexists _, _. split; [reflexivity|]. split; [apply pr_element|]. apply out_text_one.
  - destruct n as [|e n].
    + eexists _, _. split; [reflexivity|]. split; [apply pr_empty|]. apply out_text_one.
    + destruct (entries_printed (e :: n)) as (lines & F & O). eexists _, _. split; [reflexivity|].
      split; [apply pr_network; [discriminate|exact F]|].
      change (lit "{" ++ [10%N] ++ List.concat lines ++ lit "}" ++ [10%N])
        with ((lit "{" ++ [10%N]) ++ List.concat lines ++ (lit "}" ++ [10%N])).
      apply (out_text_app [println (lit "{")]).
      * apply out_text_one.
      * apply out_text_app; [exact O|]. apply out_text_one.
Qed.

(** One line. *)
Lemma repl_step_spec line st :
  let '(o, r) := repl_step line st in
  shows st (InLine line) o
  /\ match r with
     | RContinue st' => ~ ends_session (InLine line) /\ ((first_char 58 line /\ st' = st) \/ (script_line line /\ st' = snd (grun line st)))
     | RStop st' => ends_session (InLine line) /\ st' = st
     | RPanic w => script_line line
         /\ (fst (grun line st) = Panic w \/ (w = PTodo /\ exists q, fst (grun line st) = Ok (VQuote q)))
     end.
Proof.
  unfold repl_step. destruct (starts_with 58 (trim line)) eqn:Es.
  - apply first_char_trim in Es. destruct (colon_word line Es) as (w & Ew). unfold handle_command. rewrite Ew.
    assert (HI : forall x, is_first_word x line <-> w = x).
    { intros x. rewrite <- first_word_iff, Ew. split; [congruence|intros ->; reflexivity]. }
    assert (HE : ends_session (InLine line) <-> w = lit ":q" \/ w = lit ":quit") by (cbn [ends_session]; rewrite !HI; reflexivity).
    destruct (str_eqb w (lit ":status") || str_eqb w (lit ":s")) eqn:E1.
    { apply orb_true_iff in E1. rewrite !str_eqb_eq in E1. split; [apply sh_status; rewrite !HI; exact E1|].
      split; [|auto]. rewrite HE. intros [->| ->]; destruct E1 as [E1|E1]; discriminate E1. }
    apply orb_false_iff in E1 as [E1 E1']. apply str_eqb_neq in E1, E1'.
    destruct (str_eqb w (lit ":quit") || str_eqb w (lit ":q")) eqn:E2.
    { apply orb_true_iff in E2. rewrite !str_eqb_eq in E2. split; [|split; [rewrite HE; tauto|reflexivity]].
      apply (sh_silent st line w); [apply HI; reflexivity|]. cbn [In map]. intuition. }
    apply orb_false_iff in E2 as [E2 E2']. apply str_eqb_neq in E2, E2'.
    destruct (str_eqb w (lit ":help") || str_eqb w (lit ":h")) eqn:E3.
    { apply orb_true_iff in E3. rewrite !str_eqb_eq in E3. split; [|split; [rewrite HE; intuition congruence|auto]].
      apply (sh_silent st line w); [apply HI; reflexivity|]. cbn [In map]. intuition. }
    apply orb_false_iff in E3 as [E3 E3']. apply str_eqb_neq in E3, E3'.
    destruct (str_eqb w (lit ":broadcast")) eqn:E4.
    { apply str_eqb_eq in E4. split; [|split; [rewrite HE; intuition congruence|auto]].
      apply (sh_silent st line w); [apply HI; reflexivity|]. cbn [In map]. intuition. }
    apply str_eqb_neq in E4. split; [|split; [rewrite HE; intuition congruence|auto]].
    unfold println. rewrite <- app_assoc. apply (sh_unknown st line w); [exact Es|apply HI; reflexivity|].
    cbn [In map]. intuition congruence.
  - assert (Hs : script_line line) by (unfold script_line; rewrite first_char_trim; congruence).
    assert (He : ~ ends_session (InLine line)).
    { cbn [ends_session]. intros [H|H]; apply Hs; eapply word_colon; exact H. }
    destruct (grun line st) as [[v|e|w] st'] eqn:Eg.
    + assert (Ef : fst (grun line st) = Ok v) by (rewrite Eg; reflexivity).
      assert (D : (exists q, v = VQuote q) \/ forall q, v <> VQuote q)
        by (destruct v; [right; discriminate|left; eauto|right; discriminate]).
      destruct D as [[q ->]|D].
      * cbn [repl_print fst snd]. split; [eapply sh_quote; eauto|]. split; [exact Hs|]. right. eauto.
      * destruct (print_value v D) as (os & t & -> & P & O). split; [eapply sh_value; eauto|]. split; [exact He|]. right. auto.
    + assert (Ef : fst (grun line st) = Err e) by (rewrite Eg; reflexivity).
      split; [apply sh_error; assumption|]. split; [exact He|]. right. auto.
    + assert (Ef : fst (grun line st) = Panic w) by (rewrite Eg; reflexivity).
      split; [eapply sh_panic; eauto|]. split; [exact Hs|]. left. reflexivity.
Qed.

Definition session_spec (inputs : list repl_input) (st : gstate) (os : list (list out)) (st' : gstate) (status : repl_status) : Prop :=
  List.length os <= List.length inputs
  /\ (forall k o, nth_error os k = Some o -> exists i ss, nth_error inputs k = Some i
        /\ typed (firstn k inputs) ss /\ shows (store_after ss st) i o)
  /\ match status with
     | Waiting => List.length os = List.length inputs /\ exists ss, typed inputs ss /\ st' = store_after ss st
     | Ended => exists n i ss, List.length os = S n /\ nth_error inputs n = Some i /\ ends_session i
                  /\ typed (firstn n inputs) ss /\ st' = store_after ss st
     | Dead w => exists n line ss, List.length os = S n /\ nth_error inputs n = Some (InLine line) /\ script_line line
                  /\ typed (firstn n inputs) ss /\ st' = store_after (ss ++ [line]) st
                  /\ (fst (grun line (store_after ss st)) = Panic w
                      \/ (w = PTodo /\ exists q, fst (grun line (store_after ss st)) = Ok (VQuote q)))
     end.

Lemma session_one i st rest o st' status :
  shows st i o ->
  match status with
  | Waiting => False
  | Ended => ends_session i /\ st' = st
  | Dead w => exists line, i = InLine line /\ script_line line /\ st' = snd (grun line st)
       /\ (fst (grun line st) = Panic w \/ (w = PTodo /\ exists q, fst (grun line st) = Ok (VQuote q)))
  end ->
  session_spec (i :: rest) st [o] st' status.
Proof.
  intros Sh H. split; [simpl; lia|]. split.
  - intros [|k] o' E; [|destruct k; discriminate E]. injection E as <-. exists i, []. split; [reflexivity|]. split; [constructor|exact Sh].
  - destruct status as [| |w]; [destruct H| |].
    + destruct H as [He ->]. exists 0, i, []. repeat split; [exact He|constructor].
    + destruct H as (line & -> & Hs & -> & Hd). exists 0, line, []. split; [reflexivity|]. split; [reflexivity|]. split; [exact Hs|].
      split; [constructor|]. split; [reflexivity|exact Hd].
Qed.

Lemma session_more line st rest o st1 os st' status :
  shows st (InLine line) o -> ~ ends_session (InLine line) ->
  (first_char 58 line /\ st1 = st) \/ (script_line line /\ st1 = snd (grun line st)) ->
  session_spec rest st1 os st' status -> session_spec (InLine line :: rest) st (o :: os) st' status.
Proof.
  intros Sh Ne Hst (L & K & T).
  assert (Ty : forall ins ss, typed ins ss -> exists ss', typed (InLine line :: ins) ss' /\ store_after ss' st = store_after ss st1
     /\ forall l, store_after (ss' ++ [l]) st = store_after (ss ++ [l]) st1).
  { intros ins ss Hty. destruct Hst as [[Hc ->]|[Hs ->]].
    - exists ss. split; [apply ty_command; assumption|auto].
    - exists (line :: ss). split; [apply ty_script; assumption|]. split; [reflexivity|]. intros l. reflexivity. }
  split; [simpl; lia|]. split.
  - intros [|k] o' E.
    + injection E as <-. exists (InLine line), []. split; [reflexivity|]. split; [constructor|exact Sh].
    + cbn [nth_error] in E. destruct (K k o' E) as (i & ss & E1 & E2 & E3). destruct (Ty _ _ E2) as (ss' & T1 & T2 & _).
      exists i, ss'. split; [exact E1|]. split; [exact T1|]. rewrite T2. exact E3.
  - destruct status as [| |w].
    + destruct T as [El (ss & Hty & ->)]. split; [simpl; lia|]. destruct (Ty _ _ Hty) as (ss' & T1 & T2 & _). exists ss'. auto.
    + destruct T as (n & i & ss & El & En & He & Hty & ->). destruct (Ty _ _ Hty) as (ss' & T1 & T2 & _).
      exists (S n), i, ss'. split; [simpl; lia|]. auto.
    + destruct T as (n & l & ss & El & En & Hs & Hty & -> & Hd). destruct (Ty _ _ Hty) as (ss' & T1 & T2 & T3).
      exists (S n), l, ss'. split; [simpl; lia|]. split; [exact En|]. split; [exact Hs|]. split; [exact T1|]. rewrite T2, T3. auto.
Qed.

Lemma session_ok inputs : forall st os st' status, session inputs st = (os, st', status) -> session_spec inputs st os st' status.
Proof.
  induction inputs as [|i inputs IH]; intros st os st' status E.
  - cbn in E. injection E as <- <- <-. split; [simpl; lia|]. split; [intros [|k] o H; discriminate H|].
    split; [reflexivity|]. exists []. split; constructor.
  - destruct i as [line| | |]; cbn [session] in E.
    + pose proof (repl_step_spec line st) as R. destruct (repl_step line st) as [o [st1|st1|w]].
      * destruct R as (Sh & Ne & Hst). destruct (session inputs st1) as [[os1 st2] s1] eqn:E1. injection E as <- <- <-.
        eapply session_more; eauto.
      * destruct R as (Sh & He & ->). injection E as <- <- <-. apply session_one; [exact Sh|auto].
      * destruct R as (Sh & Hs & Hd). injection E as <- <- <-. apply session_one; [exact Sh|]. exists line. auto.
    + injection E as <- <- <-. apply session_one; [apply sh_interrupt|]. split; [exact Logic.I|reflexivity].
    + injection E as <- <- <-. apply session_one; [apply sh_eof|]. split; [exact Logic.I|reflexivity].
    + injection E as <- <- <-. apply session_one; [apply sh_failure|]. split; [exact Logic.I|reflexivity].
Qed.

(** ** Printed networks read back *)

Lemma entry_line_display e s : entry_line e s -> s = lit "  " ++ display_entry e ++ [10%N].
Proof.
  intros H. destruct H as [f s r bf bs br J1 J2 J3|a c ba bc J1 J2|a c ba bc J1 J2];
    apply json_text_iff in J1, J2; try apply json_text_iff in J3; subst; cbn [display_entry]; unfold display_element, json_string;
    repeat (rewrite <- app_assoc || cbn [app lit]); try reflexivity.
Qed.

Lemma reads_ws w c y us : w <> [] -> Forall ws_char w -> ~ ws_char c -> reads (c :: y) us -> reads (w ++ c :: y) (TWS w :: us).
Proof.
  intros Nw Fw N H rest tr L. rewrite <- app_assoc. cbn [app]. econstructor; [|apply (H rest tr L)].
  apply (next_ws w); [exact Nw|exact Fw|]. intros d r' E. injection E as <- _. exact N.
Qed.

(** Entries each preceded by a newline and two spaces. *)
Fixpoint line_toks (n : list entry) : list token :=
  match n with [] => [] | e :: r => TWS (10%N :: lit "  ") :: toks_entry e ++ line_toks r end.

Fixpoint line_text (n : list entry) : str :=
  match n with [] => [] | e :: r => (10%N :: lit "  ") ++ display_entry e ++ line_text r end.

Lemma reads_lines n : reads (line_text n) (line_toks n).
Proof.
  induction n as [|e n IH]; [apply reads_nil|]. cbn [line_text line_toks].
  pose proof (reads_app _ _ _ _ (reads_entry e) IH) as K.
  destruct (display_entry_first e) as (x & Ex). rewrite Ex in *. cbn [app] in K.
  apply (reads_ws (10%N :: lit "  ") 34%N (x ++ line_text n)); [discriminate| |apply quote_not_ws|exact K].
  repeat constructor; unfold ws_char; lia.
Qed.

Lemma lines_text n lines : Forall2 entry_line n lines -> [10%N] ++ List.concat lines = line_text n ++ [10%N].
Proof.
  induction 1 as [|e s n lines H _ IH]; [reflexivity|]. apply entry_line_display in H. subst s. cbn [List.concat line_text].
  rewrite <- !app_assoc. rewrite IH. reflexivity.
Qed.

Lemma kept_lines n : kept (line_toks n) =
  flat_map (fun e => [TElement (jel (subject e)); TElement (jel (role_name e)); TElement (jel (object e))]) n.
Proof.
  induction n as [|e n IH]; [reflexivity|]. cbn [line_toks flat_map].
  change (TWS (10%N :: lit "  ") :: toks_entry e ++ line_toks n) with ([TWS (10%N :: lit "  ")] ++ toks_entry e ++ line_toks n).
  rewrite !kept_app, kept_entry, IH. reflexivity.
Qed.

Definition word (s : string) : token := TElement (Elem (lit s) None None).

Lemma taf_reads x ts : reads x ts -> tokenize_and_filter x = Ok (kept ts).
Proof. intros H. unfold tokenize_and_filter. rewrite (reads_whole _ _ H). reflexivity. Qed.

Lemma repl_tokens n t : printed (VNetwork n) t -> n <> [] ->
  tokenize_and_filter (lit "id " ++ t) =
  Ok ([word "id"; TOpenBrace]
      ++ flat_map (fun e => [TElement (jel (subject e)); TElement (jel (role_name e)); TElement (jel (object e))]) n ++ [TCloseBrace]).
Proof.
  intros P Ne. inversion P as [| |n' lines _ F]; subst; [congruence|].
  assert (E : lit "id " ++ lit "{" ++ [10%N] ++ List.concat lines ++ lit "}" ++ [10%N]
              = (lit "id" ++ 32%N :: 123%N :: line_text n ++ [10%N] ++ lit "}") ++ [10%N] ++ []).
  { rewrite (app_assoc [10%N]), (lines_text n lines F). rewrite <- !app_assoc. cbn [lit app]. rewrite <- ?app_assoc. reflexivity. }
  rewrite E.
  assert (R : reads (lit "id" ++ 32%N :: 123%N :: line_text n ++ [10%N] ++ lit "}")
     (word "id" :: TWS [32%N] :: TOpenBrace :: line_toks n ++ [TWS [10%N]; TCloseBrace])).
  { apply (reads_word 105%N [100%N]); [|discriminate..|].
    - apply Forall_forall. intros d [<-|[<-|[]]]; apply element_char_iff; reflexivity.
    - apply reads_space; [unfold ws_char; lia|]. apply (reads_app (lit "{") [TOpenBrace]); [apply reads_open_brace|].
      apply reads_app; [apply reads_lines|]. apply (reads_ws [10%N] 125%N []); [discriminate| |unfold ws_char; lia|apply reads_close_brace].
      repeat constructor; unfold ws_char; lia. }
  rewrite (taf_newline _ _ [] (taf_reads _ _ R)).
  change (tokenize_and_filter []) with (@Ok werr (list token) []). cbv iota. f_equal. rewrite app_nil_r.
  change (word "id" :: TWS [32%N] :: TOpenBrace :: line_toks n ++ [TWS [10%N]; TCloseBrace])
    with ([word "id"; TWS [32%N]; TOpenBrace] ++ line_toks n ++ [TWS [10%N]; TCloseBrace]).
  rewrite !kept_app, kept_lines. reflexivity.
Qed.

(** Two entries without a comma between them. *)
Lemma parse_no_comma a r c b rest :
  parse (word "id" :: TOpenBrace :: TElement a :: TElement r :: TElement c :: TElement b :: rest) = Panic PTodo.
Proof. reflexivity. Qed.

Lemma parse_one_entry a r c :
  parse [word "id"; TOpenBrace; TElement a; TElement r; TElement c; TCloseBrace]
  = Ok [Call (Elem (lit "id") None None) [VNetwork [read_entry a r c]]].
Proof. reflexivity. Qed.

Lemma repl_many n t : printed (VNetwork n) t -> 2 <= List.length n -> forall st, grun (lit "id " ++ t) st = (Panic PTodo, st).
Proof.
  intros P L st. destruct n as [|e1 [|e2 n]]; [simpl in L; lia..|].
  unfold grun, run. rewrite (repl_tokens _ _ P) by discriminate. cbn [flat_map app].
  rewrite (parse_no_comma (jel (subject e1)) (jel (role_name e1)) (jel (object e1)) (jel (subject e2))). reflexivity.
Qed.

Lemma repl_single e t : printed (VNetwork [e]) t -> forall st,
  exists e', rereads_entry e e' /\ grun (lit "id " ++ t) st = (Ok (VNetwork [e']), st).
Proof.
  intros P st. exists (re_entry e). split; [apply re_entry_spec|].
  unfold grun, run. rewrite (repl_tokens _ _ P) by discriminate. cbn [flat_map app].
  rewrite parse_one_entry. reflexivity.
Qed.

Lemma repl_empty t : printed (VNetwork []) t -> forall st, grun (lit "id " ++ t) st = (Ok (VNetwork []), st).
Proof. intros P st. inversion P; subst; [|congruence]. reflexivity. Qed.

(** ** The pad *)

Lemma last_text frames : forall d, last (map f_text frames) d = fold_left (fun _ f => f_text f) frames d.
Proof.
  induction frames as [|f frames IH]; intros d; [reflexivity|]. cbn [map fold_left]. rewrite <- IH.
  destruct frames as [|g frames]; [reflexivity|]. cbn [map]. clear IH. revert g.
  induction frames as [|h frames IH]; intros g; [reflexivity|]. cbn [map]. exact (IH h).
Qed.

Lemma text_after_fold frames : fold_left (fun _ f => f_text f) frames [] = text_after frames.
Proof. symmetry. apply last_text. Qed.

Lemma pad_run_app f1 : forall f2 p, pad_run (f1 ++ f2) p = match pad_run f1 p with Ok p' => pad_run f2 p' | Err e => Err e | Panic w => Panic w end.
Proof.
  induction f1 as [|f f1 IH]; intros f2 p; [reflexivity|]. cbn [app pad_run]. destruct (pad_update p f); try reflexivity. apply IH.
Qed.

Lemma pad_text frames : forall p p', pad_run frames p = Ok p' -> p_script p' = fold_left (fun _ f => f_text f) frames (p_script p).
Proof.
  induction frames as [|f frames IH]; intros p p' E; cbn in E; [injection E as <-; reflexivity|].
  destruct (pad_update p f) as [p1|e|w] eqn:E1; try discriminate E. rewrite (IH _ _ E). cbn [fold_left]. f_equal.
  unfold pad_update in E1. destruct (f_clicked f); [|injection E1 as <-; reflexivity].
  destruct (fst (grun (p_script p) mem_new)); try discriminate E1; injection E1 as <-; reflexivity.
Qed.

Lemma pad_quiet frames : Forall (fun f => f_clicked f = false) frames -> forall p,
  pad_run frames p = Ok (Pad (fold_left (fun _ f => f_text f) frames (p_script p)) (p_result p)).
Proof.
  induction 1 as [|f frames H _ IH]; intros p; [destruct p; reflexivity|].
  cbn [pad_run]. unfold pad_update. rewrite H, IH. reflexivity.
Qed.

Lemma pad_last before f after p : f_clicked f = true -> Forall (fun g => f_clicked g = false) after ->
  pad_run (before ++ f :: after) pad_default = Ok p ->
  p_script p = text_after (before ++ f :: after) /\ answers (fst (grun (text_after before) mem_new)) (p_result p).
Proof.
  intros Hc Hq E. split; [rewrite <- text_after_fold; exact (pad_text _ _ _ E)|]. rewrite pad_run_app in E.
  destruct (pad_run before pad_default) as [p1|e|w] eqn:E1; try discriminate E. cbn [pad_run] in E.
  pose proof (pad_text _ _ _ E1) as Ht. cbn [pad_default p_script] in Ht. rewrite text_after_fold in Ht.
  unfold pad_update in E. rewrite Hc, Ht in E. destruct (fst (grun (text_after before) mem_new)) as [v|e|w]; [| |discriminate E].
  - rewrite (pad_quiet _ Hq) in E. injection E as <-. reflexivity.
  - rewrite (pad_quiet _ Hq) in E. injection E as <-. reflexivity.
Qed.

Lemma pad_no_err frames : forall p e, pad_run frames p <> Err e.
Proof.
  induction frames as [|f frames IH]; intros p e; cbn [pad_run]; [discriminate|].
  destruct (pad_update p f) as [p1|e1|w] eqn:E1; [apply IH| |discriminate].
  unfold pad_update in E1. destruct (f_clicked f); [|discriminate E1]. destruct (fst (grun (p_script p) mem_new)); discriminate E1.
Qed.

Lemma pad_panic frames w : pad_run frames pad_default = Panic w -> exists before f after,
  frames = before ++ f :: after /\ f_clicked f = true /\ fst (grun (text_after before) mem_new) = Panic w.
Proof.
  intros H.
  assert (G : forall frames p, pad_run frames p = Panic w -> exists before f after,
     frames = before ++ f :: after /\ f_clicked f = true
     /\ fst (grun (fold_left (fun _ f => f_text f) before (p_script p)) mem_new) = Panic w).
  { clear. induction frames as [|f frames IH]; intros p E; cbn [pad_run] in E; [discriminate E|].
    destruct (pad_update p f) as [p1|e|w1] eqn:E1; [|discriminate E|].
    - destruct (IH p1 E) as (b & g & a & -> & Hc & Hg). exists (f :: b), g, a. split; [reflexivity|]. split; [exact Hc|].
      cbn [fold_left]. replace (f_text f) with (p_script p1); [exact Hg|].
      assert (E2 : pad_run [f] p = Ok p1) by (cbn; rewrite E1; reflexivity). exact (pad_text _ _ _ E2).
    - injection E as ->. exists [], f, frames. split; [reflexivity|]. unfold pad_update in E1. destruct (f_clicked f); [|discriminate E1].
      split; [reflexivity|]. cbn [fold_left]. destruct (fst (grun (p_script p) mem_new)); try discriminate E1. congruence. }
  destruct (G frames pad_default H) as (b & f & a & E & Hc & Hg). exists b, f, a. rewrite <- text_after_fold. auto.
Qed.

Lemma panic_pad before f after w : f_clicked f = true -> fst (grun (text_after before) mem_new) = Panic w ->
  exists w', pad_run (before ++ f :: after) pad_default = Panic w'.
Proof.
  intros Hc Hg. rewrite pad_run_app. destruct (pad_run before pad_default) as [p|e|w1] eqn:E; [|destruct (pad_no_err _ _ _ E)|eauto].
  cbn [pad_run]. unfold pad_update. rewrite Hc, (pad_text _ _ _ E). cbn [pad_default p_script]. rewrite text_after_fold, Hg. eauto.
Qed.


Lemma pad_panic_iff frames : (exists w, pad_run frames pad_default = Panic w) <->
  exists before f after w, frames = before ++ f :: after /\ f_clicked f = true
    /\ fst (grun (text_after before) mem_new) = Panic w.
Proof.
  split.
  - intros (w & H). destruct (pad_panic _ _ H) as (b & f & a & E & Hc & Hg). eauto 8.
  - intros (b & f & a & w & -> & Hc & Hg). eapply panic_pad; eassumption.
Qed.

Lemma pad_never frames : Forall (fun g => f_clicked g = false) frames ->
  pad_run frames pad_default = Ok (Pad (text_after frames) (ReplyValue [])).
Proof. intros H. rewrite (pad_quiet frames H). cbn [pad_default p_script p_result]. rewrite text_after_fold. reflexivity. Qed.

(** ** The answers are determined *)

Lemma entry_line_unique e s s' : entry_line e s -> entry_line e s' -> s = s'.
Proof. intros H H'. apply entry_line_display in H, H'. congruence. Qed.

Lemma printed_unique v t t' : printed v t -> printed v t' -> t = t'.
Proof.
  intros H H'. inversion H as [e| |n lines N F]; subst; inversion H' as [e'| |n' lines' N' F']; subst; try congruence.
  assert (lines = lines') as ->; [|reflexivity]. clear - F F'. revert lines' F'.
  induction F as [|e s n lines L F IH]; intros l' F'; inversion F'; subst; [reflexivity|].
  f_equal; [eapply entry_line_unique; eassumption|auto].
Qed.

Lemma first_word_unique w w' s : is_first_word w s -> is_first_word w' s -> w = w'.
Proof. rewrite <- !first_word_iff. congruence. Qed.

Definition colon_words : list str := map lit [":q"; ":quit"; ":h"; ":help"; ":broadcast"; ":s"; ":status"]%string.

Lemma colon_words_colon w line : is_first_word w line -> In w colon_words -> first_char 58 line.
Proof.
  intros H K. cbn [colon_words map In lit] in K.
  repeat (destruct K as [K|K]; [subst w; eapply word_colon; exact H|]). destruct K.
Qed.

(** The three kinds of line. *)
Lemma shows_kind st line o : shows st (InLine line) o ->
  (exists w, first_char 58 line /\ is_first_word w line /\ (w = lit ":status" \/ w = lit ":s") /\ o = [OText (lit "..." ++ [10%N])])
  \/ (exists w, first_char 58 line /\ is_first_word w line /\ In w (map lit [":q"; ":quit"; ":h"; ":help"; ":broadcast"]%string) /\ o = [])
  \/ (exists w, first_char 58 line /\ is_first_word w line /\ ~ In w colon_words /\ o = [OText (lit "Unknown command - " ++ w ++ [10%N])])
  \/ (script_line line /\ match fst (grun line st) with
        | Ok (VQuote _) => o = []
        | Ok v => exists t, printed v t /\ out_text o t
        | Err e => o = [ODebug e]
        | Panic _ => o = []
        end).
Proof.
  intros H. inversion H; subst.
  - left. match goal with K : _ \/ _ |- _ => destruct K as [K|K]; pose proof (word_colon _ _ K) end; eauto 8.
  - right. left. exists w. split; [|auto]. apply (colon_words_colon w); [assumption|]. cbn [colon_words map In] in *. tauto.
  - right. right. left. eauto 8.
  - right. right. right. split; [assumption|]. match goal with K : fst _ = _ |- _ => rewrite K end.
    match goal with K : printed _ _ |- _ => inversion K; subst end; eauto.
  - right. right. right. split; [assumption|]. match goal with K : fst _ = _ |- _ => rewrite K end. reflexivity.
  - right. right. right. split; [assumption|]. match goal with K : fst _ = _ |- _ => rewrite K end. reflexivity.
  - right. right. right. split; [assumption|]. match goal with K : fst _ = _ |- _ => rewrite K end. reflexivity.
Qed.

Lemma shows_unique st i o o' : shows st i o -> shows st i o' -> o = o' \/ exists t, out_text o t /\ out_text o' t.
Proof.
  destruct i as [line| | |]; [|intros H H'; inversion H; inversion H'; subst; auto..].
  intros H H'. apply shows_kind in H, H'.
  destruct H as [(w & C & W & D & ->)|[(w & C & W & D & ->)|[(w & C & W & D & ->)|[C D]]]];
    (destruct H' as [(w' & C' & W' & D' & ->)|[(w' & C' & W' & D' & ->)|[(w' & C' & W' & D' & ->)|[C' D']]]];
     try (exfalso; unfold script_line in *; tauto);
     try (pose proof (first_word_unique _ _ _ W W'); subst w'); auto).
  - exfalso. cbn [map In lit] in D'. destruct D as [-> | ->]; intuition discriminate.
  - exfalso. apply D'. cbn [colon_words map In]. destruct D as [-> | ->]; auto 10.
  - exfalso. cbn [map In lit] in D. destruct D' as [-> | ->]; intuition discriminate.
  - exfalso. apply D'. cbn [colon_words map In] in *. tauto.
  - exfalso. apply D. cbn [colon_words map In]. destruct D' as [-> | ->]; auto 10.
  - exfalso. apply D. cbn [colon_words map In] in *. tauto.
  - destruct (fst (grun line st)) as [[e|q|n]|e|w]; [| left; congruence | |left; congruence..].
    + destruct D as (t & P & O), D' as (t' & P' & O'). rewrite (printed_unique _ _ _ P P') in O. eauto.
    + destruct D as (t & P & O), D' as (t' & P' & O'). rewrite (printed_unique _ _ _ P P') in O. eauto.
Qed.
