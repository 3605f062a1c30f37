(** * Whole scripts: text, calls and effects *)
From Coq Require Import List Arith NArith Bool String Lia.
From Verif Require Import M_Base M_Data M_Regex M_Lexer M_Graph M_Parser M_Display M_Interp
  S_Order S_Str S_Graph S_Lexer S_Parser S_Interp P_Ord P_Lexer P_LexMore P_Parser P_Interp P_InterpProps.
Import ListNotations.
Open Scope list_scope.

Lemma taf_newline s1 t1 s2 : tokenize_and_filter s1 = Ok t1 ->
  tokenize_and_filter (s1 ++ [10%N] ++ s2)
  = match tokenize_and_filter s2 with Ok t2 => Ok (t1 ++ t2) | Err e => Err e | Panic w => Panic w end.
Proof. exact (tokenize_and_filter_newline s1 t1 s2). Qed.

Lemma commas_app p1 c1 : g_commas p1 c1 -> forall p2 c2, g_commas p2 c2 -> g_commas (p1 ++ p2) (c1 ++ c2).
Proof.
  induction 1 as [|ts c ts' cs G H IH]; intros p2 c2 K; [exact K|].
  rewrite <- app_assoc. cbn [app]. apply gp_cons; [exact G|]. apply IH, K.
Qed.

Lemma script_after_commas p c1 : g_commas p c1 -> forall t c2, g_script t c2 -> g_script (p ++ t) (c1 ++ c2).
Proof.
  intros G t c2 [ts cs K|ts cs ts' c K L].
  - apply gs_trailing, commas_app; assumption.
  - rewrite !app_assoc. apply gs_last; [apply commas_app; assumption|exact L].
Qed.

Lemma last_commas p cs ts c : g_commas p cs -> g_call ts c -> g_commas ((p ++ ts) ++ [TComma]) (cs ++ [c]).
Proof. intros G C. rewrite <- app_assoc. apply (commas_app _ _ G). apply gp_cons; [exact C|constructor]. Qed.

Section Runs.
  Context {St : Type} (lig : lig_impl St) (cs : @commands St).

  Lemma run_text s ts calls st : tokenize_and_filter s = Ok ts -> g_script ts calls ->
    run lig cs s st = run_calls lig cs calls st.
  Proof. intros E G. unfold run. rewrite E, (proj2 (parse_ok _ _) G). reflexivity. Qed.

  Lemma join_commas s1 t1 c1 s2 t2 c2 st :
    tokenize_and_filter s1 = Ok t1 -> g_commas t1 c1 -> tokenize_and_filter s2 = Ok t2 -> g_script t2 c2 ->
    run lig cs (s1 ++ [10%N] ++ s2) st = run_calls lig cs (c1 ++ c2) st.
  Proof.
    intros E1 G1 E2 G2. apply (run_text _ (t1 ++ t2)); [|apply script_after_commas; assumption].
    rewrite (taf_newline _ _ s2 E1), E2. reflexivity.
  Qed.

  Lemma join_last s1 p q c1 c s2 t2 c2 st :
    tokenize_and_filter s1 = Ok (p ++ q) -> g_commas p c1 -> g_call q c ->
    tokenize_and_filter s2 = Ok t2 -> g_script t2 c2 ->
    run lig cs (s1 ++ [10%N] ++ lit "," ++ [10%N] ++ s2) st = run_calls lig cs ((c1 ++ [c]) ++ c2) st.
  Proof.
    intros E1 G1 C E2 G2. apply (run_text _ (((p ++ q) ++ [TComma]) ++ t2)).
    - rewrite (taf_newline _ _ _ E1).
      assert (Ec : tokenize_and_filter (lit ",") = Ok [TComma]) by (vm_compute; reflexivity).
      rewrite (taf_newline _ _ s2 Ec), E2. rewrite <- (app_assoc (p ++ q)). reflexivity.
    - apply script_after_commas; [apply last_commas; assumption|exact G2].
  Qed.

  Lemma blank_between s1 t1 b s2 st :
    tokenize_and_filter s1 = Ok t1 -> tokenize_and_filter b = Ok [] ->
    run lig cs (s1 ++ [10%N] ++ b ++ [10%N] ++ s2) st = run lig cs (s1 ++ [10%N] ++ s2) st.
  Proof.
    intros E1 Eb. unfold run. rewrite (taf_newline _ _ _ E1), (taf_newline _ _ s2 E1).
    rewrite (taf_newline _ _ s2 Eb). destruct (tokenize_and_filter s2); reflexivity.
  Qed.

  Lemma blank_before b s st : tokenize_and_filter b = Ok [] -> run lig cs (b ++ [10%N] ++ s) st = run lig cs s st.
  Proof.
    intros Eb. unfold run. rewrite (taf_newline _ _ s Eb). destruct (tokenize_and_filter s); reflexivity.
  Qed.

  Lemma blank_after s ts b st : tokenize_and_filter s = Ok ts -> tokenize_and_filter b = Ok [] ->
    run lig cs (s ++ [10%N] ++ b) st = run lig cs s st.
  Proof.
    intros E Eb. unfold run. rewrite (taf_newline _ _ b E), Eb, E, app_nil_r. reflexivity.
  Qed.
End Runs.


Lemma filter_blank ts : Forall (fun t => (exists w, t = TWS w) \/ (exists c, t = TComment c)) ts ->
  map string_to_element (filter significant ts) = [].
Proof. induction 1 as [|t ts [(w & ->)|(c & ->)] F IH]; [reflexivity| |]; exact IH. Qed.

Lemma lexes_blank b ts : lexes b ts -> Forall (fun t => (exists w, t = TWS w) \/ (exists c, t = TComment c)) ts ->
  tokenize_and_filter b = Ok [].
Proof.
  intros L F. apply tokenize_ok in L. unfold tokenize_and_filter. rewrite L, (filter_blank _ F). reflexivity.
Qed.

Lemma line_lexes l : Forall (fun c => c <> 10%N) l -> exists t, lexes (lit "--" ++ l) [t] /\ exists c, t = TComment c.
Proof.
  intros F. exists (TComment (lit "--" ++ l)). split; [|eauto].
  apply (lexes_cons _ _ (lit "--" ++ l) []); [|constructor].
  split; [rewrite app_nil_r; reflexivity|]. split; [apply lx_comment, F|]. split.
  - intros t' x' rest' E _. rewrite E. rewrite app_length. lia.
  - discriminate.
Qed.
