(** * Printed forms *)
From Coq Require Import List Arith NArith Bool Lia String.
From Verif Require Import M_Base M_Data M_Regex M_Lexer M_Graph M_Parser M_Display
  S_Order S_Graph S_Lexer S_Parser S_Display P_Ord P_Agree P_Graph P_Regex P_Lexer P_LexMore P_Parser.
Import ListNotations.
Open Scope list_scope.

(** ** JSON escaping *)

Lemma hex_digit_value n : (n < 16)%N -> hex_value (hex_digit n) n /\ ~ (65 <= hex_digit n <= 70)%N.
Proof.
  intros H. unfold hex_digit. destruct (N.ltb_spec n 10) as [L|L].
  - split; [apply hv_digit; exact L|lia].
  - split; [apply hv_lower; lia|lia].
Qed.

Lemma hex_value_char h n : hex_value h n -> hex_char h.
Proof. unfold hex_char. destruct 1; lia. Qed.

Lemma hex_value_lower h n : hex_value h n -> ~ (65 <= h <= 70)%N -> h = hex_digit n.
Proof.
  unfold hex_digit. destruct 1 as [n H|n H|n H]; intros K; destruct (N.ltb_spec n 10); lia.
Qed.

Lemma control_digits c : (c < 32)%N -> (c / 16 < 16)%N /\ (c mod 16 < 16)%N.
Proof. intros H. split; [apply N.div_lt_upper_bound; lia|apply N.mod_lt; lia]. Qed.

Inductive json_char_view (c : N) : str -> Prop :=
| jv_plain : plain_char c -> json_char_view c [c]
| jv_short l : In (c, l) [(34, 34); (92, 92); (8, 98); (12, 102); (10, 110); (13, 114); (9, 116)]%N ->
    json_char_view c [92%N; l]
| jv_control : (c < 32)%N -> ~ In c [8; 9; 10; 12; 13]%N ->
    json_char_view c [92; 117; 48; 48; hex_digit (c / 16); hex_digit (c mod 16)]%N.

Lemma json_char_spec c : json_char_view c (json_char c).
Proof.
  unfold json_char.
  destruct (N.eqb_spec c 34) as [->|N1]; [apply jv_short; cbn; tauto|].
  destruct (N.eqb_spec c 92) as [->|N2]; [apply jv_short; cbn; tauto|].
  destruct (N.eqb_spec c 8) as [->|N3]; [apply jv_short; cbn; tauto|].
  destruct (N.eqb_spec c 9) as [->|N4]; [apply jv_short; cbn; tauto|].
  destruct (N.eqb_spec c 10) as [->|N5]; [apply jv_short; cbn; tauto|].
  destruct (N.eqb_spec c 12) as [->|N6]; [apply jv_short; cbn; tauto|].
  destruct (N.eqb_spec c 13) as [->|N7]; [apply jv_short; cbn; tauto|].
  destruct (N.ltb_spec c 32) as [L|L].
  - apply jv_control; [exact L|]. cbn. intuition congruence.
  - apply jv_plain. unfold plain_char. auto.
Qed.

Lemma json_text_body s : json_text s (json_body s).
Proof.
  induction s as [|c s IH]; [constructor|]. cbn [json_body flat_map]. fold (json_body s).
  destruct (json_char_spec c) as [P|l H|L N]; cbn [app].
  - constructor; assumption.
  - constructor; assumption.
  - destruct (control_digits c L) as [D1 D2].
    constructor; try assumption; try apply hex_digit_value; assumption.
Qed.

Lemma json_text_iff s b : json_text s b <-> b = json_body s.
Proof.
  split; [|intros ->; apply json_text_body].
  induction 1 as [|c s b P H IH|c l s b Hi H IH|c h1 h2 s b L N V1 V2 U1 U2 H IH]; [reflexivity|..];
    cbn [json_body flat_map]; fold (json_body s); rewrite IH; clear IH H.
  - destruct (json_char_spec c) as [P'|l Hi|L N]; [reflexivity|exfalso..].
    + unfold plain_char in P. cbn in Hi. repeat destruct Hi as [Hi|Hi]; try injection Hi as <- <-; lia.
    + unfold plain_char in P. lia.
  - cbn in Hi. repeat (destruct Hi as [Hi|Hi]; [injection Hi as <- <-; reflexivity|]). destruct Hi.
  - destruct (json_char_spec c) as [P'|l Hi|L' N']; [exfalso; unfold plain_char in P'; lia| |].
    + exfalso. cbn in Hi, N. repeat (destruct Hi as [Hi|Hi]; [injection Hi as <- <-; (lia || tauto)|]). destruct Hi.
    + rewrite (hex_value_lower _ _ V1 U1), (hex_value_lower _ _ V2 U2). reflexivity.
Qed.

Lemma json_text_total s : exists b, json_text s b.
Proof. exists (json_body s). apply json_text_body. Qed.

Lemma json_text_means s b : json_text s b -> json_means b s.
Proof.
  induction 1 as [|c s b P H IH|c l s b Hi H IH|c h1 h2 s b L N V1 V2 U1 U2 H IH].
  - constructor.
  - constructor; assumption.
  - constructor; [|exact IH]. cbn in Hi |- *. repeat (destruct Hi as [Hi|Hi]; [injection Hi as <- <-; tauto|]). destruct Hi.
  - replace c with (4096 * 0 + 256 * 0 + 16 * (c / 16) + c mod 16)%N at 1
      by (pose proof (N.div_mod c 16 ltac:(lia)); lia).
    constructor; try assumption; apply (hv_digit 0); lia.
Qed.

Lemma json_means_body b s : json_means b s -> string_body b.
Proof.
  induction 1 as [|c b s P H IH|l c b s Hi H IH|h1 h2 h3 h4 n1 n2 n3 n4 b s V1 V2 V3 V4 H IH].
  - constructor.
  - apply sb_plain; assumption.
  - apply sb_escape; [|exact IH].
    cbn in Hi |- *. repeat (destruct Hi as [Hi|Hi]; [injection Hi as <- _; tauto|]). destruct Hi.
  - apply sb_unicode; try exact IH; eapply hex_value_char; eassumption.
Qed.

Lemma hex_value_fun h n n' : hex_value h n -> hex_value h n' -> n = n'.
Proof. intros H H'. destruct H; inversion H'; lia. Qed.

Lemma short_fun l c c' : In (l, c) short_escapes -> In (l, c') short_escapes -> c = c'.
Proof.
  cbn. intros H H'. repeat (destruct H as [H|H]; [injection H as <- <-; intuition congruence|]). destruct H.
Qed.

(** JSON decoding is a function. *)
Lemma json_means_fun b s : json_means b s -> forall s', json_means b s' -> s = s'.
Proof.
  induction 1 as [|c b s P H IH|l c b s Hi H IH|h1 h2 h3 h4 n1 n2 n3 n4 b s V1 V2 V3 V4 H IH]; intros s' H'.
  - inversion H'. reflexivity.
  - inversion H'; subst; [f_equal; auto|exfalso; unfold plain_char in P; lia|exfalso; unfold plain_char in P; lia].
  - inversion H' as [|? ? ? P ?|l' c' b' s0 Hi' K|]; subst.
    + exfalso. unfold plain_char in P. lia.
    + f_equal; [eapply short_fun; eauto|auto].
    + exfalso. cbn in Hi. intuition congruence.
  - inversion H' as [|? ? ? P ?|l' c' b' s0 Hi' K|h1' h2' h3' h4' m1 m2 m3 m4 b' s0 W1 W2 W3 W4 K]; subst.
    + exfalso. unfold plain_char in P. lia.
    + exfalso. cbn in Hi'. intuition congruence.
    + rewrite (hex_value_fun _ _ _ V1 W1), (hex_value_fun _ _ _ V2 W2), (hex_value_fun _ _ _ V3 W3), (hex_value_fun _ _ _ V4 W4).
      f_equal. auto.
Qed.

Lemma json_body_inj s s' : json_body s = json_body s' -> s = s'.
Proof.
  intros E. eapply json_means_fun; [apply json_text_means, json_text_body|]. rewrite E. apply json_text_means, json_text_body.
Qed.

Lemma json_body_string s : string_body (json_body s).
Proof. eapply json_means_body, json_text_means, json_text_body. Qed.

Lemma json_body_plain s : Forall plain_char s -> json_body s = s.
Proof.
  intros H. symmetry. apply json_text_iff. induction H; constructor; assumption.
Qed.

(** ** Reading concatenations *)

Definition reads (x : str) (ts : list token) : Prop :=
  forall rest tr, lexes rest tr -> lexes (x ++ rest) (ts ++ tr).

Lemma reads_nil : reads [] [].
Proof. intros rest tr H. exact H. Qed.

Lemma reads_app x ts y us : reads x ts -> reads y us -> reads (x ++ y) (ts ++ us).
Proof. intros H K rest tr L. rewrite <- !app_assoc. auto. Qed.

Lemma reads_one x t : (forall rest, next_token (x ++ rest) t x rest) -> reads x [t].
Proof. intros H rest tr L. econstructor; [apply H|exact L]. Qed.

Lemma body_prefix b : string_body b -> forall b' r r', string_body b' -> b ++ 34%N :: r = b' ++ 34%N :: r' -> b = b'.
Proof.
  assert (Q : forall c s, string_body (c :: s) -> c <> 34%N).
  { intros c s H. inversion H as [|? ? P|? ? P|]; subst; [unfold plain_char in P; lia|discriminate|discriminate]. }
  induction 1 as [|c s P H IH|c s P H IH|h1 h2 h3 h4 s A B C D H IH]; intros b' r r' K E.
  - destruct b' as [|d b']; [reflexivity|]. exfalso. injection E as <- _. eapply Q; eauto.
  - destruct K as [|d s' P' K|d s' P' K|g1 g2 g3 g4 s' A' B' C' D' K]; injection E; intros; subst.
    + unfold plain_char in P. lia.
    + f_equal. eapply IH; eauto.
    + unfold plain_char in P. lia.
    + unfold plain_char in P. lia.
  - destruct K as [|d s' P' K|d s' P' K|g1 g2 g3 g4 s' A' B' C' D' K]; injection E; intros; subst.
    + discriminate.
    + unfold plain_char in P'. lia.
    + do 2 f_equal. eapply IH; eauto.
    + cbn in P. intuition congruence.
  - destruct K as [|d s' P' K|d s' P' K|g1 g2 g3 g4 s' A' B' C' D' K]; injection E; intros; subst.
    + discriminate.
    + unfold plain_char in P'. lia.
    + cbn in P'. intuition congruence.
    + do 6 f_equal. eapply IH; eauto.
Qed.

Lemma reads_string b : string_body b -> reads (34%N :: b ++ [34%N]) [TString b].
Proof.
  intros B. apply reads_one. intros rest. split; [reflexivity|]. split; [constructor; exact B|]. split; [|discriminate].
  intros t' x' rest' E L.
  destruct x' as [|c x']; [simpl; lia|]. injection E as <- E.
  destruct (lexeme_by_first _ _ L) as [[e ->]|F].
  - exfalso. inversion L; subst. match goal with F : Forall element_char _ |- _ => inversion F; subst end.
    match goal with K : element_char 34 |- _ => apply element_char_iff in K; vm_compute in K; discriminate end.
  - cbn in F. injection F as <-.
    assert (B' : string_body (removelast x')) by (inversion L; assumption).
    assert (E2 : x' = removelast x' ++ [34%N]) by (apply lexeme_text in L; injection L; auto).
    rewrite E2, <- !app_assoc in E. cbn [app] in E. apply body_prefix in E; [|assumption..].
    rewrite E2, <- E. reflexivity.
Qed.

Lemma reads_punct c t : by_first [c] = Some t -> lexeme t [c] -> in_cls cls_element c = false ->
  (forall x, by_first (c :: x) = Some t) -> reads [c] [t].
Proof.
  intros F L Ne F'. apply reads_one. intros rest. split; [reflexivity|]. split; [exact L|]. split.
  - intros t' x' rest' E L'. destruct x' as [|d x']; [simpl; lia|]. injection E as <- E.
    destruct (lexeme_by_first _ _ L') as [[e ->]|G].
    + exfalso. inversion L'; subst. match goal with F : Forall element_char _ |- _ => inversion F; subst end.
      match goal with K : element_char c |- _ => apply element_char_iff in K; congruence end.
    + rewrite F' in G. injection G as <-. apply lexeme_text in L, L'. rewrite L in L'. rewrite <- L'. simpl. lia.
  - intros e ->. exfalso. inversion L; subst. match goal with F : Forall element_char _ |- _ => inversion F; subst end.
    match goal with K : element_char c |- _ => apply element_char_iff in K; congruence end.
Qed.

Lemma reads_open_brace : reads (lit "{") [TOpenBrace].
Proof. apply (reads_punct 123%N); [reflexivity|constructor|reflexivity|reflexivity]. Qed.
Lemma reads_close_brace : reads (lit "}") [TCloseBrace].
Proof. apply (reads_punct 125%N); [reflexivity|constructor|reflexivity|reflexivity]. Qed.
Lemma reads_open_paren : reads (lit "(") [TOpenParen].
Proof. apply (reads_punct 40%N); [reflexivity|constructor|reflexivity|reflexivity]. Qed.
Lemma reads_close_paren : reads (lit ")") [TCloseParen].
Proof. apply (reads_punct 41%N); [reflexivity|constructor|reflexivity|reflexivity]. Qed.
Lemma reads_comma : reads (lit ",") [TComma].
Proof. apply (reads_punct 44%N); [reflexivity|constructor|reflexivity|reflexivity]. Qed.

(** A space before something that does not begin with white space. *)
Lemma reads_space c y us : ~ ws_char c -> reads (c :: y) us -> reads (32%N :: c :: y) (TWS [32%N] :: us).
Proof.
  intros N H rest tr L. cbn [app]. econstructor; [|apply (H rest tr L)].
  apply (next_ws [32%N]); [discriminate|repeat constructor|]. intros d r' E. injection E as <- _. exact N.
Qed.

Lemma first_is_element c t x : element_char c -> c <> 45%N -> c <> 91%N -> c <> 93%N -> lexeme t (c :: x) ->
  Forall element_char (c :: x) /\ t = TElement (Elem (c :: x) None None).
Proof.
  intros Ec N1 N2 N3 L. destruct (lexeme_by_first _ _ L) as [[e ->]|F].
  - rewrite (lexeme_element_text _ _ L) in *. split; [inversion L; assumption|reflexivity].
  - exfalso. unfold by_first in F. pose proof (proj2 (element_char_iff c) Ec) as K.
    destruct (N.eqb_spec c 40) as [->|_]; [discriminate K|].
    destruct (N.eqb_spec c 41) as [->|_]; [discriminate K|].
    destruct (N.eqb_spec c 123) as [->|_]; [discriminate K|].
    destruct (N.eqb_spec c 125) as [->|_]; [discriminate K|].
    destruct (N.eqb_spec c 91) as [->|_]; [congruence|].
    destruct (N.eqb_spec c 93) as [->|_]; [congruence|].
    destruct (N.eqb_spec c 124) as [->|_]; [discriminate K|].
    destruct (N.eqb_spec c 44) as [->|_]; [discriminate K|].
    destruct (N.eqb_spec c 34) as [->|_]; [discriminate K|].
    destruct (N.eqb_spec c 45) as [->|_]; [congruence|].
    injection F as <-. inversion L as [y _ W| | | | | | | | | | | |]; subst. inversion W; subst.
    eapply ws_not_element_char; eauto.
Qed.

(** A word before a space. *)
Lemma reads_word c x y us : Forall element_char (c :: x) -> c <> 45%N -> c <> 91%N -> c <> 93%N ->
  reads (32%N :: y) us -> reads ((c :: x) ++ 32%N :: y) (TElement (Elem (c :: x) None None) :: us).
Proof.
  intros F N1 N2 N3 H rest tr L. cbn [app]. econstructor; [|apply (H rest tr L)].
  assert (Only : forall t' x', lexeme t' (c :: x') -> Forall element_char (c :: x') /\ t' = TElement (Elem (c :: x') None None)).
  { intros t' x' Lx. apply first_is_element; [inversion F; assumption|assumption..]. }
  replace (c :: (x ++ 32%N :: y) ++ rest) with ((c :: x) ++ 32%N :: y ++ rest)
    by (rewrite <- app_assoc; reflexivity).
  split; [reflexivity|]. split; [constructor; [discriminate|exact F]|]. split.
  - intros t' x' rest' E Lx. destruct x' as [|d x']; [simpl; lia|]. injection E as <- E.
    destruct (Only _ _ Lx) as [F' _]. inversion F' as [|? ? _ F2]; subst. clear -E F2.
    simpl. apply le_n_S. revert x' E F2. induction x as [|a x IH]; intros [|b x'] E F2; simpl; try lia.
    + exfalso. injection E as <- _. inversion F2 as [|? ? W _]; subst. apply element_char_iff in W. vm_compute in W. discriminate.
    + injection E as <- E. inversion F2; subst. apply le_n_S, IH; assumption.
  - intros e _ t' Lx. apply Only in Lx. apply Lx.
Qed.

(** ** Tokens of printed values *)

Definition ptok (e : element) : token := TString (json_body (el_name e)).

Definition sp : token := TWS [32%N].

Definition toks_entry (e : entry) : list token :=
  match e with
  | Role f s r => [ptok f; sp; ptok r; sp; ptok s]
  | Extends a c => [ptok a; sp; TElement (Elem colon None None); sp; ptok c]
  | NotExtends a c => [ptok a; sp; TElement (Elem not_colon None None); sp; ptok c]
  end.

Lemma reads_element e : reads (display_element e) [ptok e].
Proof. apply reads_string, json_body_string. Qed.

Lemma quote_not_ws : ~ ws_char 34.
Proof. unfold ws_char. lia. Qed.

Lemma reads_sp_element e y us : reads y us -> reads (lit " " ++ display_element e ++ y) (sp :: ptok e :: us).
Proof.
  intros H. apply (reads_space 34 ((json_body (el_name e) ++ [34%N]) ++ y)); [apply quote_not_ws|].
  apply (reads_app (34%N :: json_body (el_name e) ++ [34%N]) [ptok e]); [apply reads_element|exact H].
Qed.

Lemma reads_sp_last e : reads (lit " " ++ display_element e) [sp; ptok e].
Proof. rewrite <- (app_nil_r (display_element e)). apply reads_sp_element, reads_nil. Qed.

Lemma reads_entry e : reads (display_entry e) (toks_entry e).
Proof.
  destruct e as [f s r|a c|a c]; cbn [display_entry toks_entry].
  - apply (reads_app _ [ptok f]); [apply reads_element|]. apply reads_sp_element. apply reads_sp_last.
  - apply (reads_app _ [ptok a]); [apply reads_element|].
    change (lit " : " ++ display_element c) with (32%N :: 58%N :: (32%N :: display_element c)).
    apply reads_space; [unfold ws_char; lia|].
    change (58%N :: 32%N :: display_element c) with ([58%N] ++ 32%N :: display_element c).
    apply reads_word; try discriminate; [|apply reads_sp_last].
    constructor; [|constructor]. apply element_char_iff. reflexivity.
  - apply (reads_app _ [ptok a]); [apply reads_element|].
    change (lit " " ++ role_not_extends ++ lit " " ++ display_element c)
      with (32%N :: 172%N :: 58%N :: (32%N :: display_element c)).
    apply reads_space; [unfold ws_char; lia|].
    change (172%N :: 58%N :: 32%N :: display_element c) with ([172%N; 58%N] ++ 32%N :: display_element c).
    apply reads_word; try discriminate; [|apply reads_sp_last].
    repeat (constructor; [apply element_char_iff; reflexivity|]). constructor.
Qed.

Fixpoint toks_entries (es : list entry) : list token :=
  match es with
  | [] => []
  | [e] => toks_entry e
  | e :: rest => toks_entry e ++ TComma :: sp :: toks_entries rest
  end.

Lemma display_entry_first e : exists x, display_entry e = 34%N :: x.
Proof. destruct e; eexists; reflexivity. Qed.

Lemma reads_entries : forall es i total, total = i + List.length es ->
  reads (display_entries total i es) (toks_entries es).
Proof.
  induction es as [|e es IH]; intros i total E; [apply reads_nil|]. cbn [display_entries].
  destruct es as [|e2 es].
  - simpl in E. assert (Nat.ltb (S i) total = false) as -> by (apply Nat.ltb_ge; lia).
    cbn [display_entries toks_entries app]. rewrite app_nil_r. apply reads_entry.
  - assert (Nat.ltb (S i) total = true) as -> by (apply Nat.ltb_lt; simpl in E; lia).
    change (toks_entries (e :: e2 :: es)) with (toks_entry e ++ TComma :: sp :: toks_entries (e2 :: es)).
    apply reads_app; [apply reads_entry|].
    assert (R : reads (display_entries total (S i) (e2 :: es)) (toks_entries (e2 :: es)))
      by (apply IH; simpl in *; lia).
    change (lit ", " ++ display_entries total (S i) (e2 :: es))
      with (lit "," ++ 32%N :: display_entries total (S i) (e2 :: es)).
    apply (reads_app _ [TComma]); [apply reads_comma|].
    cbn [display_entries] in *. destruct (display_entry_first e2) as [x Ex]. rewrite Ex in *. cbn [app] in *.
    apply reads_space; [apply quote_not_ws|exact R].
Qed.

Definition toks_network (es : list entry) : list token := TOpenBrace :: toks_entries es ++ [TCloseBrace].

Lemma reads_network es : reads (display_network es) (toks_network es).
Proof.
  apply (reads_app _ [TOpenBrace]); [apply reads_open_brace|].
  apply reads_app; [apply reads_entries; reflexivity|apply reads_close_brace].
Qed.

Fixpoint toks (v : value) : list token :=
  match v with
  | VElement e => [ptok e]
  | VNetwork n => toks_network n
  | VQuote q =>
      TOpenParen ::
      (fix go (l : list value) : list token :=
         match l with
         | [] => []
         | x :: r => toks x ++ match r with [] => [] | _ :: _ => [sp] end ++ go r
         end) q ++ [TCloseParen]
  end.

Fixpoint toks_items (l : list value) : list token :=
  match l with
  | [] => []
  | x :: r => toks x ++ match r with [] => [] | _ :: _ => [sp] end ++ toks_items r
  end.

Fixpoint display_items (l : list value) : str :=
  match l with
  | [] => []
  | x :: r => display x ++ match r with [] => [] | _ :: _ => lit " " end ++ display_items r
  end.

Lemma toks_quote q : toks (VQuote q) = TOpenParen :: toks_items q ++ [TCloseParen].
Proof. reflexivity. Qed.

Lemma display_quote q : display (VQuote q) = lit "(" ++ display_items q ++ lit ")".
Proof. reflexivity. Qed.

Lemma display_first v : exists c x, display v = c :: x /\ ~ ws_char c.
Proof.
  destruct v as [e|q|n].
  - eexists _, _. split; [reflexivity|]. apply quote_not_ws.
  - exists 40%N. rewrite display_quote. eexists. split; [reflexivity|]. unfold ws_char. lia.
  - exists 123%N. eexists. split; [reflexivity|]. unfold ws_char. lia.
Qed.

Lemma value_ind' (P : value -> Prop) :
  (forall e, P (VElement e)) -> (forall n, P (VNetwork n)) -> (forall q, Forall P q -> P (VQuote q)) -> forall v, P v.
Proof.
  intros H1 H2 H3. fix IH 1. intros [e|q|n]; [apply H1| |apply H2]. apply H3.
  induction q as [|x q IHq]; constructor; [apply IH|exact IHq].
Qed.

(** Every printed value reads as its tokens, nested quotes included. *)
Lemma reads_display v : reads (display v) (toks v).
Proof.
  induction v as [e|n|q IH] using value_ind'.
  - apply reads_element.
  - apply reads_network.
  - rewrite toks_quote, display_quote. apply (reads_app _ [TOpenParen]); [apply reads_open_paren|].
    apply reads_app; [|apply reads_close_paren].
    induction IH as [|x q Hx Hq IHq]; [apply reads_nil|]. cbn [display_items toks_items].
    apply reads_app; [exact Hx|]. destruct q as [|x2 q]; [exact IHq|].
    destruct (display_first x2) as (c & y & Ey & Nw). cbn [display_items] in *. rewrite Ey in *. cbn [app] in *.
    apply reads_space; assumption.
Qed.

Lemma reads_whole x ts : reads x ts -> tokenize x = Ok ts.
Proof.
  intros H. apply tokenize_ok. specialize (H [] [] lexes_nil). rewrite !app_nil_r in H. exact H.
Qed.
