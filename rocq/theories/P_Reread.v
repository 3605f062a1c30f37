(** * Reading printed values back *)
From Coq Require Import List Arith NArith Bool Lia String.
From Verif Require Import M_Base M_Data M_Regex M_Lexer M_Graph M_Parser M_Display M_Interp
  S_Order S_Graph S_Lexer S_Parser S_Display P_Ord P_Agree P_Graph P_Regex P_Lexer P_LexMore P_Parser P_Display.
Import ListNotations.
Open Scope list_scope.

Definition kept (ts : list token) : list token := map string_to_element (filter significant ts).

Lemma kept_app a b : kept (a ++ b) = kept a ++ kept b.
Proof. unfold kept. rewrite filter_app, map_app. reflexivity. Qed.

Definition jel (s : str) : element := Elem (json_body s) None None.

Definition re_entry (e : entry) : entry := read_entry (jel (subject e)) (jel (role_name e)) (jel (object e)).

Lemma json_colon : json_body colon = colon. Proof. reflexivity. Qed.
Lemma json_not_colon : json_body not_colon = not_colon. Proof. reflexivity. Qed.

Lemma kept_entry e : kept (toks_entry e) = [TElement (jel (subject e)); TElement (jel (role_name e)); TElement (jel (object e))].
Proof. destruct e; reflexivity. Qed.

Lemma read_entry_names a r c : bare a -> bare r -> bare c ->
  let e := read_entry a r c in
  normal e /\ subject e = el_name a /\ role_name e = el_name r /\ object e = el_name c.
Proof.
  intros A R C. cbv zeta. pose proof (proj2 (written_read a r c _) eq_refl) as W.
  remember (read_entry a r c) as e eqn:Ee. clear Ee. destruct W as [a c|a c|a r c N1 N2].
  - repeat split; try apply A; apply C.
  - repeat split; try apply A; apply C.
  - assert (K : forall x, r <> Elem x None None -> el_name r <> x).
    { intros x N E. apply N. destruct r as [n ns lg]. destruct R as [R1 R2]. simpl in *. subst. reflexivity. }
    repeat split; try apply A; try apply C; try apply R; auto.
Qed.

Lemma re_entry_spec e : rereads_entry e (re_entry e).
Proof.
  unfold re_entry.
  destruct (read_entry_names (jel (subject e)) (jel (role_name e)) (jel (object e))) as (N & E1 & E2 & E3);
    [split; reflexivity..|].
  split; [exact N|]. rewrite E1, E2, E3. split; [|split]; apply json_text_body.
Qed.

Lemma rereads_entry_iff e e' : rereads_entry e e' <-> e' = re_entry e.
Proof.
  split; [|intros ->; apply re_entry_spec]. intros (N & J1 & J2 & J3).
  destruct (re_entry_spec e) as (N' & K1 & K2 & K3). apply json_text_iff in J1, J2, J3, K1, K2, K3.
  apply (normalises_unique e').
  - split; [exact N|auto].
  - split; [exact N'|]. repeat split; congruence.
Qed.

Lemma rereads_network_iff n n' : rereads_network n n' <-> set_of (map re_entry n) n'.
Proof.
  unfold rereads_network, set_of, same_members. split; intros [S H]; (split; [exact S|]); intros x.
  - rewrite H, in_map_iff. split.
    + intros (e & E & Hi). exists e. split; [exact Hi|]. apply rereads_entry_iff. auto.
    + intros (e & Hi & R). apply rereads_entry_iff in R. exists e. auto.
  - rewrite <- H, in_map_iff. split.
    + intros (e & E & Hi). exists e. split; [exact Hi|]. apply rereads_entry_iff. auto.
    + intros (e & Hi & R). apply rereads_entry_iff in R. exists e. auto.
Qed.

Lemma written_re e : written (jel (subject e)) (jel (role_name e)) (jel (object e)) (re_entry e).
Proof. apply written_read. reflexivity. Qed.

Lemma g_network_printed es : g_network (kept (toks_entries es ++ [TCloseBrace])) (map re_entry es).
Proof.
  induction es as [|e es IH]; [constructor|]. destruct es as [|e2 es].
  - cbn [toks_entries map]. rewrite kept_app, kept_entry. constructor. apply written_re.
  - change (toks_entries (e :: e2 :: es)) with (toks_entry e ++ TComma :: sp :: toks_entries (e2 :: es)).
    rewrite <- app_assoc, kept_app, kept_entry.
    change (kept ((TComma :: sp :: toks_entries (e2 :: es)) ++ [TCloseBrace]))
      with (TComma :: kept (toks_entries (e2 :: es) ++ [TCloseBrace])).
    cbn [app]. change (map re_entry (e :: e2 :: es)) with (re_entry e :: map re_entry (e2 :: es)).
    constructor; [apply written_re|exact IH].
Qed.

Lemma kept_network n : kept (toks_network n) = TOpenBrace :: kept (toks_entries n ++ [TCloseBrace]).
Proof. reflexivity. Qed.

Lemma g_quote_item v v' : rereads_item v v' -> forall ts vs, g_quote ts vs -> g_quote (kept (toks v) ++ ts) (v' :: vs).
Proof.
  intros H ts vs G. destruct H as [e b J|n n' R].
  - apply json_text_iff in J. subst b. cbn. constructor. exact G.
  - apply rereads_network_iff in R. change (toks (VNetwork n)) with (toks_network n). rewrite kept_network. cbn [app].
    econstructor; [apply g_network_printed|exact R|exact G].
Qed.

Lemma g_values_item v v' : rereads_item v v' -> forall ts vs, g_values ts vs -> g_values (kept (toks v) ++ ts) (v' :: vs).
Proof.
  intros H ts vs G. destruct H as [e b J|n n' R].
  - apply json_text_iff in J. subst b. cbn. constructor. exact G.
  - apply rereads_network_iff in R. change (toks (VNetwork n)) with (toks_network n). rewrite kept_network. cbn [app].
    econstructor; [apply g_network_printed|exact R|exact G].
Qed.

Lemma kept_items_cons x r : kept (toks_items (x :: r)) = kept (toks x) ++ kept (toks_items r).
Proof. cbn [toks_items]. rewrite !kept_app. destruct r; reflexivity. Qed.

Lemma g_values_printed v v' : rereads v v' -> forall ts vs, g_values ts vs -> g_values (kept (toks v) ++ ts) (v' :: vs).
Proof.
  intros H ts vs G. destruct H as [v v' H|q q' H]; [apply g_values_item; assumption|].
  rewrite toks_quote. change (TOpenParen :: toks_items q ++ [TCloseParen]) with ([TOpenParen] ++ toks_items q ++ [TCloseParen]).
  rewrite kept_app. cbn [kept filter significant map app string_to_element].
  constructor; [|exact G]. rewrite kept_app. induction H as [|x y q q' Hx Hq IH].
  - constructor.
  - rewrite kept_items_cons, <- app_assoc. apply g_quote_item; [exact Hx|exact IH].
Qed.

Lemma rereads_item_total v : (forall q, v <> VQuote q) -> exists v', rereads_item v v'.
Proof.
  intros N. destruct v as [e|q|n].
  - eexists. constructor. apply json_text_body.
  - exfalso. exact (N q eq_refl).
  - exists (VNetwork (inserted (map re_entry n) [])). constructor. apply rereads_network_iff, set_of_collect. reflexivity.
Qed.

Lemma rereads_total v : no_nested_quote v -> exists v', rereads v v'.
Proof.
  intros N. destruct v as [e|q|n].
  - destruct (rereads_item_total (VElement e)) as [v' H]; [discriminate|]. exists v'. constructor. exact H.
  - simpl in N. assert (exists q', Forall2 rereads_item q q') as [q' H].
    { induction N as [|x q Hx Hq [q' IH]]; [exists []; constructor|].
      destruct (rereads_item_total x Hx) as [x' H']. exists (x' :: q'). constructor; assumption. }
    exists (VQuote q'). apply rr_quote. exact H.
  - destruct (rereads_item_total (VNetwork n)) as [v' H]; [discriminate|]. exists v'. constructor. exact H.
Qed.

Lemma rereads_item_unique v a b : rereads_item v a -> rereads_item v b -> a = b.
Proof.
  intros H K. destruct H as [e x J|n n' R]; inversion K as [e' y J'|m m' R']; subst.
  - apply json_text_iff in J, J'. congruence.
  - apply rereads_network_iff in R, R'. apply set_of_collect in R, R'. congruence.
Qed.

Lemma rereads_unique v a b : rereads v a -> rereads v b -> a = b.
Proof.
  intros H K. destruct H as [v v' H|q q' H]; inversion K as [w w' K'|p p' K']; subst.
  - eapply rereads_item_unique; eauto.
  - inversion H.
  - inversion K'.
  - f_equal. revert p' K' K. induction H as [|x y q q' Hx Hq IH]; intros p' K' K; inversion K'; subst; [reflexivity|].
    f_equal; [eapply rereads_item_unique; eauto|]. apply IH; [assumption|apply rr_quote; assumption].
Qed.

(** A printed value alone is the tokens of one value ... *)
Lemma printed_value v v' : rereads v v' ->
  exists ts, tokenize_and_filter (display v) = Ok ts /\ g_values ts [v'].
Proof.
  intros R. exists (kept (toks v)). split.
  - unfold tokenize_and_filter. rewrite (reads_whole _ _ (reads_display v)). reflexivity.
  - rewrite <- (app_nil_r (kept (toks v))). apply g_values_printed; [exact R|constructor].
Qed.

(** ... and as the argument of [id] it evaluates to what it reads back as. *)
Lemma printed_call v v' : rereads v v' ->
  exists ts, tokenize_and_filter (lit "id " ++ display v) = Ok ts
    /\ parse ts = Ok [Call (Elem (lit "id") None None) [v']].
Proof.
  intros R. exists (TElement (Elem (lit "id") None None) :: kept (toks v)). split.
  - unfold tokenize_and_filter. change (lit "id " ++ display v) with (lit "id" ++ 32%N :: display v).
    rewrite (reads_whole _ (TElement (Elem (lit "id") None None) :: sp :: toks v)); [reflexivity|].
    destruct (display_first v) as (c & x & E & Nw). pose proof (reads_display v) as D. rewrite E in *.
    apply (reads_word 105%N [100%N]); try discriminate; [|apply reads_space; assumption].
    repeat (constructor; [apply element_char_iff; reflexivity|]). constructor.
  - apply parse_ok. apply (gs_last [] [] _ (Call _ [v'])); [constructor|].
    change (g_values (TElement (Elem (lit "id") None None) :: kept (toks v)) [VElement (Elem (lit "id") None None); v']).
    constructor. rewrite <- (app_nil_r (kept (toks v))). apply g_values_printed; [exact R|constructor].
Qed.

Lemma printed_run (St : Type) (lig : lig_impl St) st v v' : rereads v v' ->
  run lig (common (St := St)) (lit "id " ++ display v) st = (Ok v', st).
Proof.
  intros R. destruct (printed_call v v' R) as (ts & T & P). unfold run. rewrite T, P. reflexivity.
Qed.

(** ** Plain values *)

Lemma plain_text s : Forall plain_char s -> json_text s s.
Proof. intros H. apply json_text_iff. symmetry. apply json_body_plain, H. Qed.

Lemma plain_entry_rereads e : plain_entry e -> rereads_entry e e.
Proof. intros (N & P1 & P2 & P3). split; [exact N|]. split; [|split]; apply plain_text; assumption. Qed.

Lemma plain_item_rereads v : plain_item v -> rereads_item v v.
Proof.
  destruct v as [e|q|n]; simpl.
  - intros [[B1 B2] P]. destruct e as [nm ns lg]. simpl in *. subst. constructor. apply plain_text, P.
  - intros [].
  - intros [S F]. constructor. split; [exact S|]. intros e'. rewrite Forall_forall in F. split.
    + intros Hi. exists e'. split; [exact Hi|]. apply plain_entry_rereads, F, Hi.
    + intros (e & Hi & R). apply rereads_entry_iff in R.
      pose proof (plain_entry_rereads e (F e Hi)) as R'. apply rereads_entry_iff in R'. congruence.
Qed.

Lemma plain_value_rereads v : plain_value v -> rereads v v.
Proof.
  destruct v as [e|q|n]; simpl; intros H.
  - constructor. apply (plain_item_rereads (VElement e)), H.
  - apply rr_quote. induction H as [|x q Hx Hq IH]; constructor; [apply plain_item_rereads, Hx|exact IH].
  - constructor. apply (plain_item_rereads (VNetwork n)), H.
Qed.

(** ** Canonical forms *)

(** The triples of names of a network. *)
Lemma display_inj_network n m : display (VNetwork n) = display (VNetwork m) ->
  forall e, In e n -> exists e', In e' m /\ subject e' = subject e /\ role_name e' = role_name e /\ object e' = object e.
Proof.
  intros E e Hi.
  destruct (rereads_total (VNetwork n) Logic.I) as [v R]. destruct (rereads_total (VNetwork m) Logic.I) as [w R'].
  assert (v = w).
  { destruct (printed_call _ _ R) as (ts & T & P). destruct (printed_call _ _ R') as (us & U & Q).
    rewrite E in T. assert (ts = us) by congruence. subst. congruence. }
  subst w. inversion R as [a b H|]; subst. inversion R' as [a' b' H'|]; subst.
  inversion H as [|? n' N]; subst. inversion H' as [|? m' M]; subst.
  destruct N as [_ N], M as [_ M].
  assert (In (re_entry e) n') as K by (apply N; exists e; split; [exact Hi|apply re_entry_spec]).
  apply M in K. destruct K as (e' & Hi' & R1). exists e'. split; [exact Hi'|].
  destruct R1 as (_ & J1 & J2 & J3). destruct (re_entry_spec e) as (_ & K1 & K2 & K3).
  apply json_text_iff in J1, J2, J3, K1, K2, K3.
  repeat split; apply json_body_inj; congruence.
Qed.

Lemma display_inj_plain v w : plain_value v -> plain_value w -> display v = display w -> v = w.
Proof.
  intros P Q E. destruct (printed_call _ _ (plain_value_rereads v P)) as (ts & T & A).
  destruct (printed_call _ _ (plain_value_rereads w Q)) as (us & U & B).
  rewrite E in T. assert (ts = us) by congruence. subst. congruence.
Qed.

(** ** write_string *)

Definition five_char (c : N) : str :=
  if N.eqb c 92 then [92; 92]%N else if N.eqb c 34 then [92; 34]%N else if N.eqb c 10 then [92; 110]%N
  else if N.eqb c 13 then [92; 114]%N else if N.eqb c 9 then [92; 116]%N else [c].

Lemma replace_flat c by_ (f : N -> str) s :
  replace c by_ (flat_map f s) = flat_map (fun x => replace c by_ (f x)) s.
Proof. unfold replace. induction s as [|x s IH]; [reflexivity|]. cbn [flat_map]. rewrite flat_map_app, IH. reflexivity. Qed.

Lemma write_string_chars s : write_string s = 34%N :: flat_map five_char s ++ [34%N].
Proof.
  unfold write_string. cbv zeta. do 2 f_equal.
  change (replace 92 [92; 92]%N s) with (flat_map (fun x => if N.eqb x 92 then [92; 92]%N else [x]) s).
  rewrite !replace_flat. apply flat_map_ext. intros c. unfold five_char.
  destruct (N.eqb_spec c 92) as [->|N1]; [reflexivity|]. cbn [replace flat_map app].
  destruct (N.eqb_spec c 34) as [->|N2]; [reflexivity|]. cbn [replace flat_map app].
  destruct (N.eqb_spec c 10) as [->|N3]; [reflexivity|]. cbn [replace flat_map app].
  destruct (N.eqb_spec c 13) as [->|N4]; [reflexivity|]. cbn [replace flat_map app].
  destruct (N.eqb_spec c 9) as [->|N5]; reflexivity.
Qed.

Lemma five_iff s b : five_escapes s b <-> b = flat_map five_char s.
Proof.
  split.
  - induction 1 as [|c l s b Hi H IH|c s b Hn H IH]; [reflexivity|..]; cbn [flat_map]; rewrite IH; clear IH H.
    + cbn in Hi. repeat (destruct Hi as [Hi|Hi]; [injection Hi as <- <-; reflexivity|]). destruct Hi.
    + cbn in Hn. unfold five_char.
      destruct (N.eqb_spec c 92) as [->|N1]; [tauto|]. destruct (N.eqb_spec c 34) as [->|N2]; [tauto|].
      destruct (N.eqb_spec c 10) as [->|N3]; [tauto|]. destruct (N.eqb_spec c 13) as [->|N4]; [tauto|].
      destruct (N.eqb_spec c 9) as [->|N5]; [tauto|]. reflexivity.
  - intros ->. induction s as [|c s IH]; [constructor|]. cbn [flat_map]. unfold five_char at 1.
    destruct (N.eqb_spec c 92) as [->|N1]; [apply fe_escaped; [cbn; tauto|exact IH]|].
    destruct (N.eqb_spec c 34) as [->|N2]; [apply fe_escaped; [cbn; tauto|exact IH]|].
    destruct (N.eqb_spec c 10) as [->|N3]; [apply fe_escaped; [cbn; tauto|exact IH]|].
    destruct (N.eqb_spec c 13) as [->|N4]; [apply fe_escaped; [cbn; tauto|exact IH]|].
    destruct (N.eqb_spec c 9) as [->|N5]; [apply fe_escaped; [cbn; tauto|exact IH]|].
    apply fe_other; [cbn; intuition congruence|exact IH].
Qed.

Lemma five_inj s b : five_escapes s b -> forall s', five_escapes s' b -> s = s'.
Proof.
  induction 1 as [|c l s b Hi H IH|c s b Hn H IH]; intros s' H'.
  - inversion H'. reflexivity.
  - inversion H' as [|c' l' s0 b0 Hi' K|c' s0 b0 Hn' K]; subst.
    + f_equal; [|auto]. cbn in Hi, Hi'.
      repeat (destruct Hi as [Hi|Hi]; [injection Hi as <- <-; intuition congruence|]). destruct Hi.
    + exfalso. apply Hn'. left. reflexivity.
  - inversion H' as [|c' l' s0 b0 Hi' K|c' s0 b0 Hn' K]; subst.
    + exfalso. apply Hn. left. reflexivity.
    + f_equal. auto.
Qed.

Definition writable (c : N) : Prop := (32 <= c \/ c = 9 \/ c = 10 \/ c = 13)%N.

Lemma five_means s b : five_escapes s b -> Forall writable s -> json_means b s.
Proof.
  induction 1 as [|c l s b Hi H IH|c s b Hn H IH]; intros F; [constructor|..]; inversion F; subst.
  - apply jm_short; [|auto]. cbn in Hi |- *.
    repeat (destruct Hi as [Hi|Hi]; [injection Hi as <- <-; tauto|]). destruct Hi.
  - apply jm_plain; [|auto]. unfold writable in *. unfold plain_char. cbn in Hn.
    assert (c <> 92 /\ c <> 34 /\ c <> 10 /\ c <> 13 /\ c <> 9)%N by (repeat split; intros ->; tauto). lia.
Qed.

Lemma five_body s b : five_escapes s b -> string_body b -> Forall writable s.
Proof.
  induction 1 as [|c l s b Hi H IH|c s b Hn H IH]; intros B; [constructor|..].
  - constructor.
    + cbn in Hi. unfold writable. repeat (destruct Hi as [Hi|Hi]; [injection Hi as <- <-; lia|]). destruct Hi.
    + inversion B as [|? ? P|? ? P K|]; subst.
      * exfalso. unfold plain_char in P. lia.
      * auto.
      * exfalso. cbn in Hi. intuition congruence.
  - inversion B as [|? ? P K|? ? P|]; subst.
    + constructor; [unfold plain_char in P; unfold writable; lia|auto].
    + exfalso. apply Hn. left. reflexivity.
    + exfalso. apply Hn. left. reflexivity.
Qed.

Lemma write_string_spec s : exists b, write_string s = [34%N] ++ b ++ [34%N] /\ five_escapes s b.
Proof. exists (flat_map five_char s). rewrite write_string_chars. split; [reflexivity|]. apply five_iff. reflexivity. Qed.

Lemma write_string_inj s s' : write_string s = write_string s' -> s = s'.
Proof.
  rewrite !write_string_chars. intros E. injection E as E. apply app_inj_tail in E. destruct E as [E _].
  eapply five_inj; [apply five_iff; reflexivity|]. apply five_iff. exact E.
Qed.

Lemma write_string_token s b : five_escapes s b ->
  (tokenize (write_string s) = Ok [TString b] <-> Forall writable s).
Proof.
  intros F. apply five_iff in F as E. rewrite write_string_chars, <- E.
  rewrite (quoted_exactly b). split; [apply five_body; exact F|]. intros W. eapply json_means_body, five_means; eauto.
Qed.

(** ** Nested quotes do not read back *)

Lemma read_quote_nested q : Exists (fun x => exists y, x = VQuote y) q -> forall fuel tail acc,
  List.length (kept (toks_items q) ++ tail) < fuel -> read_quote fuel (kept (toks_items q) ++ tail) acc = Panic PTodo.
Proof.
  induction q as [|x q IH]; intros Ex fuel tail acc L; [inversion Ex|].
  rewrite kept_items_cons in *. rewrite <- app_assoc in *. destruct fuel as [|fuel]; [lia|].
  destruct x as [e|y|n].
  - inversion Ex as [? ? [y E]|? ? Ex']; subst; [discriminate|]. cbn in L |- *. apply (IH Ex'). lia.
  - rewrite toks_quote. reflexivity.
  - inversion Ex as [? ? [y E]|? ? Ex']; subst; [discriminate|].
    change (toks (VNetwork n)) with (toks_network n) in *. rewrite kept_network in *. cbn [app] in L |- *. cbn [read_quote].
    cbn [List.length] in L. rewrite app_length in L. pose proof (g_network_printed n) as G.
    rewrite (network_complete _ _ G) by lia. apply (IH Ex'). lia.
Qed.

Lemma printed_nested (St : Type) (lig : lig_impl St) cs st q : Exists (fun x => exists y, x = VQuote y) q ->
  run lig cs (lit "id " ++ display (VQuote q)) st = (Panic PTodo, st).
Proof.
  intros Ex. set (ts := TElement (Elem (lit "id") None None) :: kept (toks (VQuote q))).
  assert (T : tokenize_and_filter (lit "id " ++ display (VQuote q)) = Ok ts).
  { unfold tokenize_and_filter. change (lit "id " ++ display (VQuote q)) with (lit "id" ++ 32%N :: display (VQuote q)).
    rewrite (reads_whole _ (TElement (Elem (lit "id") None None) :: sp :: toks (VQuote q))); [reflexivity|].
    destruct (display_first (VQuote q)) as (c & x & E & Nw). pose proof (reads_display (VQuote q)) as D. rewrite E in *.
    apply (reads_word 105%N [100%N]); try discriminate; [|apply reads_space; assumption].
    repeat (constructor; [apply element_char_iff; reflexivity|]). constructor. }
  unfold run. rewrite T. assert (P : parse ts = Panic PTodo); [|rewrite P; reflexivity].
  unfold parse, ts. rewrite toks_quote.
  change (TOpenParen :: toks_items q ++ [TCloseParen]) with ([TOpenParen] ++ toks_items q ++ [TCloseParen]).
  rewrite !kept_app. change (kept [TOpenParen]) with [TOpenParen]. change (kept [TCloseParen]) with [TCloseParen].
  cbn [app List.length]. set (k := kept (toks_items q) ++ [TCloseParen]).
  cbn [parse_loop read_call]. unfold k at 2. rewrite (read_quote_nested q Ex); [reflexivity|]. fold k. lia.
Qed.

Lemma printed_element e : exists b,
  tokenize (display_element e) = Ok [TString b] /\ json_text (el_name e) b /\ json_means b (el_name e)
  /\ (forall s, json_means b s -> s = el_name e).
Proof.
  exists (json_body (el_name e)). split; [apply (reads_whole _ _ (reads_element e))|].
  split; [apply json_text_body|]. pose proof (json_text_means _ _ (json_text_body (el_name e))) as J. split; [exact J|].
  intros s H. eapply json_means_fun; eauto.
Qed.

Lemma json_text_bijective s :
  (exists b, json_text s b /\ forall b', json_text s b' -> b' = b)
  /\ (forall s' b, json_text s b -> json_text s' b -> s = s').
Proof.
  split.
  - exists (json_body s). split; [apply json_text_body|]. intros b'. apply json_text_iff.
  - intros s' b H H'. apply json_text_iff in H, H'. apply json_body_inj. congruence.
Qed.

Lemma reads_back_normalised (St : Type) (lig : lig_impl St) st v : no_nested_quote v ->
  exists v', rereads v v' /\ (forall v'', rereads v v'' -> v'' = v')
    /\ (exists ts, tokenize_and_filter (display v) = Ok ts /\ g_values ts [v'])
    /\ run lig (common (St := St)) (lit "id " ++ display v) st = (Ok v', st).
Proof.
  intros N. destruct (rereads_total v N) as [v' R]. exists v'. split; [exact R|].
  split; [intros v'' R'; eapply rereads_unique; eauto|]. split; [apply printed_value, R|apply printed_run, R].
Qed.

Lemma write_string_all s : exists b,
  write_string s = [34%N] ++ b ++ [34%N] /\ five_escapes s b
  /\ (forall s', write_string s' = write_string s -> s' = s)
  /\ (forall s', five_escapes s' b -> s' = s)
  /\ (tokenize (write_string s) = Ok [TString b] <-> Forall writable s)
  /\ (Forall writable s -> json_means b s).
Proof.
  destruct (write_string_spec s) as (b & E & F). exists b. split; [exact E|]. split; [exact F|].
  split; [intros s'; apply write_string_inj|]. split; [intros s' F'; eapply five_inj; eauto|].
  split; [apply write_string_token, F|]. apply five_means, F.
Qed.

Lemma canonical n m : is_set entry_lt n -> is_set entry_lt m ->
  (same_members n m -> display (VNetwork n) = display (VNetwork m))
  /\ (display (VNetwork n) = display (VNetwork m) ->
      forall e, In e n -> exists e', In e' m /\ subject e' = subject e /\ role_name e' = role_name e /\ object e' = object e)
  /\ (Forall plain_entry n -> Forall plain_entry m -> display (VNetwork n) = display (VNetwork m) -> n = m).
Proof.
  intros S1 S2. split; [|split].
  - intros H. rewrite (set_eq entry_order n m S1 S2 H). reflexivity.
  - apply display_inj_network.
  - intros F1 F2 E. assert (VNetwork n = VNetwork m) as K; [|injection K; auto].
    apply display_inj_plain; [split; assumption..|exact E].
Qed.
