(** * The contents of a store as a script *)
From Coq Require Import List Arith NArith Bool String Lia.
From Verif Require Import M_Base M_Data M_Mem M_Heed M_Duck M_Regex M_Lexer M_Graph M_Parser M_Display M_Interp
  S_Order S_Str S_Store S_Graph S_Lexer S_Parser S_Display S_GraphHist S_Wander S_Rewrite S_Dump
  P_Ord P_Agree P_Graph P_Regex P_Lexer P_LexMore P_Parser P_Display P_Reread P_Script P_Names P_WanderRun P_RewriteLaws Prop_Wander.
Import ListNotations.
Open Scope list_scope.

Definition sets_to (l : list entry) : list entry := inserted (map re_entry l) [].

Lemma sets_to_spec l : rereads_network l (sets_to l).
Proof. apply rereads_network_iff, set_of_collect. reflexivity. Qed.

Lemma sets_to_fun l l' : rereads_network l l' -> l' = sets_to l.
Proof. intros R. apply rereads_network_iff, set_of_collect in R. exact R. Qed.

Definition dumped_call (p : str * list entry) : call := let_ (Elem (json_body (fst p)) None None) (sets_to (snd p)).

(** ** The text *)
Lemma g_line n l : exists ts,
  tokenize_and_filter (lit "let " ++ display (VElement (Elem n None None)) ++ lit " " ++ display (VNetwork l) ++ lit ",") = Ok (ts ++ [TComma])
  /\ g_call ts (dumped_call (n, l)).
Proof.
  set (e := Elem n None None).
  exists (TElement (Elem (lit "let") None None) :: kept (toks (VElement e)) ++ kept (toks (VNetwork l))). split.
  - unfold tokenize_and_filter.
    rewrite (reads_whole _ (TElement (Elem (lit "let") None None) :: sp :: toks (VElement e) ++ sp :: toks (VNetwork l) ++ [TComma])).
    + cbn [app]. f_equal. change (map string_to_element (filter significant (?x))) with (kept x).
      change (TElement (Elem (lit "let") None None) :: sp :: toks (VElement e) ++ sp :: toks (VNetwork l) ++ [TComma])
        with ([TElement (Elem (lit "let") None None); sp] ++ toks (VElement e) ++ [sp] ++ toks (VNetwork l) ++ [TComma]).
      change (kept ([TElement (Elem (lit "let") None None); sp] ++ toks (VElement e) ++ [sp] ++ toks (VNetwork l) ++ [TComma])
        = TElement (Elem (lit "let") None None) :: (kept (toks (VElement e)) ++ kept (toks (VNetwork l))) ++ [TComma]).
      rewrite !kept_app. cbn [kept filter significant map app string_to_element sp]. rewrite <- !app_assoc. reflexivity.
    + assert (R2 : reads (display (VNetwork l) ++ lit ",") (toks (VNetwork l) ++ [TComma])).
      { apply reads_app; [apply reads_display|apply reads_comma]. }
      assert (R1 : reads (lit " " ++ display (VNetwork l) ++ lit ",") (sp :: toks (VNetwork l) ++ [TComma])).
      { destruct (display_first (VNetwork l)) as (c & x & Ed & Nw). rewrite Ed in *. apply reads_space; assumption. }
      pose proof (reads_app _ _ _ _ (reads_display (VElement e)) R1) as R0.
      change (lit "let " ++ display (VElement e) ++ lit " " ++ display (VNetwork l) ++ lit ",")
        with (lit "let" ++ 32%N :: (display (VElement e) ++ lit " " ++ display (VNetwork l) ++ lit ",")).
      destruct (display_first (VElement e)) as (c & x & Ed & Nw). rewrite Ed in *. cbn [app] in *.
      apply (reads_word 108%N (lit "et")); try discriminate; [|apply reads_space; assumption].
      repeat (constructor; [apply element_char_iff; reflexivity|]). constructor.
  - unfold g_call, dumped_call, let_, S_Rewrite.named. cbn [c_name c_args fst snd]. constructor.
    apply (g_values_printed (VElement e)).
    + constructor. constructor. apply json_text_body.
    + rewrite <- (app_nil_r (kept (toks (VNetwork l)))). apply g_values_printed; [|constructor].
      constructor. constructor. apply sets_to_spec.
Qed.

Fixpoint dump_text (ps : list (str * list entry)) : str :=
  match ps with [] => [] | (n, l) :: r => dump_line n l ++ dump_text r end.

Lemma dump_reads ps : exists ts, tokenize_and_filter (dump_text ps) = Ok ts /\ g_commas ts (map dumped_call ps).
Proof.
  induction ps as [|[n l] ps (ts & E & G)].
  - exists []. split; [reflexivity|constructor].
  - destruct (g_line n l) as (us & Eu & Gu). exists ((us ++ [TComma]) ++ ts). split.
    + cbn [dump_text]. unfold dump_line.
      replace ((lit "let " ++ display (VElement (Elem n None None)) ++ lit " " ++ display (VNetwork l) ++ lit "," ++ [10%N]) ++ dump_text ps)
        with ((lit "let " ++ display (VElement (Elem n None None)) ++ lit " " ++ display (VNetwork l) ++ lit ",") ++ [10%N] ++ dump_text ps)
        by (rewrite <- !app_assoc; reflexivity).
      rewrite (taf_newline _ _ _ Eu), E. reflexivity.
    + rewrite <- app_assoc. cbn [app map]. apply gp_cons; assumption.
Qed.

Lemma dump_reads_as ps : reads_as (dump_text ps) (map dumped_call ps).
Proof.
  destruct (dump_reads ps) as (ts & E & G). unfold tokenize_and_filter in E.
  destruct (tokenize (dump_text ps)) as [us| |] eqn:Et; try discriminate.
  destruct (filter_keeps _ _ Et) as (k & Ek & K & _). unfold tokenize_and_filter in Ek. rewrite Et in Ek.
  rewrite E in Ek. injection Ek as <-. exists us, ts. split; [apply tokenize_ok; exact Et|]. split; [exact K|].
  apply gs_trailing. exact G.
Qed.

Lemma dump_of_pairs {S} (I : trips_impl S) s ns text : dump_of I s ns text ->
  exists ps, map fst ps = ns /\ text = dump_text ps /\ forall n l, In (n, l) ps -> l_entries (graph_impl I) s (Elem n None None) = Ok l.
Proof.
  induction 1 as [|n ns l text E H (ps & Em & -> & Hp)].
  - exists []. repeat split. intros n l [].
  - exists ((n, l) :: ps). cbn [map fst]. rewrite Em. repeat split. intros n' l' [X|X]; [injection X as <- <-; exact E|auto].
Qed.

(** ** The meaning *)
Fixpoint look (ps : list (str * list entry)) (m : str) : option (list entry) :=
  match ps with
  | [] => None
  | (n, l) :: r => if str_eqb (json_body n) m then Some (sets_to l) else look r m
  end.

Lemma look_none ps m : (forall p, In p ps -> json_body (fst p) <> m) -> look ps m = None.
Proof.
  induction ps as [|[n l] ps IH]; intros H; [reflexivity|]. cbn [look]. destruct (str_eqb (json_body n) m) eqn:E.
  - apply str_eqb_eq in E. destruct (H (n, l) (or_introl eq_refl) E).
  - apply IH. intros p Hp. apply H. right. exact Hp.
Qed.

Lemma look_some ps m l' : look ps m = Some l' -> exists n l, In (n, l) ps /\ json_body n = m /\ l' = sets_to l.
Proof.
  induction ps as [|[n l] ps IH]; intros H; [discriminate|]. cbn [look] in H. destruct (str_eqb (json_body n) m) eqn:E.
  - apply str_eqb_eq in E. injection H as <-. exists n, l. split; [left; reflexivity|auto].
  - destruct (IH H) as (n' & l2 & Hi & X). exists n', l2. split; [right; exact Hi|exact X].
Qed.

Lemma look_in ps n l : NoDup (map fst ps) -> In (n, l) ps -> look ps (json_body n) = Some (sets_to l).
Proof.
  induction ps as [|[n' l'] ps IH]; intros N H; [destruct H|]. inversion N as [|? ? Hn Nr]; subst. cbn [look]. destruct H as [X|X].
  - injection X as <- <-. rewrite (proj2 (str_eqb_eq _ _) eq_refl). reflexivity.
  - destruct (str_eqb (json_body n') (json_body n)) eqn:E; [|auto].
    apply str_eqb_eq, json_body_inj in E. subst n'. exfalso. apply Hn. apply in_map_iff. exists (n, l). auto.
Qed.

Lemma sets_to_normal l e : In e (sets_to l) -> normal e.
Proof. intros H. apply (sets_to_spec l) in H. destruct H as (e0 & _ & N & _). exact N. Qed.

Lemma binds_fresh B w c l : is_set entry_lt l -> (forall e, In e l -> normal e) ->
  (B = Lmdb -> storable c) -> (B <> InMemory -> w c = None) ->
  binds w c l B (Answers done) (fun n => if str_eqb c n then Some l else w n).
Proof.
  intros Sl Nl HL HF.
  assert (Rb : forall P, (forall e, P e <-> In e l) -> rebound w c P (fun n => if str_eqb c n then Some l else w n)).
  { intros P HP. split.
    - exists l. rewrite (proj2 (str_eqb_eq _ _) eq_refl). split; [reflexivity|]. split; [exact Sl|]. intros e. rewrite HP. tauto.
    - intros n Hn. destruct (str_eqb c n) eqn:E; [|reflexivity]. apply str_eqb_eq in E. congruence. }
  destruct B.
  - apply bi_mem, Rb, stored_itself, Nl.
  - apply bi_lmdb; [apply HL; reflexivity|]. apply Rb. intros e. rewrite (stored_itself l Nl). split; [|auto].
    intros [(k & Ek & _)|X]; [rewrite HF in Ek by discriminate; discriminate|exact X].
  - apply bi_duck; [apply HF; discriminate|]. apply Rb, stored_itself, Nl.
Qed.

Lemma let_call B n l w : (B = Lmdb -> storable (json_body n)) -> (B <> InMemory -> w (json_body n) = None) ->
  calls B (el_name (c_name (dumped_call (n, l)))) (c_args (dumped_call (n, l))) w (Answers done)
    (fun m => if str_eqb (json_body n) m then Some (sets_to l) else w m).
Proof.
  intros HL HF. unfold dumped_call, let_, S_Rewrite.named. cbn [c_name c_args fst snd el_name].
  apply ca_let. cbn [el_name]. apply binds_fresh; [apply sets_to_spec|apply sets_to_normal|exact HL|exact HF].
Qed.

Lemma performs_dump B ps : forall w, NoDup (map fst ps) ->
  (forall p, In p ps -> B = Lmdb -> storable (json_body (fst p))) ->
  (forall p, In p ps -> B <> InMemory -> w (json_body (fst p)) = None) ->
  exists w', performs B (map dumped_call ps) w (Answers done) w' /\ forall m, w' m = match look ps m with Some l => Some l | None => w m end.
Proof.
  induction ps as [|[n l] ps IH]; intros w N HL HF.
  - exists w. split; [constructor|reflexivity].
  - inversion N as [|? ? Hn Nr]; subst. cbn [map fst] in *.
    pose proof (let_call B n l w (fun E => HL (n, l) (or_introl eq_refl) E) (fun E => HF (n, l) (or_introl eq_refl) E)) as C.
    set (w1 := fun m => if str_eqb (json_body n) m then Some (sets_to l) else w m) in *.
    assert (D : forall p, In p ps -> json_body (fst p) <> json_body n).
    { intros p Hp E. apply json_body_inj in E. apply Hn. rewrite <- E. apply in_map. exact Hp. }
    destruct (IH w1 Nr) as (w' & P & L).
    + intros p Hp. apply HL. right. exact Hp.
    + intros p Hp Hb. unfold w1. destruct (str_eqb (json_body n) (json_body (fst p))) eqn:E.
      * apply str_eqb_eq in E. destruct (D p Hp). auto.
      * apply (HF p); [right; exact Hp|exact Hb].
    + exists w'. split.
      * destruct ps as [|p2 ps].
        -- cbn [map]. inversion P; subst. apply pe_last. exact C.
        -- cbn [map]. eapply pe_more; [exact C|exact P].
      * intros m. rewrite L. cbn [look]. destruct (str_eqb (json_body n) m) eqn:E.
        -- apply str_eqb_eq in E. subst m. rewrite look_none by exact D. unfold w1. rewrite (proj2 (str_eqb_eq _ _) eq_refl). reflexivity.
        -- destruct (look ps m); [reflexivity|]. unfold w1. rewrite E. reflexivity.
Qed.

(** ** Dumps *)
Lemma dump_pairs {S} (I : trips_impl S) s text w : shows I s w -> dump I s text ->
  exists ps, NoDup (map fst ps) /\ text = dump_text ps /\ (forall n l, In (n, l) ps <-> w n = Some l).
Proof.
  intros [H1 H2] (ns & N & L & D). destruct (dump_of_pairs I s ns text D) as (ps & <- & -> & Hp). exists ps.
  split; [exact N|]. split; [reflexivity|]. intros n l.
  assert (K : forall l', w n = Some l' -> l_entries (graph_impl I) s (Elem n None None) = Ok l').
  { intros l' E. exact (H2 (Elem n None None) l' E). }
  split.
  - intros Hi. pose proof (Hp n l Hi) as E. destruct (w n) as [l'|] eqn:Ew.
    + rewrite (K l' eq_refl) in E. congruence.
    + exfalso. apply (proj2 (H1 n)) in Ew; [exact Ew|]. apply L. apply in_map_iff. exists (n, l). auto.
  - intros E. assert (Hh : has I s n) by (apply H1; congruence). apply L in Hh. apply in_map_iff in Hh.
    destruct Hh as ([n' l'] & <- & Hi). cbn [fst] in *. pose proof (Hp n' l' Hi) as E'.
    rewrite (K l E) in E'. injection E' as <-. exact Hi.
Qed.

Lemma dump_exists {S} (I : trips_impl S) s w ns : shows I s w -> NoDup ns -> (forall n, In n ns <-> has I s n) -> exists text, dump_of I s ns text.
Proof.
  intros [H1 H2] _ L. assert (H : forall n, In n ns -> has I s n) by (intros n; apply L). clear L.
  induction ns as [|n ns IH]; [exists []; constructor|]. destruct IH as [t Ht]; [intros m Hm; apply H; right; exact Hm|].
  destruct (w n) as [l|] eqn:E.
  - exists (dump_line n l ++ t). constructor; [exact (H2 (Elem n None None) l E)|exact Ht].
  - exfalso. apply (proj2 (H1 n) (H n (or_introl eq_refl))) in E. exact E.
Qed.

Lemma look_escapes ps w : NoDup (map fst ps) -> (forall n l, In (n, l) ps <-> w n = Some l) -> escapes_to w (look ps).
Proof.
  intros N H. split.
  - intros n l E. apply H in E. exists (json_body n), (sets_to l). split; [apply json_text_body|].
    split; [apply look_in; assumption|apply sets_to_spec].
  - intros b l' E. apply look_some in E. destruct E as (n & l & Hi & <- & ->). exists n, l. split; [apply H, Hi|].
    split; [apply json_text_body|apply sets_to_spec].
Qed.

Lemma escapes_fun w v v' : escapes_to w v -> escapes_to w v' -> same_world v v'.
Proof.
  assert (K : forall v v' b l, escapes_to w v -> escapes_to w v' -> v b = Some l -> v' b = Some l).
  { clear v v'. intros v v' b l [_ A] [A' _] E. destruct (A b l E) as (n & k & En & J & R).
    destruct (A' n k En) as (b' & l' & J' & E' & R'). apply json_text_iff in J, J'. subst b b'.
    rewrite (sets_to_fun _ _ R), <- (sets_to_fun _ _ R'). exact E'. }
  intros H H' b. destruct (v b) as [l|] eqn:E; [symmetry; exact (K v v' b l H H' E)|].
  destruct (v' b) as [l|] eqn:E'; [|reflexivity]. rewrite (K v' v b l H' H E') in E. discriminate.
Qed.

Lemma plain_escapes {S} (I : trips_impl S) s w : shows I s w -> (forall c l, w c = Some l -> is_set entry_lt l) -> plain_world w -> escapes_to w w.
Proof.
  intros Hw Hs P. assert (K : forall n l, w n = Some l -> json_text n n /\ rereads_network l l).
  { intros n l E. destruct (P n l E) as [Pn Pl]. split; [apply plain_text, Pn|].
    assert (R : rereads_item (VNetwork l) (VNetwork l)); [|inversion R; assumption].
    apply plain_item_rereads. split; [exact (Hs n l E)|]. apply Forall_forall. intros e He.
    split; [exact (shown_normal I s w n l Hw E e He)|].
    assert (Q : forall m, names_of e m -> Forall plain_char m) by (intros m; apply (Pl e m He)).
    unfold names_of in Q; split; [|split]; apply Q; tauto. }
  split; intros n l E; destruct (K n l E); eauto.
Qed.
