(** * Properties: what reading an LMDB collection prints *)
From Coq Require Import List Arith NArith Bool String Lia Sorted Permutation.
From Verif Require Import M_Base M_Data M_Heed M_Regex M_Lexer M_Graph M_Parser M_Display M_Interp M_Conc M_Lines
  S_Order S_Str S_Store S_Codec S_Graph S_Lexer S_Parser S_Interp S_Conc S_Space S_Rewrite S_Lines
  P_Ord P_Hist P_Heed P_HeedHist P_HeedMore P_Space P_Lexer P_LexMore P_Parser P_Interp P_Conc P_ConcFoot P_Lines P_LinesCount Prop_Conc.
Import ListNotations.
Open Scope list_scope.

(** C117.  The store and the interpreter, with what they print, answer and do what
    they do in the other properties. *)
Theorem C117_same_answers : forall d c script,
  fst (heed_triples_p d c) = t_triples heed_impl d c
  /\ fst (run_p script d) = run (graph_impl heed_impl) common script d.
Proof.
  intros d c script. split; [apply triples_same|]. unfold run_p. rewrite solo_same. apply C74_same_interpreter.
Qed.
Print Assumptions C117_same_answers.

(** After any history of calls, commits failing or not, of which [H] took effect
    and of which all words can be stored: reading a present collection prints one
    line per triple of it, and the lines are ordered by how early the first words
    of the triples were given to the store for the first time, then the second,
    then the third.  Reading one that is not there prints nothing. *)
Theorem C117_lines : forall h c,
  let H := installed heed_impl_c heed_new h in let d := after_f heed_impl_c heed_new h in
  storable_history H ->
  (live H c -> exists ts l, snd (heed_triples_p d c) = map line_of ts /\ t_triples heed_impl d c = Ok l
     /\ Permutation ts l /\ StronglySorted (sooner_triple (words_given H)) ts)
  /\ (~ live H c -> snd (heed_triples_p d c) = []).
Proof.
  intros h c H d SH. pose proof (inv_reach h : inv d) as I. split.
  - intros Hl. destruct (proj1 (sim_live h c SH) Hl) as (cid & G).
    destruct (triples_prints _ _ _ I G) as (l & El & Sl & Ml).
    pose proof (heed_triples_spec d c I) as T. change (h_c2i (after_f heed_impl_c heed_new h)) with (h_c2i d) in G. rewrite G in T.
    destruct T as (m & Em & Sm & Mm). exists (map snd l), m. split; [exact El|]. split; [exact Em|].
    destruct (creations_number H) as (r & Hr). pose proof (fit_reach h r SH Hr) as F.
    pose proof (printed_sorted d cid l _ I (ages_reach h) (fk_words _ _ _ F) Ml Sl) as S. split; [|exact S].
    apply NoDup_Permutation; [exact (sorted_nodup _ _ (sooner_triple_irrefl _) S)|eapply is_set_NoDup; [exact trip_order|exact Sm]|].
    intros t. rewrite Mm. apply (printed_members _ _ _ I Ml).
  - intros N. apply missing_prints; [exact I|]. destruct (sg c (h_c2i d)) as [i|] eqn:G; [|reflexivity].
    destruct N. apply (sim_live h c SH). eauto.
Qed.
Print Assumptions C117_lines.

(** Whatever the words: the lines are those of the triples of the collection. *)
Theorem C117_lines_any : forall h c l, let d := after_f heed_impl_c heed_new h in
  t_triples heed_impl d c = Ok l -> forall x, In x (snd (heed_triples_p d c)) <-> exists t, In t l /\ x = line_of t.
Proof.
  intros h c l d E x. pose proof (inv_reach h : inv d) as I. pose proof (heed_triples_spec d c I) as T.
  destruct (sg c (h_c2i d)) as [cid|] eqn:G.
  - destruct T as (m & Em & _ & Mm). assert (m = l) as -> by (change (t_triples heed_impl d c) with (heed_triples d c) in E; congruence).
    destruct (triples_prints _ _ _ I G) as (k & Ek & _ & Mk). rewrite Ek, in_map_iff. split.
    + intros (t & <- & Ht). exists t. split; [|reflexivity]. apply Mm, (printed_members _ _ _ I Mk), Ht.
    + intros (t & Ht & ->). exists t. split; [reflexivity|]. apply (printed_members _ _ _ I Mk), Mm, Ht.
  - change (t_triples heed_impl d c) with (heed_triples d c) in E. congruence.
Qed.
Print Assumptions C117_lines_any.

(** Words without spaces and line breaks can be told from the line. *)
Lemma cut_at (x : N) a b a' b' : ~ In x a -> ~ In x a' -> a ++ x :: b = a' ++ x :: b' -> a = a' /\ b = b'.
Proof.
  revert a'. induction a as [|y a IH]; intros [|z a'] H H' E; cbn in *.
  - injection E as ->. auto.
  - injection E as -> _. tauto.
  - injection E as -> _. tauto.
  - injection E as -> E. destruct (IH a') as [-> ->]; [tauto|tauto|exact E|auto].
Qed.

Theorem C117_told_apart : forall t u, (forall v, part v t \/ part v u -> unbroken v) -> line_of t = line_of u -> t = u.
Proof.
  intros t u H E. unfold line_of in E. apply app_inv_head in E. change (lit " ") with [32%N] in E. cbn [app] in E.
  assert (P : forall v, part v t \/ part v u -> ~ In 32%N v /\ ~ In 10%N v) by exact H.
  destruct (cut_at _ _ _ _ _ (proj1 (P (t0 t) ltac:(unfold part; auto))) (proj1 (P (t0 u) ltac:(unfold part; auto))) E) as [E0 E'].
  destruct (cut_at _ _ _ _ _ (proj1 (P (t1 t) ltac:(unfold part; auto))) (proj1 (P (t1 u) ltac:(unfold part; auto))) E') as [E1 E''].
  apply app_inv_tail in E''. destruct t, u; cbn in *. congruence.
Qed.
Print Assumptions C117_told_apart.

Theorem C117_not_told_apart : exists t u, t <> u /\ line_of t = line_of u.
Proof.
  exists (Trip (lit "a b") (lit "c") (lit "d")), (Trip (lit "a") (lit "b c") (lit "d")). split; [discriminate|vm_compute; reflexivity].
Qed.
Print Assumptions C117_not_told_apart.

(** How many of the lines are those of a triple: one for a triple of words that can
    be stored, and for another one line for every time it was added to the
    collection since this was created. *)
Theorem C117_how_often : forall h c l, let H := installed heed_impl_c heed_new h in let d := after_f heed_impl_c heed_new h in
  t_triples heed_impl d c = Ok l ->
  exists ts, snd (heed_triples_p d c) = map line_of ts /\ (forall t, In t ts <-> In t l)
    /\ (forall t, In t l -> (forall v, part v t -> storable v) -> count_occ same_trip ts t = 1)
    /\ (forall t v, part v t -> ~ storable v -> count_occ same_trip ts t = times_given c t H).
Proof.
  intros h c l H d E. pose proof (inv_reach h : inv d) as I. pose proof (heed_triples_spec d c I) as T.
  change (t_triples heed_impl d c) with (heed_triples d c) in E.
  destruct (sg c (h_c2i d)) as [cid|] eqn:G; [|congruence].
  destruct T as (m & Em & _ & Mm). assert (m = l) as -> by congruence.
  destruct (triples_prints _ _ _ I G) as (k & Ek & Sk & Mk). pose proof (lines_number d cid k Sk Mk) as N.
  assert (M : forall t, In t (map snd k) <-> In t l) by (intros t; rewrite Mm; apply (printed_members _ _ _ I Mk)).
  exists (map snd k). split; [exact Ek|]. split; [exact M|]. split.
  - intros t Ht S. apply Mm in Ht. destruct Ht as (f & s & e & Hx).
    eapply number_fun; [apply N|]. eapply number_ext; [|apply (number_one (f, s, e))].
    intros y. symmetry. apply (storable_rows _ _ _ _ _ (iv_b _ I) S). exact Hx.
  - intros t v Pv Nv. eapply number_fun; [apply N|]. apply (ta_in _ _ (tally_reach h)); [exact G|]. exists v. auto.
Qed.
Print Assumptions C117_how_often.

(** So a triple with the empty word, say, that was added twice is printed twice,
    though it is answered once. *)
Theorem C117_twice : exists c t,
  let d := after heed_impl heed_new [OAddColl c; OAdd c [t]; OAdd c [t]] in
  t_triples heed_impl d c = Ok [t] /\ snd (heed_triples_p d c) = [line_of t; line_of t]
  /\ times_given c t [OAddColl c; OAdd c [t]; OAdd c [t]] = 2.
Proof. exists (lit "c"), (Trip (lit "a") [] (lit "b")). cbv zeta. split; [|split]; vm_compute; reflexivity. Qed.
Print Assumptions C117_twice.

(** A script prints lines of triples of the networks it reads, and nothing else;
    what it printed is there when it is done. *)
Theorem C117_scripts : forall h script,
  let d := after heed_impl heed_new h in
  let '(r, d', out) := run_p script d in
  forall x, In x out -> exists c t, reads_name script c /\ x = line_of t /\ holds heed_impl d' c t.
Proof.
  intros h script d. destruct (solo_lines (reads_name script) _ _ _ (footed_script script) (reading_script script) h []) as (r & h' & ls & E & _ & H).
  unfold run_p. change d with (lm h). rewrite E. exact H.
Qed.
Print Assumptions C117_scripts.

(** The script that reads a network prints it, whatever the outcome; scripts that
    read nothing are silent. *)
Theorem C117_read : forall d script c k, reads_as script [Call k [VElement c]] -> el_name k = lit "read" ->
  snd (run_p script d) = snd (heed_triples_p d (el_name c)).
Proof.
  intros d script c k (ts & kept & L & K & G) Ek. unfold run_p, p_run.
  apply tokenize_ok in L. destruct (filter_keeps _ _ L) as (k' & Ef & _ & U). rewrite (U _ K) in *. rewrite Ef.
  apply parse_ok in G. rewrite G. unfold p_calls. cbn [p_calls_loop c_name c_args]. rewrite Ek.
  change (cmd_get common (lit "read")) with (Some (Command (lit "Read a network.") (@FRead unit))).
  cbn [cmd_fun_of p_exec p_read pbind solo_p perform call_prints snd app].
  destruct (l_entries (graph_impl heed_impl) d c); reflexivity.
Qed.
Print Assumptions C117_read.

Theorem C117_silent : forall h script, (forall c, ~ reads_name script c) -> snd (run_p script (after heed_impl heed_new h)) = [].
Proof.
  intros h script N. pose proof (C117_scripts h script) as P. cbv zeta in P.
  destruct (run_p script (after heed_impl heed_new h)) as [[r d'] out]. cbn [snd]. destruct out as [|x out]; [reflexivity|].
  destruct (P x (or_introl eq_refl)) as (c & _ & R & _). destruct (N c R).
Qed.
Print Assumptions C117_silent.

(** The answer is in the order of the words, the lines in the order of their age. *)
Example C117_case :
  let c := lit "c" in let t := Trip (lit "z") (lit "y") (lit "x") in let u := Trip (lit "a") (lit "y") (lit "z") in
  let h := [(OAddColl c, true); (OAdd c [t], true); (OAdd c [u], false); (OAdd c [u], true)] in
  let H := installed heed_impl_c heed_new h in let d := after_f heed_impl_c heed_new h in
  H = [OAddColl c; OAdd c [t]; OAdd c [u]] /\ storable_history H
  /\ t_triples heed_impl d c = Ok [u; t]
  /\ snd (heed_triples_p d c) = [line_of t; line_of u]
  /\ line_of t = lit "Adding - z y x" ++ [10%N]
  /\ snd (run_p (lit "let n (read c), assert-equal (read n) {}, read c") d) = [line_of t; line_of u; line_of t; line_of u].
Proof.
  cbv zeta. split; [vm_compute; reflexivity|]. split; [|split; [|split; [|split]]; vm_compute; reflexivity].
  assert (E : forall h H : list op, h = H -> storable_history H -> storable_history h) by (intros h H ->; auto).
  eapply E; [vm_compute; reflexivity|]. split.
  - intros c [K|[K|[K|[]]]]; try discriminate K. injection K as <-. apply key_storable_iff. vm_compute. reflexivity.
  - intros v (c & ts & [K|[K|[K|[]]]] & t & Ht & Hv); try discriminate K; injection K as <- <-; destruct Ht as [<-|[]];
      destruct Hv as [->|[->| ->]]; apply key_storable_iff; vm_compute; reflexivity.
Qed.
