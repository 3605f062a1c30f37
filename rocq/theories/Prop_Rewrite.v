(** * Properties: scripts can be rewritten *)
From Coq Require Import List Arith NArith Bool String Lia.
From Verif Require Import M_Base M_Data M_Mem M_Heed M_Duck M_Regex M_Lexer M_Graph M_Parser M_Display M_Interp M_Hosts
  S_Order S_Str S_Store S_Graph S_Lexer S_Parser S_Interp S_Names S_Json P_Ord P_Hist P_Mem P_HeedHist P_HeedMore P_Duck P_Graph
  P_Lexer P_LexMore P_Parser P_Interp S_Wander P_WanderRun P_WanderDet S_Rewrite P_Rewrite P_RewriteLaws Prop_Graph Prop_Wander.
Import ListNotations.
Open Scope list_scope.

(** ** C109.  What can be replaced, can be replaced anywhere it is run *)

(** Being exchangeable is symmetric, and transitive where the program in between
    has room (in memory every program has). *)
Theorem C109_equivalence : forall B S (I : trips_impl S) s0 room C a b c, implements B I s0 room -> Forall proper_call a ->
  exchange I s0 room C a a
  /\ (exchange I s0 room C a b -> exchange I s0 room C b a)
  /\ (exchange I s0 room C a b -> exchange I s0 room C b c ->
      (forall h r s' h', room h -> run_calls (graph_impl (logged I)) common b (after I s0 h, h) = (r, (s', h')) -> room h') ->
      exchange I s0 room C a c).
Proof.
  intros B S I s0 room C a b c HI P. split; [|split].
  - intros h r s1 h1 r' s2 h2 _ E1 _ E2 _. rewrite E1 in E2. injection E2 as <- <- <-. split; [reflexivity|]. intros w. tauto.
  - intros H h r s1 h1 r' s2 h2 HC E1 R1 E2 R2. destruct (H h _ _ _ _ _ _ HC E2 R2 E1 R1) as [E A]. split; [symmetry; exact E|].
    intros w. symmetry. apply A.
  - intros H1 H2 HR h r s1 h1 r' s2 h2 HC E1 R1 E2 R2.
    destruct (run_calls (graph_impl (logged I)) common b (after I s0 h, h)) as [r3 [s3 h3]] eqn:E3.
    destruct (followed B I s0 room HI a h r s1 h1 P E1) as (_ & [g Hg] & _). subst h1.
    assert (R3 : room h3) by exact (HR h _ _ _ (room_prefix B I s0 room HI _ _ R1) E3).
    destruct (H1 h _ _ _ _ _ _ HC E1 R1 E3 R3) as [Ea Aa]. destruct (H2 h _ _ _ _ _ _ HC E3 R3 E2 R2) as [Eb Ab].
    split; [congruence|]. intros w. rewrite (Aa w). apply Ab.
Qed.
Print Assumptions C109_equivalence.

(** Between any calls before and after; the condition is then about the world
    that the calls before leave. *)
Theorem C109_around : forall B S (I : trips_impl S) s0 room C pre cs ds post, implements B I s0 room ->
  Forall proper_call (pre ++ cs ++ ds ++ post) -> cs <> [] -> ds <> [] ->
  exchange I s0 room C cs ds ->
  exchange I s0 room (fun w => forall v w', performs B pre w (Answers v) w' -> C w') (pre ++ cs ++ post) (pre ++ ds ++ post).
Proof.
  intros B S I s0 room C pre cs ds post HI P N1 N2 H. rewrite !Forall_app in P. destruct P as (P1 & P2 & P3 & P4).
  exact (surround B I s0 room HI C pre cs ds post P1 P2 P3 P4 N1 N2 H).
Qed.
Print Assumptions C109_around.

(** Inside quotes, at any depth, and with any calls before and after. *)
Theorem C109_inside : forall B S (I : trips_impl S) s0 room pre x y post, implements B I s0 room ->
  Forall proper_call (pre ++ x :: y :: post) ->
  deep (fun a b => exchange I s0 room anywhere [a] [b]) x y ->
  exchange I s0 room anywhere (pre ++ x :: post) (pre ++ y :: post).
Proof.
  intros B S I s0 room pre x y post HI P D. apply Forall_app in P as [P1 P]. inversion P as [|? ? Px P']; subst. inversion P' as [|? ? Py P4]; subst.
  assert (E : exchange I s0 room anywhere [x] [y]) by exact (deep_exchange B I s0 room HI _ (fun a b H => H) x y D Px Py).
  pose proof (surround B I s0 room HI anywhere pre [x] [y] post P1 (px x Px) (py y Py) P4 ltac:(discriminate) ltac:(discriminate) E) as K.
  intros h r s1 h1 r' s2 h2 (w & Hw & _). apply (K h r s1 h1 r' s2 h2). exists w. split; [exact Hw|]. intros; exact Logic.I.
Qed.
Print Assumptions C109_inside.

(** The same for texts: scripts that read as such programs. *)
Theorem C109_scripts : forall B S (I : trips_impl S) s0 room pre x y post s t, implements B I s0 room ->
  reads_as s (pre ++ x :: post) -> reads_as t (pre ++ y :: post) ->
  deep (fun a b => exchange I s0 room anywhere [a] [b]) x y ->
  exchange_scripts I s0 room anywhere s t.
Proof.
  intros B S I s0 room pre x y post s t HI Rs Rt D. eapply (script_exchange I s0 room); [exact Rs|exact Rt|].
  apply (C109_inside B); [exact HI| |exact D]. pose proof (reads_as_proper _ _ Rs) as P. pose proof (reads_as_proper _ _ Rt) as Q.
  apply Forall_app in P as [P1 P]. apply Forall_app in Q as [_ Q]. apply Forall_app. split; [exact P1|].
  inversion P; subst. inversion Q; subst. constructor; [assumption|]. constructor; assumption.
Qed.
Print Assumptions C109_scripts.

(** In memory, without the log. *)
Theorem C109_mem : forall C s t, exchange_scripts mem_impl mem_new (fun _ => True) C s t <->
  (forall h r s1 r' s2, (exists w, shows mem_impl (mem_after h) w /\ C w) ->
     grun s (mem_after h) = (r, s1) -> grun t (mem_after h) = (r', s2) ->
     outcome_of r = outcome_of r' /\ look_alike mem_impl s1 s2).
Proof.
  intros C s t. split.
  - intros H h r s1 r' s2 HC E1 E2. destruct (run_logged mem_impl s _ h _ _ E1) as [h1 L1]. destruct (run_logged mem_impl t _ h _ _ E2) as [h2 L2].
    exact (H h _ _ _ _ _ _ HC L1 Logic.I L2 Logic.I).
  - intros H h r s1 h1 r' s2 h2 HC E1 _ E2 _. exact (H h _ _ _ _ HC (logged_run mem_impl _ _ _ _ _ _ E1) (logged_run mem_impl _ _ _ _ _ _ E2)).
Qed.
Print Assumptions C109_mem.

(** Where nothing is run, nothing can be replaced: an empty program does what
    ignore does but not after another call, and id shows its quote. *)
Theorem C109_not_everywhere :
  (exchange mem_impl mem_new (fun _ => True) anywhere [] [named "ignore" []]
   /\ ~ exchange mem_impl mem_new (fun _ => True) anywhere ([named "docs" []] ++ []) ([named "docs" []] ++ [named "ignore" []]))
  /\ (exchange mem_impl mem_new (fun _ => True) anywhere [named "ignore" []] [named "id" [VNetwork []]]
      /\ ~ exchange mem_impl mem_new (fun _ => True) anywhere
             [named "id" [quoted (named "ignore" [])]] [named "id" [quoted (named "id" [VNetwork []])]]).
Proof.
  assert (W : exists w, shows mem_impl (after mem_impl mem_new []) w /\ anywhere w).
  { exists empty_world. split; [exact (proj2 (proj2 (C101_worlds InMemory _ _ _ _ [] im_mem)))|exact Logic.I]. }
  split; split.
  - intros h r s1 h1 r' s2 h2 _ E1 _ E2 _. cbn in E1, E2. injection E1 as <- <- <-. injection E2 as <- <- <-. split; [reflexivity|]. intros w; tauto.
  - intros H. specialize (H []). cbn in H. specialize (H _ _ _ _ _ _ W eq_refl Logic.I eq_refl Logic.I). destruct H as [H _]. discriminate H.
  - intros h r s1 h1 r' s2 h2 _ E1 _ E2 _. cbn in E1, E2. injection E1 as <- <- <-. injection E2 as <- <- <-. split; [reflexivity|]. intros w; tauto.
  - intros H. specialize (H []). cbn in H. specialize (H _ _ _ _ _ _ W eq_refl Logic.I eq_refl Logic.I). destruct H as [H _]. discriminate H.
Qed.
Print Assumptions C109_not_everywhere.

(** ** C110.  Laws *)
Theorem C110_laws : forall B S (I : trips_impl S) s0 room C cs ds, implements B I s0 room ->
  law B C cs ds -> Forall proper_call (cs ++ ds) -> exchange I s0 room C cs ds.
Proof.
  intros B S I s0 room C cs ds HI L P. apply Forall_app in P as [P1 P2]. exact (law_holds B I s0 room HI C cs ds L P1 P2).
Qed.
Print Assumptions C110_laws.

(** A law used somewhere in a script. *)
Theorem C110_in_scripts : forall B S (I : trips_impl S) s0 room C pre cs ds post s t, implements B I s0 room ->
  law B C cs ds -> reads_as s (pre ++ cs ++ post) -> reads_as t (pre ++ ds ++ post) ->
  exchange_scripts I s0 room (fun w => forall v w', performs B pre w (Answers v) w' -> C w') s t.
Proof.
  intros B S I s0 room C pre cs ds post s t HI L Rs Rt. eapply (script_exchange I s0 room); [exact Rs|exact Rt|].
  pose proof (reads_as_proper _ _ Rs) as P. pose proof (reads_as_proper _ _ Rt) as Q.
  rewrite !Forall_app in P, Q. destruct P as (P1 & P2 & P3). destruct Q as (_ & Q2 & _).
  apply (surround B I s0 room HI); try assumption; [destruct L; discriminate|destruct L; try discriminate; assumption|].
  exact (law_holds B I s0 room HI C cs ds L P2 Q2).
Qed.
Print Assumptions C110_in_scripts.

(** What the conditions are for: lets cannot be swapped on DuckDB when one of the
    names is there, nor on LMDB when one cannot be stored; two lets are not one
    on DuckDB, nor the last one on LMDB; reading back does not answer the network
    of the let on LMDB; copying a network to itself crashes on DuckDB. *)
Definition cx_a : element := mkE (lit "a").
Definition cx_b : element := mkE (lit "b").
Definition cx_n : list entry := [Extends (mkE (lit "x")) (mkE (lit "y"))].
Definition cx_m : list entry := [Extends (mkE (lit "x")) (mkE (lit "z"))].

Lemma refute B S (I : trips_impl S) s0 room h cs ds r s1 h1 r' s2 h2 : implements B I s0 room ->
  run_calls (graph_impl (logged I)) common cs (after I s0 h, h) = (r, (s1, h1)) -> room h1 ->
  run_calls (graph_impl (logged I)) common ds (after I s0 h, h) = (r', (s2, h2)) -> room h2 ->
  Forall proper_call cs ->
  (outcome_of r <> outcome_of r' \/ exists c, has I s1 (el_name c) /\ l_entries (graph_impl I) s1 c <> l_entries (graph_impl I) s2 c) ->
  ~ exchange I s0 room anywhere cs ds.
Proof.
  intros HI E1 R1 E2 R2 P D H.
  assert (W : exists w, shows I (after I s0 h) w /\ anywhere w).
  { destruct (proj1 (C101_worlds B S I s0 room h HI)) as [w Hw]. exists w. split; [exact Hw|exact Logic.I]. }
  destruct (H h _ _ _ _ _ _ W E1 R1 E2 R2) as [E A]. destruct D as [D|(c & Hc & D)]; [exact (D E)|].
  destruct (followed B I s0 room HI cs h r s1 h1 P E1) as (-> & _ & _).
  destruct (proj1 (C101_worlds B S I s0 room h1 HI)) as [w Hw].
  destruct (w (el_name c)) as [l|] eqn:El.
  - apply D. rewrite (proj2 Hw c l El). symmetry. apply (proj2 (proj1 (A w) Hw)). exact El.
  - apply (proj1 Hw) in Hc. exact (Hc El).
Qed.

Theorem C110_conditions : let dk := exchange duck_impl duck_new (fun h => dtotal h < 2 ^ 63)%N anywhere in
  let lm := exchange heed_impl heed_new (fun h => total_weight h < 2 ^ 64)%N anywhere in
  ~ dk [let_ cx_a cx_n; let_ cx_b cx_m] [let_ cx_b cx_m; let_ cx_a cx_n]
  /\ ~ lm [let_ cx_a cx_n; let_ (mkE []) cx_m] [let_ (mkE []) cx_m; let_ cx_a cx_n]
  /\ ~ dk [let_ cx_a cx_n; let_ cx_a cx_m] [let_ cx_a cx_m]
  /\ ~ lm [let_ cx_a cx_n; let_ cx_a cx_m] [let_ cx_a cx_m]
  /\ ~ lm [let_ cx_a cx_m; named "read" [VElement cx_a]] [let_ cx_a cx_m; named "id" [VNetwork cx_m]]
  /\ ~ dk [named "let" [VElement cx_a; quoted (named "read" [VElement cx_a])]] [named "ignore" []].
Proof.
  assert (P : Forall proper_call [let_ cx_a cx_n; let_ cx_b cx_m] /\ Forall proper_call [let_ cx_a cx_n; let_ (mkE []) cx_m]
    /\ Forall proper_call [let_ cx_a cx_n; let_ cx_a cx_m]
    /\ Forall proper_call [let_ cx_a cx_m; named "read" [VElement cx_a]]
    /\ Forall proper_call [named "let" [VElement cx_a; quoted (named "read" [VElement cx_a])]]).
  { repeat match goal with
    | |- _ /\ _ => split
    | |- Forall _ (c_args _) => cbn [c_args named]
    | |- Forall _ (_ :: _) => constructor
    | |- Forall _ [] => constructor
    | |- proper_call _ => unfold proper_call; cbn [c_args let_ named quoted c_name]
    | |- proper _ => constructor
    | |- is_set _ _ => unfold is_set, cx_n, cx_m; repeat constructor
    end. }
  destruct P as (P1 & P2 & P3 & P4 & P5).
  intros dk lm. subst dk lm.
  repeat match goal with |- _ /\ _ => split end.
  - eapply (refute DuckDb _ _ _ _ [OAddColl (lit "b")]); [apply im_duck|vm_compute; reflexivity|vm_compute; reflexivity|vm_compute; reflexivity|vm_compute; reflexivity|assumption|].
    right. exists cx_a. split; [eexists; split; [vm_compute; reflexivity|vm_compute; tauto]|vm_compute; discriminate].
  - eapply (refute Lmdb _ _ _ _ []); [apply im_lmdb|vm_compute; reflexivity|vm_compute; reflexivity|vm_compute; reflexivity|vm_compute; reflexivity|assumption|].
    right. exists cx_a. split; [eexists; split; [vm_compute; reflexivity|vm_compute; tauto]|vm_compute; discriminate].
  - eapply (refute DuckDb _ _ _ _ []); [apply im_duck|vm_compute; reflexivity|vm_compute; reflexivity|vm_compute; reflexivity|vm_compute; reflexivity|assumption|].
    left. vm_compute. discriminate.
  - eapply (refute Lmdb _ _ _ _ []); [apply im_lmdb|vm_compute; reflexivity|vm_compute; reflexivity|vm_compute; reflexivity|vm_compute; reflexivity|assumption|].
    right. exists cx_a. split; [eexists; split; [vm_compute; reflexivity|vm_compute; tauto]|vm_compute; discriminate].
  - eapply (refute Lmdb _ _ _ _ [OAddColl (lit "a"); OAdd (lit "a") [Trip (lit "p") (lit "q") (lit "r")]]);
      [apply im_lmdb|vm_compute; reflexivity|vm_compute; reflexivity|vm_compute; reflexivity|vm_compute; reflexivity|assumption|].
    left. vm_compute. discriminate.
  - eapply (refute DuckDb _ _ _ _ [OAddColl (lit "a")]); [apply im_duck|vm_compute; reflexivity|vm_compute; reflexivity|vm_compute; reflexivity|vm_compute; reflexivity|assumption|].
    left. vm_compute. discriminate.
Qed.
Print Assumptions C110_conditions.

(** The other conditions: the names of swapped lets must differ; the two lets of a
    name are a let of the union on LMDB only; what is read or copied must be there;
    a query that is left out must answer and have something after it; a quote is
    not equal to itself for free. *)
Theorem C110_conditions_too :
  let mm := exchange mem_impl mem_new (fun _ => True) anywhere in
  let dk := exchange duck_impl duck_new (fun h => dtotal h < 2 ^ 63)%N anywhere in
  let lm := exchange heed_impl heed_new (fun h => total_weight h < 2 ^ 64)%N anywhere in
  let read_a := named "read" [VElement cx_a] in
  let copy_a := named "let" [VElement cx_a; quoted read_a] in
  let eq_a := named "assert-equal" [VQuote [VElement (mkE (lit "let")); VElement cx_a; VNetwork cx_n];
                                    VQuote [VElement (mkE (lit "let")); VElement cx_a; VNetwork cx_n]] in
  ~ mm [let_ cx_a cx_n; let_ cx_a cx_m] [let_ cx_a cx_m; let_ cx_a cx_n]
  /\ ~ mm [let_ cx_a cx_n; let_ cx_a cx_m] [let_ cx_a (cx_n ++ cx_m)]
  /\ ~ dk [let_ cx_a cx_n; let_ cx_a cx_m] [let_ cx_a (cx_n ++ cx_m)]
  /\ ~ mm [read_a] [named "id" [VNetwork cx_n]] /\ ~ lm [read_a] [named "id" [VNetwork cx_n]] /\ ~ dk [read_a] [named "id" [VNetwork cx_n]]
  /\ ~ mm [copy_a] [named "ignore" []] /\ ~ lm [copy_a] [named "ignore" []]
  /\ ~ mm [read_a; named "ignore" []] [named "ignore" []] /\ ~ lm [read_a; named "ignore" []] [named "ignore" []]
  /\ ~ dk [named "filter" [VElement cx_a; VElement cx_a; VElement cx_a; VElement cx_a]; named "ignore" []] [named "ignore" []]
  /\ ~ mm [named "docs" []] [] /\ ~ lm [named "docs" []] [] /\ ~ dk [named "docs" []] []
  /\ ~ mm [eq_a] [named "ignore" []].
Proof.
  cbv zeta. repeat match goal with |- _ /\ _ => split end.
  all: match goal with
       | |- ~ exchange mem_impl _ _ _ _ _ => eapply (refute InMemory _ _ _ _ []); [apply im_mem|vm_compute; reflexivity|exact Logic.I|vm_compute; reflexivity|exact Logic.I| |]
       | |- ~ exchange heed_impl _ _ _ _ _ => eapply (refute Lmdb _ _ _ _ []); [apply im_lmdb|vm_compute; reflexivity|vm_compute; reflexivity|vm_compute; reflexivity|vm_compute; reflexivity| |]
       | |- ~ exchange duck_impl _ _ _ _ _ => eapply (refute DuckDb _ _ _ _ []); [apply im_duck|vm_compute; reflexivity|vm_compute; reflexivity|vm_compute; reflexivity|vm_compute; reflexivity| |]
       end.
  all: try (left; vm_compute; discriminate).
  all: try (right; exists cx_a; split; [eexists; split; [vm_compute; reflexivity|vm_compute; tauto]|vm_compute; discriminate]).
  all: repeat match goal with
    | |- Forall _ (c_args _) => cbn [c_args named]
    | |- Forall _ (_ :: _) => constructor
    | |- Forall _ [] => constructor
    | |- proper_call _ => unfold proper_call; cbn [c_args let_ named quoted c_name]
    | |- proper _ => constructor
    | |- is_set _ _ => unfold is_set, cx_n, cx_m; repeat constructor
    end.
Qed.
Print Assumptions C110_conditions_too.

(** Scripts to which the theorems apply. *)
Example C110_case :
  reads_as (lit "docs, let a { x : y }, let b { x : z }, read a")
    ([named "docs" []] ++ [let_ cx_a cx_n; let_ cx_b cx_m] ++ [named "read" [VElement cx_a]])
  /\ reads_as (lit "docs, let b { x : z }, let a { x : y }, read a")
       ([named "docs" []] ++ [let_ cx_b cx_m; let_ cx_a cx_n] ++ [named "read" [VElement cx_a]])
  /\ law InMemory anywhere [let_ cx_a cx_n; let_ cx_b cx_m] [let_ cx_b cx_m; let_ cx_a cx_n]
  /\ fst (grun (lit "docs, let a { x : y }, let b { x : z }, read a") mem_new) = Ok (VNetwork cx_n).
Proof.
  assert (T : forall s cs toks, tokenize s = Ok toks -> forall kept, keeps toks kept -> parse kept = Ok cs -> reads_as s cs).
  { intros s cs toks E kept K Ep. exists toks, kept. split; [apply tokenize_ok; exact E|]. split; [exact K|]. apply parse_ok. exact Ep. }
  split; [|split; [|split]].
  - destruct (filter_keeps _ _ (eq_refl : tokenize (lit "docs, let a { x : y }, let b { x : z }, read a") = Ok _)) as (k & Ek & K & _).
    eapply T; [reflexivity|exact K|]. vm_compute in Ek. injection Ek as <-. vm_compute. reflexivity.
  - destruct (filter_keeps _ _ (eq_refl : tokenize (lit "docs, let b { x : z }, let a { x : y }, read a") = Ok _)) as (k & Ek & K & _).
    eapply T; [reflexivity|exact K|]. vm_compute in Ek. injection Ek as <-. vm_compute. reflexivity.
  - apply lw_swap_mem; [reflexivity|vm_compute; discriminate].
  - vm_compute. reflexivity.
Qed.

Example C109_case :
  deep (fun a b => exchange mem_impl mem_new (fun _ => True) anywhere [a] [b])
    (named "assert-equal" [VNetwork cx_n; quoted (named "assert-fail" [quoted (named "let" [VElement cx_a; quoted (named "id" [VNetwork cx_n])])])])
    (named "assert-equal" [VNetwork cx_n; quoted (named "assert-fail" [quoted (let_ cx_a cx_n)])]).
Proof.
  apply dp_right, dp_fail, dp_here. apply (C110_laws InMemory); [apply im_mem|apply lw_let_id|].
  repeat match goal with
    | |- Forall _ (_ ++ _) => cbn [app]
    | |- Forall _ (c_args _) => cbn [c_args named]
    | |- Forall _ (_ :: _) => constructor
    | |- Forall _ [] => constructor
    | |- proper_call _ => unfold proper_call; cbn [c_args let_ named quoted c_name]
    | |- proper _ => constructor
    | |- is_set _ _ => unfold is_set, cx_n, cx_m; repeat constructor
    end.
Qed.
