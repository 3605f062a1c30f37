(** * Properties: the contents of a store as a script *)
From Coq Require Import List Arith NArith Bool String Lia.
From Verif Require Import M_Base M_Data M_Mem M_Heed M_Duck M_Regex M_Lexer M_Graph M_Parser M_Display M_Interp M_Hosts
  S_Order S_Str S_Store S_Graph S_Lexer S_Parser S_Display S_GraphHist S_Wander S_Rewrite S_Dump
  P_Ord P_Hist P_Display P_Names P_Rewrite P_WanderRun P_WanderDet P_RewriteLaws P_Dump S_Interp Prop_Graph Prop_Wander.
Import ListNotations.
Open Scope list_scope.

(** C111.  A dump of any store, run on another, of any kind, that it fits: it
    answers, and the store then shows what the first did, its names
    JSON-escaped, over what it showed before. *)
Theorem C111_restored : forall B S (I : trips_impl S) s0 room h B' T (J : trips_impl T) t0 room' g w w0 v text r t' g',
  implements B I s0 room -> implements B' J t0 room' ->
  shows I (after I s0 h) w -> dump I (after I s0 h) text -> escapes_to w v ->
  shows J (after J t0 g) w0 -> fits B' v w0 ->
  run (graph_impl (logged J)) common text (after J t0 g, g) = (r, (t', g')) -> room' g' ->
  r = Ok done /\ exists w1, shows J t' w1 /\ laid_over v w0 w1.
Proof.
  intros B S I s0 room h B' T J t0 room' g w w0 v text r t' g' HI HJ Hw D Ev Hw0 [F1 F2] E R.
  destruct (dump_pairs I _ text w Hw D) as (ps & N & -> & Hp).
  pose proof (escapes_fun _ _ _ (look_escapes ps w N Hp) Ev) as Sv.
  assert (V : forall p, In p ps -> v (json_body (fst p)) <> None).
  { intros [n l] Hi. cbn [fst]. rewrite <- Sv. rewrite (look_in ps n l N Hi). discriminate. }
  destruct (performs_dump B' ps w0 N) as (w1 & P & L).
  { intros p Hi Eb. exact (F1 Eb _ (V p Hi)). }
  { intros p Hi Eb. exact (F2 Eb _ (V p Hi)). }
  destruct (dump_reads_as ps) as (ts & k & Lx & K & G).
  destruct (C101_conversely B' T J t0 room' g (dump_text ps) w0 _ _ r t' g' HJ Hw0 (me_runs B' w0 _ ts k _ _ _ Lx K G P) E R)
    as (_ & Eo & Hs).
  split; [apply ok_outcome; exact Eo|]. exists w1. split; [exact Hs|]. intros n. rewrite L, Sv. reflexivity.
Qed.
Print Assumptions C111_restored.

(** If no name needs an escape, a new store shows the same afterwards, and every
    dump of the first is a dump of it. *)
Theorem C111_copied : forall B S (I : trips_impl S) s0 room h B' T (J : trips_impl T) t0 room' w text r t' g',
  implements B I s0 room -> implements B' J t0 room' ->
  shows I (after I s0 h) w -> dump I (after I s0 h) text -> plain_world w ->
  (B' = Lmdb -> forall n, w n <> None -> storable n) ->
  run (graph_impl (logged J)) common text (t0, []) = (r, (t', g')) -> room' g' ->
  r = Ok done /\ shows J t' w /\ (forall text', dump I (after I s0 h) text' -> dump J t' text').
Proof.
  intros B S I s0 room h B' T J t0 room' w text r t' g' HI HJ Hw D P F E R.
  pose proof (plain_escapes I _ w Hw (fun c l => shown_set I s0 h w c l Hw) P) as Ev.
  destruct (C111_restored B S I s0 room h B' T J t0 room' [] w empty_world w text r t' g' HI HJ Hw D Ev) as (Er & w1 & Hs & L).
  - exact (proj2 (proj2 (C101_worlds B' T J t0 room' [] HJ))).
  - split; [exact F|]. intros _ n _. reflexivity.
  - exact E.
  - exact R.
  - assert (Hj : shows J t' w).
    { apply (shows_same J _ w1); [|exact Hs]. intros n. rewrite L. destruct (w n); reflexivity. }
    split; [exact Er|]. split; [exact Hj|].
    intros text' (ns & N & L' & D'). exists ns. split; [exact N|]. split.
    + intros n. rewrite L', <- (proj1 Hw n), (proj1 Hj n). tauto.
    + assert (A : forall n, In n ns -> has I (after I s0 h) n) by (intros n; apply L'). clear L' N.
      induction D' as [|n ns l tx El D' IH]; constructor.
      * destruct (w n) as [l'|] eqn:En.
        -- rewrite (proj2 Hw (Elem n None None) l' En) in El. injection El as <-. exact (proj2 Hj (Elem n None None) l' En).
        -- exfalso. apply (proj2 (proj1 Hw n) (A n (or_introl eq_refl))) in En. exact En.
      * apply IH. intros m Hm. apply A. right. exact Hm.
Qed.
Print Assumptions C111_copied.

(** Every store has a dump, and its world has exactly one with the names
    escaped; where no name needs an escape that is the world itself. *)
Theorem C111_dumps : forall B S (I : trips_impl S) s0 room h w, implements B I s0 room -> shows I (after I s0 h) w ->
  (exists text, dump I (after I s0 h) text)
  /\ (exists v, escapes_to w v /\ forall v', escapes_to w v' -> same_world v v')
  /\ (plain_world w -> escapes_to w w).
Proof.
  intros B S I s0 room h w HI Hw.
  assert (X : exists text, dump I (after I s0 h) text).
  { assert (exists ns, NoDup ns /\ forall n, In n ns <-> has I (after I s0 h) n) as (ns & N & L).
    { unfold has. destruct (t_collections I (after I s0 h)) as [l|e|x] eqn:El.
      - exists (nodup (list_eq_dec N.eq_dec) l). split; [apply NoDup_nodup|]. intros n. rewrite nodup_In. split.
        + intros Hi. exists l. auto.
        + intros (l' & X & Hi). injection X as <-. exact Hi.
      - exists []. split; [constructor|]. intros n. split; [intros []|]. intros (l' & X & _). discriminate.
      - exists []. split; [constructor|]. intros n. split; [intros []|]. intros (l' & X & _). discriminate. }
    destruct (dump_exists I _ w ns Hw N L) as [text D]. exists text, ns. auto. }
  split; [exact X|]. destruct X as [text D]. destruct (dump_pairs I _ text w Hw D) as (ps & N & -> & Hp). split.
  - exists (look ps). split; [exact (look_escapes ps w N Hp)|]. intros v' Hv. exact (escapes_fun _ _ _ (look_escapes ps w N Hp) Hv).
  - exact (plain_escapes I _ w Hw (fun c l => shown_set I s0 h w c l Hw)).
Qed.
Print Assumptions C111_dumps.

(** The conditions are needed: a backslash in a name is doubled, a name in use
    crashes the script on DuckDB and on LMDB keeps its old entries as well. *)
Definition ux_in : list op := [OAddColl [92%N]].
Definition ux_held : list op := [OAddColl (lit "a"); OAdd (lit "a") [Trip (lit "p") (lit "q") (lit "r")]].
Definition ux_other : list op := [OAddColl (lit "a"); OAdd (lit "a") [Trip (lit "x") (lit "y") (lit "z")]].

Theorem C111_conditions :
  (exists text, dump mem_impl (mem_after ux_in) text
     /\ exists s', grun text mem_new = (Ok done, s') /\ has mem_impl s' [92; 92]%N /\ ~ has mem_impl s' [92%N])
  /\ (exists text w, dump mem_impl (mem_after ux_held) text
     /\ fst (run (graph_impl duck_impl) common text (after duck_impl duck_new ux_other)) = Panic w)
  /\ (exists text s' l l', dump mem_impl (mem_after ux_held) text
     /\ run (graph_impl heed_impl) common text (after heed_impl heed_new ux_other) = (Ok done, s')
     /\ l_entries (graph_impl mem_impl) (mem_after ux_held) (mkE (lit "a")) = Ok l
     /\ l_entries (graph_impl heed_impl) s' (mkE (lit "a")) = Ok l' /\ List.length l = 1 /\ List.length l' = 2).
Proof.
  assert (D1 : forall h n l, t_collections mem_impl (mem_after h) = Ok [n] ->
    l_entries (graph_impl mem_impl) (mem_after h) (Elem n None None) = Ok l -> dump mem_impl (mem_after h) (dump_line n l ++ [])).
  { intros h n l E El. exists [n]. split; [repeat constructor; intros []|]. split.
    - intros m. unfold has. rewrite E. split; [intros Hm; eauto|intros (l' & X & Hm); injection X as <-; exact Hm].
    - constructor; [exact El|constructor]. }
  split; [|split].
  - eexists. split; [apply D1; vm_compute; reflexivity|]. eexists. split; [vm_compute; reflexivity|]. split.
    + eexists. split; [vm_compute; reflexivity|left; reflexivity].
    + intros (l & E & Hi). vm_compute in E. injection E as <-. destruct Hi as [X|[]]. discriminate.
  - eexists. eexists. split; [apply D1; vm_compute; reflexivity|]. vm_compute. reflexivity.
  - eexists. eexists. eexists. eexists. split; [apply D1; vm_compute; reflexivity|]. split; [vm_compute; reflexivity|].
    split; [vm_compute; reflexivity|]. split; [vm_compute; reflexivity|]. split; reflexivity.
Qed.
Print Assumptions C111_conditions.

(** The dump of a store. *)
Definition ux_full : list op :=
  ux_held ++ [OAddColl (lit "b c"); OAdd (lit "b c") [Trip (lit "s") (lit ":") (lit "t"); Trip (lit "u") (lit "is") (lit "v w")]].

Example C111_case :
  dump mem_impl (mem_after ux_full)
    (lit "let ""a"" {""p"" ""q"" ""r""}," ++ [10%N] ++ lit "let ""b c"" {""u"" ""is"" ""v w"", ""s"" : ""t""}," ++ [10%N])
  /\ exists w, shows mem_impl (mem_after ux_full) w /\ plain_world w /\ forall n, w n <> None -> storable n.
Proof.
  split.
  - exists [lit "a"; lit "b c"]. split; [|split].
    + repeat constructor; vm_compute; intros H; repeat (destruct H as [H|H]; [discriminate|]); exact H.
    + intros n. unfold has. split; [intros Hn; eexists; split; [vm_compute; reflexivity|exact Hn]|].
      intros (l & E & Hn). vm_compute in E. injection E as <-. exact Hn.
    + set (x := lit "let ""a"" {""p"" ""q"" ""r""}," ++ [10%N] ++ lit "let ""b c"" {""u"" ""is"" ""v w"", ""s"" : ""t""}," ++ [10%N]).
      eassert (x = _) as ->; [|econstructor; [vm_compute; reflexivity|econstructor; [vm_compute; reflexivity|constructor]]].
      vm_compute. reflexivity.
  - destruct (proj1 (C101_worlds _ _ _ _ _ ux_full im_mem)) as [w Hw]. exists w. split; [exact Hw|].
    assert (H : forall n l, w n = Some l -> (n = lit "a" /\ l = [Role (mkE (lit "p")) (mkE (lit "r")) (mkE (lit "q"))])
      \/ (n = lit "b c" /\ l = [Role (mkE (lit "u")) (mkE (lit "v w")) (mkE (lit "is")); Extends (mkE (lit "s")) (mkE (lit "t"))])).
    { intros n l E. assert (K : has mem_impl (mem_after ux_full) n) by (apply (proj1 Hw); congruence).
      pose proof (proj2 Hw (mkE n) l E) as El. destruct K as (k & Ek & Hi). vm_compute in Ek. injection Ek as <-.
      destruct Hi as [<-|[<-|[]]]; [left|right]; (split; [reflexivity|]); vm_compute in El; injection El as <-; reflexivity. }
    assert (P : forall s, forallb (fun c => N.leb 32 c && negb (N.eqb c 34) && negb (N.eqb c 92)) s = true -> Forall plain_char s).
    { intros s K. apply Forall_forall. intros c Hc. rewrite forallb_forall in K. specialize (K c Hc).
      apply andb_true_iff in K. destruct K as [K H3]. apply andb_true_iff in K. destruct K as [H1 H2].
      apply N.leb_le in H1. apply negb_true_iff, N.eqb_neq in H2. apply negb_true_iff, N.eqb_neq in H3. split; auto. }
    split.
    + intros n l E. destruct (H n l E) as [[-> ->]|[-> ->]]; (split; [apply P; reflexivity|]);
        intros e m Hi Hm; simpl in Hi; repeat (destruct Hi as [<-|Hi]; [destruct Hm as [->|[->| ->]]; apply P; reflexivity|]); destruct Hi.
    + intros n Hn. destruct (w n) as [l|] eqn:E; [|congruence].
      destruct (H n l E) as [[-> _]|[-> _]]; (split; [apply Nat.ltb_lt; reflexivity|apply N.leb_le; reflexivity]).
Qed.
