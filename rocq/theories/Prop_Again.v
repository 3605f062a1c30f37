(** * C123: a script that died is run again *)
From Coq Require Import List Arith NArith Bool String Lia.
From Verif Require Import M_Base M_Data M_Mem M_Heed M_Regex M_Lexer M_Graph M_Parser M_Display M_Interp M_Conc
  S_Order S_Str S_Store S_Graph S_Lexer S_Parser S_Interp S_Conc S_Names S_Wander S_Rewrite S_Lines S_Footprint S_Monotone S_Again
  P_Ord P_Hist P_Lexer P_LexMore P_Parser P_Conc P_Graph P_Monotone P_WanderRun P_WanderDet P_Rewrite P_Again.
Import ListNotations.
Open Scope list_scope.

(** C123.  A script that reads nothing it lets, on an LMDB store.  However often it
    was begun and died, each time after any number of its store calls: run once
    more it has the outcome (answer, error or crash) that it would have had at
    first, and leaves a store that looks like the one one run would have left. *)
Theorem C123_exact : forall script ms h,
  (forall n, reads_name script n -> ~ lets_name script n) -> numbers_last script ms h ->
  let G := graph_impl heed_impl in
  let d := after heed_impl heed_new h in
  exists r d1 r' d2, run G common script d = (r, d1) /\ run G common script (attempts G script ms d) = (r', d2)
    /\ outcome_of r' = outcome_of r /\ look_alike heed_impl d1 d2.
Proof. intros script ms h D N. exact (again_exact script ms h D N). Qed.
Print Assumptions C123_exact.

(** A script that may read what it lets, without assertions and searches for
    variables, that answers at first.  Begun [n] times and run once more it answers
    and leaves at least what one run would have answered and left, and at most
    what the last of [n + 1] runs would have answered and left. *)
Theorem C123_between : forall script ms h a d1 rs d3 h3,
  plain_script script -> numbers_last script ms h ->
  let G := graph_impl heed_impl in
  let d := after heed_impl heed_new h in
  run G common script d = (Ok a, d1) ->
  session (graph_impl (logged heed_impl)) (repeat script (S (List.length ms))) (d, h) = (rs, (d3, h3)) -> (total_weight h3 < 2 ^ 64)%N ->
  exists b c d2, run G common script (attempts G script ms d) = (Ok b, d2) /\ nth_error rs (List.length ms) = Some (Ok c)
    /\ below_value a b /\ below_value b c
    /\ forall w1 w2 w3, shows heed_impl d1 w1 -> shows heed_impl d2 w2 -> shows heed_impl d3 w3 -> below w1 w2 /\ below w2 w3.
Proof.
  intros script ms h a d1 rs d3 h3 Pl N G d E1 E3 W3. destruct (shown h) as (w & Sw).
  destruct (whole_run script h w Sw (N 0)) as (r & g1 & F & _ & E1' & M & SF). unfold G, d in E1. change (after heed_impl heed_new h) with (lm h) in *.
  rewrite E1 in E1'. injection E1' as <- ->. cbn [outcome_of] in M.
  destruct (again_below script h w a F Pl Sw M ms) as (g & v & os & u & A1 & A2 & Sv & B1 & Au & B2).
  { destruct ms as [|y ys] using rev_ind; [left; reflexivity|right]. exists ys, y. auto. }
  pose proof (last_all _ _ _ N) as W. rewrite A1 in W. destruct (whole_run script g v Sv W) as (r' & g2 & x & _ & E2 & Mx & Sx).
  destruct (means_stay Lmdb ltac:(discriminate) script w a F v Pl B1 M) as (b & x' & Mb).
  destruct (means_fun Lmdb script v _ _ v _ _ (same_refl v) Mx Mb) as [Eo _]. rewrite Eo in Mx. apply ok_outcome in Eo as ->.
  destruct (means_mono Lmdb script w a F v b x B1 M Mx) as [Bab BFx].
  destruct (means_stay Lmdb ltac:(discriminate) script v b x u Pl B2 Mx) as (c & u' & Mu).
  destruct (means_mono Lmdb script v b x u c u' B2 Mx Mu) as [Bbc Bxu].
  destruct (reference_session Lmdb heed_impl heed_new _ (implements_abides _ _ _ _ _ im_lmdb) _ h w rs d3 h3 Sw E3 W3) as (_ & _ & z & Az & Sz).
  assert (Au' : all_mean Lmdb w (repeat script (S (List.length ms))) (os ++ [Answers c]) u').
  { rewrite repeat_cons_tail. apply all_mean_app. exists os, [Answers c], u. split; [reflexivity|]. split; [exact Au|]. econstructor; [exact Mu|constructor]. }
  destruct (all_mean_fun Lmdb _ _ _ _ Az _ _ _ (same_refl w) Au') as [Er Ez].
  assert (Lo : List.length os = List.length ms).
  { clear -Au. assert (K : forall ys w os u, all_mean Lmdb w ys os u -> List.length os = List.length ys) by (induction 1; cbn; congruence).
    apply K in Au. rewrite repeat_length in Au. exact Au. }
  unfold G, d. change (after heed_impl heed_new h) with (lm h). exists b, c, (lm g2). rewrite A2. split; [exact E2|]. split; [|split; [exact Bab|split; [exact Bbc|]]].
  - assert (X : nth_error (map outcome_of rs) (List.length ms) = Some (Answers c)) by (rewrite Er, <- Lo, nth_error_app2, Nat.sub_diag by lia; reflexivity).
    rewrite nth_error_map in X. destruct (nth_error rs (List.length ms)) as [q|]; [|discriminate]. cbn in X. injection X as X. apply ok_outcome in X as ->. reflexivity.
  - intros w1 w2 w3 S1 S2 S3. split; intros n l El.
    + rewrite <- (shows_fun heed_impl _ _ _ SF S1 n) in El. destruct (BFx n l El) as (k & Ek & I). exists k. rewrite <- (shows_fun heed_impl _ _ _ Sx S2 n). auto.
    + rewrite <- (shows_fun heed_impl _ _ _ Sx S2 n) in El. destruct (Bxu n l El) as (k & Ek & I). exists k.
      rewrite <- (shows_fun heed_impl _ _ _ Sz S3 n), (Ez n). auto.
Qed.
Print Assumptions C123_between.

(** Reading what it lets a script can indeed tell that it was begun before: one run
    leaves [a] empty, a second one copies [b]. *)
Definition ag_script : str := lit "let a (read b), let b { x y z }".
Definition ag_h : list op := [OAddColl (lit "b")].

Lemma only_reading s toks k cs : tokenize s = Ok toks -> tokenize_and_filter s = Ok k -> parse k = Ok cs ->
  reads_as s cs /\ forall ds, reads_as s ds -> ds = cs.
Proof.
  intros E Ef Ep. destruct (filter_keeps _ _ E) as (k' & Ek & K & U). rewrite Ef in Ek. injection Ek as <-. split.
  - exists toks, k. split; [apply tokenize_ok; exact E|]. split; [exact K|]. apply parse_ok. exact Ep.
  - intros ds (ts & k2 & L & K2 & G). apply tokenize_ok in L. assert (ts = toks) as -> by congruence. apply U in K2. subst k2. apply parse_ok in G. congruence.
Qed.

Theorem C123_not_always :
  let G := graph_impl heed_impl in
  let d := after heed_impl heed_new ag_h in
  plain_script ag_script /\ numbers_last ag_script [5] ag_h
  /\ reads_name ag_script (lit "b") /\ lets_name ag_script (lit "b")
  /\ l_entries G (snd (run G common ag_script d)) (mkE (lit "a")) = Ok []
  /\ exists e, l_entries G (snd (run G common ag_script (attempts G ag_script [5] d))) (mkE (lit "a")) = Ok [e].
Proof.
  let e := fresh in evar (e : list call); assert (T1 : reads_as ag_script e /\ forall ds, reads_as ag_script ds -> ds = e)
    by (subst e; eapply only_reading; vm_compute; reflexivity); subst e. destruct T1 as [R1 T1].
  split; [|split; [|split; [|split; [|split]]]].
  - intros cs c R Hc. rewrite (T1 _ R) in Hc. destruct Hc as [<-|[<-|[]]]; cbn [c_name c_args el_name]; constructor; try (vm_compute; discriminate).
    intros c n qargs _ E. injection E as _ <- <-. cbn [el_name]. constructor; try (vm_compute; discriminate); try (intros; discriminate).
  - intros k. do 2 (destruct k as [|k]; [vm_compute; reflexivity|]). vm_compute. reflexivity.
  - do 2 eexists. split; [exact R1|]. split; [left; reflexivity|]. cbn [c_name c_args el_name]. apply cr_let. constructor. cbn [el_name].
    change (lit "b") with (el_name (mkE (lit "b"))). constructor.
  - do 2 eexists. split; [exact R1|]. split; [right; left; reflexivity|]. cbn [c_name c_args el_name].
    change (lit "b") with (el_name (mkE (lit "b"))). constructor.
  - vm_compute. reflexivity.
  - eexists. vm_compute. reflexivity.
Qed.
Print Assumptions C123_not_always.

(** A script that reads, lets and asserts, begun four times before: [c] had been
    created and not filled. *)
Definition ag_steady : str := lit "let a (read b), assert-equal (read b) (read b), let c { x y z, u v w }, assert-fail (let)".
Example C123_case :
  let G := graph_impl heed_impl in
  let d := after heed_impl heed_new ag_h in
  let cut := attempts G ag_steady [2; 0; 6; 5] d in
  (forall n, reads_name ag_steady n -> ~ lets_name ag_steady n)
  /\ numbers_last ag_steady [2; 0; 6; 5] ag_h
  /\ fst (run G common ag_steady d) = Ok done
  /\ l_entries G cut (mkE (lit "c")) = Ok []
  /\ exists e f, l_entries G (snd (run G common ag_steady cut)) (mkE (lit "c")) = Ok [e; f].
Proof.
  let e := fresh in evar (e : list call); assert (T1 : reads_as ag_steady e /\ forall ds, reads_as ag_steady ds -> ds = e)
    by (subst e; eapply only_reading; vm_compute; reflexivity); subst e. destruct T1 as [R1 T1].
  split; [|split; [|split; [|split]]].
  - assert (Rb : forall n, reads_name ag_steady n -> n = lit "b").
    { intros n (cs & c & R & Hc & H). rewrite (T1 _ R) in Hc. repeat (destruct Hc as [<-|Hc]); [..|destruct Hc]; cbn [c_name c_args el_name] in H;
        repeat (match goal with K : call_reads _ _ _ |- _ => inversion K; clear K; subst | K : value_reads _ _ |- _ => inversion K; clear K; subst end); reflexivity. }
    assert (Lb : ~ lets_name ag_steady (lit "b")).
    { intros (cs & c & R & Hc & H). rewrite (T1 _ R) in Hc. repeat (destruct Hc as [<-|Hc]); [..|destruct Hc]; cbn [c_name c_args el_name] in H;
        repeat (match goal with K : call_lets _ _ _ |- _ => inversion K; clear K; subst | K : value_lets _ _ |- _ => inversion K; clear K; subst end). }
    intros n Hn. rewrite (Rb n Hn). exact Lb.
  - intros k. do 5 (destruct k as [|k]; [vm_compute; reflexivity|]). vm_compute. reflexivity.
  - vm_compute. reflexivity.
  - vm_compute. reflexivity.
  - do 2 eexists. vm_compute. reflexivity.
Qed.
