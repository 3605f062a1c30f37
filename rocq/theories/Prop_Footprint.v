(** * Properties: what a script depends on *)
From Coq Require Import List Arith NArith Bool String Lia Permutation.
From Verif Require Import M_Base M_Data M_Mem M_Heed M_Duck M_Regex M_Lexer M_Graph M_Parser M_Display M_Interp M_Hosts
  S_Order S_Str S_Store S_Graph S_Lexer S_Parser S_Interp S_Names S_Json P_Ord P_Hist P_Mem P_HeedHist P_HeedMore P_Duck P_Graph
  P_Lexer P_LexMore P_Parser P_Interp S_Wander P_WanderRun P_WanderDet S_Rewrite P_Rewrite S_Footprint P_Footprint Prop_Graph Prop_Wander.
Import ListNotations.
Open Scope list_scope.

(** C114.  Two stores that show the same under the names a script looks at: the
    script does the same on both, they still show the same under these names, and
    under names it does not let each shows what it showed. *)
Theorem C114_depends : forall B S (I : trips_impl S) s0 room h k script w v r s1 h1 r' s2 k1, implements B I s0 room ->
  shows I (after I s0 h) w -> shows I (after I s0 k) v -> agree_on (looks_at script) w v ->
  run (graph_impl (logged I)) common script (after I s0 h, h) = (r, (s1, h1)) -> room h1 ->
  run (graph_impl (logged I)) common script (after I s0 k, k) = (r', (s2, k1)) -> room k1 ->
  outcome_of r = outcome_of r'
  /\ forall w' v', shows I s1 w' -> shows I s2 v' ->
       agree_on (looks_at script) w' v' /\ forall n, ~ lets_name script n -> w' n = w n /\ v' n = v n.
Proof.
  intros B S I s0 room h k script w v r s1 h1 r' s2 k1 HI Hw Hv A E1 R1 E2 R2.
  destruct (C101_reference B S I s0 room h script w r s1 h1 HI Hw E1 R1) as [_ (w1 & M1 & S1)].
  destruct (C101_reference B S I s0 room k script v r' s2 k1 HI Hv E2 R2) as [_ (v1 & M2 & S2)].
  destruct (means_on B script w _ _ M1 (looks_at script) v (fun _ H => H) A) as (v2 & M3 & A3 & F3).
  destruct (means_fun B script v _ _ v _ _ (same_refl v) M3 M2) as [E Sv]. split; [exact E|].
  intros w' v' Hw' Hv'. pose proof (shows_fun I _ _ _ S1 Hw') as Ew. pose proof (shows_fun I _ _ _ S2 Hv') as Ev. split.
  - intros n Hn. rewrite <- (Ew n), <- (Ev n), <- (Sv n). apply A3, Hn.
  - intros n N. rewrite <- (Ew n), <- (Ev n), <- (Sv n). split; [exact (means_frame B _ _ _ _ M1 n N)|apply F3, N].
Qed.
Print Assumptions C114_depends.

(** What it looks at is written in it; so scripts that have no name in common are
    independent. *)
Theorem C114_written : forall s n, (lets_name s n -> looks_at s n) /\ (looks_at s n -> name_in s n).
Proof. intros s n. split; [apply script_lets_looks|apply looks_written]. Qed.
Print Assumptions C114_written.

Theorem C114_no_common_name : forall x y, (forall n, name_in x n -> ~ name_in y n) -> independent x y.
Proof.
  intros x y H. split; intros n Hl Hk.
  - exact (H n (looks_written _ _ (script_lets_looks _ _ Hl)) (looks_written _ _ Hk)).
  - exact (H n (looks_written _ _ Hk) (looks_written _ _ (script_lets_looks _ _ Hl))).
Qed.
Print Assumptions C114_no_common_name.

(** Scripts of which none lets what another looks at can be run in any order:
    each gets the same outcome, and the stores look alike in the end. *)
Theorem C114_any_order : forall B S (I : trips_impl S) s0 room h ss ts rs s1 h1 rs' s2 k1, implements B I s0 room ->
  Permutation ss ts -> ForallOrdPairs independent ss ->
  session (graph_impl (logged I)) ss (after I s0 h, h) = (rs, (s1, h1)) -> room h1 ->
  session (graph_impl (logged I)) ts (after I s0 h, h) = (rs', (s2, k1)) -> room k1 ->
  Permutation (combine ss (map outcome_of rs)) (combine ts (map outcome_of rs')) /\ look_alike I s1 s2.
Proof.
  intros B S I s0 room h ss ts rs s1 h1 rs' s2 k1 HI P Ind E1 R1 E2 R2.
  pose proof (implements_abides _ _ _ _ _ HI) as AB. destruct (a_world B I s0 room HI h) as (w & Hw).
  destruct (reference_session B I s0 room AB ss h w rs s1 h1 Hw E1 R1) as (_ & _ & w1 & A1 & S1).
  destruct (reference_session B I s0 room AB ts h w rs' s2 k1 Hw E2 R2) as (_ & _ & v1 & A2 & S2).
  destruct (reorder B ss ts P Ind _ _ _ A1) as (os & v2 & A3 & Pm & Sv).
  destruct (all_mean_fun B _ _ _ _ A3 _ _ _ (same_refl _) A2) as [E Sv2]. subst os. split; [exact Pm|].
  eapply alike_same; [exact S1|exact S2|]. intros n. rewrite (Sv n). apply Sv2.
Qed.
Print Assumptions C114_any_order.


(** In memory, without the log. *)
Theorem C114_any_order_mem : forall h ss ts rs s1 rs' s2, Permutation ss ts -> ForallOrdPairs independent ss ->
  session (graph_impl mem_impl) ss (mem_after h) = (rs, s1) -> session (graph_impl mem_impl) ts (mem_after h) = (rs', s2) ->
  Permutation (combine ss (map outcome_of rs)) (combine ts (map outcome_of rs')) /\ look_alike mem_impl s1 s2.
Proof.
  assert (L : forall ss s h rs s1, session (graph_impl mem_impl) ss s = (rs, s1) -> exists h1, session (graph_impl (logged mem_impl)) ss (s, h) = (rs, (s1, h1))).
  { induction ss as [|x ss IH]; intros s h rs s1 E; cbn [session] in *; [injection E as <- <-; eauto|].
    destruct (run (graph_impl mem_impl) common x s) as [r s2] eqn:E1. destruct (session (graph_impl mem_impl) ss s2) as [rs2 s3] eqn:E2. injection E as <- <-.
    destruct (run_logged mem_impl x s h _ _ E1) as [h2 L1]. destruct (IH _ h2 _ _ E2) as [h3 L2]. exists h3. rewrite L1, L2. reflexivity. }
  intros h ss ts rs s1 rs' s2 P Ind E1 E2. destruct (L _ _ h _ _ E1) as [h1 L1]. destruct (L _ _ h _ _ E2) as [h2 L2].
  exact (C114_any_order InMemory _ _ _ _ h ss ts rs s1 h1 rs' s2 h2 im_mem P Ind L1 Logic.I L2 Logic.I).
Qed.
Print Assumptions C114_any_order_mem.

(** Looking at what another lets is enough to make the order matter; so is
    letting it. *)
Theorem C114_order_matters :
  (forall n, ~ lets_name (lit "read a") n)
  /\ (forall n, looks_at (lit "read a") n <-> n = lit "a")
  /\ (forall n, lets_name (lit "let a {x y z}") n <-> n = lit "a")
  /\ map outcome_of (fst (session (graph_impl mem_impl) [lit "let a {x y z}"; lit "read a"] mem_new))
     <> rev (map outcome_of (fst (session (graph_impl mem_impl) [lit "read a"; lit "let a {x y z}"] mem_new)))
  /\ ~ look_alike mem_impl
        (snd (session (graph_impl mem_impl) [lit "let a {x y z}"; lit "let a {}"] mem_new))
        (snd (session (graph_impl mem_impl) [lit "let a {}"; lit "let a {x y z}"] mem_new)).
Proof.
  assert (T : forall s toks k cs, tokenize s = Ok toks -> tokenize_and_filter s = Ok k -> parse k = Ok cs ->
    reads_as s cs /\ forall ds, reads_as s ds -> ds = cs).
  { intros s toks k cs E Ef Ep. destruct (filter_keeps _ _ E) as (k' & Ek & K & U). rewrite Ef in Ek. injection Ek as <-. split.
    - exists toks, k. split; [apply tokenize_ok; exact E|]. split; [exact K|]. apply parse_ok. exact Ep.
    - intros ds (ts & k2 & L & K2 & G). apply tokenize_ok in L. assert (ts = toks) as -> by congruence.
      apply U in K2. subst k2. apply parse_ok in G. congruence. }
  assert (T1 : reads_as (lit "read a") [named "read" [VElement (Elem (lit "a") None None)]] /\ forall ds, reads_as (lit "read a") ds -> ds = [named "read" [VElement (Elem (lit "a") None None)]]).
  { eapply T; vm_compute; reflexivity. }
  assert (T2 : exists v, reads_as (lit "let a {x y z}") [named "let" [VElement (Elem (lit "a") None None); VNetwork v]]
    /\ forall ds, reads_as (lit "let a {x y z}") ds -> ds = [named "let" [VElement (Elem (lit "a") None None); VNetwork v]]).
  { eexists. eapply T; vm_compute; reflexivity. }
  destruct T1 as [T1 U1]. destruct T2 as (v & T2 & U2).
  split; [|split; [|split; [|split]]].
  - intros n (cs & c & R & Hc & H). rewrite (U1 _ R) in Hc. destruct Hc as [<-|[]]. cbn [named c_name c_args el_name] in H. inversion H; discriminate.
  - intros n. split.
    + intros (cs & c & R & Hc & H). rewrite (U1 _ R) in Hc. destruct Hc as [<-|[]]. cbn [named c_name c_args el_name] in H. inversion H; subst; try discriminate. reflexivity.
    + intros ->. eexists. eexists. split; [exact T1|]. split; [left; reflexivity|]. apply cl_read.
  - intros n. split.
    + intros (cs & c & R & Hc & H). rewrite (U2 _ R) in Hc. destruct Hc as [<-|[]]. cbn [named c_name c_args el_name] in H.
      inversion H as [| ? ? ? K | | |]; subst; try reflexivity; try discriminate. inversion K.
    + intros ->. eexists. eexists. split; [exact T2|]. split; [left; reflexivity|]. apply ce_let.
  - intros X. vm_compute in X. discriminate X.
  - intros X. set (d := snd (session (graph_impl mem_impl) [lit "let a {x y z}"; lit "let a {}"] mem_new)) in *.
    assert (Hd : shows mem_impl d (world_of mem_impl d)).
    { apply world_of_shows. intros n (l & E & Hi). vm_compute in E. injection E as <-. destruct Hi as [<-|[]]. eexists. vm_compute. reflexivity. }
    apply X in Hd. destruct Hd as [_ K]. specialize (K (Elem (lit "a") None None) [] ltac:(vm_compute; reflexivity)). vm_compute in K. discriminate K.
Qed.
Print Assumptions C114_order_matters.

(** Three scripts of which none lets what another looks at. *)
Definition fx : list str := [lit "let a (read c)"; lit "let b {x y z}, read b"; lit "assert-equal (read c) {}"].

Example C114_case : ForallOrdPairs independent fx
  /\ map outcome_of (fst (session (graph_impl duck_impl) fx duck_new))
     = [Answers done; Answers (VNetwork [Role (mkE (lit "x")) (mkE (lit "z")) (mkE (lit "y"))]); Answers done].
Proof.
  split; [|vm_compute; reflexivity].
  assert (T : forall s toks k cs, tokenize s = Ok toks -> tokenize_and_filter s = Ok k -> parse k = Ok cs -> forall ds, reads_as s ds -> ds = cs).
  { intros s toks k cs E Ef Ep ds (ts & k2 & L & K2 & G). destruct (filter_keeps _ _ E) as (k' & Ek & K & U). rewrite Ef in Ek. injection Ek as <-.
    apply tokenize_ok in L. assert (ts = toks) as -> by congruence. apply U in K2. subst k2. apply parse_ok in G. congruence. }
  assert (I : forall x y xs ys, (forall ds, reads_as x ds -> ds = xs) -> (forall ds, reads_as y ds -> ds = ys) ->
    (forall n, program_lets xs n -> ~ program_looks ys n) -> (forall n, program_lets ys n -> ~ program_looks xs n) -> independent x y).
  { intros x y xs ys Ux Uy H1 H2. split; intros n (cs & c & R & Hc & H) (ds & d & R' & Hd & H').
    - rewrite (Ux _ R) in Hc. rewrite (Uy _ R') in Hd. apply (H1 n); [exists c|exists d]; auto.
    - rewrite (Uy _ R) in Hc. rewrite (Ux _ R') in Hd. apply (H2 n); [exists c|exists d]; auto. }
  let e := fresh in evar (e : list call); assert (T1 : forall ds, reads_as (lit "let a (read c)") ds -> ds = e) by (subst e; eapply T; vm_compute; reflexivity); subst e.
  let e := fresh in evar (e : list call); assert (T2 : forall ds, reads_as (lit "let b {x y z}, read b") ds -> ds = e) by (subst e; eapply T; vm_compute; reflexivity); subst e.
  let e := fresh in evar (e : list call); assert (T3 : forall ds, reads_as (lit "assert-equal (read c) {}") ds -> ds = e) by (subst e; eapply T; vm_compute; reflexivity); subst e.
  assert (I12 : independent (lit "let a (read c)") (lit "let b {x y z}, read b")); [eapply I; [exact T1|exact T2|..]|
  assert (I13 : independent (lit "let a (read c)") (lit "assert-equal (read c) {}")); [eapply I; [exact T1|exact T3|..]|
  assert (I23 : independent (lit "let b {x y z}, read b") (lit "assert-equal (read c) {}")); [eapply I; [exact T2|exact T3|..]|
    exact (FOP_cons _ (Forall_cons _ I12 (Forall_cons _ I13 (Forall_nil _))) (FOP_cons _ (Forall_cons _ I23 (Forall_nil _)) (FOP_cons _ (Forall_nil _) (FOP_nil _))))]]].
  all: intros n (c & Hc & H) (d & Hd & H'); cbn [In] in Hc, Hd; repeat destruct Hc as [Hc|Hc]; repeat destruct Hd as [Hd|Hd]; subst; try contradiction.
  all: cbn [c_name c_args el_name] in H, H'.
  all: repeat match goal with
    | K : call_lets _ _ _ |- _ => inversion K; clear K; subst; try discriminate
    | K : value_lets _ _ |- _ => inversion K; clear K; subst; try discriminate
    | K : call_looks _ _ _ |- _ => inversion K; clear K; subst; try discriminate
    | K : value_looks _ _ |- _ => inversion K; clear K; subst; try discriminate end.
Qed.
