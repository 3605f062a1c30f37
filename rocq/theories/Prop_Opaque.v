(** * Properties: names are opaque *)
From Coq Require Import List Arith NArith Bool String Lia.
From Verif Require Import M_Base M_Data M_Mem M_Heed M_Duck M_Regex M_Lexer M_Graph M_Parser M_Display M_Interp M_Hosts
  S_Order S_Str S_Store S_Graph S_Filter S_Lexer S_Parser S_Display S_Interp S_Names S_Json P_Ord P_Hist P_Mem P_HeedHist P_HeedMore P_Duck P_Graph
  P_Lexer P_LexMore P_Parser P_Display P_Reread P_Interp S_Wander P_Wander P_WanderRun P_WanderDet S_Rewrite P_Rewrite S_Rename S_Template P_Template S_Opaque P_Opaque
  Prop_Graph Prop_Wander Prop_Template.
Import ListNotations.
Open Scope list_scope.

(** C113.  One script is the other with its names renamed, and so is one store:
    then so are the answer (or the error, or the crash) and the store
    afterwards, and what the store has under other names stays. *)
Theorem C113_scripts : forall B S (I : trips_impl S) s0 room f h k s t w v r s1 h1 r' s2 k1, implements B I s0 room -> renaming B f ->
  ren_text f s t -> shows I (after I s0 h) w -> shows I (after I s0 k) v -> ren_world f w v ->
  run (graph_impl (logged I)) common s (after I s0 h, h) = (r, (s1, h1)) -> room h1 ->
  run (graph_impl (logged I)) common t (after I s0 k, k) = (r', (s2, k1)) -> room k1 ->
  ren_outcome f (outcome_of r) (outcome_of r')
  /\ forall w' v', shows I s1 w' -> shows I s2 v' -> ren_world f w' v' /\ others_alone f v v'.
Proof.
  intros B S I s0 room f h k s t w v r s1 h1 r' s2 k1 HI Hf Ht Hw Hv Rw E1 R1 E2 R2.
  destruct (C101_reference B S I s0 room h s w r s1 h1 HI Hw E1 R1) as [_ (w1 & M1 & S1)].
  destruct (C101_reference B S I s0 room k t v r' s2 k1 HI Hv E2 R2) as [_ (v1 & M2 & S2)].
  destruct (renamed_means B f s t w v _ _ Hf Ht Rw M1) as (o2 & v2 & M3 & Ro & Rw2 & A).
  destruct (means_fun B t v _ _ v _ _ (same_refl v) M3 M2) as [E Sv]. subst o2. split; [exact Ro|].
  intros w' v' Hw' Hv'. pose proof (shows_fun I _ _ _ S1 Hw') as Ew. pose proof (shows_fun I _ _ _ S2 Hv') as Ev. split.
  - apply (ren_world_same f w1 v2); [exact Ew| |exact Rw2]. intros n. rewrite (Sv n). apply Ev.
  - intros n N. rewrite <- (Ev n), <- (Sv n). apply A, N.
Qed.
Print Assumptions C113_scripts.

(** Scripts one after the other, on two new stores: every answer is renamed. *)
Theorem C113_sessions : forall B S (I : trips_impl S) s0 room f ss ts rs s1 h1 rs' s2 k1, implements B I s0 room -> renaming B f ->
  Forall2 (ren_text f) ss ts ->
  session (graph_impl (logged I)) ss (s0, []) = (rs, (s1, h1)) -> room h1 ->
  session (graph_impl (logged I)) ts (s0, []) = (rs', (s2, k1)) -> room k1 ->
  Forall2 (ren_outcome f) (map outcome_of rs) (map outcome_of rs')
  /\ forall w v, shows I s1 w -> shows I s2 v -> ren_world f w v /\ others_alone f empty_world v.
Proof.
  intros B S I s0 room f ss ts rs s1 h1 rs' s2 k1 HI Hf Ht E1 R1 E2 R2.
  destruct (C101_session B S I s0 room ss rs s1 h1 HI E1 R1) as (w1 & A1 & S1).
  destruct (C101_session B S I s0 room ts rs' s2 k1 HI E2 R2) as (v1 & A2 & S2).
  destruct (renamed_all_mean B f Hf _ _ _ _ A1 ts empty_world Ht (fun n => Logic.I)) as (os & v2 & A3 & Ro & Rw & Al).
  destruct (all_mean_fun B _ _ _ _ A3 _ _ _ (same_refl _) A2) as [E Sv]. subst os. split; [exact Ro|].
  intros w v Hw Hv. pose proof (shows_fun I _ _ _ S1 Hw) as Ew. pose proof (shows_fun I _ _ _ S2 Hv) as Ev. split.
  - apply (ren_world_same f w1 v2); [exact Ew| |exact Rw]. intros n. rewrite (Sv n). apply Ev.
  - intros n N. rewrite <- (Ev n), <- (Sv n). apply Al, N.
Qed.
Print Assumptions C113_sessions.

(** In memory, without the log. *)
Theorem C113_mem : forall f h k s t w v r s1 r' s2, renaming InMemory f -> ren_text f s t ->
  shows mem_impl (mem_after h) w -> shows mem_impl (mem_after k) v -> ren_world f w v ->
  grun s (mem_after h) = (r, s1) -> grun t (mem_after k) = (r', s2) ->
  ren_outcome f (outcome_of r) (outcome_of r')
  /\ forall w' v', shows mem_impl s1 w' -> shows mem_impl s2 v' -> ren_world f w' v' /\ others_alone f v v'.
Proof.
  intros f h k s t w v r s1 r' s2 Hf Ht Hw Hv Rw E1 E2.
  destruct (run_logged mem_impl s _ h _ _ E1) as [h1 L1]. destruct (run_logged mem_impl t _ k _ _ E2) as [k1 L2].
  exact (C113_scripts InMemory _ _ _ _ f h k s t w v r s1 h1 r' s2 k1 im_mem Hf Ht Hw Hv Rw L1 Logic.I L2 Logic.I).
Qed.
Print Assumptions C113_mem.

(** Renamings: two names that are not reserved can change places, if neither is
    a variable (and on LMDB both can be stored). *)
Theorem C113_swaps : forall B a b, ~ reserved a -> ~ reserved b -> (variable_name a <-> variable_name b) ->
  (B = Lmdb -> (storable a <-> storable b)) -> renaming B (swap a b).
Proof.
  intros B a b Ha Hb V St. split; [apply swap_injective|]. split; [apply swap_fixes; assumption|].
  split; [apply (swap_class variable_name); exact V|]. intros E. apply (swap_class storable). exact (St E).
Qed.
Print Assumptions C113_swaps.

(** A template (C112) filled with other names, where the renaming leaves alone
    the names written in the template. *)
Theorem C113_templates : forall f pieces last (xs ys : list str), template pieces last (List.length xs) ->
  (forall p n, p = last \/ In p pieces -> written_in p n -> f n = n) ->
  Forall2 (fun x y => forall a b, json_text x a -> json_text y b -> b = f a) xs ys ->
  ren_text f (fill printed pieces last xs) (fill printed pieces last ys).
Proof.
  intros f pieces last xs ys (Len & F & Tl) W H.
  assert (E : map json_body ys = map f (map json_body xs)).
  { clear -H. induction H as [|x y xs ys Hx H IH]; [reflexivity|]. cbn. rewrite IH. f_equal. apply Hx; apply json_text_body. }
  assert (Sb : forall zs : list str, Forall string_body (map json_body zs)).
  { intros zs. apply Forall_forall. intros b Hb. apply in_map_iff in Hb as (x & <- & _). apply json_body_string. }
  rewrite !(fill_map printed json_body _ _ printed_qu).
  destruct (fill_lexes _ _ F Tl (map json_body xs) (Sb xs)) as (ts & L & T); [rewrite map_length; exact Len|].
  destruct (ren_filled f _ _ _ _ T W) as (us & U & R). rewrite <- E in U.
  destruct (fill_lexes _ _ F Tl (map json_body ys) (Sb ys)) as (us' & L' & T').
  { rewrite map_length. rewrite <- (f2_length _ _ _ H). exact Len. }
  assert (us' = us) as ->.
  { clear -T' U. revert us U. induction T' as [last ts L|p ps last b bs ts us L H IH]; intros vs V; inversion V as [|? ? ? ? ? ts2 us2 L2 V2]; subst.
    - eapply lexes_unique; eassumption.
    - rewrite (lexes_unique _ _ L _ L2), (IH _ V2). reflexivity. }
  exists ts, us, (kept ts), (kept us). repeat split; try assumption; apply kept_keeps.
Qed.
Print Assumptions C113_templates.

(** Each of the conditions on a renaming is needed: without it there is a script
    whose answer on a new store is not renamed. *)
Definition breaks {S : Type} (I : trips_impl S) (s0 : S) (f : str -> str) : Prop := exists s t,
  ren_text f s t
  /\ ~ ren_outcome f (outcome_of (fst (run (graph_impl I) common s s0))) (outcome_of (fst (run (graph_impl I) common t s0))).

Lemma text_check f s t ts us k l : tokenize s = Ok ts -> tokenize t = Ok us -> tokenize_and_filter s = Ok k -> tokenize_and_filter t = Ok l ->
  Forall2 (ren_token f) k l -> ren_text f s t.
Proof.
  intros E1 E2 F1 F2 H. destruct (filter_keeps _ _ E1) as (k' & Ek & K & _). destruct (filter_keeps _ _ E2) as (l' & El & L & _).
  assert (k' = k) as -> by congruence. assert (l' = l) as -> by congruence.
  exists ts, us, k, l. split; [apply tokenize_ok; exact E1|]. split; [apply tokenize_ok; exact E2|]. auto.
Qed.

Ltac ren_tokens := repeat first [apply Forall2_nil | apply Forall2_cons;
  [first [match goal with |- ren_token ?f (TElement (Elem ?n None None)) _ => exact (rt_element f n) end | apply rt_same; discriminate]|]].
Ltac ren_check := eapply text_check; [vm_compute; reflexivity..|]; ren_tokens.

Definition merge (a b n : str) : str := if str_eqb n b then a else n.

Lemma merge_fixes a b n : n <> b -> merge a b n = n.
Proof. intros H. unfold merge. rewrite (proj2 (P_Ord.str_eqb_neq n b) H). reflexivity. Qed.
Lemma merge_class (P : str -> Prop) a b : (P a <-> P b) -> forall n, P (merge a b n) <-> P n.
Proof. intros E n. unfold merge. destruct (str_eqb n b) eqn:H; [apply P_Ord.str_eqb_eq in H; subst; exact E|reflexivity]. Qed.

Lemma not_variable n : match n with 63%N :: _ :: _ => False | _ => True end -> ~ variable_name n.
Proof. intros H (r & -> & N). destruct r; [congruence|exact H]. Qed.

Ltac not_reserved := intros X; unfold reserved in X; cbn in X; repeat destruct X as [X|X]; try discriminate X; contradiction.

Theorem C113_conditions :
  (exists f, ~ injective f /\ (forall n, reserved n -> f n = n) /\ (forall n, variable_name (f n) <-> variable_name n)
     /\ (forall n, storable (f n) <-> storable n) /\ breaks mem_impl mem_new f)
  /\ (exists f, injective f /\ ~ (forall n, reserved n -> f n = n) /\ (forall n, variable_name (f n) <-> variable_name n)
     /\ (forall n, storable (f n) <-> storable n) /\ breaks mem_impl mem_new f)
  /\ (exists f, injective f /\ (forall n, reserved n -> f n = n) /\ ~ (forall n, variable_name (f n) <-> variable_name n)
     /\ (forall n, storable (f n) <-> storable n) /\ breaks mem_impl mem_new f)
  /\ (exists f, injective f /\ (forall n, reserved n -> f n = n) /\ (forall n, variable_name (f n) <-> variable_name n)
     /\ ~ (forall n, storable (f n) <-> storable n) /\ breaks heed_impl heed_new f).
Proof.
  assert (St : forall n : string, (0 < List.length (utf8 (lit n)))%nat -> (N.of_nat (List.length (utf8 (lit n))) <= 511)%N -> storable (lit n)) by (split; assumption).
  split; [|split; [|split]].
  - exists (merge (lit "a") (lit "b")). split; [|split; [|split; [|split]]].
    + intros H. specialize (H (lit "a") (lit "b") ltac:(vm_compute; reflexivity)). discriminate H.
    + intros n H. apply merge_fixes. intros ->. revert H. not_reserved.
    + apply merge_class. split; intros X; exfalso; revert X; apply not_variable; exact Logic.I.
    + apply merge_class. split; intros _; apply St; vm_compute; try reflexivity; try discriminate; lia.
    + exists (lit "assert-equal a b"), (lit "assert-equal a a"). split; [ren_check|]. intros X. vm_compute in X. inversion X.
  - exists (swap (lit "id") (lit "ignore")). split; [|split; [|split; [|split]]].
    + apply swap_injective.
    + intros H. specialize (H (lit "id") ltac:(left; vm_compute; tauto)). vm_compute in H. discriminate H.
    + apply swap_class. split; intros X; exfalso; revert X; apply not_variable; exact Logic.I.
    + apply swap_class. split; intros _; apply St; vm_compute; try reflexivity; try discriminate; lia.
    + exists (lit "id a"), (lit "ignore a"). split; [ren_check|]. intros X. vm_compute in X. inversion X as [? ? H| |]; subst. inversion H.
  - exists (swap (lit "x") (lit "?x")). split; [|split; [|split; [|split]]].
    + apply swap_injective.
    + apply swap_fixes; not_reserved.
    + intros H. apply (not_variable (lit "x") Logic.I). apply H. rewrite swap_l. exists (lit "x"). split; [reflexivity|discriminate].
    + apply swap_class. split; intros _; apply St; vm_compute; try reflexivity; try discriminate; lia.
    + exists (lit "let n {x b c}, filter n x b c"), (lit "let n {""?x"" b c}, filter n ""?x"" b c"). split; [ren_check|]. intros X. vm_compute in X. inversion X.
  - exists (swap (lit "n") (lit "")). split; [|split; [|split; [|split]]].
    + apply swap_injective.
    + apply swap_fixes; not_reserved.
    + apply swap_class. split; intros X; exfalso; revert X; apply not_variable; exact Logic.I.
    + intros H. assert (X : storable (lit "")).
      { apply (H (lit "")). rewrite swap_r. apply St; vm_compute; try lia; discriminate. }
      exact (Nat.lt_irrefl _ (proj1 X)).
    + exists (lit "let n {}"), (lit "let """" {}"). split; [ren_check|]. intros X. vm_compute in X. inversion X.
Qed.
Print Assumptions C113_conditions.

(** A renaming at work: a becomes z and z becomes a. *)
Definition ox_script : str := lit "let a {a b z}, assert-equal (read a) {z : a}".
Definition ox_renamed : str := lit "let z {z b a}, assert-equal (read z) {a : z}".

Example C113_case : renaming Lmdb (swap (lit "a") (lit "z"))
  /\ ren_text (swap (lit "a") (lit "z")) ox_script ox_renamed
  /\ ren_world (swap (lit "a") (lit "z")) empty_world empty_world
  /\ fst (grun ox_script mem_new) = Err (WErr (lit "Assertion failed, {""a"" ""b"" ""z""} != {""z"" : ""a""}"))
  /\ fst (grun ox_renamed mem_new) = Err (WErr (lit "Assertion failed, {""z"" ""b"" ""a""} != {""a"" : ""z""}")).
Proof.
  split; [|split; [|split; [|split]]].
  - apply C113_swaps; try not_reserved.
    + split; intros X; exfalso; revert X; apply not_variable; exact Logic.I.
    + intros _. split; intros _; split; vm_compute; try lia; discriminate.
  - ren_check.
  - intros n. exact Logic.I.
  - vm_compute. reflexivity.
  - vm_compute. reflexivity.
Qed.
