(** * Running a table of commands: proofs *)
From Coq Require Import List Arith NArith Bool String Permutation Lia.
From Verif Require Import M_Base M_Data M_Regex M_Lexer M_Graph M_Parser M_Display M_Interp M_Conc M_Commands S_Interp S_Commands P_Parser P_Interp P_InterpMore.
Import ListNotations.
Open Scope list_scope.

(** ** Tables *)
Lemma find_cmd_iff cs n x : no_name_twice cs -> (find_cmd cs n = Some x <-> In (n, x) cs).
Proof.
  unfold no_name_twice. induction cs as [|[m d] cs IH]; simpl; intros Ht; [split; [discriminate|intros []]|].
  inversion Ht as [|? ? N T]; subst. destruct (str_eqb m n) eqn:E.
  - apply str_eqb_eq in E. subst m. split.
    + intros [= ->]. left. reflexivity.
    + intros [[= ->]|K]; [reflexivity|]. destruct N. apply (in_map fst) in K. exact K.
  - rewrite (IH T). split; [auto|]. intros [[= -> ->]|K]; [|exact K]. rewrite (proj2 (str_eqb_eq n n) eq_refl) in E. discriminate.
Qed.

Lemma find_cmd_none cs n : find_cmd cs n = None <-> forall x, ~ In (n, x) cs.
Proof.
  induction cs as [|[m d] cs IH]; simpl; [split; [intros _ x []|reflexivity]|]. destruct (str_eqb m n) eqn:E.
  - apply str_eqb_eq in E. subst m. split; [discriminate|]. intros H. destruct (H d). left. reflexivity.
  - rewrite IH. split.
    + intros H x [[= -> ->]|K]; [rewrite (proj2 (str_eqb_eq n n) eq_refl) in E; discriminate|exact (H x K)].
    + intros H x K. exact (H x (or_intror K)).
Qed.

Scheme runs_to_ind' := Induction for runs_to Sort Prop
  with call_to_ind' := Induction for call_to Sort Prop
  with goes_to_ind' := Induction for goes_to Sort Prop.
Combined Scheme to_ind from runs_to_ind', call_to_ind', goes_to_ind'.

Lemma panicked_iff q a w : panicked q a w <-> ans_panic q a = Some w.
Proof.
  destruct q; cbn in *; destruct a as [?|?|?]; cbn; split; intros H; try discriminate; try (injection H as <-; reflexivity); subst; reflexivity.
Qed.

Section Eq.
  Context {St : Type} (L : lig_impl St) (cs : table) (Ht : no_name_twice cs).

  Definition more (rc rc' : list call -> St -> option (wres value * St)) : Prop :=
    forall calls st x, rc calls st = Some x -> rc' calls st = Some x.

  Lemma body_more rc rc' : more rc rc' -> forall b st x, body_run L rc b st = Some x -> body_run L rc' b st = Some x.
  Proof.
    intros M. induction b as [r|q k IH|calls k IH]; intros st x; cbn [body_run].
    - auto.
    - destruct (perform L q st) as [a st']. destruct (ans_panic q a); [auto|apply IH].
    - destruct (rc calls st) as [[[v|e|w] st']|] eqn:E; [| | |discriminate]; rewrite (M _ _ _ E); auto.
  Qed.

  Lemma calls_more rc rc' : more rc rc' -> forall calls res st x, calls_run L cs rc calls res st = Some x -> calls_run L cs rc' calls res st = Some x.
  Proof.
    intros M. induction calls as [|c rest IH]; intros res st x; cbn [calls_run]; [auto|].
    destruct (find_cmd cs (el_name (c_name c))) as [y|]; [|auto].
    destruct (body_run L rc (cmd_does y (listing cs) (c_args c)) st) as [[[v|e|w] st']|] eqn:E; [| | |discriminate]; rewrite (body_more _ _ M _ _ _ E); auto.
  Qed.

  Lemma deep_S n : more (run_deep L cs n) (run_deep L cs (S n)).
  Proof.
    induction n as [|n IH]; intros calls st x; [discriminate|]. cbn [run_deep] in *. apply calls_more. exact IH.
  Qed.

  Lemma deep_more n m : n <= m -> more (run_deep L cs n) (run_deep L cs m).
  Proof. induction 1 as [|m _ IH]; intros calls st x E; [exact E|]. apply deep_S, IH, E. Qed.

  (** From runs to the interpreter. *)
  Lemma calls_run_res rc c rest : forall r1 r2 st, rest = c :: tl rest -> calls_run L cs rc rest r1 st = calls_run L cs rc rest r2 st.
  Proof. intros r1 r2 st ->. reflexivity. Qed.

  Lemma to_deep :
    (forall calls st r st', runs_to L cs calls st r st' -> exists n, run_deep L cs (S n) calls st = Some (r, st'))
    /\ (forall c st r st', call_to L cs c st r st' -> exists n, match find_cmd cs (el_name (c_name c)) with
          | None => r = Err (WErr (lit "Could not find command: " ++ el_name (c_name c))) /\ st' = st
          | Some x => body_run L (run_deep L cs n) (cmd_does x (listing cs) (c_args c)) st = Some (r, st') end)
    /\ (forall b st r st', goes_to L cs b st r st' -> exists n, body_run L (run_deep L cs n) b st = Some (r, st')).
  Proof.
    apply (to_ind St L cs
      (fun calls st r st' _ => exists n, run_deep L cs (S n) calls st = Some (r, st'))
      (fun c st r st' _ => exists n, match find_cmd cs (el_name (c_name c)) with
          | None => r = Err (WErr (lit "Could not find command: " ++ el_name (c_name c))) /\ st' = st
          | Some x => body_run L (run_deep L cs n) (cmd_does x (listing cs) (c_args c)) st = Some (r, st') end)
      (fun b st r st' _ => exists n, body_run L (run_deep L cs n) b st = Some (r, st'))).
    - intros st. exists 0. reflexivity.
    - intros c st r st' _ [n E]. exists n. cbn [run_deep calls_run]. destruct (find_cmd cs (el_name (c_name c))) as [x|].
      + rewrite E. destruct r; reflexivity.
      + destruct E as [-> ->]. reflexivity.
    - intros c rest st v st1 r st' _ [n E] N _ [m F]. exists (Nat.max n m). cbn [run_deep calls_run] in *.
      destruct (find_cmd cs (el_name (c_name c))) as [x|]; [|destruct E; discriminate].
      rewrite (body_more _ _ (deep_more n (Nat.max n m) (Nat.le_max_l n m)) _ _ _ E).
      destruct rest as [|d rest]; [destruct (N eq_refl)|].
      apply (calls_more _ _ (deep_more m (Nat.max n m) (Nat.le_max_r n m))) in F. rewrite <- F. reflexivity.
    - intros c rest st r st' _ [n E] FL. exists n. cbn [run_deep calls_run]. destruct (find_cmd cs (el_name (c_name c))) as [x|].
      + rewrite E. destruct r as [v|e|w]; [destruct (FL v eq_refl)|reflexivity|reflexivity].
      + destruct E as [-> ->]. reflexivity.
    - intros c st N. exists 0. rewrite (proj2 (find_cmd_none cs _) N). split; reflexivity.
    - intros c x st r st' I _ [n E]. exists n. rewrite (proj2 (find_cmd_iff cs _ x Ht) I). exact E.
    - intros r st. exists 0. reflexivity.
    - intros q k st a st1 r st' E N _ [n F]. exists n. cbn [body_run]. rewrite E. destruct (ans_panic q a) eqn:P; [destruct (N _ (proj2 (panicked_iff q a _) P))|exact F].
    - intros q k st a st1 w E P. exists 0. cbn [body_run]. rewrite E. apply panicked_iff in P. rewrite P. reflexivity.
    - intros calls k st v st1 r st' _ [n E] _ [m F]. exists (Nat.max (S n) m). cbn [body_run].
      rewrite (deep_more (S n) (Nat.max (S n) m) (Nat.le_max_l _ _) _ _ _ E). exact (body_more _ _ (deep_more m _ (Nat.le_max_r _ _)) _ _ _ F).
    - intros calls k st e st1 r st' _ [n E] _ [m F]. exists (Nat.max (S n) m). cbn [body_run].
      rewrite (deep_more (S n) (Nat.max (S n) m) (Nat.le_max_l _ _) _ _ _ E). exact (body_more _ _ (deep_more m _ (Nat.le_max_r _ _)) _ _ _ F).
    - intros calls k st w st1 _ [n E]. exists (S n). cbn [body_run]. rewrite E. reflexivity.
  Qed.

  (** And back. *)
  Lemma body_to rc : (forall calls st r st', rc calls st = Some (r, st') -> runs_to L cs calls st r st') ->
    forall b st r st', body_run L rc b st = Some (r, st') -> goes_to L cs b st r st'.
  Proof.
    intros H. induction b as [r0|q k IH|calls k IH]; intros st r st'; cbn [body_run].
    - intros [= <- <-]. constructor.
    - destruct (perform L q st) as [a st1] eqn:E. destruct (ans_panic q a) as [w|] eqn:P.
      + intros [= <- <-]. apply (gt_ask_panic _ _ _ _ _ _ _ _ E (proj2 (panicked_iff q a w) P)).
      + intros F. apply (gt_ask _ _ _ _ _ _ _ _ _ E); [intros w K; apply panicked_iff in K; congruence|exact (IH _ _ _ _ F)].
    - destruct (rc calls st) as [[[v|e|w] st1]|] eqn:E; [| | |discriminate]; intros F.
      + apply (gt_run_ok _ _ _ _ _ _ _ _ _ (H _ _ _ _ E)). exact (IH _ _ _ _ F).
      + apply (gt_run_err _ _ _ _ _ _ _ _ _ (H _ _ _ _ E)). exact (IH _ _ _ _ F).
      + injection F as <- <-. exact (gt_run_panic _ _ _ _ _ _ _ (H _ _ _ _ E)).
  Qed.

  Lemma calls_to rc : (forall calls st r st', rc calls st = Some (r, st') -> runs_to L cs calls st r st') ->
    forall calls res st r st', calls_run L cs rc calls res st = Some (r, st') ->
      match calls with [] => r = Ok res /\ st' = st | _ => runs_to L cs calls st r st' end.
  Proof.
    intros H. induction calls as [|c rest IH]; intros res st r st'; cbn [calls_run]; [intros [= <- <-]; auto|].
    destruct (find_cmd cs (el_name (c_name c))) as [x|] eqn:F.
    - apply (find_cmd_iff cs _ _ Ht) in F. destruct (body_run L rc (cmd_does x (listing cs) (c_args c)) st) as [[[v|e|w] st1]|] eqn:E; [| | |discriminate];
        apply (body_to _ H) in E.
      + intros G. apply IH in G. destruct rest as [|d rest].
        * destruct G as [-> ->]. apply rt_last. exact (ct_known _ _ _ _ _ _ _ F E).
        * apply (rt_more _ _ _ _ _ v st1); [exact (ct_known _ _ _ _ _ _ _ F E)|discriminate|exact G].
      + intros [= <- <-]. apply rt_stop; [exact (ct_known _ _ _ _ _ _ _ F E)|intros v; discriminate].
      + intros [= <- <-]. apply rt_stop; [exact (ct_known _ _ _ _ _ _ _ F E)|intros v; discriminate].
    - intros [= <- <-]. apply rt_stop; [apply ct_unknown, find_cmd_none, F|intros v; discriminate].
  Qed.

  Lemma deep_to n : forall calls st r st', run_deep L cs n calls st = Some (r, st') -> runs_to L cs calls st r st'.
  Proof.
    induction n as [|n IH]; intros calls st r st'; [discriminate|]. cbn [run_deep]. intros E. apply (calls_to _ IH) in E.
    destruct calls as [|c rest]; [destruct E as [-> ->]; constructor|exact E].
  Qed.

  Lemma to_iff calls st r st' : runs_to L cs calls st r st' <-> exists n, run_deep L cs n calls st = Some (r, st').
  Proof.
    split; [intros H; destruct (proj1 to_deep _ _ _ _ H) as [n E]; eauto|intros [n E]; exact (deep_to _ _ _ _ _ E)].
  Qed.

  Lemma to_unique calls st r1 s1 r2 s2 : runs_to L cs calls st r1 s1 -> runs_to L cs calls st r2 s2 -> r1 = r2 /\ s1 = s2.
  Proof.
    rewrite !to_iff. intros [n E] [m F]. apply (deep_more n (Nat.max n m) (Nat.le_max_l _ _)) in E. apply (deep_more m (Nat.max n m) (Nat.le_max_r _ _)) in F.
    rewrite E in F. injection F. auto.
  Qed.
End Eq.

(** ** Depth *)
Lemma depths_in v l : In v l -> depth v <= depths l.
Proof.
  induction l as [|x l IH]; [intros []|]. change (depths (x :: l)) with (Nat.max (depth x) (depths l)).
  intros [->|H]; [lia|]. specialize (IH H). lia.
Qed.

Lemma depth_quote q : depth (VQuote q) = S (depths q).
Proof. reflexivity. Qed.

Lemma inside_depth v l : inside v l -> depth v <= depths l.
Proof.
  induction 1 as [l H|l q H _ IH]; [exact (depths_in _ _ H)|]. pose proof (depths_in _ _ H) as K. rewrite depth_quote in K. lia.
Qed.

Definition calls_depth (calls : list call) : nat := fold_right (fun c n => Nat.max (depths (c_args c)) n) 0 calls.

Section Ends.
  Context {St : Type} (L : lig_impl St) (cs : table).

  Lemma body_ends args rc b : keeps_to args b ->
    (forall n qargs st, inside (VQuote (VElement n :: qargs)) args -> exists x, rc [Call n qargs] st = Some x) ->
    forall st, exists x, body_run L rc b st = Some x.
  Proof.
    intros K H. induction K as [r|q k _ IH|n qargs k I _ IH]; intros st; cbn [body_run].
    - eauto.
    - destruct (perform L q st) as [a st']. destruct (ans_panic q a); [eauto|apply IH].
    - destruct (H n qargs st I) as [[[v|e|w] st'] E]; rewrite E; [apply IH|apply IH|eauto].
  Qed.

  Lemma deep_ends : (forall n x, In (n, x) cs -> modest x) -> no_name_twice cs ->
    forall n calls st, calls_depth calls <= n -> exists x, run_deep L cs (S n) calls st = Some x.
  Proof.
    intros M Ht. induction n as [|n IH]; intros calls st D; match goal with |- context [run_deep L cs (S ?k) calls st] => change (run_deep L cs (S k) calls st) with (calls_run L cs (run_deep L cs k) calls unit_value st) end.
    - generalize unit_value as res. revert st D. induction calls as [|c rest IHc]; intros st D res; [eexists; reflexivity|]. cbn [calls_run].
      cbn [calls_depth fold_right] in D. change (fold_right _ 0 rest) with (calls_depth rest) in D.
      destruct (find_cmd cs (el_name (c_name c))) as [x|] eqn:F; [|eauto]. apply (find_cmd_iff cs _ _ Ht) in F.
      destruct (body_ends (c_args c) (run_deep L cs 0) _ (M _ _ F (listing cs) (c_args c))) with (st := st) as [[[v|e|w] st'] E].
      + intros m qargs s I. apply inside_depth in I. rewrite depth_quote in I. lia.
      + rewrite E. apply IHc. lia.
      + rewrite E. eauto.
      + rewrite E. eauto.
    - generalize unit_value as res. revert st D. induction calls as [|c rest IHc]; intros st D res; [eexists; reflexivity|]. cbn [calls_run].
      cbn [calls_depth fold_right] in D. change (fold_right _ 0 rest) with (calls_depth rest) in D.
      destruct (find_cmd cs (el_name (c_name c))) as [x|] eqn:F; [|eauto]. apply (find_cmd_iff cs _ _ Ht) in F.
      destruct (body_ends (c_args c) (run_deep L cs (S n)) _ (M _ _ F (listing cs) (c_args c))) with (st := st) as [[[v|e|w] st'] E].
      + intros m qargs s I. apply inside_depth in I. rewrite depth_quote in I. apply IH. cbn [calls_depth fold_right c_args].
        change (depths (VElement m :: qargs)) with (Nat.max 0 (depths qargs)) in I. lia.
      + rewrite E. apply IHc. lia.
      + rewrite E. eauto.
      + rewrite E. eauto.
  Qed.
End Ends.

(** ** The prelude is the interpreter of [M_Interp] *)
Section Prelude.
  Context {St : Type} (L : lig_impl St).

  (** The function of [common] behind each entry of the prelude. *)
  Lemma prelude_get n : match cmd_get (@common St) n with
    | None => find_cmd prelude n = None
    | Some c => exists x, find_cmd prelude n = Some x
        /\ cmd_does x = match cmd_fun_of c with
             | FAssertEqual => b_assert_equal | FAssertFail => b_assert_fail | FIgnore => b_ignore | FLet => b_let
             | FRead => b_read | FId => b_id | FDocs => b_docs | FUnion => b_union | FFilter => b_filter
             | FHost _ => b_id end
        /\ forall f, cmd_fun_of c <> FHost f
    end.
  Proof.
    unfold common, prelude. cbn [cmd_get find_cmd].
    repeat (match goal with |- context [str_eqb ?a n] => destruct (str_eqb a n) end; [eexists; split; [reflexivity|split; [reflexivity|discriminate]]|]).
    reflexivity.
  Qed.

  Lemma prelude_listing : listing prelude = map (fun nc => (fst nc, cmd_doc (snd nc))) (@common St).
  Proof. reflexivity. Qed.

  Definition agrees n := forall calls res st, calls_depth calls <= n ->
    calls_run L prelude (run_deep L prelude n) calls res st = Some (run_calls_loop L (run_quote_f L n common) common calls res st).

  Definition spec n (q : list value) (st : St) : wres value * St := run_quote_f L n common q st.

  Lemma quote_agrees n (A : forall m, m < n -> agrees m) q k st : S (depths q) <= n ->
    body_run L (run_deep L prelude n) (quote_then q k) st
    = match run_quote_f L n common q st with
      | (Ok v, st') => body_run L (run_deep L prelude n) (k (inl v)) st'
      | (Err e, st') => body_run L (run_deep L prelude n) (k (inr e)) st'
      | (Panic w, st') => Some (Panic w, st')
      end.
  Proof.
    intros D. destruct n as [|n]; [lia|]. destruct q as [|v args]; [reflexivity|]. destruct v as [e|q|nw]; [|reflexivity|reflexivity].
    cbn [quote_then]. cbn [body_run]. change (run_deep L prelude (S n) [Call e args] st) with (calls_run L prelude (run_deep L prelude n) [Call e args] unit_value st).
    rewrite (A n (Nat.lt_succ_diag_r n)).
    - cbn [run_quote_f]. destruct (run_calls_loop L (run_quote_f L n common) common [Call e args] unit_value st) as [[v|x|w] st']; reflexivity.
    - change (depths (VElement e :: args)) with (Nat.max 0 (depths args)) in D. cbn [calls_depth fold_right c_args]. lia.
  Qed.

  Lemma store_agrees rc name nw st : body_run L rc (store_body name nw) st = Some (let_store L name nw st).
  Proof.
    unfold store_body, let_store. cbn [body_run perform ans_panic]. destruct (l_add_collection L st name) as [[u|e|w] st1]; cbn [res_panic]; [| |reflexivity];
      (destruct (l_add_entries L st1 name nw) as [[[u2|e2|w2] st2] n2]; reflexivity).
  Qed.

  Lemma agrees_all n : agrees n.
  Proof.
    induction n as [n IHn] using (well_founded_induction lt_wf).
    intros calls. induction calls as [|c rest IH]; intros res st D; [reflexivity|].
    cbn [calls_depth fold_right] in D. change (fold_right _ 0 rest) with (calls_depth rest) in D.
    cbn [calls_run run_calls_loop]. pose proof (prelude_get (el_name (c_name c))) as G.
    destruct (cmd_get common (el_name (c_name c))) as [y|]; [|rewrite G; reflexivity].
    destruct G as (x & -> & E & N). rewrite E.
    assert (B : body_run L (run_deep L prelude n)
        (match cmd_fun_of y with
             | FAssertEqual => b_assert_equal | FAssertFail => b_assert_fail | FIgnore => b_ignore | FLet => b_let
             | FRead => b_read | FId => b_id | FDocs => b_docs | FUnion => b_union | FFilter => b_filter
             | FHost _ => b_id end (listing prelude) (c_args c)) st
        = Some (exec L (run_quote_f L n common) common (cmd_fun_of y) (c_args c) st)).
    { assert (Dc : depths (c_args c) <= n) by lia. revert Dc. generalize (c_args c) as args. clear - N IHn. intros args Dc.
      destruct (cmd_fun_of y) as [| | | | | | | | |f] eqn:F; cbn [exec].
      - unfold b_assert_equal, assert_equal_command. destruct args as [|l [|r [|z args]]]; try reflexivity.
        pose proof (depths_in l [l; r] (or_introl eq_refl)) as Dl. pose proof (depths_in r [l; r] (or_intror (or_introl eq_refl))) as Dr.
        assert (V : forall v k s, depth v <= n -> body_run L (run_deep L prelude n) (value_then v k) s
          = match (match v with VQuote q => run_quote_f L n common q s | v => (Ok v, s) end) with
            | (Ok x, s') => body_run L (run_deep L prelude n) (k x) s'
            | (Err e, s') => Some (Err e, s')
            | (Panic w, s') => Some (Panic w, s') end).
        { intros v k s Dv. destruct v as [e|q|nw]; [reflexivity| |reflexivity]. cbn [value_then]. rewrite (quote_agrees n IHn); [|exact Dv].
          destruct (run_quote_f L n common q s) as [[v|e|w] s']; reflexivity. }
        rewrite V by lia. destruct (match l with VQuote q => run_quote_f L n common q st | v => (Ok v, st) end) as [[lv|e|w] st1]; try reflexivity.
        rewrite V by lia. destruct (match r with VQuote q => run_quote_f L n common q st1 | v => (Ok v, st1) end) as [[rv|e|w] st2]; try reflexivity.
        cbn [body_run]. destruct (value_eqb lv rv); reflexivity.
      - unfold b_assert_fail, assert_fail_command. destruct args as [|l [|z args]]; try reflexivity; [|destruct l; reflexivity]. destruct l as [e|q|nw]; try reflexivity.
        rewrite (quote_agrees n IHn); [|exact (Nat.le_trans _ _ _ (depths_in (VQuote q) [VQuote q] (or_introl eq_refl)) Dc)].
        destruct (run_quote_f L n common q st) as [[v|e|w] st']; reflexivity.
      - reflexivity.
      - unfold b_let, let_command. destruct args as [|a [|b [|z args]]]; try reflexivity; [destruct a; reflexivity| |destruct a; try reflexivity; destruct b; reflexivity].
        destruct a as [name| |]; try reflexivity. destruct b as [e|q|nw]; [reflexivity| |apply store_agrees].
        rewrite (quote_agrees n IHn); [|exact (Nat.le_trans _ _ _ (depths_in (VQuote q) [VElement name; VQuote q] (or_intror (or_introl eq_refl))) Dc)].
        destruct (run_quote_f L n common q st) as [[v|e|w] st']; try reflexivity. destruct v as [e|q'|nw]; [reflexivity|reflexivity|apply store_agrees].
      - unfold b_read, read_command. destruct args as [|a [|z args]]; try reflexivity; [|destruct a; reflexivity]. destruct a as [name| |]; try reflexivity.
        cbn [body_run perform ans_panic]. destruct (l_entries L st name); reflexivity.
      - unfold b_id, id_command. destruct args as [|a [|z args]]; reflexivity.
      - unfold b_docs, docs_command. destruct args as [|a args]; reflexivity.
      - unfold b_union, union_command. destruct args as [|l [|r [|z args]]]; try reflexivity. destruct l; try reflexivity. destruct r; reflexivity.
      - unfold b_filter, filter_command. destruct args as [|a1 [|a2 [|a3 [|a4 [|z args]]]]]; try reflexivity; destruct a1; try reflexivity; destruct a2; try reflexivity; destruct a3; try reflexivity; destruct a4; try reflexivity.
        cbn [body_run perform ans_panic]. match goal with |- context [l_filter L st ?c ?p] => destruct (l_filter L st c p) end; reflexivity.
      - destruct (N f eq_refl). }
    rewrite B. destruct (exec L (run_quote_f L n common) common (cmd_fun_of y) (c_args c) st) as [[v|e|w] st']; try reflexivity. apply IH. lia.
  Qed.
End Prelude.

Section PreludeRun.
  Context {St : Type} (L : lig_impl St).

  Lemma prelude_calls calls st : run_deep L prelude (S (calls_depth calls)) calls st = Some (run_calls L common calls st).
  Proof.
    change (run_deep L prelude (S (calls_depth calls)) calls st) with (calls_run L prelude (run_deep L prelude (calls_depth calls)) calls unit_value st).
    rewrite (agrees_all L _ calls unit_value st (Nat.le_refl _)). unfold run_calls. f_equal.
    assert (D : forall c, In c calls -> depths (c_args c) <= calls_depth calls).
    { clear. induction calls as [|c rest IH]; [intros c []|]. cbn [calls_depth fold_right]. change (fold_right _ 0 rest) with (calls_depth rest).
      intros d [->|H]; [lia|]. specialize (IH d H). lia. }
    revert D. generalize (calls_depth calls) as n. intros n. generalize unit_value as res. revert st.
    induction calls as [|c rest IH]; intros st res D; [reflexivity|]. cbn [run_calls_loop].
    destruct (cmd_get common (el_name (c_name c))) as [y|]; [|reflexivity].
    rewrite (exec_ext L common (run_quote_f L n common) (run_quote L common) (cmd_fun_of y) (c_args c) st).
    - destruct (exec L (run_quote L common) common (cmd_fun_of y) (c_args c) st) as [[v|e|w] st']; try reflexivity. apply IH. intros d H. apply D. right. exact H.
    - intros q s I. apply (fuel_irrelevant L common common_table). pose proof (depths_in _ _ I) as K. rewrite depth_quote in K. specialize (D c (or_introl eq_refl)). lia.
  Qed.

  Lemma prelude_script script st : exists n, script_deep L prelude n script st = Some (run L common script st).
  Proof.
    unfold script_deep, run. destruct (tokenize_and_filter script) as [ts|e|w]; [|exists 0; reflexivity|exists 0; reflexivity].
    destruct (parse ts) as [calls|e|w]; [|exists 0; reflexivity|exists 0; reflexivity]. eexists. apply prelude_calls.
  Qed.
End PreludeRun.

(** ** The commands of the prelude keep to their arguments *)
Lemma keeps_quote args q k : In (VQuote q) args -> (forall a, keeps_to args (k a)) -> keeps_to args (quote_then q k).
Proof.
  intros I K. destruct q as [|v q]; [apply K|]. destruct v as [e|q'|n]; [|constructor|constructor]. cbn [quote_then]. constructor; [|exact K]. apply in_here. exact I.
Qed.

Lemma keeps_value args v k : In v args -> (forall a, keeps_to args (k a)) -> keeps_to args (value_then v k).
Proof.
  intros I K. destruct v as [e|q|n]; [apply K| |apply K]. cbn [value_then]. apply keeps_quote; [exact I|]. intros [x|e]; [apply K|constructor].
Qed.

Lemma keeps_store args c n : keeps_to args (store_body c n).
Proof. unfold store_body. constructor. intros a. constructor. intros b. constructor. Qed.

Lemma prelude_modest n x : In (n, x) prelude -> modest x.
Proof.
  intros I l args. unfold prelude in I.
  repeat (destruct I as [I|I]; [injection I as _ <-; cbn [cmd_does]|]); [| | | | | | | | |destruct I].
  - unfold b_assert_equal. destruct args as [|a [|b [|z args]]]; try constructor. apply keeps_value; [left; reflexivity|]. intros lv. apply keeps_value; [right; left; reflexivity|]. intros rv. constructor.
  - unfold b_assert_fail. destruct args as [|a [|z args]]; [constructor| |destruct a; constructor]. destruct a as [e|q|nw]; try constructor. apply keeps_quote; [left; reflexivity|]. intros r. constructor.
  - constructor.
  - unfold b_let. destruct args as [|a [|b [|z args]]]; try constructor; try (destruct a; constructor); try (destruct a; try constructor; destruct b; constructor).
    destruct a as [c| |]; try constructor. destruct b as [e|q|nw]; [constructor| |apply keeps_store]. apply keeps_quote; [right; left; reflexivity|].
    intros [v|e]; [|constructor]. destruct v; [constructor|constructor|apply keeps_store].
  - unfold b_read. destruct args as [|a [|z args]]; [constructor| |destruct a; constructor]. destruct a; constructor. intros r. constructor.
  - constructor.
  - constructor.
  - constructor.
  - unfold b_filter. destruct args as [|a1 [|a2 [|a3 [|a4 [|z args]]]]]; try constructor; destruct a1; try constructor; destruct a2; try constructor; destruct a3; try constructor; destruct a4; try constructor. intros r. constructor.
Qed.

Lemma prelude_looks_away n x : In (n, x) prelude -> n <> lit "docs" -> looks_away x.
Proof.
  intros I N l l' args. unfold prelude in I.
  repeat (destruct I as [I|I]; [injection I as E <-; cbn [cmd_does]; try reflexivity|]); [|destruct I]. destruct (N (eq_sym E)).
Qed.

Lemma prelude_table : no_name_twice prelude.
Proof. exact (@common_table unit). Qed.

(** ** Other tables *)
Lemma inside_trans v q l : inside (VQuote q) l -> inside v q -> inside v l.
Proof. intros H. remember (VQuote q) as u eqn:E. induction H as [l H|l p H _ IH]; subst u; intros K; [exact (in_deep _ _ _ H K)|exact (in_deep _ _ _ H (IH K))]. Qed.

Lemma inside_cons v u l : inside v l -> inside v (u :: l).
Proof. intros [? H|? q H K]; [apply in_here; right; exact H|apply (in_deep _ _ q); [right; exact H|exact K]]. Qed.

Lemma body_ext {St} (L : lig_impl St) args rc rc' b : keeps_to args b ->
  (forall n qargs st, inside (VQuote (VElement n :: qargs)) args -> rc [Call n qargs] st = rc' [Call n qargs] st) ->
  forall st, body_run L rc b st = body_run L rc' b st.
Proof.
  intros K H. induction K as [r|q k _ IH|n qargs k I _ IH]; intros st; cbn [body_run].
  - reflexivity.
  - destruct (perform L q st) as [a st']. destruct (ans_panic q a); [reflexivity|apply IH].
  - rewrite (H n qargs st I). destruct (rc' [Call n qargs] st) as [[[v|e|w] st']|]; try reflexivity; apply IH.
Qed.

Lemma body_ext_all {St} (L : lig_impl St) rc rc' b : (forall calls st, rc calls st = rc' calls st) ->
  forall st, body_run L rc b st = body_run L rc' b st.
Proof.
  intros H. induction b as [r|q k IH|calls k IH]; intros st; cbn [body_run].
  - reflexivity.
  - destruct (perform L q st) as [a st']. destruct (ans_panic q a); [reflexivity|apply IH].
  - rewrite (H calls st). destruct (rc' calls st) as [[[v|e|w] st']|]; try reflexivity; apply IH.
Qed.

Lemma find_cmd_some_in cs n x : find_cmd cs n = Some x -> In (n, x) cs.
Proof.
  induction cs as [|[m d] cs IH]; simpl; [discriminate|]. destruct (str_eqb m n) eqn:E; [|auto]. apply str_eqb_eq in E. subst m. intros [= ->]. left. reflexivity.
Qed.

Lemma find_cmd_agree cs cs' n : no_name_twice cs -> no_name_twice cs' -> (forall x, In (n, x) cs <-> In (n, x) cs') -> find_cmd cs n = find_cmd cs' n.
Proof.
  intros T T' H. destruct (find_cmd cs n) as [x|] eqn:E.
  - symmetry. apply (find_cmd_iff cs' n x T'), H, (find_cmd_iff cs n x T), E.
  - symmetry. apply find_cmd_none. intros x K. apply H in K. exact (proj1 (find_cmd_none cs n) E x K).
Qed.

Section Tables.
  Context {St : Type} (L : lig_impl St) (cs cs' : table) (T : no_name_twice cs) (T' : no_name_twice cs').

  Lemma deep_agree n : forall calls st,
    (forall m x, mentions calls m -> (In (m, x) cs <-> In (m, x) cs')) ->
    (forall m x, mentions calls m -> In (m, x) cs -> modest x /\ looks_away x) ->
    run_deep L cs n calls st = run_deep L cs' n calls st.
  Proof.
    induction n as [|n IH]; intros calls st A M; [reflexivity|].
    change (calls_run L cs (run_deep L cs n) calls unit_value st = calls_run L cs' (run_deep L cs' n) calls unit_value st).
    generalize unit_value as res. revert st. induction calls as [|c rest IHc]; intros st res; [reflexivity|]. cbn [calls_run].
    assert (Mn : mentions (c :: rest) (el_name (c_name c))) by (exists c; split; [left; reflexivity|left; reflexivity]).
    rewrite (find_cmd_agree cs cs' (el_name (c_name c)) T T' (fun x => A _ x Mn)).
    destruct (find_cmd cs' (el_name (c_name c))) as [x|] eqn:F; [|reflexivity].
    apply (find_cmd_iff cs' _ _ T') in F. apply (A _ _ Mn) in F. destruct (M _ _ Mn F) as [Mo Lo].
    rewrite (Lo (listing cs) (listing cs') (c_args c)). rewrite (body_ext L (c_args c) (run_deep L cs n) (run_deep L cs' n) _ (Mo _ _)).
    - destruct (body_run L (run_deep L cs' n) (cmd_does x (listing cs') (c_args c)) st) as [[[v|e|w] st']|]; try reflexivity.
      apply IHc; intros m y (d & I & H); [apply A|apply M]; exists d; (split; [right; exact I|exact H]).
    - intros m qargs s I. assert (Q : forall k, mentions [Call m qargs] k -> mentions (c :: rest) k).
      { intros k (d & [<-|[]] & [K|(e & p & K & Ek)]); exists c; (split; [left; reflexivity|]); right; [exists m, qargs; split; [exact I|exact K]|].
        exists e, p. split; [|exact Ek]. apply (inside_trans _ _ _ I). apply inside_cons. exact K. }
      apply IH; intros k y H; [apply A|apply M]; apply Q, H.
  Qed.

  Lemma deep_order (P : Permutation cs cs') :
    (forall n x l l' args, In (n, x) cs -> Permutation l l' -> cmd_does x l args = cmd_does x l' args) ->
    forall n calls st, run_deep L cs n calls st = run_deep L cs' n calls st.
  Proof.
    intros H. induction n as [|n IH]; intros calls st; [reflexivity|].
    change (calls_run L cs (run_deep L cs n) calls unit_value st = calls_run L cs' (run_deep L cs' n) calls unit_value st).
    generalize unit_value as res. revert st. induction calls as [|c rest IHc]; intros st res; [reflexivity|]. cbn [calls_run].
    assert (A : forall x, In (el_name (c_name c), x) cs <-> In (el_name (c_name c), x) cs')
      by (intros x; split; [apply (Permutation_in _ P)|apply (Permutation_in _ (Permutation_sym P))]).
    rewrite (find_cmd_agree cs cs' (el_name (c_name c)) T T' A).
    destruct (find_cmd cs' (el_name (c_name c))) as [x|] eqn:F; [|reflexivity]. apply (find_cmd_iff cs' _ _ T'), A in F.
    rewrite (H _ _ (listing cs) (listing cs') (c_args c) F (Permutation_map _ P)). rewrite (body_ext_all L (run_deep L cs n) (run_deep L cs' n) _ IH).
    destruct (body_run L (run_deep L cs' n) (cmd_does x (listing cs') (c_args c)) st) as [[[v|e|w] st']|]; try reflexivity. apply IHc.
  Qed.
End Tables.

(** ** Stores that answer alike *)
Section Alike.
  Context {S T : Type} (L : lig_impl S) (M : lig_impl T) (R : S -> T -> Prop) (A : answer_alike L M R) (cs : table).

  Definition alike_out (x : option (wres value * S)) (y : option (wres value * T)) : Prop :=
    match x, y with
    | None, None => True
    | Some (r, s), Some (r', t) => r = r' /\ R s t
    | _, _ => False
    end.

  Lemma body_alike rc rc' : (forall calls s t, R s t -> alike_out (rc calls s) (rc' calls t)) ->
    forall b s t, R s t -> alike_out (body_run L rc b s) (body_run M rc' b t).
  Proof.
    intros H. induction b as [r|q k IH|calls k IH]; intros s t E; cbn [body_run].
    - split; [reflexivity|exact E].
    - destruct (A q s t E) as [E1 E2]. destruct (perform L q s) as [a s']. destruct (perform M q t) as [b t']. cbn [fst snd] in *. subst b.
      destruct (ans_panic q a); [split; [reflexivity|exact E2]|apply IH; exact E2].
    - specialize (H calls s t E). destruct (rc calls s) as [[r s']|]; destruct (rc' calls t) as [[r' t']|]; try (destruct H; fail); [|exact I].
      destruct H as [<- E2]. destruct r as [v|e|w]; [apply IH, E2|apply IH, E2|split; [reflexivity|exact E2]].
  Qed.

  Lemma deep_alike n : forall calls s t, R s t -> alike_out (run_deep L cs n calls s) (run_deep M cs n calls t).
  Proof.
    induction n as [|n IH]; intros calls s t E; [exact I|].
    change (alike_out (calls_run L cs (run_deep L cs n) calls unit_value s) (calls_run M cs (run_deep M cs n) calls unit_value t)).
    generalize unit_value as res. revert s t E. induction calls as [|c rest IHc]; intros s t E res; [split; [reflexivity|exact E]|]. cbn [calls_run].
    destruct (find_cmd cs (el_name (c_name c))) as [x|]; [|split; [reflexivity|exact E]].
    pose proof (body_alike _ _ IH (cmd_does x (listing cs) (c_args c)) s t E) as B.
    destruct (body_run L (run_deep L cs n) (cmd_does x (listing cs) (c_args c)) s) as [[r s']|]; destruct (body_run M (run_deep M cs n) (cmd_does x (listing cs) (c_args c)) t) as [[r' t']|]; try (destruct B; fail); [|exact I].
    destruct B as [<- E2]. destruct r as [v|e|w]; [apply IHc, E2|split; [reflexivity|exact E2]|split; [reflexivity|exact E2]].
  Qed.
End Alike.
