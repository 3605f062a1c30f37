(** * Proofs about the host applications *)
From Coq Require Import List Arith NArith ZArith Bool String Lia Permutation.
From Verif Require Import M_Base M_Data M_Mem M_Graph M_Regex M_Lexer M_Parser M_Display M_Interp M_Hosts
  S_Order S_Store S_Graph S_Hosts P_Ord P_Hist P_Mem P_Graph P_InterpProps.
Import ListNotations.
Open Scope list_scope.

(** ** C55 *)
Lemma edge_order : is_order edge_cmp edge_lt.
Proof.
  pose (p := fun t => (e_source t, e_target t)).
  assert (O2 : is_order (fun x y : str * str => then_cmp (str_cmp (fst x) (fst y)) (str_cmp (snd x) (snd y)))
                 (fun x y => str_lt (fst x) (fst y) \/ (fst x = fst y /\ str_lt (snd x) (snd y)))).
  { apply pair_order; [apply str_order..|]. intros [] []; simpl; congruence. }
  exact (pair_order _ _ _ _ e_key p str_order O2
           ltac:(intros [] []; unfold p; simpl; congruence)).
Qed.

Definition edge_of (e : entry) : edge := Edge (role_name e) (subject e) (object e).

Lemma draws_iff e d : draws e d <-> d = edge_of e.
Proof. destruct d as [k s t]. unfold draws, edge_of. cbn. split; [intros (-> & -> & ->); reflexivity|intros E; injection E as -> -> ->; auto]. Qed.

Lemma step_eq g e : graphology_step g e =
  Graphology (bs_insert str_cmp (object e) (bs_insert str_cmp (subject e) (g_nodes g))) (bs_insert edge_cmp (edge_of e) (g_edges g)).
Proof. destruct e; reflexivity. Qed.

Lemma graph_loop es : forall g,
  is_set edge_lt (g_edges g) -> is_set str_lt (g_nodes g) ->
  let g' := fold_left graphology_step es g in
  is_set edge_lt (g_edges g') /\ is_set str_lt (g_nodes g')
  /\ (forall d, In d (g_edges g') <-> In d (g_edges g) \/ exists e, In e es /\ draws e d)
  /\ (forall v, In v (g_nodes g') <-> In v (g_nodes g) \/ exists e, In e es /\ (v = subject e \/ v = object e)).
Proof.
  induction es as [|e es IH]; intros g HE HN; cbn [fold_left].
  - split; [exact HE|]. split; [exact HN|]. split; intros x; (split; [auto|]); intros [H|(e & [] & _)]; exact H.
  - destruct (IH (graphology_step g e)) as (A & B & C & D); rewrite step_eq in *; cbn [g_edges g_nodes] in *.
    + apply (is_set_insert edge_order), HE.
    + apply (is_set_insert str_order), (is_set_insert str_order), HN.
    + split; [exact A|]. split; [exact B|]. split.
      * intros d. rewrite C, (in_bs_insert edge_order). split.
        -- intros [[->|H]|(e' & He & Hd)]; [right; exists e; split; [left; reflexivity|apply draws_iff; reflexivity]|auto|].
           right. exists e'. split; [right; exact He|exact Hd].
        -- intros [H|(e' & [<-|He] & Hd)]; [auto|apply draws_iff in Hd; auto|right; eauto].
      * intros v. rewrite D, !(in_bs_insert str_order). split.
        -- intros [[->|[->|H]]|(e' & He & Hd)]; [right; exists e; cbn; auto|right; exists e; cbn; auto|auto|].
           right. exists e'. split; [right; exact He|exact Hd].
        -- intros [H|(e' & [<-|He] & Hd)]; [auto|destruct Hd as [->| ->]; auto|right; eauto].
Qed.

Lemma graph_ok es : graph_of es (graph_to_graphology es).
Proof.
  destruct (graph_loop es (Graphology [] [])) as (A & B & C & D); [constructor..|]. fold (graph_to_graphology es) in *.
  split; [exact A|]. split; [exact B|]. split.
  - intros d. rewrite C. split; [intros [[]|H]; exact H|auto].
  - intros v. rewrite D. split.
    + intros [[]|(e & He & Hv)]. exists (edge_of e). split; [apply C; right; exists e; split; [exact He|apply draws_iff; reflexivity]|exact Hv].
    + intros (d & Hd & Hv). right. apply C in Hd as [[]|(e & He & Hd)]. apply draws_iff in Hd as ->. eauto.
Qed.

Lemma graph_of_unique es g g' : graph_of es g -> graph_of es g' -> g = g'.
Proof.
  intros (A & B & C & D) (A' & B' & C' & D').
  assert (E : g_edges g = g_edges g'). { apply (is_set_ext edge_order _ _ A A'). intros d. rewrite C, C'. reflexivity. }
  assert (N : g_nodes g = g_nodes g'). { apply (is_set_ext str_order _ _ B B'). intros d. rewrite D, D', E. reflexivity. }
  destruct g, g'. cbn in *. congruence.
Qed.

Lemma export_loop_ok {S} (lig : lig_impl S) st cs : forall acc,
  is_map (lt := str_lt) acc ->
  (forall c, In c cs -> exists l, l_entries lig st c = Ok l) ->
  exists m, export_loop lig st cs acc = Ok m /\ is_map (lt := str_lt) m
    /\ (forall name, In name (map fst m) <-> In name (map fst acc) \/ exists c, In c cs /\ el_name c = name)
    /\ (forall P : str -> graphology -> Prop, (forall name g, In (name, g) acc -> P name g) ->
        (forall c l, In c cs -> l_entries lig st c = Ok l -> P (el_name c) (graph_to_graphology l)) ->
        forall name g, In (name, g) m -> P name g).
Proof.
  induction cs as [|c cs IH]; intros acc HM Hr; cbn [export_loop].
  - exists acc. split; [reflexivity|]. split; [exact HM|]. split; [|auto].
    intros name. split; [auto|]. intros [H|(c & [] & _)]; exact H.
  - destruct (Hr c (or_introl eq_refl)) as [l El]. rewrite El.
    destruct (IH (bm_insert str_cmp (el_name c) (graph_to_graphology l) acc)) as (m & Em & Hm & Hk & HP).
    + apply (is_map_insert str_order), HM.
    + intros c' Hc. apply Hr. right; exact Hc.
    + exists m. split; [exact Em|]. split; [exact Hm|]. split.
      * intros name. rewrite Hk, (in_keys_insert str_order). split.
        -- intros [[->|H]|(c' & Hc & E)]; [right; exists c; cbn; auto|auto|right; exists c'; cbn; auto].
        -- intros [H|(c' & [<-|Hc] & E)]; [auto|auto|right; eauto].
      * intros P Ha Hc name g Hi. apply (HP P); [|intros c' l' Hc' El'; apply Hc; [right; exact Hc'|exact El']|exact Hi].
        intros name' g' Hi'. apply (in_map_insert str_order) in Hi' as [[-> ->]|[_ Hi']]; [|auto|exact HM].
        apply Hc; [left; reflexivity|exact El].
Qed.

Lemma mem_export h :
  let s := after mem_impl mem_new h in
  exists m, ligature_to_graphology glig s = Ok m
    /\ NoDup (map fst m)
    /\ (forall name, In name (map fst m) <-> has mem_impl s name)
    /\ (forall name g, In (name, g) m -> exists l, l_entries glig s (mkE name) = Ok l /\ graph_of l g).
Proof.
  intros s. unfold ligature_to_graphology. cbn [l_collections glig graph_impl]. unfold graph_collections.
  change (t_collections mem_impl s) with (Ok (map fst s) : tres (list str)). cbn [err_todo].
  destruct (export_loop_ok glig s (map mkE (map fst s)) []) as (m & Em & Hm & Hk & HP).
  - constructor.
  - intros c Hc. apply in_map_iff in Hc as (n & <- & Hn).
    destruct (proj2 (mem_readable s n)) as [l El]; [exists (map fst s); auto|].
    destruct (entries_spec mem_impl s (mkE n) l El) as (es & Ees & _). exists es. exact Ees.
  - exists m. split; [exact Em|]. split; [exact (is_set_NoDup str_order _ Hm)|]. split.
    + intros name. rewrite Hk. split.
      * intros [[]|(c & Hc & <-)]. apply in_map_iff in Hc as (n & <- & Hn). exists (map fst s). auto.
      * intros (l & El & Hi). injection El as <-. right. exists (mkE name). split; [apply in_map, Hi|reflexivity].
    + apply (HP (fun name g => exists l, l_entries glig s (mkE name) = Ok l /\ graph_of l g)); [intros name g []|].
      intros c l Hc El. exists l. apply in_map_iff in Hc as (n & <- & Hn). split; [exact El|apply graph_ok].
Qed.

Lemma grun_reach h script : exists h', snd (grun script (after mem_impl mem_new h)) = after mem_impl mem_new (h ++ h').
Proof.
  unfold grun, run. destruct (tokenize_and_filter script) as [ts|e|w]; try (exists []; rewrite app_nil_r; reflexivity).
  destruct (parse ts) as [calls|e|w]; try (exists []; rewrite app_nil_r; reflexivity).
  apply mem_reach_calls.
Qed.

Lemma wasm_ok script :
  match fst (grun script mem_new) with
  | Ok _ => exists m, wasm_run script = Ok m
              /\ NoDup (map fst m)
              /\ (forall name, In name (map fst m) <-> has mem_impl (snd (grun script mem_new)) name)
              /\ (forall name g, In (name, g) m -> exists l, l_entries glig (snd (grun script mem_new)) (mkE name) = Ok l /\ graph_of l g)
  | Err e => wasm_run script = Err e
  | Panic w => wasm_run script = Panic w
  end.
Proof.
  unfold wasm_run. destruct (grun_reach [] script) as (h' & E). cbn [after app] in E.
  destruct (grun script mem_new) as [[v|e|w] st]; cbn [fst snd] in *; try reflexivity.
  destruct (mem_export h') as (m & Em & H). rewrite <- E in Em, H. exists m. rewrite Em. split; [reflexivity|exact H].
Qed.

(** ** C56 *)
Lemma store_after_cons q reqs s : store_after (q :: reqs) s = store_after reqs (snd (grun q s)).
Proof. reflexivity. Qed.

Lemma serve_spec reqs : forall s rs s' up, serve reqs s = (rs, s', up) ->
  List.length rs <= List.length reqs
  /\ (forall k r, nth_error rs k = Some r -> exists q, nth_error reqs k = Some q
        /\ answers (fst (grun q (store_after (firstn k reqs) s))) r)
  /\ (up = true -> List.length rs = List.length reqs /\ s' = store_after reqs s)
  /\ (up = false -> exists q w, nth_error reqs (List.length rs) = Some q
        /\ fst (grun q (store_after (firstn (List.length rs) reqs) s)) = Panic w
        /\ s' = store_after (firstn (Datatypes.S (List.length rs)) reqs) s).
Proof.
  induction reqs as [|q reqs IH]; intros s rs s' up; cbn [serve].
  - intros E. injection E as <- <- <-. split; [reflexivity|]. split; [|split].
    + intros [|k] r H; discriminate H.
    + intros _. split; reflexivity.
    + discriminate.
  - assert (HC : forall a x, fst (grun q s) = a -> answers a x -> forall rs1 s1 up1,
        serve reqs (snd (grun q s)) = (rs1, s1, up1) -> (x :: rs1, s1, up1) = (rs, s', up) ->
        List.length rs <= List.length (q :: reqs)
        /\ (forall k r, nth_error rs k = Some r -> exists q0, nth_error (q :: reqs) k = Some q0
              /\ answers (fst (grun q0 (store_after (firstn k (q :: reqs)) s))) r)
        /\ (up = true -> List.length rs = List.length (q :: reqs) /\ s' = store_after (q :: reqs) s)
        /\ (up = false -> exists q0 w, nth_error (q :: reqs) (List.length rs) = Some q0
              /\ fst (grun q0 (store_after (firstn (List.length rs) (q :: reqs)) s)) = Panic w
              /\ s' = store_after (firstn (Datatypes.S (List.length rs)) (q :: reqs)) s)).
    { intros a x Ea Hx rs1 s1 up1 E1 E. injection E as <- <- <-. apply IH in E1 as (H1 & H2 & H3 & H4).
      split; [cbn; lia|]. split; [|split].
      - intros [|k] r Hr.
        + cbn in Hr. injection Hr as <-. exists q. split; [reflexivity|]. cbn [firstn store_after fold_left]. rewrite Ea. exact Hx.
        + apply H2 in Hr as (q0 & Hq & Ha). exists q0. split; [exact Hq|]. cbn [firstn]. rewrite store_after_cons. exact Ha.
      - intros Hu. apply H3 in Hu as [Hl ->]. split; [cbn; lia|reflexivity].
      - intros Hu. apply H4 in Hu as (q0 & w & Hq & Hp & ->). exists q0, w. split; [exact Hq|]. split; [|reflexivity].
        cbn [List.length firstn]. rewrite store_after_cons. exact Hp. }
    destruct (grun q s) as [[v|e|w] st] eqn:Eg; cbn [fst snd] in HC.
    + destruct (serve reqs st) as [[rs1 s1] up1] eqn:Es. intros E. exact (HC _ _ eq_refl eq_refl _ _ _ eq_refl E).
    + destruct (serve reqs st) as [[rs1 s1] up1] eqn:Es. intros E. exact (HC _ _ eq_refl eq_refl _ _ _ eq_refl E).
    + intros E. injection E as <- <- <-. split; [cbn; lia|]. split; [|split].
      * intros [|k] r H; discriminate H.
      * discriminate.
      * intros _. exists q, w. cbn [List.length nth_error firstn store_after fold_left]. rewrite Eg. auto.
Qed.

(** ** C57 *)
Lemma is_ws_iff c : is_ws c = true <-> white c.
Proof.
  unfold is_ws, in_ranges, white. cbn [existsb fst snd]. rewrite !orb_true_iff, !andb_true_iff, !N.leb_le. 
  intuition (try lia); try discriminate.
Qed.

Lemma not_ws c : is_ws c = false <-> ~ white c.
Proof. rewrite <- is_ws_iff. destruct (is_ws c); intuition congruence. Qed.

Lemma trim_start_spec s : exists before, s = before ++ trim_start s /\ Forall white before
  /\ match trim_start s with [] => True | c :: _ => ~ white c end.
Proof.
  induction s as [|c s IH]; cbn [trim_start]; [exists []; auto|].
  destruct (is_ws c) eqn:E.
  - destruct IH as (b & Eb & Hb & Hh). exists (c :: b). split; [cbn; congruence|]. split; [|exact Hh].
    constructor; [apply is_ws_iff, E|exact Hb].
  - exists []. split; [reflexivity|]. split; [constructor|]. apply not_ws, E.
Qed.

Lemma split_unique b1 c1 a1 b2 c2 a2 : b1 ++ c1 :: a1 = b2 ++ c2 :: a2 ->
  Forall white b1 -> ~ white c1 -> Forall white b2 -> ~ white c2 -> b1 = b2 /\ c1 = c2 /\ a1 = a2.
Proof.
  revert b2. induction b1 as [|x b1 IH]; intros [|y b2] E H1 N1 H2 N2; cbn in E.
  - injection E as -> ->. auto.
  - injection E as -> _. inversion H2; subst. contradiction.
  - injection E as -> _. inversion H1; subst. contradiction.
  - injection E as -> E. inversion H1; inversion H2; subst. destruct (IH b2 E) as (-> & -> & ->); auto.
Qed.

Lemma trim_start_cons s c a : trim_start s = c :: a <-> exists before, s = before ++ c :: a /\ Forall white before /\ ~ white c.
Proof.
  destruct (trim_start_spec s) as (b & Eb & Hb & Hh). split.
  - intros E. rewrite E in Eb, Hh. eauto.
  - intros (b' & E & Hb' & Hc). destruct (trim_start s) as [|c' a'].
    + rewrite app_nil_r in Eb. subst s. exfalso. assert (Hi : In c b) by (rewrite E; apply in_or_app; right; left; reflexivity).
      rewrite Forall_forall in Hb. exact (Hc (Hb c Hi)).
    + rewrite Eb in E. destruct (split_unique _ _ _ _ _ _ E Hb Hh Hb' Hc) as (_ & -> & ->). reflexivity.
Qed.

Lemma first_char_trim c s : first_char c s <-> starts_with c (trim s) = true.
Proof.
  unfold first_char, trim.
  assert (HT : starts_with c (rev (trim_start (rev (trim_start s)))) = true <-> exists a, trim_start s = c :: a).
  { destruct (trim_start_spec s) as (b & Eb & Hb & Hh). destruct (trim_start s) as [|d a] eqn:Et.
    - cbn. split; [discriminate|]. intros [a E]; discriminate E.
    - destruct (trim_start_spec (rev (d :: a))) as (b2 & E2 & Hb2 & Hh2).
      assert (E3 : d :: a = rev (trim_start (rev (d :: a))) ++ rev b2).
      { rewrite <- rev_app_distr, <- E2, rev_involutive. reflexivity. }
      destruct (rev (trim_start (rev (d :: a)))) as [|x y] eqn:Er.
      + exfalso. cbn in E3. assert (Hi : In d b2). { apply in_rev. rewrite <- E3. left; reflexivity. }
        rewrite Forall_forall in Hb2. exact (Hh (Hb2 d Hi)).
      + cbn in E3. injection E3 as <- _. cbn [starts_with]. rewrite N.eqb_eq. split; [intros ->; eauto|]. intros (a' & E). congruence. }
  rewrite HT. split.
  - intros (b & a & E & Hb & Hc). exists a. apply trim_start_cons. eauto.
  - intros (a & E). apply trim_start_cons in E as (b & E & H). eauto.
Qed.

Lemma take_word_spec s : exists after, s = take_word s ++ after /\ Forall (fun c => ~ white c) (take_word s)
  /\ match after with [] => True | c :: _ => white c end.
Proof.
  induction s as [|c s IH]; cbn [take_word]; [exists []; auto|].
  destruct (is_ws c) eqn:E.
  - exists (c :: s). split; [reflexivity|]. split; [constructor|]. apply is_ws_iff, E.
  - destruct IH as (a & Ea & Ha & Hh). exists a. split; [cbn; congruence|]. split; [|exact Hh].
    constructor; [apply not_ws, E|exact Ha].
Qed.

Lemma word_unique w1 a1 w2 a2 : w1 ++ a1 = w2 ++ a2 -> Forall (fun c => ~ white c) w1 -> Forall (fun c => ~ white c) w2 ->
  match a1 with [] => True | c :: _ => white c end -> match a2 with [] => True | c :: _ => white c end -> w1 = w2.
Proof.
  revert w2. induction w1 as [|x w1 IH]; intros [|y w2] E H1 H2 A1 A2; cbn in E.
  - reflexivity.
  - subst a1. inversion H2; subst. contradiction.
  - subst a2. inversion H1; subst. contradiction.
  - injection E as -> E. inversion H1; inversion H2; subst. f_equal. apply (IH w2 E); assumption.
Qed.

Lemma first_word_iff s w : first_word s = Some w <-> is_first_word w s.
Proof.
  unfold first_word, is_first_word. split.
  - destruct (trim_start s) as [|c a] eqn:Et; [discriminate|]. intros E. injection E as <-.
    apply trim_start_cons in Et as (b & -> & Hb & Hc).
    destruct (take_word_spec (c :: a)) as (a' & Ea & Ha & Hh). exists b, a'. rewrite Ea at 1.
    split; [reflexivity|]. split; [exact Hb|]. split; [|split; [exact Ha|exact Hh]].
    cbn [take_word]. rewrite (proj2 (not_ws c) Hc). discriminate.
  - intros (b & a & E & Hb & Hw & Hn & Ha). destruct w as [|c w]; [destruct (Hw eq_refl)|]. inversion Hn as [|? ? Hc Hn']; subst.
    rewrite (proj2 (trim_start_cons _ c (w ++ a))); [|exists b; split; [reflexivity|auto]].
    f_equal. destruct (take_word_spec (c :: w ++ a)) as (a' & Ea & Hf & Hh).
    apply (word_unique _ a' _ a); [rewrite <- Ea; reflexivity|exact Hf|exact Hn|exact Hh|exact Ha].
Qed.

Lemma repl_command line st : first_char 58 line ->
  (repl_line line st = RStop st <-> is_first_word (lit ":q") line \/ is_first_word (lit ":quit") line)
  /\ (repl_line line st = RStop st \/ repl_line line st = RContinue st).
Proof.
  intros Hc. unfold repl_line, repl_step. rewrite (proj1 (first_char_trim 58 line) Hc).
  assert (HW : exists w, first_word line = Some w).
  { destruct Hc as (b & a & -> & Hb & Hn). unfold first_word.
    rewrite (proj2 (trim_start_cons _ 58%N a)) by eauto. eauto. }
  destruct HW as [w Ew]. unfold handle_command. rewrite Ew.
  assert (HI : forall x, is_first_word x line <-> w = x).
  { intros x. rewrite <- first_word_iff, Ew. split; [congruence|intros ->; reflexivity]. }
  rewrite !HI.
  destruct (str_eqb w (lit ":status") || str_eqb w (lit ":s")) eqn:E1.
  { split; [|auto]. split; [discriminate|]. apply orb_true_iff in E1. rewrite !str_eqb_eq in E1.
    intros [->| ->]; destruct E1 as [E1|E1]; discriminate E1. }
  destruct (str_eqb w (lit ":quit") || str_eqb w (lit ":q")) eqn:E2.
  { apply orb_true_iff in E2. rewrite !str_eqb_eq in E2. split; [|auto]. split; [tauto|reflexivity]. }
  apply orb_false_iff in E2 as [E2 E3]. apply str_eqb_neq in E2. apply str_eqb_neq in E3.
  destruct (str_eqb w (lit ":help") || str_eqb w (lit ":h")).
  { split; [|auto]. split; [discriminate|]. intros [?|?]; contradiction. }
  destruct (str_eqb w (lit ":broadcast")); (split; [|auto]); (split; [discriminate|]); intros [?|?]; contradiction.
Qed.

Lemma repl_script line st : ~ first_char 58 line ->
  match grun line st with
  | (Ok (VQuote _), _) => repl_line line st = RPanic PTodo
  | (Panic w, _) => repl_line line st = RPanic w
  | (_, st') => repl_line line st = RContinue st'
  end.
Proof.
  intros Hc. unfold repl_line, repl_step. destruct (starts_with 58 (trim line)) eqn:E; [destruct (Hc (proj2 (first_char_trim _ _) E))|].
  destruct (grun line st) as [[[e|q|[|x n]]|e|w] st']; reflexivity.
Qed.

(** ** C58 *)
Lemma ends_with_iff suffix s : ends_with suffix s = true <-> exists stem, s = stem ++ suffix.
Proof.
  unfold ends_with. rewrite andb_true_iff, Nat.leb_le, str_eqb_eq. split.
  - intros [L E]. exists (firstn (List.length s - List.length suffix) s). rewrite <- E at 2. symmetry. apply firstn_skipn.
  - intros [stem ->]. rewrite app_length. split; [lia|].
    replace (List.length stem + List.length suffix - List.length suffix) with (List.length stem) by lia.
    rewrite skipn_app, skipn_all, Nat.sub_diag. reflexivity.
Qed.

(** What one file adds to the two counters. *)
Definition judge (f : dir_entry) : res unit (Z * Z) :=
  match d_name f with
  | None => Panic PUnwrap
  | Some n =>
      if ends_with (lit ".wander") n then
        match d_text f with
        | None => Panic PUnwrap
        | Some script =>
            match fst (grun script mem_new) with
            | Ok _ => Ok (1, 0)%Z
            | Err _ => Ok (1, 1)%Z
            | Panic w => Panic w
            end
        end
      else Ok (0, 0)%Z
  end.

Lemma suite_loop_judge f rest total failed : suite_loop (f :: rest) total failed =
  match judge f with
  | Ok (a, b) => suite_loop rest (total + a)%Z (failed + b)%Z
  | Err e => Err e
  | Panic w => Panic w
  end.
Proof.
  cbn [suite_loop]. unfold judge. destruct (d_name f) as [n|]; [|reflexivity].
  destruct (ends_with (lit ".wander") n); [|rewrite !Z.add_0_r; reflexivity].
  destruct (d_text f) as [s|]; [|reflexivity].
  destruct (fst (grun s mem_new)); rewrite ?Z.add_0_r; reflexivity.
Qed.

Lemma judge_deadly f : (exists w, judge f = Panic w) <-> deadly f.
Proof.
  unfold judge, deadly. destruct (d_name f) as [n|]; [|split; [auto|eauto]].
  destruct (ends_with (lit ".wander") n) eqn:E.
  - apply ends_with_iff in E. destruct E as [stem ->]. split.
    + intros [w H]. right. exists stem. split; [reflexivity|]. destruct (d_text f) as [s|]; [|auto]. right. exists s.
      destruct (fst (grun s mem_new)) as [v|e|w'] eqn:Es; try discriminate H. exists w'. auto.
    + intros [H|(st & _ & [->|(s & w & -> & ->)])]; [discriminate H|eauto|eauto].
  - split; [intros [w H]; discriminate H|]. intros [H|(st & H & _)]; [discriminate H|].
    injection H as ->. rewrite (proj2 (ends_with_iff _ _)) in E by eauto. discriminate E.
Qed.

Lemma judge_no_err f e : judge f <> Err e.
Proof.
  unfold judge. destruct (d_name f); [|discriminate]. destruct (ends_with _ _); [|discriminate].
  destruct (d_text f); [|discriminate]. destruct (fst (grun _ _)); discriminate.
Qed.

Lemma suite_loop_panic files : forall total failed f,
  In f files -> deadly f -> exists w', suite_loop files total failed = Panic w'.
Proof.
  induction files as [|x files IH]; intros total failed f Hi Hd; [destruct Hi|]. rewrite suite_loop_judge.
  destruct Hi as [->|Hi].
  - apply judge_deadly in Hd. destruct Hd as [w ->]. eauto.
  - destruct (judge x) as [[a b]|e|w] eqn:E; [eauto|destruct (judge_no_err x e E)|eauto].
Qed.

Lemma suite_loop_lists files ss : lists files ss ->
  (forall script w, In script ss -> fst (grun script mem_new) <> Panic w) ->
  forall ok, counted (fun script => exists v, fst (grun script mem_new) = Ok v) ss ok ->
  forall total failed, suite_loop files total failed
    = Ok (total + Z.of_nat (List.length ss), failed + (Z.of_nat (List.length ss) - Z.of_nat ok))%Z.
Proof.
  induction 1 as [|stem s files ss H IH|n t files ss Hn H IH]; intros Hp ok Hc total failed.
  - inversion Hc; subst. cbn. f_equal. f_equal; lia.
  - assert (Hp' : forall s w, In s ss -> fst (grun s mem_new) <> Panic w) by (intros x w Hs; apply Hp; right; exact Hs).
    rewrite suite_loop_judge. unfold judge. cbn [d_name d_text]. rewrite (proj2 (ends_with_iff _ _)) by eauto.
    inversion Hc as [|x l k Hx Hl|x l k Hx Hl]; subst.
    + destruct Hx as [v ->]. rewrite (IH Hp' k Hl). cbn [List.length]. f_equal. f_equal; lia.
    + destruct (fst (grun s mem_new)) as [v|e|w] eqn:E.
      * destruct Hx; eauto.
      * rewrite (IH Hp' ok Hl). cbn [List.length]. f_equal. f_equal; lia.
      * destruct (Hp s w (or_introl eq_refl) E).
  - rewrite suite_loop_judge. unfold judge. cbn [d_name d_text].
    destruct (ends_with (lit ".wander") n) eqn:E; [apply ends_with_iff in E; destruct E as [stem ->]; destruct (Hn stem eq_refl)|].
    rewrite (IH Hp ok Hc). f_equal. f_equal; lia.
Qed.

Lemma suite_ok files ss ok : lists files ss ->
  (forall script w, In script ss -> fst (grun script mem_new) <> Panic w) ->
  counted (fun script => exists v, fst (grun script mem_new) = Ok v) ss ok ->
  suite files = Ok (Z.of_nat ok, Z.of_nat (List.length ss)).
Proof.
  intros Hl Hp Hc. unfold suite. rewrite (suite_loop_lists files ss Hl Hp ok Hc). cbn. f_equal. f_equal. lia.
Qed.

Lemma counted_total {A} (P : A -> Prop) (dec : forall x, P x \/ ~ P x) l : exists n, counted P l n.
Proof. induction l as [|x l [n IH]]; [exists 0; constructor|]. destruct (dec x); [exists (S n)|exists n]; constructor; assumption. Qed.

Lemma counted_unique {A} (P : A -> Prop) l n : counted P l n -> forall m, counted P l m -> n = m.
Proof. induction 1; intros m Hm; inversion Hm; subst; try contradiction; auto. Qed.

(** Every directory is either deadly or listed. *)
Lemma deadly_dec f : deadly f \/ ~ deadly f.
Proof.
  destruct (judge f) as [p|e|w] eqn:E.
  - right. intros D. apply judge_deadly in D. destruct D as [w E']. congruence.
  - destruct (judge_no_err f e E).
  - left. apply judge_deadly. eauto.
Qed.

Lemma listed files : (forall f, In f files -> ~ deadly f) -> exists ss, lists files ss
  /\ forall script w, In script ss -> fst (grun script mem_new) <> Panic w.
Proof.
  induction files as [|[n t] files IH]; intros H; [exists []; split; [constructor|intros s w []]|].
  destruct IH as (ss & L & Hp); [intros f Hf; apply H; right; exact Hf|].
  pose proof (H _ (or_introl eq_refl)) as D. destruct n as [n|]; [|destruct D; left; reflexivity].
  destruct (ends_with (lit ".wander") n) eqn:E.
  - apply ends_with_iff in E. destruct E as [stem ->].
    destruct t as [s|]; [|destruct D; right; exists stem; split; [reflexivity|left; reflexivity]].
    exists (s :: ss). split; [constructor; exact L|]. intros x w [<-|Hx]; [|apply Hp, Hx]. intros Ex. apply D. right. exists stem.
    split; [reflexivity|right]. exists s, w. auto.
  - exists ss. split; [|exact Hp]. constructor; [|exact L]. intros stem ->. rewrite (proj2 (ends_with_iff _ _)) in E by eauto. discriminate E.
Qed.

Lemma some_deadly files : (exists f, In f files /\ deadly f) \/ (forall f, In f files -> ~ deadly f).
Proof.
  induction files as [|f files [(g & Hg & D)|IH]].
  - right. intros f [].
  - left. exists g. split; [right; exact Hg|exact D].
  - destruct (deadly_dec f) as [D|D]; [left; exists f; split; [left; reflexivity|exact D]|right].
    intros g [<-|Hg]; [exact D|exact (IH g Hg)].
Qed.

Lemma suite_panics files : (exists w, suite files = Panic w) <-> exists f, In f files /\ deadly f.
Proof.
  split.
  - intros [w H]. destruct (some_deadly files) as [D|D]; [exact D|]. exfalso.
    destruct (listed files D) as (ss & L & Hp).
    assert (HX : forall x, (exists v, fst (grun x mem_new) = Ok v) \/ ~ (exists v, fst (grun x mem_new) = Ok v)).
    { intros x. destruct (fst (grun x mem_new)) as [v|e|w']; [left; eauto|right|right]; intros [v E]; discriminate E. }
    destruct (counted_total _ HX ss) as [ok Hc]. rewrite (suite_ok files ss ok L Hp Hc) in H. discriminate H.
  - intros (f & Hi & D). unfold suite. destruct (suite_loop_panic files 0%Z 0%Z f Hi D) as [w ->]. eauto.
Qed.

Lemma suite_loop_perm files files' : Permutation files files' -> (forall f, In f files -> ~ deadly f) ->
  forall total failed, suite_loop files total failed = suite_loop files' total failed.
Proof.
  induction 1 as [|x l l' P IH|x y l|l1 l2 l3 P1 IH1 P2 IH2]; intros D total failed.
  - reflexivity.
  - rewrite !suite_loop_judge. destruct (judge x) as [[a b]|e|w]; try reflexivity.
    apply IH. intros f Hf. apply D. right. exact Hf.
  - assert (Dx : forall f, ~ deadly f -> exists a b, judge f = Ok (a, b)).
    { intros f Df. destruct (judge f) as [[a b]|e|w] eqn:E; [eauto|destruct (judge_no_err f e E)|destruct Df; apply judge_deadly; eauto]. }
    destruct (Dx x) as (a & b & Ex); [apply D; cbn; auto|]. destruct (Dx y) as (a' & b' & Ey); [apply D; cbn; auto|].
    rewrite suite_loop_judge, Ey, suite_loop_judge, Ex, suite_loop_judge, Ex, suite_loop_judge, Ey. f_equal; lia.
  - rewrite IH1 by exact D. apply IH2. intros f Hf. apply D. exact (Permutation_in _ (Permutation_sym P1) Hf).
Qed.

Lemma suite_perm files files' : Permutation files files' ->
  suite files = suite files' \/ ((exists w, suite files = Panic w) /\ exists w, suite files' = Panic w).
Proof.
  intros P. destruct (some_deadly files) as [(f & Hf & D)|D].
  - right. split; apply suite_panics; exists f; (split; [|exact D]); [exact Hf|exact (Permutation_in _ P Hf)].
  - left. unfold suite. rewrite (suite_loop_perm _ _ P D). reflexivity.
Qed.

(** ** C59 *)
Definition table_after (h : list id_type) : list (str * N) :=
  fold_left (fun t k => snd (next_id k t)) h [].

Lemma table_after_snoc h k : table_after (h ++ [k]) = snd (next_id k (table_after h)).
Proof. unfold table_after. rewrite fold_left_app. reflexivity. Qed.

Lemma counted_snoc {A} (P : A -> Prop) l x n : counted P (l ++ [x]) n ->
  exists m, counted P l m /\ ((P x /\ n = S m) \/ (~ P x /\ n = m)).
Proof.
  revert n. induction l as [|y l IH]; intros n H; cbn in H.
  - inversion H as [|? ? k Hx Hk|? ? k Hx Hk]; subst; inversion Hk; subst; exists 0; (split; [constructor|]); auto.
  - inversion H as [|? ? k Hx Hk|? ? k Hx Hk]; subst; apply IH in Hk as (m & Hm & [[A1 ->]|[A1 ->]]).
    + exists (S m). split; [constructor; assumption|auto].
    + exists (S m). split; [constructor; assumption|auto].
    + exists m. split; [constructor; assumption|auto].
    + exists m. split; [constructor; assumption|auto].
Qed.

Lemma id_type_str_inj a b : id_type_str a = id_type_str b -> a = b.
Proof. destruct a, b; intros E; try reflexivity; discriminate E. Qed.

Lemma table_get h : forall k n, counted (eq k) h n ->
  bm_get str_cmp (id_type_str k) (table_after h)
  = match n with 0 => None | S m => Some (N.min (N.of_nat m) redb_u64_max) end.
Proof.
  induction h as [|x h IH] using rev_ind; intros k n Hc.
  - inversion Hc; subst. reflexivity.
  - apply counted_snoc in Hc as (m & Hm & Hx). rewrite table_after_snoc.
    unfold next_id. destruct Hx as [[<- ->]|[Hx ->]].
    + rewrite (IH k m Hm). destruct m as [|m].
      * cbn [snd]. rewrite (bm_get_insert_same str_order). reflexivity.
      * destruct (N.ltb_spec (N.min (N.of_nat m) redb_u64_max) redb_u64_max) as [Hl|Hl]; cbn [snd].
        -- rewrite (bm_get_insert_same str_order). f_equal. lia.
        -- rewrite (IH k (S m) Hm). f_equal. lia.
    + assert (HX : id_type_str k <> id_type_str x) by (intros E; apply id_type_str_inj in E; contradiction).
      destruct (bm_get str_cmp (id_type_str x) (table_after h)) as [v|].
      * destruct (N.ltb v redb_u64_max); cbn [snd]; [rewrite (bm_get_insert_other str_order) by exact HX|]; exact (IH k m Hm).
      * cbn [snd]. rewrite (bm_get_insert_other str_order) by exact HX. exact (IH k m Hm).
Qed.

Lemma table_map h : is_map (lt := str_lt) (table_after h).
Proof.
  induction h as [|k h IH] using rev_ind; [constructor|]. rewrite table_after_snoc. unfold next_id.
  destruct (bm_get str_cmp (id_type_str k) (table_after h)) as [v|]; [destruct (N.ltb v redb_u64_max)|]; cbn [snd]; try exact IH;
  apply (is_map_insert str_order); exact IH.
Qed.

Lemma table_keys h x v : In (x, v) (table_after h) -> exists k, In k h /\ x = id_type_str k.
Proof.
  revert v. induction h as [|k h IH] using rev_ind; intros v; [intros []|]. rewrite table_after_snoc.
  assert (K : forall v, In (x, v) (table_after h) -> exists k0, In k0 (h ++ [k]) /\ x = id_type_str k0).
  { intros w Hw. apply IH in Hw as (k' & Hk & ->). exists k'. split; [apply in_or_app; auto|reflexivity]. }
  assert (J : forall w, In (x, v) (bm_insert str_cmp (id_type_str k) w (table_after h)) -> exists k0, In k0 (h ++ [k]) /\ x = id_type_str k0).
  { intros w Hw. apply (in_map fst) in Hw. apply (in_keys_insert str_order) in Hw as [E|Hw].
    - exists k. split; [apply in_or_app; right; left; reflexivity|exact E].
    - apply in_map_iff in Hw as ([x' u] & E & Hw). cbn in E. subst x'. exact (K u Hw). }
  unfold next_id. destruct (bm_get str_cmp (id_type_str k) (table_after h)) as [u|]; [destruct (N.ltb u redb_u64_max)|]; cbn [snd]; eauto.
Qed.

Lemma counted_exists (k : id_type) h : exists n, counted (eq k) h n.
Proof. apply counted_total. intros x. destruct k, x; auto; right; discriminate. Qed.

Lemma counted_in {A} (P : A -> Prop) l n : counted P l n -> (exists x, In x l /\ P x) -> n <> 0.
Proof. induction 1 as [|x l n Hx C IH|x l n Hx C IH]; intros (y & Hy & Py); [destruct Hy|discriminate|]. destruct Hy as [<-|Hy]; [contradiction|]. apply IH. eauto. Qed.

Lemma ids_table h key v : In (key, v) (table_after h) <->
  exists k n, In k h /\ key = match k with Datasets => lit "Datasets" | Identifiers => lit "Identifiers" | Strings => lit "Strings" end
    /\ counted (eq k) h n /\ v = N.min (N.of_nat n - 1) (2 ^ 64 - 1).
Proof.
  assert (G : forall k n, counted (eq k) h n -> In k h -> bm_get str_cmp (id_type_str k) (table_after h) = Some (N.min (N.of_nat n - 1) (2 ^ 64 - 1))).
  { intros k n C Hi. rewrite (table_get h k n C). pose proof (counted_in _ _ _ C) as N0. destruct n as [|n]; [exfalso; apply N0; eauto|].
    f_equal. unfold redb_u64_max. change (2 ^ 64 - 1)%N with 18446744073709551615%N. f_equal. lia. }
  assert (T : forall k, id_type_str k = match k with Datasets => lit "Datasets" | Identifiers => lit "Identifiers" | Strings => lit "Strings" end) by (intros []; reflexivity).
  split.
  - intros H. destruct (table_keys h key v H) as (k & Hk & ->). destruct (counted_exists k h) as [n C]. exists k, n. split; [exact Hk|]. split; [apply T|]. split; [exact C|].
    apply (bm_get_in str_order) in H; [|apply table_map]. rewrite (G k n C Hk) in H. congruence.
  - intros (k & n & Hk & -> & C & ->). rewrite <- T. apply (bm_get_in str_order); [apply table_map|]. apply G; assumption.
Qed.

Lemma next_id_ok h k n : counted (eq k) h n ->
  fst (next_id k (table_after h)) = if (N.of_nat n <? 2 ^ 64)%N then Ok (N.of_nat n) else Panic POverflow.
Proof.
  intros Hc. unfold next_id. rewrite (table_get h k n Hc). destruct n as [|m].
  - reflexivity.
  - unfold redb_u64_max. change (2 ^ 64)%N with 18446744073709551616%N.
    destruct (N.ltb_spec (N.min (N.of_nat m) 18446744073709551615) 18446744073709551615) as [Hl|Hl];
      destruct (N.ltb_spec (N.of_nat (S m)) 18446744073709551616) as [Hg|Hg]; cbn [fst]; try lia; [|reflexivity].
    f_equal. lia.
Qed.
