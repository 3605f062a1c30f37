(** * Proofs about runs cut short by a crash *)
From Coq Require Import List Arith NArith Bool String Lia.
From Verif Require Import M_Base M_Data M_Mem M_Heed M_Duck M_Regex M_Lexer M_Graph M_Parser M_Display M_Interp
  S_Order S_Str S_Store S_Graph S_Interp P_Ord P_Hist P_Parser P_Mem P_Heed P_HeedHist P_HeedMore P_Graph
  P_Interp P_InterpMore P_InterpStores.
Import ListNotations.
Open Scope list_scope.

(** The same command over another store. *)
Definition lift_fun {A B : Type} (f : @cmd_fun A) : @cmd_fun B :=
  match f with
  | FAssertEqual => FAssertEqual | FAssertFail => FAssertFail | FIgnore => FIgnore | FLet => FLet
  | FRead => FRead | FId => FId | FDocs => FDocs | FUnion => FUnion | FFilter => FFilter | FHost _ => FIgnore
  end.

Lemma common_lift {A B} n c : In (n, c) (@common A) -> In (n, Command (cmd_doc c) (lift_fun (cmd_fun_of c))) (@common B).
Proof.
  unfold common. intros H.
  repeat (destruct H as [H|H]; [injection H as <- <-; cbn [cmd_doc cmd_fun_of lift_fun]|]).
  - left; reflexivity.
  - do 1 right; left; reflexivity.
  - do 2 right; left; reflexivity.
  - do 3 right; left; reflexivity.
  - do 4 right; left; reflexivity.
  - do 5 right; left; reflexivity.
  - do 6 right; left; reflexivity.
  - do 7 right; left; reflexivity.
  - do 8 right; left; reflexivity.
  - destruct H.
Qed.

Lemma common_unknown {A B} n : (forall c, ~ In (n, c) (@common A)) -> (forall c, ~ In (n, c) (@common B)).
Proof. intros H c Hc. apply (H (Command (cmd_doc c) (lift_fun (cmd_fun_of c)))). apply common_lift. exact Hc. Qed.

Section Crash.
  Context {S : Type} (I : trips_impl S).
  Notation G := (graph_impl I).
  Notation D := (graph_impl (dying I)).

  (** The run [run] makes the store calls [h]; cut short after [k] of them it
      leaves the first [k] of their effects and panics. *)
  Definition cut (run : S * nat -> wres value -> S * nat -> Prop) (st : S) (r : wres value) (st' : S) : Prop :=
    exists h, st' = after I st h
      /\ (forall k, List.length h <= k -> run (st, k) r (st', k - List.length h))
      /\ (forall k, k < List.length h -> run (st, k) (Panic PUnwrap) (after I st (firstn k h), 0)).

  Lemma cut_none (run : S * nat -> wres value -> S * nat -> Prop) st r : (forall k, run (st, k) r (st, k)) -> cut run st r st.
  Proof.
    intros H. exists []. split; [reflexivity|]. split; [intros k _; cbn; rewrite Nat.sub_0_r; apply H|].
    intros k Hk. inversion Hk.
  Qed.

  Lemma cut_map (run run' : S * nat -> wres value -> S * nat -> Prop) st r r' st' :
    (forall s x, run s r x -> run' s r' x) -> (forall s x, run s (Panic PUnwrap) x -> run' s (Panic PUnwrap) x) ->
    cut run st r st' -> cut run' st r' st'.
  Proof. intros H1 H2 (h & E & Ha & Hb). exists h. split; [exact E|]. split; auto. Qed.

  Lemma cut_seq (run1 run2 run : S * nat -> wres value -> S * nat -> Prop) st r1 st1 r2 r st' :
    (forall s x y, run1 s r1 x -> run2 x r2 y -> run s r y) ->
    (forall s x, run1 s (Panic PUnwrap) x -> run s (Panic PUnwrap) x) ->
    (forall s x y, run1 s r1 x -> run2 x (Panic PUnwrap) y -> run s (Panic PUnwrap) y) ->
    cut run1 st r1 st1 -> cut run2 st1 r2 st' -> cut run st r st'.
  Proof.
    intros H1 H2 H3 (h1 & E1 & A1 & B1) (h2 & E2 & A2 & B2). exists (h1 ++ h2).
    split; [rewrite after_app; congruence|]. rewrite app_length. split.
    - intros k Hk. eapply H1; [apply A1; lia|]. replace (k - (List.length h1 + List.length h2)) with ((k - List.length h1) - List.length h2) by lia.
      apply A2. lia.
    - intros k Hk. destruct (le_lt_dec (List.length h1) k) as [Hl|Hl].
      + eapply H3; [apply A1; exact Hl|]. rewrite firstn_app, firstn_all2, after_app by exact Hl. rewrite <- E1. apply B2. lia.
      + apply H2. rewrite firstn_app. replace (k - List.length h1) with 0 by lia. cbn [firstn]. rewrite app_nil_r. apply B1. exact Hl.
  Qed.

  Lemma dying_add_collection st k c :
    l_add_collection D (st, k) c
    = match k with
      | O => (Panic PUnwrap, (st, 0))
      | Datatypes.S k' => let (r, x) := l_add_collection G st c in (r, (x, k'))
      end.
  Proof.
    cbn. unfold graph_add_collection. cbn. destruct k as [|k]; [reflexivity|].
    destruct (t_add_collection I st (el_name c)) as [r x]. reflexivity.
  Qed.

  Lemma dying_add_entries st k c n :
    l_add_entries D (st, k) c n
    = match k with
      | O => (Panic PUnwrap, (st, 0), n)
      | Datatypes.S k' => let '(r, x, y) := l_add_entries G st c n in (r, (x, k'), y)
      end.
  Proof.
    cbn. unfold graph_add_entries. cbn. destruct k as [|k]; [reflexivity|].
    destruct (t_add_triples I st (el_name c) _) as [[r x] y]. reflexivity.
  Qed.

  Lemma cut_stores c n st r st' : stores G c n st r st' -> cut (stores D c n) st r st'.
  Proof.
    assert (H1 : forall st a st1, l_add_collection G st c = (a, st1) -> st1 = snd (call_op I st (OAddColl (el_name c)))).
    { intros s a st1. rewrite add_collection_eq. congruence. }
    assert (H2 : forall st1 b st2 n', l_add_entries G st1 c n = (b, st2, n') ->
              st2 = snd (call_op I st1 (OAdd (el_name c) (trips_of n)))).
    { intros st1 b st2 n'. cbn [l_add_entries graph_impl]. unfold graph_add_entries. cbn [call_op]. fold (trips_of n).
      destruct (t_add_triples I st1 (el_name c) (trips_of n)) as [[r' s'] x]. cbn. intros E; injection E as _ <- _. reflexivity. }
    intros [a st1 b st2 n' E1 N1 E2 N2|w st1 E1|a st1 w st2 n' E1 N1 E2].
    - exists [OAddColl (el_name c); OAdd (el_name c) (trips_of n)]. split; [|split].
      + cbn [after]. rewrite <- (H1 _ _ _ E1). exact (H2 _ _ _ _ E2).
      + intros [|[|k]] Hk; [cbn in Hk; lia|cbn in Hk; lia|]. eapply st_both.
        * rewrite dying_add_collection, E1. reflexivity.
        * exact N1.
        * rewrite dying_add_entries, E2. cbn. rewrite Nat.sub_0_r. reflexivity.
        * exact N2.
      + intros [|[|k]] Hk; [| |cbn in Hk; lia].
        * apply st_first. rewrite dying_add_collection. reflexivity.
        * eapply st_second; [rewrite dying_add_collection, E1; reflexivity|exact N1|].
          rewrite dying_add_entries. cbn [firstn after]. rewrite <- (H1 _ _ _ E1). reflexivity.
    - exists [OAddColl (el_name c)]. split; [exact (H1 _ _ _ E1)|]. split.
      + intros [|k] Hk; [cbn in Hk; lia|]. apply st_first. rewrite dying_add_collection, E1. cbn. rewrite Nat.sub_0_r. reflexivity.
      + intros [|k] Hk; [|cbn in Hk; lia]. apply st_first. rewrite dying_add_collection. reflexivity.
    - exists [OAddColl (el_name c); OAdd (el_name c) (trips_of n)]. split; [|split].
      + cbn [after]. rewrite <- (H1 _ _ _ E1). exact (H2 _ _ _ _ E2).
      + intros [|[|k]] Hk; [cbn in Hk; lia|cbn in Hk; lia|]. eapply st_second.
        * rewrite dying_add_collection, E1. reflexivity.
        * exact N1.
        * rewrite dying_add_entries, E2. cbn. rewrite Nat.sub_0_r. reflexivity.
      + intros [|[|k]] Hk; [| |cbn in Hk; lia].
        * apply st_first. rewrite dying_add_collection. reflexivity.
        * eapply st_second; [rewrite dying_add_collection, E1; reflexivity|exact N1|].
          rewrite dying_add_entries. cbn [firstn after]. rewrite <- (H1 _ _ _ E1). reflexivity.
  Qed.

  Lemma exec_lift f args st k :
    simple f -> (forall g, f <> FHost g) ->
    let z (T : Type) := fun (_ : list value) (s : T) => (@Panic werr value PFuel, s) in
    exec D (z _) common (lift_fun f) args (st, k)
    = (fst (exec G (z _) common f args st), (snd (exec G (z _) common f args st), k)).
  Proof.
    intros Hs Hh z. destruct f; try destruct Hs; cbn [exec lift_fun].
    - reflexivity.
    - unfold read_command. destruct args as [|[c| |] [|]]; try reflexivity.
      change (l_entries D (st, k) c) with (l_entries G st c). destruct (l_entries G st c); reflexivity.
    - unfold id_command. destruct args as [|v [|]]; reflexivity.
    - unfold docs_command. destruct args; reflexivity.
    - unfold union_command. destruct args as [|[| |l] [|[| |r] [|]]]; reflexivity.
    - unfold filter_command. destruct args as [|[c| |] [|[a| |] [|[b| |] [|[d| |] [|]]]]]; try reflexivity.
      change (l_filter D (st, k) c (Role a d b)) with (l_filter G st c (Role a d b)). destruct (l_filter G st c (Role a d b)); reflexivity.
    - destruct (Hh f eq_refl).
  Qed.

  Lemma simple_same {T} (lig : lig_impl T) rq cs (f : @cmd_fun T) args st : simple f -> (forall g, f <> FHost g) ->
    snd (exec lig rq cs f args st) = st.
  Proof.
    intros Hs Hh. destruct f; try destruct Hs; cbn [exec]; try reflexivity.
    - unfold read_command. destruct args as [|[c| |] [|]]; try reflexivity. destruct (l_entries lig st c); reflexivity.
    - unfold id_command. destruct args as [|v [|]]; reflexivity.
    - unfold docs_command. destruct args; reflexivity.
    - unfold union_command. destruct args as [|[| |l] [|[| |r] [|]]]; reflexivity.
    - unfold filter_command. destruct args as [|[c| |] [|[a| |] [|[b| |] [|[d| |] [|]]]]]; try reflexivity.
      destruct (l_filter lig st c (Role a d b)); reflexivity.
    - destruct (Hh f eq_refl).
  Qed.

  Lemma fail_panic w : @failed werr value (Panic w).
  Proof. intros v; discriminate. Qed.
  Hint Resolve fail_panic : core.

  Lemma crash :
    (forall v st r st', evals G common v st r st' -> cut (evals D common v) st r st')
    /\ (forall q st r st', quotes G common q st r st' -> cut (quotes D common q) st r st')
    /\ (forall n args st r st', does G common n args st r st' -> cut (does D common n args) st r st')
    /\ (forall f args st r st', acts G common f args st r st' -> (forall g, f <> FHost g) ->
        cut (acts D common (lift_fun f) args) st r st').
  Proof.
    apply semantics_ind.
    - intros e st. apply cut_none. intros k. apply ev_element.
    - intros n st. apply cut_none. intros k. apply ev_network.
    - intros q st r st' _ IH. eapply cut_map; [| |exact IH]; intros; apply ev_quote; assumption.
    - intros st. apply cut_none. intros k. apply qu_empty.
    - intros n args st r st' _ IH. eapply cut_map; [| |exact IH]; intros; apply qu_call; assumption.
    - intros v args st H. apply cut_none. intros k. apply qu_other. exact H.
    - intros n args st H. apply cut_none. intros k. apply do_unknown. apply (common_unknown _ H).
    - intros n c args st r st' Hc _ IH.
      eapply cut_map; [| |apply IH; exact (common_no_host _ _ Hc)]; intros s x Hx;
        (eapply do_known; [exact (common_lift _ _ Hc)|exact Hx]).
    - intros f args st r st' Hsi Hh. pose proof (simply_simple _ _ _ _ _ _ _ Hsi) as Hs.
      pose proof (simply_exec _ _ (fun _ s => (Panic PFuel, s)) _ _ _ _ _ Hsi) as Ex.
      assert (st' = st) as -> by (rewrite <- (simple_same G (fun _ s => (Panic PFuel, s)) common f args st Hs Hh), Ex; reflexivity).
      apply cut_none. intros k.
      pose proof (exec_lift f args st k Hs Hh) as E. cbv beta zeta in E. rewrite Ex in E. cbn [fst snd] in E.
      pose proof (exec_simply D common (fun _ s => (Panic PFuel, s)) (lift_fun f) args (st, k)) as A. rewrite E in A. cbn [fst snd] in A.
      apply ac_simple. apply A. destruct f; try destruct Hs; exact Logic.I.
    - intros args st H _. apply cut_none. intros k. apply ac_eq_args. exact H.
    - intros l r st a st1 _ IH Hf _. eapply cut_map; [| |exact IH]; intros s x Hx; apply ac_eq_left; auto.
    - intros l r st a st1 b st2 _ IH1 _ IH2 Hf _. eapply cut_seq; [| | |exact IH1|exact IH2]; intros.
      + eapply ac_eq_right; eauto.
      + apply ac_eq_left; auto.
      + eapply ac_eq_right; eauto.
    - intros l r st a st1 st2 _ IH1 _ IH2 _. eapply cut_seq; [| | |exact IH1|exact IH2]; intros.
      + eapply ac_eq_same; eauto.
      + apply ac_eq_left; auto.
      + eapply ac_eq_right; eauto.
    - intros l r st a st1 b st2 _ IH1 _ IH2 Hn _. eapply cut_seq; [| | |exact IH1|exact IH2]; intros.
      + eapply ac_eq_differ; eauto.
      + apply ac_eq_left; auto.
      + eapply ac_eq_right; eauto.
    - intros args st H _. apply cut_none. intros k. apply ac_fail_args. exact H.
    - intros q st v st1 _ IH _. eapply cut_map; [| |exact IH]; intros; [eapply ac_fail_ok|eapply ac_fail_panic]; eauto.
    - intros q st v st1 _ IH _. eapply cut_map; [| |exact IH]; intros; [eapply ac_fail_err|eapply ac_fail_panic]; eauto.
    - intros q st v st1 _ IH _. eapply cut_map; [| |exact IH]; intros; eapply ac_fail_panic; eauto.
    - intros c n st r st' H _. eapply cut_map; [| |exact (cut_stores _ _ _ _ _ H)]; intros; apply ac_let_network; assumption.
    - intros c q st n st1 r st' _ IH H _. eapply cut_seq; [| | |exact IH|exact (cut_stores _ _ _ _ _ H)]; intros.
      + eapply ac_let_quote; eauto.
      + apply ac_let_panic; assumption.
      + eapply ac_let_quote; eauto.
    - intros c q st w st1 _ IH _. eapply cut_map; [| |exact IH]; intros; apply ac_let_panic; assumption.
    - intros c q st a st1 _ IH H1 H2 _. eapply cut_map; [| |exact IH]; intros; [eapply ac_let_other|eapply ac_let_panic]; eauto.
    - intros args st H1 H2 _. apply cut_none. intros k. apply ac_let_args; assumption.
  Qed.

  Lemma crash_runs calls st r st' : runs G common calls st r st' -> cut (runs D common calls) st r st'.
  Proof.
    induction 1 as [st|c st r st' H|c rest st v st1 r st' H Hne _ IH|c rest st r st' H Hf].
    - apply cut_none. intros k. apply ru_none.
    - apply (proj1 (proj2 (proj2 crash))) in H. eapply cut_map; [| |exact H]; intros; apply ru_last; assumption.
    - apply (proj1 (proj2 (proj2 crash))) in H. eapply cut_seq; [| | |exact H|exact IH]; intros.
      + eapply ru_more; eauto.
      + apply ru_stop; auto.
      + eapply ru_more; eauto.
    - apply (proj1 (proj2 (proj2 crash))) in H. eapply cut_map; [| |exact H]; intros; apply ru_stop; auto.
  Qed.

  (** A run and all its crashes. *)
  Lemma run_calls_crash calls st :
    exists h, snd (run_calls G common calls st) = after I st h
      /\ forall k, fst (snd (run_calls D common calls (st, k))) = after I st (firstn k h)
                   /\ (List.length h <= k -> fst (run_calls D common calls (st, k)) = fst (run_calls G common calls st))
                   /\ (k < List.length h -> fst (run_calls D common calls (st, k)) = Panic PUnwrap).
  Proof.
    destruct (run_calls G common calls st) as [r st'] eqn:E. apply (runs_iff _ _ common_table) in E.
    apply crash_runs in E as (h & Eh & HA & HB). exists h. split; [exact Eh|]. intros k.
    destruct (le_lt_dec (List.length h) k) as [Hl|Hl].
    - specialize (HA k Hl). apply (runs_iff _ _ common_table) in HA. rewrite HA. cbn [fst snd].
      rewrite firstn_all2 by exact Hl. split; [exact Eh|]. split; [reflexivity|lia].
    - specialize (HB k Hl). apply (runs_iff _ _ common_table) in HB. rewrite HB. cbn [fst snd].
      split; [reflexivity|]. split; [lia|reflexivity].
  Qed.
End Crash.
