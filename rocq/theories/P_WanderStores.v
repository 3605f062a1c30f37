(** * Proofs: each store follows its reference *)
From Coq Require Import List Arith NArith Bool String Lia.
From Verif Require Import M_Base M_Data M_Mem M_Heed M_Duck M_Regex M_Lexer M_Graph M_Parser M_Display M_Interp
  S_Order S_Str S_Store S_Graph S_Filter S_Lexer S_Parser S_Display S_Interp S_GraphHist S_Names S_Json
  P_Ord P_Hist P_Lexer P_LexMore P_Parser P_Display P_Mem P_Heed P_HeedHist P_HeedMore P_Duck P_Graph P_Interp P_InterpMore
  P_InterpStores P_Crash P_InterpProps P_Filter P_Agree P_Sim P_Names S_Wander P_Wander.
Import ListNotations.
Open Scope list_scope.

Section Generic.
  Context {S : Type} (I : trips_impl S) (s0 : S).
  Notation G := (graph_impl I).
  Notation LG := (graph_impl (logged I)).
  Notation ast := (after I s0).

  Lemma entries_name s c c' : el_name c = el_name c' -> l_entries G s c = l_entries G s c'.
  Proof. cbn. unfold graph_entries. intros ->. reflexivity. Qed.

  (** The let of the store with a log is that of the store. *)
  Lemma logged_let h c n r s' h' : stores LG c n (ast h, h) r (s', h') ->
    let_store G c n (ast h) = (r, s') /\ s' = ast h'
    /\ ((h' = h ++ [OAddColl (el_name c)] /\ exists w, r = Panic w /\ err_todo (fst (call_op I (ast h) (OAddColl (el_name c)))) = Panic w)
        \/ h' = h ++ [OAddColl (el_name c)] ++ [OAdd (el_name c) (trips_of n)]).
  Proof.
    assert (C : forall a st1, l_add_collection LG (ast h, h) c = (a, st1) ->
      a = err_todo (fst (call_op I (ast h) (OAddColl (el_name c)))) /\ l_add_collection G (ast h) c = (a, fst st1)
      /\ st1 = (ast (h ++ [OAddColl (el_name c)]), h ++ [OAddColl (el_name c)])).
    { intros a st1 E. rewrite after_snoc. cbn in E |- *. unfold graph_add_collection in *. cbn in E.
      destruct (t_add_collection I (ast h) (el_name c)) as [x y]. cbn in E |- *. injection E as <- <-. auto. }
    assert (A : forall k a st2 n', l_add_entries LG (ast k, k) c n = (a, st2, n') ->
      l_add_entries G (ast k) c n = (a, fst st2, n') /\ st2 = (ast (k ++ [OAdd (el_name c) (trips_of n)]), k ++ [OAdd (el_name c) (trips_of n)])).
    { intros k a st2 n' E. rewrite after_snoc. cbn in E |- *. unfold graph_add_entries in *. cbn in E. fold (trips_of n) in *.
      destruct (t_add_triples I (ast k) (el_name c) (trips_of n)) as [[x y] z]. cbn in *. injection E as <- <- <-. auto. }
    intros H. inversion H as [a st1 b st2 n' E1 N1 E2 N2|w st1 E1|a st1 w st2 n' E1 N1 E2]; subst.
    - destruct (C _ _ E1) as (_ & F1 & ->). destruct (A _ _ _ _ E2) as (F2 & E). injection E as -> ->. cbn [fst] in F1, F2.
      rewrite <- app_assoc in *. split; [|auto]. apply stores_iff. eapply st_both; eassumption.
    - destruct (C _ _ E1) as (E & F1 & X). injection X as -> ->. cbn [fst] in F1. split; [apply stores_iff, st_first, F1|]. eauto 6.
    - destruct (C _ _ E1) as (_ & F1 & ->). destruct (A _ _ _ _ E2) as (F2 & E). injection E as -> ->. cbn [fst] in F1, F2.
      rewrite <- app_assoc in *. split; [|auto]. apply stores_iff. eapply st_second; eassumption.
  Qed.

  (** When both calls of a let work. *)
  Lemma let_result h c n w (P0 : entry -> Prop) :
    let h1 := h ++ [OAddColl (el_name c)] in
    let h2 := h1 ++ [OAdd (el_name c) (trips_of n)] in
    shows I (ast h) w ->
    call_op I (ast h) (OAddColl (el_name c)) = (Ok tt, ast h1) ->
    (forall l0, l_entries G (ast h1) c = Ok l0 -> forall e, In e l0 <-> P0 e) ->
    (forall x, x <> el_name c -> (has I (ast h1) x <-> has I (ast h) x)) -> others_same G (ast h) (ast h1) c ->
    has I (ast h2) (el_name c) -> add_effect I (ast h1) (el_name c) (trips_of n) (ast h2) ->
    (forall x, x <> el_name c -> (has I (ast h2) x <-> has I (ast h1) x)) ->
    let_store G c n (ast h) = (Ok done, ast h2)
    /\ exists w', rebound w (el_name c) (fun e => P0 e \/ stored_form n e) w' /\ shows I (ast h2) w'.
  Proof.
    intros h1 h2 [Sh Sr] E1 H0 Hx1 Ho1 Hc A Hx2.
    destruct (add_entries_spec I _ c n _ A) as [E2 [(l & l' & El & El' & Hs & Hi) Ho2]].
    split; [eapply let_store_ok; eassumption|].
    exists (fun x => if str_dec x (el_name c) then Some l' else w x). split; [|split].
    - split.
      + exists l'. destruct (str_dec (el_name c) (el_name c)) as [_|X]; [|destruct (X eq_refl)]. split; [reflexivity|]. split; [exact Hs|].
        intros e. rewrite Hi, (H0 l El). reflexivity.
      + intros x N. destruct (str_dec x (el_name c)) as [->|_]; [destruct (N eq_refl)|reflexivity].
    - intros x. destruct (str_dec x (el_name c)) as [->|N]; [split; [intros _; exact Hc|discriminate]|].
      rewrite Sh, (Hx2 x N), (Hx1 x N). reflexivity.
    - intros c' k. destruct (str_dec (el_name c') (el_name c)) as [E|N].
      + intros E'. injection E' as <-. rewrite (entries_name _ _ _ E). exact El'.
      + intros E'. etransitivity; [exact (Ho2 c' N)|]. etransitivity; [exact (Ho1 c' N)|]. apply Sr, E'.
  Qed.
End Generic.

Lemma rebound_ext w c P Q w' : (forall e, P e <-> Q e) -> rebound w c P w' -> rebound w c Q w'.
Proof. intros H [(l & E & Hs & Hi) Ho]. split; [|exact Ho]. exists l. split; [exact E|]. split; [exact Hs|]. intros e. rewrite Hi. apply H. Qed.

Lemma none_not_has {S} (I : trips_impl S) s w c : shows I s w -> w c = None -> ~ has I s c.
Proof. intros [Sh _] E H. apply Sh in H. exact (H E). Qed.

Lemma some_has {S} (I : trips_impl S) s w c l : shows I s w -> w c = Some l -> has I s c.
Proof. intros [Sh _] E. apply Sh. congruence. Qed.

(** ** In memory *)
Lemma mem_has_live h c : has mem_impl (after mem_impl mem_new h) c <-> live h c.
Proof. destruct (mem_listing h) as (l & E & _ & Hl). rewrite <- Hl. split; [intros (k & Ek & Hi); rewrite E in Ek; injection Ek as <-; exact Hi|intros H; exists l; auto]. Qed.

Lemma live_others h o c x : target o = c -> x <> c -> (live (h ++ [o]) x <-> live h x).
Proof.
  intros E N. rewrite live_snoc. split; [intros [->|[H _]]; [destruct (N E)|exact H]|]. intros H. right. split; [exact H|].
  intros ->. exact (N E).
Qed.

Lemma abides_mem : abides InMemory mem_impl mem_new (fun _ => True).
Proof.
  split.
  - auto.
  - intros h w c _ Sw. destruct (w (el_name c)) as [l|] eqn:E.
    + rewrite (proj2 Sw c l E). apply rd_there, E.
    + pose proof (none_not_has _ _ _ _ Sw E) as N. rewrite mem_has in N. cbn. unfold graph_entries. cbn. unfold mem_triples.
      destruct (bm_get str_cmp (el_name c) (after mem_impl mem_new h)) as [l|]; [exfalso; eauto|]. cbn. apply rd_mem, E.
  - intros h w c p _ Sw. destruct (w (el_name c)) as [l|] eqn:E.
    + pose proof (some_has _ _ _ _ _ Sw E) as Hh. pose proof (proj2 Sw c l E) as El.
      assert (D : no_variable_names p \/ ~ no_variable_names p).
      { unfold no_variable_names. destruct (variable_dec (subject p)), (variable_dec (object p)); try tauto.
        destruct p as [f s r|a b|a b]; try tauto. destruct (variable_dec (el_name r)); tauto. }
      destruct D as [D|D].
      * destruct (proj1 (graph_filter_ok h c p D) Hh) as (l' & k & El' & Ek & Hs & Hi).
        assert (l' = l) as -> by congruence. rewrite Ek. cbn. apply fi_found with l; [exact E| |split; assumption].
        intros e _. destruct D as (D1 & D2 & D3). unfold reaches_variable, variable_role. destruct p; cbn in *; tauto.
      * destruct (graph_filter_variables h c p D Hh) as (l' & El' & H1 & H2). assert (l' = l) as -> by congruence.
        assert (X : (exists e, In e l /\ reaches_variable p e) \/ forall e, In e l -> ~ reaches_variable p e).
        { assert (R : forall e, reaches_variable p e \/ ~ reaches_variable p e).
          { intros e. unfold reaches_variable.
            assert (DA : forall a b, agrees a b \/ ~ agrees a b).
            { intros a b. unfold agrees. destruct (str_dec a wildcard), (str_dec a b); tauto. }
            destruct (variable_dec (subject p)), (variable_dec (object p)), (DA (subject p) (subject e)); try tauto;
              destruct p as [f s r|a b|a b]; cbn [variable_role role_agrees].
            all: try (destruct (variable_dec (el_name r))); try (destruct (DA (el_name r) (role_name e)));
              try (destruct (str_dec (role_name e) colon)); try (destruct (str_dec (role_name e) not_colon)); tauto. }
          clear - R. induction l as [|e l IH]; [right; intros e []|]. destruct (R e) as [He|He]; [left; exists e; split; [left; reflexivity|exact He]|].
          destruct IH as [(e' & Hi & Hr)|N]; [left; exists e'; split; [right; exact Hi|exact Hr]|].
          right. intros e' [<-|Hi]; [exact He|exact (N e' Hi)]. }
        destruct X as [(e & Hi & Hr)|N].
        -- destruct (H1 (ex_intro _ e (conj Hi Hr))) as [x Ex]. rewrite Ex. cbn. eapply fi_variable; eassumption.
        -- rewrite (H2 N). cbn. apply fi_found with l; [exact E|exact N|]. split; [constructor|]. intros e. split; [intros []|].
           intros [Hi (M1 & M2 & M3)]. apply D. specialize (N e Hi). unfold reaches_variable in N.
           unfold no_variable_names. repeat split; try tauto. destruct p as [f s r|a b|a b]; cbn [variable_role] in N; tauto.
    + pose proof (none_not_has _ _ _ _ Sw E) as N.
      assert (X : exists x, l_filter (graph_impl mem_impl) (after mem_impl mem_new h) c p = Panic x).
      { rewrite mem_has in N. cbn. unfold graph_filter. cbn. unfold mem_filter.
        destruct (bm_get str_cmp (el_name c) (after mem_impl mem_new h)) as [l|]; [exfalso; eauto|]. cbn. eauto. }
      destruct X as [x ->]. cbn. apply fi_missing, E.
  - intros h w c n r s' h' Sw H _. destruct (logged_let mem_impl mem_new h c n r s' h' H) as (E & -> & [(_ & x & _ & X)| ->]); [discriminate X|].
    set (h1 := h ++ [OAddColl (el_name c)]) in *.
    assert (Hg : bm_get str_cmp (el_name c) (after mem_impl mem_new h1) = Some []).
    { unfold h1. rewrite after_snoc, get_add_coll. destruct (str_dec (el_name c) (el_name c)) as [_|X]; [reflexivity|destruct (X eq_refl)]. }
    assert (Hh : has mem_impl (after mem_impl mem_new h1) (el_name c)) by (apply mem_has; eauto).
    destruct (let_result mem_impl mem_new h c n w (fun _ => False) Sw) as (E' & w' & Hr & Sw').
    + rewrite after_snoc. reflexivity.
    + intros l0 El e. cbn in El. unfold graph_entries in El. cbn in El. unfold mem_triples in El. fold h1 in El. rewrite Hg in El. cbn in El.
      injection El as <-. cbn. tauto.
    + intros x N. rewrite !mem_has_live. apply live_others with (el_name c); [reflexivity|exact N].
    + intros c' N. apply entries_same. rewrite after_snoc. apply mem_other. cbn. congruence.
    + apply mem_has_live, live_snoc. right. split; [apply mem_has_live, Hh|discriminate].
    + rewrite (after_snoc mem_impl mem_new h1). apply mem_add_effect. exact Hh.
    + intros x N. rewrite !mem_has_live. apply live_others with (el_name c); [reflexivity|exact N].
    + rewrite app_assoc. rewrite E' in E. injection E as <- _. exists w'. split; [|exact Sw'].
      apply bi_mem. eapply rebound_ext; [|exact Hr]. intros e. cbn. tauto.
Qed.

(** ** LMDB *)
Lemma heed_has_live h c : has heed_impl (after heed_impl heed_new h) c <-> storable c /\ live (acked heed_impl heed_new h) c.
Proof. pose proof (heed_simulates (sure h)) as SM. rewrite after_sure, installed_sure in SM. exact (sim_has true _ _ c SM). Qed.

Lemma acked_others {S} (I : trips_impl S) s0 h o c x : target o = c -> x <> c ->
  (live (acked I s0 (h ++ [o])) x <-> live (acked I s0 h) x).
Proof.
  intros E N. destruct (acked_last_or I s0 h o) as [->| ->]; [|reflexivity]. apply live_others with c; assumption.
Qed.

Lemma sure_app h g : sure (h ++ g) = sure h ++ sure g.
Proof. apply map_app. Qed.

Lemma sure_fst h : map fst (sure h) = h.
Proof. unfold sure. rewrite map_map. apply map_id. Qed.

Lemma abides_lmdb : abides Lmdb heed_impl heed_new (fun h => total_weight h < 2 ^ 64)%N.
Proof.
  split.
  - intros h g. rewrite total_weight_app. lia.
  - intros h w c _ Sw. destruct (w (el_name c)) as [l|] eqn:E.
    + rewrite (proj2 Sw c l E). apply rd_there, E.
    + pose proof (none_not_has _ _ _ _ Sw E) as N. pose proof (heed_triples_missing (sure h) (el_name c)) as K. rewrite after_sure in K.
      apply proj2 in K. specialize (K N). cbn [l_entries graph_impl]. unfold graph_entries. rewrite K. cbn. apply rd_lmdb, E.
  - intros h w c p _ Sw. apply fi_lmdb.
  - intros h w c n r s' h' Sw H Hw. destruct (logged_let heed_impl heed_new h c n r s' h' H) as (E & -> & HH).
    set (h1 := h ++ [OAddColl (el_name c)]) in *.
    assert (W1 : (total_weight h1 < 2 ^ 64)%N).
    { destruct HH as [[-> _]| ->]; [exact Hw|]. rewrite app_assoc in Hw. fold h1 in Hw. rewrite total_weight_app in Hw. lia. }
    assert (A1 : fst (call_op heed_impl (after heed_impl heed_new h) (OAddColl (el_name c))) = Ok tt).
    { pose proof (heed_answers (sure h) (OAddColl (el_name c)) true) as K. rewrite sure_fst, after_sure in K. exact (K W1). }
    destruct HH as [(_ & x & _ & X)|Eh]; [rewrite A1 in X; discriminate X|]. subst h'. rewrite app_assoc in Hw. fold h1 in Hw.
    assert (E1 : call_op heed_impl (after heed_impl heed_new h) (OAddColl (el_name c)) = (Ok tt, after heed_impl heed_new h1)).
    { unfold h1. rewrite after_snoc, <- A1. apply surjective_pairing. }
    assert (Ha : acked heed_impl heed_new h1 = acked heed_impl heed_new h ++ [OAddColl (el_name c)]).
    { unfold h1. rewrite acked_snoc, A1. reflexivity. }
    assert (O1 : forall x, x <> el_name c -> (has heed_impl (after heed_impl heed_new h1) x <-> has heed_impl (after heed_impl heed_new h) x)).
    { intros x N. rewrite !heed_has_live. unfold h1. rewrite (acked_others heed_impl heed_new h (OAddColl (el_name c)) (el_name c) x eq_refl N). reflexivity. }
    assert (R1 : others_same (graph_impl heed_impl) (after heed_impl heed_new h) (after heed_impl heed_new h1) c).
    { intros c' N. apply entries_same. unfold h1. rewrite after_snoc. rewrite <- after_sure.
      change (heed_impl) with (heed_impl_c true) at 2. apply heed_other. cbn. congruence. }
    destruct (storable_dec (el_name c)) as [Hst|Hst].
    + assert (Hh : has heed_impl (after heed_impl heed_new h1) (el_name c)).
      { apply heed_has_live. split; [exact Hst|]. rewrite Ha. apply live_snoc. auto. }
      destruct (heed_create (sure h) c Hst) as (_ & _ & (l0 & El0 & _ & Hl0) & _).
      { rewrite sure_fst. unfold h1 in W1. rewrite total_weight_app in W1. cbn [total_weight fold_right weight] in W1. fold (total_weight h) in W1. lia. }
      change (sure h ++ [(OAddColl (el_name c), true)]) with (sure h ++ sure [OAddColl (el_name c)]) in El0. rewrite <- sure_app in El0.
      rewrite after_sure in El0, Hl0. fold h1 in El0.
      destruct (let_result heed_impl heed_new h c n w (fun e => exists l, w (el_name c) = Some l /\ In e l) Sw E1) as (E' & w' & Hr & Sw').
      * intros l El e. fold h1 in El. assert (l = l0) as -> by congruence. rewrite Hl0. split.
        -- intros (k & Ek & Hi). destruct (w (el_name c)) as [k'|] eqn:Ew.
           ++ exists k'. split; [reflexivity|]. rewrite (proj2 Sw c k' Ew) in Ek. injection Ek as <-. exact Hi.
           ++ exfalso. pose proof (none_not_has _ _ _ _ Sw Ew) as N. pose proof (heed_triples_missing (sure h) (el_name c)) as K. rewrite after_sure in K.
              apply proj2 in K. specialize (K N). cbn [l_entries graph_impl] in Ek. unfold graph_entries in Ek. rewrite K in Ek. discriminate Ek.
        -- intros (k & Ek & Hi). exists k. split; [apply (proj2 Sw), Ek|exact Hi].
      * exact O1.
      * exact R1.
      * apply heed_has_live. split; [exact Hst|]. apply heed_has_live in Hh as [_ Hl]. fold h1.
        destruct (acked_last_or heed_impl heed_new h1 (OAdd (el_name c) (trips_of n))) as [->| ->]; [|exact Hl].
        apply live_snoc. right. split; [exact Hl|discriminate].
      * fold h1. rewrite (after_snoc heed_impl heed_new h1). rewrite <- after_sure. apply (heed_add_effect (sure h1)).
        -- rewrite after_sure. exact Hh.
        -- rewrite sure_fst. exact Hw.
      * intros x N. rewrite !heed_has_live. fold h1. rewrite (acked_others heed_impl heed_new h1 (OAdd (el_name c) (trips_of n)) (el_name c) x eq_refl N). reflexivity.
      * rewrite app_assoc. fold h1 in E', Sw' |- *. rewrite E' in E. injection E as <- _. exists w'. split; [|exact Sw']. apply bi_lmdb; assumption.
    + assert (N1 : ~ has heed_impl (after heed_impl heed_new h1) (el_name c)) by (rewrite heed_has_live; tauto).
      assert (N0 : ~ has heed_impl (after heed_impl heed_new h) (el_name c)) by (rewrite heed_has_live; tauto).
      pose proof (heed_write_missing (sure h1) (el_name c) (trips_of n) true) as K. rewrite after_sure in K. destruct (K N1) as [K1 _]. clear K.
      change (call_op heed_impl (after heed_impl heed_new h1) (OAdd (el_name c) (trips_of n)) = (Panic PTodo, after heed_impl heed_new h1)) in K1.
      assert (Es : after heed_impl heed_new (h1 ++ [OAdd (el_name c) (trips_of n)]) = after heed_impl heed_new h1) by (rewrite after_snoc, K1; reflexivity).
      assert (Er : r = Panic PTodo).
      { unfold let_store in E. rewrite add_collection_eq, E1 in E. cbn [fst snd err_todo] in E.
        cbn [l_add_entries graph_impl] in E. unfold graph_add_entries in E. fold (trips_of n) in E. cbn [call_op] in K1.
        destruct (t_add_triples heed_impl (after heed_impl heed_new h1) (el_name c) (trips_of n)) as [[x y] z]. cbn in K1. injection K1 as -> ->.
        cbn in E. congruence. }
      subst r. exists w. split; [apply bi_lmdb_name, Hst|]. rewrite app_assoc. fold h1. rewrite Es. split.
      * intros x. rewrite (proj1 Sw x). destruct (str_dec x (el_name c)) as [->|N]; [tauto|]. symmetry. apply O1, N.
      * intros c' k Ek. assert (N : el_name c' <> el_name c).
        { intros X. apply N0. rewrite <- X. eapply some_has; eassumption. }
        etransitivity; [exact (R1 c' N)|]. apply (proj2 Sw), Ek.
Qed.

(** ** DuckDB *)
Lemma duck_has_live h c : has duck_impl (after duck_impl duck_new h) c <-> live (acked duck_impl duck_new h) c.
Proof.
  destruct (duck_history h) as [(l & E & _ & Hl) _]. rewrite <- Hl. split.
  - intros (l' & E' & Hi). rewrite E in E'. injection E' as <-. exact Hi.
  - intros Hi. exists l. auto.
Qed.

Lemma abides_duck : abides DuckDb duck_impl duck_new (fun h => dtotal h < 2 ^ 63)%N.
Proof.
  split.
  - intros h g. rewrite dtotal_app. lia.
  - intros h w c _ Sw. destruct (w (el_name c)) as [l|] eqn:E.
    + rewrite (proj2 Sw c l E). apply rd_there, E.
    + pose proof (none_not_has _ _ _ _ Sw E) as N. destruct (duck_outside h (el_name c)) as (_ & _ & K). destruct (K N) as [K1 _].
      cbn [l_entries graph_impl]. unfold graph_entries. rewrite K1. cbn. apply rd_duck, E.
  - intros h w c p _ Sw. apply fi_duck.
  - intros h w c n r s' h' Sw H Hw. destruct (logged_let duck_impl duck_new h c n r s' h' H) as (E & -> & HH).
    set (h1 := h ++ [OAddColl (el_name c)]) in *.
    assert (W1 : (dtotal h1 < 2 ^ 63)%N).
    { destruct HH as [[-> _]| ->]; [exact Hw|]. rewrite app_assoc in Hw. fold h1 in Hw. rewrite dtotal_app in Hw. lia. }
    pose proof (duck_answers h (OAddColl (el_name c)) W1) as A. cbv zeta in A. destruct A as [A1 A2].
    destruct (w (el_name c)) as [l|] eqn:Ew.
    + pose proof (some_has _ _ _ _ _ Sw Ew) as Hh. destruct (duck_outside h (el_name c)) as (K & _). specialize (K Hh).
      assert (Es : after duck_impl duck_new h1 = after duck_impl duck_new h) by (unfold h1; rewrite after_snoc, K; reflexivity).
      assert (E2 : let_store (graph_impl duck_impl) c n (after duck_impl duck_new h) = (Panic PUnwrap, after duck_impl duck_new h)).
      { unfold let_store. rewrite add_collection_eq, K. reflexivity. }
      rewrite E2 in E. injection E as <- E3. exists w. split; [eapply bi_duck_again; exact Ew|]. rewrite <- E3. exact Sw.
    + pose proof (none_not_has _ _ _ _ Sw Ew) as N. specialize (A1 N).
      destruct HH as [(_ & x & _ & X)|Eh]; [rewrite A1 in X; discriminate X|]. subst h'. rewrite app_assoc in Hw. fold h1 in Hw.
      assert (E1 : call_op duck_impl (after duck_impl duck_new h) (OAddColl (el_name c)) = (Ok tt, after duck_impl duck_new h1)).
      { unfold h1. rewrite after_snoc, <- A1. apply surjective_pairing. }
      assert (Ha : acked duck_impl duck_new h1 = acked duck_impl duck_new h ++ [OAddColl (el_name c)]).
      { unfold h1. rewrite acked_snoc, A1. reflexivity. }
      assert (Hh : has duck_impl (after duck_impl duck_new h1) (el_name c)).
      { apply duck_has_live. rewrite Ha. apply live_snoc. auto. }
      destruct (let_result duck_impl duck_new h c n w (fun _ => False) Sw E1) as (E' & w' & Hr & Sw').
      * intros l0 El e. fold h1 in El. destruct (duck_history h1) as (_ & HT). destruct (HT (el_name c)) as (k & Ek & _ & Ik).
        destruct (entries_spec duck_impl _ c k Ek) as (es & Ees & _ & Hes). assert (es = l0) as -> by congruence. rewrite Hes. split; [|tauto].
        intros [_ Hi]. apply Ik in Hi. rewrite Ha in Hi. apply holds_after_snoc in Hi as [(? & X & _)|[Hi _]]; [discriminate X|].
        apply N. apply duck_has_live. exact (holds_after_live _ _ _ Hi).
      * intros x Nx. rewrite !duck_has_live. unfold h1. apply (acked_others duck_impl duck_new h (OAddColl (el_name c)) (el_name c) x eq_refl Nx).
      * intros c' Nx. apply entries_same. unfold h1. rewrite after_snoc. apply duck_other. cbn. congruence.
      * fold h1. apply duck_has_live. apply duck_has_live in Hh.
        destruct (acked_last_or duck_impl duck_new h1 (OAdd (el_name c) (trips_of n))) as [->| ->]; [|exact Hh].
        apply live_snoc. right. split; [exact Hh|discriminate].
      * fold h1. rewrite (after_snoc duck_impl duck_new h1). apply duck_add_effect; [exact Hh|exact Hw].
      * intros x Nx. fold h1. rewrite !duck_has_live. apply (acked_others duck_impl duck_new h1 (OAdd (el_name c) (trips_of n)) (el_name c) x eq_refl Nx).
      * rewrite app_assoc. fold h1 in E', Sw' |- *. rewrite E' in E. injection E as <- _. exists w'. split; [|exact Sw'].
        apply bi_duck; [exact Ew|]. eapply rebound_ext; [|exact Hr]. intros e. cbn. tauto.
Qed.
