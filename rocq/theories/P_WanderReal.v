(** * Proofs: release builds of LMDB and drifting DuckDBs follow the references, too *)
From Coq Require Import List Arith NArith Bool String Lia.
From Verif Require Import M_Base M_Data M_Heed M_HeedRel M_Duck M_DuckReal M_Graph M_Interp S_Order S_Str S_Store S_Graph S_Equiv S_DuckReal S_Interp
  P_Ord P_Hist P_Heed P_HeedHist P_Duck P_DuckReal P_HeedRel P_Graph S_Wander P_Wander P_WanderStores.
Import ListNotations.
Open Scope list_scope.

(** A store that cannot be told from one that follows its reference. *)
Section Like.
  Context (B : backend) {S T : Type} (I : trips_impl S) (s0 : S) (fits : list op -> Prop) (J : trips_impl T) (t0 : T) (fits' : list op -> Prop).
  Hypotheses (AB : abides B I s0 fits)
    (pre : forall h g, fits' (h ++ g) -> fits' h)
    (sub : forall h, fits' h -> fits h)
    (like_has : forall h c, fits' h -> (has J (after J t0 h) c <-> has I (after I s0 h) c))
    (like_triples : forall h c, fits' h -> t_triples J (after J t0 h) c = t_triples I (after I s0 h) c)
    (like_filter : forall h c p, fits' h -> t_filter J (after J t0 h) c p = t_filter I (after I s0 h) c p)
    (like_answer : forall h o, fits' (h ++ [o]) -> fst (call_op J (after J t0 h) o) = fst (call_op I (after I s0 h) o)).

  Lemma like_shows h w : fits' h -> (shows J (after J t0 h) w <-> shows I (after I s0 h) w).
  Proof.
    intros F.
    assert (E : forall c, l_entries (graph_impl J) (after J t0 h) c = l_entries (graph_impl I) (after I s0 h) c).
    { intros c. cbn. unfold graph_entries. rewrite (like_triples h _ F). reflexivity. }
    split; intros [H1 H2]; (split; [intros n; rewrite H1|intros c l Hl]).
    - apply like_has, F.
    - rewrite <- E. apply H2, Hl.
    - symmetry. apply like_has, F.
    - rewrite E. apply H2, Hl.
  Qed.

  Lemma like_coll h c a st1 : fits' (h ++ [OAddColl (el_name c)]) ->
    l_add_collection (graph_impl (logged J)) (after J t0 h, h) c = (a, st1) ->
    st1 = (after J t0 (h ++ [OAddColl (el_name c)]), h ++ [OAddColl (el_name c)])
    /\ l_add_collection (graph_impl (logged I)) (after I s0 h, h) c = (a, (after I s0 (h ++ [OAddColl (el_name c)]), h ++ [OAddColl (el_name c)])).
  Proof.
    intros F E. pose proof (like_answer _ _ F) as K. rewrite !after_snoc. cbn [call_op] in *. cbn in E |- *. unfold graph_add_collection in *. cbn in E |- *.
    destruct (t_add_collection J (after J t0 h) (el_name c)) as [x y], (t_add_collection I (after I s0 h) (el_name c)) as [x' y'].
    cbn in E, K |- *. subst x'. injection E as <- <-. auto.
  Qed.

  Lemma like_add h c n a st1 n' : fits' (h ++ [OAdd (el_name c) (trips_of n)]) ->
    l_add_entries (graph_impl (logged J)) (after J t0 h, h) c n = (a, st1, n') ->
    st1 = (after J t0 (h ++ [OAdd (el_name c) (trips_of n)]), h ++ [OAdd (el_name c) (trips_of n)])
    /\ exists n2, l_add_entries (graph_impl (logged I)) (after I s0 h, h) c n
         = (a, (after I s0 (h ++ [OAdd (el_name c) (trips_of n)]), h ++ [OAdd (el_name c) (trips_of n)]), n2).
  Proof.
    intros F E. pose proof (like_answer _ _ F) as K. rewrite !after_snoc. cbn [call_op] in *. cbn in E |- *. unfold graph_add_entries in *. cbn in E |- *.
    fold (trips_of n) in *.
    destruct (t_add_triples J (after J t0 h) (el_name c) (trips_of n)) as [[x y] z], (t_add_triples I (after I s0 h) (el_name c) (trips_of n)) as [[x' y'] z'].
    cbn in E, K |- *. subst x'. injection E as <- <- _. eauto.
  Qed.

  Lemma like_stores h c n r s' h' : stores (graph_impl (logged J)) c n (after J t0 h, h) r (s', h') -> fits' h' ->
    s' = after J t0 h' /\ stores (graph_impl (logged I)) c n (after I s0 h, h) r (after I s0 h', h').
  Proof.
    intros H F. destruct (logged_let J t0 h c n r s' h' H) as (_ & Es & Hh).
    assert (F1 : fits' (h ++ [OAddColl (el_name c)])).
    { destruct Hh as [[-> _]| ->]; [exact F|]. rewrite app_assoc in F. exact (pre _ _ F). }
    inversion H as [a st1 b st2 n' E1 N1 E2 N2|w st1 E1|a st1 w st2 n' E1 N1 E2]; subst.
    - destruct (like_coll _ _ _ _ F1 E1) as [-> X1].
      assert (F2 : fits' ((h ++ [OAddColl (el_name c)]) ++ [OAdd (el_name c) (trips_of n)])).
      { destruct Hh as [(-> & w & X & _)| ->]; [discriminate X|]. rewrite <- app_assoc. exact F. }
      destruct (like_add _ _ _ _ _ _ F2 E2) as [X [n2 X2]]. injection X as _ ->.
      split; [reflexivity|]. eapply st_both; eassumption.
    - destruct (like_coll _ _ _ _ F1 E1) as [X X1]. injection X as _ ->. split; [reflexivity|]. eapply st_first, X1.
    - destruct (like_coll _ _ _ _ F1 E1) as [-> X1].
      assert (F2 : fits' ((h ++ [OAddColl (el_name c)]) ++ [OAdd (el_name c) (trips_of n)])).
      { destruct Hh as [(-> & w' & _ & X)| ->]; [|rewrite <- app_assoc; exact F]. exfalso.
        assert (Z : forall c n a st n', l_add_entries (graph_impl (logged J)) (after J t0 (h ++ [OAddColl (el_name c)]), h ++ [OAddColl (el_name c)]) c n = (a, st, n') ->
                   snd st = (h ++ [OAddColl (el_name c)]) ++ [OAdd (el_name c) (trips_of n)]).
        { clear. intros c n a st n' E. cbn in E. unfold graph_add_entries in E. cbn in E. fold (trips_of n) in E.
          destruct (t_add_triples J (after J t0 (h ++ [OAddColl (el_name c)])) (el_name c) (trips_of n)) as [[x y] z]. cbn in E. injection E as _ <- _. reflexivity. }
        apply Z in E2. cbn [snd] in E2. apply (f_equal (@List.length op)) in E2. rewrite !app_length in E2. cbn in E2. lia. }
      destruct (like_add _ _ _ _ _ _ F2 E2) as [X [n2 X2]]. injection X as _ ->.
      split; [reflexivity|]. eapply st_second; eassumption.
  Qed.

  Lemma abides_like : abides B J t0 fits'.
  Proof.
    split.
    - exact pre.
    - intros h w c F Sw. apply (like_shows h w F) in Sw. pose proof (ab_read _ _ _ _ AB h w c (sub h F) Sw) as K.
      cbn [l_entries graph_impl] in *. unfold graph_entries in *. rewrite (like_triples h _ F). exact K.
    - intros h w c p F Sw. apply (like_shows h w F) in Sw. pose proof (ab_filter _ _ _ _ AB h w c p (sub h F) Sw) as K.
      cbn [l_filter graph_impl] in *. unfold graph_filter in *. rewrite (like_filter h _ _ F). exact K.
    - intros h w c n r s' h' Sw H F. destruct (like_stores _ _ _ _ _ _ H F) as [-> H'].
      assert (Fh : fits' h).
      { destruct (logged_let J t0 h c n r _ h' H) as (_ & _ & [[-> _]| ->]); exact (pre _ _ F). }
      apply (like_shows h w Fh) in Sw. destruct (ab_let _ _ _ _ AB h w c n r _ h' Sw H' (sub _ F)) as (w' & Bi & Sw').
      exists w'. split; [exact Bi|]. apply (like_shows h' w' F). exact Sw'.
  Qed.
End Like.

Lemma abides_release : abides Lmdb release_impl heed_new (fun h => total_weight h < 2 ^ 64)%N.
Proof.
  assert (E : forall h, (total_weight h < 2 ^ 64)%N -> after release_impl heed_new h = after heed_impl heed_new h) by (intros h H; apply release_histories; lia).
  apply (abides_like Lmdb heed_impl heed_new (fun h => total_weight h < 2 ^ 64)%N).
  - exact abides_lmdb.
  - intros h g. rewrite total_weight_app. lia.
  - auto.
  - intros h c F. rewrite (E h F). reflexivity.
  - intros h c F. rewrite (E h F). reflexivity.
  - intros h c p F. rewrite (E h F). reflexivity.
  - intros h o F. assert (Fh : (total_weight h < 2 ^ 64)%N) by (rewrite total_weight_app in F; lia). rewrite (E h Fh).
    destruct (release_same true (after heed_impl heed_new h) o) as [X|X]; [fold heed_impl release_impl in X; rewrite X; reflexivity|].
    exfalso. apply (no_overflow_tight h o); [lia|]. fold heed_impl in X. rewrite X. reflexivity.
Qed.

Section Real.
  Variables (w : weather) (lost : nat -> N).
  Hypotheses (HW : harmless w) (HH : healthy w) (HL : loses w lost).
  Definition real_room (h : list op) : Prop := (dtotal h + lost_by lost (snd (after (real_impl w) (duck_new, O) h)) < 2 ^ 63)%N.

  Lemma real_room_prefix h g : real_room (h ++ g) -> real_room h.
  Proof.
    unfold real_room. induction g as [|o g IH] using rev_ind; [rewrite app_nil_r; auto|].
    intros F. apply IH. rewrite app_assoc, after_snoc, dtotal_app in F.
    destruct (real_reach w lost HW HL (h ++ g)) as (I & _). change rnew with (duck_new, O) in I.
    destruct (after (real_impl w) (duck_new, O) (h ++ g)) as [d n]. pose proof (real_step w lost HW HL d n o I) as [_ R2 _ _ _ _]. cbn [fst snd] in *.
    pose proof (lost_mono lost _ _ R2). lia.
  Qed.

  Lemma abides_real : abides DuckDb (real_impl w) (duck_new, O) real_room.
  Proof.
    apply (abides_like DuckDb duck_impl duck_new (fun h => dtotal h < 2 ^ 63)%N).
    - exact abides_duck.
    - exact real_room_prefix.
    - unfold real_room. intros h. lia.
    - intros h c F. destruct (real_same_reads w lost h HW HH HL F) as (_ & l & l' & El & El' & P). change rnew with (duck_new, O) in El. split.
      + intros (k & Ek & Hi). rewrite El in Ek. injection Ek as <-. exists l'. split; [exact El'|]. eapply Permutation.Permutation_in; eassumption.
      + intros (k & Ek & Hi). rewrite El' in Ek. injection Ek as <-. exists l. split; [exact El|].
        eapply Permutation.Permutation_in; [apply Permutation.Permutation_sym, P|exact Hi].
    - intros h c F. destruct (real_same_reads w lost h HW HH HL F) as [K _]. exact (K c).
    - reflexivity.
    - intros h o F. destruct (real_same w lost (h ++ [o]) HW HH HL F) as [K _]. rewrite !answers_snoc in K. apply app_inj_tail in K as [_ K]. exact K.
  Qed.

  Lemma real_readable h c : exists l, t_triples (real_impl w) (after (real_impl w) (duck_new, O) h) c = Ok l.
  Proof.
    destruct (real_contents w h HW) as [_ K]. specialize (K c). change rnew with (duck_new, O) in K.
    destruct (t_triples (real_impl w) (after (real_impl w) (duck_new, O) h) c) as [l|e|v]; [eauto|destruct K|].
    destruct K as [_ K]. destruct (HH _ K).
  Qed.
  Lemma real_new_empty c : ~ has (real_impl w) (duck_new, O) c.
  Proof.
    intros (l & E & Hi). destruct (real_contents w [] HW) as [K _]. change (after (real_impl w) rnew []) with (duck_new, O) in K. rewrite E in K.
    apply K in Hi. exact (live_nil _ Hi).
  Qed.
End Real.
