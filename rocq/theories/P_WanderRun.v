(** * Proofs: runs and sessions follow the reference *)
From Coq Require Import List Arith NArith Bool String Lia.
From Verif Require Import M_Base M_Data M_Mem M_Heed M_Duck M_Regex M_Lexer M_Graph M_Parser M_Display M_Interp
  S_Order S_Str S_Store S_Graph S_Filter S_Lexer S_Parser S_Display S_Interp S_GraphHist S_Names S_Json
  P_Ord P_Hist P_Lexer P_LexMore P_Parser P_Display P_Mem P_Heed P_HeedHist P_HeedMore P_Duck P_Graph P_Interp P_InterpMore
  P_InterpStores P_Crash P_InterpProps P_Filter P_Agree P_Sim P_Names S_Wander P_Wander P_WanderStores P_WanderReal P_HeedRel P_WanderDet.
Import ListNotations.
Open Scope list_scope.

Lemma implements_abides B S (I : trips_impl S) s0 room : implements B I s0 room -> abides B I s0 room.
Proof. intros [| | | |w lost HW HH HL]; [exact abides_mem|exact abides_lmdb|exact abides_duck|exact abides_release|exact (abides_real w lost HW HH HL)]. Qed.

Section Log.
  Context {S : Type} (I : trips_impl S).
  Notation G := (graph_impl I).
  Notation LG := (graph_impl (logged I)).

  (** The log changes nothing. *)
  Lemma logged_run script s h r s' h' : run LG common script (s, h) = (r, (s', h')) -> run G common script s = (r, s').
  Proof.
    intros E.
    destruct (sim_script LG G (fun a b => b = fst a) (fun _ => True)) with (script := script) (a := (s, h)) (r := r) (a' := (s', h')) (b := s) as (b' & E' & Hb).
    - intros a b c x a' -> Ea _. cbn in Ea |- *. unfold graph_add_collection in *. cbn in Ea.
      destruct (t_add_collection I (fst a) (el_name c)) as [y z]. cbn in Ea. injection Ea as <- <-. eexists. eexists. split; [reflexivity|]. split; [reflexivity|].
      intros w. reflexivity.
    - intros a b c n x a' n' -> Ea _. cbn in Ea |- *. unfold graph_add_entries in *. cbn in Ea. fold (trips_of n) in *.
      destruct (t_add_triples I (fst a) (el_name c) (trips_of n)) as [[y z] t]. cbn in Ea. injection Ea as <- <- <-.
      eexists. eexists. eexists. split; [reflexivity|]. split; [reflexivity|]. intros w. reflexivity.
    - intros a b c -> _. reflexivity.
    - intros a b c p -> _. reflexivity.
    - exact E.
    - intros w _. exact Logic.I.
    - reflexivity.
    - cbn in Hb. subst b'. exact E'.
  Qed.

  Lemma run_logged script s h r s' : run G common script s = (r, s') -> exists h', run LG common script (s, h) = (r, (s', h')).
  Proof.
    intros E. destruct (run LG common script (s, h)) as [r2 [s2 h2]] eqn:E2. pose proof (logged_run _ _ _ _ _ _ E2) as E3.
    rewrite E in E3. injection E3 as -> ->. eauto.
  Qed.
End Log.

Section Ref.
  Context (B : backend) {S : Type} (I : trips_impl S) (s0 : S) (room : list op -> Prop) (AB : abides B I s0 room).
  Notation G := (graph_impl I).
  Notation LG := (graph_impl (logged I)).

  Lemma reference_run h script w r s' h' : shows I (after I s0 h) w ->
    run LG common script (after I s0 h, h) = (r, (s', h')) -> room h' ->
    s' = after I s0 h' /\ (exists g, h' = h ++ g) /\ exists w', means B w script (outcome_of r) w' /\ shows I s' w'.
  Proof.
    intros Sw E R. destruct (follows_run B I s0 room AB script _ _ _ E eq_refl) as (A & P & K). cbn [fst snd] in *.
    split; [exact A|]. split; [exact P|]. exact (K R w Sw).
  Qed.

  Lemma reference_session scripts : forall h w rs s' h', shows I (after I s0 h) w ->
    session LG scripts (after I s0 h, h) = (rs, (s', h')) -> room h' ->
    s' = after I s0 h' /\ (exists g, h' = h ++ g) /\ exists w', all_mean B w scripts (map outcome_of rs) w' /\ shows I s' w'.
  Proof.
    assert (PRE : forall scripts h rs s' h', session LG scripts (after I s0 h, h) = (rs, (s', h')) -> s' = after I s0 h' /\ exists g, h' = h ++ g).
    { clear scripts. induction scripts as [|x rest IH]; intros h rs s' h' E; cbn [session] in E.
      - injection E as <- <- <-. split; [reflexivity|exists []; symmetry; apply app_nil_r].
      - destruct (run LG common x (after I s0 h, h)) as [r [s1 h1]] eqn:E1. destruct (session LG rest (s1, h1)) as [rs2 st2] eqn:E2. injection E as <- ->.
        destruct (follows_run B I s0 room AB x _ _ _ E1 eq_refl) as (A & [g1 P1] & _). unfold at_log in A. cbn [fst snd] in A, P1. subst s1 h1.
        destruct (IH _ _ _ _ E2) as [-> [g2 ->]]. split; [reflexivity|]. exists (g1 ++ g2). rewrite app_assoc. reflexivity. }
    induction scripts as [|x rest IH]; intros h w rs s' h' Sw E R.
    - destruct (PRE _ _ _ _ _ E) as [A P]. split; [exact A|]. split; [exact P|]. cbn in E. injection E as <- <- <-. exists w. split; [constructor|exact Sw].
    - destruct (PRE _ _ _ _ _ E) as [A P]. split; [exact A|]. split; [exact P|]. cbn [session] in E.
      destruct (run LG common x (after I s0 h, h)) as [r [s1 h1]] eqn:E1. destruct (session LG rest (s1, h1)) as [rs2 st2] eqn:E2. injection E as <- ->.
      destruct (follows_run B I s0 room AB x _ _ _ E1 eq_refl) as (A1 & [g1 P1] & K1). unfold at_log in A1. cbn [fst snd] in A1, P1, K1. subst s1.
      destruct (PRE _ _ _ _ _ E2) as [_ [g2 P2]].
      assert (R1 : room h1) by (rewrite P2 in R; exact (ab_prefix _ _ _ _ AB _ _ R)).
      destruct (K1 R1 w Sw) as (w1 & M1 & Sw1). destruct (IH _ _ _ _ _ Sw1 E2 R) as (_ & _ & w2 & M2 & Sw2).
      exists w2. split; [|exact Sw2]. cbn [map]. econstructor; eassumption.
  Qed.
End Ref.

(** ** Worlds *)
Lemma shows_same {S} (I : trips_impl S) s w w' : same_world w w' -> shows I s w -> shows I s w'.
Proof. intros E [H1 H2]. split; [intros n; rewrite <- E; apply H1|]. intros c l Hl. apply H2. rewrite E. exact Hl. Qed.

Lemma shows_fun {S} (I : trips_impl S) s w w' : shows I s w -> shows I s w' -> same_world w w'.
Proof.
  intros [H1 H2] [H1' H2'] n. destruct (w n) as [l|] eqn:E; destruct (w' n) as [l'|] eqn:E'; try reflexivity.
  - pose proof (H2 (mkE n) l E) as X. rewrite (H2' (mkE n) l' E') in X. congruence.
  - exfalso. assert (X : w n <> None) by congruence. apply H1, H1' in X. congruence.
  - exfalso. assert (X : w' n <> None) by congruence. apply H1', H1 in X. congruence.
Qed.

(** The world of a store: read what is listed. *)
Definition world_of {S} (I : trips_impl S) (s : S) : world := fun n =>
  match t_collections I s with
  | Ok l => if in_dec (list_eq_dec N.eq_dec) n l
            then match l_entries (graph_impl I) s (mkE n) with Ok es => Some es | _ => None end else None
  | _ => None
  end.

Lemma world_of_shows {S} (I : trips_impl S) s : (forall n, has I s n -> exists l, t_triples I s n = Ok l) -> shows I s (world_of I s).
Proof.
  intros H. assert (R : forall n, has I s n -> exists es, l_entries (graph_impl I) s (mkE n) = Ok es).
  { intros n Hn. destruct (H n Hn) as [l El]. destruct (entries_spec I s (mkE n) l El) as (es & E & _). eauto. }
  unfold world_of. split.
  - intros n. unfold has at 1. destruct (t_collections I s) as [l|e|w] eqn:E; [|split; [congruence|intros (x & X & _); discriminate X]..].
    destruct (in_dec (list_eq_dec N.eq_dec) n l) as [Hi|Hi].
    + assert (Hn : has I s n) by (exists l; auto). destruct (R n Hn) as [es ->]. split; [eauto|discriminate].
    + split; [congruence|]. intros (x & X & Hx). injection X as <-. destruct (Hi Hx).
  - intros c l. destruct (t_collections I s) as [k|e|w] eqn:E; [|discriminate..].
    destruct (in_dec (list_eq_dec N.eq_dec) (el_name c) k) as [Hi|Hi]; [|discriminate].
    destruct (l_entries (graph_impl I) s (mkE (el_name c))) as [es|e|w] eqn:E2; [|discriminate..]. intros X. injection X as <-. exact E2.
Qed.

Lemma implements_readable B S (I : trips_impl S) s0 room h n : implements B I s0 room ->
  has I (after I s0 h) n -> exists l, t_triples I (after I s0 h) n = Ok l.
Proof.
  intros [| | | |u lost HW HH HL] Hn.
  - apply mem_readable, Hn.
  - pose proof (heed_triples_missing (sure h) n) as K. rewrite after_sure in K. exact (proj1 K Hn).
  - destruct (duck_history h) as [_ K]. destruct (K n) as (l & E & _). eauto.
  - destruct (release_readable h n Hn) as (l & E & _). eauto.
  - exact (real_readable u HW HH h n).
Qed.
