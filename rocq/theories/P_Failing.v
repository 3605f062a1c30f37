(** * Proofs: the code follows the reference when the disk fails *)
From Coq Require Import List Arith NArith Bool String Lia.
From Verif Require Import M_Base M_Data M_Mem M_Heed M_Duck M_Txn M_Regex M_Lexer M_Graph M_Parser M_Display M_Interp M_Conc M_TxnConc
  S_Order S_Str S_Store S_Txn S_Graph S_Filter S_Lexer S_Parser S_Display S_Interp S_GraphHist S_Names S_Json S_Conc S_TxnConc
  P_Ord P_Hist P_Lexer P_LexMore P_Parser P_Display P_Mem P_Heed P_HeedHist P_HeedMore P_Duck P_Graph P_Interp P_InterpMore
  P_InterpStores P_Crash P_InterpProps P_Filter P_Agree P_Sim P_Names P_Txn P_Wander P_WanderStores P_WanderDet P_WanderRun P_DeathRun S_Wander S_Failing.
Import ListNotations.
Open Scope list_scope.

Notation hfits := (fun h => total_weight h < 2 ^ 64)%N.
Notation hafter' := (after heed_impl heed_new).

(** ** Single calls *)

(** A call, its writes and its commit failing as the fault says. *)
Definition attempt (f : fault) (d : heed) (o : op) : tres unit * heed :=
  let (r, x) := call_op (heed_impl_w (fst f)) d o in (r, if snd f then x else d).

Lemma attempt_sure d o : attempt no_fault d o = call_op heed_impl d o.
Proof. unfold attempt, no_fault. cbn [fst snd]. rewrite no_failure. destruct (call_op heed_impl d o); reflexivity. Qed.

Lemma attempt_cases f d o : attempt f d o = call_op heed_impl d o
  \/ (exists r, attempt f d o = (r, d) /\ (r = Ok tt \/ r = fst (call_op heed_impl d o) \/ exists x, r = Panic x)).
Proof.
  destruct f as [l b]. unfold attempt. cbn [fst snd].
  assert (K : call_op (heed_impl_w l) d o = call_op heed_impl d o \/ call_op (heed_impl_w l) d o = (Ok tt, d)
              \/ exists x, call_op (heed_impl_w l) d o = (Panic x, d)).
  { destruct l as [j|]; [|left; apply no_failure]. destruct (write_failure d o) as (n & _ & H1 & H2). destruct (le_lt_dec n j) as [H|H].
    - left. apply H1, H.
    - right. apply H2, H. }
  destruct K as [-> |[-> |[x ->]]].
  - destruct (call_op heed_impl d o) as [r y]. destruct b; [left; reflexivity|]. right. exists r. auto.
  - right. exists (Ok tt). destruct b; auto.
  - right. exists (Panic x). destruct b; eauto.
Qed.

Lemma there_get g c : has heed_impl (hafter' g) c -> exists i, sget (h_c2i (hafter' g)) c = Ok (Some i).
Proof.
  intros H. pose proof H as H'. apply heed_has_live in H as [Hs _]. apply heed_has in H' as [i Hi]. exists i. unfold sget.
  apply key_storable_iff, storable_readable in Hs. rewrite Hs. f_equal. exact Hi.
Qed.

Lemma add_there f g c : has heed_impl (hafter' g) c -> attempt f (hafter' g) (OAddColl c) = (Ok tt, hafter' g).
Proof.
  intros H. destruct (there_get g c H) as [i E]. unfold attempt.
  assert (call_op (heed_impl_w (fst f)) (hafter' g) (OAddColl c) = (Ok tt, hafter' g)) as ->; [|destruct (snd f); reflexivity].
  change (run_act (fine_add_collection c) (fst f) (hafter' g) = (Ok tt, hafter' g)). unfold run_act, fine_add_collection. rewrite open_then, get_then, E. reflexivity.
Qed.

Lemma add_absent f d c ts : ~ has heed_impl d c -> exists x, attempt f d (OAdd c ts) = (Panic x, d).
Proof.
  intros H. pose proof (not_has_get d c H) as E. unfold attempt.
  assert (exists x, call_op (heed_impl_w (fst f)) d (OAdd c ts) = (Panic x, d)) as [x ->]; [|exists x; destruct (snd f); reflexivity].
  change (exists x, run_act (fine_add_triples c ts) (fst f) d = (Panic x, d)). unfold run_act, fine_add_triples. rewrite open_then, get_then.
  destruct (sget (h_c2i d) c) as [[i|]|e|x]; [destruct (E i eq_refl)|eexists; reflexivity..].
Qed.

Lemma add_nothing f d c : attempt f d (OAdd c []) = (fst (call_op heed_impl d (OAdd c [])), d).
Proof.
  assert (E : forall l, call_op (heed_impl_w l) d (OAdd c []) = (fst (call_op heed_impl d (OAdd c [])), d)).
  { intros l. rewrite <- no_failure. change (run_act (fine_add_triples c []) l d = (fst (run_act (fine_add_triples c []) None d), d)).
    unfold run_act, fine_add_triples. rewrite !open_then, !get_then.
    destruct (sget (h_c2i d) c) as [[i|]|e|x]; try reflexivity. rewrite !open_then, !get_then.
    destruct (sget (h_ids d) id_key) as [[v|]|e|x]; reflexivity. }
  unfold attempt. rewrite E. destruct (snd f); reflexivity.
Qed.

(** The first write fails: noticed. *)
Lemma intern_first v s d : (exists a b, fine_intern v s (Txn d (Some 0) false) = (Ok a, Txn d (Some 0) b))
  \/ exists x, fst (fine_intern v s (Txn d (Some 0) false)) = Panic x.
Proof.
  unfold fine_intern. rewrite get_then. destruct (sget (h_v2i d) s) as [[i|]|e|x]; [left; do 2 eexists; reflexivity|..].
  all: rewrite open_then; destruct (u64_add1 v); [|right; eexists; reflexivity].
  all: left; unfold put_v2i, put_i2v, bind, write_db; cbn; destruct (key_storable s); do 2 eexists; reflexivity.
Qed.

Lemma panic_then {A B} (m : act A) (k : A -> act B) x : (exists w, fst (m x) = Panic w) -> exists w, fst (bind m k x) = Panic w.
Proof. intros [w E]. exists w. apply bind_fst_panic, E. Qed.

Lemma brittle_bad {A} (m : act A) d l : brittle m -> exists w, fst (m (Txn d l true)) = Panic w.
Proof. intros H. destruct (H d l) as [w ->]. exists w. reflexivity. Qed.

Lemma one_first c v t d : exists x, fst (fine_add_one c v t (Txn d (Some 0) false)) = Panic x.
Proof.
  unfold fine_add_one. rewrite open_then.
  assert (Z : forall v s (k : N * N -> act N), (forall a, brittle (k a)) ->
    (forall a, exists x, fst (k a (Txn d (Some 0) false)) = Panic x) -> exists x, fst (bind (fine_intern v s) k (Txn d (Some 0) false)) = Panic x).
  { intros v' s k HB HG. destruct (intern_first v' s d) as [(a & b & E)|P]; [|apply panic_then, P]. unfold bind. rewrite E.
    destruct b; [apply brittle_bad, HB|apply HG]. }
  apply Z; [intros f; apply brittle_first, brittle_intern|intros f].
  apply Z; [intros s; apply brittle_first, brittle_intern|intros s].
  apply Z; [intros o; apply brittle_open|intros o].
  rewrite open_then. unfold bind at 1. unfold put_ids, write_db. cbn [x_bad x_left x_db]. change (key_storable id_key) with true. cbv iota.
  apply brittle_bad. destruct (row_keys _ _ _ _) as [[[[[[k1 k2] k3] k4] k5] k6]|]; [apply brittle_first, brittle_open|apply brittle_fail].
Qed.

Lemma add_first_fails d c ts : ts <> [] -> exists x, attempt (Some 0, true) d (OAdd c ts) = (Panic x, d).
Proof.
  intros N. destruct ts as [|t ts]; [destruct (N eq_refl)|]. unfold attempt. cbn [fst snd].
  assert (exists x, call_op (heed_impl_w (Some 0)) d (OAdd c (t :: ts)) = (Panic x, d)) as [x ->]; [|eauto].
  change (exists x, run_act (fine_add_triples c (t :: ts)) (Some 0) d = (Panic x, d)).
  assert (Q : exists x, fst (fine_add_triples c (t :: ts) (Txn d (Some 0) false)) = Panic x).
  { unfold fine_add_triples. rewrite open_then, get_then. destruct (sget (h_c2i d) c) as [[i|]|e|x]; [|eexists; reflexivity..].
    rewrite open_then, get_then. destruct (sget (h_ids d) id_key) as [[v|]|e|x]; [|eexists; reflexivity..].
    apply panic_then. cbn [fine_add_loop]. apply panic_then. apply one_first. }
  unfold run_act. destruct (fine_add_triples c (t :: ts) (Txn d (Some 0) false)) as [r x]. destruct Q as [w E]. cbn in E. subst r. eauto.
Qed.

(** ** A let *)
Notation LM := (logged lmdb_at_once).
Notation LG := (graph_impl LM).

Lemma fail_coll d fs h c : l_add_collection LG ((d, fs), h) c
  = let (r, d1) := attempt (hd no_fault fs) d (OAddColl (el_name c)) in (err_todo r, ((d1, tl fs), h ++ [OAddColl (el_name c)])).
Proof.
  cbn. unfold graph_add_collection. cbn. unfold write_at_once, attempt. cbn [fst snd call_op heed_impl_w t_add_collection].
  destruct (run_act (fine_add_collection (el_name c)) (fst (hd no_fault fs)) d). reflexivity.
Qed.

Lemma fail_add d fs h c n : l_add_entries LG ((d, fs), h) c n
  = let (r, d1) := attempt (hd no_fault fs) d (OAdd (el_name c) (trips_of n)) in (err_todo r, ((d1, tl fs), h ++ [OAdd (el_name c) (trips_of n)]), n).
Proof.
  cbn. unfold graph_add_entries. cbn. fold (trips_of n). unfold write_at_once, attempt. cbn [fst snd call_op heed_impl_w t_add_triples].
  destruct (run_act (fine_add_triples (el_name c) (trips_of n)) (fst (hd no_fault fs)) d). reflexivity.
Qed.

Lemma add_coll_ok g c : hfits (g ++ [OAddColl c]) -> call_op heed_impl (hafter' g) (OAddColl c) = (Ok tt, hafter' (g ++ [OAddColl c])).
Proof.
  intros W. rewrite after_snoc. pose proof (heed_answers (sure g) (OAddColl c) true) as K. rewrite sure_fst, after_sure in K.
  rewrite <- (K W). apply surjective_pairing.
Qed.

Lemma add_ok g c ts : has heed_impl (hafter' g) c -> hfits (g ++ [OAdd c ts]) -> call_op heed_impl (hafter' g) (OAdd c ts) = (Ok tt, hafter' (g ++ [OAdd c ts])).
Proof.
  intros H W. rewrite after_snoc. pose proof (heed_answers (sure g) (OAdd c ts) true) as K. rewrite sure_fst, after_sure in K.
  rewrite <- (proj1 (K W) H). apply surjective_pairing.
Qed.

Lemma well_coll {S} (I : trips_impl S) d h c : l_add_collection (graph_impl (logged I)) (d, h) c
  = let (r, x) := call_op I d (OAddColl (el_name c)) in (err_todo r, (x, h ++ [OAddColl (el_name c)])).
Proof. cbn. unfold graph_add_collection. cbn. destruct (t_add_collection I d (el_name c)). reflexivity. Qed.

Lemma well_add {S} (I : trips_impl S) d h c n : l_add_entries (graph_impl (logged I)) (d, h) c n
  = let (r, x) := call_op I d (OAdd (el_name c) (trips_of n)) in (err_todo r, (x, h ++ [OAdd (el_name c) (trips_of n)]), n).
Proof.
  cbn. unfold graph_add_entries. cbn. fold (trips_of n). destruct (t_add_triples I d (el_name c) (trips_of n)) as [[r x] y]. reflexivity.
Qed.

(** The worlds after the halves of a let that go well. *)
Lemma first_half g w c : shows heed_impl (hafter' g) w -> hfits (g ++ [OAddColl (el_name c)]) ->
  has heed_impl (hafter' (g ++ [OAddColl (el_name c)])) (el_name c) ->
  exists w1, binds w (el_name c) [] Lmdb (Answers done) w1 /\ shows heed_impl (hafter' (g ++ [OAddColl (el_name c)])) w1.
Proof.
  intros Sw W H. destruct (creates_lmdb g w c (Ok tt) (hafter' (g ++ [OAddColl (el_name c)])) (g ++ [OAddColl (el_name c)]) Sw) as (o & w1 & Bi & S1); [|exact W|].
  - rewrite well_coll, (add_coll_ok g (el_name c) W). reflexivity.
  - exists w1. split; [|exact S1]. inversion Bi; subst; [exact Bi|]. exfalso. apply heed_has_live in H. tauto.
Qed.

Lemma whole_let g w c n : shows heed_impl (hafter' g) w -> hfits (g ++ [OAddColl (el_name c)] ++ [OAdd (el_name c) (trips_of n)]) ->
  has heed_impl (hafter' (g ++ [OAddColl (el_name c)])) (el_name c) ->
  exists w1, binds w (el_name c) n Lmdb (Answers done) w1 /\ shows heed_impl (hafter' (g ++ [OAddColl (el_name c)] ++ [OAdd (el_name c) (trips_of n)])) w1.
Proof.
  intros Sw W H. assert (W1 : hfits (g ++ [OAddColl (el_name c)])) by (rewrite app_assoc in W; cbv beta in *; rewrite total_weight_app in W; lia).
  destruct (ab_let _ _ _ _ abides_lmdb g w c n (Ok done) (hafter' (g ++ [OAddColl (el_name c)] ++ [OAdd (el_name c) (trips_of n)]))
    (g ++ [OAddColl (el_name c)] ++ [OAdd (el_name c) (trips_of n)]) Sw) as (w1 & Bi & S1); [|exact W|exists w1; auto].
  eapply st_both with (a := Ok tt) (b := Ok tt); [|discriminate| |discriminate].
  - rewrite well_coll, (add_coll_ok g (el_name c) W1). reflexivity.
  - rewrite well_add, (add_ok (g ++ [OAddColl (el_name c)]) (el_name c) (trips_of n) H) by (rewrite <- app_assoc; exact W).
    rewrite <- app_assoc. reflexivity.
Qed.

(** The states of runs: what was done is some of what was logged. *)
Definition at_f (st : (heed * list fault) * list op) : Prop :=
  exists g, fst (fst st) = hafter' g /\ (total_weight g <= total_weight (snd st))%N.

Lemma weight_coll g h c : (total_weight g <= total_weight h)%N -> (total_weight (g ++ [OAddColl c]) <= total_weight (h ++ [OAddColl c]))%N.
Proof. rewrite !total_weight_app. lia. Qed.

Lemma lmdb_shows d fs w : shows lmdb_at_once (d, fs) w <-> shows heed_impl d w.
Proof. reflexivity. Qed.

Lemma attempt_reach f g o : exists g1, snd (attempt f (hafter' g) o) = hafter' g1 /\ (total_weight g1 <= total_weight (g ++ [o]))%N.
Proof.
  destruct (attempt_cases f (hafter' g) o) as [X|(x & X & _)]; rewrite X.
  - exists (g ++ [o]). rewrite after_snoc. split; [reflexivity|lia].
  - exists g. split; [reflexivity|]. rewrite total_weight_app. lia.
Qed.

Lemma absent_none {S} (I : trips_impl S) s w c : shows I s w -> ~ has I s c -> w c = None.
Proof. intros Sw N. destruct (w c) as [l|] eqn:E; [|reflexivity]. exfalso. apply N, (proj1 Sw). congruence. Qed.

Lemma let_failing f1 f2 g w c n : shows heed_impl (hafter' g) w -> hfits (g ++ [OAddColl (el_name c)]) ->
  (forall u, fst (attempt f1 (hafter' g) (OAddColl (el_name c))) = Ok u -> hfits (g ++ [OAddColl (el_name c)] ++ [OAdd (el_name c) (trips_of n)])) ->
  let (r1, d1) := attempt f1 (hafter' g) (OAddColl (el_name c)) in
  match r1 with
  | Ok _ => let (r2, d2) := attempt f2 d1 (OAdd (el_name c) (trips_of n)) in
            match r2 with
            | Ok _ => exists w', lets_failing w (el_name c) n (Answers done) w' /\ shows heed_impl d2 w'
            | _ => exists w', lets_failing w (el_name c) n Crashes w' /\ shows heed_impl d2 w'
            end
  | _ => exists w', lets_failing w (el_name c) n Crashes w' /\ shows heed_impl d1 w'
  end.
Proof.
  intros Sw W1 W. pose proof (add_coll_ok g (el_name c) W1) as N1.
  assert (There : has heed_impl (hafter' g) (el_name c) -> hafter' (g ++ [OAddColl (el_name c)]) = hafter' g).
  { intros H. pose proof (add_there no_fault g _ H) as X. rewrite attempt_sure, N1 in X. congruence. }
  assert (K1 : attempt f1 (hafter' g) (OAddColl (el_name c)) = (Ok tt, hafter' (g ++ [OAddColl (el_name c)]))
    \/ ~ has heed_impl (hafter' g) (el_name c) /\ (attempt f1 (hafter' g) (OAddColl (el_name c)) = (Ok tt, hafter' g)
          \/ exists x, attempt f1 (hafter' g) (OAddColl (el_name c)) = (Panic x, hafter' g))).
  { assert (DH : has heed_impl (hafter' g) (el_name c) \/ ~ has heed_impl (hafter' g) (el_name c)).
    { destruct (w (el_name c)) eqn:E; [left; apply (proj1 Sw); congruence|right; exact (none_not_has _ _ _ _ Sw E)]. }
    destruct DH as [H|H]; [left; rewrite (There H); apply add_there, H|].
    destruct (attempt_cases f1 (hafter' g) (OAddColl (el_name c))) as [X|(x & X & R)]; [left; congruence|]. right. split; [exact H|].
    rewrite N1 in R. cbn [fst] in R. destruct R as [-> |[-> |[y ->]]]; eauto. }
  destruct K1 as [X1|(NH & K1)].
  - rewrite X1 in *. specialize (W tt eq_refl). assert (DH : has heed_impl (hafter' (g ++ [OAddColl (el_name c)])) (el_name c) \/ ~ has heed_impl (hafter' (g ++ [OAddColl (el_name c)])) (el_name c)).
    { unfold heed_impl. rewrite heed_has. destruct (sg (el_name c) (h_c2i (after (heed_impl_c true) heed_new (g ++ [OAddColl (el_name c)])))); [left; eauto|right; intros [i X]; discriminate]. }
    destruct DH as [H|H].
    + destruct (first_half g w c Sw W1 H) as (w1 & B1 & S1).
      pose proof (add_ok (g ++ [OAddColl (el_name c)]) (el_name c) (trips_of n) H) as N2. rewrite <- app_assoc in N2. specialize (N2 W).
      destruct (attempt_cases f2 (hafter' (g ++ [OAddColl (el_name c)])) (OAdd (el_name c) (trips_of n))) as [X|(x & X & R)].
      * rewrite X, N2. destruct (whole_let g w c n Sw W H) as (w2 & B2 & S2). exists w2. split; [apply lf_well, B2|exact S2].
      * rewrite N2 in R. cbn [fst] in R. rewrite X.
        assert (P : x = Ok tt \/ exists y, x = Panic y) by tauto. destruct P as [-> |[y ->]].
        -- exists w1. split; [apply lf_unnoticed, B1|exact S1].
        -- exists w1. split; [|exact S1]. apply lf_noticed; [|exact B1]. intros ->. rewrite add_nothing in X. change (trips_of []) with (@nil trip) in N2.
           rewrite N2 in X. discriminate X.
    + destruct (add_absent f2 _ _ (trips_of n) H) as [x ->]. exists w. split.
      * apply lf_no_name, (absent_none _ _ _ _ Sw). intros H'. rewrite (There H') in H. exact (H H').
      * destruct (creates_lmdb g w c (Ok tt) (hafter' (g ++ [OAddColl (el_name c)])) (g ++ [OAddColl (el_name c)]) Sw) as (o & w1 & Bi & S1); [|exact W1|].
        { rewrite well_coll, N1. reflexivity. }
        inversion Bi as [|? Hs Hr| | |]; subst; [|exact S1]. exfalso. destruct Hr as [(l & El & _) _]. apply H, (proj1 S1). congruence.
  - pose proof (absent_none _ _ _ _ Sw NH) as Ew. destruct K1 as [-> |[x ->]].
    + destruct (add_absent f2 _ _ (trips_of n) NH) as [x ->]. exists w. split; [apply lf_no_name, Ew|exact Sw].
    + exists w. split; [apply lf_no_name, Ew|exact Sw].
Qed.

Lemma follows_let c n st r st' : stores LG c n st r st' -> at_f st ->
  at_f st' /\ (exists g, snd st' = snd st ++ g)
  /\ (hfits (snd st') -> forall w, shows lmdb_at_once (fst st) w -> exists w', lets_failing w (el_name c) n (outcome_of r) w' /\ shows lmdb_at_once (fst st') w').
Proof.
  destruct st as [[d fs] h]. intros H (g & Ed & Wg). cbn [fst snd] in Ed, Wg. subst d.
  pose proof (fun w => let_failing (hd no_fault fs) (hd no_fault (tl fs)) g w c n) as LF.
  apply stores_iff in H. unfold let_store in H. rewrite fail_coll in H.
  destruct (attempt_reach (hd no_fault fs) g (OAddColl (el_name c))) as (g1 & E1 & W1).
  destruct (attempt (hd no_fault fs) (hafter' g) (OAddColl (el_name c))) as [r1 d1]. cbn [fst snd] in E1, LF. subst d1.
  assert (WC : (total_weight (g ++ [OAddColl (el_name c)]) <= total_weight (h ++ [OAddColl (el_name c)]))%N) by (apply weight_coll, Wg).
  assert (P : (exists u, r1 = Ok u) \/ exists x, err_todo r1 = Panic x) by (destruct r1; cbn; eauto).
  destruct P as [[u ->]|[x P]].
  - cbn [err_todo] in H. rewrite fail_add in H.
    destruct (attempt_reach (hd no_fault (tl fs)) g1 (OAdd (el_name c) (trips_of n))) as (g2 & E2 & W2). rewrite total_weight_app in W2.
    destruct (attempt (hd no_fault (tl fs)) (hafter' g1) (OAdd (el_name c) (trips_of n))) as [r2 d2]. cbn [fst snd] in E2. subst d2.
    assert (Q : (exists u, r2 = Ok u /\ r = Ok done) \/ (forall u, r2 <> Ok u) /\ exists x, r = Panic x).
    { destruct r2 as [v|e|x]; cbn in H; injection H as <- _; [left; eauto|right; split; [discriminate|eauto]..]. }
    assert (st' = ((hafter' g2, tl (tl fs)), (h ++ [OAddColl (el_name c)]) ++ [OAdd (el_name c) (trips_of n)])) as ->
      by (destruct r2 as [v|e|x]; cbn in H; injection H as _ <-; reflexivity).
    cbn [fst snd]. split; [|split].
    + exists g2. split; [reflexivity|]. cbn [snd]. rewrite total_weight_app. lia.
    + rewrite <- app_assoc. eauto.
    + intros W w Sw. apply lmdb_shows in Sw. rewrite total_weight_app in W.
      assert (LF' : match r2 with
        | Ok _ => exists w', lets_failing w (el_name c) n (Answers done) w' /\ shows heed_impl (hafter' g2) w'
        | _ => exists w', lets_failing w (el_name c) n Crashes w' /\ shows heed_impl (hafter' g2) w' end).
      { apply (LF w Sw); [lia|]. intros _ _. rewrite app_assoc, total_weight_app. lia. }
      destruct Q as [(v & -> & ->)|(N & y & ->)]; [exact LF'|]. cbn [outcome_of]. destruct r2; [destruct (N _ eq_refl)|exact LF'|exact LF'].
  - rewrite P in H. injection H as <- <-. cbn [fst snd]. split; [|split].
    + exists g1. split; [reflexivity|]. cbn [snd]. lia.
    + eauto.
    + intros W w Sw. apply lmdb_shows in Sw. specialize (LF w Sw). destruct r1 as [u|e|y]; [discriminate P| |]; (apply LF; [lia|discriminate]).
Qed.

(** ** Programs and scripts follow the reference *)
Lemma sees_read st w c : at_f st -> hfits (snd st) -> shows lmdb_at_once (fst st) w -> reads w (el_name c) Lmdb (outcome_of (as_value (l_entries LG st c))).
Proof.
  destruct st as [[d fs] h]. intros (g & Ed & Wg) F Sw. cbn [fst snd] in *. subst d. apply lmdb_shows in Sw.
  exact (ab_read _ _ _ _ abides_lmdb g w c (N.le_lt_trans _ _ _ Wg F) Sw).
Qed.

Lemma sees_filter st w c p : at_f st -> hfits (snd st) -> shows lmdb_at_once (fst st) w -> finds w (el_name c) p Lmdb (outcome_of (as_found (l_filter LG st c p))).
Proof.
  destruct st as [[d fs] h]. intros (g & Ed & Wg) F Sw. cbn [fst snd] in *. subst d. apply lmdb_shows in Sw.
  exact (ab_filter _ _ _ _ abides_lmdb g w c p (N.le_lt_trans _ _ _ Wg F) Sw).
Qed.

(** Running from a logged state follows the relation [R]. *)
Definition follows (R : world -> outcome -> world -> Prop) (st : (heed * list fault) * list op) (r : wres value) (st' : (heed * list fault) * list op) : Prop :=
  at_f st -> at_f st' /\ (exists g, snd st' = snd st ++ g)
    /\ (hfits (snd st') -> forall w, shows lmdb_at_once (fst st) w -> exists w', R w (outcome_of r) w' /\ shows lmdb_at_once (fst st') w').

Lemma follows_stay (R : world -> outcome -> world -> Prop) st r : (forall w, at_f st -> hfits (snd st) -> shows lmdb_at_once (fst st) w -> R w (outcome_of r) w) -> follows R st r st.
Proof. intros H A. split; [exact A|]. split; [exists []; symmetry; apply app_nil_r|]. intros Fi w Hw. exists w. split; [apply H; assumption|exact Hw]. Qed.

Lemma follows_map (R R' : world -> outcome -> world -> Prop) st r r' st' :
  (forall w w', R w (outcome_of r) w' -> R' w (outcome_of r') w') -> follows R st r st' -> follows R' st r' st'.
Proof. intros H F A. destruct (F A) as (A' & P & K). split; [exact A'|]. split; [exact P|]. intros Fi w Hw. destruct (K Fi w Hw) as (w' & Hr & Hs). eauto. Qed.

Lemma follows_seq (R R1 R2 : world -> outcome -> world -> Prop) st r1 st1 r st' :
  (forall w w1 w', R1 w (outcome_of r1) w1 -> R2 w1 (outcome_of r) w' -> R w (outcome_of r) w') ->
  follows R1 st r1 st1 -> follows R2 st1 r st' -> follows R st r st'.
Proof.
  intros H F1 F2 A. destruct (F1 A) as (A1 & [g1 P1] & K1). destruct (F2 A1) as (A2 & [g2 P2] & K2).
  split; [exact A2|]. split; [exists (g1 ++ g2); rewrite P2, P1, app_assoc; reflexivity|]. intros Fi w Hw.
  assert (Fi1 : hfits (snd st1)) by (rewrite P2 in Fi; exact (ab_prefix _ _ _ _ abides_lmdb _ _ Fi)).
  destruct (K1 Fi1 w Hw) as (w1 & H1 & S1). destruct (K2 Fi w1 S1) as (w' & H2 & S2). eauto.
Qed.

Lemma follows_stores c n st r st' : stores LG c n st r st' -> follows (fun w o w' => lets_failing w (el_name c) n o w') st r st'.
Proof. intros H A. exact (follows_let c n st r st' H A). Qed.

Lemma follows_simply f args st r st' : simply LG common f args st r st' -> (forall g, f <> FHost g) -> Forall proper args ->
  follows (calls_on lets_failing (fname f) args) st r st'.
Proof.
  intros H NH PA. destruct H; cbn [fname]; try (apply follows_stay; intros w0 A Ft Hw; cbn [outcome_of]).
  - apply fc_id.
  - apply fc_id_args. assumption.
  - apply fc_ignore.
  - apply fc_docs. split; [assumption|]. intros e. match goal with H : forall e, In e n <-> _ |- _ => rewrite H end. unfold page. split.
    + intros (name & c & Hc & ->). exists name, (cmd_doc c). split; [apply common_manual, Hc|reflexivity].
    + intros (name & text & Hm & ->). destruct (manual_common (St := (heed * list fault) * list op) _ _ Hm) as (c & Hc & <-). eauto.
  - apply fc_docs_args. discriminate.
  - apply fc_union. inversion PA as [|? ? Pl _]; subst. inversion Pl; subst. split; [apply (is_set_append entry_order); assumption|].
    intros e. apply (in_bs_append entry_order).
  - apply fc_union_other. assumption.
  - apply fc_union_args. assumption.
  - apply fc_read. pose proof (sees_read st w0 c A Ft Hw) as K. rewrite H in K. exact K.
  - apply fc_read. pose proof (sees_read st w0 c A Ft Hw) as K. rewrite H in K. exact K.
  - apply fc_read. pose proof (sees_read st w0 c A Ft Hw) as K. rewrite H in K. exact K.
  - apply fc_read_args. assumption.
  - apply fc_filter. pose proof (sees_filter st w0 c (Role a d b) A Ft Hw) as K. rewrite H in K. exact K.
  - apply fc_filter. pose proof (sees_filter st w0 c (Role a d b) A Ft Hw) as K. rewrite H in K. exact K.
  - apply fc_filter. pose proof (sees_filter st w0 c (Role a d b) A Ft Hw) as K. rewrite H in K. exact K.
  - apply fc_filter_args. assumption.
  - destruct (NH f eq_refl).
Qed.

Lemma follows_all :
  (forall v st r st', evals LG common v st r st' -> proper v -> follows (gives_on lets_failing v) st r st')
  /\ (forall q st r st', quotes LG common q st r st' -> Forall proper q -> follows (gives_on lets_failing (VQuote q)) st r st')
  /\ (forall n args st r st', does LG common n args st r st' -> Forall proper args -> follows (calls_on lets_failing (el_name n) args) st r st')
  /\ (forall f args st r st', acts LG common f args st r st' -> (forall g, f <> FHost g) -> Forall proper args ->
        follows (calls_on lets_failing (fname f) args) st r st').
Proof.
  apply (semantics_ind _ LG common
    (fun v st r st' _ => proper v -> follows (gives_on lets_failing v) st r st')
    (fun q st r st' _ => Forall proper q -> follows (gives_on lets_failing (VQuote q)) st r st')
    (fun n args st r st' _ => Forall proper args -> follows (calls_on lets_failing (el_name n) args) st r st')
    (fun f args st r st' _ => (forall g, f <> FHost g) -> Forall proper args -> follows (calls_on lets_failing (fname f) args) st r st')).
  - intros e st P. apply follows_stay. intros. constructor.
  - intros e st P. apply follows_stay. intros. constructor.
  - intros q st r st' _ IH P. apply IH. inversion P; assumption.
  - intros st P. apply follows_stay. intros. constructor.
  - intros n args st r st' _ IH P. inversion P; subst. eapply follows_map; [|apply IH; assumption]. intros w w' K. constructor. exact K.
  - intros v args st N P. apply follows_stay. intros. constructor. exact N.
  - intros n args st N P. apply follows_stay. intros. apply fc_unknown. exact (not_common _ N).
  - intros n c args st r st' Hc _ IH P. destruct (common_fname _ _ Hc) as [E N]. rewrite E. apply IH; assumption.
  - intros f args st r st' H N P. apply follows_simply; assumption.
  - intros args st L _ P. apply follows_stay. intros. apply fc_equal_args. exact L.
  - intros l r st a st1 _ IH F _ P. inversion P as [|? ? Pl Pr]; subst.
    eapply follows_map; [|exact (IH Pl)]. intros w w' K. cbn [fname]. apply fc_equal_left; [exact K|apply failed_outcome, F].
  - intros l r st a st1 b st2 _ IHl _ IHr F _ P. inversion P as [|? ? Pl Pr]; subst. inversion Pr as [|? ? Pr' _]; subst.
    eapply follows_seq; [|exact (IHl Pl)|exact (IHr Pr')]. intros w w1 w' K1 K2. cbn [fname].
    eapply fc_equal_right; [exact K1|exact K2|apply failed_outcome, F].
  - intros l r st a st1 st2 _ IHl _ IHr _ P. inversion P as [|? ? Pl Pr]; subst. inversion Pr as [|? ? Pr' _]; subst.
    assert (F : follows (fun w o w' => exists w1, gives_on lets_failing l w (Answers a) w1 /\ gives_on lets_failing r w1 o w') st (Ok a) st2).
    { eapply follows_seq; [|exact (IHl Pl)|exact (IHr Pr')]. intros w w1 w' K1 K2. exists w1. auto. }
    eapply follows_map; [|exact F]. intros w w' (w1 & K1 & K2). cbn [fname outcome_of] in *. eapply fc_equal; eassumption.
  - intros l r st a st1 b st2 _ IHl _ IHr N _ P. inversion P as [|? ? Pl Pr]; subst. inversion Pr as [|? ? Pr' _]; subst.
    assert (F : follows (fun w o w' => exists w1, gives_on lets_failing l w (Answers a) w1 /\ gives_on lets_failing r w1 o w') st (Ok b) st2).
    { eapply follows_seq; [|exact (IHl Pl)|exact (IHr Pr')]. intros w w1 w' K1 K2. exists w1. auto. }
    eapply follows_map; [|exact F]. intros w w' (w1 & K1 & K2). cbn [fname outcome_of] in *.
    eapply fc_unequal; [exact K1|exact K2|exact N|apply value_text_display|apply value_text_display].
  - intros args st N _ P. apply follows_stay. intros. apply fc_fail_args. exact N.
  - intros q st v st1 _ IH _ P. inversion P as [|? ? Pq _]; subst. inversion Pq; subst.
    eapply follows_map; [|apply IH; assumption]. intros w w' K. cbn [fname outcome_of] in *. eapply fc_fail_not; exact K.
  - intros q st e st1 _ IH _ P. inversion P as [|? ? Pq _]; subst. inversion Pq; subst.
    eapply follows_map; [|apply IH; assumption]. intros w w' K. cbn [fname outcome_of] in *. eapply fc_fail; exact K.
  - intros q st x st1 _ IH _ P. inversion P as [|? ? Pq _]; subst. inversion Pq; subst.
    eapply follows_map; [|apply IH; assumption]. intros w w' K. cbn [fname outcome_of] in *. eapply fc_fail_crash; exact K.
  - intros c n st r st' H _ P. eapply follows_map; [|apply (follows_stores _ _ _ _ _ H)]. intros w w' K. cbn [fname]. apply fc_let. exact K.
  - intros c q st n st1 r st' _ IH H _ P. inversion P as [|? ? _ Pq]; subst. inversion Pq as [|? ? Pq' _]; subst. inversion Pq'; subst.
    eapply follows_seq; [|apply IH; assumption|apply (follows_stores _ _ _ _ _ H)]. intros w w1 w' K1 K2. cbn [fname outcome_of] in *.
    eapply fc_let_quote; eassumption.
  - intros c q st x st1 _ IH _ P. inversion P as [|? ? _ Pq]; subst. inversion Pq as [|? ? Pq' _]; subst. inversion Pq'; subst.
    eapply follows_map; [|apply IH; assumption]. intros w w' K. cbn [fname outcome_of] in *. eapply fc_let_other; [exact K|discriminate].
  - intros c q st a st1 _ IH N1 N2 _ P. inversion P as [|? ? _ Pq]; subst. inversion Pq as [|? ? Pq' _]; subst. inversion Pq'; subst.
    eapply follows_map; [|apply IH; assumption]. intros w w' K. cbn [fname outcome_of] in *. eapply fc_let_other; [exact K|].
    intros n E. destruct a as [v|e|x]; cbn in E; try discriminate. injection E as ->. exact (N1 n eq_refl).
  - intros args st N1 N2 _ P. apply follows_stay. intros. apply fc_let_args; assumption.
Qed.

Lemma follows_runs cs st r st' : runs LG common cs st r st' -> Forall proper_call cs -> follows (performs_on lets_failing cs) st r st'.
Proof.
  destruct follows_all as (_ & _ & FD & _).
  induction 1 as [st|c st r st' H|c rest st v st1 r st' H Hne _ IH|c rest st r st' H Hf]; intros P.
  - apply follows_stay. intros. constructor.
  - inversion P; subst. eapply follows_map; [|apply (FD _ _ _ _ _ H); assumption]. intros. apply fp_last. assumption.
  - inversion P; subst. destruct rest as [|d rest]; [destruct (Hne eq_refl)|].
    eapply follows_seq; [|apply (FD _ _ _ _ _ H); assumption|apply IH; assumption]. intros w w1 w' K1 K2. eapply fp_more; eassumption.
  - inversion P; subst. eapply follows_map; [|apply (FD _ _ _ _ _ H); assumption]. intros w w' K.
    destruct rest as [|d rest]; [apply fp_last; exact K|apply fp_stop; [exact K|apply failed_outcome, Hf]].
Qed.

Lemma follows_run script st r st' : run LG common script st = (r, st') -> follows (fun w => means_on lets_failing w script) st r st'.
Proof.
  intros E. destruct (run_outcomes _ LG common script st) as [L K].
  destruct (tokenize script) as [ts|e|x] eqn:Et.
  - destruct (filter_keeps _ _ Et) as (kept & Ek & Kp & _). apply tokenize_ok in Et. destruct (K _ Ek) as (K1 & K2 & K3).
    destruct (parse kept) as [cs|e|x] eqn:Ep.
    + apply parse_ok in Ep. rewrite (K3 _ Ep) in E. apply (runs_iff _ _ common_table) in E.
      eapply follows_map; [|apply (follows_runs _ _ _ _ E), (g_script_proper _ _ Ep)]. intros w w' H. eapply fm_runs; eassumption.
    + apply parse_err in Ep as (next & -> & Hs). rewrite (K1 _ Hs) in E. injection E as <- <-.
      apply follows_stay. intros. eapply fm_stray; eassumption.
    + apply parse_panic in Ep as (-> & N1 & N2). rewrite (K2 N1 N2) in E. injection E as <- <-.
      apply follows_stay. intros. eapply fm_outside; eassumption.
  - apply tokenize_err in Et as [-> F]. rewrite (L F) in E. injection E as <- <-. apply follows_stay. intros. apply fm_not_text. exact F.
  - exfalso. eapply tokenize_no_panic; eauto.
Qed.
