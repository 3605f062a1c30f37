(** * Several clients of one store *)
From Coq Require Import List Arith NArith Bool String Lia.
From Verif Require Import M_Base M_Data M_Heed M_Regex M_Lexer M_Graph M_Parser M_Display M_Interp M_Conc
  S_Order S_Str S_Store S_Graph S_Parser S_Interp S_Conc P_Ord P_Hist P_Agree P_Heed P_HeedHist P_HeedMore P_Graph P_Parser P_Interp P_InterpStores.
Import ListNotations.
Open Scope list_scope.

(** ** The same interpreter *)
Section Same.
  Context {S : Type} (L : lig_impl S).

  Lemma solo_bind p f s : solo L (pbind p f) s = let (r, s') := solo L p s in solo L (f r) s'.
  Proof.
    revert s. induction p as [r|q k IH]; intros s; [reflexivity|]. cbn [pbind solo].
    destruct (perform L q s) as [a s']. apply IH.
  Qed.

  Lemma cmd_get_on cs n : cmd_get (@on_store S cs) n =
    match cmd_get cs n with Some c => Some (Command (cmd_doc c) (on_fun (cmd_fun_of c))) | None => None end.
  Proof.
    induction cs as [|[m c] cs IH]; [reflexivity|]. cbn. destruct (str_eqb m n); [reflexivity|exact IH].
  Qed.

  Lemma solo_let c n s : solo L (p_let_store c n) s = let_store L c n s.
  Proof.
    unfold p_let_store, let_store. cbn [solo perform]. destruct (l_add_collection L s c) as [[a|e|w] s1]; cbn [solo perform]; try reflexivity.
    all: destruct (l_add_entries L s1 c n) as [[[b|e'|w'] s2] n']; reflexivity.
  Qed.

  Context (rq : list value -> prog) (rq' : list value -> S -> wres value * S)
    (Hq : forall q s, solo L (rq q) s = rq' q s).

  Lemma solo_exec cs f args s : solo L (p_exec rq cs f args) s = exec L rq' (on_store cs) (on_fun f) args s.
  Proof.
    destruct f; cbn [p_exec on_fun exec].
    - unfold p_assert_equal, assert_equal_command. destruct args as [|l [|r [|x args]]]; try reflexivity; cbv beta iota.
      assert (K : forall lv s1, solo L (pbind (p_value rq r) (fun rout =>
                match rout with
                | Ok rv =>
                    if value_eqb lv rv then Done (Ok unit_value)
                    else Done (Err (WErr (lit "Assertion failed, " ++ display lv ++ lit " != " ++ display rv)))
                | Err e => Done (Err e)
                | Panic w => Done (Panic w)
                end)) s1 =
              match (match r with VQuote q => rq' q s1 | v => (Ok v, s1) end) with
              | (Ok rv, st2) =>
                  if value_eqb lv rv then (Ok unit_value, st2)
                  else (Err (WErr (lit "Assertion failed, " ++ display lv ++ lit " != " ++ display rv)), st2)
              | (Err e, st2) => (Err e, st2)
              | (Panic w, st2) => (Panic w, st2)
              end).
      { intros lv s1. rewrite solo_bind. destruct r as [e|q|n]; cbn [p_value solo].
        - destruct (value_eqb lv (VElement e)); reflexivity.
        - rewrite Hq. destruct (rq' q s1) as [[rv|e|w] s2]; try reflexivity. destruct (value_eqb lv rv); reflexivity.
        - destruct (value_eqb lv (VNetwork n)); reflexivity. }
      rewrite solo_bind. destruct l as [e|q|n]; cbn [p_value solo].
      + apply K.
      + rewrite Hq. destruct (rq' q s) as [[lv|e|w] s1]; try reflexivity. apply K.
      + apply K.
    - unfold p_assert_fail, assert_fail_command. destruct args as [|[e|q|n] [|x args]]; try reflexivity.
      rewrite solo_bind, Hq. destruct (rq' q s) as [[v|e|w] s1]; reflexivity.
    - reflexivity.
    - unfold p_let, let_command. destruct args as [|[c|q0|n0] [|[e|q|n] [|x args]]]; try reflexivity.
      + rewrite solo_bind, Hq. destruct (rq' q s) as [[[e|q1|n]|e|w] s1]; try reflexivity. apply solo_let.
      + apply solo_let.
    - unfold p_read, read_command. destruct args as [|[c|q0|n0] [|x args]]; try reflexivity. cbn [solo perform].
      destruct (l_entries L s c); reflexivity.
    - unfold id_command. destruct args as [|v [|x args]]; reflexivity.
    - unfold docs_command. destruct args as [|v args]; [|reflexivity]. cbn [solo fst]. unfold on_store. rewrite map_map. reflexivity.
    - unfold union_command. destruct args as [|[e|q|n] [|[e'|q'|n'] [|x args]]]; reflexivity.
    - unfold p_filter, filter_command. destruct args as [|[c|q0|n0] [|[a|q1|n1] [|[b|q2|n2] [|[d|q3|n3] [|x args]]]]]; try reflexivity.
      cbn [solo perform]. destruct (l_filter L s c (Role a d b)); reflexivity.
    - reflexivity.
  Qed.

  Lemma solo_loop cs calls : forall res s,
    solo L (p_calls_loop rq cs calls res) s = run_calls_loop L rq' (on_store cs) calls res s.
  Proof.
    induction calls as [|c calls IH]; intros res s; [reflexivity|]. cbn [p_calls_loop run_calls_loop].
    rewrite cmd_get_on. destruct (cmd_get cs (el_name (c_name c))) as [cmd|]; [|reflexivity].
    rewrite solo_bind, solo_exec. cbn [cmd_fun_of].
    destruct (exec L rq' (on_store cs) (on_fun (cmd_fun_of cmd)) (c_args c) s) as [[v|e|w] s1]; [apply IH|reflexivity..].
  Qed.
End Same.

Lemma solo_quote_f {S} (L : lig_impl S) cs fuel : forall q s,
  solo L (p_quote_f fuel cs q) s = run_quote_f L fuel (on_store cs) q s.
Proof.
  induction fuel as [|fuel IH]; intros q s; [reflexivity|]. cbn [p_quote_f run_quote_f].
  destruct q as [|[e|q0|n] args]; try reflexivity. apply solo_loop, IH.
Qed.

Lemma solo_calls {S} (L : lig_impl S) cs calls s : solo L (p_calls cs calls) s = run_calls L (on_store cs) calls s.
Proof. apply solo_loop. intros q s'. apply solo_quote_f. Qed.

Lemma solo_run {S} (L : lig_impl S) cs script s : solo L (p_run cs script) s = run L (on_store cs) script s.
Proof.
  unfold p_run, run. destruct (tokenize_and_filter script) as [ts|e|w]; try reflexivity.
  destruct (parse ts) as [calls|e|w]; try reflexivity. apply solo_calls.
Qed.

Lemma on_store_common {S} : @on_store S common = common.
Proof. reflexivity. Qed.

(** ** What a script asks for *)
Lemma asks_bind p f q : asks (pbind p f) q -> asks p q \/ exists r, asks (f r) q.
Proof.
  induction p as [r|q0 k IH]; intros H; [right; exists r; exact H|]. cbn in H. destruct H as [->|(a & H)].
  - left. left. reflexivity.
  - destruct (IH a H) as [H1|H1]; [left; right; exists a; exact H1|right; exact H1].
Qed.

(** The calls a script can make: never listing, never removing, and only about
    names that occur in it. *)
Definition scripted (N : str -> Prop) (p : prog) : Prop :=
  forall q, asks p q -> exists c, N (el_name c) /\ (q = QAddCollection c \/ (exists es, q = QAddEntries c es)
     \/ q = QEntries c \/ exists e, q = QFilter c e).

Lemma scripted_done N r : scripted N (Done r).
Proof. intros q []. Qed.

Lemma scripted_bind N p f : scripted N p -> (forall r, scripted N (f r)) -> scripted N (pbind p f).
Proof. intros H1 H2 q Hq. apply asks_bind in Hq as [Hq|(r & Hq)]; [exact (H1 q Hq)|exact (H2 r q Hq)]. Qed.

Lemma scripted_ask (N : str -> Prop) q k c : N (el_name c) ->
  (q = QAddCollection c \/ (exists es, q = QAddEntries c es) \/ q = QEntries c \/ exists e, q = QFilter c e) ->
  (forall a, scripted N (k a)) -> scripted N (Ask q k).
Proof. intros Hc Hq Hk q' [->|(a & H)]; [exists c; split; assumption|exact (Hk a q' H)]. Qed.

Lemma scripted_mono (N N' : str -> Prop) p : (forall c, N c -> N' c) -> scripted N p -> scripted N' p.
Proof. intros H Hp q Hq. destruct (Hp q Hq) as (c & Hc & E). exists c. split; [apply H, Hc|exact E]. Qed.

Lemma scripted_let (N : str -> Prop) c n : N (el_name c) -> scripted N (p_let_store c n).
Proof.
  intros Hc. apply (scripted_ask _ _ _ c Hc); [left; reflexivity|]. intros [a|e|w]; try apply scripted_done.
  all: apply (scripted_ask _ _ _ c Hc); [right; left; eexists; reflexivity|]; intros [b|e'|w']; apply scripted_done.
Qed.

Definition arg_names (args : list value) (c : str) : Prop := exists v, In v args /\ in_value c v.

Section Scripted.
  Context (rq : list value -> prog) (Hq : forall q, scripted (arg_names (tl q)) (rq q)).

  Lemma scripted_quote q args : In (VQuote q) args -> scripted (arg_names args) (rq q).
  Proof.
    intros Hi. apply (scripted_mono (arg_names (tl q))); [|apply Hq]. intros c (v & Hv & Hc). exists (VQuote q).
    split; [exact Hi|]. destruct q as [|h q]; [destruct Hv|]. exact (in_quote _ _ _ _ Hv Hc).
  Qed.

  Lemma scripted_value v args : In v args -> scripted (arg_names args) (p_value rq v).
  Proof. intros Hi. destruct v; cbn; try apply scripted_done. apply scripted_quote, Hi. Qed.

  Lemma arg_element e args : In (VElement e) args -> arg_names args (el_name e).
  Proof. intros Hi. exists (VElement e). split; [exact Hi|constructor; reflexivity]. Qed.

  Lemma scripted_exec cs f args : scripted (arg_names args) (p_exec rq cs f args).
  Proof.
    destruct f; cbn [p_exec]; try apply scripted_done.
    - unfold p_assert_equal. destruct args as [|l [|r [|x args]]]; try apply scripted_done.
      apply scripted_bind; [apply scripted_value; left; reflexivity|]. intros [lv|e|w]; try apply scripted_done.
      apply scripted_bind; [apply scripted_value; right; left; reflexivity|]. intros [rv|e|w]; try apply scripted_done.
      destruct (value_eqb lv rv); apply scripted_done.
    - unfold p_assert_fail. destruct args as [|[e|q|n] [|x args]]; try apply scripted_done.
      apply scripted_bind; [apply scripted_quote; left; reflexivity|]. intros [v|e|w]; apply scripted_done.
    - unfold p_let. destruct args as [|[c|q0|n0] [|[e|q|n] [|x args]]]; try apply scripted_done.
      + apply scripted_bind; [apply scripted_quote; right; left; reflexivity|].
        intros [[e|q1|n]|e|w]; try apply scripted_done. apply scripted_let, arg_element. left; reflexivity.
      + apply scripted_let, arg_element. left; reflexivity.
    - unfold p_read. destruct args as [|[c|q0|n0] [|x args]]; try apply scripted_done.
      apply (scripted_ask _ _ _ c); [apply arg_element; left; reflexivity|right; right; left; reflexivity|intros a; apply scripted_done].
    - unfold p_filter. destruct args as [|[c|q0|n0] [|[a|q1|n1] [|[b|q2|n2] [|[d|q3|n3] [|x args]]]]]; try apply scripted_done.
      apply (scripted_ask _ _ _ c); [apply arg_element; left; reflexivity|right; right; right; eexists; reflexivity|intros r; apply scripted_done].
  Qed.

  Lemma scripted_loop cs calls : forall res, scripted (names calls) (p_calls_loop rq cs calls res).
  Proof.
    induction calls as [|c calls IH]; intros res; [apply scripted_done|]. cbn [p_calls_loop].
    destruct (cmd_get cs (el_name (c_name c))) as [cmd|]; [|apply scripted_done].
    apply scripted_bind.
    - apply (scripted_mono (arg_names (c_args c))); [|apply scripted_exec]. intros x (v & Hv & Hx). exists c, v.
      split; [left; reflexivity|]. split; assumption.
    - intros [v|e|w]; try apply scripted_done. apply (scripted_mono (names calls)); [|apply IH].
      intros x (y & u & Hy & Hu & Hx). exists y, u. split; [right; exact Hy|]. split; assumption.
  Qed.
End Scripted.

Lemma scripted_quote_f cs fuel : forall q, scripted (arg_names (tl q)) (p_quote_f fuel cs q).
Proof.
  induction fuel as [|fuel IH]; intros q; [apply scripted_done|]. cbn [p_quote_f].
  destruct q as [|[e|q0|n] args]; try apply scripted_done.
  apply (scripted_mono (names [Call e args])); [|apply scripted_loop, IH].
  intros c (x & v & [<-|[]] & Hv & Hc). exists v. split; [exact Hv|exact Hc].
Qed.

Lemma scripted_calls cs calls : scripted (names calls) (p_calls cs calls).
Proof. apply scripted_loop. intros q. apply scripted_quote_f. Qed.

Lemma scripted_local N p : scripted N p -> local p.
Proof.
  intros H q Hq. destruct (H q Hq) as (c & _ & [->|[(es & ->)|[->|(e & ->)]]]); (split; [|intros ? ?]; discriminate).
Qed.

Lemma scripted_uses N p c : scripted N p -> uses p c -> N c.
Proof.
  intros H (q & Hq & E). destruct (H q Hq) as (x & Hx & [->|[(es & ->)|[->|(e & ->)]]]); cbn in E; injection E as <-; exact Hx.
Qed.

(** ** The LMDB store seen through one collection *)
Definition lm (h : list op) : heed := after heed_impl heed_new h.

Lemma lm_f h : lm h = hafter heed_new (sure h).
Proof. symmetry. apply after_sure. Qed.

Lemma lm_snoc h o : lm (h ++ [o]) = snd (call_op heed_impl (lm h) o).
Proof. apply after_snoc. Qed.

Definition obs (c : str) (d e : heed) : Prop :=
  (has heed_impl d c <-> has heed_impl e c) /\ forall t, holds heed_impl d c t <-> holds heed_impl e c t.

Lemma heed_effect h o c :
  let d := lm h in let d' := lm (h ++ [o]) in
  match fst (call_op heed_impl d o) with
  | Ok _ => (has heed_impl d' c <-> (o = OAddColl c /\ storable c) \/ (has heed_impl d c /\ o <> ORemColl c))
            /\ (forall t, holds heed_impl d' c t <-> (exists ts, o = OAdd c ts /\ In t ts) \/ (holds heed_impl d c t /\ ~ removes c t o))
  | _ => d' = d
  end.
Proof.
  intros d d'. pose proof (heed_atomic (sure h) o true) as HA. cbn zeta in HA. rewrite <- lm_f in HA. fold d in HA.
  change (call_op (heed_impl_c true)) with (call_op heed_impl) in HA.
  assert (Ed : snd (call_op heed_impl d o) = d') by (symmetry; apply lm_snoc). rewrite Ed in HA.
  destruct HA as (_ & HA & _).
  pose proof (heed_simulates (sure h)) as SM. rewrite installed_sure in SM. rewrite <- lm_f in SM. fold d in SM.
  pose proof (heed_simulates (sure (h ++ [o]))) as SM'. rewrite installed_sure, acked_snoc in SM'. rewrite <- lm_f in SM'.
  change (after heed_impl heed_new h) with d in SM'. fold d' in SM'.
  assert (I : inv d) by (unfold d; rewrite lm_f; apply inv_reach).
  assert (I' : inv d') by (unfold d'; rewrite lm_f; apply inv_reach).
  set (H := acked heed_impl heed_new h) in *.
  destruct (fst (call_op heed_impl d o)) as [u|e|w] eqn:Er; [|apply HA; discriminate..]. split.
  - rewrite (sim_has true d' _ c SM'), (sim_has true d _ c SM). rewrite live_snoc. tauto.
  - intros t. rewrite (sim_holds true d' _ c t I' SM'), (sim_holds true d _ c t I SM). rewrite holds_after_snoc.
    split; (intros [Hx|Hx]; [left|right; exact Hx]).
    + destruct Hx as (ts & -> & Ht & _). eauto.
    + destruct Hx as (ts & -> & Ht). exists ts. split; [reflexivity|]. split; [exact Ht|].
      assert (Hc : has heed_impl d c).
      { destruct (heed_has_dec (sure h) c) as [Hc|Hc]; rewrite <- lm_f in Hc; [exact Hc|]. exfalso.
        pose proof (heed_write_missing (sure h) c ts true) as HW. cbn zeta in HW. rewrite <- lm_f in HW.
        destruct (HW Hc) as [HW1 _]. change (call_op (heed_impl_c true)) with (call_op heed_impl) in HW1. fold d in HW1.
        rewrite HW1 in Er. discriminate Er. }
      apply (sim_has true d _ c SM) in Hc. tauto.
Qed.

Lemma obs_other h o c : target o <> c -> obs c (lm (h ++ [o])) (lm h).
Proof.
  intros Hn. pose proof (heed_effect h o c) as HE. cbn zeta in HE.
  destruct (fst (call_op heed_impl (lm h) o)) as [u|e|w]; [|rewrite HE; split; tauto..].
  destruct HE as [H1 H2]. split.
  - rewrite H1. split; [intros [[-> _]|[H _]]; [destruct (Hn eq_refl)|exact H]|intros H; right; split; [exact H|intros ->; destruct (Hn eq_refl)]].
  - intros t. rewrite H2. split.
    + intros [(ts & -> & _)|[H _]]; [destruct (Hn eq_refl)|exact H].
    + intros H. right. split; [exact H|]. intros K. destruct K; destruct (Hn eq_refl).
Qed.

Lemma obs_sym c d e : obs c d e -> obs c e d.
Proof. intros [H1 H2]. split; [symmetry; exact H1|intros t; symmetry; apply H2]. Qed.
Lemma obs_trans c d e f : obs c d e -> obs c e f -> obs c d f.
Proof. intros [H1 H2] [K1 K2]. split; [rewrite H1; exact K1|intros t; rewrite H2; apply K2]. Qed.
Lemma obs_refl c d : obs c d d.
Proof. split; [|intros t]; reflexivity. Qed.

(** The client's own call: same answer, and still the same to look at. *)
Lemma obs_own h h' o c : target o = c -> (forall c ts, o <> ORem c ts) ->
  (total_weight (h ++ [o]) < 2 ^ 64)%N -> (total_weight (h' ++ [o]) < 2 ^ 64)%N ->
  obs c (lm h) (lm h') ->
  fst (call_op heed_impl (lm h) o) = fst (call_op heed_impl (lm h') o) /\ obs c (lm (h ++ [o])) (lm (h' ++ [o])).
Proof.
  intros Ht Ho W W' [O1 O2].
  assert (E : fst (call_op heed_impl (lm h) o) = fst (call_op heed_impl (lm h') o)).
  { pose proof (heed_answers (sure h) o true) as HA. cbn zeta in HA. rewrite map_fst_sure in HA. specialize (HA W).
    pose proof (heed_answers (sure h') o true) as HB. cbn zeta in HB. rewrite map_fst_sure in HB. specialize (HB W').
    rewrite <- lm_f in HA, HB. change (call_op (heed_impl_c true)) with (call_op heed_impl) in HA, HB.
    assert (Hd : has heed_impl (lm h) c \/ ~ has heed_impl (lm h) c).
    { pose proof (heed_has_dec (sure h) c) as K. cbn zeta in K. rewrite <- lm_f in K. exact K. }
    destruct o as [x|x|x ts|x ts]; cbn in Ht; subst x.
    - rewrite HA, HB. reflexivity.
    - destruct Hd as [Hd|Hd].
      + rewrite (proj1 HA Hd), (proj1 HB (proj1 O1 Hd)). reflexivity.
      + rewrite (proj2 HA Hd), (proj2 HB (fun K => Hd (proj2 O1 K))). reflexivity.
    - destruct Hd as [Hd|Hd].
      + rewrite (proj1 HA Hd), (proj1 HB (proj1 O1 Hd)). reflexivity.
      + rewrite (proj2 HA Hd), (proj2 HB (fun K => Hd (proj2 O1 K))). reflexivity.
    - destruct (Ho c ts eq_refl). }
  split; [exact E|]. pose proof (heed_effect h o c) as HE. pose proof (heed_effect h' o c) as HE'. cbn zeta in HE, HE'.
  rewrite <- E in HE'. destruct (fst (call_op heed_impl (lm h) o)) as [u|e|w].
  - destruct HE as [H1 H2]. destruct HE' as [H1' H2']. split.
    + rewrite H1, H1', O1. reflexivity.
    + intros t. rewrite H2, H2', O2. reflexivity.
  - rewrite HE, HE'. split; assumption.
  - rewrite HE, HE'. split; assumption.
Qed.

Lemma obs_triples h h' c : obs c (lm h) (lm h') -> t_triples heed_impl (lm h) c = t_triples heed_impl (lm h') c.
Proof.
  intros [O1 O2].
  pose proof (heed_triples_missing (sure h) c) as K. cbn zeta in K. rewrite <- lm_f in K.
  pose proof (heed_triples_missing (sure h') c) as K'. cbn zeta in K'. rewrite <- lm_f in K'.
  pose proof (heed_has_dec (sure h) c) as Hd. cbn zeta in Hd. rewrite <- lm_f in Hd. destruct Hd as [Hd|Hd].
  - destruct (proj1 K Hd) as (l & E). destruct (proj1 K' (proj1 O1 Hd)) as (l' & E'). rewrite E, E'. f_equal.
    pose proof (heed_history (sure h)) as (_ & B & _). rewrite <- lm_f in B.
    pose proof (heed_history (sure h')) as (_ & B' & _). rewrite <- lm_f in B'.
    pose proof (heed_simulates (sure h)) as SM. rewrite <- lm_f in SM.
    pose proof (heed_simulates (sure h')) as SM'. rewrite <- lm_f in SM'.
    apply (sim_has true _ _ c SM) in Hd as D1. apply O1, (sim_has true _ _ c SM') in Hd as D2.
    destruct (B c (proj1 D1) (proj2 D1)) as (x & Ex & Sx & _). destruct (B' c (proj1 D2) (proj2 D2)) as (y & Ey & Sy & _).
    rewrite E in Ex. injection Ex as <-. rewrite E' in Ey. injection Ey as <-.
    apply (set_eq trip_order); [assumption..|]. intros t. specialize (O2 t). unfold holds in O2.
    rewrite E, E' in O2. split; intros Ht; [destruct (proj1 O2) as (z & Ez & Hz)|destruct (proj2 O2) as (z & Ez & Hz)];
      eauto; injection Ez as <-; exact Hz.
  - rewrite (proj2 K Hd), (proj2 K' (fun X => Hd (proj2 O1 X))). reflexivity.
Qed.

(** ** Clients *)
Definition op_of (q : req) : option op :=
  match q with
  | QAddCollection c => Some (OAddColl (el_name c))
  | QRemoveCollection c => Some (ORemColl (el_name c))
  | QAddEntries c es => Some (OAdd (el_name c) (bs_collect trip_cmp (map entry_to_trip es)))
  | QRemoveEntries c es => Some (ORem (el_name c) (bs_collect trip_cmp (map entry_to_trip es)))
  | _ => None
  end.

Definition ops_of (q : req) : list op := match op_of q with Some o => [o] | None => [] end.

Notation G := (graph_impl heed_impl).

Lemma perform_state q h : snd (perform G q (lm h)) = lm (h ++ ops_of q).
Proof.
  destruct q; unfold ops_of; cbn [op_of perform snd fst graph_impl l_add_collection l_remove_collection l_add_entries l_remove_entries];
    rewrite ?app_nil_r; try reflexivity; rewrite lm_snoc; cbn [call_op].
  - unfold graph_add_collection. destruct (t_add_collection heed_impl (lm h) (el_name c)); reflexivity.
  - unfold graph_remove_collection. destruct (t_remove_collection heed_impl (lm h) (el_name c)); reflexivity.
  - unfold graph_add_entries. destruct (t_add_triples heed_impl (lm h) (el_name c) _) as [[r s'] x]; reflexivity.
  - unfold graph_remove_entries. destruct (t_remove_triples heed_impl (lm h) (el_name c) _) as [[r s'] x]; reflexivity.
Qed.

Lemma weight_of q : (total_weight (ops_of q) <= req_weight q)%N.
Proof.
  destruct q; unfold ops_of; cbn [op_of total_weight fold_right weight req_weight]; try lia.
  pose proof (collect_length trip_cmp (map entry_to_trip es)) as H. rewrite map_length in H. lia.
Qed.

Lemma weight_snoc h q : (total_weight (h ++ ops_of q) <= total_weight h + req_weight q)%N.
Proof. rewrite total_weight_app. pose proof (weight_of q). lia. Qed.

Lemma perform_other h q c : about q <> Some c -> obs c (lm (h ++ ops_of q)) (lm h).
Proof.
  intros Hn. unfold ops_of. destruct q; cbn [op_of]; rewrite ?app_nil_r; try apply obs_refl;
    apply obs_other; cbn; intros E; apply Hn; cbn; rewrite E; reflexivity.
Qed.

Lemma perform_own h h' q c : about q = Some c -> (forall c es, q <> QRemoveEntries c es) ->
  (total_weight h + req_weight q < 2 ^ 64)%N -> (total_weight h' + req_weight q < 2 ^ 64)%N ->
  obs c (lm h) (lm h') ->
  fst (perform G q (lm h)) = fst (perform G q (lm h')) /\ obs c (lm (h ++ ops_of q)) (lm (h' ++ ops_of q)).
Proof.
  intros Ha Hr W W' O. pose proof (weight_snoc h q) as V. pose proof (weight_snoc h' q) as V'.
  assert (WW : (total_weight (h ++ ops_of q) < 2 ^ 64)%N) by lia.
  assert (WW' : (total_weight (h' ++ ops_of q) < 2 ^ 64)%N) by lia. clear V V' W W'.
  destruct q as [|x|x|x|x es|x es|x p]; cbn [about] in Ha; try discriminate Ha; injection Ha as Ha; unfold ops_of in *; cbn [op_of] in *.
  - destruct (obs_own h h' (OAddColl (el_name x)) c Ha ltac:(discriminate) WW WW' O) as [E O']. split; [|exact O'].
    cbn [perform graph_impl l_add_collection fst]. unfold graph_add_collection. cbn [call_op] in E.
    destruct (t_add_collection heed_impl (lm h) (el_name x)), (t_add_collection heed_impl (lm h') (el_name x)).
    cbn [fst] in E |- *. rewrite E. reflexivity.
  - destruct (obs_own h h' (ORemColl (el_name x)) c Ha ltac:(discriminate) WW WW' O) as [E O']. split; [|exact O'].
    cbn [perform graph_impl l_remove_collection fst]. unfold graph_remove_collection. cbn [call_op] in E.
    destruct (t_remove_collection heed_impl (lm h) (el_name x)), (t_remove_collection heed_impl (lm h') (el_name x)).
    cbn [fst] in E |- *. rewrite E. reflexivity.
  - rewrite !app_nil_r. split; [|exact O]. cbn [perform graph_impl l_entries fst]. unfold graph_entries.
    rewrite Ha, (obs_triples h h' c O). reflexivity.
  - set (o := OAdd (el_name x) (bs_collect trip_cmp (map entry_to_trip es))) in *.
    destruct (obs_own h h' o c Ha ltac:(discriminate) WW WW' O) as [E O']. split; [|exact O'].
    cbn [perform graph_impl l_add_entries fst]. unfold graph_add_entries. cbn [call_op o] in E.
    destruct (t_add_triples heed_impl (lm h) (el_name x) _) as [[r1 s1] y1], (t_add_triples heed_impl (lm h') (el_name x) _) as [[r2 s2] y2].
    cbn [fst] in E |- *. rewrite E. reflexivity.
  - destruct (Hr x es eq_refl).
  - rewrite !app_nil_r. split; [|exact O]. reflexivity.
Qed.

Lemma update_same f i p : update f i p i = p.
Proof. unfold update. rewrite Nat.eqb_refl. reflexivity. Qed.
Lemma update_other f i p j : j <> i -> update f i p j = f j.
Proof. intros H. unfold update. apply Nat.eqb_neq in H. rewrite H. reflexivity. Qed.



Lemma isolate sched : forall hs ha cl i (C : str -> Prop),
  (forall c, uses (cl i) c -> C c) -> (forall j c, j <> i -> uses (cl j) c -> ~ C c) -> local (cl i) ->
  (forall c, C c -> obs c (lm hs) (lm ha)) -> (total_weight ha <= total_weight hs)%N ->
  (total_weight hs + calls_weight (calls_made G sched (Pool (lm hs) cl)) < 2 ^ 64)%N ->
  let x := interleave G sched (Pool (lm hs) cl) in
  exists hs' ha', shared x = lm hs'
    /\ alone G (turns_of i (calls_made G sched (Pool (lm hs) cl))) (cl i) (lm ha) = (clients x i, lm ha')
    /\ forall c, C c -> obs c (lm hs') (lm ha').
Proof.
  induction sched as [|j sched IH]; intros hs ha cl i C HU HO HL HB HW W.
  - exists hs, ha. split; [reflexivity|]. split; [cbn; destruct (cl i); reflexivity|exact HB].
  - cbn [interleave calls_made clients] in *. unfold turn in *. cbn [clients shared] in *. destruct (cl j) as [r|q k] eqn:Ej.
    + exact (IH hs ha cl i C HU HO HL HB HW W).
    + cbn [calls_weight fold_right snd] in W. fold (calls_weight (calls_made G sched (let (a, s) := perform G q (lm hs) in Pool s (update cl j (k a))))) in W.
      assert (Es : snd (perform G q (lm hs)) = lm (hs ++ ops_of q)) by apply perform_state.
      destruct (perform G q (lm hs)) as [a s] eqn:Ep. cbn [snd] in Es. subst s.
      pose proof (weight_snoc hs q) as V.
      destruct (Nat.eq_dec j i) as [->|Hj].
      * assert (Hl : q <> QCollections /\ forall c es, q <> QRemoveEntries c es) by (apply HL; rewrite Ej; left; reflexivity).
        assert (Ha : exists c, about q = Some c) by (destruct q; cbn; eauto; destruct (proj1 Hl eq_refl)).
        destruct Ha as (c0 & Ha).
        assert (Hc0 : C c0) by (apply HU; exists q; rewrite Ej; split; [left; reflexivity|exact Ha]).
        destruct (perform_own hs ha q c0 Ha (proj2 Hl) ltac:(lia) ltac:(lia) (HB c0 Hc0)) as [Ea O0].
        rewrite Ep in Ea. cbn [fst] in Ea.
        unfold turns_of. cbn [filter fst]. rewrite Nat.eqb_refl. cbn [List.length alone]. rewrite Ej. cbn [alone].
        assert (Es' : snd (perform G q (lm ha)) = lm (ha ++ ops_of q)) by apply perform_state.
        destruct (perform G q (lm ha)) as [a' s']. cbn [fst snd] in Ea, Es'. subst a' s'.
        destruct (IH (hs ++ ops_of q) (ha ++ ops_of q) (update cl i (k a)) i C) as (hs' & ha' & E1 & E2 & O').
        -- intros c (q' & Hq & E'). rewrite update_same in Hq. apply HU. exists q'. rewrite Ej. split; [right; exists a; exact Hq|exact E'].
        -- intros j c Hj Hu. rewrite (update_other _ _ _ _ Hj) in Hu. exact (HO j c Hj Hu).
        -- intros q' Hq. rewrite update_same in Hq. apply HL. rewrite Ej. right. exists a. exact Hq.
        -- intros c Hc. destruct (str_dec c c0) as [->|Hn]; [exact O0|].
           assert (Hn' : about q <> Some c) by congruence.
           eapply obs_trans; [apply perform_other, Hn'|]. eapply obs_trans; [apply HB, Hc|]. apply obs_sym, perform_other, Hn'.
        -- rewrite !total_weight_app. lia.
        -- lia.
        -- exists hs', ha'. split; [exact E1|]. rewrite update_same in E2. split; [exact E2|exact O'].
      * unfold turns_of. cbn [filter fst]. rewrite (proj2 (Nat.eqb_neq j i) Hj).
        assert (Hi : i <> j) by congruence.
        destruct (IH (hs ++ ops_of q) ha (update cl j (k a)) i C) as (hs' & ha' & E1 & E2 & O').
        -- intros c Hu. rewrite (update_other _ _ _ _ Hi) in Hu. exact (HU c Hu).
        -- intros j' c Hj' (q' & Hq & E'). destruct (Nat.eq_dec j' j) as [->|Hjj].
           ++ rewrite update_same in Hq. apply (HO j c Hj). exists q'. rewrite Ej. split; [right; exists a; exact Hq|exact E'].
           ++ rewrite (update_other _ _ _ _ Hjj) in Hq. apply (HO j' c Hj'). exists q'. split; assumption.
        -- intros q' Hq. rewrite (update_other _ _ _ _ Hi) in Hq. exact (HL q' Hq).
        -- intros c Hc. eapply obs_trans; [|apply HB, Hc]. apply perform_other. intros E'.
           apply (HO j c Hj); [|exact Hc]. exists q. rewrite Ej. split; [left; reflexivity|exact E'].
        -- rewrite total_weight_app. lia.
        -- lia.
        -- exists hs', ha'. split; [exact E1|]. rewrite (update_other _ _ _ _ Hi) in E2. split; [exact E2|exact O'].
Qed.

Lemma obs_same_for h h' c : obs c (lm h) (lm h') -> same_for G c (lm h) (lm h').
Proof.
  intros O. split.
  - cbn [graph_impl l_entries]. unfold graph_entries. cbn [el_name mkE]. rewrite (obs_triples h h' c O). reflexivity.
  - assert (K : forall d l, l_collections G d = Ok l -> (In (mkE c) l <-> has heed_impl d c)).
    { intros d l E. cbn [graph_impl l_collections] in E. unfold graph_collections in E. unfold has.
      destruct (t_collections heed_impl d) as [x|x|x]; cbn in E; try discriminate E. injection E as <-. rewrite in_map_iff.
      split; [intros (y & Ey & Hy)|intros (y & Ey & Hy)].
      - exists x. split; [reflexivity|]. injection Ey as <-. exact Hy.
      - injection Ey as <-. exists c. split; [reflexivity|exact Hy]. }
    intros l l' E E'. rewrite (K _ _ E), (K _ _ E'). apply O.
Qed.

Lemma alone_done {S} (L : lig_impl S) n : forall p s r s', alone L n p s = (Done r, s') -> solo L p s = (r, s').
Proof.
  induction n as [|n IH]; intros p s r s' E; destruct p as [r0|q k]; cbn in E; try (injection E as <- <-; reflexivity); try discriminate E.
  cbn [solo]. destruct (perform L q s) as [a s1]. exact (IH _ _ _ _ E).
Qed.

Lemma isolated h cl sched i :
  (forall j c, j <> i -> uses (cl i) c -> ~ uses (cl j) c) -> local (cl i) ->
  let x0 := Pool (lm h) cl in
  let made := calls_made G sched x0 in
  (total_weight h + calls_weight made < 2 ^ 64)%N ->
  let x := interleave G sched x0 in
  let a := alone G (turns_of i made) (cl i) (lm h) in
  clients x i = fst a /\ forall c, uses (cl i) c -> same_for G c (shared x) (snd a).
Proof.
  intros HO HL x0 made W x a.
  destruct (isolate sched h h cl i (uses (cl i))) as (hs & ha & E1 & E2 & O); auto.
  - intros j c Hj Hu Hi. exact (HO j c Hj Hi Hu).
  - intros c _. apply obs_refl.
  - lia.
  - fold x0 made in E2. fold x in E1, E2. unfold a. rewrite E2. cbn [fst snd]. split; [reflexivity|].
    intros c Hc. change (same_for G c (shared x) (lm ha)). replace (shared x) with (lm hs) by (symmetry; exact E1). apply obs_same_for, O, Hc.
Qed.

Lemma script_scripted s : scripted (script_names s) (p_run common s).
Proof.
  unfold p_run. destruct (tokenize_and_filter s) as [ts|e|w] eqn:E1; try apply scripted_done.
  destruct (parse ts) as [calls|e|w] eqn:E2; try apply scripted_done.
  apply (scripted_mono (names calls)); [|apply scripted_calls]. intros c Hc. exists ts, calls.
  split; [exact E1|]. split; [apply parse_ok, E2|exact Hc].
Qed.

Lemma isolated_scripts h scripts sched i r :
  (forall j c, j <> i -> script_names (scripts i) c -> ~ script_names (scripts j) c) ->
  let x0 := Pool (lm h) (fun j => p_run common (scripts j)) in
  (total_weight h + calls_weight (calls_made G sched x0) < 2 ^ 64)%N ->
  let x := interleave G sched x0 in
  clients x i = Done r ->
  exists d', run G common (scripts i) (lm h) = (r, d')
    /\ forall c, script_names (scripts i) c -> same_for G c (shared x) d'.
Proof.
  intros HO x0 W x Hr.
  destruct (isolate sched h h (fun j => p_run common (scripts j)) i (script_names (scripts i))) as (hs & ha & E1 & E2 & O).
  - intros c Hu. exact (scripted_uses _ _ _ (script_scripted _) Hu).
  - intros j c Hj Hu Hi. apply (HO j c Hj Hi). exact (scripted_uses _ _ _ (script_scripted _) Hu).
  - exact (scripted_local _ _ (script_scripted _)).
  - intros c _. apply obs_refl.
  - lia.
  - exact W.
  - fold x0 in E1, E2. fold x in E1, E2. rewrite Hr in E2. apply alone_done in E2. rewrite solo_run, on_store_common in E2.
    exists (lm ha). split; [exact E2|]. intros c Hc. change (same_for G c (shared x) (lm ha)). replace (shared x) with (lm hs) by (symmetry; exact E1). apply obs_same_for, O, Hc.
Qed.
