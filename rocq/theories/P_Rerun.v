(** * Scripts that only let, cut short and run again *)
From Coq Require Import List Arith NArith Bool String Lia.
From Verif Require Import M_Base M_Data M_Mem M_Heed M_Duck M_Regex M_Lexer M_Graph M_Parser M_Display M_Interp M_Conc
  S_Order S_Str S_Store S_Graph S_Parser S_Interp S_Conc P_Ord P_Hist P_Parser P_Conc P_ConcMore.
Import ListNotations.
Open Scope list_scope.

Lemma so_far h scripts jobs sched :
  (forall j, only_lets (scripts j) (jobs j)) -> (forall j c n, In (c, n) (jobs j) -> storable (el_name c)) ->
  let x0 := Pool (lm h) (fun j => p_run common (scripts j)) in
  (total_weight h + calls_weight (calls_made G sched x0) < 2 ^ 64)%N ->
  let x := interleave G sched x0 in
  exists h', shared x = lm h' /\ grows (lm h) (lm h')
  /\ (forall c, has heed_impl (lm h') c -> has heed_impl (lm h) c \/ exists i e n, In (e, n) (jobs i) /\ el_name e = c)
  /\ (forall c t, holds heed_impl (lm h') c t ->
        holds heed_impl (lm h) c t \/ exists i e n, In (e, n) (jobs i) /\ el_name e = c /\ In t (map entry_to_trip n))
  /\ forall i r, clients x i = Done r -> r = Ok unit_value /\ forall j, In j (jobs i) -> stored (lm h') j.
Proof.
  intros Hl Hs x0 W x.
  destruct (writers sched h (fun j => p_run common (scripts j)) jobs) as (h' & jobs' & E1 & Hg & HL & Hkeep & Hhas & Hhold); auto.
  { intros j. exists false. split; [|discriminate]. apply writer_script; [apply Hl|apply Hs]. }
  fold x0 in E1, HL. fold x in E1, HL. exists h'. split; [exact E1|]. split; [exact Hg|]. split; [exact Hhas|]. split; [exact Hhold|].
  intros i r Er. destruct (HL i) as (half & Hw & _). rewrite Er in Hw. destruct Hw as (_ & E & ->). split; [reflexivity|].
  intros j Hj. destruct (Hkeep i j Hj) as [H|H]; [|exact H]. rewrite E in H. destruct H.
Qed.

(** One writer, alone. *)
Lemma alone_writer m : forall h half js p, left_w half (lm h) js p -> (total_weight h + jw half js < 2 ^ 64)%N ->
  exists h' half' js', alone G m p (lm h) = (fst (alone G m p (lm h)), lm h') /\ grows (lm h) (lm h')
  /\ left_w half' (lm h') js' (fst (alone G m p (lm h)))
  /\ (total_weight h' + jw half' js' <= total_weight h + jw half js)%N
  /\ (forall j, In j js -> In j js' \/ stored (lm h') j)
  /\ (forall c, has heed_impl (lm h') c -> has heed_impl (lm h) c \/ exists e n, In (e, n) js /\ el_name e = c)
  /\ (forall c t, holds heed_impl (lm h') c t -> holds heed_impl (lm h) c t \/ exists e n, In (e, n) js /\ el_name e = c /\ In t (map entry_to_trip n)).
Proof.
  induction m as [|m IH]; intros h half js p Hp W.
  - exists h, half, js. cbn. split; [reflexivity|]. split; [split; auto|]. split; [exact Hp|]. split; [lia|]. auto.
  - destruct p as [r|q k].
    { exists h, half, js. cbn. split; [reflexivity|]. split; [split; auto|]. split; [exact Hp|]. split; [lia|]. auto. }
    assert (Q : (jw half js >= req_weight q)%N).
    { destruct Hp as (Hw & _). cbn [writer] in Hw. destruct js as [|[c n] js]; [destruct Hw|]. destruct Hw as [_ Hw].
      unfold jw, jobs_weight. cbn [fold_right snd]. destruct half; destruct Hw as [-> _]; cbn [req_weight]; lia. }
    destruct (writer_turn h half js q k Hp ltac:(lia)) as (a & js1 & half1 & Ep & Hg & HL1 & Hw1 & Hkeep & Hincl & Hhas & Hhold).
    pose proof (weight_snoc h q) as V. cbn [alone]. rewrite Ep.
    destruct (IH (h ++ ops_of q) half1 js1 (k a) HL1 ltac:(lia)) as (h' & half' & js' & E & Hg' & HL' & W' & Hkeep' & Hhas' & Hhold').
    exists h', half', js'. split; [exact E|]. split; [exact (grows_trans _ _ _ Hg Hg')|]. split; [exact HL'|]. split; [lia|].
    split; [|split].
    + intros j Hj. destruct (Hkeep j Hj) as [H1|H1]; [apply Hkeep', H1|right; exact (stored_grows _ _ _ Hg' H1)].
    + intros c Hc. destruct (Hhas' c Hc) as [H1|(e & n & H1 & H2)]; [apply Hhas, H1|right; exists e, n; auto].
    + intros c t Hc. destruct (Hhold' c t Hc) as [H1|(e & n & H1 & H2)]; [apply Hhold, H1|right; exists e, n; auto].
Qed.

Definition bounded_by (js : list job) (d d' : heed) : Prop :=
  grows d d'
  /\ (forall c, has heed_impl d' c -> has heed_impl d c \/ exists e n, In (e, n) js /\ el_name e = c)
  /\ (forall c t, holds heed_impl d' c t -> holds heed_impl d c t \/ exists e n, In (e, n) js /\ el_name e = c /\ In t (map entry_to_trip n)).

Lemma bounded_refl js d : bounded_by js d d.
Proof. split; [split; auto|]. auto. Qed.

Lemma bounded_trans js a b c : bounded_by js a b -> bounded_by js b c -> bounded_by js a c.
Proof.
  intros (G1 & H1 & K1) (G2 & H2 & K2). split; [exact (grows_trans _ _ _ G1 G2)|]. split.
  - intros x Hx. destruct (H2 x Hx) as [H|H]; [apply H1, H|right; exact H].
  - intros x t Hx. destruct (K2 x t Hx) as [H|H]; [apply K1, H|right; exact H].
Qed.

Section Script.
  Variables (script : str) (jobs : list job).
  Hypothesis Hl : only_lets script jobs.
  Hypothesis Hs : forall c n, In (c, n) jobs -> storable (el_name c).

  Lemma left_start d : left_w false d jobs (p_run common script).
  Proof. split; [apply writer_script; auto|discriminate]. Qed.

  Lemma jw_start : jw false jobs = jobs_weight jobs.
  Proof. unfold jw. lia. Qed.

  (** Cut short. *)
  Lemma cut m h : (total_weight h + jobs_weight jobs < 2 ^ 64)%N ->
    exists h', snd (alone G m (p_run common script) (lm h)) = lm h' /\ bounded_by jobs (lm h) (lm h')
    /\ (total_weight h' <= total_weight h + jobs_weight jobs)%N.
  Proof.
    intros W. destruct (alone_writer m h false jobs _ (left_start _)) as (h' & half' & js' & E & Hg & _ & W' & _ & Hhas & Hhold); [rewrite jw_start; exact W|].
    rewrite jw_start in W'. exists h'. rewrite E. split; [reflexivity|]. split; [split; [exact Hg|auto]|lia].
  Qed.

  Lemma cuts ms : forall h, (total_weight h + N.of_nat (List.length ms) * jobs_weight jobs < 2 ^ 64)%N ->
    exists h', fold_left (fun d m => snd (alone G m (p_run common script) d)) ms (lm h) = lm h' /\ bounded_by jobs (lm h) (lm h')
    /\ (total_weight h' <= total_weight h + N.of_nat (List.length ms) * jobs_weight jobs)%N.
  Proof.
    induction ms as [|m ms IH]; intros h W.
    - exists h. split; [reflexivity|]. split; [apply bounded_refl|lia].
    - cbn [List.length] in *. rewrite Nat2N.inj_succ in *. destruct (cut m h ltac:(lia)) as (h1 & E1 & B1 & W1). cbn [fold_left]. rewrite E1.
      destruct (IH h1 ltac:(lia)) as (h2 & E2 & B2 & W2). exists h2. split; [exact E2|]. split; [exact (bounded_trans _ _ _ _ B1 B2)|]. lia.
  Qed.

  Lemma most_alone {St} (L : lig_impl St) n : forall p s, most n p -> exists r, fst (alone L n p s) = Done r.
  Proof.
    induction n as [|n IH]; intros p s Hm; destruct p as [r|q k]; cbn in *; try (exists r; reflexivity); [destruct Hm|].
    destruct (perform L q s) as [a s']. apply IH, Hm.
  Qed.

  (** To the end. *)
  Lemma whole h : (total_weight h + jobs_weight jobs < 2 ^ 64)%N ->
    exists h', run G common script (lm h) = (Ok unit_value, lm h') /\ bounded_by jobs (lm h) (lm h')
    /\ (forall j, In j jobs -> stored (lm h') j).
  Proof.
    intros W. destruct (alone_writer (List.length script) h false jobs _ (left_start _)) as (h' & half' & js' & E & Hg & Hleft & W' & Hkeep & Hhas & Hhold);
      [rewrite jw_start; exact W|].
    destruct (most_alone G (List.length script) (p_run common script) (lm h) (most_run common script)) as (r & Er). rewrite Er in *.
    destruct Hleft as (Hw & _). cbn in Hw. destruct Hw as (_ & -> & ->). apply alone_done in E. rewrite solo_run, on_store_common in E.
    exists h'. split; [exact E|]. split; [split; [exact Hg|auto]|]. intros j Hj. destruct (Hkeep j Hj) as [[]|H]. exact H.
  Qed.

  Lemma whole_obs h : (total_weight h + jobs_weight jobs < 2 ^ 64)%N ->
    exists h', run G common script (lm h) = (Ok unit_value, lm h')
    /\ (forall c, has heed_impl (lm h') c <-> has heed_impl (lm h) c \/ exists e n, In (e, n) jobs /\ el_name e = c)
    /\ forall c t, holds heed_impl (lm h') c t <->
        holds heed_impl (lm h) c t \/ exists e n, In (e, n) jobs /\ el_name e = c /\ In t (map entry_to_trip n).
  Proof.
    intros W. destruct (whole h W) as (h' & E & (Hg & Hh & Hk) & Hst). exists h'. split; [exact E|]. split.
    - intros c. split; [apply Hh|]. intros [H|(e & n & Hj & <-)]; [apply Hg, H|]. exact (proj1 (Hst _ Hj)).
    - intros c t. split; [apply Hk|]. intros [H|(e & n & Hj & <- & Ht)]; [apply Hg, H|].
      apply in_map_iff in Ht as (y & <- & Hy). exact (proj2 (Hst _ Hj) y Hy).
  Qed.

  Lemma rerun h ms : (total_weight h + N.of_nat (S (List.length ms)) * jobs_weight jobs < 2 ^ 64)%N ->
    let cut := fold_left (fun d m => snd (alone G m (p_run common script) d)) ms (lm h) in
    exists d1 d2, run G common script cut = (Ok unit_value, d1) /\ run G common script (lm h) = (Ok unit_value, d2)
    /\ forall c, same_for G c d1 d2.
  Proof.
    rewrite Nat2N.inj_succ. intros W c0. destruct (cuts ms h ltac:(lia)) as (h1 & E1 & (Hg & Hh & Hk) & W1). fold c0 in E1. rewrite E1.
    destruct (whole_obs h1 ltac:(lia)) as (h2 & E2 & A2 & B2). destruct (whole_obs h ltac:(lia)) as (h3 & E3 & A3 & B3).
    exists (lm h2), (lm h3). split; [exact E2|]. split; [exact E3|]. intros c. apply obs_same_for. split.
    - rewrite A2, A3. split; intros [H|H]; auto. left. apply Hg, H.
    - intros t. rewrite B2, B3. split; intros [H|H]; auto. left. apply Hg, H.
  Qed.
End Script.

(** ** The same on DuckDB *)
Section OnDuck.
  Notation DG := (graph_impl duck_impl).

  (** A client that only creates collections and adds entries. *)
  Fixpoint adds (p : prog) : Prop :=
    match p with
    | Done _ => True
    | Ask q k => match q with QAddCollection _ | QAddEntries _ _ => True | _ => False end /\ forall a, adds (k a)
    end.

  Lemma adds_bind p : forall f, adds p -> (forall r, adds (f r)) -> adds (pbind p f).
  Proof.
    induction p as [r|q k IH]; intros f Hp Hf; cbn [pbind adds] in *; [apply Hf|]. destruct Hp as [H1 H2].
    split; [exact H1|]. intros a. apply IH; auto.
  Qed.

  Lemma adds_let c n : adds (p_let_store c n).
  Proof.
    cbn [adds p_let_store]. split; [exact I|]. intros [a|e|w]; cbn [adds]; auto; (split; [exact I|]); intros [b|e'|w']; exact I.
  Qed.

  Lemma adds_calls rq calls jobs : Forall2 let_job calls jobs -> forall v, adds (p_calls_loop rq common calls v).
  Proof.
    induction 1 as [|x [c n] calls jobs [E1 E2] HF IH]; intros v; [exact I|]. cbn [p_calls_loop fst snd] in *.
    rewrite E1, E2. destruct cmd_get_let as (d & ->). cbn [p_exec p_let cmd_fun_of].
    apply adds_bind; [apply adds_let|]. intros [r|e|w]; cbn; auto.
  Qed.

  (** Such a script begins by creating the first collection. *)
  Lemma script_adds s c n rest : only_lets s ((c, n) :: rest) ->
    exists k, p_run common s = Ask (QAddCollection c) k /\ (forall w, k (Panic w) = Done (Panic w)) /\ forall a, adds (k a).
  Proof.
    intros (ts & calls & E & Gs & HF). unfold p_run. rewrite E. apply parse_ok in Gs. rewrite Gs. unfold p_calls.
    pose proof (adds_calls (p_quote common) calls _ HF unit_value) as HA. revert HA.
    inversion HF as [|x j calls' jobs' [E1 E2] HF' Ec Ej]; subst. cbn [p_calls_loop fst snd] in *.
    rewrite E1, E2. destruct cmd_get_let as (d & ->). cbn [p_exec p_let cmd_fun_of p_let_store pbind adds]. intros [_ HA].
    eexists. split; [reflexivity|]. split; [intros w; reflexivity|exact HA].
  Qed.

  Definition there (c : str) (d : duck) : Prop := exists i, sel_id (d_coll d) c = Some i.

  Lemma sel_id_app t t' n i : sel_id t n = Some i -> sel_id (t ++ t') n = Some i.
  Proof. induction t as [|[j m] t IH]; cbn; [discriminate|]. destruct (str_eqb m n); auto. Qed.

  Lemma sel_id_end t n i : exists j, sel_id (t ++ [(i, n)]) n = Some j.
  Proof.
    induction t as [|[j m] t IH]; cbn; [|destruct (str_eqb m n); eauto].
    destruct (str_eqb n n) eqn:E; [eauto|]. pose proof (str_eqb_refl n). congruence.
  Qed.

  Lemma add_loop_coll cid ts : forall d d', duck_add_loop d cid ts = Ok d' -> d_coll d' = d_coll d.
  Proof.
    assert (P : forall d p d', duck_add_part d p = Ok d' -> d_coll d' = d_coll d).
    { intros d p d'. unfold duck_add_part. destruct (nextval (d_seq d)); [|discriminate].
      destruct (sel_id (d_part d) p); intros E; injection E as <-; reflexivity. }
    assert (T : forall d t d', duck_add_trip d cid t = Ok d' -> d_coll d' = d_coll d).
    { intros d t d'. unfold duck_add_trip. destruct (nextval (d_seq d)); [|discriminate]. intros E; injection E as <-; reflexivity. }
    induction ts as [|t ts IH]; intros d d'; cbn [duck_add_loop]; [intros E; injection E as <-; reflexivity|].
    unfold tbind. destruct (duck_add_part d (t0 t)) as [d1| |] eqn:E1; try discriminate.
    destruct (duck_add_part d1 (t1 t)) as [d2| |] eqn:E2; try discriminate.
    destruct (duck_add_part d2 (t2 t)) as [d3| |] eqn:E3; try discriminate.
    destruct (duck_add_trip d3 cid t) as [d4| |] eqn:E4; try discriminate. intros E.
    rewrite (IH _ _ E), (T _ _ _ E4), (P _ _ _ E3), (P _ _ _ E2), (P _ _ _ E1). reflexivity.
  Qed.

  Lemma there_perform c q d : (match q with QAddCollection _ | QAddEntries _ _ => True | _ => False end) ->
    there c d -> there c (snd (perform DG q d)).
  Proof.
    intros Hq (i & Hi). destruct q; try destruct Hq; cbn [perform graph_impl l_add_collection l_add_entries].
    - unfold graph_add_collection. cbn [t_add_collection duck_impl]. unfold duck_add_collection.
      destruct (nextval (d_seq d)); [destruct (sel_id (d_coll d) (el_name _)) eqn:E|]; cbn; try (exists i; exact Hi).
      exists i. cbn. apply sel_id_app, Hi.
    - unfold graph_add_entries. cbn [t_add_triples duck_impl]. unfold duck_add_triples, tbind.
      destruct (duck_get_collection_id d (el_name _)); cbn; try (exists i; exact Hi).
      destruct (duck_add_loop d _ _) as [d'| |] eqn:E; cbn; try (exists i; exact Hi).
      apply add_loop_coll in E. exists i. rewrite E. exact Hi.
  Qed.

  Lemma there_alone c m : forall p d, adds p -> there c d -> there c (snd (alone DG m p d)).
  Proof.
    induction m as [|m IH]; intros p d Hp Hd; destruct p as [r|q k]; try exact Hd. cbn [alone]. destruct Hp as [Hq Hk].
    pose proof (there_perform c q d Hq Hd) as H. destruct (perform DG q d) as [a d']. apply IH; [apply Hk|exact H].
  Qed.

  Lemma there_panics c d : there (el_name c) d -> perform DG (QAddCollection c) d = (Panic PUnwrap, d).
  Proof.
    intros (i & Hi). cbn [perform graph_impl l_add_collection]. unfold graph_add_collection. cbn [t_add_collection duck_impl].
    unfold duck_add_collection. rewrite Hi. destruct (nextval (d_seq d)); reflexivity.
  Qed.

  Lemma add_case c d : perform DG (QAddCollection c) d = (Panic PUnwrap, d)
    \/ exists d', perform DG (QAddCollection c) d = (Ok tt, d') /\ there (el_name c) d'.
  Proof.
    cbn [perform graph_impl l_add_collection]. unfold graph_add_collection. cbn [t_add_collection duck_impl].
    unfold duck_add_collection. destruct (nextval (d_seq d)) as [i|]; [|left; reflexivity].
    destruct (sel_id (d_coll d) (el_name c)) as [j|]; [left; reflexivity|right]. eexists. split; [reflexivity|].
    destruct (sel_id_end (d_coll d) (el_name c) i) as (j & Hj). exists j. exact Hj.
  Qed.

  Lemma duck_rerun script c n rest m d : only_lets script ((c, n) :: rest) -> m <> 0 ->
    let cut := snd (alone DG m (p_run common script) d) in
    exists w, run DG common script cut = (Panic w, cut).
  Proof.
    intros Hl Hm cut. destruct (script_adds script c n rest Hl) as (k & E & Kp & Ka).
    assert (S : forall s, solo DG (p_run common script) s = run DG common script s) by (intros s; rewrite solo_run, on_store_common; reflexivity).
    assert (R : forall s, (exists w, perform DG (QAddCollection c) s = (Panic w, s)) -> exists w, run DG common script s = (Panic w, s)).
    { intros s (w & Ew). exists w. rewrite <- S, E. cbn [solo]. rewrite Ew, Kp. reflexivity. }
    apply R. unfold cut. rewrite E. destruct m as [|m]; [destruct (Hm eq_refl)|]. cbn [alone]. exists PUnwrap.
    destruct (add_case c d) as [Ep|(d' & Ep & Ht)]; rewrite Ep.
    - rewrite Kp. destruct m; exact Ep.
    - apply there_panics, there_alone; [apply Ka|exact Ht].
  Qed.
End OnDuck.
