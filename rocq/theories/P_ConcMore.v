(** * Several clients: order of calls, convergence, bounds *)
From Coq Require Import List Arith NArith Bool String Lia.
From Verif Require Import M_Base M_Data M_Heed M_Regex M_Lexer M_Graph M_Parser M_Display M_Interp M_Conc
  S_Order S_Str S_Store S_Graph S_Lexer S_Parser S_Interp S_Conc P_Ord P_Hist P_Agree P_Heed P_HeedHist P_HeedMore P_Graph P_Lexer P_LexMore P_Parser P_Interp P_InterpStores P_Conc.
Import ListNotations.
Open Scope list_scope.

Notation G := (graph_impl heed_impl).

(** ** One after the other *)
Lemma in_order {St} (L : lig_impl St) sched : forall x,
  shared (interleave L sched x) = fold_left (fun s q => snd (perform L q s)) (map snd (calls_made L sched x)) (shared x).
Proof.
  induction sched as [|i sched IH]; intros x; [reflexivity|]. cbn [interleave calls_made]. rewrite IH. unfold turn.
  destruct (clients x i) as [r|q k]; [reflexivity|]. cbn [map fold_left snd]. destruct (perform L q (shared x)); reflexivity.
Qed.

(** ** Convergence *)
Definition job := (element * list entry)%type.

(** The answer is not a panic. *)
Definition okay {q : req} : ans q -> Prop :=
  match q return ans q -> Prop with
  | QCollections => fun a => forall w, a <> Panic w
  | QAddCollection _ | QRemoveCollection _ | QAddEntries _ _ | QRemoveEntries _ _ => fun a => forall w, a <> Panic w
  | QEntries _ | QFilter _ _ => fun a => forall w, a <> Panic w
  end.

(** A client that has these jobs left to do, the first perhaps half done. *)
Fixpoint writer (half : bool) (js : list job) (p : prog) : Prop :=
  match p with
  | Done r => half = false /\ js = [] /\ r = Ok unit_value
  | Ask q k =>
      match js with
      | [] => False
      | (c, n) :: js' =>
          storable (el_name c) /\
          if half then q = QAddEntries c n /\ forall a, okay a -> writer false js' (k a)
          else q = QAddCollection c /\ forall a, okay a -> writer true js (k a)
      end
  end.

Lemma writer_bind p : forall half js f js', writer half js p -> (forall r, r = Ok unit_value -> writer false js' (f r)) ->
  writer half (js ++ js') (pbind p f).
Proof.
  induction p as [r|q k IH]; intros half js f js' Hw Hf; cbn [writer pbind] in *.
  - destruct Hw as (-> & -> & E). apply Hf, E.
  - destruct js as [|[c n] js]; [destruct Hw|]. cbn [app]. destruct Hw as [Hs Hw]. split; [exact Hs|].
    destruct half; destruct Hw as [E Hk]; (split; [exact E|]); intros a Ha.
    + apply IH; [apply Hk, Ha|exact Hf].
    + change ((c, n) :: js ++ js') with (((c, n) :: js) ++ js'). apply IH; [apply Hk, Ha|exact Hf].
Qed.

Lemma cmd_get_let : exists d, cmd_get (@common unit) (lit "let") = Some (Command d FLet).
Proof. eexists. vm_compute. reflexivity. Qed.

Lemma writer_calls rq calls jobs : Forall2 let_job calls jobs -> (forall c n, In (c, n) jobs -> storable (el_name c)) ->
  writer false jobs (p_calls_loop rq common calls unit_value).
Proof.
  induction 1 as [|x [c n] calls jobs [E1 E2] HF IH]; intros Hs; [cbn; auto|]. cbn [p_calls_loop fst snd] in *.
  rewrite E1, E2. destruct cmd_get_let as (d & ->). cbn [p_exec p_let cmd_fun_of].
  change ((c, n) :: jobs) with ([(c, n)] ++ jobs). apply writer_bind.
  - unfold p_let_store. split; [apply (Hs c n); left; reflexivity|]. split; [reflexivity|].
    intros [a|e|w] Ha; [| |destruct (Ha w eq_refl)].
    all: split; [apply (Hs c n); left; reflexivity|]; split; [reflexivity|].
    all: intros [b|e'|w'] Hb; try (destruct (Hb w' eq_refl)); cbn; auto.
  - intros r ->. apply IH. intros c0 n0 Hi. apply (Hs c0 n0). right. exact Hi.
Qed.

Lemma writer_script s jobs : only_lets s jobs -> (forall c n, In (c, n) jobs -> storable (el_name c)) -> writer false jobs (p_run common s).
Proof.
  intros (ts & calls & E & Gs & HF) Hs. unfold p_run. rewrite E. apply parse_ok in Gs. rewrite Gs. apply writer_calls; assumption.
Qed.

(** A job the store shows. *)
Definition stored (d : heed) (j : job) : Prop :=
  has heed_impl d (el_name (fst j)) /\ forall e, In e (snd j) -> holds heed_impl d (el_name (fst j)) (entry_to_trip e).

(** What a client is left to do. *)
Definition left_w (half : bool) (d : heed) (js : list job) (p : prog) : Prop :=
  writer half js p /\ (half = true -> exists c n js', js = (c, n) :: js' /\ has heed_impl d (el_name c)).
Definition left_to (d : heed) (js : list job) (p : prog) : Prop := exists half, left_w half d js p.

(** How many ids that can use up. *)
Definition jw (half : bool) (js : list job) : N := (jobs_weight js - if half then 1 else 0)%N.

Definition grows (d d' : heed) : Prop :=
  (forall c, has heed_impl d c -> has heed_impl d' c) /\ forall c t, holds heed_impl d c t -> holds heed_impl d' c t.

Lemma left_grows d d' js p : grows d d' -> left_to d js p -> left_to d' js p.
Proof.
  intros [H _] (half & Hw & Hh). exists half. split; [exact Hw|]. intros E. destruct (Hh E) as (c & n & js' & Ej & Hc).
  exists c, n, js'. auto.
Qed.

Lemma stored_grows d d' j : grows d d' -> stored d j -> stored d' j.
Proof. intros [H1 H2] [S1 S2]. split; [apply H1, S1|intros e He; apply H2, S2, He]. Qed.

(** One turn of a writer. *)
Lemma writer_turn h half js q k : left_w half (lm h) js (Ask q k) -> (total_weight h + req_weight q < 2 ^ 64)%N ->
  let d := lm h in let d' := lm (h ++ ops_of q) in
  exists a js1 half1, perform G q d = (a, d') /\ grows d d' /\ left_w half1 d' js1 (k a)
  /\ (jw half1 js1 + req_weight q = jw half js)%N
  /\ (forall j, In j js -> In j js1 \/ stored d' j) /\ incl js1 js
  /\ (forall c, has heed_impl d' c -> has heed_impl d c \/ exists e n, In (e, n) js /\ el_name e = c)
  /\ (forall c t, holds heed_impl d' c t -> holds heed_impl d c t \/ exists e n, In (e, n) js /\ el_name e = c /\ In t (map entry_to_trip n)).
Proof.
  intros (Hw & Hh) W d d'. pose proof (weight_snoc h q) as V.
  assert (Es : snd (perform G q d) = d') by apply perform_state.
  cbn [writer] in Hw. destruct js as [|[c n] js]; [destruct Hw|]. destruct Hw as [Hs Hw]. destruct half; destruct Hw as [-> Hk].
  - destruct (Hh eq_refl) as (c' & n' & js' & Ej & Hc). injection Ej as <- <- <-. clear Hh.
    set (o := OAdd (el_name c) (bs_collect trip_cmp (map entry_to_trip n))) in *.
    pose proof (heed_answers (sure h) o true) as HA. cbn zeta in HA. rewrite map_fst_sure in HA.
    change (h ++ ops_of (QAddEntries c n)) with (h ++ [o]) in *. specialize (HA ltac:(lia)). rewrite <- lm_f in HA.
    apply (proj1 HA) in Hc as HA1. change (call_op (heed_impl_c true)) with (call_op heed_impl) in HA1. clear HA.
    pose proof (heed_effect h o) as HE. cbn zeta in HE. fold d d' in HE, HA1. rewrite HA1 in HE.
    assert (Ea : fst (perform G (QAddEntries c n) d) = Ok tt).
    { cbn [perform graph_impl l_add_entries fst]. unfold graph_add_entries. cbn [call_op o] in HA1.
      destruct (t_add_triples heed_impl d (el_name c) _) as [[r1 s1] y1]. cbn [fst] in HA1 |- *. rewrite HA1. reflexivity. }
    exists (Ok tt), js, false. split; [destruct (perform G (QAddEntries c n) d); cbn in Ea, Es; subst; reflexivity|].
    assert (Hg : grows d d').
    { split.
      - intros x Hx. apply (HE x). right. split; [exact Hx|discriminate].
      - intros x t Hx. apply (HE x). right. split; [exact Hx|]. intros K. inversion K. }
    split; [exact Hg|]. split; [|split; [|split; [|split; [|split]]]].
    + split; [apply Hk; intros w; discriminate|discriminate].
    + unfold jw, jobs_weight. cbn [req_weight fold_right snd]. fold (jobs_weight js). lia.
    + intros j [<-|Hj]; [|left; exact Hj]. right. split; [apply Hg, Hc|]. intros e He. apply (HE (el_name c)). left. eexists.
      split; [reflexivity|]. apply (in_bs_collect trip_order), in_map, He.
    + intros j Hj. right. exact Hj.
    + intros x Hx. apply (HE x) in Hx as [[E _]|[Hx _]]; [discriminate E|left; exact Hx].
    + intros x t Hx. apply (HE x) in Hx as [(ts & E & Ht)|[Hx _]]; [|left; exact Hx]. right. injection E as E1 E2. exists c, n.
      split; [left; reflexivity|]. split; [exact E1|]. subst ts. apply (proj1 (in_bs_collect trip_order _ _)) in Ht. exact Ht.
  - clear Hh. set (o := OAddColl (el_name c)) in *.
    pose proof (heed_answers (sure h) o true) as HA. cbn zeta in HA. rewrite map_fst_sure in HA.
    change (h ++ ops_of (QAddCollection c)) with (h ++ [o]) in *. specialize (HA ltac:(lia)). rewrite <- lm_f in HA.
    change (call_op (heed_impl_c true)) with (call_op heed_impl) in HA.
    pose proof (heed_effect h o) as HE. cbn zeta in HE. fold d d' in HE, HA. 
    assert (HA1 : fst (call_op heed_impl d o) = Ok tt) by exact HA. rewrite HA1 in HE.
    assert (Ea : fst (perform G (QAddCollection c) d) = Ok tt).
    { cbn [perform graph_impl l_add_collection fst]. unfold graph_add_collection. cbn [call_op o] in HA1.
      destruct (t_add_collection heed_impl d (el_name c)) as [r1 s1]. cbn [fst] in HA1 |- *. rewrite HA1. reflexivity. }
    exists (Ok tt), ((c, n) :: js), true. split; [destruct (perform G (QAddCollection c) d); cbn in Ea, Es; subst; reflexivity|].
    assert (Hg : grows d d').
    { split.
      - intros x Hx. apply (HE x). right. split; [exact Hx|discriminate].
      - intros x t Hx. apply (HE x). right. split; [exact Hx|]. intros K. inversion K. }
    split; [exact Hg|]. split; [|split; [|split; [|split; [|split]]]].
    + split; [apply Hk; intros w; discriminate|]. intros _. exists c, n, js. split; [reflexivity|]. apply HE. left. auto.
    + unfold jw, jobs_weight. cbn [req_weight fold_right snd]. fold (jobs_weight js). lia.
    + intros j Hj. left. exact Hj.
    + intros j Hj. exact Hj.
    + intros x Hx. apply (HE x) in Hx as [[E _]|[Hx _]]; [|left; exact Hx]. right. injection E as E. exists c, n. split; [left; reflexivity|exact E].
    + intros x t Hx. apply (HE x) in Hx as [(ts & E & Ht)|[Hx _]]; [discriminate E|left; exact Hx].
Qed.

(** The whole schedule. *)
Lemma grows_trans a b c : grows a b -> grows b c -> grows a c.
Proof. intros [H1 H2] [K1 K2]. split; auto. Qed.

Lemma writers sched : forall h cl (jobs : nat -> list job),
  (forall j, left_to (lm h) (jobs j) (cl j)) ->
  (total_weight h + calls_weight (calls_made G sched (Pool (lm h) cl)) < 2 ^ 64)%N ->
  let x := interleave G sched (Pool (lm h) cl) in
  exists h' jobs', shared x = lm h' /\ grows (lm h) (lm h') /\ (forall j, left_to (lm h') (jobs' j) (clients x j))
  /\ (forall i j, In j (jobs i) -> In j (jobs' i) \/ stored (lm h') j)
  /\ (forall c, has heed_impl (lm h') c -> has heed_impl (lm h) c \/ exists i e n, In (e, n) (jobs i) /\ el_name e = c)
  /\ (forall c t, holds heed_impl (lm h') c t ->
        holds heed_impl (lm h) c t \/ exists i e n, In (e, n) (jobs i) /\ el_name e = c /\ In t (map entry_to_trip n)).
Proof.
  induction sched as [|i sched IH]; intros h cl jobs HL W.
  - exists h, jobs. cbn. split; [reflexivity|]. split; [split; auto|]. split; [exact HL|]. auto.
  - cbn [interleave calls_made clients] in *. unfold turn in *. cbn [clients shared] in *.
    pose proof (HL i) as Hi. destruct (cl i) as [r|q k] eqn:Ei; [exact (IH h cl jobs HL W)|].
    cbn [calls_weight fold_right snd] in W. fold (calls_weight (calls_made G sched (let (a, s) := perform G q (lm h) in Pool s (update cl i (k a))))) in W.
    destruct Hi as (half & Hi).
    destruct (writer_turn h half (jobs i) q k Hi ltac:(lia)) as (a & js1 & half1 & Ep & Hg & HL1 & _ & Hkeep & Hincl & Hhas & Hhold). rewrite Ep in *.
    pose proof (weight_snoc h q) as V.
    set (jobs1 := fun j => if Nat.eqb j i then js1 else jobs j).
    destruct (IH (h ++ ops_of q) (update cl i (k a)) jobs1) as (h' & jobs' & E1 & Hg' & HL' & Hkeep' & Hhas' & Hhold').
    + intros j. unfold jobs1, update. destruct (Nat.eqb_spec j i) as [->|Hn]; [exists half1; exact HL1|]. exact (left_grows _ _ _ _ Hg (HL j)).
    + lia.
    + exists h', jobs'. split; [exact E1|]. split; [exact (grows_trans _ _ _ Hg Hg')|]. split; [exact HL'|].
      assert (Hsub : forall m j, In j (jobs1 m) -> In j (jobs m)).
      { intros m j. unfold jobs1. destruct (Nat.eqb_spec m i) as [->|Hn]; [apply Hincl|auto]. }
      split; [|split].
      * intros m j Hj. destruct (Nat.eq_dec m i) as [->|Hn].
        -- destruct (Hkeep j Hj) as [H1|H1]; [|right; exact (stored_grows _ _ _ Hg' H1)].
           apply Hkeep'. unfold jobs1. rewrite Nat.eqb_refl. exact H1.
        -- apply Hkeep'. unfold jobs1. apply Nat.eqb_neq in Hn. rewrite Hn. exact Hj.
      * intros c Hc. destruct (Hhas' c Hc) as [H1|(m & e & n & H1 & H2)]; [|right; exists m, e, n; auto].
        destruct (Hhas c H1) as [H2|(e & n & H2)]; [left; exact H2|right; exists i, e, n; exact H2].
      * intros c t Hc. destruct (Hhold' c t Hc) as [H1|(m & e & n & H1 & H2)]; [|right; exists m, e, n; auto].
        destruct (Hhold c t H1) as [H2|(e & n & H2)]; [left; exact H2|right; exists i, e, n; exact H2].
Qed.

Lemma converge h scripts jobs sched :
  (forall j, only_lets (scripts j) (jobs j)) -> (forall j c n, In (c, n) (jobs j) -> storable (el_name c)) ->
  let x0 := Pool (lm h) (fun j => p_run common (scripts j)) in
  (total_weight h + calls_weight (calls_made G sched x0) < 2 ^ 64)%N ->
  let x := interleave G sched x0 in
  finished x ->
  (forall j, clients x j = Done (Ok unit_value))
  /\ exists h', shared x = lm h' /\ forall c,
     (has heed_impl (shared x) c <-> has heed_impl (lm h) c \/ exists j e n, In (e, n) (jobs j) /\ el_name e = c)
     /\ forall t, holds heed_impl (shared x) c t <->
          holds heed_impl (lm h) c t \/ exists j e n, In (e, n) (jobs j) /\ el_name e = c /\ In t (map entry_to_trip n).
Proof.
  intros Hl Hs x0 W x Hf.
  destruct (writers sched h (fun j => p_run common (scripts j)) jobs) as (h' & jobs' & E1 & Hg & HL & Hkeep & Hhas & Hhold); auto.
  { intros j. exists false. split; [|discriminate]. apply writer_script; [apply Hl|apply Hs]. }
  fold x0 in E1, HL. fold x in E1, HL.
  assert (HD : forall j, clients x j = Done (Ok unit_value) /\ jobs' j = []).
  { intros j. destruct (Hf j) as (r & Er). destruct (HL j) as (half & Hw & _). rewrite Er in *. cbn in Hw.
    destruct Hw as (_ & E & ->). auto. }
  split; [intros j; apply HD|]. exists h'. split; [exact E1|].
  assert (HS : forall i j, In j (jobs i) -> stored (lm h') j).
  { intros i j Hj. destruct (Hkeep i j Hj) as [H|H]; [|exact H]. rewrite (proj2 (HD i)) in H. destruct H. }
  assert (E : shared x = lm h') by exact E1. rewrite E. intros c. split.
  - split; [apply Hhas|]. intros [H|(i & e & n & Hj & <-)]; [apply Hg, H|]. exact (proj1 (HS _ _ Hj)).
  - intros t. split; [apply Hhold|]. intros [H|(i & e & n & Hj & <- & Ht)]; [apply Hg, H|].
    apply in_map_iff in Ht as (y & <- & Hy). exact (proj2 (HS _ _ Hj) y Hy).
Qed.

(** ** How many calls a script makes *)
Fixpoint most (n : nat) (p : prog) {struct p} : Prop :=
  match p with
  | Done _ => True
  | Ask q k => match n with 0 => False | S m => forall a, most m (k a) end
  end.

Lemma most_mono p : forall n m, n <= m -> most n p -> most m p.
Proof.
  induction p as [r|q k IH]; intros n m Hle Hm; [exact I|]. destruct n as [|n]; [destruct Hm|]. destruct m as [|m]; [lia|].
  intros a. apply (IH a n m); [lia|apply Hm].
Qed.

Lemma most_bind p f m : (forall r, most m (f r)) -> forall n, most n p -> most (n + m) (pbind p f).
Proof.
  intros Hf. induction p as [r|q k IH]; intros n Hn; cbn [pbind].
  - apply (most_mono _ m); [lia|apply Hf].
  - destruct n as [|n]; [destruct Hn|]. intros a. apply IH, Hn.
Qed.

Fixpoint vsize (v : value) : nat :=
  match v with VQuote q => S (fold_right (fun x n => vsize x + n) 0 q) | _ => 1 end.
Definition vsizes (l : list value) : nat := fold_right (fun x n => vsize x + n) 0 l.

Lemma most_done n r : most n (Done r).
Proof. destruct n; exact I. Qed.

Lemma most_let c n : most 2 (p_let_store c n).
Proof. intros [a|e|w]; try apply most_done; intros [b|e'|w']; apply most_done. Qed.

Section Most.
  Context (rq : list value -> prog) (Hq : forall q, most (vsizes q) (rq q)).

  Lemma most_value v : most (vsize v) (p_value rq v).
  Proof. destruct v; cbn [p_value]; try apply most_done. apply (most_mono _ (vsizes q)); [cbn; unfold vsizes; lia|apply Hq]. Qed.

  Lemma most_exec cs f args : most (vsizes args) (p_exec rq cs f args).
  Proof.
    destruct f; cbn [p_exec]; try apply most_done.
    - unfold p_assert_equal. destruct args as [|l [|r [|x args]]]; try apply most_done. cbn [vsizes fold_right].
      apply most_bind; [|apply most_value]. intros [lv|e|w]; try apply most_done.
      apply most_bind; [|apply most_value]. intros [rv|e|w]; try apply most_done. destruct (value_eqb lv rv); apply most_done.
    - unfold p_assert_fail. destruct args as [|[e|q|n] [|x args]]; try apply most_done. cbn [vsizes fold_right].
      apply most_bind; [intros [v|e|w]; apply most_done|]. apply (most_value (VQuote q)).
    - unfold p_let. destruct args as [|[c|q0|n0] [|[e|q|n] [|x args]]]; try apply most_done.
      + apply (most_mono _ (vsizes q + 2)); [cbn; unfold vsizes; lia|]. apply most_bind; [|apply Hq].
        intros [[e|q1|n]|e|w]; try apply most_done. apply most_let.
      + apply (most_let c n).
    - unfold p_read. destruct args as [|[c|q0|n0] [|x args]]; try apply most_done. cbn. intros a. exact I.
    - unfold p_filter. destruct args as [|[c|q0|n0] [|[a|q1|n1] [|[b|q2|n2] [|[d|q3|n3] [|x args]]]]]; try apply most_done.
      cbn. intros r. exact I.
  Qed.

  Lemma most_loop cs calls : forall res,
    most (fold_right (fun c n => vsizes (c_args c) + n) 0 calls) (p_calls_loop rq cs calls res).
  Proof.
    induction calls as [|c calls IH]; intros res; [apply most_done|]. cbn [p_calls_loop fold_right].
    destruct (cmd_get cs (el_name (c_name c))) as [cmd|]; [|apply most_done].
    apply most_bind; [|apply most_exec]. intros [v|e|w]; try apply most_done. apply IH.
  Qed.
End Most.

Lemma most_quote_f cs fuel : forall q, most (vsizes q) (p_quote_f fuel cs q).
Proof.
  induction fuel as [|fuel IH]; intros q; [apply most_done|]. cbn [p_quote_f].
  destruct q as [|[e|q0|n] args]; try apply most_done.
  eapply most_mono; [|apply (most_loop _ IH)]. cbn. unfold vsizes. lia.
Qed.

Lemma quote_tokens ts vs : g_quote ts vs -> vsizes vs <= List.length ts.
Proof.
  induction 1 as [|e ts vs H IH|n es s ts vs Hn Hs H IH]; cbn [vsizes fold_right vsize List.length]; try lia.
  - fold (vsizes vs). lia.
  - fold (vsizes vs). rewrite app_length. lia.
Qed.

Lemma values_tokens ts vs : g_values ts vs -> vsizes vs <= List.length ts.
Proof.
  induction 1 as [|e ts vs H IH|b ts vs H IH|n es s ts vs Hn Hs H IH|q qs ts vs Hq H IH];
    cbn [vsizes fold_right vsize List.length]; rewrite ?app_length; try lia; unfold vsizes in IH; try lia.
  apply quote_tokens in Hq. unfold vsizes in Hq. lia.
Qed.

Lemma call_tokens ts c : g_call ts c -> vsizes (c_args c) <= List.length ts.
Proof. intros H. apply values_tokens in H. cbn [vsizes fold_right vsize] in H. fold (vsizes (c_args c)) in H. lia. Qed.

Definition csizes (calls : list call) : nat := fold_right (fun c n => vsizes (c_args c) + n) 0 calls.

Lemma commas_tokens ts cs : g_commas ts cs -> csizes cs <= List.length ts.
Proof.
  induction 1 as [|ts c ts' cs Hc H IH]; [cbn; lia|]. cbn [csizes fold_right]. fold (csizes cs).
  apply call_tokens in Hc. rewrite app_length. cbn. lia.
Qed.

Lemma script_tokens ts cs : g_script ts cs -> csizes cs <= List.length ts.
Proof.
  intros [ts0 cs0 H|ts0 cs0 ts' c H Hc]; [apply commas_tokens, H|].
  apply commas_tokens in H. apply call_tokens in Hc. unfold csizes. rewrite fold_right_app. cbn [fold_right].
  assert (E : forall l m, fold_right (fun c n => vsizes (c_args c) + n) m l = csizes l + m).
  { intros l m. induction l as [|x l IH]; [reflexivity|]. cbn. rewrite IH. unfold csizes. lia. }
  rewrite E, app_length. lia.
Qed.

Lemma filter_le {A} (f : A -> bool) l : List.length (filter f l) <= List.length l.
Proof. induction l as [|x l IH]; cbn; [lia|]. destruct (f x); cbn; lia. Qed.

Lemma lexes_length s ts : lexes s ts -> List.length ts <= List.length s.
Proof.
  induction 1 as [|s t x rest ts (E & Hx & _) H IH]; [cbn; lia|]. subst s. rewrite app_length. cbn.
  apply lexeme_nonempty in Hx. destruct x; [destruct (Hx eq_refl)|]. cbn. lia.
Qed.

Lemma tokens_length s ts : tokenize_and_filter s = Ok ts -> List.length ts <= List.length s.
Proof.
  unfold tokenize_and_filter. destruct (tokenize s) as [l|e|w] eqn:E; try discriminate. intros Ei. injection Ei as <-.
  rewrite map_length. pose proof (filter_le significant l). apply tokenize_ok, lexes_length in E. lia.
Qed.

Lemma most_run cs s : most (List.length s) (p_run cs s).
Proof.
  unfold p_run. destruct (tokenize_and_filter s) as [ts|e|w] eqn:E1; try apply most_done.
  destruct (parse ts) as [calls|e|w] eqn:E2; try apply most_done.
  apply tokens_length in E1. apply parse_ok, script_tokens in E2.
  eapply most_mono; [|apply most_loop; intros q; apply most_quote_f]. fold (csizes calls). lia.
Qed.

Lemma most_scheduled {St} (L : lig_impl St) sched i : forall x, most (scheduled i sched) (clients x i) ->
  exists r, clients (interleave L sched x) i = Done r.
Proof.
  induction sched as [|j sched IH]; intros x Hm; cbn [interleave].
  - cbn in Hm. destruct (clients x i) as [r|q k]; [exists r; reflexivity|destruct Hm].
  - apply IH. unfold turn. unfold scheduled in *. cbn [count_occ] in Hm. destruct (Nat.eq_dec j i) as [->|Hn].
    + destruct (clients x i) as [r|q k] eqn:E; [rewrite E; apply most_done|]. cbn in Hm.
      destruct (perform L q (shared x)) as [a s]. cbn [clients]. rewrite update_same. apply Hm.
    + destruct (clients x j) as [r|q k] eqn:E; [exact Hm|]. destruct (perform L q (shared x)) as [a s]. cbn [clients].
      rewrite update_other; [exact Hm|congruence].
Qed.

Lemma bounded_run {St} (L : lig_impl St) cs s sched i x :
  clients x i = p_run cs s -> List.length s <= scheduled i sched ->
  exists r, clients (interleave L sched x) i = Done r.
Proof. intros E Hle. apply most_scheduled. rewrite E. eapply most_mono; [exact Hle|apply most_run]. Qed.

Lemma most_made {St} (L : lig_impl St) sched i : forall x n, most n (clients x i) -> turns_of i (calls_made L sched x) <= n.
Proof.
  induction sched as [|j sched IH]; intros x n Hm; [cbn; lia|]. cbn [calls_made]. destruct (clients x j) as [r|q k] eqn:E.
  - apply IH, Hm.
  - unfold turns_of. cbn [filter fst]. unfold turn. rewrite E. destruct (Nat.eqb_spec j i) as [->|Hn].
    + rewrite E in Hm. destruct n as [|n]; [destruct Hm|]. cbn in Hm. cbn [List.length]. apply le_n_S. apply IH.
      destruct (perform L q (shared x)) as [a s]. cbn [clients]. rewrite update_same. apply Hm.
    + apply IH. destruct (perform L q (shared x)) as [a s]. cbn [clients]. rewrite update_other; [exact Hm|congruence].
Qed.

Lemma converge_same h scripts jobs sched sched' :
  (forall j, only_lets (scripts j) (jobs j)) -> (forall j c n, In (c, n) (jobs j) -> storable (el_name c)) ->
  let x0 := Pool (lm h) (fun j => p_run common (scripts j)) in
  (total_weight h + calls_weight (calls_made G sched x0) < 2 ^ 64)%N ->
  (total_weight h + calls_weight (calls_made G sched' x0) < 2 ^ 64)%N ->
  finished (interleave G sched x0) -> finished (interleave G sched' x0) ->
  forall c, same_for G c (shared (interleave G sched x0)) (shared (interleave G sched' x0)).
Proof.
  intros Hl Hs x0 W W' F F' c.
  destruct (converge h scripts jobs sched Hl Hs W F) as (_ & h1 & E1 & H1).
  destruct (converge h scripts jobs sched' Hl Hs W' F') as (_ & h2 & E2 & H2).
  fold x0 in E1, E2, H1, H2. specialize (H1 c). specialize (H2 c). unfold x0 in *.
  rewrite E1 in *. rewrite E2 in *. apply obs_same_for. destruct H1 as [A1 B1]. destruct H2 as [A2 B2]. split.
  - rewrite A1, A2. reflexivity.
  - intros t. rewrite B1, B2. reflexivity.
Qed.
