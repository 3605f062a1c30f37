(** * Any store that keeps the contract *)
From Coq Require Import List Arith NArith Bool String Lia.
From Verif Require Import M_Base M_Data M_Mem M_Heed M_Duck M_Regex M_Lexer M_Graph M_Parser M_Display M_Interp M_Conc
  S_Order S_Str S_Store S_Graph S_Filter S_GraphHist S_Parser S_Conc S_Wander S_Contract
  P_Ord P_Hist P_HeedHist P_Mem P_Graph P_GraphHist P_Parser P_Conc.
Import ListNotations.
Open Scope list_scope.

(** ** Histories *)
Section History.
  Context {S : Type} (I : trips_impl S) (good : S -> Prop) (K : keeps_contract I good).

  Lemma good_after h : forall s, good s -> good (after I s h).
  Proof. induction h as [|o h IH]; intros s G; [exact G|]. cbn. apply IH. destruct (K s G) as (_ & _ & _ & _ & H). apply H. Qed.

  Lemma has_step s o c : good s ->
    (has I (snd (call_op I s o)) c <-> o = OAddColl c \/ has I s c /\ o <> ORemColl c).
  Proof.
    intros G. destruct (K s G) as (_ & _ & _ & _ & H). destruct (H o) as [_ P]. destruct o as [d|d|d ts|d ts]; cbn [promised] in P.
    - destruct P as (_ & N & _). rewrite (N c). split.
      + intros [H1| ->]; [right; split; [exact H1|discriminate]|left; reflexivity].
      + intros [E|[H1 _]]; [injection E as ->; auto|auto].
    - destruct P as (_ & N & _). rewrite (N c). split.
      + intros [H1 E]. right. split; [exact H1|congruence].
      + intros [E|[H1 E]]; [discriminate|]. split; [exact H1|congruence].
    - destruct P as (N & _). rewrite (N c). split; [intros H1; right; split; [exact H1|discriminate]|intros [E|[H1 _]]; [discriminate|exact H1]].
    - destruct P as (N & _). rewrite (N c). split; [intros H1; right; split; [exact H1|discriminate]|intros [E|[H1 _]]; [discriminate|exact H1]].
  Qed.

  Lemma holds_has s c t : good s -> holds I s c t -> has I s c.
  Proof.
    intros G (l & E & _). destruct (K s G) as ((lc & Ec) & _ & H & _).
    destruct (in_dec str_dec c lc) as [Hi|Hn]; [exists lc; auto|].
    destruct (H c) as [e E']; [intros (l' & E2 & Hi); rewrite Ec in E2; injection E2 as <-; exact (Hn Hi)|]. rewrite E in E'. discriminate.
  Qed.

  Lemma has_dec s c : good s -> has I s c \/ ~ has I s c.
  Proof.
    intros G. destruct (K s G) as ((lc & Ec) & _). destruct (in_dec str_dec c lc) as [Hi|Hn]; [left; exists lc; auto|right].
    intros (l' & E2 & Hi). rewrite Ec in E2. injection E2 as <-. exact (Hn Hi).
  Qed.

  Lemma now_holds s c P t : triples_now I s c P -> (holds I s c t <-> P t).
  Proof.
    intros (l & E & H). split.
    - intros (l' & E' & Hi). rewrite E in E'. injection E' as <-. apply H, Hi.
    - intros Hp. exists l. split; [exact E|apply H, Hp].
  Qed.

  Lemma holds_step s o c t : good s ->
    (holds I (snd (call_op I s o)) c t
     <-> (exists ts, o = OAdd c ts /\ In t ts /\ has I s c) \/ (holds I s c t /\ ~ removes c t o)).
  Proof.
    intros G. destruct (K s G) as (_ & _ & _ & _ & H). destruct (H o) as [G' P]. pose proof (has_step s o c G) as HS.
    set (s' := snd (call_op I s o)) in *.
    assert (Other : forall d, d <> c -> others_as_before I s d s' -> (has I s' c <-> has I s c) ->
      holds I s' c t <-> holds I s c t).
    { intros d Hd O Hn. unfold holds. split; intros (l & E & Hi).
      - assert (Hc : has I s c) by (apply Hn; apply (holds_has s' c t G'); exists l; auto).
        exists l. split; [|exact Hi]. rewrite <- E. symmetry. apply O; [congruence|exact Hc].
      - assert (Hc : has I s c) by (apply (holds_has s c t G); exists l; auto).
        exists l. split; [|exact Hi]. rewrite <- E. apply O; [congruence|exact Hc]. }
    destruct o as [d|d|d ts|d ts]; cbn [promised] in P.
    - destruct P as (_ & N & T & O). destruct (str_dec d c) as [->|Hd].
      + rewrite (now_holds _ _ _ t T). split; [intros H1; right; split; [exact H1|intros X; inversion X]|].
        intros [(ts & E & _)|[H1 _]]; [discriminate|exact H1].
      + rewrite (Other d Hd O); [|rewrite (N c); split; [intros [H1|H1]; [exact H1|congruence]|auto]].
        split; [intros H1; right; split; [exact H1|intros X; inversion X]|]. intros [(ts & E & _)|[H1 _]]; [discriminate|exact H1].
    - destruct P as (_ & N & O). destruct (str_dec d c) as [->|Hd].
      + split.
        * intros Hh. apply (holds_has s' c t G') in Hh. apply (N c) in Hh. destruct Hh as [_ Hh]. congruence.
        * intros [(ts & E & _)|[_ H1]]; [discriminate|]. destruct H1. constructor.
      + rewrite (Other d Hd O); [|rewrite (N c); split; [tauto|split; [assumption|congruence]]].
        split; [intros H1; right; split; [exact H1|intros X; inversion X; congruence]|]. intros [(ts & E & _)|[H1 _]]; [discriminate|exact H1].
    - destruct P as (N & O & T & _). destruct (str_dec d c) as [->|Hd].
      + destruct (has_dec s c G) as [Hc|Hc].
        * destruct (T Hc) as [_ T']. rewrite (now_holds _ _ _ t T'). split.
          -- intros [H1|H1]; [right; split; [exact H1|intros X; inversion X]|left; exists ts; auto].
          -- intros [(ts' & E & Hi & _)|[H1 _]]; [injection E as <-; auto|auto].
        * split.
          -- intros Hh. apply (holds_has s' c t G') in Hh. apply (N c) in Hh. tauto.
          -- intros [(ts' & E & _ & H1)|[H1 _]]; [tauto|]. apply (holds_has s c t G) in H1. tauto.
      + rewrite (Other d Hd O); [|apply (N c)].
        split; [intros H1; right; split; [exact H1|intros X; inversion X]|]. intros [(ts' & E & _)|[H1 _]]; [congruence|exact H1].
    - destruct P as (N & O & T & _). destruct (str_dec d c) as [->|Hd].
      + destruct (has_dec s c G) as [Hc|Hc].
        * destruct (T Hc) as [_ T']. rewrite (now_holds _ _ _ t T'). split.
          -- intros [H1 H2]. right. split; [exact H1|]. intros X. inversion X; tauto.
          -- intros [(ts' & E & _)|[H1 H2]]; [discriminate|]. split; [exact H1|]. intros H3. apply H2. constructor. exact H3.
        * split.
          -- intros Hh. apply (holds_has s' c t G') in Hh. apply (N c) in Hh. tauto.
          -- intros [(ts' & E & _)|[H1 _]]; [discriminate|]. apply (holds_has s c t G) in H1. tauto.
      + rewrite (Other d Hd O); [|apply (N c)].
        split; [intros H1; right; split; [exact H1|intros X; inversion X; congruence]|]. intros [(ts' & E & _)|[H1 _]]; [discriminate|exact H1].
  Qed.

  Context (s0 : S) (G0 : good s0) (E0 : forall c, ~ has I s0 c).

  Lemma has_history h c : has I (after I s0 h) c <-> live h c.
  Proof.
    induction h as [|o h IH] using rev_ind.
    - cbn. split; [intros H; destruct (E0 c H)|intros H; destruct (live_nil c H)].
    - rewrite after_snoc, (has_step _ o c (good_after h s0 G0)), IH, live_snoc. reflexivity.
  Qed.

  Lemma holds_history h c t : holds I (after I s0 h) c t <-> holds_after h c t.
  Proof.
    induction h as [|o h IH] using rev_ind.
    - cbn. split; intros H; exfalso; [exact (E0 c (holds_has _ _ _ G0 H))|exact (added_nil _ _ _ H)].
    - rewrite after_snoc, (holds_step _ o c t (good_after h s0 G0)), IH, holds_after_snoc. setoid_rewrite (has_history h c). reflexivity.
  Qed.
End History.

(** ** Two stores *)

(** The same answer, but for the texts of errors and the kinds of panics. *)
Definition alike {A E : Type} (r r' : res A E) : Prop :=
  match r, r' with
  | Ok a, Ok b => a = b
  | Err _, Err _ => True
  | Panic _, Panic _ => True
  | _, _ => False
  end.

Definition alike_ans (q : req) : ans q -> ans q -> Prop :=
  match q with
  | QCollections => alike
  | QAddCollection _ | QRemoveCollection _ | QAddEntries _ _ | QRemoveEntries _ _ => alike
  | QEntries _ | QFilter _ _ => alike
  end.

(** Calls the contract says everything about. *)
Definition settled (q : req) : Prop :=
  match q with QCollections => False | QFilter _ p => no_variable_names p | _ => True end.

Section Two.
  Context {S T : Type} (I : trips_impl S) (J : trips_impl T) (good : S -> Prop) (fine : T -> Prop)
    (KI : keeps_contract I good) (KJ : keeps_contract J fine).
  Let G := graph_impl I.
  Let H := graph_impl J.

  Definition mates (s : S) (t : T) : Prop :=
    good s /\ fine t /\ forall c, (has I s c <-> has J t c) /\ forall x, holds I s c x <-> holds J t c x.

  Lemma mates_triples s t c : mates s t -> has I s c -> t_triples I s c = t_triples J t c.
  Proof.
    intros (Gs & Ft & M) Hc. destruct (KI s Gs) as (_ & A & _). destruct (KJ t Ft) as (_ & B & _).
    destruct (A c Hc) as (l & El & Sl). destruct (B c (proj1 (proj1 (M c)) Hc)) as (l' & El' & Sl').
    rewrite El, El'. f_equal. apply (is_set_ext trip_order _ _ Sl Sl'). intros x. destruct (M c) as [_ Mx]. specialize (Mx x).
    unfold holds in Mx. rewrite El, El' in Mx. split; intros Hi.
    - destruct (proj1 Mx) as (k & E & Hk); [exists l; auto|]. injection E as <-. exact Hk.
    - destruct (proj2 Mx) as (k & E & Hk); [exists l'; auto|]. injection E as <-. exact Hk.
  Qed.

  Lemma mates_iff s t : good s -> fine t -> (mates s t <-> same_contents I s J t).
  Proof.
    intros Gs Ft. split.
    - intros M c. split; [apply M|]. apply mates_triples, M.
    - intros C. split; [exact Gs|]. split; [exact Ft|]. intros c. destruct (C c) as [C1 C2]. split; [exact C1|].
      intros x. split; intros Hx.
      + pose proof (holds_has I good KI s c x Gs Hx) as Hc. destruct Hx as (l & E & Hi). exists l. rewrite <- (C2 Hc). auto.
      + pose proof (holds_has J fine KJ t c x Ft Hx) as Hc. destruct Hx as (l & E & Hi). exists l. rewrite (C2 (proj2 C1 Hc)). auto.
  Qed.

  Lemma answer_one {U} (L : trips_impl U) ok (KL : keeps_contract L ok) u o : ok u ->
    let c := match o with OAddColl c | ORemColl c | OAdd c _ | ORem c _ => c end in
    match o with
    | OAddColl _ | ORemColl _ => fst (call_op L u o) = Ok tt
    | _ => (has L u c -> fst (call_op L u o) = Ok tt) /\ (~ has L u c -> exists e, fst (call_op L u o) = Err e)
    end.
  Proof.
    intros Gu. destruct (KL u Gu) as (_ & _ & _ & _ & P). destruct (P o) as [_ Q]. destruct o as [c|c|c ts|c ts]; cbn [promised] in Q; cbv zeta.
    - apply Q.
    - apply Q.
    - destruct Q as (_ & _ & A & B). split; [intros Hc; apply (A Hc)|exact B].
    - destruct Q as (_ & _ & A & B). split; [intros Hc; apply (A Hc)|exact B].
  Qed.

  Lemma mates_step s t o : mates s t ->
    alike (fst (call_op I s o)) (fst (call_op J t o)) /\ mates (snd (call_op I s o)) (snd (call_op J t o)).
  Proof.
    intros (Gs & Ft & M). split.
    - pose proof (answer_one I good KI s o Gs) as A. pose proof (answer_one J fine KJ t o Ft) as B.
      destruct o as [c|c|c ts|c ts]; cbv zeta in A, B; try (rewrite A, B; reflexivity).
      all: destruct A as [A1 A2], B as [B1 B2]; destruct (M c) as [M1 _]; destruct (has_dec I good KI s c Gs) as [Hc|Hc];
        [rewrite (A1 Hc), (B1 (proj1 M1 Hc)); reflexivity
        |destruct (A2 Hc) as [e ->]; destruct B2 as [e' ->]; [rewrite <- M1; exact Hc|exact Logic.I]].
    - split; [destruct (KI s Gs) as (_ & _ & _ & _ & P); apply P|].
      split; [destruct (KJ t Ft) as (_ & _ & _ & _ & P); apply P|].
      intros c. destruct (M c) as [M1 M2]. split.
      + rewrite (has_step I good KI s o c Gs), (has_step J fine KJ t o c Ft), M1. reflexivity.
      + intros x. rewrite (holds_step I good KI s o c x Gs), (holds_step J fine KJ t o c x Ft), M2. setoid_rewrite M1. reflexivity.
  Qed.

  Lemma mates_lop s t o : mates s t ->
    alike (fst (call_lop G s o)) (fst (call_lop H t o)) /\ mates (snd (call_lop G s o)) (snd (call_lop H t o)).
  Proof.
    intros M. unfold G, H. rewrite !call_lop_eq. cbn [fst snd]. destruct (mates_step s t (P_GraphHist.op_of o) M) as [A B]. split; [|exact B].
    destruct (fst (call_op I s (P_GraphHist.op_of o))), (fst (call_op J t (P_GraphHist.op_of o))); cbn in *; try exact A; try exact Logic.I; destruct A.
  Qed.

  Lemma mates_filter s t c p : mates s t -> no_variable_names p -> alike (l_filter G s c p) (l_filter H t c p).
  Proof.
    intros M V. pose proof (query_no_variables p V) as V'. destruct M as (Gs & Ft & M). destruct (M (el_name c)) as [M1 M2].
    destruct (KI s Gs) as (_ & _ & _ & A & _). destruct (A (el_name c) _ V') as [A1 A2].
    destruct (KJ t Ft) as (_ & _ & _ & B & _). destruct (B (el_name c) _ V') as [B1 B2].
    cbn. unfold graph_filter. destruct (has_dec I good KI s (el_name c) Gs) as [Hc|Hc].
    - destruct (A1 Hc) as (l & -> & Hl). destruct (B1 (proj1 M1 Hc)) as (k & -> & Hk). cbn.
      apply (is_set_ext entry_order); try apply (is_set_collect entry_order).
      intros e. rewrite !(in_bs_collect entry_order), !in_map_iff.
      split; intros (x & E & Hx); exists x; (split; [exact E|]); [apply Hk; apply Hl in Hx|apply Hl; apply Hk in Hx]; rewrite M2 in *; exact Hx.
    - destruct (A2 Hc) as [e ->]. destruct B2 as [e' ->]; [rewrite <- M1; exact Hc|]. exact Logic.I.
  Qed.

  Lemma mates_perform s t q : mates s t -> settled q ->
    alike_ans q (fst (perform G q s)) (fst (perform H q t)) /\ mates (snd (perform G q s)) (snd (perform H q t)).
  Proof.
    intros M Q. destruct q as [|c|c|c|c es|c es|c p]; cbn [perform alike_ans settled] in *.
    - destruct Q.
    - exact (mates_lop s t (LAddColl c) M).
    - exact (mates_lop s t (LRemColl c) M).
    - split; [|exact M]. cbn. unfold graph_entries. destruct M as (Gs & Ft & M).
      destruct (has_dec I good KI s (el_name c) Gs) as [Hc|Hc].
      + rewrite (mates_triples s t (el_name c)); [|split; [exact Gs|split; [exact Ft|exact M]]|exact Hc].
        destruct (KJ t Ft) as (_ & B & _). destruct (B (el_name c)) as (l & -> & _); [apply M, Hc|]. reflexivity.
      + destruct (KI s Gs) as (_ & _ & A & _). destruct (KJ t Ft) as (_ & _ & B & _).
        destruct (A _ Hc) as [e ->]. destruct (B (el_name c)) as [e' ->]; [rewrite <- (proj1 (M (el_name c))); exact Hc|]. exact Logic.I.
    - exact (mates_lop s t (LAdd c es) M).
    - exact (mates_lop s t (LRem c es) M).
    - split; [|exact M]. cbn [fst]. apply mates_filter; assumption.
  Qed.

  (** Programs that ask for the same and go on alike after alike answers. *)
  Inductive twin : prog -> prog -> Prop :=
  | tw_done r r' : alike r r' -> twin (Done r) (Done r')
  | tw_ask q k k' : settled q -> (forall a a', alike_ans q a a' -> twin (k a) (k' a')) -> twin (Ask q k) (Ask q k').

  Lemma twin_solo p p' : twin p p' -> forall s t, mates s t ->
    alike (fst (solo G p s)) (fst (solo H p' t)) /\ mates (snd (solo G p s)) (snd (solo H p' t)).
  Proof.
    induction 1 as [r r' A|q k k' Q _ IH]; intros s t M; [split; [exact A|exact M]|].
    cbn [solo]. destruct (mates_perform s t q M Q) as [A M']. destruct (perform G q s) as [a s'], (perform H q t) as [a' t'].
    cbn [fst snd] in *. apply IH; assumption.
  Qed.
End Two.

(** ** Scripts *)
Lemma alike_refl {A E} (r : res A E) : alike r r.
Proof. destruct r; cbn; auto. Qed.

Lemma twin_bind p p' f f' : twin p p' -> (forall r r', alike r r' -> twin (f r) (f' r')) -> twin (pbind p f) (pbind p' f').
Proof. intros Hp Hf. induction Hp as [r r' A|q k k' Q _ IH]; cbn [pbind]; [apply Hf, A|]. constructor; [exact Q|]. exact IH. Qed.

Lemma twin_same r : twin (Done r) (Done r).
Proof. constructor. apply alike_refl. Qed.

Lemma twin_let c n : twin (p_let_store c n) (p_let_store c n).
Proof.
  unfold p_let_store. constructor; [exact Logic.I|]. intros a a' A. cbn [alike_ans] in A.
  assert (B : twin (Ask (QAddEntries c n) (fun b : lres unit => match b with Panic w => Done (Panic w) | _ => Done (Ok unit_value) end))
                   (Ask (QAddEntries c n) (fun b : lres unit => match b with Panic w => Done (Panic w) | _ => Done (Ok unit_value) end))).
  { constructor; [exact Logic.I|]. intros b b' B. cbn [alike_ans] in B. destruct b, b'; cbn in B; try destruct B; constructor; cbn; auto. }
  destruct a, a'; cbn in A; try destruct A; try exact B. constructor. exact Logic.I.
Qed.

Section Twins.
  Context (plain : str -> Prop) (Hp : forall n, plain n -> ~ variable_name n).
  Context (rq : list value -> prog)
    (Hq : forall q, (forall n, arg_names (tl q) n -> plain n) -> twin (rq q) (rq q)).

  Lemma twin_quote q args : In (VQuote q) args -> (forall n, arg_names args n -> plain n) -> twin (rq q) (rq q).
  Proof.
    intros Hi Ha. apply Hq. intros c (v & Hv & Hc). apply Ha. exists (VQuote q).
    split; [exact Hi|]. destruct q as [|h q]; [destruct Hv|]. exact (in_quote _ _ _ _ Hv Hc).
  Qed.

  Lemma twin_value v args : In v args -> (forall n, arg_names args n -> plain n) -> twin (p_value rq v) (p_value rq v).
  Proof. intros Hi Ha. destruct v; cbn; try apply twin_same. exact (twin_quote _ _ Hi Ha). Qed.

  Lemma twin_exec cs f args : (forall n, arg_names args n -> plain n) -> twin (p_exec rq cs f args) (p_exec rq cs f args).
  Proof.
    intros Ha. destruct f; cbn [p_exec]; try apply twin_same.
    - unfold p_assert_equal. destruct args as [|l [|r [|x args]]]; try apply twin_same.
      apply twin_bind; [apply (twin_value _ _ (in_eq _ _) Ha)|]. intros a a' A.
      destruct a as [lv|e|w], a' as [lv'|e'|w']; cbn in A; try destruct A; try (constructor; exact Logic.I).
      apply twin_bind; [apply (twin_value _ _ (in_cons _ _ _ (in_eq _ _)) Ha)|]. intros b b' B.
      destruct b as [rv|e|w], b' as [rv'|e'|w']; cbn in B; try destruct B; try (constructor; exact Logic.I). apply twin_same || (destruct (value_eqb lv rv); apply twin_same).
    - unfold p_assert_fail. destruct args as [|[e|q|n] [|x args]]; try apply twin_same.
      apply twin_bind; [apply (twin_quote _ _ (in_eq _ _) Ha)|]. intros a a' A.
      destruct a as [lv|e|w], a' as [lv'|e'|w']; cbn in A; try destruct A; constructor; cbn; auto.
    - unfold p_let. destruct args as [|[c|q0|n0] [|[e|q|n] [|x args]]]; try apply twin_same.
      + apply twin_bind; [apply (twin_quote _ _ (in_cons _ _ _ (in_eq _ _)) Ha)|].
        intros a a' A. destruct a as [[e|q1|n]|e|w], a' as [lv'|e'|w']; cbn in A; try destruct A; try apply twin_let; constructor; cbn; auto.
      + apply twin_let.
    - unfold p_read. destruct args as [|[c|q0|n0] [|x args]]; try apply twin_same.
      constructor; [exact Logic.I|]. intros a a' A. cbn [alike_ans] in A. constructor. destruct a, a'; cbn in A; try destruct A; cbn; auto.
    - unfold p_filter. destruct args as [|[c|q0|n0] [|[a|q1|n1] [|[b|q2|n2] [|[d|q3|n3] [|x args]]]]]; try apply twin_same.
      constructor.
      + cbn [settled]. assert (V : forall e, In (VElement e) [VElement c; VElement a; VElement b; VElement d] -> ~ variable_name (el_name e)).
        { intros e He. apply Hp, Ha, arg_element, He. }
        unfold no_variable_names. cbn. repeat split; apply V; cbn; tauto.
      + intros r r' A. cbn [alike_ans] in A. constructor. destruct r, r'; cbn in A; try destruct A; cbn; auto.
  Qed.

  Lemma twin_loop cs calls : forall res, (forall n, names calls n -> plain n) ->
    twin (p_calls_loop rq cs calls res) (p_calls_loop rq cs calls res).
  Proof.
    induction calls as [|c calls IH]; intros res Hn; [apply twin_same|]. cbn [p_calls_loop].
    destruct (cmd_get cs (el_name (c_name c))) as [cmd|]; [|apply twin_same].
    apply twin_bind.
    - apply twin_exec. intros x (v & Hv & Hx). apply Hn. exists c, v. split; [left; reflexivity|]. split; assumption.
    - intros a a' A. destruct a as [v|e|w], a' as [v'|e'|w']; cbn in A; try destruct A; try (constructor; exact Logic.I).
      apply IH. intros x (y & u & Hy & Hu & Hx). apply Hn. exists y, u. split; [right; exact Hy|]. split; assumption.
  Qed.
End Twins.

Lemma twin_quote_f (plain : str -> Prop) (Hp : forall n, plain n -> ~ variable_name n) cs fuel : forall q,
  (forall n, arg_names (tl q) n -> plain n) -> twin (p_quote_f fuel cs q) (p_quote_f fuel cs q).
Proof.
  induction fuel as [|fuel IH]; intros q Hn; [apply twin_same|]. cbn [p_quote_f].
  destruct q as [|[e|q0|n] args]; try apply twin_same.
  apply (twin_loop plain Hp _ IH). intros c (x & v & [<-|[]] & Hv & Hc). apply Hn. exists v. split; [exact Hv|exact Hc].
Qed.

Lemma twin_script s : (forall n, script_names s n -> ~ variable_name n) -> twin (p_run common s) (p_run common s).
Proof.
  intros Hn. unfold p_run. destruct (tokenize_and_filter s) as [ts|e|w] eqn:E1; try apply twin_same.
  destruct (parse ts) as [calls|e|w] eqn:E2; try apply twin_same.
  apply (twin_loop (fun n => names calls n)).
  - intros n Hi. apply Hn. exists ts, calls. split; [exact E1|]. split; [apply parse_ok, E2|exact Hi].
  - intros q Hq. apply (twin_quote_f (fun n => names calls n)); [|exact Hq].
    intros n Hi. apply Hn. exists ts, calls. split; [exact E1|]. split; [apply parse_ok, E2|exact Hi].
  - auto.
Qed.
