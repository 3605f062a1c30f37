(** * Proofs about names: a run invents none *)
From Coq Require Import List Arith NArith Bool String Lia.
From Verif Require Import M_Base M_Data M_Mem M_Heed M_Duck M_Regex M_Lexer M_Graph M_Parser M_Display M_Interp
  S_Order S_Str S_Store S_Graph S_Lexer S_Parser S_Display S_Interp S_GraphHist S_Names
  P_Ord P_Hist P_Lexer P_LexMore P_Parser P_Display P_Mem P_Heed P_HeedHist P_Duck P_Graph P_Interp P_InterpMore P_Filter P_Agree.
Import ListNotations.
Open Scope list_scope.

Definition ok_el (P : str -> Prop) (e : element) : Prop := bare e /\ P (el_name e).
Definition ok_entry (P : str -> Prop) (e : entry) : Prop := normal e /\ forall n, names_of e n -> P n.
Definition ok_item (P : str -> Prop) (v : value) : Prop :=
  match v with
  | VElement e => ok_el P e
  | VNetwork n => is_set entry_lt n /\ Forall (ok_entry P) n
  | VQuote _ => False
  end.
Definition ok_val (P : str -> Prop) (v : value) : Prop :=
  match v with VQuote q => Forall (ok_item P) q | _ => ok_item P v end.

Lemma ok_item_val P v : ok_item P v -> ok_val P v.
Proof. destruct v; simpl; tauto. Qed.

Lemma ok_entry_mono (P Q : str -> Prop) e : (forall n, P n -> Q n) -> ok_entry P e -> ok_entry Q e.
Proof. intros H [N K]. split; [exact N|]. intros n Hn. auto. Qed.

Lemma ok_item_mono (P Q : str -> Prop) v : (forall n, P n -> Q n) -> ok_item P v -> ok_item Q v.
Proof.
  intros H. destruct v as [e|q|n]; simpl; [intros [A B]; split; auto|tauto|].
  intros [A B]. split; [exact A|]. eapply Forall_impl; [|exact B]. intros e. apply ok_entry_mono, H.
Qed.

Lemma ok_val_mono (P Q : str -> Prop) v : (forall n, P n -> Q n) -> ok_val P v -> ok_val Q v.
Proof.
  intros H. destruct v as [e|q|n]; try exact (ok_item_mono P Q _ H).
  simpl. apply Forall_impl. intros x. apply ok_item_mono, H.
Qed.

(** Stores in which only added triples and collections appear. *)
Record honest {S : Type} (I : trips_impl S) (s0 : S) : Prop := {
  hn_holds : forall h o c t, holds I (after I s0 (h ++ [o])) c t ->
     holds I (after I s0 h) c t \/ exists ts, o = OAdd c ts /\ In t ts;
  hn_has : forall h o c, has I (after I s0 (h ++ [o])) c -> has I (after I s0 h) c \/ o = OAddColl c;
  hn_filter : forall h c p l t, t_filter I (after I s0 h) c p = Ok l -> In t l -> holds I (after I s0 h) c t }.

Lemma honest_mem : honest mem_impl mem_new.
Proof.
  assert (HH : forall h c t, holds mem_impl (after mem_impl mem_new h) c t <-> mem_holds_after h c t).
  { intros h c t. pose proof (mem_history_get h c) as H. rewrite mem_holds.
    destruct (get c (after mem_impl mem_new h)) as [l|].
    - destruct H as (_ & _ & H). split; [intros (l' & E & Hi); injection E as <-; apply H, Hi|]. intros Hh. exists l. split; [reflexivity|apply H, Hh].
    - split; [intros (l & E & _); discriminate|]. intros Hh. exfalso. apply H. eapply added_live; [|exact Hh]. constructor. }
  split.
  - intros h o c t. rewrite !HH. unfold mem_holds_after. rewrite added_snoc.
    intros [(ts & -> & Hi & _)|[H _]]; [right; eauto|left; exact H].
  - intros h o c. unfold has. destruct (mem_listing (h ++ [o])) as (l & E & _ & Hl). destruct (mem_listing h) as (l' & E' & _ & Hl').
    intros (x & Ex & Hi). rewrite E in Ex. injection Ex as <-. apply Hl, live_snoc in Hi.
    destruct Hi as [Hi|Hi]; [right; tauto|left]. exists l'. split; [exact E'|]. apply Hl'. tauto.
  - intros h c p l t E Hi. change (mem_filter (after mem_impl mem_new h) c p = Ok l) in E. unfold mem_filter in E. rewrite mem_holds.
    destruct (get c (after mem_impl mem_new h)) as [ts|] eqn:Eg; [|discriminate].
    exists ts. split; [reflexivity|].
    destruct (mem_filter_loop_spec p ts []) as [[_ E2]|[_ (r & E2 & _ & Hr)]]; rewrite E2 in E; [discriminate|].
    injection E as <-. apply Hr in Hi. destruct Hi as [[]|[Hi _]]. exact Hi.
Qed.

Lemma acked_last_or {S} (I : trips_impl S) s0 h o : acked I s0 (h ++ [o]) = acked I s0 h ++ [o] \/ acked I s0 (h ++ [o]) = acked I s0 h.
Proof.
  rewrite acked_snoc. destruct (call_op I (after I s0 h) o) as [[u|e|w] s'];
    [left|right|right]; try rewrite app_nil_r; reflexivity.
Qed.

Lemma honest_heed : honest heed_impl heed_new.
Proof.
  assert (HS : forall h, simulates (after heed_impl heed_new h) (acked heed_impl heed_new h)).
  { intros h. pose proof (heed_simulates (sure h)) as H. rewrite after_sure, installed_sure in H. exact H. }
  assert (HI : forall h, inv (after heed_impl heed_new h)).
  { intros h. pose proof (inv_reach (sure h)) as H. rewrite after_sure in H. exact H. }
  assert (HH : forall h c t, holds heed_impl (after heed_impl heed_new h) c t <-> holds_after (acked heed_impl heed_new h) c t).
  { intros h c t. exact (sim_holds true _ _ c t (HI h) (HS h)). }
  split.
  - intros h o c t. rewrite !HH. destruct (acked_last_or heed_impl heed_new h o) as [->| ->]; [|auto].
    unfold holds_after. rewrite added_snoc. intros [(ts & -> & Hi & _)|[H _]]; [right; eauto|left; exact H].
  - intros h o c. rewrite (sim_has true _ _ c (HS (h ++ [o]))), (sim_has true _ _ c (HS h)).
    destruct (acked_last_or heed_impl heed_new h o) as [->| ->]; [|auto].
    rewrite live_snoc. tauto.
  - intros h c p l t E _. discriminate.
Qed.

Lemma honest_duck : honest duck_impl duck_new.
Proof.
  assert (HH : forall h c t, holds duck_impl (after duck_impl duck_new h) c t <-> holds_after (acked duck_impl duck_new h) c t).
  { intros h c t. destruct (duck_history h) as [_ H]. destruct (H c) as (l & E & _ & Hl). rewrite <- Hl. split.
    - intros (l' & E' & Hi). rewrite E in E'. injection E' as <-. exact Hi.
    - intros Hi. exists l. auto. }
  assert (HC : forall h c, has duck_impl (after duck_impl duck_new h) c <-> live (acked duck_impl duck_new h) c).
  { intros h c. destruct (duck_history h) as [(l & E & _ & Hl) _]. rewrite <- Hl. split.
    - intros (l' & E' & Hi). rewrite E in E'. injection E' as <-. exact Hi.
    - intros Hi. exists l. auto. }
  split.
  - intros h o c t. rewrite !HH. destruct (acked_last_or duck_impl duck_new h o) as [->| ->]; [|auto].
    unfold holds_after. rewrite added_snoc. intros [(ts & -> & Hi & _)|[H _]]; [right; eauto|left; exact H].
  - intros h o c. rewrite !HC. destruct (acked_last_or duck_impl duck_new h o) as [->| ->]; [|auto].
    rewrite live_snoc. tauto.
  - intros h c p l t E _. discriminate.
Qed.

Lemma common_documented {St} n (c : @command St) : In (n, c) common -> documented n /\ documented (cmd_doc c).
Proof.
  intros H. set (f := fun x : str * @command St => (fst x, cmd_doc (snd x))).
  set (g := fun x : str * @command unit => (fst x, cmd_doc (snd x))).
  assert (E : map f common = map g common) by reflexivity.
  apply (in_map f) in H. rewrite E in H. apply in_map_iff in H. destruct H as ([m d] & E2 & Hi).
  injection E2 as E3 E4. cbn in E3, E4. split; right; exists m, d; auto.
Qed.

Lemma view_names e n : part n (view e) <-> names_of e n.
Proof. reflexivity. Qed.

Section Runs.
  Context {S : Type} (I : trips_impl S) (s0 : S) (HI : honest I s0) (A C Q : str -> Prop).
  Context (AQ : forall n, A n -> Q n) (AC : forall n, A n -> C n) (DQ : forall n, documented n -> Q n).
  Notation G := (graph_impl I).

  Definition keeps_names (s : S) : Prop :=
    exists h, s = after I s0 h /\ (forall c t n, holds I s c t -> part n t -> Q n) /\ (forall c, has I s c -> C c).

  Lemma kn_coll c s a s1 : A (el_name c) -> keeps_names s -> l_add_collection G s c = (a, s1) -> keeps_names s1.
  Proof.
    intros Hc (h & -> & H1 & H2) E.
    assert (E1 : s1 = after I s0 (h ++ [OAddColl (el_name c)])).
    { rewrite after_snoc. cbn. cbn in E. unfold graph_add_collection in E.
      destruct (t_add_collection I (after I s0 h) (el_name c)) as [r' s']. injection E as _ <-. reflexivity. }
    exists (h ++ [OAddColl (el_name c)]). rewrite E1. split; [reflexivity|]. split.
    - intros c' t n Ht. apply (hn_holds _ _ HI) in Ht. destruct Ht as [Ht|(ts & E2 & _)]; [eauto|discriminate].
    - intros c' Ht. apply (hn_has _ _ HI) in Ht. destruct Ht as [Ht|E2]; [eauto|]. injection E2 as <-. apply AC, Hc.
  Qed.

  Lemma kn_add c es s a s1 es' : A (el_name c) -> Forall (ok_entry Q) es -> keeps_names s ->
    l_add_entries G s c es = (a, s1, es') -> keeps_names s1.
  Proof.
    intros Hc He (h & -> & H1 & H2) E.
    assert (E1 : s1 = after I s0 (h ++ [OAdd (el_name c) (trips_of es)])).
    { rewrite after_snoc. cbn [l_add_entries graph_impl] in E. unfold graph_add_entries in E. cbn [call_op]. fold (trips_of es) in E.
      destruct (t_add_triples I (after I s0 h) (el_name c) (trips_of es)) as [[r' s'] x]. injection E as _ <- _. reflexivity. }
    exists (h ++ [OAdd (el_name c) (trips_of es)]). rewrite E1. split; [reflexivity|]. split.
    - intros c' t n Ht Hn. apply (hn_holds _ _ HI) in Ht. destruct Ht as [Ht|(ts & E2 & Hi)]; [eauto|].
      injection E2 as _ <-. apply in_trips_of in Hi. destruct Hi as (e & Hi & <-).
      rewrite Forall_forall in He. apply (proj2 (He e Hi)), Hn.
    - intros c' Ht. apply (hn_has _ _ HI) in Ht. destruct Ht as [Ht|E2]; [eauto|discriminate].
  Qed.

  Lemma kn_stores c es s r s1 : A (el_name c) -> Forall (ok_entry Q) es -> keeps_names s ->
    stores G c es s r s1 -> keeps_names s1 /\ forall v, r = Ok v -> ok_val Q v.
  Proof.
    intros Hc He K [a st1 b st2 n' E1 _ E2 _|w st1 E1|a st1 w st2 n' E1 _ E2]; pose proof (kn_coll _ _ _ _ Hc K E1) as K1.
    - split; [exact (kn_add _ _ _ _ _ _ Hc He K1 E2)|]. intros v E. injection E as <-. split; constructor.
    - split; [exact K1|discriminate].
    - split; [exact (kn_add _ _ _ _ _ _ Hc He K1 E2)|discriminate].
  Qed.

  Lemma kn_read c s l : keeps_names s -> l_entries G s c = Ok l -> is_set entry_lt l /\ Forall (ok_entry Q) l.
  Proof.
    intros (h & -> & H1 & _) E. cbn in E. unfold graph_entries in E.
    destruct (t_triples I (after I s0 h) (el_name c)) as [ts|e|w] eqn:Et; try discriminate.
    destruct (entries_spec I _ c ts Et) as (es & E2 & Hs & Hi). cbn in E2. unfold graph_entries in E2. rewrite Et in E2.
    rewrite E2 in E. injection E as <-. split; [exact Hs|]. apply Forall_forall. intros e He. apply Hi in He as [N Hv].
    split; [exact N|]. intros n Hn. apply (H1 (el_name c) (view e)); [|exact Hn]. exists ts. auto.
  Qed.

  Lemma kn_filter c p s l : keeps_names s -> l_filter G s c p = Ok l -> is_set entry_lt l /\ Forall (ok_entry Q) l.
  Proof.
    intros (h & -> & H1 & _) E. cbn in E. unfold graph_filter, err_todo in E.
    destruct (t_filter I (after I s0 h) (el_name c) (entry_to_query p)) as [ts|e|w] eqn:Et; try discriminate.
    injection E as <-. split; [apply (is_set_collect entry_order)|]. apply Forall_forall. intros e He.
    apply (in_bs_collect entry_order), in_map_iff in He. destruct He as (t & E & Hi). rewrite filter_trip_to_entry_eq in E.
    apply trip_to_entry_iff in E as [N <-]. split; [exact N|]. intros n Hn.
    apply (H1 (el_name c) (view e)); [|exact Hn]. apply (hn_filter _ _ HI) with (1 := Et), Hi.
  Qed.

  Lemma kn_simply f args s r s1 : simply G common f args s r s1 -> (forall g, f <> FHost g) -> Forall (ok_val A) args ->
    keeps_names s -> keeps_names s1 /\ forall v, r = Ok v -> ok_val Q v.
  Proof.
    intros Hs Hh Ha K. destruct Hs; try (split; [exact K|discriminate]).
    - split; [exact K|]. intros w E. injection E as <-. inversion Ha; subst. eapply ok_val_mono; [exact AQ|assumption].
    - split; [exact K|]. intros w E. injection E as <-. split; constructor.
    - split; [exact K|]. intros w E. injection E as <-. split; [assumption|]. apply Forall_forall. intros e He.
      apply H0 in He. destruct He as (name & c & Hi & ->). destruct (common_documented _ _ Hi) as [D1 D2]. split.
      + repeat split; discriminate.
      + intros m [->|[->| ->]]; cbn; apply DQ; [exact D1| |exact D2]. left. reflexivity.
    - split; [exact K|]. intros w E. injection E as <-. inversion Ha as [|x y Hl Hr]; subst. inversion Hr as [|x' y' Hr' _]; subst.
      destruct Hl as [Sl Fl], Hr' as [Sr Fr]. split.
      + apply (is_set_append entry_order), Sl.
      + apply Forall_forall. intros e He. apply (in_bs_append entry_order) in He.
        apply (ok_entry_mono A Q); [exact AQ|]. rewrite Forall_forall in Fl, Fr. destruct He as [He|He]; auto.
    - split; [exact K|]. intros w E. injection E as <-. eapply kn_read; eassumption.
    - split; [exact K|]. intros w E. injection E as <-. eapply kn_filter; eassumption.
    - destruct (Hh f eq_refl).
  Qed.

  Lemma names_reach :
    (forall v st r st', evals G common v st r st' -> ok_val A v -> keeps_names st -> keeps_names st' /\ forall w, r = Ok w -> ok_val Q w)
    /\ (forall q st r st', quotes G common q st r st' -> Forall (ok_item A) q -> keeps_names st -> keeps_names st' /\ forall w, r = Ok w -> ok_val Q w)
    /\ (forall n args st r st', does G common n args st r st' -> Forall (ok_val A) args -> keeps_names st -> keeps_names st' /\ forall w, r = Ok w -> ok_val Q w)
    /\ (forall f args st r st', acts G common f args st r st' -> (forall g, f <> FHost g) -> Forall (ok_val A) args ->
          keeps_names st -> keeps_names st' /\ forall w, r = Ok w -> ok_val Q w).
  Proof.
    apply semantics_ind; try (intros; split; [assumption|discriminate]).
    - intros e st H K. split; [exact K|]. intros w E. injection E as <-. exact (ok_val_mono A Q (VElement e) AQ H).
    - intros n st H K. split; [exact K|]. intros w E. injection E as <-. exact (ok_val_mono A Q (VNetwork n) AQ H).
    - intros q st r st' _ IH H K. exact (IH H K).
    - intros st _ K. split; [exact K|]. intros w E. injection E as <-. split; constructor.
    - intros n args st r st' _ IH H K. inversion H; subst. apply IH; [|exact K]. eapply Forall_impl; [|eassumption]. intros v. apply ok_item_val.
    - intros n c args st r st' Hc _ IH H K. exact (IH (common_no_host _ _ Hc) H K).
    - intros f args st r st' Hs Hh Ha K. exact (kn_simply _ _ _ _ _ Hs Hh Ha K).
    - intros l r st a st1 _ IH _ _ Ha K. inversion Ha; subst. auto.
    - intros l r st a st1 b st2 _ IH1 _ IH2 _ _ Ha K. inversion Ha as [|x y H1 H2]; subst. inversion H2; subst.
      destruct (IH1 H1 K) as [K1 _]. auto.
    - intros l r st a st1 st2 _ IH1 _ IH2 _ Ha K. inversion Ha as [|x y H1 H2]; subst. inversion H2; subst.
      destruct (IH1 H1 K) as [K1 _]. destruct (IH2 ltac:(assumption) K1) as [K2 _]. split; [exact K2|].
      intros w E. injection E as <-. split; constructor.
    - intros l r st a st1 b st2 _ IH1 _ IH2 _ _ Ha K. inversion Ha as [|x y H1 H2]; subst. inversion H2; subst.
      destruct (IH1 H1 K) as [K1 _]. destruct (IH2 ltac:(assumption) K1) as [K2 _]. split; [exact K2|discriminate].
    - intros q st v st1 _ IH _ Ha K. inversion Ha; subst. destruct (IH ltac:(assumption) K) as [K1 _]. split; [exact K1|discriminate].
    - intros q st v st1 _ IH _ Ha K. inversion Ha; subst. destruct (IH ltac:(assumption) K) as [K1 _]. split; [exact K1|].
      intros w E. injection E as <-. split; constructor.
    - intros q st v st1 _ IH _ Ha K. inversion Ha; subst. destruct (IH ltac:(assumption) K) as [K1 _]. split; [exact K1|discriminate].
    - intros c n st r st' H _ Ha K. inversion Ha as [|x y H1 H2]; subst. inversion H2 as [|x y H3 H4]; subst.
      refine (kn_stores _ _ _ _ _ (proj2 H1) _ K H). eapply Forall_impl; [|exact (proj2 H3)]. intros e. apply ok_entry_mono, AQ.
    - intros c q st n st1 r st' _ IH H _ Ha K. inversion Ha as [|x y H1 H2]; subst. inversion H2 as [|x y H3 H4]; subst.
      destruct (IH H3 K) as [K1 Hn]. refine (kn_stores _ _ _ _ _ (proj2 H1) _ K1 H). exact (proj2 (Hn _ eq_refl)).
    - intros c q st w st1 _ IH _ Ha K. inversion Ha as [|x y H1 H2]; subst. inversion H2; subst.
      destruct (IH ltac:(assumption) K) as [K1 _]. split; [exact K1|discriminate].
    - intros c q st a st1 _ IH _ _ _ Ha K. inversion Ha as [|x y H1 H2]; subst. inversion H2; subst.
      destruct (IH ltac:(assumption) K) as [K1 _]. split; [exact K1|discriminate].
  Qed.

  Lemma names_calls calls st r st' : runs G common calls st r st' -> Forall (fun c => Forall (ok_val A) (c_args c)) calls ->
    keeps_names st -> keeps_names st' /\ forall v, r = Ok v -> ok_val Q v.
  Proof.
    induction 1 as [st|c st r st' H|c rest st v st1 r st' H Hne _ IH|c rest st r st' H Hf]; intros Hc K.
    - split; [exact K|]. intros w E. injection E as <-. split; constructor.
    - inversion Hc; subst. exact (proj1 (proj2 (proj2 names_reach)) _ _ _ _ _ H ltac:(assumption) K).
    - inversion Hc; subst. apply IH; [assumption|]. exact (proj1 (proj1 (proj2 (proj2 names_reach)) _ _ _ _ _ H ltac:(assumption) K)).
    - inversion Hc; subst. exact (proj1 (proj2 (proj2 names_reach)) _ _ _ _ _ H ltac:(assumption) K).
  Qed.
End Runs.

(** ** From the text to the arguments *)

Section Texts.
  Context (P : str -> Prop).
  Definition ok_tok (t : token) : Prop :=
    match t with TElement e => ok_el P e | TString b => P b | _ => True end.

  Lemma ok_written a r c e : ok_el P a -> ok_el P r -> ok_el P c -> written a r c e -> ok_entry P e.
  Proof.
    intros [B1 P1] [B2 P2] [B3 P3] H. inversion H; subst; split; cbn; auto; try (intros n [->|[->| ->]]; assumption).
    repeat match goal with |- _ /\ _ => split end; try apply B1; try apply B2; try apply B3.
    - intros E. apply H0. rewrite (bare_eq r B2), E. reflexivity.
    - intros E. apply H1. rewrite (bare_eq r B2), E. reflexivity.
  Qed.

  Lemma ok_network ts es : g_network ts es -> Forall ok_tok ts -> Forall (ok_entry P) es.
  Proof.
    induction 1 as [|a r c e W|a r c e ts es W _ IH]; intros F; [constructor| |];
      inversion F as [|x1 y1 F1 F2]; inversion F2 as [|x2 y2 F3 F4]; inversion F4 as [|x3 y3 F5 F6]; subst.
    - constructor; [|constructor]. exact (ok_written _ _ _ _ F1 F3 F5 W).
    - inversion F6; subst. constructor; [exact (ok_written _ _ _ _ F1 F3 F5 W)|auto].
  Qed.

  Lemma ok_set es s : set_of es s -> Forall (ok_entry P) es -> ok_item P (VNetwork s).
  Proof.
    intros [Hs Hm] F. split; [exact Hs|]. apply Forall_forall. intros e He. rewrite Forall_forall in F. apply F, Hm, He.
  Qed.

  Lemma ok_quote ts vs : g_quote ts vs -> Forall ok_tok ts -> Forall (ok_item P) vs.
  Proof.
    induction 1 as [|e ts vs _ IH|n es s ts vs Hn Hs _ IH]; intros F; [constructor| |].
    - inversion F; subst. constructor; auto.
    - inversion F as [|x y _ F2]; subst. apply Forall_app in F2 as [F2 F3].
      constructor; [|auto]. exact (ok_set _ _ Hs (ok_network _ _ Hn F2)).
  Qed.

  Lemma ok_values ts vs : g_values ts vs -> Forall ok_tok ts -> Forall (ok_val P) vs.
  Proof.
    induction 1 as [|e ts vs _ IH|b ts vs _ IH|n es s ts vs Hn Hs _ IH|q qs ts vs Hq _ IH]; intros F; [constructor| | | |].
    - inversion F; subst. constructor; auto.
    - inversion F; subst. constructor; [|auto]. split; [split; reflexivity|assumption].
    - inversion F as [|x y _ F2]; subst. apply Forall_app in F2 as [F2 F3].
      constructor; [|auto]. exact (ok_set _ _ Hs (ok_network _ _ Hn F2)).
    - inversion F as [|x y _ F2]; subst. apply Forall_app in F2 as [F2 F3].
      constructor; [|auto]. exact (ok_quote _ _ Hq F2).
  Qed.

  Definition ok_call (c : call) : Prop := Forall (ok_val P) (c_args c).

  Lemma ok_a_call ts c : g_call ts c -> Forall ok_tok ts -> ok_call c.
  Proof. intros H F. pose proof (ok_values _ _ H F) as K. inversion K; subst. assumption. Qed.

  Lemma ok_commas ts cs : g_commas ts cs -> Forall ok_tok ts -> Forall ok_call cs.
  Proof.
    induction 1 as [|ts c ts' cs Hc _ IH]; intros F; [constructor|]. apply Forall_app in F as [F1 F2].
    inversion F2; subst. constructor; [exact (ok_a_call _ _ Hc F1)|auto].
  Qed.

  Lemma ok_script ts cs : g_script ts cs -> Forall ok_tok ts -> Forall ok_call cs.
  Proof.
    intros [ts' cs' H|ts1 cs1 ts2 c H Hc] F; [exact (ok_commas _ _ H F)|]. apply Forall_app in F as [F1 F2].
    apply Forall_app. split; [exact (ok_commas _ _ H F1)|]. constructor; [exact (ok_a_call _ _ Hc F2)|constructor].
  Qed.

  Lemma ok_kept ts kept : keeps ts kept -> Forall ok_tok ts -> Forall ok_tok kept.
  Proof.
    induction 1 as [|s ts k _ IH|s ts k _ IH|b ts k _ IH|t ts k _ _ _ _ IH]; intros F; inversion F; subst; auto.
    constructor; [|auto]. split; [split; reflexivity|assumption].
  Qed.
End Texts.

Lemma lexes_ok script ts : lexes script ts -> Forall (ok_tok (said script)) ts.
Proof.
  intros L. assert (H : forall t, In t ts -> exists x, lexeme t x).
  { clear -L. induction L as [|s t x rest ts [_ [Hx _]] _ IH]; intros t' [].
    - subst. eauto.
    - auto. }
  apply Forall_forall. intros t Ht. destruct (H t Ht) as [x Hx]. destruct Hx; simpl; auto.
  - exists ts. auto.
  - split; [split; reflexivity|]. exists ts. auto.
Qed.

Lemma script_ok script ts cs : tokenize_and_filter script = Ok ts -> parse ts = Ok cs ->
  Forall (fun c => Forall (ok_val (said script)) (c_args c)) cs.
Proof.
  intros E1 E2. apply parse_ok in E2.
  destruct (tokenize script) as [tk|e|w] eqn:Et.
  - destruct (filter_keeps _ _ Et) as (kept & Ek & K & _). rewrite Ek in E1. injection E1 as ->.
    apply tokenize_ok in Et. refine (ok_script _ _ _ E2 _). exact (ok_kept _ _ _ K (lexes_ok _ _ Et)).
  - apply filter_err in Et. congruence.
  - destruct (tokenize_no_panic _ _ Et).
Qed.

(** ** Running a script *)
Section Script.
  Context {S : Type} (I : trips_impl S) (s0 : S) (HI : honest I s0) (C Q : str -> Prop).
  Context (DQ : forall n, documented n -> Q n).
  Notation G := (graph_impl I).

  Lemma names_run script s r s' : (forall n, said script n -> C n /\ Q n) -> keeps_names I s0 C Q s ->
    run G common script s = (r, s') -> keeps_names I s0 C Q s' /\ forall v, r = Ok v -> ok_val Q v.
  Proof.
    intros HS K E. unfold run in E.
    destruct (tokenize_and_filter script) as [ts|e|w] eqn:Et; try (injection E as <- <-; split; [exact K|discriminate]).
    destruct (parse ts) as [cs|e|w] eqn:Ep; try (injection E as <- <-; split; [exact K|discriminate]).
    apply (runs_iff _ _ common_table) in E. pose proof (script_ok _ _ _ Et Ep) as F.
    eapply (names_calls I s0 HI (said script) C Q); try eassumption; intros n Hn; apply HS, Hn.
  Qed.

  Lemma names_session scripts : forall s rs s', (forall x n, In x scripts -> said x n -> C n /\ Q n) -> keeps_names I s0 C Q s ->
    session G scripts s = (rs, s') -> keeps_names I s0 C Q s' /\ forall v, In (Ok v) rs -> ok_val Q v.
  Proof.
    induction scripts as [|x rest IH]; intros s rs s' HS K E; cbn [session] in E.
    - injection E as <- <-. split; [exact K|intros v []].
    - destruct (run G common x s) as [r s1] eqn:E1. destruct (session G rest s1) as [rs1 s2] eqn:E2. injection E as <- <-.
      destruct (names_run x s r s1 (fun n Hn => HS x n (or_introl eq_refl) Hn) K E1) as [K1 H1].
      destruct (IH s1 rs1 s2 (fun y n Hy => HS y n (or_intror Hy)) K1 E2) as [K2 H2].
      split; [exact K2|]. intros v [Hv|Hv]; [apply H1, Hv|auto].
  Qed.
End Script.

Lemma ok_named P v : ok_val P v -> forall n, named v n -> P n.
Proof.
  assert (A : forall w n, ok_item P w -> named w n -> P n).
  { intros w n H N. destruct N as [e|es e n Hi Hn|q v' n _ _]; [apply H| |destruct H].
    destruct H as [_ F]. rewrite Forall_forall in F. apply (proj2 (F e Hi)), Hn. }
  intros H n N. destruct N as [e|es e n Hi Hn|q v' n Hi Hn].
  - apply H.
  - eapply A; [exact H|]. econstructor; eassumption.
  - simpl in H. rewrite Forall_forall in H. eapply A; [apply H, Hi|exact Hn].
Qed.

Lemma ok_tidy P v : ok_val P v -> tidy_value v.
Proof.
  assert (A : forall w, ok_item P w -> tidy_item w).
  { intros [e|q|n]; simpl; [intros [B _]; exact B|tauto|]. intros [B F]. split; [exact B|].
    eapply Forall_impl; [|exact F]. intros e [N _]. exact N. }
  destruct v as [e|q|n]; simpl; try apply (A (VElement e)); try apply (A (VNetwork n)).
  apply Forall_impl, A.
Qed.

(** ** No backslash *)
Lemma string_body_plain b : string_body b -> ~ In 92%N b -> Forall plain_char b.
Proof.
  induction 1 as [|c s Hc _ IH|c s _ _ _|]; intros N; [constructor| | |].
  - constructor; [exact Hc|]. apply IH. intros H. apply N. right. exact H.
  - exfalso. apply N. left. reflexivity.
  - exfalso. apply N. left. reflexivity.
Qed.

Lemma element_char_plain c : element_char c -> plain_char c.
Proof.
  unfold element_char, plain_char. intros [H|[H|[H|[H|[H|[(p & Hp & H)|H]]]]]]; try lia.
  cbn in H. repeat (destruct H as [<-|H]; [lia|]). destruct H.
Qed.

Lemma said_plain script n : ~ In 92%N script -> said script n -> Forall plain_char n.
Proof.
  intros N (ts & L & H). assert (K : forall t, In t ts -> exists x p q, lexeme t x /\ script = p ++ x ++ q).
  { clear -L. induction L as [|s t x rest ts [E [Hx _]] _ IH]; intros t' [].
    - subst. exists x, [], rest. auto.
    - destruct (IH t' H) as (x' & p & q & Hx' & E'). exists x', (x ++ p), q. split; [exact Hx'|]. rewrite E, E', app_assoc. reflexivity. }
  destruct H as [H|H]; destruct (K _ H) as (x & p & q & Hx & E); inversion Hx; subst.
  - apply string_body_plain; [assumption|]. intros Hb. apply N. apply in_or_app. right. apply in_or_app. left. right. apply in_or_app. left. exact Hb.
  - eapply Forall_impl; [|eassumption]. exact element_char_plain.
Qed.

Lemma documented_plain n : documented n -> Forall plain_char n.
Proof.
  assert (A : forall s, forallb (fun c => N.leb 32 c && negb (N.eqb c 34) && negb (N.eqb c 92)) s = true -> Forall plain_char s).
  { intros s H. apply Forall_forall. intros c Hc. rewrite forallb_forall in H. specialize (H c Hc).
    apply andb_true_iff in H. destruct H as [H H3]. apply andb_true_iff in H. destruct H as [H1 H2].
    apply N.leb_le in H1. apply negb_true_iff, N.eqb_neq in H2. apply negb_true_iff, N.eqb_neq in H3. split; auto. }
  intros [->|(name & c & H & Hn)]; [apply A; reflexivity|]. unfold common in H.
  repeat (destruct H as [H|H]; [injection H as <- <-; cbn [cmd_doc] in Hn; destruct Hn as [->| ->]; apply A; reflexivity|]). destruct H.
Qed.

Lemma ok_plain v : ok_val (Forall plain_char) v -> plain_value v.
Proof.
  assert (A : forall w, ok_item (Forall plain_char) w -> plain_item w).
  { intros [e|q|n]; simpl; [intros [B H]; split; auto|tauto|]. intros [B F]. split; [exact B|].
    eapply Forall_impl; [|exact F]. intros e [N H]. split; [exact N|]. repeat split; apply H; unfold names_of; auto. }
  destruct v as [e|q|n]; try exact (A _). simpl. apply Forall_impl, A.
Qed.
