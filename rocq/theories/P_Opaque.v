(** * Proofs: names are opaque *)
From Coq Require Import List Arith NArith Bool String Lia.
From Verif Require Import M_Base M_Data M_Mem M_Heed M_Duck M_Regex M_Lexer M_Graph M_Parser M_Display M_Interp
  S_Order S_Str S_Store S_Graph S_Filter S_Lexer S_Parser S_Display S_Interp S_GraphHist S_Names S_Json
  P_Ord P_Agree P_Lexer P_LexMore P_Parser P_Display P_Graph P_Reread S_Wander P_Wander P_WanderDet S_Rename S_Template P_Template S_Opaque.
Import ListNotations.
Open Scope list_scope.

Lemma f2_length {A C} (Q : A -> C -> Prop) xs ys : Forall2 Q xs ys -> List.length xs = List.length ys.
Proof. induction 1; cbn; congruence. Qed.

Section Opaque.
  Variable B : backend.
  Variable f : str -> str.
  Hypothesis Hf : renaming B f.

  Notation R := (to f).
  Notation likee := (like_entry R).
  Notation likev := (like_value R).

  Let inj : injective f := proj1 Hf.

  Lemma fixed n : reserved n -> f n = n. Proof. apply Hf. Qed.

  Lemma fixed_command n : In n (map fst manual) -> f n = n. Proof. intros H. apply fixed. left. exact H. Qed.

  Lemma f_colon : f colon = colon. Proof. apply fixed. unfold reserved. tauto. Qed.
  Lemma f_not_colon : f not_colon = not_colon. Proof. apply fixed. unfold reserved. tauto. Qed.
  Lemma f_wildcard : f wildcard = wildcard. Proof. apply fixed. unfold reserved. tauto. Qed.

  Lemma back n m : f m = m -> f n = m -> n = m.
  Proof. intros E H. apply inj. congruence. Qed.

  Lemma command_back n : In (f n) (map fst manual) -> In n (map fst manual).
  Proof. intros H. rewrite (back n (f n)); auto. apply fixed_command. exact H. Qed.

  (** Entries. *)
  Definition ren_entry (e : entry) : entry :=
    read_entry (Elem (f (subject e)) None None) (Elem (f (role_name e)) None None) (Elem (f (object e)) None None).

  Lemma ren_entry_like e : normal e -> likee e (ren_entry e).
  Proof.
    intros N. unfold ren_entry.
    destruct (read_entry_names (Elem (f (subject e)) None None) (Elem (f (role_name e)) None None) (Elem (f (object e)) None None)) as (N' & E1 & E2 & E3); [split; reflexivity..|].
    unfold like_entry, to. auto.
  Qed.

  Lemma normal_names e e' : normal e -> normal e' -> subject e = subject e' -> role_name e = role_name e' -> object e = object e' -> e = e'.
  Proof.
    intros N N' E1 E2 E3. assert (D : forall a : element, bare a -> a = Elem (el_name a) None None) by (intros [x y z] [X Y]; cbn in *; congruence).
    destruct e as [a c b|a b|a b], e' as [a' c' b'|a' b'|a' b']; cbn in *;
    repeat match goal with H : _ /\ _ |- _ => destruct H end;
    repeat match goal with H : bare ?a |- _ => apply D in H; rewrite H; clear H end; cbn in *; try congruence; try discriminate.
  Qed.

  Lemma likee_fun e a b : likee e a -> likee e b -> a = b.
  Proof. unfold like_entry, to. intros (_ & N & A1 & A2 & A3) (_ & N' & B1 & B2 & B3). apply normal_names; congruence. Qed.

  Lemma likee_inj e e' a : likee e a -> likee e' a -> e = e'.
  Proof. unfold like_entry, to. intros (N & _ & A1 & A2 & A3) (N' & _ & B1 & B2 & B3). apply normal_names; auto; apply inj; congruence. Qed.

  Lemma f2_in (es fs : list entry) : Forall2 likee es fs -> (forall e, In e es -> exists g, In g fs /\ likee e g) /\ (forall g, In g fs -> exists e, In e es /\ likee e g).
  Proof.
    induction 1 as [|e g es fs H _ [IH1 IH2]]; split; intros x; cbn; try tauto.
    - intros [<-|Hx]; [eauto|]. destruct (IH1 x Hx) as (g' & ? & ?). eauto.
    - intros [<-|Hx]; [eauto|]. destruct (IH2 x Hx) as (g' & ? & ?). eauto.
  Qed.

  Definition image (l : list entry) (e2 : entry) : Prop := exists e, In e l /\ likee e e2.

  Lemma net_iff l m : likev (VNetwork l) (VNetwork m) <-> is_set entry_lt l /\ (forall e, In e l -> normal e) /\ set_where (image l) m.
  Proof.
    split.
    - intros H. inversion H as [|es fs ? ? F S1 S2|]; subst. destruct S1 as [S1 M1]. destruct S2 as [S2 M2]. destruct (f2_in _ _ F) as [F1 F2].
      split; [exact S1|]. split.
      + intros e He. apply M1 in He. destruct (F1 e He) as (g & _ & K). apply K.
      + split; [exact S2|]. intros g. rewrite <- (M2 g). split.
        * intros Hg. destruct (F2 g Hg) as (e & He & K). exists e. split; [apply M1, He|exact K].
        * intros (e & He & K). apply M1 in He. destruct (F1 e He) as (g' & Hg & K'). rewrite (likee_fun _ _ _ K K'). exact Hg.
    - intros (S1 & N & S2 & M). apply (lv_network _ l (map ren_entry l)).
      + clear S1 S2 M. induction l as [|e l IH]; constructor; [apply ren_entry_like, N; left; reflexivity|]. apply IH. intros x Hx. apply N. right. exact Hx.
      + split; [exact S1|]. intros e. reflexivity.
      + split; [exact S2|]. intros e. rewrite (M e). rewrite in_map_iff. split.
        * intros (x & <- & Hx). exists x. split; [exact Hx|]. apply ren_entry_like, N, Hx.
        * intros (x & Hx & K). exists x. split; [|exact Hx]. eapply likee_fun; [apply ren_entry_like, N, Hx|exact K].
  Qed.

  Lemma net_image l : is_set entry_lt l -> (forall e, In e l -> normal e) -> exists m, likev (VNetwork l) (VNetwork m).
  Proof.
    intros S N. exists (inserted (map ren_entry l) []). apply (lv_network _ l (map ren_entry l)).
    - clear S. induction l as [|e l IH]; constructor; [apply ren_entry_like, N; left; reflexivity|]. apply IH. intros x Hx. apply N. right. exact Hx.
    - split; [exact S|]. intros e. reflexivity.
    - apply set_of_collect. reflexivity.
  Qed.

  (** A set given by a condition, and its image. *)
  Lemma transport (P Q : entry -> Prop) l : set_where P l -> (forall e, P e -> normal e) -> (forall e2, Q e2 <-> exists e, P e /\ likee e e2) ->
    exists m, likev (VNetwork l) (VNetwork m) /\ set_where Q m.
  Proof.
    intros [S H] N E. destruct (net_image l S) as (m & L); [intros e He; apply N, H, He|]. exists m. split; [exact L|].
    apply net_iff in L as (_ & _ & S2 & M). split; [exact S2|]. intros e2. rewrite (M e2), (E e2). unfold image. split; intros (e & He & K); exists e; (split; [apply H, He|exact K]).
  Qed.

  Lemma in_image l m : likev (VNetwork l) (VNetwork m) -> forall e2, In e2 m <-> exists e, In e l /\ likee e e2.
  Proof. intros L. apply net_iff in L as (_ & _ & _ & M). exact M. Qed.

  Lemma in_normal l m : likev (VNetwork l) (VNetwork m) -> forall e, In e l -> normal e.
  Proof. intros L. apply net_iff in L as (_ & N & _). exact N. Qed.

  Lemma empty_like : likev done done.
  Proof. apply (lv_network _ [] []); [constructor|split; [constructor|intros e; reflexivity]..]. Qed.

  (** Values: a function, and one to one. *)
  Fixpoint vsize (v : value) : nat := match v with VQuote q => S (list_sum (map vsize q)) | _ => 1 end.

  Lemma likev_iff : forall n v v' w w', vsize v <= n -> likev v v' -> likev w w' -> (v = w <-> v' = w').
  Proof.
    induction n as [|n IH]; intros v v' w w' Hn H H'; [destruct v; cbn in Hn; lia|].
    destruct v as [e|q|l].
    - inversion H as [? e' He| |]; subst. destruct He as [a b Hab]. inversion H' as [x x' Hx| |]; subst; [|split; discriminate..].
      destruct Hx as [c d Hcd]. unfold to in *. subst. split; intros E; injection E as E; [subst|apply inj in E; subst]; reflexivity.
    - inversion H as [| |? q' Hq]; subst. inversion H' as [| |p p' Hp]; subst; [split; discriminate..|].
      assert (K : q = p <-> q' = p').
      { clear H H'. cbn [vsize] in Hn. revert p p' Hp. induction Hq as [|v v' q q' Hv Hq IHq]; intros p p' Hp; inversion Hp as [|? ? ? ? Hx Hr]; subst; [split; reflexivity|split; discriminate..|].
        cbn [map list_sum fold_right] in Hn. fold (list_sum (map vsize q)) in Hn.
        pose proof (IH v v' _ _ ltac:(lia) Hv Hx) as E1. pose proof (IHq ltac:(lia) _ _ Hr) as E2.
        split; intros E; injection E as Ea Eb; f_equal; tauto. }
      split; intros E; injection E as E; f_equal; tauto.
    - inversion H as [|? ? ? m ? ? ?|]; subst. inversion H' as [|? ? k k' ? ? ?|]; subst; [split; discriminate| |split; discriminate].
      apply net_iff in H as (S1 & N1 & S2 & M2). apply net_iff in H' as (S3 & N3 & S4 & M4). split; intros E; injection E as <-.
      + f_equal. apply (is_set_ext entry_order); [assumption..|]. intros e. rewrite M2, M4. reflexivity.
      + f_equal. apply (is_set_ext entry_order); [assumption..|]. intros e. split; intros He.
        * assert (X : In (ren_entry e) m) by (apply M2; exists e; split; [exact He|apply ren_entry_like, N1, He]).
          apply M4 in X as (e' & He' & K). rewrite (likee_inj e e' (ren_entry e)); [exact He'| |exact K]. apply ren_entry_like, N1, He.
        * assert (X : In (ren_entry e) m) by (apply M4; exists e; split; [exact He|apply ren_entry_like, N3, He]).
          apply M2 in X as (e' & He' & K). rewrite (likee_inj e e' (ren_entry e)); [exact He'| |exact K]. apply ren_entry_like, N3, He.
  Qed.

  Lemma likev_eq v v' w w' : likev v v' -> likev w w' -> (v = w <-> v' = w').
  Proof. apply (likev_iff (vsize v)). lia. Qed.

  Lemma likev_fun v a b : likev v a -> likev v b -> a = b.
  Proof. intros H H'. exact (proj1 (likev_eq _ _ _ _ H H') eq_refl). Qed.

  Lemma like_el_name e e' : like_element R e e' -> el_name e' = f (el_name e).
  Proof. intros [a b H]. exact H. Qed.
  Lemma like_el_bare e e' : like_element R e e' -> bare e /\ bare e'.
  Proof. intros [a b H]. repeat split. Qed.

  (** Patterns. *)
  Lemma agrees_iff a b : agrees (f a) (f b) <-> agrees a b.
  Proof.
    unfold agrees. split; intros [H|H].
    - left. apply (back _ _ f_wildcard H).
    - right. apply inj, H.
    - left. rewrite H. apply f_wildcard.
    - right. congruence.
  Qed.

  Lemma variable_iff a : variable_name (f a) <-> variable_name a.
  Proof. apply Hf. Qed.

  Section Pattern.
    Variables (s r x s' r' x' : element).
    Hypotheses (Hs : like_element R s s') (Hr : like_element R r r') (Hx : like_element R x x').

    Lemma matches_iff e e' : likee e e' -> (S_Graph.matches (Role s x r) e <-> S_Graph.matches (Role s' x' r') e').
    Proof.
      unfold like_entry, to, S_Graph.matches, role_agrees. cbn [subject object]. intros (_ & _ & E1 & E2 & E3).
      rewrite E1, E2, E3, (like_el_name _ _ Hs), (like_el_name _ _ Hr), (like_el_name _ _ Hx), !agrees_iff. reflexivity.
    Qed.

    Lemma reaches_iff e e' : likee e e' -> (reaches_variable (Role s x r) e <-> reaches_variable (Role s' x' r') e').
    Proof.
      unfold like_entry, to, reaches_variable, role_agrees, variable_role. cbn [subject object]. intros (_ & _ & E1 & E2 & E3).
      rewrite E1, E2, (like_el_name _ _ Hs), (like_el_name _ _ Hr), (like_el_name _ _ Hx), !agrees_iff, !variable_iff. reflexivity.
    Qed.
  End Pattern.

  (** Stored forms. *)
  Lemma normalises_normal e e' : normal e -> normalises e e' -> e' = e.
  Proof. intros N (N' & E1 & E2 & E3). apply normal_names; auto. Qed.

  Lemma stored_in n : (forall e, In e n -> normal e) -> forall e, stored_form n e <-> In e n.
  Proof.
    intros N e. split.
    - intros (x & Hx & K). rewrite (normalises_normal _ _ (N _ Hx) K). exact Hx.
    - intros He. exists e. split; [exact He|]. split; [apply N, He|auto].
  Qed.

  Lemma like_normal2 l m : likev (VNetwork l) (VNetwork m) -> forall e, In e m -> normal e.
  Proof. intros L e He. apply (in_image _ _ L) in He as (x & _ & K). apply K. Qed.

  Lemma stored_like l m : likev (VNetwork l) (VNetwork m) -> forall e2, stored_form m e2 <-> exists e, stored_form l e /\ likee e e2.
  Proof.
    intros L e2. rewrite (stored_in m (like_normal2 _ _ L)), (in_image _ _ L). split; intros (e & He & K); exists e; (split; [|exact K]); apply (stored_in l (in_normal _ _ L)), He.
  Qed.

  (** Worlds. *)
  Lemma ren_some w v n l : ren_world f w v -> w n = Some l -> exists m, v (f n) = Some m /\ likev (VNetwork l) (VNetwork m).
  Proof. intros H E. specialize (H n). rewrite E in H. destruct (v (f n)) as [m|]; [eauto|contradiction]. Qed.
  Lemma ren_none w v n : ren_world f w v -> w n = None -> v (f n) = None.
  Proof. intros H E. specialize (H n). rewrite E in H. destruct (v (f n)); [contradiction|reflexivity]. Qed.

  Definition upd (v : world) (c : str) (k : list entry) : world := fun n => if str_dec n c then Some k else v n.

  Lemma upd_rebound v c k P : set_where P k -> rebound v c P (upd v c k).
  Proof.
    intros H. split.
    - exists k. unfold upd. destruct (str_dec c c); [auto|congruence].
    - intros n N. unfold upd. destruct (str_dec n c); [congruence|reflexivity].
  Qed.

  Lemma ren_rebound w v c P Q w' : ren_world f w v -> rebound w c P w' -> (forall e, P e -> normal e) -> (forall e2, Q e2 <-> exists e, P e /\ likee e e2) ->
    exists v', rebound v (f c) Q v' /\ ren_world f w' v' /\ others_alone f v v'.
  Proof.
    intros RW [(l & E & H) O] N Eq. destruct (transport P Q l H N Eq) as (m & L & Hm). exists (upd v (f c) m). split; [apply upd_rebound, Hm|]. split.
    - intros n. unfold upd. destruct (str_dec n c) as [->|Nn].
      + rewrite E. destruct (str_dec (f c) (f c)); [exact L|congruence].
      + rewrite (O n Nn). destruct (str_dec (f n) (f c)) as [X|X]; [apply inj in X; congruence|]. exact (RW n).
    - intros n Hn. unfold upd. destruct (str_dec n (f c)) as [X|X]; [destruct (Hn _ X)|reflexivity].
  Qed.

  Lemma alone_refl v : others_alone f v v.
  Proof. intros n _. reflexivity. Qed.
  Lemma alone_trans a b c : others_alone f a b -> others_alone f b c -> others_alone f a c.
  Proof. intros H H' n N. rewrite (H' n N). apply H, N. Qed.

  (** Reading, finding, binding. *)
  Lemma ren_reads w v c o : ren_world f w v -> reads w c B o -> exists o2, reads v (f c) B o2 /\ ren_outcome f o o2.
  Proof.
    intros RW H. destruct H as [B0 l E|E|E|E].
    - destruct (ren_some _ _ _ _ RW E) as (m & Em & L). eexists. split; [apply rd_there; exact Em|]. constructor. exact L.
    - eexists. split; [apply rd_mem, (ren_none _ _ _ RW E)|]. constructor. constructor.
    - eexists. split; [apply rd_lmdb, (ren_none _ _ _ RW E)|]. constructor.
    - eexists. split; [apply rd_duck, (ren_none _ _ _ RW E)|]. constructor. apply empty_like.
  Qed.

  Lemma ren_finds w v c s x r s' x' r' o : ren_world f w v -> like_element R s s' -> like_element R x x' -> like_element R r r' ->
    finds w c (Role s x r) B o -> exists o2, finds v (f c) (Role s' x' r') B o2 /\ ren_outcome f o o2.
  Proof.
    intros RW Hs Hx Hr. assert (G : forall B0, finds w c (Role s x r) B0 o -> exists o2, finds v (f c) (Role s' x' r') B0 o2 /\ ren_outcome f o o2); [|exact (G B)].
    intros B0 H. destruct H as [l k E Hn Hk|l e E Hi Hv|E| |].
    - destruct (ren_some _ _ _ _ RW E) as (m & Em & L).
      destruct (transport _ (fun e2 => In e2 m /\ S_Graph.matches (Role s' x' r') e2) k Hk) as (k2 & Lk & Hk2).
      + intros e [He _]. exact (in_normal _ _ L e He).
      + intros e2. rewrite (in_image _ _ L). split.
        * intros [(e & He & K) M]. exists e. split; [|exact K]. split; [exact He|]. apply (matches_iff s r x s' r' x' Hs Hr Hx _ _ K), M.
        * intros (e & [He M] & K). split; [eauto|]. apply (matches_iff s r x s' r' x' Hs Hr Hx _ _ K), M.
      + eexists. split; [eapply fi_found; [exact Em| |exact Hk2]|constructor; exact Lk].
        intros e2 He2 V. apply (in_image _ _ L) in He2 as (e & He & K). apply (Hn e He). apply (reaches_iff s r x s' r' x' Hs Hr Hx _ _ K), V.
    - destruct (ren_some _ _ _ _ RW E) as (m & Em & L). eexists. split; [|constructor].
      pose proof (ren_entry_like e (in_normal _ _ L e Hi)) as K. eapply fi_variable; [exact Em|apply (in_image _ _ L); eauto|].
      apply (reaches_iff s r x s' r' x' Hs Hr Hx _ _ K), Hv.
    - eexists. split; [apply fi_missing, (ren_none _ _ _ RW E)|constructor].
    - eexists. split; [apply fi_lmdb|constructor].
    - eexists. split; [apply fi_duck|constructor].
  Qed.

  Lemma ren_binds w v c n m o w' : ren_world f w v -> likev (VNetwork n) (VNetwork m) -> binds w c n B o w' ->
    exists o2 v', binds v (f c) m B o2 v' /\ ren_outcome f o o2 /\ ren_world f w' v' /\ others_alone f v v'.
  Proof.
    intros RW L. pose proof (proj2 (proj2 (proj2 Hf))) as St0.
    assert (G : forall B0, (B0 = Lmdb -> forall n, storable (f n) <-> storable n) -> binds w c n B0 o w' ->
      exists o2 v', binds v (f c) m B0 o2 v' /\ ren_outcome f o o2 /\ ren_world f w' v' /\ others_alone f v v'); [|exact (G B St0)].
    clear St0. intros B0 St H.
    assert (N : forall e, stored_form n e -> normal e) by (intros e (x & _ & K & _); exact K).
    destruct H as [w' Rb|w' Sc Rb|Sc|w' E Rb|l E].
    - destruct (ren_rebound _ _ _ _ (stored_form m) _ RW Rb N) as (v' & H1 & H2 & H3); [apply stored_like, L|].
      exists (Answers done), v'. split; [constructor; exact H1|]. split; [constructor; apply empty_like|auto].
    - destruct (ren_rebound _ _ _ _ (fun e => (exists l, v (f c) = Some l /\ In e l) \/ stored_form m e) _ RW Rb) as (v' & H1 & H2 & H3).
      + intros e [(l & E & He)|He]; [|exact (N e He)]. destruct (ren_some _ _ _ _ RW E) as (k & _ & Lk). exact (in_normal _ _ Lk e He).
      + intros e2. split.
        * intros [(k & Ek & He)|He].
          -- destruct (w c) as [l|] eqn:E; [|rewrite (ren_none _ _ _ RW E) in Ek; discriminate].
             destruct (ren_some _ _ _ _ RW E) as (k' & Ek' & Lk). assert (k' = k) as -> by congruence.
             apply (in_image _ _ Lk) in He as (e & He & K). exists e. split; [left; eauto|exact K].
          -- apply (stored_like _ _ L) in He as (e & He & K). exists e. auto.
        * intros (e & [(l & E & He)|He] & K).
          -- destruct (ren_some _ _ _ _ RW E) as (k & Ek & Lk). left. exists k. split; [exact Ek|]. apply (in_image _ _ Lk). eauto.
          -- right. apply (stored_like _ _ L). eauto.
      + exists (Answers done), v'. split; [constructor; [apply St; auto|exact H1]|]. split; [constructor; apply empty_like|auto].
    - exists Crashes, v. split; [apply bi_lmdb_name; intros X; apply Sc, (St eq_refl), X|]. split; [constructor|]. split; [exact RW|apply alone_refl].
    - destruct (ren_rebound _ _ _ _ (stored_form m) _ RW Rb N) as (v' & H1 & H2 & H3); [apply stored_like, L|].
      exists (Answers done), v'. split; [constructor; [exact (ren_none _ _ _ RW E)|exact H1]|]. split; [constructor; apply empty_like|auto].
    - destruct (ren_some _ _ _ _ RW E) as (m' & Em & _). exists Crashes, v. split; [eapply bi_duck_again; exact Em|]. split; [constructor|]. split; [exact RW|apply alone_refl].
  Qed.

  (** The pages of docs. *)
  Lemma page_normal e : page e -> normal e.
  Proof.
    intros (n & t & Hi & ->). cbn. repeat split; intros X; vm_compute in X; discriminate X.
  Qed.

  Lemma page_like e e2 : page e -> likee e e2 -> e2 = e.
  Proof.
    intros P K. eapply likee_fun; [exact K|]. pose proof (page_normal e P) as N. unfold like_entry, to. destruct P as (n & t & Hi & ->).
    split; [exact N|]. split; [exact N|]. cbn [subject object role_name el_name].
    split; [|split]; symmetry; apply fixed; unfold reserved.
    - left. apply (in_map fst) in Hi. exact Hi.
    - right. right. left. reflexivity.
    - right. left. apply (in_map snd) in Hi. exact Hi.
  Qed.

  Lemma docs_like n : set_where page n -> likev (VNetwork n) (VNetwork n).
  Proof.
    intros H. destruct (transport page page n H page_normal) as (m & L & Hm).
    - intros e2. split.
      + intros P. exists e2. split; [exact P|]. pose proof (ren_entry_like _ (page_normal _ P)) as K. rewrite (page_like _ _ P K) in K. exact K.
      + intros (e & P & K). rewrite (page_like _ _ P K). exact P.
    - rewrite (set_where_fun page page m n) in L; [exact L|reflexivity|exact Hm|exact H].
  Qed.

  (** Shapes. *)
  Ltac inv := repeat match goal with
    | H : Forall2 (like_value R) [] _ |- _ => inversion H; subst; clear H
    | H : Forall2 (like_value R) (_ :: _) _ |- _ => inversion H; subst; clear H
    | H : like_value R (VElement _) _ |- _ => inversion H; subst; clear H
    end.

  Lemma net_shape n v : likev (VNetwork n) v -> exists m, v = VNetwork m.
  Proof. intros H. inversion H; eauto. Qed.
  Lemma quote_shape q v : likev (VQuote q) v -> exists p, v = VQuote p /\ Forall2 likev q p.
  Proof. intros H. inversion H; eauto. Qed.
  Lemma el_shape e v : likev (VElement e) v -> exists e', v = VElement e' /\ like_element R e e'.
  Proof. intros H. inversion H; eauto. Qed.
  Lemma net_back v m : likev v (VNetwork m) -> exists n, v = VNetwork n.
  Proof. intros H. inversion H; eauto. Qed.
  Lemma quote_back v p : likev v (VQuote p) -> exists q, v = VQuote q /\ Forall2 likev q p.
  Proof. intros H. inversion H; eauto. Qed.
  Lemma el_back v e' : likev v (VElement e') -> exists e, v = VElement e /\ like_element R e e'.
  Proof. intros H. inversion H; eauto. Qed.

  Lemma no_answer o o2 : ren_outcome f o o2 -> (forall v, o <> Answers v) -> forall v, o2 <> Answers v.
  Proof. intros [a b H|e e' H|] N v; try discriminate. destruct (N a eq_refl). Qed.

  Definition value_goal (v : value) (w : world) (o : outcome) (w' : world) : Prop := forall v2 w2, likev v v2 -> ren_world f w w2 ->
    exists o2 w2', gives B v2 w2 o2 w2' /\ ren_outcome f o o2 /\ ren_world f w' w2' /\ others_alone f w2 w2'.
  Definition call_goal (name : str) (args : list value) (w : world) (o : outcome) (w' : world) : Prop := forall args2 w2, Forall2 likev args args2 -> ren_world f w w2 ->
    exists o2 w2', calls B (f name) args2 w2 o2 w2' /\ ren_outcome f o o2 /\ ren_world f w' w2' /\ others_alone f w2 w2'.

  Ltac here := eexists; eexists; split; [|split; [|split; [eassumption|apply alone_refl]]].
  Ltac cmd n := rewrite (fixed_command (lit n)) by (vm_compute; tauto).
  Ltac sentence := constructor; apply re_sentence; vm_compute; tauto.

  Lemma renamed_reference :
    (forall v w o w', gives B v w o w' -> value_goal v w o w')
    /\ (forall name args w o w', calls B name args w o w' -> call_goal name args w o w').
  Proof.
    apply (reference_ind B (fun v w o w' _ => value_goal v w o w') (fun name args w o w' _ => call_goal name args w o w'));
      unfold value_goal, call_goal; intros.
    - apply el_shape in H as (e' & -> & H). here; [constructor|]. constructor. constructor. exact H.
    - destruct (net_shape _ _ H) as (m & ->). here; [constructor|]. constructor. exact H.
    - apply quote_shape in H as (p & -> & F). inversion F; subst. here; [constructor|]. constructor. apply empty_like.
    - apply quote_shape in H0 as (p & -> & F). inversion F as [|? ? ? p' Hn F']; subst. apply el_shape in Hn as (n' & -> & Hn).
      destruct (H _ _ F' H1) as (o2 & w2' & K & Ro & Rw & A). exists o2, w2'. split; [|auto]. constructor. rewrite (like_el_name _ _ Hn). exact K.
    - apply quote_shape in H as (p & -> & F). inversion F as [|? v' ? p' Hn F']; subst. here; [|constructor]. constructor.
      intros x ->. apply el_back in Hn as (e & -> & _). exact (n e eq_refl).
    - here; [apply ca_unknown; intros X; apply n, command_back, X|]. constructor. constructor.
    - cmd "id"%string. inversion H as [|? v' ? ? Hv H']; subst. inversion H'; subst. here; [apply ca_id|]. constructor. exact Hv.
    - cmd "id"%string. here; [apply ca_id_args; rewrite <- (f2_length _ _ _ H); exact n|]. sentence.
    - cmd "ignore"%string. here; [apply ca_ignore|]. constructor. apply empty_like.
    - cmd "docs"%string. inversion H; subst. here; [apply ca_docs; eassumption|]. constructor. apply docs_like. assumption.
    - cmd "docs"%string. here; [apply ca_docs_args; intros ->; inversion H; subst; congruence|]. sentence.
    - cmd "union"%string. inversion H as [|? v1 ? ? L1 H']; subst. inversion H' as [|? v2 ? ? L2 H'']; subst. inversion H''; subst.
      destruct (net_shape _ _ L1) as (l' & ->). destruct (net_shape _ _ L2) as (r' & ->).
      destruct (transport _ (fun e2 => In e2 l' \/ In e2 r') n s) as (m & Lm & Hm).
      + intros e [He|He]; [exact (in_normal _ _ L1 e He)|exact (in_normal _ _ L2 e He)].
      + intros e2. rewrite (in_image _ _ L1), (in_image _ _ L2). split.
        * intros [(e & He & K)|(e & He & K)]; exists e; auto.
        * intros (e & [He|He] & K); [left|right]; eauto.
      + here; [apply ca_union; exact Hm|]. constructor. exact Lm.
    - cmd "union"%string. inversion H as [|? v1 ? ? L1 H']; subst. inversion H' as [|? v2 ? ? L2 H'']; subst. inversion H''; subst.
      here; [apply ca_union_other|constructor]. intros l r E. injection E as -> ->.
      apply net_back in L1 as (l1 & ->). apply net_back in L2 as (r1 & ->). exact (n l1 r1 eq_refl).
    - cmd "union"%string. here; [apply ca_union_args; rewrite <- (f2_length _ _ _ H); exact n|]. sentence.
    - cmd "read"%string. inversion H as [|? v1 ? ? L1 H']; subst. inversion H'; subst. apply el_shape in L1 as (c' & -> & Hc).
      destruct (ren_reads _ _ _ _ H0 r) as (o2 & K & Ro). exists o2, w2. split; [apply ca_read; rewrite (like_el_name _ _ Hc); exact K|].
      split; [exact Ro|]. split; [exact H0|apply alone_refl].
    - cmd "read"%string. here; [apply ca_read_args|constructor]. intros c ->. inversion H as [|v1 ? ? ? L1 H']; subst. inversion H'; subst.
      apply el_back in L1 as (e & -> & _). exact (n e eq_refl).
    - cmd "filter"%string. inversion H as [|? v1 ? ? L1 H1]; subst. inversion H1 as [|? v2 ? ? L2 H2]; subst. inversion H2 as [|? v3 ? ? L3 H3]; subst.
      inversion H3 as [|? v4 ? ? L4 H4]; subst. inversion H4; subst.
      apply el_shape in L1 as (c' & -> & Hc). apply el_shape in L2 as (s' & -> & Hs). apply el_shape in L3 as (r' & -> & Hr). apply el_shape in L4 as (x' & -> & Hx).
      destruct (ren_finds _ _ _ _ _ _ _ _ _ _ H0 Hs Hx Hr f0) as (o2 & K & Ro). exists o2, w2.
      split; [apply ca_filter; rewrite (like_el_name _ _ Hc); exact K|]. split; [exact Ro|]. split; [exact H0|apply alone_refl].
    - cmd "filter"%string. here; [apply ca_filter_args|constructor]. intros c s r x ->.
      inversion H as [|v1 ? ? ? L1 H1]; subst. inversion H1 as [|v2 ? ? ? L2 H2]; subst. inversion H2 as [|v3 ? ? ? L3 H3]; subst.
      inversion H3 as [|v4 ? ? ? L4 H4]; subst. inversion H4; subst.
      apply el_back in L1 as (c' & -> & _). apply el_back in L2 as (s' & -> & _). apply el_back in L3 as (r' & -> & _). apply el_back in L4 as (x' & -> & _).
      exact (n _ _ _ _ eq_refl).
    - cmd "assert-equal"%string. here; [apply ca_equal_args; rewrite <- (f2_length _ _ _ H); exact n|]. sentence.
    - cmd "assert-equal"%string. inversion H0 as [|? v1 ? ? L1 H']; subst. inversion H' as [|? v2 ? ? L2 H'']; subst. inversion H''; subst.
      destruct (H _ _ L1 H1) as (o2 & w2' & K & Ro & Rw & A). exists o2, w2'. split; [|auto]. eapply ca_equal_left; [exact K|]. eapply no_answer; eassumption.
    - cmd "assert-equal"%string. inversion H1 as [|? v1 ? ? L1 H']; subst. inversion H' as [|? v2 ? ? L2 H'']; subst. inversion H''; subst.
      destruct (H _ _ L1 H2) as (o2 & w2' & K & Ro & Rw & A). inversion Ro as [? a2 Ha| |]; subst.
      destruct (H0 _ _ L2 Rw) as (o3 & w3' & K' & Ro' & Rw' & A'). exists o3, w3'. split; [|split; [exact Ro'|split; [exact Rw'|eapply alone_trans; eassumption]]].
      eapply ca_equal_right; [exact K|exact K'|]. eapply no_answer; eassumption.
    - cmd "assert-equal"%string. inversion H1 as [|? v1 ? ? L1 H']; subst. inversion H' as [|? v2 ? ? L2 H'']; subst. inversion H''; subst.
      destruct (H _ _ L1 H2) as (o2 & w2' & K & Ro & Rw & A). inversion Ro as [? a2 Ha| |]; subst.
      destruct (H0 _ _ L2 Rw) as (o3 & w3' & K' & Ro' & Rw' & A'). inversion Ro' as [? b2 Hb| |]; subst.
      rewrite <- (likev_fun _ _ _ Ha Hb) in K'.
      exists (Answers done), w3'. split; [eapply ca_equal; eassumption|]. split; [constructor; apply empty_like|]. split; [exact Rw'|eapply alone_trans; eassumption].
    - cmd "assert-equal"%string. inversion H1 as [|? v1 ? ? L1 H']; subst. inversion H' as [|? v2 ? ? L2 H'']; subst. inversion H''; subst.
      destruct (H _ _ L1 H2) as (o2 & w2' & K & Ro & Rw & A). inversion Ro as [? a2 Ha| |]; subst.
      destruct (H0 _ _ L2 Rw) as (o3 & w3' & K' & Ro' & Rw' & A'). inversion Ro' as [? b2 Hb| |]; subst.
      eexists. exists w3'. split; [eapply ca_unequal; [exact K|exact K'| |apply value_text_display|apply value_text_display]|].
      + intros E. apply n. apply (likev_eq _ _ _ _ Ha Hb), E.
      + split; [|split; [exact Rw'|eapply alone_trans; eassumption]]. constructor. apply (re_unequal f a b a2 b2); try assumption; apply value_text_display.
    - cmd "assert-fail"%string. here; [apply ca_fail_args|sentence]. intros q ->. inversion H as [|v1 ? ? ? L1 H']; subst. inversion H'; subst.
      apply quote_back in L1 as (p & -> & _). exact (n p eq_refl).
    - cmd "assert-fail"%string. inversion H0 as [|? v1 ? ? L1 H']; subst. inversion H'; subst. destruct (quote_shape _ _ L1) as (p & -> & _).
      destruct (H _ _ L1 H1) as (o2 & w2' & K & Ro & Rw & A). inversion Ro as [? a2 Ha| |]; subst.
      eexists. exists w2'. split; [eapply ca_fail_not; exact K|]. split; [sentence|auto].
    - cmd "assert-fail"%string. inversion H0 as [|? v1 ? ? L1 H']; subst. inversion H'; subst. destruct (quote_shape _ _ L1) as (p & -> & _).
      destruct (H _ _ L1 H1) as (o2 & w2' & K & Ro & Rw & A). inversion Ro as [|? e2 He|]; subst.
      exists (Answers done), w2'. split; [eapply ca_fail; exact K|]. split; [constructor; apply empty_like|auto].
    - cmd "assert-fail"%string. inversion H0 as [|? v1 ? ? L1 H']; subst. inversion H'; subst. destruct (quote_shape _ _ L1) as (p & -> & _).
      destruct (H _ _ L1 H1) as (o2 & w2' & K & Ro & Rw & A). inversion Ro; subst.
      exists Crashes, w2'. split; [eapply ca_fail_crash; exact K|]. split; [constructor|auto].
    - cmd "let"%string. inversion H as [|? v1 ? ? L1 H1]; subst. inversion H1 as [|? v2 ? ? L2 H2]; subst. inversion H2; subst.
      apply el_shape in L1 as (c' & -> & Hc). destruct (net_shape _ _ L2) as (m & ->).
      destruct (ren_binds _ _ _ _ _ _ _ H0 L2 b) as (o2 & v' & K & Ro & Rw & A). exists o2, v'. split; [|auto].
      apply ca_let. rewrite (like_el_name _ _ Hc). exact K.
    - cmd "let"%string. inversion H0 as [|? v1 ? ? L1 H3]; subst. inversion H3 as [|? v2 ? ? L2 H4]; subst. inversion H4; subst.
      apply el_shape in L1 as (c' & -> & Hc). destruct (quote_shape _ _ L2) as (p & -> & _).
      destruct (H _ _ L2 H1) as (o2 & w2' & K & Ro & Rw & A). inversion Ro as [? a2 Ha| |]; subst. destruct (net_shape _ _ Ha) as (m & ->).
      destruct (ren_binds _ _ _ _ _ _ _ Rw Ha b) as (o3 & v' & K' & Ro' & Rw' & A'). exists o3, v'.
      split; [|split; [exact Ro'|split; [exact Rw'|eapply alone_trans; eassumption]]].
      eapply ca_let_quote; [exact K|]. rewrite (like_el_name _ _ Hc). exact K'.
    - cmd "let"%string. inversion H0 as [|? v1 ? ? L1 H3]; subst. inversion H3 as [|? v2 ? ? L2 H4]; subst. inversion H4; subst.
      apply el_shape in L1 as (c' & -> & Hc). destruct (quote_shape _ _ L2) as (p & -> & _).
      destruct (H _ _ L2 H1) as (o2 & w2' & K & Ro & Rw & A). exists Crashes, w2'. split; [|split; [constructor|auto]].
      eapply ca_let_other; [exact K|]. intros m ->. inversion Ro as [a ? Ha| |]; subst. apply net_back in Ha as (k & ->). exact (n k eq_refl).
    - cmd "let"%string. here; [apply ca_let_args|sentence].
      + intros c m ->. inversion H as [|v1 ? ? ? L1 H1]; subst. inversion H1 as [|v2 ? ? ? L2 H2]; subst. inversion H2; subst.
        apply el_back in L1 as (c' & -> & _). apply net_back in L2 as (k & ->). exact (n _ _ eq_refl).
      + intros c q ->. inversion H as [|v1 ? ? ? L1 H1]; subst. inversion H1 as [|v2 ? ? ? L2 H2]; subst. inversion H2; subst.
        apply el_back in L1 as (c' & -> & _). apply quote_back in L2 as (k & -> & _). exact (n0 _ _ eq_refl).
  Qed.

  Lemma renamed_performs cs w o w' : performs B cs w o w' -> forall ds v, Forall2 (like_call R) cs ds -> ren_world f w v ->
    exists o2 v', performs B ds v o2 v' /\ ren_outcome f o o2 /\ ren_world f w' v' /\ others_alone f v v'.
  Proof.
    destruct renamed_reference as [_ RC].
    assert (RC' : forall c d w o w' v, calls B (el_name (c_name c)) (c_args c) w o w' -> like_call R c d -> ren_world f w v ->
      exists o2 v', calls B (el_name (c_name d)) (c_args d) v o2 v' /\ ren_outcome f o o2 /\ ren_world f w' v' /\ others_alone f v v').
    { intros c d w1 o1 w2 v H [Hn Ha] Rw. rewrite (like_el_name _ _ Hn). exact (RC _ _ _ _ _ H _ _ Ha Rw). }
    induction 1 as [w|c w o w' H|c d rest w a w1 o w' H K IH|c d rest w o w' H N]; intros ds v F Rw.
    - inversion F; subst. exists (Answers done), v. split; [constructor|]. split; [constructor; apply empty_like|]. split; [exact Rw|apply alone_refl].
    - inversion F as [|? d ? ds' Hc F']; subst. inversion F'; subst. destruct (RC' _ _ _ _ _ _ H Hc Rw) as (o2 & v' & K & X). exists o2, v'. split; [constructor; exact K|exact X].
    - inversion F as [|? c' ? ds' Hc F']; subst. inversion F' as [|? d' ? ds'' Hd F'']; subst.
      destruct (RC' _ _ _ _ _ _ H Hc Rw) as (o2 & v' & K' & Ro & Rw' & A). inversion Ro as [? a2 Ha| |]; subst.
      destruct (IH _ _ F' Rw') as (o3 & v3 & K3 & Ro3 & Rw3 & A3). exists o3, v3. split; [eapply pe_more; eassumption|].
      split; [exact Ro3|]. split; [exact Rw3|eapply alone_trans; eassumption].
    - inversion F as [|? c' ? ds' Hc F']; subst. inversion F' as [|? d' ? ds'' Hd F'']; subst.
      destruct (RC' _ _ _ _ _ _ H Hc Rw) as (o2 & v' & K' & Ro & Rw' & A). exists o2, v'. split; [|auto]. eapply pe_stop; [exact K'|]. eapply no_answer; eassumption.
  Qed.
End Opaque.

(** ** Texts *)
Lemma kept_keeps ts : keeps ts (kept ts).
Proof.
  induction ts as [|t ts IH]; [constructor|]. unfold kept in *. destruct t; cbn [filter significant map string_to_element];
    try (constructor; exact IH); apply kp_other; try discriminate; exact IH.
Qed.

Lemma like_of_ren f t u : ren_token f t u -> like_token (to f) t u.
Proof. intros [n|t' H1 H2]; [apply lt_element; constructor; reflexivity|apply lt_same; assumption]. Qed.

Lemma like_of_ren_back f t u : ren_token f t u -> like_token (fun a b => a = f b) u t.
Proof. intros [n|t' H1 H2]; [apply lt_element; constructor; reflexivity|apply lt_same; assumption]. Qed.

Lemma ren_of_like f t u : like_token (to f) t u -> ren_token f t u.
Proof. intros [t' H1 H2|a b [x y H]]; [apply rt_same; assumption|]. rewrite H. constructor. Qed.

Lemma f2_map {A C} (Q Q' : A -> C -> Prop) xs ys : (forall x y, Q x y -> Q' x y) -> Forall2 Q xs ys -> Forall2 Q' xs ys.
Proof. induction 2; constructor; auto. Qed.

Lemma f2_flip {A C} (Q : A -> C -> Prop) (Q' : C -> A -> Prop) xs ys : (forall x y, Q x y -> Q' y x) -> Forall2 Q xs ys -> Forall2 Q' ys xs.
Proof. induction 2; constructor; auto. Qed.

Section Texts.
  Variable Q : str -> str -> Prop.
  Lemma like_stray ts us next : Forall2 (like_token Q) ts us -> stray_in ts next ->
    exists next', stray_in us next' /\ match next, next' with Some t, Some u => like_token Q t u | None, None => True | _, _ => False end.
  Proof.
    intros F (p & cs & pre & vs & t & rest & -> & Gp & Gv & St & ->).
    apply Forall2_app_inv_l in F as (p' & F' & F1 & F2 & ->). apply Forall2_app_inv_l in F2 as (pre' & F3 & F4 & F5 & ->).
    inversion F5 as [|? t' ? rest' Ht Hr]; subst.
    destruct (like_commas Q _ _ Gp _ F1) as (cs' & Gp' & _). destruct (like_values Q _ _ Gv _ F4) as (vs' & Gv' & _).
    assert (t' = t) as -> by (destruct Ht; [reflexivity|contradiction St]).
    exists (hd_error rest'). split.
    - exists p', cs', pre', vs', t, rest'. repeat split; assumption.
    - destruct Hr; cbn; auto.
  Qed.
End Texts.

Lemma renamed_means B f s t w v o w' : renaming B f -> ren_text f s t -> ren_world f w v -> means B w s o w' ->
  exists o2 v', means B v t o2 v' /\ ren_outcome f o o2 /\ ren_world f w' v' /\ others_alone f v v'.
Proof.
  intros Hf (ts & us & k & l & Ls & Lt & Ks & Kt & F) Rw M.
  pose proof (f2_map _ _ _ _ (like_of_ren f) F) as F1. pose proof (f2_flip _ _ _ _ (like_of_ren_back f) F) as F2.
  destruct M as [ts' k' cs o w' L' K' G P|ts' k' next L' K' St|ts' k' L' K' N1 N2|Fl].
  - assert (k' = k) as -> by exact (lexed_fun _ _ _ _ _ L' K' Ls Ks). destruct (like_script _ _ _ G _ F1) as (ds & G2 & Lk).
    destruct (renamed_performs B f Hf _ _ _ _ P _ _ Lk Rw) as (o2 & v' & P2 & X). exists o2, v'. split; [eapply me_runs; eassumption|exact X].
  - assert (k' = k) as -> by exact (lexed_fun _ _ _ _ _ L' K' Ls Ks). destruct (like_stray _ _ _ _ F1 St) as (next' & St' & X).
    exists (Fails (WParse next')), v. split; [eapply me_stray; eassumption|]. split; [|split; [exact Rw|intros n _; reflexivity]].
    constructor. destruct next, next'; try contradiction; constructor. apply ren_of_like, X.
  - assert (k' = k) as -> by exact (lexed_fun _ _ _ _ _ L' K' Ls Ks). exists Crashes, v. split; [|split; [constructor|split; [exact Rw|intros n _; reflexivity]]].
    eapply me_outside; [exact Lt|exact Kt| |].
    + intros ds G. destruct (like_script _ _ _ G _ F2) as (cs & G2 & _). exact (N1 _ G2).
    + intros next St. destruct (like_stray _ _ _ _ F2 St) as (next' & St' & _). exact (N2 _ St').
  - exfalso. exact (lexes_not_fails _ _ Ls Fl).
Qed.

Lemma renamed_all_mean B f : renaming B f -> forall w ss os w', all_mean B w ss os w' -> forall tt v, Forall2 (ren_text f) ss tt -> ren_world f w v ->
  exists os2 v', all_mean B v tt os2 v' /\ Forall2 (ren_outcome f) os os2 /\ ren_world f w' v' /\ others_alone f v v'.
Proof.
  intros Hf. induction 1 as [w|w x rest o os w1 w2 M _ IH]; intros ts v F Rw; inversion F as [|? y ? ts' Hx F']; subst.
  - exists [], v. repeat split; try constructor. exact Rw.
  - destruct (renamed_means _ _ _ _ _ _ _ _ Hf Hx Rw M) as (o2 & v' & M2 & Ro & Rw' & A).
    destruct (IH _ _ F' Rw') as (os2 & v2 & A2 & Ros & Rw2 & A3). exists (o2 :: os2), v2.
    split; [econstructor; eassumption|]. split; [constructor; assumption|]. split; [exact Rw2|]. intros n N. rewrite (A3 n N). apply A, N.
Qed.

Lemma ren_world_same f w v w2 v2 : same_world w w2 -> same_world v v2 -> ren_world f w v -> ren_world f w2 v2.
Proof. intros E E' H n. rewrite <- (E n), <- (E' (f n)). apply H. Qed.

(** ** Swapping two names *)
Lemma swap_l a b : swap a b a = b.
Proof. unfold swap. rewrite (proj2 (P_Ord.str_eqb_eq a a) eq_refl). reflexivity. Qed.
Lemma swap_r a b : swap a b b = a.
Proof. unfold swap. destruct (str_eqb b a) eqn:E; [apply P_Ord.str_eqb_eq in E; exact E|]. rewrite (proj2 (P_Ord.str_eqb_eq b b) eq_refl). reflexivity. Qed.
Lemma swap_other a b n : n <> a -> n <> b -> swap a b n = n.
Proof. intros Ha Hb. unfold swap. rewrite (proj2 (P_Ord.str_eqb_neq n a) Ha), (proj2 (P_Ord.str_eqb_neq n b) Hb). reflexivity. Qed.

Lemma swap_twice a b n : swap a b (swap a b n) = n.
Proof.
  destruct (str_dec n a) as [->|Na]; [rewrite swap_l; apply swap_r|]. destruct (str_dec n b) as [->|Nb]; [rewrite swap_r; apply swap_l|].
  rewrite (swap_other a b n Na Nb). apply swap_other; assumption.
Qed.

Lemma swap_injective a b : injective (swap a b).
Proof. intros x y E. rewrite <- (swap_twice a b x), E. apply swap_twice. Qed.

Lemma swap_class (P : str -> Prop) a b : (P a <-> P b) -> forall n, P (swap a b n) <-> P n.
Proof.
  intros E n. destruct (str_dec n a) as [->|Na]; [rewrite swap_l; tauto|]. destruct (str_dec n b) as [->|Nb]; [rewrite swap_r; tauto|].
  rewrite (swap_other a b n Na Nb). reflexivity.
Qed.

Lemma swap_fixes a b : ~ reserved a -> ~ reserved b -> forall n, reserved n -> swap a b n = n.
Proof. intros Ha Hb n Hn. apply swap_other; intros ->; contradiction. Qed.

(** ** Templates *)
Lemma ren_same f ts : Forall (fun t => forall e, t = TElement e -> bare e) ts -> (forall e, In (TElement e) ts -> f (el_name e) = el_name e) ->
  (forall b, In (TString b) ts -> f b = b) -> Forall2 (ren_token f) (kept ts) (kept ts).
Proof.
  intros Bt He Hb. assert (K : forall b, f b = b -> ren_token f (TElement (Elem b None None)) (TElement (Elem b None None))) by (intros b E; rewrite <- E at 2; constructor).
  induction ts as [|t ts IH]; [constructor|]. inversion Bt as [|? ? B1 B2]; subst.
  assert (H : Forall2 (ren_token f) (kept ts) (kept ts)) by (apply IH; [exact B2|intros e Hi; apply He; right; exact Hi|intros b Hi; apply Hb; right; exact Hi]).
  unfold kept in *. destruct t as [w|b| | | | | | |e| | |c]; cbn [filter significant map string_to_element]; try exact H; (constructor; [|exact H]);
    try (apply rt_same; discriminate).
  all: try (apply K, Hb; left; reflexivity).
  all: destruct e as [n ns lg]; destruct (B1 _ eq_refl) as [X Y]; cbn in X, Y; subst; apply K, (He (Elem n None None)); left; reflexivity.
Qed.

Lemma ren_filled f ps last bs ts : filled_tokens ps last bs ts -> (forall p n, p = last \/ In p ps -> written_in p n -> f n = n) ->
  exists us, filled_tokens ps last (map f bs) us /\ Forall2 (ren_token f) (kept ts) (kept us).
Proof.
  induction 1 as [last ts L|p ps last b bs ts us L H IH]; intros W.
  - exists ts. split; [constructor; exact L|]. apply ren_same; [exact (lexes_bare _ _ L)|..].
    + intros e He. apply (W last); [auto|]. exists ts. split; [exact L|]. left. eauto.
    + intros x Hx. apply (W last); [auto|]. exists ts. split; [exact L|]. right. exact Hx.
  - destruct IH as (vs & V & F); [intros q n [->|Hq]; apply W; [left; reflexivity|right; right; exact Hq]|].
    exists (ts ++ TString (f b) :: vs). split; [constructor; assumption|]. rewrite !kept_app. apply Forall2_app.
    + apply ren_same; [exact (lexes_bare _ _ L)|..].
      * intros e He. apply (W p); [right; left; reflexivity|]. exists ts. split; [exact L|]. left. eauto.
      * intros x Hx. apply (W p); [right; left; reflexivity|]. exists ts. split; [exact L|]. right. exact Hx.
    + unfold kept in *. cbn [filter significant map string_to_element]. constructor; [constructor|exact F].
Qed.
