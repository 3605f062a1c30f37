(** * Proofs about the interpreter: which store calls a program makes *)
From Coq Require Import List Arith NArith Bool String Lia Permutation.
From Verif Require Import M_Base M_Data M_Mem M_Regex M_Lexer M_Graph M_Parser M_Display M_Interp
  S_Order S_Store S_Graph S_Interp P_Ord P_Hist P_Parser P_Display P_Mem P_Graph P_Interp.
Import ListNotations.
Open Scope list_scope.

Lemma common_table {St} : is_table (@common St).
Proof.
  unfold is_table, common. cbn [map fst].
  repeat (constructor; [let H := fresh in intros H; repeat (destruct H as [H|H]; [discriminate H|]); destruct H|]).
  constructor.
Qed.

Lemma common_no_host {St} n c : In (n, c) (@common St) -> forall g, cmd_fun_of c <> FHost g.
Proof.
  intros H g. unfold common in H.
  repeat (destruct H as [H|H]; [injection H as _ <-; discriminate|]). destruct H.
Qed.

Lemma common_let {St} n c : In (n, c) (@common St) -> cmd_fun_of c = FLet -> n = lit "let".
Proof.
  intros H. unfold common in H.
  repeat (destruct H as [H|H]; [injection H as <- <-; try discriminate; reflexivity|]). destruct H.
Qed.


Section Reach.
  Context {S : Type} (I : trips_impl S).
  Notation G := (graph_impl I).

  (** From [s] to [s'] by store calls on collections in [W] only. *)
  Definition via (W : str -> Prop) (s s' : S) : Prop :=
    exists h, s' = after I s h /\ forall o, In o h -> exists x, W x /\ extends x o.

  Lemma via_refl W s : via W s s.
  Proof. exists []. split; [reflexivity|intros o []]. Qed.

  Lemma via_trans W s1 s2 s3 : via W s1 s2 -> via W s2 s3 -> via W s1 s3.
  Proof.
    intros (h1 & -> & H1) (h2 & -> & H2). exists (h1 ++ h2). split; [symmetry; apply after_app|].
    intros o Ho. apply in_app_or in Ho as [Ho|Ho]; auto.
  Qed.

  Lemma via_mono (W W' : str -> Prop) s s' : (forall x, W x -> W' x) -> via W s s' -> via W' s s'.
  Proof.
    intros HW (h & E & H). exists h. split; [exact E|]. intros o Ho. destruct (H o Ho) as (x & Hx & He). eauto.
  Qed.

  Lemma via_stores c n st r st' : stores G c n st r st' -> via (eq (el_name c)) st st'.
  Proof.
    assert (H1 : forall a st1, l_add_collection G st c = (a, st1) -> st1 = after I st [OAddColl (el_name c)]).
    { intros a st1. cbn. unfold graph_add_collection. destruct (t_add_collection I st (el_name c)) as [r' s']. cbn.
      intros E; injection E as _ <-. reflexivity. }
    assert (H2 : forall st1 b st2 n', l_add_entries G st1 c n = (b, st2, n') ->
              st2 = after I st1 [OAdd (el_name c) (trips_of n)]).
    { intros st1 b st2 n'. cbn [l_add_entries graph_impl]. unfold graph_add_entries. cbn [after call_op]. fold (trips_of n).
      destruct (t_add_triples I st1 (el_name c) (trips_of n)) as [[r' s'] x]. cbn. intros E; injection E as _ <- _. reflexivity. }
    intros [a st1 b st2 n' E1 _ E2 _|w st1 E1|a st1 w st2 n' E1 _ E2]; apply H1 in E1.
    1, 3: apply H2 in E2; exists ([OAddColl (el_name c)] ++ [OAdd (el_name c) (trips_of n)]); subst;
      (split; [rewrite after_app; reflexivity|]); intros o [<-|[<-|[]]]; exists (el_name c);
      (split; [reflexivity|]); [left; reflexivity|right; eauto].
    exists [OAddColl (el_name c)]. split; [exact E1|]. intros o [<-|[]]. exists (el_name c). split; [reflexivity|]. left; reflexivity.
  Qed.

  Definition quote_writes (q : list value) (x : str) : Prop :=
    exists n args, q = VElement n :: args /\ may_write n args x.

  Lemma reach :
    (forall v st r st', evals G common v st r st' -> via (fun x => exists q, v = VQuote q /\ quote_writes q x) st st')
    /\ (forall q st r st', quotes G common q st r st' -> via (quote_writes q) st st')
    /\ (forall n args st r st', does G common n args st r st' -> via (may_write n args) st st')
    /\ (forall f args st r st', acts G common f args st r st' ->
        (forall g, f <> FHost g) ->
        via (fun x => (f = FLet /\ exists c v, args = [VElement c; v] /\ x = el_name c)
                      \/ exists q, In (VQuote q) args /\ quote_writes q x) st st').
  Proof.
    apply semantics_ind; try (intros; apply via_refl).
    - intros q st r st' _ IH. eapply via_mono; [|exact IH]. eauto.
    - intros n args st r st' _ IH. eapply via_mono; [|exact IH]. intros x H. exists n, args. auto.
    - intros n c args st r st' Hc _ IH. eapply via_mono; [|apply IH; exact (common_no_host _ _ Hc)].
      intros x [(Hf & c' & v & -> & ->)|(q & Hq & n' & args' & -> & Hw)].
      + apply mw_let. exact (common_let _ _ Hc Hf).
      + eapply mw_nested; eauto.
    - intros f args st r st' Hs Hh. destruct Hs; try apply via_refl. destruct (Hh f eq_refl).
    - intros l r st a st1 _ IH _ _. eapply via_mono; [|exact IH]. intros x (q & -> & Hq). right. exists q. split; [left; reflexivity|exact Hq].
    - intros l r st a st1 b st2 _ IH1 _ IH2 _ _. eapply via_trans.
      + eapply via_mono; [|exact IH1]. intros x (q & -> & Hq). right. exists q. split; [left; reflexivity|exact Hq].
      + eapply via_mono; [|exact IH2]. intros x (q & -> & Hq). right. exists q. split; [right; left; reflexivity|exact Hq].
    - intros l r st a st1 st2 _ IH1 _ IH2 _. eapply via_trans.
      + eapply via_mono; [|exact IH1]. intros x (q & -> & Hq). right. exists q. split; [left; reflexivity|exact Hq].
      + eapply via_mono; [|exact IH2]. intros x (q & -> & Hq). right. exists q. split; [right; left; reflexivity|exact Hq].
    - intros l r st a st1 b st2 _ IH1 _ IH2 _ _. eapply via_trans.
      + eapply via_mono; [|exact IH1]. intros x (q & -> & Hq). right. exists q. split; [left; reflexivity|exact Hq].
      + eapply via_mono; [|exact IH2]. intros x (q & -> & Hq). right. exists q. split; [right; left; reflexivity|exact Hq].
    - intros q st v st1 _ IH _. eapply via_mono; [|exact IH]. intros x Hx. right. exists q. split; [left; reflexivity|exact Hx].
    - intros q st v st1 _ IH _. eapply via_mono; [|exact IH]. intros x Hx. right. exists q. split; [left; reflexivity|exact Hx].
    - intros q st v st1 _ IH _. eapply via_mono; [|exact IH]. intros x Hx. right. exists q. split; [left; reflexivity|exact Hx].
    - intros c n st r st' H _. eapply via_mono; [|exact (via_stores _ _ _ _ _ H)]. intros x <-. left. eauto.
    - intros c q st n st1 r st' _ IH H _. eapply via_trans.
      + eapply via_mono; [|exact IH]. intros x Hx. right. exists q. split; [right; left; reflexivity|exact Hx].
      + eapply via_mono; [|exact (via_stores _ _ _ _ _ H)]. intros x <-. left. eauto.
    - intros c q st w st1 _ IH _. eapply via_mono; [|exact IH]. intros x Hx. right. exists q. split; [right; left; reflexivity|exact Hx].
    - intros c q st a st1 _ IH _ _ _. eapply via_mono; [|exact IH]. intros x Hx. right. exists q. split; [right; left; reflexivity|exact Hx].
  Qed.

  Lemma reach_calls calls st r st' : runs G common calls st r st' -> via (calls_may_write calls) st st'.
  Proof.
    assert (HD : forall c rest st r st', does G common (c_name c) (c_args c) st r st' -> via (calls_may_write (c :: rest)) st st').
    { intros c rest s r' s' H. eapply via_mono; [|exact (proj1 (proj2 (proj2 reach)) _ _ _ _ _ H)].
      intros x Hx. exists c. split; [left; reflexivity|exact Hx]. }
    induction 1 as [st|c st r st' H|c rest st v st1 r st' H Hne _ IH|c rest st r st' H Hf].
    - apply via_refl.
    - exact (HD _ _ _ _ _ H).
    - eapply via_trans; [exact (HD _ rest _ _ _ H)|]. eapply via_mono; [|exact IH].
      intros x (c' & Hi & Hx). exists c'. split; [right; exact Hi|exact Hx].
    - exact (HD _ _ _ _ _ H).
  Qed.

  Lemma run_calls_via calls st : via (calls_may_write calls) st (snd (run_calls G common calls st)).
  Proof.
    apply (reach_calls calls st (fst (run_calls G common calls st))).
    apply (runs_iff _ _ common_table). apply surjective_pairing.
  Qed.
End Reach.
