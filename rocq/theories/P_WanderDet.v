(** * Proofs: the reference is a function *)
From Coq Require Import List Arith NArith Bool String Lia.
From Verif Require Import M_Base M_Data M_Mem M_Heed M_Duck M_Regex M_Lexer M_Graph M_Parser M_Display M_Interp
  S_Order S_Str S_Store S_Graph S_Filter S_Lexer S_Parser S_Display S_Interp S_GraphHist S_Names S_Json
  P_Ord P_Hist P_Lexer P_LexMore P_Parser P_Display P_Graph P_Interp P_InterpMore
  P_Sim P_Names S_Wander P_Wander.
Import ListNotations.
Open Scope list_scope.

Lemma same_refl w : same_world w w.
Proof. intros n. reflexivity. Qed.

Lemma set_where_fun P Q a b : (forall e, P e <-> Q e) -> set_where P a -> set_where Q b -> a = b.
Proof. intros H [Sa Ha] [Sb Hb]. apply (is_set_ext entry_order); [assumption..|]. intros e. rewrite Ha, Hb. apply H. Qed.

Lemma rebound_fun P Q w w0 c w1 w2 : same_world w w0 -> (forall e, P e <-> Q e) -> rebound w c P w1 -> rebound w0 c Q w2 -> same_world w1 w2.
Proof.
  intros E H [(l & E1 & H1) O1] [(k & E2 & H2) O2] n. destruct (str_dec n c) as [->|N].
  - rewrite E1, E2. f_equal. eapply set_where_fun; eassumption.
  - rewrite (O1 n N), (O2 n N). apply E.
Qed.

Lemma reads_fun w w0 c B o o' : same_world w w0 -> reads w c B o -> reads w0 c B o' -> o = o'.
Proof. intros E H H'. specialize (E c). destruct H; inversion H'; subst; congruence. Qed.

Lemma finds_fun w w0 c p B o o' : same_world w w0 -> finds w c p B o -> finds w0 c p B o' -> o = o'.
Proof.
  intros E H H'. specialize (E c). destruct H as [l k El Hn Hk|l e El Hi Hr|El| |]; inversion H' as [l' k' El' Hn' Hk'|l' e' El' Hi' Hr'|El'| |]; subst; try congruence.
  - assert (l' = l) as -> by congruence. do 2 f_equal. eapply set_where_fun; [|exact Hk|exact Hk']. intros e. reflexivity.
  - assert (l' = l) as -> by congruence. destruct (Hn _ Hi' Hr').
  - assert (l' = l) as -> by congruence. destruct (Hn' _ Hi Hr).
Qed.

Lemma binds_fun w w0 c n B o o' w1 w2 : same_world w w0 -> binds w c n B o w1 -> binds w0 c n B o' w2 -> o = o' /\ same_world w1 w2.
Proof.
  intros E H H'. pose proof (E c) as Ec. destruct H; inversion H'; subst; try congruence; try tauto; try (split; [reflexivity|]); try assumption;
    (eapply rebound_fun; [exact E| |eassumption|eassumption]); intros e; cbn; rewrite ?Ec; reflexivity.
Qed.

Scheme gives_mut := Induction for gives Sort Prop with calls_mut := Induction for calls Sort Prop.
Combined Scheme reference_ind from gives_mut, calls_mut.

Ltac other_command :=
  exfalso; match goal with
  | H : lit _ = lit _ |- _ => vm_compute in H; discriminate H
  | H : ~ In (lit _) (map fst manual) |- _ => apply H; vm_compute; tauto
  end.
Ltac other_args :=
  exfalso; match goal with
  | H : List.length _ <> _ |- _ => exact (H eq_refl)
  | H : [] <> [] |- _ => exact (H eq_refl)
  | H : forall c, _ <> _ |- _ => eapply H; reflexivity
  | H : forall c d, _ <> _ |- _ => eapply H; reflexivity
  | H : forall a b c d, _ <> _ |- _ => eapply H; reflexivity
  end.

(** Use an induction hypothesis on a second evaluation of the same value. *)
Ltac again :=
  match goal with
  | IH : forall w0 o2 w2, same_world ?w w0 -> gives ?B ?v w0 o2 w2 -> _, S : same_world ?w ?w0', H : gives ?B ?v ?w0' _ _ |- _ =>
      let E := fresh "E" in let S' := fresh "S" in destruct (IH _ _ _ S H) as [E S']; clear H; try discriminate E; try injection E as E; subst
  | IH : forall w0 o2 w2, same_world ?w w0 -> calls ?B ?v ?a w0 o2 w2 -> _, S : same_world ?w ?w0', H : calls ?B ?v ?a ?w0' _ _ |- _ =>
      let E := fresh "E" in let S' := fresh "S" in destruct (IH _ _ _ S H) as [E S']; clear H; try discriminate E; try injection E as E; subst
  end.

Lemma reference_fun B :
  (forall v w o w', gives B v w o w' -> forall w0 o2 w2, same_world w w0 -> gives B v w0 o2 w2 -> o = o2 /\ same_world w' w2)
  /\ (forall name args w o w', calls B name args w o w' -> forall w0 o2 w2, same_world w w0 -> calls B name args w0 o2 w2 -> o = o2 /\ same_world w' w2).
Proof.
  apply (reference_ind B
    (fun v w o w' _ => forall w0 o2 w2, same_world w w0 -> gives B v w0 o2 w2 -> o = o2 /\ same_world w' w2)
    (fun name args w o w' _ => forall w0 o2 w2, same_world w w0 -> calls B name args w0 o2 w2 -> o = o2 /\ same_world w' w2)).
  all: intros.
  all: match goal with K : gives _ _ ?x ?y ?z, S : same_world _ ?x |- _ = ?y /\ same_world _ ?z => inversion K; subst; clear K
       | K : calls _ _ _ ?x ?y ?z, S : same_world _ ?x |- _ = ?y /\ same_world _ ?z => inversion K; subst; clear K end.
  all: try other_command.
  all: try other_args.
  all: try (split; [reflexivity|assumption]).
  all: repeat again.
  all: try (split; [reflexivity|assumption]).
  all: try other_args.
  - split; [|assumption]. do 2 f_equal. eapply set_where_fun; [|eassumption|eassumption]. reflexivity.
  - split; [|assumption]. do 2 f_equal. eapply set_where_fun; [|eassumption|eassumption]. reflexivity.
  - split; [|assumption]. eapply reads_fun; eassumption.
  - split; [|assumption]. eapply finds_fun; eassumption.
  - exfalso. congruence.
  - exfalso. congruence.
  - split; [|assumption]. repeat match goal with H : value_text _ _ |- _ => apply value_text_iff in H as -> end. reflexivity.
  - eapply binds_fun; eassumption.
  - eapply binds_fun; eassumption.
Qed.

Lemma performs_fun B cs w o w' : performs B cs w o w' -> forall w0 o2 w2, same_world w w0 -> performs B cs w0 o2 w2 -> o = o2 /\ same_world w' w2.
Proof.
  destruct (reference_fun B) as [_ FC].
  induction 1 as [w|c w o w' H|c d rest w v w1 o w' H K IH|c d rest w o w' H N]; intros w0 o2 w2 S P; inversion P as [|? ? ? ? H2|? ? ? ? v2 w3 ? ? H2 K2|? ? ? ? ? ? H2 N2]; subst.
  - auto.
  - exact (FC _ _ _ _ _ H _ _ _ S H2).
  - destruct (FC _ _ _ _ _ H _ _ _ S H2) as [E S2]. exact (IH _ _ _ S2 K2).
  - destruct (FC _ _ _ _ _ H _ _ _ S H2) as [E S2]. destruct (N2 v). congruence.
  - destruct (FC _ _ _ _ _ H _ _ _ S H2) as [E S2]. destruct (N v2). congruence.
  - exact (FC _ _ _ _ _ H _ _ _ S H2).
Qed.

Lemma lexed_fun s t t' k k' : lexes s t -> keeps t k -> lexes s t' -> keeps t' k' -> k = k'.
Proof.
  intros L K L' K'. apply tokenize_ok in L, L'. assert (t = t') as -> by congruence. symmetry. exact (keeps_unique _ _ K _ K').
Qed.

Lemma means_fun B script w o w' w0 o2 w2 : same_world w w0 -> means B w script o w' -> means B w0 script o2 w2 -> o = o2 /\ same_world w' w2.
Proof.
  intros S [ts kept cs o1 w1 L K Gs P|ts kept next L K Hs|ts kept L K N1 N2|F];
    intros [ts' kept' cs' o1' w1' L' K' Gs' P'|ts' kept' next' L' K' Hs'|ts' kept' L' K' N1' N2'|F'];
    try (assert (kept' = kept) as -> by exact (lexed_fun _ _ _ _ _ L' K' L K));
    try (exfalso; eapply lexes_not_fails; eassumption; fail).
  - apply parse_ok in Gs, Gs'. assert (cs' = cs) as -> by congruence. eapply performs_fun; eassumption.
  - exfalso. apply parse_ok in Gs. pose proof (proj2 (parse_err kept (WParse next')) (ex_intro _ next' (conj eq_refl Hs'))). congruence.
  - destruct (N1' _ Gs).
  - exfalso. apply parse_ok in Gs'. pose proof (proj2 (parse_err kept (WParse next)) (ex_intro _ next (conj eq_refl Hs))). congruence.
  - pose proof (proj2 (parse_err kept (WParse next)) (ex_intro _ next (conj eq_refl Hs))).
    pose proof (proj2 (parse_err kept (WParse next')) (ex_intro _ next' (conj eq_refl Hs'))). split; [congruence|exact S].
  - destruct (N2' _ Hs).
  - destruct (N1 _ Gs').
  - destruct (N2 _ Hs').
  - auto.
  - auto.
Qed.

Lemma all_mean_fun B scripts w os w' : all_mean B w scripts os w' -> forall w0 os2 w2, same_world w w0 -> all_mean B w0 scripts os2 w2 -> os = os2 /\ same_world w' w2.
Proof.
  induction 1 as [w|w x rest o os w1 w2 M _ IH]; intros w0 os2 w3 S A; inversion A as [|? ? ? o' os' w1' ? M' A']; subst; [auto|].
  destruct (means_fun _ _ _ _ _ _ _ _ S M M') as [-> S']. destruct (IH _ _ _ S' A') as [-> S'']. auto.
Qed.
