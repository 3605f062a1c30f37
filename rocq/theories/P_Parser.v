(** * The parser accepts exactly the grammar *)
From Coq Require Import List Arith NArith Bool Lia String.
From Verif Require Import M_Base M_Data M_Regex M_Lexer M_Graph M_Parser S_Order S_Graph S_Parser P_Ord P_Agree.
Import ListNotations.
Open Scope list_scope.

Lemma str_eqb_eq a b : str_eqb a b = true <-> a = b.
Proof.
  revert b. induction a as [|x a IH]; intros [|y b]; simpl; try (split; congruence).
  rewrite andb_true_iff, N.eqb_eq, IH. split; [intros [-> ->]; reflexivity|intros H; injection H; auto].
Qed.

Lemma opt_str_eqb_eq a b : opt_str_eqb a b = true <-> a = b.
Proof. destruct a, b; simpl; try (split; congruence). rewrite str_eqb_eq. split; congruence. Qed.

Lemma element_eqb_eq a b : element_eqb a b = true <-> a = b.
Proof.
  unfold element_eqb. rewrite !andb_true_iff, str_eqb_eq, !opt_str_eqb_eq. destruct a, b; simpl.
  split; [intros [[-> ->] ->]; reflexivity|intros H; injection H; auto].
Qed.

Lemma written_read a r c e : written a r c e <-> e = read_entry a r c.
Proof.
  unfold read_entry. change (mkE role_extends) with (Elem colon None None).
  change (mkE role_not_extends) with (Elem not_colon None None).
  split.
  - intros H. destruct H as [a c|a c|a r c H1 H2].
    + rewrite (proj2 (element_eqb_eq _ _) eq_refl). reflexivity.
    + destruct (element_eqb (Elem not_colon None None) (Elem colon None None)) eqn:E;
        [apply element_eqb_eq in E; discriminate|].
      rewrite (proj2 (element_eqb_eq _ _) eq_refl). reflexivity.
    + destruct (element_eqb r (Elem colon None None)) eqn:E1; [apply element_eqb_eq in E1; congruence|].
      destruct (element_eqb r (Elem not_colon None None)) eqn:E2; [apply element_eqb_eq in E2; congruence|]. reflexivity.
  - intros ->. destruct (element_eqb r (Elem colon None None)) eqn:E1.
    + apply element_eqb_eq in E1. subst. constructor.
    + destruct (element_eqb r (Elem not_colon None None)) eqn:E2.
      * apply element_eqb_eq in E2. subst. constructor.
      * constructor; intros ->; rewrite (proj2 (element_eqb_eq _ _) eq_refl) in *; discriminate.
Qed.

(** The set built by successive insertion. *)
Definition inserted (es : list entry) (acc : list entry) : list entry :=
  fold_left (fun acc x => bs_insert entry_cmp x acc) es acc.

Lemma set_of_collect es s : set_of es s <-> s = inserted es [].
Proof.
  change (inserted es []) with (bs_collect entry_cmp es). split.
  - intros [H1 H2]. apply (set_eq entry_order); [exact H1|apply (is_set_collect entry_order)|].
    intros x. rewrite (in_bs_collect entry_order). symmetry. apply H2.
  - intros ->. split; [apply (is_set_collect entry_order)|]. intros x. rewrite (in_bs_collect entry_order). reflexivity.
Qed.

(** ** Networks *)

Lemma network_complete pre es : g_network pre es -> forall fuel rest acc, List.length pre <= fuel ->
  read_network fuel (pre ++ rest) acc = Ok (VNetwork (inserted es acc), rest).
Proof.
  induction 1 as [|a r c e W|a r c e ts es W H IH]; intros [|fuel] rest acc L; try (simpl in L; lia); cbn [app read_network].
  - reflexivity.
  - apply written_read in W. subst e. reflexivity.
  - apply written_read in W. subst e. rewrite IH by (simpl in L; lia). reflexivity.
Qed.

Lemma network_sound : forall fuel g acc v rest, read_network fuel g acc = Ok (v, rest) ->
  exists pre es, g = pre ++ rest /\ g_network pre es /\ v = VNetwork (inserted es acc).
Proof.
  induction fuel as [|fuel IH]; intros g acc v rest H; [discriminate|]. cbn [read_network] in H.
  destruct g as [|[ | | | | | | | |a| | | ] g1]; try discriminate.
  - injection H as <- <-. exists [TCloseBrace], []. repeat split. constructor.
  - destruct g1 as [|[ | | | | | | | |r| | | ] g2]; try discriminate.
    destruct g2 as [|[ | | | | | | | |c| | | ] g3]; try discriminate.
    destruct g3 as [|[ | | | | | | | | | | | ] g4]; try discriminate.
    + injection H as <- <-. exists [TElement a; TElement r; TElement c; TCloseBrace], [read_entry a r c].
      repeat split. constructor. apply written_read. reflexivity.
    + apply IH in H. destruct H as (pre & es & -> & G & ->).
      exists (TElement a :: TElement r :: TElement c :: TComma :: pre), (read_entry a r c :: es).
      repeat split. constructor; [apply written_read; reflexivity|exact G].
Qed.

Lemma network_fuel : forall fuel g acc, List.length g < fuel -> read_network fuel g acc <> Panic PFuel.
Proof.
  induction fuel as [|fuel IH]; intros g acc L; [lia|]. cbn [read_network].
  destruct g as [|[ | | | | | | | |a| | | ] g1]; try discriminate.
  destruct g1 as [|[ | | | | | | | |r| | | ] g2]; try discriminate.
  destruct g2 as [|[ | | | | | | | |c| | | ] g3]; try discriminate.
  destruct g3 as [|[ | | | | | | | | | | | ] g4]; try discriminate.
  apply IH. simpl in L. lia.
Qed.

Lemma network_panic : forall fuel g acc w, List.length g < fuel -> read_network fuel g acc = Panic w -> w = PTodo.
Proof.
  induction fuel as [|fuel IH]; intros g acc w L; [lia|]. cbn [read_network].
  destruct g as [|[ | | | | | | | |a| | | ] g1]; try congruence.
  destruct g1 as [|[ | | | | | | | |r| | | ] g2]; try congruence.
  destruct g2 as [|[ | | | | | | | |c| | | ] g3]; try congruence.
  destruct g3 as [|[ | | | | | | | | | | | ] g4]; try congruence.
  apply IH. simpl in L. lia.
Qed.

Lemma network_nonempty pre es : g_network pre es -> 0 < List.length pre.
Proof. destruct 1; simpl; lia. Qed.

(** ** Quotes *)

Lemma quote_complete pre vs : g_quote pre vs -> forall fuel rest acc, List.length pre <= fuel ->
  read_quote fuel (pre ++ rest) acc = Ok (VQuote (acc ++ vs), rest).
Proof.
  induction 1 as [|e ts vs H IH|n es s ts vs N S H IH]; intros [|fuel] rest acc L; try (simpl in L; lia);
    cbn [app read_quote].
  - rewrite app_nil_r. reflexivity.
  - rewrite IH by (simpl in L; lia). rewrite <- app_assoc. reflexivity.
  - simpl in L. rewrite app_length in L. rewrite <- app_assoc, (network_complete _ _ N) by lia.
    apply set_of_collect in S. subst s. rewrite IH by lia. rewrite <- app_assoc. reflexivity.
Qed.

Lemma quote_sound : forall fuel g acc v rest, read_quote fuel g acc = Ok (v, rest) ->
  exists pre vs, g = pre ++ rest /\ g_quote pre vs /\ v = VQuote (acc ++ vs).
Proof.
  induction fuel as [|fuel IH]; intros g acc v rest H; [discriminate|]. cbn [read_quote] in H.
  destruct g as [|[ | | | | | | | |a| | | ] g1]; try discriminate.
  - injection H as <- <-. exists [TCloseParen], []. rewrite app_nil_r. repeat split. constructor.
  - destruct (read_network fuel g1 []) as [[v' g2]| |] eqn:E; try discriminate.
    apply network_sound in E. destruct E as (n & es & -> & N & ->).
    apply IH in H. destruct H as (pre & vs & -> & Q & ->).
    exists (TOpenBrace :: n ++ pre), (VNetwork (inserted es []) :: vs).
    split; [simpl; rewrite <- app_assoc; reflexivity|]. rewrite <- app_assoc. split; [|reflexivity].
    econstructor; eauto. apply set_of_collect. reflexivity.
  - apply IH in H. destruct H as (pre & vs & -> & Q & ->).
    exists (TElement a :: pre), (VElement a :: vs). rewrite <- app_assoc. repeat split. constructor. exact Q.
Qed.

Lemma quote_panic : forall fuel g acc w, List.length g < fuel -> read_quote fuel g acc = Panic w -> w = PTodo.
Proof.
  induction fuel as [|fuel IH]; intros g acc w L; [lia|]. cbn [read_quote].
  destruct g as [|[ | | | | | | | |a| | | ] g1]; try congruence; simpl in L.
  - destruct (read_network fuel g1 []) as [[v' g2]| |w'] eqn:E; try congruence.
    + apply IH. apply network_sound in E. destruct E as (n & es & -> & N & _). apply network_nonempty in N.
      rewrite app_length in L. lia.
    + intros H. injection H as <-. eapply network_panic; [|exact E]. lia.
  - apply IH. lia.
Qed.

Lemma quote_nonempty pre vs : g_quote pre vs -> 0 < List.length pre.
Proof. destruct 1; simpl; lia. Qed.

(** ** One call *)

(** What ends a call. *)
Definition call_end (tail : list token) : wres (list token) :=
  match tail with
  | [] => Ok []
  | TComma :: rest => Ok rest
  | _ :: rest => Err (WParse (hd_error rest))
  end.

Definition ends (tail : list token) : Prop :=
  match tail with [] => True | TComma :: _ => True | t :: _ => stray t end.

Lemma call_complete pre vs : g_values pre vs -> forall fuel tail cur, ends tail -> List.length (pre ++ tail) < fuel ->
  read_call fuel (pre ++ tail) cur
  = match call_end tail with Ok rest => Ok (cur ++ vs, rest) | Err e => Err e | Panic w => Panic w end.
Proof.
  induction 1 as [|e ts vs H IH|b ts vs H IH|n es s ts vs N S H IH|q qs ts vs Q H IH]; intros [|fuel] tail cur En L;
    try (simpl in L; lia).
  - rewrite app_nil_r. cbn [app]. destruct tail as [|t tail]; [reflexivity|].
    destruct t; try reflexivity; destruct En.
  - cbn [app read_call]. simpl in L. rewrite IH by (assumption || lia). rewrite <- app_assoc. reflexivity.
  - cbn [app read_call]. simpl in L. rewrite IH by (assumption || lia). rewrite <- app_assoc. reflexivity.
  - cbn [app read_call]. simpl in L. rewrite !app_length in L.
    rewrite <- app_assoc, (network_complete _ _ N) by lia. apply set_of_collect in S. subst s.
    rewrite IH by (try rewrite app_length; assumption || lia). rewrite <- app_assoc. reflexivity.
  - cbn [app read_call]. simpl in L. rewrite !app_length in L.
    rewrite <- app_assoc, (quote_complete _ _ Q) by lia. cbn [app].
    rewrite IH by (try rewrite app_length; assumption || lia). rewrite <- app_assoc. reflexivity.
Qed.

Lemma call_sound : forall fuel g cur, List.length g < fuel ->
  match read_call fuel g cur with
  | Panic w => w = PTodo
  | _ => exists pre vs tail, g = pre ++ tail /\ g_values pre vs /\ ends tail
         /\ read_call fuel g cur
            = match call_end tail with Ok rest => Ok (cur ++ vs, rest) | Err e => Err e | Panic w => Panic w end
  end.
Proof.
  induction fuel as [|fuel IH]; intros g cur L; [lia|].
  assert (Done : ends g ->
     exists pre vs tail, g = pre ++ tail /\ g_values pre vs /\ ends tail
         /\ read_call (S fuel) g cur
            = match call_end tail with Ok rest => Ok (cur ++ vs, rest) | Err e => Err e | Panic w => Panic w end).
  { intros En. exists [], [], g. split; [reflexivity|]. split; [constructor|]. split; [exact En|].
    apply (call_complete [] []); [constructor|exact En|exact L]. }
  destruct g as [|t g1]; [cbn [read_call]; exact (Done Logic.I)|].
  assert (Step : forall pre1 v g2, t :: g1 = pre1 ++ g2 -> List.length g2 < fuel ->
      (forall ts vs, g_values ts vs -> g_values (pre1 ++ ts) (v :: vs)) ->
      read_call (S fuel) (t :: g1) cur = read_call fuel g2 (cur ++ [v]) ->
      match read_call (S fuel) (t :: g1) cur with
      | Panic w => w = PTodo
      | _ => exists pre vs tail, t :: g1 = pre ++ tail /\ g_values pre vs /\ ends tail
         /\ read_call (S fuel) (t :: g1) cur
            = match call_end tail with Ok rest => Ok (cur ++ vs, rest) | Err e => Err e | Panic w => Panic w end
      end).
  { intros pre1 v g2 E Lg Gv R. rewrite R. specialize (IH g2 (cur ++ [v]) Lg).
    assert (K : (exists pre vs tail, g2 = pre ++ tail /\ g_values pre vs /\ ends tail
       /\ read_call fuel g2 (cur ++ [v])
          = match call_end tail with Ok rest => Ok ((cur ++ [v]) ++ vs, rest) | Err e => Err e | Panic w => Panic w end) ->
       exists pre vs tail, t :: g1 = pre ++ tail /\ g_values pre vs /\ ends tail
         /\ read_call fuel g2 (cur ++ [v])
            = match call_end tail with Ok rest => Ok (cur ++ vs, rest) | Err e => Err e | Panic w => Panic w end).
    { intros (pre & vs & tail & Eg & G & En & Er). exists (pre1 ++ pre), (v :: vs), tail.
      split; [rewrite E, Eg, app_assoc; reflexivity|]. split; [auto|]. split; [exact En|].
      rewrite Er, <- app_assoc. reflexivity. }
    destruct (read_call fuel g2 (cur ++ [v])); auto. }
  simpl in L.
  destruct t as [w|b| | | | | | |e| | |c].
  - exact (Done Logic.I).
  - apply (Step [TString b] (VElement (mkE b)) g1); [reflexivity|lia|intros; constructor; assumption|reflexivity].
  - destruct (read_quote fuel g1 []) as [[v g2]|er|w] eqn:E.
    + pose proof (quote_sound _ _ _ _ _ E) as (q & qs & -> & Q & ->).
      apply (Step (TOpenParen :: q) (VQuote ([] ++ qs)) g2); [reflexivity| | |].
      * apply quote_nonempty in Q. rewrite app_length in L. lia.
      * intros; cbn [app]; constructor; assumption.
      * cbn [read_call]. rewrite E. reflexivity.
    + cbn [read_call]. rewrite E. reflexivity.
    + cbn [read_call]. rewrite E. eapply quote_panic; [|exact E]. lia.
  - exact (Done Logic.I).
  - destruct (read_network fuel g1 []) as [[v g2]|er|w] eqn:E.
    + pose proof (network_sound _ _ _ _ _ E) as (n & es & -> & N & ->).
      apply (Step (TOpenBrace :: n) (VNetwork (inserted es [])) g2); [reflexivity| | |].
      * apply network_nonempty in N. rewrite app_length in L. lia.
      * intros; cbn [app]; econstructor; eauto. apply set_of_collect. reflexivity.
      * cbn [read_call]. rewrite E. reflexivity.
    + cbn [read_call]. rewrite E. reflexivity.
    + cbn [read_call]. rewrite E. eapply network_panic; [|exact E]. lia.
  - exact (Done Logic.I).
  - exact (Done Logic.I).
  - exact (Done Logic.I).
  - apply (Step [TElement e] (VElement e) g1); [reflexivity|lia|intros; constructor; assumption|reflexivity].
  - exact (Done Logic.I).
  - exact (Done Logic.I).
  - exact (Done Logic.I).
Qed.

(** ** Scripts *)

Lemma call_nonempty ts c : g_call ts c -> ts <> [].
Proof. intros H ->. inversion H. Qed.

Lemma parse_loop_call fuel ts c rest : g_call ts c -> List.length (ts ++ TComma :: rest) < fuel ->
  parse_loop fuel (ts ++ TComma :: rest)
  = match parse_loop (pred fuel) rest with Ok cs => Ok (c :: cs) | Err e => Err e | Panic w => Panic w end.
Proof.
  intros G L. pose proof (call_nonempty _ _ G) as Ne. destruct ts as [|t ts]; [congruence|].
  destruct fuel as [|fuel]; [lia|]. cbn [app parse_loop pred]. change (t :: ts ++ TComma :: rest) with ((t :: ts) ++ TComma :: rest).
  rewrite (call_complete _ _ G) by (exact Logic.I || exact L). destruct c. reflexivity.
Qed.

Lemma parse_loop_last fuel ts c : g_call ts c -> List.length ts < fuel -> parse_loop fuel ts = Ok [c].
Proof.
  intros G L. pose proof (call_nonempty _ _ G) as Ne. destruct ts as [|t ts]; [congruence|].
  destruct fuel as [|fuel]; [lia|]. cbn [parse_loop].
  assert (E : read_call (S fuel) (t :: ts) [] = Ok (VElement (c_name c) :: c_args c, [])).
  { pose proof (call_complete _ _ G (S fuel) [] [] Logic.I) as K. rewrite app_nil_r in K. rewrite (K L). reflexivity. }
  rewrite E. destruct c. simpl. destruct fuel; reflexivity.
Qed.

Definition prefixed (cs : list call) (r : wres (list call)) : wres (list call) :=
  match r with Ok cs' => Ok (cs ++ cs') | Err e => Err e | Panic w => Panic w end.

Lemma parse_loop_commas p cs : g_commas p cs -> forall fuel rest, List.length (p ++ rest) < fuel ->
  exists fuel', List.length rest < fuel' /\ parse_loop fuel (p ++ rest) = prefixed cs (parse_loop fuel' rest).
Proof.
  induction 1 as [|ts c ts' cs G H IH]; intros fuel rest L.
  - exists fuel. split; [exact L|]. simpl. destruct (parse_loop fuel rest); reflexivity.
  - rewrite <- app_assoc in *. cbn [app] in *. rewrite (parse_loop_call _ _ _ _ G L).
    destruct (IH (pred fuel) rest) as (fuel' & L' & E).
    { rewrite app_length in L. simpl in L. lia. }
    exists fuel'. split; [exact L'|]. rewrite E. destruct (parse_loop fuel' rest); reflexivity.
Qed.

Lemma parse_loop_sound : forall fuel ts, List.length ts < fuel ->
  match parse_loop fuel ts with
  | Ok cs => g_script ts cs
  | Err e => exists next, e = WParse next /\ stray_in ts next
  | Panic w => w = PTodo
  end.
Proof.
  induction fuel as [|fuel IH]; intros ts L; [lia|]. destruct ts as [|t ts]; [constructor; constructor|].
  pose proof (call_sound (S fuel) (t :: ts) [] L) as C. cbn [parse_loop].
  destruct (read_call (S fuel) (t :: ts) []) as [[current g]|e|w].
  - destruct C as (pre & vs & tail & E & G & En & R).
    destruct tail as [|tt tail]; [|destruct (match tt with TComma => true | _ => false end) eqn:Ec].
    + cbn in R. injection R as -> ->. rewrite app_nil_r in E. subst pre.
      destruct vs as [|[n| |] args]; try reflexivity. cbn [make_call].
      assert (parse_loop fuel [] = Ok []) as -> by (destruct fuel; reflexivity).
      apply (gs_last [] [] (t :: ts) (Call n args)); [constructor|exact G].
    + destruct tt; try discriminate. cbn in R. injection R as -> ->.
      destruct vs as [|[n| |] args]; try reflexivity. cbn [make_call].
      assert (Lt : List.length tail < fuel).
      { apply (f_equal (@List.length token)) in E. rewrite app_length in E. simpl in E, L. lia. }
      specialize (IH tail Lt). destruct (parse_loop fuel tail) as [cs|e|w].
      * rewrite E. inversion IH as [a b Gc|a b a' c Gc Gl]; subst.
        -- apply gs_trailing. apply (gp_cons pre (Call n args)); [exact G|exact Gc].
        -- change (pre ++ TComma :: a ++ a') with (pre ++ (TComma :: a) ++ a'). rewrite app_assoc.
           apply (gs_last _ (Call n args :: b)); [|exact Gl]. apply (gp_cons pre (Call n args)); assumption.
      * destruct IH as (next & -> & p & cs & pre' & vs' & t' & rest & -> & Gc & Gv & St & ->).
        exists (hd_error rest). split; [reflexivity|]. exists (pre ++ TComma :: p), (Call n args :: cs), pre', vs', t', rest.
        split; [rewrite E, <- app_assoc; reflexivity|]. split; [constructor; assumption|]. auto.
      * exact IH.
    + exfalso. destruct tt; try discriminate R. discriminate Ec.
  - destruct C as (pre & vs & tail & E & G & En & R).
    destruct tail as [|tt tail]; [discriminate|].
    exists (hd_error tail). split; [destruct tt; try discriminate R; injection R as <-; reflexivity|].
    exists [], [], pre, vs, tt, tail. split; [exact E|]. split; [constructor|]. split; [exact G|]. split; [|reflexivity].
    destruct tt; try discriminate R; exact En.
  - exact C.
Qed.

Lemma parse_ok ts cs : parse ts = Ok cs <-> g_script ts cs.
Proof.
  unfold parse. split.
  - intros H. pose proof (parse_loop_sound (S (List.length ts)) ts (Nat.lt_succ_diag_r _)) as K. rewrite H in K. exact K.
  - intros H. destruct H as [ts cs G|ts cs ts' c G C].
    + destruct (parse_loop_commas _ _ G (S (List.length ts)) []) as (f & _ & E); [rewrite app_nil_r; lia|].
      rewrite app_nil_r in E. rewrite E. destruct f; simpl; rewrite app_nil_r; reflexivity.
    + destruct (parse_loop_commas _ _ G (S (List.length (ts ++ ts'))) ts') as (f & L & E); [lia|].
      rewrite E, (parse_loop_last _ _ _ C L). reflexivity.
Qed.

Lemma parse_loop_stray fuel pre vs t rest : g_values pre vs -> stray t -> List.length (pre ++ t :: rest) < fuel ->
  parse_loop fuel (pre ++ t :: rest) = Err (WParse (hd_error rest)).
Proof.
  intros G St L. assert (En : ends (t :: rest)) by (destruct t; exact St || exact Logic.I).
  pose proof (call_complete _ _ G fuel (t :: rest) [] En L) as R.
  destruct fuel as [|fuel]; [lia|]. destruct (pre ++ t :: rest) as [|u l] eqn:E; [destruct pre; discriminate|].
  cbn [parse_loop]. rewrite R. destruct t; try destruct St; reflexivity.
Qed.

Lemma parse_err ts e : parse ts = Err e <-> exists next, e = WParse next /\ stray_in ts next.
Proof.
  unfold parse. split.
  - intros H. pose proof (parse_loop_sound (S (List.length ts)) ts (Nat.lt_succ_diag_r _)) as K. rewrite H in K. exact K.
  - intros (next & -> & p & cs & pre & vs & t & rest & -> & Gc & Gv & St & ->).
    destruct (parse_loop_commas _ _ Gc (S (List.length (p ++ pre ++ t :: rest))) (pre ++ t :: rest)) as (f & L & E); [lia|].
    rewrite E, (parse_loop_stray _ _ _ _ _ Gv St L). reflexivity.
Qed.

Lemma parse_panic ts w : parse ts = Panic w <->
  w = PTodo /\ (forall cs, ~ g_script ts cs) /\ (forall next, ~ stray_in ts next).
Proof.
  split.
  - intros H. split.
    + unfold parse in H. pose proof (parse_loop_sound (S (List.length ts)) ts (Nat.lt_succ_diag_r _)) as K. rewrite H in K. exact K.
    + split.
      * intros cs G. apply parse_ok in G. congruence.
      * intros next S. assert (parse ts = Err (WParse next)) by (apply parse_err; eauto). congruence.
  - intros (-> & N1 & N2). destruct (parse ts) as [cs|e|w] eqn:E.
    + exfalso. apply parse_ok in E. exact (N1 cs E).
    + exfalso. apply parse_err in E. destruct E as (next & _ & S). exact (N2 next S).
    + f_equal. unfold parse in E. pose proof (parse_loop_sound (S (List.length ts)) ts (Nat.lt_succ_diag_r _)) as K.
      rewrite E in K. exact K.
Qed.

(** ** Fuel *)

Lemma parse_fuel fuel ts : List.length ts < fuel -> parse_loop fuel ts = parse ts.
Proof.
  intros L. pose proof (parse_loop_sound fuel ts L) as K. destruct (parse_loop fuel ts) as [cs|e|w] eqn:E; symmetry.
  - apply parse_ok, K.
  - apply parse_err, K.
  - subst w. apply parse_panic. split; [reflexivity|].
    split.
    + intros cs G. assert (parse_loop fuel ts = Ok cs); [|congruence].
      clear E. destruct G as [ts cs G|ts cs ts' c G C].
      * destruct (parse_loop_commas _ _ G fuel []) as (f & _ & E); [rewrite app_nil_r; exact L|].
        rewrite app_nil_r in E. rewrite E. destruct f; simpl; rewrite app_nil_r; reflexivity.
      * destruct (parse_loop_commas _ _ G fuel ts' L) as (f & L' & E).
        rewrite E, (parse_loop_last _ _ _ C L'). reflexivity.
    + intros next (p & cs & pre & vs & t & rest & -> & Gc & Gv & St & ->).
      destruct (parse_loop_commas _ _ Gc fuel (pre ++ t :: rest) L) as (f & L' & E').
      rewrite (parse_loop_stray _ _ _ _ _ Gv St L') in E'. simpl in E'. congruence.
Qed.

Lemma parse_prefix p cs rest : g_commas p cs -> parse (p ++ rest) = prefixed cs (parse rest).
Proof.
  intros G. unfold parse at 1.
  destruct (parse_loop_commas _ _ G (S (List.length (p ++ rest))) rest) as (f & L & E); [lia|].
  rewrite E, (parse_fuel _ _ L). reflexivity.
Qed.

(** ** Composition *)

Lemma commas_end p cs : g_commas p cs -> p <> [] -> exists q, p = q ++ [TComma].
Proof.
  induction 1 as [|ts c ts' cs G H IH]; intros Ne; [congruence|].
  destruct ts' as [|t ts'].
  - exists ts. reflexivity.
  - destruct IH as [q Eq]; [discriminate|]. rewrite Eq. exists (ts ++ TComma :: q). rewrite <- app_assoc. reflexivity.
Qed.

Lemma commas_snoc p cs ts c : g_commas p cs -> g_call ts c -> g_commas (p ++ ts ++ [TComma]) (cs ++ [c]).
Proof.
  intros G C. induction G as [|us d us' ds Gd H IH]; simpl.
  - apply (gp_cons ts c [] []); [exact C|constructor].
  - rewrite <- app_assoc. cbn [app]. constructor; assumption.
Qed.

Lemma parse_comma t1 c1 t2 : t1 <> [] -> (forall q, t1 <> q ++ [TComma]) -> parse t1 = Ok c1 ->
  parse (t1 ++ [TComma] ++ t2) = prefixed c1 (parse t2).
Proof.
  intros Ne Nc H. apply parse_ok in H. rewrite app_assoc. apply parse_prefix. destruct H as [ts cs G|ts cs ts' c G C].
  - exfalso. destruct (commas_end _ _ G Ne) as [q Eq]. exact (Nc q Eq).
  - rewrite <- app_assoc. apply commas_snoc; assumption.
Qed.

Lemma g_script_unique ts cs cs' : g_script ts cs -> g_script ts cs' -> cs = cs'.
Proof. intros H H'. apply parse_ok in H, H'. congruence. Qed.

Lemma parse_no_fuel ts : parse ts <> Panic PFuel.
Proof. intros H. apply parse_panic in H. destruct H as [H _]. discriminate. Qed.

Lemma call_end_rest tail rest : call_end tail = Ok rest -> tail = [] /\ rest = [] \/ tail = TComma :: rest.
Proof. destruct tail as [|t tail]; simpl; [intros H; injection H; auto|]. destruct t; try discriminate. intros H. injection H as <-. auto. Qed.

Lemma helpers_terminate ts bound : List.length ts < bound ->
  (forall acc, read_network bound ts acc <> Panic PFuel
     /\ forall v rest, read_network bound ts acc = Ok (v, rest) -> exists used, used <> [] /\ ts = used ++ rest)
  /\ (forall acc, read_quote bound ts acc <> Panic PFuel
     /\ forall v rest, read_quote bound ts acc = Ok (v, rest) -> exists used, used <> [] /\ ts = used ++ rest)
  /\ (forall acc, read_call bound ts acc <> Panic PFuel
     /\ forall v rest, read_call bound ts acc = Ok (v, rest) -> ts <> [] -> exists used, used <> [] /\ ts = used ++ rest).
Proof.
  intros L. split; [|split]; intros acc.
  - split; [apply network_fuel; exact L|]. intros v rest H. apply network_sound in H.
    destruct H as (pre & es & E & N & _). exists pre. split; [|exact E]. apply network_nonempty in N. destruct pre; [simpl in N; lia|discriminate].
  - split.
    + intros H. apply quote_panic in H; [discriminate|exact L].
    + intros v rest H. apply quote_sound in H. destruct H as (pre & es & E & N & _). exists pre. split; [|exact E].
      apply quote_nonempty in N. destruct pre; [simpl in N; lia|discriminate].
  - pose proof (call_sound bound ts acc L) as C. split.
    + intros H. rewrite H in C. discriminate.
    + intros v rest H Ne. rewrite H in C. destruct C as (pre & vs & tail & E & G & En & R).
      assert (K : call_end tail = Ok rest) by (destruct (call_end tail); congruence).
      apply call_end_rest in K. destruct K as [[-> ->]| ->].
      * exists pre. rewrite app_nil_r in *. split; [congruence|exact E].
      * exists (pre ++ [TComma]). rewrite <- app_assoc. split; [destruct pre; discriminate|exact E].
Qed.

From Verif Require Import M_Display M_Interp S_Lexer P_Lexer P_LexMore.

Lemma run_outcomes (St : Type) (lig : lig_impl St) cs script (st : St) :
  (lex_fails script -> run lig cs script st = (Err (WErr (lit "Error tokenizing input.")), st))
  /\ (forall ts, tokenize_and_filter script = Ok ts ->
      (forall next, stray_in ts next -> run lig cs script st = (Err (WParse next), st))
      /\ ((forall calls, ~ g_script ts calls) -> (forall next, ~ stray_in ts next) ->
          run lig cs script st = (Panic PTodo, st))
      /\ (forall calls, g_script ts calls -> run lig cs script st = run_calls lig cs calls st)).
Proof.
  split.
  - intros F. unfold run, tokenize_and_filter.
    rewrite (proj2 (tokenize_err script tokenize_error) (conj eq_refl F)). reflexivity.
  - intros ts E. unfold run. rewrite E. split; [|split].
    + intros next S. rewrite (proj2 (parse_err ts (WParse next))) by eauto. reflexivity.
    + intros N1 N2. rewrite (proj2 (parse_panic ts PTodo)) by auto. reflexivity.
    + intros calls G. rewrite (proj2 (parse_ok _ _) G). reflexivity.
Qed.

Lemma texts_compose s1 t1 c1 s2 :
  tokenize_and_filter s1 = Ok t1 -> t1 <> [] -> (forall q, t1 <> q ++ [TComma]) -> parse t1 = Ok c1 ->
  forall t2, tokenize_and_filter s2 = Ok t2 ->
  exists ts, tokenize_and_filter (s1 ++ [10%N] ++ lit "," ++ [10%N] ++ s2) = Ok ts
    /\ parse ts = match parse t2 with Ok c2 => Ok (c1 ++ c2) | Err e => Err e | Panic w => Panic w end.
Proof.
  intros E1 Ne Nc P t2 E2. exists (t1 ++ [TComma] ++ t2). split; [|apply parse_comma; assumption].
  cbn [app]. rewrite (tokenize_and_filter_newline _ _ _ E1).
  assert (Ec : tokenize_and_filter (lit ",") = Ok [TComma]) by (vm_compute; reflexivity).
  change (lit "," ++ 10%N :: s2) with (lit "," ++ 10%N :: s2).
  rewrite (tokenize_and_filter_newline _ _ s2 Ec), E2. reflexivity.
Qed.
