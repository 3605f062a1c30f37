(** * Serialization: proofs *)
From Coq Require Import List NArith Bool Arith Lia String Permutation.
From Verif Require Import M_Base M_Data M_Mem M_Graph M_Regex M_Lexer M_Parser M_Display M_Interp M_Hosts M_Serde
  S_Order S_Lexer S_Display S_Json P_Ord P_Display.
Import ListNotations.
Open Scope list_scope.

(** ** Fields of objects *)

Lemma existsb_filter {A} (f : A -> bool) l : existsb f l = match filter f l with [] => false | _ => true end.
Proof. induction l as [|x l IH]; [reflexivity|]. cbn. destruct (f x); [reflexivity|exact IH]. Qed.

Lemma field_filter k m :
  field k m = match filter (fun p => str_eqb k (fst p)) m with [(_, v)] => Some v | _ => None end.
Proof.
  induction m as [|[k' v] m IH]; [reflexivity|]. cbn [field filter fst]. rewrite existsb_filter.
  destruct (str_eqb k k'); [|exact IH]. destruct (filter _ m); reflexivity.
Qed.

Lemma filter_perm {A} (f : A -> bool) l m : Permutation l m -> Permutation (filter f l) (filter f m).
Proof.
  induction 1 as [|x l m P IH|x y l|l m n P IH P' IH']; cbn.
  - constructor.
  - destruct (f x); [constructor|]; exact IH.
  - destruct (f x), (f y); solve [apply perm_swap | apply Permutation_refl].
  - eapply perm_trans; eassumption.
Qed.

Lemma filter_none {A} (f : A -> bool) l : (forall x, In x l -> f x = false) -> filter f l = [].
Proof.
  induction l as [|x l IH]; intros H; [reflexivity|]. cbn. rewrite (H x (or_introl eq_refl)). apply IH. intros y Hy. apply H. right. exact Hy.
Qed.

Lemma field_found k v fs extra m : filter (fun p => str_eqb k (fst p)) fs = [(k, v)] -> ~ In k (map fst extra) ->
  Permutation (fs ++ extra) m -> field k m = Some v.
Proof.
  intros F N P. rewrite field_filter. apply (filter_perm (fun p => str_eqb k (fst p))) in P.
  rewrite filter_app, F, (filter_none _ extra) in P.
  - cbn in P. apply Permutation_length_1_inv in P. rewrite P. reflexivity.
  - intros [k' v'] H. cbn. apply str_eqb_neq. intros ->. apply N. apply in_map_iff. exists (k', v'). auto.
Qed.

Lemma field_shape k v fs extra m : (forall k, In k (map fst fs) -> ~ In k (map fst extra)) -> Permutation (fs ++ extra) m ->
  filter (fun p => str_eqb k (fst p)) fs = [(k, v)] -> field k m = Some v.
Proof.
  intros N P F. apply (field_found k v fs extra m F); [|exact P]. apply N, in_map_iff. exists (k, v). split; [reflexivity|].
  assert (H : In (k, v) (filter (fun p => str_eqb k (fst p)) fs)) by (rewrite F; left; reflexivity).
  apply filter_In in H. apply H.
Qed.

(** ** Reading shapes *)

Lemma de_opt_shape o j : opt_shape o j -> de_opt j = Some o.
Proof. intros [[-> ->]|(s & -> & ->)]; reflexivity. Qed.

Lemma de_element_shape e j : element_shape e j -> de_element j = Some e.
Proof.
  intros (a & b & -> & A & B). apply de_opt_shape in A, B. cbn. rewrite A, B. destruct e. reflexivity.
Qed.

Lemma de_pair_shape mk e c je jc j : element_shape e je -> element_shape c jc ->
  struct_shape [(lit "element", je); (lit "concept", jc)] j -> de_pair mk j = Some (mk e c).
Proof.
  intros E C [(x & m & N & P & ->)| ->]; apply de_element_shape in E, C; unfold de_pair, fields2; [|cbn; rewrite E, C; reflexivity].
  rewrite (field_shape (lit "element") je _ x m N P) by reflexivity.
  rewrite (field_shape (lit "concept") jc _ x m N P) by reflexivity. rewrite E, C. reflexivity.
Qed.

Lemma de_entry_shape e j : entry_shape e j -> de_entry j = Some e.
Proof.
  destruct 1 as [f s r jf js jr j F S R [(x & m & N & P & ->)| ->]|e c je jc j E C O|e c je jc j E C O].
  - apply de_element_shape in F, S, R. unfold de_entry. cbn [str_eqb lit]. unfold fields3.
    replace (str_eqb (lit "Role") (lit "Role")) with true by reflexivity.
    rewrite (field_shape (lit "first") jf _ x m N P) by reflexivity.
    rewrite (field_shape (lit "second") js _ x m N P) by reflexivity.
    rewrite (field_shape (lit "role") jr _ x m N P) by reflexivity. rewrite F, S, R. reflexivity.
  - apply de_element_shape in F, S, R. cbn [map snd]. unfold de_entry, fields3. replace (str_eqb (lit "Role") (lit "Role")) with true by reflexivity.
    rewrite F, S, R. reflexivity.
  - apply (de_pair_shape Extends e c je jc j E C O).
  - apply (de_pair_shape NotExtends e c je jc j E C O).
Qed.

Lemma de_seq_shape {A} (R : A -> json -> Prop) de l js :
  (forall a j, In a l -> R a j -> de j = Some a) -> Forall2 R l js -> de_seq de js = Some l.
Proof.
  intros H F. induction F as [|a j l js Ha F IH]; [reflexivity|]. cbn. rewrite (H a j); [|left; reflexivity|exact Ha].
  change ((fix go (l0 : list json) : option (list A) := match l0 with [] => Some [] | j0 :: r => match de j0 with Some a0 => match go r with Some b => Some (a0 :: b) | None => None end | None => None end end) js) with (de_seq de js).
  rewrite IH; [reflexivity|]. intros b k Hb. apply H. right. exact Hb.
Qed.

Lemma de_value_shape : forall v j, value_shape v j -> de_value j = Some v.
Proof.
  intros v. induction v as [e|n|q IH] using value_ind'; intros j H; inversion H as [? k E|? l F|? es l S M F]; subst.
  - change (option_map VElement (de_element k) = Some (VElement e)). rewrite (de_element_shape e k E). reflexivity.
  - change (option_map (fun es => VNetwork (bs_collect entry_cmp es)) (de_seq de_entry l) = Some (VNetwork n)).
    rewrite (de_seq_shape entry_shape de_entry es l (fun a j _ => de_entry_shape a j) F). cbn. do 2 f_equal.
    apply (is_set_ext entry_order); [apply (is_set_collect entry_order)|exact S|].
    intros y. rewrite (in_bs_collect entry_order). symmetry. apply M.
  - change (option_map VQuote (de_seq de_value l) = Some (VQuote q)).
    rewrite (de_seq_shape value_shape de_value q l); [reflexivity| |exact F].
    rewrite Forall_forall in IH. intros a k Ha. apply IH, Ha.
Qed.

Lemma de_call_shape c j : call_shape c j -> de_call j = Some c.
Proof.
  destruct 1 as [n a jn l j E F [(x & m & N & P & ->)| ->]]; unfold de_call, fields2;
    [|cbn [map snd]; rewrite (de_element_shape n jn E), (de_seq_shape value_shape de_value a l (fun b j _ => de_value_shape b j) F); reflexivity].
  rewrite (field_shape (lit "name") jn _ x m N P) by reflexivity.
  rewrite (field_shape (lit "arguments") (JArr l) _ x m N P) by reflexivity.
  rewrite (de_element_shape n jn E), (de_seq_shape value_shape de_value a l (fun b j _ => de_value_shape b j) F). reflexivity.
Qed.

(** ** Nothing else is read *)
Lemma de_opt_only j o : de_opt j = Some o -> opt_shape o j.
Proof. destruct j; try discriminate; intros E; injection E as <-; [left|right; eexists]; auto. Qed.

Lemma de_element_only j e : de_element j = Some e -> element_shape e j.
Proof.
  destruct j as [| | | |l|]; try discriminate. destruct l as [|a [|b [|c [|]]]]; try discriminate. cbn.
  destruct (de_str a) as [n|] eqn:A; [|discriminate]. destruct (de_opt b) as [o|] eqn:B; [|discriminate]. destruct (de_opt c) as [o'|] eqn:C; [|discriminate].
  intros E. injection E as <-. destruct a; try discriminate. injection A as <-. exists b, c. cbn. auto using de_opt_only.
Qed.

Lemma field_only k m v : field k m = Some v -> exists m', Permutation ((k, v) :: m') m /\ ~ In k (map fst m')
  /\ forall k', k' <> k -> field k' m' = field k' m.
Proof.
  induction m as [|[k1 v1] m IH]; [discriminate|]. cbn [field]. destruct (str_eqb k k1) eqn:E.
  - apply str_eqb_eq in E as <-. destruct (existsb _ m) eqn:X; [discriminate|]. intros G. injection G as <-. exists m. split; [apply Permutation_refl|]. split.
    + intros H. apply in_map_iff in H as ([a b] & <- & H). rewrite <- not_true_iff_false, existsb_exists in X. apply X. exists (a, b). split; [exact H|apply str_eqb_refl].
    + intros k' N. cbn [field]. destruct (str_eqb k' k) eqn:E'; [apply str_eqb_eq in E'; contradiction|reflexivity].
  - intros G. destruct (IH G) as (m' & P & N & K). exists ((k1, v1) :: m'). split; [|split].
    + eapply perm_trans; [apply perm_swap|]. constructor. exact P.
    + cbn. intros [->|H]; [rewrite str_eqb_refl in E; discriminate|exact (N H)].
    + intros k' N'. cbn [field]. rewrite (K k' N'). destruct (str_eqb k' k1) eqn:E'; [|reflexivity].
      rewrite !existsb_filter. apply str_eqb_eq in E' as ->. apply (filter_perm (fun p => str_eqb k1 (fst p))) in P. cbn [filter fst] in P.
      destruct (str_eqb k1 k) eqn:E2; [apply str_eqb_eq in E2; contradiction|].
      apply Permutation_length in P. destruct (filter _ m'), (filter _ m); try discriminate P; reflexivity.
Qed.

Lemma fields_only fs : forall m, NoDup (map fst fs) -> Forall (fun p => field (fst p) m = Some (snd p)) fs -> object_shape fs (JObj m).
Proof.
  induction fs as [|[k v] fs IH]; intros m D F.
  - exists m, m. repeat split; [intros k []|apply Permutation_refl].
  - inversion D as [|? ? D1 D2]; subst. inversion F as [|? ? F1 F2]; subst. cbn [fst snd] in *. destruct (field_only k m v F1) as (m' & P & N & K).
    destruct (IH m' D2) as (x & m0 & X1 & X2 & E).
    { rewrite Forall_forall in *. intros p Hp. rewrite K; [apply F2, Hp|]. intros <-. apply D1, in_map, Hp. }
    injection E as <-. exists x, m. split; [|split; [|reflexivity]].
    + cbn. intros k' [<-|H]; [|apply X1, H]. intros H. apply N. apply (Permutation_map fst) in X2. eapply Permutation_in; [exact X2|].
      rewrite map_app. apply in_or_app. right. exact H.
    + cbn. eapply perm_trans; [|exact P]. constructor. exact X2.
Qed.

Lemma fields2_only a b j x y : a <> b -> fields2 a b j = Some (x, y) -> struct_shape [(a, x); (b, y)] j.
Proof.
  intros N. destruct j as [| | | |l|m]; try discriminate.
  - destruct l as [|u [|v [|]]]; try discriminate. intros E. injection E as -> ->. right. reflexivity.
  - cbn. destruct (field a m) as [u|] eqn:A; [|discriminate]. destruct (field b m) as [v|] eqn:B; [|discriminate]. intros E. injection E as -> ->.
    left. apply fields_only; [|repeat constructor; assumption]. cbn. repeat constructor; cbn; intuition.
Qed.

Lemma fields3_only a b c j x y z : NoDup [a; b; c] -> fields3 a b c j = Some (x, y, z) -> struct_shape [(a, x); (b, y); (c, z)] j.
Proof.
  intros N. destruct j as [| | | |l|m]; try discriminate.
  - destruct l as [|u [|v [|w [|]]]]; try discriminate. intros E. injection E as -> -> ->. right. reflexivity.
  - cbn. destruct (field a m) as [u|] eqn:A; [|discriminate]. destruct (field b m) as [v|] eqn:B; [|discriminate]. destruct (field c m) as [w|] eqn:C; [|discriminate].
    intros E. injection E as -> -> ->. left. apply fields_only; [exact N|repeat constructor; assumption].
Qed.

Lemma de_pair_only mk j en : de_pair mk j = Some en -> exists e c je jc, en = mk e c /\ element_shape e je /\ element_shape c jc
  /\ struct_shape [(lit "element", je); (lit "concept", jc)] j.
Proof.
  unfold de_pair. destruct (fields2 _ _ j) as [[x y]|] eqn:F; [|discriminate]. apply fields2_only in F; [|discriminate].
  destruct (de_element x) as [e|] eqn:X; [|discriminate]. destruct (de_element y) as [c|] eqn:Y; [|discriminate]. intros E. injection E as <-.
  apply de_element_only in X, Y. exists e, c, x, y. auto.
Qed.

Lemma de_entry_only j e : de_entry j = Some e -> entry_shape e j.
Proof.
  destruct j as [| | | | |m]; try discriminate. destruct m as [|[tag body] [|]]; try discriminate. unfold de_entry.
  destruct (str_eqb tag (lit "Role")) eqn:T1; [apply str_eqb_eq in T1 as ->|].
  - destruct (fields3 _ _ _ body) as [[[x y] z]|] eqn:F; [|discriminate]. apply fields3_only in F.
    2:{ repeat constructor; cbn; intuition; discriminate. }
    destruct (de_element x) as [f|] eqn:X; [|discriminate]. destruct (de_element y) as [s|] eqn:Y; [|discriminate]. destruct (de_element z) as [r|] eqn:Z; [|discriminate].
    intros E. injection E as <-. apply de_element_only in X, Y, Z. econstructor; eassumption.
  - destruct (str_eqb tag (lit "Extends")) eqn:T2; [apply str_eqb_eq in T2 as ->|].
    + intros E. apply de_pair_only in E as (a & c & ja & jc & -> & A & C & O). econstructor; eassumption.
    + destruct (str_eqb tag (lit "NotExtends")) eqn:T3; [apply str_eqb_eq in T3 as ->|discriminate].
      intros E. apply de_pair_only in E as (a & c & ja & jc & -> & A & C & O). econstructor; eassumption.
Qed.

Lemma de_seq_only {A} (R : A -> json -> Prop) de js : forall l,
  (forall a j, In j js -> de j = Some a -> R a j) -> de_seq de js = Some l -> Forall2 R l js.
Proof.
  induction js as [|j js IH]; intros l H E; cbn in E; [injection E as <-; constructor|].
  destruct (de j) as [a|] eqn:Ej; [|discriminate].
  change ((fix go (l0 : list json) : option (list A) := match l0 with [] => Some [] | j0 :: r => match de j0 with Some a0 => match go r with Some b => Some (a0 :: b) | None => None end | None => None end end) js) with (de_seq de js) in E.
  destruct (de_seq de js) as [b|] eqn:Eb; [|discriminate]. injection E as <-. constructor; [apply H; [left; reflexivity|exact Ej]|].
  apply IH; [|reflexivity]. intros c k Hk. apply H. right. exact Hk.
Qed.

(** ** Writing shapes *)

Lemma ser_opt_shape o : opt_shape o (ser_opt o).
Proof. destruct o as [s|]; [right; exists s; auto|left; auto]. Qed.

Lemma ser_element_shape e : element_shape e (ser_element e).
Proof. exists (ser_opt (el_ns e)), (ser_opt (el_lang e)). split; [reflexivity|]. split; apply ser_opt_shape. Qed.

Lemma object_same fs : object_shape fs (JObj fs).
Proof. exists [], fs. split; [intros k _ []|]. rewrite app_nil_r. split; [apply Permutation_refl|reflexivity]. Qed.

Lemma struct_same fs : struct_shape fs (JObj fs).
Proof. left. apply object_same. Qed.

Lemma ser_entry_shape e : entry_shape e (ser_entry e).
Proof. destruct e; econstructor; try apply ser_element_shape; apply struct_same. Qed.

Lemma Forall2_map_self {A B} (R : A -> B -> Prop) f l : (forall a, In a l -> R a (f a)) -> Forall2 R l (map f l).
Proof. induction l as [|a l IH]; intros H; constructor; [apply H; left; reflexivity|]. apply IH. intros b Hb. apply H. right. exact Hb. Qed.

Lemma ser_value_shape : forall v, proper v -> value_shape v (ser_value v).
Proof.
  intros v. induction v as [e|n|q IH] using value_ind'; intros P; inversion P as [?|? F|? S]; subst; cbn [ser_value].
  - constructor. apply ser_element_shape.
  - apply (vs_network n n); [exact S|intros x; tauto|]. apply Forall2_map_self. intros e _. apply ser_entry_shape.
  - constructor. apply Forall2_map_self. rewrite Forall_forall in IH, F. intros a Ha. apply IH; auto.
Qed.

Lemma ser_call_shape c : proper_call c -> call_shape c (ser_call c).
Proof.
  destruct c as [n a]. intros P. econstructor; [apply ser_element_shape| |apply struct_same].
  apply Forall2_map_self. unfold proper_call in P. rewrite Forall_forall in P. intros v Hv. apply ser_value_shape, P, Hv.
Qed.

(** ** Whatever is read is proper *)

Lemma json_ind' (P : json -> Prop) : P JNull -> (forall b, P (JBool b)) -> (forall t, P (JNum t)) -> (forall s, P (JStr s)) ->
  (forall l, Forall P l -> P (JArr l)) -> (forall m, Forall (fun p => P (snd p)) m -> P (JObj m)) -> forall j, P j.
Proof.
  intros H1 H2 H3 H4 H5 H6. fix IH 1. intros [|b|t|s|l|m]; [exact H1|apply H2|apply H3|apply H4| |].
  - apply H5. induction l as [|x l IHl]; constructor; [apply IH|exact IHl].
  - apply H6. induction m as [|[k x] m IHm]; constructor; [apply IH|exact IHm].
Qed.

Lemma de_seq_all {A} (de : json -> option A) (P : A -> Prop) : forall js l, de_seq de js = Some l ->
  (forall j a, In j js -> de j = Some a -> P a) -> Forall P l.
Proof.
  intros js. induction js as [|j js IH]; intros l E H; cbn in E; [injection E as <-; constructor|].
  destruct (de j) as [a|] eqn:Ea; [|discriminate].
  fold (de_seq de js) in E. destruct (de_seq de js) as [b|] eqn:Eb; [|discriminate]. injection E as <-.
  constructor; [eapply H; [left; reflexivity|exact Ea]|]. apply (IH b eq_refl). intros k c Hk. apply H. right. exact Hk.
Qed.

Fixpoint jdepth (j : json) : nat :=
  match j with
  | JArr l => S (fold_right (fun x n => Nat.max (jdepth x) n) 0 l)
  | JObj m => S (fold_right (fun p n => Nat.max (jdepth (snd p)) n) 0 m)
  | _ => 0
  end.

Lemma jdepth_in j l : In j l -> jdepth j < jdepth (JArr l).
Proof. cbn. induction l as [|x l IH]; intros []; cbn; [subst; lia|]. specialize (IH H). lia. Qed.

Lemma de_value_proper : forall n j v, jdepth j < n -> de_value j = Some v -> proper v.
Proof.
  intros n. induction n as [|n IH]; intros j v D E; [lia|].
  destruct j as [| | | | |[|[tag body] [|]]]; try discriminate. cbn [de_value] in E.
  destruct (str_eqb tag (lit "Element")).
  { destruct (de_element body); [|discriminate]. injection E as <-. constructor. }
  destruct (str_eqb tag (lit "Quote")).
  { destruct body as [| | | |l|]; try discriminate. destruct (de_seq de_value l) as [q|] eqn:Q; [|discriminate].
    injection E as <-. constructor. apply (de_seq_all de_value proper l q Q). intros k a Hk. apply IH.
    apply jdepth_in in Hk. cbn [jdepth fold_right snd] in D, Hk. lia. }
  destruct (str_eqb tag (lit "Network")); [|discriminate].
  destruct body as [| | | |l|]; try discriminate. destruct (de_seq de_entry l) as [es|]; [|discriminate].
  injection E as <-. constructor. apply (is_set_collect entry_order).
Qed.

Lemma de_value_only_n : forall n j v, jdepth j < n -> de_value j = Some v -> value_shape v j.
Proof.
  induction n as [|n IH]; intros j v L E; [lia|]. destruct j as [| | | | |m]; try discriminate. destruct m as [|[tag body] [|]]; try discriminate.
  cbn [de_value] in E. destruct (str_eqb tag (lit "Element")) eqn:T1; [apply str_eqb_eq in T1 as ->|].
  - destruct (de_element body) as [e|] eqn:B; [|discriminate]. injection E as <-. constructor. apply de_element_only, B.
  - destruct (str_eqb tag (lit "Quote")) eqn:T2; [apply str_eqb_eq in T2 as ->|].
    + destruct body as [| | | |l|]; try discriminate. change (option_map VQuote (de_seq de_value l) = Some v) in E.
      destruct (de_seq de_value l) as [q|] eqn:Q; [|discriminate]. injection E as <-. constructor.
      apply (de_seq_only value_shape de_value l q); [|exact Q]. intros a k Hk. apply IH.
      pose proof (jdepth_in k l Hk) as D. cbn in L, D. cbn. lia.
    + destruct (str_eqb tag (lit "Network")) eqn:T3; [apply str_eqb_eq in T3 as ->|discriminate].
      destruct body as [| | | |l|]; try discriminate. change (option_map (fun es => VNetwork (bs_collect entry_cmp es)) (de_seq de_entry l) = Some v) in E.
      destruct (de_seq de_entry l) as [es|] eqn:Q; [|discriminate]. injection E as <-.
      apply (vs_network _ es); [apply (is_set_collect entry_order)|intros y; apply (in_bs_collect entry_order)|].
      apply (de_seq_only entry_shape de_entry l es); [|exact Q]. intros a k _. apply de_entry_only.
Qed.

Lemma de_value_only j v : de_value j = Some v -> value_shape v j.
Proof. apply (de_value_only_n (S (jdepth j))). lia. Qed.

Lemma de_call_only j c : de_call j = Some c -> call_shape c j.
Proof.
  unfold de_call. destruct (fields2 _ _ j) as [[x y]|] eqn:F; [|discriminate]. apply fields2_only in F; [|discriminate].
  destruct y as [| | | |l|]; try discriminate. destruct (de_element x) as [n|] eqn:X; [|discriminate]. destruct (de_seq de_value l) as [a|] eqn:Q; [|discriminate].
  intros E. injection E as <-. econstructor; [apply de_element_only, X| |exact F].
  apply (de_seq_only value_shape de_value l a); [|exact Q]. intros b k _. apply de_value_only.
Qed.

Lemma de_proper j v : de_value j = Some v -> proper v.
Proof. apply (de_value_proper (S (jdepth j))). lia. Qed.

Lemma de_call_proper j c : de_call j = Some c -> proper_call c.
Proof.
  unfold de_call. destruct (fields2 _ _ j) as [[x [| | | |l|]]|]; try discriminate.
  destruct (de_element x); [|discriminate]. destruct (de_seq de_value l) as [a|] eqn:E; [|discriminate].
  intros H. injection H as <-. unfold proper_call. cbn. apply (de_seq_all de_value proper l a E).
  intros j0 v _. apply de_proper.
Qed.

(** ** Text *)

Fixpoint print_items (l : list json) : str :=
  match l with
  | [] => []
  | x :: r => json_print x ++ match r with [] => [] | _ :: _ => [44%N] end ++ print_items r
  end.
Fixpoint print_members (m : list (str * json)) : str :=
  match m with
  | [] => []
  | (k, x) :: r => json_string k ++ 58%N :: json_print x ++ match r with [] => [] | _ :: _ => [44%N] end ++ print_members r
  end.
Lemma print_arr l : json_print (JArr l) = 91%N :: print_items l ++ [93%N].
Proof. reflexivity. Qed.
Lemma print_obj m : json_print (JObj m) = 123%N :: print_members m ++ [125%N].
Proof. reflexivity. Qed.

(** Trees without numbers and booleans: all that is written. *)
Inductive plainj : json -> Prop :=
| pj_null : plainj JNull
| pj_str s : plainj (JStr s)
| pj_arr l : Forall plainj l -> plainj (JArr l)
| pj_obj m : Forall (fun p => plainj (snd p)) m -> plainj (JObj m).

Lemma blank_nil : blank [].
Proof. constructor. Qed.

Lemma json_string_means s : json_means (json_body s) s.
Proof. apply json_text_means, json_text_body. Qed.

Lemma print_denotes : forall j, plainj j -> denotes (json_print j) j.
Proof.
  intros j. induction j as [|b|t|s|l IH|m IH] using json_ind'; intros P; inversion P as [|?|? F|? F]; subst.
  - constructor.
  - constructor. apply json_string_means.
  - rewrite print_arr. destruct l as [|x l]; [apply (dn_arr0 []), blank_nil|]. apply dn_arr. clear P.
    revert x IH F. induction l as [|y l IHl]; intros x IH F; inversion IH; inversion F; subst; cbn [print_items].
    + cbn [app]. apply (it_last [] (json_print x) []); auto using blank_nil.
    + apply (it_more [] (json_print x) [] x _ (y :: l)); auto using blank_nil. apply (IHl y); assumption.
  - rewrite print_obj. destruct m as [|[k x] m]; [apply (dn_obj0 []), blank_nil|]. apply dn_obj. clear P.
    revert k x IH F. induction m as [|[k' y] m IHm]; intros k x IH F; inversion IH; inversion F; subst; cbn [print_members]; unfold json_string;
      cbn [app snd] in *; rewrite <- app_assoc; cbn [app].
    + apply (mb_last [] (json_body k) k [] [] (json_print x) []); auto using blank_nil, json_string_means.
    + apply (mb_more [] (json_body k) k [] [] (json_print x) [] x _ ((k', y) :: m)); auto using blank_nil, json_string_means. apply (IHm k' y); assumption.
Qed.

Lemma body_unique b s' s r r' : json_means b s' -> b ++ 34%N :: r' = json_body s ++ 34%N :: r -> s' = s /\ r' = r.
Proof.
  intros M E. assert (b = json_body s) as ->.
  { eapply body_prefix; [eapply json_means_body; exact M|apply json_body_string|exact E]. }
  apply app_inv_head in E. injection E as ->. split; [|reflexivity].
  eapply json_means_fun; [exact M|apply json_string_means].
Qed.

Definition startj (c : N) : Prop := In c [110; 34; 91; 123]%N.

Lemma print_head j : plainj j -> exists c x, json_print j = c :: x /\ startj c.
Proof. destruct 1; unfold startj; cbn; eexists _, _; (split; [reflexivity|tauto]). Qed.

(** Blanks before something that is not blank. *)
Lemma blank_head w c x d y : blank w -> ~ In d [32; 9; 10; 13]%N -> w ++ c :: x = d :: y -> w = [] /\ c = d /\ x = y.
Proof.
  intros B N E. destruct w as [|a w]; [injection E; auto|]. exfalso. injection E as -> _. inversion B; subst. auto.
Qed.

Lemma denotes_head t j : denotes t j -> exists c x, t = c :: x /\ In c [110; 34; 91; 123; 116; 102; 45; 48; 49; 50; 51; 52; 53; 54; 55; 56; 57]%N.
Proof.
  destruct 1 as [| | |t (c & x & -> & H & _)|b s _|w _|t l _|w _|t m _]; try (eexists _, _; (split; [reflexivity|cbn; tauto]); fail).
  exists c, x. split; [reflexivity|]. cbn.
  assert (c = 45 \/ c = 48 \/ c = 49 \/ c = 50 \/ c = 51 \/ c = 52 \/ c = 53 \/ c = 54 \/ c = 55 \/ c = 56 \/ c = 57)%N by lia. intuition.
Qed.

Lemma not_blank_start c : startj c -> ~ In c [32; 9; 10; 13]%N.
Proof. unfold startj. cbn. intuition congruence. Qed.

Definition reads_only (j : json) : Prop :=
  forall t j' r r', denotes t j' -> t ++ r' = json_print j ++ r -> j' = j /\ r' = r.

Lemma items_unique : forall l x, Forall plainj (x :: l) -> Forall reads_only (x :: l) ->
  forall u l' r r', items u l' -> u ++ 93%N :: r' = print_items (x :: l) ++ 93%N :: r -> l' = x :: l /\ r' = r.
Proof.
  intros l. induction l as [|y l IH]; intros x P R u l' r r' H E; inversion P as [|? ? Px Pl]; inversion R as [|? ? Rx Rl]; subst.
  - cbn [print_items app] in E. rewrite app_nil_r in E. destruct (print_head x Px) as (c & z & Ez & Sc).
    inversion H as [w t w' j B D B'|w t w' j u0 l0 B D B' I]; subst.
    + rewrite <- !app_assoc in E. destruct (denotes_head t j D) as (d & t' & -> & _).
      assert (w = []) as -> by (rewrite Ez in E; cbn [app] in E; apply (blank_head _ _ _ _ _ B (not_blank_start c Sc)) in E; apply E).
      destruct (Rx _ _ _ _ D E) as [-> E']. destruct w' as [|a w']; [injection E' as ->; auto|].
      exfalso. injection E' as -> _. inversion B' as [|? ? Ha _]. cbn in Ha. intuition congruence.
    + rewrite <- !app_assoc in E. destruct (denotes_head t j D) as (d & t' & -> & _).
      assert (w = []) as -> by (rewrite Ez in E; cbn [app] in E; apply (blank_head _ _ _ _ _ B (not_blank_start c Sc)) in E; apply E).
      destruct (Rx _ _ _ _ D E) as [-> E']. cbn [app] in E'.
      apply (blank_head _ _ _ _ _ B') in E'; [|cbn; intuition congruence]. destruct E' as (_ & E' & _). discriminate.
  - cbn [print_items] in E. rewrite <- !app_assoc in E. destruct (print_head x Px) as (c & z & Ez & Sc).
    inversion H as [w t w' j B D B'|w t w' j u0 l0 B D B' I]; subst.
    + rewrite <- !app_assoc in E. destruct (denotes_head t j D) as (d & t' & -> & _).
      assert (w = []) as -> by (rewrite Ez in E; cbn [app] in E; apply (blank_head _ _ _ _ _ B (not_blank_start c Sc)) in E; apply E).
      destruct (Rx _ _ _ _ D E) as [-> E']. cbn [app] in E'.
      apply (blank_head _ _ _ _ _ B') in E'; [|cbn; intuition congruence]. destruct E' as (_ & E' & _). discriminate.
    + rewrite <- !app_assoc in E. destruct (denotes_head t j D) as (d & t' & -> & _).
      assert (w = []) as -> by (rewrite Ez in E; cbn [app] in E; apply (blank_head _ _ _ _ _ B (not_blank_start c Sc)) in E; apply E).
      destruct (Rx _ _ _ _ D E) as [-> E']. cbn [app] in E'. cbn [app] in E'.
      apply (blank_head _ _ _ _ _ B') in E'; [|cbn; intuition congruence]. destruct E' as (-> & _ & E').
      destruct (IH y Pl Rl u0 l0 r r' I) as [-> ->]; [|auto]. rewrite E'. cbn [print_items]. rewrite <- !app_assoc. reflexivity.
Qed.

Lemma member_head w b k k' w1 w2 t j x r r' : plainj x -> reads_only x ->
  blank w -> json_means b k -> blank w1 -> blank w2 -> denotes t j ->
  (w ++ 34%N :: b ++ 34%N :: w1 ++ 58%N :: w2 ++ t ++ r') = json_string k' ++ 58%N :: json_print x ++ r ->
  k = k' /\ j = x /\ r' = r.
Proof.
  intros Px Rx B M B1 B2 D E. unfold json_string in E. cbn [app] in E.
  apply (blank_head _ _ _ _ _ B) in E; [|cbn; intuition congruence]. destruct E as (-> & _ & E).
  rewrite <- app_assoc in E. cbn [app] in E.
  destruct (body_unique b k k' _ _ M E) as [-> E'].
  apply (blank_head _ _ _ _ _ B1) in E'; [|cbn; intuition congruence]. destruct E' as (-> & _ & E').
  destruct (denotes_head t j D) as (d & t' & -> & _). destruct (print_head x Px) as (c & z & Ez & Sc).
  assert (w2 = []) as -> by (rewrite Ez in E'; cbn [app] in E'; apply (blank_head _ _ _ _ _ B2 (not_blank_start c Sc)) in E'; apply E').
  destruct (Rx _ _ _ _ D E') as [-> ->]. auto.
Qed.

Lemma members_unique : forall m k x, Forall (fun p => plainj (snd p)) ((k, x) :: m) -> Forall (fun p => reads_only (snd p)) ((k, x) :: m) ->
  forall u m' r r', members u m' -> u ++ 125%N :: r' = print_members ((k, x) :: m) ++ 125%N :: r -> m' = (k, x) :: m /\ r' = r.
Proof.
  intros m. induction m as [|[k2 y] m IH]; intros k x P R u m' r r' H E; inversion P as [|? ? Px Pl]; inversion R as [|? ? Rx Rl]; subst; cbn [snd] in Px, Rx.
  - cbn [print_members app] in E. rewrite app_nil_r in E. rewrite <- !app_assoc in E. cbn [app] in E.
    inversion H as [w b k' w1 w2 t w3 j B M B1 B2 D B3|w b k' w1 w2 t w3 j u0 m0 B M B1 B2 D B3 I]; subst; repeat (rewrite <- ?app_assoc in E; cbn [app] in E).
    + destruct (member_head _ _ _ _ _ _ _ _ _ _ _ Px Rx B M B1 B2 D E) as (-> & -> & E').
      destruct w3 as [|a w3]; [injection E' as ->; auto|].
      exfalso. injection E' as -> _. inversion B3 as [|? ? Ha _]. cbn in Ha. intuition congruence.
    + destruct (member_head _ _ _ _ _ _ _ _ _ _ _ Px Rx B M B1 B2 D E) as (-> & -> & E').
      apply (blank_head _ _ _ _ _ B3) in E'; [|cbn; intuition congruence]. destruct E' as (_ & E' & _). discriminate.
  - cbn [print_members] in E. repeat (rewrite <- ?app_assoc in E; cbn [app] in E).
    inversion H as [w b k' w1 w2 t w3 j B M B1 B2 D B3|w b k' w1 w2 t w3 j u0 m0 B M B1 B2 D B3 I]; subst; repeat (rewrite <- ?app_assoc in E; cbn [app] in E).
    + destruct (member_head _ _ _ _ _ _ _ _ _ _ _ Px Rx B M B1 B2 D E) as (-> & -> & E').
      apply (blank_head _ _ _ _ _ B3) in E'; [|cbn; intuition congruence]. destruct E' as (_ & E' & _). discriminate.
    + destruct (member_head _ _ _ _ _ _ _ _ _ _ _ Px Rx B M B1 B2 D E) as (-> & -> & E').
      apply (blank_head _ _ _ _ _ B3) in E'; [|cbn; intuition congruence]. destruct E' as (-> & _ & E').
      destruct (IH k2 y Pl Rl u0 m0 r r' I) as [-> ->]; [|auto]. rewrite E'. cbn [print_members].
      repeat (rewrite <- ?app_assoc; cbn [app]). reflexivity.
Qed.

Lemma print_unique : forall j, plainj j -> reads_only j.
Proof.
  intros j. induction j as [|b|t|s|l IH|m IH] using json_ind'; intros P; inversion P as [|?|? F|? F]; subst; intros t j' r r' D E.
  - destruct (denotes_head t j' D) as (d & t' & -> & Hd). cbn in E.
    inversion D as [Ht| | |? (c & x & Ec & Hc & _)|b s M|w B|u l I|w B|u m I]; subst; try discriminate.
    + split; [reflexivity|]. apply (app_inv_head (lit "null")). exact E.
    + injection Ec as <- <-. injection E as -> _. exfalso. lia.
  - unfold json_print, json_string in E. cbn [app] in E.
    inversion D as [Ht| | |? (c & x & Ec & Hc & _)|b s' M|w B|u l I|w B|u m I]; subst; try discriminate.
    + injection E as -> _. exfalso. lia.
    + cbn [app] in E. injection E as E. rewrite <- !app_assoc in E. cbn [app] in E.
      destruct (body_unique b s' s r r' M E) as [-> ->]. auto.
  - rewrite print_arr in E. cbn [app] in E. rewrite <- app_assoc in E. cbn [app] in E.
    assert (A : Forall reads_only l) by (rewrite Forall_forall in *; auto).
    inversion D as [Ht| | |? (c & x & Ec & Hc & _)|b s' M|w B|u l' I|w B|u m I]; subst; try discriminate.
    + injection E as -> _. exfalso. lia.
    + cbn [app] in E. injection E as E. rewrite <- !app_assoc in E. cbn [app] in E. destruct l as [|x l].
      * cbn in E. apply (blank_head _ _ _ _ _ B) in E; [|cbn; intuition congruence]. destruct E as (_ & _ & ->). auto.
      * exfalso. inversion F as [|? ? Px ?]; subst. destruct (print_head x Px) as (c & z & Ez & Sc). cbn [print_items] in E. rewrite Ez in E. cbn [app] in E.
        apply (blank_head _ _ _ _ _ B (not_blank_start c Sc)) in E. destruct E as (_ & <- & _). unfold startj in Sc. cbn in Sc. intuition congruence.
    + cbn [app] in E. injection E as E. rewrite <- !app_assoc in E. cbn [app] in E. destruct l as [|x l].
      * exfalso. cbn in E. inversion I as [w t w' j B D' B'|w t w' j u0 l0 B D' B' I']; subst;
          destruct (denotes_head t j D') as (d & t' & -> & Hd); rewrite <- !app_assoc in E; cbn [app] in E;
          (apply (blank_head _ _ _ _ _ B) in E; [|cbn; intuition congruence]); destruct E as (_ & -> & _); cbn in Hd; intuition congruence.
      * destruct (items_unique l x F A u l' r r' I E) as [-> ->]. auto.
  - rewrite print_obj in E. cbn [app] in E. rewrite <- app_assoc in E. cbn [app] in E.
    assert (A : Forall (fun p => reads_only (snd p)) m) by (rewrite Forall_forall in *; auto).
    inversion D as [Ht| | |? (c & x & Ec & Hc & _)|b s' M|w B|u l' I|w B|u m' I]; subst; try discriminate.
    + injection E as -> _. exfalso. lia.
    + cbn [app] in E. injection E as E. rewrite <- !app_assoc in E. cbn [app] in E. destruct m as [|[k x] m].
      * cbn in E. apply (blank_head _ _ _ _ _ B) in E; [|cbn; intuition congruence]. destruct E as (_ & _ & ->). auto.
      * exfalso. cbn [print_members] in E. unfold json_string in E. cbn [app] in E.
        apply (blank_head _ _ _ _ _ B) in E; [|cbn; intuition congruence]. destruct E as (_ & E & _). discriminate.
    + cbn [app] in E. injection E as E. rewrite <- !app_assoc in E. cbn [app] in E. destruct m as [|[k x] m].
      * exfalso. cbn in E.
        inversion I as [w b k' w1 w2 t w3 j B M B1 B2 D' B3|w b k' w1 w2 t w3 j u0 m0 B M B1 B2 D' B3 I']; subst; rewrite <- !app_assoc in E; cbn [app] in E;
          (apply (blank_head _ _ _ _ _ B) in E; [|cbn; intuition congruence]); destruct E as (_ & E & _); discriminate.
      * destruct (members_unique m k x F A u m' r r' I E) as [-> ->]. auto.
Qed.

Lemma document_unique j j' : plainj j -> document (json_print j) j' -> j' = j.
Proof.
  intros P (w & u & w' & E & B & D & B'). destruct (print_head j P) as (c & z & Ez & Sc).
  destruct (denotes_head u j' D) as (d & t & -> & _).
  assert (w = []) as -> by (rewrite Ez in E; symmetry in E; cbn [app] in E; apply (blank_head _ _ _ _ _ B (not_blank_start c Sc)) in E; apply E).
  cbn [app] in E. rewrite <- (app_nil_r (json_print j)) in E. symmetry in E. apply (print_unique j P _ _ _ _ D E).
Qed.

Lemma plain_opt o : plainj (ser_opt o).
Proof. destruct o; constructor. Qed.
Lemma plain_element_json e : plainj (ser_element e).
Proof. repeat constructor; apply plain_opt. Qed.
Lemma plain_entry_json e : plainj (ser_entry e).
Proof. destruct e; repeat constructor; cbn [snd]; apply plain_opt. Qed.
Lemma plain_value_json v : plainj (ser_value v).
Proof.
  induction v as [e|n|q IH] using value_ind'; cbn [ser_value]; constructor; (constructor; [|constructor]); cbn [snd].
  - apply plain_element_json.
  - constructor. apply Forall_forall. intros j H. apply in_map_iff in H as (e & <- & _). apply plain_entry_json.
  - constructor. rewrite Forall_forall in *. intros j H. apply in_map_iff in H as (v & <- & Hv). apply IH, Hv.
Qed.
Lemma plain_call_json c : plainj (ser_call c).
Proof.
  constructor. constructor; [apply plain_element_json|]. constructor; [|constructor]. cbn [snd].
  constructor. apply Forall_forall. intros j H. apply in_map_iff in H as (v & <- & _). apply plain_value_json.
Qed.

Lemma document_print j : plainj j -> document (json_print j) j.
Proof.
  intros P. exists [], (json_print j), []. rewrite app_nil_r. split; [reflexivity|]. split; [apply blank_nil|]. split; [apply print_denotes, P|apply blank_nil].
Qed.
