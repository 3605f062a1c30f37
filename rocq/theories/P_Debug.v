(** * Proofs about the [{:?}] texts *)
From Coq Require Import List Arith NArith Bool String Lia.
From Verif Require Import M_Base M_Data M_Regex M_Lexer M_Display M_Debug S_Str P_Bytes.
Import ListNotations.
Open Scope list_scope.

Definition hexval (l : list N) : N := fold_left (fun acc d => acc * 16 + d)%N l 0%N.

Lemma strip_val l : hexval (strip_zeros l) = hexval l.
Proof.
  unfold hexval. induction l as [|d r IH]; [reflexivity|]. cbn [strip_zeros]. destruct r as [|e r']; [reflexivity|].
  destruct (N.eqb_spec d 0) as [->|]; [|reflexivity]. rewrite IH. reflexivity.
Qed.

Lemma digits_val c : (c < 16 ^ 6)%N -> hexval (hex_digits c) = c.
Proof.
  intros H. unfold hexval, hex_digits. cbn [map fold_left].
  change (16 ^ 0)%N with 1%N. change (16 ^ 1)%N with 16%N. change (16 ^ 2)%N with (16 * 16)%N.
  change (16 ^ 3)%N with (16 * 16 * 16)%N. change (16 ^ 4)%N with (16 * 16 * 16 * 16)%N.
  change (16 ^ 5)%N with (16 * 16 * 16 * 16 * 16)%N.
  rewrite <- !N.div_div by lia. rewrite N.div_1_r.
  pose proof (N.div_mod c 16 ltac:(lia)) as E0. set (c1 := (c / 16)%N) in *.
  pose proof (N.div_mod c1 16 ltac:(lia)) as E1. set (c2 := (c1 / 16)%N) in *.
  pose proof (N.div_mod c2 16 ltac:(lia)) as E2. set (c3 := (c2 / 16)%N) in *.
  pose proof (N.div_mod c3 16 ltac:(lia)) as E3. set (c4 := (c3 / 16)%N) in *.
  pose proof (N.div_mod c4 16 ltac:(lia)) as E4. set (c5 := (c4 / 16)%N) in *.
  pose proof (N.mod_lt c 16 ltac:(lia)). pose proof (N.mod_lt c1 16 ltac:(lia)). pose proof (N.mod_lt c2 16 ltac:(lia)).
  pose proof (N.mod_lt c3 16 ltac:(lia)). pose proof (N.mod_lt c4 16 ltac:(lia)).
  assert (H5 : (c5 < 16)%N).
  { clearbody c5 c4 c3 c2 c1. change (16 ^ 6)%N with 16777216%N in H. clear -H E0 E1 E2 E3 E4.
    set (r0 := (c mod 16)%N) in *. set (r1 := (c1 mod 16)%N) in *. set (r2 := (c2 mod 16)%N) in *. set (r3 := (c3 mod 16)%N) in *. set (r4 := (c4 mod 16)%N) in *.
    clearbody r0 r1 r2 r3 r4. lia. }
  rewrite (N.mod_small c5 16) by assumption. lia.
Qed.

Lemma hex_digits_small c : Forall (fun d => (d < 16)%N) (hex_digits c).
Proof. unfold hex_digits. repeat constructor; apply N.mod_lt; lia. Qed.

Lemma strip_small l : Forall (fun d => (d < 16)%N) l -> Forall (fun d => (d < 16)%N) (strip_zeros l).
Proof.
  induction 1 as [|d r Hd Hr IH]; [constructor|]. cbn [strip_zeros]. destruct r as [|e r']; [repeat constructor; assumption|].
  destruct (N.eqb d 0); [exact IH|constructor; assumption].
Qed.

Lemma hex_digit_inj a b : (a < 16)%N -> (b < 16)%N -> hex_digit a = hex_digit b -> a = b.
Proof. unfold hex_digit. destruct (N.ltb_spec a 10), (N.ltb_spec b 10); lia. Qed.

Lemma map_hex_inj l : forall l', Forall (fun d => (d < 16)%N) l -> Forall (fun d => (d < 16)%N) l' ->
  map hex_digit l = map hex_digit l' -> l = l'.
Proof.
  induction l as [|a l IH]; intros [|b l'] H H' E; try discriminate; [reflexivity|].
  inversion H; inversion H'; subst. injection E as E1 E2. f_equal; [apply hex_digit_inj; assumption|apply IH; assumption].
Qed.

Lemma hex_inj a b : (a < 16 ^ 6)%N -> (b < 16 ^ 6)%N -> hex a = hex b -> a = b.
Proof.
  intros Ha Hb E. apply map_hex_inj in E; [|apply strip_small, hex_digits_small..].
  rewrite <- (digits_val a Ha), <- (digits_val b Hb), <- (strip_val (hex_digits a)), <- (strip_val (hex_digits b)), E. reflexivity.
Qed.

Lemma hex_chars c d : In d (hex c) -> (48 <= d <= 57 \/ 97 <= d <= 102)%N.
Proof.
  intros H. apply in_map_iff in H as (k & <- & H). pose proof (strip_small _ (hex_digits_small c)) as F.
  rewrite Forall_forall in F. specialize (F k H). cbn in F. unfold hex_digit. destruct (N.ltb_spec k 10); lia.
Qed.

(** Two texts up to a common end mark that occurs in neither. *)
Lemma marked (m : N) a : forall b x y, ~ In m a -> ~ In m b -> a ++ m :: x = b ++ m :: y -> a = b /\ x = y.
Proof.
  induction a as [|c a IH]; intros [|d b] x y Ha Hb E; cbn in E.
  - injection E as ->. auto.
  - injection E as -> _. destruct Hb. left. reflexivity.
  - injection E as <- _. destruct Ha. left. reflexivity.
  - injection E as <- E. destruct (IH b x y) as [-> ->]; auto; intros H; [apply Ha|apply Hb]; right; exact H.
Qed.

Section Debug.
  Variable shown : N -> bool.
  Notation dchar := (debug_char shown).
  Notation dstr := (debug_str shown).

  (** What one character becomes. *)
  Inductive shape : N -> str -> Prop :=
  | sh_plain c : c <> 92%N -> c <> 34%N -> (32 <= c)%N -> shape c [c]
  | sh_short c d : In (c, d) [(0, 48); (9, 116); (10, 110); (13, 114); (34, 34); (92, 92)]%N -> shape c [92%N; d]
  | sh_hex c : shape c ([92; 117; 123]%N ++ hex c ++ [125]%N).

  Lemma dchar_shape c : shape c (dchar c).
  Proof.
    unfold debug_char.
    repeat match goal with |- context [if N.eqb ?a ?b then _ else _] => destruct (N.eqb_spec a b) as [->|]; [constructor; simpl; tauto|] end.
    destruct ((N.leb 32 c && N.leb c 126) || (N.leb 128 c && shown c)) eqn:E; [|constructor].
    constructor; try assumption. apply orb_true_iff in E as [E|E]; apply andb_true_iff in E as [E _]; apply N.leb_le in E; lia.
  Qed.

  Lemma shape_inj a b s x y : shape a s -> forall u, shape b u -> (a < 16 ^ 6)%N -> (b < 16 ^ 6)%N -> s ++ x = u ++ y -> a = b /\ x = y.
  Proof.
    intros Ha u Hb Va Vb E.
    destruct Ha as [a H1 H2 H3|a d Hd|a], Hb as [b K1 K2 K3|b e He|b]; cbn [app] in E.
    - injection E as -> ->. auto.
    - injection E as -> _. congruence.
    - injection E as -> _. congruence.
    - injection E as <- _. congruence.
    - injection E as <- ->. split; [|reflexivity].
      simpl in Hd, He. repeat (destruct Hd as [Hd|Hd]; [injection Hd as <- <-;
        repeat (destruct He as [He|He]; [try discriminate; injection He as <-; reflexivity|]); destruct He|]). destruct Hd.
    - injection E as -> _. exfalso. simpl in Hd. repeat (destruct Hd as [Hd|Hd]; [discriminate|]). destruct Hd.
    - injection E as <- _. congruence.
    - injection E as <- _. exfalso. simpl in He. repeat (destruct He as [He|He]; [discriminate|]). destruct He.
    - injection E as E. rewrite <- !app_assoc in E. apply marked in E as [E ->].
      + split; [|reflexivity]. apply hex_inj; assumption.
      + intros H. apply hex_chars in H. lia.
      + intros H. apply hex_chars in H. lia.
  Qed.

  Lemma dbody_inj s : forall t x y, Forall (fun c => (c < 16 ^ 6)%N) s -> Forall (fun c => (c < 16 ^ 6)%N) t ->
    flat_map dchar s ++ 34%N :: x = flat_map dchar t ++ 34%N :: y -> s = t /\ x = y.
  Proof.
    assert (Q : forall c w z, shape c w -> exists k v, w ++ z = k :: v /\ k <> 34%N).
    { intros c w z [c' H1 H2 H3|c' d H|c']; cbn; eexists; eexists; (split; [reflexivity|]); try discriminate. exact H2. }
    induction s as [|c s IH]; intros [|d t] x y Hs Ht E; cbn [flat_map app] in E.
    - injection E as ->. auto.
    - rewrite <- app_assoc in E. destruct (Q d (dchar d) (flat_map dchar t ++ 34%N :: y) (dchar_shape d)) as (k & v & Ek & Hk).
      rewrite Ek in E. injection E as <- _. congruence.
    - rewrite <- app_assoc in E. destruct (Q c (dchar c) (flat_map dchar s ++ 34%N :: x) (dchar_shape c)) as (k & v & Ek & Hk).
      rewrite Ek in E. injection E as -> _. congruence.
    - inversion Hs; inversion Ht; subst. rewrite <- !app_assoc in E.
      destruct (shape_inj c d _ _ _ (dchar_shape c) _ (dchar_shape d) ltac:(assumption) ltac:(assumption) E) as [-> E2].
      destruct (IH t x y ltac:(assumption) ltac:(assumption) E2) as [-> ->]. auto.
  Qed.

  Lemma dstr_app_inj s t x y : Forall (fun c => (c < 16 ^ 6)%N) s -> Forall (fun c => (c < 16 ^ 6)%N) t ->
    dstr s ++ x = dstr t ++ y -> s = t /\ x = y.
  Proof.
    intros Hs Ht E. unfold debug_str in E. cbn [app] in E. injection E as E. rewrite <- !app_assoc in E. exact (dbody_inj _ _ _ _ Hs Ht E).
  Qed.

  Lemma valid_small s : valid_str s -> Forall (fun c => (c < 16 ^ 6)%N) s.
  Proof. apply Forall_impl. intros c [H|[_ H]]; change (16 ^ 6)%N with 16777216%N; lia. Qed.

  Lemma dstr_inj s t : valid_str s -> valid_str t -> dstr s = dstr t -> s = t.
  Proof.
    intros Hs Ht E. apply (dstr_app_inj s t [] []); [apply valid_small; assumption..|]. rewrite !app_nil_r. exact E.
  Qed.

  (** No control characters, so one line; and text if the string is. *)
  Lemma dchar_chars c d : In d (dchar c) -> (32 <= d)%N.
  Proof.
    intros H. destruct (dchar_shape c) as [c' H1 H2 H3|c' e He|c'].
    - destruct H as [<-|[]]. exact H3.
    - destruct H as [<-|[<-|[]]]; [lia|]. simpl in He. repeat (destruct He as [He|He]; [injection He as _ <-; lia|]). destruct He.
    - apply in_app_or in H as [H|H]; [destruct H as [<-|[<-|[<-|[]]]]; lia|].
      apply in_app_or in H as [H|[<-|[]]]; [|lia]. apply hex_chars in H. lia.
  Qed.

  Lemma dstr_chars s d : In d (dstr s) -> (32 <= d)%N.
  Proof.
    intros [<-|H]; [lia|]. apply in_app_or in H as [H|[<-|[]]]; [|lia]. apply in_flat_map in H as (c & _ & H). exact (dchar_chars c d H).
  Qed.

  Lemma dstr_valid s : valid_str s -> valid_str (dstr s).
  Proof.
    intros V. constructor; [left; lia|]. apply valid_app; [|repeat constructor; lia].
    induction V as [|c s Hc _ IH]; [constructor|]. cbn [flat_map]. apply valid_app; [|exact IH].
    destruct (dchar_shape c) as [c' H1 H2 H3|c' e He|c'].
    - constructor; [exact Hc|constructor].
    - apply ascii_valid. simpl in He. repeat (destruct He as [He|He]; [injection He as _ <-; repeat constructor; lia|]). destruct He.
    - apply ascii_valid. apply Forall_forall. intros x Hx.
      apply in_app_or in Hx as [Hx|Hx]; [destruct Hx as [<-|[<-|[<-|[]]]]; lia|].
      apply in_app_or in Hx as [Hx|[<-|[]]]; [|lia]. apply hex_chars in Hx. lia.
  Qed.

  (** *** Tokens *)
  Definition valid_opt (o : option str) : Prop := match o with Some s => valid_str s | None => True end.
  Definition valid_token (t : token) : Prop :=
    match t with
    | TWS s | TString s | TComment s => valid_str s
    | TElement e => valid_str (el_name e) /\ valid_opt (el_ns e) /\ valid_opt (el_lang e)
    | _ => True
    end.
  Definition valid_peek (o : option token) : Prop := match o with Some t => valid_token t | None => True end.

  Lemma dopt_inj ty o o' x y : valid_opt o -> valid_opt o' -> debug_opt shown ty o ++ x = debug_opt shown ty o' ++ y -> o = o' /\ x = y.
  Proof.
    intros V V' E. unfold debug_opt in E. destruct o as [s|], o' as [s'|].
    - rewrite <- !app_assoc in E. apply app_inv_head in E. apply app_inv_head in E. apply app_inv_head in E.
      apply dstr_app_inj in E as [-> E]; [|apply valid_small; assumption..]. apply app_inv_head in E as ->. auto.
    - discriminate E.
    - discriminate E.
    - apply app_inv_head in E as ->. auto.
  Qed.

  Lemma delement_inj e e' x y : valid_token (TElement e) -> valid_token (TElement e') ->
    debug_element shown e ++ x = debug_element shown e' ++ y -> e = e' /\ x = y.
  Proof.
    intros (V1 & V2 & V3) (W1 & W2 & W3) E. unfold debug_element in E. rewrite <- !app_assoc in E. apply app_inv_head in E.
    apply dstr_app_inj in E as [E1 E]; [|apply valid_small; assumption..]. apply app_inv_head in E.
    apply dopt_inj in E as [E2 E]; [|assumption..]. apply app_inv_head in E.
    apply dopt_inj in E as [E3 E]; [|assumption..]. apply app_inv_head in E as ->.
    destruct e, e'. cbn in *. subst. auto.
  Qed.

  Lemma dtoken_inj t t' : valid_token t -> valid_token t' -> debug_token shown t ++ lit ")" = debug_token shown t' ++ lit ")" -> t = t'.
  Proof.
    intros V V' E. apply app_inv_tail in E.
    destruct t, t'; cbn [debug_token] in E; try reflexivity; try discriminate E;
      apply app_inv_head in E.
    1-2,4: apply dstr_app_inj in E as [-> _]; [reflexivity|apply valid_small; assumption..].
    apply delement_inj in E as [-> _]; [reflexivity|assumption..].
  Qed.

  Lemma dpeek_inj o o' : valid_peek o -> valid_peek o' -> debug_peek shown o = debug_peek shown o' -> o = o'.
  Proof.
    intros V V' E. destruct o as [t|], o' as [t'|]; cbn [debug_peek] in E; try discriminate E; [|reflexivity].
    apply app_inv_head in E. f_equal. apply dtoken_inj; assumption.
  Qed.

  Lemma dopt_valid ty o : valid_str ty -> valid_opt o -> valid_str (debug_opt shown ty o).
  Proof.
    intros T V. destruct o as [s|]; cbn [debug_opt]; [|apply lit_valid]. repeat apply valid_app; try apply lit_valid; [exact T|apply dstr_valid, V].
  Qed.

  Lemma delement_valid e : valid_token (TElement e) -> valid_str (debug_element shown e).
  Proof.
    intros (V1 & V2 & V3). unfold debug_element.
    apply valid_app; [apply lit_valid|]. apply valid_app; [apply dstr_valid, V1|]. apply valid_app; [apply lit_valid|].
    apply valid_app; [apply dopt_valid; [apply lit_valid|exact V2]|]. apply valid_app; [apply lit_valid|].
    apply valid_app; [apply dopt_valid; [apply lit_valid|exact V3]|]. apply lit_valid.
  Qed.

  Lemma dpeek_valid o : valid_peek o -> valid_str (debug_peek shown o).
  Proof.
    intros V. destruct o as [t|]; [|apply lit_valid]. cbn [debug_peek]. apply valid_app; [apply lit_valid|]. apply valid_app; [|apply lit_valid].
    destruct t; cbn [debug_token]; try apply lit_valid; (apply valid_app; [apply lit_valid|]); (apply valid_app; [|apply lit_valid]);
      first [apply dstr_valid; exact V|apply delement_valid; exact V].
  Qed.
End Debug.
