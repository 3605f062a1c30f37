(** * LMDB row keys: proofs *)
From Coq Require Import List Arith NArith Bool Lia.
From Verif Require Import M_Base M_Data M_Heed S_Order P_Ord S_Codec.
Import ListNotations.
Open Scope list_scope.

Arguments N.add : simpl never.
Arguments N.mul : simpl never.
Arguments N.pow : simpl never.
Arguments N.div : simpl never.
Arguments N.modulo : simpl never.

(** ** Bytes of a number *)

Fixpoint be (k : nat) (n : N) : list N :=
  match k with
  | O => []
  | S k' => be k' (n / 256)%N ++ [(n mod 256)%N]
  end.

Lemma to_be_bytes_be n : to_be_bytes n = be 8 n.
Proof.
  unfold to_be_bytes. cbn [map be app].
  rewrite !N.div_div by discriminate.
  repeat f_equal; rewrite ?N.div_1_r; reflexivity.
Qed.

Lemma be_length k : forall n, List.length (be k n) = k.
Proof. induction k as [|k IH]; intros n; simpl; [reflexivity|]. rewrite app_length, IH. simpl. lia. Qed.

Lemma be_bytes k : forall n, Forall is_byte (be k n).
Proof.
  induction k as [|k IH]; intros n; simpl; [constructor|]. apply Forall_app. split; [apply IH|].
  repeat constructor. unfold is_byte. apply N.mod_lt. discriminate.
Qed.

Lemma be_value_app l m : be_value (l ++ m) = (be_value l * 256 ^ N.of_nat (List.length m) + be_value m)%N.
Proof.
  induction l as [|b l IH]; simpl; [lia|]. rewrite IH, app_length, Nat2N.inj_add, N.pow_add_r. lia.
Qed.

Lemma be_value_be k : forall n, (n < 256 ^ N.of_nat k)%N -> be_value (be k n) = n.
Proof.
  induction k as [|k IH]; intros n H; [change (n < 1)%N in H; change (0 = n)%N; lia|].
  cbn [be]. rewrite be_value_app, IH.
  - cbn [be_value List.length]. change (N.of_nat 1) with 1%N. change (N.of_nat 0) with 0%N.
    rewrite N.pow_1_r, N.pow_0_r. pose proof (N.div_mod n 256 ltac:(discriminate)). lia.
  - rewrite Nat2N.inj_succ, N.pow_succ_r' in H. apply N.div_lt_upper_bound; [discriminate|exact H].
Qed.

Lemma be_value_bound l : Forall is_byte l -> (be_value l < 256 ^ N.of_nat (List.length l))%N.
Proof.
  induction 1 as [|b l Hb Hl IH]; [reflexivity|]. cbn [be_value List.length].
  rewrite Nat2N.inj_succ, N.pow_succ_r'. unfold is_byte in Hb. nia.
Qed.

(** Digit strings of one length compare as the numbers they denote. *)
Lemma be_value_compare l : forall m, Forall is_byte l -> Forall is_byte m ->
  List.length l = List.length m -> list_cmp N.compare l m = N.compare (be_value l) (be_value m).
Proof.
  induction l as [|x l IH]; intros [|y m] Hl Hm HL; try discriminate; [reflexivity|].
  inversion Hl as [|? ? Hx Hl']; inversion Hm as [|? ? Hy Hm']; subst. injection HL as HL.
  cbn [list_cmp be_value]. rewrite <- HL.
  pose proof (be_value_bound l Hl') as B1. pose proof (be_value_bound m Hm') as B2. rewrite <- HL in B2.
  set (p := (256 ^ N.of_nat (List.length l))%N) in *.
  destruct (N.compare_spec x y) as [E|E|E]; symmetry.
  - subst y. rewrite IH by assumption. destruct (N.compare_spec (be_value l) (be_value m)) as [E|E|E].
    + rewrite E. apply N.compare_refl.
    + apply N.compare_lt_iff. lia.
    + apply N.compare_gt_iff. lia.
  - apply N.compare_lt_iff. nia.
  - apply N.compare_gt_iff. nia.
Qed.

Lemma encodes_be n : is_u64 n -> encodes (to_be_bytes n) n.
Proof.
  intros H. rewrite to_be_bytes_be. split; [apply be_length|]. split; [apply be_bytes|].
  apply be_value_be. exact H.
Qed.

Lemma encodes_unique l n m : encodes l n -> encodes m n -> l = m.
Proof.
  intros (Ll & Bl & Vl) (Lm & Bm & Vm). apply (o_eq _ _ (list_order _ _ N_order)).
  rewrite be_value_compare by congruence || assumption. rewrite Vl, Vm. apply N.compare_refl.
Qed.

Lemma encodes_u64 l n : encodes l n -> is_u64 n.
Proof.
  intros (Ll & Bl & <-). apply be_value_bound in Bl. rewrite Ll in Bl. exact Bl.
Qed.

Lemma encodes_is_be l n : encodes l n -> l = to_be_bytes n.
Proof. intros H. eapply encodes_unique; [exact H|]. apply encodes_be. eapply encodes_u64, H. Qed.

Lemma to_be_length n : List.length (to_be_bytes n) = 8.
Proof. reflexivity. Qed.

Lemma from_be_value l : from_be_bytes l = be_value l.
Proof.
  unfold from_be_bytes.
  assert (G : forall l acc, fold_left (fun acc b => (acc * 256 + b)%N) l acc
                            = (acc * 256 ^ N.of_nat (List.length l) + be_value l)%N).
  { clear. induction l as [|b l IH]; intros acc; cbn [fold_left be_value List.length].
    - change (N.of_nat 0) with 0%N. rewrite N.pow_0_r. lia.
    - rewrite IH, Nat2N.inj_succ, N.pow_succ_r'. lia. }
  rewrite G. lia.
Qed.

(** ** Array copying *)

Lemma arr_set_ok v : forall arr idx, idx < List.length arr ->
  arr_set arr idx v = Some (firstn idx arr ++ v :: skipn (S idx) arr).
Proof.
  induction arr as [|x arr IH]; intros idx H; simpl in H; [lia|].
  destruct idx as [|idx]; [reflexivity|]. cbn [arr_set firstn skipn app]. rewrite IH by lia. reflexivity.
Qed.

Lemma arr_set_oob v : forall arr idx, List.length arr <= idx -> arr_set arr idx v = None.
Proof.
  induction arr as [|x arr IH]; intros idx H; [destruct idx; reflexivity|]. simpl in H.
  destruct idx as [|idx]; [lia|]. cbn [arr_set]. rewrite IH by lia. reflexivity.
Qed.

Lemma copy_loop_ok : forall src done rest1 rest2,
  List.length rest1 = List.length src ->
  copy_loop src (done ++ rest1 ++ rest2) (List.length done)
  = Some (done ++ src ++ rest2, List.length done + List.length src).
Proof.
  induction src as [|v src IH]; intros done rest1 rest2 HL.
  - destruct rest1; [|discriminate]. cbn [copy_loop app List.length]. rewrite Nat.add_0_r. reflexivity.
  - destruct rest1 as [|x rest1]; [discriminate|]. injection HL as HL. cbn [copy_loop].
    rewrite arr_set_ok by (rewrite !app_length; simpl; lia).
    rewrite firstn_app, firstn_all, Nat.sub_diag. cbn [firstn]. rewrite app_nil_r.
    rewrite skipn_app, skipn_all2 by lia.
    replace (S (List.length done) - List.length done) with 1 by lia. cbn [app skipn].
    replace (done ++ v :: rest1 ++ rest2) with ((done ++ [v]) ++ rest1 ++ rest2)
      by (rewrite <- app_assoc; reflexivity).
    replace (S (List.length done)) with (List.length (done ++ [v])) by (rewrite app_length; simpl; lia).
    rewrite IH by exact HL. rewrite <- app_assoc, app_length. cbn [app List.length]. do 2 f_equal. lia.
Qed.

Lemma copy_loop_oob : forall src dst idx,
  List.length dst < idx + List.length src -> idx <= List.length dst -> copy_loop src dst idx = None.
Proof.
  induction src as [|v src IH]; intros dst idx H Hi; simpl in H; [lia|]. cbn [copy_loop].
  destruct (Nat.eq_dec idx (List.length dst)) as [->|Hn]; [rewrite arr_set_oob by lia; reflexivity|].
  rewrite arr_set_ok by lia.
  assert (HL : List.length (firstn idx dst ++ v :: skipn (S idx) dst) = List.length dst).
  { rewrite app_length. cbn [List.length]. rewrite firstn_length, skipn_length. lia. }
  apply IH; rewrite HL; lia.
Qed.

Lemma split8 {A} (n : nat) (l : list A) : List.length l = 8 + n ->
  exists a b, l = a ++ b /\ List.length a = 8 /\ List.length b = n.
Proof.
  intros H. exists (firstn 8 l), (skipn 8 l). rewrite firstn_skipn, firstn_length, skipn_length.
  repeat split; lia.
Qed.

(** The row key as a plain concatenation. *)
Definition enc (a b c d : N) : list N := to_be_bytes a ++ to_be_bytes b ++ to_be_bytes c ++ to_be_bytes d.

Lemma copy8 (done src rest1 rest2 : list N) :
  List.length rest1 = List.length src ->
  copy_loop src (done ++ rest1 ++ rest2) (List.length done)
  = Some ((done ++ src) ++ rest2, List.length (done ++ src)).
Proof.
  intros H. rewrite copy_loop_ok by exact H. rewrite <- app_assoc, app_length. reflexivity.
Qed.

Lemma merge_arrays_app (a b c d : list N) :
  List.length a = 8 -> List.length b = 8 -> List.length c = 8 -> List.length d = 8 ->
  merge_arrays a b c d = Some (a ++ b ++ c ++ d).
Proof.
  intros La Lb Lc Ld. unfold merge_arrays.
  change (repeat 0%N 32) with ([] ++ repeat 0%N 8 ++ repeat 0%N 24).
  pose proof (copy8 [] a (repeat 0%N 8) (repeat 0%N 24) ltac:(rewrite La; reflexivity)) as E0.
  cbn [List.length] in E0. rewrite E0. clear E0. change ([] ++ a) with a.
  change (repeat 0%N 24) with (repeat 0%N 8 ++ repeat 0%N 16).
  rewrite (copy8 a b) by (rewrite Lb; reflexivity).
  change (repeat 0%N 16) with (repeat 0%N 8 ++ repeat 0%N 8).
  rewrite (copy8 (a ++ b) c) by (rewrite Lc; reflexivity).
  change (repeat 0%N 8) with (repeat 0%N 8 ++ []).
  rewrite (copy8 ((a ++ b) ++ c) d) by (rewrite Ld; reflexivity).
  rewrite app_nil_r, <- !app_assoc. reflexivity.
Qed.

Lemma row_keys_enc c f s t :
  row_keys c f s t = Some (enc c f s t, enc c f t s, enc c s f t, enc c s t f, enc c t f s, enc c t s f).
Proof. unfold row_keys. rewrite !merge_arrays_app by apply to_be_length. reflexivity. Qed.

(** ** Decoding *)

Lemma read_id_8 l : List.length l = 8 -> read_id l = Some (be_value l).
Proof.
  intros H. unfold read_id. change (repeat 0%N 8) with ([] ++ repeat 0%N 8 ++ []).
  pose proof (copy_loop_ok l [] (repeat 0%N 8) [] ltac:(rewrite H; reflexivity)) as E.
  cbn [List.length] in E. rewrite E.
  cbn [app]. rewrite app_nil_r, from_be_value. reflexivity.
Qed.

Lemma read_id_long l : 8 < List.length l -> read_id l = None.
Proof. intros H. unfold read_id. rewrite copy_loop_oob; [reflexivity|simpl; lia..]. Qed.

Lemma decode_blocks a b c d :
  List.length a = 8 -> List.length b = 8 -> List.length c = 8 -> List.length d = 8 ->
  decode_row (a ++ b ++ c ++ d) = Some (be_value a, be_value b, be_value c, be_value d).
Proof.
  intros La Lb Lc Ld. unfold decode_row, slice.
  assert (HL : List.length (a ++ b ++ c ++ d) = 32) by (rewrite !app_length; lia).
  rewrite HL. cbn [Nat.leb Nat.sub].
  assert (F : forall (x y : list N), List.length x = 8 -> firstn 8 (x ++ y) = x).
  { intros x y Hx. rewrite firstn_app, Hx, <- Hx, firstn_all, Nat.sub_diag. cbn. apply app_nil_r. }
  assert (K : forall k n (x y : list N), k = 8 + n -> List.length x = 8 -> skipn k (x ++ y) = skipn n y).
  { intros k n x y -> Hx. rewrite skipn_app, Hx, skipn_all2 by lia. replace (8 + n - 8) with n by lia. reflexivity. }
  rewrite (K 8 0 a _ eq_refl La), (K 16 8 a _ eq_refl La), (K 24 16 a _ eq_refl La).
  rewrite (K 8 0 b _ eq_refl Lb), (K 16 8 b _ eq_refl Lb), (K 8 0 c _ eq_refl Lc).
  rewrite !skipn_O, !F by assumption.
  rewrite (firstn_all2 d) by lia.
  rewrite !read_id_8 by assumption. reflexivity.
Qed.

Lemma be_value_to_be n : is_u64 n -> be_value (to_be_bytes n) = n.
Proof. intros H. apply (encodes_be n H). Qed.

Lemma decode_enc a b c d : is_u64 a -> is_u64 b -> is_u64 c -> is_u64 d ->
  decode_row (enc a b c d) = Some (a, b, c, d).
Proof.
  intros. unfold enc. rewrite decode_blocks by apply to_be_length. rewrite !be_value_to_be by assumption. reflexivity.
Qed.

Lemma enc_inj a b c d a' b' c' d' :
  is_u64 a -> is_u64 b -> is_u64 c -> is_u64 d -> is_u64 a' -> is_u64 b' -> is_u64 c' -> is_u64 d' ->
  enc a b c d = enc a' b' c' d' -> a = a' /\ b = b' /\ c = c' /\ d = d'.
Proof.
  intros Ha Hb Hc Hd Ha' Hb' Hc' Hd' E.
  assert (F : decode_row (enc a b c d) = decode_row (enc a' b' c' d')) by (rewrite E; reflexivity).
  rewrite !decode_enc in F by assumption. injection F; auto.
Qed.

Lemma row_of_enc r a b c d : row_of r a b c d <-> is_u64 a /\ is_u64 b /\ is_u64 c /\ is_u64 d /\ r = enc a b c d.
Proof.
  split.
  - intros (la & lb & lc & ld & -> & Ha & Hb & Hc & Hd).
    rewrite (encodes_is_be _ _ Ha), (encodes_is_be _ _ Hb), (encodes_is_be _ _ Hc), (encodes_is_be _ _ Hd).
    repeat split; eapply encodes_u64; eassumption.
  - intros (Ha & Hb & Hc & Hd & ->). do 4 eexists. split; [reflexivity|].
    repeat split; try apply encodes_be; assumption.
Qed.

(** ** Order *)

Lemma list_cmp_app (a b a' b' : list N) : List.length a = List.length a' ->
  list_cmp N.compare (a ++ b) (a' ++ b') = then_cmp (list_cmp N.compare a a') (list_cmp N.compare b b').
Proof.
  revert a'. induction a as [|x a IH]; intros [|y a'] H; try discriminate; [reflexivity|].
  injection H as H. cbn [app list_cmp]. rewrite IH by exact H. destruct (N.compare x y); reflexivity.
Qed.

Lemma enc_compare a b c d a' b' c' d' :
  is_u64 a -> is_u64 b -> is_u64 c -> is_u64 d -> is_u64 a' -> is_u64 b' -> is_u64 c' -> is_u64 d' ->
  bytes_cmp (enc a b c d) (enc a' b' c' d') = list_cmp N.compare [a; b; c; d] [a'; b'; c'; d'].
Proof.
  intros. unfold bytes_cmp, enc. rewrite !list_cmp_app by reflexivity.
  assert (K : forall n m, is_u64 n -> is_u64 m ->
    list_cmp N.compare (to_be_bytes n) (to_be_bytes m) = N.compare n m).
  { intros n m Hn Hm. destruct (encodes_be n Hn) as (Ln & Bn & Vn), (encodes_be m Hm) as (Lm & Bm & Vm).
    rewrite be_value_compare by congruence || assumption. rewrite Vn, Vm. reflexivity. }
  rewrite !K by assumption. cbn [list_cmp].
  destruct (N.compare a a'), (N.compare b b'), (N.compare c c'), (N.compare d d'); reflexivity.
Qed.

Lemma bytes_order : is_order bytes_cmp bytes_lt.
Proof. apply list_order, N_order. Qed.

(** ** C12 *)

Lemma row_key_code a b c d : is_u64 a -> is_u64 b -> is_u64 c -> is_u64 d ->
  exists k, merge_arrays (to_be_bytes a) (to_be_bytes b) (to_be_bytes c) (to_be_bytes d) = Some k
            /\ List.length k = 32 /\ row_of k a b c d /\ decode_row k = Some (a, b, c, d).
Proof.
  intros Ha Hb Hc Hd. exists (enc a b c d). split; [apply merge_arrays_app; apply to_be_length|].
  split; [reflexivity|]. split; [apply row_of_enc; auto|]. apply decode_enc; assumption.
Qed.

Lemma row_of_fun k a b c d a' b' c' d' : row_of k a b c d -> row_of k a' b' c' d' ->
  a = a' /\ b = b' /\ c = c' /\ d = d'.
Proof.
  rewrite !row_of_enc. intros (? & ? & ? & ? & ->) (? & ? & ? & ? & E). apply enc_inj in E; assumption.
Qed.

Lemma row_of_order k k' a b c d a' b' c' d' : row_of k a b c d -> row_of k' a' b' c' d' ->
  (bytes_lt k k' <-> lex N.lt [a; b; c; d] [a'; b'; c'; d']).
Proof.
  rewrite !row_of_enc. intros (? & ? & ? & ? & ->) (? & ? & ? & ? & ->).
  rewrite <- (o_lt _ _ bytes_order), enc_compare by assumption.
  apply (o_lt _ _ (list_order _ _ N_order)).
Qed.
