(** * Write transactions in which a write fails *)
From Coq Require Import List Arith NArith Bool Lia.
From Verif Require Import M_Base M_Data M_Heed M_Txn S_Order S_Str S_Store S_Txn P_Ord P_Hist P_Heed P_HeedHist.
Import ListNotations.
Open Scope list_scope.

Definition not_err {A} (r : tres A) : Prop := forall e, r <> Err e.

(** ** Tame code: what a failing write can do to it *)
Definition dead {A} (m : act A) : Prop :=
  forall d l, exists r, m (Txn d l true) = (r, Txn d l true) /\ not_err r.

(** From a good transaction: [n] writes, at most [b]. *)
Definition live_run {A} (m : act A) (b : nat) (d : heed) (r0 : tres A) (d0 : heed) (n : nat) : Prop :=
  m (Txn d None false) = (r0, Txn d0 None false) /\ n <= b
  /\ (forall j, n <= j -> m (Txn d (Some j) false) = (r0, Txn d0 (Some (j - n)) false))
  /\ (forall j, j < n -> exists r d', m (Txn d (Some j) false) = (r, Txn d' (Some 0) true) /\ not_err r).

Definition tame {A} (b : nat) (m : act A) : Prop :=
  dead m /\ forall d, exists r0 d0 n, live_run m b d r0 d0 n.

Lemma tame_ret {A} (a : A) : tame 0 (ret a).
Proof.
  split; [intros d l; eexists; split; [reflexivity|intros e; discriminate]|].
  intros d. exists (Ok a), d, 0. split; [reflexivity|]. split; [lia|]. split; [|lia].
  intros j _. rewrite Nat.sub_0_r. reflexivity.
Qed.

Lemma tame_fail {A} w : tame 0 (@fail A w).
Proof.
  split; [intros d l; eexists; split; [reflexivity|intros e; discriminate]|].
  intros d. exists (Panic w), d, 0. split; [reflexivity|]. split; [lia|]. split; [|lia].
  intros j _. rewrite Nat.sub_0_r. reflexivity.
Qed.

Lemma tame_open : tame 0 open_db.
Proof.
  split; [intros d l; eexists; split; [reflexivity|intros e; discriminate]|].
  intros d. exists (Ok tt), d, 0. split; [reflexivity|]. split; [lia|]. split; [|lia].
  intros j _. rewrite Nat.sub_0_r. reflexivity.
Qed.

Lemma tame_get {V} (f : heed -> res unit (option V)) : tame 0 (get_db f).
Proof.
  split; [intros d l; eexists; split; [reflexivity|intros e; discriminate]|].
  intros d. exists (Ok (f d)), d, 0. split; [reflexivity|]. split; [lia|]. split; [|lia].
  intros j _. rewrite Nat.sub_0_r. reflexivity.
Qed.

Lemma tame_write t f : tame 1 (write_db t f).
Proof.
  split; [intros d l; eexists; split; [reflexivity|intros e; discriminate]|].
  intros d. unfold live_run, write_db. cbn [x_bad x_db x_left]. destruct (t d).
  - exists (Ok tt), (f d), 1. split; [reflexivity|]. split; [lia|]. split.
    + intros [|j] Hj; [lia|]. cbn. rewrite Nat.sub_0_r. reflexivity.
    + intros [|j] Hj; [|lia]. exists (Ok tt), d. split; [reflexivity|intros e; discriminate].
  - exists (Ok tt), d, 0. split; [reflexivity|]. split; [lia|]. split; [|lia].
    intros j _. rewrite Nat.sub_0_r. reflexivity.
Qed.

Lemma tame_bind {A B} b1 b2 (m : act A) (k : A -> act B) : tame b1 m -> (forall a, tame b2 (k a)) -> tame (b1 + b2) (bind m k).
Proof.
  intros [D1 L1] HK. split.
  - intros d l. destruct (D1 d l) as (r & E & N). unfold bind. rewrite E. destruct r as [a|e|w].
    + apply (HK a).
    + destruct (N e eq_refl).
    + eexists. split; [reflexivity|]. intros e; discriminate.
  - intros d. destruct (L1 d) as (r & d1 & n1 & E1 & B1 & S1 & F1). unfold live_run, bind. rewrite E1.
    destruct r as [a|e|w].
    + destruct (HK a) as [DK LK]. destruct (LK d1) as (r2 & d2 & n2 & E2 & B2 & S2 & F2).
      exists r2, d2, (n1 + n2). split; [exact E2|]. split; [lia|]. split.
      * intros j Hj. rewrite S1 by lia. rewrite S2 by lia. do 3 f_equal. lia.
      * intros j Hj. destruct (le_lt_dec n1 j) as [Hl|Hl].
        -- rewrite S1 by exact Hl. apply F2. lia.
        -- destruct (F1 j Hl) as (r & d' & -> & Nr). destruct r as [a'|e|w].
           ++ destruct (proj1 (HK a') d' (Some 0)) as (r & -> & Nr'). eauto.
           ++ destruct (Nr e eq_refl).
           ++ eexists _, _. split; [reflexivity|]. intros e; discriminate.
    + exists (Err e), d1, n1. split; [reflexivity|]. split; [lia|]. split.
      * intros j Hj. rewrite S1 by exact Hj. reflexivity.
      * intros j Hj. destruct (F1 j Hj) as (r & d' & -> & Nr). destruct r as [a'|e'|w].
        -- destruct (proj1 (HK a') d' (Some 0)) as (r & -> & Nr'). eauto.
        -- destruct (Nr e' eq_refl).
        -- eexists _, _. split; [reflexivity|]. intros e'; discriminate.
    + exists (Panic w), d1, n1. split; [reflexivity|]. split; [lia|]. split.
      * intros j Hj. rewrite S1 by exact Hj. reflexivity.
      * intros j Hj. destruct (F1 j Hj) as (r & d' & -> & Nr). destruct r as [a'|e'|w'].
        -- destruct (proj1 (HK a') d' (Some 0)) as (r & -> & Nr'). eauto.
        -- destruct (Nr e' eq_refl).
        -- eexists _, _. split; [reflexivity|]. intros e'; discriminate.
Qed.

Lemma tame_le {A} b b' (m : act A) : tame b m -> b <= b' -> tame b' m.
Proof.
  intros [D L] H. split; [exact D|]. intros d. destruct (L d) as (r & d1 & n & E & Bn & S1 & F1).
  exists r, d1, n. repeat split; try assumption. lia.
Qed.

(** ** Brittle code panics in a broken transaction; in exact code only the
    failure of the last write goes unnoticed *)
Definition brittle {A} (m : act A) : Prop :=
  forall d l, exists w, m (Txn d l true) = (Panic w, Txn d l true).

Definition exact_at {A} (m : act A) (d : heed) : Prop :=
  match m (Txn d None false) with
  | (Ok _, x0) => exists n, x_bad x0 = false /\ x_left x0 = None
      /\ (forall j, n < j -> exists v, m (Txn d (Some j) false) = (Ok v, Txn (x_db x0) (Some (j - S n)) false)
                                       /\ fst (m (Txn d None false)) = Ok v)
      /\ (exists v d', m (Txn d (Some n) false) = (Ok v, Txn d' (Some 0) true))
      /\ (forall j, j < n -> exists w d', m (Txn d (Some j) false) = (Panic w, Txn d' (Some 0) true))
  | _ => forall j, exists w x, m (Txn d (Some j) false) = (Panic w, x)
  end.

Definition exact {A} (b : nat) (m : act A) : Prop := tame b m /\ forall d, exact_at m d.

Lemma brittle_open {A} (k : unit -> act A) : brittle (bind open_db k).
Proof. intros d l. exists PUnwrap. reflexivity. Qed.

Lemma brittle_first {A B} (m : act A) (k : A -> act B) : brittle m -> brittle (bind m k).
Proof. intros H d l. destruct (H d l) as (w & E). exists w. unfold bind. rewrite E. reflexivity. Qed.

Lemma brittle_then {A B} (m : act A) (k : A -> act B) : dead m -> (forall a, brittle (k a)) -> brittle (bind m k).
Proof.
  intros H HK d l. destruct (H d l) as (r & E & N). unfold bind. rewrite E. destruct r as [a|e|w].
  - apply HK.
  - destruct (N e eq_refl).
  - eauto.
Qed.

Lemma exact_write f : exact 1 (write_db (fun _ => true) f).
Proof.
  split; [apply tame_write|]. intros d. unfold exact_at. cbn. exists 0. split; [reflexivity|]. split; [reflexivity|].
  split; [|split; [|lia]].
  - intros [|j] Hj; [lia|]. exists tt. cbn. rewrite Nat.sub_0_r. auto.
  - exists tt, d. reflexivity.
Qed.

Lemma exact_bind {A B} b1 b2 (m : act A) (k : A -> act B) :
  tame b1 m -> (forall d e x, m (Txn d None false) <> (Err e, x)) ->
  (forall a, brittle (k a)) -> (forall a, exact b2 (k a)) -> exact (b1 + b2) (bind m k).
Proof.
  intros T1 NE HB HX. split; [apply tame_bind; [exact T1|]; intros a; apply HX|].
  intros d. destruct (proj2 T1 d) as (r & d1 & n1 & E1 & B1 & S1 & F1). unfold exact_at, bind. rewrite E1.
  assert (Broken : forall j, j < n1 -> exists w d', (match m (Txn d (Some j) false) with
            | (Ok a, x') => k a x' | (Err e, x') => (Err e, x') | (Panic w, x') => (Panic w, x') end)
            = (Panic w, Txn d' (Some 0) true)).
  { intros j Hj. destruct (F1 j Hj) as (r' & d' & -> & Nr). destruct r' as [a'|e|w].
    - destruct (HB a' d' (Some 0)) as (w & ->). eauto.
    - destruct (Nr e eq_refl).
    - eauto. }
  destruct r as [a|e|w].
  - pose proof (proj2 (HX a) d1) as H. unfold exact_at in H.
    destruct (k a (Txn d1 None false)) as [r2 x2] eqn:E2. destruct r2 as [b|e|w].
    + destruct H as (n & Hb & Hl & Hs & Hlast & Hbad). exists (n1 + n). split; [exact Hb|]. split; [exact Hl|].
      split; [|split].
      * intros j Hj. rewrite S1 by lia. destruct (Hs (j - n1)) as (v & -> & Ev); [lia|]. exists v.
        split; [do 3 f_equal; lia|]. exact Ev.
      * rewrite S1 by lia. replace (n1 + n - n1) with n by lia. exact Hlast.
      * intros j Hj. destruct (le_lt_dec n1 j) as [Hle|Hlt].
        -- rewrite S1 by exact Hle. apply Hbad. lia.
        -- exact (Broken j Hlt).
    + intros j. destruct (le_lt_dec n1 j) as [Hle|Hlt].
      * rewrite S1 by exact Hle. apply H.
      * destruct (Broken j Hlt) as (w & d' & Hw). eauto.
    + intros j. destruct (le_lt_dec n1 j) as [Hle|Hlt].
      * rewrite S1 by exact Hle. apply H.
      * destruct (Broken j Hlt) as (w' & d' & Hw). eauto.
  - destruct (NE d e _ E1).
  - intros j. destruct (le_lt_dec n1 j) as [Hle|Hlt].
    + rewrite S1 by exact Hle. eauto.
    + destruct (Broken j Hlt) as (w' & d' & Hw). eauto.
Qed.

Lemma exact_then_ret {A B} b (m : act A) (g : A -> B) : exact b m -> exact b (bind m (fun a => ret (g a))).
Proof.
  intros [T X]. split.
  { rewrite <- (Nat.add_0_r b). apply tame_bind; [exact T|]. intros a. apply tame_ret. }
  intros d. specialize (X d). unfold exact_at, bind, ret in *. destruct (m (Txn d None false)) as [r x0]. destruct r as [a|e|w].
  - destruct X as (n & Hb & Hl & Hs & Hlast & Hbad). exists n. split; [exact Hb|]. split; [exact Hl|]. split; [|split].
    + intros j Hj. destruct (Hs j Hj) as (v & -> & Ev). cbn in Ev. injection Ev as ->. eexists. split; reflexivity.
    + destruct Hlast as (v & d' & ->). eauto.
    + intros j Hj. destruct (Hbad j Hj) as (w & d' & ->). eauto.
  - intros j. destruct (X j) as (w & x & ->). eauto.
  - intros j. destruct (X j) as (w' & x & ->). eauto.
Qed.

(** ** The code of the store is tame *)
Definition never_err {A} (m : act A) : Prop := forall x e x', m x <> (Err e, x').

Lemma ne_ret {A} (a : A) : never_err (ret a). Proof. intros x e x'; discriminate. Qed.
Lemma ne_fail {A} w : never_err (@fail A w). Proof. intros x e x'; discriminate. Qed.
Lemma ne_open : never_err open_db. Proof. intros x e x'. unfold open_db. destruct (x_bad x); discriminate. Qed.
Lemma ne_get {V} (f : heed -> res unit (option V)) : never_err (get_db f).
Proof. intros x e x'. unfold get_db. destruct (x_bad x); discriminate. Qed.
Lemma ne_write t f : never_err (write_db t f).
Proof. intros x e x'. unfold write_db. destruct (x_bad x); [discriminate|]. destruct (t _); [|discriminate]. destruct (x_left x) as [[|k]|]; discriminate. Qed.
Lemma ne_bind {A B} (m : act A) (k : A -> act B) : never_err m -> (forall a, never_err (k a)) -> never_err (bind m k).
Proof.
  intros H HK x e x'. unfold bind. destruct (m x) as [[a|e'|w] y] eqn:E; [apply HK|destruct (H _ _ _ E)|discriminate].
Qed.

Lemma t_ret {A} b (a : A) : tame b (ret a). Proof. apply (tame_le 0); [apply tame_ret|lia]. Qed.
Lemma t_fail {A} b w : tame b (@fail A w). Proof. apply (tame_le 0); [apply tame_fail|lia]. Qed.
Lemma t_open {A} b (k : unit -> act A) : tame b (k tt) -> tame b (bind open_db k).
Proof. intros H. apply (tame_bind 0 b); [apply tame_open|]. intros []. exact H. Qed.
Lemma t_get {A V} b (f : heed -> res unit (option V)) (k : _ -> act A) : (forall r, tame b (k r)) -> tame b (bind (get_db f) k).
Proof. intros H. apply (tame_bind 0 b); [apply tame_get|exact H]. Qed.
Lemma t_write {A} b t f (k : unit -> act A) : tame b (k tt) -> tame (S b) (bind (write_db t f) k).
Proof. intros H. apply (tame_bind 1 b); [apply tame_write|]. intros []. exact H. Qed.

Ltac tm := repeat first [apply t_open | apply t_get; intros ? | apply t_write | apply t_ret | apply t_fail | apply tame_write | progress intros].
Ltac ne := repeat first [apply ne_bind | apply ne_open | apply ne_get | apply ne_write | apply ne_ret | apply ne_fail | progress intros].

Lemma tame_next_id : tame 1 fine_next_id.
Proof.
  unfold fine_next_id, put_ids. tm. destruct r as [[v|]|e|w]; tm. destruct (u64_add1 v); tm.
Qed.
Lemma ne_next_id : never_err fine_next_id.
Proof. unfold fine_next_id, put_ids. ne. destruct a0 as [[v|]|e|w]; ne. destruct (u64_add1 v); ne. Qed.

Lemma tame_add_collection c : tame 3 (fine_add_collection c).
Proof.
  unfold fine_add_collection, put_c2i, put_i2c. tm.
  assert (T : tame 3 (id <- fine_next_id; open_db;; write_db (fun _ => key_storable c) (fun d => set_c2i d (sput (h_c2i d) c id));;
                      open_db;; write_db (fun _ => true) (fun d => set_i2c d (nput (h_i2c d) id c));; ret true)).
  { apply (tame_bind 1 2); [exact tame_next_id|]. tm. }
  destruct r as [[v|]|e|w]; try exact T. tm.
Qed.

Lemma tame_remove_collection c : tame 2 (fine_remove_collection c).
Proof. unfold fine_remove_collection, del_c2i, del_i2c. tm. destruct r as [[v|]|e|w]; tm. Qed.

Lemma tame_intern v s : tame 2 (fine_intern v s).
Proof. unfold fine_intern, put_v2i, put_i2v. tm. destruct r as [[i|]|e|w]; tm; destruct (u64_add1 v); tm. Qed.
Lemma ne_intern v s : never_err (fine_intern v s).
Proof. unfold fine_intern, put_v2i, put_i2v. ne. destruct a as [[i|]|e|w]; ne; destruct (u64_add1 v); ne. Qed.
Lemma brittle_intern v s : brittle (fine_intern v s).
Proof. intros d l. exists PUnwrap. reflexivity. Qed.

Lemma tame_put_rows k1 k2 k3 k4 k5 k6 : tame 6 (fine_put_rows k1 k2 k3 k4 k5 k6).
Proof. unfold fine_put_rows, put_row. tm. Qed.
Lemma tame_del_rows k1 k2 k3 k4 k5 k6 : tame 6 (fine_del_rows k1 k2 k3 k4 k5 k6).
Proof. unfold fine_del_rows, del_row. tm. Qed.

Lemma tame_add_one c v t : tame 13 (fine_add_one c v t).
Proof.
  unfold fine_add_one, put_ids. apply t_open.
  apply (tame_bind 2 11); [apply tame_intern|]. intros f.
  apply (tame_bind 2 9); [apply tame_intern|]. intros s.
  apply (tame_bind 2 7); [apply tame_intern|]. intros o.
  apply t_open, t_write. destruct (row_keys c (fst f) (fst s) (fst o)) as [[[[[[k1 k2] k3] k4] k5] k6]|]; [|tm].
  apply (tame_bind 6 0); [apply tame_put_rows|]. tm.
Qed.
Lemma ne_put_rows k1 k2 k3 k4 k5 k6 : never_err (fine_put_rows k1 k2 k3 k4 k5 k6).
Proof. unfold fine_put_rows, put_row. ne. Qed.
Lemma ne_add_one c v t : never_err (fine_add_one c v t).
Proof.
  unfold fine_add_one, put_ids. apply ne_bind; [apply ne_open|intros _].
  do 3 (apply ne_bind; [apply ne_intern|intros ?]). do 2 (apply ne_bind; [first [apply ne_open|apply ne_write]|intros _]).
  destruct (row_keys _ _ _ _) as [[[[[[k1 k2] k3] k4] k5] k6]|]; [|ne].
  apply ne_bind; [apply ne_put_rows|ne].
Qed.

Lemma tame_add_loop c ts : forall v, tame (13 * List.length ts) (fine_add_loop c v ts).
Proof.
  induction ts as [|t ts IH]; intros v; [apply t_ret|]. cbn [fine_add_loop].
  replace (13 * List.length (t :: ts)) with (13 + 13 * List.length ts) by (cbn [List.length]; lia).
  apply tame_bind; [apply tame_add_one|exact IH].
Qed.

Lemma tame_add_triples c ts : tame (13 * List.length ts) (fine_add_triples c ts).
Proof.
  unfold fine_add_triples. tm. destruct r as [[i|]|e|w]; tm. destruct r as [[v|]|e|w]; tm.
  rewrite <- (Nat.add_0_r (13 * List.length ts)). apply tame_bind; [apply tame_add_loop|]. intros _. apply t_ret.
Qed.

Lemma tame_known s : tame 0 (fine_known s).
Proof. unfold fine_known. tm. destruct r as [[i|]|e|w]; tm. Qed.

Lemma tame_remove_loop c ts : tame (6 * List.length ts) (fine_remove_loop c ts).
Proof.
  induction ts as [|t ts IH]; [apply t_ret|]. cbn [fine_remove_loop].
  replace (6 * List.length (t :: ts)) with (0 + (0 + (0 + (6 + 6 * List.length ts)))) by (cbn [List.length]; lia).
  do 3 (apply tame_bind; [apply tame_known|intros ?]).
  destruct (row_keys _ _ _ _) as [[[[[[k1 k2] k3] k4] k5] k6]|]; [|tm].
  apply tame_bind; [apply tame_del_rows|]. intros _. exact IH.
Qed.

Lemma tame_remove_triples c ts : tame (6 * List.length ts) (fine_remove_triples c ts).
Proof.
  unfold fine_remove_triples. tm. destruct r as [[i|]|e|w]; tm.
  rewrite <- (Nat.add_0_r (6 * List.length ts)). apply tame_bind; [apply tame_remove_loop|]. tm.
Qed.

(** ** With no failing write: the functions of [M_Heed] *)
Lemma heed_eta d : Heed (h_ids d) (h_c2i d) (h_i2c d) (h_v2i d) (h_i2v d) (h_cfst d) (h_cfts d) (h_csft d) (h_cstf d) (h_ctfs d) (h_ctsf d) = d.
Proof. destruct d; reflexivity. Qed.

Lemma write_all t f d : (t d = false -> f d = d) -> write_db t f (Txn d None false) = (Ok tt, Txn (f d) None false).
Proof. intros H. unfold write_db. cbn. destruct (t d); [reflexivity|]. rewrite H by reflexivity. reflexivity. Qed.

Lemma bm_remove_absent {A V} (cmp : A -> A -> comparison) k (m : list (A * V)) : bm_get cmp k m = None -> bm_remove cmp k m = m.
Proof.
  induction m as [|[k' v] m IH]; cbn; [reflexivity|]. destruct (cmp k k') eqn:E; try discriminate; intros H; [reflexivity|].
  rewrite IH by exact H. reflexivity.
Qed.

Lemma bs_remove_absent {A} (cmp : A -> A -> comparison) k (l : list A) :
  existsb (fun r => match cmp k r with Eq => true | _ => false end) l = false -> bs_remove cmp k l = l.
Proof.
  induction l as [|y l IH]; cbn; [reflexivity|]. destruct (cmp k y) eqn:E; cbn; try discriminate; intros H; [reflexivity|].
  rewrite IH by exact H. reflexivity.
Qed.

Notation good d := (Txn d None false).

Lemma put_ids_all v d : put_ids v (good d) = (Ok tt, good (set_ids d (sput (h_ids d) id_key v))).
Proof. apply write_all. discriminate. Qed.
Lemma put_c2i_all c v d : put_c2i c v (good d) = (Ok tt, good (set_c2i d (sput (h_c2i d) c v))).
Proof. apply write_all. intros E. unfold sput. rewrite E. apply heed_eta. Qed.
Lemma put_v2i_all c v d : put_v2i c v (good d) = (Ok tt, good (set_v2i d (sput (h_v2i d) c v))).
Proof. apply write_all. intros E. unfold sput. rewrite E. apply heed_eta. Qed.
Lemma put_i2c_all v c d : put_i2c v c (good d) = (Ok tt, good (set_i2c d (nput (h_i2c d) v c))).
Proof. apply write_all. discriminate. Qed.
Lemma put_i2v_all v c d : put_i2v v c (good d) = (Ok tt, good (set_i2v d (nput (h_i2v d) v c))).
Proof. apply write_all. discriminate. Qed.
Lemma put_row_all g s k d : put_row g s k (good d) = (Ok tt, good (s d (rput (g d) k))).
Proof. apply write_all. discriminate. Qed.
Lemma del_row_all g s k d : (forall x, s x (g x) = x) -> del_row g s k (good d) = (Ok tt, good (s d (rdel (g d) k))).
Proof. intros H. apply write_all. intros E. unfold rdel. rewrite bs_remove_absent by exact E. apply H. Qed.
Lemma del_c2i_all c d : del_c2i c (good d) = (Ok tt, good (set_c2i d (sdel (h_c2i d) c))).
Proof.
  apply write_all. unfold sget, sdel. destruct (key_readable c); [|intros _; apply heed_eta].
  destruct (bm_get str_cmp c (h_c2i d)) eqn:E; [discriminate|]. intros _. rewrite bm_remove_absent by exact E. apply heed_eta.
Qed.
Lemma del_i2c_all v d : del_i2c v (good d) = (Ok tt, good (set_i2c d (ndel (h_i2c d) v))).
Proof.
  apply write_all. unfold nget, ndel.
  destruct (bm_get N.compare v (h_i2c d)) eqn:E; [discriminate|]. intros _. rewrite bm_remove_absent by exact E. apply heed_eta.
Qed.

Lemma bind_ok {A B} (m : act A) (k : A -> act B) x a x' : m x = (Ok a, x') -> bind m k x = k a x'.
Proof. intros E. unfold bind. rewrite E. reflexivity. Qed.

Lemma bind_panic {A B} (m : act A) (k : A -> act B) x w x' : m x = (Panic w, x') -> bind m k x = (Panic w, x').
Proof. intros E. unfold bind. rewrite E. reflexivity. Qed.

Lemma open_then {A} (k : unit -> act A) d l : bind open_db k (Txn d l false) = k tt (Txn d l false).
Proof. reflexivity. Qed.
Lemma get_then {A V} (f : heed -> res unit (option V)) (k : _ -> act A) d l : bind (get_db f) k (Txn d l false) = k (f d) (Txn d l false).
Proof. reflexivity. Qed.

Lemma next_id_all d :
  match next_collection_id d with
  | Ok (id, d1) => fine_next_id (good d) = (Ok id, good d1)
  | Err _ => False
  | Panic w => fine_next_id (good d) = (Panic w, good d)
  end.
Proof.
  unfold next_collection_id, fine_next_id. rewrite open_then, get_then.
  destruct (sget (h_ids d) id_key) as [[v|]|e|w]; try reflexivity.
  destruct (u64_add1 v); [|reflexivity]. erewrite bind_ok by apply put_ids_all. reflexivity.
Qed.

Lemma add_collection_all d c : run_act (fine_add_collection c) None d = heed_add_collection true d c.
Proof.
  unfold heed_add_collection, heed_add_collection_tx, run_act, fine_add_collection. rewrite open_then, get_then.
  pose proof (next_id_all d) as H.
  assert (K : match (id <- fine_next_id; open_db;; put_c2i c id;; open_db;; put_i2c id c;; ret true) (good d) with
              | (Ok true, x) => (Ok tt, if x_bad x then d else x_db x)
              | (Ok false, _) => (Ok tt, d) | (Err e, _) => (Err e, d) | (Panic w, _) => (Panic w, d) end
              = run_tx true d match next_collection_id d with
                | Ok (id, d1) => TCommit (Ok tt)
                    (Heed (h_ids d1) (sput (h_c2i d1) c id) (nput (h_i2c d1) id c) (h_v2i d1) (h_i2v d1)
                       (h_cfst d1) (h_cfts d1) (h_csft d1) (h_cstf d1) (h_ctfs d1) (h_ctsf d1))
                | Err e => TAbort (Err e) | Panic w => TAbort (Panic w) end).
  { destruct (next_collection_id d) as [[id d1]|e|w].
    - rewrite (bind_ok _ _ _ _ _ H), open_then. erewrite bind_ok by apply put_c2i_all. rewrite open_then.
      erewrite bind_ok by apply put_i2c_all. reflexivity.
    - destruct H.
    - unfold bind at 1. rewrite H. reflexivity. }
  destruct (sget (h_c2i d) c) as [[v|]|e|w]; [reflexivity|exact K..].
Qed.

Lemma remove_collection_all d c : run_act (fine_remove_collection c) None d = heed_remove_collection true d c.
Proof.
  unfold heed_remove_collection, heed_remove_collection_tx, run_act, fine_remove_collection. rewrite open_then, get_then.
  destruct (sget (h_c2i d) c) as [[v|]|e|w]; try reflexivity.
  rewrite open_then. erewrite bind_ok by apply del_c2i_all. rewrite open_then. erewrite bind_ok by apply del_i2c_all. reflexivity.
Qed.

Lemma intern_all d v s :
  match intern d v s with
  | Ok (id, v', d1) => fine_intern v s (good d) = (Ok (id, v'), good d1)
  | Err _ => False
  | Panic w => fine_intern v s (good d) = (Panic w, good d)
  end.
Proof.
  unfold intern, fine_intern. rewrite get_then.
  assert (K : match match u64_add1 v with
              | None => Panic POverflow
              | Some value_id' => @Ok str _ (value_id', value_id',
                  Heed (h_ids d) (h_c2i d) (h_i2c d) (sput (h_v2i d) s value_id') (nput (h_i2v d) value_id' s)
                    (h_cfst d) (h_cfts d) (h_csft d) (h_cstf d) (h_ctfs d) (h_ctsf d)) end with
              | Ok (id, v', d1) => (open_db;; match u64_add1 v with None => fail POverflow
                   | Some value_id' => put_v2i s value_id';; put_i2v value_id' s;; ret (value_id', value_id') end) (good d) = (Ok (id, v'), good d1)
              | Err _ => False
              | Panic w => (open_db;; match u64_add1 v with None => fail POverflow
                   | Some value_id' => put_v2i s value_id';; put_i2v value_id' s;; ret (value_id', value_id') end) (good d) = (Panic w, good d)
              end).
  { rewrite open_then. destruct (u64_add1 v) as [v'|]; [|reflexivity].
    erewrite bind_ok by apply put_v2i_all. erewrite bind_ok by apply put_i2v_all. reflexivity. }
  destruct (sget (h_v2i d) s) as [[i|]|e|w]; [reflexivity|exact K..].
Qed.

Lemma put_rows_all k1 k2 k3 k4 k5 k6 d : fine_put_rows k1 k2 k3 k4 k5 k6 (good d)
  = (Ok tt, good (Heed (h_ids d) (h_c2i d) (h_i2c d) (h_v2i d) (h_i2v d)
       (rput (h_cfst d) k1) (rput (h_cfts d) k2) (rput (h_csft d) k3) (rput (h_cstf d) k4) (rput (h_ctfs d) k5) (rput (h_ctsf d) k6))).
Proof.
  unfold fine_put_rows. do 5 (rewrite open_then; erewrite bind_ok by apply put_row_all). rewrite open_then, put_row_all. reflexivity.
Qed.

Lemma del_rows_all k1 k2 k3 k4 k5 k6 d : fine_del_rows k1 k2 k3 k4 k5 k6 (good d)
  = (Ok tt, good (Heed (h_ids d) (h_c2i d) (h_i2c d) (h_v2i d) (h_i2v d)
       (rdel (h_cfst d) k1) (rdel (h_cfts d) k2) (rdel (h_csft d) k3) (rdel (h_cstf d) k4) (rdel (h_ctfs d) k5) (rdel (h_ctsf d) k6))).
Proof.
  unfold fine_del_rows. do 5 (rewrite open_then; erewrite bind_ok by (apply del_row_all; intros x; apply heed_eta)).
  rewrite open_then, del_row_all by (intros x; apply heed_eta). reflexivity.
Qed.

Lemma add_one_all d c v t :
  match intern d v (t0 t) with
  | Panic w => fst (fine_add_one c v t (good d)) = Panic w
  | Err e => False
  | Ok (fid, v1, d1) =>
      match intern d1 v1 (t1 t) with
      | Panic w => fst (fine_add_one c v t (good d)) = Panic w
      | Err e => False
      | Ok (sid, v2, d2) =>
          match intern d2 v2 (t2 t) with
          | Panic w => fst (fine_add_one c v t (good d)) = Panic w
          | Err e => False
          | Ok (tid, v3, d3) =>
              match row_keys c fid sid tid with
              | None => fst (fine_add_one c v t (good d)) = Panic PIndex
              | Some (k1, k2, k3, k4, k5, k6) =>
                  fine_add_one c v t (good d)
                  = (Ok v3, good (Heed (sput (h_ids d3) id_key v3) (h_c2i d3) (h_i2c d3) (h_v2i d3) (h_i2v d3)
                       (rput (h_cfst d3) k1) (rput (h_cfts d3) k2) (rput (h_csft d3) k3)
                       (rput (h_cstf d3) k4) (rput (h_ctfs d3) k5) (rput (h_ctsf d3) k6)))
              end
          end
      end
  end.
Proof.
  unfold fine_add_one. rewrite !open_then.
  pose proof (intern_all d v (t0 t)) as H. destruct (intern d v (t0 t)) as [[[f v1] d1]|e|w];
    [rewrite !(bind_ok _ _ _ _ _ H)|destruct H|rewrite (bind_panic _ _ _ _ _ H); reflexivity].
  clear H. cbn [fst snd].
  pose proof (intern_all d1 v1 (t1 t)) as H. destruct (intern d1 v1 (t1 t)) as [[[s v2] d2]|e|w];
    [rewrite !(bind_ok _ _ _ _ _ H)|destruct H|rewrite (bind_panic _ _ _ _ _ H); reflexivity].
  clear H. cbn [fst snd].
  pose proof (intern_all d2 v2 (t2 t)) as H. destruct (intern d2 v2 (t2 t)) as [[[o v3] d3]|e|w];
    [rewrite !(bind_ok _ _ _ _ _ H)|destruct H|rewrite (bind_panic _ _ _ _ _ H); reflexivity].
  clear H. cbn [fst snd]. rewrite !open_then. rewrite !(bind_ok _ _ _ _ _ (put_ids_all v3 d3)).
  destruct (row_keys c f s o) as [[[[[[k1 k2] k3] k4] k5] k6]|]; [|reflexivity].
  erewrite bind_ok by apply put_rows_all. reflexivity.
Qed.

Lemma bind_fst_panic {A B} (m : act A) (k : A -> act B) x w : fst (m x) = Panic w -> fst (bind m k x) = Panic w.
Proof. unfold bind. destruct (m x) as [r y]. cbn. intros ->. reflexivity. Qed.

Lemma add_loop_all c ts : forall d v,
  match heed_add_loop d c v ts with
  | Ok d' => fine_add_loop c v ts (good d) = (Ok tt, good d')
  | Err _ => False
  | Panic w => fst (fine_add_loop c v ts (good d)) = Panic w
  end.
Proof.
  induction ts as [|t ts IH]; intros d v; [reflexivity|]. cbn [heed_add_loop fine_add_loop].
  pose proof (add_one_all d c v t) as H.
  destruct (intern d v (t0 t)) as [[[f v1] d1]|e|w]; [|exact H|apply bind_fst_panic, H].
  destruct (intern d1 v1 (t1 t)) as [[[s v2] d2]|e|w]; [|exact H|apply bind_fst_panic, H].
  destruct (intern d2 v2 (t2 t)) as [[[o v3] d3]|e|w]; [|exact H|apply bind_fst_panic, H].
  destruct (row_keys c f s o) as [[[[[[k1 k2] k3] k4] k5] k6]|]; [|apply bind_fst_panic, H].
  rewrite (bind_ok _ _ _ _ _ H). apply IH.
Qed.

Lemma add_triples_all d c ts : run_act (fine_add_triples c ts) None d = run_tx true d (heed_add_triples_tx d c ts).
Proof.
  unfold heed_add_triples_tx, run_act, fine_add_triples. rewrite open_then, get_then.
  destruct (sget (h_c2i d) c) as [[i|]|e|w]; try reflexivity. rewrite open_then, get_then.
  destruct (sget (h_ids d) id_key) as [[v|]|e|w]; try reflexivity.
  pose proof (add_loop_all i ts d v) as H. destruct (heed_add_loop d i v ts) as [d'|e|w].
  - rewrite (bind_ok _ _ _ _ _ H). reflexivity.
  - destruct H.
  - unfold bind. destruct (fine_add_loop i v ts (good d)) as [r x]. cbn in H. subst r. reflexivity.
Qed.

Lemma known_all d v : fine_known v (good d)
  = match sget (h_v2i d) v with Ok (Some id) => (Ok id, good d) | _ => (Panic PTodo, good d) end.
Proof. unfold fine_known. rewrite get_then. destruct (sget (h_v2i d) v) as [[i|]|e|w]; reflexivity. Qed.

Lemma remove_loop_all c ts : forall d,
  match heed_remove_loop d c ts with
  | Ok d' => fine_remove_loop c ts (good d) = (Ok tt, good d')
  | Err _ => False
  | Panic w => fst (fine_remove_loop c ts (good d)) = Panic w
  end.
Proof.
  induction ts as [|t ts IH]; intros d; [reflexivity|]. cbn [heed_remove_loop fine_remove_loop].
  pose proof (known_all d (t0 t)) as K0. pose proof (known_all d (t1 t)) as K1. pose proof (known_all d (t2 t)) as K2.
  destruct (sget (h_v2i d) (t0 t)) as [[f|]|e|w];
    [rewrite !(bind_ok _ _ _ _ _ K0)|rewrite (bind_panic _ _ _ _ _ K0); reflexivity..].
  destruct (sget (h_v2i d) (t1 t)) as [[s|]|e|w];
    [rewrite !(bind_ok _ _ _ _ _ K1)|rewrite (bind_panic _ _ _ _ _ K1); reflexivity..].
  destruct (sget (h_v2i d) (t2 t)) as [[o|]|e|w];
    [rewrite !(bind_ok _ _ _ _ _ K2)|rewrite (bind_panic _ _ _ _ _ K2); reflexivity..].
  destruct (row_keys c f s o) as [[[[[[k1 k2] k3] k4] k5] k6]|]; [|reflexivity].
  rewrite !(bind_ok _ _ _ _ _ (del_rows_all k1 k2 k3 k4 k5 k6 d)). apply IH.
Qed.

Lemma remove_triples_all d c ts : run_act (fine_remove_triples c ts) None d = run_tx true d (heed_remove_triples_tx d c ts).
Proof.
  unfold heed_remove_triples_tx, run_act, fine_remove_triples. rewrite open_then, get_then.
  destruct (sget (h_c2i d) c) as [[i|]|e|w]; try reflexivity. rewrite open_then.
  pose proof (remove_loop_all i ts d) as H. destruct (heed_remove_loop d i ts) as [d'|e|w].
  - rewrite (bind_ok _ _ _ _ _ H). reflexivity.
  - destruct H.
  - unfold bind. destruct (fine_remove_loop i ts (good d)) as [r x]. cbn in H. subst r. reflexivity.
Qed.

(** ** Whole calls *)
Lemma run_tame m b d : tame b m -> exists n, n <= b
  /\ (forall j, n <= j -> run_act m (Some j) d = run_act m None d)
  /\ (forall j, j < n -> run_act m (Some j) d = (Ok tt, d) \/ exists w, run_act m (Some j) d = (Panic w, d)).
Proof.
  intros [_ L]. destruct (L d) as (r & d0 & n & E & Bn & S1 & F1). exists n. split; [exact Bn|]. split.
  - intros j Hj. unfold run_act. rewrite (S1 j Hj), E. destruct r as [[|]|e|w]; reflexivity.
  - intros j Hj. destruct (F1 j Hj) as (r' & d' & E' & N). unfold run_act. rewrite E'. destruct r' as [[|]|e|w]; cbn; eauto.
    destruct (N e eq_refl).
Qed.

Lemma no_failure d o : call_op (heed_impl_w None) d o = call_op heed_impl d o.
Proof.
  destruct o as [c|c|c ts|c ts]; cbn [call_op heed_impl_w heed_impl heed_impl_c t_add_collection t_remove_collection t_add_triples t_remove_triples fst].
  - apply add_collection_all.
  - apply remove_collection_all.
  - apply add_triples_all.
  - apply remove_triples_all.
Qed.

Lemma write_failure d o : exists n, n <= writes_bound o
  /\ (forall j, n <= j -> call_op (heed_impl_w (Some j)) d o = call_op heed_impl d o)
  /\ (forall j, j < n -> call_op (heed_impl_w (Some j)) d o = (Ok tt, d)
                         \/ exists w, call_op (heed_impl_w (Some j)) d o = (Panic w, d)).
Proof.
  assert (H : exists m, (forall l, call_op (heed_impl_w l) d o = run_act m l d) /\ tame (writes_bound o) m).
  { destruct o as [c|c|c ts|c ts]; eexists; (split; [intros l; reflexivity|]).
    - apply tame_add_collection.
    - apply tame_remove_collection.
    - apply tame_add_triples.
    - apply tame_remove_triples. }
  destruct H as (m & Em & T). destruct (run_tame m _ d T) as (n & Bn & H1 & H2). exists n. split; [exact Bn|]. split.
  - intros j Hj. rewrite <- no_failure, !Em. apply H1, Hj.
  - intros j Hj. rewrite Em. apply H2, Hj.
Qed.

(** ** Exactness *)
Lemma brittle_fail {A} w : brittle (@fail A w). Proof. intros d l. exists w. reflexivity. Qed.
Lemma exact_fail {A} b w : exact b (@fail A w).
Proof. split; [apply t_fail|]. intros d. unfold exact_at. cbn. intros j. eexists _, _. reflexivity. Qed.

Lemma exact_open {A} b (k : unit -> act A) : exact b (k tt) -> exact b (bind open_db k).
Proof. intros [T X]. split; [apply t_open, T|]. intros d. exact (X d). Qed.

Lemma exact_write_then {A} b t f (k : unit -> act A) : brittle (k tt) -> exact b (k tt) -> exact (S b) (bind (write_db t f) k).
Proof.
  intros HB HX. apply (exact_bind 1 b).
  - apply tame_write.
  - intros d e x. apply ne_write.
  - intros []. exact HB.
  - intros []. exact HX.
Qed.

Lemma exact_put_rows k1 k2 k3 k4 k5 k6 : exact 6 (fine_put_rows k1 k2 k3 k4 k5 k6).
Proof.
  unfold fine_put_rows, put_row. do 5 (apply exact_open, exact_write_then; [apply brittle_open|]). apply exact_open, exact_write.
Qed.

Lemma exact_add_one c v t : exact 13 (fine_add_one c v t).
Proof.
  unfold fine_add_one, put_ids. apply exact_open.
  apply (exact_bind 2 11); [apply tame_intern|intros d e x; apply ne_intern|intros f; apply brittle_first, brittle_intern|intros f].
  apply (exact_bind 2 9); [apply tame_intern|intros d e x; apply ne_intern|intros s; apply brittle_first, brittle_intern|intros s].
  apply (exact_bind 2 7); [apply tame_intern|intros d e x; apply ne_intern|intros o; apply brittle_open|intros o].
  apply exact_open, exact_write_then.
  - destruct (row_keys _ _ _ _) as [[[[[[k1 k2] k3] k4] k5] k6]|]; [apply brittle_first, brittle_open|apply brittle_fail].
  - destruct (row_keys _ _ _ _) as [[[[[[k1 k2] k3] k4] k5] k6]|]; [apply exact_then_ret, exact_put_rows|apply exact_fail].
Qed.

Lemma brittle_add_one c v t : brittle (fine_add_one c v t).
Proof. apply brittle_open. Qed.

Lemma exact_add_loop c t ts : forall v, exact (13 * List.length (t :: ts)) (fine_add_loop c v (t :: ts)).
Proof.
  revert t. induction ts as [|t' ts IH]; intros t v.
  - cbn [fine_add_loop List.length]. apply (exact_then_ret 13 _ (fun _ => tt)), exact_add_one.
  - cbn [fine_add_loop]. replace (13 * List.length (t :: t' :: ts)) with (13 + 13 * List.length (t' :: ts)) by (cbn [List.length]; lia).
    apply exact_bind.
    + apply tame_add_one.
    + intros d e x. apply ne_add_one.
    + intros v'. apply brittle_first, brittle_add_one.
    + intros v'. exact (IH t' v').
Qed.

Lemma run_exact m d : exact_at m d -> (forall l v x, m (Txn d l false) = (Ok v, x) -> v = true) ->
  match run_act m None d with
  | (Ok _, d') => exists n, (forall j, n < j -> run_act m (Some j) d = (Ok tt, d')) /\ run_act m (Some n) d = (Ok tt, d)
        /\ forall j, j < n -> exists w, run_act m (Some j) d = (Panic w, d)
  | _ => forall j, exists w, run_act m (Some j) d = (Panic w, d)
  end.
Proof.
  intros X Ht. unfold exact_at in X. unfold run_act at 1. destruct (m (Txn d None false)) as [r x0] eqn:E. destruct r as [v|e|w].
  - destruct X as (n & Hb & Hl & Hs & (v' & d' & Hlast) & Hbad). pose proof (Ht _ _ _ E) as ->. rewrite Hb.
    exists n. split; [|split].
    + intros j Hj. destruct (Hs j Hj) as (v & Ej & _). unfold run_act. rewrite Ej. apply Ht in Ej as ->. reflexivity.
    + unfold run_act. rewrite Hlast. apply Ht in Hlast as ->. reflexivity.
    + intros j Hj. destruct (Hbad j Hj) as (w & d'' & Ej). unfold run_act. rewrite Ej. eauto.
  - intros j. destruct (X j) as (w & x & Ej). unfold run_act. rewrite Ej. eauto.
  - intros j. destruct (X j) as (w' & x & Ej). unfold run_act. rewrite Ej. eauto.
Qed.

Lemma unnoticed_intro m d o : (forall l, call_op (heed_impl_w l) d o = run_act m l d) ->
  exact_at m d -> (forall l v x, m (Txn d l false) = (Ok v, x) -> v = true) -> only_last_unnoticed heed_impl heed_impl_w d o.
Proof.
  intros Em X Ht. pose proof (run_exact m d X Ht) as H. unfold only_last_unnoticed. rewrite <- no_failure, Em.
  destruct (run_act m None d) as [[u|e|w] d'].
  - destruct H as (n & H1 & H2 & H3). exists n. rewrite Em. split; [|split; [exact H2|]].
    + intros j Hj. rewrite Em. apply H1, Hj.
    + intros j Hj. rewrite Em. apply H3, Hj.
  - intros j. rewrite Em. apply H.
  - intros j. rewrite Em. apply H.
Qed.

(** A function ends in [ret true]. *)
Definition ends (m : act bool) : Prop := forall x v x', m x = (Ok v, x') -> v = true.
Lemma ends_ret : ends (ret true). Proof. intros x v x' E. cbv in E. congruence. Qed.
Lemma ends_bind {A} (m : act A) k : (forall a, ends (k a)) -> ends (bind m k).
Proof. intros H x v x'. unfold bind. destruct (m x) as [[a|e|w] y]; [apply H|discriminate..]. Qed.

Lemma add_triples_unnoticed d c ts : ts <> [] -> only_last_unnoticed heed_impl heed_impl_w d (OAdd c ts).
Proof.
  intros Hne. destruct ts as [|t ts]; [destruct (Hne eq_refl)|]. apply (unnoticed_intro (fine_add_triples c (t :: ts))).
  - reflexivity.
  - unfold fine_add_triples.
    change (exact_at (match sget (h_c2i d) c with Ok (Some i) => open_db ;; q <- get_db (fun d => sget (h_ids d) id_key) ;
              match q with Ok (Some v) => fine_add_loop i v (t :: ts) ;; ret true | _ => fail PTodo end | _ => fail PTodo end) d).
    destruct (sget (h_c2i d) c) as [[i|]|e|w]; try apply (exact_fail 0).
    change (exact_at (match sget (h_ids d) id_key with Ok (Some v) => fine_add_loop i v (t :: ts) ;; ret true | _ => fail PTodo end) d).
    destruct (sget (h_ids d) id_key) as [[v|]|e|w]; try apply (exact_fail 0).
    apply (exact_then_ret _ _ (fun _ => true) (exact_add_loop i t ts v)).
  - intros l v x. unfold fine_add_triples. rewrite open_then, get_then.
    destruct (sget (h_c2i d) c) as [[i|]|e|w]; try discriminate. rewrite open_then, get_then.
    destruct (sget (h_ids d) id_key) as [[u|]|e|w]; try discriminate. apply ends_bind. intros _. apply ends_ret.
Qed.

Lemma not_has_get d c : ~ has heed_impl d c -> forall i, sget (h_c2i d) c <> Ok (Some i).
Proof.
  intros Hh i G. apply Hh. exists (map fst (h_c2i d)). split; [reflexivity|]. unfold sget in G. destruct (key_readable c); [|discriminate].
  injection G as G. apply (bm_get_in_keys str_order). eauto.
Qed.

Lemma add_collection_unnoticed d c : ~ has heed_impl d c -> only_last_unnoticed heed_impl heed_impl_w d (OAddColl c).
Proof.
  intros Hh. pose proof (not_has_get d c Hh) as NG. apply (unnoticed_intro (fine_add_collection c)).
  - reflexivity.
  - unfold fine_add_collection.
    assert (X : exact 3 (id <- fine_next_id; open_db;; put_c2i c id;; open_db;; put_i2c id c;; ret true)).
    { apply (exact_bind 1 2); [apply tame_next_id|intros d' e x; apply ne_next_id|intros id; apply brittle_open|intros id].
      apply exact_open. apply exact_write_then; [apply brittle_open|]. apply exact_open.
      apply (exact_then_ret 1 _ (fun _ => true)), exact_write. }
    change (exact_at (match sget (h_c2i d) c with Ok (Some _) => ret false | _ =>
        id <- fine_next_id; open_db;; put_c2i c id;; open_db;; put_i2c id c;; ret true end) d).
    destruct (sget (h_c2i d) c) as [[i|]|e|w]; try apply X. destruct (NG i eq_refl).
  - intros l v x. unfold fine_add_collection. rewrite open_then, get_then.
    destruct (sget (h_c2i d) c) as [[i|]|e|w]; [destruct (NG i eq_refl)|..];
      repeat (apply ends_bind; intros ?); apply ends_ret.
Qed.

(** ** Histories *)
Lemma failed_commit d o : snd (call_op (heed_impl_c false) d o) = d.
Proof.
  destruct o as [c|c|c ts|c ts]; cbn [call_op heed_impl_c t_add_collection t_remove_collection t_add_triples t_remove_triples fst].
  - unfold heed_add_collection, run_tx. destruct (heed_add_collection_tx d c); reflexivity.
  - unfold heed_remove_collection, run_tx. destruct (heed_remove_collection_tx d c); reflexivity.
  - unfold heed_add_triples, run_tx. cbn [fst]. destruct (heed_add_triples_tx d c ts); reflexivity.
  - unfold heed_remove_triples, run_tx. cbn [fst]. destruct (heed_remove_triples_tx d c ts); reflexivity.
Qed.

Lemma one_call d o l : exists b, snd (call_op (heed_impl_w l) d o) = snd (call_op (heed_impl_c b) d o).
Proof.
  destruct l as [j|]; [|exists true; rewrite no_failure; reflexivity].
  destruct (write_failure d o) as (n & _ & H1 & H2). destruct (le_lt_dec n j) as [Hl|Hl].
  - exists true. rewrite (H1 j Hl). reflexivity.
  - exists false. rewrite failed_commit. destruct (H2 j Hl) as [->|(w & ->)]; reflexivity.
Qed.

Lemma faulty_history h : forall d, exists h', map fst h' = map fst h /\ after_w heed_impl_w d h = after_f heed_impl_c d h'.
Proof.
  induction h as [|[o l] h IH]; intros d; [exists []; split; reflexivity|].
  destruct (one_call d o l) as (b & E). destruct (IH (snd (call_op (heed_impl_w l) d o))) as (h' & Em & Ea).
  exists ((o, b) :: h'). cbn [map fst after_w after_f]. rewrite Em, Ea, E. auto.
Qed.
