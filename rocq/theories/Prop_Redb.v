(** * Opening a redb store *)
From Coq Require Import List NArith Bool String.
From Verif Require Import M_Base M_Redb S_Order S_Redb P_Ord P_Redb.
Import ListNotations.
Open Scope list_scope.

(** C100.  Opening a store never panics and touches no other file.  It succeeds
    exactly if nothing outside the program fails and the path is free or holds a
    redb file without clashing tables; then the six tables are there, those that
    were there with all their rows, the others empty.  If it fails, every table is
    as before. *)
Theorem C100_create : forall l p d,
  let '(r, d') := redb_create l p d in
  (forall q, q <> p -> bm_get str_cmp q d' = bm_get str_cmp q d)
  /\ ((exists x, r = Ok x) <-> lucky l /\ suitable d p)
  /\ match r with
     | Ok x => x = p
         /\ (forall n t, shows d p n = Some t -> shows d' p n = Some t)
         /\ (forall n k v, In (n, (k, v)) wanted -> shows d p n = None -> shows d' p n = Some (Table k v []))
         /\ (forall n, ~ In n (map fst wanted) -> shows d' p n = shows d p n)
     | Err _ => forall n, shows d' p n = shows d p n
     | Panic _ => False
     end.
Proof.
  intros l p d. pose proof (create_spec l p d) as HS. destruct (redb_create l p d) as [r d']. destruct HS as [H1 H2]. split; [exact H1|].
  destruct r as [x|e|w]; [| |destruct H2].
  - destruct H2 as (-> & HL & HU & HM). split; [split; [auto|eauto]|]. split; [reflexivity|]. split; [|split].
    + intros n t Ht. rewrite HM, Ht. apply merge_some.
    + intros n k v Hw Hn. rewrite HM, Hn. apply wanted_six in Hw. rewrite (merge_new n _ six six_nodup Hw eq_refl). reflexivity.
    + intros n Hn. rewrite HM. destruct (shows d p n) as [t|]; [apply merge_some|]. apply merge_none. intros x Hx ->.
      apply Hn. change (In (td_name x) (map td_name six)). apply in_map, Hx.
  - destruct H2 as [HN HD]. split; [split; [intros (x & K); discriminate K|intros K; destruct (HN K)]|].
    intros n. destruct HD as [->|[E1 E2]]; [reflexivity|]. unfold shows. rewrite E1, E2. reflexivity.
Qed.
Print Assumptions C100_create.

(** Opening it again changes nothing, and works if nothing outside fails. *)
Theorem C100_again : forall l p d x l',
  fst (redb_create l p d) = Ok x ->
  let d1 := snd (redb_create l p d) in
  (lucky l' -> fst (redb_create l' p d1) = Ok p)
  /\ forall q n, shows (snd (redb_create l' p d1)) q n = shows d1 q n.
Proof.
  intros l p d x l' E d1. pose proof (create_spec l p d) as HS. unfold d1. destruct (redb_create l p d) as [r d']. cbn [fst snd] in *. subst r.
  destruct HS as [_ (_ & HL & HU & HM)]. clear d1 x.
  assert (HU' : suitable d' p).
  { split.
    - intros b Eb. specialize (HM (lit "IDS")). unfold shows at 1 in HM. rewrite Eb in HM.
      destruct (shows d p (lit "IDS")) as [t|]; [rewrite merge_some in HM; discriminate HM|].
      rewrite (merge_new (lit "IDS") IDS_TABLE six six_nodup (or_introl eq_refl) eq_refl) in HM. discriminate HM.
    - intros n k v t Hw Ht. rewrite HM in Ht. destruct (shows d p n) as [t'|] eqn:En.
      + rewrite merge_some in Ht. injection Ht as <-. apply (proj2 HU n k v t' Hw En).
      + rewrite (merge_new n (Tdef n k v) six six_nodup) in Ht; [|apply wanted_six, Hw|reflexivity]. injection Ht as <-. split; reflexivity. }
  pose proof (create_spec l' p d') as HS2. destruct (redb_create l' p d') as [r2 d2]. cbn [fst snd]. destruct HS2 as [K1 K2]. split.
  - intros HL'. destruct r2 as [y|e|w]; [destruct K2 as [-> _]; reflexivity|destruct K2 as [K2 _]; destruct K2; split; assumption|destruct K2].
  - intros q n. destruct (str_dec q p) as [->|N]; [|unfold shows; rewrite K1 by exact N; reflexivity].
    destruct r2 as [y|e|w]; [|destruct K2 as [_ [->|[E1 E2]]]; [reflexivity|unfold shows; rewrite E1, E2; reflexivity]|destruct K2].
    destruct K2 as (_ & _ & _ & K2). rewrite K2, HM.
    destruct (shows d p n) as [t|]; [rewrite !merge_some; reflexivity|].
    destruct (in_dec str_dec n (map td_name six)) as [Hi|Hi].
    + apply in_map_iff in Hi as (t & <- & Ht). rewrite (merge_new _ t six six_nodup Ht eq_refl), merge_some. reflexivity.
    + assert (Z : merge None n six = None) by (apply merge_none; intros t Ht ->; apply Hi, in_map, Ht). rewrite !Z. reflexivity.
Qed.
Print Assumptions C100_again.

(** Whatever is opened how often, and whatever fails meanwhile, no table loses a row. *)
Theorem C100_history : forall os d q n t, shows d q n = Some t -> shows (after_opens d os) q n = Some t.
Proof.
  induction os as [|[l p] os IH]; intros d q n t H; [exact H|]. cbn [after_opens]. apply IH, create_keeps, H.
Qed.
Print Assumptions C100_history.

(** The convenience openers never answer an error: they panic instead - without a
    home directory, if the directory cannot be made, or if [create] fails. *)
Theorem C100_default : forall home dirs l d,
  let '(r, d') := redb_default home dirs l d in
  let at_ h := push (push (push h (lit ".ligature")) (lit "redb")) (lit "ligature.redb") in
  match r with
  | Made p => exists h, home = Some h /\ dirs = true /\ redb_create l p d = (Ok p, d') /\ p = at_ h
  | Refused _ => False
  | CrashedUnwrap => (exists h, home = Some h) /\ dirs = false /\ d' = d
  | Crashed msg None => home = None /\ d' = d
      /\ msg = lit "Could not create LigatureRedb instance in default location."
  | Crashed msg (Some e) => (exists h, home = Some h /\ dirs = true /\ redb_create l (at_ h) d = (Err e, d'))
      /\ msg = lit "Could not create LigatureRedb instance in default location." ++ [10%N]
  end.
Proof.
  intros home dirs l d. unfold redb_default. destruct home as [h|]; [|repeat split; reflexivity]. destruct dirs; [|split; [exists h; reflexivity|split; reflexivity]].
  cbv zeta. set (p := push (push (push h _) _) _). pose proof (create_spec l p d) as HS. destruct (redb_create l p d) as [[x|e|w] d'] eqn:E; destruct HS as [_ HS].
  - destruct HS as [-> _]. exists h. auto.
  - split; [exists h; auto|reflexivity].
  - destruct HS.
Qed.
Print Assumptions C100_default.

Theorem C100_temp : forall sfx home dirs l d,
  let '(r, d') := redb_temp sfx home dirs l d in
  let at_ h := push (push (push h (lit ".ligature")) (lit "redb")) (lit "ligature-" ++ sfx ++ lit ".redb") in
  match r with
  | Made p => exists h, home = Some h /\ dirs = true /\ redb_create l p d = (Ok p, d') /\ p = at_ h
  | Refused _ => False
  | CrashedUnwrap => (exists h, home = Some h) /\ dirs = false /\ d' = d
  | Crashed msg cause => msg = lit "Could not create LigatureRedb instance in default location." /\ cause = None
      /\ (home = None /\ d' = d
          \/ exists h e, home = Some h /\ dirs = true /\ redb_create l (at_ h) d = (Err e, d'))
  end.
Proof.
  intros sfx home dirs l d. unfold redb_temp. destruct home as [h|]; [|split; [reflexivity|split; [reflexivity|left; split; reflexivity]]]. destruct dirs; [|split; [exists h; reflexivity|split; reflexivity]].
  cbv zeta. set (p := push (push (push h _) _) _). pose proof (create_spec l p d) as HS. destruct (redb_create l p d) as [[x|e|w] d'] eqn:E; destruct HS as [_ HS].
  - destruct HS as [-> _]. exists h. auto.
  - split; [reflexivity|split; [reflexivity|]]. right. exists h, e. auto.
  - destruct HS.
Qed.
Print Assumptions C100_temp.

(** Two temporary stores with different suffixes are different files; with the
    same suffix the second is the first, rows and all. *)
Lemma push_inj p a b : push p a = push p b -> a = b.
Proof. unfold push. destruct p as [|x p]; [auto|]. destruct (N.eqb _ _); intros H; [apply app_inv_head in H; exact H|]. apply app_inv_head in H. injection H as H. exact H. Qed.

Theorem C100_temp_apart : forall s1 s2 home dirs l1 l2 d p1 p2,
  s1 <> s2 ->
  fst (redb_temp s1 home dirs l1 d) = Made p1 ->
  fst (redb_temp s2 home dirs l2 (snd (redb_temp s1 home dirs l1 d))) = Made p2 ->
  p1 <> p2.
Proof.
  intros s1 s2 home dirs l1 l2 d p1 p2 N E1 E2 ->. pose proof (C100_temp s1 home dirs l1 d) as H1.
  destruct (redb_temp s1 home dirs l1 d) as [r1 d1]. cbn [fst snd] in *. subst r1. destruct H1 as (h & -> & -> & _ & P1).
  pose proof (C100_temp s2 (Some h) true l2 d1) as H2. destruct (redb_temp s2 (Some h) true l2 d1) as [r2 d2]. cbn [fst] in E2. subst r2.
  destruct H2 as (h' & Eh & _ & _ & P2). injection Eh as <-. rewrite P1 in P2. apply push_inj in P2. apply app_inv_head in P2. apply app_inv_tail in P2. exact (N P2).
Qed.
Print Assumptions C100_temp_apart.

Theorem C100_temp_fresh_refuted :
  let lk := Luck true true (fun _ => true) true in
  let p := lit "/h/.ligature/redb/ligature-AAAAAAAA.redb" in
  let d := [(p, RedbFile [(lit "IDS", Table TyStr TyU64 [([1%N], [2%N])])])] in
  fst (redb_temp (lit "AAAAAAAA") (Some (lit "/h")) true lk d) = Made p
  /\ shows (snd (redb_temp (lit "AAAAAAAA") (Some (lit "/h")) true lk d)) p (lit "IDS") = Some (Table TyStr TyU64 [([1%N], [2%N])]).
Proof. cbv zeta. split; vm_compute; reflexivity. Qed.
Print Assumptions C100_temp_fresh_refuted.

(** Cases: a new store, one that exists with rows, a clash, a failing commit. *)
Example C100_case :
  let lk := Luck true true (fun _ => true) true in
  let p := lit "/x.redb" in
  let full := [(p, RedbFile [(lit "EAV", Table TyBytes TyUnit [([7%N], [])]); (lit "own", Table TyU64 TyU64 [])])] in
  let clash := [(p, RedbFile [(lit "IDS", Table TyU64 TyU64 [])])] in
  lucky lk /\ suitable full p /\ ~ suitable clash p
  /\ fst (redb_create lk p []) = Ok p /\ shows (snd (redb_create lk p [])) p (lit "IDS") = Some (Table TyStr TyU64 [])
  /\ fst (redb_create lk p full) = Ok p /\ shows (snd (redb_create lk p full)) p (lit "EAV") = Some (Table TyBytes TyUnit [([7%N], [])])
  /\ redb_create lk p clash = (Err (ETypes (lit "IDS")), clash)
  /\ redb_create (Luck true true (fun _ => true) false) p full = (Err EStorage, full)
  /\ redb_create lk p [(p, OtherFile [1%N])] = (Err ENotRedb, [(p, OtherFile [1%N])]).
Proof.
  cbv zeta. split; [repeat split|]. split; [|split].
  - split; [intros b; vm_compute; discriminate|]. intros n k v t Hw Ht. cbn in Hw.
    repeat (destruct Hw as [Hw|Hw]; [injection Hw as <- <- <-; vm_compute in Ht; try discriminate Ht; injection Ht as <-; split; reflexivity|]). destruct Hw.
  - intros [_ H]. destruct (H (lit "IDS") TyStr TyU64 (Table TyU64 TyU64 [])) as [K _]; [left; reflexivity|vm_compute; reflexivity|discriminate K].
  - repeat match goal with |- _ /\ _ => split end; vm_compute; reflexivity.
Qed.
