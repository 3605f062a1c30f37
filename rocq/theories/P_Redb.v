(** * Proofs: opening a redb store *)
From Coq Require Import List NArith Bool String.
From Verif Require Import M_Base M_Redb S_Order S_Redb P_Ord.
Import ListNotations.
Open Scope list_scope.

Lemma ty_eqb_spec a b : ty_eqb a b = true <-> a = b.
Proof. destruct a, b; cbn; split; congruence. Qed.

Definition merge1 (o : option table) (n : str) (def : tdef) : option table :=
  match o with
  | Some t => Some t
  | None => if str_dec n (td_name def) then Some (Table (td_key def) (td_val def) []) else None
  end.

Lemma open_table_spec l def ts :
  match open_table l def ts with
  | Ok ts' => l_table l (td_name def) = true
      /\ (forall t, bm_get str_cmp (td_name def) ts = Some t -> tb_key t = td_key def /\ tb_val t = td_val def)
      /\ forall n, bm_get str_cmp n ts' = merge1 (bm_get str_cmp n ts) n def
  | Err _ => ~ (l_table l (td_name def) = true
      /\ (forall t, bm_get str_cmp (td_name def) ts = Some t -> tb_key t = td_key def /\ tb_val t = td_val def))
  | Panic _ => False
  end.
Proof.
  unfold open_table. destruct (l_table l (td_name def)); [|intros [H _]; discriminate H].
  destruct (bm_get str_cmp (td_name def) ts) as [t|] eqn:E.
  - destruct (ty_eqb (tb_key t) (td_key def) && ty_eqb (tb_val t) (td_val def)) eqn:T.
    + apply andb_true_iff in T as [T1 T2]. apply ty_eqb_spec in T1, T2. split; [reflexivity|]. split.
      * intros t' E'. injection E' as <-. split; assumption.
      * intros n. unfold merge1. destruct (bm_get str_cmp n ts) eqn:En; [reflexivity|]. destruct (str_dec n (td_name def)) as [->|]; congruence.
    + intros [_ H]. destruct (H t eq_refl) as [H1 H2]. apply ty_eqb_spec in H1, H2. rewrite H1, H2 in T. discriminate T.
  - split; [reflexivity|]. split; [discriminate|]. intros n. unfold merge1. destruct (str_dec n (td_name def)) as [->|N].
    + rewrite (bm_get_insert_same str_order), E. reflexivity.
    + rewrite (bm_get_insert_other str_order) by exact N. destruct (bm_get str_cmp n ts); reflexivity.
Qed.

(** The six, one after the other. *)
Definition six : list tdef := [IDS_TABLE; DATASETS_ID_TABLE; ID_DATASETS_TABLE; IDENTIFIER_ID_TABLE; ID_IDENTIFIER_TABLE; EAV_TABLE].
Fixpoint open_list (l : luck) (ds : list tdef) (ts : tables) : res rerr tables :=
  match ds with [] => Ok ts | d :: r => and_then (open_table l d ts) (open_list l r) end.

Lemma and_then_assoc {A B C} (r : res rerr A) (k : A -> res rerr B) (k' : B -> res rerr C) :
  and_then (and_then r k) k' = and_then r (fun a => and_then (k a) k').
Proof. destruct r; reflexivity. Qed.

Lemma create_tables_list l ts : create_tables l ts =
  if l_begin l then and_then (open_list l six ts) (fun ts => if l_commit l then Ok ts else Err EStorage) else Err EStorage.
Proof.
  unfold create_tables. destruct (l_begin l); [|reflexivity]. unfold six. cbn [open_list].
  do 6 (match goal with |- and_then (open_table l ?d ?t) _ = _ => destruct (open_table l d t); cbn [and_then]; [|reflexivity|reflexivity] end).
  reflexivity.
Qed.

Fixpoint merge (o : option table) (n : str) (ds : list tdef) : option table :=
  match ds with [] => o | d :: r => merge (merge1 o n d) n r end.

Lemma merge_some t n ds : merge (Some t) n ds = Some t.
Proof. induction ds as [|d r IH]; [reflexivity|]. exact IH. Qed.

Definition fits (ts : tables) (ds : list tdef) : Prop :=
  forall d t, In d ds -> bm_get str_cmp (td_name d) ts = Some t -> tb_key t = td_key d /\ tb_val t = td_val d.

Lemma open_list_spec l ds : NoDup (map td_name ds) -> forall ts,
  match open_list l ds ts with
  | Ok ts' => (forall d, In d ds -> l_table l (td_name d) = true) /\ fits ts ds /\ forall n, bm_get str_cmp n ts' = merge (bm_get str_cmp n ts) n ds
  | Err _ => ~ ((forall d, In d ds -> l_table l (td_name d) = true) /\ fits ts ds)
  | Panic _ => False
  end.
Proof.
  induction ds as [|d r IH]; intros ND ts.
  - cbn. split; [intros d []|]. split; [intros d t []|]. reflexivity.
  - cbn [map] in ND. inversion ND as [|x xs Hx Hr]; subst. cbn [open_list]. pose proof (open_table_spec l d ts) as H1. unfold and_then.
    destruct (open_table l d ts) as [ts1|e|w]; [|intros [K1 K2]; apply H1; split; [apply K1; left; reflexivity|intros t; apply K2; left; reflexivity]|exact H1].
    destruct H1 as (A1 & A2 & A3). specialize (IH Hr ts1).
    assert (F : fits ts1 r <-> fits ts r).
    { unfold fits. split; intros F d' t Hd Ht; apply (F d' t Hd); [rewrite A3|rewrite A3 in Ht];
        unfold merge1 in *; (destruct (str_dec (td_name d') (td_name d)) as [E|N]; [destruct Hx; rewrite <- E; apply in_map, Hd|]);
        (destruct (bm_get str_cmp (td_name d') ts); [|discriminate Ht]); exact Ht. }
    destruct (open_list l r ts1) as [ts'|e|w]; [|intros [K1 K2]; apply IH; split; [intros d' Hd; apply K1; right; exact Hd|apply F; intros d' t Hd; apply K2; right; exact Hd]|exact IH].
    destruct IH as (B1 & B2 & B3). split; [|split].
    + intros d' [<-|Hd]; [exact A1|apply B1, Hd].
    + intros d' t [<-|Hd]; [apply A2|apply F; assumption].
    + intros n. rewrite B3, A3. reflexivity.
Qed.

Lemma six_nodup : NoDup (map td_name six).
Proof.
  repeat constructor; cbn [map six td_name]; intros H; cbn in H; repeat (destruct H as [H|H]; [discriminate H|]); exact H.
Qed.

Lemma merge_none n ds : (forall d, In d ds -> n <> td_name d) -> merge None n ds = None.
Proof.
  induction ds as [|d r IH]; intros H; [reflexivity|]. cbn [merge merge1]. destruct (str_dec n (td_name d)) as [E|N].
  - exfalso. apply (H d (or_introl eq_refl) E).
  - apply IH. intros d' Hd. apply H. right. exact Hd.
Qed.

Lemma merge_new n d ds : NoDup (map td_name ds) -> In d ds -> n = td_name d -> merge None n ds = Some (Table (td_key d) (td_val d) []).
Proof.
  intros ND Hi ->. induction ds as [|e r IH]; [destruct Hi|]. cbn [map] in ND. inversion ND as [|x xs Hx Hr]; subst. cbn [merge merge1].
  destruct Hi as [->|Hi].
  - destruct (str_dec (td_name d) (td_name d)) as [_|N]; [apply merge_some|congruence].
  - destruct (str_dec (td_name d) (td_name e)) as [E|N]; [destruct Hx; rewrite <- E; apply in_map, Hi|]. apply IH; assumption.
Qed.

Lemma wanted_six n k v : In (n, (k, v)) wanted <-> In (Tdef n k v) six.
Proof.
  split; intros H; cbn in H; cbn; repeat (destruct H as [H|H]; [injection H as <- <- <-; tauto|]); destruct H.
Qed.

Lemma fits_suitable ts : fits ts six <-> forall n k v t, In (n, (k, v)) wanted -> bm_get str_cmp n ts = Some t -> tb_key t = k /\ tb_val t = v.
Proof.
  unfold fits. split.
  - intros F n k v t Hw Ht. apply wanted_six in Hw. apply (F _ t Hw Ht).
  - intros F [n k v] t Hd Ht. apply (F n k v t); [apply wanted_six, Hd|exact Ht].
Qed.

Lemma lucky_six l : lucky l <-> l_create l = true /\ l_begin l = true /\ (forall d, In d six -> l_table l (td_name d) = true) /\ l_commit l = true.
Proof.
  unfold lucky. split; intros (H1 & H2 & H3 & H4); repeat split; auto.
  - intros d Hd. apply H3. change (In (td_name d) (map td_name six)). apply in_map, Hd.
  - intros n Hn. change (In n (map td_name six)) in Hn. apply in_map_iff in Hn as (d & <- & Hd). apply H3, Hd.
Qed.

Definition tables_at (d : disk) (p : str) : tables := match bm_get str_cmp p d with Some (RedbFile ts) => ts | _ => [] end.

Lemma shows_tables d p n : shows d p n = bm_get str_cmp n (tables_at d p).
Proof. unfold shows, tables_at. destruct (bm_get str_cmp p d) as [[ts|b]|]; reflexivity. Qed.

Lemma shows_other d p c q n : q <> p -> shows (bm_insert str_cmp p c d) q n = shows d q n.
Proof. intros H. unfold shows. rewrite (bm_get_insert_other str_order) by exact H. reflexivity. Qed.

Lemma create_spec l p d :
  let '(r, d') := redb_create l p d in
  (forall q, q <> p -> bm_get str_cmp q d' = bm_get str_cmp q d)
  /\ match r with
     | Ok x => x = p /\ lucky l /\ suitable d p /\ forall n, shows d' p n = merge (shows d p n) n six
     | Err _ => ~ (lucky l /\ suitable d p) /\ (d' = d \/ bm_get str_cmp p d = None /\ bm_get str_cmp p d' = Some (RedbFile []))
     | Panic _ => False
     end.
Proof.
  unfold redb_create, database_create. destruct (l_create l) eqn:EL.
  2: { split; [reflexivity|]. split; [|left; reflexivity]. intros [(H & _) _]. congruence. }
  set (ts0 := tables_at d p).
  assert (Main : forall d1, (forall q, q <> p -> bm_get str_cmp q d1 = bm_get str_cmp q d) ->
            (d1 = d \/ bm_get str_cmp p d = None /\ bm_get str_cmp p d1 = Some (RedbFile [])) ->
            (forall b, bm_get str_cmp p d <> Some (OtherFile b)) ->
            let '(r, d') := match create_tables l ts0 with
                            | Ok ts' => (Ok p, bm_insert str_cmp p (RedbFile ts') d1)
                            | Err e => (Err e, d1) | Panic w => (Panic w, d1) end in
            (forall q, q <> p -> bm_get str_cmp q d' = bm_get str_cmp q d)
            /\ match r with
               | Ok x => x = p /\ lucky l /\ suitable d p /\ forall n, shows d' p n = merge (shows d p n) n six
               | Err _ => ~ (lucky l /\ suitable d p) /\ (d' = d \/ bm_get str_cmp p d = None /\ bm_get str_cmp p d' = Some (RedbFile []))
               | Panic _ => False
               end).
  { intros d1 Ho Hd NB. rewrite create_tables_list.
    assert (SU : suitable d p <-> fits ts0 six).
    { rewrite fits_suitable. unfold suitable. split; [intros [_ H] n k v t Hw Ht|intros H; split; [exact NB|intros n k v t Hw Ht]];
        apply (H n k v t Hw); [rewrite shows_tables; exact Ht|rewrite shows_tables in Ht; exact Ht]. }
    pose proof (open_list_spec l six six_nodup ts0) as HO.
    destruct (l_begin l) eqn:EB.
    2: { split; [exact Ho|]. split; [|exact Hd]. intros [K _]. apply lucky_six in K. destruct K as (_ & K & _). congruence. }
    destruct (open_list l six ts0) as [ts'|e|w]; cbn [and_then]; [|split; [exact Ho|]|destruct HO].
    - destruct HO as (A1 & A2 & A3). destruct (l_commit l) eqn:EC.
      + split.
        * intros q Hq. rewrite (bm_get_insert_other str_order) by exact Hq. apply Ho, Hq.
        * split; [reflexivity|]. split; [apply lucky_six; auto|]. split; [apply SU, A2|].
          intros n. unfold shows at 1. rewrite (bm_get_insert_same str_order), A3, shows_tables. reflexivity.
      + split; [exact Ho|]. split; [|exact Hd]. intros [K _]. apply lucky_six in K. destruct K as (_ & _ & _ & K). congruence.
    - split; [|exact Hd]. intros [K1 K2]. apply HO. apply lucky_six in K1. split; [apply K1|apply SU, K2]. }
  destruct (bm_get str_cmp p d) as [[ts|b]|] eqn:Ep.
  - replace ts0 with ts in Main by (unfold ts0, tables_at; rewrite Ep; reflexivity).
    apply (Main d); [reflexivity|left; reflexivity|intros b; discriminate].
  - split; [reflexivity|]. split; [|left; reflexivity]. intros [_ [K _]]. apply (K b Ep).
  - replace ts0 with (@nil (str * table)) in Main by (unfold ts0, tables_at; rewrite Ep; reflexivity).
    apply Main.
    + intros q Hq. rewrite (bm_get_insert_other str_order) by exact Hq. reflexivity.
    + right. split; [reflexivity|]. apply (bm_get_insert_same str_order).
    + intros b. discriminate.
Qed.

Lemma create_keeps l p d q n t : shows d q n = Some t -> shows (snd (redb_create l p d)) q n = Some t.
Proof.
  intros H. pose proof (create_spec l p d) as HS. destruct (redb_create l p d) as [r d']. cbn [snd]. destruct HS as [H1 H2].
  destruct (str_dec q p) as [->|N].
  - destruct r as [x|e|w]; [|destruct H2 as [_ [->|[E _]]]; [exact H|unfold shows in H; rewrite E in H; discriminate H]|destruct H2].
    destruct H2 as (_ & _ & _ & H2). rewrite H2, H. apply merge_some.
  - unfold shows in *. rewrite H1 by exact N. exact H.
Qed.
