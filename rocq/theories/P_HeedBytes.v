(** * The byte-level LMDB store is the written form of the store of [M_Heed] *)
From Coq Require Import List Arith NArith Bool Lia String.
From Verif Require Import M_Base M_Data M_Heed M_Bytes M_HeedBytes S_Order S_Str S_Store S_Codec S_HeedBytes
  P_Ord P_Str P_Bytes P_Codec P_Heed P_Hist P_HeedHist.
Import ListNotations.
Open Scope list_scope.

(** ** Encoded tables *)
Section Enc.
  Context {K V : Type} (cmp : K -> K -> comparison) (e : K -> bytes) (g : V -> bytes) (P : K -> Prop).
  Hypothesis He : forall a b, P a -> P b -> bytes_cmp (e a) (e b) = cmp a b.

  Definition encm (t : list (K * V)) : btable := map (fun p => (e (fst p), g (snd p))) t.

  Lemma enc_get k : forall t, P k -> Forall (fun p => P (fst p)) t ->
    bm_get bytes_cmp (e k) (encm t) = option_map g (bm_get cmp k t).
  Proof.
    induction t as [|[k' v'] t IH]; intros Hk Ht; [reflexivity|].
    inversion Ht as [|x l Hx Hl]; subst. cbn [encm map bm_get fst snd]. cbn [fst] in Hx.
    rewrite (He k k' Hk Hx). destruct (cmp k k'); [reflexivity|apply IH; assumption|apply IH; assumption].
  Qed.

  Lemma enc_insert k v : forall t, P k -> Forall (fun p => P (fst p)) t ->
    bm_insert bytes_cmp (e k) (g v) (encm t) = encm (bm_insert cmp k v t).
  Proof.
    induction t as [|[k' v'] t IH]; intros Hk Ht; [reflexivity|].
    inversion Ht as [|x l Hx Hl]; subst. cbn [encm map bm_insert fst snd]. cbn [fst] in Hx.
    rewrite (He k k' Hk Hx). destruct (cmp k k'); cbn [map fst snd]; [reflexivity|reflexivity|].
    f_equal. apply IH; assumption.
  Qed.

  Lemma enc_remove k : forall t, P k -> Forall (fun p => P (fst p)) t ->
    bm_remove bytes_cmp (e k) (encm t) = encm (bm_remove cmp k t).
  Proof.
    induction t as [|[k' v'] t IH]; intros Hk Ht; [reflexivity|].
    inversion Ht as [|x l Hx Hl]; subst. cbn [encm map bm_remove fst snd]. cbn [fst] in Hx.
    rewrite (He k k' Hk Hx). destruct (cmp k k'); cbn [map fst snd]; [reflexivity|reflexivity|].
    f_equal. apply IH; assumption.
  Qed.
End Enc.

Lemma in_bm_insert {K V} (cmp : K -> K -> comparison) k (v : V) p : forall t,
  In p (bm_insert cmp k v t) -> p = (k, v) \/ In p t.
Proof.
  induction t as [|[k' v'] t IH]; cbn [bm_insert]; [intros [H|[]]; left; symmetry; exact H|].
  destruct (cmp k k'); cbn [In]; intuition.
Qed.

Lemma in_bm_remove {K V} (cmp : K -> K -> comparison) k (p : K * V) : forall t,
  In p (bm_remove cmp k t) -> In p t.
Proof.
  induction t as [|[k' v'] t IH]; cbn [bm_remove]; [intros []|].
  destruct (cmp k k'); cbn [In]; intuition.
Qed.

Lemma bm_get_in {K V} (cmp : K -> K -> comparison) k (v : V) : forall t,
  bm_get cmp k t = Some v -> exists k', In (k', v) t.
Proof.
  induction t as [|[k' v'] t IH]; cbn [bm_get]; [discriminate|].
  destruct (cmp k k'); [intros E; injection E as <-; exists k'; left; reflexivity| |];
  (intros E; destruct (IH E) as [x H]; exists x; right; exact H).
Qed.

(** ** The codecs *)
Lemma cmp_utf8 a b : valid_str a -> valid_str b -> bytes_cmp (utf8 a) (utf8 b) = str_cmp a b.
Proof. exact (utf8_order a b). Qed.

Lemma cmp_be a b : is_u64 a -> is_u64 b -> bytes_cmp (to_be_bytes a) (to_be_bytes b) = N.compare a b.
Proof.
  intros Ha Hb. pose proof (encodes_be a Ha) as (La & Ba & Va). pose proof (encodes_be b Hb) as (Lb & Bb & Vb).
  rewrite <- Va at 2. rewrite <- Vb at 2. unfold bytes_cmp. rewrite <- be_value_compare; auto.
Qed.

Lemma utf8_lit_id : utf8 (lit "id") = utf8 id_key.
Proof. reflexivity. Qed.

Lemma u64_decode_be n : is_u64 n -> u64_decode (to_be_bytes n) = Some n.
Proof.
  intros H. unfold u64_decode. rewrite to_be_length. cbn [Nat.leb].
  rewrite firstn_all2 by (rewrite to_be_length; lia). rewrite from_be_value, be_value_to_be; auto.
Qed.

Lemma len0 k : Nat.eqb (List.length (utf8 k)) 0 = negb (key_readable k).
Proof.
  unfold key_readable. rewrite <- utf8_len_eq. rewrite negb_involutive.
  destruct (List.length (utf8 k)); reflexivity.
Qed.

Lemma len511 k : Nat.leb (List.length (utf8 k)) 511 = N.leb (utf8_len k) 511.
Proof.
  rewrite <- utf8_len_eq. destruct (Nat.leb_spec (List.length (utf8 k)) 511) as [H|H];
  symmetry; [apply N.leb_le|apply N.leb_gt]; lia.
Qed.

(** ** The written form *)
Definition wsn (t : list (str * N)) : btable := encm utf8 to_be_bytes t.
Definition wns (t : list (N * str)) : btable := encm to_be_bytes utf8 t.
Definition wrow (t : list (list N)) : btable := map (fun k => (k, [])) t.

Definition write (d : heed) : heedb :=
  HeedB (wsn (h_ids d)) (wsn (h_c2i d)) (wns (h_i2c d)) (wsn (h_v2i d)) (wns (h_i2v d))
    (wrow (h_cfst d)) (wrow (h_cfts d)) (wrow (h_csft d)) (wrow (h_cstf d)) (wrow (h_ctfs d)) (wrow (h_ctsf d)).

Definition oksn (t : list (str * N)) : Prop := Forall (fun p => valid_str (fst p) /\ is_u64 (snd p)) t.
Definition okns (t : list (N * str)) : Prop := Forall (fun p => is_u64 (fst p) /\ valid_str (snd p)) t.
Definition is_row (k : list N) : Prop := exists a b c d, is_u64 a /\ is_u64 b /\ is_u64 c /\ is_u64 d /\ k = enc a b c d.

Record writable (d : heed) : Prop := {
  wb_ids : oksn (h_ids d); wb_c2i : oksn (h_c2i d); wb_i2c : okns (h_i2c d);
  wb_v2i : oksn (h_v2i d); wb_i2v : okns (h_i2v d); wb_cfst : Forall is_row (h_cfst d)
}.

Lemma oksn_keys t : oksn t -> Forall (fun p => valid_str (fst p)) t.
Proof. apply Forall_impl. intros p [H _]. exact H. Qed.
Lemma okns_keys t : okns t -> Forall (fun p => is_u64 (fst p)) t.
Proof. apply Forall_impl. intros p [H _]. exact H. Qed.

Lemma db_get_sn t k : oksn t -> valid_str k -> db_get u64_decode (wsn t) (utf8 k) = sget t k.
Proof.
  intros Ht Hk. unfold db_get, lm_get, sget. rewrite len0. destruct (key_readable k); [|reflexivity]. cbn [negb].
  unfold wsn. rewrite (enc_get str_cmp utf8 to_be_bytes valid_str cmp_utf8 k t Hk (oksn_keys t Ht)).
  destruct (bm_get str_cmp k t) as [n|] eqn:E; [|reflexivity]. cbn [option_map].
  destruct (bm_get_in _ _ _ _ E) as [k' Hin]. rewrite u64_decode_be; [reflexivity|].
  exact (proj2 (proj1 (Forall_forall _ _) Ht _ Hin)).
Qed.

Lemma db_get_ns t n : okns t -> is_u64 n -> db_get str_decode (wns t) (to_be_bytes n) = Ok (nget t n).
Proof.
  intros Ht Hn. unfold db_get, lm_get, nget. rewrite to_be_length. cbn [Nat.eqb].
  unfold wns. rewrite (enc_get N.compare to_be_bytes utf8 is_u64 cmp_be n t Hn (okns_keys t Ht)).
  destruct (bm_get N.compare n t) as [s|] eqn:E; [|reflexivity]. cbn [option_map].
  destruct (bm_get_in _ _ _ _ E) as [k' Hin]. unfold str_decode. rewrite from_utf8_complete; [reflexivity|].
  exact (proj2 (proj1 (Forall_forall _ _) Ht _ Hin)).
Qed.

Lemma put_sn t k v : oksn t -> valid_str k -> lm_put (wsn t) (utf8 k) (to_be_bytes v) = wsn (sput t k v).
Proof.
  intros Ht Hk. unfold lm_put, sput, key_storable. rewrite len0, len511.
  destruct (key_readable k); [|reflexivity]. cbn [negb andb]. destruct (N.leb (utf8_len k) 511); [|reflexivity].
  unfold wsn. apply (enc_insert str_cmp utf8 to_be_bytes valid_str cmp_utf8 k v t Hk (oksn_keys t Ht)).
Qed.

Lemma del_sn t k : oksn t -> valid_str k -> lm_del (wsn t) (utf8 k) = wsn (sdel t k).
Proof.
  intros Ht Hk. unfold lm_del, sdel. rewrite len0. destruct (key_readable k); [|reflexivity]. cbn [negb].
  unfold wsn. apply (enc_remove str_cmp utf8 to_be_bytes valid_str cmp_utf8 k t Hk (oksn_keys t Ht)).
Qed.

Lemma put_ns t n s : okns t -> is_u64 n -> lm_put (wns t) (to_be_bytes n) (utf8 s) = wns (nput t n s).
Proof.
  intros Ht Hn. unfold lm_put, nput. rewrite to_be_length. cbn [Nat.eqb Nat.leb].
  unfold wns. apply (enc_insert N.compare to_be_bytes utf8 is_u64 cmp_be n s t Hn (okns_keys t Ht)).
Qed.

Lemma del_ns t n : okns t -> is_u64 n -> lm_del (wns t) (to_be_bytes n) = wns (ndel t n).
Proof.
  intros Ht Hn. unfold lm_del, ndel. rewrite to_be_length. cbn [Nat.eqb].
  unfold wns. apply (enc_remove N.compare to_be_bytes utf8 is_u64 cmp_be n t Hn (okns_keys t Ht)).
Qed.

Lemma bytes_cmp_eq a b : bytes_cmp a b = Eq -> a = b.
Proof. apply (o_eq _ _ bytes_order). Qed.

Lemma put_row t k : List.length k = 32 -> lm_put (wrow t) k [] = wrow (rput t k).
Proof.
  intros H. unfold lm_put, rput. rewrite H. cbn [Nat.eqb Nat.leb]. unfold wrow.
  induction t as [|y t IH]; [reflexivity|]. cbn [map bm_insert bs_insert].
  destruct (bytes_cmp k y) eqn:E; cbn [map]; [|reflexivity|f_equal; exact IH].
  apply bytes_cmp_eq in E. subst. reflexivity.
Qed.

Lemma del_row t k : List.length k = 32 -> lm_del (wrow t) k = wrow (rdel t k).
Proof.
  intros H. unfold lm_del, rdel. rewrite H. cbn [Nat.eqb]. unfold wrow.
  induction t as [|y t IH]; [reflexivity|]. cbn [map bm_remove bs_remove].
  destruct (bytes_cmp k y) eqn:E; cbn [map]; [reflexivity|reflexivity|f_equal; exact IH].
Qed.

Lemma enc_len a b c d : List.length (enc a b c d) = 32.
Proof. unfold enc. rewrite !app_length, !to_be_length. reflexivity. Qed.

(** ** Writability is kept *)
Lemma oksn_sput t k v : oksn t -> valid_str k -> is_u64 v -> oksn (sput t k v).
Proof.
  intros Ht Hk Hv. unfold sput. destruct (key_storable k); [|exact Ht].
  apply Forall_forall. intros p Hp. destruct (in_bm_insert _ _ _ _ _ Hp) as [->|H]; [split; assumption|].
  exact (proj1 (Forall_forall _ _) Ht p H).
Qed.
Lemma oksn_sdel t k : oksn t -> oksn (sdel t k).
Proof.
  intros Ht. unfold sdel. destruct (key_readable k); [|exact Ht].
  apply Forall_forall. intros p Hp. apply (proj1 (Forall_forall _ _) Ht p), (in_bm_remove _ _ _ _ Hp).
Qed.
Lemma okns_nput t n s : okns t -> is_u64 n -> valid_str s -> okns (nput t n s).
Proof.
  intros Ht Hk Hv. unfold nput.
  apply Forall_forall. intros p Hp. destruct (in_bm_insert _ _ _ _ _ Hp) as [->|H]; [split; assumption|].
  exact (proj1 (Forall_forall _ _) Ht p H).
Qed.
Lemma okns_ndel t n : okns t -> okns (ndel t n).
Proof.
  intros Ht. unfold ndel.
  apply Forall_forall. intros p Hp. apply (proj1 (Forall_forall _ _) Ht p), (in_bm_remove _ _ _ _ Hp).
Qed.
Lemma rows_put t k : Forall is_row t -> is_row k -> Forall is_row (rput t k).
Proof.
  intros Ht Hk. apply Forall_forall. intros x Hx. apply in_rput in Hx as [->|Hx]; [exact Hk|].
  exact (proj1 (Forall_forall _ _) Ht x Hx).
Qed.
Lemma in_bs_remove {A} (cmp : A -> A -> comparison) x y : forall t, In y (bs_remove cmp x t) -> In y t.
Proof. induction t as [|z t IH]; cbn [bs_remove]; [intros []|]. destruct (cmp x z); cbn [In]; intuition. Qed.
Lemma rows_del t k : Forall is_row t -> Forall is_row (rdel t k).
Proof.
  intros Ht. apply Forall_forall. intros x Hx. apply (proj1 (Forall_forall _ _) Ht x), (in_bs_remove _ _ _ _ Hx).
Qed.

Lemma sget_u64 t k v : oksn t -> sget t k = Ok (Some v) -> is_u64 v.
Proof.
  intros Ht. unfold sget. destruct (key_readable k); [|discriminate]. intros E. injection E as E.
  destruct (bm_get_in _ _ _ _ E) as [k' Hin]. exact (proj2 (proj1 (Forall_forall _ _) Ht _ Hin)).
Qed.

Lemma add1_u64 n m : u64_add1 n = Some m -> is_u64 m.
Proof.
  unfold u64_add1. destruct (N.ltb_spec n u64_max) as [H|H]; [|discriminate].
  intros E. injection E as <-. unfold is_u64. unfold u64_max in H. lia.
Qed.

Lemma valid_id : valid_str id_key.
Proof. apply lit_valid. Qed.

Lemma zero_u64 : is_u64 0.
Proof. reflexivity. Qed.

Lemma writable_new : writable heed_new.
Proof. split; constructor. Qed.

(** ** Reading calls *)
Lemma names_loop_acc t : oksn t -> forall acc, names_loop (wsn t) acc = Ok (acc ++ map fst t).
Proof.
  induction t as [|[k v] t IH]; intros Ht acc; [cbn; rewrite app_nil_r; reflexivity|].
  inversion Ht as [|x l [Hk Hv] Hl]; subst. cbn [fst snd] in Hk, Hv.
  change (wsn ((k, v) :: t)) with ((utf8 k, to_be_bytes v) :: wsn t). cbn [names_loop map fst].
  unfold str_decode. rewrite from_utf8_complete by exact Hk. rewrite u64_decode_be by exact Hv.
  rewrite IH by exact Hl. rewrite <- app_assoc. reflexivity.
Qed.

Lemma collections_w d : writable d -> heedb_collections (write d) = heed_collections d.
Proof. intros W. unfold heedb_collections, heed_collections. cbn [write b_c2i]. rewrite names_loop_acc by apply W. reflexivity. Qed.

Lemma triples_loop_w d cid : writable d -> forall rows acc, Forall is_row rows ->
  heedb_triples_loop (write d) cid (wrow rows) acc = heed_triples_loop d cid rows acc.
Proof.
  intros W. induction rows as [|r rows IH]; intros acc Hr; [reflexivity|].
  inversion Hr as [|x l (a & b & c & e & Ha & Hb & Hc & He & ->) Hl]; subst.
  change (wrow (enc a b c e :: rows)) with ((enc a b c e, @nil N) :: wrow rows).
  cbn [heedb_triples_loop heed_triples_loop unit_decode]. rewrite decode_enc by assumption.
  destruct (N.eqb cid a); [|apply IH; exact Hl].
  change (b_i2v (write d)) with (wns (h_i2v d)).
  rewrite !db_get_ns by (try assumption; apply W).
  destruct (nget (h_i2v d) b); [|reflexivity]. destruct (nget (h_i2v d) c); [|reflexivity].
  destruct (nget (h_i2v d) e); [|reflexivity]. apply IH. exact Hl.
Qed.

Lemma triples_w d c : writable d -> valid_str c -> heedb_triples (write d) c = heed_triples d c.
Proof.
  intros W Hc. unfold heedb_triples, heed_triples. change (b_c2i (write d)) with (wsn (h_c2i d)).
  rewrite db_get_sn by (try assumption; apply W).
  destruct (sget (h_c2i d) c) as [[i|]| |]; try reflexivity. apply (triples_loop_w d i W). apply W.
Qed.

(** ** Writing calls *)
Definition btx_of {A} (t : tx A) : btx A :=
  match t with TCommit r d => BCommit r (write d) | TAbort r => BAbort r end.

Definition tx_ok {A} (t : tx A) : Prop :=
  match t with TCommit _ d => writable d | TAbort _ => True end.

Lemma add_collection_w d c : writable d -> valid_str c ->
  heedb_add_collection_tx (write d) c = btx_of (heed_add_collection_tx d c) /\ tx_ok (heed_add_collection_tx d c).
Proof.
  intros W Hc. destruct W as [Wi Wc Wic Wv Wiv Wr].
  assert (fin : forall id, is_u64 id ->
    let d1 := Heed (sput (h_ids d) id_key id) (sput (h_c2i d) c id) (nput (h_i2c d) id c) (h_v2i d) (h_i2v d)
        (h_cfst d) (h_cfts d) (h_csft d) (h_cstf d) (h_ctfs d) (h_ctsf d) in
    HeedB (lm_put (wsn (h_ids d)) (utf8 (lit "id")) (to_be_bytes id))
      (lm_put (wsn (h_c2i d)) (utf8 c) (to_be_bytes id)) (lm_put (wns (h_i2c d)) (to_be_bytes id) (utf8 c))
      (wsn (h_v2i d)) (wns (h_i2v d)) (wrow (h_cfst d)) (wrow (h_cfts d)) (wrow (h_csft d)) (wrow (h_cstf d))
      (wrow (h_ctfs d)) (wrow (h_ctsf d)) = write d1 /\ writable d1).
  { intros id Hid d1. split.
    - rewrite utf8_lit_id. rewrite !put_sn by (assumption || exact valid_id). rewrite put_ns by assumption. reflexivity.
    - split; subst d1; cbn [h_ids h_c2i h_i2c h_v2i h_i2v h_cfst]; try assumption.
      + apply oksn_sput; [assumption|exact valid_id|assumption].
      + apply oksn_sput; assumption.
      + apply okns_nput; assumption. }
  unfold heedb_add_collection_tx, heed_add_collection_tx, next_collection_id. cbn [write b_ids b_c2i b_i2c b_v2i b_i2v b_cfst b_cfts b_csft b_cstf b_ctfs b_ctsf].
  rewrite (db_get_sn (h_c2i d) c) by assumption.
  change (db_get u64_decode (wsn (h_ids d)) (utf8 (lit "id"))) with (db_get u64_decode (wsn (h_ids d)) (utf8 id_key)).
  rewrite (db_get_sn (h_ids d) id_key) by (assumption || exact valid_id).
  assert (go : match sget (h_ids d) id_key with
      | Ok (Some value) =>
          match u64_add1 value with
          | Some next_id =>
              BCommit (Ok tt) (HeedB (lm_put (wsn (h_ids d)) (utf8 (lit "id")) (to_be_bytes next_id))
                (lm_put (wsn (h_c2i d)) (utf8 c) (to_be_bytes next_id)) (lm_put (wns (h_i2c d)) (to_be_bytes next_id) (utf8 c))
                (wsn (h_v2i d)) (wns (h_i2v d)) (wrow (h_cfst d)) (wrow (h_cfts d)) (wrow (h_csft d)) (wrow (h_cstf d))
                (wrow (h_ctfs d)) (wrow (h_ctsf d)))
          | None => BAbort (Panic POverflow)
          end
      | Ok None =>  BCommit (Ok tt) (HeedB (lm_put (wsn (h_ids d)) (utf8 (lit "id")) (to_be_bytes 0))
                (lm_put (wsn (h_c2i d)) (utf8 c) (to_be_bytes 0)) (lm_put (wns (h_i2c d)) (to_be_bytes 0) (utf8 c))
                (wsn (h_v2i d)) (wns (h_i2v d)) (wrow (h_cfst d)) (wrow (h_cfts d)) (wrow (h_csft d)) (wrow (h_cstf d))
                (wrow (h_ctfs d)) (wrow (h_ctsf d)))
      | _ => BAbort (Panic PTodo)
      end = btx_of (match next_collection_id d with
            | Ok (id, d1) => TCommit (Ok tt)
              (Heed (h_ids d1) (sput (h_c2i d1) c id) (nput (h_i2c d1) id c) (h_v2i d1) (h_i2v d1)
               (h_cfst d1) (h_cfts d1) (h_csft d1) (h_cstf d1) (h_ctfs d1) (h_ctsf d1))
            | Err e => TAbort (Err e)
            | Panic w => TAbort (Panic w)
            end) /\ tx_ok (match next_collection_id d with
            | Ok (id, d1) => TCommit (A := unit) (Ok tt)
              (Heed (h_ids d1) (sput (h_c2i d1) c id) (nput (h_i2c d1) id c) (h_v2i d1) (h_i2v d1)
               (h_cfst d1) (h_cfts d1) (h_csft d1) (h_cstf d1) (h_ctfs d1) (h_ctsf d1))
            | Err e => TAbort (Err e)
            | Panic w => TAbort (Panic w)
            end)).
  { unfold next_collection_id. destruct (sget (h_ids d) id_key) as [[v|]| |] eqn:Eg; try (split; [reflexivity|exact I]).
    - destruct (u64_add1 v) as [n|] eqn:Ea; [|split; [reflexivity|exact I]].
      destruct (fin n (add1_u64 _ _ Ea)) as [F1 F2]. cbn [btx_of tx_ok h_ids h_c2i h_i2c h_v2i h_i2v h_cfst h_cfts h_csft h_cstf h_ctfs h_ctsf].
      split; [f_equal; exact F1|exact F2].
    - destruct (fin 0%N zero_u64) as [F1 F2]. cbn [btx_of tx_ok h_ids h_c2i h_i2c h_v2i h_i2v h_cfst h_cfts h_csft h_cstf h_ctfs h_ctsf].
      split; [f_equal; exact F1|exact F2]. }
  destruct (sget (h_c2i d) c) as [[i|]| |]; [split; [reflexivity|exact I]|exact go|exact go|exact go].
Qed.

Lemma remove_collection_w d c : writable d -> valid_str c ->
  heedb_remove_collection_tx (write d) c = btx_of (heed_remove_collection_tx d c) /\ tx_ok (heed_remove_collection_tx d c).
Proof.
  intros W Hc. destruct W as [Wi Wc Wic Wv Wiv Wr].
  unfold heedb_remove_collection_tx, heed_remove_collection_tx. cbn [write b_ids b_c2i b_i2c b_v2i b_i2v b_cfst b_cfts b_csft b_cstf b_ctfs b_ctsf].
  rewrite db_get_sn by assumption.
  destruct (sget (h_c2i d) c) as [[i|]| |] eqn:Eg; try (split; [reflexivity|exact I]).
  pose proof (sget_u64 _ _ _ Wc Eg) as Hi. rewrite del_sn, del_ns by assumption. split; [reflexivity|].
  cbn [tx_ok]. split; cbn [h_ids h_c2i h_i2c h_v2i h_i2v h_cfst]; try assumption; [apply oksn_sdel; assumption|apply okns_ndel; assumption].
Qed.

Definition res_of {A} (r : tres (A * heed)) : tres (A * heedb) :=
  match r with Ok (a, d) => Ok (a, write d) | Err e => Err e | Panic w => Panic w end.

Lemma intern_w d k v : writable d -> valid_str v ->
  internb (write d) k v = res_of (intern d k v)
  /\ (forall id k' d', is_u64 k -> intern d k v = Ok (id, k', d') ->
      writable d' /\ is_u64 id /\ is_u64 k').
Proof.
  intros W Hv. destruct W as [Wi Wc Wic Wv Wiv Wr].
  unfold internb, intern. cbn [write b_ids b_c2i b_i2c b_v2i b_i2v b_cfst b_cfts b_csft b_cstf b_ctfs b_ctsf].
  rewrite db_get_sn by assumption.
  assert (go : match u64_add1 k with
      | None => Panic POverflow
      | Some value_id' =>
          Ok (value_id', value_id',
              HeedB (wsn (h_ids d)) (wsn (h_c2i d)) (wns (h_i2c d))
                (lm_put (wsn (h_v2i d)) (utf8 v) (to_be_bytes value_id'))
                (lm_put (wns (h_i2v d)) (to_be_bytes value_id') (utf8 v))
                (wrow (h_cfst d)) (wrow (h_cfts d)) (wrow (h_csft d)) (wrow (h_cstf d)) (wrow (h_ctfs d)) (wrow (h_ctsf d)))
      end = res_of (match u64_add1 k with
      | None => Panic POverflow
      | Some value_id' =>
          Ok (value_id', value_id',
              Heed (h_ids d) (h_c2i d) (h_i2c d) (sput (h_v2i d) v value_id')
                (nput (h_i2v d) value_id' v)
                (h_cfst d) (h_cfts d) (h_csft d) (h_cstf d) (h_ctfs d) (h_ctsf d))
      end) /\ (forall id k' d', is_u64 k -> match u64_add1 k with
      | None => Panic POverflow
      | Some value_id' =>
          Ok (value_id', value_id',
              Heed (h_ids d) (h_c2i d) (h_i2c d) (sput (h_v2i d) v value_id')
                (nput (h_i2v d) value_id' v)
                (h_cfst d) (h_cfts d) (h_csft d) (h_cstf d) (h_ctfs d) (h_ctsf d))
      end = @Ok str _ (id, k', d') -> writable d' /\ is_u64 id /\ is_u64 k')).
  { destruct (u64_add1 k) as [n|] eqn:Ea; [|split; [reflexivity|discriminate]].
    pose proof (add1_u64 _ _ Ea) as Hn. split.
    - rewrite put_sn, put_ns by assumption. reflexivity.
    - intros id k' d' Hk E. injection E as <- <- <-. split; [|split; assumption].
      split; cbn [h_ids h_c2i h_i2c h_v2i h_i2v h_cfst]; try assumption; [apply oksn_sput|apply okns_nput]; assumption. }
  destruct (sget (h_v2i d) v) as [[i|]| |] eqn:Eg; [|exact go|exact go|exact go].
  split; [reflexivity|]. intros id k' d' Hk E. injection E as <- <- <-.
  split; [split; assumption|]. split; [exact (sget_u64 _ _ _ Wv Eg)|exact Hk].
Qed.

Lemma add_loop_w cid : is_u64 cid -> forall ts d k, writable d -> is_u64 k -> Forall valid_trip ts ->
  heedb_add_loop (write d) cid k ts
    = match heed_add_loop d cid k ts with Ok d' => Ok (write d') | Err e => Err e | Panic w => Panic w end
  /\ (forall d', heed_add_loop d cid k ts = Ok d' -> writable d').
Proof.
  intros Hcid. induction ts as [|t ts IH]; intros d k W Hk Hts.
  { split; [reflexivity|]. intros d' E. injection E as <-. exact W. }
  inversion Hts as [|x l (V0 & V1 & V2) Hl]; subst. cbn [heedb_add_loop heed_add_loop].
  destruct (intern_w d k (t0 t) W V0) as [E0 N0]. rewrite E0.
  destruct (intern d k (t0 t)) as [[[fid k1] d1]| |] eqn:I0; cbn [res_of]; [|split; [reflexivity|discriminate]|split; [reflexivity|discriminate]].
  destruct (N0 _ _ _ Hk eq_refl) as (W1 & Hf & Hk1).
  destruct (intern_w d1 k1 (t1 t) W1 V1) as [E1 N1]. rewrite E1.
  destruct (intern d1 k1 (t1 t)) as [[[sid k2] d2]| |] eqn:I1; cbn [res_of]; [|split; [reflexivity|discriminate]|split; [reflexivity|discriminate]].
  destruct (N1 _ _ _ Hk1 eq_refl) as (W2 & Hs & Hk2).
  destruct (intern_w d2 k2 (t2 t) W2 V2) as [E2 N2]. rewrite E2.
  destruct (intern d2 k2 (t2 t)) as [[[tid k3] d3]| |] eqn:I2; cbn [res_of]; [|split; [reflexivity|discriminate]|split; [reflexivity|discriminate]].
  destruct (N2 _ _ _ Hk2 eq_refl) as (W3 & Ht & Hk3).
  rewrite row_keys_enc. cbn [write b_ids b_c2i b_i2c b_v2i b_i2v b_cfst b_cfts b_csft b_cstf b_ctfs b_ctsf].
  rewrite utf8_lit_id, put_sn by (exact valid_id || apply W3). rewrite !put_row by apply enc_len.
  match goal with |- context [heed_add_loop ?d4 cid k3 ts] => set (d4' := d4) end.
  assert (W4 : writable d4').
  { destruct W3 as [Wi Wc Wic Wv Wiv Wr].
    split; subst d4'; cbn [h_ids h_c2i h_i2c h_v2i h_i2v h_cfst]; try assumption.
    - apply oksn_sput; [assumption|exact valid_id|assumption].
    - apply rows_put; [assumption|]. exists cid, fid, sid, tid. auto. }
  exact (IH d4' k3 W4 Hk3 Hl).
Qed.

Lemma add_triples_w d c ts : writable d -> valid_str c -> Forall valid_trip ts ->
  heedb_add_triples_tx (write d) c ts = btx_of (heed_add_triples_tx d c ts) /\ tx_ok (heed_add_triples_tx d c ts).
Proof.
  intros W Hc Hts. pose proof W as [Wi Wc Wic Wv Wiv Wr].
  unfold heedb_add_triples_tx, heed_add_triples_tx.
  change (b_c2i (write d)) with (wsn (h_c2i d)). change (b_ids (write d)) with (wsn (h_ids d)).
  rewrite (db_get_sn (h_c2i d) c) by assumption. rewrite utf8_lit_id, (db_get_sn (h_ids d) id_key) by (assumption || exact valid_id).
  destruct (sget (h_c2i d) c) as [[i|]| |] eqn:Eg; try (split; [reflexivity|exact I]).
  destruct (sget (h_ids d) id_key) as [[k|]| |] eqn:Ek; try (split; [reflexivity|exact I]).
  destruct (add_loop_w i (sget_u64 _ _ _ Wc Eg) ts d k W (sget_u64 _ _ _ Wi Ek) Hts) as [E N]. rewrite E.
  destruct (heed_add_loop d i k ts) as [d'| |]; (split; [reflexivity|]); try exact I.
  exact (N d' eq_refl).
Qed.

Lemma remove_loop_w cid : is_u64 cid -> forall ts d, writable d -> Forall valid_trip ts ->
  heedb_remove_loop (write d) cid ts
    = match heed_remove_loop d cid ts with Ok d' => Ok (write d') | Err e => Err e | Panic w => Panic w end
  /\ (forall d', heed_remove_loop d cid ts = Ok d' -> writable d').
Proof.
  intros Hcid. induction ts as [|t ts IH]; intros d W Hts.
  { split; [reflexivity|]. intros d' E. injection E as <-. exact W. }
  inversion Hts as [|x l (V0 & V1 & V2) Hl]; subst. cbn [heedb_remove_loop heed_remove_loop].
  pose proof W as [Wi Wc Wic Wv Wiv Wr]. change (b_v2i (write d)) with (wsn (h_v2i d)).
  rewrite !db_get_sn by assumption.
  destruct (sget (h_v2i d) (t0 t)) as [[fid|]| |] eqn:E0; try (split; [reflexivity|discriminate]).
  destruct (sget (h_v2i d) (t1 t)) as [[sid|]| |] eqn:E1; try (split; [reflexivity|discriminate]).
  destruct (sget (h_v2i d) (t2 t)) as [[tid|]| |] eqn:E2; try (split; [reflexivity|discriminate]).
  rewrite row_keys_enc. cbn [write b_ids b_c2i b_i2c b_v2i b_i2v b_cfst b_cfts b_csft b_cstf b_ctfs b_ctsf].
  rewrite !del_row by apply enc_len.
  match goal with |- context [heed_remove_loop ?d4 cid ts] => set (d4' := d4) end.
  assert (W4 : writable d4').
  { split; subst d4'; cbn [h_ids h_c2i h_i2c h_v2i h_i2v h_cfst]; try assumption. apply rows_del. assumption. }
  exact (IH d4' W4 Hl).
Qed.

Lemma remove_triples_w d c ts : writable d -> valid_str c -> Forall valid_trip ts ->
  heedb_remove_triples_tx (write d) c ts = btx_of (heed_remove_triples_tx d c ts) /\ tx_ok (heed_remove_triples_tx d c ts).
Proof.
  intros W Hc Hts. pose proof W as [Wi Wc Wic Wv Wiv Wr].
  unfold heedb_remove_triples_tx, heed_remove_triples_tx.
  change (b_c2i (write d)) with (wsn (h_c2i d)).
  rewrite (db_get_sn (h_c2i d) c) by assumption.
  destruct (sget (h_c2i d) c) as [[i|]| |] eqn:Eg; try (split; [reflexivity|exact I]).
  destruct (remove_loop_w i (sget_u64 _ _ _ Wc Eg) ts d W Hts) as [E N]. rewrite E.
  destruct (heed_remove_loop d i ts) as [d'| |]; (split; [reflexivity|]); try exact I.
  exact (N d' eq_refl).
Qed.

(** ** Histories *)
Lemma run_w {A} b d (t : tx A) : writable d -> tx_ok t ->
  run_btx b (write d) (btx_of t) = (fst (run_tx b d t), write (snd (run_tx b d t))) /\ writable (snd (run_tx b d t)).
Proof. intros W T. destruct t as [r d'|r]; cbn; destruct b; auto. Qed.

Lemma call_w b d o : writable d -> valid_op o ->
  call_op (heedb_impl_c b) (write d) o = (fst (call_op (heed_impl_c b) d o), write (snd (call_op (heed_impl_c b) d o)))
  /\ writable (snd (call_op (heed_impl_c b) d o)).
Proof.
  intros W V. destruct o as [c|c|c ts|c ts]; cbn [call_op heedb_impl_c heed_impl_c t_add_collection t_remove_collection t_add_triples t_remove_triples];
    unfold heedb_add_collection, heed_add_collection, heedb_remove_collection, heed_remove_collection,
      heedb_add_triples, heed_add_triples, heedb_remove_triples, heed_remove_triples; cbn [fst].
  - destruct (add_collection_w d c W V) as [E T]. rewrite E. apply run_w; assumption.
  - destruct (remove_collection_w d c W V) as [E T]. rewrite E. apply run_w; assumption.
  - destruct V as [V1 V2]. destruct (add_triples_w d c ts W V1 V2) as [E T]. rewrite E. apply run_w; assumption.
  - destruct V as [V1 V2]. destruct (remove_triples_w d c ts W V1 V2) as [E T]. rewrite E. apply run_w; assumption.
Qed.

Lemma after_w h : forall d, writable d -> Forall (fun ob => valid_op (fst ob)) h ->
  after_f heedb_impl_c (write d) h = write (after_f heed_impl_c d h) /\ writable (after_f heed_impl_c d h).
Proof.
  induction h as [|[o b] h IH]; intros d W V; [split; [reflexivity|exact W]|].
  inversion V as [|x l Vo Vh]; subst. cbn [after_f]. destruct (call_w b d o W Vo) as [E W'].
  rewrite E. cbn [snd]. apply IH; assumption.
Qed.

Lemma installed_w h : forall d, writable d -> Forall (fun ob => valid_op (fst ob)) h ->
  installed heedb_impl_c (write d) h = installed heed_impl_c d h.
Proof.
  induction h as [|[o b] h IH]; intros d W V; [reflexivity|].
  inversion V as [|x l Vo Vh]; subst. cbn [installed]. destruct (call_w b d o W Vo) as [E W'].
  rewrite E. destruct (call_op (heed_impl_c b) d o) as [r d']. cbn [fst snd] in *.
  destruct r; [destruct b; [f_equal|]| |]; apply IH; assumption.
Qed.

(** ** The written form, record by record *)
Lemma written_write d : writable d -> written (write d) d.
Proof.
  intros [Wi Wc Wic Wv Wiv Wr].
  assert (SN : forall t, oksn t -> Forall2 name_id (wsn t) t).
  { induction 1 as [|[k v] t [Hk Hv] _ IH]; [constructor|]. constructor; [|exact IH].
    split; [reflexivity|]. apply encodes_be. exact Hv. }
  assert (NS : forall t, okns t -> Forall2 id_name (wns t) t).
  { induction 1 as [|[k v] t [Hk Hv] _ IH]; [constructor|]. constructor; [|exact IH].
    split; [|reflexivity]. apply encodes_be. exact Hk. }
  assert (RW : forall t, Forall2 row_only (wrow t) t).
  { induction t as [|k t IH]; constructor; [reflexivity|exact IH]. }
  split; cbn [write b_ids b_c2i b_i2c b_v2i b_i2v b_cfst b_cfts b_csft b_cstf b_ctfs b_ctsf]; auto.
Qed.

Lemma utf8_inj a b : valid_str a -> valid_str b -> utf8 a = utf8 b -> a = b.
Proof. intros Ha Hb E. apply from_utf8_complete in Ha, Hb. rewrite E in Ha. congruence. Qed.

Lemma be_inj a b : is_u64 a -> is_u64 b -> to_be_bytes a = to_be_bytes b -> a = b.
Proof.
  intros Ha Hb E. apply encodes_be in Ha, Hb. rewrite E in Ha. destruct Ha as (_ & _ & <-). destruct Hb as (_ & _ & ->). reflexivity.
Qed.

Lemma in_wsn t k v : In (k, v) (wsn t) <-> exists c i, In (c, i) t /\ k = utf8 c /\ v = to_be_bytes i.
Proof.
  unfold wsn, encm. rewrite in_map_iff. split.
  - intros ([c i] & E & H). injection E as <- <-. eauto.
  - intros (c & i & H & -> & ->). exists (c, i). auto.
Qed.
Lemma in_wns t k v : In (k, v) (wns t) <-> exists i c, In (i, c) t /\ k = to_be_bytes i /\ v = utf8 c.
Proof.
  unfold wns, encm. rewrite in_map_iff. split.
  - intros ([c i] & E & H). injection E as <- <-. eauto.
  - intros (c & i & H & -> & ->). exists (c, i). auto.
Qed.
Lemma in_wrow t k v : In (k, v) (wrow t) <-> In k t /\ v = [].
Proof.
  unfold wrow. rewrite in_map_iff. split.
  - intros (r & E & H). injection E as <- <-. auto.
  - intros [H ->]. eauto.
Qed.

Lemma in_wsn_key t c v : oksn t -> valid_str c -> (In (utf8 c, v) (wsn t) <-> exists i, In (c, i) t /\ v = to_be_bytes i).
Proof.
  intros Ht Hc. rewrite in_wsn. split; [|intros (i & H & ->); eauto].
  intros (c' & i & H & E & ->). apply utf8_inj in E; [subst; eauto|exact Hc|].
  exact (proj1 (proj1 (Forall_forall _ _) Ht _ H)).
Qed.
Lemma in_wns_val t k v : okns t -> valid_str v -> (In (k, utf8 v) (wns t) <-> exists i, In (i, v) t /\ k = to_be_bytes i).
Proof.
  intros Ht Hc. rewrite in_wns. split; [|intros (i & H & ->); eauto].
  intros (i & c' & H & -> & E). apply utf8_inj in E; [subst; eauto|exact Hc|].
  exact (proj2 (proj1 (Forall_forall _ _) Ht _ H)).
Qed.

Lemma file_row d c t : inv d -> writable d -> valid_str c -> valid_trip t ->
  (exists lc lf ls lt, record (b_c2i (write d)) (utf8 c) lc
      /\ record (b_i2v (write d)) lf (utf8 (t0 t)) /\ record (b_i2v (write d)) ls (utf8 (t1 t))
      /\ record (b_i2v (write d)) lt (utf8 (t2 t))
      /\ record (b_cfst (write d)) (lc ++ lf ++ ls ++ lt) [])
  <-> exists i, sg c (h_c2i d) = Some i /\ vrow d i t.
Proof.
  intros I W Hc (V0 & V1 & V2). pose proof (iv_b _ I) as B. unfold record. cbn [write b_c2i b_i2v b_cfst].
  pose proof (iv_c2i_map _ _ B) as M1. pose proof (iv_i2v_map _ _ B) as M4. unfold vrow. split.
  - intros (lc & lf & ls & lt & H0 & H1 & H2 & H3 & H4).
    apply in_wsn_key in H0 as (i & H0 & ->); [|apply W|exact Hc].
    apply in_wns_val in H1 as (f & H1 & ->); [|apply W|assumption].
    apply in_wns_val in H2 as (s & H2 & ->); [|apply W|assumption].
    apply in_wns_val in H3 as (e & H3 & ->); [|apply W|assumption].
    apply in_wrow in H4 as [H4 _]. exists i. split; [apply (P_Ord.bm_get_in str_order); assumption|].
    exists f, s, e. repeat split; try (apply (P_Ord.bm_get_in N_order); assumption). exact H4.
  - intros (i & H0 & f & s & e & H4 & H1 & H2 & H3).
    exists (to_be_bytes i), (to_be_bytes f), (to_be_bytes s), (to_be_bytes e).
    apply (P_Ord.bm_get_in str_order) in H0; [|exact M1]. apply (P_Ord.bm_get_in N_order) in H1, H2, H3; try exact M4.
    split; [apply in_wsn_key; [apply W|exact Hc|eauto]|].
    split; [apply in_wns_val; [apply W|assumption|eauto]|].
    split; [apply in_wns_val; [apply W|assumption|eauto]|].
    split; [apply in_wns_val; [apply W|assumption|eauto]|].
    apply in_wrow. split; [exact H4|reflexivity].
Qed.

(** ** Histories *)
Lemma write_new : write heed_new = heedb_new.
Proof. reflexivity. Qed.

Lemma file_w h : valid_history h ->
  after_f heedb_impl_c heedb_new h = write (hafter heed_new h)
  /\ writable (hafter heed_new h)
  /\ installed heedb_impl_c heedb_new h = installed heed_impl_c heed_new h.
Proof.
  intros V. rewrite <- write_new. destruct (after_w h heed_new writable_new V) as [E W].
  split; [exact E|]. split; [exact W|]. apply installed_w; [exact writable_new|exact V].
Qed.

Lemma file_written h : valid_history h -> written (after_f heedb_impl_c heedb_new h) (after_f heed_impl_c heed_new h).
Proof. intros V. destruct (file_w h V) as (-> & W & _). apply written_write, W. Qed.

Lemma file_answers h b o c : valid_history h -> valid_op o -> valid_str c ->
  let f := after_f heedb_impl_c heedb_new h in
  let d := after_f heed_impl_c heed_new h in
  fst (call_op (heedb_impl_c b) f o) = fst (call_op (heed_impl_c b) d o)
  /\ t_collections (heedb_impl_c b) f = t_collections (heed_impl_c b) d
  /\ t_triples (heedb_impl_c b) f c = t_triples (heed_impl_c b) d c.
Proof.
  intros V Vo Vc f d. unfold f, d. destruct (file_w h V) as (-> & W & _).
  destruct (call_w b _ o W Vo) as [E _]. rewrite E. split; [reflexivity|].
  split; [apply collections_w, W|apply triples_w; assumption].
Qed.

Lemma file_contents h : valid_history h ->
  let H := installed heedb_impl_c heedb_new h in
  let f := after_f heedb_impl_c heedb_new h in
  (exists l, t_collections heedb_impl f = Ok l /\ is_set str_lt l
             /\ forall c, In c l <-> storable c /\ live H c)
  /\ (forall c, valid_str c -> storable c -> live H c ->
      exists l, t_triples heedb_impl f c = Ok l /\ is_set trip_lt l /\ forall t, In t l <-> holds_after H c t)
  /\ (forall c, valid_str c -> ~ (storable c /\ live H c) -> exists w, t_triples heedb_impl f c = Panic w).
Proof.
  intros V H f. unfold H, f. destruct (file_w h V) as (-> & W & ->).
  destruct (heed_history h) as ((l & A1 & A2 & A3) & A4 & A5).
  split; [exists l; split; [rewrite <- A1; apply collections_w, W|auto]|].
  split.
  - intros c Hc Hs Hl. destruct (A4 c Hs Hl) as (m & B1 & B2 & B3). exists m. split; [rewrite <- B1; apply triples_w; assumption|auto].
  - intros c Hc Hn. destruct (A5 c Hn) as (w & B1). exists w. rewrite <- B1. apply triples_w; assumption.
Qed.

Lemma file_records h : valid_history h ->
  let H := installed heedb_impl_c heedb_new h in
  let f := after_f heedb_impl_c heedb_new h in
  (forall c, valid_str c -> (storable c /\ live H c <-> exists id, record (b_c2i f) (utf8 c) id))
  /\ (forall c t, valid_str c -> valid_trip t ->
      (holds_after H c t <->
       exists lc lf ls lt, record (b_c2i f) (utf8 c) lc
         /\ record (b_i2v f) lf (utf8 (t0 t)) /\ record (b_i2v f) ls (utf8 (t1 t))
         /\ record (b_i2v f) lt (utf8 (t2 t))
         /\ record (b_cfst f) (lc ++ lf ++ ls ++ lt) [])).
Proof.
  intros V H f. unfold H, f. destruct (file_w h V) as (-> & W & ->).
  pose proof (heed_simulates h) as SM. pose proof (inv_reach h) as I.
  pose proof (iv_c2i_map _ _ (iv_b _ I)) as M1. split.
  - intros c Hc. rewrite <- (sm_coll _ _ SM). unfold record. cbn [write b_c2i]. split.
    + intros (i & E). exists (to_be_bytes i). apply in_wsn_key; [apply W|exact Hc|]. exists i.
      split; [apply (P_Ord.bm_get_in str_order); assumption|reflexivity].
    + intros (k & E). apply in_wsn_key in E as (i & E & _); [|apply W|exact Hc]. exists i. apply (P_Ord.bm_get_in str_order); assumption.
  - intros c t Hc Ht. rewrite (file_row _ c t I W Hc Ht). split.
    + intros Hh. assert (Hs : storable c) by (eapply (sm_dead _ _ SM), Hh).
      assert (exists i, sg c (h_c2i (hafter heed_new h)) = Some i) as [i E].
      { apply (sm_coll _ _ SM). split; [exact Hs|]. eapply holds_after_live, Hh. }
      exists i. split; [exact E|]. apply (sm_row _ _ SM _ _ _ E), Hh.
    + intros (i & E & Hv). apply (sm_row _ _ SM _ _ _ E), Hv.
Qed.

(** ** The shape of the file *)
Lemma lt_utf8 a b : valid_str a -> valid_str b -> str_lt a b -> bytes_lt (utf8 a) (utf8 b).
Proof. intros Ha Hb L. apply (o_lt _ _ bytes_order). rewrite cmp_utf8 by assumption. apply (o_lt _ _ str_order), L. Qed.
Lemma lt_be a b : is_u64 a -> is_u64 b -> (a < b)%N -> bytes_lt (to_be_bytes a) (to_be_bytes b).
Proof. intros Ha Hb L. apply (o_lt _ _ bytes_order). rewrite cmp_be by assumption. exact L. Qed.

Lemma sorted_enc {K V} (lt : K -> K -> Prop) (e : K -> bytes) (g : V -> bytes) (P : K -> Prop) :
  (forall a b, P a -> P b -> lt a b -> bytes_lt (e a) (e b)) ->
  forall t, Forall (fun p => P (fst p)) t -> is_set lt (map fst t) -> is_set bytes_lt (map fst (encm e g t)).
Proof.
  intros He. unfold is_set. induction 1 as [|[k v] t Hk Ht IH]; intros Hs; [constructor|].
  cbn [encm map fst snd] in *. inversion Hs as [|x l Hl Hf]; subst. constructor; [apply IH, Hl|].
  apply Forall_forall. intros y Hy. apply in_map_iff in Hy as (p & <- & Hp). apply in_map_iff in Hp as ([k' v'] & <- & Hp).
  cbn [fst snd]. apply He; [exact Hk|exact (proj1 (Forall_forall _ _) Ht _ Hp)|].
  apply (proj1 (Forall_forall _ _) Hf). apply (in_map fst) in Hp. exact Hp.
Qed.

Lemma map_fst_wrow t : map fst (wrow t) = t.
Proof. unfold wrow. rewrite map_map. cbn [fst]. apply map_id. Qed.

Lemma file_sorted h t : valid_history h -> In t (tables (after_f heedb_impl_c heedb_new h)) ->
  is_set bytes_lt (map fst t).
Proof.
  intros V. destruct (file_w h V) as (-> & W & _). pose proof (inv_reach h) as I. pose proof (iv_b _ I) as B.
  cbn [tables write b_ids b_c2i b_i2c b_v2i b_i2v b_cfst b_cfts b_csft b_cstf b_ctfs b_ctsf In].
  assert (SN : forall u, oksn u -> is_map (lt := str_lt) u -> is_set bytes_lt (map fst (wsn u))).
  { intros u Hu Hm. apply (sorted_enc str_lt utf8 to_be_bytes valid_str lt_utf8); [apply oksn_keys, Hu|exact Hm]. }
  assert (NS : forall u, okns u -> is_map (lt := N.lt) u -> is_set bytes_lt (map fst (wns u))).
  { intros u Hu Hm. apply (sorted_enc N.lt to_be_bytes utf8 is_u64 lt_be); [apply okns_keys, Hu|exact Hm]. }
  intros [<-|[<-|[<-|[<-|[<-|[<-|[<-|[<-|[<-|[<-|[<-|[]]]]]]]]]]]];
  rewrite ?map_fst_wrow; try (apply SN; [apply W|]); try (apply NS; [apply W|]); try apply I; apply B.
Qed.

Lemma ids_only_call b d o : (forall k n, In (k, n) (h_ids d) -> k = id_key) ->
  forall k n, In (k, n) (h_ids (snd (call_op (heed_impl_c b) d o))) -> k = id_key.
Proof.
  intros H0.
  assert (P : forall d' n k m, (forall k n, In (k, n) (h_ids d') -> k = id_key) -> In (k, m) (sput (h_ids d') id_key n) -> k = id_key).
  { intros d' n k m Hd. unfold sput. destruct (key_storable id_key); [|apply Hd].
    intros Hi. apply in_bm_insert in Hi as [Hi|Hi]; [injection Hi as -> _; reflexivity|eapply Hd, Hi]. }
  assert (N : forall d' k0 v id k1 d'', intern d' k0 v = Ok (id, k1, d'') -> h_ids d'' = h_ids d').
  { intros d' k0 v id k1 d''. unfold intern. destruct (sget (h_v2i d') v) as [[i|]| |];
    [intros E; injection E as <- <- <-; reflexivity| | |]; (destruct (u64_add1 k0); [|discriminate]; intros E; injection E as <- <- <-; reflexivity). }
  assert (A : forall cid ts d' k0 d'', (forall k n, In (k, n) (h_ids d') -> k = id_key) ->
     heed_add_loop d' cid k0 ts = Ok d'' -> forall k n, In (k, n) (h_ids d'') -> k = id_key).
  { intros cid ts. induction ts as [|t ts IH]; intros d' k0 d'' Hd; cbn [heed_add_loop]; [intros E; injection E as <-; exact Hd|].
    destruct (intern d' k0 (t0 t)) as [[[fid v1] d1]|e|w] eqn:E1; try discriminate.
    destruct (intern d1 v1 (t1 t)) as [[[sid v2] d2]|e|w] eqn:E2; try discriminate.
    destruct (intern d2 v2 (t2 t)) as [[[tid v3] d3]|e|w] eqn:E3; try discriminate.
    apply N in E1, E2, E3.
    destruct (row_keys cid fid sid tid) as [[[[[[k1 k2] k3] k4] k5] k6]|]; [|discriminate].
    intros E. eapply IH; [|exact E]. cbn [h_ids]. intros k n. apply P. rewrite E3, E2, E1. exact Hd. }
  assert (R : forall cid ts d' d'', heed_remove_loop d' cid ts = Ok d'' -> h_ids d'' = h_ids d').
  { intros cid ts. induction ts as [|t ts IH]; intros d' d''; cbn [heed_remove_loop]; [intros E; injection E as <-; reflexivity|].
    destruct (sget (h_v2i d') (t0 t)) as [[fid|]| |]; try discriminate.
    destruct (sget (h_v2i d') (t1 t)) as [[sid|]| |]; try discriminate.
    destruct (sget (h_v2i d') (t2 t)) as [[tid|]| |]; try discriminate.
    destruct (row_keys cid fid sid tid) as [[[[[[k1 k2] k3] k4] k5] k6]|]; [|discriminate].
    intros E. rewrite (IH _ _ E). reflexivity. }
  assert (T : forall A (t : tx A), (forall r d', t = TCommit r d' -> forall k n, In (k, n) (h_ids d') -> k = id_key) ->
     forall k n, In (k, n) (h_ids (snd (run_tx b d t))) -> k = id_key).
  { intros X t Ht. destruct t as [r d'|r]; cbn [run_tx snd]; [destruct b; [apply (Ht r d' eq_refl)|exact H0]|exact H0]. }
  destruct o as [c|c|c ts|c ts]; cbn [call_op heed_impl_c t_add_collection t_remove_collection t_add_triples t_remove_triples];
  unfold heed_add_collection, heed_remove_collection, heed_add_triples, heed_remove_triples; cbn [fst]; apply T; intros r d'.
  - unfold heed_add_collection_tx, next_collection_id. destruct (sget (h_c2i d) c) as [[i|]| |]; try discriminate;
    (destruct (sget (h_ids d) id_key) as [[v|]| |]; try discriminate;
     [destruct (u64_add1 v); [|discriminate]|]; intros E; injection E as <- <-; intros k m; cbn [h_ids]; apply P; exact H0).
  - unfold heed_remove_collection_tx. destruct (sget (h_c2i d) c) as [[i|]| |]; try discriminate.
    intros E; injection E as <- <-. exact H0.
  - unfold heed_add_triples_tx. destruct (sget (h_c2i d) c) as [[i|]| |]; try discriminate.
    destruct (sget (h_ids d) id_key) as [[v|]| |]; try discriminate.
    destruct (heed_add_loop d i v ts) as [d1| |] eqn:E1; try discriminate. intros E; injection E as <- <-. eapply A; [exact H0|exact E1].
  - unfold heed_remove_triples_tx. destruct (sget (h_c2i d) c) as [[i|]| |]; try discriminate.
    destruct (heed_remove_loop d i ts) as [d1| |] eqn:E1; try discriminate. intros E; injection E as <- <-.
    rewrite (R _ _ _ _ E1). exact H0.
Qed.

Lemma ids_only h : forall k n, In (k, n) (h_ids (hafter heed_new h)) -> k = id_key.
Proof.
  induction h as [|[o b] h IH] using rev_ind; [intros k n []|]. rewrite after_f_snoc. apply ids_only_call, IH.
Qed.

Lemma split32 (a b c d a' b' c' d' : bytes) :
  List.length a = 8 -> List.length b = 8 -> List.length c = 8 ->
  List.length a' = 8 -> List.length b' = 8 -> List.length c' = 8 ->
  a ++ b ++ c ++ d = a' ++ b' ++ c' ++ d' -> a = a' /\ b = b' /\ c = c' /\ d = d'.
Proof.
  assert (S : forall x y x' y' : bytes, List.length x = 8 -> List.length x' = 8 -> x ++ y = x' ++ y' -> x = x' /\ y = y').
  { intros x y x' y' H H' E. split.
    - apply (f_equal (firstn 8)) in E. rewrite <- H in E at 1. rewrite <- H' in E.
      rewrite !firstn_app, !Nat.sub_diag, !firstn_all, !firstn_O, !app_nil_r in E. exact E.
    - apply (f_equal (skipn 8)) in E. rewrite <- H in E at 1. rewrite <- H' in E.
      rewrite !skipn_app, !Nat.sub_diag, !skipn_all in E. exact E. }
  intros Ha Hb Hc Ha' Hb' Hc' E. apply S in E as [-> E]; try assumption. apply S in E as [-> E]; try assumption.
  apply S in E as [-> ->]; auto.
Qed.

Lemma file_shape h : valid_history h ->
  let f := after_f heedb_impl_c heedb_new h in
  (forall k v, record (b_ids f) k v -> k = utf8 (lit "id") /\ List.length v = 8)
  /\ (forall k v, record (b_c2i f) k v -> (0 < List.length k <= 511 /\ List.length v = 8) /\ record (b_i2c f) v k)
  /\ (forall k v, record (b_i2c f) k v -> List.length k = 8)
  /\ (forall k v, record (b_v2i f) k v -> (0 < List.length k <= 511 /\ List.length v = 8) /\ record (b_i2v f) v k)
  /\ (forall k v, record (b_i2v f) k v -> List.length k = 8 /\ (0 < List.length v <= 511 -> record (b_v2i f) v k))
  /\ (forall t, In t [b_cfst f; b_cfts f; b_csft f; b_cstf f; b_ctfs f; b_ctsf f] ->
      forall k v, record t k v -> List.length k = 32 /\ v = [])
  /\ (forall a b c d, List.length a = 8 -> List.length b = 8 -> List.length c = 8 -> List.length d = 8 ->
      let here := record (b_cfst f) (a ++ b ++ c ++ d) [] in
      (here <-> record (b_cfts f) (a ++ b ++ d ++ c) [])
      /\ (here <-> record (b_csft f) (a ++ c ++ b ++ d) [])
      /\ (here <-> record (b_cstf f) (a ++ c ++ d ++ b) [])
      /\ (here <-> record (b_ctfs f) (a ++ d ++ b ++ c) [])
      /\ (here <-> record (b_ctsf f) (a ++ d ++ c ++ b) [])).
Proof.
  intros V f. unfold f. destruct (file_w h V) as (-> & W & _). pose proof (inv_reach h) as I. pose proof (iv_b _ I) as B.
  pose proof (ids_only h) as IO. set (d := hafter heed_new h) in *.
  pose proof (iv_c2i_map _ _ B) as M1. pose proof (iv_i2c_map _ _ B) as M2.
  pose proof (iv_v2i_map _ _ B) as M3. pose proof (iv_i2v_map _ _ B) as M4.
  unfold record. cbn [write b_ids b_c2i b_i2c b_v2i b_i2v b_cfst b_cfts b_csft b_cstf b_ctfs b_ctsf].
  assert (ST : forall k, storable k -> 0 < List.length (utf8 k) <= 511) by (intros k [H1 H2]; lia).
  split; [|split; [|split; [|split; [|split; [|split]]]]].
  - intros k v H. apply in_wsn in H as (c & i & H & -> & ->). apply IO in H. subst c. split; [reflexivity|apply to_be_length].
  - intros k v H. apply in_wsn in H as (c & i & H & -> & ->). apply (P_Ord.bm_get_in str_order) in H; [|exact M1].
    split; [split; [apply ST, (iv_c2i_key _ _ B _ _ H)|apply to_be_length]|].
    apply in_wns. exists i, c. split; [|auto]. apply (P_Ord.bm_get_in N_order); [exact M2|]. apply (iv_c2i _ _ B), H.
  - intros k v H. apply in_wns in H as (i & c & _ & -> & _). apply to_be_length.
  - intros k v H. apply in_wsn in H as (c & i & H & -> & ->). apply (P_Ord.bm_get_in str_order) in H; [|exact M3].
    split; [split; [apply ST, (iv_v2i_key _ _ B _ _ H)|apply to_be_length]|].
    apply in_wns. exists i, c. split; [|auto]. apply (P_Ord.bm_get_in N_order); [exact M4|]. apply (iv_v2i _ _ B), H.
  - intros k v H. apply in_wns in H as (i & c & H & -> & ->). split; [apply to_be_length|]. intros Hl.
    apply in_wsn. exists c, i. split; [|auto]. apply (P_Ord.bm_get_in N_order) in H; [|exact M4].
    apply (P_Ord.bm_get_in str_order); [exact M3|]. apply (iv_i2v _ _ B); [exact H|]. split; lia.
  - intros t Ht k v H.
    assert (G : forall perm tab, index_ok perm tab (h_cfst d) -> (forall x y z w, List.length (perm x y z w) = 32) ->
      forall r, In r tab -> List.length r = 32).
    { intros perm tab Hok Hp r Hr. apply Hok in Hr as (x & y & z & w & _ & _ & _ & _ & -> & _). apply Hp. }
    destruct Ht as [<-|[<-|[<-|[<-|[<-|[<-|[]]]]]]]; apply in_wrow in H as [H ->]; (split; [|reflexivity]).
    + destruct (iv_cfst _ _ B _ H) as (x & y & z & w & _ & _ & _ & -> & _). apply enc_len.
    + eapply G; [apply (iv_cfts _ _ B)| |exact H]. intros; apply enc_len.
    + eapply G; [apply (iv_csft _ _ B)| |exact H]. intros; apply enc_len.
    + eapply G; [apply (iv_cstf _ _ B)| |exact H]. intros; apply enc_len.
    + eapply G; [apply (iv_ctfs _ _ B)| |exact H]. intros; apply enc_len.
    + eapply G; [apply (iv_ctsf _ _ B)| |exact H]. intros; apply enc_len.
  - intros a b c e Ha Hb Hc He. cbv zeta. rewrite !in_wrow.
    assert (CF : forall r, In r (h_cfst d) -> is_row r) by (intros r Hr; exact (proj1 (Forall_forall _ _) (wb_cfst _ W) r Hr)).
    assert (G : forall perm tab (k1 : bytes), index_ok perm tab (h_cfst d) ->
      (forall x y z w, a ++ b ++ c ++ e = enc x y z w -> k1 = perm x y z w) ->
      (forall x y z w, k1 = perm x y z w -> a ++ b ++ c ++ e = enc x y z w) ->
      (In (a ++ b ++ c ++ e) (h_cfst d) /\ (@nil N) = [] <-> In k1 tab /\ (@nil N) = [])).
    { intros perm tab k1 Hok P1 P2. split; intros [H _]; (split; [|reflexivity]).
      - destruct (CF _ H) as (x & y & z & w & U1 & U2 & U3 & U4 & E). apply Hok. exists x, y, z, w.
        repeat split; try assumption; [apply P1, E|rewrite <- E; exact H].
      - apply Hok in H as (x & y & z & w & U1 & U2 & U3 & U4 & E & H). rewrite (P2 _ _ _ _ E). exact H. }
    assert (L : forall n, List.length (to_be_bytes n) = 8) by apply to_be_length.
    assert (S4 : forall (x y z w : bytes) (p q r s : N), List.length x = 8 -> List.length y = 8 -> List.length z = 8 ->
      x ++ y ++ z ++ w = to_be_bytes p ++ to_be_bytes q ++ to_be_bytes r ++ to_be_bytes s ->
      x = to_be_bytes p /\ y = to_be_bytes q /\ z = to_be_bytes r /\ w = to_be_bytes s).
    { intros. apply split32; auto. }
    assert (T5 : forall A B C D E F : Prop, (A <-> B) -> (A <-> C) -> (A <-> D) -> (A <-> E) -> (A <-> F) ->
      (A <-> B) /\ (A <-> C) /\ (A <-> D) /\ (A <-> E) /\ (A <-> F)) by tauto.
    apply T5.
    + apply (G _ _ _ (iv_cfts _ _ B)); intros x y z w E; apply S4 in E as (-> & -> & -> & ->); auto.
    + apply (G _ _ _ (iv_csft _ _ B)); intros x y z w E; apply S4 in E as (-> & -> & -> & ->); auto.
    + apply (G _ _ _ (iv_cstf _ _ B)); intros x y z w E; apply S4 in E as (-> & -> & -> & ->); auto.
    + apply (G _ _ _ (iv_ctfs _ _ B)); intros x y z w E; apply S4 in E as (-> & -> & -> & ->); auto.
    + apply (G _ _ _ (iv_ctsf _ _ B)); intros x y z w E; apply S4 in E as (-> & -> & -> & ->); auto.
Qed.

(** ** Any file at all *)
Lemma names_loop_any t : forall acc l, names_loop t acc = Ok l ->
  exists m, l = acc ++ m /\ map fst t = map utf8 m /\ Forall valid_str m.
Proof.
  induction t as [|[k v] t IH]; intros acc l; cbn [names_loop].
  { intros E. injection E as <-. exists []. rewrite app_nil_r. repeat split. constructor. }
  destruct (str_decode k) as [n|] eqn:Ek; [|discriminate]. destruct (u64_decode v); [|discriminate].
  intros E. destruct (IH _ _ E) as (m & -> & Hm & Vm). apply from_utf8_iff in Ek as [Vn <-].
  exists (n :: m). rewrite <- app_assoc. cbn [map fst]. rewrite Hm. repeat split. constructor; assumption.
Qed.

Lemma names_loop_fails t : forall acc,
  (exists l, names_loop t acc = Ok l) \/
  (names_loop t acc = Panic PUnwrap
   /\ exists k v, In (k, v) t /\ ((forall s, valid_str s -> utf8 s <> k) \/ List.length v < 8)).
Proof.
  induction t as [|[k v] t IH]; intros acc; cbn [names_loop]; [left; eauto|].
  destruct (str_decode k) as [n|] eqn:Ek.
  2:{ right. split; [reflexivity|]. exists k, v. split; [left; reflexivity|]. left. intros s Vs E.
      assert (str_decode k = Some s) by (apply from_utf8_iff; auto). congruence. }
  destruct (u64_decode v) eqn:Ev.
  2:{ right. split; [reflexivity|]. exists k, v. split; [left; reflexivity|]. right. unfold u64_decode in Ev.
      destruct (Nat.leb_spec 8 (List.length v)); [discriminate|assumption]. }
  destruct (IH (acc ++ [n])) as [H|(H & k' & v' & Hi & Hb)]; [left; exact H|right].
  split; [exact H|]. exists k', v'. split; [right; exact Hi|exact Hb].
Qed.

Lemma lm_get_record t k v : lm_get t k = Ok (Some v) -> record t k v.
Proof.
  unfold lm_get. destruct (Nat.eqb (List.length k) 0); [discriminate|]. intros E. injection E as E.
  apply (bm_get_Some_in bytes_order), E.
Qed.

Lemma skip_skip {A} m : forall n (l : list A), skipn m (skipn n l) = skipn (n + m) l.
Proof. induction n as [|n IH]; intros l; [reflexivity|]. destruct l as [|x l]; [destruct m; reflexivity|apply IH]. Qed.

Lemma decode_row_any k a b c d : decode_row k = Some (a, b, c, d) ->
  exists la lb lc ld rest, k = la ++ lb ++ lc ++ ld ++ rest
    /\ List.length la = 8 /\ List.length lb = 8 /\ List.length lc = 8 /\ List.length ld = 8
    /\ be_value la = a /\ be_value lb = b /\ be_value lc = c /\ be_value ld = d.
Proof.
  intros E. destruct (Nat.leb 32 (List.length k)) eqn:HL.
  2:{ unfold decode_row, slice in E. rewrite HL in E. cbn [andb] in E.
      repeat match type of E with match (if ?c then _ else _) with _ => _ end = _ => destruct c; try discriminate end. }
  apply Nat.leb_le in HL.
  set (la := firstn 8 k). set (k1 := skipn 8 k). set (lb := firstn 8 k1). set (k2 := skipn 8 k1).
  set (lc := firstn 8 k2). set (k3 := skipn 8 k2). set (ld := firstn 8 k3). set (k4 := skipn 8 k3).
  assert (L1 : List.length k1 = List.length k - 8) by apply skipn_length.
  assert (L2 : List.length k2 = List.length k1 - 8) by apply skipn_length.
  assert (L3 : List.length k3 = List.length k2 - 8) by apply skipn_length.
  assert (La : List.length la = 8) by (unfold la; rewrite firstn_length; lia).
  assert (Lb : List.length lb = 8) by (unfold lb; rewrite firstn_length; lia).
  assert (Lc : List.length lc = 8) by (unfold lc; rewrite firstn_length; lia).
  assert (Ld : List.length ld = 8) by (unfold ld; rewrite firstn_length; lia).
  assert (Ek : k = la ++ lb ++ lc ++ ld ++ k4).
  { unfold ld, k4. rewrite firstn_skipn. unfold lc, k3. rewrite firstn_skipn. unfold lb, k2. rewrite firstn_skipn.
    unfold la, k1. rewrite firstn_skipn. reflexivity. }
  exists la, lb, lc, ld, k4. split; [exact Ek|]. repeat split; try assumption.
  all: unfold decode_row, slice in E;
    rewrite !(proj2 (Nat.leb_le _ _)) in E by lia; cbn [Nat.sub] in E;
    change (firstn 8 (skipn 0 k)) with la in E;
    assert (E1 : firstn 8 (skipn 8 k) = lb) by reflexivity;
    assert (E2 : firstn 8 (skipn 16 k) = lc) by (unfold lc, k2, k1; rewrite !skip_skip; reflexivity);
    assert (E3 : firstn 8 (skipn 24 k) = ld) by (unfold ld, k3, k2, k1; rewrite !skip_skip; reflexivity);
    rewrite E1, E2, E3 in E; rewrite !read_id_8 in E by assumption; injection E as <- <- <- <-; reflexivity.
Qed.

Definition in_file (b : heedb) (lc : bytes) (t : trip) : Prop :=
  exists lf ls lt rest, List.length lf = 8 /\ List.length ls = 8 /\ List.length lt = 8
    /\ record (b_cfst b) (lc ++ lf ++ ls ++ lt ++ rest) []
    /\ record (b_i2v b) lf (utf8 (t0 t)) /\ record (b_i2v b) ls (utf8 (t1 t)) /\ record (b_i2v b) lt (utf8 (t2 t)).

Lemma be_back l : List.length l = 8 -> Forall is_byte l -> to_be_bytes (be_value l) = l.
Proof. intros H1 H2. symmetry. apply encodes_is_be. repeat split; assumption. Qed.

Lemma triples_loop_any b lc : file_of_bytes b -> List.length lc = 8 -> Forall is_byte lc ->
  forall rows acc l, (forall k v, In (k, v) rows -> record (b_cfst b) k v) ->
  heedb_triples_loop b (be_value lc) rows acc = Ok l ->
  (forall t, In t acc -> valid_trip t /\ in_file b lc t) ->
  forall t, In t l -> valid_trip t /\ in_file b lc t.
Proof.
  intros FB Lc Bc. induction rows as [|[k v] rows IH]; intros acc l Hsub; cbn [heedb_triples_loop].
  { intros E. injection E as <-. auto. }
  destruct (unit_decode v) as [[]|] eqn:Ev; [|discriminate].
  destruct (decode_row k) as [[[[cid fid] sid] tid]|] eqn:Ed; [|discriminate].
  assert (Hsub' : forall k0 v0, In (k0, v0) rows -> record (b_cfst b) k0 v0) by (intros; apply Hsub; right; assumption).
  destruct (N.eqb_spec (be_value lc) cid) as [Ec|Ec]; [|apply IH; exact Hsub'].
  unfold db_get.
  destruct (lm_get (b_i2v b) (to_be_bytes fid)) as [[df|]| |] eqn:Ef; try discriminate.
  destruct (str_decode df) as [sf|] eqn:Df; [|discriminate].
  destruct (lm_get (b_i2v b) (to_be_bytes sid)) as [[ds|]| |] eqn:Es; try discriminate.
  destruct (str_decode ds) as [ss|] eqn:Ds; [|discriminate].
  destruct (lm_get (b_i2v b) (to_be_bytes tid)) as [[dt|]| |] eqn:Et; try discriminate.
  destruct (str_decode dt) as [st|] eqn:Dt; [|discriminate].
  intros E Hacc. apply (IH _ _ Hsub' E). intros t Ht. apply (in_bs_insert trip_order) in Ht as [->|Ht]; [|auto].
  apply from_utf8_iff in Df as [V0 <-]. apply from_utf8_iff in Ds as [V1 <-]. apply from_utf8_iff in Dt as [V2 <-].
  split; [repeat split; assumption|].
  apply lm_get_record in Ef, Es, Et.
  destruct (decode_row_any _ _ _ _ _ Ed) as (la & lf & ls & lt & rest & -> & La & Lf & Ls & Lt & <- & <- & <- & <-).
  destruct v; [|discriminate].
  assert (R : record (b_cfst b) (la ++ lf ++ ls ++ lt ++ rest) []) by (apply Hsub; left; reflexivity).
  destruct (FB (b_cfst b) ltac:(cbn [tables In]; tauto) _ _ R) as [Bk _].
  rewrite !Forall_app in Bk. destruct Bk as (B1 & B2 & B3 & B4 & _).
  rewrite be_back in Ef, Es, Et by assumption.
  assert (la = lc) as -> by (rewrite <- (be_back la La B1), <- Ec; apply be_back; assumption).
  exists lf, ls, lt, rest. cbn [t0 t1 t2]. repeat split; assumption.
Qed.

Lemma triples_any b c l : file_of_bytes b -> heedb_triples b c = Ok l ->
  exists lc more, List.length lc = 8 /\ record (b_c2i b) (utf8 c) (lc ++ more)
    /\ forall t, In t l -> valid_trip t /\ in_file b lc t.
Proof.
  intros FB. unfold heedb_triples, db_get.
  destruct (lm_get (b_c2i b) (utf8 c)) as [[v|]| |] eqn:Ec; try discriminate.
  unfold u64_decode. destruct (Nat.leb_spec 8 (List.length v)) as [Hl|Hl]; [|discriminate].
  rewrite from_be_value. apply lm_get_record in Ec. intros E. exists (firstn 8 v), (skipn 8 v).
  assert (L8 : List.length (firstn 8 v) = 8) by (rewrite firstn_length; lia).
  split; [exact L8|]. split; [rewrite firstn_skipn; exact Ec|].
  destruct (FB (b_c2i b) ltac:(cbn [tables In]; tauto) _ _ Ec) as [_ Bv].
  rewrite <- (firstn_skipn 8 v), Forall_app in Bv.
  eapply (triples_loop_any b (firstn 8 v) FB L8 (proj1 Bv)); [|exact E|intros t []]. intros k w H. exact H.
Qed.
