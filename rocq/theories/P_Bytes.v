(** * Proofs: bytes and texts *)
From Coq Require Import List Arith NArith Bool String Lia Nnat.
From Verif Require Import M_Base M_Data M_Mem M_Regex M_Lexer M_Graph M_Parser M_Display M_Interp M_Hosts M_Bytes
  S_Order S_Str P_Str.
Import ListNotations.
Open Scope list_scope.

Ltac bools := repeat match goal with
  | H : (_ && _) = true |- _ => apply andb_prop in H; destruct H
  | H : N.leb _ _ = true |- _ => apply N.leb_le in H
  | H : N.leb _ _ = false |- _ => apply N.leb_gt in H
  | H : N.ltb _ _ = true |- _ => apply N.ltb_lt in H
  | H : N.ltb _ _ = false |- _ => apply N.ltb_ge in H
  | H : N.eqb _ _ = true |- _ => apply N.eqb_eq in H
  | H : N.eqb _ _ = false |- _ => apply N.eqb_neq in H
  end.

Lemma dm a b q r : (b <> 0 -> a = b * q + r -> r < b -> a / b = q /\ a mod b = r)%N.
Proof.
  intros Hb E Hr. split; [symmetry; apply (N.div_unique a b q r); assumption|symmetry; apply (N.mod_unique a b q r); assumption].
Qed.

Lemma utf8_char2 b0 b1 : between 0xC2 0xDF b0 = true -> tail_byte b1 = true ->
  scalar (char2 b0 b1) /\ utf8_char (char2 b0 b1) = [b0; b1].
Proof.
  unfold tail_byte, between, char2. intros H1 H2. bools.
  set (c := ((b0 - 192) * 64 + (b1 - 128))%N).
  assert (Hc : (0x80 <= c < 0x800)%N) by (unfold c; lia).
  split; [unfold scalar; lia|]. unfold utf8_char.
  destruct (N.ltb_spec c 0x80); [lia|]. destruct (N.ltb_spec c 0x800); [|lia].
  destruct (dm c 64 (b0 - 192) (b1 - 128)) as [-> ->]; [lia|unfold c; lia|lia|].
  f_equal; [lia|f_equal; lia].
Qed.

Lemma utf8_char3 b0 b1 b2 : between 0xE0 0xEF b0 = true -> second3 b0 b1 = true -> tail_byte b2 = true ->
  scalar (char3 b0 b1 b2) /\ utf8_char (char3 b0 b1 b2) = [b0; b1; b2].
Proof.
  unfold second3, tail_byte, between, char3. intros H1 H2 H3.
  assert (B : (0x80 <= b1 <= 0xBF /\ (b0 = 0xE0 -> 0xA0 <= b1) /\ (b0 = 0xED -> b1 <= 0x9F))%N).
  { destruct (N.eqb b0 0xE0) eqn:E1; [|destruct (N.eqb b0 0xED) eqn:E2]; bools; repeat split; intros; lia. }
  clear H2. bools. destruct B as ((B1 & B2) & B3 & B4).
  set (c := ((b0 - 224) * 4096 + (b1 - 128) * 64 + (b2 - 128))%N).
  assert (Hc : (0x800 <= c < 0x10000)%N).
  { destruct (N.eq_dec b0 0xE0) as [E|E]; [specialize (B3 E)|]; unfold c; lia. }
  assert (Hs : (c < 0xD800 \/ 0xE000 <= c)%N).
  { destruct (N.eq_dec b0 0xED) as [E|E]; [specialize (B4 E); left; unfold c; lia|].
    destruct (N.lt_ge_cases b0 0xED); [left|right]; unfold c; lia. }
  split; [unfold scalar; lia|]. unfold utf8_char.
  destruct (N.ltb_spec c 0x80); [lia|]. destruct (N.ltb_spec c 0x800); [lia|]. destruct (N.ltb_spec c 0x10000); [|lia].
  destruct (dm c 4096 (b0 - 224) ((b1 - 128) * 64 + (b2 - 128))) as [-> _]; [lia|unfold c; lia|lia|].
  destruct (dm c 64 ((b0 - 224) * 64 + (b1 - 128)) (b2 - 128)) as [-> ->]; [lia|unfold c; lia|lia|].
  destruct (dm ((b0 - 224) * 64 + (b1 - 128)) 64 (b0 - 224) (b1 - 128)) as [_ ->]; [lia|lia|lia|].
  f_equal; [lia|f_equal; [lia|f_equal; lia]].
Qed.

Lemma utf8_char4 b0 b1 b2 b3 : between 0xF0 0xF4 b0 = true -> second4 b0 b1 = true -> tail_byte b2 = true -> tail_byte b3 = true ->
  scalar (char4 b0 b1 b2 b3) /\ utf8_char (char4 b0 b1 b2 b3) = [b0; b1; b2; b3].
Proof.
  unfold second4, tail_byte, between, char4. intros H1 H2 H3 H4.
  assert (B : (0x80 <= b1 <= 0xBF /\ (b0 = 0xF0 -> 0x90 <= b1) /\ (b0 = 0xF4 -> b1 <= 0x8F))%N).
  { destruct (N.eqb b0 0xF0) eqn:E1; [|destruct (N.eqb b0 0xF4) eqn:E2]; bools; repeat split; intros; lia. }
  clear H2. bools. destruct B as ((B1 & B2) & B3 & B4).
  set (c := ((b0 - 240) * 262144 + (b1 - 128) * 4096 + (b2 - 128) * 64 + (b3 - 128))%N).
  assert (Hc : (0x10000 <= c)%N).
  { destruct (N.eq_dec b0 0xF0) as [E|E]; [specialize (B3 E)|]; unfold c; lia. }
  assert (Hs : (c < 0x110000)%N).
  { destruct (N.eq_dec b0 0xF4) as [E|E]; [specialize (B4 E)|]; unfold c; lia. }
  split; [unfold scalar; lia|]. unfold utf8_char.
  destruct (N.ltb_spec c 0x80); [lia|]. destruct (N.ltb_spec c 0x800); [lia|]. destruct (N.ltb_spec c 0x10000); [lia|].
  destruct (dm c 262144 (b0 - 240) ((b1 - 128) * 4096 + (b2 - 128) * 64 + (b3 - 128))) as [-> _]; [lia|unfold c; lia|lia|].
  destruct (dm c 4096 ((b0 - 240) * 64 + (b1 - 128)) ((b2 - 128) * 64 + (b3 - 128))) as [-> _]; [lia|unfold c; lia|lia|].
  destruct (dm c 64 ((b0 - 240) * 4096 + (b1 - 128) * 64 + (b2 - 128)) (b3 - 128)) as [-> ->]; [lia|unfold c; lia|lia|].
  destruct (dm ((b0 - 240) * 64 + (b1 - 128)) 64 (b0 - 240) (b1 - 128)) as [_ ->]; [lia|lia|lia|].
  destruct (dm ((b0 - 240) * 4096 + (b1 - 128) * 64 + (b2 - 128)) 64 ((b0 - 240) * 64 + (b1 - 128)) (b2 - 128)) as [_ ->]; [lia|lia|lia|].
  f_equal; [lia|f_equal; [lia|f_equal; [lia|f_equal; lia]]].
Qed.

(** What is accepted is the encoding of what comes out. *)
Lemma from_utf8_sound n : forall l s, List.length l <= n -> from_utf8 l = Some s -> valid_str s /\ utf8 s = l.
Proof.
  assert (Cons : forall c w rest s', scalar c -> utf8_char c = w -> valid_str s' /\ utf8 s' = rest -> valid_str (c :: s') /\ utf8 (c :: s') = w ++ rest).
  { intros c w rest s' Hc Hw [V U]. split; [constructor; assumption|]. cbn [utf8 flat_map]. rewrite Hw. f_equal. exact U. }
  induction n as [|n IH]; intros l s Hn E.
  - destruct l; [|cbn in Hn; lia]. injection E as <-. split; [constructor|reflexivity].
  - destruct l as [|b0 r0]; [injection E as <-; split; [constructor|reflexivity]|]. cbn [from_utf8] in E. cbn in Hn.
    destruct (N.ltb b0 0x80) eqn:L0.
    { destruct (from_utf8 r0) as [s'|] eqn:E0; [|discriminate]. injection E as <-. change (b0 :: r0) with ([b0] ++ r0).
      apply Cons; [bools; left; lia|unfold utf8_char; rewrite L0; reflexivity|apply IH; [lia|exact E0]]. }
    destruct r0 as [|b1 r1]; [discriminate|]. cbn in Hn.
    destruct (between 0xC2 0xDF b0) eqn:L1.
    { destruct (tail_byte b1) eqn:T1; [|discriminate]. destruct (from_utf8 r1) as [s'|] eqn:E0; [|discriminate]. injection E as <-.
      change (b0 :: b1 :: r1) with ([b0; b1] ++ r1). destruct (utf8_char2 b0 b1 L1 T1). apply Cons; [assumption..|apply IH; [lia|exact E0]]. }
    destruct r1 as [|b2 r2]; [discriminate|]. cbn in Hn.
    destruct (between 0xE0 0xEF b0) eqn:L2.
    { destruct (second3 b0 b1 && tail_byte b2) eqn:T; [|discriminate]. apply andb_prop in T as [T1 T2].
      destruct (from_utf8 r2) as [s'|] eqn:E0; [|discriminate]. injection E as <-.
      change (b0 :: b1 :: b2 :: r2) with ([b0; b1; b2] ++ r2). destruct (utf8_char3 b0 b1 b2 L2 T1 T2). apply Cons; [assumption..|apply IH; [lia|exact E0]]. }
    destruct r2 as [|b3 r3]; [discriminate|]. cbn in Hn.
    destruct (between 0xF0 0xF4 b0) eqn:L3; [|discriminate].
    destruct (second4 b0 b1 && tail_byte b2 && tail_byte b3) eqn:T; [|discriminate]. apply andb_prop in T as [T T3]. apply andb_prop in T as [T1 T2].
    destruct (from_utf8 r3) as [s'|] eqn:E0; [|discriminate]. injection E as <-.
    change (b0 :: b1 :: b2 :: b3 :: r3) with ([b0; b1; b2; b3] ++ r3).
    destruct (utf8_char4 b0 b1 b2 b3 L3 T1 T2 T3). apply Cons; [assumption..|apply IH; [lia|exact E0]].
Qed.

Ltac rng := repeat match goal with
  | |- context [N.leb ?a ?b] => destruct (N.leb_spec a b); try lia; cbn [andb]
  | |- context [N.ltb ?a ?b] => destruct (N.ltb_spec a b); try lia; cbn [andb]
  end.

Lemma from_utf8_char c r : scalar c -> from_utf8 (utf8_char c ++ r) = option_map (cons c) (from_utf8 r).
Proof.
  intros Sc. unfold utf8_char.
  destruct (N.ltb_spec c 0x80) as [L0|L0].
  { cbn [app from_utf8]. destruct (N.ltb_spec c 0x80); [reflexivity|lia]. }
  destruct (N.ltb_spec c 0x800) as [L1|L1].
  { pose proof (N.div_mod c 64 ltac:(lia)) as D. pose proof (N.mod_lt c 64 ltac:(lia)) as M.
    set (q := (c / 64)%N) in *. set (m := (c mod 64)%N) in *. cbn [app from_utf8].
    assert (2 <= q < 32)%N by lia.
    destruct (N.ltb_spec (192 + q) 0x80); [lia|].
    assert (B : between 0xC2 0xDF (192 + q) = true) by (unfold between; rng; reflexivity). rewrite B.
    assert (T : tail_byte (128 + m) = true) by (unfold tail_byte, between; rng; reflexivity). rewrite T.
    f_equal. f_equal. unfold char2. lia. }
  destruct (N.ltb_spec c 0x10000) as [L2|L2].
  { pose proof (N.div_mod c 64 ltac:(lia)) as D. pose proof (N.mod_lt c 64 ltac:(lia)) as M.
    pose proof (N.div_mod (c / 64) 64 ltac:(lia)) as D'. pose proof (N.mod_lt (c / 64) 64 ltac:(lia)) as M'.
    assert (E : (c / 4096 = c / 64 / 64)%N) by (rewrite N.div_div by lia; reflexivity). rewrite E.
    set (p := (c / 64)%N) in *. set (q := (p / 64)%N) in *. set (m := (c mod 64)%N) in *. set (m' := (p mod 64)%N) in *. cbn [app from_utf8].
    assert (q < 16)%N by lia. unfold scalar in Sc.
    destruct (N.ltb_spec (224 + q) 0x80); [lia|].
    assert (B : between 0xC2 0xDF (224 + q) = false) by (unfold between; rng; reflexivity). rewrite B.
    assert (B2 : between 0xE0 0xEF (224 + q) = true) by (unfold between; rng; reflexivity). rewrite B2.
    assert (T : tail_byte (128 + m) = true) by (unfold tail_byte, between; rng; reflexivity). rewrite T.
    assert (T' : second3 (224 + q) (128 + m') = true).
    { unfold second3, tail_byte, between. destruct (N.eqb_spec (224 + q) 0xE0); [rng; reflexivity|]. destruct (N.eqb_spec (224 + q) 0xED); rng; reflexivity. }
    rewrite T'. cbn [andb]. f_equal. f_equal. unfold char3. lia. }
  pose proof (N.div_mod c 64 ltac:(lia)) as D. pose proof (N.mod_lt c 64 ltac:(lia)) as M.
  pose proof (N.div_mod (c / 64) 64 ltac:(lia)) as D'. pose proof (N.mod_lt (c / 64) 64 ltac:(lia)) as M'.
  pose proof (N.div_mod (c / 64 / 64) 64 ltac:(lia)) as D''. pose proof (N.mod_lt (c / 64 / 64) 64 ltac:(lia)) as M''.
  assert (E : (c / 4096 = c / 64 / 64)%N) by (rewrite N.div_div by lia; reflexivity). rewrite E.
  assert (E' : (c / 262144 = c / 64 / 64 / 64)%N) by (rewrite !N.div_div by lia; reflexivity). rewrite E'.
  set (p := (c / 64)%N) in *. set (q := (p / 64)%N) in *. set (q' := (q / 64)%N) in *. set (m := (c mod 64)%N) in *. set (m' := (p mod 64)%N) in *. set (m'' := (q mod 64)%N) in *.
  cbn [app from_utf8]. unfold scalar in Sc.
  assert (q' < 5)%N by lia.
  destruct (N.ltb_spec (240 + q') 0x80); [lia|].
  assert (B : between 0xC2 0xDF (240 + q') = false) by (unfold between; rng; reflexivity). rewrite B.
  assert (B2 : between 0xE0 0xEF (240 + q') = false) by (unfold between; rng; reflexivity). rewrite B2.
  assert (B3 : between 0xF0 0xF4 (240 + q') = true) by (unfold between; rng; reflexivity). rewrite B3.
  assert (T : tail_byte (128 + m) = true) by (unfold tail_byte, between; rng; reflexivity). rewrite T.
  assert (T1 : tail_byte (128 + m') = true) by (unfold tail_byte, between; rng; reflexivity). rewrite T1.
  assert (T' : second4 (240 + q') (128 + m'') = true).
  { unfold second4, tail_byte, between. destruct (N.eqb_spec (240 + q') 0xF0); [rng; reflexivity|]. destruct (N.eqb_spec (240 + q') 0xF4); rng; reflexivity. }
  rewrite T'. cbn [andb]. f_equal. f_equal. unfold char4. lia.
Qed.

Lemma from_utf8_complete s : valid_str s -> from_utf8 (utf8 s) = Some s.
Proof.
  induction 1 as [|c s Hc _ IH]; [reflexivity|]. cbn [utf8 flat_map]. rewrite from_utf8_char by exact Hc.
  fold (utf8 s). rewrite IH. reflexivity.
Qed.

Lemma from_utf8_iff l s : from_utf8 l = Some s <-> valid_str s /\ utf8 s = l.
Proof.
  split; [apply (from_utf8_sound (List.length l)); auto|]. intros [V <-]. apply from_utf8_complete, V.
Qed.

(** ** The server *)
Lemma serve_bytes_text show texts : forall st, Forall valid_str texts ->
  serve_bytes show (map utf8 texts) st
  = let '(rs, st', up) := serve texts st in (map (fun r => utf8 (reply_text show r)) rs, st', up).
Proof.
  induction texts as [|q rest IH]; intros st V; [reflexivity|]. inversion V as [|? ? Vq Vr]; subst.
  cbn [map serve_bytes serve]. rewrite from_utf8_complete by exact Vq.
  destruct (grun q st) as [[v|e|w] st']; [| |reflexivity]; rewrite IH by exact Vr;
    destruct (serve rest st') as [[rs st2] up]; reflexivity.
Qed.

Lemma serve_bytes_app show a : forall b st rs st', serve_bytes show a st = (rs, st', true) ->
  serve_bytes show (a ++ b) st = let '(rs2, st2, up) := serve_bytes show b st' in (rs ++ rs2, st2, up).
Proof.
  induction a as [|x a IH]; intros b st rs st' E; cbn [app serve_bytes] in *.
  - injection E as <- <-. destruct (serve_bytes show b st) as [[? ?] ?]. reflexivity.
  - destruct (from_utf8 x) as [q|]; [|discriminate].
    destruct (grun q st) as [[v|e|w] st1]; [| |discriminate];
      destruct (serve_bytes show a st1) as [[rs1 st2] up] eqn:E1; injection E as <- <- ->;
      rewrite (IH b _ _ _ E1); destruct (serve_bytes show b st2) as [[? ?] ?]; reflexivity.
Qed.

(** ** Printed answers are texts *)
Lemma valid_app a b : valid_str a -> valid_str b -> valid_str (a ++ b).
Proof. intros H K. apply Forall_app. split; assumption. Qed.

Lemma ascii_valid s : Forall (fun c => (c < 0xD800)%N) s -> valid_str s.
Proof. apply Forall_impl. intros c H. left. exact H. Qed.

Lemma lit_valid s : valid_str (lit s).
Proof.
  unfold lit. apply Forall_forall. intros c H. apply in_map_iff in H as (a & <- & _). left.
  pose proof (Ascii.N_ascii_bounded a). lia.
Qed.

Lemma json_valid s : valid_str s -> valid_str (json_string s).
Proof.
  intros H. unfold json_string. constructor; [left; lia|]. apply valid_app; [|constructor; [left; lia|constructor]].
  unfold json_body. induction H as [|c s Hc _ IH]; [constructor|]. cbn [flat_map]. apply valid_app; [|exact IH].
  unfold json_char. repeat match goal with |- context [if N.eqb ?a ?b then _ else _] => destruct (N.eqb_spec a b) end;
    try (apply ascii_valid; repeat constructor; lia).
  destruct (N.ltb_spec c 32) as [L|L].
  - assert (X : forall k, (k < 16)%N -> (hex_digit k < 0xD800)%N) by (intros k Hk; unfold hex_digit; destruct (N.ltb k 10); lia).
    apply ascii_valid. repeat constructor; try lia; apply X.
    + apply N.div_lt_upper_bound; lia.
    + apply N.mod_lt; lia.
  - constructor; [exact Hc|constructor].
Qed.
