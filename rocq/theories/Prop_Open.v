(** * C82: opening the LMDB environment, and sessions *)
From Coq Require Import List NArith Bool Arith Lia String.
From Verif Require Import M_Base M_Data M_Heed M_Txn M_Open S_Order S_Str S_Store S_Open P_Open Prop_Heed.
Import ListNotations.
Open Scope list_scope.

(** C82.  A file used in any number of sessions, opened with any number of table
    slots, with commits in [new] failing or not, holds what one session with every
    table, making just the calls that answered Ok, would have left; and in that
    session all of these answer Ok, too. *)
Theorem C82_sessions : forall ss,
  let h := acked_sessions fresh ss in
  f_db (after_sessions fresh ss) = after heed_impl heed_new h
  /\ acked heed_impl heed_new h = h.
Proof. intro ss. exact (sessions_hist ss fresh). Qed.
Print Assumptions C82_sessions.

(** So the next session, if it has all tables, reads the contract's meaning of the
    calls that answered Ok in all earlier sessions together. *)
Theorem C82_reopened : forall ss s,
  let h := acked_sessions fresh ss in
  let f := after_sessions fresh ss in
  (forall c, In (OAddColl c) h -> storable c) ->
  11 <= se_slots s -> se_commit s = true ->
  let I := session_impl f s in
  (exists l, t_collections I (f_db f) = Ok l /\ is_set str_lt l /\ forall c, In c l <-> live h c)
  /\ (forall c, live h c ->
      exists l, t_triples I (f_db f) c = Ok l /\ is_set trip_lt l /\ forall t, In t l <-> holds_after h c t)
  /\ (forall c, ~ live h c -> exists w, t_triples I (f_db f) c = Panic w).
Proof.
  intros ss s h f Hs H11 Hc I. destruct (C82_sessions ss) as (E1 & E2). fold h f in E1, E2.
  destruct (C15_heed_contents_by_history h Hs) as (A & B & C). rewrite <- E1, E2 in A, B, C.
  assert (L : limit (se_slots s) (snd (trips_heed_new (se_slots s) true f))) by (intro t; apply opens_new).
  subst I. unfold session_impl. rewrite Hc.
  cbn [t_collections t_triples heed_impl_o].
  split; [|split].
  - rewrite (enough_collections _ _ _ L) by lia. exact A.
  - intros c Hl. rewrite (enough_triples _ _ _ _ L) by lia. exact (B c Hl).
  - intros c Hl. rewrite (enough_triples _ _ _ _ L) by lia. exact (C c Hl).
Qed.
Print Assumptions C82_reopened.

(** Whatever tables can be opened, a call answers and does what it does with all
    of them, or panics and changes nothing; a reading call answers the same or
    panics. *)
Theorem C82_same_or_panic : forall opens d,
  let I := heed_impl_o opens in
  (forall o, call_op I d o = call_op heed_impl d o \/ exists w, call_op I d o = (Panic w, d))
  /\ (t_collections I d = t_collections heed_impl d \/ exists w, t_collections I d = Panic w)
  /\ (forall c, t_triples I d c = t_triples heed_impl d c \/ exists w, t_triples I d c = Panic w).
Proof.
  intros o d I. split; [|split].
  - intro q. apply gated_call.
  - apply gated_collections.
  - intro c. apply gated_triples.
Qed.
Print Assumptions C82_same_or_panic.

(** Exactly which calls work after [new] committed with room for [slots] tables;
    reading works with 6, writing triples needs all 11.  (With 2, adding a
    collection that exists is acknowledged.) *)
Theorem C82_tables_needed : forall slots f d,
  let I := heed_impl_o (snd (trips_heed_new slots true f)) in
  (forall o, tables_needed o <= slots -> call_op I d o = call_op heed_impl d o)
  /\ (forall o, slots < tables_needed o ->
      (exists w, call_op I d o = (Panic w, d))
      \/ slots = 2 /\ (exists c, o = OAddColl c) /\ call_op I d o = (Ok tt, d) /\ call_op heed_impl d o = (Ok tt, d))
  /\ (2 <= slots -> t_collections I d = t_collections heed_impl d)
  /\ (slots < 2 -> exists w, t_collections I d = Panic w)
  /\ (6 <= slots -> forall c, t_triples I d c = t_triples heed_impl d c)
  /\ (slots < 6 -> forall c, exists w, t_triples I d c = Panic w).
Proof.
  intros slots f d I.
  assert (L : limit slots (snd (trips_heed_new slots true f))) by (intro t; apply opens_new).
  split; [|split; [|split; [|split; [|split]]]].
  - intros o H. apply (enough_call slots); assumption.
  - intros o H. apply (few_call slots); assumption.
  - intro H. apply (enough_collections slots); assumption.
  - intro H. apply (few_collections slots); assumption.
  - intros H c. apply (enough_triples slots); assumption.
  - intros H c. apply (few_triples slots); assumption.
Qed.
Print Assumptions C82_tables_needed.

(** [new] on a fresh file whose commit fails returns a store on which every call
    panics, and the file stays as it was. *)
Theorem C82_failed_new : forall slots,
  let I := heed_impl_o (snd (trips_heed_new slots false fresh)) in
  fst (trips_heed_new slots false fresh) = fresh
  /\ (forall d o, exists w, call_op I d o = (Panic w, d))
  /\ (forall d, exists w, t_collections I d = Panic w)
  /\ (forall d c, exists w, t_triples I d c = Panic w).
Proof.
  intros slots I.
  assert (N : forall t, exists w, snd (trips_heed_new slots false fresh) t = Some w) by (intro t; apply opens_failed; reflexivity).
  split; [|split; [|split]].
  - unfold trips_heed_new. destruct (fold_left _ _ _); reflexivity.
  - intros d o. apply none_call, N.
  - intro d. destruct (N Tc2i) as (w & E). exists w. subst I. cbn [t_collections heed_impl_o]. unfold g_collections. rewrite E. reflexivity.
  - intros d c. destruct (N Tc2i) as (w & E). exists w. subst I. cbn [t_triples heed_impl_o]. unfold g_triples. rewrite E. reflexivity.
Qed.
Print Assumptions C82_failed_new.

(** Once a [new] has committed with room for all tables, a later [new] whose
    commit fails (again with room for all) costs nothing: every call of that
    session does what it does with all tables, in whatever sessions lie between. *)
Lemma handles_made slots l : forall h m, (forall t, In t h -> In t m) ->
  let st := fold_left (create_database slots) l (h, m) in (forall t, In t (fst st) -> In t (snd st)) /\ forall t, In t m -> In t (snd st).
Proof.
  induction l as [|x l IH]; intros h m H; [split; [exact H|auto]|]. cbn [fold_left]. cbv zeta.
  change (create_database slots (h, m) x) with (if mem_tab x h then (h, m) else if Nat.ltb (List.length h) slots then (x :: h, if mem_tab x m then m else x :: m) else (h, m)).
  destruct (mem_tab x h) eqn:E1; [apply IH; exact H|]. destruct (Nat.ltb (List.length h) slots) eqn:E2; [|apply IH; exact H].
  unfold mem_tab. destruct (in_dec tab_eq_dec x m) as [Y|N].
  - apply IH. intros t [<-|Ht]; [exact Y|apply H; exact Ht].
  - destruct (IH (x :: h) (x :: m)) as [A B]; [intros t [<-|Ht]; [left; reflexivity|right; apply H; exact Ht]|].
    split; [exact A|]. intros t Ht. apply B. right. exact Ht.
Qed.

Lemma made_kept f s t : In t (f_made f) -> In t (f_made (after_session f s)).
Proof.
  intro H. unfold after_session, trips_heed_new. cbn [f_made].
  pose proof (handles_made (se_slots s) creation_order [] (f_made f) (fun t h => match h with end)) as [_ B].
  destruct (fold_left _ _ _) as [hs md]. cbn [snd] in B. destruct (se_commit s); cbn [fst f_made]; [apply B|]; exact H.
Qed.

Lemma made_all f s t : 11 <= se_slots s -> se_commit s = true -> In t (f_made (after_session f s)).
Proof.
  intros H11 Hc. pose proof (opens_new (se_slots s) f t) as O.
  assert (L : Nat.ltb (rank t) (se_slots s) = true) by (apply Nat.ltb_lt; destruct t; cbn [rank]; lia). rewrite L in O.
  unfold after_session. rewrite Hc. unfold trips_heed_new in *. cbn [f_made].
  pose proof (handles_made (se_slots s) creation_order [] (f_made f) (fun t h => match h with end)) as [A _].
  destruct (fold_left _ _ _) as [hs md]. cbn [fst snd f_made] in *. apply A. unfold mem_tab in O. destruct (in_dec tab_eq_dec t hs) as [Y|N]; [exact Y|discriminate].
Qed.

Lemma made_sessions ss : forall f t, In t (f_made f) -> In t (f_made (after_sessions f ss)).
Proof. induction ss as [|s r IH]; intros f t H; [exact H|]. cbn [after_sessions]. apply IH, made_kept, H. Qed.

Theorem C82_failed_again : forall before s between slots calls,
  11 <= se_slots s -> se_commit s = true -> 11 <= slots ->
  let f := after_sessions fresh (before ++ s :: between) in
  let I := session_impl f (Session slots false calls) in
  (forall d o, call_op I d o = call_op heed_impl d o)
  /\ (forall d, t_collections I d = t_collections heed_impl d)
  /\ (forall d c, t_triples I d c = t_triples heed_impl d c).
Proof.
  intros before s between slots calls H11 Hc Hs f I.
  assert (M : forall t, In t (f_made f)).
  { intro t. subst f. clear I. generalize fresh as f0. induction before as [|b r IH]; intro f0; cbn [app after_sessions]; [|apply IH].
    apply made_sessions, made_all; assumption. }
  assert (L : limit 11 (snd (trips_heed_new slots false f))).
  { intro t. unfold trips_heed_new. destruct (fold_left _ _ _) as [hs md]. cbn [snd]. unfold mem_tab.
    destruct (in_dec tab_eq_dec t (f_made f)) as [Y|N]; [destruct t; reflexivity|destruct (N (M t))]. }
  subst I. unfold session_impl. cbn [se_slots se_commit]. split; [|split].
  - intros d o. apply (enough_call 11); [exact L|]. destruct o as [c|c|c [|? ?]|c [|? ?]]; cbn [tables_needed]; lia.
  - intro d. apply (enough_collections 11); [exact L|lia].
  - intros d c. apply (enough_triples 11); [exact L|lia].
Qed.
Print Assumptions C82_failed_again.

(** Three sessions: one whose [new] failed, one with all tables, one with six,
    which can add a collection and read but not write triples. *)
Definition open_case : list session :=
  [ Session 24 false [OAddColl (lit "n")];
    Session 24 true [OAddColl (lit "n"); OAdd (lit "n") [Trip (lit "a") (lit "b") (lit "c")]];
    Session 6 true [OAddColl (lit "m"); OAdd (lit "m") [Trip (lit "a") (lit "b") (lit "c")]] ].
Example C82_case :
  acked_sessions fresh open_case
  = [OAddColl (lit "n"); OAdd (lit "n") [Trip (lit "a") (lit "b") (lit "c")]; OAddColl (lit "m")]
  /\ (let f := after_sessions fresh open_case in
      let I := session_impl f (Session 6 true []) in
      t_collections I (f_db f) = Ok [lit "m"; lit "n"]
      /\ t_triples I (f_db f) (lit "n") = Ok [Trip (lit "a") (lit "b") (lit "c")]
      /\ call_op I (f_db f) (OAdd (lit "m") [Trip (lit "a") (lit "b") (lit "c")]) = (Panic PUnwrap, f_db f)).
Proof. split; [|cbv zeta; split; [|split]]; vm_compute; reflexivity. Qed.
