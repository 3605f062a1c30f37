(** * Properties: how much is stored, and what is never given back (trips/src/{mem,heed,duckdb}.rs) *)
From Coq Require Import List Arith NArith Bool String Lia.
From Verif Require Import M_Base M_Data M_Mem M_Heed M_Duck S_Order P_Ord S_Str S_Store P_Hist P_Heed P_HeedHist P_Duck S_Space P_Space P_Space2.
Import ListNotations.
Open Scope list_scope.

(** C104.  LMDB: after any history of calls, commits failing or not, of which [H]
    took effect: each of the six indexes has one record per triple a reader can
    see, and one more for every triple that was in a collection when this was
    removed; the two dictionaries have one record each per word ever added; the
    two tables of collections one per collection there is now; and the counter
    was drawn from once per collection ever created and once per word. *)
Theorem C104_lmdb : forall h seen lost words colls created,
  let H := installed heed_impl_c heed_new h in let d := after_f heed_impl_c heed_new h in
  storable_history H -> number (kept H) seen -> abandoned H lost -> number (mentioned H) words ->
  number (live H) colls -> creations H created ->
  heed_sizes d = [seen + lost; seen + lost; seen + lost; seen + lost; seen + lost; seen + lost;
                  words; words; colls; colls; Nat.min created 1]
  /\ (forall x v, In (x, v) (h_ids d) -> x = id_key /\ (v + 1 = N.of_nat (created + words))%N).
Proof.
  intros h k n w m r H d SW NK AB NW NM CR. destruct (lmdb_space h k n w m r SW NK AB NW NM CR) as (F & V1 & V2 & C1 & C2 & J). fold d in F, V1, V2, C1, C2, J.
  assert (L : map (fun t : list _ => List.length t) [h_cfst d; h_cfts d; h_csft d; h_cstf d; h_ctfs d; h_ctsf d] = repeat (k + n) 6).
  { cbn [map repeat]. rewrite Forall_forall in F. rewrite !F by (cbn; tauto). reflexivity. }
  unfold heed_sizes. rewrite L, V1, V2, C1, C2. unfold ids_are in J. rewrite J. destruct r as [|r]; cbn [Nat.eqb]; split.
  - reflexivity.
  - intros x v [].
  - change (Nat.min (S r) 1) with (S (Nat.min r 0)). rewrite Nat.min_0_r. reflexivity.
  - intros x v [E|[]]. apply pair_equal_spec in E as [E1 E2]. split; [auto|]. subst v. lia.
Qed.
Print Assumptions C104_lmdb.

(** C104.  DuckDB: the table of triples has one row per added triple that nothing
    took back since, counting a triple as often as it was added; the table of
    words one row per word ever added; the table of collections one per
    collection there is now. *)
Theorem C104_duck : forall h, let H := acked duck_impl duck_new h in let d := after duck_impl duck_new h in
  number (standing H) (List.length (d_trip d))
  /\ number (mentioned H) (List.length (d_part d))
  /\ number (live H) (List.length (d_coll d)).
Proof. exact duck_space. Qed.
Print Assumptions C104_duck.

(** C104.  In memory nothing is held that cannot be read. *)
Theorem C104_mem : forall h, number (mem_kept h) (mem_total (after mem_impl mem_new h)).
Proof. exact mem_space. Qed.
Print Assumptions C104_mem.

(** C104.  The numbers spoken of exist, for every history, and are unique. *)
Theorem C104_numbers : forall H,
  (exists k, number (kept H) k) /\ (exists n, abandoned H n) /\ (exists w, number (mentioned H) w)
  /\ (exists m, number (live H) m) /\ (exists r, creations H r) /\ (exists k, number (mem_kept H) k)
  /\ (forall (A : Type) (P : A -> Prop) n m, number P n -> number P m -> n = m).
Proof.
  intros H. repeat split.
  - apply kept_number. - apply abandoned_number. - apply mentioned_number. - apply live_number.
  - apply creations_number. - apply mem_kept_number. - intros A P n m. apply number_fun.
Qed.
Print Assumptions C104_numbers.

(** C104.  LMDB leaks: create a collection, fill it, remove it, [n] times: every
    call succeeds, there is no collection in the end, and every index has [n]
    times as many records as the collection had triples. *)
Theorem C104_lmdb_leaks : forall c ts n, storable c -> (forall v, part_of v ts -> storable v) -> NoDup ts ->
  (N.of_nat n * (1 + 3 * N.of_nat (List.length ts)) < 2 ^ 64)%N ->
  let h := times n [OAddColl c; OAdd c ts; ORemColl c] in let d := after heed_impl heed_new h in
  acked heed_impl heed_new h = h
  /\ t_collections heed_impl d = Ok []
  /\ Forall (fun t => List.length t = n * List.length ts) [h_cfst d; h_cfts d; h_csft d; h_cstf d; h_ctfs d; h_ctsf d].
Proof. exact lmdb_leak. Qed.
Print Assumptions C104_lmdb_leaks.

(** C104.  LMDB does not leak when triples are removed one by one: adding and
    removing the same triples over and over leaves all tables, and the counter,
    as large as after the first time. *)
Theorem C104_lmdb_steady : forall h c ts n, storable_history (acked heed_impl heed_new h) -> live (acked heed_impl heed_new h) c ->
  (forall v, part_of v ts -> storable v) ->
  (total_weight h + N.of_nat (S n) * (3 * N.of_nat (List.length ts)) < 2 ^ 64)%N ->
  let many := h ++ times (S n) [OAdd c ts; ORem c ts] in let once := h ++ times 1 [OAdd c ts; ORem c ts] in
  acked heed_impl heed_new many = acked heed_impl heed_new h ++ times (S n) [OAdd c ts; ORem c ts]
  /\ heed_sizes (after heed_impl heed_new many) = heed_sizes (after heed_impl heed_new once)
  /\ h_ids (after heed_impl heed_new many) = h_ids (after heed_impl heed_new once).
Proof. exact lmdb_steady. Qed.
Print Assumptions C104_lmdb_steady.

(** C104.  DuckDB grows when a triple that is there is added again. *)
Theorem C104_duck_grows : forall c t n, (4 * N.of_nat n + 1 < 2 ^ 63)%N ->
  let h := OAddColl c :: repeat (OAdd c [t]) n in let d := after duck_impl duck_new h in
  acked duck_impl duck_new h = h /\ (n > 0 -> t_triples duck_impl d c = Ok [t]) /\ List.length (d_trip d) = n.
Proof. exact duck_again. Qed.
Print Assumptions C104_duck_grows.

(** A history with everything in it: a collection removed with two triples in it,
    one created again, a triple added twice, one removed, a failed commit. *)
Example C104_case :
  let c := lit "c" in let e := lit "e" in
  let t := Trip (lit "a") (lit "b") (lit "a") in let u := Trip (lit "b") (lit "b") (lit "x") in
  let h := [OAddColl c; OAdd c [t; u]; OAddColl e; OAdd e [t; t]; OAdd e [t; u]; ORemColl c; OAddColl c; OAdd c [u]; ORem e [u]] in
  let d := after_f heed_impl_c heed_new (map (fun o => (o, true)) h ++ [(ORemColl e, false)]) in
  installed heed_impl_c heed_new (map (fun o => (o, true)) h ++ [(ORemColl e, false)]) = h
  /\ heed_sizes d = [4; 4; 4; 4; 4; 4; 3; 3; 2; 2; 1]
  /\ h_ids d = [(id_key, 5%N)]
  /\ t_triples heed_impl d c = Ok [u] /\ t_triples heed_impl d e = Ok [t].
Proof. cbn zeta. repeat match goal with |- _ /\ _ => split end; vm_compute; reflexivity. Qed.

Example C104_numbers_case :
  let c := lit "c" in let e := lit "e" in
  let t := Trip (lit "a") (lit "b") (lit "a") in let u := Trip (lit "b") (lit "b") (lit "x") in
  let h := [OAddColl c; OAdd c [t; u]; ORemColl c; OAddColl c; OAdd c [u]] in
  storable_history h /\ number (kept h) 1 /\ abandoned h 2 /\ creations h 2 /\ number (live h) 1.
Proof.
  assert (K : forall h c' t c ts, holds_after (h ++ [OAdd c ts]) c' t <-> (c' = c /\ In t ts /\ live h c') \/ holds_after h c' t).
  { intros h c' t c ts. rewrite holds_after_snoc'. split.
    - intros [(ts' & E & Hi & L)|[Hh _]]; [injection E as -> ->; auto|auto].
    - intros [(-> & Hi & L)|Hh]; [left; exists ts; auto|right; split; [exact Hh|inversion 1]]. }
  assert (D : forall h c ts, ~ live h c -> forall c', ~ live (h ++ [OAddColl c; OAdd c ts; ORemColl c]) c' \/ live h c').
  { intros h c ts N c'. destruct (live_dec h c') as [L|L]; [auto|]. left. change [OAddColl c; OAdd c ts; ORemColl c] with ([OAddColl c] ++ [OAdd c ts] ++ [ORemColl c]).
    rewrite !app_assoc, !live_snoc. intros [E|[[E|[[E|[L' _]] _]] G]]; try discriminate; [injection E as ->; apply G; reflexivity|contradiction]. }
  intros c e t u h.
  assert (D3 : forall c', ~ live [OAddColl c; OAdd c [t; u]; ORemColl c] c').
  { intros c'. destruct (D [] c [t; u] (live_nil c) c') as [L|L]; [exact L|]. intros _. exact (live_nil _ L). }
  assert (N3 : forall c' x, ~ holds_after [OAddColl c; OAdd c [t; u]; ORemColl c] c' x) by (intros c' x Hh; apply holds_after_live' in Hh; exact (D3 _ Hh)).
  split; [|split; [|split; [|split]]].
  - split.
    + intros x [E|[E|[E|[E|[E|[]]]]]]; try discriminate; injection E as <-; (split; [apply Nat.ltb_lt; vm_compute; reflexivity|apply N.leb_le; vm_compute; reflexivity]).
    + intros v (x & ts & [E|[E|[E|[E|[E|[]]]]]] & (y & Hy & Hv)); try discriminate; injection E as <- <-; cbn in Hy.
      * destruct Hy as [<-|[<-|[]]]; destruct Hv as [->|[->| ->]]; (split; [apply Nat.ltb_lt; vm_compute; reflexivity|apply N.leb_le; vm_compute; reflexivity]).
      * destruct Hy as [<-|[]]; destruct Hv as [->|[->| ->]]; (split; [apply Nat.ltb_lt; vm_compute; reflexivity|apply N.leb_le; vm_compute; reflexivity]).
  - exists [(c, u)]. split; [constructor; [intros []|constructor]|]. split; [|reflexivity]. intros [x y]. unfold kept. cbn [fst snd].
    change h with (([OAddColl c; OAdd c [t; u]; ORemColl c] ++ [OAddColl c]) ++ [OAdd c [u]]). rewrite K, holds_after_snoc'. split.
    + intros [E|[]]. injection E as <- <-. left. split; [reflexivity|]. split; [left; reflexivity|apply live_added].
    + intros [(-> & [<-|[]] & _)|[(ts & E & _)|[Hh _]]]; [left; reflexivity|discriminate|exfalso; exact (N3 _ _ Hh)].
  - change h with ((([OAddColl c; OAdd c [t; u]] ++ [ORemColl c]) ++ [OAddColl c]) ++ [OAdd c [u]]). apply ab_other; [|discriminate]. apply ab_other; [|discriminate].
    apply (ab_remove _ _ 0 2).
    + change [OAddColl c; OAdd c [t; u]] with (([] ++ [OAddColl c]) ++ [OAdd c [t; u]]). apply ab_other; [|discriminate]. apply ab_other; [constructor|discriminate].
    + exists [t; u]. split; [constructor; [intros [E|[]]; discriminate E|constructor; [intros []|constructor]]|]. split; [|reflexivity].
      intros x. change [OAddColl c; OAdd c [t; u]] with ([OAddColl c] ++ [OAdd c [t; u]]). rewrite K. split.
      * intros Hi. left. split; [reflexivity|]. split; [exact Hi|]. exists [], []. split; [reflexivity|intros []].
      * intros [(_ & Hi & _)|Hh]; [exact Hi|]. destruct Hh as (h1 & ts & h2 & E & _). destruct h1 as [|? [|? ?]]; discriminate E.
  - change h with (([OAddColl c; OAdd c [t; u]; ORemColl c] ++ [OAddColl c]) ++ [OAdd c [u]]). apply cr_other; [|discriminate]. apply cr_new; [|apply D3].
    change [OAddColl c; OAdd c [t; u]; ORemColl c] with ((([] ++ [OAddColl c]) ++ [OAdd c [t; u]]) ++ [ORemColl c]).
    apply cr_other; [|discriminate]. apply cr_other; [|discriminate]. apply cr_new; [constructor|apply live_nil].
  - exists [c]. split; [constructor; [intros []|constructor]|]. split; [|reflexivity]. intros x.
    change h with (([OAddColl c; OAdd c [t; u]; ORemColl c] ++ [OAddColl c]) ++ [OAdd c [u]]). rewrite !live_snoc. split.
    + intros [<-|[]]. right. split; [left; reflexivity|discriminate].
    + intros [E|[[E|[L _]] _]]; [discriminate|injection E as <-; left; reflexivity|exfalso; exact (D3 _ L)].
Qed.

(** DuckDB: one row for each of two additions of the same triple; the removal
    took both of the other. *)
Example C104_duck_case :
  let c := lit "c" in let t := Trip (lit "a") (lit "b") (lit "a") in let u := Trip (lit "b") (lit "b") (lit "x") in
  let h := [OAddColl c; OAdd c [t; u]; OAdd c [u; t]; ORem c [u]] in
  let d := after duck_impl duck_new h in
  acked duck_impl duck_new h = h /\ List.length (d_trip d) = 2 /\ List.length (d_part d) = 3 /\ List.length (d_coll d) = 1.
Proof. cbn zeta. repeat match goal with |- _ /\ _ => split end; vm_compute; reflexivity. Qed.
