(** * Scripts on the three stores *)
From Coq Require Import List Arith NArith Bool String Lia Permutation.
From Verif Require Import M_Base M_Data M_Mem M_Heed M_Duck M_Regex M_Lexer M_Graph M_Parser M_Display M_Interp
  S_Order S_Str S_Store S_Graph S_Interp S_Port P_Ord P_Hist P_Parser P_Mem P_Heed P_HeedHist P_Duck P_Agree P_Graph
  P_Interp P_InterpMore P_InterpStores P_Crash P_Sim.
Import ListNotations.
Open Scope list_scope.

Lemma storableb_iff s : storableb s = true <-> storable s.
Proof.
  unfold storableb, storable. rewrite andb_true_iff, negb_true_iff, N.eqb_neq, N.leb_le. split; intros [H1 H2]; split; auto; lia.
Qed.

Lemma trip_eqb_iff t u : trip_eqb t u = true <-> t = u.
Proof.
  unfold trip_eqb. rewrite !andb_true_iff, !str_eqb_eq. destruct t, u; cbn. split.
  - intros [[-> ->] ->]. reflexivity.
  - intros E. injection E as -> -> ->. auto.
Qed.

Lemma listed_live h c : listed mem_impl (after mem_impl mem_new h) c = true <-> live h c.
Proof.
  unfold listed. destruct (mem_listing h) as (l & -> & _ & H). rewrite <- H, existsb_exists. split.
  - intros (x & Hx & E). apply str_eqb_eq in E as ->. exact Hx.
  - intros Hc. exists c. split; [exact Hc|apply str_eqb_refl].
Qed.

Lemma shown_holds h c t : disciplined h -> live h c ->
  (In t (shown mem_impl (after mem_impl mem_new h) c) <-> holds_after h c t).
Proof.
  intros D L. unfold shown. destruct (proj1 (mem_history h c) L) as (l & E & _ & H). rewrite E, H. apply disciplined_mem, D.
Qed.

Lemma permits_allowed h log o : disciplined h ->
  permits mem_impl (after mem_impl mem_new h) log o = true -> allowed h o /\ (dtotal (log ++ [o]) < 2 ^ 63)%N.
Proof.
  intros D. unfold permits. rewrite andb_true_iff, N.ltb_lt. intros [Hw H]. split; [|exact Hw].
  destruct o as [c|c|c ts|c ts]; cbn [allowed]; apply andb_true_iff in H as [H1 H2].
  - split; [apply storableb_iff, H1|]. apply negb_true_iff in H2. intros L. apply listed_live in L. congruence.
  - apply listed_live in H1. split; [exact H1|]. intros t Ht. apply (shown_holds h c t D H1) in Ht.
    destruct (shown _ _ c); [destruct Ht|discriminate].
  - apply listed_live in H1. split; [exact H1|]. intros v (t & Hi & Hp). rewrite forallb_forall in H2. specialize (H2 t Hi).
    apply andb_true_iff in H2 as [H2 K3]. apply andb_true_iff in H2 as [K1 K2].
    apply storableb_iff. destruct Hp as [->|[->| ->]]; assumption.
  - apply listed_live in H1. split; [exact H1|]. intros t Hi. rewrite forallb_forall in H2. specialize (H2 t Hi).
    apply (shown_holds h c t D H1). apply existsb_exists in H2 as (u & Hu & E). apply trip_eqb_iff in E as ->. exact Hu.
Qed.

Lemma allowed_snoc h o : disciplined h -> allowed h o -> disciplined (h ++ [o]).
Proof.
  intros D A h1 o' h2 E. destruct h2 as [|x h2 _] using rev_ind.
  - apply app_inj_tail in E as [-> ->]. exact A.
  - rewrite app_comm_cons, app_assoc in E. apply app_inj_tail in E as [-> _]. apply (D h1 o' h2 eq_refl).
Qed.

Lemma dtotal_snoc h o : dtotal (h ++ [o]) = (dtotal h + dweight o)%N.
Proof. rewrite dtotal_app. cbn. lia. Qed.

(** What a store has to satisfy. *)
Record good_store {S : Type} (I : trips_impl S) (s0 : S) : Prop := {
  gs_acked : forall h, disciplined h -> (dtotal h < 2 ^ 63)%N -> acked I s0 h = h;
  gs_reads : forall h c, disciplined h -> (dtotal h < 2 ^ 63)%N -> live h c ->
     t_triples I (after I s0 h) c = t_triples mem_impl (after mem_impl mem_new h) c }.

Lemma good_mem : good_store mem_impl mem_new.
Proof. split; [intros h D _; exact (agree_mem h D)|reflexivity]. Qed.

Lemma good_heed : good_store heed_impl heed_new.
Proof.
  split.
  - intros h D W. apply (proj1 (stores_agree h D W)).
  - intros h c D W L. destruct (proj2 (proj2 (stores_agree h D W)) c L) as (l & E1 & E2 & _). congruence.
Qed.

Lemma good_duck : good_store duck_impl duck_new.
Proof.
  split.
  - intros h D W. apply (proj1 (stores_agree h D W)).
  - intros h c D W L. destruct (proj2 (proj2 (stores_agree h D W)) c L) as (l & E1 & _ & E2 & _). congruence.
Qed.

Lemma acked_last {S} (I : trips_impl S) s0 h o : acked I s0 h = h -> acked I s0 (h ++ [o]) = h ++ [o] ->
  call_op I (after I s0 h) o = (Ok tt, after I s0 (h ++ [o])).
Proof.
  intros E1 E2. rewrite acked_snoc, E1 in E2. apply app_inv_head in E2. rewrite after_snoc.
  destruct (call_op I (after I s0 h) o) as [[[]|e|w] x]; [reflexivity|discriminate..].
Qed.

Section Port.
  Context {S : Type} (I : trips_impl S) (s0 : S) (GS : good_store I s0).

  Definition corr (a : mem * list op) (b : S) : Prop :=
    disciplined (snd a) /\ (dtotal (snd a) < 2 ^ 63)%N
    /\ fst a = after mem_impl mem_new (snd a) /\ b = after I s0 (snd a).

  Lemma write_step a b o r a' : corr a b ->
    (if permits mem_impl (fst a) (snd a) o
     then let (r, x) := call_op mem_impl (fst a) o in (r, (x, snd a ++ [o]))
     else (Panic PAssert, a)) = (r, a') -> r <> Panic PAssert ->
    r = Ok tt /\ exists b', call_op I b o = (Ok tt, b') /\ corr a' b'.
  Proof.
    destruct a as [m h]. unfold corr. cbn [fst snd]. intros (D & W & -> & ->) E Hn.
    destruct (permits mem_impl _ h o) eqn:P; [|injection E as <- <-; destruct (Hn eq_refl)].
    apply (permits_allowed _ _ _ D) in P as [A Hw].
    pose proof (allowed_snoc _ _ D A) as D'.
    rewrite (acked_last mem_impl mem_new _ _ (agree_mem _ D) (agree_mem _ D')) in E. injection E as <- <-.
    split; [reflexivity|]. eexists. split; [apply acked_last; apply (gs_acked _ _ GS); assumption|].
    cbn [fst snd]. repeat split; assumption.
  Qed.

  Definition okp (w : why) : Prop := w <> PAssert.

  Lemma tol_not {E V} (r : res E V) : tol okp r -> r <> Panic PAssert.
  Proof. intros T E1. exact (T PAssert E1 eq_refl). Qed.

  Lemma corr_add a b c r a' : corr a b ->
    l_add_collection (graph_impl (watched mem_impl)) a c = (r, a') -> tol okp r ->
    exists r' b', l_add_collection (graph_impl I) b c = (r', b') /\ corr a' b' /\ same_panic r r'.
  Proof.
    intros R E T. apply tol_not in T. cbn [l_add_collection graph_impl] in *. unfold graph_add_collection in *.
    cbn [t_add_collection watched] in E.
    destruct (if permits mem_impl (fst a) (snd a) (OAddColl (el_name c)) then _ else _) as [r1 a1] eqn:E1.
    injection E as <- <-.
    destruct (write_step _ _ _ _ _ R E1) as (-> & b' & E2 & R'). { intros ->. apply T. reflexivity. }
    change (t_add_collection I b (el_name c)) with (call_op I b (OAddColl (el_name c))). rewrite E2.
    do 2 eexists. split; [reflexivity|]. split; [exact R'|]. intros w. split; intros; discriminate.
  Qed.

  Lemma corr_ent a b c n r a' n' : corr a b ->
    l_add_entries (graph_impl (watched mem_impl)) a c n = (r, a', n') -> tol okp r ->
    exists r' b' n'', l_add_entries (graph_impl I) b c n = (r', b', n'') /\ corr a' b' /\ same_panic r r'.
  Proof.
    intros R E T. apply tol_not in T. cbn [l_add_entries graph_impl] in *. unfold graph_add_entries in *.
    cbn [t_add_triples watched] in E. fold (trips_of n) in *.
    destruct (if permits mem_impl (fst a) (snd a) (OAdd (el_name c) (trips_of n)) then _ else _) as [r1 a1] eqn:E1.
    injection E as <- <- <-.
    destruct (write_step _ _ _ _ _ R E1) as (-> & b' & E2 & R'). { intros ->. apply T. reflexivity. }
    change (fst (t_add_triples I b (el_name c) (trips_of n)) = (Ok tt, b')) in E2.
    destruct (t_add_triples I b (el_name c) (trips_of n)) as [[r2 b2] x]. cbn in E2. injection E2 as -> ->.
    do 3 eexists. split; [reflexivity|]. split; [exact R'|]. intros w. split; intros; discriminate.
  Qed.

  Lemma corr_read a b c : corr a b -> tol okp (l_entries (graph_impl (watched mem_impl)) a c) ->
    l_entries (graph_impl I) b c = l_entries (graph_impl (watched mem_impl)) a c.
  Proof.
    destruct a as [m h]. unfold corr. cbn [fst snd]. intros (D & W & -> & ->) T. apply tol_not in T.
    cbn [l_entries graph_impl] in *. unfold graph_entries in *. cbn [t_triples watched fst snd] in *.
    destruct (listed mem_impl _ _) eqn:L; [|destruct (T eq_refl)].
    apply listed_live in L. rewrite (gs_reads _ _ GS _ _ D W L). reflexivity.
  Qed.

  Lemma corr_filter a b c p : corr a b -> tol okp (l_filter (graph_impl (watched mem_impl)) a c p) ->
    l_filter (graph_impl I) b c p = l_filter (graph_impl (watched mem_impl)) a c p.
  Proof. intros _ T. apply tol_not in T. destruct (T eq_refl). Qed.

  Lemma port_script script h r m' h' : disciplined h -> (dtotal h < 2 ^ 63)%N ->
    run (graph_impl (watched mem_impl)) common script (after mem_impl mem_new h, h) = (r, (m', h')) -> r <> Panic PAssert ->
    disciplined h' /\ (dtotal h' < 2 ^ 63)%N /\ m' = after mem_impl mem_new h'
    /\ run (graph_impl I) common script (after I s0 h) = (r, after I s0 h').
  Proof.
    intros D W E Hn.
    assert (T : tol okp r) by (intros w -> ->; apply Hn; reflexivity).
    assert (R : corr (after mem_impl mem_new h, h) (after I s0 h)) by (repeat split; assumption).
    destruct (sim_script (graph_impl (watched mem_impl)) (graph_impl I) corr okp corr_add corr_ent corr_read corr_filter
                script _ _ _ _ E T R) as (b' & E' & K1 & K2 & K3 & K4).
    cbn [fst snd] in *. rewrite <- K4. auto.
  Qed.
End Port.

(** ** Tidy programs *)
Section Tidy.
  Notation W := (graph_impl (watched mem_impl)).

  Definition stands (h : list op) (known : list str) : Prop :=
    disciplined h /\ forall c, live h c <-> In c known.

  Notation at_ h := (after mem_impl mem_new h%list, h%list).

  Lemma watched_write h o : disciplined h -> permits mem_impl (after mem_impl mem_new h) h o = true ->
    (if permits mem_impl (after mem_impl mem_new h) h o
     then let (r, x) := call_op mem_impl (after mem_impl mem_new h) o in (r, (x, h ++ [o]))
     else (@Panic str unit PAssert, at_ h)) = (Ok tt, at_ (h ++ [o])).
  Proof.
    intros D P. rewrite P. pose proof (permits_allowed _ _ _ D P) as [A _].
    rewrite (acked_last mem_impl mem_new _ _ (agree_mem _ D) (agree_mem _ (allowed_snoc _ _ D A))). reflexivity.
  Qed.

  Lemma watched_add h c : disciplined h -> storable (el_name c) -> ~ live h (el_name c) -> (dtotal h + 1 < 2 ^ 63)%N ->
    l_add_collection W (at_ h) c = (Ok tt, at_ (h ++ [OAddColl (el_name c)])).
  Proof.
    intros D Hs Hl Hw. cbn [l_add_collection graph_impl]. unfold graph_add_collection. cbn [t_add_collection watched fst snd].
    rewrite watched_write; [reflexivity|exact D|].
    unfold permits. rewrite dtotal_snoc. cbn [dweight]. rewrite (proj2 (N.ltb_lt _ _) Hw), (proj2 (storableb_iff _) Hs).
    destruct (listed mem_impl (after mem_impl mem_new h) (el_name c)) eqn:L; [apply listed_live in L; contradiction|reflexivity].
  Qed.

  Lemma watched_ent h c n : disciplined h -> live h (el_name c) ->
    (forall e, In e n -> storable (subject e) /\ storable (role_name e) /\ storable (object e)) ->
    (dtotal h + 4 * N.of_nat (List.length n) < 2 ^ 63)%N ->
    l_add_entries W (at_ h) c n = (Ok tt, at_ (h ++ [OAdd (el_name c) (trips_of n)]), n).
  Proof.
    intros D Hl Hn Hw. cbn [l_add_entries graph_impl]. unfold graph_add_entries. fold (trips_of n).
    cbn [t_add_triples watched fst snd].
    rewrite watched_write; [reflexivity|exact D|].
    unfold permits. rewrite dtotal_snoc. cbn [dweight].
    assert (Hw' : (dtotal h + 4 * N.of_nat (List.length (trips_of n)) < 2 ^ 63)%N).
    { eapply N.le_lt_trans; [|exact Hw]. pose proof (trips_of_length n). lia. }
    rewrite (proj2 (N.ltb_lt _ _) Hw'), (proj2 (listed_live _ _) Hl). cbn [andb].
    apply forallb_forall. intros t Ht. apply in_trips_of in Ht as (e & He & <-). destruct (Hn e He) as (K1 & K2 & K3).
    cbn [view t0 t1 t2]. rewrite !andb_true_iff, !storableb_iff. auto.
  Qed.

  Lemma watched_read h c : disciplined h -> live h (el_name c) -> exists l, l_entries W (at_ h) c = Ok l.
  Proof.
    intros D Hl. cbn [l_entries graph_impl]. unfold graph_entries. cbn [t_triples watched fst].
    rewrite (proj2 (listed_live _ _) Hl). destruct (proj1 (mem_history h (el_name c)) Hl) as (l & -> & _). eauto.
  Qed.

  Lemma in_common_let : In (lit "let", Command (lit "Set a named network.") FLet) (@common (mem * list op)).
  Proof. do 3 right. left. reflexivity. Qed.
  Lemma in_common_read : In (lit "read", Command (lit "Read a network.") FRead) (@common (mem * list op)).
  Proof. do 4 right. left. reflexivity. Qed.
  Lemma in_common_id : In (lit "id", Command (lit "Return a value.") FId) (@common (mem * list op)).
  Proof. do 5 right. left. reflexivity. Qed.
  Lemma in_common_ignore : In (lit "ignore", Command (lit "Ignore all arguments to this command and return an empty network.") FIgnore) (@common (mem * list op)).
  Proof. do 2 right. left. reflexivity. Qed.
  Lemma in_common_assert : In (lit "assert-equal", Command (lit "Check if two arguments are equal (quotes are evaluated before comparing) and fail if they are not equal.") FAssertEqual) (@common (mem * list op)).
  Proof. left. reflexivity. Qed.

  Lemma does_as n s c args a r a' : el_name n = s -> In (s, c) (@common (mem * list op)) ->
    acts W common (cmd_fun_of c) args a r a' -> does W common n args a r a'.
  Proof. intros <- Hi H. eapply do_known; eassumption. Qed.

  Lemma plain_evals h known v : stands h known -> plain known v ->
    exists x, evals W common v (at_ h) (Ok x) (at_ h).
  Proof.
    intros [D K] [e|n|r c Er Hc].
    - eexists. apply ev_element.
    - eexists. apply ev_network.
    - apply K in Hc. destruct (watched_read h c D Hc) as (l & El). exists (VNetwork l). apply ev_quote, qu_call.
      eapply does_as; [exact Er|exact in_common_read|]. cbn [cmd_fun_of]. apply ac_simple, si_read. exact El.
  Qed.

  Definition runs_fine (calls : list call) (h : list op) : Prop :=
    exists r h', runs W common calls (at_ h) r (at_ h') /\ forall w, r <> Panic w.

  Lemma fine_more c rest v h h1 : does W common (c_name c) (c_args c) (at_ h) (Ok v) (at_ h1) ->
    runs_fine rest h1 -> runs_fine (c :: rest) h.
  Proof.
    intros H (r & h' & Hr & Hn). destruct rest as [|c' rest].
    - exists (Ok v), h1. split; [apply ru_last; exact H|discriminate].
    - exists r, h'. split; [|exact Hn]. eapply ru_more; [exact H|discriminate|exact Hr].
  Qed.

  Lemma fine_stop c rest e h h1 : does W common (c_name c) (c_args c) (at_ h) (Err e) (at_ h1) -> runs_fine (c :: rest) h.
  Proof. intros H. exists (Err e), h1. split; [apply ru_stop; [exact H|]; intros v; discriminate|discriminate]. Qed.

  Lemma live_snoc_add h c o : (o = OAddColl c \/ live h c) -> o <> ORemColl c -> live (h ++ [o]) c.
  Proof.
    intros [->|(h1 & h2 & -> & Hn)] Ho.
    - exists h, []. split; [reflexivity|intros []].
    - exists h1, (h2 ++ [o]). rewrite <- app_assoc. split; [reflexivity|]. rewrite in_app_iff. intros [H|[H|[]]]; auto.
  Qed.

  Lemma live_snoc_inv h c o : live (h ++ [o]) c -> o = OAddColl c \/ live h c.
  Proof.
    intros (h1 & h2 & E & Hn). destruct h2 as [|x h2 _] using rev_ind.
    - apply app_inj_tail in E as [_ ->]. left; reflexivity.
    - rewrite app_comm_cons, app_assoc in E. apply app_inj_tail in E as [-> ->]. right. exists h1, h2. split; [reflexivity|].
      intros H. apply Hn, in_or_app. left; exact H.
  Qed.

  Lemma tidy_fine known calls : tidy known calls -> forall h, stands h known ->
    (dtotal h + program_weight calls < 2 ^ 63)%N -> runs_fine calls h.
  Proof.
    induction 1 as [known|known l c n rest El Hs Hf Hn _ IH|known r c rest Er Hc _ IH|known i v rest Ei _ IH
                   |known i args rest Ei _ IH|known a v w rest Ea Hv Hw _ IH]; intros h SK Hw'.
    - eexists _, h. split; [apply ru_none|discriminate].
    - destruct SK as [D K]. cbn [program_weight fold_right call_weight c_args] in Hw'. fold (program_weight rest) in Hw'.
      assert (NL : ~ live h (el_name c)) by (rewrite K; exact Hf).
      assert (D1 : disciplined (h ++ [OAddColl (el_name c)])) by (apply allowed_snoc; [exact D|split; assumption]).
      assert (L1 : live (h ++ [OAddColl (el_name c)]) (el_name c)) by (apply live_snoc_add; [left; reflexivity|discriminate]).
      set (h1 := h ++ [OAddColl (el_name c)]) in *.
      assert (E1 : l_add_collection W (at_ h) c = (Ok tt, at_ h1)).
      { apply watched_add; try assumption. eapply N.le_lt_trans; [|exact Hw']. lia. }
      assert (E2 : l_add_entries W (at_ h1) c n = (Ok tt, at_ (h1 ++ [OAdd (el_name c) (trips_of n)]), n)).
      { apply watched_ent; try assumption. unfold h1. rewrite dtotal_snoc. cbn [dweight]. eapply N.le_lt_trans; [|exact Hw']. lia. }
      set (h2 := h1 ++ [OAdd (el_name c) (trips_of n)]) in *.
      eapply fine_more.
      + cbn [c_name c_args]. eapply does_as; [exact El|exact in_common_let|]. cbn [cmd_fun_of]. apply ac_let_network.
        eapply st_both; [exact E1|discriminate|exact E2|discriminate].
      + apply IH.
        * split.
          -- unfold h2. apply allowed_snoc; [exact D1|]. split; [exact L1|]. intros v (t & Ht & Hp).
             apply in_trips_of in Ht as (e & He & <-). destruct (Hn e He) as (K1 & K2 & K3).
             destruct Hp as [->|[->| ->]]; assumption.
          -- intros x. split.
             ++ intros Hx. unfold h2 in Hx. apply live_snoc_inv in Hx as [Hx|Hx]; [discriminate|].
                unfold h1 in Hx. apply live_snoc_inv in Hx as [Hx|Hx]; [injection Hx as ->; left; reflexivity|right; apply K, Hx].
             ++ intros Hx. unfold h2. apply live_snoc_add; [|discriminate]. right. unfold h1. apply live_snoc_add; [|discriminate].
                destruct Hx as [->|Hx]; [left; reflexivity|right; apply K, Hx].
        * unfold h2, h1. rewrite !dtotal_snoc. cbn [dweight]. eapply N.le_lt_trans; [|exact Hw']. pose proof (trips_of_length n). lia.
    - pose proof SK as [D K]. apply K in Hc. destruct (watched_read h c D Hc) as (l & E).
      eapply fine_more; [|apply IH; [exact SK|]].
      + cbn [c_name c_args]. eapply does_as; [exact Er|exact in_common_read|]. apply ac_simple, si_read. exact E.
      + eapply N.le_lt_trans; [|exact Hw']. cbn [program_weight fold_right]. fold (program_weight rest). lia.
    - eapply fine_more; [|apply IH; [exact SK|]].
      + cbn [c_name c_args]. eapply does_as; [exact Ei|exact in_common_id|]. apply ac_simple, si_id.
      + eapply N.le_lt_trans; [|exact Hw']. cbn [program_weight fold_right]. fold (program_weight rest). lia.
    - eapply fine_more; [|apply IH; [exact SK|]].
      + cbn [c_name c_args]. eapply does_as; [exact Ei|exact in_common_ignore|]. apply ac_simple, si_ignore.
      + eapply N.le_lt_trans; [|exact Hw']. cbn [program_weight fold_right]. fold (program_weight rest). lia.
    - destruct (plain_evals h known v SK Hv) as (x & Ex). destruct (plain_evals h known w SK Hw) as (y & Ey).
      assert (Dxy : x = y \/ x <> y).
      { destruct (value_eqb x y) eqn:V; [left; apply value_eqb_eq, V|right]. intros C. apply value_eqb_eq in C. congruence. }
      destruct Dxy as [->|Ne].
      + eapply fine_more; [|apply IH; [exact SK|]].
        * cbn [c_name c_args]. eapply does_as; [exact Ea|exact in_common_assert|]. cbn [cmd_fun_of]. eapply ac_eq_same; eassumption.
        * eapply N.le_lt_trans; [|exact Hw']. cbn [program_weight fold_right]. fold (program_weight rest). lia.
      + eapply fine_stop. cbn [c_name c_args]. eapply does_as; [exact Ea|exact in_common_assert|]. cbn [cmd_fun_of].
        eapply ac_eq_differ; eassumption.
  Qed.

  Lemma tidy_script script ts calls h known : tokenize_and_filter script = Ok ts -> parse ts = Ok calls ->
    tidy known calls -> stands h known -> (dtotal h + program_weight calls < 2 ^ 63)%N ->
    exists r h', run W common script (at_ h) = (r, at_ h') /\ forall w, r <> Panic w.
  Proof.
    intros E1 E2 T SK Hw. destruct (tidy_fine known calls T h SK Hw) as (r & h' & H & Hn).
    exists r, h'. split; [|exact Hn]. unfold run. rewrite E1, E2. apply (runs_iff _ _ common_table). exact H.
  Qed.
End Tidy.
