(** * No invented names; answers can be typed back *)
From Coq Require Import List NArith Bool String.
From Verif Require Import M_Base M_Data M_Mem M_Heed M_Duck M_Regex M_Lexer M_Graph M_Parser M_Display M_Interp
  S_Order S_Str S_Store S_Graph S_Lexer S_Parser S_Display S_GraphHist S_Names P_Hist P_Lexer P_Reread P_Names Prop_Display.
Import ListNotations.
Open Scope list_scope.

Lemma shipped_honest {S} (I : trips_impl S) s0 : shipped I s0 -> honest I s0.
Proof. intros []; [exact honest_mem|exact honest_heed|exact honest_duck]. Qed.

(** C91.  An answer holds only names that the script says, that were stored
    before, or that docs tells; it has no namespaces or language tags, no quote
    in a quote and no role with a reserved name. *)
Theorem C91_answers : forall S (I : trips_impl S) s0 h script v s', shipped I s0 ->
  let s := after I s0 h in
  run (graph_impl I) common script s = (Ok v, s') ->
  tidy_value v /\ forall n, named v n -> said script n \/ stored I s n \/ documented n.
Proof.
  intros S I s0 h script v s' HS s E. pose proof (shipped_honest _ _ HS) as HI.
  set (Q := fun n => said script n \/ stored I s n \/ documented n).
  destruct (names_run I s0 HI (fun _ => True) Q (fun n H => or_intror (or_intror H)) script s (Ok v) s') as [_ K].
  - intros n Hn. split; [exact Logic.I|left; exact Hn].
  - exists h. split; [reflexivity|]. split; [|trivial]. intros c t n Ht Hn. right. left. exists c, t. auto.
  - exact E.
  - specialize (K v eq_refl). split; [exact (ok_tidy _ _ K)|exact (ok_named _ _ K)].
Qed.
Print Assumptions C91_answers.

(** Whatever it answers, it stores only such names, and creates only collections
    whose name it says. *)
Theorem C91_store : forall S (I : trips_impl S) s0 h script r s', shipped I s0 ->
  let s := after I s0 h in
  run (graph_impl I) common script s = (r, s') ->
  (forall n, stored I s' n -> said script n \/ stored I s n \/ documented n)
  /\ (forall c, has I s' c -> has I s c \/ said script c).
Proof.
  intros S I s0 h script r s' HS s E. pose proof (shipped_honest _ _ HS) as HI.
  set (Q := fun n => said script n \/ stored I s n \/ documented n).
  destruct (names_run I s0 HI (fun c => has I s c \/ said script c) Q (fun n H => or_intror (or_intror H)) script s r s')
    as [(h' & _ & K1 & K2) _].
  - intros n Hn. split; [right; exact Hn|left; exact Hn].
  - exists h. split; [reflexivity|]. split; [|auto]. intros c t n Ht Hn. right. left. exists c, t. auto.
  - exact E.
  - split; [|exact K2]. intros n (c & t & Ht & Hn). exact (K1 c t n Ht Hn).
Qed.
Print Assumptions C91_store.

(** Scripts run one after the other on a new store. *)
Theorem C91_session : forall S (I : trips_impl S) s0 scripts rs s', shipped I s0 ->
  session (graph_impl I) scripts s0 = (rs, s') ->
  (forall v n, In (Ok v) rs -> named v n -> documented n \/ exists x, In x scripts /\ said x n)
  /\ (forall n, stored I s' n -> documented n \/ exists x, In x scripts /\ said x n)
  /\ (forall c, has I s' c -> exists x, In x scripts /\ said x c).
Proof.
  intros S I s0 scripts rs s' HS E. pose proof (shipped_honest _ _ HS) as HI.
  set (C := fun c => exists x, In x scripts /\ said x c).
  set (Q := fun n => documented n \/ exists x, In x scripts /\ said x n).
  destruct (names_session I s0 HI C Q (fun n H => or_introl H) scripts s0 rs s') as [(h' & _ & K1 & K2) K3].
  - intros x n Hx Hn. split; [exists x; auto|right; exists x; auto].
  - exists []. split; [reflexivity|]. split.
    + intros c t n Ht _. exfalso. destruct HS; destruct Ht as (l & El & Hi); cbn in El.
      * discriminate.
      * unfold heed_triples, sget in El. cbn in El. destruct (key_readable c); discriminate.
      * injection El as <-. exact Hi.
    + intros c Hc. exfalso. destruct HS; destruct Hc as (l & El & Hi); injection El as <-; exact Hi.
  - exact E.
  - split; [|split; [|exact K2]].
    + intros v n Hv Hn. exact (ok_named _ _ (K3 v Hv) n Hn).
    + intros n (c & t & Ht & Hn). exact (K1 c t n Ht Hn).
Qed.
Print Assumptions C91_session.

Example C91_case :
  let G := graph_impl heed_impl in
  let script := lit "let n {a b ""c d"", a : C}, read n" in
  exists v s', run G common script heed_new = (Ok v, s') /\ named v (lit "c d") /\ named v (lit ":")
  /\ said script (lit "c d") /\ said script (lit "n")
  /\ exists rs s2, session G [script; lit "let d (docs)"; lit "read d"] heed_new = (rs, s2)
     /\ stored heed_impl s2 (lit "Read a network.") /\ documented (lit "Read a network.").
Proof.
  eexists. eexists. split; [vm_compute; reflexivity|]. split; [|split; [|split; [|split]]].
  - eapply nm_network; [left; reflexivity|]. right. right. reflexivity.
  - eapply nm_network; [right; left; reflexivity|]. right. left. reflexivity.
  - eexists. split; [apply tokenize_ok; vm_compute; reflexivity|]. left. simpl. tauto.
  - eexists. split; [apply tokenize_ok; vm_compute; reflexivity|]. right. simpl. tauto.
  - eexists. eexists. split; [vm_compute; reflexivity|]. split.
    + exists (lit "d"), (Trip (lit "read") (lit "docString") (lit "Read a network.")).
      split; [|right; right; reflexivity]. eexists. split; [vm_compute; reflexivity|]. simpl. tauto.
    + right. exists (lit "read"), (Command (lit "Read a network.") FRead). split; [simpl; tauto|right; reflexivity].
Qed.

(** C92.  Scripts without a backslash, run on a store of plain names: every
    answer, printed and given to id, is answered again, on any store. *)
Theorem C92_typed_back : forall S (I : trips_impl S) s0 h scripts rs s' v, shipped I s0 ->
  let s := after I s0 h in
  (forall n, stored I s n -> Forall plain_char n) ->
  (forall x, In x scripts -> ~ In 92%N x) ->
  session (graph_impl I) scripts s = (rs, s') -> In (Ok v) rs ->
  forall (St : Type) (lig : lig_impl St) st,
  run lig common (lit "id " ++ display v) st = (Ok v, st).
Proof.
  intros S I s0 h scripts rs s' v HS s Hp Hb E Hv St lig st. pose proof (shipped_honest _ _ HS) as HI.
  destruct (names_session I s0 HI (fun _ => True) (Forall plain_char) documented_plain scripts s rs s') as [_ K].
  - intros x n Hx Hn. split; [exact Logic.I|]. exact (said_plain x n (Hb x Hx) Hn).
  - exists h. split; [reflexivity|]. split; [|trivial]. intros c t n Ht Hn. apply Hp. exists c, t. auto.
  - exact E.
  - apply C41_plain_values_read_back, ok_plain, K, Hv.
Qed.
Print Assumptions C92_typed_back.

(** In general an answer reads back with its names JSON-escaped. *)
Theorem C92_any_answer : forall S (I : trips_impl S) s0 h script v s', shipped I s0 ->
  run (graph_impl I) common script (after I s0 h) = (Ok v, s') ->
  forall (St : Type) (lig : lig_impl St) st,
  exists v', rereads v v' /\ run lig common (lit "id " ++ display v) st = (Ok v', st).
Proof.
  intros S I s0 h script v s' HS E St lig st. destruct (C91_answers _ _ _ _ _ _ _ HS E) as [T _].
  destruct (C42_reads_back_normalised St lig st v) as (v' & R & _ & _ & K); [|eauto].
  destruct v as [e|q|n]; simpl; auto. simpl in T. eapply Forall_impl; [|exact T]. intros [e|q'|n] H y; try discriminate. destruct H.
Qed.
Print Assumptions C92_any_answer.

(** With a backslash it does not come back as it was: each round doubles it. *)
Theorem C92_backslash_refuted :
  exists script v s', run (graph_impl mem_impl) common script mem_new = (Ok v, s')
  /\ exists v', run (graph_impl mem_impl) common (lit "id " ++ display v) s' = (Ok v', s') /\ v' <> v.
Proof.
  exists (lit "id " ++ [34; 92; 110; 34]%N). eexists. eexists. split; [vm_compute; reflexivity|].
  eexists. split; [vm_compute; reflexivity|discriminate].
Qed.
Print Assumptions C92_backslash_refuted.

Example C92_case :
  let scripts := [lit "let n {a b ""c d"", a : C}"; lit "read n"; lit "docs"] in
  (forall x, In x scripts -> ~ In 92%N x) /\ (forall n, stored mem_impl mem_new n -> Forall plain_char n)
  /\ exists rs s', session (graph_impl mem_impl) scripts mem_new = (rs, s')
     /\ In (Ok (VNetwork [Role (mkE (lit "a")) (mkE (lit "c d")) (mkE (lit "b")); Extends (mkE (lit "a")) (mkE (lit "C"))])) rs.
Proof.
  split; [|split].
  - intros x H. simpl in H. repeat (destruct H as [<-|H]; [vm_compute; intuition discriminate|]). destruct H.
  - intros n (c & t & (l & El & _) & _). discriminate.
  - eexists. eexists. split; [vm_compute; reflexivity|]. right. left. reflexivity.
Qed.
