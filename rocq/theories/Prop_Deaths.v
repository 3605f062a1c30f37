(** * C124: what a script leaves that dies on its way *)
From Coq Require Import List Arith NArith Bool String Lia.
From Verif Require Import M_Base M_Data M_Mem M_Heed M_HeedRel M_Duck M_DuckReal M_Regex M_Lexer M_Graph M_Parser M_Display M_Interp M_Conc M_TxnConc
  S_Order S_Str S_Store S_Graph S_Lexer S_Parser S_Interp S_Conc S_TxnConc S_Names S_DuckReal
  P_Ord P_Hist P_Conc P_Graph P_Wander P_WanderRun P_WanderDet P_Deaths P_DeathRun P_TxnConc Prop_TxnConc S_Wander S_Deaths.
Import ListNotations.
Open Scope list_scope.

(** C124.  A store that shows the world [w], and a script.  The worlds that the
    stores show that are left when the script is killed, after any number of its
    store calls, are exactly those the reference lists: what was there; what is
    there in the middle of one of the calls of the program, the calls before it
    having answered; in the middle of a let the quote done in part, or the name
    bound and nothing stored under it. *)
Theorem C124_exact : forall B S (I : trips_impl S) s0 room h script w, implements B I s0 room ->
  shows I (after I s0 h) w -> room (snd (snd (run (graph_impl (logged I)) common script (after I s0 h, h)))) ->
  forall w', (exists v, dies_in B w script v /\ same_world v w')
    <-> exists m, shows I (snd (alone (graph_impl I) m (p_run common script) (after I s0 h))) w'.
Proof. intros B S I s0 room h script w HI Sw R. exact (death_exact B I s0 room HI h script w Sw R). Qed.
Print Assumptions C124_exact.

(** Lives of stores: scripts are run to the end or die on their way, one after the
    other.  The outcomes and the world at the end are what the reference says. *)
Theorem C124_life : forall B S (I : trips_impl S) s0 room h ds w rs s' h', implements B I s0 room -> shows I (after I s0 h) w ->
  life (graph_impl (logged I)) ds (after I s0 h, h) = (rs, (s', h')) -> room h' ->
  life (graph_impl I) ds (after I s0 h) = (rs, s')
  /\ exists w', lived B w ds (map outcome_of rs) w' /\ shows I s' w'.
Proof.
  intros B S I s0 room h ds w rs s' h' HI Sw E R. split.
  - destruct (logged_life I ds (after I s0 h, h)) as [E1 E2]. rewrite E in E1, E2. cbn [fst snd] in E1, E2. rewrite E1, E2. apply surjective_pairing.
  - destruct (life_follows B I s0 room HI ds (after I s0 h, h) w eq_refl Sw) as (w' & L & K); rewrite E in *; [exact R|]. exists w'. auto.
Qed.
Print Assumptions C124_life.

(** And every life the reference allows is lived by the code, with its scripts
    dying at the right moments. *)
Theorem C124_life_reached : forall B S (I : trips_impl S) s0 room h ds w os w', implements B I s0 room -> shows I (after I s0 h) w ->
  (forall ds', Forall2 same_deed ds ds' -> room (snd (snd (life (graph_impl (logged I)) ds' (after I s0 h, h))))) ->
  lived B w ds os w' ->
  exists ds' rs s', Forall2 same_deed ds ds' /\ life (graph_impl I) ds' (after I s0 h) = (rs, s') /\ map outcome_of rs = os /\ shows I s' w'.
Proof.
  intros B S I s0 room h ds w os w' HI Sw R L.
  destruct (life_reached B I s0 room HI w ds os w' L (after I s0 h, h) eq_refl Sw R) as (ds' & F & Eo & Hs). exists ds'.
  destruct (logged_life I ds' (after I s0 h, h)) as [E1 E2]. cbn [fst] in E1, E2. rewrite E1 in Eo. rewrite E2 in Hs.
  exists (fst (life (graph_impl I) ds' (after I s0 h))), (snd (life (graph_impl I) ds' (after I s0 h))). split; [exact F|]. split; [apply surjective_pairing|]. auto.
Qed.
Print Assumptions C124_life_reached.

(** On LMDB a script may also die in the middle of a store call, between any two of
    its operations on the file: what is on the file then is what would be there had
    it died between two calls. *)
Lemma interleave_one {S} (L : lig_impl S) m : forall s cl, shared (interleave L (repeat 0 m) (Pool s cl)) = snd (alone L m (cl 0) s).
Proof.
  induction m as [|m IH]; intros s cl; [destruct (cl 0); reflexivity|]. cbn [repeat interleave]. unfold turn. cbn [clients shared].
  destruct (cl 0) as [r|q k] eqn:E.
  - rewrite IH, E. destruct m; reflexivity.
  - cbn [alone]. destruct (perform L q s) as [a s1]. rewrite IH. reflexivity.
Qed.

Theorem C124_operations : forall script d n,
  let s := go_on (repeat (Moves 0) n) (start d [] (fun _ => p_run common script)) in
  exists m, file s = snd (alone (graph_impl heed_impl) m (p_run common script) d).
Proof.
  intros script d n s.
  destruct (C119_lifts d (fun _ => p_run common script) (repeat (Moves 0) n)) as (sched & Em & Es & _).
  { intros i Hi. apply repeat_spec in Hi. discriminate. }
  assert (Z : forall l s, (forall e, In e l -> e = Moves 0) -> forall e, In e (moments l s) -> e = Moves 0).
  { clear. induction l as [|e l IH]; intros s H x Hx; [destruct Hx|]. cbn [moments] in Hx. apply in_app_or in Hx as [Hx|Hx].
    - rewrite (H e (or_introl eq_refl)) in Hx. destruct (moment 0 s); [destruct Hx as [<-|[]]; reflexivity|destruct Hx].
    - eapply IH; [|exact Hx]. intros y Hy. apply H. right. exact Hy. }
  assert (sched = repeat 0 (List.length sched)) as Er.
  { assert (Q : forall x, In x sched -> x = 0).
    { intros x Hx. assert (Moves x = Moves 0) as X; [|injection X as ->; reflexivity]. apply (Z (repeat (Moves 0) n) (start d [] (fun _ => p_run common script))).
      - intros e He. apply repeat_spec in He. exact He.
      - rewrite <- Em. apply in_map, Hx. }
    clear -Q. induction sched as [|x l IH]; [reflexivity|]. cbn. rewrite (Q x (or_introl eq_refl)). f_equal. apply IH. intros y Hy. apply Q. right. exact Hy. }
  exists (List.length sched). rewrite Er, interleave_one in Es. symmetry. exact Es.
Qed.
Print Assumptions C124_operations.

(** A script of two lets, killed after 0, 1, ... store calls; and a life of the store
    in which it dies and its networks are read. *)
Definition de_script : str := lit "let a (read b), let c { x y z }".
Definition de_h : list op := [OAddColl (lit "b"); OAdd (lit "b") [Trip (lit "1") (lit "2") (lit "3")]].
Example C124_case :
  let G := graph_impl mem_impl in
  let d := after mem_impl mem_new de_h in
  let left m := snd (alone G m (p_run common de_script) d) in
  (exists w, shows mem_impl d w)
  /\ map (fun m => t_collections mem_impl (left m)) [0; 1; 2; 3; 4; 5; 9]
     = [Ok [lit "b"]; Ok [lit "b"]; Ok [lit "a"; lit "b"]; Ok [lit "a"; lit "b"];
        Ok [lit "a"; lit "b"; lit "c"]; Ok [lit "a"; lit "b"; lit "c"]; Ok [lit "a"; lit "b"; lit "c"]]
  /\ t_triples mem_impl (left 2) (lit "a") = Ok [] /\ (exists t, t_triples mem_impl (left 3) (lit "a") = Ok [t])
  /\ t_triples mem_impl (left 4) (lit "c") = Ok [] /\ (exists t, t_triples mem_impl (left 5) (lit "c") = Ok [t])
  /\ exists e, fst (life G [DiesAfter de_script 4; Runs (lit "read a"); Runs (lit "read c")] d) = [Ok (VNetwork [e]); Ok (VNetwork [])].
Proof.
  cbv zeta. split; [eexists; apply world_of_shows; intros n; eapply implements_readable; exact im_mem|].
  split; [vm_compute; reflexivity|]. split; [vm_compute; reflexivity|]. split; [eexists; vm_compute; reflexivity|].
  split; [vm_compute; reflexivity|]. split; [eexists; vm_compute; reflexivity|]. eexists. vm_compute. reflexivity.
Qed.

(** A script that is killed may cost what was there: in memory the name is bound
    anew before it is filled. *)
Definition de_again : str := lit "let b { x y z }".
Theorem C124_may_lose :
  let G := graph_impl mem_impl in
  let d := after mem_impl mem_new de_h in
  let cut := snd (alone G 1 (p_run common de_again) d) in
  (exists t, t_triples mem_impl d (lit "b") = Ok [t]) /\ t_triples mem_impl cut (lit "b") = Ok [].
Proof. cbv zeta. split; [eexists; vm_compute; reflexivity|vm_compute; reflexivity]. Qed.
Print Assumptions C124_may_lose.
