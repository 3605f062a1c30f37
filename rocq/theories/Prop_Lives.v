(** * C136: many lives of a process, with any clients in them *)
From Coq Require Import List Arith NArith Bool String Lia Permutation.
From Verif Require Import M_Base M_Data M_Heed M_Txn M_Regex M_Lexer M_Graph M_Parser M_Display M_Interp M_Conc M_HostConc M_TxnConc
  S_Order S_Str S_Store S_Txn S_Graph S_Lexer S_Parser S_Interp S_Conc S_ConcSee S_Wander S_Rewrite S_TxnConc S_Footprint S_Commands S_HostConc S_AnyRetry S_Isolated S_ConcFail S_Fair S_Apart S_Demand S_Lives
  P_Ord P_Hist P_HeedHist P_Parser P_Conc P_Rewrite P_Footprint P_ConcFoot P_FailRun P_Retry P_HostConc P_HostLmdb P_AnyRetry P_Isolated P_ConcFail P_Fair P_Gens P_Apart P_Alike.
From Verif Require Prop_TxnConc Prop_Retry Prop_ConcFail Prop_Apart Prop_Demand.
Import ListNotations.
Open Scope list_scope.

Lemma in_turn_app {S} (L : lig_impl S) ps : forall qs st, in_turn L (ps ++ qs) st =
  (fst (in_turn L ps st) ++ fst (in_turn L qs (snd (in_turn L ps st))), snd (in_turn L qs (snd (in_turn L ps st)))).
Proof.
  induction ps as [|p ps IH]; intros qs st; cbn [in_turn List.app]; [cbn [fst snd List.app]; destruct (in_turn L qs st); reflexivity|].
  destruct (solo L p st) as [r st1]. rewrite IH. destruct (in_turn L ps st1) as [rs st2]. cbn [fst snd]. destruct (in_turn L qs st2); reflexivity.
Qed.

Lemma turn_length {S} (L : lig_impl S) ps : forall st, List.length (fst (in_turn L ps st)) = List.length ps.
Proof.
  induction ps as [|p ps IH]; intros st; [reflexivity|]. cbn [in_turn]. destruct (solo L p st) as [r st1]. specialize (IH st1).
  destruct (in_turn L ps st1) as [rs st2]. cbn [fst List.length] in *. congruence.
Qed.

Lemma turn_faults ps : forall d fs, exists fs1, forall rest,
  in_turn AO ps (d, fs1 ++ rest) = (fst (in_turn AO ps (d, fs)), (fst (snd (in_turn AO ps (d, fs))), rest)).
Proof.
  induction ps as [|p ps IH]; intros d fs; [exists []; reflexivity|]. destruct (solo_uses p d fs) as (f0 & H).
  cbn [in_turn]. destruct (solo AO p (d, fs)) as [r [d1 fs1]]. cbn [fst snd] in H. destruct (IH d1 fs1) as (f1 & K).
  exists (f0 ++ f1). intros rest. rewrite <- app_assoc, H, K. destruct (in_turn AO ps (d1, fs1)) as [rs st2]. reflexivity.
Qed.

(** C136.  A file is used in any number of lives of a process.  In each of them any
    clients that have nothing to do with each other (C134) are begun at once, their
    operations interleave in any way, writes and commits fail, clients die, and at
    some moment the process is gone.  Then there is one run of all of them on one
    file that looked like this one at first, life after life and within each life one
    after the other in any order, each from its beginning to its end, with some
    failures, that leaves the file looking as it looks now; and whoever had ended,
    in whichever life, has the result it has in that run (or panics, too).  (Those
    that had not ended, or died, must not be able to use up more than [n] ids.) *)
Theorem C136_one_run : forall ls orders h z n,
  Forall2 (fun l o => Permutation o (seq 0 (List.length (l_clients l)))) ls orders ->
  (forall l p, In l ls -> In p (l_clients l) -> local p /\ falls p) ->
  (forall l, In l ls -> ForallOrdPairs apart (l_clients l)) ->
  let d0 := after heed_impl heed_new h in
  let e0 := after heed_impl heed_new z in
  look_alike heed_impl d0 e0 ->
  (forall k l j, nth_error ls k = Some l -> j < List.length (l_clients l) ->
     ~ In (Dies j) (l_happens l) /\ ended j (close_of l (remains (firstn k ls) d0)) \/ costs (client_of l j) n) ->
  (total_weight h + lives_use ls d0 n < 2 ^ 64)%N -> (total_weight z + lives_use ls d0 n < 2 ^ 64)%N ->
  exists fs rss e, in_turn (graph_impl lmdb_at_once) (in_order ls orders) (e0, fs) = (List.concat rss, (e, []))
    /\ look_alike heed_impl (remains ls d0) e
    /\ Forall2 (fun o rs => List.length rs = List.length o) orders rss
    /\ forall k l o rs m i r, nth_error ls k = Some l -> nth_error orders k = Some o -> nth_error rss k = Some rs ->
         nth_error o m = Some i -> ~ In (Dies i) (l_happens l) -> doing (close_of l (remains (firstn k ls) d0)) i = Idle (Done r) ->
         exists r', nth_error rs m = Some r' /\ alike r r'.
Proof.
  induction ls as [|l ls IH]; intros orders h z n F HP Ap d0 e0 L HR Wh Wz; inversion F as [|? o ? os P F']; subst.
  - exists [], [], e0. split; [reflexivity|]. split; [exact L|]. split; [constructor|]. intros k l. destruct k; discriminate.
  - cbn [lives_use] in Wh, Wz. change (after heed_impl heed_new h) with (lm h) in d0. change (after heed_impl heed_new z) with (lm z) in e0.
    destruct (Prop_Apart.in_turn_from (l_clients l) o h z (l_faults l) (l_happens l) n) as (h1 & z1 & ff & rs' & E1 & W1 & X2 & T2 & X4 & X5).
    + intros p Hp. exact (HP l p (or_introl eq_refl) Hp).
    + apply Ap. left. reflexivity.
    + exact P.
    + exact (alike_obs h z L).
    + intros j Hj. exact (HR 0 l j eq_refl Hj).
    + change (total_weight h + used_up l d0 + N.of_nat (List.length (l_clients l)) * n < 2 ^ 64)%N. lia.
    + change (total_weight z + used_up l d0 + N.of_nat (List.length (l_clients l)) * n < 2 ^ 64)%N. lia.
    + change (file (close_of l d0) = lm h1) in E1. change (total_weight h1 <= total_weight h + used_up l d0)%N in W1.
      change (total_weight z1 <= total_weight z + used_up l d0 + N.of_nat (List.length (l_clients l)) * n)%N in X5.
      change (in_turn AO (map (client_of l) o) (lm z, ff) = (rs', (lm z1, []))) in X2. rewrite E1 in Wh, Wz.
      destruct (IH os h1 z1 n F') as (fs & rss & e & Y1 & Y2 & Y3 & Y4).
      * intros l' p Hl Hp. apply (HP l' p); [right; exact Hl|exact Hp].
      * intros l' Hl. apply Ap. right. exact Hl.
      * apply obs_alike, X4.
      * intros k l' j El Hj. specialize (HR (S k) l' j El Hj). cbn [firstn remains] in HR. rewrite E1 in HR. exact HR.
      * change (after heed_impl heed_new h1) with (lm h1). lia.
      * change (after heed_impl heed_new h1) with (lm h1). lia.
      * destruct (turn_faults (map (client_of l) o) (lm z) ff) as (f0 & Hf). rewrite X2 in Hf. cbn [fst snd] in Hf.
        exists (f0 ++ fs), (rs' :: rss), e. split; [|split; [|split]].
        -- cbn [in_order List.concat]. rewrite in_turn_app. rewrite Hf. cbn [fst snd].
           change (after heed_impl heed_new z1) with (lm z1) in Y1. rewrite Y1. reflexivity.
        -- cbn [remains]. rewrite E1. exact Y2.
        -- constructor; [|exact Y3]. rewrite <- (map_length (client_of l) o), <- (turn_length AO (map (client_of l) o) (lm z, ff)), X2. reflexivity.
        -- intros [|k] l' o' rs m i r El Eo' Er Em Nd Ed; cbn [nth_error] in El, Eo', Er.
           ++ injection El as <-. injection Eo' as <-. injection Er as <-. cbn [firstn remains] in Ed. exact (T2 m i r Em Nd Ed).
           ++ cbn [firstn remains] in Ed. rewrite E1 in Ed. exact (Y4 k l' o' rs m i r El Eo' Er Em Nd Ed).
Qed.
Print Assumptions C136_one_run.

(** Lives of Wander scripts that let only what they say (C135): nothing is asked but
    that neither of two of one life lets what the other looks at, and that the texts
    are short enough. *)
Lemma lives_use_costs ls : forall d n, (forall l p, In l ls -> In p (l_clients l) -> costs p n) ->
  (lives_use ls d n <= 2 * (N.of_nat (List.length (flat_map l_clients ls)) * n))%N.
Proof.
  induction ls as [|l ls IH]; intros d n H; [cbn; lia|]. cbn [lives_use flat_map]. rewrite app_length, Nat2N.inj_add, N.mul_add_distr_r.
  specialize (IH (file (close_of l d)) n (fun l' p Hl => H l' p (or_intror Hl))).
  pose proof (Prop_Apart.C134_room (l_clients l) d (l_faults l) (moments (l_happens l) (start d (l_faults l) (client_of l))) n (fun p => H l p (or_introl eq_refl))) as K.
  cbv zeta in K. change (used_up l d <= N.of_nat (List.length (l_clients l)) * n)%N in K. lia.
Qed.

Lemma apart_scripts ss : ForallOrdPairs independent ss -> ForallOrdPairs apart (map (p_run common) ss).
Proof.
  induction 1 as [|s ss H _ IH]; [constructor|]. cbn [map]. constructor; [|exact IH]. rewrite Forall_forall in *. intros p Hp.
  apply in_map_iff in Hp as (s' & <- & Hs). apply Prop_Apart.C134_scripts, H, Hs.
Qed.

Definition life_of (g : list str * list fault * list happening) : life := Life (map (p_run common) (fst (fst g))) (snd (fst g)) (snd g).

Theorem C136_scripts : forall gs orders h z L,
  let ls := map life_of gs in
  Forall2 (fun l o => Permutation o (seq 0 (List.length (l_clients l)))) ls orders ->
  (forall g x, In g gs -> In x (fst (fst g)) -> frugal x /\ List.length x <= L) ->
  (forall g, In g gs -> ForallOrdPairs independent (fst (fst g))) ->
  let d0 := after heed_impl heed_new h in
  let e0 := after heed_impl heed_new z in
  look_alike heed_impl d0 e0 ->
  let room := (2 * (N.of_nat (List.length (flat_map l_clients ls)) * (28 * N.of_nat L)))%N in
  (total_weight h + room < 2 ^ 64)%N -> (total_weight z + room < 2 ^ 64)%N ->
  exists fs rss e, in_turn (graph_impl lmdb_at_once) (in_order ls orders) (e0, fs) = (List.concat rss, (e, []))
    /\ look_alike heed_impl (remains ls d0) e
    /\ Forall2 (fun o rs => List.length rs = List.length o) orders rss
    /\ forall k l o rs m i r, nth_error ls k = Some l -> nth_error orders k = Some o -> nth_error rss k = Some rs ->
         nth_error o m = Some i -> ~ In (Dies i) (l_happens l) -> doing (close_of l (remains (firstn k ls) d0)) i = Idle (Done r) ->
         exists r', nth_error rs m = Some r' /\ alike r r'.
Proof.
  intros gs orders h z L ls F HF Ind d0 e0 Lk room Wh Wz.
  assert (HC : forall l p, In l ls -> In p (l_clients l) -> exists x g, p = p_run common x /\ In g gs /\ In x (fst (fst g))).
  { intros l p Hl Hp. apply in_map_iff in Hl as (g & <- & Hg). apply in_map_iff in Hp as (x & <- & Hx). eauto. }
  assert (Co : forall l p, In l ls -> In p (l_clients l) -> costs p (28 * N.of_nat L)).
  { intros l p Hl Hp. destruct (HC l p Hl Hp) as (x & g & -> & Hg & Hx). apply (Prop_Demand.costs_longest (fst (fst g)) L); [intros y Hy; exact (HF g y Hg Hy)|exact Hx]. }
  pose proof (lives_use_costs ls d0 (28 * N.of_nat L) Co) as K.
  apply (C136_one_run ls orders h z (28 * N.of_nat L) F).
  - intros l p Hl Hp. destruct (HC l p Hl Hp) as (x & g & -> & _). apply Prop_Apart.C134_script.
  - intros l Hl. apply in_map_iff in Hl as (g & <- & Hg). apply apart_scripts, Ind, Hg.
  - exact Lk.
  - intros k l j El Hj. right. apply (Co l); [eapply nth_error_In, El|]. apply nth_In, Hj.
  - unfold room in Wh. change (after heed_impl heed_new h) with d0. lia.
  - unfold room in Wz. change (after heed_impl heed_new h) with d0. lia.
Qed.
Print Assumptions C136_scripts.

(** A case: the life of C134's case (a commit fails, a client dies in the middle of a
    call, the process is gone), and then another life with the counting program and a
    script once more.  The program, which found nothing in the first life, now finds
    what it wrote then; and so it does in a run of all in turn, where the third client
    of the first life fails at its commit. *)
Definition lv_lives : list life :=
  [Life Prop_Apart.ap_ps Prop_Apart.ap_faults Prop_Apart.ap_happens;
   Life [Prop_Apart.ap_counts; p_run common Prop_Retry.rt_let] [] (repeat (Moves 1) 7 ++ repeat (Moves 0) 60 ++ repeat (Moves 1) 80 ++ repeat (Moves 0) 60)].
Definition lv_orders : list (list nat) := [[2; 0; 1]; [1; 0]].
Definition lv_results (s : system) (n : nat) : list (option outcome) :=
  map (fun j => match doing s j with Idle (Done r) => Some (outcome_of r) | _ => None end) (seq 0 n).

Example C136_case :
  let d0 := heed_new in
  Forall2 (fun l o => Permutation o (seq 0 (List.length (l_clients l)))) lv_lives lv_orders
  /\ (forall l p, In l lv_lives -> In p (l_clients l) -> local p /\ falls p)
  /\ (forall l, In l lv_lives -> ForallOrdPairs apart (l_clients l))
  /\ look_alike heed_impl d0 d0
  /\ (forall k l j, nth_error lv_lives k = Some l -> j < List.length (l_clients l) ->
       ~ In (Dies j) (l_happens l) /\ ended j (close_of l (remains (firstn k lv_lives) d0)) \/ costs (client_of l j) 100)
  /\ (total_weight [] + lives_use lv_lives d0 100 < 2 ^ 64)%N
  /\ (forall l, nth_error lv_lives 1 = Some l -> lv_results (close_of l (remains (firstn 1 lv_lives) d0)) 2
        = [Some (Answers (VNetwork [Role (mkE (lit "p")) (mkE (lit "r")) (mkE (lit "q"))])); Some (Answers (VNetwork []))])
  /\ (let (rs, st) := in_turn (graph_impl lmdb_at_once) (in_order lv_lives lv_orders) (d0, [no_fault; (None, false); no_fault; (None, false)]) in
      map outcome_of (tl rs) = [Answers (VNetwork []); Answers (VElement (mkE (lit "began"))); Answers (VNetwork []);
        Answers (VNetwork [Role (mkE (lit "p")) (mkE (lit "r")) (mkE (lit "q"))])]
      /\ map (fun c => l_entries (graph_impl heed_impl) (fst st) (mkE (lit c))) ["a"; "b"; "m"; "n"]%string
         = map (fun c => l_entries (graph_impl heed_impl) (remains lv_lives d0) (mkE (lit c))) ["a"; "b"; "m"; "n"]%string).
Proof.
  cbv zeta. destruct Prop_Apart.C134_case as (A1 & A2 & A3 & _). cbv zeta in A3.
  assert (HC : costs (p_run common Prop_Retry.rt_let) 100) by (apply Prop_ConcFail.C131_case; left; reflexivity).
  split; [|split; [|split; [|split; [|split; [|split; [vm_compute; reflexivity|split]]]]]].
  - constructor; [|constructor; [|constructor]]; cbn [l_clients List.length seq].
    + apply perm_trans with [0; 2; 1]; [apply perm_swap|apply perm_skip, perm_swap].
    + apply perm_swap.
  - intros l p [<-|[<-|[]]] Hp; [exact (A1 p Hp)|]. destruct Hp as [<-|[<-|[]]]; apply A1; [right; left|right; right; left]; reflexivity.
  - intros l [<-|[<-|[]]]; [exact A2|]. inversion A2 as [|? ? _ A]; subst. exact A.
  - intros w. reflexivity.
  - intros [|[|k]] l j El Hj; cbn [nth_error lv_lives] in El; [..|destruct k; discriminate El]; injection El as <-.
    + exact (A3 j Hj).
    + cbn [l_clients List.length] in Hj. left. split.
      * intros H. vm_compute in H. repeat destruct H as [H|H]; try discriminate H; exact H.
      * destruct j as [|[|j]]; [| |lia]; unfold ended; eexists; vm_compute; reflexivity.
  - intros l El. injection El as <-. vm_compute. reflexivity.
  - vm_compute. split; reflexivity.
Qed.
Print Assumptions C136_case.
