(** * A script cut short and run again *)
From Coq Require Import List Arith NArith Bool String Lia.
From Verif Require Import M_Base M_Data M_Mem M_Heed M_Duck M_Regex M_Lexer M_Graph M_Parser M_Display M_Interp M_Conc
  S_Order S_Str S_Store S_Graph S_Parser S_Interp S_Conc P_Ord P_Hist P_Parser P_Conc P_ConcMore P_Rerun.
Import ListNotations.
Open Scope list_scope.

(** At any moment of any schedule: nothing is lost, nothing is there that was not
    there before or let by someone, and what finished clients let is all there. *)
Theorem C75_so_far : forall h scripts jobs sched,
  (forall j, only_lets (scripts j) (jobs j)) -> (forall j c n, In (c, n) (jobs j) -> storable (el_name c)) ->
  let G := graph_impl heed_impl in
  let d := after heed_impl heed_new h in
  let x0 := Pool d (fun j => p_run common (scripts j)) in
  (total_weight h + calls_weight (calls_made G sched x0) < 2 ^ 64)%N ->
  let x := interleave G sched x0 in
  (forall c, has heed_impl d c -> has heed_impl (shared x) c)
  /\ (forall c t, holds heed_impl d c t -> holds heed_impl (shared x) c t)
  /\ (forall c, has heed_impl (shared x) c -> has heed_impl d c \/ exists j e n, In (e, n) (jobs j) /\ el_name e = c)
  /\ (forall c t, holds heed_impl (shared x) c t ->
        holds heed_impl d c t \/ exists j e n, In (e, n) (jobs j) /\ el_name e = c /\ In t (map entry_to_trip n))
  /\ forall i r, clients x i = Done r -> r = Ok (VNetwork []) /\ forall c n, In (c, n) (jobs i) ->
       has heed_impl (shared x) (el_name c) /\ forall e, In e n -> holds heed_impl (shared x) (el_name c) (entry_to_trip e).
Proof.
  intros h scripts jobs sched Hl Hs G d x0 W x.
  destruct (so_far h scripts jobs sched Hl Hs W) as (h' & E & [G1 G2] & H1 & H2 & H3).
  change (shared x = lm h') in E. rewrite E. split; [exact G1|]. split; [exact G2|]. split; [exact H1|]. split; [exact H2|].
  intros i r Er. destruct (H3 i r Er) as [-> K]. split; [reflexivity|]. intros c n Hj. exact (K (c, n) Hj).
Qed.
Print Assumptions C75_so_far.

(** C80.  A script that only lets literal networks, on LMDB.  However often it was
    begun and died, each time after any number of its calls, run once more it
    answers Ok and leaves to read exactly what one uninterrupted run leaves. *)
Theorem C80_rerun : forall h script jobs ms,
  only_lets script jobs -> (forall c n, In (c, n) jobs -> storable (el_name c)) ->
  (total_weight h + N.of_nat (S (List.length ms)) * jobs_weight jobs < 2 ^ 64)%N ->
  let G := graph_impl heed_impl in
  let d := after heed_impl heed_new h in
  let cut := fold_left (fun d m => snd (alone G m (p_run common script) d)) ms d in
  exists d1 d2, run G common script cut = (Ok (VNetwork []), d1) /\ run G common script d = (Ok (VNetwork []), d2)
  /\ forall c, same_for G c d1 d2.
Proof. intros h script jobs ms Hl Hs W. exact (rerun script jobs Hl Hs h ms W). Qed.
Print Assumptions C80_rerun.

(** And what it leaves is what was there and what it lets. *)
Theorem C80_result : forall h script jobs,
  only_lets script jobs -> (forall c n, In (c, n) jobs -> storable (el_name c)) ->
  (total_weight h + jobs_weight jobs < 2 ^ 64)%N ->
  let G := graph_impl heed_impl in
  let d := after heed_impl heed_new h in
  exists d', run G common script d = (Ok (VNetwork []), d')
  /\ (forall c, has heed_impl d' c <-> has heed_impl d c \/ exists e n, In (e, n) jobs /\ el_name e = c)
  /\ forall c t, holds heed_impl d' c t <->
       holds heed_impl d c t \/ exists e n, In (e, n) jobs /\ el_name e = c /\ In t (map entry_to_trip n).
Proof.
  intros h script jobs Hl Hs W. destruct (whole_obs script jobs Hl Hs h W) as (h' & E & H). exists (lm h'). split; [exact E|exact H].
Qed.
Print Assumptions C80_result.

(** On DuckDB it is the opposite: once a let script has made a single call, run
    again on the same store it panics, for ever, and changes nothing. *)
Theorem C80_duck_never_again : forall d script c n rest m,
  only_lets script ((c, n) :: rest) -> m <> 0 ->
  let G := graph_impl duck_impl in
  let cut := snd (alone G m (p_run common script) d) in
  exists w, run G common script cut = (Panic w, cut).
Proof. intros d script c n rest m. apply duck_rerun. Qed.
Print Assumptions C80_duck_never_again.

Definition cz_script : str := lit "let n {a b c}, let m {x y z, d e f}".
Definition cz_role (a b c : string) : entry := Role (mkE (lit a)) (mkE (lit c)) (mkE (lit b)).
Definition cz_jobs : list (element * list entry) :=
  [(mkE (lit "n"), [cz_role "a" "b" "c"]); (mkE (lit "m"), [cz_role "d" "e" "f"; cz_role "x" "y" "z"])].

(** Cut after three of its four calls, [m] exists and is empty; run again, it is full. *)
Example C80_case :
  let G := graph_impl heed_impl in
  let cut := snd (alone G 3 (p_run common cz_script) heed_new) in
  only_lets cz_script cz_jobs /\ (forall c n, In (c, n) cz_jobs -> storable (el_name c))
  /\ jobs_weight cz_jobs = 11%N
  /\ l_entries G cut (mkE (lit "m")) = Ok []
  /\ l_entries G (snd (run G common cz_script cut)) (mkE (lit "m")) = Ok [cz_role "d" "e" "f"; cz_role "x" "y" "z"].
Proof.
  split; [|split; [|split; [|split]]]; try (vm_compute; reflexivity).
  - eexists; eexists; split; [vm_compute; reflexivity|]; split; [apply parse_ok; vm_compute; reflexivity|]. repeat constructor.
  - intros c n H. destruct H as [E|[E|[]]]; injection E as <- <-; split; vm_compute; auto; discriminate.
Qed.
