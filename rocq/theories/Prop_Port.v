(** * One script, any store *)
From Coq Require Import List Arith NArith Bool String Permutation.
From Verif Require Import M_Base M_Data M_Mem M_Heed M_Duck M_Regex M_Lexer M_Graph M_Parser M_Display M_Interp
  S_Order S_Str S_Store S_Graph S_Parser S_Interp S_Port P_Ord P_Hist P_Parser P_Agree P_Graph P_Interp P_Port.
Import ListNotations.
Open Scope list_scope.

(** C71.  A script that keeps to the discipline -- run on the watched in-memory
    store it is not stopped -- gives the same result on all three stores, and
    afterwards all three have made exactly the writes [h'] of the log, which is
    again a disciplined history: by C26 they list the same collections and read
    the same. *)
Theorem C71_same_script_any_store : forall script h r m' h',
  disciplined h -> (dtotal h < 2 ^ 63)%N ->
  run (graph_impl (watched mem_impl)) common script (after mem_impl mem_new h, h) = (r, (m', h')) ->
  r <> Panic PAssert ->
  disciplined h' /\ (dtotal h' < 2 ^ 63)%N
  /\ run (graph_impl mem_impl) common script (after mem_impl mem_new h) = (r, after mem_impl mem_new h')
  /\ run (graph_impl heed_impl) common script (after heed_impl heed_new h) = (r, after heed_impl heed_new h')
  /\ run (graph_impl duck_impl) common script (after duck_impl duck_new h) = (r, after duck_impl duck_new h').
Proof.
  intros script h r m' h' D W E Hn.
  destruct (port_script _ _ good_mem script h r m' h' D W E Hn) as (D' & W' & Em & E1).
  destruct (port_script _ _ good_heed script h r m' h' D W E Hn) as (_ & _ & _ & E2).
  destruct (port_script _ _ good_duck script h r m' h' D W E Hn) as (_ & _ & _ & E3).
  repeat split; assumption.
Qed.
Print Assumptions C71_same_script_any_store.

(** Scripts that can be seen to keep to it: every collection is created once,
    under a storable name, from a network of storable names, and only existing
    collections are read.  They do not panic on any store. *)
Theorem C71_tidy_scripts : forall script ts calls h known,
  tokenize_and_filter script = Ok ts -> g_script ts calls ->
  disciplined h -> (forall c, live h c <-> In c known) ->
  tidy known calls -> (dtotal h + program_weight calls < 2 ^ 63)%N ->
  exists r h', (forall w, r <> Panic w) /\ disciplined h' /\ (dtotal h' < 2 ^ 63)%N
  /\ run (graph_impl mem_impl) common script (after mem_impl mem_new h) = (r, after mem_impl mem_new h')
  /\ run (graph_impl heed_impl) common script (after heed_impl heed_new h) = (r, after heed_impl heed_new h')
  /\ run (graph_impl duck_impl) common script (after duck_impl duck_new h) = (r, after duck_impl duck_new h').
Proof.
  intros script ts calls h known E1 G D K T W.
  apply parse_ok in G. destruct (tidy_script script ts calls h known E1 G T (conj D K) W) as (r & h' & E & Hn).
  exists r, h'. split; [exact Hn|]. apply (C71_same_script_any_store _ _ _ _ _ D) in E; [exact E| |apply Hn].
  eapply N.le_lt_trans; [|exact W]. apply N.le_add_r.
Qed.
Print Assumptions C71_tidy_scripts.

(** Without the discipline the stores differ: one script, on three empty
    stores.  Reading an absent collection is an error for the in-memory store,
    a panic for LMDB, and an empty network for DuckDB; creating a collection
    twice empties it in memory only. *)
Theorem C71_undisciplined_refuted :
  (exists script m d q, run (graph_impl mem_impl) common script mem_new = (Ok (VNetwork []), m)
      /\ run (graph_impl heed_impl) common script heed_new = (Panic PTodo, d)
      /\ exists e, run (graph_impl duck_impl) common script duck_new = (Err e, q))
  /\ (exists script m d, fst (run (graph_impl mem_impl) common script mem_new) = Ok m
      /\ fst (run (graph_impl heed_impl) common script heed_new) = Ok d /\ m <> d)
  /\ (exists script e, fst (run (graph_impl mem_impl) common script mem_new) = Err e
      /\ (exists w, fst (run (graph_impl heed_impl) common script heed_new) = Panic w)
      /\ fst (run (graph_impl duck_impl) common script duck_new) = Ok (VNetwork [])).
Proof.
  split; [|split].
  - exists (lit "assert-fail (read nope)"). do 3 eexists. split; [vm_compute; reflexivity|].
    split; [vm_compute; reflexivity|]. eexists. vm_compute. reflexivity.
  - exists (lit "let n {a b c}, let n {d e f}, read n"). do 2 eexists. split; [vm_compute; reflexivity|].
    split; [vm_compute; reflexivity|]. discriminate.
  - exists (lit "read nope"). eexists. split; [vm_compute; reflexivity|]. split; [eexists; vm_compute; reflexivity|vm_compute; reflexivity].
Qed.
Print Assumptions C71_undisciplined_refuted.

Definition px_script : str := lit "let n {a b c, d e f}, assert-equal (read n) {a b c, d e f}, let m {x y z}, read n".

Example C71_case :
  (exists r s, run (graph_impl (watched mem_impl)) common px_script (mem_new, []) = (r, s)
      /\ (exists l, r = Ok (VNetwork l) /\ l <> []) /\ List.length (snd s) = 4)
  /\ exists ts calls, tokenize_and_filter px_script = Ok ts /\ g_script ts calls /\ tidy [] calls.
Proof.
  split.
  - do 2 eexists. split; [vm_compute; reflexivity|]. split; [|reflexivity]. eexists. split; [reflexivity|discriminate].
  - do 2 eexists. split; [vm_compute; reflexivity|]. split; [apply parse_ok; vm_compute; reflexivity|].
    assert (S1 : forall s, In s (map lit ["a"; "b"; "c"; "d"; "e"; "f"; "x"; "y"; "z"; "n"; "m"])%string -> storable s).
    { intros s Hs. repeat (destruct Hs as [<-|Hs]; [apply storableb_iff; vm_compute; reflexivity|]). destruct Hs. }
    apply tidy_let; [reflexivity|apply S1; vm_compute; tauto|intros []| |].
    { intros e He. repeat (destruct He as [<-|He]; [repeat split; apply storableb_iff; vm_compute; reflexivity|]). destruct He. }
    apply tidy_assert; [reflexivity|apply plain_read; [reflexivity|left; reflexivity]|apply plain_network|].
    apply tidy_let; [reflexivity|apply S1; vm_compute; tauto|intros [H|[]]; discriminate| |].
    { intros e He. repeat (destruct He as [<-|He]; [repeat split; apply storableb_iff; vm_compute; reflexivity|]). destruct He. }
    apply tidy_read; [reflexivity|right; left; reflexivity|apply tidy_nil].
Qed.
