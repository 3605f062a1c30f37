(** * Properties: how deep evaluation recurses (wander/src/lib.rs, parser.rs, prelude.rs) *)
From Coq Require Import List Arith NArith Bool String Lia.
From Verif Require Import M_Base M_Data M_Lexer M_Parser M_Graph M_Mem M_Display M_Interp S_Interp S_Depth P_Depth.
Import ListNotations.
Open Scope list_scope.

(** C103.  Parsed scripts hold quotes, but no quotes inside quotes. *)
Theorem C103_parsed : forall ts cs, parse ts = Ok cs -> forall c v, In c cs -> In v (c_args c) -> nested 1 v.
Proof. exact script_flat. Qed.
Print Assumptions C103_parsed.

(** C103.  So room for one activation of run_quote is enough for every script,
    whatever the store and the table of commands: more room changes nothing. *)
Theorem C103_script_room : forall (St : Type) (lig : lig_impl St) cs room script st, is_table cs -> 1 <= room ->
  run_in room lig cs script st = run lig cs script st.
Proof. exact (fun St => @script_room St). Qed.
Print Assumptions C103_script_room.

(** C103.  No answer of a script holds a quote inside a quote. *)
Theorem C103_answers : forall (St : Type) (lig : lig_impl St) script st v st',
  run lig common script st = (Ok v, st') -> nested 1 v.
Proof. exact (fun St => @answer_flat St). Qed.
Print Assumptions C103_answers.

(** C103.  Calls built by a host (or read from JSON) can nest deeper: room for as
    many activations as quotes stand inside one another is enough ... *)
Theorem C103_calls_room : forall (St : Type) (lig : lig_impl St) cs room calls st, is_table cs ->
  (forall c v, In c calls -> In v (c_args c) -> nested room v) ->
  run_calls_in room lig cs calls st = run_calls lig cs calls st.
Proof. exact (fun St => @room_enough St). Qed.
Print Assumptions C103_calls_room.

(** ... and less is not: for every room there is a call nested one deeper that
    overflows it, although with more room it does not even panic. *)
Theorem C103_no_room_is_enough_for_all : forall (St : Type) (lig : lig_impl St) room st,
  let calls := [Call (Elem (lit "assert-fail") None None) [VQuote (tower room)]] in
  (forall c v, In c calls -> In v (c_args c) -> nested (S room) v)
  /\ run_calls_in room lig common calls st = (Panic PFuel, st)
  /\ (exists r, run_calls lig common calls st = (r, st) /\ forall w, r <> Panic w).
Proof.
  intros St lig room st calls. split; [|exact (tower_call_needs lig room st)].
  intros c v [<-|[]] [<-|[]]. apply tower_nested.
Qed.
Print Assumptions C103_no_room_is_enough_for_all.

(** A script that does evaluate quotes: with no room at all it would overflow. *)
Example C103_case :
  let script := lit "assert-equal (id a) (id a), assert-fail (nothing)" in
  run_in 1 (graph_impl mem_impl) common script mem_new = (Ok (VNetwork []), mem_new)
  /\ run_in 0 (graph_impl mem_impl) common script mem_new = (Panic PFuel, mem_new).
Proof. split; vm_compute; reflexivity. Qed.
