(** * Specification vocabulary: programs that may stand for each other *)
From Coq Require Import List NArith Bool String.
From Verif Require Import M_Base M_Data M_Mem M_Heed M_Duck M_Lexer M_Graph M_Parser M_Interp S_Order S_Str S_Store S_Graph S_Lexer S_Parser S_Wander.
Import ListNotations.
Open Scope list_scope.

(** Two stores that show the same: the same names listed, the same entries read
    under them. *)
Definition look_alike {S : Type} (I : trips_impl S) (s1 s2 : S) : Prop := forall w, shows I s1 w <-> shows I s2 w.

(** Two programs (lists of calls) can stand for each other where the store shows
    a world of [C]: run from the same store, both answer the same (or fail with
    the same error, or crash) and leave stores that look alike.  The log only
    counts the writes, for the bound on ids. *)
Definition exchange {S : Type} (I : trips_impl S) (s0 : S) (room : list op -> Prop) (C : world -> Prop)
  (cs ds : list call) : Prop :=
  forall h r s1 h1 r' s2 h2,
    (exists w, shows I (after I s0 h) w /\ C w) ->
    run_calls (graph_impl (logged I)) common cs (after I s0 h, h) = (r, (s1, h1)) -> room h1 ->
    run_calls (graph_impl (logged I)) common ds (after I s0 h, h) = (r', (s2, h2)) -> room h2 ->
    outcome_of r = outcome_of r' /\ look_alike I s1 s2.

(** The same for scripts. *)
Definition exchange_scripts {S : Type} (I : trips_impl S) (s0 : S) (room : list op -> Prop) (C : world -> Prop)
  (x y : str) : Prop :=
  forall h r s1 h1 r' s2 h2,
    (exists w, shows I (after I s0 h) w /\ C w) ->
    run (graph_impl (logged I)) common x (after I s0 h, h) = (r, (s1, h1)) -> room h1 ->
    run (graph_impl (logged I)) common y (after I s0 h, h) = (r', (s2, h2)) -> room h2 ->
    outcome_of r = outcome_of r' /\ look_alike I s1 s2.

Definition anywhere : world -> Prop := fun _ => True.

(** A call in quotes. *)
Definition quoted (c : call) : value := VQuote (VElement (c_name c) :: c_args c).

(** Calls by name. *)
Definition named (n : string) (args : list value) : call := Call (Elem (lit n) None None) args.

(** Replacing one call inside another, in the places where a quote is run: the
    network of a let, the quote of an assert-fail, both sides of an assert-equal.
    (The argument of id is answered, that of ignore dropped.) *)
Inductive deep (R : call -> call -> Prop) : call -> call -> Prop :=
| dp_here x y : R x y -> deep R x y
| dp_let c x y : deep R x y -> deep R (named "let" [VElement c; quoted x]) (named "let" [VElement c; quoted y])
| dp_fail x y : deep R x y -> deep R (named "assert-fail" [quoted x]) (named "assert-fail" [quoted y])
| dp_left v x y : deep R x y -> deep R (named "assert-equal" [quoted x; v]) (named "assert-equal" [quoted y; v])
| dp_right v x y : deep R x y -> deep R (named "assert-equal" [v; quoted x]) (named "assert-equal" [v; quoted y]).

(** The script is the program. *)
Definition reads_as (script : str) (cs : list call) : Prop :=
  exists tokens kept, lexes script tokens /\ keeps tokens kept /\ g_script kept cs.

(** ** Laws

    [law B C cs ds]: on the store [B], where the world is one of [C], [cs] can be
    replaced by [ds] and [ds] by [cs]. *)
Definition queries : list string := ["id"; "ignore"; "docs"; "union"; "read"; "filter"]%string.

Definition let_ (c : element) (n : list entry) : call := named "let" [VElement c; VNetwork n].

Inductive law (B : backend) : (world -> Prop) -> list call -> list call -> Prop :=
(* lets of different names can be swapped: in memory always *)
| lw_swap_mem c d n m : B = InMemory -> el_name c <> el_name d -> law B anywhere [let_ c n; let_ d m] [let_ d m; let_ c n]
(* on LMDB if none or both of the names can be stored *)
| lw_swap_lmdb c d n m :
    B = Lmdb -> el_name c <> el_name d -> (storable (el_name c) <-> storable (el_name d)) ->
    law B anywhere [let_ c n; let_ d m] [let_ d m; let_ c n]
(* on DuckDB if none or both of them exist *)
| lw_swap_duck c d n m :
    B = DuckDb -> el_name c <> el_name d ->
    law B (fun w => w (el_name c) = None <-> w (el_name d) = None) [let_ c n; let_ d m] [let_ d m; let_ c n]
(* two lets of a name: the last counts in memory, both on LMDB, none after the
   first on DuckDB *)
| lw_twice_mem c n m : B = InMemory -> law B anywhere [let_ c n; let_ c m] [let_ c m]
| lw_twice_lmdb c n m k :
    B = Lmdb -> set_where (fun e => In e n \/ In e m) k -> law B anywhere [let_ c n; let_ c m] [let_ c k]
(* only the names of a network are stored *)
| lw_normal c n k : set_where (stored_form n) k -> law B anywhere [let_ c n] [let_ c k]
(* reading what has just been stored *)
| lw_read_back c n k :
    B <> Lmdb -> set_where (stored_form n) k ->
    law B anywhere [let_ c n; named "read" [VElement c]] [let_ c n; named "id" [VNetwork k]]
(* reading what is known *)
| lw_read c l : law B (fun w => w (el_name c) = Some l) [named "read" [VElement c]] [named "id" [VNetwork l]]
(* storing what is there *)
| lw_copy c :
    B <> DuckDb ->
    law B (fun w => w (el_name c) <> None) [named "let" [VElement c; quoted (named "read" [VElement c])]] [named "ignore" []]
(* a query that answers can be left out if something follows *)
| lw_query q args post :
    In q queries -> post <> [] -> law B (fun w => exists v w', calls B (lit q) args w (Answers v) w') (named q args :: post) post
(* computing before storing *)
| lw_let_id c n : law B anywhere [named "let" [VElement c; quoted (named "id" [VNetwork n])]] [let_ c n]
| lw_let_union c n m k :
    set_where (fun e => In e n \/ In e m) k ->
    law B anywhere [named "let" [VElement c; quoted (named "union" [VNetwork n; VNetwork m])]] [let_ c k]
(* assertions *)
| lw_equal v : (forall q, v <> VQuote q) -> law B anywhere [named "assert-equal" [v; v]] [named "ignore" []]
| lw_thrice x :
    law B anywhere [named "assert-fail" [quoted (named "assert-fail" [quoted (named "assert-fail" [quoted x])])]]
                   [named "assert-fail" [quoted x]].
