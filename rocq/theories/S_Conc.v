(** * Specification vocabulary: several clients of one store *)
From Coq Require Import List Arith NArith Bool String.
From Verif Require Import M_Base M_Data M_Regex M_Lexer M_Parser M_Interp M_Conc S_Store S_Parser.
Import ListNotations.
Open Scope list_scope.

(** The client may, for some answers of the store, make the call. *)
Fixpoint asks (p : prog) (q : req) : Prop :=
  match p with
  | Done _ => False
  | Ask q' k => q = q' \/ exists a, asks (k a) q
  end.

(** The collection a call is about. *)
Definition about (q : req) : option str :=
  match q with
  | QCollections => None
  | QAddCollection c | QRemoveCollection c | QEntries c | QAddEntries c _ | QRemoveEntries c _ | QFilter c _ =>
      Some (el_name c)
  end.

(** The client may make a call about [c]. *)
Definition uses (p : prog) (c : str) : Prop := exists q, asks p q /\ about q = Some c.

(** A client that neither lists the collections nor removes entries (no Wander
    script does). *)
Definition local (p : prog) : Prop :=
  forall q, asks p q -> q <> QCollections /\ forall c es, q <> QRemoveEntries c es.

Section Pool.
  Context {S : Type} (L : lig_impl S).

  (** The first [n] calls of a client that is alone. *)
  Fixpoint alone (n : nat) (p : prog) (s : S) : prog * S :=
    match n, p with
    | O, _ | _, Done _ => (p, s)
    | Datatypes.S m, Ask q k => let (a, s') := perform L q s in alone m (k a) s'
    end.

  (** The calls made under a schedule, in order, and by whom. *)
  Fixpoint calls_made (sched : list nat) (x : pool S) : list (nat * req) :=
    match sched with
    | [] => []
    | i :: rest =>
        match clients x i with
        | Done _ => calls_made rest x
        | Ask q _ => (i, q) :: calls_made rest (turn L i x)
        end
    end.

  (** Reading [c] gives the same in both states, and it exists in both or in neither. *)
  Definition same_for (c : str) (s s' : S) : Prop :=
    l_entries L s (mkE c) = l_entries L s' (mkE c)
    /\ (forall l l', l_collections L s = Ok l -> l_collections L s' = Ok l' -> In (mkE c) l <-> In (mkE c) l').
End Pool.

(** How many of the calls client [i] made. *)
Definition turns_of (i : nat) (l : list (nat * req)) : nat := List.length (filter (fun c => Nat.eqb (fst c) i) l).

(** How many ids a call can use up on LMDB: one per collection, three per entry. *)
Definition req_weight (q : req) : N :=
  match q with
  | QAddCollection _ => 1
  | QAddEntries _ es => 3 * N.of_nat (List.length es)
  | _ => 0
  end%N.
Definition calls_weight (l : list (nat * req)) : N := fold_right (fun c n => (req_weight (snd c) + n)%N) 0%N l.

(** The name occurs as an element somewhere in the arguments of the calls (the
    first element of a quote is its command, not an argument). *)
Inductive in_value (c : str) : value -> Prop :=
| in_element e : el_name e = c -> in_value c (VElement e)
| in_quote h q v : In v q -> in_value c v -> in_value c (VQuote (h :: q)).

Definition names (calls : list call) (c : str) : Prop :=
  exists x v, In x calls /\ In v (c_args x) /\ in_value c v.

(** A command table whose host commands do not use the store, for a store. *)
Definition on_fun {St : Type} (f : @cmd_fun unit) : @cmd_fun St :=
  match f with
  | FAssertEqual => FAssertEqual | FAssertFail => FAssertFail | FIgnore => FIgnore | FLet => FLet
  | FRead => FRead | FId => FId | FDocs => FDocs | FUnion => FUnion | FFilter => FFilter
  | FHost g => FHost (fun args st => (fst (g args tt), st))
  end.
Definition on_store {St : Type} (cs : @commands unit) : @commands St :=
  map (fun nc => (fst nc, Command (cmd_doc (snd nc)) (on_fun (cmd_fun_of (snd nc))))) cs.

(** The name occurs as an element in the script (which is in the language). *)
Definition script_names (script : str) (c : str) : Prop :=
  exists ts calls, tokenize_and_filter script = Ok ts /\ g_script ts calls /\ names calls c.

(** Every client has its result. *)
Definition finished {St : Type} (x : pool St) : Prop := forall j, exists r, clients x j = Done r.

(** The script is [let c {...}] calls only: into [c] goes the network, for each
    job [(c, network)] in order. *)
Definition let_job (x : call) (job : element * list entry) : Prop :=
  el_name (c_name x) = lit "let" /\ c_args x = [VElement (fst job); VNetwork (snd job)].
Definition only_lets (script : str) (jobs : list (element * list entry)) : Prop :=
  exists ts calls, tokenize_and_filter script = Ok ts /\ g_script ts calls /\ Forall2 let_job calls jobs.

(** How many ids such a script can use up on LMDB. *)
Definition jobs_weight (jobs : list (element * list entry)) : N :=
  fold_right (fun j n => (1 + 3 * N.of_nat (List.length (snd j)) + n)%N) 0%N jobs.

(** How often client [i] is scheduled. *)
Definition scheduled (i : nat) (sched : list nat) : nat := count_occ Nat.eq_dec sched i.
