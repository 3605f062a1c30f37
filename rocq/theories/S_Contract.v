(** * Specification vocabulary: the contract of the trait Trips

    What trips/src/lib.rs:40-82 promises of every implementation of the trait, in
    terms of its calls. *)
From Coq Require Import List NArith Bool String.
From Verif Require Import M_Base M_Data M_Interp S_Order S_Store S_Wander.
Import ListNotations.
Open Scope list_scope.

Section Contract.
  Context {S : Type} (I : trips_impl S).

  (** The collections of [s'] are those that satisfy [P]. *)
  Definition names_now (s' : S) (P : str -> Prop) : Prop := forall c, has I s' c <-> P c.

  (** The triples of [c] are those that satisfy [P]. *)
  Definition triples_now (s' : S) (c : str) (P : trip -> Prop) : Prop :=
    exists l, t_triples I s' c = Ok l /\ forall t, In t l <-> P t.

  (** Collections other than [c] hold what they held. *)
  Definition others_as_before (s : S) (c : str) (s' : S) : Prop :=
    forall c', c' <> c -> has I s c' -> t_triples I s' c' = t_triples I s c'.

  (** What a writing call answers and does. *)
  Definition promised (s : S) (o : op) (r : tres unit) (s' : S) : Prop :=
    match o with
    | OAddColl c =>                            (* does nothing if it exists *)
        r = Ok tt /\ names_now s' (fun x => has I s x \/ x = c)
        /\ triples_now s' c (holds I s c) /\ others_as_before s c s'
    | ORemColl c =>                            (* does nothing if it does not exist *)
        r = Ok tt /\ names_now s' (fun x => has I s x /\ x <> c) /\ others_as_before s c s'
    | OAdd c ts =>
        names_now s' (has I s) /\ others_as_before s c s'
        /\ (has I s c -> r = Ok tt /\ triples_now s' c (fun t => holds I s c t \/ In t ts))
        /\ (~ has I s c -> exists e, r = Err e)
    | ORem c ts =>
        names_now s' (has I s) /\ others_as_before s c s'
        /\ (has I s c -> r = Ok tt /\ triples_now s' c (fun t => holds I s c t /\ ~ In t ts))
        /\ (~ has I s c -> exists e, r = Err e)
    end.

  (** The store keeps the contract as long as it is in one of the states [good],
      which calls do not leave.  (Patterns with variables are left open.) *)
  Definition keeps_contract (good : S -> Prop) : Prop :=
    forall s, good s ->
      (exists l, t_collections I s = Ok l)
      /\ (forall c, has I s c -> exists l, t_triples I s c = Ok l /\ is_set trip_lt l)
      /\ (forall c, ~ has I s c -> exists e, t_triples I s c = Err e)
      /\ (forall c q, no_variables q ->
            (has I s c -> exists l, t_filter I s c q = Ok l /\ forall t, In t l <-> holds I s c t /\ fits q t)
            /\ (~ has I s c -> exists e, t_filter I s c q = Err e))
      /\ (forall o, good (snd (call_op I s o)) /\ promised s o (fst (call_op I s o)) (snd (call_op I s o))).

  (** A store that does from its empty state on. *)
  Definition conforms (s0 : S) : Prop := (forall c, ~ has I s0 c) /\ exists good, good s0 /\ keeps_contract good.
End Contract.

(** Two stores, of whatever kind, with the same collections and triples. *)
Definition same_contents {S T : Type} (I : trips_impl S) (s : S) (J : trips_impl T) (t : T) : Prop :=
  forall c, (has I s c <-> has J t c) /\ (has I s c -> t_triples I s c = t_triples J t c).

(** The same outcome up to the texts of errors. *)
Inductive similar : outcome -> outcome -> Prop :=
| sim_answers v : similar (Answers v) (Answers v)
| sim_fails e e' : similar (Fails e) (Fails e')
| sim_crashes : similar Crashes Crashes.
