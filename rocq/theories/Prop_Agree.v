(** * The three triple stores are interchangeable for disciplined clients *)
From Coq Require Import List Arith NArith Bool String Permutation.
From Verif Require Import M_Base M_Data M_Mem M_Heed M_Duck S_Order S_Str S_Store P_Ord P_Hist P_Agree.
Import ListNotations.
Open Scope list_scope.

(** C26.  After any disciplined history all calls were answered Ok by all three
    stores, they list the same collections (DuckDB in its own order), and every
    present collection reads the same; this is what the contract says. *)
Theorem C26_stores_agree : forall h,
  disciplined h -> (dtotal h < 2 ^ 63)%N ->
  let m := after mem_impl mem_new h in
  let d := after heed_impl heed_new h in
  let q := after duck_impl duck_new h in
  (acked mem_impl mem_new h = h /\ acked heed_impl heed_new h = h /\ acked duck_impl duck_new h = h)
  /\ (exists l l', t_collections mem_impl m = Ok l /\ t_collections heed_impl d = Ok l
                   /\ t_collections duck_impl q = Ok l' /\ Permutation l l' /\ forall c, In c l <-> live h c)
  /\ (forall c, live h c ->
      exists l, t_triples mem_impl m c = Ok l /\ t_triples heed_impl d c = Ok l /\ t_triples duck_impl q c = Ok l
                /\ forall t, In t l <-> holds_after h c t).
Proof. exact stores_agree. Qed.
Print Assumptions C26_stores_agree.

Definition gx_a : trip := Trip (lit "a") (lit "b") (lit "c").
Definition gx_b : trip := Trip (lit "a") (lit "b") (lit "d").
Definition gx : list op :=
  [OAddColl (lit "n"); OAdd (lit "n") [gx_a; gx_b]; OAddColl (lit "m"); ORem (lit "n") [gx_b]; ORemColl (lit "m")].

Example C26_case : disciplined gx /\ (dtotal gx < 2 ^ 63)%N.
Proof.
  split; [|reflexivity]. intros h1 o h2 E.
  assert (SA : storable (lit "n") /\ storable (lit "m")) by (split; split; vm_compute; auto; discriminate).
  assert (SB : forall v, part_of v [gx_a; gx_b] -> storable v).
  { intros v (t & [<-|[<-|[]]] & [->|[->| ->]]); split; vm_compute; auto; discriminate. }
  assert (L1 : live [OAddColl (lit "n")] (lit "n")) by (exists [], []; split; [reflexivity|intros []]).
  destruct h1 as [|o1 h1]; [|destruct h1 as [|o2 h1]; [|destruct h1 as [|o3 h1]; [|destruct h1 as [|o4 h1];
    [|destruct h1 as [|o5 h1]]]]].
  - injection E as <- <-. split; [apply SA|]. apply live_nil.
  - injection E as <- <- <-. split; [exact L1|exact SB].
  - injection E as <- <- <- <-. split; [apply SA|]. intros H. apply live_in in H. revert H. not_in.
  - injection E as <- <- <- <- <-. split.
    + exists [], [OAdd (lit "n") [gx_a; gx_b]; OAddColl (lit "m")]. split; [reflexivity|]. not_in.
    + intros t [<-|[]]. exists [OAddColl (lit "n")], [gx_a; gx_b], [OAddColl (lit "m")].
      split; [reflexivity|]. split; [simpl; auto|]. split; [exact L1|]. intros o' [<-|[]] R. inversion R.
  - injection E as <- <- <- <- <- <-. split.
    + exists [OAddColl (lit "n"); OAdd (lit "n") [gx_a; gx_b]], [ORem (lit "n") [gx_b]]. split; [reflexivity|]. not_in.
    + intros t (k1 & ts & k2 & Ek & _). 
      assert (In (OAdd (lit "m") ts) [OAddColl (lit "n"); OAdd (lit "n") [gx_a; gx_b]; OAddColl (lit "m"); ORem (lit "n") [gx_b]]) as Hi.
      { rewrite Ek. apply in_or_app. right; left; reflexivity. }
      destruct Hi as [Hi|[Hi|[Hi|[Hi|[]]]]]; discriminate Hi.
  - destruct h1; discriminate E.
Qed.

(** C63.  The stores do not treat the caller's set alike: the in-memory store
    empties it, LMDB and DuckDB leave it. *)
Theorem C63_callers_set_refuted :
  exists h c ts, disciplined h /\ live h c
    /\ snd (t_add_triples mem_impl (after mem_impl mem_new h) c ts)
       <> snd (t_add_triples heed_impl (after heed_impl heed_new h) c ts).
Proof.
  exists [OAddColl (lit "n")], (lit "n"), [gx_a]. split; [|split].
  - intros h1 o h2 E. apply (proj1 C26_case h1 o (h2 ++ tl gx)).
    transitivity ([OAddColl (lit "n")] ++ tl gx); [reflexivity|]. rewrite E, <- app_assoc. reflexivity.
  - exists [], []. split; [reflexivity|intros []].
  - vm_compute. discriminate.
Qed.
Print Assumptions C63_callers_set_refuted.

Theorem C63_callers_set : forall h c ts,
  (has mem_impl (after mem_impl mem_new h) c -> snd (t_add_triples mem_impl (after mem_impl mem_new h) c ts) = [])
  /\ (forall d b, snd (t_add_triples (heed_impl_c b) d c ts) = ts)
  /\ (forall q, snd (t_add_triples duck_impl q c ts) = ts)
  /\ (forall m, snd (t_remove_triples mem_impl m c ts) = ts)
  /\ (forall d b, snd (t_remove_triples (heed_impl_c b) d c ts) = ts)
  /\ (forall q, snd (t_remove_triples duck_impl q c ts) = ts).
Proof. exact callers_set. Qed.
Print Assumptions C63_callers_set.
