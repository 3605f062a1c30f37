(** * Proofs: host commands as clients of a shared store *)
From Coq Require Import List Arith NArith Bool String Lia.
From Verif Require Import M_Base M_Data M_Heed M_Regex M_Lexer M_Graph M_Parser M_Display M_Interp M_Conc M_Commands M_HostConc
  S_Order S_Store S_Graph S_Interp S_Parser S_Conc S_Commands S_HostConc P_Ord P_Hist P_Graph P_Parser P_Interp P_Conc P_Commands.
Import ListNotations.
Open Scope list_scope.

(** ** The same client *)
Lemma same_inv p p' : same_client p p' ->
  match p with Done r => p' = Done r | Ask q k => exists k', p' = Ask q k' /\ forall a, same_client (k a) (k' a) end.
Proof. destruct 1 as [r|q k k' H]; [reflexivity|exists k'; split; [reflexivity|exact H]]. Qed.

Lemma same_refl p : same_client p p.
Proof. induction p as [r|q k IH]; constructor. exact IH. Qed.

Lemma same_bind p p' f f' : same_client p p' -> (forall r, same_client (f r) (f' r)) -> same_client (pbind p f) (pbind p' f').
Proof. intros H Hf. induction H as [r|q k k' _ IH]; cbn [pbind]; [apply Hf|constructor; exact IH]. Qed.

Lemma same_pool {St : Type} (L : lig_impl St) sched : forall d cl cl', (forall i, same_client (cl i) (cl' i)) ->
  let x := interleave L sched (Pool d cl) in let x' := interleave L sched (Pool d cl') in
  shared x = shared x' /\ forall i, same_client (clients x i) (clients x' i).
Proof.
  induction sched as [|i sched IH]; intros d cl cl' H; [split; [reflexivity|exact H]|]. cbn [interleave]. unfold turn. cbn [clients shared].
  pose proof (same_inv _ _ (H i)) as I. destruct (cl i) as [r|q k]; [rewrite I; apply IH, H|]. destruct I as (k' & -> & Hk).
  destruct (perform L q d) as [a s]. apply IH. intros j. unfold update. destruct (Nat.eqb j i); [apply Hk|apply H].
Qed.

(** ** Alone it is the interpreter *)
Section Solo.
  Context {St : Type} (L : lig_impl St) (cs : table).

  Lemma body_solo rc rp : (forall calls st x, rc calls st = Some x -> solo L (rp calls) st = x) ->
    forall b st x, body_run L rc b st = Some x -> solo L (body_prog rp b) st = x.
  Proof.
    intros H. induction b as [r|q k IH|calls k IH]; intros st x; cbn [body_run body_prog solo].
    - intros [= <-]. reflexivity.
    - destruct (perform L q st) as [a st']. destruct (ans_panic q a) as [w|]; [intros [= <-]; reflexivity|apply IH].
    - rewrite solo_bind. destruct (rc calls st) as [[[v|e|w] st']|] eqn:E; [| | |discriminate]; rewrite (H _ _ _ E); intros F.
      + apply IH, F.
      + apply IH, F.
      + injection F as <-. reflexivity.
  Qed.

  Lemma calls_solo rc rp : (forall calls st x, rc calls st = Some x -> solo L (rp calls) st = x) ->
    forall calls res st x, calls_run L cs rc calls res st = Some x -> solo L (calls_prog rp cs calls res) st = x.
  Proof.
    intros H. induction calls as [|c rest IH]; intros res st x; cbn [calls_run calls_prog]; [intros [= <-]; reflexivity|].
    destruct (find_cmd cs (el_name (c_name c))) as [y|]; [|intros [= <-]; reflexivity]. rewrite solo_bind.
    destruct (body_run L rc (cmd_does y (listing cs) (c_args c)) st) as [[[v|e|w] st']|] eqn:E; [| | |discriminate];
      rewrite (body_solo _ _ H _ _ _ E); intros F; [apply IH, F|injection F as <-; reflexivity|injection F as <-; reflexivity].
  Qed.

  Lemma deep_solo n : forall calls st x, run_deep L cs n calls st = Some x -> solo L (deep_prog cs n calls) st = x.
  Proof. induction n as [|n IH]; intros calls st x; [discriminate|]. cbn [run_deep deep_prog]. apply calls_solo, IH. Qed.

  Lemma host_solo calls st r st' : no_name_twice cs -> (forall n x, In (n, x) cs -> modest x) ->
    solo L (host_calls cs calls) st = (r, st') <-> runs_to L cs calls st r st'.
  Proof.
    intros T M. unfold host_calls. destruct (deep_ends L cs M T (quotes_deep calls) calls st (Nat.le_refl _)) as [[r1 st1] E].
    pose proof (deep_solo _ _ _ _ E) as S1. assert (R : runs_to L cs calls st r1 st1) by (apply (to_iff L cs T); eexists; exact E).
    rewrite S1. split.
    - intros [= <- <-]. exact R.
    - intros R2. destruct (to_unique L cs T _ _ _ _ _ _ R R2) as [-> ->]. reflexivity.
  Qed.
End Solo.

(** ** Room *)
Section Room.
  Context (cs : table).

  Lemma body_same args rp rp' b : keeps_to args b ->
    (forall n qargs, inside (VQuote (VElement n :: qargs)) args -> same_client (rp [Call n qargs]) (rp' [Call n qargs])) ->
    same_client (body_prog rp b) (body_prog rp' b).
  Proof.
    intros K H. induction K as [r|q k _ IH|n qargs k I _ IH]; cbn [body_prog].
    - constructor.
    - constructor. intros a. destruct (ans_panic q a); [constructor|apply IH].
    - apply same_bind; [exact (H _ _ I)|]. intros [v|e|w]; [apply IH|apply IH|constructor].
  Qed.

  Lemma calls_same rp rp' (M : forall n x, In (n, x) cs -> modest x) (T : no_name_twice cs) calls :
    (forall c n qargs, In c calls -> inside (VQuote (VElement n :: qargs)) (c_args c) -> same_client (rp [Call n qargs]) (rp' [Call n qargs])) ->
    forall res, same_client (calls_prog rp cs calls res) (calls_prog rp' cs calls res).
  Proof.
    induction calls as [|c rest IH]; intros H res; cbn [calls_prog]; [constructor|].
    destruct (find_cmd cs (el_name (c_name c))) as [y|] eqn:F; [|constructor]. apply (find_cmd_iff cs _ _ T) in F.
    apply same_bind.
    - apply (body_same (c_args c)); [apply (M _ _ F)|]. intros n qargs I. exact (H c n qargs (or_introl eq_refl) I).
    - intros [v|e|w]; [|constructor|constructor]. apply IH. intros d n qargs I. exact (H d n qargs (or_intror I)).
  Qed.

  Lemma quotes_in calls c : In c calls -> depths (c_args c) <= quotes_deep calls.
  Proof.
    unfold quotes_deep. induction calls as [|d rest IH]; [intros []|]. cbn [fold_right]. intros [->|H]; [lia|]. specialize (IH H). lia.
  Qed.

  Lemma deep_same (M : forall n x, In (n, x) cs -> modest x) (T : no_name_twice cs) D : forall n m calls,
    quotes_deep calls <= D -> D <= n -> D <= m -> same_client (deep_prog cs (S n) calls) (deep_prog cs (S m) calls).
  Proof.
    induction D as [|D IH]; intros n m calls Q N K; cbn [deep_prog]; apply (calls_same _ _ M T); intros c e qargs I J;
      apply inside_depth in J; rewrite depth_quote in J; pose proof (quotes_in _ _ I) as X; [lia|].
    destruct n as [|n]; [lia|]. destruct m as [|m]; [lia|]. apply IH; [|lia|lia].
    change (depths (VElement e :: qargs)) with (Nat.max 0 (depths qargs)) in J. unfold quotes_deep. cbn [fold_right c_args]. lia.
  Qed.
End Room.

(** ** The prelude *)
Definition goes (rp : list call -> prog) (k : value + werr -> body) (out : wres value) : prog :=
  match out with Ok v => body_prog rp (k (inl v)) | Err e => body_prog rp (k (inr e)) | Panic w => Done (Panic w) end.

(** A quote run by a command is the program of the quote. *)
Definition quote_is (rp : list call -> prog) (q : list value) (p : prog) : Prop :=
  forall k f, (forall out, same_client (goes rp k out) (f out)) -> same_client (body_prog rp (quote_then q k)) (pbind p f).


Lemma prelude_loop rp rq D : (forall q, S (depths q) <= D -> quote_is rp q (rq q)) ->
  forall calls res, quotes_deep calls <= D -> same_client (calls_prog rp prelude calls res) (p_calls_loop rq common calls res).
Proof.
  intros H. induction calls as [|c rest IH]; intros res Q; cbn [calls_prog p_calls_loop]; [constructor|].
  pose proof (quotes_in (c :: rest) c (or_introl eq_refl)) as Dc.
  pose proof (@prelude_get unit (el_name (c_name c))) as Gt.
  destruct (cmd_get common (el_name (c_name c))) as [y|]; [|rewrite Gt; constructor].
  destruct Gt as (x & -> & E & N). rewrite E.
  apply same_bind.
  - assert (Dq : depths (c_args c) <= D) by lia. clear - H N Dq. revert Dq. generalize (c_args c) as args. intros args Dq.
    destruct (cmd_fun_of y) as [| | | | | | | | |f]; cbn [p_exec].
    + unfold b_assert_equal, p_assert_equal. destruct args as [|l [|r [|z args]]]; try (apply same_refl).
      pose proof (depths_in l [l; r] (or_introl eq_refl)) as Dl. pose proof (depths_in r [l; r] (or_intror (or_introl eq_refl))) as Dr.
      assert (V : forall v k f, depth v <= D -> (forall a, same_client (body_prog rp (k a)) (f (Ok a))) -> (forall e, f (Err e) = Done (Err e)) -> (forall w, f (Panic w) = Done (Panic w)) ->
        same_client (body_prog rp (value_then v k)) (pbind (p_value rq v) f)).
      { intros v k f Dv Hk He Hw. destruct v as [e|q|nw]; cbn [value_then p_value]; [apply Hk| |apply Hk].
        apply (H q); [rewrite depth_quote in Dv; exact Dv|]. intros [a|e|w]; cbn [goes]; [apply Hk|rewrite He; constructor|rewrite Hw; constructor]. }
      apply V; [lia| |reflexivity|reflexivity]. intros lv. apply V; [lia| |reflexivity|reflexivity]. intros rv. cbn [body_prog]. destruct (value_eqb lv rv); constructor.
    + unfold b_assert_fail, p_assert_fail. destruct args as [|l [|z args]]; try (apply same_refl); [|destruct l; apply same_refl]. destruct l as [e|q|nw]; try (apply same_refl).
      apply (H q); [exact (Nat.le_trans _ _ _ (depths_in (VQuote q) [VQuote q] (or_introl eq_refl)) Dq)|]. intros [a|e|w]; cbn [goes body_prog]; constructor.
    + constructor.
    + assert (S : forall name nw, same_client (body_prog rp (store_body name nw)) (p_let_store name nw)).
      { intros name nw. unfold store_body, p_let_store. cbn [body_prog]. constructor. intros [u|e|w]; cbn [ans_panic res_panic]; try constructor;
          intros [u2|e2|w2]; cbn [ans_panic res_panic]; constructor. }
      unfold b_let, p_let. destruct args as [|a [|b [|z args]]]; try (apply same_refl); [destruct a; apply same_refl| |destruct a; try (apply same_refl); destruct b; apply same_refl].
      destruct a as [name| |]; try (apply same_refl). destruct b as [e|q|nw]; [apply same_refl| |apply S].
      apply (H q); [exact (Nat.le_trans _ _ _ (depths_in (VQuote q) [VElement name; VQuote q] (or_intror (or_introl eq_refl))) Dq)|].
      intros [a|e|w]; cbn [goes body_prog]; [|constructor|constructor]. destruct a as [e|q'|nw]; [constructor|constructor|apply S].
    + unfold b_read, p_read. destruct args as [|a [|z args]]; try (apply same_refl); [|destruct a; apply same_refl]. destruct a as [name| |]; try (apply same_refl).
      cbn [body_prog]. constructor. intros [u|e|w]; cbn [ans_panic res_panic]; constructor.
    + unfold b_id, id_command. destruct args as [|a [|z args]]; apply same_refl.
    + unfold b_docs, docs_command. destruct args as [|a args]; apply same_refl.
    + unfold b_union, union_command. destruct args as [|l [|r [|z args]]]; try (apply same_refl). destruct l; try (apply same_refl). destruct r; apply same_refl.
    + unfold b_filter, p_filter. destruct args as [|a1 [|a2 [|a3 [|a4 [|z args]]]]]; try (apply same_refl); destruct a1; try (apply same_refl); destruct a2; try (apply same_refl); destruct a3; try (apply same_refl); destruct a4; try (apply same_refl).
      cbn [body_prog]. constructor. intros [u|er|w]; cbn [ans_panic res_panic]; constructor.
    + destruct (N f eq_refl).
  - intros [v|e|w]; [|constructor|constructor]. apply IH. unfold quotes_deep in Q |- *. cbn [fold_right] in Q. lia.
Qed.

Lemma prelude_quote D : forall n m q, S (depths q) <= D -> D <= n -> D <= m -> quote_is (deep_prog prelude n) q (p_quote_f m common q).
Proof.
  induction D as [|D IH]; intros n m q Q N M; [lia|]. destruct n as [|n]; [lia|]. destruct m as [|m]; [lia|].
  intros k f Hf. destruct q as [|v args]; [exact (Hf (Ok unit_value))|]. destruct v as [e|q|nw]; [|exact (Hf (Panic PTodo))|exact (Hf (Panic PTodo))].
  cbn [quote_then body_prog p_quote_f]. change (deep_prog prelude (S n) [Call e args]) with (calls_prog (deep_prog prelude n) prelude [Call e args] unit_value).
  change (depths (VElement e :: args)) with (Nat.max 0 (depths args)) in Q.
  apply same_bind; [|exact Hf]. apply (prelude_loop _ _ D).
  - intros q' Dq. apply IH; lia.
  - unfold quotes_deep. cbn [fold_right c_args]. lia.
Qed.

Lemma prelude_host script : same_client (host_run prelude script) (p_run common script).
Proof.
  unfold host_run, p_run. destruct (tokenize_and_filter script) as [ts|e|w]; try constructor. destruct (parse ts) as [calls|e|w]; try constructor.
  unfold host_calls, p_calls. cbn [deep_prog]. apply (prelude_loop _ _ (quotes_deep calls)); [|lia].
  intros q Dq. unfold p_quote. apply (prelude_quote (S (depths q))); lia.
Qed.

(** ** Commands that stay with their arguments *)
Lemma within_inside v l : within v l -> inside v l.
Proof. induction 1 as [l H|l h q H _ IH]; [apply in_here; exact H|]. apply (in_deep _ _ (h :: q) H). clear - IH.
  destruct IH as [l H|l q H K]; [apply in_here; right; exact H|apply (in_deep _ _ q); [right; exact H|exact K]].
Qed.

Lemma stays_keeps args b : stays_with args b -> keeps_to args b.
Proof. induction 1 as [r|q k e _ _ _ _ IH|n qargs k I _ IH]; constructor; auto. apply within_inside, I. Qed.

Lemma homely_modest x : homely x -> modest x.
Proof. intros H l args. apply stays_keeps, H. Qed.

Definition named (args : list value) (c : str) : Prop := exists v, In v args /\ in_value c v.

Lemma within_named v l : within v l -> forall c, in_value c v -> named l c.
Proof.
  induction 1 as [l H|l h q H _ IH]; intros c V; [exists v; auto|]. destruct (IH c V) as (x & Hx & Vx). exists (VQuote (h :: q)). split; [exact H|].
  exact (in_quote c h q x Hx Vx).
Qed.

Lemma quote_named n qargs l : within (VQuote (VElement n :: qargs)) l -> forall c, named qargs c -> named l c.
Proof. intros H c (v & Hv & V). apply (within_named _ _ H). exact (in_quote c _ _ v Hv V). Qed.

(** The calls a client can make. *)
Definition kept (N : str -> Prop) (p : prog) : Prop :=
  forall q, asks p q -> (exists c, about q = Some c /\ N c) /\ forall c es, q <> QRemoveEntries c es.

Lemma kept_done N r : kept N (Done r).
Proof. intros q []. Qed.

Lemma kept_bind N p f : kept N p -> (forall r, kept N (f r)) -> kept N (pbind p f).
Proof. intros H1 H2 q Hq. apply asks_bind in Hq as [Hq|(r & Hq)]; [exact (H1 q Hq)|exact (H2 r q Hq)]. Qed.

Lemma kept_mono (N N' : str -> Prop) p : (forall c, N c -> N' c) -> kept N p -> kept N' p.
Proof. intros H Hp q Hq. destruct (Hp q Hq) as [(c & E & Hc) R]. split; [exists c; auto|exact R]. Qed.

Lemma kept_body args rp b : stays_with args b ->
  (forall n qargs, within (VQuote (VElement n :: qargs)) args -> kept (named qargs) (rp [Call n qargs])) ->
  kept (named args) (body_prog rp b).
Proof.
  intros S H. induction S as [r|q k e W A R _ IH|n qargs k I _ IH]; cbn [body_prog].
  - apply kept_done.
  - intros q' [->|[a Ha]].
    + split; [|exact R]. exists (el_name e). split; [exact A|]. apply (within_named _ _ W). constructor. reflexivity.
    + destruct (ans_panic q a); [destruct Ha|exact (IH a q' Ha)].
  - apply kept_bind; [exact (kept_mono _ _ _ (quote_named _ _ _ I) (H _ _ I))|]. intros [v|er|w]; [apply IH|apply IH|apply kept_done].
Qed.

Lemma kept_calls cs rp (M : forall n x, In (n, x) cs -> homely x) (T : no_name_twice cs) :
  (forall n qargs, kept (named qargs) (rp [Call n qargs])) ->
  forall calls res, kept (names calls) (calls_prog rp cs calls res).
Proof.
  intros H. induction calls as [|c rest IH]; intros res; cbn [calls_prog]; [apply kept_done|].
  destruct (find_cmd cs (el_name (c_name c))) as [y|] eqn:F; [|apply kept_done]. apply (find_cmd_iff cs _ _ T) in F.
  apply kept_bind.
  - apply (kept_mono (named (c_args c))); [intros n (v & Hv & V); exists c, v; split; [left; reflexivity|split; [exact Hv|exact V]]|].
    apply kept_body; [apply (M _ _ F)|]. intros n qargs _. apply H.
  - intros [v|er|w]; try (apply kept_done). apply (kept_mono (names rest)); [|apply IH]. intros n (x & v' & Hx & Hv). exists x, v'. split; [right; exact Hx|exact Hv].
Qed.

Lemma kept_deep cs (M : forall n x, In (n, x) cs -> homely x) (T : no_name_twice cs) n : forall calls, kept (names calls) (deep_prog cs n calls).
Proof.
  induction n as [|n IH]; intros calls; [apply kept_done|]. cbn [deep_prog]. apply (kept_calls _ _ M T). intros e qargs.
  apply (kept_mono (names [Call e qargs])); [|apply IH]. intros c (x & v & [<-|[]] & Hv & V). exists v. split; [exact Hv|exact V].
Qed.

Lemma kept_local N p : kept N p -> local p.
Proof. intros H q Hq. destruct (H q Hq) as [(c & A & _) R]. split; [|exact R]. intros ->. discriminate A. Qed.

Lemma kept_uses N p c : kept N p -> uses p c -> N c.
Proof. intros H (q & Hq & E). destruct (H q Hq) as [(x & A & Hx) _]. rewrite E in A. injection A as <-. exact Hx. Qed.

Lemma prelude_homely n x : In (n, x) prelude -> homely x.
Proof.
  assert (Q : forall args q k, In (VQuote q) args -> (forall r, stays_with args (k r)) -> stays_with args (quote_then q k)).
  { intros args q k I K. destruct q as [|v qargs]; [apply K|]. destruct v as [e|q'|nw]; cbn [quote_then]; [|constructor|constructor].
    constructor; [apply wi_here, I|exact K]. }
  assert (V : forall args v k, In v args -> (forall r, stays_with args (k r)) -> stays_with args (value_then v k)).
  { intros args v k I K. destruct v as [e|q|nw]; cbn [value_then]; [apply K| |apply K]. apply Q; [exact I|]. intros [r|er]; [apply K|constructor]. }
  assert (S : forall args c nw, In (VElement c) args -> stays_with args (store_body c nw)).
  { intros args c nw I. unfold store_body. apply (sw_ask _ _ _ c); [apply wi_here, I|reflexivity|discriminate|]. intros _.
    apply (sw_ask _ _ _ c); [apply wi_here, I|reflexivity|discriminate|]. intros _. constructor. }
  unfold prelude. intros I l args. cbn [In] in I. repeat (destruct I as [[= <- <-]|I]; [cbn [cmd_does]|]); try destruct I.
  - unfold b_assert_equal. destruct args as [|a [|b [|z args]]]; try constructor. apply V; [left; reflexivity|]. intros r. apply V; [right; left; reflexivity|]. intros s. constructor.
  - unfold b_assert_fail. destruct args as [|a [|z args]]; try constructor; destruct a as [e|q|nw]; try constructor. apply Q; [left; reflexivity|]. intros r. constructor.
  - constructor.
  - unfold b_let. destruct args as [|a [|b [|z args]]]; try constructor; destruct a as [c|q|nw]; try constructor; destruct b as [e|q|nw]; try constructor.
    + apply Q; [right; left; reflexivity|]. intros [v|er]; [destruct v as [e|q'|nw]; [constructor|constructor|apply S; left; reflexivity]|constructor].
    + apply S. left. reflexivity.
  - unfold b_read. destruct args as [|a [|z args]]; try constructor; destruct a as [c|q|nw]; try constructor.
    apply (sw_ask _ _ _ c); [apply wi_here; left; reflexivity|reflexivity|discriminate|]. intros a. constructor.
  - constructor.
  - constructor.
  - constructor.
  - unfold b_filter. destruct args as [|a1 [|a2 [|a3 [|a4 [|z args]]]]]; try constructor; destruct a1 as [c| |]; try constructor; destruct a2; try constructor; destruct a3; try constructor; destruct a4; try constructor.
    apply (sw_ask _ _ _ c); [apply wi_here; left; reflexivity|reflexivity|discriminate|]. intros a. constructor.
Qed.
