(** * C126: command tables a host may make *)
From Coq Require Import List Arith NArith Bool String Permutation Lia.
From Verif Require Import M_Base M_Data M_Mem M_Regex M_Lexer M_Graph M_Parser M_Display M_Interp M_Conc M_Commands
  S_Order S_Store S_Graph S_Interp S_Wander S_Commands P_Ord P_Hist P_Graph P_DeathRun P_Parser P_Interp P_InterpMore P_Commands.
Import ListNotations.
Open Scope list_scope.

(** C126.  A table of commands, any functions that make calls on the store and
    have quotes, calls and scripts run.  A program has at most one outcome: what
    the code computes, given room for enough recursion, is what the rules say,
    and more room does not change it. *)
Theorem C126_one_outcome : forall (St : Type) (L : lig_impl St) cs calls st r st', no_name_twice cs ->
  (runs_to L cs calls st r st' <-> exists n, run_deep L cs n calls st = Some (r, st'))
  /\ (forall n m, n <= m -> run_deep L cs n calls st = Some (r, st') -> run_deep L cs m calls st = Some (r, st'))
  /\ (forall r2 st2, runs_to L cs calls st r st' -> runs_to L cs calls st r2 st2 -> r2 = r /\ st2 = st').
Proof.
  intros St L cs calls st r st' T. split; [exact (to_iff L cs T calls st r st')|]. split.
  - intros n m H E. exact (deep_more L cs n m H _ _ _ E).
  - intros r2 st2 H1 H2. exact (to_unique L cs T _ _ _ _ _ _ H2 H1).
Qed.
Print Assumptions C126_one_outcome.

(** The commands of the prelude are such functions, and what scripts do with them
    is what all the other properties say. *)
Theorem C126_prelude : forall (St : Type) (L : lig_impl St) script st,
  exists n, script_deep L prelude n script st = Some (run L common script st).
Proof. exact (@prelude_script). Qed.
Print Assumptions C126_prelude.

(** If every command has nothing run but quotes it was given, or parts of them (as
    those of the prelude do), every program ends, and needs no more open runs than
    quotes stand inside one another in it. *)
Theorem C126_ends : forall (St : Type) (L : lig_impl St) cs calls st, no_name_twice cs ->
  (forall n x, In (n, x) cs -> modest x) ->
  (exists r st', runs_to L cs calls st r st')
  /\ exists x, run_deep L cs (S (fold_right (fun c n => Nat.max (depths (c_args c)) n) 0 calls)) calls st = Some x.
Proof.
  intros St L cs calls st T M. destruct (deep_ends L cs M T _ calls st (Nat.le_refl _)) as [[r st'] E]. split; [|exists (r, st'); exact E].
  exists r, st'. exact (deep_to L cs T _ _ _ _ _ E).
Qed.
Print Assumptions C126_ends.

Theorem C126_prelude_modest : forall n x, In (n, x) prelude -> modest x /\ (n <> lit "docs" -> looks_away x).
Proof. intros n x I. split; [exact (prelude_modest n x I)|exact (prelude_looks_away n x I)]. Qed.
Print Assumptions C126_prelude_modest.

(** Without that a program need not end: a command that has itself run. *)
Theorem C126_may_not_end : exists x, forall (St : Type) (L : lig_impl St) st,
  let cs := (lit "again", x) :: prelude in
  no_name_twice cs
  /\ (forall n, run_deep L cs n [Call (mkE (lit "again")) []] st = None)
  /\ (forall n, script_deep L cs n (lit "again") st = None)
  /\ forall r st', ~ runs_to L cs [Call (mkE (lit "again")) []] st r st'.
Proof.
  exists (Cmd [] (fun _ _ => BRun [Call (mkE (lit "again")) []] (fun r => BDone match r with inl v => Ok v | inr e => Err e end))).
  intros St L st cs.
  assert (T : no_name_twice cs).
  { unfold no_name_twice, cs. cbn [map fst]. constructor; [|exact prelude_table].
    intros H. cbn in H. repeat (destruct H as [H|H]; [discriminate H|]). destruct H. }
  assert (N : forall n s, run_deep L cs n [Call (mkE (lit "again")) []] s = None).
  { induction n as [|n IH]; intros s; [reflexivity|].
    change (run_deep L cs (S n) [Call (mkE (lit "again")) []] s) with (calls_run L cs (run_deep L cs n) [Call (mkE (lit "again")) []] unit_value s).
    cbn [calls_run c_name c_args mkE el_name]. unfold cs at 1. cbn [find_cmd]. replace (str_eqb (lit "again") (lit "again")) with true by reflexivity.
    cbn [cmd_does body_run]. rewrite IH. reflexivity. }
  split; [exact T|]. split; [intros n; apply N|]. split.
  - intros n. unfold script_deep. replace (tokenize_and_filter (lit "again")) with (@Ok werr _ [TElement (mkE (lit "again"))]) by (vm_compute; reflexivity).
    replace (parse [TElement (mkE (lit "again"))]) with (@Ok werr _ [Call (mkE (lit "again")) []]) by reflexivity. apply N.
  - intros r st' H. apply (to_iff L cs T) in H. destruct H as [n E]. rewrite N in E. discriminate.
Qed.
Print Assumptions C126_may_not_end.

(** A program means the same with any two tables that have the same commands
    under the names it mentions (in its calls and the quotes in them), if those
    commands keep to their arguments and do not list the table.  So adding
    commands to the prelude changes no script that does not mention them. *)
Theorem C126_other_commands : forall (St : Type) (L : lig_impl St) cs cs' calls st r st',
  no_name_twice cs -> no_name_twice cs' ->
  (forall n x, mentions calls n -> (In (n, x) cs <-> In (n, x) cs')) ->
  (forall n x, mentions calls n -> In (n, x) cs -> modest x /\ looks_away x) ->
  (runs_to L cs calls st r st' <-> runs_to L cs' calls st r st').
Proof.
  intros St L cs cs' calls st r st' T T' A M. rewrite (to_iff L cs T), (to_iff L cs' T').
  split; intros [n E]; exists n; [rewrite <- (deep_agree L cs cs' T T' n calls st A M)|rewrite (deep_agree L cs cs' T T' n calls st A M)]; exact E.
Qed.
Print Assumptions C126_other_commands.

Theorem C126_added : forall (St : Type) (L : lig_impl St) more calls st,
  no_name_twice (prelude ++ more) ->
  (forall n x, mentions calls n -> ~ In (n, x) more) -> ~ mentions calls (lit "docs") ->
  let (r, st') := run_calls L common calls st in runs_to L (prelude ++ more) calls st r st'.
Proof.
  intros St L more calls st T N D. destruct (run_calls L common calls st) as [r st'] eqn:E.
  apply (C126_other_commands St L prelude (prelude ++ more) calls st r st' prelude_table T).
  - intros n x M. rewrite in_app_iff. split; [auto|]. intros [H|H]; [exact H|destruct (N n x M H)].
  - intros n x M I. split; [exact (prelude_modest n x I)|]. apply (prelude_looks_away n x I). intros ->. exact (D M).
  - apply (to_iff L prelude prelude_table). eexists. rewrite prelude_calls. rewrite E. reflexivity.
Qed.
Print Assumptions C126_added.

(** The order a hash map is iterated in does not matter, unless a command of the
    host makes it matter; those of the prelude do not. *)
Theorem C126_order : forall (St : Type) (L : lig_impl St) cs cs' calls st r st',
  no_name_twice cs -> Permutation cs cs' ->
  (forall n x l l' args, In (n, x) cs -> Permutation l l' -> cmd_does x l args = cmd_does x l' args) ->
  (runs_to L cs calls st r st' <-> runs_to L cs' calls st r st').
Proof.
  intros St L cs cs' calls st r st' T P H.
  assert (T' : no_name_twice cs') by exact (Permutation_NoDup (Permutation_map fst P) T).
  rewrite (to_iff L cs T), (to_iff L cs' T').
  split; intros [n E]; exists n; [rewrite <- (deep_order L cs cs' T T' P H n calls st)|rewrite (deep_order L cs cs' T T' P H n calls st)]; exact E.
Qed.
Print Assumptions C126_order.

Theorem C126_prelude_order : forall n x l l' args, In (n, x) prelude -> Permutation l l' -> cmd_does x l args = cmd_does x l' args.
Proof.
  intros n x l l' args I P. destruct (list_eq_dec N.eq_dec n (lit "docs")) as [->|N]; [|exact (prelude_looks_away n x I N l l' args)].
  assert (x = Cmd (lit "Get a list of commands and a description.") b_docs) as ->.
  { apply (find_cmd_iff _ _ _ prelude_table) in I. vm_compute in I. injection I as <-. reflexivity. }
  cbn [cmd_does]. unfold b_docs. destruct args as [|a args]; [|reflexivity]. do 3 f_equal.
  apply (is_set_ext entry_order); try apply is_set_collect, entry_order.
  intros e. rewrite !(in_bs_collect entry_order), !in_map_iff.
  split; intros (y & E & H); exists y; (split; [exact E|]); [exact (Permutation_in _ P H)|exact (Permutation_in _ (Permutation_sym P) H)].
Qed.
Print Assumptions C126_prelude_order.

(** Commands see the store through its calls only: stores that answer alike give
    a program the same outcome, and are left in related states. *)
Theorem C126_store_blind : forall (S T : Type) (L : lig_impl S) (M : lig_impl T) R cs calls s t r s',
  no_name_twice cs -> answer_alike L M R -> R s t -> runs_to L cs calls s r s' ->
  exists t', runs_to M cs calls t r t' /\ R s' t'.
Proof.
  intros S T L M R cs calls s t r s' N A E H. apply (to_iff L cs N) in H. destruct H as [n H].
  pose proof (deep_alike L M R A cs n calls s t E) as X. rewrite H in X. unfold alike_out in X.
  destruct (run_deep M cs n calls t) as [[r' t']|] eqn:Y; [|destruct X]. destruct X as [<- X].
  exists t'. split; [exact (deep_to M cs N _ _ _ _ _ Y)|exact X].
Qed.
Print Assumptions C126_store_blind.

(** So whatever the commands of the host, what a program leaves behind is what a
    history of the store's writing calls leaves behind: all that is proved of
    every history holds of it. *)
Theorem C126_history : forall (S : Type) (I : trips_impl S) (s0 : S) cs h0 calls r s',
  no_name_twice cs -> runs_to (graph_impl I) cs calls (after I s0 h0) r s' ->
  exists h, s' = after I s0 (h0 ++ h).
Proof.
  intros S I s0 cs h0 calls r s' N H.
  set (R := fun (s : S) (x : S * list op) => s = fst x /\ s = after I s0 (snd x) /\ exists h, snd x = h0 ++ h).
  destruct (C126_store_blind S (S * list op) (graph_impl I) (graph_impl (logged I)) R cs calls (after I s0 h0) (after I s0 h0, h0) r s' N) as ([x h] & _ & E & E2 & h' & E3).
  - intros q s [x h] (E & E2 & h' & E3). cbn [fst snd] in *. subst x h. destruct (logged_perform I q (s, h0 ++ h')) as [L1 L2]. cbn [fst] in L1, L2.
    split; [symmetry; exact L1|]. unfold R. rewrite L2. split; [reflexivity|].
    destruct q; cbn [perform fst snd] in *; try (split; [exact E2|exists h'; reflexivity]).
    + cbn. unfold graph_add_collection. cbn. destruct (t_add_collection I s (el_name c)) as [y z] eqn:E. cbn. split; [|exists (h' ++ [OAddColl (el_name c)]); rewrite app_assoc; reflexivity].
      rewrite after_app, <- E2. cbn [after call_op]. rewrite E. reflexivity.
    + cbn. unfold graph_remove_collection. cbn. destruct (t_remove_collection I s (el_name c)) as [y z] eqn:E. cbn. split; [|exists (h' ++ [ORemColl (el_name c)]); rewrite app_assoc; reflexivity].
      rewrite after_app, <- E2. cbn [after call_op]. rewrite E. reflexivity.
    + cbn. unfold graph_add_entries. cbn. fold (trips_of es). destruct (t_add_triples I s (el_name c) (trips_of es)) as [[y z] u] eqn:E. cbn. split; [|exists (h' ++ [OAdd (el_name c) (trips_of es)]); rewrite app_assoc; reflexivity].
      rewrite after_app, <- E2. cbn [after call_op]. rewrite E. reflexivity.
    + cbn. unfold graph_remove_entries. cbn. fold (trips_of es). destruct (t_remove_triples I s (el_name c) (trips_of es)) as [[y z] u] eqn:E. cbn. split; [|exists (h' ++ [ORem (el_name c) (trips_of es)]); rewrite app_assoc; reflexivity].
      rewrite after_app, <- E2. cbn [after call_op]. rewrite E. reflexivity.
  - unfold R. cbn. split; [reflexivity|]. split; [reflexivity|]. exists []. rewrite app_nil_r. reflexivity.
  - exact H.
  - exists h'. cbn [fst snd] in *. rewrite <- E3. exact E2.
Qed.
Print Assumptions C126_history.

(** A command that runs the quote it is given does what the call in the quote does. *)
Theorem C126_do : forall (St : Type) (L : lig_impl St) cs d m args st r st', no_name_twice cs ->
  In (lit "do", Cmd d b_do) cs ->
  (runs_to L cs [Call (mkE (lit "do")) [VQuote (VElement m :: args)]] st r st' <-> runs_to L cs [Call m args] st r st').
Proof.
  intros St L cs d m args st r st' T I. rewrite !(to_iff L cs T). split.
  - intros [n E]. destruct n as [|n]; [discriminate|]. exists n.
    change (run_deep L cs (S n)) with (fun calls st => calls_run L cs (run_deep L cs n) calls unit_value st) in E. cbn beta in E.
    cbn [calls_run c_name c_args mkE el_name] in E. apply (find_cmd_iff _ _ _ T) in I. rewrite I in E. cbn [cmd_does b_do quote_then body_run] in E.
    destruct (run_deep L cs n [Call m args] st) as [[[v|e|w] s1]|]; cbn [body_run] in E; try discriminate; injection E as <- <-; reflexivity.
  - intros [n E]. exists (S n).
    change (run_deep L cs (S n)) with (fun calls st => calls_run L cs (run_deep L cs n) calls unit_value st). cbn beta.
    cbn [calls_run c_name c_args mkE el_name]. apply (find_cmd_iff _ _ _ T) in I. rewrite I. cbn [cmd_does b_do quote_then body_run].
    rewrite E. destruct r as [v|e|w]; reflexivity.
Qed.
Print Assumptions C126_do.

(** A script that says a program runs as that program; one that says none fails
    and does nothing. *)
Theorem C126_scripts : forall (St : Type) (L : lig_impl St) cs script m st r st', no_name_twice cs -> says script m ->
  match m with
  | Ok calls => ((exists n, script_deep L cs n script st = Some (r, st')) <-> runs_to L cs calls st r st')
                /\ forall n, script_deep L cs n script st = run_deep L cs n calls st
  | Err e => forall n, script_deep L cs n script st = Some (Err e, st)
  | Panic w => forall n, script_deep L cs n script st = Some (Panic w, st)
  end.
Proof.
  intros St L cs script m st r st' T [(ts & E & P)|[(e & E & ->)|(w & E & ->)]]; unfold script_deep; rewrite E; try reflexivity.
  rewrite P. destruct m as [calls|e|w]; try reflexivity. split; [symmetry; exact (to_iff L cs T calls st r st')|reflexivity].
Qed.
Print Assumptions C126_scripts.

(** A command that has a text run as a script does what the script does on its
    own, and goes on with the outcome, also if the script failed; a panic it does
    not survive. *)
Theorem C126_eval : forall (St : Type) (L : lig_impl St) cs name d f text st x st', no_name_twice cs ->
  In (name, Cmd d (b_eval f)) cs ->
  (runs_to L cs [Call (mkE name) [VElement (mkE text)]] st x st'
   <-> exists r, (exists n, script_deep L cs n text st = Some (r, st'))
         /\ x = match r with Ok v => f (inl v) | Err e => f (inr e) | Panic w => Panic w end).
Proof.
  intros St L cs name d f text st x st' T I. rewrite (to_iff L cs T). apply (find_cmd_iff _ _ _ T) in I.
  assert (U : forall n, run_deep L cs (S n) [Call (mkE name) [VElement (mkE text)]] st
      = match script_deep L cs n text st with
        | Some (Ok v, s1) => Some (f (inl v), s1)
        | Some (Err e, s1) => Some (f (inr e), s1)
        | Some (Panic w, s1) => Some (Panic w, s1)
        | None => None end).
  { intros n. change (run_deep L cs (S n)) with (fun calls st => calls_run L cs (run_deep L cs n) calls unit_value st). cbn beta.
    cbn [calls_run c_name c_args mkE el_name]. rewrite I. cbn [cmd_does b_eval el_name mkE]. unfold script_then, script_deep.
    destruct (tokenize_and_filter text) as [ts|e|w].
    - destruct (parse ts) as [calls|e|w].
      + cbn [body_run]. destruct (run_deep L cs n calls st) as [[[v|e|w] s1]|]; cbn [body_run]; try reflexivity;
          [destruct (f (inl v))|destruct (f (inr e))]; reflexivity.
      + cbn [body_run]. destruct (f (inr e)); reflexivity.
      + reflexivity.
    - cbn [body_run]. destruct (f (inr e)); reflexivity.
    - reflexivity. }
  split.
  - intros [n E]. destruct n as [|n]; [discriminate|]. rewrite U in E.
    destruct (script_deep L cs n text st) as [[[v|e|w] s1]|] eqn:Y; try discriminate; injection E as <- <-.
    + exists (Ok v). split; [exists n; exact Y|reflexivity].
    + exists (Err e). split; [exists n; exact Y|reflexivity].
    + exists (Panic w). split; [exists n; exact Y|reflexivity].
  - intros (r & [n E] & ->). exists (S n). rewrite U, E. destruct r; reflexivity.
Qed.
Print Assumptions C126_eval.

(** Commands a host may add: [do], and [twice], which has its quote run, has it run
    again if it did not fail, and then makes a call of its own. *)
Definition b_twice (_ : list (str * str)) (args : list value) : body :=
  match args with
  | [VElement c; VQuote q] =>
      quote_then q (fun r => match r with
        | inr e => BDone (Err e)
        | inl _ => quote_then q (fun r2 => match r2 with
            | inr e => BDone (Err e)
            | inl _ => BAsk (QRemoveCollection c) (fun _ => BDone (Ok unit_value))
            end)
        end)
  | _ => BDone (Err (WErr (lit "twice takes an element and a quote.")))
  end.
Definition hosted : table := prelude ++ [(lit "do", Cmd (lit "Run a quote.") b_do); (lit "twice", Cmd (lit "Run a quote twice.") b_twice)].

Example C126_case :
  no_name_twice hosted
  /\ (forall n x, In (n, x) hosted -> modest x)
  /\ (forall n x l l' args, In (n, x) hosted -> Permutation l l' -> cmd_does x l args = cmd_does x l' args)
  /\ (exists st', script_deep (graph_impl mem_impl) hosted 4
        (lit "let b {p q r}, do (let a {x y z}), twice b (read a), do (filter a x y z)") mem_new
        = Some (Ok (VNetwork [Role (mkE (lit "x")) (mkE (lit "z")) (mkE (lit "y"))]), st')
        /\ l_collections (graph_impl mem_impl) st' = Ok [mkE (lit "a")])
  /\ (exists st', script_deep (graph_impl mem_impl) hosted 4 (lit "let b {p q r}, twice b (read a)") mem_new
        = Some (Err (WErr (lit "Error Collection `a` not found.")), st')
        /\ l_collections (graph_impl mem_impl) st' = Ok [mkE (lit "b")])
  /\ (exists l st', script_deep (graph_impl mem_impl) hosted 4 (lit "do (docs)") mem_new = Some (Ok (VNetwork l), st') /\ List.length l = 11)
  /\ (exists st', script_deep (graph_impl mem_impl)
          ((lit "try", Cmd nil (b_eval (fun r => match r with inl v => Ok v | inr _ => Ok (VElement (mkE (lit "caught"))) end))) :: hosted) 4
          (lit "let a {x y z}, try ""let b {p q r}, read c""") mem_new = Some (Ok (VElement (mkE (lit "caught"))), st')
        /\ l_collections (graph_impl mem_impl) st' = Ok [mkE (lit "a"); mkE (lit "b")])
  /\ (let nested := [Call (mkE (lit "do")) [VQuote [VElement (mkE (lit "do")); VQuote [VElement (mkE (lit "id")); VElement (mkE (lit "x"))]]]] in
      run_deep (graph_impl mem_impl) hosted 2 nested mem_new = None
      /\ run_deep (graph_impl mem_impl) hosted 3 nested mem_new = Some (Ok (VElement (mkE (lit "x"))), mem_new)).
Proof.
  assert (Q : forall args q k, In (VQuote q) args -> (forall a, keeps_to args (k a)) -> keeps_to args (quote_then q k)) by exact keeps_quote.
  split.
  { unfold no_name_twice. assert (E : map fst hosted = nodup (list_eq_dec N.eq_dec) (map fst hosted)) by (vm_compute; reflexivity). rewrite E. apply NoDup_nodup. }
  split.
  { intros n x I. apply in_app_or in I. destruct I as [I|[I|[I|[]]]]; [exact (prelude_modest n x I)| |]; injection I as <- <-; intros l args; cbn [cmd_does].
    - unfold b_do. destruct args as [|[] [|]]; try constructor. apply Q; [left; reflexivity|]. intros a. constructor.
    - unfold b_twice. destruct args as [|[] [|[] [|]]]; try constructor. apply Q; [right; left; reflexivity|]. intros [v1|e1]; [|constructor].
      apply Q; [right; left; reflexivity|]. intros [v2|e2]; repeat constructor. }
  split.
  { intros n x l l' args I P. apply in_app_or in I. destruct I as [I|[I|[I|[]]]]; [exact (C126_prelude_order n x l l' args I P)| |]; injection I as <- <-; reflexivity. }
  split; [eexists; split; vm_compute; reflexivity|].
  split; [eexists; split; vm_compute; reflexivity|].
  split; [eexists; eexists; split; vm_compute; reflexivity|].
  split; [eexists; split; vm_compute; reflexivity|].
  split; vm_compute; reflexivity.
Qed.
