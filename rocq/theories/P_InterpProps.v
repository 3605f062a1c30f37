(** * Proofs of the interpreter properties *)
From Coq Require Import List Arith NArith Bool String Lia Permutation Sorted.
From Verif Require Import M_Base M_Data M_Mem M_Heed M_Duck M_Regex M_Lexer M_Graph M_Parser M_Display M_Interp
  S_Order S_Str S_Store S_Graph S_Lexer S_Parser S_Interp P_Ord P_Hist P_Lexer P_Parser P_Mem P_Heed P_HeedHist P_HeedMore P_Duck P_Agree P_Graph
  P_Interp P_InterpMore P_InterpStores P_Crash.
Import ListNotations.
Open Scope list_scope.

Section Any.
  Context {St : Type} (lig : lig_impl St) (cs : @commands St) (Ht : is_table cs).

  (** C44 *)
  Lemma one_outcome calls st : exists! o, runs lig cs calls st (fst o) (snd o).
  Proof.
    exists (run_calls lig cs calls st). split.
    - apply runs_iff; [exact Ht|apply surjective_pairing].
    - intros [r st'] H. apply runs_iff in H; assumption.
  Qed.

  (** C45 *)
  Lemma calls_app c1 c2 st : run_calls lig cs (c1 ++ c2) st =
    match run_calls lig cs c1 st with
    | (Ok v, st1) => match c2 with [] => (Ok v, st1) | _ => run_calls lig cs c2 st1 end
    | (Err e, st1) => (Err e, st1)
    | (Panic w, st1) => (Panic w, st1)
    end.
  Proof.
    unfold run_calls. rewrite loop_app. destruct (run_calls_loop lig (run_quote lig cs) cs c1 unit_value st) as [[v|e|w] st1]; try reflexivity.
    destruct c2 as [|c c2]; [reflexivity|]. apply loop_result. discriminate.
  Qed.

  (** C49 *)
  Lemma assert_equal_ok n d l r st v st2 : In (el_name n, Command d FAssertEqual) cs ->
    (run_calls lig cs [Call n [l; r]] st = (Ok v, st2)
     <-> v = VNetwork [] /\ exists a st1, evals lig cs l st (Ok a) st1 /\ evals lig cs r st1 (Ok a) st2).
  Proof.
    intros Hc. rewrite (run_one lig cs n _ [l; r] st Ht Hc). cbn [exec cmd_fun_of]. unfold assert_equal_command.
    pose proof (evals_iff lig cs Ht l st) as HL.
    destruct (match l with VQuote q => run_quote lig cs q st | v => (Ok v, st) end) as [[a|e|w] st1].
    - pose proof (evals_iff lig cs Ht r st1) as HR.
      destruct (match r with VQuote q => run_quote lig cs q st1 | v => (Ok v, st1) end) as [[b|e|w] st3].
      + destruct (value_eqb a b) eqn:E.
        * apply value_eqb_eq in E as <-. split.
          -- intros X. injection X as <- <-. split; [reflexivity|]. exists a, st1. rewrite HL, HR. auto.
          -- intros (-> & a' & st1' & A & B). apply HL in A. injection A as <- <-. apply HR in B. injection B as <-. reflexivity.
        * split; [discriminate|]. intros (-> & a' & st1' & A & B). apply HL in A. injection A as <- <-. apply HR in B. injection B as -> _.
          rewrite (proj2 (value_eqb_eq a a) eq_refl) in E. discriminate.
      + split; [discriminate|]. intros (-> & a' & st1' & A & B). apply HL in A. injection A as <- <-. apply HR in B. discriminate.
      + split; [discriminate|]. intros (-> & a' & st1' & A & B). apply HL in A. injection A as <- <-. apply HR in B. discriminate.
    - split; [discriminate|]. intros (-> & a' & st1' & A & B). apply HL in A. discriminate.
    - split; [discriminate|]. intros (-> & a' & st1' & A & B). apply HL in A. discriminate.
  Qed.

  Lemma assert_equal_err n d l r st st2 : In (el_name n, Command d FAssertEqual) cs ->
    ((exists e, run_calls lig cs [Call n [l; r]] st = (Err e, st2))
     <-> (exists e, evals lig cs l st (Err e) st2)
         \/ exists a st1, evals lig cs l st (Ok a) st1
              /\ ((exists e, evals lig cs r st1 (Err e) st2) \/ exists b, evals lig cs r st1 (Ok b) st2 /\ a <> b)).
  Proof.
    intros Hc. rewrite (run_one lig cs n _ [l; r] st Ht Hc). cbn [exec cmd_fun_of]. unfold assert_equal_command.
    pose proof (evals_iff lig cs Ht l st) as HL.
    destruct (match l with VQuote q => run_quote lig cs q st | v => (Ok v, st) end) as [[a|e|w] st1].
    - pose proof (evals_iff lig cs Ht r st1) as HR.
      destruct (match r with VQuote q => run_quote lig cs q st1 | v => (Ok v, st1) end) as [[b|e|w] st3].
      + destruct (value_eqb a b) eqn:E.
        * apply value_eqb_eq in E as <-. split; [intros [x X]; discriminate X|].
          intros [(x & A)|(a' & st1' & A & B)]; apply HL in A; [discriminate|]. injection A as <- <-.
          destruct B as [(x & B)|(b & B & N)]; apply HR in B; [discriminate|]. injection B as <- _. destruct (N eq_refl).
        * split.
          -- intros [x X]. injection X as _ <-. right. exists a, st1. rewrite HL. split; [reflexivity|]. right. exists b. rewrite HR.
             split; [reflexivity|]. intros ->. rewrite (proj2 (value_eqb_eq b b) eq_refl) in E. discriminate.
          -- intros [(x & A)|(a' & st1' & A & B)]; apply HL in A; [discriminate|]. injection A as <- <-.
             destruct B as [(x & B)|(b' & B & N)]; apply HR in B; [discriminate|]. injection B as <- <-. eauto.
      + split.
        * intros [x X]. injection X as _ <-. right. exists a, st1. rewrite HL. split; [reflexivity|]. left. exists e. rewrite HR. reflexivity.
        * intros [(x & A)|(a' & st1' & A & B)]; apply HL in A; [discriminate|]. injection A as <- <-.
          destruct B as [(x & B)|(b' & B & N)]; apply HR in B; [|discriminate]. injection B as <- <-. eauto.
      + split; [intros [x X]; discriminate X|].
        intros [(x & A)|(a' & st1' & A & B)]; apply HL in A; [discriminate|]. injection A as <- <-.
        destruct B as [(x & B)|(b & B & N)]; apply HR in B; discriminate.
    - split.
      + intros [x X]. injection X as <- <-. left. exists e. apply HL. reflexivity.
      + intros [(x & A)|(a' & st1' & A & B)]; apply HL in A; [|discriminate]. injection A as <- <-. eauto.
    - split; [intros [x X]; discriminate X|].
      intros [(x & A)|(a' & st1' & A & B)]; apply HL in A; discriminate.
  Qed.

  Lemma assert_equal_args n d args st : In (el_name n, Command d FAssertEqual) cs -> List.length args <> 2 ->
    exists e, run_calls lig cs [Call n args] st = (Err e, st).
  Proof.
    intros Hc Hl. rewrite (run_one lig cs n _ args st Ht Hc). cbn [exec cmd_fun_of]. unfold assert_equal_command.
    destruct args as [|a [|b [|c args]]]; eauto. destruct (Hl eq_refl).
  Qed.

  (** C50 *)
  Lemma assert_fail_outcomes n d q st st1 : In (el_name n, Command d FAssertFail) cs ->
    let out := run_calls lig cs [Call n [VQuote q]] st in
    (forall v, out = (Ok v, st1) <-> v = VNetwork [] /\ exists e, run_quote lig cs q st = (Err e, st1))
    /\ ((exists e, out = (Err e, st1)) <-> exists v, run_quote lig cs q st = (Ok v, st1))
    /\ (forall w, out = (Panic w, st1) <-> run_quote lig cs q st = (Panic w, st1)).
  Proof.
    intros Hc out. unfold out. rewrite (run_one lig cs n _ [VQuote q] st Ht Hc). cbn [exec cmd_fun_of]. unfold assert_fail_command.
    destruct (run_quote lig cs q st) as [[v|e|w] st'].
    - split; [|split].
      + intros v'. split; [discriminate|]. intros (_ & e & X). discriminate X.
      + split; intros (x & X); injection X as _ <-; eauto.
      + intros w. split; discriminate.
    - split; [|split].
      + intros v'. split; [intros X; injection X as <- <-; eauto|]. intros (-> & e' & X). injection X as _ <-. reflexivity.
      + split; intros (x & X); discriminate X.
      + intros w. split; discriminate.
    - split; [|split].
      + intros v'. split; [discriminate|]. intros (_ & e & X). discriminate X.
      + split; intros (x & X); discriminate X.
      + intros w'. split; intros X; injection X as <- <-; reflexivity.
  Qed.

  Lemma assert_fail_args n d args st : In (el_name n, Command d FAssertFail) cs -> (forall q, args <> [VQuote q]) ->
    exists e, run_calls lig cs [Call n args] st = (Err e, st).
  Proof.
    intros Hc Hl. rewrite (run_one lig cs n _ args st Ht Hc). cbn [exec cmd_fun_of]. unfold assert_fail_command.
    destruct args as [|[a|q|a] [|b args]]; eauto. destruct (Hl q eq_refl).
  Qed.

  (** C46 *)
  Lemma query_same n c args st : In (el_name n, c) cs ->
    In (cmd_fun_of c) [FId; FIgnore; FDocs; FUnion; FRead; FFilter] -> snd (run_calls lig cs [Call n args] st) = st.
  Proof.
    intros Hc Hf. rewrite (run_one lig cs n _ args st Ht Hc).
    assert (simple (cmd_fun_of c) /\ forall g, cmd_fun_of c <> FHost g) as [H1 H2].
    { destruct Hf as [<-|[<-|[<-|[<-|[<-|[<-|[]]]]]]]; split; try exact Logic.I; intros g; discriminate. }
    apply simple_same; assumption.
  Qed.

  (** C47: the quote form *)
  Lemma let_quote n d c q st : In (el_name n, Command d FLet) cs ->
    run_calls lig cs [Call n [VElement c; VQuote q]] st =
    match run_quote lig cs q st with
    | (Ok (VNetwork net), st1) => run_calls lig cs [Call n [VElement c; VNetwork net]] st1
    | (Panic w, st1) => (Panic w, st1)
    | (_, st1) => (Panic PTodo, st1)
    end.
  Proof.
    intros Hc. rewrite (run_one lig cs n _ _ st Ht Hc). cbn [exec cmd_fun_of let_command].
    destruct (run_quote lig cs q st) as [[[e|q'|net]|e|w] st1]; try reflexivity.
    rewrite (run_one lig cs n _ _ st1 Ht Hc). reflexivity.
  Qed.

  (** C51 *)
  Definition doc_role (nc : str * @command St) : entry :=
    Role (mkE (fst nc)) (mkE (cmd_doc (snd nc))) (mkE (lit "docString")).

  Lemma docs_run n d st : In (el_name n, Command d FDocs) cs ->
    exists l, run_calls lig cs [Call n []] st = (Ok (VNetwork l), st) /\ is_set entry_lt l
      /\ List.length l = List.length cs /\ forall e, In e l <-> exists nc, In nc cs /\ e = doc_role nc.
  Proof.
    intros Hc. rewrite (run_one lig cs n _ [] st Ht Hc). cbn [exec cmd_fun_of docs_command].
    eexists. split; [reflexivity|]. change (fun nc : str * @command St => Role (mkE (fst nc)) (mkE (cmd_doc (snd nc))) (mkE (lit "docString"))) with doc_role.
    assert (HI : forall e, In e (bs_collect entry_cmp (map doc_role cs)) <-> exists nc, In nc cs /\ e = doc_role nc).
    { intros e. rewrite (in_bs_collect entry_order), in_map_iff. split; intros (x & A & B); eauto. }
    pose proof (is_set_collect entry_order (map doc_role cs)) as HS.
    split; [exact HS|]. split; [|exact HI].
    rewrite <- (map_length doc_role cs). apply Permutation_length. apply NoDup_Permutation.
    - exact (is_set_NoDup entry_order _ HS).
    - apply (NoDup_map_inv (fun e => match e with Role f _ _ => el_name f | Extends f _ => el_name f | NotExtends f _ => el_name f end)).
      rewrite map_map. exact Ht.
    - intros e. apply (in_bs_collect entry_order).
  Qed.

  Lemma docs_args n d args st : In (el_name n, Command d FDocs) cs -> args <> [] ->
    exists e, run_calls lig cs [Call n args] st = (Err e, st).
  Proof.
    intros Hc Hl. rewrite (run_one lig cs n _ args st Ht Hc). cbn [exec cmd_fun_of]. unfold docs_command.
    destruct args; eauto. destruct (Hl eq_refl).
  Qed.

  (** C52 *)
  Lemma union_run n d l r st : In (el_name n, Command d FUnion) cs -> is_set entry_lt l ->
    exists u, run_calls lig cs [Call n [VNetwork l; VNetwork r]] st = (Ok (VNetwork u), st)
      /\ is_set entry_lt u /\ forall e, In e u <-> In e l \/ In e r.
  Proof.
    intros Hc Hl. rewrite (run_one lig cs n _ _ st Ht Hc). cbn [exec cmd_fun_of union_command].
    eexists. split; [reflexivity|]. split; [apply (is_set_append entry_order), Hl|]. intros e. apply (in_bs_append entry_order).
  Qed.

  Lemma union_args n d args st : In (el_name n, Command d FUnion) cs ->
    (List.length args <> 2 -> exists e, run_calls lig cs [Call n args] st = (Err e, st))
    /\ (List.length args = 2 -> (forall l r, args <> [VNetwork l; VNetwork r]) ->
        run_calls lig cs [Call n args] st = (Panic PTodo, st)).
  Proof.
    intros Hc. rewrite (run_one lig cs n _ args st Ht Hc). cbn [exec cmd_fun_of]. unfold union_command. split.
    - intros Hl. destruct args as [|a [|b [|c args]]]; eauto. destruct (Hl eq_refl).
    - intros Hl Hn. destruct args as [|a [|b [|c args]]]; try discriminate Hl.
      destruct a as [|?|l]; try reflexivity. destruct b as [|?|r]; try reflexivity. destruct (Hn l r eq_refl).
  Qed.
End Any.

(** C51: the order of the table does not matter, for any program. *)
Lemma same_docs {St} (cs cs' : @commands St) : Permutation cs cs' ->
  bs_collect entry_cmp (map (fun nc => Role (mkE (fst nc)) (mkE (cmd_doc (snd nc))) (mkE (lit "docString"))) cs)
  = bs_collect entry_cmp (map (fun nc => Role (mkE (fst nc)) (mkE (cmd_doc (snd nc))) (mkE (lit "docString"))) cs').
Proof.
  intros P. apply (is_set_ext entry_order); try apply (is_set_collect entry_order).
  intros e. rewrite !(in_bs_collect entry_order), !in_map_iff.
  split; intros (x & A & B); exists x; (split; [exact A|]); [exact (Permutation_in _ P B)|exact (Permutation_in _ (Permutation_sym P) B)].
Qed.

Lemma same_exec {St} (lig : lig_impl St) rq (cs cs' : @commands St) f args st : Permutation cs cs' -> simple f ->
  exec lig rq cs f args st = exec lig rq cs' f args st.
Proof.
  intros P Hs. destruct f; try destruct Hs; try reflexivity.
  cbn [exec]. unfold docs_command. rewrite (same_docs cs cs' P). reflexivity.
Qed.

Lemma table_order {St} (lig : lig_impl St) (cs cs' : @commands St) : Permutation cs cs' ->
    (forall v st r st', evals lig cs v st r st' -> evals lig cs' v st r st')
    /\ (forall q st r st', quotes lig cs q st r st' -> quotes lig cs' q st r st')
    /\ (forall n args st r st', does lig cs n args st r st' -> does lig cs' n args st r st')
    /\ (forall f args st r st', acts lig cs f args st r st' -> acts lig cs' f args st r st').
Proof.
  intros P. apply semantics_ind; try (intros; econstructor; eassumption).
  - intros n args st Hn. apply do_unknown. intros c Hc. apply (Hn c). exact (Permutation_in _ (Permutation_sym P) Hc).
  - intros n c args st r st' Hc _ IH. eapply do_known; [exact (Permutation_in _ P Hc)|exact IH].
  - intros f args st r st' Hs. apply ac_simple. pose proof (simply_simple _ _ _ _ _ _ _ Hs) as H1.
    pose proof (exec_simply lig cs' (fun _ s => (Panic PFuel, s)) f args st H1) as H2.
    rewrite <- (same_exec lig _ cs cs' f args st P H1), (simply_exec _ _ _ _ _ _ _ _ Hs) in H2. exact H2.
Qed.

Lemma run_calls_order {St} (lig : lig_impl St) (cs cs' : @commands St) calls st : is_table cs -> Permutation cs cs' ->
  run_calls lig cs calls st = run_calls lig cs' calls st.
Proof.
  intros Ht P. assert (Ht' : is_table cs') by (unfold is_table in *; eapply Permutation_NoDup; [apply Permutation_map, P|exact Ht]).
  destruct (run_calls lig cs calls st) as [r st'] eqn:E. symmetry. apply (runs_iff _ _ Ht'). apply (runs_iff _ _ Ht) in E.
  destruct (table_order lig cs cs' P) as (_ & _ & HD & _). induction E.
  - constructor.
  - apply ru_last. auto.
  - eapply ru_more; eauto.
  - apply ru_stop; auto.
Qed.

(** C53 *)
Lemma filter_run h c a b d :
  let G := graph_impl mem_impl in
  let s := after mem_impl mem_new h in
  let go := run_calls G common [Call (mkE (lit "filter")) [VElement c; VElement a; VElement b; VElement d]] s in
  ~ variable_name (el_name a) -> ~ variable_name (el_name b) -> ~ variable_name (el_name d) ->
  (has mem_impl s (el_name c) ->
   exists l k, run_calls G common [Call (mkE (lit "read")) [VElement c]] s = (Ok (VNetwork l), s)
               /\ go = (Ok (VNetwork k), s) /\ is_set entry_lt k
               /\ forall e, In e k <-> In e l /\ agrees (el_name a) (subject e) /\ agrees (el_name b) (role_name e) /\ agrees (el_name d) (object e))
  /\ (~ has mem_impl s (el_name c) -> exists w, go = (Panic w, s)).
Proof.
  intros G s go Ha Hb Hd. unfold go.
  rewrite (run_one G common (mkE (lit "filter")) (Command (lit "Filter a network.") FFilter));
    [|apply common_table|do 8 right; left; reflexivity].
  rewrite (run_one G common (mkE (lit "read")) (Command (lit "Read a network.") FRead));
    [|apply common_table|do 4 right; left; reflexivity].
  cbn [exec cmd_fun_of filter_command read_command].
  assert (Hv : no_variable_names (Role a d b)) by (split; [exact Ha|split; [exact Hd|exact Hb]]).
  destruct (graph_filter_ok h c (Role a d b) Hv) as [H1 H2]. split.
  - intros Hh. destruct (H1 Hh) as (l & k & El & Ek & Hs & Hk). exists l, k. fold G s in El, Ek. rewrite El, Ek.
    split; [reflexivity|]. split; [reflexivity|]. split; [exact Hs|]. exact Hk.
  - intros Hh. destruct (H2 Hh) as (w & Ew). fold G s in Ew. rewrite Ew. eauto.
Qed.

(** C54 *)
Lemma bad_script {St} (lig : lig_impl St) (cs : @commands St) script st :
  (forall ts calls, tokenize_and_filter script = Ok ts -> ~ g_script ts calls) ->
  snd (run lig cs script st) = st /\ failed (fst (run lig cs script st)).
Proof.
  intros H. unfold run. destruct (tokenize_and_filter script) as [ts|e|w] eqn:E.
  - destruct (parse ts) as [calls|e|w] eqn:Ep.
    + apply parse_ok in Ep. destruct (H ts calls eq_refl Ep).
    + split; [reflexivity|]. intros v; discriminate.
    + split; [reflexivity|]. intros v; discriminate.
  - split; [reflexivity|]. intros v; discriminate.
  - split; [reflexivity|]. intros v; discriminate.
Qed.

(** ** C44: the step bound is never hit *)
Definition never_fuel {St : Type} (lig : lig_impl St) (cs : @commands St) : Prop :=
  (forall st c, l_entries lig st c <> Panic PFuel)
  /\ (forall st c p, l_filter lig st c p <> Panic PFuel)
  /\ (forall st c, fst (l_add_collection lig st c) <> Panic PFuel)
  /\ (forall st c es, fst (fst (l_add_entries lig st c es)) <> Panic PFuel)
  /\ (forall n d f args st, In (n, Command d (FHost f)) cs -> fst (f args st) <> Panic PFuel).

Lemma stores_no_fuel {St} (lig : lig_impl St) (cs : @commands St) c n st r st' : never_fuel lig cs ->
  stores lig c n st r st' -> r <> Panic PFuel.
Proof.
  intros (_ & _ & HA & HE & _) [a st1 b st2 n' E1 N1 E2 N2|w st1 E1|a st1 w st2 n' E1 N1 E2].
  - discriminate.
  - specialize (HA st c). rewrite E1 in HA. intros X. injection X as ->. destruct (HA eq_refl).
  - specialize (HE st1 c n). rewrite E2 in HE. intros X. injection X as ->. destruct (HE eq_refl).
Qed.

Lemma no_fuel {St} (lig : lig_impl St) (cs : @commands St) : never_fuel lig cs ->
    (forall v st r st', evals lig cs v st r st' -> r <> Panic PFuel)
    /\ (forall q st r st', quotes lig cs q st r st' -> r <> Panic PFuel)
    /\ (forall n args st r st', does lig cs n args st r st' -> r <> Panic PFuel)
    /\ (forall f args st r st', acts lig cs f args st r st' -> (forall g, f = FHost g -> exists n d, In (n, Command d (FHost g)) cs) -> r <> Panic PFuel).
Proof.
  intros HN. pose proof HN as (HE & HF & _ & _ & HH).
  apply semantics_ind; try (intros; discriminate); try (intros; eauto; fail).
  - intros n c args st r st' Hc _ IH. apply IH. intros g Hg. exists (el_name n), (cmd_doc c). rewrite <- Hg. destruct c; exact Hc.
  - intros f args st r st' Hs Hg. destruct Hs; try discriminate.
    + specialize (HE st c). congruence.
    + specialize (HF st c (Role a d b)). congruence.
    + destruct (Hg f eq_refl) as (n & d & Hc). exact (HH n d f args st Hc).
  - intros c n st r st' H _. exact (stores_no_fuel lig cs c n st r st' HN H).
  - intros c q st n st1 r st' _ _ H _. exact (stores_no_fuel lig cs c n st1 r st' HN H).
Qed.

Lemma runs_no_fuel {St} (lig : lig_impl St) (cs : @commands St) calls st r st' : never_fuel lig cs ->
  runs lig cs calls st r st' -> r <> Panic PFuel.
Proof.
  intros HN. destruct (no_fuel lig cs HN) as (_ & _ & HD & _).
  induction 1; eauto. discriminate.
Qed.

Lemma script_no_fuel {St} (lig : lig_impl St) (cs : @commands St) script st : is_table cs -> never_fuel lig cs ->
  fst (run lig cs script st) <> Panic PFuel.
Proof.
  intros Ht HN. unfold run. destruct (tokenize_and_filter script) as [ts|e|w] eqn:E; [|discriminate|].
  - destruct (parse ts) as [calls|e|w] eqn:Ep; [|discriminate|].
    + destruct (run_calls lig cs calls st) as [r st'] eqn:Er. apply (runs_iff _ _ Ht) in Er.
      exact (runs_no_fuel lig cs calls st r st' HN Er).
    + pose proof (parse_no_fuel ts). cbn. congruence.
  - unfold tokenize_and_filter in E. pose proof (tokenize_no_panic script). destruct (tokenize script); try discriminate E.
    injection E as ->. destruct (H w eq_refl).
Qed.

Lemma mem_filter_loop_fuel p ts : forall acc, mem_filter_loop p ts acc <> Panic PFuel.
Proof.
  induction ts as [|t ts IH]; intros acc; cbn [mem_filter_loop]; [discriminate|].
  destruct (slot_check (q0 p) (t0 t)); try apply IH; try discriminate.
  destruct (slot_check (q1 p) (t1 t)); try apply IH; try discriminate.
  destruct (slot_check (q2 p) (t2 t)); try apply IH; discriminate.
Qed.

Lemma mem_never_fuel : never_fuel (graph_impl mem_impl) common.
Proof.
  split; [|split; [|split; [|split]]].
  - intros st c. cbn. unfold graph_entries. cbn. unfold mem_triples. destruct (bm_get str_cmp (el_name c) st); discriminate.
  - intros st c p. cbn. unfold graph_filter. cbn. unfold mem_filter. destruct (bm_get str_cmp (el_name c) st); [|discriminate].
    pose proof (mem_filter_loop_fuel (entry_to_query p) l []). destruct (mem_filter_loop _ l []); try discriminate. cbn. congruence.
  - intros st c. cbn. discriminate.
  - intros st c es. cbn. unfold graph_add_entries. cbn. unfold mem_add_triples. destruct (bm_get str_cmp (el_name c) st); discriminate.
  - intros n d f args st Hc. destruct (common_no_host _ _ Hc f eq_refl).
Qed.

(** ** C60: let and crashes on LMDB *)
Lemma let_crash h c n k :
  let G := graph_impl heed_impl in
  let s := hafter heed_new h in
  let s' := fst (snd (run_calls (graph_impl (dying heed_impl)) common [Call (mkE (lit "let")) [VElement c; VNetwork n]] (s, k))) in
  storable (el_name c) -> (total_weight (map fst h) + 1 + 3 * N.of_nat (List.length n) < 2 ^ 64)%N ->
  match k with
  | 0 => s' = s
  | 1 => merged G s c [] s'
  | _ => merged G s c n s'
  end.
Proof.
  intros G s s' Hc Hw. unfold s'. rewrite let_network. unfold let_store.
  destruct (heed_create h c Hc) as (E1 & Hh & (l0 & El0 & Hs0 & H0) & Ho1); [lia|]. fold s G in E1, Hh, El0, H0, Ho1.
  rewrite dying_add_collection. destruct k as [|k]; [reflexivity|]. rewrite add_collection_eq, E1. cbn [fst snd err_todo].
  rewrite dying_add_entries. destruct k as [|k].
  - cbn [fst snd]. split; [|exact Ho1]. exists l0. split; [exact El0|]. split; [exact Hs0|]. intros e'. rewrite H0.
    split; [auto|]. intros [X|(e & [] & _)]; exact X.
  - destruct (heed_let h c n Hc Hw) as (s2 & E & HM). fold s G in E, HM. unfold let_store in E. unfold G in E.
    rewrite add_collection_eq, E1 in E. cbn [fst snd err_todo] in E.
    destruct (l_add_entries (graph_impl heed_impl) (hafter heed_new (h ++ [(OAddColl (el_name c), true)])) c n) as [[[u|e|w] s3] n'];
      cbn in E |- *; first [discriminate E|assert (s3 = s2) as -> by congruence; exact HM].
Qed.

(** A let whose commits both fail, or only the second. *)
Lemma let_silent h c n b bs :
  let s := hafter heed_new h in
  has heed_impl s (el_name c) ->
  (total_weight (map fst h) + 3 * N.of_nat (List.length n) < 2 ^ 64)%N ->
  fst (run_calls (graph_impl (flaky heed_impl_c)) common [Call (mkE (lit "let")) [VElement c; VNetwork n]] (s, b :: false :: bs)) = Ok (VNetwork [])
  /\ fst (snd (run_calls (graph_impl (flaky heed_impl_c)) common [Call (mkE (lit "let")) [VElement c; VNetwork n]] (s, b :: false :: bs))) = s.
Proof.
  intros s Hh Hw. rewrite let_network. unfold let_store. cbn. unfold graph_add_collection. cbn.
  assert (E1 : heed_add_collection b s (el_name c) = (Ok tt, s)).
  { pose proof (heed_add_existing h (el_name c) b Hh) as X. fold s in X. cbn in X. exact X. }
  rewrite E1. cbn. unfold graph_add_entries. cbn. fold (trips_of n).
  assert (E3 : fst (hcall false s (OAdd (el_name c) (trips_of n))) = Ok tt).
  { pose proof (heed_answers h (OAdd (el_name c) (trips_of n)) false) as HA. cbv zeta in HA. fold s in HA.
    refine (proj1 (HA _) Hh). rewrite total_weight_app. cbn [total_weight fold_right weight]. fold (total_weight (map fst h)).
    pose proof (trips_of_length n). lia. }
  cbn in E3. unfold heed_add_triples in *.
  pose proof (run_tx_false s (heed_add_triples_tx s (el_name c) (trips_of n))) as E4.
  destruct (run_tx false s (heed_add_triples_tx s (el_name c) (trips_of n))) as [r d]. cbn in E3, E4. subst r d. cbn. auto.
Qed.

(** ** C47 *)
Definition call_let (c : element) (v : value) : call := Call (mkE (lit "let")) [VElement c; v].
Definition call_read (c : element) : call := Call (mkE (lit "read")) [VElement c].

Lemma in_common_let {St} : In (lit "let", Command (lit "Set a named network.") FLet) (@common St).
Proof. do 3 right. left. reflexivity. Qed.

Lemma read_run {St} (lig : lig_impl St) c st : run_calls lig common [call_read c] st =
  (match l_entries lig st c with Ok es => Ok (VNetwork es) | Err e => Err (WErr (lit "Error " ++ e)) | Panic w => Panic w end, st).
Proof.
  unfold call_read. rewrite (run_one lig common (mkE (lit "read")) (Command (lit "Read a network.") FRead));
    [|apply common_table|do 4 right; left; reflexivity].
  cbn [exec cmd_fun_of read_command]. destruct (l_entries lig st c); reflexivity.
Qed.

Lemma let_then_read {St} (lig : lig_impl St) c n st s' l :
  run_calls lig common [call_let c (VNetwork n)] st = (Ok (VNetwork []), s') -> l_entries lig s' c = Ok l ->
  run_calls lig common [call_let c (VNetwork n); call_read c] st = (Ok (VNetwork l), s').
Proof.
  intros E1 E2. change [call_let c (VNetwork n); call_read c] with ([call_let c (VNetwork n)] ++ [call_read c]).
  rewrite calls_app, E1, read_run, E2. reflexivity.
Qed.

Lemma mem_reach_calls h calls : exists h',
  snd (run_calls (graph_impl mem_impl) common calls (after mem_impl mem_new h)) = after mem_impl mem_new (h ++ h').
Proof.
  destruct (run_calls_via mem_impl calls (after mem_impl mem_new h)) as (h' & E & _). exists h'. rewrite after_app. exact E.
Qed.

Lemma mem_reach_quote h q : exists h',
  snd (run_quote (graph_impl mem_impl) common q (after mem_impl mem_new h)) = after mem_impl mem_new (h ++ h').
Proof.
  rewrite (run_quote_eq _ _ common_table). destruct q as [|[n|q|n] args]; try (exists []; rewrite app_nil_r; reflexivity).
  apply mem_reach_calls.
Qed.

Lemma mem_let_read h c n :
  let G := graph_impl mem_impl in
  let s := after mem_impl mem_new h in
  exists l s', run_calls G common [call_let c (VNetwork n)] s = (Ok (VNetwork []), s')
    /\ run_calls G common [call_let c (VNetwork n); call_read c] s = (Ok (VNetwork l), s')
    /\ is_set entry_lt l /\ (forall e', In e' l <-> exists e, In e n /\ normalises e e')
    /\ others_same G s s' c.
Proof.
  intros G s. destruct (mem_let h c n) as (s' & E & (l & El & Hs & Hi) & Ho). fold G s in E, El, Ho. exists l, s'.
  assert (E' : run_calls G common [call_let c (VNetwork n)] s = (Ok (VNetwork []), s')) by (etransitivity; [apply let_network|exact E]).
  split; [exact E'|]. split; [exact (let_then_read G c n s s' l E' El)|]. auto.
Qed.

Lemma mem_let_quote_read h c q n s1 :
  let G := graph_impl mem_impl in
  let s := after mem_impl mem_new h in
  run_quote G common q s = (Ok (VNetwork n), s1) ->
  exists l s', run_calls G common [call_let c (VQuote q)] s = (Ok (VNetwork []), s')
    /\ run_calls G common [call_let c (VQuote q); call_read c] s = (Ok (VNetwork l), s')
    /\ is_set entry_lt l /\ (forall e', In e' l <-> exists e, In e n /\ normalises e e')
    /\ others_same G s1 s' c.
Proof.
  intros G s Eq. destruct (mem_reach_quote h q) as (h' & Eh). fold G s in Eh. rewrite Eq in Eh. cbn [snd] in Eh. subst s1.
  destruct (mem_let_read (h ++ h') c n) as (l & s' & E1 & E2 & Hs & Hi & Ho). exists l, s'.
  assert (E : run_calls G common [call_let c (VQuote q)] s = (Ok (VNetwork []), s')).
  { unfold call_let. rewrite (let_quote G common common_table (mkE (lit "let")) _ c q s in_common_let), Eq. exact E1. }
  split; [exact E|]. split; [|auto].
  change [call_let c (VQuote q); call_read c] with ([call_let c (VQuote q)] ++ [call_read c]).
  change [call_let c (VNetwork n); call_read c] with ([call_let c (VNetwork n)] ++ [call_read c]) in E2.
  rewrite calls_app in E2 |- *. rewrite E. rewrite E1 in E2. exact E2.
Qed.
