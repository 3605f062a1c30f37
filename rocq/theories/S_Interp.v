(** * Specification vocabulary: running Wander *)
From Coq Require Import List NArith Bool String.
From Verif Require Import M_Base M_Data M_Regex M_Lexer M_Graph M_Parser M_Display M_Interp S_Order S_Store S_Graph.
Import ListNotations.
Open Scope list_scope.

(** A command table: a finite map, no name twice. *)
Definition is_table {St : Type} (cs : @commands St) : Prop := NoDup (map fst cs).

(** The result is an error or a panic. *)
Definition failed {E A : Type} (r : res E A) : Prop := forall v, r <> Ok v.

(** ** What running means

    A relation between a program, the store before, the result and the store
    after.  It has no step bound: a derivation is a finite run. *)
Section Semantics.
  Context {St : Type} (lig : lig_impl St) (cs : @commands St).

  (** Storing a network under a name: create the collection, then add to it.
      What the two calls answer is ignored unless they panic. *)
  Inductive stores (c : element) (n : list entry) (st : St) : wres value -> St -> Prop :=
  | st_both a st1 b st2 n' :
      l_add_collection lig st c = (a, st1) -> (forall w, a <> Panic w) ->
      l_add_entries lig st1 c n = (b, st2, n') -> (forall w, b <> Panic w) ->
      stores c n st (Ok (VNetwork [])) st2
  | st_first w st1 :
      l_add_collection lig st c = (Panic w, st1) -> stores c n st (Panic w) st1
  | st_second a st1 w st2 n' :
      l_add_collection lig st c = (a, st1) -> (forall w, a <> Panic w) ->
      l_add_entries lig st1 c n = (Panic w, st2, n') -> stores c n st (Panic w) st2.

  (** The commands that evaluate no quote, one by one: what they answer and the
      store they leave. *)
  Inductive simply : @cmd_fun St -> list value -> St -> wres value -> St -> Prop :=
  | si_id v st : simply FId [v] st (Ok v) st
  | si_id_args args st :
      List.length args <> 1 -> simply FId args st (Err (WErr (lit "Id requires a single argument."))) st
  | si_ignore args st : simply FIgnore args st (Ok (VNetwork [])) st
  | si_docs n st :
      is_set entry_lt n ->
      (forall e, In e n <-> exists name c, In (name, c) cs
         /\ e = Role (Elem name None None) (Elem (cmd_doc c) None None) (Elem (lit "docString") None None)) ->
      simply FDocs [] st (Ok (VNetwork n)) st
  | si_docs_args v args st : simply FDocs (v :: args) st (Err (WErr (lit "docs takes no arguments."))) st
  | si_union l r st :    (* [bs_append] is BTreeSet::append of the standard library *)
      simply FUnion [VNetwork l; VNetwork r] st (Ok (VNetwork (bs_append entry_cmp l r))) st
  | si_union_other a b st :
      (forall l r, [a; b] <> [VNetwork l; VNetwork r]) -> simply FUnion [a; b] st (Panic PTodo) st
  | si_union_args args st :
      List.length args <> 2 -> simply FUnion args st (Err (WErr (lit "union takes two arguments."))) st
  | si_read c l st : l_entries lig st c = Ok l -> simply FRead [VElement c] st (Ok (VNetwork l)) st
  | si_read_err c e st :
      l_entries lig st c = Err e -> simply FRead [VElement c] st (Err (WErr (lit "Error " ++ e))) st
  | si_read_panic c w st : l_entries lig st c = Panic w -> simply FRead [VElement c] st (Panic w) st
  | si_read_args args st : (forall c, args <> [VElement c]) -> simply FRead args st (Panic PTodo) st
  | si_filter c a b d l st :
      l_filter lig st c (Role a d b) = Ok l ->
      simply FFilter [VElement c; VElement a; VElement b; VElement d] st (Ok (VNetwork l)) st
  | si_filter_err c a b d e st :
      l_filter lig st c (Role a d b) = Err e ->
      simply FFilter [VElement c; VElement a; VElement b; VElement d] st (Panic PTodo) st
  | si_filter_panic c a b d w st :
      l_filter lig st c (Role a d b) = Panic w ->
      simply FFilter [VElement c; VElement a; VElement b; VElement d] st (Panic w) st
  | si_filter_args args st :
      (forall c a b d, args <> [VElement c; VElement a; VElement b; VElement d]) ->
      simply FFilter args st (Panic PTodo) st
  | si_host f args st : simply (FHost f) args st (fst (f args st)) (snd (f args st)).

  (** [evals v]: quotes are run, every other value is itself.  [quotes q]: a
      quote is a call written as a list.  [does n args]: one call.  [acts f args]:
      the function behind it. *)
  Inductive evals : value -> St -> wres value -> St -> Prop :=
  | ev_element e st : evals (VElement e) st (Ok (VElement e)) st
  | ev_network n st : evals (VNetwork n) st (Ok (VNetwork n)) st
  | ev_quote q st r st' : quotes q st r st' -> evals (VQuote q) st r st'
  with quotes : list value -> St -> wres value -> St -> Prop :=
  | qu_empty st : quotes [] st (Ok (VNetwork [])) st
  | qu_call n args st r st' : does n args st r st' -> quotes (VElement n :: args) st r st'
  | qu_other v args st : (forall n, v <> VElement n) -> quotes (v :: args) st (Panic PTodo) st
  with does : element -> list value -> St -> wres value -> St -> Prop :=
  | do_unknown n args st :
      (forall c, ~ In (el_name n, c) cs) ->
      does n args st (Err (WErr (lit "Could not find command: " ++ el_name n))) st
  | do_known n c args st r st' :
      In (el_name n, c) cs -> acts (cmd_fun_of c) args st r st' -> does n args st r st'
  with acts : @cmd_fun St -> list value -> St -> wres value -> St -> Prop :=
  | ac_simple f args st r st' : simply f args st r st' -> acts f args st r st'
  | ac_eq_args args st :
      List.length args <> 2 ->
      acts FAssertEqual args st (Err (WErr (lit "`assertEq` function requires two parameters."))) st
  | ac_eq_left l r st a st1 :
      evals l st a st1 -> failed a -> acts FAssertEqual [l; r] st a st1
  | ac_eq_right l r st a st1 b st2 :
      evals l st (Ok a) st1 -> evals r st1 b st2 -> failed b -> acts FAssertEqual [l; r] st b st2
  | ac_eq_same l r st a st1 st2 :
      evals l st (Ok a) st1 -> evals r st1 (Ok a) st2 ->
      acts FAssertEqual [l; r] st (Ok (VNetwork [])) st2
  | ac_eq_differ l r st a st1 b st2 :
      evals l st (Ok a) st1 -> evals r st1 (Ok b) st2 -> a <> b ->
      acts FAssertEqual [l; r] st (Err (WErr (lit "Assertion failed, " ++ display a ++ lit " != " ++ display b))) st2
  | ac_fail_args args st :
      (forall q, args <> [VQuote q]) ->
      acts FAssertFail args st (Err (WErr (lit "`assert-fail` function expected to be passed a Quote."))) st
  | ac_fail_ok q st v st1 :
      quotes q st (Ok v) st1 -> acts FAssertFail [VQuote q] st (Err (WErr (lit "Expected failure."))) st1
  | ac_fail_err q st e st1 :
      quotes q st (Err e) st1 -> acts FAssertFail [VQuote q] st (Ok (VNetwork [])) st1
  | ac_fail_panic q st w st1 :
      quotes q st (Panic w) st1 -> acts FAssertFail [VQuote q] st (Panic w) st1
  | ac_let_network c n st r st' :
      stores c n st r st' -> acts FLet [VElement c; VNetwork n] st r st'
  | ac_let_quote c q st n st1 r st' :
      quotes q st (Ok (VNetwork n)) st1 -> stores c n st1 r st' ->
      acts FLet [VElement c; VQuote q] st r st'
  | ac_let_panic c q st w st1 :
      quotes q st (Panic w) st1 -> acts FLet [VElement c; VQuote q] st (Panic w) st1
  | ac_let_other c q st a st1 :
      quotes q st a st1 -> (forall n, a <> Ok (VNetwork n)) -> (forall w, a <> Panic w) ->
      acts FLet [VElement c; VQuote q] st (Panic PTodo) st1
  | ac_let_args args st :
      (forall c n, args <> [VElement c; VNetwork n]) -> (forall c q, args <> [VElement c; VQuote q]) ->
      acts FLet args st (Err (WErr (lit "Invalid call to let."))) st.

  (** Calls in sequence: the first failure ends the run; the result is the last
      call's. *)
  Inductive runs : list call -> St -> wres value -> St -> Prop :=
  | ru_none st : runs [] st (Ok (VNetwork [])) st
  | ru_last c st r st' : does (c_name c) (c_args c) st r st' -> runs [c] st r st'
  | ru_more c rest st v st1 r st' :
      does (c_name c) (c_args c) st (Ok v) st1 -> rest <> [] -> runs rest st1 r st' ->
      runs (c :: rest) st r st'
  | ru_stop c rest st r st' :
      does (c_name c) (c_args c) st r st' -> failed r -> runs (c :: rest) st r st'.
End Semantics.

(** ** Which collections a program may write to

    The targets of [let], also inside quotes. *)
Inductive may_write : element -> list value -> str -> Prop :=
| mw_let n c v : el_name n = lit "let" -> may_write n [VElement c; v] (el_name c)
| mw_nested n args n' args' x :
    In (VQuote (VElement n' :: args')) args -> may_write n' args' x -> may_write n args x.

Definition calls_may_write (calls : list call) (x : str) : Prop :=
  exists c, In c calls /\ may_write (c_name c) (c_args c) x.

(** A store call that creates or enlarges the collection [x]. *)
Definition extends (x : str) (o : op) : Prop := o = OAddColl x \/ exists ts, o = OAdd x ts.

(** The collection a store call is about. *)
Definition target (o : op) : str :=
  match o with OAddColl c | ORemColl c | OAdd c _ | ORem c _ => c end.

(** ** Stores that die, and stores whose commits fail *)

(** A store whose process dies after a number of writing calls: from then on
    nothing is written and every call panics.  (A single call is a transaction,
    C17, so there are no states in between.) *)
Definition dying {S : Type} (I : trips_impl S) : trips_impl (S * nat) :=
  TripsImpl
    (fun s => t_collections I (fst s))
    (fun s c => match snd s with
                | O => (Panic PUnwrap, s)
                | Datatypes.S k => let (r, x) := t_add_collection I (fst s) c in (r, (x, k))
                end)
    (fun s c => match snd s with
                | O => (Panic PUnwrap, s)
                | Datatypes.S k => let (r, x) := t_remove_collection I (fst s) c in (r, (x, k))
                end)
    (fun s c => t_triples I (fst s) c)
    (fun s c ts => match snd s with
                   | O => (Panic PUnwrap, s, ts)
                   | Datatypes.S k => let '(r, x, ts') := t_add_triples I (fst s) c ts in (r, (x, k), ts')
                   end)
    (fun s c ts => match snd s with
                   | O => (Panic PUnwrap, s, ts)
                   | Datatypes.S k => let '(r, x, ts') := t_remove_triples I (fst s) c ts in (r, (x, k), ts')
                   end)
    (fun s c p => t_filter I (fst s) c p).

(** A store with a schedule of commit outcomes, one for each writing call; when
    the schedule is used up commits succeed. *)
Definition flaky {S : Type} (I : bool -> trips_impl S) : trips_impl (S * list bool) :=
  TripsImpl
    (fun s => t_collections (I true) (fst s))
    (fun s c => let (r, x) := t_add_collection (I (hd true (snd s))) (fst s) c in (r, (x, tl (snd s))))
    (fun s c => let (r, x) := t_remove_collection (I (hd true (snd s))) (fst s) c in (r, (x, tl (snd s))))
    (fun s c => t_triples (I true) (fst s) c)
    (fun s c ts => let '(r, x, ts') := t_add_triples (I (hd true (snd s))) (fst s) c ts in (r, (x, tl (snd s)), ts'))
    (fun s c ts => let '(r, x, ts') := t_remove_triples (I (hd true (snd s))) (fst s) c ts in (r, (x, tl (snd s)), ts'))
    (fun s c p => t_filter (I true) (fst s) c p).

(** ** What [let] can do to a collection *)
Section Effects.
  Context {S : Type} (G : lig_impl S).

  (** Afterwards [c] holds the normal forms of [n] and nothing else. *)
  Definition replaced (s : S) (c : element) (n : list entry) (s' : S) : Prop :=
    (exists l', l_entries G s' c = Ok l' /\ is_set entry_lt l'
                /\ forall e', In e' l' <-> exists e, In e n /\ normalises e e')
    /\ others_same G s s' c.

  (** Afterwards [c] holds the normal forms of [n] and what it held before. *)
  Definition merged (s : S) (c : element) (n : list entry) (s' : S) : Prop :=
    (exists l', l_entries G s' c = Ok l' /\ is_set entry_lt l'
                /\ forall e', In e' l' <-> (exists l, l_entries G s c = Ok l /\ In e' l)
                                           \/ exists e, In e n /\ normalises e e')
    /\ others_same G s s' c.
End Effects.
