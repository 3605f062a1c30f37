(** * Properties of printing (Display of Element and WanderValue, write_string) *)
From Coq Require Import List Arith NArith Bool String Lia Sorted.
From Verif Require Import M_Base M_Data M_Regex M_Lexer M_Graph M_Parser M_Display M_Interp
  S_Order S_Graph S_Lexer S_Parser S_Display P_Ord P_Agree P_Lexer P_LexMore P_Parser P_Display P_Reread.
Import ListNotations.
Open Scope list_scope.

(** C40.  A printed element is one string token, and what is between its quotes
    is the JSON text of the name; decoding JSON gives the name back. *)
Theorem C40_printed_element : forall e, exists b,
  tokenize (display_element e) = Ok [TString b] /\ json_text (el_name e) b /\ json_means b (el_name e)
  /\ (forall s, json_means b s -> s = el_name e).
Proof. exact printed_element. Qed.
Print Assumptions C40_printed_element.

(** Facts about the specification: every string has exactly one serde_json text,
    and different strings have different ones. *)
Theorem C40_json_text_bijective : forall s,
  (exists b, json_text s b /\ forall b', json_text s b' -> b' = b)
  /\ (forall s' b, json_text s b -> json_text s' b -> s = s').
Proof. exact json_text_bijective. Qed.
Print Assumptions C40_json_text_bijective.

Example C40_case : json_text [97; 34; 10; 1; 233]%N [97; 92; 34; 92; 110; 92; 117; 48; 48; 48; 49; 233]%N.
Proof. apply json_text_iff. vm_compute. reflexivity. Qed.

(** C41.  A plain value printed and read back is the same value, on any store. *)
Theorem C41_plain_values_read_back : forall (St : Type) (lig : lig_impl St) st v, plain_value v ->
  (exists ts, tokenize_and_filter (display v) = Ok ts /\ g_values ts [v])
  /\ run lig (common (St := St)) (lit "id " ++ display v) st = (Ok v, st).
Proof.
  exact (fun St lig st v H => conj (printed_value v v (plain_value_rereads v H))
    (printed_run St lig st v v (plain_value_rereads v H))).
Qed.
Print Assumptions C41_plain_values_read_back.

Definition dx : value :=
  VQuote [VElement (mkE (lit "two words"));
          VNetwork [Role (mkE (lit "a")) (mkE (lit "b")) (mkE (lit "r")); Extends (mkE (lit "a")) (mkE (lit "C"));
                    NotExtends (mkE (lit "a")) (mkE (lit "D"))]].
Example C41_case : plain_value dx.
Proof.
  assert (P : forall s, forallb (fun c => N.leb 32 c && negb (N.eqb c 34) && negb (N.eqb c 92)) s = true -> Forall plain_char s).
  { intros s H. apply Forall_forall. intros c Hc. rewrite forallb_forall in H. specialize (H c Hc).
    apply andb_true_iff in H. destruct H as [H H3]. apply andb_true_iff in H. destruct H as [H1 H2].
    apply N.leb_le in H1. apply negb_true_iff, N.eqb_neq in H2. apply negb_true_iff, N.eqb_neq in H3. split; auto. }
  repeat constructor; simpl; try (apply P; reflexivity); try discriminate.
Qed.

(** C42.  Any value without a quote inside a quote reads back as exactly the
    value with its names JSON-escaped, namespaces and language tags dropped and
    reserved roles turned into Extends and NotExtends. *)
Theorem C42_reads_back_normalised : forall (St : Type) (lig : lig_impl St) st v, no_nested_quote v ->
  exists v', rereads v v' /\ (forall v'', rereads v v'' -> v'' = v')
    /\ (exists ts, tokenize_and_filter (display v) = Ok ts /\ g_values ts [v'])
    /\ run lig (common (St := St)) (lit "id " ++ display v) st = (Ok v', st).
Proof. exact reads_back_normalised. Qed.
Print Assumptions C42_reads_back_normalised.

(** It is not the identity: a quote in a name comes back with its backslash. *)
Theorem C42_not_the_identity : forall (St : Type) (lig : lig_impl St) st,
  exists v v', no_nested_quote v /\ rereads v v' /\ v' <> v
    /\ run lig (common (St := St)) (lit "id " ++ display v) st = (Ok v', st).
Proof.
  intros St lig st. exists (VElement (mkE [34%N])), (VElement (mkE [92%N; 34%N])).
  assert (R : rereads (VElement (mkE [34%N])) (VElement (mkE [92%N; 34%N]))).
  { constructor. apply (ri_element (mkE [34%N])). apply json_text_iff. reflexivity. }
  split; [exact Logic.I|]. split; [exact R|]. split; [discriminate|]. apply printed_run, R.
Qed.
Print Assumptions C42_not_the_identity.

(** A quote in a quote does not read back at all: the parser panics. *)
Theorem C42_nested_quotes_do_not_read_back : forall (St : Type) (lig : lig_impl St) cs st q,
  Exists (fun x => exists y, x = VQuote y) q ->
  run lig cs (lit "id " ++ display (VQuote q)) st = (Panic PTodo, st).
Proof. exact printed_nested. Qed.
Print Assumptions C42_nested_quotes_do_not_read_back.

Example C42_case : no_nested_quote (VNetwork [Role (Elem (lit "a") (Some (lit "ns")) None) (mkE (lit "b")) (mkE (lit ":"))])
  /\ Exists (fun x => exists y, x = VQuote y) [VElement (mkE (lit "a")); VQuote []].
Proof. split; [exact Logic.I|]. apply Exists_cons_tl, Exists_cons_hd. eauto. Qed.

(** C43.  write_string escapes exactly five characters; different strings are
    written differently; the output is one string token exactly if no other
    control character occurs, and then it is a JSON text of the string. *)
Theorem C43_write_string : forall s, exists b,
  write_string s = [34%N] ++ b ++ [34%N] /\ five_escapes s b
  /\ (forall s', write_string s' = write_string s -> s' = s)
  /\ (forall s', five_escapes s' b -> s' = s)
  /\ (tokenize (write_string s) = Ok [TString b] <-> Forall (fun c => (32 <= c \/ c = 9 \/ c = 10 \/ c = 13)%N) s)
  /\ (Forall (fun c => (32 <= c \/ c = 9 \/ c = 10 \/ c = 13)%N) s -> json_means b s).
Proof. exact write_string_all. Qed.
Print Assumptions C43_write_string.

Example C43_case : write_string [97; 92; 34; 9; 233]%N = [34; 97; 92; 92; 92; 34; 92; 116; 233; 34]%N
  /\ ~ Forall (fun c => (32 <= c \/ c = 9 \/ c = 10 \/ c = 13)%N) [0%N].
Proof. split; [reflexivity|]. intros H. inversion H; subst. lia. Qed.

(** C62.  Networks with the same entries print the same; networks that print the
    same have the same names in the same roles; plain ones are equal. *)
Theorem C62_canonical : forall n m, is_set entry_lt n -> is_set entry_lt m ->
  (same_members n m -> display (VNetwork n) = display (VNetwork m))
  /\ (display (VNetwork n) = display (VNetwork m) ->
      forall e, In e n -> exists e', In e' m /\ subject e' = subject e /\ role_name e' = role_name e /\ object e' = object e)
  /\ (Forall plain_entry n -> Forall plain_entry m -> display (VNetwork n) = display (VNetwork m) -> n = m).
Proof. exact canonical. Qed.
Print Assumptions C62_canonical.

(** Plain values of any kind. *)
Theorem C62_plain_values : forall v w, plain_value v -> plain_value w -> display v = display w -> v = w.
Proof. exact display_inj_plain. Qed.
Print Assumptions C62_plain_values.

Example C62_case :
  is_set entry_lt [Role (mkE (lit "a")) (mkE (lit "b")) (mkE (lit "r")); Extends (mkE (lit "a")) (mkE (lit "C"))].
Proof. repeat constructor. Qed.
