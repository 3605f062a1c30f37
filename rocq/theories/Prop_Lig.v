(** * Properties of the lexer of the lig crate (lig/src/lexer.rs, lig/src/read.rs) *)
From Coq Require Import List Arith NArith Bool String Lia.
From Verif Require Import M_Base M_Data M_Regex M_Lexer M_Lig S_Str S_Lexer S_Lig P_Lig.
Import ListNotations.
Open Scope list_scope.

(** ** C66.  What lig's tokenize answers *)

(** It answers exactly the longest-match reading, each token with its byte
    offset. *)
Theorem C66_ok : forall s ts,
  lig_tokenize s = Ok ts <-> exists ps, lig_reads s ps [] /\ ts = located [] ps.
Proof. exact lig_ok. Qed.
Print Assumptions C66_ok.

(** It fails exactly when reading gets stuck where nothing matches. *)
Theorem C66_err : forall s e,
  lig_tokenize s = Err e <->
  e = lit "Error tokenizing input."
  /\ exists ps rest, lig_reads s ps rest /\ rest <> [] /\ forall o x after, rest = x ++ after -> ~ lig_lexeme o x.
Proof. exact lig_err. Qed.
Print Assumptions C66_err.

(** It panics exactly when reading arrives at a name. *)
Theorem C66_panic : forall s w,
  lig_tokenize s = Panic w <-> w = PTodo /\ exists ps rest, lig_reads s ps rest /\ exists x after, lig_next rest None x after.
Proof. exact lig_panic. Qed.
Print Assumptions C66_panic.

(** So every text with a name where a token can start panics: in particular every
    text that begins, after white space and other tokens, with a letter or an
    underscore. *)
Theorem C66_names_panic : forall s ps c rest, lig_reads s ps (c :: rest) -> name_start c -> lig_tokenize s = Panic PTodo.
Proof.
  intros s ps c rest R H. apply lig_panic. split; [reflexivity|]. exists ps, (c :: rest). split; [exact R|].
  apply at_name_start, H.
Qed.
Print Assumptions C66_names_panic.

(** The tokenizer of read.rs answers the same without positions. *)
Theorem C66_without_positions : forall s,
  lig_read_tokenize s = match lig_tokenize s with Ok ts => Ok (map fst ts) | Err e => Err e | Panic w => Panic w end.
Proof. exact (fun s => lig_read_loop (List.length s) 0 s). Qed.
Print Assumptions C66_without_positions.

Definition lg1 : str := lit "{[ " ++ [34; 0xE9; 0x1F600; 34]%N ++ lit " ]} --x".
Example C66_case :
  lig_tokenize lg1 = Ok [(LOpenBrace, 0); (LOpenSquare, 1); (LWS (lit " "), 2); (LString [0xE9; 0x1F600], 3);
                         (LWS (lit " "), 11); (LCloseSquare, 12); (LCloseBrace, 13); (LWS (lit " "), 14); (LComment (lit "--x"), 15)]%N
  /\ lig_tokenize (lit "{a}") = Panic PTodo /\ lig_tokenize (lit "{,a}") = Err (lit "Error tokenizing input.")
  /\ lig_reads (lit "{a}") [(LOpenBrace, lit "{")] (lit "a}").
Proof.
  split; [vm_compute; reflexivity|]. split; [vm_compute; reflexivity|]. split; [vm_compute; reflexivity|].
  assert (E : lig_tokenize (lit "{") = Ok [(LOpenBrace, 0%N)]) by (vm_compute; reflexivity).
  econstructor; [|constructor]. pose proof (lig_step_sound (lit "{a}")) as K. vm_compute in K. exact K.
Qed.

(** ** C67.  Locations point into the text *)

(** The offset of a token is the number of UTF-8 bytes before it, the next token
    starts where this one ends, the first at 0, and the last ends the text. *)
Theorem C67_locations : forall s ts, lig_tokenize s = Ok ts -> forall i t off, nth_error ts i = Some (t, off) ->
  exists before x after, s = before ++ x ++ after /\ lig_lexeme (Some t) x /\ off = N.of_nat (List.length (utf8 before))
    /\ (forall t' off', nth_error ts (S i) = Some (t', off') -> off' = N.of_nat (List.length (utf8 (before ++ x))))
    /\ (S i = List.length ts -> after = []) /\ (i = 0 -> before = []).
Proof. exact lig_positions. Qed.
Print Assumptions C67_locations.

(** Nothing of the text is lost: the tokens' texts make it up. *)
Theorem C67_tokens_are_the_text : forall s ts, lig_tokenize s = Ok ts ->
  exists texts, List.length texts = List.length ts /\ List.concat texts = s
    /\ forall i t off x, nth_error ts i = Some (t, off) -> nth_error texts i = Some x -> lig_lexeme (Some t) x.
Proof. exact lig_text. Qed.
Print Assumptions C67_tokens_are_the_text.

(** Filtering drops white space and comments, keeps the order and the locations
    of the rest, and fails or panics exactly when tokenizing does. *)
Theorem C67_filtered : forall s ts, lig_tokenize s = Ok ts ->
  exists kept, lig_tokenize_and_filter s = Ok kept /\ lig_keeps ts kept /\ (forall kept', lig_keeps ts kept' -> kept' = kept).
Proof. exact lig_filter. Qed.
Print Assumptions C67_filtered.

Theorem C67_filter_fails_alike : forall s,
  (forall e, lig_tokenize_and_filter s = Err e <-> lig_tokenize s = Err e)
  /\ (forall w, lig_tokenize_and_filter s = Panic w <-> lig_tokenize s = Panic w).
Proof. exact lig_filter_fails. Qed.
Print Assumptions C67_filter_fails_alike.

(** Two bytes and four bytes per character in front of the closing brackets. *)
Example C67_case :
  lig_tokenize_and_filter lg1 = Ok [(LOpenBrace, 0); (LOpenSquare, 1); (LString [0xE9; 0x1F600], 3); (LCloseSquare, 12); (LCloseBrace, 13)]%N
  /\ N.of_nat (List.length (utf8 (lit "{[ " ++ [34; 0xE9; 0x1F600; 34]%N))) = 11%N.
Proof. split; vm_compute; reflexivity. Qed.
