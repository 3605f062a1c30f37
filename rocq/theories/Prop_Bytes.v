(** * The server speaks UTF-8 *)
From Coq Require Import List Arith NArith Bool String Lia.
From Verif Require Import M_Base M_Data M_Mem M_Heed M_Duck M_Regex M_Lexer M_Graph M_Parser M_Display M_Interp M_Hosts M_Bytes
  S_Order S_Str S_Store S_Graph S_Lexer S_Parser S_Display S_GraphHist S_Names P_Display P_Names P_Bytes P_Texts Prop_Display Prop_Names.
Import ListNotations.
Open Scope list_scope.

(** C95.  The bytes of a message are read as a text exactly if they are its
    encoding (so no two texts share an encoding, and every text is readable). *)
Theorem C95_decode : forall bytes text, from_utf8 bytes = Some text <-> valid_str text /\ utf8 text = bytes.
Proof. exact from_utf8_iff. Qed.
Print Assumptions C95_decode.

(** Texts sent by clients: the server does with the bytes what C56 says of the
    texts, and sends the encodings of the replies. *)
Theorem C95_texts : forall show texts st replies st' up, Forall valid_str texts ->
  serve texts st = (replies, st', up) ->
  serve_bytes show (map utf8 texts) st = (map (fun r => utf8 (reply_text show r)) replies, st', up).
Proof. intros show texts st rs st' up V E. rewrite serve_bytes_text by exact V. rewrite E. reflexivity. Qed.
Print Assumptions C95_texts.

(** A message that encodes no text ends the server: neither it nor any later
    message is answered, and the store is as the messages before it left it. *)
Theorem C95_not_text : forall show before bad later st replies st',
  (forall text, valid_str text -> utf8 text <> bad) ->
  serve_bytes show before st = (replies, st', true) ->
  serve_bytes show (before ++ bad :: later) st = (replies, st', false).
Proof.
  intros show before bad later st rs st' Hb E. rewrite (serve_bytes_app show before (bad :: later) st rs st' E).
  cbn [serve_bytes]. destruct (from_utf8 bad) as [t|] eqn:Eb.
  - apply from_utf8_iff in Eb as [V U]. destruct (Hb t V U).
  - rewrite app_nil_r. reflexivity.
Qed.
Print Assumptions C95_not_text.

(** What scripts made of texts answer are texts: on each store, the client can
    decode the printed answer. *)
Theorem C95_answers : forall S (I : trips_impl S) s0 scripts v, shipped I s0 -> Forall valid_str scripts ->
  In (Ok v) (fst (session (graph_impl I) scripts s0)) ->
  from_utf8 (utf8 (display v)) = Some (display v).
Proof.
  intros S I s0 scripts v HS V Hv. apply from_utf8_complete, display_valid. intros n Hn.
  destruct (session (graph_impl I) scripts s0) as [rs s'] eqn:E.
  destruct (C91_session S I s0 scripts rs s' HS E) as (H1 & _). destruct (H1 v n Hv Hn) as [D|(x & Hx & Hs)].
  - apply documented_valid, D.
  - rewrite Forall_forall in V. exact (said_valid x n (V x Hx) Hs).
Qed.
Print Assumptions C95_answers.

(** An accented name comes back; a lone continuation byte, an overlong form and a
    surrogate are not text. *)
Example C95_case :
  let show := fun e : werr => match e with WErr m => m | WParse _ => [] end in
  let text := (lit "let n {" ++ [233; 0x20AC; 0x1F600] ++ lit " b c}")%N in
  let '(rs, _, up) := serve_bytes show [utf8 (lit "let n {""h""  b c}"); utf8 (lit "read n"); utf8 (lit "read m"); [0xC3]%N; utf8 (lit "read n")] mem_new in
  rs = [utf8 (lit "{}"); utf8 (lit "{""h"" ""b"" ""c""}"); utf8 (lit "Error Collection `m` not found.")] /\ up = false
  /\ valid_str text /\ List.length (utf8 text) = 21 /\ from_utf8 (utf8 text) = Some text
  /\ from_utf8 [0x80]%N = None /\ from_utf8 [0xC0; 0x80]%N = None /\ from_utf8 [0xED; 0xA0; 0x80]%N = None
  /\ from_utf8 [0xF4; 0x90; 0x80; 0x80]%N = None /\ from_utf8 [0xE0; 0x9F; 0xBF]%N = None.
Proof.
  cbn zeta. match goal with |- context [serve_bytes ?a ?b ?c] => let x := eval vm_compute in (serve_bytes a b c) in replace (serve_bytes a b c) with x by (vm_compute; reflexivity) end.
  repeat match goal with |- _ /\ _ => split end; try (vm_compute; reflexivity).
  apply valid_app; [apply lit_valid|]. apply valid_app; [|apply lit_valid].
  constructor; [left; reflexivity|]. constructor; [left; reflexivity|]. constructor; [right; split; [discriminate|reflexivity]|constructor].
Qed.
