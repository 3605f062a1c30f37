(** * Specification vocabulary: printed forms *)
From Coq Require Import List NArith Bool String.
From Verif Require Import M_Base M_Data M_Regex M_Lexer M_Parser S_Order S_Graph S_Lexer.
Import ListNotations.
Open Scope list_scope.

(** ** JSON string contents (RFC 8259, section 7) *)

(** The value of a hexadecimal digit, either case. *)
Inductive hex_value : N -> N -> Prop :=
| hv_digit n : (n < 10)%N -> hex_value (48 + n) n
| hv_lower n : (10 <= n < 16)%N -> hex_value (87 + n) n
| hv_upper n : (10 <= n < 16)%N -> hex_value (55 + n) n.

(** The two-character escapes: the letter after the backslash, what it means. *)
Definition short_escapes : list (N * N) :=
  [(34, 34); (92, 92); (47, 47); (98, 8); (102, 12); (110, 10); (114, 13); (116, 9)]%N.

(** [json_means b s]: [b], between quotes, is a JSON text of the string [s].
    (Surrogate pairs are left out.) *)
Inductive json_means : str -> str -> Prop :=
| jm_nil : json_means [] []
| jm_plain c b s : plain_char c -> json_means b s -> json_means (c :: b) (c :: s)
| jm_short l c b s : In (l, c) short_escapes -> json_means b s -> json_means (92%N :: l :: b) (c :: s)
| jm_unicode h1 h2 h3 h4 n1 n2 n3 n4 b s :
    hex_value h1 n1 -> hex_value h2 n2 -> hex_value h3 n3 -> hex_value h4 n4 -> json_means b s ->
    json_means (92%N :: 117%N :: h1 :: h2 :: h3 :: h4 :: b) ((4096 * n1 + 256 * n2 + 16 * n3 + n4)%N :: s).

(** [json_text s b]: [b] is the JSON text serde_json writes for [s]: only what
    must be escaped is, by a short escape if there is one, else by a \u escape
    in lower case. *)
Inductive json_text : str -> str -> Prop :=
| jt_nil : json_text [] []
| jt_plain c s b : plain_char c -> json_text s b -> json_text (c :: s) (c :: b)
| jt_short c l s b :
    In (c, l) [(34, 34); (92, 92); (8, 98); (12, 102); (10, 110); (13, 114); (9, 116)]%N ->
    json_text s b -> json_text (c :: s) (92%N :: l :: b)
| jt_control c h1 h2 s b :
    (c < 32)%N -> ~ In c [8; 9; 10; 12; 13]%N ->
    hex_value h1 (c / 16) -> hex_value h2 (c mod 16) -> ~ (65 <= h1 <= 70)%N -> ~ (65 <= h2 <= 70)%N ->
    json_text s b -> json_text (c :: s) (92%N :: 117%N :: 48%N :: 48%N :: h1 :: h2 :: b).

(** ** What a printed value reads back as *)

(** The same names JSON-escaped, in a normal entry. *)
Definition rereads_entry (e e' : entry) : Prop :=
  normal e' /\ json_text (subject e) (subject e') /\ json_text (role_name e) (role_name e')
  /\ json_text (object e) (object e').

Definition rereads_network (n n' : list entry) : Prop :=
  is_set entry_lt n' /\ forall e', In e' n' <-> exists e, In e n /\ rereads_entry e e'.

Inductive rereads_item : value -> value -> Prop :=
| ri_element e b : json_text (el_name e) b -> rereads_item (VElement e) (VElement (Elem b None None))
| ri_network n n' : rereads_network n n' -> rereads_item (VNetwork n) (VNetwork n').

(** Quotes of elements and networks; there is no case for a quote in a quote. *)
Inductive rereads : value -> value -> Prop :=
| rr_item v v' : rereads_item v v' -> rereads v v'
| rr_quote q q' : Forall2 rereads_item q q' -> rereads (VQuote q) (VQuote q').

(** A value without a quote inside a quote. *)
Definition no_nested_quote (v : value) : Prop :=
  match v with
  | VQuote q => Forall (fun x => forall y, x <> VQuote y) q
  | _ => True
  end.

(** ** Values that read back unchanged *)

Definition plain_element (e : element) : Prop := bare e /\ Forall plain_char (el_name e).

Definition plain_entry (e : entry) : Prop :=
  normal e /\ Forall plain_char (subject e) /\ Forall plain_char (role_name e) /\ Forall plain_char (object e).

Definition plain_item (v : value) : Prop :=
  match v with
  | VElement e => plain_element e
  | VNetwork n => is_set entry_lt n /\ Forall plain_entry n
  | VQuote _ => False
  end.

Definition plain_value (v : value) : Prop :=
  match v with VQuote q => Forall plain_item q | _ => plain_item v end.

(** ** The escapes of write_string *)

(** [five_escapes s b]: backslash, quote, newline, carriage return and tab are
    escaped, everything else stays. *)
Inductive five_escapes : str -> str -> Prop :=
| fe_nil : five_escapes [] []
| fe_escaped c l s b :
    In (c, l) [(92, 92); (34, 34); (10, 110); (13, 114); (9, 116)]%N ->
    five_escapes s b -> five_escapes (c :: s) (92%N :: l :: b)
| fe_other c s b : ~ In c [92; 34; 10; 13; 9]%N -> five_escapes s b -> five_escapes (c :: s) (c :: b).

(** ** Values that differ only in namespaces and language tags *)
Definition same_name (a b : element) : Prop := el_name a = el_name b.

Inductive same_names_entry : entry -> entry -> Prop :=
| sn_role f s r f' s' r' : same_name f f' -> same_name s s' -> same_name r r' ->
    same_names_entry (Role f s r) (Role f' s' r')
| sn_extends e c e' c' : same_name e e' -> same_name c c' -> same_names_entry (Extends e c) (Extends e' c')
| sn_not_extends e c e' c' : same_name e e' -> same_name c c' -> same_names_entry (NotExtends e c) (NotExtends e' c').

Inductive same_names : value -> value -> Prop :=
| sn_element a b : same_name a b -> same_names (VElement a) (VElement b)
| sn_network n m : Forall2 same_names_entry n m -> same_names (VNetwork n) (VNetwork m)
| sn_quote p q : Forall2 same_names p q -> same_names (VQuote p) (VQuote q).

(** No namespace and no language tag anywhere, at any depth. *)
Definition bare_entry (e : entry) : Prop :=
  match e with
  | Role f s r => bare f /\ bare s /\ bare r
  | Extends a c => bare a /\ bare c
  | NotExtends a c => bare a /\ bare c
  end.
Inductive bare_value : value -> Prop :=
| bv_element e : bare e -> bare_value (VElement e)
| bv_network n : Forall bare_entry n -> bare_value (VNetwork n)
| bv_quote q : Forall bare_value q -> bare_value (VQuote q).
