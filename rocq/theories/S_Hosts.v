(** * Specification vocabulary: the host applications *)
From Coq Require Import List NArith Bool String.
From Verif Require Import M_Base M_Data M_Mem M_Graph M_Regex M_Lexer M_Parser M_Display M_Interp M_Hosts S_Order S_Graph S_Display.
Import ListNotations.
Open Scope list_scope.

(** ** Graphs *)

(** Edges in the order of key, source, target. *)
Definition edge_lt (a b : edge) : Prop :=
  str_lt (e_key a) (e_key b)
  \/ (e_key a = e_key b
      /\ (str_lt (e_source a) (e_source b) \/ (e_source a = e_source b /\ str_lt (e_target a) (e_target b)))).

(** The edge an entry draws. *)
Definition draws (e : entry) (d : edge) : Prop :=
  e_key d = role_name e /\ e_source d = subject e /\ e_target d = object e.

(** [g] is the graph of the network [es]: its edges are those of the entries, its
    nodes the ends of its edges. *)
Definition graph_of (es : list entry) (g : graphology) : Prop :=
  is_set edge_lt (g_edges g) /\ is_set str_lt (g_nodes g)
  /\ (forall d, In d (g_edges g) <-> exists e, In e es /\ draws e d)
  /\ (forall v, In v (g_nodes g) <-> exists d, In d (g_edges g) /\ (v = e_source d \/ v = e_target d)).

(** ** Scripts one after the other, on one store *)
Definition store_after (scripts : list str) (s : gstate) : gstate :=
  fold_left (fun s script => snd (grun script s)) scripts s.

(** What a client is sent for a result; nothing for a panic. *)
Definition answers (r : wres value) (a : reply) : Prop :=
  match r with
  | Ok v => a = ReplyValue (display v)
  | Err e => a = ReplyError e
  | Panic _ => False
  end.

(** ** Text *)

(** The White_Space property of Unicode. *)
Definition white (c : N) : Prop :=
  ((9 <= c /\ c <= 13) \/ c = 32 \/ c = 133 \/ c = 160 \/ c = 5760 \/ (8192 <= c /\ c <= 8202)
   \/ c = 8232 \/ c = 8233 \/ c = 8239 \/ c = 8287 \/ c = 12288)%N.

(** [w] is the first word of [s]. *)
Definition is_first_word (w s : str) : Prop :=
  exists before after, s = before ++ w ++ after
    /\ Forall white before /\ w <> [] /\ Forall (fun c => ~ white c) w
    /\ match after with [] => True | c :: _ => white c end.

(** The first character that is not white space. *)
Definition first_char (c : N) (s : str) : Prop :=
  exists before after, s = before ++ c :: after /\ Forall white before /\ ~ white c.

(** ** REPL sessions *)

(** A line that is a script: its first character is not a colon. *)
Definition script_line (line : str) : Prop := ~ first_char 58 line.

(** Inputs that end the session. *)
Definition ends_session (i : repl_input) : Prop :=
  match i with
  | InLine line => is_first_word (lit ":q") line \/ is_first_word (lit ":quit") line
  | _ => True
  end.

(** [typed inputs ss]: none of the inputs ends the session, and [ss] are the
    scripts among them. *)
Inductive typed : list repl_input -> list str -> Prop :=
| ty_nil : typed [] []
| ty_command line inputs ss :
    first_char 58 line -> ~ ends_session (InLine line) -> typed inputs ss -> typed (InLine line :: inputs) ss
| ty_script line inputs ss : script_line line -> typed inputs ss -> typed (InLine line :: inputs) (line :: ss).

(** The line of an entry: indented, names quoted as JSON. *)
Inductive entry_line : entry -> str -> Prop :=
| el_role f s r bf bs br :
    json_text (el_name f) bf -> json_text (el_name r) br -> json_text (el_name s) bs ->
    entry_line (Role f s r)
      (lit "  " ++ (34%N :: bf ++ [34%N]) ++ lit " " ++ (34%N :: br ++ [34%N]) ++ lit " " ++ (34%N :: bs ++ [34%N]) ++ [10%N])
| el_extends a c ba bc :
    json_text (el_name a) ba -> json_text (el_name c) bc ->
    entry_line (Extends a c) (lit "  " ++ (34%N :: ba ++ [34%N]) ++ lit " : " ++ (34%N :: bc ++ [34%N]) ++ [10%N])
| el_not_extends a c ba bc :
    json_text (el_name a) ba -> json_text (el_name c) bc ->
    entry_line (NotExtends a c)
      (lit "  " ++ (34%N :: ba ++ [34%N]) ++ [32%N; 172%N; 58%N; 32%N] ++ (34%N :: bc ++ [34%N]) ++ [10%N]).

(** What is printed for a result: the bare name of an element; a network between
    braces, one line per entry. *)
Inductive printed : value -> str -> Prop :=
| pr_element e : printed (VElement e) (el_name e ++ [10%N])
| pr_empty : printed (VNetwork []) (lit "{}" ++ [10%N])
| pr_network n lines :
    n <> [] -> Forall2 entry_line n lines ->
    printed (VNetwork n) (lit "{" ++ [10%N] ++ List.concat lines ++ lit "}" ++ [10%N]).

(** Everything printed, as one text, if it is text. *)
Inductive out_text : list out -> str -> Prop :=
| ot_nil : out_text [] []
| ot_cons s os t : out_text os t -> out_text (OText s :: os) (s ++ t).

(** What the session prints for an input read when the store is [st]. *)
Inductive shows (st : gstate) : repl_input -> list out -> Prop :=
| sh_status line :
    is_first_word (lit ":status") line \/ is_first_word (lit ":s") line ->
    shows st (InLine line) [OText (lit "..." ++ [10%N])]
| sh_silent line w :
    is_first_word w line -> In w (map lit [":q"; ":quit"; ":h"; ":help"; ":broadcast"]%string) -> shows st (InLine line) []
| sh_unknown line w :
    first_char 58 line -> is_first_word w line ->
    ~ In w (map lit [":q"; ":quit"; ":h"; ":help"; ":broadcast"; ":s"; ":status"]%string) ->
    shows st (InLine line) [OText (lit "Unknown command - " ++ w ++ [10%N])]
| sh_value line v os t :
    script_line line -> fst (grun line st) = Ok v -> printed v t -> out_text os t -> shows st (InLine line) os
| sh_error line e : script_line line -> fst (grun line st) = Err e -> shows st (InLine line) [ODebug e]
| sh_quote line q : script_line line -> fst (grun line st) = Ok (VQuote q) -> shows st (InLine line) []
| sh_panic line w : script_line line -> fst (grun line st) = Panic w -> shows st (InLine line) []
| sh_interrupt : shows st InInterrupt [OText (lit "Good Bye!" ++ [10%N])]
| sh_eof : shows st InEof [OText (lit "Good Bye!" ++ [10%N])]
| sh_failure : shows st InError [OReadError].

(** ** The pad *)

(** The text in the editor after some frames: that of the last one. *)
Definition text_after (frames : list frame) : str := last (map f_text frames) [].

(** ** Counting *)

(** [lists files ss]: every name is text, the files named *.wander are texts, and
    [ss] are these texts in order. *)
Inductive lists : list dir_entry -> list str -> Prop :=
| li_nil : lists [] []
| li_script stem s files ss :
    lists files ss -> lists (DirEntry (Some (stem ++ lit ".wander")) (Some s) :: files) (s :: ss)
| li_other n t files ss :
    (forall stem, n <> stem ++ lit ".wander") -> lists files ss -> lists (DirEntry (Some n) t :: files) ss.

(** Files the suite cannot cope with: a name that is not text, a *.wander that is
    not a readable text, a script that panics. *)
Definition deadly (f : dir_entry) : Prop :=
  d_name f = None
  \/ exists stem, d_name f = Some (stem ++ lit ".wander")
      /\ (d_text f = None \/ exists s w, d_text f = Some s /\ fst (grun s mem_new) = Panic w).

(** [n] members of [l] satisfy [P]. *)
Inductive counted {A : Type} (P : A -> Prop) : list A -> nat -> Prop :=
| co_nil : counted P [] 0
| co_yes x l n : P x -> counted P l n -> counted P (x :: l) (S n)
| co_no x l n : ~ P x -> counted P l n -> counted P (x :: l) n.
