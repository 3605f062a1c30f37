(** * Host applications: ligature-wasm, ligature-zeromq, wander-repl,
    wander-pad, ligature-test-suite, ligature-redb (next_id) *)
From Coq Require Import List NArith ZArith Bool String.
From Verif Require Import M_Base M_Data M_Mem M_Graph M_Regex M_Lexer M_Parser M_Display M_Interp.
Import ListNotations.
Open Scope list_scope.

(** The default store of every host: [LigatureGraph::new()] over [TripsMem]
    (ligature-graph/src/lib.rs:25-29). *)
Definition gstate := mem.
Definition glig : lig_impl gstate := graph_impl mem_impl.
Definition grun (script : str) (st : gstate) : wres value * gstate :=
  run glig common script st.

(** ** ligature-wasm/src/lib.rs *)

(** lib.rs:22-32 [NodeResult], [EdgeResult] *)
Record edge := Edge { e_key : str; e_source : str; e_target : str }.

Definition edge_cmp (a b : edge) : comparison :=
  then_cmp (str_cmp (e_key a) (e_key b))
    (then_cmp (str_cmp (e_source a) (e_source b)) (str_cmp (e_target a) (e_target b))).

(** lib.rs:17-20 [GraphologyResult]; a [NodeResult] is its key. *)
Record graphology := Graphology { g_nodes : list str; g_edges : list edge }.

(** lib.rs:37-83: the loop body. *)
Definition graphology_step (g : graphology) (e : entry) : graphology :=
  match e with
  | Extends el c =>
      Graphology (bs_insert str_cmp (el_name c) (bs_insert str_cmp (el_name el) (g_nodes g)))
        (bs_insert edge_cmp (Edge role_extends (el_name el) (el_name c)) (g_edges g))
  | NotExtends el c =>
      Graphology (bs_insert str_cmp (el_name c) (bs_insert str_cmp (el_name el) (g_nodes g)))
        (bs_insert edge_cmp (Edge role_not_extends (el_name el) (el_name c)) (g_edges g))
  | Role f s r =>
      Graphology (bs_insert str_cmp (el_name s) (bs_insert str_cmp (el_name f) (g_nodes g)))
        (bs_insert edge_cmp (Edge (el_name r) (el_name f) (el_name s)) (g_edges g))
  end.

(** lib.rs:34-88 [graph_to_graphology] *)
Definition graph_to_graphology (es : list entry) : graphology :=
  fold_left graphology_step es (Graphology [] []).

(** lib.rs:94-101: the loop over the collections.  The result is a HashMap;
    here an association list where a later insert of the same key replaces. *)
Fixpoint export_loop {S : Type} (lig : lig_impl S) (st : S) (cs : list element)
    (acc : list (str * graphology)) : lres (list (str * graphology)) :=
  match cs with
  | [] => Ok acc
  | c :: rest =>
      match l_entries lig st c with
      | Ok es => export_loop lig st rest (bm_insert str_cmp (el_name c) (graph_to_graphology es) acc)
      | Err _ => Panic PTodo
      | Panic w => Panic w
      end
  end.

(** lib.rs:90-106 [ligature_to_graphology], up to the conversion to a JsValue. *)
Definition ligature_to_graphology {S : Type} (lig : lig_impl S) (st : S)
    : lres (list (str * graphology)) :=
  match l_collections lig st with
  | Ok cs => export_loop lig st cs []
  | Err _ => Panic PTodo
  | Panic w => Panic w
  end.

(** lib.rs:109-116 [run]: a fresh store per call; the JavaScript caller gets
    either the exported graphs or the error. *)
Definition wasm_run (script : str) : res werr (list (str * graphology)) :=
  match grun script mem_new with
  | (Ok _, st) =>
      match ligature_to_graphology glig st with
      | Ok g => Ok g
      | Err _ => Panic PTodo
      | Panic w => Panic w
      end
  | (Err e, _) => Err e
  | (Panic w, _) => Panic w
  end.

(** ** ligature-zeromq/src/main.rs *)

(** main.rs:23-26: the text sent back, or the error whose text is sent back. *)
Inductive reply := ReplyValue (text : str) | ReplyError (e : werr).

(** main.rs:19-27: the request loop; a panic ends the process.  The result is the
    replies sent, the final store, and whether the server is still running. *)
Fixpoint serve (requests : list str) (st : gstate) : list reply * gstate * bool :=
  match requests with
  | [] => ([], st, true)
  | q :: rest =>
      match grun q st with
      | (Ok v, st') =>
          let '(rs, st2, up) := serve rest st' in (ReplyValue (display v) :: rs, st2, up)
      | (Err e, st') =>
          let '(rs, st2, up) := serve rest st' in (ReplyError e :: rs, st2, up)
      | (Panic _, st') => ([], st', false)
      end
  end.

(** ** wander-repl/src/lib.rs *)

(** [char::is_whitespace]: Unicode White_Space. *)
Definition is_ws (c : N) : bool :=
  in_ranges [(9, 13); (32, 32); (0x85, 0x85); (0xA0, 0xA0); (0x1680, 0x1680); (0x2000, 0x200A);
             (0x2028, 0x2029); (0x202F, 0x202F); (0x205F, 0x205F); (0x3000, 0x3000)]%N c.

(** [str::trim_start] (of [trim], only the start matters for [starts_with]). *)
Fixpoint trim_start (s : str) : str :=
  match s with
  | [] => []
  | c :: r => if is_ws c then trim_start r else s
  end.

Definition trim (s : str) : str := rev (trim_start (rev (trim_start s))).

(** [str::starts_with(c)] *)
Definition starts_with (c : N) (s : str) : bool :=
  match s with [] => false | x :: _ => N.eqb x c end.

(** The characters up to the next whitespace. *)
Fixpoint take_word (s : str) : str :=
  match s with
  | [] => []
  | c :: r => if is_ws c then [] else c :: take_word r
  end.

(** [input.split_whitespace().next()] *)
Definition first_word (s : str) : option str :=
  match trim_start s with
  | [] => None
  | t => Some (take_word t)
  end.

(** What is printed: text, or an error in [{:?}] form (see M_Debug): that of a
    script, or that of [readline] (text not modelled). *)
Inductive out := OText (s : str) | ODebug (e : werr) | OReadError.

(** [println!] *)
Definition println (s : str) : out := OText (s ++ [10%N]).

(** lib.rs:98-131 [handle_command], [broadcast], [help], [status], [quit]: what is
    printed, and whether to go on. *)
Definition handle_command (input : str) : res unit (list out * bool) :=
  match first_word input with
  | None => Panic PUnwrap
  | Some w =>
      if str_eqb w (lit ":status") || str_eqb w (lit ":s") then Ok ([println (lit "...")], true)
      else if str_eqb w (lit ":quit") || str_eqb w (lit ":q") then Ok ([], false)
      else if str_eqb w (lit ":help") || str_eqb w (lit ":h") then Ok ([], true)
      else if str_eqb w (lit ":broadcast") then Ok ([], true)
      else Ok ([println (lit "Unknown command - " ++ w)], true)
  end.

(** lib.rs:52-64: one line per entry. *)
Definition repl_entry (e : entry) : out :=
  match e with
  | Extends el c => println (lit "  " ++ display_element el ++ lit " : " ++ display_element c)
  | Role f s r => println (lit "  " ++ display_element f ++ lit " " ++ display_element r ++ lit " " ++ display_element s)
  | NotExtends el c =>
      println (lit "  " ++ display_element el ++ lit " " ++ role_not_extends ++ lit " " ++ display_element c)
  end.

(** lib.rs:41-69: printing a result; a quote is [todo!()] (46). *)
Definition repl_print (v : value) : res unit (list out) :=
  match v with
  | VElement e => Ok [println (el_name e)]
  | VQuote _ => Panic PTodo
  | VNetwork [] => Ok [println (lit "{}")]
  | VNetwork n => Ok ([println (lit "{")] ++ map repl_entry n ++ [println (lit "}")])
  end.

(** lib.rs:33-72, one line of input: continue with a store, stop, or panic. *)
Inductive repl_result := RContinue (st : gstate) | RStop (st : gstate) | RPanic (w : why).

Definition repl_step (line : str) (st : gstate) : list out * repl_result :=
  if starts_with 58 (trim line) then
    match handle_command line with
    | Ok (o, true) => (o, RContinue st)
    | Ok (o, false) => (o, RStop st)
    | Err _ => ([], RContinue st)
    | Panic w => ([], RPanic w)
    end
  else
    match grun line st with
    | (Ok v, st') =>
        match repl_print v with
        | Ok o => (o, RContinue st')
        | Err _ => ([], RContinue st')
        | Panic w => ([], RPanic w)
        end
    | (Err e, st') => ([ODebug e], RContinue st')
    | (Panic w, _) => ([], RPanic w)
    end.

Definition repl_line (line : str) (st : gstate) : repl_result := snd (repl_step line st).

(** lib.rs:31-86: what [readline] returns.  [InError] is any other error. *)
Inductive repl_input := InLine (line : str) | InInterrupt | InEof | InError.

(** How a session stands: waiting for input, ended, or dead. *)
Inductive repl_status := Waiting | Ended | Dead (w : why).

(** lib.rs:30-87: the loop; the result is what is printed for each input, the
    store, and the status. *)
Fixpoint session (inputs : list repl_input) (st : gstate) : list (list out) * gstate * repl_status :=
  match inputs with
  | [] => ([], st, Waiting)
  | InLine line :: rest =>
      match repl_step line st with
      | (o, RContinue st') => let '(os, st2, s) := session rest st' in (o :: os, st2, s)
      | (o, RStop st') => ([o], st', Ended)
      | (o, RPanic w) => ([o], snd (grun line st), Dead w)
      end
  | InInterrupt :: _ => ([[println (lit "Good Bye!")]], st, Ended)
  | InEof :: _ => ([[println (lit "Good Bye!")]], st, Ended)
  | InError :: _ => ([[OReadError]], st, Ended)
  end.

(** ** wander-pad/src/lib.rs *)

(** lib.rs:21-24 [WanderPad]: the script and the result shown (for an error, the
    error whose text is shown). *)
Record pad := Pad { p_script : str; p_result : reply }.

(** lib.rs:26-33 [Default] *)
Definition pad_default : pad := Pad [] (ReplyValue []).

(** lib.rs:35-49 [update], one frame: whether Run was clicked, and the text the
    editor holds afterwards.  The click is handled first, with the old text. *)
Record frame := Frame { f_clicked : bool; f_text : str }.

Definition pad_update (p : pad) (f : frame) : res unit pad :=
  if f_clicked f then
    match fst (grun (p_script p) mem_new) with
    | Ok v => Ok (Pad (f_text f) (ReplyValue (display v)))
    | Err e => Ok (Pad (f_text f) (ReplyError e))
    | Panic w => Panic w
    end
  else Ok (Pad (f_text f) (p_result p)).

Fixpoint pad_run (frames : list frame) (p : pad) : res unit pad :=
  match frames with
  | [] => Ok p
  | f :: rest =>
      match pad_update p f with
      | Ok p' => pad_run rest p'
      | Err e => Err e
      | Panic w => Panic w
      end
  end.

(** ** ligature-test-suite/src/main.rs *)

(** One entry of the directory (main.rs:16-21): its name as text ([into_string],
    [None] if it is not UTF-8) and its content ([read_to_string], [None] if it
    cannot be read as text). *)
Record dir_entry := DirEntry { d_name : option str; d_text : option str }.

(** [str::ends_with] *)
Definition ends_with (suffix s : str) : bool :=
  Nat.leb (List.length suffix) (List.length s)
  && str_eqb (skipn (List.length s - List.length suffix) s) suffix.

(** main.rs:16-34.  Each script runs on a fresh store.  Returns (total, failed).
    (Simplification: the counters are i32 and are taken to be unbounded.) *)
Fixpoint suite_loop (files : list dir_entry) (total failed : Z) : res unit (Z * Z) :=
  match files with
  | [] => Ok (total, failed)
  | f :: rest =>
      match d_name f with
      | None => Panic PUnwrap
      | Some n =>
          if ends_with (lit ".wander") n then
            match d_text f with
            | None => Panic PUnwrap
            | Some script =>
                match fst (grun script mem_new) with
                | Ok _ => suite_loop rest (total + 1)%Z failed
                | Err _ => suite_loop rest (total + 1)%Z (failed + 1)%Z
                | Panic w => Panic w
                end
            end
          else suite_loop rest total failed
      end
  end.

(** main.rs:35: the two numbers printed. *)
Definition suite (files : list dir_entry) : res unit (Z * Z) :=
  match suite_loop files 0%Z 0%Z with
  | Ok (total, failed) => Ok ((total - failed)%Z, total)
  | Err e => Err e
  | Panic w => Panic w
  end.

(** ** ligature-redb/src/lib.rs *)

(** lib.rs:38-42 [IdTypes], 155-161 [id_type_str] *)
Inductive id_type := Datasets | Identifiers | Strings.

Definition id_type_str (t : id_type) : str :=
  match t with
  | Datasets => lit "Datasets"
  | Identifiers => lit "Identifiers"
  | Strings => lit "Strings"
  end.

Definition redb_u64_max : N := 18446744073709551615.

(** lib.rs:163-182 [next_id]; the table is the redb table, overflow panics. *)
Definition next_id (t : id_type) (table : list (str * N)) : res unit N * list (str * N) :=
  let key := id_type_str t in
  match bm_get str_cmp key table with
  | Some value =>
      if N.ltb value redb_u64_max
      then (Ok (value + 1)%N, bm_insert str_cmp key (value + 1)%N table)
      else (Panic POverflow, table)
  | None => (Ok 0%N, bm_insert str_cmp key 0%N table)
  end.
