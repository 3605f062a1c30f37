(** * What [derive(Serialize, Deserialize)] generates (ligature, wander), the
    JSON text of it, and the JavaScript value of ligature-wasm's [run] *)
From Coq Require Import List NArith Bool String.
From Verif Require Import M_Base M_Data M_Mem M_Graph M_Regex M_Lexer M_Parser M_Display M_Interp M_Hosts.
Import ListNotations.
Open Scope list_scope.

(** ** JSON trees ([serde_json::Value]); a number is kept as its text. *)
Inductive json :=
| JNull
| JBool (b : bool)
| JNum (t : str)
| JStr (s : str)
| JArr (l : list json)
| JObj (m : list (str * json)).

(** ** Serialize *)

(** [Option<Namespace>], [Option<LangTag>] (ligature/src/lib.rs:15-21): null, or
    the newtype's string. *)
Definition ser_opt (o : option str) : json := match o with None => JNull | Some s => JStr s end.

(** ligature/src/lib.rs:24-25 [Serialize for Element]: a tuple struct is an array. *)
Definition ser_element (e : element) : json :=
  JArr [JStr (el_name e); ser_opt (el_ns e); ser_opt (el_lang e)].

(** ligature/src/lib.rs:34-59 [Serialize for Entry]: a struct variant is an object
    whose single key is the variant's name. *)
Definition ser_entry (e : entry) : json :=
  match e with
  | Role f s r =>
      JObj [(lit "Role", JObj [(lit "first", ser_element f); (lit "second", ser_element s); (lit "role", ser_element r)])]
  | Extends e c => JObj [(lit "Extends", JObj [(lit "element", ser_element e); (lit "concept", ser_element c)])]
  | NotExtends e c => JObj [(lit "NotExtends", JObj [(lit "element", ser_element e); (lit "concept", ser_element c)])]
  end.

(** wander/src/lib.rs:54-71 [Serialize for WanderValue, Quote]: newtype variants,
    a newtype struct, a set in iteration order. *)
Fixpoint ser_value (v : value) : json :=
  match v with
  | VElement e => JObj [(lit "Element", ser_element e)]
  | VQuote q => JObj [(lit "Quote", JArr (map ser_value q))]
  | VNetwork n => JObj [(lit "Network", JArr (map ser_entry n))]
  end.

(** wander/src/lib.rs:46-52 [Serialize for Call]: a struct. *)
Definition ser_call (c : call) : json :=
  JObj [(lit "name", ser_element (c_name c)); (lit "arguments", JArr (map ser_value (c_args c)))].

(** ** Deserialize; [None] is an error, whose message is not modelled. *)

Definition de_str (j : json) : option str := match j with JStr s => Some s | _ => None end.

Definition de_opt (j : json) : option (option str) :=
  match j with
  | JNull => Some None
  | JStr s => Some (Some s)
  | _ => None
  end.

(** ligature/src/lib.rs:24-25 [Deserialize for Element]: an array of exactly three. *)
Definition de_element (j : json) : option element :=
  match j with
  | JArr [a; b; c] =>
      match de_str a, de_opt b, de_opt c with
      | Some n, Some ns, Some l => Some (Elem n ns l)
      | _, _, _ => None
      end
  | _ => None
  end.

(** A field of an object: it must occur once.  (Other keys are ignored.) *)
Fixpoint field (k : str) (m : list (str * json)) : option json :=
  match m with
  | [] => None
  | (k', v) :: r =>
      if str_eqb k k'
      then if existsb (fun p => str_eqb k (fst p)) r then None else Some v
      else field k r
  end.

(** The derived visitors of structs take an object, in any field order, or an
    array with the fields in order. *)
Definition fields2 (a b : str) (j : json) : option (json * json) :=
  match j with
  | JArr [x; y] => Some (x, y)
  | JObj m =>
      match field a m, field b m with
      | Some x, Some y => Some (x, y)
      | _, _ => None
      end
  | _ => None
  end.

Definition fields3 (a b c : str) (j : json) : option (json * json * json) :=
  match j with
  | JArr [x; y; z] => Some (x, y, z)
  | JObj m =>
      match field a m, field b m, field c m with
      | Some x, Some y, Some z => Some (x, y, z)
      | _, _, _ => None
      end
  | _ => None
  end.

(** The two-field variants. *)
Definition de_pair (mk : element -> element -> entry) (j : json) : option entry :=
  match fields2 (lit "element") (lit "concept") j with
  | Some (x, y) =>
      match de_element x, de_element y with
      | Some e, Some c => Some (mk e c)
      | _, _ => None
      end
  | None => None
  end.

(** ligature/src/lib.rs:34-59 [Deserialize for Entry] *)
Definition de_entry (j : json) : option entry :=
  match j with
  | JObj [(tag, body)] =>
      if str_eqb tag (lit "Role") then
        match fields3 (lit "first") (lit "second") (lit "role") body with
        | Some (x, y, z) =>
            match de_element x, de_element y, de_element z with
            | Some f, Some s, Some r => Some (Role f s r)
            | _, _, _ => None
            end
        | None => None
        end
      else if str_eqb tag (lit "Extends") then de_pair Extends body
      else if str_eqb tag (lit "NotExtends") then de_pair NotExtends body
      else None
  | _ => None
  end.

(** A sequence: every item must be readable. *)
Definition de_seq {A : Type} (de : json -> option A) : list json -> option (list A) :=
  fix go (l : list json) : option (list A) :=
    match l with
    | [] => Some []
    | j :: r =>
        match de j, go r with
        | Some a, Some b => Some (a :: b)
        | _, _ => None
        end
    end.

(** wander/src/lib.rs:54-71 [Deserialize for WanderValue, Quote]; a [BTreeSet]
    inserts what it reads. *)
Fixpoint de_value (j : json) : option value :=
  match j with
  | JObj [(tag, body)] =>
      if str_eqb tag (lit "Element") then option_map VElement (de_element body)
      else if str_eqb tag (lit "Quote") then
        match body with
        | JArr l => option_map VQuote (de_seq de_value l)
        | _ => None
        end
      else if str_eqb tag (lit "Network") then
        match body with
        | JArr l => option_map (fun es => VNetwork (bs_collect entry_cmp es)) (de_seq de_entry l)
        | _ => None
        end
      else None
  | _ => None
  end.

(** wander/src/lib.rs:46-52 [Deserialize for Call] *)
Definition de_call (j : json) : option call :=
  match fields2 (lit "name") (lit "arguments") j with
  | Some (x, JArr l) =>
      match de_element x, de_seq de_value l with
      | Some n, Some a => Some (Call n a)
      | _, _ => None
      end
  | _ => None
  end.

(** ** [serde_json::to_string]: compact, no blanks *)
Fixpoint json_print (j : json) : str :=
  match j with
  | JNull => lit "null"
  | JBool true => lit "true"
  | JBool false => lit "false"
  | JNum t => t
  | JStr s => json_string s
  | JArr l =>
      91%N :: (fix go (l : list json) : str :=
                 match l with
                 | [] => []
                 | x :: r => json_print x ++ match r with [] => [] | _ :: _ => [44%N] end ++ go r
                 end) l ++ [93%N]
  | JObj m =>
      123%N :: (fix go (m : list (str * json)) : str :=
                  match m with
                  | [] => []
                  | (k, x) :: r =>
                      json_string k ++ 58%N :: json_print x ++ match r with [] => [] | _ :: _ => [44%N] end ++ go r
                  end) m ++ [125%N]
  end.

(** ** ligature-wasm: [serde_wasm_bindgen::to_value] *)

(** JavaScript values: strings, arrays, plain objects, [Map]s. *)
Inductive js :=
| JsString (s : str)
| JsArray (l : list js)
| JsObject (m : list (str * js))
| JsMap (m : list (str * js)).

(** ligature-wasm/src/lib.rs:16-32: structs become plain objects, sets arrays. *)
Definition js_edge (e : edge) : js :=
  JsObject [(lit "key", JsString (e_key e)); (lit "source", JsString (e_source e)); (lit "target", JsString (e_target e))].
Definition js_graphology (g : graphology) : js :=
  JsObject [(lit "nodes", JsArray (map (fun k => JsObject [(lit "key", JsString k)]) (g_nodes g)));
            (lit "edges", JsArray (map js_edge (g_edges g)))].

(** ligature-wasm/src/lib.rs:105,109-116 [run]: the exported [HashMap] becomes a
    [Map] (whose order of keys is not modelled: here sorted), the error's newtype
    a string, [show] of it.  A panic throws. *)
Definition wasm_js (show : werr -> str) (script : str) : res Empty_set js :=
  match wasm_run script with
  | Ok g => Ok (JsMap (map (fun p => (fst p, js_graphology (snd p))) g))
  | Err e => Ok (JsString (show e))
  | Panic w => Panic w
  end.
