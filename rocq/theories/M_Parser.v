(** * The Wander parser: wander/src/parser.rs and the value types of wander/src/lib.rs *)
From Coq Require Import List NArith Bool String.
From Verif Require Import M_Base M_Data M_Regex M_Lexer M_Graph.
Import ListNotations.
Open Scope list_scope.

(** wander/src/lib.rs:56-71 [Quote], [WanderValue] *)
Inductive value :=
| VElement (e : element)
| VQuote (q : list value)
| VNetwork (n : list entry).

(** wander/src/lib.rs:47-52 [Call] *)
Record call := Call { c_name : element; c_args : list value }.

(** parser.rs:120-136: the entry built from three elements.  [second == Element(..)]
    compares whole elements. *)
Definition read_entry (first second third : element) : entry :=
  if element_eqb second (mkE role_extends) then Extends first third
  else if element_eqb second (mkE role_not_extends) then NotExtends first third
  else Role first third second.

(** parser.rs:102-146 [read_network].  [gaze] (crate gaze) is a cursor over the
    tokens: here the list of remaining tokens.  Fuel bounds the loop. *)
Fixpoint read_network (fuel : nat) (gaze : list token) (result : list entry)
    : wres (value * list token) :=
  match fuel with
  | O => Panic PFuel
  | S fuel' =>
      match gaze with
      | TElement first :: g1 =>
          match g1 with
          | TElement second :: g2 =>
              match g2 with
              | TElement third :: g3 =>
                  let result' := bs_insert entry_cmp (read_entry first second third) result in
                  match g3 with
                  | TComma :: g4 => read_network fuel' g4 result'
                  | TCloseBrace :: g4 => Ok (VNetwork result', g4)
                  | _ => Err (WErr (lit "Error parsing Network."))
                  end
              | _ => Panic PTodo
              end
          | _ => Panic PTodo
          end
      | TCloseBrace :: g1 => Ok (VNetwork result, g1)
      | _ => Panic PTodo
      end
  end.

(** parser.rs:148-165 [read_quote] *)
Fixpoint read_quote (fuel : nat) (gaze : list token) (values : list value)
    : wres (value * list token) :=
  match fuel with
  | O => Panic PFuel
  | S fuel' =>
      match gaze with
      | TElement e :: g1 => read_quote fuel' g1 (values ++ [VElement e])
      | TCloseParen :: g1 => Ok (VQuote values, g1)
      | TOpenBrace :: g1 =>
          match read_network fuel' g1 [] with
          | Ok (v, g2) => read_quote fuel' g2 (values ++ [v])
          | Err e => Err e
          | Panic w => Panic w
          end
      | _ => Panic PTodo
      end
  end.

(** parser.rs:60-84: the inner loop, reading values up to a comma or the end.
    An [Err] of a helper hits [_ => todo!()] (73, 79). *)
Fixpoint read_call (fuel : nat) (gaze : list token) (current : list value)
    : wres (list value * list token) :=
  match fuel with
  | O => Panic PFuel
  | S fuel' =>
      match gaze with
      | [] => Ok (current, [])
      | TString v :: g1 => read_call fuel' g1 (current ++ [VElement (mkE v)])
      | TElement v :: g1 => read_call fuel' g1 (current ++ [VElement v])
      | TComma :: g1 => Ok (current, g1)
      | TOpenBrace :: g1 =>
          match read_network fuel' g1 [] with
          | Ok (v, g2) => read_call fuel' g2 (current ++ [v])
          | Err _ => Panic PTodo
          | Panic w => Panic w
          end
      | TOpenParen :: g1 =>
          match read_quote fuel' g1 [] with
          | Ok (v, g2) => read_call fuel' g2 (current ++ [v])
          | Err _ => Panic PTodo
          | Panic w => Panic w
          end
      | _ :: g1 => Err (WParse (hd_error g1))
      end
  end.

(** parser.rs:85-97: a call must start with an element, else [todo!()]. *)
Definition make_call (current : list value) : wres call :=
  match current with
  | VElement name :: args => Ok (Call name args)
  | _ => Panic PTodo
  end.

(** parser.rs:57-99: the outer loop. *)
Fixpoint parse_loop (fuel : nat) (gaze : list token) : wres (list call) :=
  match gaze with
  | [] => Ok []
  | _ :: _ =>
      match fuel with
      | O => Panic PFuel
      | S fuel' =>
          match read_call fuel gaze [] with
          | Ok (current, g) =>
              match make_call current with
              | Ok c =>
                  match parse_loop fuel' g with
                  | Ok cs => Ok (c :: cs)
                  | Err e => Err e
                  | Panic w => Panic w
                  end
              | Err e => Err e
              | Panic w => Panic w
              end
          | Err e => Err e
          | Panic w => Panic w
          end
      end
  end.

(** parser.rs:54-100 [parse] *)
Definition parse (tokens : list token) : wres (list call) :=
  parse_loop (S (List.length tokens)) tokens.
