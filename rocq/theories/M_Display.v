(** * Printing: [Display] of Element and WanderValue, [write_string] *)
From Coq Require Import List NArith Bool String.
From Verif Require Import M_Base M_Data M_Regex M_Lexer M_Graph M_Parser.
Import ListNotations.
Open Scope list_scope.

(** A lower-case hexadecimal digit. *)
Definition hex_digit (n : N) : N := if N.ltb n 10 then (48 + n)%N else (87 + n)%N.

(** serde_json's escaping of one character inside a string (the [json!] macro of
    ligature/src/lib.rs:29 and wander/src/lib.rs:155): quote and backslash are
    escaped, control characters become \b \t \n \f \r or \u00xx. *)
Definition json_char (c : N) : str :=
  if N.eqb c 34 then [92; 34]%N
  else if N.eqb c 92 then [92; 92]%N
  else if N.eqb c 8 then [92; 98]%N
  else if N.eqb c 9 then [92; 116]%N
  else if N.eqb c 10 then [92; 110]%N
  else if N.eqb c 12 then [92; 102]%N
  else if N.eqb c 13 then [92; 114]%N
  else if N.ltb c 32 then [92; 117; 48; 48; hex_digit (N.div c 16); hex_digit (N.modulo c 16)]%N
  else [c].

Definition json_body (s : str) : str := flat_map json_char s.

(** [json!(s)] printed *)
Definition json_string (s : str) : str := 34%N :: json_body s ++ [34%N].

(** ligature/src/lib.rs:27-31 [Display for Element]: only the name is printed. *)
Definition display_element (e : element) : str := json_string (el_name e).

(** wander/src/lib.rs:105-131: one entry. *)
Definition display_entry (e : entry) : str :=
  match e with
  | Role f s r => display_element f ++ lit " " ++ display_element r ++ lit " " ++ display_element s
  | Extends e c => display_element e ++ lit " : " ++ display_element c
  | NotExtends e c =>
      display_element e ++ lit " " ++ role_not_extends ++ lit " " ++ display_element c
  end.

(** wander/src/lib.rs:104-132: the loop with its counter [i] and separator. *)
Fixpoint display_entries (total : nat) (i : nat) (es : list entry) : str :=
  match es with
  | [] => []
  | e :: rest =>
      display_entry e
      ++ (if Nat.ltb (S i) total then lit ", " else [])
      ++ display_entries total (S i) rest
  end.

(** wander/src/lib.rs:98-134 [write_network] *)
Definition display_network (es : list entry) : str :=
  lit "{" ++ display_entries (List.length es) 0 es ++ lit "}".

(** wander/src/lib.rs:136-161 [write_quote], [Display for WanderValue] *)
Fixpoint display (v : value) : str :=
  match v with
  | VElement e => json_string (el_name e)
  | VNetwork n => display_network n
  | VQuote q =>
      lit "("
      ++ (fix go (l : list value) : str :=
            match l with
            | [] => []
            | x :: r => display x ++ match r with [] => [] | _ :: _ => lit " " end ++ go r
            end) q
      ++ lit ")"
  end.

(** [str::replace(c, by)] for a single character pattern. *)
Definition replace (c : N) (by_ : str) (s : str) : str :=
  flat_map (fun x => if N.eqb x c then by_ else [x]) s.

(** wander/src/lib.rs:85-96 and lig/src/lib.rs:24-35 [write_string] *)
Definition write_string (s : str) : str :=
  let escaped :=
    replace 9 [92; 116]%N
      (replace 13 [92; 114]%N
         (replace 10 [92; 110]%N
            (replace 34 [92; 34]%N
               (replace 92 [92; 92]%N s)))) in
  34%N :: escaped ++ [34%N].
