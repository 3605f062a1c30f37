(** * Requests and replies as bytes: ligature-zeromq/src/main.rs *)
From Coq Require Import List NArith Bool String.
From Verif Require Import M_Base M_Data M_Mem M_Regex M_Lexer M_Graph M_Parser M_Display M_Interp M_Hosts S_Str.
Import ListNotations.
Open Scope list_scope.

(** Rust's [core::str::from_utf8] (external; core/src/str/validations.rs): which
    byte strings it accepts, and the characters they then are. *)
Definition between (lo hi b : N) : bool := N.leb lo b && N.leb b hi.
Definition tail_byte (b : N) : bool := between 0x80 0xBF b.

(** The pairs of first and second byte accepted for 3 and 4 byte characters. *)
Definition second3 (b0 b1 : N) : bool :=
  if N.eqb b0 0xE0 then between 0xA0 0xBF b1
  else if N.eqb b0 0xED then between 0x80 0x9F b1
  else tail_byte b1.
Definition second4 (b0 b1 : N) : bool :=
  if N.eqb b0 0xF0 then between 0x90 0xBF b1
  else if N.eqb b0 0xF4 then between 0x80 0x8F b1
  else tail_byte b1.

Definition char2 (b0 b1 : N) : N := ((b0 - 0xC0) * 64 + (b1 - 0x80))%N.
Definition char3 (b0 b1 b2 : N) : N := ((b0 - 0xE0) * 4096 + (b1 - 0x80) * 64 + (b2 - 0x80))%N.
Definition char4 (b0 b1 b2 b3 : N) : N :=
  ((b0 - 0xF0) * 262144 + (b1 - 0x80) * 4096 + (b2 - 0x80) * 64 + (b3 - 0x80))%N.

Fixpoint from_utf8 (l : list N) : option str :=
  match l with
  | [] => Some []
  | b0 :: r0 =>
      if N.ltb b0 0x80 then option_map (cons b0) (from_utf8 r0)
      else match r0 with
           | [] => None
           | b1 :: r1 =>
               if between 0xC2 0xDF b0 then
                 if tail_byte b1 then option_map (cons (char2 b0 b1)) (from_utf8 r1) else None
               else match r1 with
                    | [] => None
                    | b2 :: r2 =>
                        if between 0xE0 0xEF b0 then
                          if second3 b0 b1 && tail_byte b2
                          then option_map (cons (char3 b0 b1 b2)) (from_utf8 r2) else None
                        else match r2 with
                             | [] => None
                             | b3 :: r3 =>
                                 if between 0xF0 0xF4 b0 then
                                   if second4 b0 b1 && tail_byte b2 && tail_byte b3
                                   then option_map (cons (char4 b0 b1 b2 b3)) (from_utf8 r3) else None
                                 else None
                             end
                    end
           end
  end.

(** main.rs:24-25: the text of a reply.  [show] stands for the error texts that
    are not modelled (see [werr]). *)
Definition reply_text (show : werr -> str) (r : reply) : str :=
  match r with ReplyValue t => t | ReplyError e => show e end.

(** main.rs:19-27: [msg.as_str().unwrap()] (zmq: [str::from_utf8(..).ok()]) panics
    on a message that is not UTF-8, before the script is run; a reply is sent as
    the bytes of its string.  The result is the messages sent, the store, and
    whether the server is still running. *)
Fixpoint serve_bytes (show : werr -> str) (requests : list (list N)) (st : gstate)
    : list (list N) * gstate * bool :=
  match requests with
  | [] => ([], st, true)
  | b :: rest =>
      match from_utf8 b with
      | None => ([], st, false)
      | Some q =>
          match grun q st with
          | (Ok v, st') =>
              let '(rs, st2, up) := serve_bytes show rest st' in
              (utf8 (reply_text show (ReplyValue (display v))) :: rs, st2, up)
          | (Err e, st') =>
              let '(rs, st2, up) := serve_bytes show rest st' in
              (utf8 (reply_text show (ReplyError e)) :: rs, st2, up)
          | (Panic _, st') => ([], st', false)
          end
      end
  end.
