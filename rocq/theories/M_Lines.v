(** * What reading an LMDB collection prints: trips/src/heed.rs

    [TripsHeed::triples] has a [println!] in its loop (heed.rs:213-216); no other
    function of the three stores, of ligature-graph or of wander prints. *)
From Coq Require Import List NArith Bool String.
From Verif Require Import M_Base M_Data M_Heed M_Regex M_Lexer M_Graph M_Parser M_Interp M_Conc.
Import ListNotations.
Open Scope list_scope.

(** heed.rs:213-216 [println!("Adding - {} {} {}", first_value, second_value, third_value)] *)
Definition adding_line (a b c : str) : str := lit "Adding - " ++ a ++ lit " " ++ b ++ lit " " ++ c ++ [10%N].

(** heed.rs:184-226 again, with the lines printed so far; the program may panic
    after it has printed. *)
Fixpoint triples_loop_p (d : heed) (collection_id : N) (rows : list (list N)) (results : list trip) (out : list str)
    : tres (list trip) * list str :=
  match rows with
  | [] => (Ok results, out)
  | row :: rest =>
      match decode_row row with
      | None => (Panic PIndex, out)
      | Some (cid, fid, sid, tid) =>
          if N.eqb collection_id cid then
            match nget (h_i2v d) fid, nget (h_i2v d) sid, nget (h_i2v d) tid with
            | Some a, Some b, Some c =>
                triples_loop_p d collection_id rest (bs_insert trip_cmp (Trip a b c) results) (out ++ [adding_line a b c])
            | _, _, _ => (Panic PTodo, out)
            end
          else triples_loop_p d collection_id rest results out
      end
  end.

(** heed.rs:167-231 with what it prints. *)
Definition heed_triples_p (d : heed) (c : str) : tres (list trip) * list str :=
  match sget (h_c2i d) c with
  | Ok (Some collection_id) => triples_loop_p d collection_id (h_cfst d) [] []
  | _ => (Panic PTodo, [])
  end.

(** What a call of the graph prints: only [entries] calls [triples]
    (ligature-graph/src/lib.rs:50-77, once), and [filter] is [todo!()]
    (heed.rs:486-542). *)
Definition call_prints (d : heed) (q : req) : list str :=
  match q with
  | QEntries c => snd (heed_triples_p d (el_name c))
  | _ => []
  end.

(** wander/src/lib.rs:146-225: a script's calls made one after another, with what
    they print. *)
Fixpoint solo_p (p : prog) (d : heed) (out : list str) : wres value * heed * list str :=
  match p with
  | Done r => (r, d, out)
  | Ask q k => let (a, d') := perform (graph_impl heed_impl) q d in solo_p (k a) d' (out ++ call_prints d q)
  end.
Definition run_p (script : str) (d : heed) : wres value * heed * list str := solo_p (p_run common script) d [].
