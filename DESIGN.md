# Formal model of almibe/ligature-rs in Rocq (Coq 8.16.1)

## 1. What is modelled, and how

Everything lives in `rocq/theories` (logical name `Verif`).  Three kinds of file:

* **Model files** (`M_*.v`): executable Gallina, one definition per Rust function, each citing file and lines.
  No proofs in them.
* **Spec files** (`S_*.v`): small vocabularies the properties are stated in (set membership, histories,
  grammars, regular-language semantics, normal forms).  They use only the data types of the model, none of its functions.
* **Proof files** (`P_*.v`) and **property files** (`Prop_*.v`).  A property file holds only the property theorems,
  each closed by `exact lemma`, a non-vacuity `Example` beside it, and `Print Assumptions` under it.

Conventions

| Rust | Model |
| --- | --- |
| `String` / `&str` | `str := list N`, the sequence of Unicode code points; `valid_str` says every code point is a scalar value. C61 proves that the UTF-8 byte order used by `BTreeMap`, `BTreeSet` and LMDB is the code point order used in the model. |
| `BTreeSet<T>` | strictly increasing list (`is_set`) for the `derive(Ord)` order, written out as a comparison function; `insert`, `remove`, `append`, `collect` are executable functions on lists |
| `BTreeMap`, `HashMap`, LMDB table | strictly increasing association list (HashMap: association list, iteration order never relied on: C51) |
| `Result<T,E>` + `panic!/todo!/unwrap` | `res T := Ok t \| Err e \| Panic why` |
| `&mut self` | state in, state out |
| `&mut dyn Ligature`, `Box<dyn Trips>` | records of functions (`trips_impl`, `lig_impl`) |
| loops with no structural measure | fuel, with exhaustion reported as `Panic PFuel`, and a theorem that it never happens (C38, C44) |

### Pinned commit does not compile as a whole

`ligature/src/lib.rs:25` gives `Element` three fields (name, optional namespace, optional language tag) but every dependent crate
(ligature-graph, wander, ligature-wasm, wander-repl) still writes `Element(x)` and matches one field.  Only `ligature` and `trips` type-check.
The model reads the one-argument `Element(x)` as `Element(x, None, None)`, keeps the three-field type with its derived order, and so exposes that the
graph layer, which uses only `.0`, drops namespaces and language tags (C28, C31).

### External components (trusted descriptions, not code of this repository)

* **LMDB / heed**: a table is a map ordered by key bytes; `get`/`delete` of an empty key and `put` of a key that is empty or over 511 bytes
  return an error and change nothing; a write transaction that is dropped is aborted; a commit either installs the whole transaction or fails and installs nothing (its
  outcome is an argument of the model).  Databases created in `TripsHeed::new` exist.
  For the step-by-step model (`M_Txn`): a write that fails for another reason (map full, no memory, I/O) sets `MDB_TXN_ERROR`; from then on every
  `get`, `put`, `delete`, `open_database` of that transaction answers `MDB_BAD_TXN`, and its commit installs nothing.  A `delete` of an absent key and a `put` of a refused key write nothing.
* **DuckDB**: a table is a list of rows; `UNIQUE`, `PRIMARY KEY`, `REFERENCES` and `ON CONFLICT DO NOTHING` have their SQL meaning; `NEXTVAL`
  returns 1, 2, ... up to 2^63-1; a `TEXT` column keeps every text, NUL included; a dropped transaction is rolled back; unordered SELECTs return rows in insertion order (theorems only use membership).
* **logos**: longest match, ties broken by priority; the regular expressions are transcribed literally and given their standard meaning.  Characters are code points.
* **serde_json** string escaping, **gaze** (a cursor over a vector), `str::trim` / `split_whitespace` (Unicode White_Space).
* **hash maps**: a finite map.
* **`{:?}` of text** (`M_Debug`): Rust's escapes; which characters past ASCII count as printable is a parameter, and the theorems hold for every such table.

### Modelled, file by file

| source | model | remarks |
| --- | --- | --- |
| `ligature/src/lib.rs` | `M_Data`, `M_Graph`, `M_Derive`, `M_Serde` | data types with their derived orders, hashes and serde code; trait `Ligature` as a record |
| `trips/src/lib.rs`, `mem.rs` | `M_Data`, `M_Mem` | complete, including `match_query*`, `test_trip` and the `todo!` paths of `filter` |
| `trips/src/heed.rs` | `M_Heed`, `M_HeedRel`, `M_HeedBytes`, `M_Txn`, `M_TxnConc`, `M_Open`, `M_Lines` | complete; once per call on names and numbers, again as compiled without overflow checks (C122), once per call on bytes (C102 proves the two agree), once operation by operation, once with several clients (C119), once with every `open_database` checked, once with what is printed (C117) |
| `trips/src/duckdb.rs` | `M_Duck`, `M_DuckTxn`, `M_DuckReal` | complete but for the unused `extract_select_pattern`; once per call, once statement by statement, and once on a database that moves rows, loses numbers and fails of its own accord (C121) |
| `ligature-graph/src/lib.rs` | `M_Graph` | complete |
| `wander/src/lexer.rs` | `M_Regex`, `M_Lexer` | the logos definition as regular expressions |
| `wander/src/parser.rs` | `M_Parser` | complete |
| `wander/src/lib.rs`, `prelude.rs` | `M_Display`, `M_Interp`, `M_Commands`, `M_HostConc` | `run`, `eval`, all commands of `common`, printing |
| `lig/src/*` | `M_Lig` | lexer, `read.rs`, `write.rs`, `tokenize_and_filter` |
| `ligature-wasm/src/lib.rs` | `M_Hosts` | graphology export, `run` up to the JsValue conversion |
| `ligature-zeromq`, `wander-repl`, `wander-pad`, `ligature-test-suite` | `M_Hosts` | the loops around `run`, what is answered, printed or shown |
| `ligature-redb/src/lib.rs` | `M_Redb`, `M_Hosts` | `create`, `default`, `temp`; `next_id` (all other functions are commented out) |

### Validation

`V_Tests.v` replays the unit tests of the repository (trips, wander, ligature-graph) on the model: every assertion a test makes about a concrete input is an `Example` closed by computation.  They are tests of the model, not proofs, and no property rests on them.

### Concurrency

`M_Conc.v`: every call of the `Ligature` trait on the LMDB backend is one transaction, LMDB runs write transactions one after the other and gives a read transaction a snapshot, so clients of one file interleave call by call.  That one transaction is atomic is C17/C72; that LMDB serialises them is part of the trusted description of LMDB.

### Not modelled

Stack sizes in bytes (how many activations are open is C103), text of `readline` errors, fixed decoration on stdout, egui, rustyline, file I/O,
sockets, serde's error messages, memory exhaustion of the process itself, release-mode wrap-around of ids outside `trips/src/heed.rs` (there both builds are modelled: C122),
commented-out code (also the host functions of `ligature-redb`), empty crates (tiny-dl, ligature-in-memory, ligature-sqlite, ligature-benchmark, ligature-cli, ligature-repl, ligature-nushell).
In `M_Duck` and `M_DuckTxn` a rolled back transaction also rolls back the sequence, and rows stay in insertion order; DuckDB promises neither.  `M_DuckReal` leaves both open at every statement, and C121 proves that neither shows: no theorem depends on which numbers are drawn, except the bound 2^63 on how many, and the order of collections.

## 2. Plan per property

| id | model | proof |
| --- | --- | --- |
| C01-C07 | `M_Mem` | reachable-state invariant (sorted maps of sorted sets); each call characterised through the public reads; C01 by induction over histories against a history predicate. C02 and C06 are refuted for the backends that violate the trait docs, proved for those that keep them |
| C08, C09 | `M_Mem.filter` | induction over the loop, both the result and the exact panic condition |
| C10, C11 | `M_Mem.match_query*` | case analysis against substitution semantics |
| C12 | `M_Heed` codec | base-256 arithmetic, array-update loop invariants |
| C13-C21 | `M_Heed` | inductive invariant over all histories with arbitrary commit outcomes; simulation of the contract; refutations by concrete witnesses |
| C22-C25 | `M_Duck` | same, over SQL tables |
| C26 | all three | each backend simulates the same contract; outputs of related states agree |
| C27-C31 | `M_Graph` over `trips_impl` | image of a set under normalisation |
| C32-C35 | `M_Regex`, `M_Lexer` | derivatives are proved equal to the denotation of regular expressions; longest match by induction; seam lemmas |
| C36-C39 | `M_Parser` | soundness and completeness against an inductive grammar; fuel bound |
| C40-C43, C62 | `M_Display` | printing to tokens, then the parser's completeness |
| C44-C53 | `M_Interp` | unfolding equations, induction on fuel / call lists |
| C55-C59 | `M_Hosts` | folds |
| C54 | `M_Interp.run` | a script that does not parse has no effect |
| C60 | `M_Interp` over LMDB | refutation by a witness crash point, and the exact set of possible outcomes |
| C61 | `M_Base` UTF-8 encoding | arithmetic on the four encoding lengths |
| C63 | `trips_impl` records | case analysis per backend; refuted, exact behaviour per backend |
| C64, C65 | `M_Lexer`, `M_Parser`, `M_Interp` | tokens of a concatenation; the parser's completeness; induction over the evaluation of calls |
| C66, C67 | `M_Lig` | same derivative machinery as C32-C35 |
| C68-C70 | `M_Hosts` | folds over input sequences; printing and re-reading |
| C71 | `M_Interp` over an instrumented store (`S_Port.watched`) | simulation of stores lifted through the interpreter (`P_Sim`) |
| C72 | `M_Txn` | every action is transparent without faults and stuck after the first; then the exact number of writes |
| C73 | `M_DuckTxn` | every action is strict in failures; history induction |
| C74 | `M_Conc` | interpreter as a resumption tree, proved equal to `M_Interp`; per-collection bisimulation between the shared run and the run alone, by induction on the schedule |
| C75 | `M_Conc` | invariant: what the store shows plus what the clients have left to do is constant; induction on the schedule |
| C76 | `M_Conc` | size of a script's values bounds its calls; tokens bound the size, characters bound the tokens |
| C77-C79 | `M_Graph` over the three stores | a history of graph calls is a history of store calls; `live`/`holds_after` translated through the normal form; then C01, C15, C20, C22, C23, C26 |
| C80 | `M_Conc` over LMDB and DuckDB | the invariant of C75 for one client, repeated; on DuckDB the first collection stays in the table once created |
| C81 | `M_Mem`, `M_Heed`, `M_Duck` | per-collection observation preserved by calls on other collections; history induction against the projected history |
| C82 | `M_Open` | every gated action equals the ungated one or panics; which tables `new` opens by computation; induction over sessions |
| C83 | `M_Mem`, `M_Heed`, `M_Duck` | a bisimulation over pairs of histories: same observations (and on LMDB same known words) answer every call alike and stay so |
| C84 | `M_Mem`, `M_Heed`, `M_Duck` | the effect of a call on what is observed is idempotent; then C83 |
| C85 | `M_Mem`, `M_Heed`, `M_Duck` | the effect of two batches on what is observed is that of the merged batch; then C83 |
| C86 | M_Derive: what `derive(PartialEq, PartialOrd, Ord, Hash)` generates for the data types, and the hand-written `Hash for WanderValue`; a hash is the byte sequence fed to the hasher | S_Derive: contracts of equality, order and hash feeds. `is_order` for slots and queries by cases and lexicographic pairing; feeds are prefix-free because 0xff ends a string and no UTF-8 byte is 0xff |
| C87 | M_Serde: the code `derive(Serialize, Deserialize)` generates for ligature and wander types, as functions to and from JSON trees (serde's default conventions: tuple structs are arrays, variants are externally tagged; error messages not modelled) | S_Json: shapes as relations (fields in any order, extra fields). Writing has the shape, every shape is read as the value, by induction over values; reading gives sorted sets by `bs_collect` |
| C88 | M_Serde `json_print`: `serde_json::to_string` | S_Json: the RFC 8259 grammar as a relation with blanks (numbers over-approximated, surrogate escapes left out). Printed trees denote themselves; uniqueness by induction over the tree with the rest of the text generalised |
| C89 | M_Serde `wasm_js`: ligature-wasm `run` up to the JavaScript value `serde_wasm_bindgen` makes (maps become Map, structs objects); key order of the Map and the error's text are abstract | from C55 and the shapes of nodes and edges |
| C90 | M_Display `display` over the whole value type, quotes nested; S_Display `same_names` relates values differing in namespaces and language tags only | the printer is uniquely decodable: structural induction with a prefix-free lemma for every constructor |
| C91 | M_Interp `run` over M_Graph over each store; S_Names: words of a script by the lexical grammar `lexes`, names of a value, names readable in a store, texts of docs, sessions | two-predicate invariant (names of arguments, names of results and store) carried through the big-step semantics by mutual induction; each store shown to hold only what was added (from its history theorem); grammar induction from tokens to arguments |
| C92 | as C91, with the printer | C91's invariant with the predicate of plain characters, then C41; in general C91's shape of answers, then C42; refuted for backslashes |
| C93 | sessions of scripts as in C91; LMDB with failing commits (`flaky`) | a run is a history of creations and additions (C48); those are monotone on LMDB and DuckDB; in memory let empties its collection (example) |
| C94 | a script as the client program of C74, on two stores that look alike; room for ids counted from the session's own calls (`session_calls`, `total_needed`) | induction over the program: each call answers alike and keeps C83's relation |
| C95 | the request loop on bytes (`M_Bytes`), with Rust's UTF-8 validation (external) written out; error texts that are not modelled are a parameter `show` | decoder proved inverse to the encoder of `S_Str` case by case on byte ranges; server by induction on the messages; answers by C91 |
| C96 | the three stores run on a history and on the renamed history (`S_Rename`) | mem: a renaming commutes with the map of sets; LMDB and DuckDB: contents of both runs by C15 and C22, answers by C20 and C23, related step by step |
| C97 | `M_Debug` (`{:?}` of tokens and errors), `S_Errors` (the list of errors) | induction over the semantics of C44 with the invariant of C91; the escapes are decodable, and the exact text of a parse error and of the REPL's line is given by a small grammar of Rust literals in `S_Errors` |
| C98 | `S_Calm`: a check on the parsed calls, with the collections known to exist | induction on the check, over the semantics of C44; existing collections stay (C93) |
| C99 | `S_Undo`: a call and the call that takes it back; stacks of them | one undo from the effect lemmas of each store; stacks by induction, replaying the last undo on a store that looks the same |
| C100 | `M_Redb`: a disk of files of typed tables; every step that can fail for outside reasons fails or not as a parameter (`luck`) | the six `open_table` calls as a loop over distinct names; case analysis on the failing step; histories by induction |
| C101 | all of wander (lexer, parser, commands) on the three stores, on release builds of the LMDB store (C122) and on DuckDB databases that permute rows and lose numbers (C121); the reference `S_Wander` is written without any function of the model except data types and `json_text`-style relations | mutual induction on evaluations, a record of what each store's read/filter/let do (`abides`), the interpreter over a store with a log (for the id budgets); determinism of the reference by inversion |
| C102 | `M_HeedBytes`: heed.rs once more over tables of byte strings, every codec in place; `S_HeedBytes` | the byte tables are the image of `M_Heed`'s under an order-preserving injective encoding (UTF-8 order is code point order, big-endian order is numeric order), call by call; then the invariants of C13-C15; arbitrary files by induction on the table |
| C103 | `M_Interp`'s step bound read as stack room (`S_Depth`): every cycle of the Rust call graph passes `run_quote`, tokenizer and parser are loops | nesting equals the interpreter's depth; parsed values nest at most once by the grammar of C36; towers of assert-fail for the lower bound |
| C104 | the stores' tables in `M_Mem`, `M_Heed`, `M_Duck`; counts by `number` (a duplicate-free list of exactly the things with a property), `abandoned`, `creations`, `standing` (`S_Space`) | invariants: LMDB rows of live collections correspond one to one to held triples, rows of dead ids to what was abandoned, ids never reused; DuckDB rows carry the position of the addition that made them; loops of calls by induction on the number of rounds |
| C105 | `S_CalmOn`: the check of C98 for each of the three stores, listing the names let; `clumsy_on` for single calls | induction on the check over the reference semantics of C101 (what is present stays, what becomes present was let), then C101 carries it to the code |
| C106 | `with_trouble` (`S_Trouble`): each call made with LMDB fine (`M_Heed`), its commit failing, its j-th write failing (`M_Txn`) or tables not opening (`M_Open`) | every call is either the untroubled one, or leaves the file as it was; induction over the history picks the clean calls, C15 gives their meaning |
| C107 | `M_Graph` over the three stores; `g_calls_on`, `g_same_at`, `g_looks_same`, `g_same_future` (`S_GraphLaws`) speak only of the Ligature trait | a call on a graph is one call on its store (`call_lop_eq`); a graph's reads determine the store's reads because normal entries and triples correspond one to one; then C81 and C83 |
| C108 | as C107; `g_merges` (batches with the same normal forms), `g_undo_all` | C84, C85, C99 carried over the same correspondence |
| C109 | `S_Rewrite`: `exchange` (same outcome, stores that look alike, from every store that shows a world of a condition), `deep` (replacement where quotes are run), `reads_as` (text to program) | runs followed in the reference of C101, which is a function of the world; induction on the nesting; counterexamples for an empty part and for id |
| C110 | `S_Rewrite.law`: the laws as a relation | inversion of the reference's rules; C109 puts them into contexts; `C110_conditions` refutes the laws without their conditions |
| C111 | a dump of a store as a script (`S_Dump`: `dump_line` is let, the printed name and the printed entries; `dump` takes the listed collections in any order; `escapes_to` on worlds) | the text is read line by line (newline lemma, printed values read back), its lets performed against the reference of C101, fresh names bound one by one; `C111_conditions` shows what happens without the conditions |
| C112 | scripts with holes (`S_Template`: `fill`, `template`; `like_call`: the same call but for names related by R) | a quote ends whatever was being read (maximal munch), so the tokens of a filled template are those of its pieces and one string per hole; the grammar is equivariant: related tokens give related programs; unwritable names make `lex_fails`; `C112_conditions` has the two injections |
| C113 | the interpreter on the three stores, and the reference for Wander (C101); renamings as one-to-one maps of names, values and worlds related pointwise (S_Opaque, S_Template) | mutual induction over the reference: every evaluation of a value or call has a renamed evaluation on the renamed world; tokens that correspond under the renaming parse to corresponding programs or to corresponding errors; then determinism of the reference carries it to the code. Each condition has a counterexample |
| C114 | the interpreter on the three stores through the reference (C101); the names a program looks at and lets as two small inductive definitions on programs (S_Footprint) | mutual induction over the reference for an arbitrary set of names that contains those looked at: agreement on the set is kept, the rest is framed; two independent scripts are swapped (a name is let by the one, by the other or by neither, used under a double negation since contents are decidable), then induction on the permutation. Names looked at are written: induction over the grammar |
| C115 | the interpreter on the three stores through the reference (C101); an order on worlds (every collection with at least the same triples) and on answers (S_Monotone) | induction over the reference's derivations on both worlds at once (P_Monotone): every command is monotone when both answer; for scripts without assertions and variable searches the second run is built from the first; four counterexamples show what needs the conditions |
| C116 | the interleaved clients of one LMDB file (M_Conc) running scripts; the names looked at and let as in C114 | every store call a script can make is about a name it looks at, and every changing call about a name it lets (induction over the program of calls); induction over the schedule: the shared file and the file the client would have alone stay the same to look at under its names; each client's run alone is a run of the reference (C101); the separate runs are composed one after the other by the frame lemma of C114, and reordered by C114; a witness shows that reading what another lets is enough to break it |
| C117 | `triples` of heed.rs a second time, with the lines its `println!` writes, and the interpreter with what its calls print (M_Lines) | the printing versions answer what the others answer (induction); the lines follow the rows of the index, whose byte order is the order of the ids (C12); the ids of storable words grow with their first use (invariant over all histories); a script's store calls are reads only where it says read (induction over its program), and scripts never delete; a word LMDB cannot key gets a fresh id every time, so each adding of its triple leaves one row more (invariant counting rows over all histories) |
| C118 | the interleaved clients of one LMDB file (M_Conc), over the store with a schedule of failing commits (S_Interp `flaky`); the calls of a schedule with their answers as a list of events (S_ConcSee) | the store after a schedule is the store after its calls in order (induction over the schedule), hence one history; every call of the program of a script is one of four that do not remove (C116's lemma); induction over the schedule with the histories of the calls that took effect: presence and contents grow, come from the start or from an event answered Ok, and with no failing commit include all of those; a witness loses its own write when a commit fails |
| C119 | every call of the LMDB store as a sequence of single LMDB operations that can be stopped after each one (M_TxnConc, the functions of M_Txn again); a system of clients, each between calls or in the middle of one, with LMDB's rules for transactions: one writer at a time, a transaction sees the file as it was when it began, commit replaces the file at once, a dead client's transaction has no effect. Not modelled: the reader table filling up, and that LMDB forbids opening named databases in overlapping transactions of one process (clients are processes, or threads that do not overlap there) | the stepwise code is the code of C72 (equation by equation); simulation: by induction over what happens, the file and the clients between calls are those of the system in which a reading call is made when it begins and a writing call when it ends (the writer's private copy is a function of the file it began with, which nobody else can change); the answers per client are a prefix; progress by induction over the code of the lock holder and the client's program; C116 and C118's growth carried over |
| C120 | the contract written in the comments of the trait Trips (trips/src/lib.rs:40-82) as a predicate on any implementation (S_Contract): its answers and effects per call, in terms of its own reading calls; the graph over it and the interpreter are those of M_Graph and M_Interp | induction over the history; the graph by C99's translation of histories; scripts by a relation between two runs (same requests, answers equal up to the texts of errors) shown for every program the interpreter makes of a script; the case is the in-memory store with two repairs, shown to keep the contract; the three shipped stores shown not to |
| C121 | `M_DuckReal.v`: every SQL statement of `duckdb.rs` as a step of a world that may, before each statement, permute the rows of the three tables, lose numbers of the sequence, or make the statement fail | `S_DuckReal.v` says what such a world may do; invariant and simulation of the table contents by induction on the history (`P_DuckReal.v`); inclusion of the two older models by a stepwise simulation; scripts (`Prop_RealScripts.v`): such a store follows the same reference (C101) as the quiet one (`P_WanderReal.v`), and the reference is a function |
| C122 | `M_HeedRel.v`: the writing functions of `heed.rs` again, with `value + 1` wrapping round as compiled without overflow checks | call by call comparison with `M_Heed.v`; the bound on numbers used gives equality of whole histories; a history that uses all 2^64 numbers is built symbolically (induction on its length) to show the bound is exact; an invariant that survives wrap-around (every stored number has a word) for reading; scripts through the reference of C101 |
| C123 | the interpreter as a program of store calls (`M_Conc`), cut after any number of calls and begun again (`S_Again.v`); the reference of C101 for LMDB | induction over the reference: a script that reads nothing it lets does the same on every world between the one it began with and the one it leaves (`P_Again.v`, `steady`); induction on the attempts: each leaves a store between; for other scripts the monotonicity of C115 gives both bounds |
| C124 | the interpreter as a program of store calls (`M_Conc`) stopped after any number of them, lives of stores as lists of runs and deaths; the worlds a death may leave as an extension of the reference of C101 (`S_Deaths.v`) | induction over the interpreter's fuel and the calls of a script: the stores where the program can stop show exactly the worlds of `dies_in`, both directions (`P_Deaths.v`, `P_DeathRun.v`); the first half of a let binds the name to nothing on every back-end; deaths inside an LMDB call via C119 |
| C125 | the interpreter on the LMDB store whose calls are sequences of single writes with a list of faults to come (`M_Txn`, `M_TxnConc`, `lmdb_at_once`); the reference of C101 with the let left open, and the let of a failing disk (`S_Failing.v`) | each store call is the normal one or leaves the store as it was (`write_failure` of C83's proofs), so a let is one of four ways; then induction over the semantics of the interpreter for the one direction and over the derivations of the reference, choosing the faults, for the other (`P_Failing.v`, `P_FailRun.v`) |
| C126 | `M_Commands.v`: a command is a body that answers, makes a trait call or has calls run and goes on with the result (an interaction tree); the nine commands of the prelude written once more as such bodies; `run_calls` with a bound on the runs open at a time. `S_Commands.v`: the meaning of a program as an inductive relation without a bound | the bounded interpreter computes the relation (mutual induction; monotone in the bound); the prelude's bodies give `M_Interp`'s results (induction on fuel); quotes inside arguments are shallower, so modest tables end; agreement of two tables and of two stores by induction on the bound (`P_Commands.v`) |
| C127 | the interpreter as a program of trait calls (C95) cut after any number of calls, on the LMDB store with a list of faults to come (C125); `S_Retry.v`: the scripts of a life, the results somebody has seen | a program uses up its faults one write call at a time (induction on the program); a kill is the rest of the program with all commits failing; lives become sessions of C125, both ways; begun again: a failing run leaves a world between the old and the new one (mutual induction on the reference, for steady and for plain scripts), then as in C123 |
| C128 | the interpreter with any host commands (M_Commands) written out as a client that makes one store call after another (M_HostConc) | alone it is the interpreter of C126 and with the prelude it is the client of C74-C119 (inductions over bodies, calls and depth); the calls a client of homely commands can make are bounded by the names in the script (induction), so the isolation invariant of C116 applies to it, and by C119 also operation by operation; a kill leaves a beginning of the history of its writes (induction over the client) |
| C129 | Programs as sequences of store calls (M_Conc, M_HostConc) on the LMDB model with failures (M_Txn, M_TxnConc) | Induction on the program in lockstep with the undisturbed run: an attempt's store agrees on what is read and lies between the first store and the one left in the end; a call that adds either does what it does in the good run, or nothing, or panics. Prop_AnyRetry.v |
| C130 | Clients of an LMDB file operation by operation, with faults and deaths (M_TxnConc), others as arbitrary programs (M_Conc, M_HostConc) | Through C119 the calls are made at once; induction on them keeps two files that look alike for the client's collections, the shared one and one on which it is alone; a call that goes wrong on the one is made to go wrong alike on the other by a fault of its own (its first write fails, or its commit). Prop_Isolated.v |
| C131 | The same (M_TxnConc, M_Conc, M_Interp), with the reference of C125 (S_Failing) | C130 gives for each script a run of its own in the world of the beginning (a dead one is run on with failing writes); a footprint theorem for the reference with any let that depends on its own name only (induction on the reference) lets these be put one after the other and reordered; a name nobody lets stays. Room for scripts by a bound on what they can ask for (S_ConcFail). Prop_ConcFail.v |
| C132 | The clients operation by operation (M_TxnConc) under a schedule without end (S_Fair) | Well-founded induction: every turn that does something makes one client's program smaller (its programs are well-founded trees, a call has finitely many operations left) and leaves the others'; with a turn that can do nothing there is another client, the writer, whose turn can, and it gets one later by fairness; a reader waits for nobody. Room for scripts as a budget that the calls use up. P_Fair.v, Prop_Fair.v |
| C133 | Lives of a process on one file, each a run of clients operation by operation with faults and deaths, cut anywhere (S_Gens, on M_TxnConc) | The file after a life is what a history of calls leaves (each call is made or leaves the store as it was), with room counted by what the scripts can ask for, so C131 applies to each life in turn; the chain of worlds is a run of the reference. For batches begun again: by footprint each script can be run from the world at first, so every attempt stays between that world and the one of the good run (as in C127, now for the names read and let by the whole batch), and from any world between the good run ends in the same one; C116 and C119 for the last life at once. P_Gens.v, P_GensRetry.v, Prop_Gens.v |
| C134 | Arbitrary client programs (M_Conc), operation by operation on one file with faults and deaths (M_TxnConc); [in_turn] is clients one after the other, each from its beginning to its end (S_Apart) | Each client by itself is as it could be alone (C130, with the weight of its own calls); what a client does on one history of the file under some failures it does on another one that looks the same for the collections it makes calls about, under some failures, leaving all others as they were (induction on the program); so the runs alone can be put one after the other, in any order; collections nobody may change are as at first. Room is counted by the calls made, and for those that have not ended by what they can ask for |
| C135 | The programs of scripts (M_Conc), whatever the store answers; [frugal] is a script no [let] of which is given a quote that reads or searches (S_Demand) | The text is read as calls no longer than itself (28 per token); a weighted induction on the value tree: a quote's result is no longer than what the quote left of its allowance unless it reads, and a let uses up 1 + 3 per entry. Then the room hypotheses of C131, C132 and C133 follow from the lengths of the texts alone. Without the hypothesis no bound holds (a read answer as large as one likes, refuted) |
| C136 | Lives of a process on one file (S_Lives): in each, arbitrary apart clients as in C134, faults, deaths, and an end at any moment; what was committed is what the next life begins with | C134 in a form begun on another file that looks the same (files that look alike are the same for every collection, P_Alike), then induction on the lives: the run in turn goes on from a file that looks like what the life left. Room is counted by the calls made in each life. For frugal Wander scripts the room follows from the texts (C135) |
| C137 | The file with overlapping calls (M_TxnConc), no faults and no deaths; arbitrary apart local clients; `in_turn` on the plain LMDB model; equality of results, `look_alike` for files | C119_lifts turns the run into one of calls made at once; induction on that schedule shows that each client alone, on any file that is the same for the collections it makes calls about, gets the answers it got, using up the ids of its own calls (among_own); induction on the order then; collections nobody makes calls about stay. C137_any_order and C137_fair (with C132) follow. Unlike C134 no client need fall with its calls and the results are equal, not alike |

## 3. Trusted base

* Coq's kernel (8.16.1), including its `vm_compute` machine (used only to evaluate closed examples and witnesses of refutations).
* The reading of the Rust sources recorded in the citations, and the external descriptions above.
* `Print Assumptions` is run under every property theorem: every one answers `Closed under the global context`.  No axiom, library or own, is used.
  (Loading the standard library's `ssr` files makes the checker list `Coq.ssr.ssrunder.Under_rel.*`, which are fields of a module type there; no theorem here depends on them.)

## 4. What the proofs found

Properties a user would expect that are false of the code; each has a theorem `_refuted` with a witness, and theorems saying what holds instead.

| id | finding |
| --- | --- |
| C02 | adding an existing collection empties it (in-memory) or panics (DuckDB) |
| C06 | on the in-memory and LMDB stores writing to a missing collection panics instead of returning Err |
| C18 | on LMDB a failing commit is ignored: the call answers Ok and nothing is stored |
| C19 | a name that is empty or over 511 bytes is answered Ok by LMDB and never listed |
| C21 | removing a collection on LMDB leaves its triples' rows in the file for ever |
| C31 | the graph layer keys collections by name only and drops namespaces and language tags |
| C37 | some scripts (for example a nested quote) panic the parser (`todo!()`) instead of giving an error |
| C60 | `let` on LMDB is two transactions: a crash between them leaves an empty collection |
| C63 | the in-memory store empties the caller's set, the others do not |
| C69 | what the REPL prints for two or more entries makes it panic when typed back |
| C71 | outside the discipline stated there the three stores give different results to the same script |
| C97 | a parse error shows the token after the offending one, never the offending one |
| C98 | `read`, `union` and `filter` crash the process (server, REPL) on arguments of the wrong shape; so does `let` of a quote that fails |
| C99 | LMDB: a triple with an empty or over-long word can be added but never removed by name (only with its collection); an undone addition leaves its words in the dictionary, which later removals can tell |
| C100 | `LigatureRedb::temp` has type `Result` but panics instead of answering an error; it does not check that its file is new |
| C104 | LMDB's `remove_collection` deletes the names only: the triples' six index records stay in the file for good, unreachable, and a server that creates, fills and removes collections in a loop fills its disk (`C104_lmdb_leaks`). Words are never removed from either dictionary. DuckDB stores one more row each time a triple that is already there is added (`C104_duck_grows`) |
| C72 | a full disk can be silent: if only the last write of a call fails, the call answers Ok |
| C124 | in memory a `let` killed half way loses what the name held before: the new, empty collection is stored first |
| C125 | on LMDB a failing commit makes `let` answer as if it had stored; the next `read` shows the old network or fails |
| C126 | nothing bounds the recursion of the interpreter: a host command that has itself run never ends (no limit on depth or steps) |
