{"id": "C01", "title": "In-memory store: contents are determined by history", "statement": "After any sequence of add_collection / remove_collection / add_triples / remove_triples calls on a fresh TripsMem, triples(c) returns exactly the triples whose most recent relevant call on c was an add (and fails iff c does not currently exist); the set is sorted and duplicate free.", "quantifier": "all finite call histories, all collection names, all triples", "why_tests_cant": "A test runs a handful of histories; the claim is about every finite sequence of calls and every argument.", "anchors": ["trips/src/mem.rs:TripsMem", "trips/src/lib.rs:Trips"]}
{"id": "C02", "title": "add_collection does nothing if the collection exists", "statement": "The Trips trait promises that adding a collection that already exists does nothing: the collections and the triples of every collection are unchanged.", "quantifier": "every backend, every reachable store, every name that already exists", "why_tests_cant": "A test runs a handful of histories; the claim is about every finite sequence of calls and every argument.", "anchors": ["trips/src/lib.rs:add_collection", "trips/src/mem.rs:add_collection", "trips/src/heed.rs:add_collection", "trips/src/duckdb.rs:add_collection"]}
{"id": "C03", "title": "remove_collection removes exactly that collection", "statement": "In the in-memory store, after remove_collection(c) the name c is not listed, triples(c) fails, every other collection is listed with unchanged triples, and removing an absent collection succeeds and changes nothing.", "quantifier": "every reachable in-memory store, every name", "why_tests_cant": "A test runs a handful of histories; the claim is about every finite sequence of calls and every argument.", "anchors": ["trips/src/mem.rs:remove_collection"]}
{"id": "C04", "title": "add_triples is set union on one collection", "statement": "In the in-memory store, add_triples(c, ts) on an existing c succeeds; afterwards c holds exactly its old triples plus ts, no other collection changes, no collection appears or disappears, and the caller's set ts is left empty.", "quantifier": "every reachable in-memory store, every set of triples", "why_tests_cant": "A test runs a handful of histories; the claim is about every finite sequence of calls and every argument.", "anchors": ["trips/src/mem.rs:add_triples"]}
{"id": "C05", "title": "remove_triples is set difference on one collection", "statement": "In the in-memory store, remove_triples(c, ts) on an existing c succeeds; afterwards c holds exactly its old triples not in ts, nothing else changes, and the caller's set is unchanged.", "quantifier": "every reachable in-memory store, every set of triples", "why_tests_cant": "A test runs a handful of histories; the claim is about every finite sequence of calls and every argument.", "anchors": ["trips/src/mem.rs:remove_triples"]}
{"id": "C06", "title": "Writing to a missing collection reports an error", "statement": "The Trips trait promises that add_triples and remove_triples return Err when the collection does not exist, with the store unchanged.", "quantifier": "every backend, every reachable store, every missing name", "why_tests_cant": "A test runs a handful of histories; the claim is about every finite sequence of calls and every argument.", "anchors": ["trips/src/lib.rs:Trips", "trips/src/mem.rs:add_triples", "trips/src/heed.rs:add_triples", "trips/src/duckdb.rs:add_triples"]}
{"id": "C07", "title": "collections() lists exactly the live names", "statement": "In the in-memory and LMDB stores collections() is strictly increasing in string order and contains exactly the existing collections; in the DuckDB store it contains each exactly once (order unspecified). In the LMDB store this also holds after any failed commits, and names LMDB cannot store as keys are never among them.", "quantifier": "every reachable store", "why_tests_cant": "Order and duplicate freedom must survive every history of adds and removes.", "anchors": ["trips/src/mem.rs:collections", "trips/src/heed.rs:collections", "trips/src/duckdb.rs:collections"]}
{"id": "C08", "title": "filter returns exactly the matching triples", "statement": "In the in-memory store, filter(c, pattern) without variables on an existing collection returns exactly the triples of c that agree with the pattern in every Value slot, as a sorted set, and does not change the store; on a missing collection it returns Err with the text `Collection not found.` (triples: `Collection` and the name in backticks and `not found.`).", "quantifier": "every store, collection and variable-free pattern", "why_tests_cant": "2^3 shapes of pattern over unbounded data.", "anchors": ["trips/src/mem.rs:filter"]}
{"id": "C09", "title": "filter with a variable slot", "statement": "In the in-memory store, filter with a Variable slot panics exactly when some triple of the collection passes all the slots before the first Variable; otherwise it returns the (empty) set. So the variable patterns of the public Query type are not supported.", "quantifier": "every store, collection and pattern", "why_tests_cant": "Whether it panics depends on the data, so a test on one data set cannot settle it.", "anchors": ["trips/src/mem.rs:filter", "trips/src/lib.rs:Slot"]}
{"id": "C10", "title": "Single pattern matching computes the unique binding", "statement": "match_query_single(q, t) returns a binding m iff q with its variables replaced by m is t (Any matching anything) and m binds exactly the variables of q; it returns None iff no binding makes q equal t. Repeated variables must agree.", "quantifier": "every pattern and triple", "why_tests_cant": "Interaction of repeated variables across three slots over unbounded strings.", "anchors": ["trips/src/mem.rs:match_query_single"]}
{"id": "C11", "title": "Pattern matching over a collection", "statement": "match_query(q, ts) returns one binding per matching triple, in triple order, and nothing else.", "quantifier": "every pattern and set", "why_tests_cant": "Unbounded sets.", "anchors": ["trips/src/mem.rs:match_query"]}
{"id": "C12", "title": "LMDB row keys are an exact, order-preserving code", "statement": "For any four u64 ids the 32-byte row key built from their big-endian bytes decodes to the same four ids; different id quadruples have different keys; and keys compare bytewise exactly as the quadruples compare numerically. Decoding a slice longer than 8 bytes panics.", "quantifier": "all u64 values (2^256 keys)", "why_tests_cant": "The domain cannot be enumerated.", "anchors": ["trips/src/heed.rs:merge_arrays", "trips/src/heed.rs:read_id"]}
{"id": "C13", "title": "The six LMDB indexes stay consistent", "statement": "In every reachable LMDB store the six permuted index tables hold exactly the same set of (collection, first, second, third) rows.", "quantifier": "all histories, including panicking calls and failed commits", "why_tests_cant": "A test runs a handful of histories; the claim is about every finite sequence of calls and every argument.", "anchors": ["trips/src/heed.rs:add_triples", "trips/src/heed.rs:remove_triples"]}
{"id": "C14", "title": "LMDB dictionary is consistent and ids are never reused", "statement": "In every reachable LMDB store every id in a table is at most the persistent counter, value_to_id and id_to_value agree, collection_to_id and id_to_collection agree on live names, every row's value ids are in the dictionary, and the counter never decreases. Whatever happens later, the number of a collection is never another collection's and the number of a word never another word's; a word keeps its number for ever, and a collection removed and created again has a greater number.", "quantifier": "all histories", "why_tests_cant": "A test runs a handful of histories; the claim is about every finite sequence of calls and every argument.", "anchors": ["trips/src/heed.rs:add_collection", "trips/src/heed.rs:add_triples"]}
{"id": "C15", "title": "LMDB store: contents are determined by history", "statement": "After any sequence of calls whose commits succeed on a fresh TripsHeed, the collections and triples it reports are exactly those given by the trait's contract applied to the calls that returned Ok, provided collection names are storable LMDB keys.", "quantifier": "all finite call histories", "why_tests_cant": "A test runs a handful of histories; the claim is about every finite sequence of calls and every argument.", "anchors": ["trips/src/heed.rs:TripsHeed"]}
{"id": "C16", "title": "A re-created LMDB collection is empty", "statement": "In the LMDB store, remove_collection(c) followed by add_collection(c) gives an empty c, although the old rows are still in the index tables.", "quantifier": "every reachable LMDB store and name", "why_tests_cant": "Depends on ids never being reused over the whole history.", "anchors": ["trips/src/heed.rs:remove_collection", "trips/src/heed.rs:add_collection"]}
{"id": "C17", "title": "LMDB calls are all-or-nothing", "statement": "Every write call on the LMDB store either has its full effect or none: a call that panics, returns early or whose commit fails leaves every table unchanged.", "quantifier": "all states, calls, crash points", "why_tests_cant": "Needs every panic and crash point.", "anchors": ["trips/src/heed.rs:write_txn", "trips/src/heed.rs:commit"]}
{"id": "C18", "title": "Acknowledged LMDB writes are durable", "statement": "If add_collection or add_triples on the LMDB store returns Ok, its effect is visible to later calls.", "quantifier": "all states, calls and commit outcomes", "why_tests_cant": "The commit outcome is an environment choice a test cannot force.", "anchors": ["trips/src/heed.rs:add_collection", "trips/src/heed.rs:add_triples"]}
{"id": "C19", "title": "Any collection name can be stored in LMDB", "statement": "add_collection(c) returning Ok on the LMDB store means c is listed afterwards, for every string c.", "quantifier": "all strings", "why_tests_cant": "Fails only for names LMDB rejects as keys (empty or over 511 bytes).", "anchors": ["trips/src/heed.rs:add_collection"]}
{"id": "C20", "title": "LMDB calls on missing collections or unknown values", "statement": "On the LMDB store remove_collection, triples, add_triples and remove_triples panic exactly when the collection is missing; remove_triples also panics exactly when some value of some triple is not in the dictionary (up to counter overflow).", "quantifier": "every reachable store and argument", "why_tests_cant": "A test runs a handful of histories; the claim is about every finite sequence of calls and every argument.", "anchors": ["trips/src/heed.rs:remove_collection", "trips/src/heed.rs:triples", "trips/src/heed.rs:remove_triples"]}
{"id": "C21", "title": "Removing an LMDB collection frees its rows", "statement": "After remove_collection(c) on the LMDB store no row of c's triples remains in the index tables.", "quantifier": "every reachable store", "why_tests_cant": "Leaks are invisible through the API.", "anchors": ["trips/src/heed.rs:remove_collection"]}
{"id": "C22", "title": "DuckDB store: contents are determined by history", "statement": "After any sequence of calls on a fresh TripsDuckDB, the collections and triples it reports are exactly those given by the trait's contract applied to the calls that returned Ok.", "quantifier": "all finite call histories", "why_tests_cant": "A test runs a handful of histories; the claim is about every finite sequence of calls and every argument.", "anchors": ["trips/src/duckdb.rs:TripsDuckDB"]}
{"id": "C23", "title": "DuckDB calls outside the contract", "statement": "On the DuckDB store add_collection of an existing name panics, remove_collection of a collection that holds triples panics, triples of a missing collection returns an empty set, and none of these changes anything.", "quantifier": "every reachable store", "why_tests_cant": "A test runs a handful of histories; the claim is about every finite sequence of calls and every argument.", "anchors": ["trips/src/duckdb.rs:add_collection", "trips/src/duckdb.rs:remove_collection", "trips/src/duckdb.rs:triples"]}
{"id": "C24", "title": "DuckDB triples are a set although rows are not", "statement": "Adding the same triple n times to a DuckDB collection is observed once, and removing it once removes it.", "quantifier": "all histories", "why_tests_cant": "Rows are duplicated; only the reads hide it.", "anchors": ["trips/src/duckdb.rs:add_trip", "trips/src/duckdb.rs:remove_trip"]}
{"id": "C25", "title": "DuckDB error rolls back", "statement": "add_triples / remove_triples on a missing DuckDB collection return the error `Collection <name> not found.` and leave every table, and the caller's set, unchanged.", "quantifier": "every reachable store", "why_tests_cant": "A test runs a handful of histories; the claim is about every finite sequence of calls and every argument.", "anchors": ["trips/src/duckdb.rs:add_triples", "trips/src/duckdb.rs:get_collection_id"]}
{"id": "C26", "title": "Backends are interchangeable for disciplined clients", "statement": "For every history in which collections are created only when absent, read, written and removed only when present (removed when empty, triples removed only when present), with storable names and values, the in-memory, LMDB and DuckDB stores give the same answers to every call (up to the order of collections()).", "quantifier": "all disciplined histories", "why_tests_cant": "A test runs a handful of histories; the claim is about every finite sequence of calls and every argument.", "anchors": ["trips/src/mem.rs", "trips/src/heed.rs", "trips/src/duckdb.rs"]}
{"id": "C27", "title": "Entries survive storage", "statement": "For entries without namespace or language tag and whose role is neither ':' nor '¬:', what entries(c) returns after add_entries(c, es) contains exactly es plus what was there before.", "quantifier": "all in-memory graph states and entry sets", "why_tests_cant": "A test runs a handful of histories; the claim is about every finite sequence of calls and every argument.", "anchors": ["ligature-graph/src/lib.rs:add_entries", "ligature-graph/src/lib.rs:entries"]}
{"id": "C28", "title": "Storage normalises entries", "statement": "For arbitrary entries the stored content is the image under a fixed normalisation: namespaces and language tags are dropped and roles named ':' / '¬:' become Extends / NotExtends. In particular a Role and an Extends entry can collapse into one.", "quantifier": "all graph states and entry sets", "why_tests_cant": "A test runs a handful of histories; the claim is about every finite sequence of calls and every argument.", "anchors": ["ligature-graph/src/lib.rs:add_entries", "ligature-graph/src/lib.rs:entries", "ligature/src/lib.rs:Element"]}
{"id": "C29", "title": "remove_entries removes exactly the given entries", "statement": "After remove_entries(c, es) on an existing collection, entries(c) is the old set minus the normalised es, and other collections are unchanged.", "quantifier": "all graph states and entry sets", "why_tests_cant": "A test runs a handful of histories; the claim is about every finite sequence of calls and every argument.", "anchors": ["ligature-graph/src/lib.rs:remove_entries"]}
{"id": "C30", "title": "Graph filter agrees with entries", "statement": "filter(c, pattern) returns exactly those entries of entries(c) that match the pattern, '?' in a position matching anything, and Extends / NotExtends patterns matching only their own kind. A pattern with a name beginning with '?' other than '?' itself is not supported: the call panics exactly when some entry agrees with every position before the first such name, otherwise it returns the empty set.", "quantifier": "all graph states, all patterns", "why_tests_cant": "Unbounded data and patterns.", "anchors": ["ligature-graph/src/lib.rs:filter", "ligature-graph/src/lib.rs:check_value"]}
{"id": "C31", "title": "Collections that differ only in namespace are distinct", "statement": "add_collection with two Elements of the same name but different namespaces creates two collections.", "quantifier": "all Elements", "why_tests_cant": "Fails only on namespaced names.", "anchors": ["ligature-graph/src/lib.rs:add_collection", "ligature/src/lib.rs:Element"]}
{"id": "C32", "title": "Tokenising is lossless", "statement": "If tokenize(s) succeeds the texts of the tokens, in order, concatenate to s.", "quantifier": "all scripts", "why_tests_cant": "Unbounded strings.", "anchors": ["wander/src/lexer.rs:tokenize"]}
{"id": "C33", "title": "Tokens are longest matches", "statement": "Every token is the longest prefix of the remaining input any rule matches and, among the rules matching that prefix, the one of highest priority; tokenize fails exactly when some remaining input has no matching prefix.", "quantifier": "all scripts", "why_tests_cant": "Unbounded strings; overlapping rules ([, ], --).", "anchors": ["wander/src/lexer.rs:Token"]}
{"id": "C34", "title": "Whitespace, newlines and comments do not matter", "statement": "For scripts s1 and s2 with s1 tokenisable, the significant tokens of s1 ++ newline ++ s2 are those of s1 followed by those of s2.", "quantifier": "all pairs of scripts", "why_tests_cant": "Unbounded strings; merging tokens at the seam.", "anchors": ["wander/src/lexer.rs:tokenize_and_filter"]}
{"id": "C35", "title": "Quoted strings are taken verbatim", "statement": "For every s without control characters, quotes or backslashes, the script \"s\" in quotes is the single element named s; escape sequences are not decoded.", "quantifier": "all strings", "why_tests_cant": "Unbounded strings.", "anchors": ["wander/src/lexer.rs:trim_string", "wander/src/lexer.rs:string"]}
{"id": "C36", "title": "The parser accepts exactly the Wander grammar", "statement": "parse(tokens) returns Ok(calls) iff the tokens derive calls in the grammar: calls separated by commas (a trailing comma allowed), a call being an element followed by values, networks in braces with comma-separated three-element entries, quotes in parentheses holding elements and networks.", "quantifier": "all token lists", "why_tests_cant": "Unbounded token lists.", "anchors": ["wander/src/parser.rs:parse", "wander/src/parser.rs:read_network", "wander/src/parser.rs:read_quote"]}
{"id": "C37", "title": "Malformed scripts give errors, not panics", "statement": "run on a script that is not well formed returns Err.", "quantifier": "all scripts", "why_tests_cant": "Needs all malformed inputs.", "anchors": ["wander/src/parser.rs:parse"]}
{"id": "C38", "title": "The parser always terminates", "statement": "parse and its helpers return (or panic) after consuming at most the whole token list.", "quantifier": "all token lists", "why_tests_cant": "Termination is not testable.", "anchors": ["wander/src/parser.rs:parse"]}
{"id": "C39", "title": "Comma composes scripts", "statement": "If t1 is a non-empty token list parsing to c1 and not ending in a comma then parsing t1, comma, t2 gives c1 followed by the calls of t2 (or t2's failure).", "quantifier": "all token lists", "why_tests_cant": "Unbounded.", "anchors": ["wander/src/parser.rs:parse"]}
{"id": "C40", "title": "Printed elements are one token", "statement": "The printed form of every element tokenises to exactly one string token whose content is the JSON-escaped name.", "quantifier": "all strings", "why_tests_cant": "Unbounded strings with every control character.", "anchors": ["wander/src/lib.rs:Display for WanderValue", "ligature/src/lib.rs:Display for Element"]}
{"id": "C41", "title": "Printed values read back", "statement": "For values (elements, networks, quotes of elements and networks) whose names contain no control character, quote or backslash, no namespace, and whose roles are not reserved, parsing the printed form gives the same value.", "quantifier": "all such values", "why_tests_cant": "Unbounded nested values.", "anchors": ["wander/src/lib.rs:write_network", "wander/src/lib.rs:write_quote", "wander/src/parser.rs"]}
{"id": "C42", "title": "Printing loses information only through normalisation", "statement": "For arbitrary values the printed form reads back as the value with names JSON-escaped, namespaces dropped and reserved roles normalised; it is not the identity for names with quotes.", "quantifier": "all values", "why_tests_cant": "Unbounded.", "anchors": ["wander/src/lib.rs:Display for WanderValue"]}
{"id": "C43", "title": "write_string escapes injectively", "statement": "write_string is injective and undoing the five escapes recovers the string; its output is a single string token exactly when the string has no control characters other than newline, carriage return and tab.", "quantifier": "all strings", "why_tests_cant": "Sequential replace calls could interfere.", "anchors": ["wander/src/lib.rs:write_string", "lig/src/lib.rs:write_string"]}
{"id": "C44", "title": "Running calls always terminates", "statement": "run_calls and run_quote with the common commands satisfy their defining equations on all values: evaluation never runs forever, however quotes are nested.", "quantifier": "all values, states", "why_tests_cant": "Termination is not testable.", "anchors": ["wander/src/lib.rs:run_calls", "wander/src/lib.rs:run_quote"]}
{"id": "C45", "title": "Calls compose sequentially; failure keeps earlier effects", "statement": "run_calls(cs1 ++ cs2) is run_calls(cs1) then, if it succeeded, run_calls(cs2) on the resulting state, returning the last result; an error stops the run and earlier effects stay.", "quantifier": "all call lists, command tables and states", "why_tests_cant": "Unbounded.", "anchors": ["wander/src/lib.rs:run_calls"]}
{"id": "C46", "title": "Query commands do not change the store", "statement": "id, ignore, docs, union, read and filter leave the store unchanged on every argument list.", "quantifier": "all arguments and states", "why_tests_cant": "Unbounded.", "anchors": ["wander/src/prelude.rs"]}
{"id": "C47", "title": "let then read", "statement": "On the default in-memory graph, after let name network succeeds, read name returns the normalised network and nothing else (any previous content of name is gone), whether the network is given directly or by a quote.", "quantifier": "all networks, names, states", "why_tests_cant": "A test runs a handful of histories; the claim is about every finite sequence of calls and every argument.", "anchors": ["wander/src/prelude.rs:let_command", "wander/src/prelude.rs:read_command"]}
{"id": "C48", "title": "let touches only its name", "statement": "A let call changes no collection other than the ones named by it and by lets nested in its quote.", "quantifier": "all arguments and states", "why_tests_cant": "A test runs a handful of histories; the claim is about every finite sequence of calls and every argument.", "anchors": ["wander/src/prelude.rs:let_command"]}
{"id": "C49", "title": "assert-equal decides equality", "statement": "assert-equal a b succeeds iff a and b, after evaluating quotes left to right, are equal; else Err.", "quantifier": "all values and states", "why_tests_cant": "Unbounded values.", "anchors": ["wander/src/prelude.rs:assert_equal_command"]}
{"id": "C50", "title": "assert-fail inverts failure but not effects", "statement": "assert-fail (q) succeeds iff q returns Err and fails iff q returns Ok; in both cases q's effects on the store remain; a panic is not caught.", "quantifier": "all quotes and states", "why_tests_cant": "Unbounded.", "anchors": ["wander/src/prelude.rs:assert_fail_command"]}
{"id": "C51", "title": "docs lists every command once", "statement": "docs returns exactly one docString role per registered command, whatever the hash map's iteration order.", "quantifier": "all command tables and orders", "why_tests_cant": "Iteration order is random.", "anchors": ["wander/src/prelude.rs:docs_command"]}
{"id": "C52", "title": "union is set union", "statement": "union of two networks is the sorted union; idempotent, commutative, associative.", "quantifier": "all networks", "why_tests_cant": "Unbounded.", "anchors": ["wander/src/prelude.rs:union_command"]}
{"id": "C53", "title": "filter command", "statement": "On the in-memory graph filter c a b d returns exactly the entries of read c matching first=a, role=b, second=d with '?' as wildcard; a missing collection panics. With a variable name among a, b, d it panics exactly when some entry of read c agrees with every position before the first one, otherwise it returns the empty network.", "quantifier": "all stores and arguments", "why_tests_cant": "Unbounded.", "anchors": ["wander/src/prelude.rs:filter_command"]}
{"id": "C54", "title": "A script that does not parse has no effect", "statement": "If tokenising or parsing fails (Err or panic) the store is unchanged.", "quantifier": "all scripts and states", "why_tests_cant": "Unbounded.", "anchors": ["wander/src/lib.rs:run"]}
{"id": "C55", "title": "Graphology export is a well-formed graph", "statement": "Every edge's source and target are nodes, every node is an endpoint, edges correspond exactly to the entries' triples, for every collection of the store.", "quantifier": "all networks and stores", "why_tests_cant": "Unbounded.", "anchors": ["ligature-wasm/src/lib.rs:graph_to_graphology", "ligature-wasm/src/lib.rs:ligature_to_graphology"]}
{"id": "C56", "title": "The server answers requests in order on one store", "statement": "The ZeroMQ server sends exactly one reply per request until a request panics; reply k is the rendering of running script k on the store left by scripts 1..k-1; a panicking request stops the server.", "quantifier": "all request sequences", "why_tests_cant": "Unbounded histories.", "anchors": ["ligature-zeromq/src/main.rs:main"]}
{"id": "C57", "title": "REPL commands never touch the store or panic", "statement": "A line whose first non-space character is ':' never panics, never changes the store, and ends the session iff its first word is :q or :quit; any other line never ends the session (unless it panics).", "quantifier": "all lines and states", "why_tests_cant": "Unicode whitespace and all strings.", "anchors": ["wander-repl/src/lib.rs:start_repl", "wander-repl/src/lib.rs:handle_command"]}
{"id": "C58", "title": "Test-suite totals", "statement": "The reported completed count is the number of scripts that succeed on a fresh store, and the total the number of .wander files.", "quantifier": "all script lists", "why_tests_cant": "Unbounded.", "anchors": ["ligature-test-suite/src/main.rs:main"]}
{"id": "C59", "title": "redb id allocation", "statement": "Successive next_id calls of one kind return 0,1,2,... without repetition and do not affect other kinds, until u64 overflow; the table then has a record for each kind asked for, under the keys `Datasets`, `Identifiers` and `Strings`, holding the last id given.", "quantifier": "all call sequences", "why_tests_cant": "Unbounded.", "anchors": ["ligature-redb/src/lib.rs:next_id"]}
{"id": "C60", "title": "let is atomic across crashes on LMDB", "statement": "If the process dies during let on an LMDB-backed graph, afterwards either nothing or everything of the let is visible.", "quantifier": "all crash points", "why_tests_cant": "Crash points cannot be enumerated by tests.", "anchors": ["wander/src/prelude.rs:let_command", "trips/src/heed.rs"]}
{"id": "C61", "title": "Bytewise string order is code point order", "statement": "Two Rust strings compare (as UTF-8 bytes, which is how BTreeMap/BTreeSet and LMDB order them) exactly as their code point sequences.", "quantifier": "all pairs of valid strings", "why_tests_cant": "Unbounded strings.", "anchors": ["trips/src/lib.rs:Trip", "ligature/src/lib.rs:Entry"]}
{"id": "C62", "title": "Networks have one canonical printed form", "statement": "Two networks with the same entries print the same text; for plain networks without reserved roles the same text implies the same network.", "quantifier": "all networks", "why_tests_cant": "Unbounded.", "anchors": ["wander/src/lib.rs:write_network"]}
{"id": "C63", "title": "All stores treat the caller's triple set alike", "statement": "add_triples leaves the caller's set of triples in the same condition in every backend.", "quantifier": "all histories and sets", "why_tests_cant": "Depends on the backend chosen at run time.", "anchors": ["trips/src/mem.rs:add_triples", "trips/src/heed.rs:add_triples", "trips/src/duckdb.rs:add_triples"]}
{"id": "C64", "title": "Scripts concatenate", "statement": "Running a script, a comma and a newline, and a second script is running the first and then the second on the store the first leaves; if the first fails the second is not run and the first one's result and effects stand. A newline alone does not separate calls.", "quantifier": "all pairs of scripts of the language, all stores and command tables", "why_tests_cant": "Unbounded texts; lexing and parsing of the joined text must not merge the ends.", "anchors": ["wander/src/lib.rs:run", "wander/src/lexer.rs:tokenize_and_filter", "wander/src/parser.rs:parse"]}
{"id": "C65", "title": "White space and comments do not change what a script does", "statement": "Inserting blank lines and comments before, after or between the lines of a script changes neither the result nor the effects; any text up to the end of the line can be commented out with two dashes where a token can start.", "quantifier": "all scripts, all blank texts and comments", "why_tests_cant": "Unbounded texts, including comments that contain code or quotes.", "anchors": ["wander/src/lexer.rs:Token::Comment", "wander/src/lexer.rs:tokenize_and_filter", "wander/src/lib.rs:run"]}
{"id": "C66", "title": "The lig tokenizer answers the longest-match reading, or panics on names", "statement": "lig's tokenize returns Ok exactly with the longest-match reading of the text, Err exactly when no token matches somewhere, and panics (todo!) exactly when reading arrives at a name; so every text containing a name where a token can start panics. The position-free tokenizer of read.rs answers the same.", "quantifier": "all texts", "why_tests_cant": "Unbounded texts and all three kinds of outcome.", "anchors": ["lig/src/lexer.rs:tokenize", "lig/src/lexer.rs:name", "lig/src/read.rs:tokenize"]}
{"id": "C67", "title": "lig locations are byte offsets into the text", "statement": "Each token's location is the number of UTF-8 bytes before it, tokens are adjacent, start at 0 and cover the text; filtering keeps order and locations.", "quantifier": "all texts, including non-ASCII", "why_tests_cant": "Offsets are sums over unboundedly many tokens of multi-byte lengths.", "anchors": ["lig/src/lexer.rs:tokenize", "lig/src/lexer.rs:tokenize_and_filter", "lig/src/lib.rs:Location"]}
{"id": "C68", "title": "A REPL session prints the right answers in order", "statement": "For every sequence of inputs, the k-th answer printed is the one the k-th input calls for, evaluated on the store left by exactly the scripts typed before it; the session ends at the first input that ends it and dies at the first script that panics or whose result is a quote.", "quantifier": "all finite input sequences and stores", "why_tests_cant": "Unbounded sessions and texts.", "anchors": ["wander-repl/src/lib.rs:start_repl", "wander-repl/src/lib.rs:handle_command"]}
{"id": "C69", "title": "What the REPL prints for a network can be given back to it", "statement": "An empty network and a one-entry network as printed by the REPL read back (names JSON-escaped); a network with two or more entries is printed without commas, and reading that text panics.", "quantifier": "all networks and stores", "why_tests_cant": "Unbounded networks and names.", "anchors": ["wander-repl/src/lib.rs:start_repl", "wander/src/parser.rs:read_network"]}
{"id": "C70", "title": "The pad shows the answer of the last run", "statement": "What wander-pad shows is the answer, on an empty store, of the text in the editor when Run was last clicked, whatever was run before; it dies exactly if Run is clicked on a text that panics.", "quantifier": "all finite frame sequences", "why_tests_cant": "Unbounded histories of edits and clicks.", "anchors": ["wander-pad/src/lib.rs:update"]}
{"id": "C71", "title": "A disciplined script gives the same result on every store", "statement": "A script that creates each collection once, writes only storable names, and reads only existing collections has the same result and leaves the same collections and contents on the in-memory, LMDB and DuckDB backed graphs; outside this discipline the backends differ.", "quantifier": "all scripts and disciplined histories", "why_tests_cant": "Unbounded programs and histories, three implementations.", "anchors": ["wander/src/lib.rs:run", "wander/src/prelude.rs", "trips/src/mem.rs", "trips/src/heed.rs", "trips/src/duckdb.rs"]}
{"id": "C72", "title": "A failing write leaves nothing behind on LMDB", "statement": "Whichever write of an add or remove call fails (map full, no memory, I/O error), the call changes nothing at all, and never answers Err: it panics at the next use of the transaction, or, if the failing write was its last, answers Ok although nothing was stored.", "quantifier": "all stores, calls and failing writes", "why_tests_cant": "The failing write can be any of unboundedly many in a call.", "anchors": ["trips/src/heed.rs:add_collection", "trips/src/heed.rs:add_triples", "trips/src/heed.rs:remove_collection", "trips/src/heed.rs:remove_triples"]}
{"id": "C73", "title": "Any failing statement on DuckDB panics and changes nothing", "statement": "Whichever SQL statement of an add or remove call fails, including begin and commit, the call panics and the database is as before; so an Ok answer means stored, and the store always shows the contract's meaning of exactly the calls that answered Ok.", "quantifier": "all databases, calls, failing statements and histories of them", "why_tests_cant": "The failing statement can be any of unboundedly many in a call, in any call of a history.", "anchors": ["trips/src/duckdb.rs:add_collection", "trips/src/duckdb.rs:remove_collection", "trips/src/duckdb.rs:add_triples", "trips/src/duckdb.rs:remove_triples"]}
{"id": "C74", "title": "Clients of one LMDB file do not disturb each other", "statement": "Any number of clients use one LMDB store at once, their calls interleaved in any way: a client whose collections no other client touches gets from every call the answer it would get alone, and leaves its collections as it would alone; so a script that shares no name with the others has its result. This does not extend to removing entries (shared dictionary), and a script is not a transaction.", "quantifier": "all stores, clients, scripts and schedules", "why_tests_cant": "The number of clients and of interleavings is unbounded.", "anchors": ["trips/src/heed.rs:add_triples", "trips/src/heed.rs:add_collection", "trips/src/heed.rs:triples", "wander/src/lib.rs:run", "ligature/src/lib.rs:Ligature"]}
{"id": "C75", "title": "Concurrent lets converge on LMDB", "statement": "Clients that only let literal networks into collections of one LMDB store, sharing collections or not: however their calls interleave, once all are done every one has answered Ok and each collection holds what it held plus everything any client let into it, so the order does not matter. In every case the store is the one the same calls leave when made one after the other.", "quantifier": "all stores, scripts of lets, numbers of clients and schedules", "why_tests_cant": "All interleavings of unboundedly many calls must be covered.", "anchors": ["wander/src/prelude.rs:let_command", "trips/src/heed.rs:add_collection", "trips/src/heed.rs:add_triples", "wander/src/lib.rs:run"]}
{"id": "C76", "title": "A script makes boundedly many calls", "statement": "A script gets its result after at most as many calls of the store as it has characters, whatever the store answers, whatever other clients do in between: it cannot loop and cannot be starved.", "quantifier": "all scripts, command tables, stores, clients and schedules", "why_tests_cant": "No finite number of tests bounds all scripts.", "anchors": ["wander/src/lib.rs:run", "wander/src/lib.rs:run_calls", "wander/src/prelude.rs:common"]}
{"id": "C77", "title": "A graph's contents are determined by its calls", "statement": "After any sequence of add_collection / remove_collection / add_entries / remove_entries calls on a knowledge graph, with any arguments and (on LMDB) any commit outcomes, collections() lists exactly the networks added and not removed since, and entries(c) is the set of the normal forms of the entries added to c while it existed and not removed since (in memory also: not cleared by adding c again). A network that is not there is an error naming it (in memory), a panic (LMDB) or empty (DuckDB).", "quantifier": "all histories of Ligature calls on the three graph backends, all commit outcomes on LMDB", "why_tests_cant": "sets of all histories; normal forms of arbitrary entries", "anchors": ["ligature-graph/src/lib.rs:LigatureGraph", "ligature-graph/src/lib.rs:entries", "ligature-graph/src/lib.rs:add_entries", "ligature-graph/src/lib.rs:remove_entries", "ligature-graph/src/lib.rs:collections"]}
{"id": "C78", "title": "What every writing call on a graph answers", "statement": "No writing call on a graph answers Err: errors of the triple store become panics. For every reachable graph and every call the answer is determined by what is in the graph: in memory entries can be written exactly to existing networks; on LMDB removing needs every name to have been stored before; on DuckDB adding an existing or removing a non-empty network panics. A call that does not answer Ok changes nothing.", "quantifier": "all reachable graphs and calls, within the id ranges", "why_tests_cant": "all histories and arguments", "anchors": ["ligature-graph/src/lib.rs:add_collection", "ligature-graph/src/lib.rs:remove_collection", "ligature-graph/src/lib.rs:add_entries", "ligature-graph/src/lib.rs:remove_entries"]}
{"id": "C79", "title": "Disciplined graph clients cannot tell the backends apart", "statement": "If a client only creates absent networks under storable names, writes storable names to existing networks, removes entries that are there and networks that are empty, then on all three backends every call answers Ok, the same networks are listed, and entries(c) gives the same set for every network.", "quantifier": "all disciplined histories of Ligature calls", "why_tests_cant": "all histories; agreement of three implementations", "anchors": ["ligature-graph/src/lib.rs:LigatureGraph", "trips/src/mem.rs:TripsMem", "trips/src/heed.rs:TripsHeed", "trips/src/duckdb.rs:TripsDuckDB"]}
{"id": "C80", "title": "A let script that died can be run again (LMDB)", "statement": "A script that only lets literal networks, begun on an LMDB store any number of times and dead each time after any number of its store calls, answers Ok when run once more and leaves to read exactly what one uninterrupted run leaves. On DuckDB the opposite holds: after a single call the script panics on every later run and changes nothing.", "quantifier": "all histories, all such scripts, all numbers of earlier attempts and all crash points", "why_tests_cant": "all crash points and any number of attempts", "anchors": ["wander/src/lib.rs:run", "wander/src/prelude.rs:let", "trips/src/heed.rs:add_collection", "trips/src/heed.rs:add_triples", "trips/src/duckdb.rs:add_collection"]}
{"id": "C81", "title": "Collections do not interfere", "statement": "What the calls on a collection answered, and what every reading call shows of it now, is what it would be had no call on any other collection been made; so calls on different collections can be reordered freely. In-memory: always. DuckDB: while ids last. LMDB: while ids last and if only triples are removed whose words were added to that collection before (otherwise, because collections share one dictionary, another collection decides whether a removal panics).", "quantifier": "all histories of trips calls, all collections, all three backends", "why_tests_cant": "all histories and interleavings of calls on different collections", "anchors": ["trips/src/mem.rs:TripsMem", "trips/src/heed.rs:add_triples", "trips/src/heed.rs:remove_triples", "trips/src/duckdb.rs:TripsDuckDB"]}
{"id": "C82", "title": "Reopening an LMDB file loses nothing, however it was opened", "statement": "A file used in any number of sessions, opened with any number of table slots and with the commit inside TripsHeed::new failing or not, holds exactly what one session making just the acknowledged calls would have left. Whatever tables can be opened, each call does what it does with all tables or panics changing nothing. With room for n tables: writing triples works only for n >= 11, adding or removing collections for n >= 3, reading triples for n >= 6; new never reports the shortage. Once a TripsHeed::new with room for all tables has committed, a later one whose commit fails costs nothing: every call works as with all tables.", "quantifier": "all sequences of sessions, all numbers of slots, all histories of calls in each", "why_tests_cant": "all sessions and failure combinations", "anchors": ["trips/src/heed.rs:new", "trips/src/heed.rs:add_collection", "trips/src/heed.rs:remove_collection", "trips/src/heed.rs:triples", "trips/src/heed.rs:add_triples", "trips/src/heed.rs:remove_triples"]}
{"id": "C83", "title": "What reads show is all there is", "statement": "Two histories of calls after which every reading call of a store answers the same have the same future: any further calls answer the same, failures and panics included, and leave stores that again look the same. On the LMDB store this needs, and is decided by, one more thing: the storable words that acknowledged additions ever mentioned; two stores that look alike but differ in such a word are told apart by removing one triple.", "quantifier": "all pairs of histories and all continuations (within the id limits for LMDB and DuckDB)", "why_tests_cant": "all pairs of histories, all futures", "anchors": ["trips/src/mem.rs:TripsMem", "trips/src/heed.rs:TripsHeed", "trips/src/duckdb.rs:TripsDuckDB"]}
{"id": "C84", "title": "Repeating a call at once is invisible", "statement": "Making a call again immediately leaves a store that looks the same and has the same future as after making it once, whether it succeeded or failed. The second call answers what the first did, except that the LMDB store panics when a collection is removed again and the DuckDB store panics when one is added again.", "quantifier": "all histories, calls and continuations", "why_tests_cant": "all histories and futures", "anchors": ["trips/src/mem.rs:TripsMem", "trips/src/heed.rs:TripsHeed", "trips/src/duckdb.rs:TripsDuckDB"]}
{"id": "C85", "title": "Batches can be split and merged", "statement": "Adding two batches of triples to a collection one after the other answers like, and has the same future as, adding any batch with the same triples as both together, in any order and with any repetitions; removing batches likewise. On the LMDB store a merged removal is acknowledged exactly when the two separate ones are; when it is refused the separate ones may remove a part.", "quantifier": "all histories, collections, batches and continuations (within the id limits)", "why_tests_cant": "all batches and histories", "anchors": ["trips/src/mem.rs:add_triples", "trips/src/mem.rs:remove_triples", "trips/src/heed.rs:add_triples", "trips/src/heed.rs:remove_triples", "trips/src/duckdb.rs:add_triples", "trips/src/duckdb.rs:remove_triples"]}
{"id": "C86", "title": "Comparison, equality and hashing keep their contracts", "statement": "For Element, Entry, Trip, Slot and Query, `==` decides equality and `cmp` decides the field-by-field order (variants in declaration order), which is a strict total order and returns Equal exactly on equal values; WanderValue and Call compare equal exactly when all their parts do. Elements and entries that differ feed different bytes to a hasher, whatever is hashed after them; WanderValues that are equal hash alike, and two WanderValues hash alike exactly when they are of the same kind (so a hash map keyed by WanderValue is correct but has three buckets at most).", "quantifier": "all pairs and triples of values of those types, with strings of any length", "why_tests_cant": "sorted sets, maps and hash maps are only correct if the laws hold for every pair and triple; tests sample pairs", "anchors": ["ligature/src/lib.rs:Element", "ligature/src/lib.rs:Entry", "trips/src/lib.rs:Slot", "trips/src/lib.rs:Query", "trips/src/lib.rs:Trip", "wander/src/lib.rs:Hash for WanderValue", "wander/src/lib.rs:Call"]}
{"id": "C87", "title": "Serialized values are read back unchanged", "statement": "Serializing an Element, Entry, WanderValue or Call and deserializing the result gives the value back - namespaces and language tags included, unlike printing. Objects are read with their fields in any order and with further fields, or as arrays of the fields in order, a network's entries in any order and with repetitions; no other document is read, none as two values, and the networks in the result are sorted and free of repetitions.", "quantifier": "all elements, entries, values of any nesting and calls; for the last clause all JSON trees", "why_tests_cant": "values nest without bound and documents come from outside; tests cover a handful of shapes", "anchors": ["ligature/src/lib.rs:Element", "ligature/src/lib.rs:Entry", "wander/src/lib.rs:WanderValue", "wander/src/lib.rs:Quote", "wander/src/lib.rs:Call"]}
{"id": "C88", "title": "The JSON text of a value is unambiguous", "statement": "The compact JSON text of an Element, Entry, WanderValue or Call is a JSON document (RFC 8259) of the serialized tree and of no other tree, so every conforming reader gets the value back; different values have different texts, whatever quotes, backslashes, control characters or punctuation their names contain.", "quantifier": "all such values and all parses of their text", "why_tests_cant": "an ambiguity needs only one name with the right punctuation in it; no finite sample of names excludes it", "anchors": ["ligature/src/lib.rs:Element", "ligature/src/lib.rs:Entry", "wander/src/lib.rs:WanderValue", "wander/src/lib.rs:Call"]}
{"id": "C89", "title": "The JavaScript result of a script", "statement": "ligature-wasm's `run` returns a JavaScript Map exactly when the script succeeds: one key per collection the script left, each holding an object with `nodes` (objects with `key`) and `edges` (objects with `key`, `source`, `target`) that are the graph of the collection's entries; if the script fails it returns the error's text as a string, so the two cannot be confused; if the script panics, `run` panics.", "quantifier": "all scripts", "why_tests_cant": "callers must be able to tell results from errors for every script, and the graphs must match whatever the script built", "anchors": ["ligature-wasm/src/lib.rs:run", "ligature-wasm/src/lib.rs:ligature_to_graphology"]}
{"id": "C90", "title": "Printing tells values apart", "statement": "Two Wander values — elements, networks and quotes nested to any depth, with any characters in their names — print to the same text exactly when they differ in namespaces and language tags only; values without those print the same only when they are equal; and no printed value is a proper prefix of another printed value.", "quantifier": "every pair of values", "why_tests_cant": "Injectivity of a recursive printer needs all pairs of values, including names holding quotes, braces, colons and backslashes; tests compare a few.", "anchors": ["wander/src/lib.rs:Display for WanderValue", "wander/src/lib.rs:write_network", "wander/src/lib.rs:write_quote", "ligature/src/lib.rs:Display for Element"]}
{"id": "C91", "title": "No invented names", "statement": "Running a script with the standard commands on any store: every name in its answer is a word of the script, a name stored before, or a text of the docs; every name stored afterwards is one of these too, whatever the script answers; and every collection listed afterwards was listed before or is a word of the script. Answers have no namespaces, language tags, nested quotes or roles with reserved names. In a session on a new store, all names come from the session's scripts and the docs.", "quantifier": "every backend, store history, script and session of scripts", "why_tests_cant": "Absence of invented names is a statement about all scripts, histories and answers (information flow through lexer, parser, commands, graph and store); a test shows the names of one answer.", "anchors": ["wander/src/lib.rs:run", "wander/src/prelude.rs:let_command", "wander/src/prelude.rs:read_command", "wander/src/prelude.rs:filter_command", "ligature-graph/src/lib.rs:entries"]}
{"id": "C92", "title": "Answers can be typed back", "statement": "In a session of scripts without a backslash on a store of plain names, every answer, printed and passed to id, gives the same answer again without changing the store; in general the answer reads back as the same value with its names JSON-escaped.", "quantifier": "every backend, history, session, answer, and store the printed answer is run on", "why_tests_cant": "Needs the composition of printer, lexer, parser and interpreter to be the identity on every value any run can produce.", "anchors": ["wander/src/lib.rs:Display for WanderValue", "wander/src/lib.rs:run", "wander/src/lexer.rs:tokenize", "wander/src/parser.rs:parse"]}
{"id": "C93", "title": "Scripts never delete", "statement": "On LMDB (even when commits fail) and on DuckDB every collection and every triple that can be read before a session of scripts can still be read after it, whatever the scripts are and whatever they answer. In memory no collection disappears, and a triple disappears only if some script of the session has a let for its collection, which empties it first.", "quantifier": "every reachable store, every list of script texts, every pattern of failing commits on LMDB", "why_tests_cant": "The claim is about every script, including ones that fail half way; tests run a few.", "anchors": ["wander/src/prelude.rs:let_command", "wander/src/lib.rs:run", "ligature-graph/src/lib.rs:add_collection", "trips/src/heed.rs:add_collection", "trips/src/duckdb.rs:add_collection", "trips/src/mem.rs:add_collection"]}
{"id": "C94", "title": "A session's answers depend only on what can be read", "statement": "Two stores of the same kind whose reading calls answer alike (collections, triples, filter) give the same answers to every session of scripts and still look alike after it, however differently they came to be what they are, as long as ids do not run out.", "quantifier": "every two reachable stores of one kind that look the same, every list of script texts", "why_tests_cant": "It compares all pairs of histories and all scripts; hidden state (dead ids, leftover dictionary words, row order) could leak in ways a test would not hit.", "anchors": ["wander/src/lib.rs:run", "wander/src/prelude.rs:common", "ligature-graph/src/lib.rs:entries", "trips/src/heed.rs:triples", "trips/src/duckdb.rs:triples", "trips/src/mem.rs:triples"]}
{"id": "C95", "title": "The server speaks UTF-8", "statement": "The ZeroMQ server reads the bytes of a message as a text exactly if they are the UTF-8 encoding of that text. Sequences of encoded texts are answered as C56 says, with the encodings of the replies. A message that encodes no text ends the server without an answer, and the store stays as the earlier messages left it. Printed answers to scripts made of texts can be decoded by the client.", "quantifier": "all byte strings, all sequences of messages, all stores", "why_tests_cant": "All byte strings, including truncated, overlong and surrogate encodings, in all positions of a message sequence.", "anchors": ["ligature-zeromq/src/main.rs:main", "wander/src/lib.rs:run"]}
{"id": "C96", "title": "Names are opaque to the stores", "statement": "Renaming the names in all calls of a history, different names to different names, changes nothing but the names: each call answers as before (the text of an error may name the collection), and afterwards the reading calls show the same collections and triples, renamed, and nothing else. On LMDB the new names must be storable where the old ones were, and ids must not run out.", "quantifier": "every history of calls, every injective renaming of the names in it, on each of the three stores", "why_tests_cant": "It compares every history with all its renamings; a test uses a handful of names.", "anchors": ["trips/src/mem.rs:add_triples", "trips/src/heed.rs:add_collection", "trips/src/heed.rs:add_triples", "trips/src/heed.rs:remove_triples", "trips/src/heed.rs:triples", "trips/src/duckdb.rs:add_triples", "trips/src/duckdb.rs:remove_triples", "trips/src/duckdb.rs:triples"]}
{"id": "C97", "title": "What an error says", "statement": "Whatever the store and its history, an error answered by a script is one of a fixed list and states a cause that is really there: the script has no tokens, a stray token, a word of the script that is no command, a misused command, an assertion comparing two different values made of names at hand, or a collection named by the script and absent from the store when the run ends. Every reply of the server, errors included, is decodable UTF-8 whatever bytes were sent to it; the REPL prints an error on one line, and different texts differently; the text of a parse error determines the token it shows, which however is the one after the offending token.", "quantifier": "every script, store, history of calls, sequence of requests as bytes, and Unicode printability table", "why_tests_cant": "there are infinitely many failing scripts and stores; tests sample a few messages", "anchors": ["wander/src/lib.rs:run", "wander/src/prelude.rs:common", "wander/src/parser.rs:parse", "ligature-zeromq/src/main.rs:main", "wander-repl/src/lib.rs:start_repl"]}
{"id": "C98", "title": "Scripts that can be seen not to crash", "statement": "On the in-memory store every host uses, a script whose calls pass a simple check of their shape (read one name, union two written networks, filter an existing collection without variables, let only of quotes sure to answer a network, recursively inside assertions; unknown commands and malformed text are fine) answers a value or an error and never panics, so a server given only such requests answers all of them and stays up, and the browser gets graphs or an error. Of the calls without quotes and variables exactly the ones the check rejects crash.", "quantifier": "every script, every reachable store, every sequence of requests, every call without quotes", "why_tests_cant": "no finite set of scripts and stores covers all combinations of calls, quotes and store contents", "anchors": ["wander/src/lib.rs:run", "wander/src/prelude.rs:common", "ligature-zeromq/src/main.rs:main", "ligature-wasm/src/lib.rs:run", "trips/src/mem.rs:TripsMem"]}
{"id": "C99", "title": "Calls can be taken back", "statement": "Taking back a sequence of calls, last one first - removing a collection that was not there before it was added, removing triples that were not there before they were added, adding back triples that were there before they were removed - succeeds call by call and leaves a store every read of which shows what it showed before, with the same future. On LMDB this needs words it can store (others cannot be taken back at all), and the future is the same only if the additions brought no new words.", "quantifier": "all histories, all sequences of such calls, all continuations", "why_tests_cant": "all histories, sequences and futures", "anchors": ["trips/src/mem.rs:TripsMem", "trips/src/heed.rs:TripsHeed", "trips/src/duckdb.rs:TripsDuckDB"]}
{"id": "C100", "title": "Opening a redb store", "statement": "Opening (creating) a redb store never panics and touches no other file. It succeeds exactly when nothing outside the program fails and the path is free or holds a redb file without a table of a needed name and other types; then all six tables are there, the ones that existed with every row and the others empty, and further tables untouched. If it fails at any step every table is as before. Opening again changes nothing, and no sequence of openings, failing anywhere, loses a row. The convenience openers (default, temp) never answer an error, they panic (with a fixed text; default adds the cause, temp drops it); temporary stores with different suffixes are different files, with equal suffixes the same one.", "quantifier": "every path, every file system content, every pattern of failing steps, every sequence of openings", "why_tests_cant": "every failure point and every previous content", "anchors": ["ligature-redb/src/lib.rs:LigatureRedb::create", "ligature-redb/src/lib.rs:LigatureRedb::temp", "ligature-redb/src/lib.rs:LigatureRedb::default"]}
{"id": "C101", "title": "A reference for Wander", "statement": "What any script answers (value, error with its exact text, or crash) and what the store shows afterwards is given by a self-contained reference that starts from the text of the script and the networks readable before, and mentions nothing of the implementation: nine commands by name, the three stores differing only in read, let and filter. The reference gives every script exactly one meaning; the code does that on every store and history, script after script, while ids last; the stores include release builds of the LMDB store and DuckDB databases that permute rows and lose numbers of their own accord.", "quantifier": "every script text, session of scripts, store history and backend", "why_tests_cant": "Infinitely many scripts, histories and nestings; agreement of an interpreter with a specification is for all programs, not for samples.", "anchors": ["wander/src/lib.rs:run", "wander/src/parser.rs:parse", "wander/src/lexer.rs:tokenize", "wander/src/prelude.rs:common", "ligature-graph/src/lib.rs:Ligature for LigatureGraph"]}
{"id": "C102", "title": "What is in an LMDB file", "statement": "After any calls with any commit outcomes the LMDB file is, record by record and byte by byte, what the documented layout says: a live collection has a record under its UTF-8 name, a triple is there exactly if an index row of 32 bytes is made of the collection's 8-byte id and the ids under which its three components are recorded, the same rows stand in all six orders, every table is strictly sorted by bytes; and the calls, encoding and decoding on the way, show exactly the contract's meaning of the committed history. On any file at all, whoever wrote it, a listing gives exactly the keys of the collection table or panics, and reading a collection returns only triples that are in the file.", "quantifier": "every history of calls on Unicode names with every commit outcome; every file contents", "why_tests_cant": "Byte layouts of unboundedly many histories, and arbitrary files: encodings must be injective and order preserving for every name and number.", "anchors": ["trips/src/heed.rs:add_triples", "trips/src/heed.rs:triples", "trips/src/heed.rs:collections", "trips/src/heed.rs:TripsHeed"]}
{"id": "C103", "title": "No script text recurses deeply", "statement": "Evaluating a script never has more than one quote evaluation open at a time, whatever the text, the store and the commands: quotes inside quotes do not parse and no answer holds one. Calls built by a host or read from JSON need room for exactly as many nested evaluations as quotes stand inside one another: that much always suffices, and for every smaller room some such call overflows it although it would not panic with more.", "quantifier": "every script text, every list of calls of any nesting, every store and command table, every stack size", "why_tests_cant": "Stack use must be bounded for all inputs; a test shows one depth.", "anchors": ["wander/src/lib.rs:run_quote", "wander/src/lib.rs:run_calls", "wander/src/parser.rs:read_quote", "wander/src/prelude.rs:assert_fail_command"]}
{"id": "C104", "title": "Space accounting", "statement": "After any history the number of records stored is exactly determined by it. LMDB: each of the six indexes has one record per triple that can be read, plus one for every triple that was still in a collection when the collection was removed (those are never given back); the dictionaries have one record per distinct word ever added (never given back); the collection tables one per present collection; the id counter has been advanced once per collection created and once per distinct word. So creating, filling and removing a collection over and over grows the file without bound although the store is empty, while adding and removing the same triples over and over does not grow it after the first time. DuckDB: one row per addition of a triple not taken back since (adding a present triple again adds a row), one per word ever added, one per present collection. In memory: nothing but what can be read.", "quantifier": "all histories of writing calls on each of the three stores, for LMDB also with failing commits, over storable names", "why_tests_cant": "a test can count the records after a few calls; the equation has to hold after every history, and growth without bound is a statement about all numbers of repetitions", "anchors": ["trips/src/mem.rs:TripsMem::add_triples", "trips/src/heed.rs:TripsHeed::remove_collection", "trips/src/heed.rs:TripsHeed::add_triples", "trips/src/heed.rs:TripsHeed::remove_triples", "trips/src/duckdb.rs:TripsDuckDB::add_triples", "trips/src/duckdb.rs:TripsDuckDB::remove_triples"]}
{"id": "C105", "title": "Which scripts crash on which store", "statement": "A script whose calls pass a check of their shape made for the store it runs on answers a value or an error and never panics, as long as ids last: on LMDB read only existing collections and let only names it can store, on DuckDB let no name twice and none that exists, on both use no filter. Of the scripts of one call without quotes exactly the listed ones crash: on every store read with other than one name, union of two things not both networks and filter with other than four names; on LMDB also reading what is absent, every filter and letting a name that is no storable key; on DuckDB every filter and letting what exists; in memory filtering what is absent or reaching a variable.", "quantifier": "every script, every session of scripts, every reachable store of each kind, every call without quotes", "why_tests_cant": "the check must be sound for every program text, nesting and store contents; a test runs a few", "anchors": ["wander/src/lib.rs:run", "wander/src/prelude.rs:common", "ligature-graph/src/lib.rs:LigatureGraph", "trips/src/heed.rs:TripsHeed", "trips/src/duckdb.rs:TripsDuckDB"]}
{"id": "C106", "title": "Any damage to an LMDB store is explained by a clean history", "statement": "Whatever goes wrong during whichever of the calls on an LMDB store - a commit that fails, a single write that fails, tables that cannot be opened - the file afterwards is exactly the file an untroubled store would have after some of those calls, in the same order: none of those that were not answered Ok, all of those that were answered Ok without trouble; and the untroubled store acknowledges each of them. In particular the collections and triples are the contract's meaning of those calls.", "quantifier": "every history of calls, every choice of trouble (none, failed commit, any failing write, any tables that do not open) for each call", "why_tests_cant": "the combinations of operations, failure kinds and failure points are unbounded, and failures inside LMDB cannot be provoked by a unit test", "anchors": ["trips/src/heed.rs:add_collection", "trips/src/heed.rs:remove_collection", "trips/src/heed.rs:add_triples", "trips/src/heed.rs:remove_triples", "trips/src/heed.rs:new"]}
{"id": "C107", "title": "Networks of a graph do not interfere, and reads show all there is", "statement": "Through the Ligature trait: what the calls on networks of one name answered, and what collections, entries and filter show of it now, is what it would be had no call on a network of another name been made (in memory always; on DuckDB within the sequence range; on LMDB within the id range and if only entries are removed whose names were added to that network before). And two graphs for which every read answers the same answer every further sequence of calls the same and keep looking the same (on LMDB: if the same storable names were added in both).", "quantifier": "every history of calls on a graph, every network name, every pair of histories and every continuation, on all three stores", "why_tests_cant": "ranges over all interleavings of calls and all futures of all reachable pairs of graphs", "anchors": ["ligature-graph/src/lib.rs:entries", "ligature-graph/src/lib.rs:add_entries", "ligature-graph/src/lib.rs:remove_entries", "ligature-graph/src/lib.rs:filter", "ligature-graph/src/lib.rs:collections", "ligature-graph/src/lib.rs:add_collection", "ligature-graph/src/lib.rs:remove_collection"]}
{"id": "C108", "title": "Repeating, batching and taking back calls on a graph", "statement": "Through the Ligature trait: making a writing call again at once changes nothing, now or later, and answers what it answered (except that LMDB panics on removing a network again and DuckDB on adding one again); two batches of entries added (removed) one after the other act like one batch with the same normal forms (on LMDB the merged removal succeeds exactly if both parts do, and then acts the same); calls taken back last one first all succeed and leave a graph that looks as before and has the same future (on LMDB: storable names, and for the future no new names).", "quantifier": "every history, call, pair of batches and undo sequence on all three stores, every continuation", "why_tests_cant": "quantifies over all reachable graphs, batches and futures", "anchors": ["ligature-graph/src/lib.rs:add_entries", "ligature-graph/src/lib.rs:remove_entries", "ligature-graph/src/lib.rs:add_collection", "ligature-graph/src/lib.rs:remove_collection", "trips/src/mem.rs:add_triples", "trips/src/heed.rs:add_triples", "trips/src/duckdb.rs:add_triples"]}
{"id": "C109", "title": "A part of a script can be replaced by one that does the same", "statement": "If two calls do the same from every store - same answer, error or crash, and stores afterwards that list the same networks and read the same entries - then replacing one by the other inside any script, between any calls before and after and at any depth in the places where quotes are run (the network of a let, the quote of an assert-fail, either side of an assert-equal), gives a script that does the same. For longer parts that do the same only from some stores, it holds between any calls that lead to such stores. The argument of id, and an empty part, are exceptions.", "quantifier": "every pair of programs, every context around them (any length, any nesting), every history of the store, each of the three stores (within the id or sequence range)", "why_tests_cant": "a claim about all contexts and all stores", "anchors": ["wander/src/lib.rs:run", "wander/src/lib.rs:run_quote", "wander/src/prelude.rs:common"]}
{"id": "C110", "title": "Laws for rewriting scripts", "statement": "Lets of different names can be swapped (on LMDB if both or neither can be stored, on DuckDB if both or neither exist); of two lets of a name the last counts in memory, on LMDB they are a let of the union; a let of a network equals the let of its normal form (the names only); reading right after a let answers that normal form (memory, DuckDB); reading a network that is there is answering it; storing a network under its own name changes nothing (memory, LMDB); a query that answers can be left out if something follows; id and union can be computed before a let; assert-equal of a value with itself does nothing; three assert-fails are one. Each holds anywhere in a script, and dropping any of the conditions named makes it false.", "quantifier": "every name, network, script around and history of each of the three stores", "why_tests_cant": "algebraic laws over all networks, stores and contexts", "anchors": ["wander/src/prelude.rs:common", "trips/src/mem.rs:add_collection", "trips/src/heed.rs:add_collection", "trips/src/duckdb.rs:add_collection", "ligature-graph/src/lib.rs:add_entries"]}
{"id": "C111", "title": "A store can be dumped as a script and rebuilt from it", "statement": "For any store of any backend, the script made of one line per listed collection - let, the printed name, the printed entries, a comma - answers an empty network when run on another store of any backend it fits (LMDB: every name 1 to 511 bytes; LMDB and DuckDB: none of the names in use), and that store then shows the same collections with the same entries over what it showed before, every name JSON-escaped; where no name has a control character, a quote or a backslash, a new store shows exactly what the dumped one did and every dump of the one is a dump of the other. The order of the lines does not matter. Without the conditions a backslash is doubled, DuckDB crashes and LMDB merges.", "quantifier": "every source backend, history and dump; every target backend, history and name in it; within the target's room for ids", "why_tests_cant": "needs every store content, every printed form and every pair of backends; an example dump says nothing about names that need escapes, about the order of collections or about other backends", "anchors": ["wander/src/lib.rs:run", "wander/src/lib.rs:Display", "wander/src/prelude.rs:let_command", "ligature-graph/src/lib.rs:add_entries", "trips/src/mem.rs:triples", "trips/src/heed.rs:triples", "trips/src/duckdb.rs:triples"]}
{"id": "C112", "title": "Names put into a script cannot change what it does", "statement": "For any script text with holes (every piece before a hole being complete tokens that do not end inside a comment), filling the holes with printed names gives, whatever the names are, the same program but for those names: it is a program for all names or for none, is always tokens, makes the same calls in the same order with the same number and kinds of arguments, and runs the same commands wherever the command is not itself a hole. With write_string in place of printing the same holds for names without control characters other than tab, newline and carriage return, and with one of those the script is rejected before anything is run. A name pasted between quotes unescaped, or a hole inside a string, lets a name add calls.", "quantifier": "every template, every number of holes, every two lists of names", "why_tests_cant": "a test tries a few hostile names in a few templates; the claim is that no name, in any template, can close its string and start a call", "anchors": ["wander/src/lib.rs:Display", "wander/src/lib.rs:write_string", "wander/src/lexer.rs:tokenize", "wander/src/parser.rs:parse", "wander/src/lib.rs:run"]}
{"id": "C113", "title": "Names are opaque to scripts", "statement": "If every name in a script is renamed one to one - leaving alone the names Wander itself uses (commands, the texts of docs, the reserved roles, the wildcard), and neither making nor unmaking variables or (on LMDB) unstorable names - and the store holds the renamed networks, then the renamed script does the same thing with the names renamed: it answers the renamed value, fails with the same sentence about the renamed names, or crashes where the other crashes; the store afterwards is the renamed store, and networks under names that are not new names are untouched. So a session of renamed scripts on a new store gives renamed answers throughout, and filling a template with other names only renames. Without any one of the conditions there is a script for which this fails.", "quantifier": "all renamings that meet the conditions, all scripts (also ones that do not parse), all three stores and all contents related by the renaming", "why_tests_cant": "a test tries a script with particular names; that behaviour cannot depend on which names are used ranges over all names, all scripts and all stores", "anchors": ["wander/src/lib.rs:run", "wander/src/prelude.rs:common", "wander/src/lexer.rs:tokenize", "wander/src/parser.rs:parse", "ligature-graph/src/lib.rs:LigatureGraph", "trips/src/mem.rs", "trips/src/heed.rs", "trips/src/duckdb.rs"]}
{"id": "C114", "title": "Scripts depend only on the networks they look at, and independent scripts can be run in any order", "statement": "What a script does depends only on the networks it looks at, that is reads, filters or lets, where quotes count only where they are run: on two stores of one kind that show the same under those names it has the same outcome (answer, error or crash), the stores still agree on those names afterwards, and every name the script does not let shows what it showed. All names a script looks at are written in it. So a collection of scripts of which none lets what another looks at - for instance scripts without a common name - can be run in any order on any store: every script gets the same outcome and the stores look alike in the end. A script that looks at or lets what another lets can tell the order.", "quantifier": "all scripts, all lists of pairwise independent scripts and all permutations of them, all reachable stores of the three kinds (within the id ranges)", "why_tests_cant": "a test runs some scripts in some orders; independence is about every script, every order and every content of the store", "anchors": ["wander/src/lib.rs:run", "wander/src/prelude.rs:common", "wander/src/parser.rs:parse", "ligature-graph/src/lib.rs:LigatureGraph", "trips/src/mem.rs", "trips/src/heed.rs", "trips/src/duckdb.rs"]}
{"id": "C115", "title": "More data, more answers", "statement": "If a script answers on two stores of which the second shows every collection of the first with at least its triples, then the second answer is the first one or a network with at least its entries, and afterwards the second store again shows at least what the first shows; so for whole sessions in which every script answers. In memory and on LMDB a script without assertions and without searches for a variable that answers on the smaller store also answers on the larger one. Without the conditions it is false: more data can make an assertion fail, a search for a variable crash and, on DuckDB, a let crash; and a script that stops earlier can leave more behind.", "quantifier": "every script, every pair of histories (within LMDB's or DuckDB's id room) on each of the three stores, every session", "why_tests_cant": "all pairs of stores and all scripts at once", "anchors": ["wander/src/lib.rs:run", "wander/src/prelude.rs:let_command", "wander/src/prelude.rs:read_command", "wander/src/prelude.rs:filter_command", "ligature-graph/src/lib.rs:set", "ligature-graph/src/lib.rs:entries", "ligature-graph/src/lib.rs:filter"]}
{"id": "C116", "title": "Independent scripts at the same time", "statement": "Any number of clients of one LMDB file, each running one script, their store calls interleaved in any order: a script that looks at no network another one lets gives the result it gives alone and leaves the networks it looks at as it does alone, though others may read the same networks; and if no script lets what another looks at and all have finished, each has the outcome it has when the scripts run one after the other, in any order, and the store looks the same in the end. Letting what another only reads is enough to break this: assert-equal (read n) (read n) can fail while another client lets n.", "quantifier": "every number of clients, every script, every starting file, every schedule, while ids do not run out", "why_tests_cant": "Interleavings and scripts are infinitely many; a test sees a few schedules.", "anchors": ["trips/src/heed.rs:TripsHeed", "ligature-graph/src/lib.rs:LigatureGraph", "wander/src/lib.rs:run", "wander/src/prelude.rs:let_command"]}
{"id": "C117", "title": "Reading an LMDB collection prints it", "statement": "triples on the LMDB store writes to standard output. Reading a present collection prints one line Adding - first second third per triple of it, whatever history led there and whichever commits failed, and the lines are ordered by how early the first word of the triple was first given to the store, then the second, then the third; reading an absent one prints nothing. Words without spaces and line breaks can be told from a line, others not always. No other call prints: a script prints only lines of triples of networks it reads, each of which is still there when it is done, and a script that reads nothing is silent. A triple with a word that LMDB cannot store as a key is printed once per time it was added, although it is answered once.", "quantifier": "every history of calls with any failing commits, every collection, every script", "why_tests_cant": "A test captures the output of a few histories; the claim is about the order for all histories and the silence of all scripts that do not read.", "anchors": ["trips/src/heed.rs:triples", "ligature-graph/src/lib.rs:entries", "wander/src/lib.rs:run"]}
{"id": "C118", "title": "What concurrent clients of one LMDB file see", "statement": "Any number of clients of one LMDB file, their store calls interleaved in any order: there is one order of all calls such that each is answered as if the calls before it had been made by a single client. Scripts never remove anything, and among clients that do not remove, reads only grow: a later read of a network, by whichever client, succeeds and answers at least what an earlier one did, whichever commits fail. Nothing is invented, removals or not: what a read answers was there at the start, or an earlier call put it there and was answered Ok. If all commits succeed and nobody removes, a read answers exactly what was there at the start and what earlier calls of any client that were answered Ok put there. When a commit fails a client can miss its own write, although it was answered Ok.", "quantifier": "every number of clients, every program of calls or script, every starting file, every schedule, every pattern of failing commits", "why_tests_cant": "a schedule that breaks a guarantee needs a particular interleaving of the calls of particular clients; tests run one", "anchors": ["trips/src/heed.rs:add_triples", "trips/src/heed.rs:triples", "wander/src/lib.rs:run", "wander/src/prelude.rs:common"]}
{"id": "C119", "title": "Calls on one LMDB file that overlap in time happen at once", "statement": "The LMDB operations of the calls of any number of clients of one file interleave in any way, writes and commits fail, clients die in the middle of calls. It is as if every call had been made at one moment between its beginning and its end, or, when its client died, perhaps not at all: the file is what the calls made at those moments leave, and every client was given the answers they were given, in the order of time (a call that returned before another one began comes first). No client waits for ever, and reading never waits. So what holds of clients whose calls are made at once holds of calls that overlap: a script that looks at nothing another one lets has the result it has alone; and if no client removes, a read that begins after another one of the same network has returned answers at least the same.", "quantifier": "every number of clients, every program of calls or script, every interleaving of the single LMDB operations, every pattern of failing writes and commits, every death of a client at any point", "why_tests_cant": "the interleavings of single operations and the points at which a client can die cannot be enumerated by tests", "anchors": ["trips/src/heed.rs:add_collection", "trips/src/heed.rs:remove_collection", "trips/src/heed.rs:add_triples", "trips/src/heed.rs:remove_triples", "trips/src/heed.rs:triples", "trips/src/heed.rs:collections"]}
{"id": "C120", "title": "A graph and Wander on any store that keeps the contract", "statement": "Let a store be any implementation of the trait Trips that keeps what the comments of the trait promise (adding an existing collection and removing an absent one do nothing, adding and removing triples is an error on an absent collection and otherwise makes the union and the difference, other collections stay as they are, reading and searching answer the contents or, for an absent collection, an error). Then after every history of calls its collections and triples are those the history means; a knowledge graph over it has the networks and the normal forms of entries that the history of graph calls means, and filter answers exactly the matching entries; but where the store answers an error the graph passes it on only when reading a network, and panics when adding to, removing from or searching an absent one. Scripts without variables in patterns cannot tell two such stores with the same contents apart: they get the same values, fail together and crash together, and leave the same contents, for whole sessions. None of the three stores that ship with the crate is such a store.", "quantifier": "every implementation of the trait that keeps the contract, every history of calls on it and on a graph over it, every pair of such stores with equal contents, every script and session of scripts without pattern variables", "why_tests_cant": "The claim ranges over all implementations of the trait, including those nobody has written, and over all histories and scripts; a test runs one implementation.", "anchors": ["trips/src/lib.rs:Trips", "ligature-graph/src/lib.rs:LigatureGraph", "wander/src/lib.rs:run", "wander/src/prelude.rs:common", "trips/src/mem.rs:TripsMem", "trips/src/heed.rs:TripsHeed", "trips/src/duckdb.rs:TripsDuckDB"]}
{"id": "C121", "title": "The order DuckDB keeps rows in and the numbers it loses do not show", "statement": "DuckDB promises no order of the rows of a table, and a number drawn from a sequence by a failed or rolled back statement may be lost. Whatever permutations of rows, losses of numbers and failures of single statements happen between and during the calls: a new DuckDB store shows exactly the collections and triples that the calls which answered Ok mean (triples once each and in their order, collections once each), and a reading call fails only if its own statement failed. If no statement fails, and the numbers used and lost together are fewer than 2^63, every call answers exactly what it would answer were rows kept in insertion order and no number lost, and the readings are the same except for the order of the collections. Under the same conditions scripts run one after the other get the same outcomes and the two stores then show the same networks. The quiet database of C22 and the failing one of C73 are special cases.", "quantifier": "every history of calls and every behaviour of the database at every single statement (row order, lost numbers, failure)", "why_tests_cant": "a test sees the row order and the sequence of one run of one DuckDB version", "anchors": ["trips/src/duckdb.rs: TripsDuckDB::new, collections, add_collection, remove_collection, triples, add_triples, remove_triples, get_collection_id, add_part, add_trip, remove_trip"]}
{"id": "C122", "title": "Debug and release builds of the LMDB store agree until 2^64 numbers are used", "statement": "The LMDB store numbers collections and words with a u64 counter. A debug build panics when the counter would overflow, a release build starts again at 0. On every database file and for every call both builds answer the same and leave the same file, unless the debug build panics with an overflow (and leaves the file as it was). Starting with an empty file, any history of calls that uses at most 2^64 numbers (one per collection, three per triple added) gets the same answers and the same file from both builds, and no overflow panic. The bound is exact: there is a history of successful calls that uses exactly 2^64 numbers after which the next new collection panics in a debug build, while a release build answers Ok, shows a triple in it that was never added, and on the next new word loses a triple that was never removed. Yet a release build can always read every collection it lists, after any history. Within the bound, scripts run one after the other get the same outcomes on both builds, and both then show the same networks.", "quantifier": "every database state, every call, every history up to 2^64 numbers used", "why_tests_cant": "no test can make 2^64 calls", "anchors": ["trips/src/heed.rs: add_collection, add_triples"]}
{"id": "C123", "title": "A script that died can be run again, whatever it does", "statement": "A Wander script on an LMDB store is begun any number of times and dies each time after any number of its store calls, then it is run once more. If it reads no network that it lets, it then has exactly the outcome it would have had at first (the same answer, the same error text or a crash, assertions included) and the store looks exactly as after one uninterrupted run. If it also reads what it lets, but asserts nothing and searches for no variable, and would have answered, then begun n times and run once more it answers and leaves at least what one run would have answered and left, and at most what the last of n + 1 uninterrupted runs would have. The condition is needed: a script that reads what it lets can leave more when run again.", "quantifier": "every script, every history of the store, every number of attempts and every crash point in each, while the store's numbers last", "why_tests_cant": "crash points, numbers of attempts and scripts cannot be enumerated; a test kills one script at one point", "anchors": ["wander/src/lib.rs:run", "wander/src/prelude.rs:common", "trips/src/heed.rs:add_collection", "trips/src/heed.rs:add_triples", "ligature-graph/src/lib.rs:LigatureGraph"]}
{"id": "C124", "title": "What a script leaves that is killed on its way", "statement": "When a script is killed at any moment, what the store shows afterwards is exactly one of the worlds the reference lists: what was there; what is there in the middle of one of the program's calls, those before it having answered; inside a let, assert-equal or assert-fail its quotes done in part, or for a let the name bound and nothing stored under it yet (in memory what the name held is then gone). Each of these is really left by a kill at some moment, on all back-ends. Stores on which scripts are run or die, one after the other, live exactly the lives the reference allows, with the outcomes it gives for those that are run. On LMDB dying in the middle of a store call, between two operations on the file, leaves what dying between two calls leaves.", "quantifier": "all back-ends, all stores a history of calls can leave, all scripts, every number of store calls (on LMDB: of file operations) made before the kill, all sequences of runs and deaths", "why_tests_cant": "a kill can come at any moment of any script on any store", "anchors": ["wander/src/lib.rs run_calls", "wander/src/prelude.rs let_command", "trips/src/mem.rs Trips for TripsMem", "trips/src/heed.rs Trips for TripsHeed", "trips/src/duckdb.rs Trips for TripsDuckDB"]}
{"id": "C125", "title": "Wander scripts on an LMDB store whose disk fails", "statement": "On an LMDB store the writes and commits of any call may fail, in any pattern. Whatever fails, what a script answers and what it leaves is one of the things the reference for scripts says when each let may go in one of these ways: all goes well; or the name is new, is not created and the script crashes there; or the name is there and the network is not stored, and either this is noticed (the script crashes) or it is not (the let answers as if it had stored it, and the script goes on). Nothing else can happen: no let is stored in part, no other network changes, whatever was stored before is still there, and every script that goes on reads what is really stored. Conversely each of these ways happens with some failures, for whole sessions of scripts. Without failures it is the reference for LMDB.", "quantifier": "every script and session of scripts, every reachable LMDB store, every pattern of failing writes (at any write of any call) and failing commits; within LMDB's room for ids", "why_tests_cant": "a test would have to fail every write and every commit of every call of every script; the claim is that no pattern of failures leads anywhere else", "anchors": ["trips/src/heed.rs:add_collection", "trips/src/heed.rs:add_triples", "ligature-graph/src/lib.rs:add_collection", "ligature-graph/src/lib.rs:add_entries", "wander/src/prelude.rs:let_command", "wander/src/lib.rs:run"]}
{"id": "C126", "title": "What a host may put into the command table", "statement": "A host may run scripts with a table of commands of its own: any functions that, given their arguments, make calls on the store and have quotes, calls or scripts run with the same table. For any such table: a program has at most one outcome, and running it computes exactly that outcome; with the nine standard commands it is what all other properties say. If every command has nothing run but quotes it was given (or parts of them), as the standard ones do, every program ends, and has no more runs open at a time than quotes stand inside one another in it plus one; otherwise it need not end (a command that has itself run). A program means the same with any two tables that have the same commands under the names it mentions, if these do not list the table; adding commands to the standard ones changes no program that mentions neither them nor docs. The order of the hash map does not matter unless a command of the host makes it matter (those of the prelude, docs included, do not). Commands see the store through its calls only: stores that answer alike give the same outcome and stay alike, and on a graph over a triple store, what a program leaves behind is what some history of writing calls on the store leaves behind. A command that runs the quote it is given does what the call in the quote does. A command that has a text run as a script does what the script does on its own and goes on with its result or its error, while a panic ends both; a text that says no program fails and does nothing.", "quantifier": "all tables of commands without a name twice, all programs of calls and quotes of any depth, all stores, all sequences of answers, all orders of the table", "why_tests_cant": "the commands are arbitrary functions chosen by a host and may call back into the interpreter to any depth", "anchors": ["wander/src/lib.rs:Command", "wander/src/lib.rs:run_calls", "wander/src/lib.rs:run_quote", "wander/src/lib.rs:run", "wander/src/prelude.rs:common"]}
{"id": "C127", "title": "Kills and failing disks together; scripts begun again after failures", "statement": "On an LMDB store scripts are run or are killed at any moment, while writes and commits fail in any pattern. A kill does nothing that a failing disk could not have done: with some other failures all the scripts run to their ends, leave the very same file, and those that had not been killed have the same results; a kill in the middle of a store call, between two operations on the file, leaves what a kill between two calls leaves. So the lives of such stores are exactly those of the reference for failing disks (each let goes well or fails in one of three ways), the outcomes of killed scripts unseen, and each of these lives is really lived. A script that reads nothing it lets, begun any number of times, killed or not, while writes and commits fail, and run once more when the disk is well, has exactly the outcome it would have had at first, and the store looks exactly as after that one run; each of the attempts answers what it would have answered on a good disk or crashes, and leaves no more. A script that reads what it lets, but asserts nothing and searches for no variable, and would have answered, then answers and leaves at least what one run would have, and at most what the last of that many runs would have.", "quantifier": "every script, every life of runs and kills, every history of the store, every kill moment, every pattern of failing writes and commits, every number of attempts; within LMDB's room for ids", "why_tests_cant": "kill moments and failures combine without end; a test exercises one combination on one script", "anchors": ["wander/src/lib.rs:run", "wander/src/prelude.rs:let_command", "trips/src/heed.rs:add_collection", "trips/src/heed.rs:add_triples", "ligature-graph/src/lib.rs:LigatureGraph"]}
{"id": "C128", "title": "Host commands on a shared LMDB file, and killed", "statement": "Scripts may be run with a table of the host's own commands on an LMDB file that other clients use at the same time. If the commands make calls only about collections named in their arguments, do not list the collections, remove no entries, and have nothing run but quotes they were given (as the standard commands do), and the other clients, whatever programs they are, change no collection named in the script, the script has the outcome it has alone and leaves the collections it names as it does alone, however the calls, or the LMDB operations of the calls, interleave. A program whose commands run only quotes they were given, killed at any moment (between any two operations on the file), leaves exactly what the first few writing calls of its run leave, each whole; while writes and commits fail, what it leaves when killed it could have left running to its end with other failures.", "quantifier": "every table of commands of this kind, every script, every other client, every schedule of calls and of LMDB operations, every kill moment, every pattern of failing writes and commits, every history of the file; within LMDB's room for ids", "why_tests_cant": "The host's commands, the other clients' programs, the schedules and the kill moments are all unbounded.", "anchors": ["wander/src/lib.rs:run_calls", "wander/src/lib.rs:run_quote", "wander/src/lib.rs:Command", "trips/src/heed.rs:add_triples", "trips/src/heed.rs:add_collection"]}
{"id": "C129", "title": "Any client that only adds can be begun again after kills and failures", "statement": "Any client of an LMDB file (a Rust program calling the store's API, or a script with a table of the host's own commands) that only creates collections, adds entries, reads and searches, that makes no further call after a call of its panicked, and that reads no collection it changes, can safely be begun again. It may be begun any number of times, be killed each time at any moment (between any two operations on the file) or not, while writes and commits fail in any pattern: on the way the store always holds at least what it held at first and at most what one undisturbed run would have left; and run once more when the disk is well, the client has exactly the result it would have had at first and leaves a store that looks exactly as after that one run.", "quantifier": "every client of this kind (every table of host commands, every list of calls), every history of the file, every number of attempts, every kill moment, every pattern of failing writes and commits; within LMDB's room for ids", "why_tests_cant": "A test can begin one client a few times with a few failures; that beginning again is safe is a claim about every client, every kill moment and every pattern of failures", "anchors": ["trips/src/heed.rs:add_collection", "trips/src/heed.rs:add_triples", "ligature-graph/src/lib.rs:LigatureGraph", "ligature/src/lib.rs:Ligature", "wander/src/lib.rs:run_calls", "wander/src/lib.rs:Command"]}
{"id": "C130", "title": "A client among others that die, on a failing disk", "statement": "Clients of one LMDB file run at the same time, their operations on the file interleaved in any way; writes and commits fail in any pattern; any of the clients die at any moment, also in the middle of calls. A client whose collections no other client changes, that removes no entries, does not list the collections and is ended by a panic of a call (a script with the standard commands; a script with the host's commands that stay with their arguments; any such Rust program), is not disturbed: what it is given and what becomes of its collections is what could become of it alone, on the file as it was in the beginning, with some failures of its own; so no death, no failure of another client's writes and no removal by another client has any other effect on it. If it has ended, its result is that of such a run (when it panics, such a run panics). If it died, its collections are as such a run leaves them. For a script the outcome and the networks it looks at are what the reference for failing disks says of it alone.", "quantifier": "every number of clients, whatever programs the others are; every client of this kind; every interleaving of operations; every set of deaths; every pattern of failing writes and commits; every history of the file; within LMDB's room for ids", "why_tests_cant": "interleavings, deaths, failures and the other clients' programs combine without bound", "anchors": ["trips/src/heed.rs:add_collection", "trips/src/heed.rs:add_triples", "trips/src/heed.rs:remove_collection", "ligature-graph/src/lib.rs:LigatureGraph", "wander/src/lib.rs:run"]}
{"id": "C131", "title": "Independent scripts at the same time, with deaths, on a failing disk", "statement": "Wander scripts run at the same time on one LMDB file, their operations on the file interleaved in any way, while writes and commits fail in any pattern and any of the clients die at any moment, also in the middle of calls. If no script lets a network that another one looks at (reads, searches or lets), then at any time, whoever has ended, has died or is still on its way, the file shows exactly what it could show if the scripts had been run one after the other, in any order one likes, on a disk that fails, as the reference for failing disks says; and the scripts that have ended have the outcomes they have then. Such a run one after the other there really is, with some failures. In the reference itself independent scripts can be put in any order, and a script depends on what it looks at and changes what it lets only.", "quantifier": "every number of scripts, every order of them, every interleaving of operations, every set of deaths, every pattern of failing writes and commits, every history of the file; within LMDB's room for ids", "why_tests_cant": "scripts, interleavings, deaths and failures combine without bound; a test shows one run of a few scripts", "anchors": ["trips/src/heed.rs:add_collection", "trips/src/heed.rs:add_triples", "ligature-graph/src/lib.rs:LigatureGraph", "wander/src/prelude.rs:let_command", "wander/src/lib.rs:run"]}
{"id": "C132", "title": "Under any fair schedule everybody ends", "statement": "Finitely many clients of one LMDB file, whatever programs they are (scripts, programs of library calls, host programs whose calls end), run for ever under a scheduler that gives everyone who does not die turns again and again; writers wait while another one is in a write transaction, writes and commits fail in any pattern, clients die at any moment. Then from some time on every client has ended: there is no deadlock, no livelock, and a dead writer blocks nobody. A client that only reads ends as soon as it itself is given turns again and again, however many others there are and whether or not they go on. What has ended stays as it is. So independent scripts under any fair schedule all end, and from then on they have done what they do one after the other, in any order, on a disk that fails.", "quantifier": "every number of clients and all their programs; every endless schedule that is fair; every set of deaths, every pattern of failing writes and commits; every history of the file", "why_tests_cant": "it is a statement about infinitely long runs; a test sees a finite part of one schedule", "anchors": ["trips/src/heed.rs:add_collection", "trips/src/heed.rs:add_triples", "trips/src/heed.rs:remove_collection", "ligature-graph/src/lib.rs:LigatureGraph", "wander/src/lib.rs:run"]}
{"id": "C133", "title": "A database file over many lives of its process", "statement": "An LMDB file is used in any number of lives of a process: in each of them independent scripts are begun all at once, their operations interleave, writes and commits fail, scripts die, and at some moment the process is gone, whoever has ended. The file then shows, after each life, the world that the scripts of that life, run one after the other in any order on a disk that fails as the reference says, leave when begun in the world shown after the life before; all that was heard in a life is what they answer then; and all the lives together leave a file that looks like the one a single process leaves that runs all the scripts in turn, with some failures. A batch of independent scripts, each of which reads nothing it lets, can be begun again (all of them, or only some) in life after life, whatever fails and whenever the process goes away: when all is well and they are run once more, one after the other or all at once, each has the outcome it would have had at first and the store looks like the one it would have been then.", "quantifier": "every number of lives, every number of independent scripts in each, every interleaving, every set of deaths, every pattern of failing writes and commits, every moment at which the process goes away, every history of the file before; within LMDB's room for ids", "why_tests_cant": "lives, scripts, interleavings, deaths and failures combine without bound; a test shows a few lives of a few scripts", "anchors": ["trips/src/heed.rs:TripsHeed", "trips/src/heed.rs:add_collection", "trips/src/heed.rs:add_triples", "ligature-graph/src/lib.rs:LigatureGraph", "wander/src/prelude.rs:let_command", "wander/src/lib.rs:run"]}
{"id": "C134", "title": "Any clients that have nothing to do with each other, at the same time", "statement": "Any number of clients of one LMDB file, whatever programs they are (Wander scripts, scripts with commands of the host's, programs that make calls themselves and go by the answers), each of which removes no entries, does not list the collections and is ended by a panic of a call, and none of which may change a collection that another one makes calls about. All are begun at once, their operations interleave in any way, writes and commits fail in any pattern, clients die at any moment. At any time the file looks as if the clients had been run one after the other, in any order one likes, on a disk that fails in some way; and whoever has ended has the result it has in that run, or panics as it does there. When nobody dies and turns are given fairly, from some time on all have ended and all their results are those of such a run. Wander scripts of which neither lets what the other looks at are such clients, and so are host scripts that name different collections.", "quantifier": "every number of clients, every program of each, every order, every interleaving of operations, every set of deaths, every pattern of failing writes and commits, every history of the file; within LMDB's room for ids", "why_tests_cant": "programs, interleavings, deaths and failures combine without bound; a test shows one run of a few programs", "anchors": ["trips/src/heed.rs:add_collection", "trips/src/heed.rs:add_triples", "trips/src/heed.rs:remove_collection", "trips/src/heed.rs:triples", "trips/src/heed.rs:match_triples", "ligature-graph/src/lib.rs:LigatureGraph", "wander/src/lib.rs:run"]}
{"id": "C135", "title": "How many ids a script can use up", "statement": "A script in which no let is given a quote that reads or searches the store can use up no more than 28 of the store's ids for each character of its text, whatever the store answers it, on any store; so when scripts like that are not too long, what is said of independent scripts at the same time (at any time, with failures and deaths; under any fair schedule; over any number of lives of the process) holds of them with nothing asked but the lengths of their texts. Of a script that lets what it reads there is no such bound.", "quantifier": "every script text, every answer of the store, every store, every history, interleaving, failure and death", "why_tests_cant": "the bound must hold for every text and for whatever a store that others change may answer", "anchors": ["wander/src/lexer.rs:tokenize", "wander/src/parser.rs:parse", "wander/src/lib.rs:run", "wander/src/lib.rs:run_calls", "trips/src/heed.rs:add_triples", "trips/src/heed.rs:add_collection"]}
{"id": "C136", "title": "A file over many lives of its process, with any clients in them", "statement": "A file is used in any number of lives of a process. In each life any number of clients, whatever programs they are, each of which removes no entries, does not list the collections and is ended by a panic of a call, and none of which may change a collection that another one of that life makes calls about, are begun at once; operations interleave in any way, writes and commits fail, clients die, and at some moment the process is gone. Then there is one run of all of them, life after life and within a life one after the other in any order one likes, each from its beginning to its end, on a disk that fails in some way, begun on any file that looks like this one at first, that leaves its file looking as this one looks now; and whoever had ended, in whichever life, has the result it has in that run, or panics as it does there.", "quantifier": "every number of lives, every number of clients in each, every program of each, every order, every interleaving, every set of deaths, every pattern of failing writes and commits, every moment at which a life ends, every history of the file, every other file that looks like it; within LMDB's room for ids", "why_tests_cant": "lives, programs, interleavings, deaths and failures combine without bound", "anchors": ["trips/src/heed.rs:add_collection", "trips/src/heed.rs:add_triples", "trips/src/heed.rs:remove_collection", "trips/src/heed.rs:triples", "ligature-graph/src/lib.rs:LigatureGraph", "wander/src/lib.rs:run"]}
{"id": "C137", "title": "When nothing fails and nobody dies, at the same time is exactly one after the other", "statement": "Any number of clients, whatever programs they are (also ones that go on after a panic of a call), none of which removes entries or lists the collections and none of which may change a collection that another one makes calls about, are begun at once on one LMDB file. Their calls overlap in any way; no write or commit fails and nobody dies. Once all have ended, running them one after the other, in any order one likes, on that file as it was or on any other that looked like it, gives each of them exactly the result it has, a panic with the same cause included, and a file that looks as this one looks now. So neither the order nor how the calls overlapped shows in the results or in the file. Under a fair schedule they all end, and from some time on it is so.", "quantifier": "every number of clients, every program of each, every order, every interleaving of the parts of calls, every history of the file and of every other file that looks like it, every fair schedule; within LMDB's room for ids", "why_tests_cant": "programs, interleavings and histories combine without bound", "anchors": ["trips/src/heed.rs:add_collection", "trips/src/heed.rs:add_triples", "trips/src/heed.rs:remove_collection", "trips/src/heed.rs:triples", "ligature/src/lib.rs:LigatureGraph", "wander/src/lib.rs:run"]}
