# Formal model of dhurum/sjparser in Coq 8.16 — design

Coq 8.16.1, standard library only. Build: `cd rocq && coq_makefile -f _CoqProject -o Makefile && make -j4` (about 3 min).

## 1. Files (rocq/theories)

| layer | files | content |
|---|---|---|
| data | `Base.v` | scalars, tokens, stored values, declarations (`schema`), exceptions, observable views, callback arguments and results |
| code | `Prims.v` | what the code takes from the C++ library (name comparison, ordering of strings, insertion into `std::map`, texts up to NUL), its error texts, overload resolution on token types |
| code | `Model.v` | parser objects and dispatcher, function by function; executable |
| code | `Api.v` | `YajlParser`, `Parser`, `ParsingError`; executable, over an arbitrary incremental tokenizer |
| code | `Access.v` (first half) | `get<n>()`, `pop<n>()`, the constructors' check for duplicate names |
| code | `Move.v` (first half) | objects in memory with addresses: constructors, move constructors, move assignments, the pointer tables |
| specification | `Spec.v` | JSON trees, their tokens, the recursive meaning `den` of a document for a declaration, the class `supported`; independent of `Model.v` |
| specification | `Order.v` (`ids`), `Accept.v` (`verdict`), `Round.v` (`to_json`, `has`), `Members.v` (`member_view`, `last_of`), `Blank.v` (`blank`), `Outcome.v` (`doc`, `reads`, `Parsed`/`Failed`), `History.v` (`history`) | small definitions used in the statements |
| tokenizer | `Strtod.v`, `Json.v`, `Grammar.v`, `Grammar2.v` | the double nearest to a decimal number; an incremental JSON tokenizer and printer (stands in for yajl in C36 and in the examples); the grammar of JSON texts, independent of both (raw strings: byte patterns of UTF-8, as yajl checks them), and that the tokenizer accepts exactly its texts |
| proofs | the other files | |
| statements | `Docs1.v`–`Docs*.v` | the property lemmas (`cNN_*`) |
| statements | `Properties.v` | generated by `tools/gen_properties.py`: only theorems `CNN_*`, each `exact` a lemma, each followed by `Print Assumptions` |
| findings | `Findings.v`, `CNN_*_refuted` | runs of the model that violate what a user relies on |
| examples | `Examples.v` | for every property, concrete JSON texts and declarations that meet the hypotheses of its theorems, with the result the theorem gives |
| examples | `Suite.v` | the project's own unit tests (`/repo/tests/src`), 211 of them, transcribed and run on the model: same values, same error texts |

## 2. How the code is represented

* A declaration is a `schema` (a tree); the run-time object is a `parser` (a tree with the fields of the C++ classes).
  A pointer to a parser is a *path* in this tree; the dispatcher's `_parsers` is a list of paths.
* Exceptions keep the mutated state, as in C++: `RThrow e s`. Undefined behaviour (null or dangling dispatcher, dead
  buffer) is a separate outcome (`RUB`, `AUB`), and so is `std::terminate` (`ATerm`).
* The mutual recursion parser → dispatcher → parser runs on fuel. C01 shows that the fuel given always suffices
  (`RFuel` is not reachable) and that more fuel gives the same result; after that only the fuel-free form is used.
* User callbacks are arbitrary functions (`env`) of the callback history, of the state of every parser of the declaration
  (captured references) and of the argument they receive. Their result: true, false, a thrown std::exception, something
  else thrown; which values they pop from the parser they are given (`co_pops`) and from any parser anywhere in the
  declaration (`co_away`); the value they store into a SCustomObject.
* Value types with throwing copies, moves or assignments: `e_store v` is what storing `v` into a std::vector, std::map,
  std::tuple or std::variant throws (`None`: nothing). A container is unchanged after the exception (strong guarantee of
  push_back and insert); the element has been popped. For theorems relating the code to `den` the callbacks see parsers only
  through their public getters (`lift P`).
* yajl is an arbitrary `tokenizer`: a state, a reaction to each byte, a reaction to the end of the text.

## 3. Trusted base

* Coq's kernel (`coqc`), including `vm_compute` conversion.
* Assumptions: `Print Assumptions` answers "Closed under the global context" for every theorem of `Properties.v` and
  `Examples.v`. No axioms are used, neither own nor of the standard library. (`coqchk`-like listings of everything
  *loaded* also show seven names of `Coq.ssr.ssrunder.Under_rel`; they are fields of a standard-library module type that
  `Lia`/`ssreflect` loads, and no theorem depends on them.)
* The reading of the C++ code: `Prims.v`, `Model.v`, `Api.v`, the definitions of `Access.v` and `Move.v`; every definition
  cites the lines it models. `Suite.v` is the evidence that the reading is right: the project's own tests give on the model
  the results the project expects (not transcribed: yajl's error positions, addresses of references, copies and moves of
  user value types, the type traits of member.cpp).
* The specification files named above.
* About yajl (not part of the repository): its reaction to a byte depends on its state, not on buffer borders; it reports
  tokens one at a time and stops at the first callback that returns 0; after an error every further call fails. C34
  (second `finish()`) also assumes that completing a completed text changes nothing. Integers are in range of int64
  (yajl rejects others).

### Modelled

Every class of `library/sjparser`: Value, Array, SArray, Map, SMap, Object, SAutoObject, SCustomObject, Union, SUnion
(standalone and embedded), Member (names, Presence, defaults), ObjectOptions/Reaction, Ignore, TokenParser, ArrayParser,
KeyValueParser, Dispatcher, Parser, YajlParser, ParsingError; construction including the duplicate check; get/pop/isSet/
isEmpty/currentMemberId; user callbacks; setFinishCallback/setElementCallback between calls; moving.

### Not modelled

* yajl itself (see above), allocation failures inside yajl, while the text of an exception is built, and of the stack of a new Dispatcher (dispatcher.cpp:55). Modelled are `yajl_alloc` (`Alloc.v`) and every other allocation while tokens are handled (`faults`, `FStore` in `Model.v`: any of them may fail in any call; theorems over an arbitrary `env` include this, those over a `program` via `lift`, and C35_opened, C40, C44, C45_no_leak in their conditions on callbacks, assume enough memory), stack overflow
  of the C++ call stack, threads (the library has none).
* `int64_t` is `Z`; `double` is the standard library's IEEE `spec_float`, which the library compares and copies and does not compute with (only the tokenizer of `Json.v` rounds decimal numbers to it);
  the decimal text of a double in an error message is an arbitrary function (`p_fmt`).
* Template-level facts (static_asserts, which calls compile). Calls that do not compile are `GIllFormed`.
* In `Model.v` a declaration is a tree: one lvalue parser used at two places of one declaration is not represented there
  (it is in `Move.v`, see B9).
* Move assignment of objects with reference members (does not compile), reading moved-from objects, self-move assignment.
* Value types whose default construction (`_value = {}` in reset()) throws, or whose containers give only the basic guarantee
  (a throwing move constructor during the reallocation of a vector): what is left in the container then.
* `Parser` itself can be neither copied nor moved (yajl_parser.h:46-49).

## 4. Plan per property, and where it is proved

| | statement | technique |
|---|---|---|
| C01 | Docs1 | measure on (stack length, height of the tree) for the fuel; `Total.v` |
| C02, C32 | Docs1, Docs3 | invariant over all token sequences: a parser on the stack and its members have the live dispatcher; `Safe.v`. Array{Union} refuted |
| C03 | Docs1 | refinement machine = `den`, induction on the JSON tree, from every ready state (`Refine.v`, `Main.v`), lifted to parse()/finish() (`ApiProofs.v`, `History.v`) |
| C04 | Docs1, Docs6 | C03 and induction on values (`Round.v`); callbacks that only look: `Looks.v` |
| C05, C06, C08–C10, C12–C14 | Docs1, Docs2 | C03 and lemmas about `den` (`DenFacts.v`, `Closed.v`, `Members.v`; `Free.v`: what callbacks that decide by their argument do to a document does not depend on the past) |
| C07, C11, C19, C20 | Docs1, Docs2 | the true part by C03 (`Blank.v`, `Accept.v`, `Complete.v`); the false part `_refuted` |
| C15, C16 | Docs2, Docs11, Docs14 | case analysis of the getters in any state, and C03 for "after a document"; pop() inside callbacks: relation "the same run with the popped value gone", induction over callback and token execution (`Pops.v`); get-after-pop refuted |
| C17, C18 | Docs2 | C03, `end_union`, `end_object` |
| C21, C33 | Docs3, Docs8 | C03 from every history; with arrays: invariant that counts open arrays in the parser objects against '[' and ']' of the accepted tokens (`Loose.v`, `Arrays.v`); refuted where arrays are left open or keep a dispatcher |
| C22–C27, C34 | Docs3, Docs11 | lemmas about the YajlParser state machine for an arbitrary tokenizer (`ApiProofs.v`, `ApiFacts.v`) |
| C28, C29 | Docs3 | induction on the tree (`Order.v`); invariant over all token sequences (`Calls.v`) |
| C30 | Docs3 | `Access.v`; equal names are a relation (`same_name`) in the statement |
| C31 | Docs4 | invariant over programs of constructions, moves and assignments (`Move.v`, `MoveState.v`) |
| C35 | Docs5 | invariant over all token sequences (`Unset.v`) |
| C37 | Docs7 | invariant: the stack holds parsers of strictly growing depth in the tree (`Depth.v`); fuel bound of C01 |
| C38 | Docs9 | `Typed.v`: inductive `typed`/`shape`/`told` specification, one invariant `fit` preserved by every call of the mutual recursion, for every state, text and callback |
| C39 | Docs10 | `Callbacks.v`: the invariants of the histories ignore callbacks; then C03 for the declaration with the new callback |
| C40 | Docs10 | simulation by erasure: `Observe.v` proves for every call of the mutual recursion, in every state, that erasing the onlookers commutes with it; `ObserveApi.v` lifts it to parse()/finish() |
| C41 | Docs12 | `StreamSpec.v` (independent of the model) gives the meaning `pden` of a document whose last branch is open; `Stream.v` proves by induction on the beginning that the machine computes it, `StreamApi.v` that every proper beginning of a supported document is covered and lifts it to parse() in any buffers after any history; `Log.v` shows that the callback history only grows |
| C42 | Docs13 | `Alloc.v`: parse() statement by statement with an allocation that may fail, each call with its own oracle bit; equal to `Api.v` when it works (`f_parse_ok`); a relation between the states with and without the failed calls is preserved by every call. |
| C43 | Docs15 | the meaning `den` includes what storing throws (C03 with any `p_store`); arrays and maps by induction on the elements before; `Kept.v`: an invariant of every call of the mutual recursion, with any callbacks, lifted to histories |
| C44 | Docs16 | a relation between two parser trees that begin the same document, relative to the top of the dispatcher's stack (Same.v); every call of the mutual recursion preserves it on any token sequence in which a value comes first and after each key (Lock.v); lifted to parse()/finish() (LockApi.v); JsonPlaced.v: the JSON tokenizer only reports such sequences, whatever the bytes |
| C45 | Docs17 | `From.v`: an invariant of every call of the mutual recursion on any tokens and callbacks (all values held are made of given scalars and keys; every map below the top of the stack has a key of the text), lifted to arbitrary calls; with C44: to documents of a used parser |
| C46 | Docs18 | `Space.v`: by induction on the mutual recursion, a token adds at most one entry to all Ignore stacks together, and only if it opens a value while one is skipped; an invariant between tokens relates the entries to the nesting; what is held is computed from the declaration by the typing invariant of C38 |
| C47 | Docs19 | `Cut.v`: every call of the mutual recursion, with any allocations failing, returns what it returns with enough memory or throws the exception of the failed allocation, and then the callback history is a beginning of the other one (uses that histories only grow, `Log.v`); lifted to parse(), finish(), documents |
| C48 | Docs20 | `Errors.v`: an inductive list of causes, each with the text and what it asserts about the parser tree; by induction on the fuel, every exception of every call has one (a call that pops needs a non-empty stack, an invariant of the calls), with the node kinds kept by every call (`Lock.exec_le`); lifted to documents |
| C49 | Docs21 | `Veil.v`: the callback behaviour is replaced by one that differs wherever `due` fails, and both runs agree (an invariant over the stack: everything on it but the top is not set, with `dims`: set flags only go down); the same invariant read off between calls and after errors, and get()/pop() from it |
| C50 | Docs22 | `Newer.v`: the relation `newer` on declarations, with what corresponds in values (`nval`), views and callback arguments, independent of the code; simulation of `den` by induction on the document (together with `supported` of the new declaration); with C03 for both. `Lighter.v`: the same for `verdict` when less is stored, with C19; chains of versions by composing acceptance |
| C51 | Docs23 | `Time.v`: `calls_of` lists the calls made by each function (`calls_all`: none is missing), `total` counts them; a potential argument (7 per parser on the stack) over every function, by induction on the fuel; `told_run`: each callback is invoked by a call of its own. Docs23: tokens of a JSON text by a potential over its bytes |
| C52 | Docs24, Docs25 | With C03 on both sides: the specification of the array is the specification of the elements in turn (induction on the list); a run of documents on one Parser by C34. `Readme.v`: the declaration of Readme.md, its records, and what pop<0>(), get<1>(), pop<2>() return in the callback |
| C53 | Docs26 | `Grown.v`: the relation on documents; `den` and `supported` by induction on the larger document; with C03 for both |
| C54 | Docs27 | the reaction to a document is a function of its tokens (`document_observe`); the tokens of a text are a function of its document (`grammar_tokens`) |
| C55 | Docs28 | `Shuffle.v`: the relation `reordered` on declarations (names a permutation, members with the same name related), with what corresponds in values, views (by name) and callback arguments, independent of the code; simulation of `den` by induction on the document; symmetric, so that acceptance is equivalent with C19 |
| C56 | Docs29, Docs30 | C03 for the whole and for each part; induction on the list of members. The relations `parts`, `elements`, `entries` between a document and runs of Parsers speak about API runs (`alone`), not about `den` |
| C57 | Docs31 | C03 for both parsers; induction on the members of the document: until it ends an object does the same whatever its kind (`same_until_end`); `field` and `record` say what is kept without `member_values` |
| C36 | Docs6 | `Strtod.v`: every finite double is the one nearest to its exact decimal number (integer arithmetic on `spec_float`); `Json.v`: the tokenizer reads back every printed document; accepted texts are documents; different documents have different tokens; `Grammar.v`: induction on the derivation of a text; `Grammar2.v`: conversely every run of the tokenizer to the end gives a derivation, so text outside of the grammar is always reported |

No property of the list was found to be inexpressible in the model.

## 5. Findings (the code, traced in the model; witnesses in Findings.v and the `_refuted` theorems)

* B1 (C21) An error inside an array leaves `_started` true: the next valid document is rejected, a bare scalar is accepted.
* B2 (C11) A null nested in an ignored value ends the ignoring; the rest of it is read as own members.
* B3 (C07) A null element after an object/array element pops the array; depends on the documents parsed before.
* B4 (C19, C20) A standalone union accepts a bare scalar instead of an object, and a null type hands the rest of its object
  to the enclosing parser.
* B5 (C02) Array{Union}: `[1` uses a null dispatcher.
* B6 (C27) finish() reads the buffer of the last parse() call, which the caller may have freed.
* B7 (C15) get<n>() after pop<n>() returns the default instead of throwing as documented.
* B8 (C33) The element parser of an array keeps the dispatcher of a destroyed Parser and uses it on null.
* B9 (C31) One lvalue parser used as two members of a union: the id of the first name is that of the second.
* B10 (C35) A document rejected at its first token leaves the value of the previous document readable.

## 6. Testing the theorems

`tools/mutate.py` applies an edit to the code layer in a scratch copy, rebuilds everything that still builds, and lists the
property theorems that fail. Results: `seeded/LOG.jsonl`. Specification and code layer share no functions that a bug could
change on both sides at once (that is what `Prims.v` is for).
