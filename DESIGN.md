# Formal model of html5-fuser: design

Prover: Coq 8.16.1 with std++ (finite maps for the heap).  All files are under
`rocq/theories/`, logical name `Verif`.

## 1. Layers

| layer | files | content |
|---|---|---|
| Model | `Text Event Input Parse Selector Machine Template Api Messages Depth ParseCost MachineCost MachineState MachineAgain DepthState` | executable transcription of the Rust code, function by function, with file:line citations. No proofs. |
| Validation | `ModelTests`, `DocTests` | repository unit tests, and all documentation examples with their 92 assertions, replayed on the model by `vm_compute`. Tests, not proofs. |
| Spec | `SpecText SpecAttr SpecSelect SpecLocation SpecFile SpecParse SpecRender SpecTree SpecTransform SpecOps SpecSafe SpecMessages SpecDocument SpecLaws SpecHtml5 SpecHtmlSafe SpecHtmlRead SpecEntities SpecCharRef SpecOrigin SpecDepth SpecWording SpecCost SpecWork SpecSelectLaws SpecLocal SpecState SpecStop SpecMeet SpecAlike SpecBroken SpecEnd SpecNatural SpecTime SpecMemory SpecMemoryState SpecEndState SpecNaturalState SpecSafeState SpecSelectState SpecRepeatState SpecContentState SpecApplyState` | small independent specifications: character predicates, entity decoder, spelling of tokens, reading of a document, error truth, trees, tree rewriting, locations, UTF-8, read schedules, safe arguments, what messages tell, exchange of builders, the tokenizer of the HTML standard and its character references, origin of events, format strings of messages, numbers of brackets, sizes of programs. They use the model's data types, not its helper functions. |
| Proofs | `*Proofs*`, `StreamBase`, `Trace` | lemmas. |
| Properties | `Prop_Text Prop_Attr Prop_Select Prop_Misc Prop_Parse Prop_Transform Prop_Selection Prop_Ops Prop_Safe Prop_Robust Prop_Messages Prop_Document Prop_Laws Prop_Html Prop_Depth Prop_Origin Prop_CharRef Prop_Wording Prop_Cost Prop_Work Prop_SelectLaws Prop_Local Prop_State Prop_Stop Prop_Meet Prop_Alike Prop_Broken Prop_End Prop_Natural Prop_Again Prop_Time Prop_Memory Prop_MemoryState Prop_DepthState Prop_EndState Prop_NaturalState Prop_SafeState Prop_SelectState Prop_RepeatState Prop_ContentState Prop_ContentsState Prop_OnceState Prop_SubselectState Prop_AttrState Prop_ApplyState` | property theorems only, each closed by `exact lemma.` and followed by `Print Assumptions`, and beside them examples meeting the hypotheses. |

### Text
A Rust `&str`/`String`/`StrTendril` is a `list N` of Unicode code points (`char`).
Byte lengths (`len()`, offsets) are computed with a UTF-8 length function.
Byte indices returned by `find` are only ever used to slice the same string at
that index, so they are modelled as character indices.
`Deferred::{StaticStr, Actual}` is kept, because derived equality observes it.

### Panics, loops
`expect`/`unwrap`/`RefCell::borrow_mut` failures are explicit `Panic` values.
Rust loops that are not structural recursion take a fuel argument; running out
of fuel is an explicit value that the theorems exclude (C06, C45).

### Streams (`Machine.v`)
A Rust stream is a value of an inductive type `strm` with one constructor per
stream struct and its state enum.  `Rc<RefCell<S>>` is a location in an explicit
heap whose cells are `Cell s` or `Borrowed`; `borrow_mut` on a `Borrowed` cell is
`Panic`.  The engine `run n` has the operations `next_event`, reading the next event
that is not a no-op, draining a stream, and collecting its events, following the Rust
methods; `n` bounds the depth of calls.  A user pipeline (the closure passed to `transform`) is a list of API calls
`op`:

* An `FnMut` builder is a function `nat -> list op` from the invocation number. The
  arguments of a builder are opaque, so what it does on its k-th call can only depend on
  k and on the outside world.  For a fixed run, any builder, also one with captured
  mutable state, is such a function; C67 proves this for `MachineState`, where closures
  read and change a common state.  An `FnOnce` builder is a `list op`; that it is
  called at most once is guaranteed by Rust's types.
* Selectors are pure functions of the event (`SelCustom f`); the library's own
  selectors are modelled as they are.
* A content stream given by the user is a finite list of events and possibly an error
  at its end (`CStream`).  Content is only read through `Combine`, which asks no more
  after the end (C74).  (In `MachineState` it is a function of the number of the call and of the
  state, and need not end.)
* The closure of `apply_as_template` is a function from event lists to results.
* The iterator passed to `repeat` is a list.  (In `MachineState` it is a function of the
  number of the call and of the state, and need not end.)

The type discipline of `ElementStream` is a typing relation `typed` on pipelines.
`Api.v` is the layer of convenience functions, content conversions and argument
conversions of `transform.rs`, `content.rs`, `identifier.rs` and `select.rs`.

### Proof method for streams
1. `Strm` : a stream in a heap *produces* a finite list of events and then ends or
   fails, leaving a heap satisfying a postcondition, for every disjoint frame heap
   (a small separation-style triple, `StreamBase`).
2. For each stream struct a lemma: if its inputs produce x then it produces f x,
   f being a function on event lists (`StreamProofs*`, `Trace`).
3. Induction over pipelines: the machine computes the event-list denotation
   (`PipelineProofs`).
4. The event-list denotation on the events of a forest is tree rewriting
   (`TreeProofs`, `SelectionProofs`, `OpProofs`).
5. Property theorems are statements about the machine's `transform` and trees.
6. C45 needs no well-formedness: `RobustProofs` has a weaker coinductive-style
   invariant (`Run`/`Dead`): a stream can be asked finitely often until it is dead, and
   a dead stream stays dead, whatever the events are.

### Proof method for the parser
`SpecParse` has relations `Spells` (a slice of text spells an event), `Reads` (reading a
document from left to right, with the stack of open elements) and `Fault` (what each
error says about the text).  Each token parser is proved sound and complete for the
spelling relation, then the iterator for `Reads`/`Fault`; so parsing succeeds exactly on
documents, with their only event list, and fails with an error exactly on texts with that
fault.

## 2. Properties

| id | modelled as | proof |
|---|---|---|
| C01 | encoder loop of `encoded.rs` | induction on the string; spec = predicate on characters/entities |
| C02 | entity decoder as spec | induction |
| C03 | `from_unencoded_str` | refuted by a witness; the exact behaviour is stated |
| C04 | `validate` | case analysis against a declarative predicate |
| C05 | `identifier_eq` | equivalence laws by induction |
| C06 | parser with explicit panic and fuel | measure on remaining input |
| C07 | parser | invariant relating stack and events emitted; forest extracted |
| C08 | parser | simulation between limited and unlimited runs |
| C09 | `from_str` | direct, length via UTF-8 length |
| C10 | parser | soundness of each token parser w.r.t. declarative spelling relation |
| C11 | parser and `Display` | completeness of the token parsers on rendered tokens; refuted witness for `!` tags |
| C12 | `parse_raw_data` | first-match characterisation |
| C13 | `is_void_tag`, `try_parse_tag_open` | list characterisation and invariant |
| C14 | parser errors | per-variant truth predicate `Fault`; the parser reports exactly the faults (`ParseProofs10`) |
| C15 | `Location` | homomorphism of `with_consumed` |
| C16 | machine | Strm triples |
| C17 | machine, parser | induction over histories |
| C18–C25, C28, C31, C32, C39 | machine | refinement to tree rewriting |
| C26, C27 | `Attributes` methods | list induction against filter/spec functions |
| C29 | machine | denotation with error termination |
| C30 | machine | denotation composes |
| C33, C34 | selector parser and matcher | spec by splitting/boolean conjunction |
| C35 | `from_file` with explicit read schedule and UTF-8 decoder | characterised by `Loads`; refuted witness for split characters |
| C36 | derived equalities | structural |
| C37 | integer content | decimal printing/reading |
| C38 | `with_element`, `with_transformed_element` | refinement |
| C40 | error `Display` | refuted by witness; for every mismatch error the message is the exchanged one |
| C41 | parser, `Display`, machine | render/parse theorem for templates edited by adding markup-free text |
| C42 | parser errors | refuted by witnesses; never the start of the tag |
| C43 | `Error::cause` | rank |
| C44 | machine, `Display`, parser | invariant `Readable` of event lists under all operations; refuted by three witnesses |
| C45 | machine | `Run`/`Dead` for arbitrary streams and pipelines |
| C46 | all error `Display`s | unique splitting of messages at quotes, digits, dots |
| C57 | `Display`, `cause`, `description` of all errors | C46 on each level of the chain; first letters for different types |
| C58 | machine, `Depth` | room needed by each stream (`W`), with ranks for heap cells; simulation of `run` by `deep` |
| C47 | `Options`, parser | via `Reads`, which depends on the limit only in `Nest` |
| C48 | parser | `Reads` and `Fault` are kept by continuations unless `Pending`; otherwise a continuation without the fault |
| C49 | parser | `Reads` of the second text shifted behind the first; `Fault` with moved locations |
| C50 | machine | induction over `Exchange`: the denotations of both programs succeed together; refuted for errors |
| C51, C52, C53 | machine | equations of denotations; of attribute lists; of `Selects` |
| C54 | `Display` | the tokenizer of the HTML standard run on each piece of the rendering (`Run`); refuted without the conditions |
| C55 | machine, `Display` | invariant of trees, kept by all denotations (`KeepProofs`, generic in the invariant) |
| C56 | parser, `Display` | the tokenizer of the HTML standard run on every spelling of an event (`Written`), induction on the attributes; newlines normalized slice by slice |
| C59 | `Display`, encoding, machine, parser | the tokenizer proofs of C54 and C56 are generic in how references are read, if that is local (`Local_ref`); locality of the table of names by a computed check that `;` occurs in names only at the end |
| C60 | machine | `KeepProofs` with the invariant that every event comes from somewhere |
| C61 | `Display` of all errors, `char::escape_default` | positional numerals are unique in every base; formats are functions of their arguments |
| C62 | parser, with a count of steps (`ParseCost`) | erasing the count gives the parser; triples on results and counts; amortization with a potential (text left, open elements), the end of a raw text paid by the end tag behind it |
| C63 | streams and builders, with a count of steps (`MachineCost`) | erasing the count gives the machine; each stream has a potential (an upper bound for the steps it still causes), affine in the potential of the cell it reads from, so that shared cells are paid once; every step pays with potential; recursion on the size of the program for what a call adds |
| C64, C65 | machine | `Selects` twice on one forest, induction on both derivations; invariant of the first event of a denotation; filters of attribute lists |
| C66 | machine | denotation: induction on the events for a nested prefix; selections on every level do not depend on the level; induction on the program |
| C67 | `MachineState`: the machine with closures that have state | erasing closures to the calls they made, backwards from the end of the run (a simulation with prophecies: the relation between final states is total, and each step is undone on the stateless side); a forward simulation for programs without state, and one following the only closure with state (with the number of its calls) through the streams; monotonicity in fuel; running out of fuel `n` takes `n` counted steps (C63) |
| C68 | `MachineState` | the invariants of C45 (every stream ends) for all states of the world at once; induction on the ends of the iterators (`Ends`) inside an induction on the calls made by closures (`Ending`) |
| C69 | `Machine` | denotation of selections (`d_select`) run over forests; a matching event that begins no element ends the trace with the error of `SingleElement`; the analysis of errors of C16 repeated with one more source |
| C70 | `MachineState` | a relation between the streams of two machines with state, constructor by constructor, kept by every step in lockstep (relational parametricity in the type of the world) |
| C71 | `Machine` | `Strm` lemmas for select, select_once, single elements and contents without the condition that the events are nested: a nested part is passed, then the selection is at the tag that does not match |
| C72 | `Machine` | invariant of the engine: every answer that stops leaves the stream in a state `Ended` (a predicate on stream and cells); an ended stream answers the end and leaves everything as it is; cells that are borrowed stay borrowed while a call runs |
| C73 | `Machine` | lockstep simulation of the engine with itself on related templates, programs, streams and cells; the three special cases are instances, with equal programs or the renamed program related to themselves by induction on programs |
| C74 | `MachineAgain`: content streams that can be asked again | the two machines run in step: streams given as contents occur only under `Combine` and `Fallible`, or alone, and there only what is left of them after their end can differ |
| C75 | `MachineState` | the simulation of C70 with stages (a Kripke-style relation: what is known of the states may grow); for termination, iterators and streams are cut off after as many answers as the supply has, the cut program ends by C68, and it is alike to the one that is not cut |
| C76 | `Machine` | as C58: invariant on streams and cells with a budget for each cell, now for the sum of what is kept; every function of the engine keeps within the budgets; what is kept now (`Keeps`) is within the budget |
| C77 | `MachineState` | as C76, for the engine with a world; closures, iterators and content streams are any functions of the world |
| C78 | `DepthState` | as C58, with the engine without room as a parameter: two runs with different such engines are the same in lockstep, within the budgets; and simulation with `MachineState.wrun` in both directions |
| C79 | `SpecEndState` | as C72: the streams that have ended are a set closed under `wrun`; it depends on the cells and not on the state |
| C80 | `SpecNaturalState`, `SpecNatural` | as C73, with a relation between the states of the two programs; the calls a program can make (`CanMake`) are those of its closures in all states |
| C81 | `SpecSafeState`, `SpecNaturalState`, `SpecSafe` | by C67 the run is that of a program without state that the program can turn out to be; typing and conditions on arguments carry over to it, and C17, C29, C41, C60 apply |
| C82 | `SpecSelectState`, `SpecTransform`, `SpecState` | lockstep with `select` without state, counting the calls; the number is found by letting the closure fail at the end or earlier and comparing with C19 |
| C83 | `SpecRepeatState`, `SpecState` | a copy beside other shared cells is simulated by one in an empty heap (locations moved, cells below kept); then induction on the turns, and on fuel for the converse |
| C84 | `SpecContentState`, `SpecRepeatState`, `SpecState` | the streams of both parts are followed event by event, in both directions; building does not look at the state |
| C85 | `SpecRepeatState`, `SpecContentState`, `SpecOps` | the stream of the children is followed through the shared cell, whose end is the peeked closing tag; the cell survives the copies (C83); then as C83 and C84 |
| C86 | `SpecOps`, `SpecState` | lockstep with the run without state: until the closure is called a run is the same for all closures; that it is called follows from a closure whose calls fail giving another result |
| C87 | `SpecOps`, `SpecSelectState` | families of streams that differ only in a closure not called yet (or called `k` times) go through the wrapper streams in lockstep; then as C82 and C86 |
| C88 | `SpecState`, `SpecNatural` (`Changes`, `BadName`) | the first read of the stream of the call is computed from the first read below; after it the stream passes events on |
| C89 | `SpecApplyState` | the stream of `ApplyEither` and the one below it are read in step; the stream for a bad selector fails at the first read |

## 3. Trusted base

* Coq's kernel, including `vm_compute` (used in examples, witnesses, and a finite check of
  the 128 ASCII characters in `MessageProofs.escapes_differ`).
* `Print Assumptions` answers "Closed under the global context" for every theorem in the
  `Prop_*` files; no axiom is used, neither ours nor the standard library's.  (The build
  loads `Coq.ssr.ssrunder` through std++; its module-type parameters `Under_rel.*` appear
  in a list of everything loaded, but no theorem depends on them.)
* The correspondence between the Rust text and the model, described above and in the
  comments of the model files.  The Rust code was not run.

Standard library behaviour that is modelled, not verified: `char::is_whitespace`,
`to_ascii_lowercase`/`eq_ignore_ascii_case`, `str::find`/`split`/`trim`,
`split_whitespace`, `str::from_utf8`, integer formatting, `char::escape_default`,
`BufReader::fill_buf` (returns the unconsumed part of the buffer, reads once if it is
empty; the sizes of the reads are arbitrary in the theorems), `RefCell`.
For C62 the costs of these functions are assumptions stated in `ParseCost`: searching looks
at every character up to the match, slicing and `len` take constant time, `push` amortized
constant time, and an owned string is copied.  Steps count characters; a character has at most
four bytes.
For C63 a step is a call of `next_event`, an iteration of a loop, a call of `peek` or a call
made by a builder; what happens inside one (matching a selector, changing the attributes of
one tag, calling a function of the user) is taken to be one step.

## 4. Not modelled

* `Debug` output, accessor functions of errors and locations.
* `StrTendril` capacity (4 GiB) and reference counting; memory exhaustion.  (For the call
  stack see C58: the depth of calls is bounded by the program.  Frames of streams that only
  forward are not counted; there are at most a few for each call of the program.)
* Selectors that share state with closures.  (Closures, iterators and content streams that share
  state, and infinite iterators and content streams, are in `MachineState`; content streams that
  give events again after they have ended or failed are in `MachineAgain`.)
* Builders that call themselves without bound (a boxed function that makes calls with itself as
  builder).  Programs are well-founded trees; for a given run such a builder is the tree unrolled
  as far as the run goes, for all runs at once it has none.
* `io::Error` and `Utf8Error` are codes, their messages are arbitrary functions of the codes,
  their causes are left out; paths are strings.
* `AssertionError` is merged with its only content `MalformedReason` in `stream_error`;
  `Messages.any_error`, for messages and causes, has it.
* Concurrency: the library has none (`Rc`, no threads).

The tokenizer in `SpecHtml5` is part of the specification of C54, C55 and C56, written from the
HTML standard (section 13.2.5), not from the code.  It leaves out: public and system identifiers of doctypes, CDATA sections, parse errors.  The switch to
text-only states after a start tag is that of HTML elements outside of svg, math and select.
In C54 to C56 tokens are compared in encoded form, without expanding character references;
`SpecCharRef`, the specification of C59, has the same tokenizer with character references
(section 13.2.5.72 and following), including the table of the 2231 names in `SpecEntities`
(generated from a copy of the table of the standard).

## 5. Findings (false claims, with proofs `…_refuted`)

| theorem | finding |
|---|---|
| `C03_…` | `EncodedText::from_unencoded_str` does not encode |
| `C11_…` | a tag whose name begins with `!` can be rendered to a comment or doctype |
| `C35_split_character_refuted` | a UTF-8 file can fail to load if a read ends inside a character |
| `C36_converse_refuted` | templates with the same rendering may be unequal (static and owned text differ) |
| `C40_…` | the message for mismatched tags exchanges them; the message for an invalid closing tag says opening |
| `C42_…` | the location of unfinished tags is never where the tag starts, as documented |
| `C44_…` | renderings that cannot be read back: repeated contents of raw text elements, names with an apostrophe, an element `!--` |
| `C46_…` | `a.b`+`c` and `a`+`b.c` give the same message for attribute values; invalid element names are reported as attributes |
| `C57_description_refuted` | `StaticError::description` is that of `ClassesError` |
| `C50_same_error_refuted` | a builder with the same results can change which error a program reports |
| `C52_set_commutes_refuted` | setting two attributes in the other order gives another rendering |
| `C54_…` | texts that the library accepts and writes, but readers of HTML see differently: names not beginning with a letter, `<script />`, noembed/iframe/xmp/plaintext, comments with `--!>` or beginning with `>`, `</script x>` and `<!--<script>` in scripts, U+0000 |
| `C56_…` | tags that the parser reads differently from readers of HTML: white space after `<`, `</`, `<!`, at the start of a value (dropped), and non-HTML white space such as U+00A0 as a separator |
| `C55_unsettled_refuted` | a space added to a script whose text ends with `</script` ends the script |
| `C59_divided_refuted` | the literal `lt;` inserted behind a text ending with `&` is shown as `<` |
| `C59_script_refuted` | literals inserted into scripts and styles are seen in encoded form (`1&lt;2`) |
| `C62_linear_refuted` | parsing a script (style, title, textarea) takes time quadratic in the number of `<` in it: `Input::take_until_end_char` counts lines and columns from the start of the raw text for each of them |
| `C63_linear_refuted` | a program whose builders have no common size takes more than linear time; and `C63_exponential`: the factor is exponential in the size of the program |
| `C64_fuse_refuted` | two selections with the same selector are not one doing both if the first makes elements not match |
| `C64_commute_refuted` | selections of elements inside each other do not commute, even if neither makes new matches |
| `C66_concat_refuted` | with a builder that counts its calls, the result for two templates in a row is not the two results in a row |
| `C67_returns_refuted` | with an iterator that never ends, `repeat` does not return, although streams could |
| `C67_contents_refuted` | with a content stream that never ends no transformation returns |
| `C67_chain_refuted` | two selections whose closures share a counter are not the two transformations one after the other: their closures are called in the order of the elements |
| `C69_unchanged_refuted` | selecting by the negation of a library selector and doing nothing is not doing nothing: text matches, and the transformation fails with an internal error |

## 6. Mutation tests

`seeded/LOG.jsonl` lists wrong versions of the model that were built in scratch copies:
the definition edited, the edit, the claim it breaks, the theorems that no longer prove
(a theorem counts as failed if its proof, or that of a lemma it uses, fails), and what was
tightened.

## 7. Status

See `MANIFEST.json`.  All properties of `properties.jsonl` are proved or refuted for the
model as stated there; none is partial.
