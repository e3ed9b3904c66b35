# Formal model of CMDJojo/dandy in Rocq (Coq 8.16.1)

Everything is in `rocq/theories/` (logical name `Verif`). Only Coq's standard library is used.
`properties.jsonl` lists the claims, `MANIFEST.json` the theorems that prove them, `seeded/LOG.jsonl` the wrong programs
the theorems were tested against. In that log `lemmas_failed` are the statements whose proofs no longer check after the
edit (the proof of each is skipped and the build goes on), `theorems_failed` the property theorems whose proofs use one
of them, directly or through other lemmas. A proof that breaks is weaker evidence than a statement that becomes false:
some edits in the log are controls that leave the claim true (marked in `outcome`), and most of those break a proof as
well, because the proofs follow the shape of the code. Edits that survived are in the log too: their lines have no
failed theorems. If a theorem was tightened because of one, another line for the same edit names it.
The first 309 lines were written when only edits that broke a listed theorem's proof were logged; the lines for the
other edits of those batches were added after them.

## Layout

Every area consists of up to four kinds of files.

* `XModel.v`: the *model*. One definition per Rust function, each with a comment that cites the file and the lines it
  models and says where it simplifies.
* `XSpec.v`: the *specification*. It defines what the theorems talk about and does not call the model.
* `XProofs.v` and other files: lemmas.
* `Prop_X.v`: only property theorems, `Print Assumptions` after each, and examples that meet the hypotheses.

| area | files | code |
|---|---|---|
| substrate | `Base`, `BaseLemmas`, `Search`, `SearchProofs`, `Bfs` | results that may panic, indexing, hash containers, loops, worklists |
| languages | `Spec`, `Histories`, `Examples` | (specification) automata, runs, languages, matching, validity, restriction, isomorphism, shortlex; clients driving evaluators |
| DFAs | `DfaModel`; `DfaBasics`, `DfaReach`, `DfaEquiv`, `DfaHopcroft`, `DfaMinimize`, `DfaHistory`, `DfaFinal`; `Prop_Dfa` | `dandy/src/dfa/mod.rs`, `dfa/eval.rs`, `util.rs` |
| NFAs | `NfaModel`; `NfaBasics`, `NfaReach`, `NfaEquiv`, `NfaToDfa`, `NfaUnion`, `NfaProduct`, `NfaEps`; `Prop_Nfa` | `dandy/src/nfa/mod.rs`, `nfa/eval.rs` |
| words | `WordsModel`, `WordsProofs`, `Prop_Words` | `dandy/src/nfa/words.rs` |
| regex | `RegexModel`, `RegexProofs`, `Prop_Regex` | `dandy/src/regex/mod.rs` |
| validation | `TableSpec`, `DefectSpec`, `ValidateModel`, `ValidateProofs`, `DefectProofs`, `Messages`, `MessageSpec`, `Prop_Validate` | `dandy/src/dfa/parse.rs`, `dandy/src/nfa/parse.rs` and their error messages |
| table parser | `LayoutSpec`, `ParserModel`, `ParserBasics`, `FaParserProofs`, `CrlfProofs`, `Prop_Parser` | `dandy/src/parser/fa.rs`, `parser/mod.rs` |
| table printer | `TableModel`, `TableProofs`, `TableAlign`, `Prop_Table` | `dandy/src/table/mod.rs`, `to_table`, `ascii_table` |
| regex parser | `RegexSpec`, `RegexParserModel`, `RegexParserProofs`, `RegexPrintProofs`, `RegexSymbols`, `RegexUnescape`, `RegexTrimSpec`, `RegexTrim`, `Prop_RegexParser` | `dandy/src/parser/regex.rs`, `Regex::to_string` |
| syntax errors | `ErrSpec`, `ErrModel`, `ErrBasics`, `ErrProofs`, `ErrRegexProofs`, `ErrCliModel`, `ErrCliProofs`, `Prop_Err`, `Prop_ErrPage` | the errors of `dandy/src/parser/*.rs` and their texts in the messages of dandy-cli and dandy-wasm |
| API programs | `ApiModel`, `ApiProofs`, `Prop_Api`, `ApiNames`, `Prop_Roundtrip` | programs built from the public functions |
| combinators with memory | `FnMutSpec`, `FnMutModel`, `FnMutProofs`, `Prop_FnMut` | `product_construction` of DFAs and NFAs |
| graphemes | `GraphemeSpec`, `WordDfa`, `Prop_Grapheme` | `graphemes_only`, `accepts_graphemes` |
| sizes | `SizeSpec`, `SizeProofs`, `RegexSizeProofs`, `Growth`, `Prop_Size`, `Prop_RegexSize`, `Prop_Growth` | numbers of states of all results; families of automata that attain the bounds |
| stability | `StableProofs`, `Prop_Stable` | repeated operations, round trips |
| laws | `AlgebraSpec`, `RecolorProofs`, `AlgebraProofs`, `Prop_Algebra` | pipelines of calls with free variables; enumeration of complements |
| tests | `TestsModel`, `CounterProofs`, `TestsProofs`, `Prop_Tests` | `dandy/src/tests.rs` |
| documentation | `DocModel`, `DocSpec`, `DocProofs`, `DocRuns`, `Prop_Doc` | examples and tables in the comments of `dandy/src/lib.rs`, `dfa/mod.rs`, `nfa/mod.rs`, `regex/mod.rs`, `parser/mod.rs`, `README.md` |
| test generators | `GenModel`, `GenProofs`, `Prop_Gen` | `dandy/src/tests.rs:291-514` |
| reproducibility | `ReproSpec`, `ReproProofs`, `Prop_Repro` | two runs with different hash orders |
| wasm | `WasmModel`, `WasmSpec`, `WasmProofs`, `Prop_Wasm` | `dandy-wasm/src/lib.rs` |
| CLI | `CliModel`, `CliSpec`, `CliProofs`, `Prop_Cli` | `dandy-cli/src/*.rs` |
| files of the CLI | `FileModel`, `FileSpec`, `FileProofs`, `Prop_File` | `dandy-cli/src/main.rs:283-331` with the files read during a run |
| command line | `ArgsModel`, `ArgsSpec`, `ArgsProofs`, `ArgsUses`, `Prop_Args` | `dandy-cli/src/main.rs:18-284`, `automata.rs:29` (declarations of commands and options) |
| runs of the tool compared | `CliReproSpec`, `CliReproProofs`, `Prop_CliRepro` | `dandy-cli/src/main.rs:283-331` and the commands, for two iteration orders and two builds |
| shipped files | `ShippedModel`, `ShippedSpec`, `ShippedProofs`, `Prop_Shipped` | `dandy-cli/tests` as texts, `dandy/benches/benchmark.rs:33-91` (without criterion and the `regex` crate), `dandy-cli/src/main.rs:362-386` |
| sequences of runs | `ScriptSpec`, `ScriptProofs`, `Prop_Script` | `dandy-cli/src/main.rs:283-331` run several times on the same files (`dandy` of `FileModel`, folded) |
| drawings | `DrawModel`, `DrawSpec`, `DrawProofs`, `Prop_Draw` | `dandy-draw/src/lib.rs` |
| drawings in `f32` | `F32Model`, `F32Spec`, `F32Proofs`, `F32Shapes`, `F32Final`, `Prop_F32` | `dandy-draw/src/lib.rs:156-314` with IEEE numbers |
| the canvas in `f64` | `F64Model`, `F64Spec`, `F64Proofs`, `F64Finite`, `F64Page`, `Prop_F64` | `dandy-draw/src/canvas.rs:1-73` and the page with IEEE numbers |
| what is seen in the window and on the page | `SeenProofs`, `Prop_Seen` | the window and the page with IEEE numbers |
| drawing options | `OptionsModel`, `OptionsSpec`, `OptionsProofs`, `Prop_Options` | `dandy-draw/src/lib.rs:72-134` |
| canvas, egui | `CanvasModel`, `CanvasSpec`, `CanvasProofs`, `Prop_Canvas` | `dandy-draw/src/canvas.rs`, `egui.rs`, `pos2.rs`, `dandy-egui/src/main.rs` |
| web page | `PageModel`, `PageSpec`, `PageProofs`, `Prop_Page`, `PageReproSpec`, `PageReproProofs`, `Prop_PageRepro` | `website/*` |
| sets of tests that decide | `DecideSpec`, `MooreProofs`, `DecideProofs`, `Prop_Decide` | `equivalent_to`, `accepts`, emptiness, classes and word iterators of `dandy` |
| points, rectangles | `PointModel`, `PointSpec`, `PointProofs`, `RoundProofs`, `Prop_Points`, `Prop_Rects` | the rest of `dandy-draw/src/pos2.rs`, `draw_rect` in `lib.rs`, `canvas.rs` and `egui.rs` |
| comparing expressions | `LawModel`, `LawSpec`, `LawProofs`, `KleeneProofs`, `LawApi`, `Prop_Laws` | a caller's use of `parser::regex`, `Regex::to_nfa`, `Nfa::to_dfa` and `equivalent_to` |

## Modelling conventions

* A Rust function that can panic or loop returns `R A := Ret a | Panic | Diverge`. Indexing out of range is
  `Panic`; a loop whose fuel runs out is `Diverge`. Theorems say `exists r, f x = Ret r /\ ...`, i.e. they include
  panic-freedom and termination.
* `&str`/`Rc<str>` is `str := list N`, the list of Unicode scalar values.
* `Vec` is `list`. `HashSet` is a duplicate-free list, `HashMap` an association list with overwriting insert. Wherever
  the iteration order of a hash container can influence a result, the model asks an oracle `ho` for a permutation
  of the content (one oracle call per program point and loop iteration); theorems quantify over every oracle.
* `debug_assertions` is a boolean parameter `dbg`; theorems hold for both values.
* `usize` is `nat`: overflow is not modelled, except for the handle counter of dandy-wasm (C42). Underflow is: where a subtraction
  could go below zero (`usize_sub`, `row_len`, the level of an arrow) the model panics.
* `Rc`/`clone` sharing is invisible and therefore not modelled. `&mut self` methods return the new value.
* `FnMut` combinators of products are functions of the two states in `DfaModel` and `NfaModel`; `FnMutModel` threads the
  memory of the closure, and C72 proves the former to be a special case.
* nom combinators are modelled from the documentation and source behaviour of nom 7.1.
* `f32` and `f64` are an arbitrary type with arbitrary operations; no theorem but C77, C78 and C89 relies on an arithmetic law.
  C77 and C78 are about number types with exact operations (`exact`). C89 takes IEEE binary32 (`SpecFloat` of the standard library)
  and proves that drawings with the default options are exact as long as they are small.

## Properties: what is modelled and how it is proved

The ids are those of `properties.jsonl`. "Refuted" means: the faithful model violates the claim as documented; a theorem
named `_refuted` gives the witness, and theorems named `_partial` prove the part that holds.

| id | model | proof |
|---|---|---|
| C01, C02 | `DfaEvaluator` as a record and its methods | induction on the word / the history |
| C03, C04, C05 | `NfaEvaluator`, `closure` loop | worklist invariant; induction on the word / runs |
| C06, C07, C08 | both `try_from`, `Display` of the errors | per-row induction; the error reported is exactly the first defect (`first_defect`, an inductive description of the reading order) |
| C09, C10 | `gen_table`, `Table`, the nom grammar | token-level inversion lemma for the parser |
| C11 | same | refuted (empty alphabets, symbols such as `#`); proved otherwise, with the exact condition |
| C12, C13 | the worklist loops of `equivalent_to` | generic worklist theorem (closed set of pairs = bisimulation; each pair reached by a word) |
| C14 | `to_nfa` | induction |
| C15 | `to_dfa` loop | worklist invariant with numbering |
| C16, C17, C18 | `reachable_state_idx`, `remove_states`, ... | worklist theorem; index-shift lemma |
| C19 | partition refinement loop | stability invariant (Boolean algebra generated by stable splitters and the worklist) |
| C20, C21, C22 | `merge_nondistinguishable_states`, `minimize` | from C19; pigeonhole for minimality; isomorphism by access words |
| C23 | `invert` | induction |
| C24, C25, C26 | `product_construction` | worklist theorem |
| C27, C28, C29 | NFA `union`, `product_construction` | path embedding; worklist theorem |
| C30, C31, C32 | `remove_epsilon_moves`, `optimize` | path simulation; dead states as a least fixed point |
| C33, C34, C35 | `WordComponentIndices`, `Words` | stack invariant; pumping-down |
| C36 | `tree_to_nfa`, `to_nfa` | fragment lemma by induction on the tree |
| C37, C38 | regex parser, `to_string` | grammar as an inductive relation, both directions, on the one list of tokens that every text has; C38 refuted (`\ε`, whitespace, reserved characters with marks), exact reading of the printed text proved, also with whitespace at the ends |
| C39, C40 | nom grammar with fuel | length-decrease lemmas; layouts as an inductive relation |
| C41, C48 | programs of API calls | invariant; denotational semantics of programs |
| C42 | wasm maps and counters | history invariant, simulation of an ideal session |
| C43, C44, C50, C51, C52, C53 | all CLI commands, path shortening (`PathSpec`, `PathProofs` for any text), writers | composition of the above; C52, C53 refuted in part |
| C45, C46, C54, C55 | `place_arrows`, `ascii_art`, `draw` | induction; C46, C54 refuted in part; C46 decides panics for labels of any length and characters, on the UTF-8 bytes of the lines |
| C47 | `step_multiple` | induction |
| C49 | table columns | display-width invariant |
| C56, C57 | canvas and egui drawers, the GUI window | state machine of the canvas context; C56 refuted in part |
| C58, C59, C60 | event handlers of the page (C59 also `PageHistorySpec`, `PageHistoryProofs`) | simulation; C59 refuted in part, and described exactly by induction over sessions |
| C61 | grapheme functions over an abstract segmentation | induction; unambiguity refuted in general, with the exact condition on the alphabet |
| C62 | sizes | counting arguments |
| C63 | two runs with different hash orders | determinacy of the specified result; sorting undoes the order |
| C64 | size of the automaton of an expression text | induction over the token relations; nested plus signs |
| C65 | repeated operations, round trips | the specified result of an argument in normal form is the argument; access words |
| C66 | the tests of the repository, for every input of their generators | every test is a program over the model; composition of the other properties; the test's counter enumerates all words |
| C67 | Boolean laws of pipelines, exact laws, comparisons, `equivalent_to` as an equivalence relation, `minimize` and `invert` commute | induction on pipelines over C01–C31; one relational argument about the search that runs two products in step; constant automata refute non-laws |
| C68 | first results of the word iterator; a DFA and its inverse list every word once | counting words of bounded length against the strictly increasing listing of C34 |
| C69 | what the test generators can draw; tests pass on every drawn value | a generator is the relation of what it can draw; a valid automaton is rebuilt from its columns |
| C70 | the example programs of the documentation; the words its tables accept | languages by states, then induction on words; hash orders by C63 and C34; the claim about one 1 is refuted |
| C71 | kind and place of syntax errors, their texts in the messages of the command line | the parsers with nom's error values refine the ones without; exact characterisation of failure of every combinator; an expression parser reads at least every beginning that is an expression |
| C72 | `product_construction` with a stateful combinator | the search with memory is the search without it followed by the calls in order; naming and numbering do not look at the flags |
| C73 | `product_construction` of NFAs with combinators of the accepting flags | from C29; three small automata refute every other combinator |
| C74 | remarks of the documentation on growth, enumeration order, minimal NFAs, swapping accepting states | words of equal length end in different states of any DFA; an infinite descent in the dictionary order; small automata |
| C75 | both evaluators after foreign elements (`HistorySpec`, `HistoryForeign`, `Prop_Foreign`) | invariant over histories: the evaluator is determined by the word before the first foreign element (DFA) or by the elements taken (NFA) |
| C76 | log lines of the command line tool and their places | exact event lists of every command; erasing the logs commutes with the commands |
| C77 | coordinates of graphical drawings, their size, the canvas of the page (`GeometrySpec`, `GeometryProofs`, `PictureProofs`) | coordinates as rational functions of state numbers and levels, linear arithmetic; touching loops refute disjointness |
| C78 | pictures determine automata (`PictureProofs`, `PictureFinal`) | states are read off their circles and texts, arrows off their horizontal lines; joined labels split at spaces |
| C79 | all conversions and `test_equivalence` of the command line's `Automata` (`ConvSpec`, `ConvProofs`) | from C12–C15, C21, C36, C65; cases by kind |
| C80 | the options of drawings (`OptionsModel`, `OptionsSpec`, `OptionsProofs`) | cases by option; from C55; positions in exact arithmetic |
| C81 | the page as loaded (`FirstPageSpec`, `FirstPageProofs`) | computed facts about the initial texts; sessions from C58 |
| C82 | recursion of the regex parser, height of expressions (`RegexDepthSpec`, `RegexDepthProofs`) | soundness and completeness of the parser again, with the nesting of the tokens as the bound of the recursion; results do not change with a larger bound; `C82_depth` and `C82_any_text` are about the argument of `expression` that bounds the recursion in the model, which stands for the depth of the call stack |
| C83 | reading ASCII art (`ArtSpec`, `ArtProofs`) | the lines of the art, the columns of the states, the tips and the covered columns determine the ends of every link, and the lower lines the labels; needs plain names and symbols (`C83_spaces_refuted`) |
| C84 | runs that read the file they write | the file as a state; commands depend only on the paths they read. Files are texts, paths name the same file during a run, and nobody else writes |
| C85 | command lines | the model parses as clap does, argument by argument with a pending option; the specification is a grammar of spellings, proved equivalent |
| C86 | runs compared | two runs of `dandy` with the same files, under any two iteration orders and builds; what may differ is one table, up to an isomorphism |
| C87 | shipped files | command lines of the documentation on the files of the repository, in every run; the languages of these files; the benchmarks |
| C88 | sequences of runs | every expression of set operations over files, computed bottom-up with `--out`; comparing two of them; alphabet order carried along; exactly the 0-preserving Boolean combinations (Shannon expansion inside the union of all files) |
| C89 | drawings in single precision (`F32Model`, `F32Spec`, `F32Proofs`, `F32Shapes`, `F32Final`) | half-integers below 2^23 are added, multiplied and halved without rounding; every coordinate is one; the number of levels is at most the square of the number of states; 2^24 and 2^24 + 1 are the same number |
| C90 | the canvas and the page in double precision (`F64Model`, `F64Spec`, `F64Proofs`, `F64Finite`, `F64Page`) | a mantissa of 24 bits is one of 53 bits, so `as f64` is exact; each operation at most adds or doubles the numbers of bits, so coordinates stay below 2^100; then C56, C58 and C81 with these numbers, without their hypotheses about numbers |
| C91 | what is seen determines the automaton (`SeenProofs`) | C57 and C90 with C78 for exact drawings: marks and egui shapes determine the shapes with exact numbers; the extra outline of C56 is none of them |
| C92 | two sessions with the page (`PageReproSpec`, `PageReproProofs`) | the texts after a click as a function of the texts before it, except for minimization (C58 with unique answers); induction over both sessions; the canvas by C59's description, in double precision by C90; both exceptions computed on the page as loaded |
| C93 | which finite sets of words decide (`DecideSpec`, `MooreProofs`, `DecideProofs`) | Moore's argument: each round of refinement tells one more state apart, so n - 2 rounds are enough; for two automata on the sum of their states; runs cut and pumped at repeated states; chains of states attain the bounds |
| C94 | points with IEEE numbers: conversions, laws, correct rounding, equality (`PointModel`, `PointSpec`, `PointProofs`, `RoundProofs`) | the shifts and roundings of `SpecFloat` are proved to give the nearest number, ties to even; integers in units of a small power of two |
| C95 | rectangles between any other calls, on a canvas and in egui (`PointModel`, `PointProofs`) | simulation of the drawer without rectangles; marks are only appended |
| C96 | the laws of expressions decide the verdicts (`LawSpec`, `LawProofs`, `LawApi`) | Salomaa's theorem: every expression solves a finite linear system, which the powerset makes deterministic; two solutions of one guarded system are provably equal, by eliminating the unknowns one by one |
| C97 | expressions for automata (`KleeneProofs`, `LawApi`) | Kleene's theorem: words by the largest state they pass; the expression is typed with all parentheses and all symbols escaped |
| C98 | runs of dandy-cli whose writing fails (`WriteModel`) | the writes of a run as a list, performed up to the first that fails. Whether a write fails, and after how many characters, is any function of what has arrived so far. Characters are not cut (they are in C101); the message of the panic itself and the last attempt of the standard library to flush are left out |
| C99 | runs of dandy-cli while others change the files (`ShareModel`) | what each read finds is an arbitrary function of its number and the path; C84 and the commands on fixed files are special cases. One call of `read_to_string` finds one text or fails |
| C100 | the whole process (`ProcessModel`) | the command line, reads that may find anything and writes that may fail together; nothing relates what is read to what is written. After a failed write the run stops, so that the reads it would have done are irrelevant |
| C101 | the process in bytes (`ByteModel`) | UTF-8 as digits of base 64; decoding inverts encoding and is decided by the first byte, so prefixes of bytes are prefixes of texts; simulation by the process of characters, in which a write fails after the complete characters. That Rust's strings are sequences of scalar values is a hypothesis where it matters |
| C102 | tables whose end is missing (`CutSpec`, `CutProofs`, `CutNfaProofs`, `CutProductProofs`, `CutCommentProofs`; no new model) | the words of the lines of a text; a prefix keeps all lines but the last, of which it keeps all words but the end of one. The number of words and the names that exist leave one choice if no name begins another one; the states that remain are closed under transitions. For NFAs, the closing braces of a line are counted instead, and no condition on names is needed. Comments and carriage returns are stripped first, from left to right, so that prefixes stay prefixes |

## Trusted base

* Coq's kernel (8.16.1), including `vm_compute` (used for witnesses and examples).
* Axioms: `Print Assumptions` says "Closed under the global context" for every theorem in `Prop_*.v`. Nothing is
  assumed, neither of our own nor from the standard library. The checker also lists the signature fields
  `Coq.ssr.ssrunder.Under_rel.*` (`Under_rel`, `Under_rel_from_rel`, `Under_relE`, `under_rel_done`, `Over_rel`, `over_rel`,
  `over_rel_done`); they are opaque definitions of
  the standard library's `ssrunder` module that a transitively loaded file brings along. No theorem depends on them.
* The reading of the Rust code recorded in the comments of the models, and the documented behaviour of the libraries:
  * std: `Vec`, `String`, `HashMap`/`HashSet` (arbitrary iteration order), stable sorts, `str::lines` as of Rust 1.70,
    `Path::components` on Unix with UTF-8 names.
  * nom 7.1: the combinators used, the kind and input of the `nom::error::Error` each one raises (`alt` reports its last alternative,
    `append` keeps the inner error), and the texts of that error; quoting and escaping of the input in `Debug` is a parameter. In
    `CliModel`, `WasmModel` and `PageModel` the texts of syntax errors are parameters, so their theorems hold for any; C71 fixes them.
  * nalgebra: products of square matrices (`words.rs`), num-traits: the trait methods of `NumBool`.
  * thiserror (`Display` of the errors), paste and wasm-bindgen (generated glue).
  * unicode-segmentation: a parameter. Theorems that need facts about it state them as hypotheses
    (`divides`, `text_segmentation`, `splits_plain_text`; C38 also that the printed symbols do not merge with their neighbours): pieces are not empty and concatenate to the text, ASCII texts without
    control characters are cut into single characters.
* clap 4.4 (`ArgsModel`): what derive attributes declare (kebab-case names, first letters, defaults), how arguments are split into
  options and values, that options are not repeated, values that look like options are refused, `PathBuf` values are not empty,
  `usize` has 64 bits. Where clap prints help, the version or a complaint and ends the process, the model gives `None`.
* CLI: arguments are texts; the file system is a function that does not change during the run and whose read errors are
  parameters, except in C84, where the run changes it, and in C99 and C100, where each read may find anything; writing to stdout
  and to the output file succeeds, except in C98 and C100, where any write can fail.
* `f32` and `f64` are binary32 and binary64 with rounding to nearest even as in `SpecFloat` (C89, C90).
* Drawings: a drawer is the list of calls it receives. `draw_rect` is never called by the code, so these calls leave it out; `PointModel` adds it, with `fillRect` after the HTML standard and `Rect::from_min_size` of egui as the addition of the size.
* Canvas: the 2D context behaves as the HTML standard says (current path, styles, text alignment, exceptions of `arc` for
  negative radii); colours are their texts; angles are finite (`finite_angles`; proved for IEEE numbers, C90).
* Page: value sanitisation of textareas, `String.replace` with a string pattern (first occurrence), value conversion by
  wasm-bindgen, radii of the drawing options are not negative (`proper_radii`; proved for IEEE numbers, C90).
* Tests: the `regex` crate is a parameter `is_match`, assumed to decide the documented language of the generated expression;
  the segmentation splits texts over the letters of the documentation's examples (`splits_plainly`), and texts over the generator's base characters and the syntax characters into single characters;
  for the words test it splits a concatenation of symbols into these symbols. Generators: `hash_set(any::<String>(), ..)`,
  `shuffled`, ranges and `vec` draw what their names say, a hash set is collected in any order.

## Not modelled

* The probabilities of the random generators and the runner of proptest (a generator is modelled by the set of values it can
  draw), the measuring of the benches and build scripts.
* Exhaustion of memory and of the call stack (very deep regular expressions overflow the real stack), overflow of `usize`
  except for C42, running time.
* `Debug` output and the derived trait implementations other than equality.
* The texts of clap's messages, fonts and pixels, the event loop of the browser and of eframe.
