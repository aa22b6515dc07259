# A Rocq model of RustSAT: design

This directory contains a formal model, in Rocq (Coq 8.16.1, standard library only), of the core of
`chrjabs/rustsat` (the `rustsat` crate under `/repo/src`) and machine-checked proofs of the properties listed in
`properties.jsonl`. The Rust code was read as text; it was neither built nor run.

## 1. Layout

* `rocq/theories/Spec.v`: the common *specification vocabulary*: variables, literals, total assignments, satisfaction
  of clauses and CNFs, number and weight of true literals, "changes fresh variables only". Nothing in it mentions the code.
* `rocq/theories/*Spec.v`: specification vocabulary of one area each. They talk about API calls and their observable results,
  not about how the code works. What a reader has to trust about a statement is in these files and in the theorem itself.
* model files: one per Rust module (or a few), function by function. Each definition cites the file and lines
  it models and says where it simplifies.
* `*Proofs.v` and further lemma files.
* `Props*.v`: the property theorems. Each is closed by `exact lemma.` (or a few lines) with `Print Assumptions` beneath, and beside it an
  `Example` shows that its hypotheses are met by a concrete non-trivial case.
* `MANIFEST.json` (property → theorems; generated by `tools/gen_manifest.py` from the `Props*.v` files and `tools/notes.json`).
* `seeded/LOG.jsonl`: the seeded-bug experiments (`tools/mutate.py` edits a definition in a scratch copy, rebuilds, and logs which
  theorems fail).

| area | specification | model | lemmas | property theorems |
|------|---------------|-------|--------|-------------------|
| variables, literals, assignments, clauses | `Spec`, `ConstrSpec` | `Types`, `Constraints` | `Base`, `TypesProofs`, `ClauseProofs` | `PropsTypes` C01–C07 |
| cardinality, pseudo-Boolean constraints | `ConstrSpec` | `Constraints` | `ConstrProofs` | `PropsConstraints` C08–C14 |
| implication helpers | `Spec`, `ConstrSpec` | `Atomics` | `AtomicsProofs` | `PropsAtomics` C15, C16 |
| at-most-one encodings | `Am1Spec` | `Am1`, `Am1Stats` | `Am1Proofs` | `PropsAm1` C17–C23 |
| node database, totalizer | `TreeSpec`, `BoundSpec` | `NodeDb`, `TotDb`, `Totalizer` | `NodeConProofs`, `TotDb{Inv,Unit,Define,General,Build,Grow,Merge,Hist}`, `BoundExec`, `TotalizerProofs` | `PropsTotalizer` C24–C27, C60 |
| generalized totalizer | `BoundSpec` | `Maps`, `Gte` | `TotWeighted`, `DbWorld`, `GteProofs` | `PropsGte` C29, C57, C60 |
| binary adder | `BoundSpec` | `Adder` | `AdderSem`, `AdderNodes`, `AdderProofs`, `AdderHist`, `AdderSingle` | `PropsAdder` C30, C31, C34, C60 |
| dynamic polynomial watchdog | `DpwSpec` | `Dpw` | `DpwRef`, `DpwBuild`, `DpwBuckets`, `DpwStruct`, `DpwIf`, `DpwInv`, `DpwExtend`, `DpwChain`, `DpwLink`, `DpwSem`, `DpwMerge`, `DpwHist`, `DpwProofs`, `DpwRefine` | `PropsDpw` C32, C62, C71, C72 |
| statistics of encodings | `StatSpec` | `Totalizer`, `Gte`, `Dpw` | `EncStats`, `DpwRefine` | `PropsTotalizer`, `PropsGte`, `PropsDpw` C72 |
| encoding simulators | `BoundSpec` | `Simulators` | `SimProofs`, `SimInst` | `PropsSim` C33, C57 |
| encoding one constraint | `EncSpec` | `ConstrEnc` | `ConstrEncProofs` | `PropsEnc` C28, C34 |
| variable managers | `VarSpec` | `VarMan` | `VarManProofs` | `PropsVars` C35–C37 |
| CNFs, satisfiability instances | `InstSpec` | `Inst` | `InstProofs`, `InstReindex` | `PropsInst` C38–C41, C58, C59 |
| objectives, optimization instances | `OptSpec` | `Opt` | `OptProofs`, `OptNorm`, `OptConv`, `OptReindex` | `PropsOpt` C42–C45, C58, C59 |
| solvers, MaxSAT search | `SolverSpec`, `MaxSatSpec` | `Solver`, `SolverUse`, `MaxSat`, `SolverToy` | `SolverProofs`, `MaxSatProofs` | `PropsSolvers` C46, C55, C56 |
| DIMACS files | `FioSpec`, `DimacsSpec` | `Text`, `Dimacs` | `TextProofs`, `DimacsProofs`, `DimacsGrammar`, `ParserFuel` | `PropsFiles` C47–C49, C61 |
| OPB files | `FioSpec`, `OpbSpec` | `Text`, `Opb` | `OpbProofs`, `OpbInst` | `PropsOpb` C50–C52 |
| value lines, solver output | `VlineSpec` | `Vline` | `VlineProofs` | `PropsVline` C53, C54 |
| solver crates (IPASIR, CaDiCaL, Minisat, Glucose, Kissat) | `SolverSpec`, `WrapperSpec` | `Wrappers` | `WrapperProofs`, `WrapperToy` | `PropsWrappers` C63–C65 |
| callbacks, interrupters | `HandleSpec` | `Handles` | `HandleProofs` | `PropsWrappers` C66 |
| command line tools | `ToolSpec` | `Tools` | `ToolText`, `ToolConv`, `ToolProofs`, `ToolOpb` | `PropsTools` C67 |
| enumerating solutions | `EnumSpec` | `Tools` | `EnumProofs` | `PropsEnum` C68 |
| shuffling problems | `ShuffleSpec` | `Tools` | `ShuffleProofs` | `PropsShuffle` C70 |
| checking solutions | `CheckSpec` | `Tools` | `CheckProofs` | `PropsCheck` C69 |
| splitting objectives | `SplitSpec` | `Gbmo` | `GbmoProofs`, `GbmoCheck`, `GbmoSplit`, `GbmoLex`, `GbmoTool` | `PropsGbmo` C42, C73 |
| encoders sharing a node database | `RefSpec` | `RefEnc` | `RefProofs` | `PropsRef` C78 |
| certified totalizer encodings | `CertSpec`, `CertWorld` | `Cert` | `CertBase`, `CertSound`, `CertDefs`, `CertSem`, `CertStep`, `CertProofs`, `CertTot`, `CertHist`, `CertTally`, `CertConstr` | `PropsCert` C79 |
| certified pseudo-Boolean encodings | `CertPbSpec`, `CertPbWorld` | `CertW` | `CertPb`, `CertWTree`, `CertWStep`, `CertWProofs`, `CertWHist`, `CertWConstr` | `PropsCertPb`, `PropsCertGte` C80 |
| proof files | `PigeonsSpec` | `Pigeons` | `PigeonsProofs`, `PigeonsLines`, `PigeonsHist`, `PigeonsSteps` | `PropsPigeons` C81 |
| C interface | `CapiSpec` | `Capi`, `CapiDpw` | `CapiProofs`, `CapiInst`, `CapiAdder`, `CapiDpwProofs` | `PropsCapi`, `PropsCapiAdder`, `PropsCapiDpw` C82 |
| linear programs | `IlpSpec` | `Mo2ilp` | `Mo2ilpProofs`, `Mo2ilpTool` | `PropsIlp` C83 |
| BatSat | `BatsatSpec` | `Batsat` | `BatsatProofs` | `PropsBatsat` C84 |
| Python bindings | `PySpec` | `Pyapi` | `PyProofs` | `PropsPy` C85 |
| Python literals and encodings | `PyEnc` (`py_hist`), `PyPb` (`g_hist`), `PyDpw` (`d_hist`), `PyAdder` (`b_hist`), `PyAm1` (`a_hist`), `BoundSpec` | `PyEnc`, `PyPb`, `PyDpw`, `PyAdder`, `PyAm1` | `PyEncProofs`, `PyPbProofs`, `PyDpwProofs`, `PyAdderProofs`, `PyAm1Proofs` | `PropsPyEnc`, `PropsPyPb`, `PropsPyDpw`, `PropsPyAdder`, `PropsPyAm1` C86 |
| benchmark generator | `BenchSpec`, `ClusterSpec` | `Bench` | `DpwSingle`, `BenchProofs`, `BenchAlloc`, `BenchCnf`, `ClusterProofs`, `ClusterSem`, `ClusterRead` | `PropsBench` C34, C74-C76, `PropsCluster` C77 |

## 2. Modelling conventions

* A literal is a record (variable index `N`, sign). The packed `u32` representation of the code is modelled
  separately and shown to be isomorphic (C01), so that everything else may use the record. The order on
  literals is that of the packed representation.
* `&mut self` functions return the new state. `Result` and `Option` stay data. Panics (arithmetic overflow and underflow,
  index out of bounds, `unwrap`, failed assertions) are explicit `None` / `…Panic` values.
* Machine integers are unbounded (`N`, `Z`, `nat`) except where a property is about their bounds: variable indices in C01–C03, C35–C37,
  C59, and the numbers in files and value lines (C47–C54, C61). Weights, counts and numbers of clauses in
  the encodings are unbounded. `usize` subtraction that may underflow is an explicit error.
* The clause collector is the list of clauses added, in order; out-of-memory errors are not modelled.
  The variable manager used by encodings is its next free variable index.
* Hash maps are association lists without duplicate keys. Where the code iterates over a map, the order is a parameter `ord`
  (any function that permutes) over which the theorems quantify. The outcome of unstable sorts is a parameter in the same
  way (`srt`), as is the outcome of a random shuffle.
* Bound encodings (totalizer, generalized totalizer, adder, simulators) are used through *histories* of calls: `BoundSpec.reachable`
  is the set of states reachable by any sequence of `extend`, `encode_*`, `reserve` calls, interleaved with other users of the variable
  manager. Theorems are about every reachable state.
* SAT solvers and external programs are oracles: quantified over in the closed theorems, with the contract (satisfiable answers
  come with a model, …) as an explicit hypothesis, met by a concrete solver in the examples.
* Loops whose termination is not structural run on fuel; running out of fuel is a distinct result which the theorems exclude
  (`ParserFuel` for the parsers, a measure in each other case).
* Text is a list of ASCII characters. The `winnow` combinators used by the readers (`digit1`, `dec_int`, `dec_uint`, `separated`, `repeat`, `alt`,
  `opt`, …) are modelled from their documentation and belong to the trusted reading; that `dec_int` accepts a plus sign is
  used by a unit test of the repository (`fio/opb.rs`).

For an encoding the correctness statement is always the conjunction of

* soundness: every assignment that satisfies the clauses (and assumptions) satisfies the constraint;
* completeness: every assignment satisfying the constraint can be changed on variables that were fresh before the call
  only so that it satisfies the clauses (and assumptions);
* freshness: auxiliary variables are taken from `[next, next')`.

## 3. Per-property plan

| id | modelled | proof method |
|----|----------|--------------|
| C01 | `Lit` packed as `u32` with shifts/xor, checked constructors | bit arithmetic to div/mod, case analysis |
| C02 | `to_ipasir`, `from_ipasir` over bounded `Z` | arithmetic; extreme value handled explicitly |
| C03 | `Assignment` as vector of ternary values | list induction |
| C04–C07 | `Clause` functions on lists of literals | induction on lists; sortedness and canonicity |
| C08–C10 | `CardConstraint` | counting lemmas over literal lists with independent variables |
| C11–C14 | `PbConstraint` with signed weights over `Z` | weighted-sum lemmas |
| C15–C16 | `atomics.rs` | boolean case analysis, induction over cubes/clauses |
| C17–C23 | `am1/*` as functions from (literals, next var) to (clauses, next var) | induction; constructed auxiliary assignments |
| C24–C25 | `nodedb.rs` | invariants of the node arena; arithmetic |
| C26–C28 | `totdb` and `Totalizer` as a state machine over API calls | invariant over all reachable states; canonical auxiliary assignment |
| C29–C31 | generalized totalizer, adder | as above with weighted sums |
| C32, C62, C71, C72 | dynamic polynomial watchdog over histories of `set_precision` (also between encoding calls), `reserve`, `encode_ub`, `limit_range` | invariant over the output database and the chain of buckets; mixed-radix arithmetic |
| C33–C34 | simulators, single constraints | generic in the inner encoding (contract), instantiated |
| C35–C37 | variable managers as state machines | invariants over histories |
| C38–C41 | `Cnf`, `Instance` | composition of the constraint and encoding theorems |
| C42–C45 | `Objective`, `OptInstance`, `MultiOptInstance` | cost-preservation lemmas |
| C46 | solution-improving search with a solver oracle | loop invariant, termination by decreasing cost |
| C47–C52, C61 | writers to and parsers from character lists | round-trip lemmas for printers/parsers; independent grammar of well-formed files |
| C53–C54 | value lines and output parsing | induction over lines |
| C55–C56 | `Incremental`, external `Solver` as state machines with oracle | refinement to an abstract clause set |
| C57 | `next_higher`, `next_lower` of the generalized totalizer and `Inverted` | invariant of C29 |
| C58 | `evaluate` of instances | composition of C07, C10, C14 |
| C59 | `reindex`, `reindex_ordered` | injectivity from C36, renaming lemmas |
| C60 | `Monotone` encodings | canonical auxiliary assignment of C26, C29, C30 |
| C63–C65 | the Rust side of the solver crates as state machines over a back end with a contract | simulation between the wrapper's cached state and the abstract clause set |
| C66 | memory cells, raw pointers and boxes of callbacks | refinement to a user's view without memory |
| C67 | the conversion tools as functions from text to text, over the models of readers, writers and encodings | grammar of the input, meaning of the output; composition of the reading, hardening, encoding and writing theorems |
| C68 | the enumerator over an abstract solver with the contract of `SolverSpec`: rounds of solving, reading the solution, adding the blocking clause | invariant over the rounds: the solver contains the encoding and a blocking clause for every solution so far; a counting argument for termination; composition with C69 |
| C69 | check-solution as a function from two texts to a verdict, over the models of readers, value lines and evaluation | meaning of the problem file and of the value lines; each format read to an instance with the same solutions and costs; soundness and completeness of evaluation |
| C70 | shuffledimacs: reading, the random re-indexing manager, re-indexing, shuffling, writing; the shuffles are arbitrary permuting functions | the manager's table is a bijection, re-indexing is renaming with it, total weights per clause are kept by every step, the written file is read by the format's grammar |
| C73 | `gbmosplit` | subset sums of sorted weights; lexicographic order of mixed-radix values; composition with the file theorems |
| C74-C76 | `encodings`: knapsack, assignment, facility location | iterators as step functions with fuel; the lines they yield, then the writers' file theorems; sums over index ranges; knapsack capacity through the dynamic polynomial watchdog's exactness |
| C77 | `encodings`: the clustering iterator with its named variables, the reader of similarities and the triangular matrix | the iterator yields clauses over symbolic names under an injective naming; these are interpreted as codes of clusters; the matrix is shown to hold the last entry about every pair; costs are sums over unordered pairs |
| C78 | the `referenced` totalizer and generalized totalizer as functions of the shared database | the database invariant of the owned encoders, with the clauses since the last reset of the "if" semantics by any encoder as the upper bound window and all clauses as the lower bound window; every tree built so far is described by its leaves; one lemma characterises `enforce_ub` of both kinds by the values whose outputs are negated |
| C79 | the certified encoding calls as functions that also return proof steps, next to a specification of the proof system (constraints in normal form, cutting planes, RUP over one constraint, redundance with a witness, deletion) | constraints are represented by their slack as a function of the assignment, so that a derivation is correct when the slacks add up; an invariant ties every defined output to its two defining constraints, and the certified recursion is followed step by step against the uncertified one (C03); histories by induction with arbitrary steps of others; single constraints by composing a history with the two final derivations and the deletion |
| C80 | the weighted part of the certified database, the certified generalized totalizer and the certified encoding of single constraints, in the same proof system as C79 | constraints that simplify by reverse unit propagation over the half of the constraint that implies the clause; unit weights by C79; histories of certified calls by following the uncertified generalized totalizer with the invariant that every definition in the table is the constraint over the leaves of its node, so that each clause of a node is a sum of at most three definitions; constraints with different weights by following the tree built for the single bound and summing the constraint with the definition at the root or, for literals outside it, with one clause; the cases where the code is wrong by running the model on a concrete constraint and comparing the constraint derived with the clause recorded |
| C81 | every method of the proof writer that adds to the file, as a function from the state and the call to the state with the text appended; a reader of proof files and the checker's numbering of constraints as the specification | the words of each text written, token by token, then the reader on these words, for every call; induction over histories with the invariant that the text so far is read as the lines asked for and that the counter is the checker's; operation sequences by induction over expressions on the stack machine of C79; the calls of certified encodings as the steps of C79 and C80 read back from the file |
| C82 | the functions generated for one encoding, once for every encoder of the framework of C26–C32: integers to literals, clauses to a stream of integers, the counter of variables, error codes; a C program as a history of calls within the contract | a simulation of every history of C calls by a history of the encoder, whose contract (C26, C27, C29) then gives soundness and completeness of what the program has read; instances for the totalizer and the generalized totalizer; at-most-one encodings from C17–C22; adding inputs one by one to a new dynamic polynomial watchdog is shown equal to making it from all inputs at precision 0, so that C32 applies |
| C83 | mo2ilp as a function from text to text: unused variables, pseudo-Boolean forms of constraints, soft clauses turned into literals, dense rows, both output formats | a reader of the written format with the meaning of a 0-1 linear program; rows as sums over columns, read after write, composition with reading, renumbering and conversion of soft clauses |
| C84 | the wrapper of BatSat over any back end: literals with opposite sign convention, creation of variables, states, statistics | a contract of the back end in its own literals; invariant of the wrapper over all histories, as for C63–C65 |
| C85 | indexing, slices and iterators of the Python classes for clauses and formulas; the Python variable manager | against Python's rules for slices (independent specification); refinement of an ideal sequence with iterators; refutations for the keys and histories where the bindings differ |
| C86 | literals, the totalizer, the generalized totalizer, the dynamic polynomial watchdog, the binary adder and the at-most-one encodings of the Python bindings | histories of Python calls are simulated by histories of the encodings (C26 to C29, C32), whose contracts carry over; an invariant over the programs with several at-most-one objects composes C17 to C21; refutations for the least literal, repeated weighted literals and the binary adder |

Where the code violates a property the violation is proved as a `…_refuted` theorem with a concrete witness, and the strongest restriction
that holds is proved beside it (`…_partial`). A property is "partial" in the manifest as soon as it has a theorem of one
of these two kinds.

## 4. Results per property

@@RESULTS@@

## 5. Trusted base

* Coq's kernel (8.16.1) and the standard library. No other library is used.
* `Print Assumptions` is under every property theorem and prints "Closed under the global context" for every one of them: **no
  theorem depends on an axiom**.
* The global environment of the compiled files contains seven constants without body, because `ZifyBool` (used by `lia`) loads
  `Coq.ssr.ssrbool`, and with it `Coq.ssr.ssrunder`: `Over_rel`, `Under_rel_from_rel`, `over_rel`, `over_rel_done`, `Under_rel`, `Under_relE`,
  `under_rel_done` (all of the sealed module `Coq.ssr.ssrunder.Under_rel`). They are parameters of the standard library's under tactic; no
  theorem uses them.
* No axiom, parameter, section-less variable, admitted proof, functor or module type is declared here, and no kernel check is switched off.
* The correspondence between the Rust text and the model (by reading), including the semantics of Rust's standard library functions used
  (sorting, hash maps up to iteration order, slices, integer parsing) and of the `winnow` combinators.

## 6. What is modelled and what is not

| file under `/repo/src` | modelled | not modelled |
|------|----------|--------------|
| `types/mod.rs` | `Var`, `Lit`, `TernaryVal`, `Assignment`, value lines | random generation, formatting other than DIMACS/OPB numbers, conversions used by FFI only |
| `types/constraints.rs` | `Clause`, `CardConstraint`, `PbConstraint` and their conversions and evaluations | iterators as objects, formatting, references into constraints (`iter_mut`) |
| `types/operators.rs` | the implication operators used by `Cnf`/`Instance` | the rest (syntactic sugar) |
| `encodings/atomics.rs`, `encodings/am1/*` | all | |
| `encodings/nodedb.rs` | node connections, `lit_tree`, `merge`, `merge_balanced` | `drain`, `merge_thorough`, leaf iterators |
| `encodings/totdb/mod.rs` | nodes, insertion, `define_unweighted`, `define_weighted`, `weighted_lit_tree`, reservation | `strictly_extend_assignment`, `drain`, iterators |
| `encodings/card/mod.rs`, `encodings/pb/mod.rs` | bounding traits' default methods, encoding of single constraints | |
| `encodings/card/simulators.rs`, `encodings/pb/simulators.rs` | `Inverted`, `Double`, `Card` | |
| `encodings/card/totalizer/mod.rs`, `referenced.rs` | the totalizer, owning or sharing its database; `Tot` and `TotCell` are one model | |
| `encodings/pb/gte/mod.rs`, `gte/referenced.rs`, `pb/adder.rs` | the encodings | statistics of the adder |
| `encodings/pb/dpw/mod.rs` | all: building, extending and merging structures, `set_precision`, `next_precision`, bounds, `limit_range`, statistics | `referenced.rs`, proof logging |
| `encodings/totdb/cert.rs`, `encodings/card/cert.rs`, certified part of `card/totalizer/mod.rs` | everything the totalizer uses: `define_unweighted_cert`, `define_semantics`, `delete_semantics`, certified calls, single constraints | offsets and length limits of nodes, `verbose-proofs` comments, writer errors |
| `encodings/pb/cert.rs`, certified part of `pb/gte/mod.rs` and `pb/simulators.rs` | single constraints with the default encoding, certified calls of the generalized totalizer and lower bounds of its inversion | other certified encodings, `encodings/cert.rs` beyond identifiers collected with clauses |
| `pigeons` | identifiers, operation sequences, the methods of `Proof` with the text they write, headers and conclusions | definitions of orders, `substitute`, errors of the writer |
| `capi/src/encodings` | totalizer, generalized totalizer, binary adder and at-most-one functions, and making, adding to, encoding, enforcing, rounding, limiting and setting the precision of a dynamic polynomial watchdog: adding, reserving, encoding, enforcing, error codes, the clause callback and the variable counter | pointers and memory; reserving with a dynamic polynomial watchdog |
| `instances/mod.rs` | all variable managers | |
| `instances/sat.rs`, `instances/opt.rs`, `instances/multiopt.rs` | formulas, instances, objectives, conversions, re-indexing, evaluation | file-opening wrappers |
| `instances/fio/mod.rs`, `fio/dimacs.rs`, `fio/opb.rs` | readers, writers, solver output | opening, compression, non-ASCII text |
| `solvers/mod.rs`, `solvers/simulators.rs`, `solvers/external.rs` | default methods, `Incremental` simulator, external solver as a state machine | statistics, time limits, process and file handling, callbacks |
| `algs/maxsat.rs` | solution-improving search, `solve_maxsat` | |
| `utils.rs` | digits, `unreachable` helpers used above | `Timer`, `LimitedIter` |
| `bench.rs`, `lib.rs` | nothing | nothing to model |

Of the solver crates, `ipasir/src/lib.rs`, `cadical/src/lib.rs`, `minisat/src/core.rs`, `glucose/src/core.rs` and `kissat/src/lib.rs` are modelled as to
adding clauses, solving, assumptions, values, cores, reservation, (CaDiCaL) temporary clauses and simplification, callbacks and interrupters. The C and
C++ solvers are back ends with a contract (`WrapperSpec`); of the C++ glue `cminisat.cc` is modelled as far as values and variables go. Not modelled:
statistics, options and configuration, phasing, flipping, propagation, proof tracing, the `simp` versions of Minisat and Glucose.

Of `batsat/src/lib.rs` everything is modelled except the clock and the average length of clauses; BatSat itself is a back end with a contract (`BatsatSpec`), its source is not in the repository.

Other crates (the rest of `pyapi` and `capi`: language bindings; of `pyapi` only `Pyapi.v`, `PyEnc.v`, `PyPb.v`, `PyDpw.v`, `PyAdder.v` and `PyAm1.v` are modelled, that is indexing, iteration, variable managers, literals and the encodings, not PyO3 itself; `tools`: the tools other than those in `Tools.v`, `Gbmo.v`, `Bench.v` and `Mo2ilp.v`; `codegen`, `solvertests`) are not modelled. Memory limits, floating-point statistics and
multi-threading are not modelled.
