# A Rocq model of RustSAT: design

This directory contains a formal model, in Rocq (Coq 8.16.1, standard library only), of the core of
`chrjabs/rustsat` (the `rustsat` crate under `/repo/src`) and machine-checked proofs of the properties listed in
`properties.jsonl`. The Rust code was read as text; it was neither built nor run.

## 1. Layout

* `rocq/theories/Spec.v`: the common *specification vocabulary*: variables, literals, total assignments, satisfaction
  of clauses and CNFs, number and weight of true literals, "changes fresh variables only". Nothing in it mentions the code.
* `rocq/theories/*Spec.v`: specification vocabulary of one area each. They talk about API calls and their observable results,
  not about how the code works. What a reader has to trust about a statement is in these files and in the theorem itself.
* model files: one per Rust module (or a few), function by function. Each definition cites the file and lines
  it models and says where it simplifies.
* `*Proofs.v` and further lemma files.
* `Props*.v`: the property theorems. Each is closed by `exact lemma.` (or a few lines) with `Print Assumptions` beneath, and beside it an
  `Example` shows that its hypotheses are met by a concrete non-trivial case.
* `MANIFEST.json` (property → theorems; generated by `tools/gen_manifest.py` from the `Props*.v` files and `tools/notes.json`).
* `seeded/LOG.jsonl`: the seeded-bug experiments (`tools/mutate.py` edits a definition in a scratch copy, rebuilds, and logs which
  theorems fail).

| area | specification | model | lemmas | property theorems |
|------|---------------|-------|--------|-------------------|
| variables, literals, assignments, clauses | `Spec`, `ConstrSpec` | `Types`, `Constraints` | `Base`, `TypesProofs`, `ClauseProofs` | `PropsTypes` C01–C07 |
| cardinality, pseudo-Boolean constraints | `ConstrSpec` | `Constraints` | `ConstrProofs` | `PropsConstraints` C08–C14 |
| implication helpers | `Spec`, `ConstrSpec` | `Atomics` | `AtomicsProofs` | `PropsAtomics` C15, C16 |
| at-most-one encodings | `Am1Spec` | `Am1`, `Am1Stats` | `Am1Proofs` | `PropsAm1` C17–C23 |
| node database, totalizer | `TreeSpec`, `BoundSpec` | `NodeDb`, `TotDb`, `Totalizer` | `NodeConProofs`, `TotDb{Inv,Unit,Define,General,Build,Grow,Merge,Hist}`, `BoundExec`, `TotalizerProofs` | `PropsTotalizer` C24–C27, C60 |
| generalized totalizer | `BoundSpec` | `Maps`, `Gte` | `TotWeighted`, `DbWorld`, `GteProofs` | `PropsGte` C29, C57, C60 |
| binary adder | `BoundSpec` | `Adder` | `AdderSem`, `AdderNodes`, `AdderProofs`, `AdderHist`, `AdderSingle` | `PropsAdder` C30, C31, C34, C60 |
| dynamic polynomial watchdog | `DpwSpec` | `Dpw` | `DpwRef`, `DpwBuild`, `DpwBuckets`, `DpwStruct`, `DpwIf`, `DpwInv`, `DpwExtend`, `DpwChain`, `DpwLink`, `DpwSem`, `DpwMerge`, `DpwHist`, `DpwProofs`, `DpwRefine` | `PropsDpw` C32, C62, C71, C72 |
| statistics of encodings | `StatSpec` | `Totalizer`, `Gte`, `Dpw` | `EncStats`, `DpwRefine` | `PropsTotalizer`, `PropsGte`, `PropsDpw` C72 |
| encoding simulators | `BoundSpec` | `Simulators` | `SimProofs`, `SimInst` | `PropsSim` C33, C57 |
| encoding one constraint | `EncSpec` | `ConstrEnc` | `ConstrEncProofs` | `PropsEnc` C28, C34 |
| variable managers | `VarSpec` | `VarMan` | `VarManProofs` | `PropsVars` C35–C37 |
| CNFs, satisfiability instances | `InstSpec` | `Inst` | `InstProofs`, `InstReindex` | `PropsInst` C38–C41, C58, C59 |
| objectives, optimization instances | `OptSpec` | `Opt` | `OptProofs`, `OptNorm`, `OptConv`, `OptReindex` | `PropsOpt` C42–C45, C58, C59 |
| solvers, MaxSAT search | `SolverSpec`, `MaxSatSpec` | `Solver`, `SolverUse`, `MaxSat`, `SolverToy` | `SolverProofs`, `MaxSatProofs` | `PropsSolvers` C46, C55, C56 |
| DIMACS files | `FioSpec`, `DimacsSpec` | `Text`, `Dimacs` | `TextProofs`, `DimacsProofs`, `DimacsGrammar`, `ParserFuel` | `PropsFiles` C47–C49, C61 |
| OPB files | `FioSpec`, `OpbSpec` | `Text`, `Opb` | `OpbProofs`, `OpbInst` | `PropsOpb` C50–C52 |
| value lines, solver output | `VlineSpec` | `Vline` | `VlineProofs` | `PropsVline` C53, C54 |
| solver crates (IPASIR, CaDiCaL, Minisat, Glucose, Kissat) | `SolverSpec`, `WrapperSpec` | `Wrappers` | `WrapperProofs`, `WrapperToy` | `PropsWrappers` C63–C65 |
| callbacks, interrupters | `HandleSpec` | `Handles` | `HandleProofs` | `PropsWrappers` C66 |
| command line tools | `ToolSpec` | `Tools` | `ToolText`, `ToolConv`, `ToolProofs`, `ToolOpb` | `PropsTools` C67 |
| enumerating solutions | `EnumSpec` | `Tools` | `EnumProofs` | `PropsEnum` C68 |
| shuffling problems | `ShuffleSpec` | `Tools` | `ShuffleProofs` | `PropsShuffle` C70 |
| checking solutions | `CheckSpec` | `Tools` | `CheckProofs` | `PropsCheck` C69 |
| splitting objectives | `SplitSpec` | `Gbmo` | `GbmoProofs`, `GbmoCheck`, `GbmoSplit`, `GbmoLex`, `GbmoTool` | `PropsGbmo` C42, C73 |
| encoders sharing a node database | `RefSpec` | `RefEnc` | `RefProofs` | `PropsRef` C78 |
| certified totalizer encodings | `CertSpec`, `CertWorld` | `Cert` | `CertBase`, `CertSound`, `CertDefs`, `CertSem`, `CertStep`, `CertProofs`, `CertTot`, `CertHist`, `CertTally`, `CertConstr` | `PropsCert` C79 |
| certified pseudo-Boolean encodings | `CertPbSpec`, `CertPbWorld` | `CertW` | `CertPb`, `CertWTree`, `CertWStep`, `CertWProofs`, `CertWHist`, `CertWConstr` | `PropsCertPb`, `PropsCertGte` C80 |
| proof files | `PigeonsSpec` | `Pigeons` | `PigeonsProofs`, `PigeonsLines`, `PigeonsHist`, `PigeonsSteps` | `PropsPigeons` C81 |
| C interface | `CapiSpec` | `Capi`, `CapiDpw` | `CapiProofs`, `CapiInst`, `CapiAdder`, `CapiDpwProofs` | `PropsCapi`, `PropsCapiAdder`, `PropsCapiDpw` C82 |
| linear programs | `IlpSpec` | `Mo2ilp` | `Mo2ilpProofs`, `Mo2ilpTool` | `PropsIlp` C83 |
| BatSat | `BatsatSpec` | `Batsat` | `BatsatProofs` | `PropsBatsat` C84 |
| Python bindings | `PySpec` | `Pyapi` | `PyProofs` | `PropsPy` C85 |
| Python literals and encodings | `PyEnc` (`py_hist`), `PyPb` (`g_hist`), `PyDpw` (`d_hist`), `PyAdder` (`b_hist`), `PyAm1` (`a_hist`), `BoundSpec` | `PyEnc`, `PyPb`, `PyDpw`, `PyAdder`, `PyAm1` | `PyEncProofs`, `PyPbProofs`, `PyDpwProofs`, `PyAdderProofs`, `PyAm1Proofs` | `PropsPyEnc`, `PropsPyPb`, `PropsPyDpw`, `PropsPyAdder`, `PropsPyAm1` C86 |
| benchmark generator | `BenchSpec`, `ClusterSpec` | `Bench` | `DpwSingle`, `BenchProofs`, `BenchAlloc`, `BenchCnf`, `ClusterProofs`, `ClusterSem`, `ClusterRead` | `PropsBench` C34, C74-C76, `PropsCluster` C77 |

## 2. Modelling conventions

* A literal is a record (variable index `N`, sign). The packed `u32` representation of the code is modelled
  separately and shown to be isomorphic (C01), so that everything else may use the record. The order on
  literals is that of the packed representation.
* `&mut self` functions return the new state. `Result` and `Option` stay data. Panics (arithmetic overflow and underflow,
  index out of bounds, `unwrap`, failed assertions) are explicit `None` / `…Panic` values.
* Machine integers are unbounded (`N`, `Z`, `nat`) except where a property is about their bounds: variable indices in C01–C03, C35–C37,
  C59, and the numbers in files and value lines (C47–C54, C61). Weights, counts and numbers of clauses in
  the encodings are unbounded. `usize` subtraction that may underflow is an explicit error.
* The clause collector is the list of clauses added, in order; out-of-memory errors are not modelled.
  The variable manager used by encodings is its next free variable index.
* Hash maps are association lists without duplicate keys. Where the code iterates over a map, the order is a parameter `ord`
  (any function that permutes) over which the theorems quantify. The outcome of unstable sorts is a parameter in the same
  way (`srt`), as is the outcome of a random shuffle.
* Bound encodings (totalizer, generalized totalizer, adder, simulators) are used through *histories* of calls: `BoundSpec.reachable`
  is the set of states reachable by any sequence of `extend`, `encode_*`, `reserve` calls, interleaved with other users of the variable
  manager. Theorems are about every reachable state.
* SAT solvers and external programs are oracles: quantified over in the closed theorems, with the contract (satisfiable answers
  come with a model, …) as an explicit hypothesis, met by a concrete solver in the examples.
* Loops whose termination is not structural run on fuel; running out of fuel is a distinct result which the theorems exclude
  (`ParserFuel` for the parsers, a measure in each other case).
* Text is a list of ASCII characters. The `winnow` combinators used by the readers (`digit1`, `dec_int`, `dec_uint`, `separated`, `repeat`, `alt`,
  `opt`, …) are modelled from their documentation and belong to the trusted reading; that `dec_int` accepts a plus sign is
  used by a unit test of the repository (`fio/opb.rs`).

For an encoding the correctness statement is always the conjunction of

* soundness: every assignment that satisfies the clauses (and assumptions) satisfies the constraint;
* completeness: every assignment satisfying the constraint can be changed on variables that were fresh before the call
  only so that it satisfies the clauses (and assumptions);
* freshness: auxiliary variables are taken from `[next, next')`.

## 3. Per-property plan

| id | modelled | proof method |
|----|----------|--------------|
| C01 | `Lit` packed as `u32` with shifts/xor, checked constructors | bit arithmetic to div/mod, case analysis |
| C02 | `to_ipasir`, `from_ipasir` over bounded `Z` | arithmetic; extreme value handled explicitly |
| C03 | `Assignment` as vector of ternary values | list induction |
| C04–C07 | `Clause` functions on lists of literals | induction on lists; sortedness and canonicity |
| C08–C10 | `CardConstraint` | counting lemmas over literal lists with independent variables |
| C11–C14 | `PbConstraint` with signed weights over `Z` | weighted-sum lemmas |
| C15–C16 | `atomics.rs` | boolean case analysis, induction over cubes/clauses |
| C17–C23 | `am1/*` as functions from (literals, next var) to (clauses, next var) | induction; constructed auxiliary assignments |
| C24–C25 | `nodedb.rs` | invariants of the node arena; arithmetic |
| C26–C28 | `totdb` and `Totalizer` as a state machine over API calls | invariant over all reachable states; canonical auxiliary assignment |
| C29–C31 | generalized totalizer, adder | as above with weighted sums |
| C32, C62, C71, C72 | dynamic polynomial watchdog over histories of `set_precision` (also between encoding calls), `reserve`, `encode_ub`, `limit_range` | invariant over the output database and the chain of buckets; mixed-radix arithmetic |
| C33–C34 | simulators, single constraints | generic in the inner encoding (contract), instantiated |
| C35–C37 | variable managers as state machines | invariants over histories |
| C38–C41 | `Cnf`, `Instance` | composition of the constraint and encoding theorems |
| C42–C45 | `Objective`, `OptInstance`, `MultiOptInstance` | cost-preservation lemmas |
| C46 | solution-improving search with a solver oracle | loop invariant, termination by decreasing cost |
| C47–C52, C61 | writers to and parsers from character lists | round-trip lemmas for printers/parsers; independent grammar of well-formed files |
| C53–C54 | value lines and output parsing | induction over lines |
| C55–C56 | `Incremental`, external `Solver` as state machines with oracle | refinement to an abstract clause set |
| C57 | `next_higher`, `next_lower` of the generalized totalizer and `Inverted` | invariant of C29 |
| C58 | `evaluate` of instances | composition of C07, C10, C14 |
| C59 | `reindex`, `reindex_ordered` | injectivity from C36, renaming lemmas |
| C60 | `Monotone` encodings | canonical auxiliary assignment of C26, C29, C30 |
| C63–C65 | the Rust side of the solver crates as state machines over a back end with a contract | simulation between the wrapper's cached state and the abstract clause set |
| C66 | memory cells, raw pointers and boxes of callbacks | refinement to a user's view without memory |
| C67 | the conversion tools as functions from text to text, over the models of readers, writers and encodings | grammar of the input, meaning of the output; composition of the reading, hardening, encoding and writing theorems |
| C68 | the enumerator over an abstract solver with the contract of `SolverSpec`: rounds of solving, reading the solution, adding the blocking clause | invariant over the rounds: the solver contains the encoding and a blocking clause for every solution so far; a counting argument for termination; composition with C69 |
| C69 | check-solution as a function from two texts to a verdict, over the models of readers, value lines and evaluation | meaning of the problem file and of the value lines; each format read to an instance with the same solutions and costs; soundness and completeness of evaluation |
| C70 | shuffledimacs: reading, the random re-indexing manager, re-indexing, shuffling, writing; the shuffles are arbitrary permuting functions | the manager's table is a bijection, re-indexing is renaming with it, total weights per clause are kept by every step, the written file is read by the format's grammar |
| C73 | `gbmosplit` | subset sums of sorted weights; lexicographic order of mixed-radix values; composition with the file theorems |
| C74-C76 | `encodings`: knapsack, assignment, facility location | iterators as step functions with fuel; the lines they yield, then the writers' file theorems; sums over index ranges; knapsack capacity through the dynamic polynomial watchdog's exactness |
| C77 | `encodings`: the clustering iterator with its named variables, the reader of similarities and the triangular matrix | the iterator yields clauses over symbolic names under an injective naming; these are interpreted as codes of clusters; the matrix is shown to hold the last entry about every pair; costs are sums over unordered pairs |
| C78 | the `referenced` totalizer and generalized totalizer as functions of the shared database | the database invariant of the owned encoders, with the clauses since the last reset of the "if" semantics by any encoder as the upper bound window and all clauses as the lower bound window; every tree built so far is described by its leaves; one lemma characterises `enforce_ub` of both kinds by the values whose outputs are negated |
| C79 | the certified encoding calls as functions that also return proof steps, next to a specification of the proof system (constraints in normal form, cutting planes, RUP over one constraint, redundance with a witness, deletion) | constraints are represented by their slack as a function of the assignment, so that a derivation is correct when the slacks add up; an invariant ties every defined output to its two defining constraints, and the certified recursion is followed step by step against the uncertified one (C03); histories by induction with arbitrary steps of others; single constraints by composing a history with the two final derivations and the deletion |
| C80 | the weighted part of the certified database, the certified generalized totalizer and the certified encoding of single constraints, in the same proof system as C79 | constraints that simplify by reverse unit propagation over the half of the constraint that implies the clause; unit weights by C79; histories of certified calls by following the uncertified generalized totalizer with the invariant that every definition in the table is the constraint over the leaves of its node, so that each clause of a node is a sum of at most three definitions; constraints with different weights by following the tree built for the single bound and summing the constraint with the definition at the root or, for literals outside it, with one clause; the cases where the code is wrong by running the model on a concrete constraint and comparing the constraint derived with the clause recorded |
| C81 | every method of the proof writer that adds to the file, as a function from the state and the call to the state with the text appended; a reader of proof files and the checker's numbering of constraints as the specification | the words of each text written, token by token, then the reader on these words, for every call; induction over histories with the invariant that the text so far is read as the lines asked for and that the counter is the checker's; operation sequences by induction over expressions on the stack machine of C79; the calls of certified encodings as the steps of C79 and C80 read back from the file |
| C82 | the functions generated for one encoding, once for every encoder of the framework of C26–C32: integers to literals, clauses to a stream of integers, the counter of variables, error codes; a C program as a history of calls within the contract | a simulation of every history of C calls by a history of the encoder, whose contract (C26, C27, C29) then gives soundness and completeness of what the program has read; instances for the totalizer and the generalized totalizer; at-most-one encodings from C17–C22; adding inputs one by one to a new dynamic polynomial watchdog is shown equal to making it from all inputs at precision 0, so that C32 applies |
| C83 | mo2ilp as a function from text to text: unused variables, pseudo-Boolean forms of constraints, soft clauses turned into literals, dense rows, both output formats | a reader of the written format with the meaning of a 0-1 linear program; rows as sums over columns, read after write, composition with reading, renumbering and conversion of soft clauses |
| C84 | the wrapper of BatSat over any back end: literals with opposite sign convention, creation of variables, states, statistics | a contract of the back end in its own literals; invariant of the wrapper over all histories, as for C63–C65 |
| C85 | indexing, slices and iterators of the Python classes for clauses and formulas; the Python variable manager | against Python's rules for slices (independent specification); refinement of an ideal sequence with iterators; refutations for the keys and histories where the bindings differ |
| C86 | literals, the totalizer, the generalized totalizer, the dynamic polynomial watchdog, the binary adder and the at-most-one encodings of the Python bindings | histories of Python calls are simulated by histories of the encodings (C26 to C29, C32), whose contracts carry over; an invariant over the programs with several at-most-one objects composes C17 to C21; refutations for the least literal, repeated weighted literals and the binary adder |

Where the code violates a property the violation is proved as a `…_refuted` theorem with a concrete witness, and the strongest restriction
that holds is proved beside it (`…_partial`). A property is "partial" in the manifest as soon as it has a theorem of one
of these two kinds.

## 4. Results per property

| id | property | status | theorems | remarks |
|----|----|----|----|----|
| C01 | Literals faithfully pack a variable and a sign | partial | 9 | Full except for one reading of the documentation of Lit::new, which is refuted: Lit::new panics for Var::MAX_IDX although only larger indices are documented to panic. |
| C02 | IPASIR integer conversion is a bijection | partial | 5 | Round trips hold for all literals but those over variable MAX_IDX and all integers but i32::MIN; for those to_ipasir panics (refuted). |
| C03 | Assignments remember exactly what was assigned | partial | 8 | All statements hold; only Assignment::iter (borrowing) panics when variable MAX_IDX is assigned (refuted), into_iter does not. |
| C04 | Clause normalization is sound and canonical | proved | 4 | Full statement. |
| C05 | Clause sanitization is sound and stable | proved | 2 | Full statement. |
| C06 | Removing a literal from a clause | proved | 2 | Full statement. |
| C07 | Clause evaluation under partial assignments is sound and exact | proved | 4 | Full statement. |
| C08 | Cardinality constraint predicates decide what they claim | partial | 12 | Soundness of all predicates is full. Exactness holds over distinct variables and at least one literal, for clauses over bounds; the empty equality and the unit equality are the counterexamples. |
| C09 | Inverting and splitting cardinality constraints preserves meaning | partial | 7 | Inversion is proved for bounds up to the number of literals; above, the code underflows (refuted). Splitting, adding, normalization are full. |
| C10 | Cardinality constraint evaluation | partial | 4 | Total assignments and the answer True are full; the answer False is only right for upper bounds (refuted for lower bounds). |
| C11 | Pseudo-Boolean constructors keep the meaning of signed weights | proved | 4 | Full statement. |
| C12 | Pseudo-Boolean predicates decide what they claim | partial | 9 | Sound for all constraints with positive weights; weights 0 give wrong answers and a division by zero (refuted). |
| C13 | Pseudo-Boolean conversions preserve meaning | partial | 7 | All conversions full, except extend_to_card_constr, which needs a non-negative bound (refuted otherwise). |
| C14 | Pseudo-Boolean evaluation | partial | 3 | Total assignments are full; on partial assignments upper bounds are right, lower bounds and equalities can be misjudged (refuted). |
| C15 | Atomic implication helpers mean what their names say | proved | 9 | Full statement. |
| C16 | Constraint-implies-literal helpers mean what their names say | partial | 8 | Literal implies constraint is full, for every constraint the helpers accept. Constraint implies literal holds unless the constraint is an upper bound that always holds; there the helpers over-constrain or underflow (refuted). |
| C17 | Pairwise at-most-one encoding is correct | proved | 1 | Full statement. |
| C18 | Ladder at-most-one encoding is correct | proved | 1 | Full statement. |
| C19 | Bitwise at-most-one encoding is correct | proved | 1 | Full statement. |
| C20 | Commander at-most-one encoding is correct | proved | 1 | Full statement. |
| C21 | Bimander at-most-one encoding is correct | proved | 1 | Full statement. |
| C22 | Two-product at-most-one encoding is correct | proved | 1 | Full statement. |
| C23 | Reported encoding sizes are exact | proved | 1 | Full statement. |
| C24 | Totalizer trees contain exactly the added literals | proved | 3 | Proved for every history of tree-building calls on the node database (lit_tree, weighted_lit_tree, merge, merge_balanced) and for the totalizer; draining the database and merge_thorough (internal feature) are not modelled. |
| C25 | Node connections map values consistently | partial | 6 | The stated equivalence holds for all values that can pass the length limit (all values if there is none); beyond the limit it is refuted: rev_map_round_up returns a value although the mapped value is never reached. |
| C26 | Totalizer upper bounds are enforced exactly, for every incremental history | proved | 7 | Proved over all call histories including interleaved extension, reservation, other encodings and user variables. |
| C27 | Totalizer lower bounds are enforced exactly, for every incremental history | partial | 8 | Proved over all call histories; refuted in one point: a second encode_both into a new collector emits nothing although the bounds are still reported as encoded (it does not reset as encode_ub and encode_lb do). |
| C28 | Encoding a cardinality constraint as CNF | proved | 3 | Proved for the default encoding and for every encoding meeting the bounding contract; no restriction on the constraint. |
| C29 | Generalized totalizer upper bounds are enforced exactly | partial | 11 | Proved for every history of new/extend/reserve/encode calls with positive weights and any hash map iteration order. Refuted side claims: bounds encoded earlier can become unavailable when a buffered input is moved into the tree; a weight-0 input panics; from_iter keeps only the last weight of a repeated literal. |
| C30 | Binary adder upper bounds are enforced exactly | partial | 14 | Over all call histories, any iteration order and positive weights: completeness, locality, availability, persistence, trivial bounds are full. Soundness of upper bounds is proved for histories that encode only upper bounds and have no un-encoded inputs; refuted otherwise (a lower bound encoded first marks half adders wrongly, stale comparators are returned after extending, and a second encode_ub does not emit the comparator again). reserve panics with two or more inputs and weight-0 inputs panic (refuted). |
| C31 | Binary adder lower bounds are enforced exactly | partial | 6 | Lower bounds are sound in every history. Availability is proved for histories without upper bounds; refuted for encode_both (comparators already encoded for upper bounds are skipped); completeness needs that inputs are not left un-encoded (refuted otherwise). |
| C32 | Dynamic polynomial watchdog upper bounds are enforced exactly | partial | 18 | Exact enforcement at the current precision is proved for all inputs, bounds, hash map orders, sorting outcomes and changes of the precision, for histories without reserve and re-encoding; for all histories every enforced bound keeps all assignments meeting it, and bounds in the ranges encoded since the last encode_ub or change of precision are enforced, after changes of the precision only for ranges from 0 or if some divided weight is odd. Refuted: after refining with all weights even a bound in an encoded range is not enforced and coarse bounds need two assumptions; precision 0 makes a built encoding panic; enforce_ub succeeds for outputs that were only reserved, or encoded before a later encode_ub; precisions above every weight or with fewer than two inputs panic or exclude assignments; assumptions for two bounds cannot be combined. |
| C33 | Inverted and double encoders | partial | 20 | Proved for every inner encoding meeting the contract (cardinality and pseudo-Boolean Inverted, Double, Card), and for the default pseudo-Boolean encoding. Pseudo-Boolean Inverted and Double need distinct literals per extend call: repeated ones keep only the last weight (refuted). Also refuted: Inverted panics without inputs or for ranges ending before zero, and Inverted::encode_both with an unbounded start does not encode the upper bound zero. |
| C34 | Encoding a pseudo-Boolean constraint as CNF | partial | 10 | The full statement is false of the code: equalities of equally weighted literals with an indivisible bound panic, repeated literals lose weight, and weights 0 give too strong clauses or a panic. Proved exact for all other constraints, for every hash map iteration order, for the default encoding and the binary adder; for the dynamic polynomial watchdog, which has upper bounds only, proved for upper bounds. |
| C35 | Variable managers only hand out fresh variables | proved | 4 | Basic, object and reindexing variable managers, over every history of new_var, increase_next_free, mark_used, combine, forget_from and lookups (including the managers combined in). A panic of the index arithmetic is a None result; C35_new_var_defined says exactly when new_var answers. |
| C36 | Reindexing is injective and reversible | partial | 12 | Same/new hold for every history; distinctness for every history without combine; reverse for histories of reindex calls only. Refuted: reverse after new_var (the reverse map is not extended), after forget_from (truncated one too long), identity promised by from_next_free, injectivity after combine (reindexing, random and object managers). The randomised manager is proved for every outcome of the shuffle. |
| C37 | Object variable manager is injective | proved | 3 | Every history of object_var, new_var, increase_next_free, mark_used and forget_from for distinctness; also with combine for the rest. The keys are any type with decidable equality. |
| C38 | CNF operations preserve models | proved | 11 | Join, add, normalize, sanitize, shuffle (any permutation) and evaluate for all formulas; normal forms characterised, normalize decides equality of clause sets. |
| C39 | Converting an instance to CNF preserves its models | partial | 4 | Exact for any exact encoders; with the default encoders for constraints without repeated literals, zero weights or indivisible equalities; for the latter three into_cnf is refuted. |
| C40 | Adding constraints through the instance API adds exactly that constraint | partial | 11 | All add_* calls and histories of them; refuted: extending by an instance drops its cardinality and pseudo-Boolean constraints, extending by clauses does not mark variables. |
| C41 | Instance sanitization preserves satisfying assignments | partial | 5 | Sanitize preserves assignments and reaches its normal form when weights are positive and equalities divisible; refuted: panic on an indivisible equality, zero weights, variable 0 used without marking. into_pbs in full. |
| C42 | Objective evaluation and conversions agree | partial | 21 | All calls (add_soft_lit, add_soft_clause, increase_*, offset) over arbitrary call histories, evaluation, weights, minimum and maximum weight, conversions and collecting are covered. Partial: setting weights when a soft constraint occurs twice in an unweighted objective gives the wrong weight (C42_set_refuted). |
| C43 | Objective normalization preserves every cost | partial | 6 | Proved for every hash-map iteration order. Partial: offset lost if all soft constraints vanish, panics for empty soft clauses and for unweighted objectives without soft literals, wrong results for some complementary/repeated unweighted literals (the five refuted theorems); the positive theorem covers all other objectives (norm_fine). |
| C44 | Relaxing soft clauses preserves optimal cost | partial | 4 | Partial: empty soft clauses make the relaxation panic (C44_empty_clause_refuted); all other objectives are covered. |
| C45 | Optimization instances convert to equivalent CNF-plus-objective form | partial | 9 | Default encodings and arbitrary exact encoders, single and multiple objectives, compose/decompose. Partial: objective variables that are unknown to the variable manager collide with auxiliary variables (C45_unknown_refuted, C45_multi_unknown_refuted). |
| C46 | Maximum satisfiability search returns an optimal solution | partial | 10 | Solution-improving search over every solver meeting the contract of SolverSpec.v, with the generalized totalizer and the binary adder: optimality, attained cost, panics only on solver failures, bound on the number of rounds. Partial: objective literals distinct, positive weights, variables known to the solver. solve_maxsat is proved for soft literals over variables in hard clauses. Refuted: objective variables unknown to the solver (wrong optimum), repeated objective literals (no termination), empty clause in a solver without variables, soft clauses with several literals (the blocking literal has the wrong sign: cost 0 reported although every solution costs 1), no hard clauses, empty soft clause (panic). |
| C47 | DIMACS CNF round trip | partial | 5 | The writer followed by the reader gives the same clauses, and the same instance including the number of variables, whenever writing succeeds; writing succeeds exactly for clausal instances whose variables have DIMACS numbers. Findings: write_cnf writes a header without "cnf" that no reader accepts; the largest variable panics. |
| C48 | WCNF round trip | partial | 6 | Data level exact; instance level same hard clauses, same total weight of every soft clause, same costs up to the offset. Findings: the offset is only written as a comment and lost; write_wcnf comments lack a line feed and swallow the next line. |
| C49 | MCNF round trip | partial | 5 | As C48 per objective. Findings: offsets are lost, and trailing objectives without soft clauses are lost. |
| C50 | OPB round trip | partial | 9 | Proved for all instances whose numbers fit: written constraints are read with the same models, for either setting of no_negated_lits, all three writers (write_sat, write_opt, write_multi_opt) and line-by-line writing; writing succeeds if numbers fit. Partial because the objective comes back only up to a constant: the offset is written as a comment and lost, and with the default options the weights of negated literals are lost as well (C50_offset_refuted, C50_negated_refuted). The exact constant is part of the theorem. Weights above isize::MAX are written and cannot be read (C50_weight_refuted). |
| C51 | OPB relational operators mean what they say | partial | 4 | Every file of an independently specified grammar (signs, blanks, several statements per line, comments, CRLF) with <=, >=, > and = is read as the constraints it states. Partial: `<` is read as "at most the bound plus one" (C51_less_reads, C51_less_refuted); the largest bound and too large indices panic. |
| C52 | OPB objectives keep their value | partial | 6 | Minimization objectives are exact for every well-formed file. Maximization objectives are exact for non-negative coefficients; in general the value is off by twice the sum of the negative coefficients (C52_maximize_reads, C52_maximize_refuted). |
| C53 | Solver output parsing | partial | 13 | Proved for outputs with any comments, any line order and line ends: SAT and PB competition value lines with distinct variables (no line that is a single number of digits 0/1), MaxSAT evaluation lines other than "0"; unsatisfiable, unknown, invalid and missing status lines, missing value lines, conflicts; no panic without the letter x. Refuted: arbitrary splits ("v 10" is read as values of x1 and x2), "v 0", contradicting or malformed status lines, and panic on large PB indices. |
| C54 | Value lines with conflicting assignments are rejected and consistent ones accepted | partial | 9 | The full claim is refuted both ways ("v 1 -1" accepted, "v -1 -1" rejected). Proved: exactly the lines in which a variable that is false occurs again are rejected, otherwise the last occurrence decides; lines without repeated variables are accepted with exactly their values; the same for several lines at once and the PB format. |
| C55 | Incremental simulation of a non-incremental solver | partial | 8 | The simulator over any correct inner solver is a correct solver; with errors, over all histories of calls except two kinds of errors, answers, models and cores are right. Refuted for these two: a failed call under assumptions directly after adding clauses leaves the assumptions in the solver; a failed add_clause after an answer may lose clauses. After a failed call under assumptions, solve may answer satisfiable without a model. |
| C56 | External solver state machine | proved | 3 | All results of all call sequences, for every program, equal a direct specification; honest programs give a correct solver. Starting the process, files and pipes are not modelled. |
| C57 | Next higher/lower values never skip a reachable weighted sum | partial | 6 | Proved for the generalized totalizer when no input is buffered, and for Inverted around it strictly inside the range; refuted when inputs are buffered, and at the ends of the range for Inverted (next_lower(0) underflows, next_higher(sum) returns sum). |
| C58 | Evaluating an instance agrees with satisfaction | proved | 6 | Total assignments decided for bounds up to isize::MAX, as in the code's comparison of bounds; partial assignments characterised through the constraints' own evaluation. |
| C59 | Re-indexing an instance renames its variables injectively | proved | 7 | For every history of the re-indexing manager without combine (C36 refutes injectivity after combine); ordered re-indexing from a new manager. |
| C60 | Monotone encodings: hard upper bounds never conflict with later, tighter ones | proved | 3 | All three encodings marked Monotone; bounds asked for at any point of any history (upper-bounding histories for the generalized totalizer, all calls for the adder and totalizer). The dynamic polynomial watchdog is documented not to be monotone and is not claimed. |
| C61 | Well-formed DIMACS files are read as what they say | partial | 7 | All layouts with canonical decimal numbers (no leading zeros or plus signs). Findings: clauses spanning lines are split silently, several clauses on a line are rejected (both legal DIMACS), headers announcing more than i32::MAX variables panic. |
| C62 | Limiting the output range of the dynamic polynomial watchdog loses no solution in the range | partial | 5 | Proved at full precision for bounds below the sum of weights, at one precision or if some weight is odd. Refuted: the full range excludes the assignment setting all inputs, below the maximum precision inputs are forced that need not be set, a divisor above 1 is not taken into account, and refining with all weights even excludes assignments. |
| C63 | The IPASIR and CaDiCaL interfaces answer correctly across any history of calls | partial | 12 | IPASIR: all histories. CaDiCaL: as an incremental solver for all histories without temporary clauses, simplification and memory failures (C63_cadical); with these calls, for solve and simplify while no stale answer is cached and for assumptions always (_partial). Refuted: after an unsatisfiable answer due to a temporary clause solve repeats it, simplify and simplify_assumps reuse answers found under other assumptions, out of memory while passing assumptions leaves them pending, values after declare_more_variables abort. |
| C64 | The Minisat and Glucose interfaces answer correctly across any history of calls | partial | 4 | Answers, cores, and values of positive literals of variables known when the answer was found. Refuted: the value of a negated literal is the value of its variable; values of variables added later are read out of bounds. |
| C65 | The Kissat interface answers correctly and never makes Kissat abort the process | partial | 5 | Answers and values for all histories. No abort before the first question; afterwards characterized by state. Refuted: after an interrupted question, or after reserve following an answer, the next clause or question makes Kissat abort the process. |
| C66 | Callbacks and interrupters never touch freed memory | partial | 3 | For programs that do not call detach_learner while a terminator is attached nor use an interrupter after its solver was dropped; both restrictions are necessary (refuted). |
| C67 | Converting files between formats keeps the solutions and their costs | partial | 12 | Proved for cnf2opb, wcnf2opb and mcnf2opb for all files in any layout (soft clauses non-empty with positive weights, numbers within range; if negated literals are avoided the cost is shifted by a stated constant). For the other direction proved (_partial) for files whose variables count from 0, output to a file for opb2cnf, coefficients other than 0, distinct variables in each constraint, no `<`. Refuted in full: the option for the first index is ignored by opb2cnf/opb2wcnf/opb2mcnf, opb2cnf writes lines that are not comments before the CNF on the standard output, repeated literals lose constraints in opb2cnf, indivisible equalities make it panic, empty soft clauses make wcnf2opb panic, and constants of objectives are lost. |
| C68 | Enumeration lists every solution once | partial | 8 | Proved for OPB files in which no constraint has a variable twice and no equality with equal coefficients is unsolvable for divisibility (the tool does not sanitize). Found: asked for 0 solutions it prints one; "v 0" for a single false variable is not accepted by check-solution, nor are lines with don't-cares; OPB constraints with repeated variables are lost, so that assignments that are no solutions are printed; an indivisible equality makes the tool panic. |
| C69 | Solution checking gives right verdicts | partial | 7 | All verdicts are right for well-formed files. Found: value lines for OPB files are always read with variables counted from 1, whatever index is given for the problem; negative coefficients of a maximized objective give wrong values; for partial solutions the values reported are lower bounds only. |
| C70 | Shuffling keeps the problem | proved | 4 | The random permutations are arbitrary functions that permute. The weights of each objective together must fit in a usize. |
| C71 | The next precision announced by the dynamic polynomial watchdog is the next useful one | partial | 2 | Proved for all histories once a range is encoded at the current precision. Refuted before: the precision announced by a fresh encoding need not be smaller than the current one. |
| C72 | Reported numbers of clauses and variables are those handed out | partial | 6 | Clauses and variables are proved to be counted exactly for the totalizer, the generalized totalizer (clauses under C26 and C29) and the dynamic polynomial watchdog, in histories without reserve; for all histories the number of clauses is exact and that of variables never too high. Refuted: variables reserved in advance are not counted. The adder's counters are not modelled; those of the at-most-one encodings are covered by C23. |
| C73 | Splitting a weighted objective keeps the order of solutions | partial | 11 | All three algorithms, the statistics and the whole run from a WCNF file to an MCNF file are modelled. Proved: soundness (the lexicographic order is the original order), the exact thresholds for the BMO and GCD criteria, and for the generalised criterion soundness, and completeness when the number of sums stays within the limit. Refuted: the offset is put on the most important objective although the warning says the lowest ranking one; the multipliers do not give back the original value if there is an offset; OPB output loses the clauses relaxing soft clauses; standard output is mixed with messages; a weighted objective without soft constraints panics. |
| C74 | Generated knapsack benchmarks encode the knapsack problem | partial | 5 | The pseudo-Boolean and the clausal encoding are modelled from the problem to the text written (reading problem files is C78). Proved for all problems with at least one item and objective; the clausal one needs weights of at least 1 and variable indices that fit, and uses the dynamic polynomial watchdog for the capacity. Refuted: the clausal encoding panics if an item weighs 0; the pseudo-Boolean one panics without items or objectives. |
| C75 | Generated assignment benchmarks encode the assignment problem | partial | 3 | Proved for all problems with at least one task and objective whose numbers fit. Refuted: without tasks the constraints are unsatisfiable although the empty assignment is a solution; without objectives the generator panics. |
| C76 | Generated facility location benchmarks encode the problem | partial | 2 | Proved for all problems with at least one customer, facility and objective whose numbers fit. Refuted: without customers the variables for opening facilities are also used as those of a first customer, so that exactly one facility must be opened. |
| C77 | Generated clustering benchmarks encode correlation clustering | partial | 5 | Proved for all files with at least two objects; reading floating-point numbers is left open (any function from the rest of the line to scaled values). Refuted: fewer than two objects make the tool panic; a line that cannot be read is skipped without an error. |
| C78 | Encoders that share one node database keep out of each other's way | partial | 14 | One database, one variable manager, any number of `referenced` encoders of both kinds. Findings: `encode_lb` of the shared totalizer resets the "if" half of the encoding instead of the "only if" half, so that it takes away the encoder's own upper bounds (C78_lb_takes_ub_refuted) and a repeated `encode_lb` returns no clauses (C78_lb_window_refuted; C78_lb_sound_partial is therefore under all clauses returned so far); `encode_ub` of one encoder takes away the upper bounds of every other encoder of the database (C78_other_encoder_refuted); `enforce_lb(0)` panics (C78_lb_zero_refuted); `next_lower` answers one less where 0 is the next lower sum, and panics for 0 (C78_next_lower_refuted). |
| C79 | Certified totalizer encodings write proofs that check, and the identifiers they return name their clauses | partial | 11 | All certified calls of the totalizer over all histories, all states of the proof and all interleaved steps of others; the checker's rules are specified in CertSpec and proved sound. Partial: inputs with complementary literals are excluded (the encoder then saturates constraints of degree zero, which the specification of the checker refuses); the text of the proof is not part of these theorems. Refuted: the single-constraint methods of the totalizer panic when no output is needed (bound equal to the number of literals, lower bound zero, one literal). |
| C80 | Certified pseudo-Boolean encodings write proofs that check, and the identifiers they return name their clauses | partial | 14 | Histories of certified calls on the generalized totalizer (extending, reserving, encoding ranges incrementally or anew, other steps in between) are proved for all inputs without complementary literals: same clauses and variables as without a proof, valid steps, right identifiers, no panics, nothing lost. Single constraints are proved for all constraints that simplify (tautologies, unsatisfiable ones, assignments, clauses), for unit weights, and for constraints of all three kinds with different weights in which no literal is heavier than the bound (for lower bounds: than the sum of the weights less the bound). Findings, each with a concrete witness: constraints with one common weight other than one are recorded with a derivation that gives a different constraint than the unit clause (the cardinality encoding is passed the identifier of the weighted constraint); an equality with a negative bound derives the empty clause from its trivially true half; a literal heavier than the bound that is not in the tree makes the certified call panic; a root with a weight other than one leads to a wrong derivation; the single upper bound equal to the weight sum writes a deletion without identifiers; the inverted generalized totalizer prepares lower bound ranges as upper bound ranges (src/encodings/pb/simulators.rs:263, 434), so that the largest bound is not encoded and an empty encoder panics. |
| C81 | A proof file says what the calls of the proof writer asked for | partial | 8 | Proved for every history of calls within the contract: no panic, the file is read back as exactly what was asked for, identifiers returned are the checker's, empty ranges are the only ranges refused, expressions of operations derive what they stand for, proof-only variables are new, and the steps of valid derivations (C79, C80) are read back from the file. Refuted: an objective's constant is not written; goals of a new objective are not counted, so later identifiers are wrong; weakening is written without its variable and cannot be read. Missing: definitions of orders, `substitute`, errors of the writer. |
| C82 | Encodings used through the C interface keep their promises | partial | 19 | Proved for every C program using one totalizer or one generalized totalizer and for all at-most-one encodings; for the binary adder for programs with upper bounds only, and the lower-bound half for all programs. Refuted: asking for a trivial upper bound (at least the number of inputs) or for the lower bound zero of a totalizer aborts the program, even right after a range with that bound was encoded, because the interface takes the first of no assumptions; C82_totalizer_calls_partial is about the other bounds. Also refuted: reserving variables for a binary adder with inputs aborts, and after encoding a lower bound the assumptions of its upper bounds do not enforce them. For the dynamic polynomial watchdog proved for programs that add different literals with positive weights and then encode ranges at the initial precision; rounding bounds and limiting the range are covered as in C32 and C62; changing the precision and reserving through C are not. Refuted for it: an input added with weight 0 counts with weight 1, and since a new encoding starts at precision 0, setting the full precision 1 that dpw_next_precision gives is refused as a decrease once something is encoded. |
| C83 | Instances written as 0-1 linear programs keep their solutions and costs | partial | 7 | Proved for all instances whose weights fit into isize, for the three ways of treating unused variables, and for files (OPB without `<`, no zero coefficients in objectives). Refuted: the numbers of non-zero entries in the header are wrong for negated soft literals and for repeated literals, and an empty soft clause makes the tool panic. Not modelled: overflow of the sums of coefficients of one column, running out of variables while writing. |
| C84 | The BatSat solver answers correctly for every history of calls | proved | 2 | Proved for every back end that keeps the contract in BatsatSpec.v (BatSat's source is not in the repository). |
| C85 | Clauses, formulas and variable managers behave like Python objects | partial | 9 | Proved for indices in range (negative ones if the interpreter adds the length to them) and slices with non-negative steps, for iteration with the newest iterator, and for variable managers. Refuted: negative indices that arrive unchanged and all indices out of range panic; negative steps give wrong elements or panic; extending a clause during iteration is not noticed; a second iterator hides a modification from the first. |
| C86 | Literals and cardinality encodings used from Python mean what they say | partial | 31 | Proved for the totalizer over all Python histories, for the generalized totalizer and the dynamic polynomial watchdog over all histories that start with distinct literals and have positive weights, for the upper bounds of the binary adder in programs without lower bounds and for its lower bounds, clauses and variables in all programs, for any number of at-most-one objects that share a variable manager, and for all literals but the least. Refuted: Lit(-2147483648) is accepted but its to_ipasir panics; the constructors of the weighted encodings drop weights of repeated literals, which extend adds up; the constructor of the dynamic polynomial watchdog panics for a weight 0; the binary adder cannot enforce an equality in a range after encode_both, and enforces wrong upper bounds after encode_lb. |

## 5. Trusted base

* Coq's kernel (8.16.1) and the standard library. No other library is used.
* `Print Assumptions` is under every property theorem and prints "Closed under the global context" for every one of them: **no
  theorem depends on an axiom**.
* The global environment of the compiled files contains seven constants without body, because `ZifyBool` (used by `lia`) loads
  `Coq.ssr.ssrbool`, and with it `Coq.ssr.ssrunder`: `Over_rel`, `Under_rel_from_rel`, `over_rel`, `over_rel_done`, `Under_rel`, `Under_relE`,
  `under_rel_done` (all of the sealed module `Coq.ssr.ssrunder.Under_rel`). They are parameters of the standard library's under tactic; no
  theorem uses them.
* No axiom, parameter, section-less variable, admitted proof, functor or module type is declared here, and no kernel check is switched off.
* The correspondence between the Rust text and the model (by reading), including the semantics of Rust's standard library functions used
  (sorting, hash maps up to iteration order, slices, integer parsing) and of the `winnow` combinators.

## 6. What is modelled and what is not

| file under `/repo/src` | modelled | not modelled |
|------|----------|--------------|
| `types/mod.rs` | `Var`, `Lit`, `TernaryVal`, `Assignment`, value lines | random generation, formatting other than DIMACS/OPB numbers, conversions used by FFI only |
| `types/constraints.rs` | `Clause`, `CardConstraint`, `PbConstraint` and their conversions and evaluations | iterators as objects, formatting, references into constraints (`iter_mut`) |
| `types/operators.rs` | the implication operators used by `Cnf`/`Instance` | the rest (syntactic sugar) |
| `encodings/atomics.rs`, `encodings/am1/*` | all | |
| `encodings/nodedb.rs` | node connections, `lit_tree`, `merge`, `merge_balanced` | `drain`, `merge_thorough`, leaf iterators |
| `encodings/totdb/mod.rs` | nodes, insertion, `define_unweighted`, `define_weighted`, `weighted_lit_tree`, reservation | `strictly_extend_assignment`, `drain`, iterators |
| `encodings/card/mod.rs`, `encodings/pb/mod.rs` | bounding traits' default methods, encoding of single constraints | |
| `encodings/card/simulators.rs`, `encodings/pb/simulators.rs` | `Inverted`, `Double`, `Card` | |
| `encodings/card/totalizer/mod.rs`, `referenced.rs` | the totalizer, owning or sharing its database; `Tot` and `TotCell` are one model | |
| `encodings/pb/gte/mod.rs`, `gte/referenced.rs`, `pb/adder.rs` | the encodings | statistics of the adder |
| `encodings/pb/dpw/mod.rs` | all: building, extending and merging structures, `set_precision`, `next_precision`, bounds, `limit_range`, statistics | `referenced.rs`, proof logging |
| `encodings/totdb/cert.rs`, `encodings/card/cert.rs`, certified part of `card/totalizer/mod.rs` | everything the totalizer uses: `define_unweighted_cert`, `define_semantics`, `delete_semantics`, certified calls, single constraints | offsets and length limits of nodes, `verbose-proofs` comments, writer errors |
| `encodings/pb/cert.rs`, certified part of `pb/gte/mod.rs` and `pb/simulators.rs` | single constraints with the default encoding, certified calls of the generalized totalizer and lower bounds of its inversion | other certified encodings, `encodings/cert.rs` beyond identifiers collected with clauses |
| `pigeons` | identifiers, operation sequences, the methods of `Proof` with the text they write, headers and conclusions | definitions of orders, `substitute`, errors of the writer |
| `capi/src/encodings` | totalizer, generalized totalizer, binary adder and at-most-one functions, and making, adding to, encoding, enforcing, rounding, limiting and setting the precision of a dynamic polynomial watchdog: adding, reserving, encoding, enforcing, error codes, the clause callback and the variable counter | pointers and memory; reserving with a dynamic polynomial watchdog |
| `instances/mod.rs` | all variable managers | |
| `instances/sat.rs`, `instances/opt.rs`, `instances/multiopt.rs` | formulas, instances, objectives, conversions, re-indexing, evaluation | file-opening wrappers |
| `instances/fio/mod.rs`, `fio/dimacs.rs`, `fio/opb.rs` | readers, writers, solver output | opening, compression, non-ASCII text |
| `solvers/mod.rs`, `solvers/simulators.rs`, `solvers/external.rs` | default methods, `Incremental` simulator, external solver as a state machine | statistics, time limits, process and file handling, callbacks |
| `algs/maxsat.rs` | solution-improving search, `solve_maxsat` | |
| `utils.rs` | digits, `unreachable` helpers used above | `Timer`, `LimitedIter` |
| `bench.rs`, `lib.rs` | nothing | nothing to model |

Of the solver crates, `ipasir/src/lib.rs`, `cadical/src/lib.rs`, `minisat/src/core.rs`, `glucose/src/core.rs` and `kissat/src/lib.rs` are modelled as to
adding clauses, solving, assumptions, values, cores, reservation, (CaDiCaL) temporary clauses and simplification, callbacks and interrupters. The C and
C++ solvers are back ends with a contract (`WrapperSpec`); of the C++ glue `cminisat.cc` is modelled as far as values and variables go. Not modelled:
statistics, options and configuration, phasing, flipping, propagation, proof tracing, the `simp` versions of Minisat and Glucose.

Of `batsat/src/lib.rs` everything is modelled except the clock and the average length of clauses; BatSat itself is a back end with a contract (`BatsatSpec`), its source is not in the repository.

Other crates (the rest of `pyapi` and `capi`: language bindings; of `pyapi` only `Pyapi.v`, `PyEnc.v`, `PyPb.v`, `PyDpw.v`, `PyAdder.v` and `PyAm1.v` are modelled, that is indexing, iteration, variable managers, literals and the encodings, not PyO3 itself; `tools`: the tools other than those in `Tools.v`, `Gbmo.v`, `Bench.v` and `Mo2ilp.v`; `codegen`, `solvertests`) are not modelled. Memory limits, floating-point statistics and
multi-threading are not modelled.
