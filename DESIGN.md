# Formal model of artreven/fca in Rocq (Coq 8.16.1)

The subject is the Python library in `/repo/fca` (formal concept analysis: contexts, closure
operators, concepts, implications, exploration, filtering, factorisation, file formats).
The model is a shallow embedding: every Python function is a total Gallina function mirroring
the source branch by branch; exceptions are values.  Properties are listed in
`properties.jsonl`; `MANIFEST.json` maps each to theorem names.

## Modelling conventions

* **Names** (objects, attributes): Python hashables used by the library, modelled as
  `name := NStr string | NInt Z`.  `str` is the identity on strings and decimal printing on ints.
  Floats, bools-as-names (`True == 1`) and user classes are outside the model.
* **Sets** are std++ `gset name`.  Wherever the code iterates over a set (or pops from it), the
  order is an oracle: theorems are quantified over every enumeration of the set.
* **Lists** given by the caller are arbitrary lists.  **Dicts** are finite maps, or
  insertion-ordered association lists where the order is observable.
* **Exceptions**: `res A := Ok a | Err e`.  Mutating methods return the state *and* the result, so
  the state left behind by a failing call is explicit.
* **numpy**: a boolean 2-D array is a list of rows.  The shape of an array without rows is kept
  separately (`(0,)` versus `(0,k)`) because indexing errors depend on it.  `np.array(t, dtype=bool)` of a ragged table
  raises `ValueError` (numpy >= 1.24).
* **Loops** that are not structurally recursive take fuel; running out of fuel is a distinct error and theorems
  state termination explicitly (for all large enough fuel the result is not out-of-fuel).
* **eval, files, parsers**: oracles / lists of characters or lines.
* Fidelities, gains and stability/separation are exact rationals (`Q`) in `FilterModel.v` and `FactorModel.v`; `FloatModel.v`
  repeats them with IEEE binary64 numbers (`spec_float` of the standard library; Python's `int / int` rounds the exact
  quotient once, to nearest, ties to even).  The probability index is over the standard library's real numbers.
* Where the library's behaviour contradicts its documentation, the actual behaviour is modelled and the
  natural expectation is refuted by a witness (`..._refuted`) or the universal failure is proved.

## Layers (rocq/theories)

| file | content |
|---|---|
| `Py.v` | names, exceptions, result monad, list/dict/set helpers shared by the models |
| `Spec.v` | model-independent specification: cross tables as relations, derivation, concepts, implications, closure, pseudo-intents, covers |
| `*Model.v` | transcription of the Python code with file/line citations (no proofs) |
| other files | proofs |
| `Properties_*.v` | final theorems only, each `exact lemma` + `Print Assumptions`, with non-vacuity examples |

## Trusted base

* Coq 8.16.1's kernel (including `vm_compute`).
* Axioms, as `Print Assumptions` lists them under each theorem:

  | theorems | Print Assumptions |
  |---|---|
  | `C40_probability`, `C40_no_objects`, and the theorems of C108-C111 except `C108_bound_refuted` and `C108_stability_one_refuted`, and `C140_extent_size`, `C140_intent_size`, `C141_thresholds`, `C141_one`, `C145_filtered` | `ClassicalDedekindReals.sig_not_dec`, `ClassicalDedekindReals.sig_forall_dec`, `FunctionalExtensionality.functional_extensionality_dep`, `Classical_Prop.classic` (standard library, used by its real numbers) |
  | all others | Closed under the global context |

  `coqchk` also lists the implementation symbols of sealed standard library modules
  (`Rdefinitions.RbaseSymbolsImpl.*`, `RinvImpl.*`, `ssrunder.Under_rel.*`) when these libraries are loaded; they
  are not axioms of ours and only C40, C108-C111, C140, C141 and C145 depend on the former.  Flocq is used in the proofs of C108-C111, C140, C141 and C145; it has
  no axioms of its own.
* The reading of the Python source embodied in the `*Model.v` files, and the conventions above.

## What is modelled and what is not

| file in /repo/fca | model | not modelled |
|---|---|---|
| `context.py` | `ContextModel.v` (values), `HeapModel.v` (references, in-place changes), `MemoModel.v`, `WrapModel.v`, `WrapAiModel.v` (the memo wrappers of `basis_computation`), `RandomModel.v`, `MsgModel.v` (log and error messages), `SeqModel.v` (`len`, positions, iteration) | exceptions that are never raised; the one-line properties that call an algorithm (`concepts`, `concept_lattice`, ...), whose algorithms are modelled in their own files |
| `concept.py`, `concept_system.py`, `concept_lattice.py`, `algorithms/norris.py` | `LatticeModel.v`, `GenModel.v` (suspended generator), `ShowModel.v` (printing, `len`, `in`, `index`, positions), `SeqModel.v` (iteration), `LatAliasModel.v` (changes of the lists and sets handed out) | printing of names with quotes, backslashes or other than printable ASCII characters, and of `meta`; slices; changes of the sets inside a concept |
| `algorithms/closure_operators.py` | `ClosureModel.v` | - |
| `algorithms/dg_basis.py` | `DgModel.v`, `CallModel.v` (callbacks that keep state), `PartialModel.v`, `GenModel.v` (suspended generator of `dg_basis_iter_simple`) | log messages |
| `algorithms/aibasis.py` | `AiModel.v`, `LexModel.v` | `is_concept`, `timeit` (unused) |
| `algorithms/implication_covers.py` | `CoverModel.v`, `IncrModel.v` (lines printed) | - |
| `implication.py` | `ClosureModel.v`, `ImpStrModel.v` | - |
| `algorithms/exploration.py`, `exploration_/exploration.py`, `exploration2/exploration.py` | `ExplModel.v`, `ExploreModel.v` (loops with an expert), `PExploreModel.v` (over partial contexts), `ShareModel.v` (several databases sharing contexts and lists) | - |
| `exploration_/explorationtest.py`, `exploration_/examples/bi_unars.py`, `exploration2/examples/numbers.py`, `exploration2/explorationtest.py` | `ExploreModel.v`, `BiUnarModel.v` | prompts on the terminal, except the parsing of answers |
| `algorithms/patterns.py` | `PatternModel.v`, `GenModel.v` (suspended generators) | `iterate_new_objects` (yields what the expert returns) |
| `algorithms/factors.py` | `FactorModel.v` (exact), `FloatModel.v` (floats), `GenModel.v` (suspended generators of `algorithm2` and `algorithm2_w_condition`) | floating point rounding in `algorithm2_weighted` |
| `algorithms/filtering/` | `FilterModel.v` (exact), `FloatModel.v` (floats), `ProbModel.v` | floating point rounding in `compute_probability`; the lists `get_compute_functions`, `get_modes` |
| `mvcontext.py`, `scale.py`, `algorithms/scaling.py` | `MvModel.v` | `eval` is an oracle; `__len__` |
| `partial_context.py`, `compare_context.py` | `PartialModel.v` | - |
| `readwrite/` | `CxtFileModel.v`, `FileModel.v`, `DotModel.v`, `StrModel.v` | platform line ends and encodings; the inner handlers of the xml reader (the functions around them always fail, C73) |

## Plan per property

| property | title | modelled / proved how |
|---|---|---|
| C01 | Constructor reproduces its input | `mk_context` transcribes `__init__`; direct case analysis. |
| C02 | Duplicate names are disambiguated only when no generated name clashes | renaming loop as a fold over positions; induction with an invariant on the processed prefix; witness by vm_compute. |
| C03 | Every history keeps the context consistent | transition system over an operation type; invariant by induction on the history. |
| C04 | Mutators change exactly what they say | per-operation specification of the resulting names and cells. |
| C05 | Failing mutators are atomic, except delete_attributes with a repeated name | state returned with the error; case analysis; witness for delete_attributes. |
| C06 | Derivation operators are exact | index level functions related to the relation `I c g m`; both implementations. |
| C07 | Derivation is a Galois connection and closures are closures | Galois laws from C06 on the relational specification. |
| C08 | associative_aclosure counts supports | Counter as a count over the concatenated index lists. |
| C09 | transpose swaps roles and is an involution | table transposition, pointwise. |
| C10 | Subcontext extraction keeps exactly the selected part | pointwise. |
| C11 | Context equality means same relation, up to order, for collision-free names | repr as string concatenation, injectivity under separator-freeness; permutation branch pointwise; witnesses. |
| C12 | Context product is the boolean matrix product | boolean matrix product pointwise. |
| C13 | clarify_objects removes exactly duplicate rows | dict keyed by rows. |
| C14 | reduce_objects preserves all closures (up to 63 attributes) | rows as bit patterns (Z, with the int64 wrap explicit); removal loop invariant: removed rows are intersections of kept rows. |
| C15 | reduce_objects may leave reducible objects and fails beyond 64 attributes | witnesses by vm_compute; irreducibility under the no-collision hypothesis. |
| C16 | reduce_attributes preserves all object closures | C14 through transposition. |
| C17 | complementary negates; compound never succeeds | pointwise; universal error. |
| C18 | remove_empty_objects removes exactly the empty rows | loop of deletions, induction. |
| C19 | object_attribute_pairs lists the incidence relation | pointwise. |
| C20 | simple_closure is the least closed superset | loop with measure = number of unused implications; least fixpoint. |
| C21 | lin_closure is the least closed superset when implications are distinct | counter invariant of LinClosure over every pop order; witness for duplicates. |
| C22 | closure with prefix check | as C20 with the prefix test. |
| C23 | compute_dg_basis terminates and returns the Duquenne-Guigues basis | NextClosure loop: invariant over lectic order, termination by lectic rank, for arbitrary orders. |
| C24 | The basis is sound, complete and irredundant | from C23 by well-founded induction on set size. |
| C25 | The basis has minimum cardinality | injection from pseudo-intents into any complete list. |
| C26 | Relative basis completes the background knowledge | C23 relative to a background. |
| C27 | The iterator variant yields the same basis | generator as step function; equality of traces. |
| C28 | The cond filter never admits an unsound implication | weaker loop invariant. |
| C29 | object_implications always fails on a context with objects | direct computation for arbitrary contexts. |
| C30 | Intents and extents read back the current table unless a basis computation failed | state machine with installable memo tables; invariant by induction over histories; witness for staleness. |
| C31 | norris finds every formal concept exactly once | loop invariant: after i objects the list holds exactly the concepts of the first i objects. |
| C32 | compute_covering_relation is the cover relation | direct. |
| C33 | ConceptLattice exposes the lattice order | from C31 and C32. |
| C34 | ConceptSystem parents cache never goes stale | state machine with dirty flag, induction over histories. |
| C35 | iterative_norris yields concepts with provisional extents | trace of yields with the snapshot of the extent; invariant of C31; witness. |
| C36 | compute_istability is intensional stability | worklist loop over any order; counting of subsets by closure partition. |
| C37 | compute_estability is extensional stability | dual of C36. |
| C38 | compute_separation_index is the separation index | counting. |
| C39 | Extent and intent size indices | direct. |
| C40 | compute_probability matches the independence model | standard library reals; the loop equals the sum termwise, the binomial theorem covers intents with attributes that never occur. |
| C41 | filter_concepts works only in mode 'value' | direct, order-oracle. |
| C42 | algorithm2 factors the context exactly | greedy loop; potential = uncovered crosses. |
| C43 | algorithm2 reaches the requested fidelity | as C42 with rational arithmetic. |
| C44 | make_factor_cxts composes to the union of the rectangles | pointwise product of membership tables. |
| C45 | algorithm2_weighted always fails | first iteration analysis. |
| C46 | algorithm2_w_condition yields only admissible concepts, never all crosses | loop invariant and potential. |
| C47 | Implication equality and respect are semantic | set reasoning. |
| C48 | str2imp inverts repr for non-empty sides | string split/join lemmas. |
| C49 | Implication cover is complete, direct and exactly the unsubsumed implications | induction over the objects; the list after each object is the set of subsumption-maximal implications of the objects seen. |
| C50 | minimize keeps the logical content and leaves no redundancy | implication objects live in a heap (the code changes premises in place); loop invariant: same models, processed premises closed under the rest. |
| C51 | attribute-incremental basis | `AiModel`: the round of `update_preclosed` with its six lists, `list.sort` as an arbitrary rearrangement of the list (and CPython's binary insertion sort for the refutation). Invariant of a round over the first i attributes (all intents present, implications exact, complete, premises distinct); under a topological sort additionally no premise misses the conclusion of a smaller one, which forces the pseudo-intents. |
| C52 | cxt files round trip | writer and reader over characters and lines, `eval` an arbitrary function of the position; round trip by induction over the lines. |
| C53 | uread_cxt always fails | direct. |
| C54 | read_txt_with_names parses the documented format unless an object is called 0 or 1 | transcription of the state machine of csv.reader; induction over fields and records. |
| C55 | Graph export labels each object and attribute once | from C31. |
| C56 | BasicExploration keeps confirmed attribute implications valid | `ExplModel`: instance variables as a record, one constructor per public method; histories (`breach`) are inductive, exceptions included. Invariant: context well formed, open implications valid and within, open and confirmed complete. The sort orders inside each basis computation are arbitrary. Names that cannot be compared make the basis computation raise; the state after that is not modelled (`Unmodelled`), and the theorems ask for comparable names. |
| C57 | Counter-examples refute the implication | from the invariants of C56 and C58 and the effect lemmas of `add_object_with_intent` and `add_attribute_with_extent`. |
| C58 | Attribute exploration is complete when no question is open | invariant `dinv` over histories of the database (`dreach`); open implications are those of `compute_dg_basis` relative to the background (C23, C24, C26). |
| C59 | ExplorationDB deletions and attribute edits always fail | direct; reachable states qualify by the invariant of C58. |
| C60 | Sessions of exploration2 share state | state machine with shared state, invariant on the rows added; witness. |
| C61 | Pattern exploration admits only patterns that occur, but does not protect them | state machine over `pexp`, invariant `pinv` on reachable states, exact cases of every method; witnesses. |
| C62 | ManyValuedContext keeps only truth values | cells of the constructed table for an arbitrary value type and truth function; extraction by columns, rows and values; witness that 2 is not found. |
| C63 | scale_mvcontext derives exactly the scaled incidence | fold over scales and their attributes with an oracle for `eval`; injectivity of `a:s` without colons; witness of a clash. |
| C64 | OrdinalScale is the order relation | pointwise over `seqZ`, injectivity of decimal printing. |
| C65 | PartialContext cannot be built from non-empty tables | case analysis of `subseteq_table`; invariant over all reachable instances. |
| C66 | Object implications with an explicit background | transposition and C23; state machine with the cached basis; witness for staleness. |
| C67 | compute_index makes the lattice unusable as a dictionary | dictionary lookup with stored hashes, arbitrary hash function. |
| C68 | Random contexts have the requested shape | pointwise, the random numbers are an arbitrary sequence. |
| C69 | is_redundant decides entailment | from C20. |
| C70 | Partial examples and negative implications | set reasoning with explicit best and worst completions. |
| C71 | UnitImplication has a one-element conclusion or fails | direct. |
| C72 | write_fimi lists the intents | direct; splitting a line at blanks gives the names back. |
| C73 | Binary readers and the xml functions always fail | direct. |
| C74 | Graph export draws the line diagram | from C31, C32 and C55, induction over the list of concepts. |
| C75 | Editing an example under a used name is not atomic | effect of `set_object_intent` on the invariant of C58; witness. |
| C76 | Generated patterns are concepts absent from the negatives, up to reduction | reduction theorems (C14, C16) and C31 restricted to the reduced context; witness. |
| C77 | Unconfirmed patterns by frequency | model of `sorted` by insertion: permutation, order, stability; `TypeError` of the default generator. |
| C78 | Ordinal scaling gives the order within the range | C63 and C64 combined; witness outside the range. |
| C79 | Nominal scales split an attribute into itself and its negation | set of column values under any iteration order; C63. |
| C80 | Completion computes what the implications force and exclude | per object from C20 (least closed superset), loop with untouched other rows; stated for any consistent pair of contexts because of C65. |
| C81 | The closure of a partial context collects what no example refutes | derivation in the certain, then in the possible context; witness against idempotence. |
| C82 | The basis of a partial context is sound but not complete | the invariant of C23 for an operator that is only extensive; the one place where idempotence was used gives the exceptional sets; witness. |
| C83 | Printed examples can be read back | injectivity character by character. |
| C84 | Exploration with a truthful expert ends with exactly the expert's knowledge | loop with fuel; invariant: rows closed, confirmed implications an initial segment of the relative basis; measure: models of the background plus sets not closed in the context; set orders and answers arbitrary. |
| C85 | The interactive session loop ends with exactly the person's knowledge | the same invariant and measure over the session state. |
| C86 | Number predicates of the example exploration | divisibility from the standard library, induction over the loop. |
| C87 | Confirming the same implication twice can end an exploration early | witness computed in the model. |
| C88 | The intent of a bi-unary algebra is its set of valid equalities | words acting on points; tuples of values compared pointwise. |
| C89 | Mirrored sets of equalities | the 21 equalities are checked by computation, the sets by the involution on equalities; scan by induction. |
| C90 | The background implications say that equality is an equivalence | both directions with the relation read off the set. |
| C91 | Algebras are enumerated completely and searched correctly | induction on the product; search loop. |
| C92 | Partial counterexamples decide the implication | membership outside and inside the relevant equalities. |
| C93 | Exploration over a partial context ends with exactly the expert's knowledge | the interrupted lectic walk with a condition is analysed once (`DgCond.v`); a symmetric base and a condition meeting every orbit leave nothing unasked; measure: models of the base plus undetermined cells; the open list is stale but never empty too early. Any well-formed instance state, since the constructor cannot build one with attributes (C65); attribute names must be comparable, which the `Equality` objects of bi_unars.py are not. |
| C94 | Partial examples in an exploration | case analysis of the guarded update; between two bounds a set respecting an implication exists iff the pair passes the check; witness for joint unsatisfiability. |
| C95 | After an answer over a partial context the next question can already be settled | computation with a concrete partial context; the positive half unfolds one confirmation. |
| C96 | Minimizing a cover gives the Duquenne-Guigues basis | invariant of `minimize` (premises closed under the other implications, C50) plus full conclusions (C49, C51) force the pseudo-closed sets, which are unique (C23). |
| C97 | Contexts share nothing with their arguments or with each other | second model with a heap of lists and arrays and instances holding references (`HeapModel.v`); refinement of a machine of values (`HeapSpec.v`) by a separation invariant and a frame lemma per mutator. |
| C98 | Every context of every program is consistent; deep copies are equal | invariant over programs of the value machine, transported by C97. |
| C99 | The lists and the table handed out are neither copies nor views | computation of a witness; `__init__` ends every mutator and allocates new lists and a new array. |
| C100 | The intents are the sets that respect the basis | C31 and C24: a set is closed in the context exactly when it respects a sound and complete list of implications. |
| C101 | The closure under the basis is the closure in the context | C24 makes the context's closure the least superset respecting the basis; C20 and C21 compute the same set (the premises of the basis are distinct). |
| C102 | The lattice of the transposed context is the lattice upside down | C33 for both contexts; derivation in the transposed context is the other derivation. |
| C103 | The indices under transposition | C36–C39 for both contexts; cardinalities compared through a permutation of the subsets. |
| C104 | Clarifying and reducing keep the lattice and the implications | C13, C14 and C16 give equal closures; the basis is determined by the attribute order and the closure operator (uniqueness of the exact list, C23). |
| C105 | write_mv_txt writes what a text reader can read, but read_mv_txt cannot | text computed by induction over the rows; the csv machine of C54 reads the lines of plain fields back. |
| C106 | Exploration databases over separate contexts and lists are independent | machine with cells for contexts and lists and databases referring to them (`ShareModel.v`); frame lemma per command, induction over the program. |
| C107 | Exploration databases keep the context and the list they are given | the same machine; invariant over all histories of a team (C58 without the open list); stale questions and separate lists by witnesses. |
| C108 | The index values are the nearest floats of the exact indices | `FloatModel.v` simulates the exact loops step by step; division by Flocq's proof about `SFdiv` for unnormalised numbers; rounding error below 1 at most 2^-54. |
| C109 | filter_concepts by a float index decides as exact arithmetic would | C108: quotients differing by more than 2^-53 stay apart. |
| C110 | algorithm2 with a float fidelity | for each float and number of crosses there is a rational deciding the same way; simulation of C42/C43. |
| C111 | algorithm2_w_condition with a float fidelity | as C110 over C46. |
| C112 | Basis generators resumed after changes of the context | a generator is a state and a step function reading the context of that call; invariant: the values so far are lectically sorted and respected by the current set. |
| C113 | Reading the basis while the context grows towards another | simulation: closures in the contexts seen contain those of the final one, and agree with them where an implication was returned. Refuted after a counterexample. |
| C114 | Reading concepts while objects are added | the state of the generator determines the rest of the run of C35 on the rows read first. Refuted for deletions. |
| C115 | Reading factors while the context changes | the inner loop of C42 for a set of crosses not contained in the relation. |
| C116 | Reading unexplained examples while exploring | induction over the calls; confirmed patterns and rows are kept. Refuted for added examples. |
| C117 | Noting implications in the background while reading | the closures taken in a call depend only on the models of background and values; call by call equal to the run with the unchanged list. |
| C118 | Reading the basis while objects and background implications are added | for a fixed set respecting everything returned and noted but not closed in the final context, the generator never passes it and so never ends. Refuted for a removed background implication. |
| C119 | Reading patterns while exploring | negative examples only add occurrences, so each concept of the fixed list is tested at some call and stays refuted afterwards; induction over the calls. Refuted for added positive examples. |
| C120 | Reading factors of required size while the context changes | the inner loop specified for pairs that need not be crosses any more; invariants of the pairs left, induction over the calls; equal to `algorithm2_w_condition` (C46) for a constant context. Refuted for removed crosses and attributes. |
| C121 | Contexts that compare equal are interchangeable | equality gives the same abstract context (C11), and concepts, pseudo-intents, covers and indices are specified by the abstract context alone (C23, C31, C33, C36-C39); conversely the concepts determine objects, attributes and incidence. |
| C122 | Renaming renames the results | derivation commutes with an injective renaming, the lectic order depends on positions only; uniqueness of the pseudo-intents. Refuted for a name in use. |
| C123 | The effect of a new object or attribute on concepts and implications | closure in the enlarged context computed by cases; the basis theorem by uniqueness of the basis for one closure operator and by C100 for the converse; attributes by transposition. |
| C124 | The effect of deletions on concepts and implications | derivation in the smaller context computed; objects by transposition and by the addition law read backwards. |
| C125 | A BasicExploration answered truthfully reaches the domain | invariant over histories: rows closed in the domain, open implications exact in the context, confirmed ones exact in the domain; a different set per answer gives the bound; completeness of open and confirmed together gives the end. Canonicity refuted. |
| C126 | A BasicExploration answered truthfully about objects reaches the domain | the invariant of C125 over the transposed context. |
| C127 | The callbacks of the basis computation are called once per set, in lectic order | a second model of the loop threads a state through `aclose` and `cond`; induction over the remaining lectic rank gives the list of sets put to them and a stateless `cond` with the same answers; with agreement it meets the model of C23. |
| C128 | The lectic comparison orders sets by name, and sorting with it makes the incremental basis canonical | the first element of the sorted difference is characterised and matched with the lectic order over the sorted names; an invariant shows that only sets of attributes are sorted, so that C51 applies to any sort agreeing with the comparison on these. |
| C129 | Stability under added and deleted objects and attributes | counting of the generating subsets in a context and its restriction to some objects; together with C36, C37 and the effects of the changes (C04); attributes through the dual context. |
| C130 | laws of the context product | from the incidence of a product (C12) and of a transposed context (C09); a good context is determined by its name lists and incidence (`table_of_incidence`) |
| C131 | numbers of concepts and implications | concepts counted by their intents or extents (injective images into subsets); intents and pseudo-closed sets are disjoint; changes from C123 and C124 |
| C132 | messages of contexts | `MsgModel.v` repeats the renaming loop with its log and models `str.format`; loop invariant over the log, decimal numbers are injective and free of brackets |
| C133 | attribute implications through the wrappers | `WrapModel.v` runs the closures as adaptive reads (C30) inside the decorator; what the getters show is invariant under reads, so the loop with state (C127) equals the stateless one |
| C134 | incremental basis through the wrappers | `WrapAiModel.v` repeats the algorithm as adaptive reads (rows read lazily in `kclosure`); answered by what the getters show it equals `AiModel.v` on that table; invariants of C133 |
| C135 | numbers of steps | `CostModel.v` repeats the loops with counters (erasure to the models of C20, C21, C31); lists shrink in every pass; invariant: counters equal the size and premise occurrences of the attributes taken up |
| C136 | incremental algorithms, printing | both loops are folds over the rows; rows of the larger context are the old rows and the new one; printing as lists of lines in `IncrModel.v`, erased to C49 |
| C137 | concepts and implications of subcontexts | derivations of a context restricted to objects (`ExtractFacts.v`), then C31 and C36; attributes as in C124 |
| C138 | changes that undo each other | effects of the single changes (C04) composed; a context is determined by its names and incidence; induction on the rows added |
| C139 | changes in different orders | effects of the single changes (C04) and of transposing (C09) composed; a context is determined by its names and incidence |
| C140 | the concepts kept by extent or intent size | a filter by size is an up-set or down-set (floats keep the order of the sizes, C108), hence convex; covers in a convex set of concepts are the covers in the lattice |
| C141 | filtering with different thresholds | the float order is transitive; all indices are rounded quotients between 0 and 1; C109 for the threshold 1 |
| C142 | suprema, infima, the table and the basis read from the concepts | C31 with unions of extents and intents; object and attribute concepts; closures are determined by the intents, and the basis by the closures |
| C143 | printing concepts, and lattices as containers | a list of names can be read back from its text, whatever follows (quotes end the strings, separators the numbers); one side determines a concept; induction over the list for lines, `index` and positions |
| C144 | contexts and lattices as sequences | positions by cases on the sign; iteration by item access until IndexError, with fuel shown to suffice; C01 for the context made of the rows |
| C145 | top and bottom of systems of concepts | the first member of the filtered list; a member of least intent size exists; the order of concepts; C140 for filtered systems |
| C146 | the order of concepts recovered from parents and children | induction on the difference of the intent sizes: either a cover or something in between; induction over paths for the converse |
| C147 | changes through what lattices and systems hand out | the list and the sets are the stored ones; dictionary update lemmas; `children` reads the parents of every member; the cache of a system is dropped by append and remove |
