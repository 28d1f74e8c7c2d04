{"id": "C01", "title": "Constructor reproduces its input", "statement": "Context(table, objects, attributes) succeeds exactly when the number of rows equals the number of objects and (if there is a row) the rows have one cell per attribute; with pairwise distinct names the new context lists exactly those objects and attributes, in order, and object i has attribute j iff table[i][j] is true. On any dimension mismatch it raises ValueError and builds nothing.", "quantifier": "every table of any size, every list of object names, every list of attribute names", "why_tests_cant": "A test fixes finitely many tables; the claim is about all shapes, including empty ones.", "anchors": ["fca/context.py::Context.__init__"]}
{"id": "C02", "title": "Duplicate names are disambiguated only when no generated name clashes", "statement": "If no input name equals a generated name str(x)_i of a repeated input name x, the names stored by the constructor are pairwise distinct, names that were unique are kept, and the k-th name of a repeated name x is str(x)_k. Without that condition the constructor can leave two objects (attributes) with the same name.", "quantifier": "every list of names (strings and ints, any repetition pattern)", "why_tests_cant": "The failing case needs a name that happens to equal a generated one at an already visited position; random tests do not hit it.", "anchors": ["fca/context.py::Context.__init__"]}
{"id": "C03", "title": "Every history keeps the context consistent", "statement": "After any sequence of constructor, add_object, add_attribute, add_object_with_intent, add_attribute_with_extent, set_object_intent, set_attribute_extent, delete_object, delete_attribute, delete_attributes (distinct names), rename_object and rename_attribute calls - successful or raising - the cross table is rectangular, its dimensions match the name lists, and every name lookup table entry points at a position carrying that name.", "quantifier": "every finite sequence of mutator calls with arbitrary arguments", "why_tests_cant": "Histories are unbounded.", "anchors": ["fca/context.py::Context.add_object", "fca/context.py::Context.delete_attribute", "fca/context.py::Context.rename_object"]}
{"id": "C04", "title": "Mutators change exactly what they say", "statement": "On a context with distinct names: add_object/add_attribute append one row/column with the given cells and change no other cell; set_object_intent / set_attribute_extent replace exactly one row/column; delete_object / delete_attribute / delete_attributes remove exactly the named rows/columns; rename_* changes exactly one name. All other objects, attributes, cells and their order stay as they were.", "quantifier": "every consistent context, every argument", "why_tests_cant": "Frame conditions quantify over all the cells that must not change.", "anchors": ["fca/context.py::Context.add_object", "fca/context.py::Context.set_object_intent", "fca/context.py::Context.delete_object", "fca/context.py::Context.rename_attribute"]}
{"id": "C05", "title": "Failing mutators are atomic, except delete_attributes with a repeated name", "statement": "If add_*, set_*, delete_object, delete_attribute or rename_* raises, the context afterwards is identical to the one before. delete_attributes called with a repeated name breaks this: it can raise ValueError and leave a context whose attribute list no longer matches its table.", "quantifier": "every context and every failing call", "why_tests_cant": "The crash point is inside the call; a test sees only the arguments it tries.", "anchors": ["fca/context.py::Context.delete_attributes", "fca/context.py::Context.set_attribute_extent"]}
{"id": "C06", "title": "Derivation operators are exact", "statement": "Context.oprime(A) is exactly the set of attributes shared by all objects in A, Context.aprime(B) exactly the set of objects having all attributes in B (all attributes / all objects for an empty argument), independent of order and repetition in the argument; an unknown name raises KeyError. The module functions oprime/aprime return the same sets on contexts with at least one object.", "quantifier": "every context with distinct names, every list of objects / attributes", "why_tests_cant": "Set equality for all inputs.", "anchors": ["fca/context.py::Context.oprime", "fca/context.py::Context.aprime", "fca/algorithms/closure_operators.py::oprime", "fca/algorithms/closure_operators.py::aprime"]}
{"id": "C07", "title": "Derivation is a Galois connection and closures are closures", "statement": "A is contained in aprime(B) iff B is contained in oprime(A); aclosure and oclosure are extensive, monotone and idempotent, and return exactly the double derivation; module functions aclosure/oclosure return the same set as a sorted list.", "quantifier": "every context with distinct names, all sets of objects and attributes", "why_tests_cant": "Algebraic laws over all pairs of sets.", "anchors": ["fca/context.py::Context.aclosure", "fca/context.py::Context.oclosure", "fca/algorithms/closure_operators.py::aclosure"]}
{"id": "C08", "title": "associative_aclosure counts supports", "statement": "associative_aclosure(B) returns (counts, n) where n is the number of objects having all of B and counts[m] is the number of those objects that also have m; m is in aclosure(B) iff counts[m] equals n.", "quantifier": "every context with distinct names, every attribute set", "why_tests_cant": "The repo test samples one random context; the equivalence must hold in all, including empty extents.", "anchors": ["fca/context.py::Context.associative_aclosure", "fca/context.py::Context.associative_oprime_inds"]}
{"id": "C09", "title": "transpose swaps roles and is an involution", "statement": "In c.transpose() object m has attribute g iff g has m in c, names keep their order, and transposing twice gives back the same names and table, also for contexts with no objects or no attributes.", "quantifier": "every context with distinct names", "why_tests_cant": "Involution for all shapes.", "anchors": ["fca/context.py::Context.transpose"]}
{"id": "C10", "title": "Subcontext extraction keeps exactly the selected part", "statement": "extract_subcontext(names) keeps all objects and exactly the named attributes with their cells; extract_subcontext_filtered_by_attributes keeps exactly the objects having all (mode 'and') or at least one (mode 'or') of the attributes, with all their cells; unknown attribute names raise ValueError.", "quantifier": "every context with distinct names, every list of attribute names", "why_tests_cant": "For all selections.", "anchors": ["fca/context.py::Context.extract_subcontext", "fca/context.py::Context.extract_subcontext_filtered_by_attributes"]}
{"id": "C11", "title": "Context equality means same relation, up to order, for collision-free names", "statement": "For contexts with distinct names, c1 == c2 is true whenever both have the same objects, attributes and incidence in any order; conversely when no name contains a separator used by repr, c1 == c2 implies same objects, attributes and incidence. Names that collide under repr make == return True for different contexts.", "quantifier": "every pair of contexts with distinct names", "why_tests_cant": "Equality must be decided right on all pairs; the repr shortcut only fails on adversarial names.", "anchors": ["fca/context.py::Context.__eq__", "fca/context.py::Context.__repr__"]}
{"id": "C12", "title": "Context product is the boolean matrix product", "statement": "c1 * c2 has the objects of c1 and the attributes of c2, and object g has attribute m iff some factor f is an attribute of g in c1 and has m in c2; if the middle name lists differ MultiplicationException is raised.", "quantifier": "every pair of contexts with at least one object each", "why_tests_cant": "For all matrices.", "anchors": ["fca/context.py::Context.__mul__"]}
{"id": "C13", "title": "clarify_objects removes exactly duplicate rows", "statement": "clarify_objects() returns a context with the same attributes, pairwise different object intents, and exactly the intents that occur in the original; hence every attribute set has the same closure. The original context is unchanged.", "quantifier": "every context with distinct names", "why_tests_cant": "For all contexts.", "anchors": ["fca/context.py::Context.clarify_objects"]}
{"id": "C14", "title": "reduce_objects preserves all closures (up to 63 attributes)", "statement": "For contexts with at most 63 attributes reduce_objects() keeps a sub-list of the objects with their rows such that every attribute set has the same closure as before; an object with all attributes is never removed on account of reducibility.", "quantifier": "every context with distinct names and at most 63 attributes", "why_tests_cant": "For all contexts; the argument is an induction over removals.", "anchors": ["fca/context.py::Context.reduce_objects", "fca/context.py::list2int"]}
{"id": "C15", "title": "reduce_objects may leave reducible objects and fails beyond 64 attributes", "statement": "The index/bit-pattern confusion in reduce_objects can leave an object whose intent is the intersection of other remaining intents; and with more than 64 attributes two objects with different intents can be merged, changing the closures. If no row number collides with a removed bit pattern, the result has no reducible object.", "quantifier": "existence of contexts; and every context without the collision", "why_tests_cant": "Needs a proof of what happens in all non-colliding contexts plus a witness.", "anchors": ["fca/context.py::Context.reduce_objects", "fca/context.py::list2int"]}
{"id": "C16", "title": "reduce_attributes preserves all object closures", "statement": "reduce_attributes() keeps all objects and a sub-list of the attributes such that every object set has the same closure as before (at most 63 objects).", "quantifier": "every context with distinct names and at most 63 objects", "why_tests_cant": "For all contexts.", "anchors": ["fca/context.py::Context.reduce_attributes"]}
{"id": "C17", "title": "complementary negates; compound never succeeds", "statement": "complementary() keeps the objects, prefixes every attribute with 'not ' and negates every cell. compound() raises ValueError on every context with at least one object and one attribute, so the documented compound context is never returned.", "quantifier": "every context with distinct string attribute names", "why_tests_cant": "Universal failure and universal success claims.", "anchors": ["fca/context.py::Context.complementary", "fca/context.py::Context.compound"]}
{"id": "C18", "title": "remove_empty_objects removes exactly the empty rows", "statement": "After remove_empty_objects() exactly the objects with at least one attribute remain, in order, with their cells.", "quantifier": "every context with distinct names", "why_tests_cant": "For all contexts; it is a loop of deletions by name.", "anchors": ["fca/context.py::Context.remove_empty_objects"]}
{"id": "C19", "title": "object_attribute_pairs lists the incidence relation", "statement": "get_object_attribute_pairs returns exactly the pairs (g, m) with g having m, each once; get_value(g, m) is the cell of g and m.", "quantifier": "every context with distinct names", "why_tests_cant": "For all contexts.", "anchors": ["fca/context.py::Context.get_object_attribute_pairs", "fca/context.py::Context.get_value"]}
{"id": "C20", "title": "simple_closure is the least closed superset", "statement": "simple_closure(s, imps) terminates and returns the least superset of s that respects every implication, for any implication list (repetitions and equal implications included); s is not modified.", "quantifier": "every attribute set, every list of implications", "why_tests_cant": "Least fixpoint for all inputs.", "anchors": ["fca/algorithms/closure_operators.py::simple_closure"]}
{"id": "C21", "title": "lin_closure is the least closed superset when implications are distinct", "statement": "For pairwise different implications lin_closure(s, imps) terminates and returns the same set as simple_closure whatever the iteration order of the sets involved; with repeated implications it can return a set that contains attributes not implied by s.", "quantifier": "every attribute set, every duplicate-free list of implications, every set iteration order", "why_tests_cant": "Iteration orders cannot be enumerated by tests.", "anchors": ["fca/algorithms/closure_operators.py::lin_closure"]}
{"id": "C22", "title": "closure with prefix check", "statement": "closure(current, base, imps, k) returns (True, C) with C the least closed superset of current when C agrees with current on the first k base attributes, and (False, set()) otherwise.", "quantifier": "every attribute set, base list, implication list and prefix length", "why_tests_cant": "For all inputs.", "anchors": ["fca/algorithms/closure_operators.py::closure"]}
{"id": "C23", "title": "compute_dg_basis terminates and returns the Duquenne-Guigues basis", "statement": "For every context compute_dg_basis and compute_dg_basis_simple terminate and return implications P => P'' whose premises are exactly the pseudo-intents: the sets P that are not closed and contain the closure of every premise properly contained in P; each appears once, in lectic order, for any set iteration order.", "quantifier": "every context with distinct, mutually comparable names and any iteration order", "why_tests_cant": "Termination and exactness over an exponential search space.", "anchors": ["fca/algorithms/dg_basis.py::compute_dg_basis", "fca/algorithms/dg_basis.py::compute_dg_basis_simple", "fca/algorithms/dg_basis.py::generalized_compute_dg_basis"]}
{"id": "C24", "title": "The basis is sound, complete and irredundant", "statement": "Every implication returned holds in the context; every implication that holds in the context follows from the returned ones; no returned implication follows from the others.", "quantifier": "every context, every implication over its attributes", "why_tests_cant": "Quantifies over all implications of all contexts.", "anchors": ["fca/algorithms/dg_basis.py::generalized_compute_dg_basis"]}
{"id": "C25", "title": "The basis has minimum cardinality", "statement": "No sound and complete set of implications for the context has fewer elements than the list returned by compute_dg_basis.", "quantifier": "every context and every other sound and complete implication list", "why_tests_cant": "Compares with all possible bases.", "anchors": ["fca/algorithms/dg_basis.py::compute_dg_basis"]}
{"id": "C26", "title": "Relative basis completes the background knowledge", "statement": "With background implications that hold in the context, compute_dg_basis(cxt, imp_basis=B) terminates and returns valid implications such that B together with them is complete, and none of them follows from the others together with B.", "quantifier": "every context, every list of background implications valid in it (distinct for the lin_closure variant)", "why_tests_cant": "All backgrounds.", "anchors": ["fca/algorithms/dg_basis.py::compute_dg_basis", "fca/algorithms/dg_basis.py::generalized_compute_dg_basis"]}
{"id": "C27", "title": "The iterator variant yields the same basis", "statement": "dg_basis_iter_simple yields, in the same order, exactly the implications compute_dg_basis_simple returns, and every prefix yielded before the consumer stops is a prefix of that list.", "quantifier": "every context, background list and condition; every number of next() calls", "why_tests_cant": "All prefixes of all runs.", "anchors": ["fca/algorithms/dg_basis.py::dg_basis_iter_simple", "fca/algorithms/dg_basis.py::generalized_dg_basis_iter"]}
{"id": "C28", "title": "The cond filter never admits an unsound implication", "statement": "With an arbitrary cond and arbitrary background the loop still terminates and every returned implication is P => P'' with P not closed and cond(P) true, with pairwise different premises.", "quantifier": "every predicate cond, every context, every background list over its attributes", "why_tests_cant": "cond is an arbitrary function.", "anchors": ["fca/algorithms/dg_basis.py::generalized_compute_dg_basis"]}
{"id": "C29", "title": "object_implications always fails on a context with objects", "statement": "get_object_implications() with default arguments raises TypeError on every context with at least one object (imp_basis=None is concatenated to a list), and leaves the memoising wrappers installed on the context.", "quantifier": "every context with at least one object", "why_tests_cant": "Universal failure; the residue affects later calls.", "anchors": ["fca/context.py::Context.get_object_implications", "fca/context.py::basis_computation", "fca/algorithms/dg_basis.py::generalized_compute_dg_basis"]}
{"id": "C30", "title": "Intents and extents read back the current table unless a basis computation failed", "statement": "After any history of mutators and successful basis computations get_object_intent / get_attribute_extent return the values of the current table. After a basis computation that raised, a later read followed by an update and a read can return the value before the update.", "quantifier": "every finite history of mutators, reads and basis computations", "why_tests_cant": "The stale read needs a history of four specific steps.", "anchors": ["fca/context.py::basis_computation", "fca/context.py::memo", "fca/context.py::Context.get_object_intent_by_index"]}
{"id": "C31", "title": "norris finds every formal concept exactly once", "statement": "norris(context, False) returns exactly the formal concepts of the context - pairs (A, B) with A' = B and B' = A - each exactly once.", "quantifier": "every context with distinct object names", "why_tests_cant": "All contexts; the number of concepts is exponential.", "anchors": ["fca/algorithms/norris.py::norris", "fca/algorithms/norris.py::iterative_norris"]}
{"id": "C32", "title": "compute_covering_relation is the cover relation", "statement": "For every list of concepts the dictionary returned maps each concept to exactly the concepts with a properly smaller intent and no concept of the list strictly between.", "quantifier": "every list of concepts", "why_tests_cant": "All lists.", "anchors": ["fca/algorithms/norris.py::compute_covering_relation", "fca/concept_system.py::ConceptSystem.compute_covering_relation"]}
{"id": "C33", "title": "ConceptLattice exposes the lattice order", "statement": "For every context ConceptLattice(c).top_concept is (G, G'), bottom_concept is (M', M), parents(x) are the upper covers and children(x) the lower covers of x, and filter/ideal are the strictly more general / strictly more specific concepts.", "quantifier": "every context with distinct names", "why_tests_cant": "All contexts.", "anchors": ["fca/concept_lattice.py::ConceptLattice"]}
{"id": "C34", "title": "ConceptSystem parents cache never goes stale", "statement": "After any sequence of append, remove, parents and children calls, parents(x) returns the cover relation of the concepts currently in the system.", "quantifier": "every finite sequence of operations on a ConceptSystem", "why_tests_cant": "Cache invalidation is a property of histories.", "anchors": ["fca/concept_system.py::ConceptSystem.append", "fca/concept_system.py::ConceptSystem.parents"]}
{"id": "C35", "title": "iterative_norris yields concepts with provisional extents", "statement": "Every concept handed out by iterative_norris has, at the moment it is yielded, an intent that is final, and an extent which is exactly the set of already scanned objects having that intent; it can be a proper subset of the final extent, so a consumer that uses concepts as they are discovered may see pairs that are not formal concepts.", "quantifier": "every context, every point at which the consumer looks", "why_tests_cant": "Depends on the moment of observation.", "anchors": ["fca/algorithms/norris.py::iterative_norris"]}
{"id": "C36", "title": "compute_istability is intensional stability", "statement": "For every context compute_istability(ConceptLattice(c)) assigns to each concept (A, B) the number of subsets of A whose derivation is B divided by 2^|A|, for every order in which the work set is popped; it never raises.", "quantifier": "every context, every pop order", "why_tests_cant": "Exponential count compared for all contexts and schedules.", "anchors": ["fca/algorithms/filtering/stability.py::compute_istability"]}
{"id": "C37", "title": "compute_estability is extensional stability", "statement": "For every context compute_estability(ConceptLattice(c)) assigns to each concept (A, B) the number of subsets of B whose derivation is A divided by 2^|B|, for every pop order; it never raises.", "quantifier": "every context, every pop order", "why_tests_cant": "As above.", "anchors": ["fca/algorithms/filtering/stability.py::compute_estability"]}
{"id": "C38", "title": "compute_separation_index is the separation index", "statement": "For each concept (A, B) with A and B non-empty the index is |A|*|B| divided by the number of crosses in the rows of A and columns of B, and 1 when A or B is empty; the division never fails. This needs an object: on a newly built context with attributes and no objects IndexError is raised.", "quantifier": "every context and every concept of it", "why_tests_cant": "Counting identity for all contexts.", "anchors": ["fca/algorithms/filtering/separation.py::compute_separation_index"]}
{"id": "C39", "title": "Extent and intent size indices", "statement": "compute_extent_size / compute_intent_size give |A|/|G| and |B|/|M| for each concept when the context has objects / attributes, and raise ZeroDivisionError otherwise.", "quantifier": "every context", "why_tests_cant": "All contexts.", "anchors": ["fca/algorithms/filtering/extentsize.py::compute_extent_size", "fca/algorithms/filtering/intentsize.py::compute_intent_size"]}
{"id": "C40", "title": "compute_probability matches the independence model", "statement": "For every concept (A, B) of a context with n > 0 objects the value is the sum over k of C(n,k) p_B^k (1-p_B)^(n-k) prod_{m not in B}(1-p_m^k) in real arithmetic, where p_m is the fraction of objects having m and p_B the product of the p_m for m in B - although the code skips attributes without objects, takes logarithms and returns early; with attributes but no objects it raises ZeroDivisionError.", "quantifier": "every context with objects and each of its concepts", "why_tests_cant": "Closed formula for all contexts.", "anchors": ["fca/algorithms/filtering/probability.py::compute_probability"]}
{"id": "C41", "title": "filter_concepts works only in mode 'value'", "statement": "filter_concepts(lattice, f, 'value', v) returns exactly the concepts with index at least v, in index order; modes 'part' and 'abs' raise TypeError for every non-empty index.", "quantifier": "every lattice, index function and threshold", "why_tests_cant": "Universal failure / universal success.", "anchors": ["fca/algorithms/filtering/filter.py::filter_concepts"]}
{"id": "C42", "title": "algorithm2 factors the context exactly", "statement": "On every context with at least one cross algorithm2(cxt) terminates without the 'stuck' assertion, for every tie-breaking order; every factor is a formal concept; a pair is a cross exactly when some factor contains it; each factor covers a cross no earlier factor covers, the number yielded with it is exactly the fraction of crosses newly covered, and extending its intent by any further attribute would not cover more of them; the numbers add up to 1. Without crosses it raises ZeroDivisionError.", "quantifier": "every context, every set iteration order", "why_tests_cant": "Termination and coverage under every tie-break.", "anchors": ["fca/algorithms/factors.py::algorithm2", "fca/algorithms/factors.py::_oplus"]}
{"id": "C43", "title": "algorithm2 reaches the requested fidelity", "statement": "The numbers yielded add up to the covered fraction of the crosses; before each factor that fraction was below fidelity; for fidelity <= 1 the generator ends normally with at least the fraction fidelity covered; for fidelity > 1 it covers every cross and then raises AssertionError.", "quantifier": "every context with a cross, every rational fidelity, every order", "why_tests_cant": "All thresholds.", "anchors": ["fca/algorithms/factors.py::algorithm2"]}
{"id": "C44", "title": "make_factor_cxts composes to the union of the rectangles", "statement": "The two contexts built from a list of factors always exist; their objects/attributes are exactly those occurring in factors; the i-th factor is named fi and is related to exactly its extent and intent; their product has an object-attribute pair exactly when some factor contains both, for every iteration order, and raises ValueError when no factor has an object; combined with algorithm2 the product has the crosses of the original context.", "quantifier": "every list of concepts, every set iteration order", "why_tests_cant": "All factor lists.", "anchors": ["fca/algorithms/factors.py::make_factor_cxts", "fca/context.py::Context.__mul__"]}
{"id": "C45", "title": "algorithm2_weighted always fails", "statement": "On every context with at least one cross whose object and attribute names are disjoint, algorithm2_weighted raises AssertionError before yielding any factor when fidelity is positive (it derives an attribute set with the object operator), and yields nothing otherwise. With shared names it may succeed.", "quantifier": "every such context, every iteration order, every positive fidelity", "why_tests_cant": "Universal failure.", "anchors": ["fca/algorithms/factors.py::algorithm2_weighted"]}
{"id": "C46", "title": "algorithm2_w_condition yields only admissible concepts, never all crosses", "statement": "algorithm2_w_condition always ends, either normally or with the 'Algorithm stuck' exception, never with the latter if min_atts_and_objs <= 1 and objs_ge_atts is off; every factor it yields is a formal concept with at least min_atts_and_objs objects and attributes (and at least as many objects as attributes if requested); with repetitions each factor covers a new cross, without them its intent has an attribute in no earlier intent; the factors never cover the whole relation; the coverage reported is an upper bound of the true one, exact with repetitions and trivial conditions. The exception does occur, whether it does depends on the iteration order of a set, and the reported coverage can exceed the true one.", "quantifier": "every context, parameters and iteration orders", "why_tests_cant": "Termination and guarantee for all parameters.", "anchors": ["fca/algorithms/factors.py::algorithm2_w_condition"]}
{"id": "C47", "title": "Implication equality and respect are semantic", "statement": "is_respected(X) is true iff premise not contained in X or conclusion contained in X; imp1 == imp2 iff same premise and same conclusion outside the premise, and then they are respected by the same sets; equal implications have equal hashes.", "quantifier": "every pair of implications, every set", "why_tests_cant": "All sets.", "anchors": ["fca/implication.py::Implication.is_respected", "fca/implication.py::Implication.__eq__", "fca/implication.py::Implication.__hash__"]}
{"id": "C48", "title": "str2imp inverts repr for non-empty sides", "statement": "For implications with non-empty premise and non-empty reduced conclusion whose names are strings without comma, '=>' and surrounding blanks, str2imp(repr(imp)) equals imp. str2imp(s) succeeds exactly when s is a comma-separated list, '=>' and another one, with no further '=>' in either part, and then yields the stripped pieces; otherwise it raises ValueError. An empty premise prints so that it is read back as {''}, and numbers are read back as strings.", "quantifier": "every implication over such names; every string", "why_tests_cant": "All names and all strings.", "anchors": ["fca/implication.py::Implication.str2imp", "fca/implication.py::Implication.__repr__"]}
{"id": "C49", "title": "Implication cover is complete, direct and exactly the unsubsumed implications", "statement": "compute_implication_cover(cxt) never raises and, for every iteration order, returns a list with pairwise different premises in which each conclusion is the context closure of its premise (minus the premise); closing any attribute set under the list gives its context closure, and one single pass over the list suffices; with at least one attribute the premises are exactly the non-closed sets p such that no proper subset q of p already has p''-p inside q''; with no attributes the result is the single empty implication. The list is not always free of implications that follow from the others.", "quantifier": "every context, every iteration order", "why_tests_cant": "All contexts and orders; the internal alerts (raising a string) are shown unreachable.", "anchors": ["fca/algorithms/implication_covers.py::compute_implication_cover", "fca/algorithms/implication_covers.py::updated_basis", "fca/algorithms/implication_covers.py::add_smartly", "fca/algorithms/implication_covers.py::remove_subsumed", "fca/algorithms/implication_covers.py::remove_subsumed_plus", "fca/algorithms/implication_covers.py::is_new"]}
{"id": "C50", "title": "minimize keeps the logical content and leaves no redundancy", "statement": "When the list holds no implication object twice and all names are comparable, minimize(cover) succeeds and leaves a sublist of the original objects, with the same logical content, in which no implication follows from the others and every premise is closed under the others; conclusions are unchanged, premises only grow, no other object is touched. If the same object occurs twice everything may be lost, and the result need not have the smallest possible number of implications.", "quantifier": "every list of implication objects, every heap", "why_tests_cant": "All lists, including aliasing.", "anchors": ["fca/algorithms/implication_covers.py::minimize"]}
{"id": "C51", "title": "The attribute-incremental basis is sound, complete and exact, and canonical only if the sort is", "statement": "For a context with at least one object and comparable attribute names, get_attribute_canonical_basis() returns, whatever order list.sort leaves, implications with pairwise different premises whose conclusions are the closures of their premises, and every implication holding in the context follows from them. If the sort never leaves a set before a proper subset of it, they are exactly the implications of get_attribute_implications(). Python's sort of sets is no such sort: there is a context for which the result has more implications, one of them following from the others. A context with attributes and no objects raises IndexError.", "quantifier": "every context, every order the sort may leave", "why_tests_cant": "All contexts; the incremental algorithm relies on an ordering of intermediate sets.", "anchors": ["fca/algorithms/aibasis.py::compute_canonical_basis", "fca/algorithms/aibasis.py::update_preclosed", "fca/algorithms/aibasis.py::kclosure"]}
{"id": "C52", "title": "cxt files round trip", "statement": "write_cxt always succeeds, and read_cxt of the file returns a context with the same objects, attributes and crosses whenever every name is a single line without surrounding blanks and Python's eval of its text yields the name itself or, for a string, raises NameError or SyntaxError. Strings that look like numbers and names with a line break do not come back. Line ends may be LF, CR LF or CR; counts that are not positive are read as 0.", "quantifier": "every context with such names, any size", "why_tests_cant": "All file contents.", "anchors": ["fca/readwrite/cxt.py::write_cxt", "fca/readwrite/cxt.py::read_cxt"]}
{"id": "C53", "title": "uread_cxt always fails", "statement": "uread_cxt raises TypeError on every file written by write_cxt for a context with at least one object or attribute, and on no file does it return a context with a name; uwrite_cxt writes the same as write_cxt when all names are strings and raises TypeError when one is a number.", "quantifier": "every context and every file", "why_tests_cant": "Universal failure.", "anchors": ["fca/readwrite/cxt.py::uread_cxt"]}
{"id": "C54", "title": "read_txt_with_names parses the documented format unless an object is called 0 or 1", "statement": "For a file in the documented format whose object names are neither '0' nor '1' the context has exactly the listed names and cells, also when the line of attributes ends with a tab; an object called '0' or '1' makes the reader raise ValueError; files without objects raise StopIteration or IndexError.", "quantifier": "every file in the format", "why_tests_cant": "All files.", "anchors": ["fca/readwrite/tab_separated.py::read_txt_with_names"]}
{"id": "C55", "title": "Graph export labels each object and attribute once", "statement": "find_own_objects assigns to each concept exactly the objects generating it, without repetition, so every object to exactly one concept; find_own_attributes likewise for attributes.", "quantifier": "every context and its lattice", "why_tests_cant": "All contexts.", "anchors": ["fca/readwrite/dot.py::find_own_objects", "fca/readwrite/dot.py::find_own_attributes"]}
{"id": "C56", "title": "BasicExploration keeps confirmed attribute implications valid", "statement": "Starting from any context with objects and comparable distinct names, after any sequence of calls with fresh names, successful or rejected, other than edit_attribute, every confirmed attribute implication holds in the context; in every reachable state (edit_attribute included) the open implications hold and everything that holds follows from the open and confirmed ones together. The same holds for object implications with edit_object in the place of edit_attribute. edit_attribute, and add_attribute with a name in use, can falsify a confirmed implication.", "quantifier": "every finite history of exploration calls", "why_tests_cant": "Histories.", "anchors": ["fca/algorithms/exploration.py::BasicExploration"]}
{"id": "C57", "title": "Counter-examples refute the implication", "statement": "A counter-example accepted by BasicExploration (for an attribute or an object implication), AttributeExploration or ExplorationSession makes the rejected implication false in the context; a set that respects the implication, or contradicts a confirmed one, is rejected and nothing changes; BasicExploration accepts every genuine counter-example that contradicts no confirmed implication.", "quantifier": "every state, implication and intent", "why_tests_cant": "All states.", "anchors": ["fca/algorithms/exploration.py::BasicExploration.counter_example_for_attr_implication", "fca/algorithms/exploration_/exploration.py::AttributeExploration.reject_implication", "fca/algorithms/exploration2/exploration.py::ExplorationSession.reject_implication"]}
{"id": "C58", "title": "Attribute exploration is complete when no question is open", "statement": "In every state an ExplorationDB over a context with objects can reach by confirming open implications, unconfirming, adding and editing: background knowledge valid at the start is still valid; if open_implications is empty then every implication valid in the context follows from the background; every open implication is valid in the context and does not follow from the background; confirming all open implications leaves none open. The candidate implications of an exploration2 session have the same property for what was accepted in that session.", "quantifier": "every database state", "why_tests_cant": "Quantifies over all implications.", "anchors": ["fca/algorithms/exploration_/exploration.py::ExplorationDB"]}
{"id": "C59", "title": "ExplorationDB deletions and attribute edits always fail", "statement": "delete_example and delete_attribute raise AttributeError on every database over a Context and edit_attribute raises TypeError whenever there is background knowledge and an object; the database does not change.", "quantifier": "every database state and arguments", "why_tests_cant": "Universal failure.", "anchors": ["fca/algorithms/exploration_/exploration.py::ExplorationDB.delete_example", "fca/algorithms/exploration_/exploration.py::ExplorationDB.edit_attribute"]}
{"id": "C60", "title": "Sessions of exploration2 share state", "statement": "Until another session is created every object added after an implication was accepted in the current session respects it; creating a second session from the same Exploration silently replaces what is enforced by the empty list, also for calls through the first session; without a session adding an object raises AttributeError.", "quantifier": "every history of session operations", "why_tests_cant": "Histories over two sessions.", "anchors": ["fca/algorithms/exploration2/exploration.py::ExplorationSession", "fca/algorithms/exploration2/exploration.py::Exploration.create_session"]}
{"id": "C61", "title": "Pattern exploration admits only patterns that occur, but does not protect them", "statement": "confirm_pattern succeeds exactly when some positive object without all attributes has the pattern and no negative object without all attributes has it; otherwise it raises and changes nothing. At every later time a confirmed pattern still occurs in a positive object. add_negative_example is checked only against the pattern given with it, so a confirmed pattern may occur in a negative object without all attributes, and a pattern is confirmed although a negative object with all attributes has it. The examples listed for a pattern, and the unexplained examples, are exactly the objects with, or without, the patterns in question.", "quantifier": "every pair of contexts, every pattern, every history", "why_tests_cant": "All histories.", "anchors": ["fca/algorithms/patterns.py::BasicPatternExploration"]}
{"id": "C62", "title": "ManyValuedContext keeps only truth values", "statement": "ManyValuedContext(table, ...)[i][j] is the truth value of the given cell, not the cell: distinct values become indistinguishable after construction, extract_subcontext_filtered_by_attributes_values finds rows by truth value only, and add_object raises AttributeError.", "quantifier": "every table", "why_tests_cant": "All tables.", "anchors": ["fca/mvcontext.py::ManyValuedContext"]}
{"id": "C63", "title": "scale_mvcontext derives exactly the scaled incidence", "statement": "In scale_mvcontext(mv, scales) object g has attribute a:s iff some scale object whose expression is true of the value of g at a has s in the scale; derived names are distinct when the attribute names contain no colon, clashing ones are renamed, and too few scales make the call fail.", "quantifier": "every many-valued context, every list of scales, every total evaluation of expressions", "why_tests_cant": "All scales.", "anchors": ["fca/algorithms/scaling.py::scale_mvcontext"]}
{"id": "C64", "title": "OrdinalScale is the order relation", "statement": "In OrdinalScale(lo, hi, mode) the objects are the integers lo..hi; the attributes are '<= w' for lo <= w < hi, held by v iff v <= w (mode leq), and '>= w' for lo < w <= hi, held by v iff v >= w (mode geq).", "quantifier": "every pair of integer bounds", "why_tests_cant": "All bounds.", "anchors": ["fca/scale.py::OrdinalScale"]}
{"id": "C65", "title": "PartialContext cannot be built from non-empty tables", "statement": "PartialContext(x, q, objects, attributes) raises TypeError for all tables with at least one row and one column of matching dimensions, and IndexError for tables without rows; it succeeds exactly for at least one object, no attributes and empty rows, so no instance obtained through the class and its methods has an attribute, and transpose always raises IndexError.", "quantifier": "every pair of tables", "why_tests_cant": "Universal failure.", "anchors": ["fca/partial_context.py::PartialContext.__init__", "fca/compare_context.py::subseteq_table"]}
{"id": "C66", "title": "Object implications with an explicit background are the dual basis, but cached for ever", "statement": "get_object_implications(confirmed=[]) returns the Duquenne-Guigues basis of the object closure; once a non-empty basis was computed every later call returns it unchanged, whatever was passed and however the table was modified.", "quantifier": "every context with distinct, comparable object names; every later state", "why_tests_cant": "The stale answer needs a call, a mutation and a second call on the same instance.", "anchors": ["fca/context.py::Context.get_object_implications"]}
{"id": "C67", "title": "compute_index makes the lattice unusable as a dictionary", "statement": "After compute_index(lattice, f, name) every concept that received an index prints differently, so it hashes differently from when it was stored: lattice.parents(concept) raises KeyError for every concept unless the two hashes collide, although it worked before.", "quantifier": "every lattice, index dictionary covering all concepts, index name and string hash function", "why_tests_cant": "Hash collisions and every index function are covered.", "anchors": ["fca/algorithms/filtering/filter.py::compute_index", "fca/concept.py::Concept.__hash__", "fca/concept_lattice.py::ConceptLattice.parents"]}
{"id": "C68", "title": "Random contexts have the requested shape", "statement": "make_random_context(n, k, d) always succeeds and gives a consistent context with objects g0..g(n-1) and attributes m0..m(k-1); the cell in row i and column j has a cross exactly when the (i*k+j)-th random number is below d; with random numbers in [0,1) the table is full for d >= 1 and empty for d <= 0.", "quantifier": "every size, density and sequence of random numbers", "why_tests_cant": "All random outcomes are covered.", "anchors": ["fca/context.py::make_random_context"]}
{"id": "C69", "title": "is_redundant decides entailment", "statement": "is_redundant(imp, basis) returns true exactly when every set respecting all implications of the basis respects imp.", "quantifier": "every implication and every list of implications whose sides hold comparable names", "why_tests_cant": "All sets are quantified over.", "anchors": ["fca/algorithms/implication_covers.py::is_redundant"]}
{"id": "C70", "title": "Partial examples and negative implications", "statement": "Implication.is_respected on a pair (certain attributes C, possible attributes P) with C inside P is true exactly when some set between C and P respects the implication. NegativeImplication.is_respected on a set X is false exactly when X contains the premise and some conclusion attribute outside the premise; on a pair it is true exactly when the premise is not inside C or all sets between C and P respect it, which is neither 'some' nor 'all' completions.", "quantifier": "every implication, every set and every pair", "why_tests_cant": "All sets between the two bounds are quantified over.", "anchors": ["fca/implication.py::Implication.is_respected", "fca/implication.py::NegativeImplication.is_respected"]}
{"id": "C71", "title": "UnitImplication has a one-element conclusion or fails", "statement": "UnitImplication(p, c).conclusion is {c} when c is not in p and raises AssertionError otherwise; is_respected(X) is true without looking at the conclusion when p is not inside X, and otherwise says whether c is in X or raises AssertionError.", "quantifier": "every premise, attribute and set", "why_tests_cant": "All sets.", "anchors": ["fca/implication.py::UnitImplication.get_reduced_conclusion", "fca/implication.py::Implication.is_respected"]}
{"id": "C72", "title": "write_fimi lists the intents", "statement": "write_fimi writes for every object one line with its attributes, each followed by a blank, in any iteration order; two contexts whose attribute names are strings without blanks and line breaks give the same file only if their lists of object intents are equal.", "quantifier": "every context, every iteration order", "why_tests_cant": "All contexts.", "anchors": ["fca/readwrite/fimi.py::write_fimi"]}
{"id": "C73", "title": "Binary readers and the xml functions always fail", "statement": "read_txt, read_mv_txt, uread_mv_txt, read_mv_csv and read_csv raise StopIteration on an empty file and csv.Error on any other; read_xml and uread_xml raise TypeError on every file; write_xml raises TypeError or AttributeError for every concept system, TypeError if all names are strings.", "quantifier": "every file, every concept system", "why_tests_cant": "Universal failure.", "anchors": ["fca/readwrite/tab_separated.py::read_txt", "fca/readwrite/tab_separated.py::read_mv_txt", "fca/readwrite/comma_separated.py::read_csv", "fca/readwrite/xml_.py::write_xml", "fca/readwrite/xml_.py::read_xml"]}
{"id": "C74", "title": "Graph export draws the line diagram", "statement": "For a lattice with string names write_dot writes one node per concept labelled with its own objects and attributes (their number if five or more) and one edge for every covering pair, each exactly once; uwrite_dot writes the same nodes and edges with at most six names per label or only their number; without a path both raise AssertionError; write_dot raises TypeError as soon as fewer than five own names of a concept include a number.", "quantifier": "every context, every iteration order", "why_tests_cant": "All contexts and orders.", "anchors": ["fca/readwrite/dot.py::write_dot", "fca/readwrite/dot.py::uwrite_dot"]}
{"id": "C75", "title": "Editing an example under a used name is not atomic", "statement": "ExplorationDB.edit_example given a new name that another object already has and a different admissible intent raises NotUniqueObjectName after having replaced the intent; open_implications stays as it was and can contain implications that no longer hold.", "quantifier": "every reachable database, every example, name and intent", "why_tests_cant": "All states.", "anchors": ["fca/algorithms/exploration_/exploration.py::ExplorationDB.edit_example"]}
{"id": "C76", "title": "Generated patterns are concepts absent from the negatives, up to reduction", "statement": "iterate_positive_concepts yields exactly the concepts of the positive context, cut to irreducible attributes and objects, whose cut intent occurs in no negative object that lacks an attribute; a positive concept whose full intent occurs in no negative object can be missed because of the cut.", "quantifier": "every pair of contexts with the same attributes and at most 63 objects and attributes, every iteration order", "why_tests_cant": "All contexts.", "anchors": ["fca/algorithms/patterns.py::iterate_positive_concepts"]}
{"id": "C77", "title": "Unconfirmed patterns by frequency", "statement": "With a generator of pairs get_unconfirmed_patterns_with_examples returns every generated pattern that contains no confirmed pattern, with the number of unexplained examples having it, in descending and stable order; with the default generator it returns the empty list or raises TypeError.", "quantifier": "every reachable state, every generator", "why_tests_cant": "All histories.", "anchors": ["fca/algorithms/patterns.py::BasicPatternExploration.get_unconfirmed_patterns_with_examples"]}
{"id": "C78", "title": "Ordinal scaling gives the order within the range", "statement": "Scaling integer values by OrdinalScale(lo, hi, leq) gives g the attribute 'a:<= w' exactly when lo <= value <= w, and by geq the attribute 'a:>= w' exactly when w <= value <= hi; a value outside lo..hi gets no attribute, also when it is below w.", "quantifier": "every table of values, every pair of bounds", "why_tests_cant": "All values and bounds.", "anchors": ["fca/scale.py::OrdinalScale", "fca/algorithms/scaling.py::scale_mvcontext"]}
{"id": "C79", "title": "Nominal scales split an attribute into itself and its negation", "statement": "NominalScale of a column of a ManyValuedContext only knows the values 1.0 and 0.0; scaling every attribute by its nominal scale gives object g 'a:1.0' exactly when the cell was true and 'a:0.0' exactly when it was false; an unknown attribute name raises ValueError.", "quantifier": "every many-valued context, every order of iteration over the set of values", "why_tests_cant": "All contexts.", "anchors": ["fca/scale.py::NominalScale", "fca/algorithms/scaling.py::scale_mvcontext"]}
{"id": "C80", "title": "Completion computes what the implications force and exclude", "statement": "PartialContext.complete(implications) succeeds exactly when every example can be filled to a set respecting the implications between its certain and possible attributes; then the new certain attributes are those of all such sets and the new possible attributes those of some, and a second call changes nothing. Otherwise it raises ValueError at the first example that cannot be filled, with the earlier ones already completed.", "quantifier": "every pair of a certain and a possible context on the same names, every list of implications with comparable names", "why_tests_cant": "All ways to fill the open cells are quantified over.", "anchors": ["fca/partial_context.py::PartialContext.complete", "fca/partial_context.py::PartialContext.add_object_with_intent"]}
{"id": "C81", "title": "The closure of a partial context collects what no example refutes", "statement": "xq_aclosure(A) is the largest set C of attributes such that no example has all of A for certain and lacks some of C for certain; it contains A and is monotone, but not idempotent.", "quantifier": "every partial context with objects, every attribute set", "why_tests_cant": "All examples and sets.", "anchors": ["fca/partial_context.py::PartialContext.xq_aclosure"]}
{"id": "C82", "title": "The basis of a partial context is sound but not complete", "statement": "compute_partial_dg_basis terminates and returns only implications that no example refutes, each with the largest such conclusion; a set respecting all of them violates an unrefuted implication only if it is the conclusion of a returned one, and this happens: an implication that no example refutes need not follow from the basis.", "quantifier": "every partial context with objects and comparable attribute names, every background and condition", "why_tests_cant": "All contexts; the gap needs a closure that is not idempotent.", "anchors": ["fca/algorithms/dg_basis.py::compute_partial_dg_basis", "fca/partial_context.py::PartialContext.get_attribute_implications"]}
{"id": "C83", "title": "Printed examples can be read back", "statement": "repr of a partial context lists for each object one character per attribute; rows with different certain or possible attributes print differently.", "quantifier": "every partial context", "why_tests_cant": "All pairs of sets.", "anchors": ["fca/partial_context.py::PartialContext.__repr__", "fca/partial_context.py::PartialContext._intent_to_str"]}
{"id": "C84", "title": "Exploration with a truthful expert ends with exactly the expert's knowledge", "statement": "GenericExpert.explore, with any expert that confirms exactly the implications valid in a fixed domain and otherwise provides newly named examples of the domain refuting the question, terminates after at most 2*2^n answers for n attributes; no confirmation or rejection raises; afterwards no question is open, the context has exactly the closures of the domain, and the confirmed implications are the Duquenne-Guigues basis of the domain relative to the initial background, in lectic order. For GenericExpert(basis) exactly the consequences of basis then hold in the context and follow from db.base, with as few confirmations as possible. An expert that offers premise and conclusion as a counterexample is refused.", "quantifier": "every initial database consistent with the domain (also without objects if the background is empty), every domain, every expert, every set iteration order", "why_tests_cant": "Termination and exactness over all domains and expert behaviours.", "anchors": ["fca/algorithms/exploration_/explorationtest.py::GenericExpert", "fca/algorithms/exploration_/exploration.py::AttributeExploration", "fca/algorithms/exploration_/exploration.py::ExplorationDB"]}
{"id": "C85", "title": "The interactive session loop ends with exactly the person's knowledge", "statement": "CommandLineExploration.explore over the current session, with a person who answers truthfully about a fixed domain and names new counterexamples, terminates after at most 2*2^n answers; afterwards the session has no candidates, the shared context has exactly the closures of the domain, the session's base is the relative Duquenne-Guigues basis, and no other session's base has changed.", "quantifier": "every state of the exploration, every domain, every truthful person, every set iteration order", "why_tests_cant": "Termination and exactness over all domains and answers.", "anchors": ["fca/algorithms/exploration2/examples/numbers.py::CommandLineExploration.explore", "fca/algorithms/exploration2/exploration.py::ExplorationSession"]}
{"id": "C86", "title": "Number predicates of the example exploration", "statement": "is_prime(n) is True exactly for primes and for every n <= 1; is_factorial(n) is True exactly for factorials, False for the other positive integers and None for n <= 0.", "quantifier": "every integer", "why_tests_cant": "All integers.", "anchors": ["fca/algorithms/exploration2/examples/numbers.py::is_prime", "fca/algorithms/exploration2/examples/numbers.py::is_factorial"]}
{"id": "C87", "title": "Confirming the same implication twice can end an exploration early", "statement": "It is not true that confirming an implication again is harmless: there is a context in which confirming one open implication twice makes another open implication, which holds but does not follow from what was confirmed, disappear from open_implications; the exploration then ends without asking it. Confirming once keeps it open.", "quantifier": "exists a context (witness); C84 gives exactness for backgrounds without repetitions", "why_tests_cant": "Needs a particular interplay of the closure algorithm with repeated implications.", "anchors": ["fca/algorithms/exploration_/exploration.py::AttributeExploration.confirm_implication", "fca/algorithms/closure_operators.py::lin_closure"]}
{"id": "C88", "title": "The intent of a bi-unary algebra is its set of valid equalities", "statement": "For every algebra with two unary operations on 1..n, bu_intent gives exactly the equalities between the seven terms id, f, g, ff, fg, gf, gg that hold at every element; the algebra with f and g exchanged has exactly the mirrored equalities; the table of generate_context(n) has one row per algebra with exactly these truth values.", "quantifier": "every n and every algebra of size n", "why_tests_cant": "All algebras of all sizes.", "anchors": ["fca/algorithms/exploration_/examples/bi_unars.py::Equality.__call__", "fca/algorithms/exploration_/examples/bi_unars.py::compose", "fca/algorithms/exploration_/examples/bi_unars.py::BiUnar.automorphic_copy", "fca/algorithms/exploration_/examples/bi_unars.py::generate_context"]}
{"id": "C89", "title": "Mirrored sets of equalities", "statement": "get_symmetric_attribute_set gives exactly the mirrored equalities, is its own inverse and keeps the size, in every iteration order; of a set and its mirror image is_orbit_maximal accepts at least one, both only if they are equal, and accepts the one whose first difference in the attribute order it contains; the symmetric implication holds in the exchanged algebra exactly when the implication holds in the algebra. get_symmetric_equality finds only mirrored equalities, but returns None for some, such as f = g.", "quantifier": "every set of equalities, every iteration order, every algebra", "why_tests_cant": "All subsets of the equalities and all algebras.", "anchors": ["fca/algorithms/exploration_/examples/bi_unars.py::get_symmetric_attribute_set", "fca/algorithms/exploration_/examples/bi_unars.py::is_orbit_maximal", "fca/algorithms/exploration_/examples/bi_unars.py::get_symmetric_implication", "fca/algorithms/exploration_/examples/bi_unars.py::get_symmetric_equality"]}
{"id": "C90", "title": "The background implications say that equality is an equivalence", "statement": "A set of equalities respects the generated background implications exactly when an equivalence relation on the terms makes exactly these equalities true; the background implications hold in every algebra.", "quantifier": "every set of equalities, every algebra", "why_tests_cant": "All sets.", "anchors": ["fca/algorithms/exploration_/examples/bi_unars.py::generate_background_implications"]}
{"id": "C91", "title": "Algebras are enumerated completely and searched correctly", "statement": "generate_examples(n) lists every algebra of size n exactly once, n^n * n^n in all; find_counter_example returns an algebra of size n violating the implication, or None exactly when all algebras of size n respect it; None for size n says nothing about size n+1.", "quantifier": "every n, every implication between the equalities", "why_tests_cant": "All sizes.", "anchors": ["fca/algorithms/exploration_/examples/bi_unars.py::generate_examples", "fca/algorithms/exploration_/examples/bi_unars.py::find_counter_example"]}
{"id": "C92", "title": "Partial counterexamples decide the implication", "statement": "generate_partial_counterexample returns a pair (certain, possible) with certain inside the intent and the intent inside possible, such that every set between the two respects the implication exactly when the algebra does.", "quantifier": "every implication, algebra and iteration order", "why_tests_cant": "All sets between the bounds.", "anchors": ["fca/algorithms/exploration_/examples/bi_unars.py::generate_partial_counterexample"]}
{"id": "C93", "title": "Exploration over a partial context ends with exactly the expert's knowledge", "statement": "The exploration loop of bi_unars.py over a PartialContext with at least one object: with an expert who confirms only valid implications (the question among them) or provides newly named, possibly partially known examples, the first having the premise for certain and lacking part of the conclusion for certain, all together with their mirror images under a symmetry of the domain, and with a condition accepting at least one of every attribute set and its mirror image, the loop ends after at most (n+1)*2^n answers for n attributes, nothing raises, and then the base entails exactly the implications valid in the domain; every row still bounds intents of the domain, loses no intent that was possible at the beginning, and (if a question was asked) shows all that follows about it. In particular this holds without symmetry and condition, although the next question is chosen before the rows are completed.", "quantifier": "every well-formed partial context with mutually comparable attribute names, consistent background, domain, symmetry, condition and truthful expert", "why_tests_cant": "Termination and exactness over all domains and expert behaviours.", "anchors": ["fca/algorithms/exploration_/exploration.py::AttributeExploration", "fca/algorithms/exploration_/exploration.py::ExplorationDB", "fca/algorithms/exploration_/examples/bi_unars.py::CommandLineExpert.explore", "fca/partial_context.py::PartialContext.complete"]}
{"id": "C94", "title": "Partial examples in an exploration", "statement": "ExplorationDB.add_example with a pair (certain, possible) raises and changes nothing when some implication of the base is violated by every set between the two, or when the name is taken; otherwise the row is appended and open_implications is the relative basis of the new partial context. All changes of attributes and deletion or editing of examples raise and change nothing over a partial context. The check considers the implications one at a time: a pair that no set respecting the whole base can fill may be accepted; reject_implication then raises ValueError with the example already added.", "quantifier": "every database over a partial context, every pair; exists witness for the last sentence", "why_tests_cant": "All pairs and bases.", "anchors": ["fca/algorithms/exploration_/exploration.py::ExplorationDB.add_example", "fca/algorithms/exploration_/exploration.py::ExplorationDB._check_intents", "fca/implication.py::Implication.is_respected", "fca/algorithms/exploration_/exploration.py::AttributeExploration.reject_implication"]}
{"id": "C95", "title": "After an answer over a partial context the next question can already be settled", "statement": "After confirming an implication open_implications is the relative partial basis of the context before its rows are completed; it is not true that it is the one of the context after completion: the next open implication can be one that the completed context refutes.", "quantifier": "every database for the first part; exists witness for the second", "why_tests_cant": "Needs an interplay of confirmation and completion.", "anchors": ["fca/algorithms/exploration_/exploration.py::AttributeExploration.confirm_implications", "fca/algorithms/exploration_/exploration.py::ExplorationDB.complete"]}
{"id": "C96", "title": "Minimizing a cover gives the Duquenne-Guigues basis", "statement": "minimize(compute_implication_cover(cxt)) leaves exactly the Duquenne-Guigues basis of cxt: the same premises as compute_dg_basis, each once, and the same conclusions (together with the premise); hence as few implications as possible. The same holds for the list returned by compute_canonical_basis, however list.sort orders sets on the way, and for every list of separate implications that is complete for a closure operator and whose conclusions are the closures of their premises. (For other lists the result need not be minimum, see C50.)", "quantifier": "every context with mutually comparable attribute names, every set iteration order, every sort outcome", "why_tests_cant": "Equality of two algorithms' outputs for all contexts.", "anchors": ["fca/algorithms/implication_covers.py::minimize", "fca/algorithms/implication_covers.py::compute_implication_cover", "fca/algorithms/aibasis.py::compute_canonical_basis", "fca/algorithms/dg_basis.py::compute_dg_basis"]}
{"id": "C97", "title": "Contexts share nothing with their arguments or with each other", "statement": "A program that creates lists and tables, passes them to Context(...), changes them in place afterwards, calls mutators on contexts and derives contexts from contexts (deepcopy, transpose, both subcontext methods, product, clarification, both reductions, complementary, compound) sees the same values and the same exceptions as if every variable held a value of its own: a mutator changes only the context it is called on, changing a list or table passed earlier changes no context, and a derived context is independent of its origin.", "quantifier": "every program, of any length, over any number of lists, tables and contexts", "why_tests_cant": "Sharing bugs show only for particular sequences of in-place changes.", "anchors": ["fca/context.py::Context.__init__", "fca/context.py::Context.__deepcopy__", "fca/context.py::Context.delete_object", "fca/context.py::Context.rename_object", "fca/context.py::Context.set_object_intent", "fca/context.py::Context.extract_subcontext", "fca/context.py::Context.__mul__", "fca/context.py::Context.transpose"]}
{"id": "C98", "title": "Every context of every program is consistent; deep copies are equal", "statement": "In every such program (delete_attributes called with different names) every context is consistent after every step: rows, columns, cross_table and both index dictionaries agree. A deep copy of a consistent context with distinct names has the same names, table and dictionaries.", "quantifier": "every program; every consistent context", "why_tests_cant": "All programs.", "anchors": ["fca/context.py::Context.__init__", "fca/context.py::Context.__deepcopy__"]}
{"id": "C99", "title": "The lists and the table handed out are neither copies nor views", "statement": "cxt.objects, cxt.attributes and cxt.table are the context's own list or array: a later delete_object is seen through it, a later add_object is not, and writing to it makes the context inconsistent. Only that context can be reached through it, and after the next successful mutator other than remove_empty_objects no context can.", "quantifier": "exists witness for the first sentence; every program, context and mutator for the second", "why_tests_cant": "All programs.", "anchors": ["fca/context.py::Context.get_objects", "fca/context.py::Context.get_attributes", "fca/context.py::Context.get_table", "fca/context.py::Context.__init__"]}
{"id": "C100", "title": "The intents are the sets that respect the basis", "statement": "The intents of cxt.concepts are exactly the attribute sets that respect every implication of cxt.attribute_implications, each listed once.", "quantifier": "every context with mutually comparable attribute names, every set iteration order", "why_tests_cant": "Joins two independent algorithms over all contexts.", "anchors": ["fca/context.py::Context.get_concepts", "fca/context.py::Context.get_attribute_implications", "fca/algorithms/norris.py::norris", "fca/algorithms/dg_basis.py::compute_dg_basis"]}
{"id": "C101", "title": "The closure under the basis is the closure in the context", "statement": "For every set of attributes, simple_closure and lin_closure under cxt.attribute_implications both return cxt.aclosure of the set.", "quantifier": "every context with mutually comparable attribute names, every attribute set, every set iteration order", "why_tests_cant": "All contexts and sets.", "anchors": ["fca/context.py::Context.aclosure", "fca/algorithms/closure_operators.py::simple_closure", "fca/algorithms/closure_operators.py::lin_closure", "fca/algorithms/dg_basis.py::compute_dg_basis"]}
{"id": "C102", "title": "The lattice of the transposed context is the lattice upside down", "statement": "The concepts of cxt.transpose() are the concepts of cxt with extent and intent exchanged; top and bottom are exchanged; the parents of a concept in one lattice are the children of its mirror image in the other.", "quantifier": "every context with mutually comparable object and attribute names", "why_tests_cant": "All contexts.", "anchors": ["fca/context.py::Context.transpose", "fca/context.py::Context.get_concept_lattice", "fca/concept_lattice.py::ConceptLattice"]}
{"id": "C103", "title": "The indices under transposition", "statement": "Intensional stability of a concept is the extensional stability of its mirror image in the transposed context and conversely; extent size and intent size are exchanged; the separation index is the same.", "quantifier": "every context with mutually comparable names, every order of set.pop", "why_tests_cant": "All contexts and orders.", "anchors": ["fca/context.py::Context.transpose", "fca/algorithms/filtering/stability.py::compute_istability", "fca/algorithms/filtering/stability.py::compute_estability", "fca/algorithms/filtering/separation.py::compute_separation_index"]}
{"id": "C104", "title": "Clarifying and reducing keep the lattice and the implications", "statement": "clarify_objects and (up to 63 attributes) reduce_objects keep the intents of all concepts, restrict each extent to the remaining objects and leave cxt.attribute_implications exactly as it was, including its order; (up to 63 objects) reduce_attributes keeps the extents of all concepts, restricts each intent to the remaining attributes and leaves the object implications as they were.", "quantifier": "every context, every set iteration order", "why_tests_cant": "All contexts.", "anchors": ["fca/context.py::Context.clarify_objects", "fca/context.py::Context.reduce_objects", "fca/context.py::Context.reduce_attributes", "fca/context.py::Context.get_concepts", "fca/context.py::Context.get_attribute_implications"]}
{"id": "C105", "title": "write_mv_txt writes what a text reader can read, but read_mv_txt cannot", "statement": "write_mv_txt on a context with string names writes the objects, the attributes, an empty line and a line of True/False per object; for names without tab, line break or leading quote (and no list consisting of one empty name) a tab-separated csv reader in text mode gets exactly these lists back, so different contexts give different files; with the empty name two contexts can give the same file. read_mv_txt raises csv.Error on every file written. An object or attribute that is not a string makes write_mv_txt raise TypeError, having emptied the file; uwrite_mv_txt always does.", "quantifier": "every consistent context", "why_tests_cant": "All names and tables.", "anchors": ["fca/readwrite/tab_separated.py::write_mv_txt", "fca/readwrite/tab_separated.py::uwrite_mv_txt", "fca/readwrite/tab_separated.py::read_mv_txt"]}
{"id": "C106", "title": "Exploration databases over separate contexts and lists are independent", "statement": "An ExplorationDB whose context and list of implications are used by nobody else goes through the same states and raises the same exceptions as if it were alone, whatever else the program does with other databases, contexts and lists.", "quantifier": "every program, of any length, with any number of contexts, lists and databases", "why_tests_cant": "All interleavings.", "anchors": ["fca/algorithms/exploration_/exploration.py::ExplorationDB", "fca/algorithms/exploration_/exploration.py::ExplorationDB.__init__"]}
{"id": "C107", "title": "Exploration databases keep the context and the list they are given", "statement": "ExplorationDB copies neither its context nor its list of implications: a call on one database changes the context and base of all databases over the same objects, and the client's own, while the open implications of the others stay as they were until touch(), which makes a database what a new one would be. If databases over the same context have the same list, the client only removes from it, and implications are confirmed only when touch() leaves them open, then all that was confirmed holds at any time, and after touch() the open implications hold, none follows from the rest and the base, and with the base they are complete. Without touch() an implication refuted through one database can be confirmed through another and enter the base of both; with separate lists over one context an example added through one database can contradict the base of the other.", "quantifier": "every program for the first three sentences; exists witnesses for the last", "why_tests_cant": "All interleavings of calls on several databases.", "anchors": ["fca/algorithms/exploration_/exploration.py::ExplorationDB.__init__", "fca/algorithms/exploration_/exploration.py::context_modifier", "fca/algorithms/exploration_/exploration.py::base_modifier", "fca/algorithms/exploration_/exploration.py::ExplorationDB.touch", "fca/algorithms/exploration_/exploration.py::ExplorationDB.confirm_implication", "fca/algorithms/exploration_/exploration.py::ExplorationDB.add_example"]}
{"id": "C108", "title": "The index values are the nearest floats of the exact indices", "statement": "The values of compute_istability, compute_estability, compute_separation_index, compute_extent_size and compute_intent_size, one for each concept, are floats of which no other is nearer to the exact fraction. Stabilities are exact for extents (intents) of up to 53 elements and not 0 for up to 1074. Quotients of ints from 0 to 1 keep their order when rounded, and distinct ones stay distinct if the product of the denominators is below 2^53; without this bound a stability below 1 can come out as 1.0.", "quantifier": "every context with mutually comparable names, every order of set.pop, every pair of ints; exists witness for the last", "why_tests_cant": "All contexts and all quotients.", "anchors": ["fca/algorithms/filtering/stability.py::compute_istability", "fca/algorithms/filtering/stability.py::compute_estability", "fca/algorithms/filtering/separation.py::compute_separation_index", "fca/algorithms/filtering/extentsize.py::compute_extent_size", "fca/algorithms/filtering/intentsize.py::compute_intent_size"]}
{"id": "C109", "title": "filter_concepts by a float index decides as exact arithmetic would", "statement": "filter_concepts with one of the five indices, mode 'value' and the threshold p/q keeps exactly the concepts whose exact index is at least the exact fraction p/q, as long as the product of q and the denominators is below 2^53, although both sides of the comparison are rounded. For any float as threshold, infinities and NaN included, a concept whose exact stability is not smaller than that of a concept kept is kept.", "quantifier": "every context with mutually comparable names, all ints 0 <= p <= q, every float", "why_tests_cant": "All contexts and thresholds.", "anchors": ["fca/algorithms/filtering/filter.py::filter_concepts", "fca/algorithms/filtering/stability.py::compute_istability", "fca/algorithms/filtering/separation.py::compute_separation_index", "fca/algorithms/filtering/extentsize.py::compute_extent_size"]}
{"id": "C110", "title": "algorithm2 with a float fidelity", "statement": "For any float as fidelity algorithm2 yields concepts, each covering a new cross and not improvable by one attribute, with the nearest float to the fraction of crosses newly covered, as long as the float quotient of covered and all crosses is below the fidelity; it then ends normally, or, for a fidelity above 1, with AssertionError when everything is covered. With the fidelity p/q and q times the number of crosses below 2^53 it stops exactly when the exact fraction covered reaches p/q; with the default fidelity and fewer than 2^53 crosses the factors cover exactly the context.", "quantifier": "every context, every float, every iteration order", "why_tests_cant": "All contexts and fidelities.", "anchors": ["fca/algorithms/factors.py::algorithm2", "fca/algorithms/factors.py::_oplus"]}
{"id": "C111", "title": "algorithm2_w_condition with a float fidelity", "statement": "For any float as fidelity algorithm2_w_condition yields only concepts of the required size, never covers all crosses, reports a float coverage not below the float quotient of covered and all crosses, and ends normally or with its 'Algorithm stuck' exception; with the fidelity p/q and q times the number of crosses below 2^53 it yields the same concepts in the same order as exact arithmetic would.", "quantifier": "every context, every float, every iteration order and setting of the parameters", "why_tests_cant": "All contexts and fidelities.", "anchors": ["fca/algorithms/factors.py::algorithm2_w_condition"]}
{"id": "C112", "title": "Basis generators resumed after changes of the context", "statement": "Let the objects and crosses of a context be changed in any way between the calls of next() on attribute_implications_iter() or dg_basis_iter_simple(), with a background, which may be changed too, and a condition, while the attributes stay and there is an object at each call. No call raises anything but StopIteration, there are at most 2^n values for n attributes and after the first StopIteration only StopIteration. Every implication, when returned, holds in the context, its conclusion is the closure of its premise there and differs from the premise, the premise fulfils the condition and respects the background at this call and all implications returned before, and comes after their premises in the lectic order. (If an attribute is deleted between the calls, the next call may raise KeyError.)", "quantifier": "every sequence of contexts with the same mutually comparable attributes and an object, every sequence of backgrounds over them and every condition", "why_tests_cant": "The states of the context at the calls are arbitrary.", "anchors": ["fca/algorithms/dg_basis.py::dg_basis_iter_simple", "fca/context.py::Context.attribute_implications_iter"]}
{"id": "C113", "title": "Reading the basis while the context grows towards another", "statement": "If each object seen at some call of next() has the same attributes as an object of some final context, and the implications returned all hold in the final context, they are an initial part of the basis of the final context in its order, and the whole basis once the generator has ended: the premises are then the pseudo-intents of the final context and exactly its implications follow. (Adding a counterexample to an implication already returned is different: those of the returned implications that still hold need not entail all that holds.)", "quantifier": "every sequence of contexts and every final context with the same mutually comparable attributes", "why_tests_cant": "All sequences of intermediate contexts.", "anchors": ["fca/algorithms/dg_basis.py::dg_basis_iter_simple", "fca/context.py::Context.attribute_implications_iter"]}
{"id": "C114", "title": "Reading concepts while objects are added", "statement": "Calls of next() on iterative_norris or iterate_concepts() see the rows as they were at the first call: if between the calls objects are added at the end and crosses changed in any way, the intents returned are still those of all concepts of the context at the first call, each once, beginning with all attributes. It then stops, or raises IndexError when the number of objects at the second call differs from that at the first. (When an object is deleted between the calls, a returned extent may contain an object that never had an attribute of the intent.)", "quantifier": "every context and every sequence of contexts beginning with its objects", "why_tests_cant": "All sequences of changes.", "anchors": ["fca/algorithms/norris.py::iterative_norris", "fca/context.py::Context.iterate_concepts"]}
{"id": "C115", "title": "Reading factors while the context changes", "statement": "Between the calls of next() on algorithm2 the context may change. Each value is a concept of the context at the call and covers a cross of the context at the first call that no earlier value covers; the fraction reported counts these crosses, and no concept obtained by adding one attribute covers more of them. It stops when the fraction of crosses of the first context covered has reached the fidelity, and raises AssertionError just if before that no uncovered cross is a cross of the context at the call. If no cross of the first context is removed and the fidelity is at most 1, it never raises an exception and has stopped after at most one more call than there are crosses. Without changes the calls return what algorithm2 yields.", "quantifier": "every context with a cross, every sequence of contexts with an object, every fidelity and iteration order", "why_tests_cant": "All sequences of changes.", "anchors": ["fca/algorithms/factors.py::algorithm2", "fca/algorithms/factors.py::_oplus"]}
{"id": "C116", "title": "Reading unexplained examples while exploring", "statement": "While iterate_unexplained_examples() is read, patterns may be confirmed and examples added, also in calls that fail. Each value is an object positive at the first call, with its attributes, that no pattern confirmed so far explains; objects come in the order of the context, none is passed over unless it is explained, and when the generator stops all objects positive at the first call have been returned or are explained. (Positive examples added meanwhile are not returned.)", "quantifier": "every reachable state of a pattern exploration and every sequence of calls between the calls of next()", "why_tests_cant": "All sequences of calls.", "anchors": ["fca/algorithms/patterns.py::BasicPatternExploration.iterate_unexplained_examples", "fca/algorithms/patterns.py::BasicPatternExploration.confirm_pattern"]}
{"id": "C117", "title": "Noting implications in the background while reading", "statement": "If the list passed as background to dg_basis_iter_simple() is changed between the calls of next() only by what follows from the original background together with the implications returned so far, all calls return the same as with the list unchanged. In particular each implication may be appended to that list as soon as it is returned. The context may change between the calls as well.", "quantifier": "every sequence of contexts and backgrounds over the same mutually comparable attributes, every condition", "why_tests_cant": "All sequences of changes.", "anchors": ["fca/algorithms/dg_basis.py::dg_basis_iter_simple", "fca/algorithms/dg_basis.py::generalized_dg_basis_iter"]}
{"id": "C118", "title": "Reading the basis while objects and background implications are added", "statement": "Let objects be added to the context, and implications that hold in the final context be added to the background, between the calls of next() on dg_basis_iter_simple(). If all implications returned hold in the final context, then, once the generator has ended, an implication holds in the final context exactly if it follows from the returned ones and the final background. (An implication removed from the background meanwhile may be lost.)", "quantifier": "every sequence of contexts and backgrounds and every final context with the same mutually comparable attributes", "why_tests_cant": "All sequences of changes.", "anchors": ["fca/algorithms/dg_basis.py::dg_basis_iter_simple", "fca/algorithms/dg_basis.py::generalized_dg_basis_iter"]}
{"id": "C119", "title": "Reading patterns while exploring", "statement": "While iterate_patterns_with_examples() is read, positive and negative examples may be added and patterns confirmed, also in calls that fail. The values are, in the same order, some of the patterns at the first call; none, when returned, occurs in the negative context. Once the generator has stopped, those of the returned patterns that do not occur in the negative context then are all the patterns of the first positive context with this negative context. (Patterns that come with a positive example added meanwhile may be missed.)", "quantifier": "every reachable state of a pattern exploration with at most 63 objects and attributes and every sequence of calls between the calls of next()", "why_tests_cant": "All sequences of calls.", "anchors": ["fca/algorithms/patterns.py::iterate_positive_concepts", "fca/algorithms/patterns.py::BasicPatternExploration.iterate_patterns_with_examples", "fca/algorithms/patterns.py::BasicPatternExploration.add_negative_example"]}
{"id": "C120", "title": "Reading factors of required size while the context changes", "statement": "Between the calls of next() on algorithm2_w_condition the context may change as long as no attribute of the first context is deleted and there is an object. Each value is a concept of the context at the call, has the required sizes, reports at least the fraction of the crosses of the first context covered, and, with repetitions allowed, covers a new one of these crosses; without repetitions, if no object of the first context is deleted, its intent has an attribute in no earlier intent. There are at most as many values as crosses, the fraction reported with all but the last is below the fidelity, and some cross of the first context is never covered. It ends normally or with 'Algorithm stuck', and always normally, with exact fractions, if repetitions are allowed, all sizes are and no cross is removed. Without changes the calls return what algorithm2_w_condition yields. (Removed crosses can lead to 'Algorithm stuck' even when all sizes are allowed, a deleted attribute to KeyError.)", "quantifier": "every context with a cross, every sequence of contexts as described, every fidelity, iteration order and setting of the parameters; exists witnesses for the last sentence", "why_tests_cant": "All sequences of changes.", "anchors": ["fca/algorithms/factors.py::algorithm2_w_condition", "fca/algorithms/factors.py::_oplus"]}
{"id": "C121", "title": "Contexts that compare equal are interchangeable", "statement": "Two contexts whose printed names are unambiguous and that compare equal with == have the same concepts (in some order), the same Duquenne-Guigues basis (in some order; the same list when the attributes are listed in the same order), the same top, bottom, parents and children in the lattice, and the same value of every stability, size and separation index for every concept. Conversely, two contexts with the same concepts compare equal.", "quantifier": "every pair of contexts without duplicate names and every iteration order of sets", "why_tests_cant": "All pairs of contexts and orders.", "anchors": ["fca/context.py::Context.__eq__", "fca/algorithms/norris.py::norris", "fca/algorithms/dg_basis.py::compute_dg_basis", "fca/concept_lattice.py::ConceptLattice"]}
{"id": "C122", "title": "Renaming renames the results", "statement": "rename_attribute to a name not in use keeps every extent, renames the attribute in every intent, and renames it in every implication of the Duquenne-Guigues basis, whose order stays the same. rename_object renames the object in every extent, and the basis stays exactly the same. For a name in use this fails: both attributes are renamed.", "quantifier": "every context without duplicate names, every old and unused new name (of the same kind, for the basis) and every iteration order of sets; exists a witness for the last sentence", "why_tests_cant": "All contexts and names.", "anchors": ["fca/context.py::Context.rename_attribute", "fca/context.py::Context.rename_object", "fca/algorithms/norris.py::norris", "fca/algorithms/dg_basis.py::compute_dg_basis"]}
{"id": "C123", "title": "The effect of a new object or attribute on concepts and implications", "statement": "After add_object_with_intent the intents are the former intents and their intersections with the new intent; the closure of a set of attributes is intersected with the new intent if the set is contained in it and is unchanged otherwise; an implication holds if it held and the new intent respects it; and the Duquenne-Guigues basis stays the same list if and only if the new intent was an intent already. After add_attribute_with_extent the extents are the former extents and their intersections with the new extent, the closure of a set of former attributes gains at most the new one, exactly if all objects having the set are in the new extent, and implications between former attributes hold as before.", "quantifier": "every context without duplicate names (with an object, for attributes), every new name and every set, also one with unknown names", "why_tests_cant": "All contexts and sets.", "anchors": ["fca/context.py::Context.add_object_with_intent", "fca/context.py::Context.add_attribute_with_extent", "fca/context.py::Context.aclosure", "fca/algorithms/norris.py::norris", "fca/algorithms/dg_basis.py::compute_dg_basis"]}
{"id": "C124", "title": "The effect of deletions on concepts and implications", "statement": "After delete_attributes the intents are the former intents without the deleted attributes, every extent was an extent before, closures lose exactly the deleted attributes, and implications between the attributes left hold as before. After delete_object the extents are the former ones without the object, every intent was an intent before, object closures lose exactly the object, and the implications that held before are those that hold now and are respected by the intent of the deleted object.", "quantifier": "every context without duplicate names (with an object, for attributes), every object, every list of different attributes", "why_tests_cant": "All contexts and names.", "anchors": ["fca/context.py::Context.delete_attributes", "fca/context.py::Context.delete_object", "fca/context.py::Context.oclosure", "fca/algorithms/norris.py::norris"]}
{"id": "C125", "title": "A BasicExploration answered truthfully reaches the domain", "statement": "For a domain given by the closure operator of its intents, and a start context whose rows are taken from it: if open attribute implications (at any position, in any order) are confirmed only when valid in the domain and refuted only by examples of the domain under new names, while examples of the domain may be added and object implications confirmed meanwhile, then at most 2^n questions are answered for n attributes, no truthful answer is turned down, every open implication has one, all rows stay in the domain, confirmed implications are exact implications of the domain, and once no attribute implication is open the closures of the context are those of the domain and an implication follows from the confirmed ones exactly if it is valid in the domain. The confirmed implications can be more than the Duquenne-Guigues basis has.", "quantifier": "every start context with an object and an attribute, without duplicate and with comparable names, every closure operator, every history of truthful answers and every order of sorting; exists a witness for the last sentence", "why_tests_cant": "Arbitrary domains and histories.", "anchors": ["fca/algorithms/exploration.py::BasicExploration.confirm_attribute_implication", "fca/algorithms/exploration.py::BasicExploration.counter_example_for_attr_implication", "fca/algorithms/exploration.py::BasicExploration.add_object", "fca/algorithms/exploration.py::BasicExploration.recompute_basis"]}
{"id": "C126", "title": "A BasicExploration answered truthfully about objects reaches the domain", "statement": "The dual: for a domain of possible extents containing the columns of the start context, truthful answers about implications between objects (confirmations, and attributes of the domain under new names as counterexamples), with attributes of the domain added and attribute implications confirmed meanwhile, number at most 2^n for n objects and are never turned down; once no object implication is open the object closures of the context are those of the domain, and an implication between objects follows from the confirmed ones exactly if it is valid in the domain.", "quantifier": "every start context with an object and an attribute, without duplicate and with comparable names, every closure operator, every history of truthful answers and every order of sorting", "why_tests_cant": "Arbitrary domains and histories.", "anchors": ["fca/algorithms/exploration.py::BasicExploration.confirm_object_implication", "fca/algorithms/exploration.py::BasicExploration.counter_example_for_obj_implication", "fca/algorithms/exploration.py::BasicExploration.add_attribute", "fca/algorithms/exploration.py::BasicExploration.recompute_basis"]}
{"id": "C127", "title": "The callbacks of the basis computation are called once per set, in lectic order", "statement": "generalized_compute_dg_basis takes the closure of sets in strictly increasing lectic order, hence of no set twice, and asks cond about a set exactly if it is not closed, right after taking its closure; the result consists of the sets cond agreed to, each implying its closure. A cond that keeps state, so that its answers depend on earlier calls, gives the result of some cond without state, in a context only implications that hold; callbacks that merely record or cache change nothing. If cond always agrees, the sets are the pseudo-closed sets, each once, and some of the closed sets, so the number of closures taken is at most the number of pseudo-closed and proper closed sets together; a closed set may be skipped.", "quantifier": "every list of different, comparable attributes, every closure operator, background, stateful aclose answering by the operator and every stateful cond; exists a witness for the skipped closed set", "why_tests_cant": "Arbitrary callbacks and states.", "anchors": ["fca/algorithms/dg_basis.py::generalized_compute_dg_basis", "fca/algorithms/dg_basis.py::compute_dg_basis"]}
{"id": "C128", "title": "The lectic comparison orders sets by name, and sorting with it makes the incremental basis canonical", "statement": "compare_tuples answers 0 for equal sets and otherwise lets the smallest differing name decide: 1 if it is in the first set, -1 if in the second; it fails, with TypeError, exactly if names and numbers both occur among the differences. On sets of names of one kind it is a linear order in which a proper subset comes first, and over an attribute list sorted by name it is the lectic order of the Duquenne-Guigues algorithm (over other lists it is not: a basis computed by compute_dg_basis can be in an order it calls descending). If the lists in compute_canonical_basis were sorted with it, instead of by inclusion of the sets, the result would be the Duquenne-Guigues basis of every context with an object, also of those where the present result is not.", "quantifier": "every pair of tuples; every context without duplicate names and every sorting consistent with the comparison; exists witnesses for the negative statements", "why_tests_cant": "All sets, contexts and orders.", "anchors": ["fca/algorithms/aibasis.py::compare_tuples", "fca/algorithms/aibasis.py::compute_canonical_basis", "fca/algorithms/aibasis.py::update_preclosed"]}
{"id": "C129", "title": "Stability under added and deleted objects and attributes", "statement": "After add_object_with_intent every former intent is an intent. If the new intent does not contain it, its concept is unchanged, keeps its intensional stability, and its extensional stability does not rise; if it does, the new object joins the extent, the intensional stability does not fall and the extensional stability stays the same. After delete_object every concept without the object in its extent keeps its intensional stability; for every intent left, the intensional stability does not rise, and the extensional stability does not fall and stays the same if the object was in the extent. The same holds for add_attribute_with_extent and delete_attributes with extents, attributes and the two stabilities exchanged.", "quantifier": "every context without duplicate and with comparable names (with an object, for attributes), every new name, set and list of different attributes, and every order in which the worklist is processed", "why_tests_cant": "All contexts, changes and orders.", "anchors": ["fca/algorithms/filtering/stability.py::compute_istability", "fca/algorithms/filtering/stability.py::compute_estability", "fca/context.py::Context.add_object_with_intent", "fca/context.py::Context.delete_object", "fca/context.py::Context.add_attribute_with_extent", "fca/context.py::Context.delete_attributes"]}
{"id": "C130", "title": "Laws of the product of contexts", "statement": "The product is associative (both bracketings succeed and give the same objects, attributes and table), transposing a product is the product of the transposed factors in the other order, a context relating each name only to itself is a unit on either side, and the intent of an object in the product is the union of the second factor's intents of the objects named by its intent in the first factor. The product does not commute.", "quantifier": "all contexts without duplicate names that have objects (for the transposed product and the right unit also attributes) and whose adjacent name lists are equal; exists a witness for the last sentence", "why_tests_cant": "All contexts.", "anchors": ["fca/context.py::Context.__mul__", "fca/context.py::Context.transpose", "fca/context.py::Context.get_object_intent"]}
{"id": "C131", "title": "How many concepts and implications there are, and how changes affect their number", "statement": "A context with n objects and m attributes has at most 2^n concepts, and its concepts and the implications of its Duquenne-Guigues basis together are at most 2^m; both bounds are reached. Adding an object or attribute keeps the number of concepts or raises it, to at most twice as many, and adding an object keeps it exactly if its row already was an intent. Deleting an object never raises the number and at most halves it; deleting k attributes never raises it and leaves at least one in 2^k.", "quantifier": "every context without duplicate names (comparable, for the basis; with an object, for changes of attributes), every new name and set, every object and every list of different attributes", "why_tests_cant": "All contexts and changes.", "anchors": ["fca/algorithms/norris.py::norris", "fca/algorithms/dg_basis.py::compute_dg_basis", "fca/context.py::Context.add_object_with_intent", "fca/context.py::Context.add_attribute_with_extent", "fca/context.py::Context.delete_object", "fca/context.py::Context.delete_attributes"]}
{"id": "C132", "title": "What the constructor and the operations of contexts report", "statement": "The constructor logs nothing exactly if no name is repeated or the sizes do not fit; otherwise, if no name looks like a generated one, one line for each repeated attribute and then one for each repeated object, in the order of first occurrences, naming it and all its positions. Logging does not change the result. The ValueError for sizes that do not fit states both numbers: equal messages mean the same complaint with equal numbers. The ValueError for unknown attribute names has a line for each of them. The message of a MultiplicationException announces two numbers but is the same text for all contexts.", "quantifier": "all tables and lists of names, all orders of iterating over a set; exists a witness for the last sentence", "why_tests_cant": "All names, repetitions and positions.", "anchors": ["fca/context.py::Context.__init__", "fca/context.py::Context._check_attribute_names", "fca/context.py::MultiplicationException.__str__"]}
{"id": "C133", "title": "The attribute implications of a context are those of the table its getters show", "statement": "As long as no basis computation of a context has raised, get_attribute_implications returns the basis of the current table and leaves the context as it was. In any state the result is the one of a new context with the rows and columns that get_object_intent and get_attribute_extent return, which return the same afterwards; a call that raises leaves one more caching wrapper on each getter. Once a wrapper is left and every getter has been called, the result stays the basis of that table for ever, whatever is changed, as long as the names are the same. So after a failed object_implications and a change the implications returned need not hold in the context, and if only the rows were read before the change the result mixes two tables: some of its implications fail in the old, some in the new one.", "quantifier": "every context, every history of changes, reads and basis computations, all background implications, every cond and iteration order; exists witnesses for the last sentence", "why_tests_cant": "All histories and contexts.", "anchors": ["fca/context.py::Context.get_attribute_implications", "fca/context.py::Context.get_object_implications", "fca/context.py::basis_computation", "fca/context.py::memo", "fca/algorithms/closure_operators.py::aclosure"]}
{"id": "C134", "title": "The incremental basis is that of the table the getters show, the same as for the other algorithm", "statement": "get_attribute_canonical_basis returns compute_canonical_basis of the current table, and leaves the context as it was, as long as no basis computation of the context has raised. In any state it returns the result of a new context with the rows and columns that the getters return, which return the same afterwards, and a call that raises leaves one more caching wrapper on each getter; get_attribute_implications called before or after looks at the same table. Once a wrapper is left and every getter has been called, the result stays the basis of that table for ever, whatever is changed, as long as the names are the same, and so may contain implications that do not hold in the context.", "quantifier": "every context without duplicate names, every history of changes, reads and basis computations, every sorting; exists a witness for the last statement", "why_tests_cant": "All histories and contexts.", "anchors": ["fca/context.py::Context.get_attribute_canonical_basis", "fca/context.py::Context.get_attribute_implications", "fca/context.py::basis_computation", "fca/algorithms/aibasis.py::compute_canonical_basis", "fca/algorithms/aibasis.py::kclosure"]}
{"id": "C135", "title": "How many steps the closures and Norris' algorithm take", "statement": "simple_closure with n implications makes at most n+1 passes and tests premises at most n(n+1)/2 times. lin_closure takes up every attribute of the closure exactly once, and decreases counters exactly as often as attributes of the closure occur in premises, hence at most as often as the premises have elements altogether. norris looks at a concept at most (number of objects) x (number of concepts found) times, and compares with an earlier object at most n(n-1)/2 times for each concept found. The bounds are reached, and counting does not change the results.", "quantifier": "all sets, lists of implications (not empty, for lin_closure) and iteration orders; every consistent context", "why_tests_cant": "All inputs; running times are not compared by tests.", "anchors": ["fca/algorithms/closure_operators.py::simple_closure", "fca/algorithms/closure_operators.py::lin_closure", "fca/algorithms/norris.py::norris"]}
{"id": "C136", "title": "The object-incremental algorithms are incremental, and what they print", "statement": "After adding an object, compute_implication_cover returns the old cover updated with the row of the new object, and norris returns the old concepts in their order, with the object added to the extents of those whose intent it has, followed by at most as many concepts with new intents, each cut out of an old concept by the new row. compute_implication_cover prints two lines for each object: its number, and the size of the cover of the context that has only the objects up to it. print_basis prints the implications between a line of stars and a line of plusses; if one cannot be printed because its names cannot be compared, only those before it and not the last line. minimize prints two lines for each implication: its number, and the size of the cover after its turn, which stays or goes down by one, down to the size of the result.", "quantifier": "every context without duplicate names, every new object and set, every iteration order, every list of implications", "why_tests_cant": "All contexts and additions.", "anchors": ["fca/algorithms/implication_covers.py::compute_implication_cover", "fca/algorithms/implication_covers.py::print_basis", "fca/algorithms/implication_covers.py::minimize", "fca/algorithms/norris.py::norris", "fca/context.py::Context.add_object_with_intent"]}
{"id": "C137", "title": "Concepts and implications of subcontexts", "statement": "extract_subcontext_filtered_by_attributes in mode 'and' gives a context whose concepts are exactly the concepts, with their extents, whose intent contains the given attributes; these keep their intensional stability; closures are closures together with the attributes (with the same KeyError for unknown names), and an implication holds if it holds with the attributes added to the premise. In mode 'or' every intent was an intent, its extent cut down to the objects kept; a closure consists of what is in the closure together with each single one of the attributes, and likewise for implications. extract_subcontext gives a context whose intents are the former intents and whose closures are the former closures, both cut down to the given attributes, in which every extent was an extent, and in which implications between the attributes hold as before.", "quantifier": "every context without duplicate names (comparable names, for stability), every list of its attributes (different, for extract_subcontext)", "why_tests_cant": "All contexts and selections.", "anchors": ["fca/context.py::Context.extract_subcontext_filtered_by_attributes", "fca/context.py::Context.extract_subcontext", "fca/context.py::Context.aclosure", "fca/algorithms/norris.py::norris", "fca/algorithms/filtering/stability.py::compute_istability"]}
{"id": "C138", "title": "Changes that undo each other, and contexts built row by row", "statement": "Adding an object or attribute and deleting it restores names and table, and so does renaming to an unused name and back, and setting a row to something else and back; a row set twice has the second value. Deleting an object and adding it again with the intent it had succeeds and moves it to the end: the context compares equal to the former one, and is unchanged if it was the last object. Adding the rows of a context, in any order, one by one to a context without objects succeeds and gives an equal context, the same table if the order is that of the objects.", "quantifier": "every context without duplicate names (with an object, for adding attributes), all objects, attributes, names and sets, every order of the objects", "why_tests_cant": "All contexts and changes.", "anchors": ["fca/context.py::Context.add_object_with_intent", "fca/context.py::Context.add_attribute_with_extent", "fca/context.py::Context.delete_object", "fca/context.py::Context.delete_attribute", "fca/context.py::Context.rename_object", "fca/context.py::Context.rename_attribute", "fca/context.py::Context.set_object_intent", "fca/context.py::Context.__eq__"]}
{"id": "C139", "title": "Changes made in different orders, and changes of the transposed context", "statement": "A new object with an intent and a new attribute with an extent can be added in either order with the same result exactly if the two agree about the new cell; the same for setting a row and a column. Two new objects can be added in either order: the contexts compare equal and differ in the order of the objects only. Setting the rows of two objects in either order gives the same. Adding, deleting, setting or renaming an object and transposing gives the same names and table as transposing and doing the same to the attribute.", "quantifier": "every context without duplicate names (with an object, or with an attribute for the last sentence), all names and sets", "why_tests_cant": "All contexts and pairs of changes.", "anchors": ["fca/context.py::Context.add_object_with_intent", "fca/context.py::Context.add_attribute_with_extent", "fca/context.py::Context.set_object_intent", "fca/context.py::Context.set_attribute_extent", "fca/context.py::Context.delete_object", "fca/context.py::Context.delete_attribute", "fca/context.py::Context.rename_object", "fca/context.py::Context.rename_attribute", "fca/context.py::Context.transpose", "fca/context.py::Context.__eq__"]}
{"id": "C140", "title": "The concepts kept by extent or intent size keep their neighbours", "statement": "With filter_concepts by extent size and any threshold, every concept more general than one that is kept is kept; the parents of a concept in the resulting system are exactly its parents in the lattice, and its children are its children in the lattice that are kept. By intent size every more special concept is kept, the children are exactly those in the lattice, and the parents those in the lattice that are kept. By stability this fails: a parent in the result need not be a parent in the lattice.", "quantifier": "every context without duplicate names with comparable names and an object or attribute, every float threshold; exists a witness for the last statement", "why_tests_cant": "All contexts and thresholds.", "anchors": ["fca/algorithms/filtering/filter.py::filter_concepts", "fca/algorithms/filtering/extentsize.py::compute_extent_size", "fca/algorithms/filtering/intentsize.py::compute_intent_size", "fca/concept_system.py::ConceptSystem.parents", "fca/concept_system.py::ConceptSystem.children", "fca/concept_lattice.py::ConceptLattice.parents"]}
{"id": "C141", "title": "Filtering with different thresholds", "statement": "For each of the five indices (stabilities, separation, sizes) a higher threshold keeps a part of the concepts that a lower one keeps, in the same order; the threshold 0 keeps every concept once, NaN and thresholds above 1.0 keep none, without an error. With the threshold 1 the extent size keeps exactly the top concept and the intent size exactly the bottom concept, for fewer than 2^53 objects or attributes.", "quantifier": "every context without duplicate names with comparable names, an object and an attribute; all float thresholds, infinities and NaN included; every order in which sets are popped", "why_tests_cant": "All contexts and pairs of thresholds.", "anchors": ["fca/algorithms/filtering/filter.py::filter_concepts", "fca/algorithms/filtering/stability.py::compute_istability", "fca/algorithms/filtering/stability.py::compute_estability", "fca/algorithms/filtering/separation.py::compute_separation_index", "fca/algorithms/filtering/extentsize.py::compute_extent_size", "fca/algorithms/filtering/intentsize.py::compute_intent_size"]}
{"id": "C142", "title": "Suprema, infima, the table and the basis are determined by the concepts found", "statement": "For every set of concepts that norris found it also found the largest concept below all of them, whose extent is what their extents have in common, and the smallest concept above all of them, whose intent is what their intents have in common. An object has an attribute exactly if some concept found contains both. Every object has a smallest and every attribute a largest concept among those found; the object has the attribute exactly if the former is below the latter; every concept is the supremum of the concepts of its objects and the infimum of those of its attributes. Two contexts with the same attributes have the same Duquenne-Guigues basis exactly if the same intents are found.", "quantifier": "every context without duplicate names, all sets of concepts found; for the basis comparable names and every iteration order", "why_tests_cant": "All contexts, all sets of concepts and pairs of contexts.", "anchors": ["fca/algorithms/norris.py::norris", "fca/concept_lattice.py::ConceptLattice", "fca/algorithms/dg_basis.py::compute_dg_basis"]}
{"id": "C143", "title": "Printing concepts, and lattices as containers", "statement": "A concept prints as extent and intent in parentheses, each a list of the names in increasing order, but G for the extent if the intent is empty and M for the intent if the extent is empty. Two concepts of one context that print alike are the same; concepts of different contexts may print alike. Printing a concept, and so hashing it, raises TypeError exactly if a side that is listed has names that cannot be compared (a side is listed unless the other one is empty). A lattice or system prints its concepts in order, one to a line, without a final line end, or raises the error of the first concept that cannot be printed; the lines of a lattice are different, one for each concept. 'in' finds exactly the concepts of the context; index and access by position are inverse to each other, index raises ValueError for anything else; negative positions count from the end and positions outside raise IndexError.", "quantifier": "every context without duplicate names with comparable names (names of printable ASCII characters without quotes and backslashes, for the lines); all concepts, lists of concepts and positions; exists a witness for the refuted part", "why_tests_cant": "All names, contexts and positions.", "anchors": ["fca/concept.py::Concept.__str__", "fca/concept.py::Concept.__hash__", "fca/concept_lattice.py::ConceptLattice.__str__", "fca/concept_lattice.py::ConceptLattice.__contains__", "fca/concept_lattice.py::ConceptLattice.__getitem__", "fca/concept_lattice.py::ConceptLattice.index", "fca/concept_system.py::ConceptSystem.__str__"]}
{"id": "C144", "title": "Contexts and lattices as sequences", "statement": "len of a context is the number of its objects, and a context is false as a condition exactly if it has no objects. The entry at row i and column j, counted from the start or with negative numbers from the end, is true exactly if the object at i has the attribute at j; positions outside raise IndexError. Iterating over a context ends and gives one row for each object, in order; a context made of these rows and the names has the same names and crosses. Iterating over a lattice ends and gives each concept of the context exactly once; a lattice is never false as a condition. For any list of concepts, as in a system, 'in' finds the members, index gives the first place of a member and raises ValueError for anything else, and iteration gives the list.", "quantifier": "every context without duplicate names (comparable names, for lattices), all lists of concepts, all positions", "why_tests_cant": "All contexts, lists and positions.", "anchors": ["fca/context.py::Context.__len__", "fca/context.py::Context.__getitem__", "fca/context.py::Context.__init__", "fca/concept_lattice.py::ConceptLattice.__len__", "fca/concept_lattice.py::ConceptLattice.__getitem__"]}
{"id": "C145", "title": "Top and bottom of systems of concepts", "statement": "top_concept of a system is the first concept in its list such that none has a smaller intent, bottom_concept the first such that none has a larger one; both raise IndexError exactly for the empty system. For concepts of a context the top concept has no concept of the system strictly above it, and if one is above all others it is the top concept, likewise for bottom; but the top concept need not be above the others and can also be the bottom concept. After filter_concepts by extent size the top concept is that of the lattice, and by intent size the bottom concept is, if anything is left. A system with all concepts of a lattice, in any order, has the same top and bottom concept, parents and children as the lattice.", "quantifier": "every list of concepts; every context without duplicate names, with comparable names and every float threshold for the last statement; exists a witness for the refuted part", "why_tests_cant": "All lists of concepts, contexts and thresholds.", "anchors": ["fca/concept_system.py::ConceptSystem.get_top_concept", "fca/concept_system.py::ConceptSystem.get_bottom_concept", "fca/algorithms/filtering/filter.py::filter_concepts"]}
{"id": "C146", "title": "The order of concepts is recovered from parents and children", "statement": "In a system, after any sequence of append, remove and queries, y is among the parents of x exactly if x is among the children of y; y has a smaller intent than x exactly if y is reached from x by going from parent to parent, and exactly if x is reached from y by going from child to child. In a lattice the same holds with 'is strictly more general'; from every concept the top concept is reached by parents and the bottom concept by children.", "quantifier": "every list of concepts with comparable names and every history; every context without duplicate names with comparable names, all pairs of concepts", "why_tests_cant": "All systems, histories and contexts, paths of any length.", "anchors": ["fca/concept_system.py::ConceptSystem.parents", "fca/concept_system.py::ConceptSystem.children", "fca/concept_lattice.py::ConceptLattice.parents", "fca/concept_lattice.py::ConceptLattice.children"]}
{"id": "C147", "title": "Lattices and systems can be changed through what they hand out", "statement": "The list of concepts and the sets of parents that a lattice hands out are its own. Whatever is appended to the list and added to or discarded from the sets, context, top and bottom concept stay as they were and the list grows by what was appended. Adding y to the parents of x makes y a parent of x and x a child of y whatever the context says, and changes nothing else; discarding it again restores the parents. After appending something new to the list it is a member, its parents raise KeyError, and so do the children of every concept. In a system a change of a set of parents lasts until something is appended or removed; then the parents are the covers again.", "quantifier": "every context without duplicate names with comparable names, all concepts, every sequence of changes; every system with any history", "why_tests_cant": "All contexts, systems and sequences of changes.", "anchors": ["fca/concept_lattice.py::ConceptLattice.get_concepts", "fca/concept_lattice.py::ConceptLattice.parents", "fca/concept_lattice.py::ConceptLattice.children", "fca/concept_system.py::ConceptSystem.parents", "fca/concept_system.py::ConceptSystem.append", "fca/concept_system.py::ConceptSystem.remove"]}
