{"id": "C01", "title": "Integer constants round-trip and stay in range", "statement": "A constant integer of log-width lw can be built from an unsigned value v exactly when v < 2^(2^lw) and from a signed value exactly when -2^(2^lw-1) <= v < 2^(2^lw-1); reading it back with the matching accessor returns the value supplied, the signed and unsigned readings of one constant are congruent modulo 2^(2^lw), and every other request is reported as an error rather than silently truncated.", "quantifier": "every log-width 0..6 (and every rejected log-width), every u64 / i64 value", "why_tests_cant": "The value space is 2^64 per width; the failures of interest sit at the boundary values of each width.", "anchors": ["hugr-core/src/std_extensions/arithmetic/int_types.rs: ConstInt::new_u, ConstInt::new_s, ConstInt::value_u, ConstInt::value_s, is_valid_log_width"]}
{"id": "C02", "title": "Folding ring and bitwise integer operations computes the specified value", "statement": "When constant folding replaces iadd, isub, imul, ineg, iand, ior, ixor or inot applied to constants of width N = 2^lw, the resulting constant is the mathematical result reduced modulo 2^N (bitwise operations: the operation on the N-bit two's-complement words), and it is a valid constant of the same width.", "quantifier": "every log-width 0..6 and all pairs of N-bit operands", "why_tests_cant": "2^128 operand pairs at width 64; tests sample a handful.", "anchors": ["hugr-core/src/std_extensions/arithmetic/int_ops/const_fold.rs: set_fold", "hugr-core/src/std_extensions/arithmetic/int_ops.rs: IntOpDef::description"]}
{"id": "C03", "title": "Folding division and modulus satisfies the Euclidean equation", "statement": "When folding replaces a division/modulus operation (signed or unsigned, panicking or checked) with non-zero divisor m by constants q and r, then q*m + r = n and 0 <= r < m, where m is always read as unsigned and n, q are read as signed in the signed variants; division by zero is left unfolded in the panicking form and becomes the error variant in the checked form.", "quantifier": "every log-width 0..6, every dividend and every divisor including the extreme signed dividend and divisors above the signed maximum", "why_tests_cant": "The defect-prone points are isolated (most negative dividend, divisor larger than the signed range).", "anchors": ["hugr-core/src/std_extensions/arithmetic/int_ops/const_fold.rs: set_fold (idivmod_s, idiv_s, imod_s, *_checked_*)", "hugr-core/src/std_extensions/arithmetic/int_ops.rs"]}
{"id": "C04", "title": "Folding comparisons, min/max, widening, narrowing and sign conversions respects integer value", "statement": "Folded comparisons return true exactly when the corresponding order holds of the signed/unsigned readings; min/max return the lesser/greater operand; widening preserves the (signed/unsigned) reading; narrowing succeeds with the same reading exactly when the reading fits the target width and otherwise yields the error variant; absolute value and sign conversions preserve the reading when it is representable.", "quantifier": "every source and target log-width and every operand", "why_tests_cant": "Depends on sign extension at every width boundary; exhaustive testing is infeasible at width 64.", "anchors": ["hugr-core/src/std_extensions/arithmetic/int_ops/const_fold.rs: set_fold (inarrow_*, iwiden_*, i*_s, i*_u, iabs, is_to_u, iu_to_s)"]}
{"id": "C05", "title": "Folding shifts, rotations and powers matches their documentation for every shift amount", "statement": "ishl/ishr by k shift in zeros (giving 0 once k reaches the width), rotl/rotr by k rotate by k modulo the width, ipow raises to the given unsigned exponent modulo 2^N; the fold never aborts on any operand pair.", "quantifier": "every width, every operand, every shift amount or exponent representable in the width", "why_tests_cant": "Shift amounts at or above the machine word, zero rotations and huge exponents are single points of a 2^128 space.", "anchors": ["hugr-core/src/std_extensions/arithmetic/int_ops/const_fold.rs: set_fold (ishl, ishr, irotl, irotr, ipow)"]}
{"id": "C06", "title": "LLVM lowering of integer operations agrees with the operation specification", "statement": "The instruction sequence emitted for each integer operation at widths 8,16,32,64 never executes undefined behaviour on operands for which the operation is specified, and leaves the specified value in the result.", "quantifier": "every lowered integer operation, every width with an exact LLVM type, all operands", "why_tests_cant": "Integration tests execute a few operand pairs; undefined behaviour need not be visible on a given host.", "anchors": ["hugr-llvm/src/extension/int.rs: make_divmod, emit_ipow, make_narrow, emit_int_op, llvm_type"]}
{"id": "C07", "title": "Envelope header round-trip and canonical acceptance", "statement": "Writing an envelope header and reading it back yields the same header and consumes exactly the bytes written, leaving the payload untouched; conversely any byte string whose header is accepted carries the magic number, a known format byte and only known flag bits, and every accepted header is the encoding of the header returned.", "quantifier": "every header value and every byte string (of any length) presented to the reader", "why_tests_cant": "Quantifies over all byte strings, including malformed ones of every length.", "anchors": ["hugr-core/src/envelope/header.rs: EnvelopeHeader::read, EnvelopeHeader::write, EnvelopeFormat, EnvelopeConfig"]}
{"id": "C08", "title": "Operation tags form a partial order consistent with the declared hierarchy", "statement": "The tag inclusion test is reflexive, transitive and antisymmetric, has the universal tag as greatest element, the 'none' tag below nothing else, and coincides with the reflexive-transitive closure of the declared immediate-parent relation.", "quantifier": "all pairs and triples of tags", "why_tests_cant": "Unit tests check chosen pairs; the order laws are universally quantified and the loop must terminate on every pair.", "anchors": ["hugr-core/src/ops/tag.rs: OpTag::is_superset, OpTag::immediate_supersets"]}
{"id": "C09", "title": "An extension registry resolves version conflicts independently of insertion order", "statement": "After any sequence of 'update-or-add' registrations the registry holds, for each extension name, an extension of the greatest version ever offered for that name (the first one offered among ties) and nothing else; plain registration never overwrites an existing entry and reports the conflict; removal affects only the named entry.", "quantifier": "every finite history of register / register_updated / remove / extend calls", "why_tests_cant": "Must hold over unbounded histories in any order.", "anchors": ["hugr-core/src/extension.rs: ExtensionRegistry::register, register_updated, register_updated_ref, remove_extension, extend, new"]}
{"id": "C10", "title": "The registry's cached validity never outlives a change", "statement": "Whenever the registry reports success from validation (including by short-circuit on its cached flag), every extension currently stored passes validation against the current content.", "quantifier": "every history of mutations interleaved with validate calls", "why_tests_cant": "A stale cache appears only after particular interleavings.", "anchors": ["hugr-core/src/extension.rs: ExtensionRegistry::validate, register, register_updated, remove_extension"]}
{"id": "C11", "title": "Joining abstract values is a least upper bound", "statement": "For well-typed abstract dataflow values, join is commutative, associative and idempotent, returns the least element above both arguments in the comparison order, has Bottom as unit and Top as absorbing element, and reports 'changed' exactly when the left argument grew.", "quantifier": "all abstract values of any nesting depth (sums of sums)", "why_tests_cant": "Nested sums give unboundedly many shapes; proptest samples small ones.", "anchors": ["hugr-passes/src/dataflow/partial_value.rs: PartialValue::try_join_mut, PartialSum::try_join_mut, PartialOrd, Lattice::join_mut"]}
{"id": "C12", "title": "Meeting abstract values is a greatest lower bound", "statement": "For well-typed abstract dataflow values, meet is commutative, associative and idempotent and returns the greatest element below both, with Top as unit and Bottom absorbing, and reports 'changed' exactly when the left argument shrank.", "quantifier": "all abstract values of any nesting depth", "why_tests_cant": "As for join; additionally the 'changed' flag is only wrong on particular key sets.", "anchors": ["hugr-passes/src/dataflow/partial_value.rs: PartialValue::try_meet_mut, PartialSum::try_meet_mut, Lattice::meet_mut"]}
{"id": "C13", "title": "Abstract values soundly describe concrete values", "statement": "If a concrete value is described by an abstract value then it is described by the join of that value with any other; reading a row of variant k out of an abstract sum and converting a fully-known abstract value to a constant both return exactly the described concrete data; a described set never loses elements under join and the meet describes exactly the values described by both.", "quantifier": "all concrete values and abstract values", "why_tests_cant": "Soundness of a lattice w.r.t. concretisation is an infinite family of facts.", "anchors": ["hugr-passes/src/dataflow/partial_value.rs: PartialValue::try_into_concrete, variant_values, supports_tag, contains_bottom"]}
{"id": "C14", "title": "Variable scope table behaves as a stack of scopes", "statement": "Under any sequence of entering/leaving scopes and inserting variables (with distinct scope owners on the stack), resolving a name returns exactly the variable of that name inserted in the innermost scope, with its insertion index; duplicates are reported; leaving a scope restores the previous answers exactly.", "quantifier": "every operation history", "why_tests_cant": "The implementation shares one table among scopes with truncation; errors show up only after particular nestings.", "anchors": ["hugr-model/src/v0/scope/vars.rs: VarTable"]}
{"id": "C15", "title": "Link scope table behaves as a stack of scopes", "statement": "Under any sequence of entering/leaving isolated regions and resolving or creating links, the same name used twice in one region visit yields the same link, different names different links, names never leak across regions, and the link counts reported at exit equal the number of distinct links created.", "quantifier": "every operation history", "why_tests_cant": "Shared-table implementation with truncation; needs all nestings.", "anchors": ["hugr-model/src/v0/scope/link.rs: LinkTable"]}
{"id": "C16", "title": "Symbol table implements shadowing and restores bindings", "statement": "Under any sequence of entering/leaving scopes and inserting symbols, resolving a name returns the innermost binding of that name; inserting a name already bound in the same scope is reported as a duplicate and changes nothing; leaving a scope re-exposes exactly the bindings it shadowed; a binding is reported visible exactly when resolving its name returns it.", "quantifier": "every operation history", "why_tests_cant": "Needs arbitrary shadowing chains.", "anchors": ["hugr-model/src/v0/scope/symbol.rs: SymbolTable"]}
{"id": "C17", "title": "Instantiating type parameters preserves copyability", "statement": "If type arguments fit the declared parameters, then instantiating any type with them gives a type at least as permissive: a copyable type stays copyable, and rows, sums, functions and extension types get the bound determined by their components.", "quantifier": "every type (any nesting) and every list of arguments that fits its parameters", "why_tests_cant": "Types and argument lists are unbounded trees.", "anchors": ["hugr-core/src/types.rs: Type::substitute, TypeBound, SumType", "hugr-core/src/types/type_param.rs: check_term_type, Term::substitute"]}
{"id": "C18", "title": "Substitution obeys identity and composition laws", "statement": "Substituting each variable for itself leaves a term unchanged, and substituting twice equals substituting once with the substituted arguments, so instantiating in stages or at once gives the same type.", "quantifier": "every term, type and row, all argument lists long enough for the variables used", "why_tests_cant": "Infinite syntax; each constructor must be handled.", "anchors": ["hugr-core/src/types/type_param.rs: Term::substitute", "hugr-core/src/types.rs: Substitution, TypeBase::substitute", "hugr-core/src/types/type_row.rs: TypeRowBase::substitute"]}
{"id": "C19", "title": "Sub-kinding of type parameters is a preorder and arguments respect it", "statement": "The 'may be used where' relation between parameter kinds is reflexive and transitive, and an argument accepted for a kind is accepted for every larger kind.", "quantifier": "all kinds (terms) and arguments", "why_tests_cant": "Transitivity quantifies over triples of unbounded trees.", "anchors": ["hugr-core/src/types/type_param.rs: Term::is_supertype, check_term_type, UpperBound::contains"]}
{"id": "C20", "title": "Arguments accepted by the parameter check make instantiation well-scoped", "statement": "If the arguments are accepted for the parameters of a polymorphic signature and mention only variables of the outer context, then the instantiated signature mentions only variables of the outer context, has no row variable left when all row arguments are closed, and its length equals the sum of the lengths of the substituted parts.", "quantifier": "every polymorphic signature and accepted argument list", "why_tests_cant": "Unbounded signatures; row variables change arity.", "anchors": ["hugr-core/src/types/poly_func.rs: PolyFuncTypeBase::instantiate", "hugr-core/src/types/type_param.rs: check_term_types", "hugr-core/src/types/type_row.rs"]}
{"id": "C21", "title": "Graph mutation preserves the hierarchy invariants", "statement": "Starting from a fresh HUGR, after any sequence of mutator calls that respect the documented preconditions, every node except the module root has exactly one parent which lists it exactly once among its children, following parents always reaches the module root, links join only existing ports, and the module root and entrypoint exist.", "quantifier": "every finite sequence of add_node_*, remove_node, move_*, connect, disconnect, remove_subtree, set_entrypoint calls", "why_tests_cant": "Invariant over unbounded histories.", "anchors": ["hugr-core/src/hugr/hugrmut.rs: HugrMut", "hugr-core/src/hugr/internal.rs: HugrMutInternals", "hugr-core/src/hugr.rs: Hugr"]}
{"id": "C22", "title": "Removing a node or subtree removes exactly it and its incident edges", "statement": "Removing a subtree deletes exactly the node and its descendants and the links touching them; all other nodes keep operation, parent, child order and links; a node created later starts with no metadata and no links.", "quantifier": "every hugr and node", "why_tests_cant": "Depends on index reuse and on arbitrary surrounding structure.", "anchors": ["hugr-core/src/hugr/hugrmut.rs: remove_node, remove_subtree", "hugr-core/src/hugr/internal.rs: delete_port / remove", "hugr-core/src/hugr.rs: add_node"]}
{"id": "C23", "title": "Inserting a HUGR copies it faithfully and leaves the host unchanged", "statement": "Inserting one HUGR under a node of another returns an injective node map onto fresh nodes such that operations, child order, links among inserted nodes and metadata are the images of the originals, and every pre-existing node keeps its operation, parent, links and metadata (the chosen parent only gains the inserted root as last child).", "quantifier": "all pairs of hugrs and parents", "why_tests_cant": "Quantifies over all graphs and all index layouts.", "anchors": ["hugr-core/src/hugr/hugrmut.rs: insert_hugr, insert_from_view, insert_forest, insert_forest_internal, copy_descendants"]}
{"id": "C24", "title": "Canonical renumbering is an isomorphism", "statement": "Renumbering the nodes into canonical order yields a HUGR isomorphic to the original: operations, hierarchy with child order, links, metadata, module root and entrypoint are carried along, and the reported renumbering is the actual one.", "quantifier": "every hugr and every node numbering", "why_tests_cant": "The permutation is applied by swaps; errors need particular cycle structure.", "anchors": ["hugr-core/src/hugr.rs: Hugr::canonicalize_nodes, canonical_order"]}
{"id": "C25", "title": "Serialising and deserialising a HUGR is lossless up to renumbering", "statement": "Decoding the JSON form of a HUGR gives an isomorphic HUGR: same operations, hierarchy and child order, links including port offsets and multiplicity, metadata, and entrypoint.", "quantifier": "every hugr satisfying the structural invariants", "why_tests_cant": "All graphs, all numberings, gaps in numbering, order-edge encoding.", "anchors": ["hugr-core/src/hugr/serialize.rs: SerHugrLatest, TryFrom<&Hugr>, TryFrom<SerHugrLatest> for Hugr"]}
{"id": "C26", "title": "The acyclicity check accepts exactly acyclic regions", "statement": "Validation reports a region as non-DAG exactly when its children, with their local edges and the edges induced by non-local connections that it considers, contain a directed cycle.", "quantifier": "every region graph", "why_tests_cant": "Graphs of every size.", "anchors": ["hugr-core/src/hugr/validate.rs: validate_children_dag", "hugr-core/src/hugr/validate.rs: validate_edge"]}
{"id": "C27", "title": "A validated HUGR wires every linear value exactly once and every input exactly once", "statement": "If validation succeeds then every dataflow value/const/control-flow port with a unique-connection requirement has exactly one link, every other value input has exactly one source, linked ports have equal kinds, and no edge crosses a function boundary except static ones.", "quantifier": "every hugr accepted by validation", "why_tests_cant": "Soundness of a checker over all inputs.", "anchors": ["hugr-core/src/hugr/validate.rs: validate_port, validate_edge, validate_subtree"]}
{"id": "C28", "title": "A validated HUGR respects container structure", "statement": "If validation succeeds then every child of a node has a tag allowed by its parent, dataflow containers start with Input and then Output whose rows match the container signature, a Conditional has one Case per variant of its selector with matching rows, a CFG starts with an entry block and a single exit block second and every branch edge's row equals the target's input row.", "quantifier": "every hugr accepted by validation", "why_tests_cant": "Soundness of a checker over all inputs.", "anchors": ["hugr-core/src/hugr/validate.rs: validate_children", "hugr-core/src/ops/validate.rs: validate_op_children, validate_io_nodes, validate_cfg_edge"]}
{"id": "C29", "title": "Dead-code elimination keeps everything that can affect results", "statement": "After dead-code elimination every node that is an entry point, or is reachable from one by the documented 'needed' relation, is still present with its inputs; every removed node is unneeded; running it again removes nothing.", "quantifier": "every hugr, every set of entry points and every preservation callback", "why_tests_cant": "Closure property over arbitrary graphs; a missed dependency appears only on particular shapes.", "anchors": ["hugr-passes/src/dead_code.rs: DeadCodeElimPass::find_needed_nodes, must_preserve, run"]}
{"id": "C30", "title": "Dead-function removal keeps exactly the reachable functions", "statement": "After the pass, a module-level function is present exactly if it is reachable in the static-use graph from the entry points (or contains the HUGR's entrypoint); calls in surviving functions still have their targets.", "quantifier": "every module and every entry-point choice", "why_tests_cant": "Arbitrary call graphs, including recursion.", "anchors": ["hugr-passes/src/dead_funcs.rs: reachable_funcs, remove_dead_funcs"]}
{"id": "C31", "title": "Forced ordering is a valid schedule", "statement": "The order-forcing pass keeps every dataflow region acyclic, orders any two children of a region that have order ports by a path, visits every inner node exactly once after all its predecessors, always picks a least-rank node among those ready, and adds fewer edges than there are children.", "quantifier": "every acyclic region and every rank function", "why_tests_cant": "All DAGs and rank functions.", "anchors": ["hugr-passes/src/force_order.rs: force_order, force_order_by_key"]}
{"id": "C32", "title": "Monomorphised names do not collide", "statement": "Two instantiations of functions receive the same mangled name only if the function name and the type arguments coincide.", "quantifier": "all function names and all argument lists", "why_tests_cant": "Injectivity over strings with escaping.", "anchors": ["hugr-passes/src/monomorphize.rs: mangle_name, escape_dollar, write_type_arg_str"]}
{"id": "C33", "title": "CFG edge classes group exactly the cycle-equivalent edges", "statement": "Two edges of a control-flow graph (with a virtual exit-to-entry edge) are put in the same class exactly when every cycle through one passes through the other.", "quantifier": "all control-flow graphs", "why_tests_cant": "All graphs; errors appear only on particular nestings of loops.", "anchors": ["hugr-passes/src/nest_cfgs.rs: EdgeClassifier, BracketList, get_edge_classes"]}
{"id": "C34", "title": "Inlining a DFG preserves wiring", "statement": "Inlining a nested dataflow graph removes it together with its Input and Output, reparents its other children to the enclosing region, and connects each former user of an inner input/outer output to exactly the source that fed it before; all other links are unchanged.", "quantifier": "every hugr and every DFG node accepted by the check", "why_tests_cant": "All wirings, including pass-through wires, fan-out and order edges.", "anchors": ["hugr-core/src/hugr/patch/inline_dfg.rs: InlineDFG::verify, InlineDFG::apply"]}
{"id": "C35", "title": "Subgraph replacement rewires the boundary exactly", "statement": "Applying a simple replacement removes exactly the replaced nodes, adds copies of the replacement's inner nodes, and each boundary wire is reconnected so that every consumer receives the value determined by composing the host wiring with the replacement wiring; links outside are unchanged; if verification rejects, nothing is changed.", "quantifier": "every host, convex subgraph and replacement of equal signature", "why_tests_cant": "All boundary shapes (pass-through, fan-out, permutations).", "anchors": ["hugr-core/src/hugr/patch/simple_replace.rs: SimpleReplacement::apply, incoming_boundary, outgoing_boundary, host_to_host_boundary"]}
{"id": "C36", "title": "A persistent HUGR only ever contains compatible commits", "statement": "After any sequence of successful additions, no node is deleted by two different commits and every ancestor of a commit is present; an addition that would break this is rejected.", "quantifier": "every history of commit additions, in any order", "why_tests_cant": "Unbounded histories and commit DAG shapes.", "anchors": ["hugr-persistent/src/persistent_hugr.rs: try_new, try_add_commits, try_add_replacement, find_conflicting_node, is_valid"]}
{"id": "C37", "title": "Ancestor collection is complete and ordered", "statement": "Collecting the ancestors of a set of commits yields each ancestor exactly once and lists every commit before all its ancestors.", "quantifier": "every commit DAG and every starting set", "why_tests_cant": "All DAG shapes; ordering fails only with ancestors at several depths.", "anchors": ["hugr-persistent/src/persistent_hugr.rs: get_ancestors_while"]}
{"id": "C38", "title": "Sum layout stores every field without overlap", "statement": "In the struct layout computed for a sum type, each non-empty field of each variant is assigned a struct slot of its own type, no two fields of one variant share a slot, empty fields get none, and the number of slots of each type is the maximum any single variant needs; building a variant value and reading back its tag and fields returns what was stored.", "quantifier": "all lists of variants over any ordered set of field types", "why_tests_cant": "All variant shapes.", "anchors": ["hugr-llvm/src/sum/layout.rs: layout_fields, layout_variants_impl", "hugr-llvm/src/sum.rs: build_tag, build_untag, tag_width_for_num_variants"]}
{"id": "C39", "title": "Linking one HUGR into another: directives are checked exactly and references end up at the right definition", "statement": "Linking by node accepts a set of directives exactly if every named node is a child of the module root, no host node is replaced twice, and (when a parent is given) the entrypoint neither is nor lies below an added child; an error names the actual offence and no change has been made. Otherwise the result consists of the surviving host nodes unchanged plus one copy of every node below the entrypoint and below every added child; every static reference to a replaced node comes from its replacement, every reference of an inserted node to a 'use existing' child comes from the chosen host node (or from that node's replacement), all other links are kept, the replaced subtrees are gone, and the node map lists exactly the copies. The order of iteration of the hash maps does not matter.", "quantifier": "all pairs of well-formed HUGRs, all parents, all directive maps, all allocation and iteration orders", "why_tests_cant": "All combinations of replacement and re-use directives, call structures and hash map orders; chains (re-used node that is itself replaced) in particular.", "anchors": ["hugr-core/src/hugr/linking.rs: NodeLinkingDirective, NodeLinkingError, check_directives, link_by_node, replace_static_src, HugrLinking::insert_link_view_by_node, HugrLinking::insert_link_hugr_by_node"]}
{"id": "C40", "title": "Extension names: validity and splitting", "statement": "A dotted identifier is accepted exactly when it is a non-empty dot-separated list of words that do not start with a digit; splitting off the last component and rejoining gives back the identifier, and both parts are themselves valid.", "quantifier": "all strings", "why_tests_cant": "All strings.", "anchors": ["hugr-core/src/hugr/ident.rs: IdentList::new, split_last, new_unchecked"]}
{"id": "C41", "title": "Sequencing passes composes their effects and errors", "statement": "Running 'first then second' equals running the first and, only if it succeeds, the second, on the same HUGR; error mapping changes only the reported error; the validating wrapper reports an error iff validation fails before or after; the conditional combinator runs its second pass exactly when the first returns true.", "quantifier": "all passes and all hugrs", "why_tests_cant": "Second-order: quantifies over passes.", "anchors": ["hugr-passes/src/composable.rs: ComposablePass::then, map_err, ValidatingPass, IfThen"]}
{"id": "C42", "title": "Transforming a type keeps its bounds right and reports changes faithfully", "statement": "Replacing extension types inside a type (the type transformation used by the type-replacement pass) yields a type whose recorded copyability bounds are those of its components, provided the replacement types are so; reporting 'no change' means the type is exactly the old one; a transformer that replaces nothing leaves every type unchanged; and an extension type whose arguments changed has been checked against its definition again.", "quantifier": "for every transformer, every set of type definitions and every type with correct cached bounds", "why_tests_cant": "Types nest arbitrarily and the cached bound of every level depends on all levels below; tests transform a few shallow types.", "anchors": ["hugr-core/src/types.rs:312-322", "hugr-core/src/types.rs:612-650", "hugr-core/src/types/type_param.rs:592-616", "hugr-core/src/types/type_row.rs:106"]}
{"id": "C43", "title": "The port functions of an operation agree with its documented layout", "statement": "For every operation type and direction, port_count is the number of ports of the documented layout (value ports of the signature, then the static port, then the order / control-flow ports), port_kind of every such port is the kind given by that layout, static_port names exactly the port with a static kind, and other_port names exactly the single port of another kind.", "quantifier": "all operation types with all signatures, both directions, all port offsets", "why_tests_cant": "Signatures, polymorphic types and numbers of control flow ports are unbounded; the tests look at a few fixed operations.", "anchors": ["hugr-core/src/ops.rs", "hugr-core/src/ops/dataflow.rs", "hugr-core/src/ops/controlflow.rs"]}
{"id": "C44", "title": "Substituting into an operation commutes with taking its signature", "statement": "If substituting type arguments into an operation gives another operation, then the dataflow signature (and the signature of the contained region) of the result is the substituted signature of the original, the class of operation and its non-value ports stay the same, and a call keeps agreeing with the instantiation of the function that it calls.", "quantifier": "all operations, all lists of type arguments", "why_tests_cant": "Types, rows and arguments are recursive and unbounded; the tests substitute into a handful of operations.", "anchors": ["hugr-core/src/ops/dataflow.rs", "hugr-core/src/ops/controlflow.rs", "hugr-core/src/ops.rs"]}
{"id": "C45", "title": "New graphs around an operation are well formed", "statement": "Hugr::new_with_entrypoint fails exactly for operations that are not containers or need a specific context (Case, DataflowBlock); otherwise the result is a well formed hierarchy under a module root whose entrypoint has the given operation, every node has the ports its operation asks for, and a dataflow operation is wired port by port to the Input and Output of a function with the same signature. It never panics.", "quantifier": "all operations with all signatures", "why_tests_cant": "The operations and their signatures are unbounded.", "anchors": ["hugr-core/src/hugr.rs"]}
{"id": "C46", "title": "Sums are stored in LLVM structs without loss and without waste", "statement": "Building the LLVM representation of a sum type never fails or panics; tagging succeeds exactly for a variant index in range with values of that variant's types; reading the tag of a tagged value gives the index back and untagging it with that index gives the values back (elided types excepted, which carry no information); the struct has no more fields of any type than every layout that keeps the variants apart needs, and the tag is the narrowest integer that can index the variants.", "quantifier": "all lists of variants over any totally ordered set of LLVM types, all values, every predicate of elidable types", "why_tests_cant": "The layout tests cover a handful of type lists; aliasing of two fields of one variant would depend on the multiplicities and order of types in all variants.", "anchors": ["hugr-llvm/src/sum/layout.rs: layout_fields, layout_variants_impl", "hugr-llvm/src/sum.rs: LLVMSumTypeEnum::try_new, build_tag, build_get_tag, build_untag, tag_width_for_num_variants"]}
{"id": "C47", "title": "Conversions between integers, floats, booleans and strings respect the value", "statement": "Constant folding trunc_u<N>/trunc_s<N> of a float gives the success variant holding the float's value rounded towards zero if that integer is a value of int<N>, and the error variant otherwise (also for NaN and infinities); the code emitted for LLVM gives the same variant and integer. convert_u/convert_s give the float nearest to the integer, ties to even, in both. An integer of absolute value below 2^53 survives a conversion to float and back. itobool/ifrombool and itousize/ifromusize are inverse to each other, itostring gives the decimal notation without leading zeros. No folder unwinds.", "quantifier": "all f64 bit patterns, all widths N = 2^0..2^6, all integers of the width", "why_tests_cant": "There are 2^64 floats; the wrong ones sit at the edges of the ranges (127.0 as int<8>, -0.5 as unsigned, 2^64), and tests sample a few round values.", "anchors": ["hugr-core/src/std_extensions/arithmetic/conversions/const_fold.rs:39-258", "hugr-llvm/src/extension/conversions.rs:36-246"]}
{"id": "C48", "title": "Folding and lowering of float operations follow IEEE 754", "statement": "Folding the float comparisons gives the comparison of the numbers, independent of the order in which the constants are supplied; the emitted comparisons give the same answers, with NaN unordered (every comparison but inequality false). ffloor, fceil, fround give the floor, ceiling and nearest integer (halves away from zero) with the sign kept, fneg and fabs the negated and absolute value, fmax and fmin one of the operands that is a bound of both. Arithmetic is folded exactly when the result is finite.", "quantifier": "all pairs of valid f64 values, both orders of the constants", "why_tests_cant": "Finitely many sample floats say nothing about the comparison of arbitrary exponents, about NaN operands at run time, or about rounding at halves and at integers near 2^52.", "anchors": ["hugr-core/src/std_extensions/arithmetic/float_ops/const_fold.rs:25-131", "hugr-llvm/src/extension/float.rs:45-112"]}
{"id": "C49", "title": "Folding a boolean operation with some constant inputs never contradicts the operation", "statement": "If LogicOp::fold returns a boolean for constants at some of the inputs, then the operation gives that boolean for every choice of the remaining inputs, and it returns one whenever the constants determine the result. The emitted code computes the operation.", "quantifier": "all five operations, all partial assignments of constants to ports in any order, all values of the unknown inputs", "why_tests_cant": "The existing tests check three partial cases per operation and miss the one that is wrong (equality with a single false input).", "anchors": ["hugr-core/src/std_extensions/logic.rs:28-65", "hugr-llvm/src/extension/logic.rs:18-54"]}
{"id": "C50", "title": "The dataflow analysis over-approximates every execution", "statement": "Run Machine::run on a HUGR with initial values that allow the actual inputs of a container. In every state that an execution starting there can reach, the value on each output wire of the activations (of the start and of called functions) is allowed by the lattice value that read_out_wire reports, so a single reported value is the actual one and a wire reported as bottom carries nothing; a loop reported as NeverBreaks (NeverContinues) never breaks (continues); cases and blocks reported as unreachable are never entered. This is so for every order in which the rules are applied.", "quantifier": "all HUGRs whose block outputs have one successor, all sound contexts, all initial values, all executions of any length with any nesting of loops, conditionals, CFGs, direct, indirect and recursive calls, all orders of rule application", "why_tests_cant": "Soundness is about all executions of all programs, including loops with any number of iterations and recursive calls; tests compare the result on a few graphs with values computed by hand.", "anchors": ["hugr-passes/src/dataflow/datalog.rs:40-480", "hugr-passes/src/dataflow/results.rs:20-131"]}
{"id": "C51", "title": "The text form of a package is read back as the package", "statement": "Printing a hugr-model Package (or a Term, Node or Region) with Display and parsing the text with FromStr gives the same value back, up to dissolving lists spliced directly into lists and tuples spliced into tuples, however the pretty printer breaks the lines; so two packages with the same text are equal up to this.", "quantifier": "all terms, nodes, regions and packages of any size and nesting whose names are legal, all string, byte and number literals, all layouts of the printed document", "why_tests_cant": "The grammar is an ordered-choice grammar without word boundaries and the printer has no escape for names: correctness depends on every name, literal and neighbour combination and on the line breaks the width of 80 happens to produce; tests cover a few files.", "anchors": ["hugr-model/src/v0/ast/print.rs:1-460", "hugr-model/src/v0/ast/parse.rs:1-467", "hugr-model/src/v0/ast/hugr.pest:1-110"]}
{"id": "C52", "title": "Constant folding of list, tuple, Noop and load_nat operations computes the operation", "statement": "Given constants for all inputs of pop, push, get, set, insert, length, MakeTuple, UnpackTuple, Noop or load_nat, in any order, constant_fold returns constants for all output ports, each of the type in the signature of the operation, with the contents that the documented operation produces; with inputs missing it returns nothing.", "quantifier": "all element types, all lists and tuples of any length and nesting, all indices, all orders of the inputs", "why_tests_cant": "The folders are generic in the element type and index; tests fold a few short lists of usize values and compare with constants built by the same helpers, so a result of the wrong type or on the wrong port is not noticed.", "anchors": ["hugr-core/src/std_extensions/collections/list/list_fold.rs:15-138", "hugr-core/src/std_extensions/collections/list.rs:147-209", "hugr-core/src/extension/prelude.rs:322-447", "hugr-core/src/extension/prelude.rs:618-640"]}
{"id": "C53", "title": "Validated constants are well-typed", "statement": "A Value that is well-typed all the way down passes Value::validate and get_type reports its type; conversely a Value that validate accepts is well-typed all the way down.", "quantifier": "all constants of any nesting of sums, lists, usize and other custom constants", "why_tests_cant": "Constants nest without bound; tests try a handful, none of which nests a list in a sum.", "anchors": ["hugr-core/src/ops/constant.rs:335-361", "hugr-core/src/ops/constant.rs:487-503", "hugr-core/src/types/check.rs:64-97", "hugr-core/src/std_extensions/collections/list.rs:100-126"]}
{"id": "C54", "title": "The LLVM code for list operations computes the operations", "statement": "With runtime functions that implement the operations on lists in memory, the values returned by the code that emit_list_op emits are those of the documented list operations: for set the old element on success and the given element on failure.", "quantifier": "all runtimes, all lists, elements and indices", "why_tests_cant": "The runtime functions are external, so the tests only compare the emitted LLVM text with snapshots.", "anchors": ["hugr-llvm/src/extension/collections/list.rs:199-290", "hugr-llvm/src/emit/func.rs:326-359"]}
{"id": "C55", "title": "Resolving a module to tables and reading it back keeps the module", "statement": "Module::resolve accepts a model AST exactly when every variable is a parameter of the symbol it is used in, no symbol declares a parameter twice and no region declares a symbol twice, and it never panics. Converting the resulting table module back with as_ast gives the same module, with links renamed to numbers injectively within each scope and one import added for every symbol that is used but not in scope.", "quantifier": "all modules whose indices fit their integer types, any nesting of regions, functions and terms; any order of hash map iteration", "why_tests_cant": "Resolution shares equal terms between tables and depends on nesting, shadowing and forward references across scopes; the tests check two small modules.", "anchors": ["hugr-model/src/v0/ast/resolve.rs:38-358", "hugr-model/src/v0/ast/view.rs:6-162", "hugr-model/src/v0/table/mod.rs:147-157", "hugr-model/src/v0/ast/mod.rs:90-97"]}
{"id": "C56", "title": "The binary form of a package is read back as the package", "statement": "Reading the message that write_to_vec writes for a table package gives the same package, so different packages are written differently; a message is refused for its version exactly when its major version differs from the current one or its minor version is later.", "quantifier": "all packages of any number of modules, nodes, regions and terms whose ids fit their types; all version numbers", "why_tests_cant": "The round trip is tested on a fixed set of example modules; the fields share offsets of the same data section, and no example has an alias with constraints.", "anchors": ["hugr-model/src/v0/binary/write.rs:18-198", "hugr-model/src/v0/binary/read.rs:52-323", "hugr-model/capnp/hugr-v0.capnp", "hugr-model/src/lib.rs:19-28"]}
{"id": "C57", "title": "Lowered arrays and borrow arrays behave as their operations say", "statement": "A program of array and borrow array operations, lowered by the default code generation, gives the results that the operation descriptions call for and panics exactly when an element is missing or present or out of bounds as described, with the right message; it never accesses memory outside of a live allocation, uninitialised memory or poison, and plain arrays never panic. Memory that is not freed belongs to an array that is still in use.", "quantifier": "all programs that react to the results they see, any number of arrays and elements that fit in the address space, any width of usize, any offsets reached by pops", "why_tests_cant": "The masks are packed into words and every check of a whole array works on a range that starts and ends inside of a word; tests execute a few sizes, cannot observe undefined behaviour that happens to work, and do not look for leaks.", "anchors": ["hugr-llvm/src/extension/collections/borrow_array.rs:409-1684", "hugr-llvm/src/extension/collections/array.rs:305-907", "hugr-core/src/std_extensions/collections/array/array_op.rs:226-239", "hugr-core/src/std_extensions/collections/borrow_array.rs:210-225"]}
{"id": "C58", "title": "Emitted LLVM code computes what the function computes", "statement": "For a valid HUGR, whatever a call of an emitted function returns is a result that running the function in the HUGR can give: across nested dataflow graphs, conditionals, tail loops, control flow graphs, calls (direct and indirect) and constants. The emitted code never reads a mailbox or a register before it is written and never runs off the end of a block. Emission of a function without type parameters, all of whose operations have code, succeeds.", "quantifier": "all valid HUGRs, functions, inputs and runs of any length, any semantics of extension operations and declared functions", "why_tests_cant": "Tests compare the emitted text with snapshots and execute a few programs; loops and control flow graphs reuse the same mailboxes on every iteration, so errors show only for particular paths.", "anchors": ["hugr-llvm/src/emit/ops.rs:31-387", "hugr-llvm/src/emit/ops/cfg.rs:22-216", "hugr-llvm/src/emit/func.rs:127-325", "hugr-llvm/src/emit.rs:292-394", "hugr-llvm/src/sum.rs:646-675"]}
{"id": "C59", "title": "Normalizing a control flow graph keeps a HUGR valid", "statement": "normalize_cfg turns a valid HUGR into a valid HUGR: a control flow graph with a single block becomes a dataflow graph, an entry block without predecessors and with one successor moves before the graph, and a last block without other successors moves after it.", "quantifier": "all valid HUGRs and control flow graphs in them", "why_tests_cant": "The moves depend on non-local edges into and out of blocks at any depth and on blocks that cannot be reached; the tests use a few graphs without them.", "anchors": ["hugr-passes/src/normalize_cfgs.rs:34-65", "hugr-passes/src/normalize_cfgs.rs:161-339", "hugr-passes/src/normalize_cfgs.rs:448-524"]}
{"id": "C60", "title": "Dead code elimination keeps what functions compute", "statement": "After DeadCodeElimPass on a valid HUGR, each function that is still there computes exactly the results it computed before, whatever the callback says: if the entrypoint is a function or a node in one that is not a block, or if it is the module and all functions are entry points.", "quantifier": "all valid HUGRs, callbacks, functions, inputs, and meanings of extension operations", "why_tests_cant": "The tests look at which nodes are left of a few graphs; whether values used across regions, blocks or functions survive, for any graph and any number of loop iterations, needs a semantics.", "anchors": ["hugr-passes/src/dead_code.rs: DeadCodeElimPass::find_needed_nodes, must_preserve, run"]}
{"id": "C61", "title": "Constant folding keeps what functions compute", "statement": "After ConstantFoldPass on a valid HUGR, running a function with inputs that the pass was told to expect gives each result it gave before, and the HUGR is still well formed: if the entrypoint is that function, or the function is an entry point whose Input node the analysis knows nothing about, and no declared function is called.", "quantifier": "all valid HUGRs, functions, inputs, constant sources, and meanings of extension operations", "why_tests_cant": "The tests fold a few graphs and compare the constant at the output; that no wire anywhere is replaced by a constant that some execution contradicts needs the soundness of the analysis and of each rewrite, for all graphs.", "anchors": ["hugr-passes/src/const_fold.rs:57-250"]}
{"id": "C62", "title": "Builders only accept wires that may lie there", "statement": "When a dataflow or circuit builder accepts a wire whose source is visible in the region (in it, around it, or in a block of a control flow graph around it), the wire is an edge between siblings, an edge into a nested region with the order edge it needs, or an edge between blocks of one control flow graph; linear values get at most one use; the builder does not panic. When it refuses the wire, no valid HUGR could contain it, or a linear value was used already, and the HUGR is unchanged. Appending an operation to a circuit wires the tracked wires in order and tracks the outputs at the same offsets, returning the others.", "quantifier": "all well formed HUGRs under construction, nodes, ports, operations and lists of wires", "why_tests_cant": "Tests build a few programs and validate them at the end; whether some accepted wire can never be part of a valid HUGR, and whether an error is ever raised for a wire that would be fine, ranges over all nestings of regions.", "anchors": ["hugr-core/src/builder/build_traits.rs:722-850", "hugr-core/src/builder/circuit.rs:121-184"]}
{"id": "C63", "title": "Inlining a call keeps the results of functions", "statement": "When a call of a defined function is inlined, the call becomes a dataflow graph that holds a copy of the body of the function, with the same inputs, outputs and order edges; the function itself and everything else is unchanged, and every function still computes what it computed before. Nodes that are not calls and calls of declarations are refused.", "quantifier": "all valid HUGRs, all calls in them, all functions, inputs and results", "why_tests_cant": "Tests inline two or three calls and look at the operations of a few nodes; that the copy is wired like the body, that loops and nested calls behave the same, and that calls in every position can be inlined ranges over all graphs and all runs.", "anchors": ["hugr-core/src/hugr/patch/inline_call.rs:13-112", "hugr-core/src/hugr/hugrmut.rs:610-644"]}
{"id": "C64", "title": "Changing the signature of a dataflow graph rewires it and nothing else", "statement": "map_function_type succeeds exactly if all positions exist, no input is repeated, every used or linear input is kept and every linear output occurs once; otherwise it returns an error that names a violation. After success the i-th new input feeds what the chosen old input fed, the i-th new output receives what the chosen old output received, and nothing else changes, so the function computes the same up to the choice of inputs and outputs. extend_inputs adds copyable inputs and leaves every edge in place.", "quantifier": "all valid HUGRs with a function or dataflow graph as entry point, all maps of inputs and outputs", "why_tests_cant": "Tests map graphs with two or three wires; wires straight from input to output, repeated outputs, order edges, nested graphs, callers and loops as entry points combine in unboundedly many ways.", "anchors": ["hugr-core/src/hugr/views/root_checked/dfg.rs:52-342"]}
{"id": "C65", "title": "An identity is put on exactly the chosen wire, and unused constants are removed without a trace", "statement": "On a well-formed, valid HUGR: inserting an identity at an input port of a node succeeds exactly if the port carries a value. Then there is one new node, a sibling of the node and the last child of its parent; the wire that ended at the port now goes through the new node; nothing else changes; and if the identity operation can be used at every well-formed type, the HUGR stays valid, also if the wire comes from outside of the parent or from a dominating block. At any other port it is refused and the HUGR is unchanged. Removing a constant succeeds exactly if nothing is connected to it, removing a load of a constant if its value is unused and there is no order edge into it; exactly the node and its edges disappear, the HUGR stays valid, and the node to look at next (the parent, or the node that was loaded) is reported. Other nodes are refused with the matching error. Refuted: the declaration that a failed insertion changes nothing (if the parent is no dataflow graph the wire has been cut already), and that every unused load can be removed (an order edge into it makes the removal panic).", "quantifier": "for all well-formed valid HUGRs, nodes, ports, and identity operations", "why_tests_cant": "The tests insert one identity between two nodes of a small graph and remove one constant; that validity is kept for wires across regions, blocks and polymorphic functions, for every graph, and that nothing else changes, is a statement about all graphs.", "anchors": ["hugr-core/src/hugr/patch/insert_identity.rs:79-109", "hugr-core/src/hugr/patch/consts.rs:30-122"]}
{"id": "C66", "title": "A set of blocks is outlined exactly if it has one entry and one edge out of it", "statement": "Outlining moves a set of blocks of a control-flow graph into a new control-flow graph inside a new block. On a well-formed HUGR the search for the entry and the exit of the set succeeds exactly if the blocks have the same parent, it is a control-flow graph, exactly one block is entered from outside (or is the first block of the graph) and exactly one edge leads out of the set; the result does not depend on the order in which the hash set is visited. Otherwise an error is returned, the graph is unchanged, and the error names a true violation. If a valid HUGR is outlined, the blocks are children of the new control-flow graph with the entry first and the new exit second, edges from outside to the entry lead to the new block, the edge out of the set leads to the new exit, an edge from the new block leads to its old target, and nothing else is changed. If the set consists of basic blocks and can be moved, this succeeds exactly if the entry point of the HUGR is not the entry of the set. Refuted: that the result is valid if the graph was (the exit block may be in the set and is moved away; a later block may use a value computed in the set, which is then out of reach), and that there is no panic (the entry point of the HUGR may be the first block of the set; the set may contain a constant, whose edge is then taken for the exit, although the code says that its panics need an invalid HUGR).", "quantifier": "for all well-formed HUGRs, all sets of blocks in every order of visiting them", "why_tests_cant": "The tests outline a handful of sets of two example graphs; the order of a hash set cannot be controlled by a test, and the combinations of entries, exits, dominator edges and exit blocks are unbounded.", "anchors": ["hugr-core/src/hugr/patch/outline_cfg.rs:35-206"]}
{"id": "C67", "title": "Only blocks that are joined by a single edge are merged", "statement": "Merging the basic blocks of a control-flow graph merges two blocks only if an edge leads from the first to the second, no other edge leaves the first, no other edge enters the second, and the second is neither the entry nor the exit block; the number of merges is reported. If there are no such blocks the graph is unchanged, and if there are, at least one merge is done. In a valid HUGR a basic block is only merged with a basic block of the same graph. Refuted: that this never panics on a valid HUGR (a block that is its own only predecessor is merged with itself; a constant in the control-flow graph that is loaded once is taken for a block).", "quantifier": "for all HUGRs with a control-flow graph as the entry point, and every way of building the merged block", "why_tests_cant": "The tests merge a few small graphs made by the builder; which pairs are merged depends on the shape of the whole graph and the order of the work list, for unboundedly many graphs.", "anchors": ["hugr-passes/src/normalize_cfgs.rs:34-65", "hugr-passes/src/normalize_cfgs.rs:341-446"]}
