# Formal model of CQCL/hugr in Rocq (Coq 8.16.1)

The source modelled is the pinned checkout in `/repo`. It is read as text; it was
never built or run. Every Gallina definition that stands for code carries a
comment with the file and line range it transcribes, and says where it simplifies.

## Layout

One area = up to four files in `rocq/theories/`:

* `<Area>Model.v`  – transcription of the code, total computable functions, no proofs;
* `<Area>Spec.v`   – the independent specification, written without the model's helpers;
* `<Area>Proofs.v` (and further lemma files) – lemmas;
* `<Area>Props.v`  – the property theorems, each followed by `Print Assumptions`, plus
  `Example`s showing on concrete cases that the hypotheses can be met.

Conventions: panics are explicit values, `&mut self` methods return the new
state, loops are structural recursion / folds / fuel with a distinguished
out-of-fuel value (theorems show that the fuel suffices, or exclude that value).
Fixed-width arithmetic is over `Z`/`N` with the reduction written out. The order in
which hash maps and sets are iterated is arbitrary: an argument, or any permutation.
A theorem named `X_refuted` states that the property (or a sentence of the
documentation) is false of the faithful model and gives a witness; the corrected
statement is proved next to it.

## What is modelled and how it is proved

| id | modelled | proof |
|----|----------|-------|
| C01 | `ConstInt` constructors/accessors (`Int*`), words on `Z` with explicit wrap | case analysis, boundary lemmas on `2^(2^lw)` |
| C02 | fold closures for iadd…inot at word level | equality with a two's complement specification modulo `2^N` |
| C03 | fold closures of the div/mod family incl. `i64` conversions | Euclid equation; exact set of wrong operands |
| C04 | comparison/min/max/widen/narrow/sign conversion closures | order and reading preserved; exact exceptions |
| C05 | shift/rotate/power closures with Rust shift panics explicit | specification on bits; exact exceptions |
| C06 | emitted LLVM instructions as functions into values/poison/undefined (`Llvm*`) | refinement to the specification of C02–C05; exact exceptions |
| C07 | header reader/writer over byte lists (`Header*`) | round trip both ways |
| C08 | tag enum, `immediate_supersets`, `is_superset` (`Tag*`) | enumeration, closure by induction |
| C09, C10 | registry as sorted map + valid flag (`Registry*`) | induction over operation histories |
| C11–C13 | `PartialValue`/`PartialSum` as nested inductive with sorted variant maps (`PVal*`) | structural induction; concretisation |
| C14–C16 | three scope tables with index sets and stacks (`Scope*`) | refinement to a stack of scopes, induction over histories |
| C17–C20, C42 | `Term`/`Type`/`TypeRow` as mutual inductive, substitution, supertypes, checking, bounds, transformation (`Types*`) | mutual induction |
| C21–C23 | HUGR record: ports, links, hierarchy, ops, metadata; mutators; insertion (`Graph*`, `Insert*`) | invariant by induction over histories; frame lemmas |
| C24 | `canonicalize_nodes` with its swap loop (`Canon*`) | permutation argument |
| C25 | encode to node/edge/metadata lists and decode (`Serial*`, `SeqProofs`) | isomorphism by induction over the canonical order |
| C26–C28 | the whole validator (`Valid*`, `Graphs`) | equivalence with an independent specification of valid graphs |
| C29, C30 | worklists of dead code / dead functions (`Dead*`) | closure invariants, fuel bound |
| C31 | heap-based topological sort (`Order*`) | Kahn invariant |
| C32 | name mangling over strings (`Mangle*`) | injectivity of a prefix code, collisions |
| C33 | undirected DFS, bracket lists, classes, nesting (`Nest*`) | invariants; refutations by evaluation |
| C34 | `InlineDFG` (`Inline*`) | link-by-link specification |
| C35 | `SimpleReplacement`, `SiblingSubgraph` checks (`Replace*`, `Subgraph*`) | exact nodes, copies, links; equivalence of checks with specification |
| C36, C37 | commit DAG, ancestor collection, conflict check (`Persist*`) | invariant over histories |
| C38, C46 | struct layout of sums, tagging/untagging (`Sum*`, `Layout*`) | counting argument, round trip |
| C39 | linking by node (`Link*`) | exact acceptance; result for every iteration order |
| C40 | identifiers by regular-expression derivatives (`Ident*`) | equivalence to a split-on-dot specification |
| C41 | pass combinators over arbitrary states (`Pass*`) | equational |
| C43–C45 | operations, ports, signatures, substitution into operations, new graphs (`Op*`) | case analysis over operations |
| C47, C48 | `f64` as `SpecFloat`, folders and emitted conversions/comparisons (`Float*`) | statements on rational values, integer inequalities |
| C49 | folders and lowering of boolean operations (`Logic*`) | enumeration over ports, induction over constant lists |
| C50 | rules of the dataflow analysis, a small-step machine for HUGRs (`Flow*`) | simulation invariant over executions, for every rule order |
| C51 | printer (as documents) and parser of the text form (`Text*`) | structural induction with fuel, for every layout |
| C52, C53 | constants, folders of lists, tuples, Noop, load_nat (`Coll*`) | case analysis; sorting by port; nested induction over constants |
| C54 | list code generation over an abstract runtime (`Coll*`) | case analysis |
| C55 | resolution of the AST to tables, views back (`Resolve*`) | mutual induction with a state invariant; refinement of the scope tables |
| C56 | binary form: fields at the offsets of the generated accessors (`Binary*`) | computation per struct, induction over lists |
| C57 | lowering of arrays and borrow arrays to blocks of memory and bit masks (`Borrow*`) | simulation between a heap and lists with holes; bit lemmas for masks |
| C58 | emission of functions as LLVM code: dataflow regions, conditionals, loops, control flow graphs, calls (`Emit*`) | forward simulation of an abstract register machine by the semantics of C50 |
| C59 | normalization of control flow graphs (`Norm*`) | counterexamples by computation |
| C60 | what functions compute before and after dead code elimination (`Mirror*`, `Cull*`) | simulation in both directions between frames that agree on the kept nodes |
| C61 | what functions compute before and after constant folding (`Fold*`) | simulation of each execution step, with loaded constants evaluated first, after the analysis and before elimination |
| C62 | where builders put wires, and what circuits track (`Build*`) | case analysis of the walk to a common region, invariants by induction over the wires |
| C63 | inlining of calls (`Incall*`, `RenameProofs`) | invariants of the copying loops; simulation in which the frame of the called function and that of the caller become one, up to renaming |
| C64 | changing the signature of a dataflow graph (`Mapio*`) | the result as an explicit graph; multisets of links; a simulation of runs; counterexamples by computation |
| C65 | small patches: identities and unused constants (`Patch*`) | the result as a record of everything that changed; validity clause by clause; counterexamples by computation |
| C66 | outlining blocks of a control-flow graph (`Outline*`) | loop invariant of the search; the effect of each step and their composition; counterexamples by computation |
| C67 | which basic blocks are merged (`Merge*`, `NormModel`) | induction over the work list; counterexamples by computation |

## What is not modelled

* External crates (portgraph, petgraph, ascent, indexmap, semver, regex, relrc,
  inkwell/LLVM): modelled by their documentation where code depends on them, as
  said in the header of each model file. The convexity check of portgraph is not modelled.
* The JSON format, import and export between `Hugr` and the model format; the compressed payload of envelopes.
* The builders apart from the wiring of dataflow and circuit builders, the command-line tool, the Python package, extension resolution,
  the standard extensions other than integers, floats, conversions, logic and lists
  (arrays, prelude apart from tuples, Noop and load_nat).
* Lowering to LLVM other than functions, integers, floats, conversions, logic, lists, sums, arrays and borrow arrays. Of functions: LLVM types, `alloca`s, block order and debug information. Of arrays: the LLVM instructions themselves (their effect on blocks of memory is modelled), calls of `repeat` and `scan` functions (any function), `malloc` failing, and elements that are not copied bit by bit.
* Of the binary form: segments, packing, UTF-8 and the size limits of the capnp crate.
* Of the text form: the choice of line breaks (all are covered), float parsing and printing
  (a parameter), the running time of the parser, error positions.
* Type arguments of loaded functions in the dataflow analysis; `used_extensions` sets;
  `debug_assert`s.

## Trusted base

* The Coq 8.16.1 kernel (and, in the build, its virtual machine for `vm_compute`;
  `coqchk` rechecks everything without it).
* The reading of the source: the theorems are about the model.
* No axioms: `Print Assumptions` reports "Closed under the global context" for every
  theorem in `MANIFEST.json` (list at the end). The environment of the compiled files
  contains axioms of the standard library (`Coq.Reals.*`, `ClassicalDedekindReals`,
  `FunctionalExtensionality`, and `Coq.ssr.ssrunder`), because modules such as `Lqa`,
  `SpecFloat` and `Program` load those files; none of the theorems uses them.

## Where code and claims disagree

Each is a theorem with a concrete witness; the notes in `MANIFEST.json` give details.

* C03 (Folding division and modulus satisfies the Euclidean equation): `fold_div_signed_refuted`, `fold_checked_div_refuted`
* C04 (Folding comparisons, min/max, widening, narrowing and sign conversions respects integer value): `fold_narrow_64_refuted`, `fold_abs_refuted`
* C05 (Folding shifts, rotations and powers matches their documentation for every shift amount): `fold_shift_refuted`, `fold_rotate_refuted`, `fold_pow_refuted`
* C06 (LLVM lowering of integer operations agrees with the operation specification): `checked_division_refuted`, `signed_division_refuted`, `shift_refuted`, `abs_refuted`, `intrinsics_refuted`, `small_widths_refuted`
* C08 (Operation tags form a partial order consistent with the declared hierarchy): `tag_immediate_refuted`
* C11 (Joining abstract values is a least upper bound): `join_least_in_comparison_refuted`, `join_commutes_with_type_args_refuted`
* C12 (Meeting abstract values is a greatest lower bound): `meet_changed_exact_refuted`, `meet_untyped_glb_refuted`
* C16 (Symbol table implements shadowing and restores bindings): `symbol_table_visibility_refuted`
* C18 (Substitution obeys identity and composition laws): `substitution_identity_refuted`, `substitution_row_identity_refuted`
* C19 (Sub-kinding of type parameters is a preorder and arguments respect it): `kind_reflexive_refuted`
* C20 (Arguments accepted by the parameter check make instantiation well-scoped): `instantiate_total_refuted`, `concat_accepted_refuted`, `substitution_keeps_kind_refuted`
* C21 (Graph mutation preserves the hierarchy invariants): `add_under_missing_parent_refuted`, `remove_root_refuted`, `move_beside_entrypoint_refuted`
* C22 (Removing a node or subtree removes exactly it and its incident edges): `new_node_no_metadata_refuted`
* C23 (Inserting a HUGR copies it faithfully and leaves the host unchanged): `insert_from_view_metadata_refuted`, `insert_view_forest_orphan_refuted`, `insert_subgraph_contents_refuted`
* C24 (Canonical renumbering is an isomorphism): `canonicalize_metadata_refuted`, `canonicalize_rekey_refuted`
* C25 (Serialising and deserialising a HUGR is lossless up to renumbering): `serial_decode_total_refuted`, `serial_decode_wf_refuted`
* C27 (A validated HUGR wires every linear value exactly once and every input exactly once): `validate_one_callee_refuted`
* C28 (A validated HUGR respects container structure): `validate_no_panic_refuted`, `validate_variables_refuted`
* C29 (Dead-code elimination keeps everything that can affect results): `dce_nested_entry_refuted`, `dce_functions_refuted`
* C30 (Dead-function removal keeps exactly the reachable functions): `dead_funcs_calls_refuted`
* C31 (Forced ordering is a valid schedule): `order_rank_documented_refuted`
* C32 (Monomorphised names do not collide): `mangle_injective_refuted`, `mangle_extension_types_refuted`
* C33 (CFG edge classes group exactly the cycle-equivalent edges): `edge_classes_equivalent_refuted`, `transform_two_loops_refuted`, `transform_acyclic_refuted`, `self_loop_refuted`, `region_single_entry_refuted`
* C34 (Inlining a DFG preserves wiring): `inline_valid_refuted`, `inline_order_refuted`
* C35 (Subgraph replacement rewires the boundary exactly): `replace_boundary_refuted`, `replace_outside_refuted`, `from_node_constant_refuted`
* C36 (A persistent HUGR only ever contains compatible commits): `rejected_add_stays_valid_refuted`, `from_commit_valid_refuted`
* C37 (Ancestor collection is complete and ordered): `ancestors_order_refuted`
* C39 (Linking one HUGR into another: directives are checked exactly and references end up at the right definition): `link_hugr_whole_refuted`, `link_hugr_existing_refuted`, `link_hugr_entry_refuted`, `link_parent_replaced_refuted`, `link_order_refuted`, `link_twice_refuted`
* C40 (Extension names: validity and splitting): `ident_deserialize_valid_refuted`
* C43 (The port functions of an operation agree with its documented layout): `other_port_multiple_refuted`, `port_kind_of_existing_ports_only_refuted`
* C44 (Substituting into an operation commutes with taking its signature): `substitute_load_constant_refuted`
* C46 (Sums are stored in LLVM structs without loss and without waste): `empty_sum_refuted`
* C47 (Conversions between integers, floats, booleans and strings respect the value): `trunc_fold_refuted`, `trunc_emitted_refuted`
* C48 (Folding and lowering of float operations follow IEEE 754): `float_fne_emitted_refuted`
* C49 (Folding a boolean operation with some constant inputs never contradicts the operation): `logic_fold_eq_refuted`
* C50 (The dataflow analysis over-approximates every execution): `declared_function_refuted`, `entry_input_refuted`, `outer_values_refuted`, `indirect_call_refuted`, `prepopulated_entry_refuted`
* C51 (The text form of a package is read back as the package): `text_tuple_name_refuted`, `text_fn_name_refuted`, `text_func_refuted`, `text_underscore_refuted`, `text_float_refuted`, `text_nat_refuted`, `text_import_name_refuted`, `text_meta_name_refuted`, `text_visibility_refuted`, `text_where_refuted`, `text_invalid_refuted`, `text_module_refuted`, `text_symbol_ports_refuted`, `text_var_blank_refuted`
* C52 (Constant folding of list, tuple, Noop and load_nat operations computes the operation): `list_insert_type_refuted`, `list_length_port_refuted`, `list_fold_panic_refuted`, `make_tuple_partial_refuted`, `unpack_tuple_panic_refuted`
* C53 (Validated constants are well-typed): `validate_nested_refuted`
* C54 (The LLVM code for list operations computes the operations): `list_set_emitted_refuted`
* C55 (Resolving a module to tables and reading it back keeps the module): `resolve_zero_sign_refuted`
* C56 (The binary form of a package is read back as the package): `binary_alias_refuted`, `binary_signature_refuted`
* C57 (Lowered arrays and borrow arrays behave as their operations say): `unpack_frees_refuted`, `discard_frees_refuted`, `to_array_frees_refuted`, `pop_empty_frees_refuted`, `mask_size_refuted`, `large_constant_refuted`
* C58 (Emitted LLVM code computes what the function computes): `emission_panics_refuted`
* C59 (Normalizing a control flow graph keeps a HUGR valid): `normalize_entry_refuted`, `normalize_dom_refuted`, `normalize_ext_refuted`
* C60 (Dead code elimination keeps what functions compute): `dce_block_entry_refuted`
* C61 (Constant folding keeps what functions compute): `fold_module_refuted`, `fold_extern_refuted`
* C62 (Builders only accept wires that may lie there): `wire_cousins_refuted`, `wire_unrelated_refuted`, `wire_types_refuted`, `append_twice_refuted`
* C63 (Inlining a call keeps the results of functions): `inline_call_no_panic_refuted`, `inline_call_valid_refuted`
* C64 (Changing the signature of a dataflow graph rewires it and nothing else): `map_identity_refuted`, `extend_inputs_valid_refuted`, `map_function_callers_refuted`, `map_loop_refuted`, `map_nested_refuted`
* C65 (An identity is put on exactly the chosen wire, and unused constants are removed without a trace): `insert_identity_unchanged_refuted`, `remove_load_panics_refuted`
* C66 (A set of blocks is outlined exactly if it has one entry and one edge out of it): `outline_exit_refuted`, `outline_values_refuted`, `outline_panics_refuted`, `outline_blocks_refuted`
* C67 (Only blocks that are joined by a single edge are merged): `merge_self_refuted`, `merge_const_refuted`

## Source of each model file

Every definition cites its lines; this is the summary in the header of each file.

* `BinaryModel.v`: hugr-model/src/v0/binary/write.rs, hugr-model/src/v0/binary/read.rs, hugr-model/capnp/hugr-v0.capnp, and the accessors generated from it, hugr-model/src/capnp/hugr_v0_capnp.rs.
* `BorrowModel.v`: hugr-llvm/src/extension/collections/borrow_array.rs, hugr-llvm/src/extension/collections/array.rs, extension/prelude.rs:42-44.
* `BuildModel.v`: hugr-core/src/builder/build_traits.rs:40-90, 172-222, 312-330, 404-470, 550-720, 722-850, hugr-core/src/builder/circuit.rs:46-240.
* `CanonModel.v`: hugr-core/src/hugr.rs:328-397 [canonical_order], [canonicalize_nodes]. [swap_nodes] of the port graph and of the hierarchy (external) exchange two indices everywhere; the final [compact_nodes] moves only the internal copy nodes and is left out.
* `CollModel.v`: hugr-core/src/std_extensions/collections/list.rs, list/list_fold.rs, extension/prelude.rs, extension/prelude/generic.rs, ops/constant.rs, types/check.rs, utils.rs; hugr-llvm/src/extension/collections/list.rs, emit/func.rs.
* `DeadModel.v`: hugr-passes/src/dead_code.rs, hugr-passes/src/dead_funcs.rs, hugr-core/src/module_graph.rs. Hash maps and sets are lists used as maps and sets. Loops take fuel; the theorems show that it suffices. The traversal of the static graph is petgraph's [Dfs] (external), modelled as visiting what can be reached.
* `EmitModel.v`: hugr-llvm/src/emit/ops.rs:31-387, hugr-llvm/src/emit/ops/cfg.rs:22-216, hugr-llvm/src/emit/func.rs:127-325, hugr-llvm/src/emit/func/mailbox.rs, hugr-llvm/src/emit.rs:292-394, hugr-llvm/src/sum.rs:646-675.
* `FloatModel.v`: hugr-core/src/std_extensions/arithmetic/conversions/const_fold.rs (folders of the conversions), hugr-core/src/std_extensions/arithmetic/float_ops/const_fold.rs (folders of the float operations), hugr-core/src/std_extensions/arithmetic/float_types.rs ([ConstF64]), hugr-llvm/src/extension/conversions.rs and hugr-llvm/src/extension/float.rs (lowering).
* `FlowModel.v`: hugr-passes/src/dataflow/datalog.rs, hugr-passes/src/dataflow/results.rs, hugr-passes/src/dataflow.rs, hugr-passes/src/dataflow/value_row.rs.
* `FoldModel.v`: hugr-passes/src/const_fold.rs:95-208, hugr-passes/src/const_fold/value_handle.rs:158-189, hugr-passes/src/dataflow/results.rs:81-103.
* `GraphModel.v`: hugr-core/src/hugr.rs:42-65 [Hugr], hugr-core/src/hugr/internal.rs, hugr-core/src/hugr/hugrmut.rs, hugr-core/src/hugr/views.rs.
* `HeaderModel.v`: hugr-core/src/envelope/header.rs. Bytes are [N] below 256.
* `IdentModel.v`: hugr-core/src/hugr/ident.rs.
* `IncallModel.v`: hugr-core/src/hugr/patch/inline_call.rs:13-112, hugr-core/src/hugr/hugrmut.rs:610-644.
* `InlineModel.v`: hugr-core/src/hugr/patch/inline_dfg.rs.
* `InsertModel.v`: hugr-core/src/hugr/hugrmut.rs:676-732 [insert_forest_internal], :547-608 [insert_forest], [insert_view_forest], :191-276 [insert_hugr], [insert_region], [insert_from_view], [insert_subgraph], :610-644 [copy_descendants].
* `IntModel.v`: hugr-core/src/std_extensions/arithmetic/int_types.rs and hugr-core/src/std_extensions/arithmetic/int_ops/const_fold.rs.
* `LayoutModel.v`: hugr-llvm/src/sum.rs, hugr-llvm/src/sum/layout.rs, layout.rs:56-88.
* `LinkModel.v`: hugr-core/src/hugr/linking.rs:1-283.
* `LlvmModel.v`: hugr-llvm/src/extension/int.rs.
* `LogicModel.v`: hugr-core/src/std_extensions/logic.rs ([LogicOp::fold], [read_inputs]), hugr-llvm/src/extension/logic.rs ([emit_logic_op]).
* `MangleModel.v`: hugr-passes/src/monomorphize.rs:217-263.
* `MapioModel.v`: hugr-core/src/hugr/views/root_checked/dfg.rs:52-342.
* `MergeModel.v`: hugr-passes/src/normalize_cfgs.rs:341-446, hugr-core/src/hugr/patch/replace.rs:207-223.
* `NestModel.v`: hugr-passes/src/nest_cfgs.rs.
* `NormModel.v`: hugr-passes/src/normalize_cfgs.rs:34-65, 161-339, 448-524.
* `OpModel.v`: hugr-core/src/ops.rs, ops/{module,dataflow,controlflow,sum,custom,constant}.rs, types.rs:53-113 [EdgeKind].
* `OrderModel.v`: hugr-passes/src/force_order.rs.
* `OutlineModel.v`: hugr-core/src/hugr/patch/outline_cfg.rs.
* `PValModel.v`: hugr-passes/src/dataflow/partial_value.rs.
* `PassModel.v`: hugr-passes/src/composable.rs.
* `PatchModel.v`: hugr-core/src/hugr/patch/insert_identity.rs, patch/consts.rs.
* `PersistModel.v`: hugr-persistent/src/{persistent_hugr.rs, persistent_hugr/cache.rs, commit.rs, state_space.rs}.
* `RegistryModel.v`: hugr-core/src/extension.rs l.47-227, l.330-374.
* `ReplaceModel.v`: hugr-core/src/hugr/patch/simple_replace.rs, hugr-core/src/hugr/patch/port_types.rs, hugr-core/src/hugr/views/sibling_subgraph.rs.
* `ResolveModel.v`: hugr-model/src/v0/ast/resolve.rs, hugr-model/src/v0/ast/view.rs, hugr-model/src/v0/table/mod.rs, hugr-model/src/v0/table/view.rs, hugr-model/src/v0/ast/mod.rs.
* `ScopeModel.v`: hugr-model/src/v0/scope/{vars,link,symbol}.rs.
* `SerialModel.v`: hugr-core/src/hugr/serialize.rs:80-332. The JSON text itself is left out: a serial HUGR is the struct that serde writes and reads. An extension operation is written as an opaque one ([ser_op]); a port offset is a [u32], which every port index fits. Nodes are visited in some order ([h_nodes]); the code visits them by index.
* `SubgraphModel.v`: hugr-core/src/hugr/views/sibling_subgraph.rs.
* `SumModel.v`: hugr-llvm/src/sum/layout.rs and hugr-llvm/src/sum.rs.
* `TagModel.v`: hugr-core/src/ops/tag.rs.
* `TextModel.v`: hugr-model/src/v0/ast/print.rs, hugr-model/src/v0/ast/parse.rs, hugr-model/src/v0/ast/hugr.pest, hugr-model/src/v0/ast/mod.rs.
* `TypesModel.v`: hugr-core/src/types.rs, types/type_param.rs, types/type_row.rs, types/row_var.rs, types/custom.rs, types/poly_func.rs, types/signature.rs, extension/type_def.rs.
* `ValidModel.v`: hugr-core/src/hugr/validate.rs:1-620, hugr-core/src/ops/validate.rs.

## Print Assumptions

For each of these 486 theorems the output is "Closed under the global context".

* C01: `constint_new_u`, `constint_new_s`, `constint_readings`
* C02: `fold_ring_bitwise_binary`, `fold_ring_bitwise_unary`, `fold_only_on_matching_constants`, `fold_outputs_wellformed`
* C03: `fold_div_unsigned`, `fold_div_signed_partial`, `fold_div_signed_narrow`, `fold_mod_signed_unsafe_wrong`, `fold_div_signed_refuted`, `fold_div_by_zero`, `fold_checked_div_values`, `fold_checked_div_never_ok`, `fold_checked_div_refuted`
* C04: `fold_compare_minmax`, `fold_widen`, `fold_narrow_partial`, `fold_narrow_64_refuted`, `fold_abs_partial`, `fold_abs_refuted`, `fold_sign_conversion`
* C05: `fold_shift_partial`, `fold_shift_refuted`, `fold_rotate_partial`, `fold_rotate_refuted`, `fold_pow_partial`, `fold_pow_refuted`
* C06: `lowering_binary`, `lowering_unary`, `lowering_width`, `lowering_stops`, `checked_division_refuted`, `signed_division_refuted`, `shift_refuted`, `abs_refuted`, `intrinsics_refuted`, `small_widths_refuted`
* C07: `header_roundtrip`, `header_fixed_size`, `header_accepts_exactly`, `header_canonical`, `header_errors_precise`, `header_truncation_detected`
* C08: `tag_superset_total`, `tag_categories`, `tag_superset_partial_order`, `tag_superset_is_closure`, `tag_any_greatest`, `tag_none_isolated`, `tag_partial_cmp_consistent`, `tag_immediate_refuted`, `tag_immediate_otherwise`
* C09: `registry_history_content`, `registry_rules_deterministic`, `registry_keeps_greatest`, `registry_order_independent`, `registry_register_never_overwrites`, `registry_remove_exact`, `registry_list_roundtrip`
* C10: `registry_validate_never_stale`, `registry_validate_pure`
* C11: `join_is_lub`, `join_algebra`, `comparison_extends_information_order`, `join_above_in_comparison`, `row_join_pointwise`, `join_least_in_comparison_refuted`, `join_commutes_with_type_args_refuted`
* C12: `meet_is_glb_partial`, `meet_algebra`, `meet_changed_exact_refuted`, `meet_untyped_glb_refuted`
* C13: `order_is_sound`, `join_keeps_described`, `meet_describes_intersection`, `contains_bottom_iff_empty`, `variant_values_exact`, `supports_tag_exact`, `unpack_first_exact`, `try_into_sound`, `try_into_complete`
* C14: `var_table_is_scope_stack`
* C15: `link_table_is_scope_stack`
* C16: `symbol_table_is_scope_stack_partial`, `symbol_table_exact_without_shadowing`, `symbol_table_visibility_refuted`
* C17: `instantiation_bound`, `instantiation_copyable`, `instantiation_bounds_from_components`, `instantiation_extension_bound`, `extension_bound_from_params`
* C18: `substitution_identity_partial`, `substitution_identity_term_partial`, `substitution_stages_partial`, `substitution_stages_term_partial`, `substitution_identity_refuted`, `substitution_row_identity_refuted`
* C19: `kind_transitive`, `kind_antisymmetric`, `argument_accepted_for_larger_kind`, `kind_reflexive_iff`, `kind_reflexive_refuted`, `variable_accepted_iff`, `type_accepted_iff`
* C20: `instantiate_rejects_iff`, `accepted_arguments_count`, `instantiate_scoped`, `instantiate_no_rows`, `instantiate_length`, `instantiate_valid_partial`, `instantiate_total_partial`, `instantiate_total_refuted`, `concat_accepted_refuted`, `substitution_keeps_kind_refuted`
* C21: `history_keeps_invariants`, `mutation_keeps_invariants`, `add_child_accepts`, `add_beside_accepts`, `set_parent_accepts`, `remove_subtree_accepts`, `connect_accepts`, `set_parent_effect`, `add_child_effect`, `add_beside_effect`, `move_beside_effect`, `insert_ports_effect`, `add_under_missing_parent_refuted`, `remove_root_refuted`, `move_beside_entrypoint_refuted`
* C22: `remove_subtree_exact`, `remove_subtree_siblings`, `remove_leaf_exact`, `remove_subtree_accepts`, `new_node_unlinked`, `new_node_no_metadata_refuted`
* C23: `insert_forest_faithful`, `insert_forest_overlap`, `insert_hugr_faithful`, `insert_view_forest_faithful`, `insert_view_forest_duplicate`, `insert_from_view_faithful`, `insert_from_view_metadata_refuted`, `insert_view_forest_orphan_refuted`, `insert_subgraph_contents_refuted`
* C24: `canonicalize_isomorphism_partial`, `canonicalize_stable`, `canonicalize_metadata_refuted`, `canonicalize_rekey_refuted`
* C25: `serial_roundtrip`, `serial_link_order`, `serial_canonical_indices`, `serial_decode_sound`, `serial_decode_total_refuted`, `serial_decode_wf_refuted`
* C26: `dag_exact`, `valid_dependencies_acyclic`, `validate_accepts`
* C27: `valid_wiring`, `validate_accepts`, `validate_sound`, `validate_one_callee_refuted`
* C28: `valid_structure`, `validate_accepts`, `validate_sound`, `validate_no_panic_refuted`, `validate_variables_refuted`
* C29: `dce_total`, `dce_exact`, `dce_inputs`, `dce_wf`, `dce_idempotent`, `dce_default_stable`, `dce_nested_entry_refuted`, `dce_functions_refuted`
* C30: `dead_funcs_exact`, `dead_funcs_survivors`, `dead_funcs_total`, `dead_funcs_calls`, `dead_funcs_surviving_calls`, `dead_funcs_calls_refuted`
* C31: `order_walk_greedy`, `order_walk_schedule`, `order_walk_inversion`, `force_order_region_panics_iff`, `force_order_region_ordered`, `order_rank_documented_refuted`
* C32: `mangle_total_iff`, `mangle_names_distinct`, `mangle_injective_flat_partial`, `mangle_injective_balanced_partial`, `mangle_injective_refuted`, `mangle_extension_types_refuted`
* C33: `region_blocks_spec`, `region_blocks_accepts`, `region_single_exit`, `dfs_makes_tree`, `edge_classes_equivalent_refuted`, `transform_two_loops_refuted`, `transform_acyclic_refuted`, `self_loop_refuted`, `region_single_entry_refuted`
* C34: `inline_dfg_spec`, `inline_sources`, `resolves_unique`, `inline_valid_refuted`, `inline_order_refuted`
* C35: `replacement_spec`, `node_replacement_spec`, `replace_with_ok`, `provider_unique`, `host_consumer`, `copy_consumer`, `provider_type`, `host_consumer_typed`, `try_new_iff`, `create_iff`, `valid_rewrite_iff`, `accepted_subgraph_ok`, `valid_replacement_ok`, `validate_subgraph_iff`, `boundary_exact`, `boundary_accepted`, `set_outgoing_iff`, `from_node_ok`, `from_node_signature`, `replace_boundary_refuted`, `replace_outside_refuted`, `from_node_constant_refuted`
* C36: `history_invariants`, `try_new_accepts_iff`, `try_add_accepts_iff`, `try_add_replacement_accepts_iff`, `is_valid_accepts`, `is_valid_sound`, `deleting_commit_found`, `rejected_add_stays_valid_partial`, `rejected_add_stays_valid_refuted`, `from_commit_valid_refuted`
* C37: `ancestors_complete`, `ancestors_all`, `ancestors_order_partial`, `ancestors_order_refuted`
* C38: `sum_layout_good`, `sum_values_roundtrip`, `sum_build_rejects`, `tag_width_sufficient`, `tag_width_minimal`
* C39: `check_directives_exact`, `link_rejected`, `link_view_faithful`, `link_hugr_faithful`, `link_references`, `link_hugr_whole_panics`, `link_hugr_whole_refuted`, `link_hugr_existing_refuted`, `link_hugr_entry_refuted`, `link_parent_replaced_refuted`, `link_order_refuted`, `link_twice_refuted`
* C40: `ident_new_accepts_iff`, `ident_components_unique`, `split_last_components`, `split_last_valid`, `split_last_rejoin`, `new_unchecked_iff`, `ident_deserialize_valid_refuted`
* C41: `seq_meaning`, `if_then_meaning`, `map_err_meaning`, `validating_meaning`, `validate_if_test_meaning`, `seq_assoc`, `seq_unit`, `validating_seq`
* C42: `transform_keeps_bounds`, `transform_unchanged`, `transform_nothing`, `transform_checks_arguments`
* C43: `op_port_layout`, `op_ports_total`, `op_static_port`, `op_other_port`, `op_tag_static`, `op_tag_region`, `other_port_multiple_refuted`, `port_kind_of_existing_ports_only_refuted`
* C44: `substitute_signature`, `substitute_inner_signature`, `substitute_shape`, `substitute_port_count`, `substitute_call_partial`, `substitute_load_constant_refuted`
* C45: `new_graph_total`, `new_graph_wiring`
* C46: `layout_minimal`, `sum_round_trip`, `tag_width_smallest`, `empty_sum_refuted`
* C47: `trunc_u_fold_exact`, `trunc_s_fold_exact`, `trunc_fold_refuted`, `trunc_fold_saturates`, `trunc_emitted_exact`, `trunc_emitted_refuted`, `trunc_disagree`, `trunc_spec_unique`, `convert_u_fold`, `convert_s_fold`, `int_float_int_u`, `int_float_int_s`, `bool_conversions`, `itobool_exact`, `usize_conversions`, `itostring_fold`, `decimal_unique`, `conversion_no_panic`
* C48: `float_cmp_fold`, `float_cmp_emitted`, `float_cmp_nan`, `float_fne_emitted_refuted`, `float_round_fold`, `float_sign_fold`, `float_minmax_fold`, `float_arith_fold`, `float_fold_arity`
* C49: `logic_fold_exact`, `logic_fold_shape`, `logic_fold_eq_refuted`, `logic_fold_eq_single`, `logic_fold_other`, `logic_emitted`
* C50: `analysis_sound`, `prepopulated_inputs_sound`, `run_inputs_sound`, `read_out_wire_sound`, `tail_loop_sound`, `case_reachable_sound`, `bb_reachable_sound`, `known_value`, `bottom_is_dead`, `sweeps_result`, `declared_function_refuted`, `entry_input_refuted`, `outer_values_refuted`, `indirect_call_refuted`, `prepopulated_entry_refuted`
* C51: `text_package_round_trip`, `text_term_round_trip`, `text_node_round_trip`, `text_region_round_trip`, `text_injective`, `text_no_splice`, `text_norm_print`, `text_tuple_name_refuted`, `text_fn_name_refuted`, `text_func_refuted`, `text_underscore_refuted`, `text_float_refuted`, `text_nat_refuted`, `text_import_name_refuted`, `text_meta_name_refuted`, `text_visibility_refuted`, `text_where_refuted`, `text_invalid_refuted`, `text_module_refuted`, `text_symbol_ports_refuted`, `text_var_blank_refuted`
* C52: `list_fold_exact`, `list_insert_fold`, `list_insert_type_refuted`, `list_length_fold`, `list_length_port_refuted`, `list_fold_incomplete`, `list_args_seen`, `list_fold_panic_refuted`, `make_tuple_fold_exact`, `make_tuple_partial_refuted`, `unpack_tuple_fold_exact`, `unpack_tuple_panic_refuted`, `noop_fold_exact`, `load_nat_fold_exact`, `tuple_round_trip`
* C53: `typed_validates`, `validated_throughout`, `validate_nested_refuted`
* C54: `list_emitted`, `list_set_emitted`, `list_set_emitted_refuted`
* C55: `resolve_accepts`, `resolve_round_trip`, `resolve_exact`, `numbers_distinct`, `resolve_floats`, `resolve_zero_sign_refuted`, `numbered_again`
* C56: `binary_round_trip`, `binary_exact`, `binary_injective`, `binary_version`, `binary_no_version_error`, `binary_tree`, `binary_pipeline`, `binary_alias_refuted`, `binary_signature_refuted`
* C57: `lowering_refines`, `lowering_defined`, `plain_never_panics`, `memory_accounted`, `mask_covers`, `unpack_frees_refuted`, `discard_frees_refuted`, `to_array_frees_refuted`, `pop_empty_frees_refuted`, `mask_size_refuted`, `large_constant_refuted`
* C58: `emission_correct`, `emission_defined`, `emission_panics_refuted`, `eval_exec`
* C59: `normalize_entry_refuted`, `normalize_dom_refuted`, `normalize_ext_refuted`
* C60: `dce_keeps_results`, `dce_function_results`, `dce_module_results`, `dce_block_entry_refuted`
* C61: `fold_function_results`, `fold_module_results`, `fold_entry_results`, `fold_keeps_wf`, `fold_keeps_running`, `fold_module_wf`, `fold_module_refuted`, `fold_extern_refuted`
* C62: `wire_wf`, `wire_placed`, `wire_all_placed`, `wire_single_use`, `wire_total`, `wire_refused`, `wires_ok`, `add_op_ok`, `set_outputs_ok`, `append_tracks`, `wire_cousins_refuted`, `wire_unrelated_refuted`, `wire_types_refuted`, `append_twice_refuted`
* C63: `inline_call_structure`, `inline_call_results`, `inline_call_refuses`, `inline_call_declared`, `inline_call_no_panic_refuted`, `inline_call_valid_refuted`
* C64: `map_function_maps`, `map_function_errors`, `map_function_results`, `extend_inputs_extends`, `extend_inputs_refuses`, `map_identity_refuted`, `extend_inputs_valid_refuted`, `map_function_callers_refuted`, `map_loop_refuted`, `map_nested_refuted`
* C65: `insert_identity_inserts`, `insert_identity_valid`, `remove_const_removes`, `remove_load_constant_removes`, `insert_identity_unchanged_refuted`, `remove_load_panics_refuted`
* C66: `outline_finds`, `outline_explains`, `outline_moves`, `outline_succeeds`, `outline_exit_refuted`, `outline_values_refuted`, `outline_panics_refuted`, `outline_blocks_refuted`
* C67: `merge_only_single`, `merge_idle`, `merge_happens`, `merge_blocks_only`, `merge_self_refuted`, `merge_const_refuted`
