{
 "claims": [
  {
   "property": "C01",
   "status": "proved",
   "theorems": [
    "constint_new_u",
    "constint_new_s",
    "constint_readings"
   ],
   "note": "All log-widths 0..255 and all u64/i64 values."
  },
  {
   "property": "C02",
   "status": "proved",
   "theorems": [
    "fold_ring_bitwise_binary",
    "fold_ring_bitwise_unary",
    "fold_only_on_matching_constants",
    "fold_outputs_wellformed"
   ],
   "note": "All widths, all operands, both build profiles."
  },
  {
   "property": "C03",
   "status": "partial",
   "theorems": [
    "fold_div_unsigned",
    "fold_div_signed_partial",
    "fold_div_signed_narrow",
    "fold_mod_signed_unsafe_wrong",
    "fold_div_signed_refuted",
    "fold_div_by_zero",
    "fold_checked_div_values",
    "fold_checked_div_never_ok",
    "fold_checked_div_refuted"
   ],
   "note": "The full statement is false of the code: at 64 bits the dividend -2^63 with a non-dividing divisor below 2^63 gives a remainder out of range (or aborts with overflow checks), and checked variants deliver their success value outside the success variant. Proved exactly outside those operands; refutations given."
  },
  {
   "property": "C04",
   "status": "partial",
   "theorems": [
    "fold_compare_minmax",
    "fold_widen",
    "fold_narrow_partial",
    "fold_narrow_64_refuted",
    "fold_abs_partial",
    "fold_abs_refuted",
    "fold_sign_conversion"
   ],
   "note": "Full statement false at narrowing 64 -> 64 and at iabs of the signed minimum below 64 bits (abort); everything else proved."
  },
  {
   "property": "C05",
   "status": "partial",
   "theorems": [
    "fold_shift_partial",
    "fold_shift_refuted",
    "fold_rotate_partial",
    "fold_rotate_refuted",
    "fold_pow_partial",
    "fold_pow_refuted"
   ],
   "note": "Full statement false: shift amounts of 64 or more, rotations by multiples of 64 at 64 bits with overflow checks, exponents of 2^32 or more. Proved for all other operands."
  },
  {
   "property": "C06",
   "status": "partial",
   "theorems": [
    "lowering_binary",
    "lowering_unary",
    "lowering_width",
    "lowering_stops",
    "checked_division_refuted",
    "signed_division_refuted",
    "shift_refuted",
    "abs_refuted",
    "intrinsics_refuted",
    "small_widths_refuted"
   ],
   "note": "Exact set of operands on which the emitted code is right, at every width with an LLVM type of its own. The claim is false of the code on the rest: checked division by zero and signed division of the least by the greatest number are undefined behaviour, shifts by the width or more and the absolute value of the least number are poison, maxima, minima and absolute values exist at 64 bits only, and integers below 8 bits are not reduced."
  },
  {
   "property": "C07",
   "status": "proved",
   "theorems": [
    "header_roundtrip",
    "header_fixed_size",
    "header_accepts_exactly",
    "header_canonical",
    "header_errors_precise",
    "header_truncation_detected"
   ],
   "note": "Header bytes only; the payload codecs behind the header are not modelled here."
  },
  {
   "property": "C08",
   "status": "proved",
   "theorems": [
    "tag_superset_total",
    "tag_categories",
    "tag_superset_partial_order",
    "tag_superset_is_closure",
    "tag_any_greatest",
    "tag_none_isolated",
    "tag_partial_cmp_consistent",
    "tag_immediate_refuted",
    "tag_immediate_otherwise"
   ],
   "note": "Order and closure proved for all tags. The doc comment that declared parents are immediate supersets is false for the case tag (tag_immediate_refuted) and true for every other tag."
  },
  {
   "property": "C09",
   "status": "proved",
   "theorems": [
    "registry_history_content",
    "registry_rules_deterministic",
    "registry_keeps_greatest",
    "registry_order_independent",
    "registry_register_never_overwrites",
    "registry_remove_exact",
    "registry_list_roundtrip"
   ],
   "note": "Parametric in the name order and in any strict total order on versions (semver crate is external); the parameters are premises, instantiated in an example."
  },
  {
   "property": "C10",
   "status": "proved",
   "theorems": [
    "registry_validate_never_stale",
    "registry_validate_pure"
   ],
   "note": "Parametric in the per-extension check."
  },
  {
   "property": "C11",
   "status": "partial",
   "theorems": [
    "join_is_lub",
    "join_algebra",
    "comparison_extends_information_order",
    "join_above_in_comparison",
    "row_join_pointwise",
    "join_least_in_comparison_refuted",
    "join_commutes_with_type_args_refuted"
   ],
   "note": "Least upper bound, exact change flag and the laws hold in the information order when all loads of one function node carry the same type arguments. In the comparison the API offers, the join is above both arguments but not least (refuted), and with differing type arguments for one node the join is not commutative (refuted)."
  },
  {
   "property": "C12",
   "status": "partial",
   "theorems": [
    "meet_is_glb_partial",
    "meet_algebra",
    "meet_changed_exact_refuted",
    "meet_untyped_glb_refuted"
   ],
   "note": "Greatest lower bound and the laws hold for values of a common type; the change flag never misses a change but can be raised without one (refuted)."
  },
  {
   "property": "C13",
   "status": "proved",
   "theorems": [
    "order_is_sound",
    "join_keeps_described",
    "meet_describes_intersection",
    "contains_bottom_iff_empty",
    "variant_values_exact",
    "supports_tag_exact",
    "unpack_first_exact",
    "try_into_sound",
    "try_into_complete"
   ],
   "note": "Row variables inside sum types are not modelled in the conversion to constants."
  },
  {
   "property": "C14",
   "status": "proved",
   "theorems": [
    "var_table_is_scope_stack"
   ],
   "note": "All histories, any name type; answers are those of a stack of frames up to the first call that opens an owner already open or exceeds 65535 variables in a scope."
  },
  {
   "property": "C15",
   "status": "proved",
   "theorems": [
    "link_table_is_scope_stack"
   ],
   "note": "All histories; discipline: region not already open, fewer than 2^32 port uses per region visit."
  },
  {
   "property": "C16",
   "status": "partial",
   "theorems": [
    "symbol_table_is_scope_stack_partial",
    "symbol_table_exact_without_shadowing",
    "symbol_table_visibility_refuted"
   ],
   "note": "Resolution, duplicates, shadowing, restoring and depths proved for all histories. The visibility query is false as stated (symbol_table_visibility_refuted: a shadowing binding is reported invisible); positive answers are always right, and it is exact when no name is shadowed."
  },
  {
   "property": "C17",
   "status": "proved",
   "theorems": [
    "instantiation_bound",
    "instantiation_copyable",
    "instantiation_bounds_from_components",
    "instantiation_extension_bound",
    "extension_bound_from_params"
   ],
   "note": "Bounds of substituted types only become smaller, are those of the components, and those of extension types are recomputed from the new arguments. Extension definitions are a parameter of the model."
  },
  {
   "property": "C18",
   "status": "partial",
   "theorems": [
    "substitution_identity_partial",
    "substitution_identity_term_partial",
    "substitution_stages_partial",
    "substitution_stages_term_partial",
    "substitution_identity_refuted",
    "substitution_row_identity_refuted"
   ],
   "note": "Proved for terms without concatenations and tuple kinds (identity: also without row variables). False in general: tuple kinds come back as list kinds, and substituting a row variable for itself panics."
  },
  {
   "property": "C19",
   "status": "partial",
   "theorems": [
    "kind_transitive",
    "kind_antisymmetric",
    "argument_accepted_for_larger_kind",
    "kind_reflexive_iff",
    "kind_reflexive_refuted",
    "variable_accepted_iff",
    "type_accepted_iff"
   ],
   "note": "Transitivity, antisymmetry and monotonicity hold for all kinds. Reflexivity is false for constant kinds and concatenations; the exact set of reflexive kinds is given."
  },
  {
   "property": "C20",
   "status": "partial",
   "theorems": [
    "instantiate_rejects_iff",
    "accepted_arguments_count",
    "instantiate_scoped",
    "instantiate_no_rows",
    "instantiate_length",
    "instantiate_valid_partial",
    "instantiate_total_partial",
    "instantiate_total_refuted",
    "concat_accepted_refuted",
    "substitution_keeps_kind_refuted"
   ],
   "note": "Scoping, absence of row variables and row lengths hold in general. Validity and absence of panics are proved for terms without concatenations and tuple kinds, flat definition parameters and row arguments given as lists; both fail outside of that (witnesses)."
  },
  {
   "property": "C21",
   "status": "proved",
   "theorems": [
    "history_keeps_invariants",
    "mutation_keeps_invariants",
    "add_child_accepts",
    "add_beside_accepts",
    "set_parent_accepts",
    "remove_subtree_accepts",
    "connect_accepts",
    "set_parent_effect",
    "add_child_effect",
    "add_beside_effect",
    "move_beside_effect",
    "insert_ports_effect",
    "add_under_missing_parent_refuted",
    "remove_root_refuted",
    "move_beside_entrypoint_refuted"
   ],
   "note": "For every history of add/remove/move/connect/disconnect/port/metadata mutations that respects the documented preconditions, and every choice of fresh indices. The refutations are about documented panics that do not happen (missing parent, module root) or happen more often (entrypoint). The portgraph crate is modelled by its documentation."
  },
  {
   "property": "C22",
   "status": "partial",
   "theorems": [
    "remove_subtree_exact",
    "remove_subtree_siblings",
    "remove_leaf_exact",
    "remove_subtree_accepts",
    "new_node_unlinked",
    "new_node_no_metadata_refuted"
   ],
   "note": "Exact effect of removal proved. The last part of the claim is false: metadata of a removed node is left behind and seen by a later node with the same index."
  },
  {
   "property": "C23",
   "status": "partial",
   "theorems": [
    "insert_forest_faithful",
    "insert_forest_overlap",
    "insert_hugr_faithful",
    "insert_view_forest_faithful",
    "insert_view_forest_duplicate",
    "insert_from_view_faithful",
    "insert_from_view_metadata_refuted",
    "insert_view_forest_orphan_refuted",
    "insert_subgraph_contents_refuted"
   ],
   "note": "Insertion of a HUGR or of a forest of regions is proved faithful in full; copying from a view keeps stale metadata of a reused index (refuted), panics where the documentation promises parentless nodes (refuted), and copying a subgraph drops the contents of containers (refuted). copy_descendants is not modelled."
  },
  {
   "property": "C24",
   "status": "partial",
   "theorems": [
    "canonicalize_isomorphism_partial",
    "canonicalize_stable",
    "canonicalize_metadata_refuted",
    "canonicalize_rekey_refuted"
   ],
   "note": "Isomorphism proved for everything but metadata, which the code does not move (refuted); the renumbering callback reports exchanges of positions, not old and new indices (refuted), and it is proved that composing the reported exchanges gives the renumbering."
  },
  {
   "property": "C25",
   "status": "proved",
   "theorems": [
    "serial_roundtrip",
    "serial_link_order",
    "serial_canonical_indices",
    "serial_decode_sound",
    "serial_decode_total_refuted",
    "serial_decode_wf_refuted"
   ],
   "note": "for well formed graphs whose root is a module and whose port counts are those of their operations; extension operations come back in opaque form (the lookup that resolves them is not modelled), and the JSON text layer is not modelled; the refutations are about malformed input"
  },
  {
   "property": "C26",
   "status": "proved",
   "theorems": [
    "dag_exact",
    "valid_dependencies_acyclic",
    "validate_accepts"
   ],
   "note": "The check considers the links between the children only. valid_dependencies_acyclic adds that in accepted graphs the dependencies induced by edges into nested regions are acyclic too."
  },
  {
   "property": "C27",
   "status": "proved",
   "theorems": [
    "valid_wiring",
    "validate_accepts",
    "validate_sound",
    "validate_one_callee_refuted"
   ],
   "note": "A Function input may have several sources (validate_one_callee_refuted); all other static and value inputs have exactly one."
  },
  {
   "property": "C28",
   "status": "proved",
   "theorems": [
    "valid_structure",
    "validate_accepts",
    "validate_sound",
    "validate_no_panic_refuted",
    "validate_variables_refuted"
   ],
   "note": "Also proved: acceptance is equivalent to an independent specification of valid graphs (validate_accepts). Validation panics on some invalid graphs, and does not check the type arguments of calls against the variables in scope."
  },
  {
   "property": "C29",
   "status": "proved",
   "theorems": [
    "dce_total",
    "dce_exact",
    "dce_inputs",
    "dce_wf",
    "dce_idempotent",
    "dce_default_stable",
    "dce_nested_entry_refuted",
    "dce_functions_refuted"
   ],
   "note": "the pass is idempotent if the callback gives the same answers afterwards and the result is well formed; the refutations show that an entry point inside an unneeded node leaves an orphan, and that unreachable functions with calls are kept"
  },
  {
   "property": "C30",
   "status": "partial",
   "theorems": [
    "dead_funcs_exact",
    "dead_funcs_survivors",
    "dead_funcs_total",
    "dead_funcs_calls",
    "dead_funcs_surviving_calls",
    "dead_funcs_calls_refuted"
   ],
   "note": "the claim about surviving calls is false when the entrypoint lies inside a function: the function survives but the targets of its other calls are removed"
  },
  {
   "property": "C31",
   "status": "proved",
   "theorems": [
    "order_walk_greedy",
    "order_walk_schedule",
    "order_walk_inversion",
    "force_order_region_panics_iff",
    "force_order_region_ordered",
    "order_rank_documented_refuted"
   ],
   "note": "For one dataflow region; the pass treats regions one after the other and only adds edges inside each. The stronger promise of the doc comment on ranks is refuted with a witness."
  },
  {
   "property": "C32",
   "status": "partial",
   "theorems": [
    "mangle_total_iff",
    "mangle_names_distinct",
    "mangle_injective_flat_partial",
    "mangle_injective_balanced_partial",
    "mangle_injective_refuted",
    "mangle_extension_types_refuted"
   ],
   "note": "Function names never collide. Arguments are determined when they are not nested or have matching brackets, and types are shown injectively; in general two collisions are exhibited (unescaped brackets; extension not shown)."
  },
  {
   "property": "C33",
   "status": "partial",
   "theorems": [
    "region_blocks_spec",
    "region_blocks_accepts",
    "region_single_exit",
    "dfs_makes_tree",
    "edge_classes_equivalent_refuted",
    "transform_two_loops_refuted",
    "transform_acyclic_refuted",
    "self_loop_refuted",
    "region_single_entry_refuted"
   ],
   "note": "False of the code: the back edges of two consecutive loops get one class although they are not cycle equivalent (the tag is read at the front of the bracket list, brackets are pushed at the back), the nesting then panics, and a self-loop panics. Proved: the blocks of a region and every error of region_blocks exactly, and that the undirected depth-first search numbers exactly the blocks that reach the exit and leaves only edges between a block and an ancestor. Missing: that equivalent edges always share a class."
  },
  {
   "property": "C34",
   "status": "proved",
   "theorems": [
    "inline_dfg_spec",
    "inline_sources",
    "resolves_unique",
    "inline_valid_refuted",
    "inline_order_refuted"
   ],
   "note": "Proved for valid graphs and a node other than the root. The specification of the result also covers the order edges that inlining adds. The refutations concern what the property does not claim: these order edges can make the graph invalid, and the order imposed by an empty graph is lost."
  },
  {
   "property": "C35",
   "status": "partial",
   "theorems": [
    "replacement_spec",
    "node_replacement_spec",
    "replace_with_ok",
    "provider_unique",
    "host_consumer",
    "copy_consumer",
    "provider_type",
    "host_consumer_typed",
    "try_new_iff",
    "create_iff",
    "valid_rewrite_iff",
    "accepted_subgraph_ok",
    "valid_replacement_ok",
    "validate_subgraph_iff",
    "boundary_exact",
    "boundary_accepted",
    "set_outgoing_iff",
    "from_node_ok",
    "from_node_signature",
    "replace_boundary_refuted",
    "replace_outside_refuted",
    "from_node_constant_refuted"
   ],
   "note": "Proved for every host, every subgraph that validate_subgraph accepts (distinct nodes and outputs) and every valid replacement of equal signature whose boundary nodes are linked only within the region: exact nodes, copies, links, refusals. Refuted without these conditions: repeated or discarded outputs (set_outgoing_ports) give consumers two or no sources; calls in the replacement lose their function; values from outside that reach its Output panic; order edges at its boundary are dropped. The convexity check of the portgraph crate and the search for the node set from a boundary are not modelled."
  },
  {
   "property": "C36",
   "status": "partial",
   "theorems": [
    "history_invariants",
    "try_new_accepts_iff",
    "try_add_accepts_iff",
    "try_add_replacement_accepts_iff",
    "is_valid_accepts",
    "is_valid_sound",
    "deleting_commit_found",
    "rejected_add_stays_valid_partial",
    "rejected_add_stays_valid_refuted",
    "from_commit_valid_refuted"
   ],
   "note": "Holds for every history of successful calls, with exact acceptance conditions. A rejected try_add_commits can leave two conflicting commits in the history (refuted with a witness); it does not when every parent is exactly one level up. from_commit can be given a commit whose ancestors conflict. The history graph of the external relrc crate is assumed to add the commit and at most its ancestors."
  },
  {
   "property": "C37",
   "status": "partial",
   "theorems": [
    "ancestors_complete",
    "ancestors_all",
    "ancestors_order_partial",
    "ancestors_order_refuted"
   ],
   "note": "Completeness and uniqueness hold for every commit graph. The documented order fails (breadth-first walk) and is proved when every parent is exactly one level up."
  },
  {
   "property": "C38",
   "status": "proved",
   "theorems": [
    "sum_layout_good",
    "sum_values_roundtrip",
    "sum_build_rejects",
    "tag_width_sufficient",
    "tag_width_minimal"
   ],
   "note": "The order on LLVM types is assumed total; LLVM insertvalue/extractvalue/switch are modelled by their defined result."
  },
  {
   "property": "C39",
   "status": "partial",
   "theorems": [
    "check_directives_exact",
    "link_rejected",
    "link_view_faithful",
    "link_hugr_faithful",
    "link_references",
    "link_hugr_whole_panics",
    "link_hugr_whole_refuted",
    "link_hugr_existing_refuted",
    "link_hugr_entry_refuted",
    "link_parent_replaced_refuted",
    "link_order_refuted",
    "link_twice_refuted"
   ],
   "note": "Exact acceptance for all inputs. Both variants are proved to give the described result for all iteration orders, provided the nodes named by the directives are children of the module root of the host with enough ports, each of their links is the only one of its target port, and neither the entrypoint nor the parent is removed; the code does not check these. Refuted: the consuming variant panics when the whole module is inserted, or when the entrypoint of the other HUGR is a child of a re-used function; the result depends on the iteration order if a replaced node is inside another; the node map can name removed nodes if the parent is replaced; two inaccurate sentences of the documentation."
  },
  {
   "property": "C40",
   "status": "proved",
   "theorems": [
    "ident_new_accepts_iff",
    "ident_components_unique",
    "split_last_components",
    "split_last_valid",
    "split_last_rejoin",
    "new_unchecked_iff",
    "ident_deserialize_valid_refuted"
   ],
   "note": "The character classes of the regex crate are parameters; the only assumption is that a dot is not a word character. Deserialising does not check the name (refuted with a witness)."
  },
  {
   "property": "C41",
   "status": "proved",
   "theorems": [
    "seq_meaning",
    "if_then_meaning",
    "map_err_meaning",
    "validating_meaning",
    "validate_if_test_meaning",
    "seq_assoc",
    "seq_unit",
    "validating_seq"
   ],
   "note": "For arbitrary pass bodies, HUGR states and validation functions; the rendered HUGR in validation errors is left out."
  },
  {
   "property": "C42",
   "status": "proved",
   "theorems": [
    "transform_keeps_bounds",
    "transform_unchanged",
    "transform_nothing",
    "transform_checks_arguments"
   ],
   "note": "For every transformer; a failing transformer gives no result."
  },
  {
   "property": "C43",
   "status": "proved",
   "theorems": [
    "op_port_layout",
    "op_ports_total",
    "op_static_port",
    "op_other_port",
    "op_tag_static",
    "op_tag_region",
    "other_port_multiple_refuted",
    "port_kind_of_existing_ports_only_refuted"
   ],
   "note": "for all operation types; the two refutations are of doc comments about ports that do not exist"
  },
  {
   "property": "C44",
   "status": "partial",
   "theorems": [
    "substitute_signature",
    "substitute_inner_signature",
    "substitute_shape",
    "substitute_port_count",
    "substitute_call_partial",
    "substitute_load_constant_refuted"
   ],
   "note": "the clause about calls is proved for types and arguments without lists of lists, tuples or constant kinds; LoadConstant is not substituted, so its type has to be closed"
  },
  {
   "property": "C45",
   "status": "proved",
   "theorems": [
    "new_graph_total",
    "new_graph_wiring"
   ],
   "note": ""
  },
  {
   "property": "C46",
   "status": "proved",
   "theorems": [
    "layout_minimal",
    "sum_round_trip",
    "tag_width_smallest",
    "empty_sum_refuted"
   ],
   "note": "All variants, all values; also refutes the documented error for a sum without variants."
  },
  {
   "property": "C47",
   "status": "partial",
   "theorems": [
    "trunc_u_fold_exact",
    "trunc_s_fold_exact",
    "trunc_fold_refuted",
    "trunc_fold_saturates",
    "trunc_emitted_exact",
    "trunc_emitted_refuted",
    "trunc_disagree",
    "trunc_spec_unique",
    "convert_u_fold",
    "convert_s_fold",
    "int_float_int_u",
    "int_float_int_s",
    "bool_conversions",
    "itobool_exact",
    "usize_conversions",
    "itostring_fold",
    "decimal_unique",
    "conversion_no_panic"
   ],
   "note": "Everything is proved except that truncation is false as stated, with the exact set of wrong inputs: folding saturates at 64 bits and folds negative numbers to the unsigned 0; the emitted code refuses numbers on or less than one beyond the ends of the range (127.0 as int<8>, -0.5 as unsigned). The byte casts are not modelled."
  },
  {
   "property": "C48",
   "status": "partial",
   "theorems": [
    "float_cmp_fold",
    "float_cmp_emitted",
    "float_cmp_nan",
    "float_fne_emitted_refuted",
    "float_round_fold",
    "float_sign_fold",
    "float_minmax_fold",
    "float_arith_fold",
    "float_fold_arity"
   ],
   "note": "Emitted inequality is false on NaN (ordered predicate), which contradicts the folder and the specification. The results of +, -, *, / and pow are whatever the floating-point unit gives (a parameter)."
  },
  {
   "property": "C49",
   "status": "partial",
   "theorems": [
    "logic_fold_exact",
    "logic_fold_shape",
    "logic_fold_eq_refuted",
    "logic_fold_eq_single",
    "logic_fold_other",
    "logic_emitted"
   ],
   "note": "False exactly for equality with a single known input that is false, which is folded to false."
  },
  {
   "property": "C50",
   "status": "partial",
   "theorems": [
    "analysis_sound",
    "prepopulated_inputs_sound",
    "run_inputs_sound",
    "read_out_wire_sound",
    "tail_loop_sound",
    "case_reachable_sound",
    "bb_reachable_sound",
    "known_value",
    "bottom_is_dead",
    "sweeps_result",
    "declared_function_refuted",
    "entry_input_refuted",
    "outer_values_refuted",
    "indirect_call_refuted",
    "prepopulated_entry_refuted"
   ],
   "note": "Proved for every execution and rule order, with these exceptions, which are refuted on validated HUGRs: results of declared functions are taken to be impossible; the outputs of the Input node of the function the run starts in are reported as bottom; so are values that come from outside the entrypoint, and the insides of functions that are called only through an indirect call of unknown target. Initial values given in advance for an entrypoint that is a function are discarded. Termination of the analysis and absence of panics are not proved; polymorphic instances are not distinguished; the ascent engine is modelled as adding derivable facts in any order."
  },
  {
   "property": "C51",
   "status": "partial",
   "theorems": [
    "text_package_round_trip",
    "text_term_round_trip",
    "text_node_round_trip",
    "text_region_round_trip",
    "text_injective",
    "text_no_splice",
    "text_norm_print",
    "text_tuple_name_refuted",
    "text_fn_name_refuted",
    "text_func_refuted",
    "text_underscore_refuted",
    "text_float_refuted",
    "text_nat_refuted",
    "text_import_name_refuted",
    "text_meta_name_refuted",
    "text_visibility_refuted",
    "text_where_refuted",
    "text_invalid_refuted",
    "text_module_refuted",
    "text_symbol_ports_refuted",
    "text_var_blank_refuted"
   ],
   "note": "Proved for packages with legal names apart from those refuted: names that start with words of the grammar (tuple, fn, import, meta, signature, public, private, where, param) or are an underscore are read as something else, a term named fn makes the parser panic, function constants, invalid operations, ports on declarations, floats written without a point and modules printed on their own are not read back. Custom operation names that start with define-/declare- words are excluded without a refutation."
  },
  {
   "property": "C52",
   "status": "partial",
   "theorems": [
    "list_fold_exact",
    "list_insert_fold",
    "list_insert_type_refuted",
    "list_length_fold",
    "list_length_port_refuted",
    "list_fold_incomplete",
    "list_args_seen",
    "list_fold_panic_refuted",
    "make_tuple_fold_exact",
    "make_tuple_partial_refuted",
    "unpack_tuple_fold_exact",
    "unpack_tuple_panic_refuted",
    "noop_fold_exact",
    "load_nat_fold_exact",
    "tuple_round_trip"
   ],
   "note": "Proved for pop, push, get, set, tuples with all inputs, Noop and load_nat. Refuted: a successful insert gives a value of another type than the signature, length gives its result to the port of the list, MakeTuple with inputs missing makes a shorter tuple, and constants of list or tuple type that are external symbols make the folders panic."
  },
  {
   "property": "C53",
   "status": "partial",
   "theorems": [
    "typed_validates",
    "validated_throughout",
    "validate_nested_refuted"
   ],
   "note": "Well-typed constants are accepted. The converse holds if all constants inside are validated too; it is refuted for validate itself, which does not validate the constants inside."
  },
  {
   "property": "C54",
   "status": "partial",
   "theorems": [
    "list_emitted",
    "list_set_emitted",
    "list_set_emitted_refuted"
   ],
   "note": "Proved for all operations but a successful set, for which the emitted code returns the new element: refuted for every runtime."
  },
  {
   "property": "C55",
   "status": "partial",
   "theorems": [
    "resolve_accepts",
    "resolve_round_trip",
    "resolve_exact",
    "numbers_distinct",
    "resolve_floats",
    "resolve_zero_sign_refuted",
    "numbered_again"
   ],
   "note": "Proved for every module with exact literal equality; with the equality the code uses for floats the sign of zero can be lost, because equal terms are shared (refuted with a witness, and proved up to that sign)."
  },
  {
   "property": "C56",
   "status": "partial",
   "theorems": [
    "binary_round_trip",
    "binary_exact",
    "binary_injective",
    "binary_version",
    "binary_no_version_error",
    "binary_tree",
    "binary_pipeline",
    "binary_alias_refuted",
    "binary_signature_refuted"
   ],
   "note": "Proved for packages in which no alias has constraints. Refuted for the others: the constraints are written but replaced by none when reading. An optional signature with the largest id is lost too (in builds without overflow checks)."
  },
  {
   "property": "C57",
   "status": "partial",
   "theorems": [
    "lowering_refines",
    "lowering_defined",
    "plain_never_panics",
    "memory_accounted",
    "mask_covers",
    "unpack_frees_refuted",
    "discard_frees_refuted",
    "to_array_frees_refuted",
    "pop_empty_frees_refuted",
    "mask_size_refuted",
    "large_constant_refuted"
   ],
   "note": "Results, panics and memory safety proved for every program that fits in the address space. That all memory is freed is refuted: unpacking, discarding or converting a borrow array and popping from an empty array leak; proved for programs without these. Constants with more than 2^31 elements are undefined behaviour (refuted), and the documented least size of the mask is not allocated (refuted; every element has a bit nevertheless)."
  },
  {
   "property": "C58",
   "status": "partial",
   "theorems": [
    "emission_correct",
    "emission_defined",
    "emission_panics_refuted",
    "eval_exec"
   ],
   "note": "Correctness and definedness of the code of every function that is emitted are proved. That emission succeeds is refuted: a block without successors makes build_destructure panic."
  },
  {
   "property": "C59",
   "status": "partial",
   "theorems": [
    "normalize_entry_refuted",
    "normalize_dom_refuted",
    "normalize_ext_refuted"
   ],
   "note": "Refuted in three ways for the move of the last block: if it is the entry block too, the graph has no entry block any more; if a graph nested in it uses a value of another block, the edge leaves the control flow graph; if it uses a value from outside, the order edge is missing. That the result is valid in the other cases is shown on examples only."
  },
  {
   "property": "C60",
   "status": "partial",
   "theorems": [
    "dce_keeps_results",
    "dce_function_results",
    "dce_module_results",
    "dce_block_entry_refuted"
   ],
   "note": "Proved as an equivalence against the evaluation steps of the specification of C50 and C58 (declared functions may answer anything); non-termination is covered as the absence of results. Refuted for an entrypoint that is a block: values that other blocks use by Dom edges are removed, and the result is not valid."
  },
  {
   "property": "C61",
   "status": "partial",
   "theorems": [
    "fold_function_results",
    "fold_module_results",
    "fold_entry_results",
    "fold_keeps_wf",
    "fold_keeps_running",
    "fold_module_wf",
    "fold_module_refuted",
    "fold_extern_refuted"
   ],
   "note": "Proved for executions that call no declared function, on top of the soundness of the dataflow analysis (C50), with elimination of dead code as the last phase (C60). Refuted in two ways: a public function of a module that is also called with a constant is folded to that constant (its Input node only shows the inputs of calls inside the HUGR), and a join of the result of a declared function with a constant is folded to the constant. Only the direction from the original to the folded program is proved: folding may remove non-termination."
  },
  {
   "property": "C62",
   "status": "partial",
   "theorems": [
    "wire_wf",
    "wire_placed",
    "wire_all_placed",
    "wire_single_use",
    "wire_total",
    "wire_refused",
    "wires_ok",
    "add_op_ok",
    "set_outputs_ok",
    "append_tracks",
    "wire_cousins_refuted",
    "wire_unrelated_refuted",
    "wire_types_refuted",
    "append_twice_refuted"
   ],
   "note": "Proved for sources that are visible in the region of the target, and for circuits whose tracked wires are given once each. Refuted without these conditions: a value of a nested graph is accepted in the graph beside it (and gets an order edge across regions), a wire between two functions panics instead of being refused, types are not compared and an input may be wired twice, and a tracked wire that is given twice loses an output. That a block dominates another is not checked by builders, so it is not claimed."
  },
  {
   "property": "C63",
   "status": "partial",
   "theorems": [
    "inline_call_structure",
    "inline_call_results",
    "inline_call_refuses",
    "inline_call_declared",
    "inline_call_no_panic_refuted",
    "inline_call_valid_refuted"
   ],
   "note": "Proved for calls without type arguments from outside of the function that is called, and for operations whose meaning depends on the operation and not on the node; the results proved are those of the original (that there are no further ones is not proved). Refuted otherwise: inlining a call inside of the function it calls panics although the HUGR is valid and the patch is accepted, and inlining a call with type arguments leaves the type variables of the function in the signature of the dataflow graph, so the result is invalid."
  },
  {
   "property": "C64",
   "status": "partial",
   "theorems": [
    "map_function_maps",
    "map_function_errors",
    "map_function_results",
    "extend_inputs_extends",
    "extend_inputs_refuses",
    "map_identity_refuted",
    "extend_inputs_valid_refuted",
    "map_function_callers_refuted",
    "map_loop_refuted",
    "map_nested_refuted"
   ],
   "note": "Proved if the entry point is a function; it then computes the chosen outputs from the chosen inputs, unless it is called during its own run. Refuted otherwise or beyond that: an order edge from the input node makes even the identity map fail; adding inputs turns such an order edge into an edge from a value, so the result is invalid; callers of the function are not adapted; if the entry point is a loop the boundary nodes keep their types while their edges move, so the result is invalid; and if the entry point is a graph inside a function the edges around it are drawn anew, so that the identity map can change the function."
  },
  {
   "property": "C65",
   "status": "partial",
   "theorems": [
    "insert_identity_inserts",
    "insert_identity_valid",
    "remove_const_removes",
    "remove_load_constant_removes",
    "insert_identity_unchanged_refuted",
    "remove_load_panics_refuted"
   ],
   "note": "all positive parts proved for every well-formed valid HUGR; that a failed insertion leaves the graph unchanged is proved for valid graphs and refuted for graphs that are not valid; that every unused load can be removed is refuted (order edge into the load). PatchVerification::verify of IdentityInsertion is unimplemented!() in the code; the verify functions of the other two are the first part of the modelled apply functions"
  },
  {
   "property": "C66",
   "status": "partial",
   "theorems": [
    "outline_finds",
    "outline_explains",
    "outline_moves",
    "outline_succeeds",
    "outline_exit_refuted",
    "outline_values_refuted",
    "outline_panics_refuted",
    "outline_blocks_refuted"
   ],
   "note": "the search and its errors are proved for every well-formed HUGR, and the whole effect on the graph for every valid one, as well as when there is a panic if the set consists of basic blocks; that the result is valid, and that there is no panic, is refuted"
  },
  {
   "property": "C67",
   "status": "partial",
   "theorems": [
    "merge_only_single",
    "merge_idle",
    "merge_happens",
    "merge_blocks_only",
    "merge_self_refuted",
    "merge_const_refuted"
   ],
   "note": "which blocks are merged is proved for every HUGR, and that a basic block of a valid HUGR is only merged with a basic block; how the merged block is built is a parameter, except for the conditions under which that panics; that there is no panic on valid HUGRs is refuted"
  }
 ]
}