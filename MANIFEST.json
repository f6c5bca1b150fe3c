{
 "claims": [
  {
   "property": "C01",
   "status": "proved",
   "theorems": [
    "accepted_code_computes_target",
    "accepted_code_same_effects"
   ],
   "note": "well-formedness of the specification (wf_sfs) and the depth check are visible hypotheses; see DESIGN.md"
  },
  {
   "property": "C02",
   "status": "proved",
   "theorems": [
    "accepted_code_with_junk"
   ],
   "note": ""
  },
  {
   "property": "C03",
   "status": "proved",
   "theorems": [
    "accepted_code_same_effects"
   ],
   "note": ""
  },
  {
   "property": "C04",
   "status": "proved",
   "theorems": [
    "accepted_effects_once",
    "accepted_dependencies_ordered"
   ],
   "note": ""
  },
  {
   "property": "C05",
   "status": "proved",
   "theorems": [
    "validator_depth_refuted",
    "synthesizer_depth_bounded"
   ],
   "note": "false of the validator alone (refuted), proved for what the synthesizer returns"
  },
  {
   "property": "C06",
   "status": "proved",
   "theorems": [
    "cleanup_preserves_runs",
    "cleanup_preserves_symbolic_runs",
    "cleanup_complete"
   ],
   "note": ""
  },
  {
   "property": "C07",
   "status": "partial",
   "theorems": [
    "storage_dependencies_sound_partial",
    "transient_dependencies_sound_partial",
    "storage_dependencies_refuted",
    "create_storage_refuted"
   ],
   "note": "the full claim is false (refuted); proved unless one slot is computed from the other or an access is a contract creation"
  },
  {
   "property": "C08",
   "status": "proved",
   "theorems": [
    "memory_dependencies_sound",
    "dependencies_total",
    "reduction_preserves_order",
    "dependencies_forward"
   ],
   "note": ""
  },
  {
   "property": "C09",
   "status": "partial",
   "theorems": [
    "calls_ordered_partial",
    "gas_reads_keep_order",
    "events_unordered_refuted"
   ],
   "note": "calls are ordered with every storage and transient access and among themselves; gas reads among themselves; the full claim is false: logs are not ordered (refuted)"
  },
  {
   "property": "C28",
   "status": "proved",
   "theorems": [
    "unused_removal_safe",
    "unused_removal_complete",
    "needed_push_removed_refuted",
    "callcode_removed_refuted",
    "invalid_removed_refuted"
   ],
   "note": "proved of the removal on its own; the surrounding construction breaks it for duplicated pushes and callcode (refuted)"
  },
  {
   "property": "C29",
   "status": "proved",
   "theorems": [
    "specification_faithful",
    "specification_ids_unique",
    "fresh_name_clash_refuted",
    "zero_push_id_clash_refuted",
    "order_lost_with_removed_read_refuted"
   ],
   "note": "for blocks in SSA form over the supported operations; the excluded cases are refuted"
  },
  {
   "property": "C17",
   "status": "proved",
   "theorems": [
    "phi_webs_are_components",
    "phi_sets_are_components",
    "phi_web_counts"
   ],
   "note": ""
  },
  {
   "property": "C21",
   "status": "proved",
   "theorems": [
    "tags_unique_stable"
   ],
   "note": ""
  },
  {
   "property": "C27",
   "status": "proved",
   "theorems": [
    "encoding_size_minimal",
    "encoding_size_diverges_refuted",
    "push_bytes",
    "push_instruction_size",
    "opcode_bytes_two_digits",
    "opcode_padding_refuted",
    "returndatasize_opcode_refuted"
   ],
   "note": "non-negative constants; the size loop diverges on negative ones (refuted); table entries that are not two digits wide are refuted"
  },
  {
   "property": "C31",
   "status": "proved",
   "theorems": [
    "dependency_levels_correct",
    "dependency_levels_recursive",
    "dependency_levels_diverge_refuted"
   ],
   "note": "acyclic dependencies; diverges otherwise (refuted)"
  },
  {
   "property": "C33",
   "status": "proved",
   "theorems": [
    "split_json_objects",
    "split_json_brace_in_text_refuted",
    "split_json_apostrophe_refuted"
   ],
   "note": "for objects in which braces only delimit; otherwise refuted"
  },
  {
   "property": "C34",
   "status": "partial",
   "theorems": [
    "object_indices_injective_partial",
    "object_indices_across_functions_refuted",
    "object_index_dot_refuted"
   ],
   "note": "within one block list only; numbering restarts for each (refuted)"
  },
  {
   "property": "C35",
   "status": "proved",
   "theorems": [
    "back_edges_correct",
    "forward_graph_acyclic",
    "natural_loop_correct",
    "loop_forest_partial",
    "loop_forest_shared_header_refuted"
   ],
   "note": "back edges and loop bodies in full; the nesting forest built from them loses loops that share a header (refuted)"
  },
  {
   "property": "C13",
   "status": "proved",
   "theorems": [
    "combine_with_order_correct",
    "combine_with_order_complete",
    "combine_with_junk_complete",
    "junk_suffix_optimal",
    "combine_with_junk_order_refuted"
   ],
   "note": "order of the fixed elements: kept when the holes can be filled, refuted otherwise"
  },
  {
   "property": "C14",
   "status": "proved",
   "theorems": [
    "output_layout_correct",
    "propagate_output_correct",
    "remove_till_accessible_correct",
    "forget_values_correct"
   ],
   "note": ""
  },
  {
   "property": "C16",
   "status": "partial",
   "theorems": [
    "substitute_duplicates_partial",
    "substitute_duplicates_refuted",
    "substitute_duplicates_not_injective_refuted"
   ],
   "note": "distinctness is false (refuted); proved: which positions are renamed and how"
  },
  {
   "property": "C15",
   "status": "proved",
   "theorems": [
    "brothers_layouts_agree",
    "dominant_layouts_agree",
    "brothers_phi_result_lost_refuted",
    "brothers_reserved_name_refuted"
   ],
   "note": "position-by-position agreement in full; live-outs of a predecessor are kept except phi results (refuted) and for reserved names (refuted)"
  },
  {
   "property": "C10",
   "status": "partial",
   "theorems": [
    "liveness_sound_partial",
    "liveness_endless_loop_refuted",
    "liveness_critical_edge_refuted"
   ],
   "note": "sound when terminal blocks are reachable and blocks whose successor has phi functions have no other successor; both restrictions are necessary (refuted without them)"
  },
  {
   "property": "C11",
   "status": "partial",
   "theorems": [
    "liveness_minimal_partial",
    "liveness_dead_phi_refuted"
   ],
   "note": "exact at block ends; at block starts exact except for phi results, which are always reported (refuted)"
  },
  {
   "property": "C12",
   "status": "partial",
   "theorems": [
    "liveness_terminates_partial",
    "liveness_diverges_refuted"
   ],
   "note": "terminates unless some cycle has a phi function after every block; then it can diverge (refuted)"
  },
  {
   "property": "C22",
   "status": "partial",
   "theorems": [
    "split_block_preserves_partial",
    "split_block_walks",
    "split_block_equivalent_partial",
    "split_coinciding_targets_refuted",
    "split_self_loop_refuted",
    "split_name_clash_refuted"
   ],
   "note": "proved for blocks without a self edge, with distinct targets and fresh names for the halves; each of the three restrictions is necessary (refuted without it)"
  },
  {
   "property": "C23",
   "status": "partial",
   "theorems": [
    "merge_blocks_preserves_partial",
    "merge_blocks_walks",
    "merge_blocks_equivalent_partial",
    "search_fuel",
    "combine_blocks_preserves_partial",
    "remove_blocks_reachable",
    "merge_loop_refuted",
    "merge_start_refuted",
    "merge_with_itself_refuted",
    "merge_coinciding_targets_refuted",
    "remove_stale_predecessor_refuted"
   ],
   "note": "one merge, the whole combination pass and the removal of unreachable blocks keep all executions; graphs where the merged chain is a loop, contains the start block or has coinciding targets are refuted, and removal leaves stale predecessors (refuted)"
  },
  {
   "property": "C25",
   "status": "partial",
   "theorems": [
    "parsed_predecessors_partial",
    "parsed_exits",
    "parsed_self_loop_refuted"
   ],
   "note": "predecessors exact except for self edges, which the parser drops (refuted)"
  },
  {
   "property": "C24",
   "status": "proved",
   "theorems": [
    "renaming_alpha",
    "renaming_undefined_capture_refuted"
   ],
   "note": "the renaming is an alpha-renaming that makes definitions of different functions distinct, for programs in which every used variable is defined; a name used but never defined can be captured (refuted without the hypothesis)"
  },
  {
   "property": "C36",
   "status": "partial",
   "theorems": [
    "inline_function_executions",
    "inline_binds_arguments",
    "inline_binds_result",
    "inline_binds_results",
    "parsed_call_binds_arguments",
    "parsed_call_binds_result_partial",
    "parsed_call_swaps_results",
    "parsed_call_binds_result_refuted",
    "inline_same_name_refuted"
   ],
   "note": "inlining replaces each visit to the call by a walk of the function body, arguments bound position by position, results bound by renaming (one exit) or phi functions (several exits); for calls as parsed the binding of results holds when the function name contains an underscore and is refuted (results reversed) otherwise"
  },
  {
   "property": "C18",
   "status": "partial",
   "theorems": [
    "tree_scan_loads_right_partial",
    "num_regs_covers",
    "tree_scan_join_refuted",
    "tree_scan_loop_refuted"
   ],
   "note": "along every path of the dominator tree each load finds the value stored for its variable, and the number of registers covers all of them; executions that are not paths of the dominator tree (joins, loop iterations) can find another variable's value (both refuted)"
  },
  {
   "property": "C19",
   "status": "proved",
   "theorems": [
    "register_slots",
    "free_memory_update_refuted"
   ],
   "note": "all registers of all repaired block lists lie in pairwise disjoint 32-byte slots between the initial constant and the one pushed instead; other pushes of the same constant in the start block are also changed (refuted: the update touches more than the free-memory bound)"
  },
  {
   "property": "C20",
   "status": "partial",
   "theorems": [
    "copies_parallel",
    "block_copies_parallel_partial",
    "register_accesses",
    "copies_same_argument_refuted",
    "copies_from_stack_refuted",
    "copies_from_stack"
   ],
   "note": "the sequence for any list of register copies with distinct destinations is a parallel assignment on byte-level memory; for the phi functions of the successors it is so when no value must go to two registers (refuted otherwise) and no value comes straight from the stack (refuted: wrong element)"
  },
  {
   "property": "C32",
   "status": "partial",
   "theorems": [
    "transform_valid_partial",
    "semantic_rules_valid",
    "transform_same_text_only",
    "transform_division_refuted",
    "transform_shift_refuted",
    "gt_rule_refuted"
   ],
   "note": "all 48 multi-instruction rules hold on words; single-instruction rules hold except div/sdiv(X,X) at 0 and shl/shr with a zero operand, GT(0,X) (refuted)"
  },
  {
   "property": "C26",
   "status": "partial",
   "theorems": [
    "emission_layout_partial",
    "object_layout_partial",
    "tag_defined_once_partial",
    "emission_twice_refuted",
    "emission_fall_through_refuted",
    "terminal_phi_raises",
    "cut_before_exit_raises",
    "cut_block_code"
   ],
   "note": "for graphs in which the target of a conditional jump has one predecessor and fall-throughs do not end in a block placed before; without the first restriction a block is emitted twice, without the second a fall-through is broken (both refuted)"
  },
  {
   "property": "C30",
   "status": "partial",
   "theorems": [
    "permutation_correct_partial",
    "permutation_raises_refuted",
    "permutation_diverges_refuted"
   ],
   "note": "whenever the phase returns, its operations turn the stack into the target on every machine state, with SWAPs in reach; that no SWAP index is below 1 is a hypothesis (checked later by the synthesizer, C05). The phase itself may fail its own assertion or loop forever on stacks that have all the elements of the target (both refuted)"
  },
  {
   "property": "C37",
   "status": "partial",
   "theorems": [
    "inserted_stores_right_partial",
    "inserted_stores_call_refuted"
   ],
   "note": "for blocks that do not end in a function call; in a block that does, the position after the call is used before the call and the return tag is stored (refuted)"
  },
  {
   "property": "C38",
   "status": "partial",
   "theorems": [
    "registers_written_first",
    "repair_reads_unwritten_refuted"
   ],
   "note": "for the loads of the code and for the phi arguments that are no longer in the stack at the end of their block, under the hypothesis that each variable read is within DUP reach in its defining block or its phi function is solved through registers; a phi argument still in the stack is read from an unwritten register when another branch gave it a register (refuted)"
  },
  {
   "property": "C39",
   "status": "partial",
   "theorems": [
    "compiled_block_correct_partial"
   ],
   "note": "composition of C03, C07-C09 and C29. Hypotheses: block in SSA form over the supported operations, no contract creation and no callcode, no slot computed from the slot of another access, logs and reads of the rest of the state not mixed with operations that change it, every loaded or hashed value used (each exclusion is forced: see the refuted theorems of C07, C09, C29)"
  },
  {
   "property": "C40",
   "status": "partial",
   "theorems": [
    "specification_dependencies_consistent",
    "specification_orders_conflicts_partial"
   ],
   "note": "consistency for every block in SSA form; sufficiency under the hypotheses of C39"
  },
  {
   "property": "C41",
   "status": "partial",
   "theorems": [
    "program_simulated_partial",
    "program_diverges_partial",
    "program_simulated_stack_partial"
   ],
   "note": "composition of C39 and C26: simulation of the graphs (phi functions, calls, returns, recursion, loops) by the emitted code. Hypotheses: every block as in C39, the graphs as in C26, layouts that agree along the edges, jumps and calls with the tag of their target, values fetched from the memory words that hold them, and a program that does not use those words (its state is the same outside them; everywhere when no word is used); the layouts come from C42"
  },
  {
   "property": "C42",
   "status": "partial",
   "theorems": [
    "layouts_fit_partial",
    "chosen_layouts_agree",
    "values_kept_between",
    "layouts_assertion_refuted",
    "layouts_two_joins_refuted",
    "layouts_critical_phi_refuted"
   ],
   "note": "for graphs without self loops in which no block has two successors that are joins and no phi result is read by another successor of a predecessor of its block (both forced: refuted); the traversal ends, either with layouts that fit or with the assertion on a dominating brother, which can fail (refuted). The result gives the layout conditions of C41 (chosen_layouts_agree). Liveness, variable depths and dominator tree are parameters"
  },
  {
   "property": "C43",
   "status": "partial",
   "theorems": [
    "jumps_and_calls_placed_partial",
    "main_exit_call_refuted",
    "split_names_refuted"
   ],
   "note": "for objects without self loops and without conditional jumps to a single target (SplitBlock fails otherwise, C22), whose block names do not become equal when the suffixes f and s are added (forced: refuted). A call that ends the main code gets no return address even if the function returns (refuted)"
  },
  {
   "property": "C45",
   "status": "partial",
   "theorems": [
    "combine_keeps_meaning_partial",
    "combined_object_ok_partial",
    "combine_and_jumps_keep_meaning_partial",
    "combined_exit_call_refuted"
   ],
   "note": "for the graphs of C23 (no jump to the start block, no chain to merge that is a loop, no conditional jump with both targets equal: forced, refuted there), with phi functions only in blocks that have several predecessors. The composition with the insertion of jumps is for the objects of C44 in which every block can be reached (removal leaves stale predecessors, C23) and a call that returns is followed by some instruction on every path to the end (forced: combined_exit_call_refuted)"
  },
  {
   "property": "C44",
   "status": "partial",
   "theorems": [
    "jumps_keep_meaning_partial",
    "erased_does"
   ],
   "note": "for the objects of C43 whose variables are not named like tags, whose literals can be read, without the operation invalid (dropped later, see the findings), and in which the main code and blocks nothing follows only end with calls of functions that do not return (forced: main_exit_call_refuted). Errors of the original program (reading a variable nobody has assigned, wrong number of arguments) may become anything"
  },
  {
   "property": "C46",
   "status": "proved",
   "theorems": [
    "phi_repair_ends",
    "phi_repair_exact",
    "unreachable_values_exact"
   ],
   "note": "for components in which no variable is the result of two phi functions, before any repair; ends otherwise with the KeyError of an argument out of reach that is not a phi result"
  },
  {
   "property": "C47",
   "status": "proved",
   "theorems": [
    "renaming_keeps_meaning",
    "renaming_capture_refuted"
   ],
   "note": "for objects in which every variable read by a component is defined in it, before the placement of jumps (no instruction that pushes a tag); without the first condition the claim is refuted"
  },
  {
   "property": "C48",
   "status": "proved",
   "theorems": [
    "inlining_keeps_meaning",
    "inlining_shared_names_refuted"
   ],
   "note": "for one call, at a given position, of objects in static single assignment form before the placement of jumps, with names not shared between components (refuted without); the choice of the call and the loop over the functions are not part of this theorem"
  },
  {
   "property": "C49",
   "status": "proved",
   "theorems": [
    "inlining_pass_keeps_meaning",
    "inline_functions_keeps_meaning",
    "computed_order_is_inlining_order",
    "computed_order_exists",
    "inline_functions_recursion_refuted",
    "inlining_pass_recursion_refuted",
    "inline_functions_order_refuted"
   ],
   "note": "the order of the functions is the one the code takes from the call graph; networkx (condensation, topological_sort) is described by what it documents (OrderSpec.v); functions that are called once and recursive are excluded (refuted without)"
  },
  {
   "property": "C50",
   "status": "partial",
   "theorems": [
    "preprocess_keeps_meaning_partial"
   ],
   "note": "missing: functions called once and recursive (refuted, C49), objects with sub-objects, and errors of the parsed program (a read of a variable nobody has assigned, a wrong number of arguments), which may become anything. source_ok states what is asked of the parsed object"
  },
  {
   "property": "C51",
   "status": "proved",
   "theorems": [
    "constants_unchanged",
    "constants_formula_refuted"
   ],
   "note": "phi functions have one argument for each entry; the dominator tree, computed by networkx, is a parameter whose nodes are blocks. With the formula that is commented out the pass would be wrong (refuted)"
  },
  {
   "property": "C52",
   "status": "partial",
   "theorems": [
    "compile_keeps_meaning_partial",
    "compile_checked_keeps_meaning_partial",
    "compile_stack_keeps_meaning_partial",
    "compile_staged_keeps_meaning_partial",
    "file_compiled_keeps_meaning_partial",
    "file_code_keeps_meaning_partial",
    "file_program_keeps_meaning_partial"
   ],
   "note": "file_program_keeps_meaning_partial takes the order of the functions from the code (C49); file_code_keeps_meaning_partial starts from the JSON file (C58), has conditions on the program only in terms of that file (plain_file, sound_file, jorder, no_recursion) and shows that parsing and the passes succeed; compile_staged_keeps_meaning_partial takes the layouts from the traversal (C42) and the ids from the driver (C56), and leaves conditions on single blocks; missing: that the stages always find something and programs to be repaired (C18, C20, C38 cover parts), the operation invalid, and files outside these conditions. The check generatedb is proved sound for the conditions generated (generatedb_ok)"
  },
  {
   "property": "C53",
   "status": "partial",
   "theorems": [
    "lowered_block_correct_partial",
    "own_registers_keep_meaning_partial",
    "registers_recursion_refuted"
   ],
   "note": "the program is assumed not to access the words (solc's memory guard, whose constant the code raises: C19); recursion refuted with a function that keeps its argument in its own word across a call of itself; other hypotheses as in C39 (block) and C52 (object)"
  },
  {
   "property": "C54",
   "status": "proved",
   "theorems": [
    "search_reaches_target",
    "synthesizer_reaches_target",
    "validator_stack_assertion_holds"
   ],
   "note": "names of variables can be written in VGET and VSET (no line break, no SWAP or DUP) and do not look like the ids of writes; commutative operations have two operands. What __init__ and target compute is universally quantified. A search that raises or does not end returns nothing (C30)"
  },
  {
   "property": "C55",
   "status": "partial",
   "theorems": [
    "stores_executed_once_partial",
    "stores_executed_in_order_partial",
    "greedy_reaches_target",
    "validator_accepts_partial"
   ],
   "note": "for the operations without a result; missing: operations with effects that also have a result (calls, creations) and the order of loads. An operation without a result must be one of those listed as writes, else it is left out (other_effects_dropped_refuted); the dependencies are between operations of the block. The theorems are about greedy_from_json as a whole, C54's target stack included (greedy_reaches_target)"
  },
  {
   "property": "C56",
   "status": "partial",
   "theorems": [
    "every_block_served",
    "repaired_iff_loads",
    "unrepaired_without_registers",
    "values_to_fix_counted",
    "saved_values_loaded",
    "driver_returns_partial",
    "one_failure_stops_all",
    "compile_synthesized_keeps_meaning_partial"
   ],
   "note": "that the driver returns is proved if the synthesizer finds a sequence for each block (C54, C55) and operations with effects have no result; one block without a sequence aborts the whole compilation (one_failure_stops_all). The composition with C52 covers programs that need no repair; its remaining conditions are about the layouts. Not modelled: times and CSV rows"
  },
  {
   "property": "C57",
   "status": "partial",
   "theorems": [
    "assembly_does_what_bytes_do",
    "addresses_do_not_matter",
    "tags_numbered",
    "contract_taken_apart",
    "constants_kept_refuted",
    "invalid_in_code_refuted"
   ],
   "note": "false of the code: a constant equal to the address of a JUMPDEST becomes a tag, so code assembled anew may use another constant (constants_kept_refuted), and an INVALID inside the code cuts it or the contract is refused (invalid_in_code_refuted). Not modelled: operations that look at their position (PC, CODESIZE, CODECOPY)"
  },
  {
   "property": "C58",
   "status": "partial",
   "theorems": [
    "file_does_the_same_partial",
    "parsed_does_the_same_partial",
    "parsed_object_ready_partial",
    "parsed_source_ready_partial",
    "two_results_swapped_refuted",
    "entry_ignored_refuted",
    "verbatim_raises_refuted",
    "start_named_otherwise_refuted"
   ],
   "note": "false of the code: a function with several results and no underscore in its name gets them in the wrong order (two_results_swapped_refuted), the entry of a function is not read (entry_ignored_refuted), verbatim makes the parser raise (verbatim_raises_refuted), and without --builtin-ops the first block has to be called Block0 (start_named_otherwise_refuted). Proved for files without these, whose references are not paths of the form x.y with a one-character first part; the decoding of the JSON text is not modelled. parsed_object_ready_partial: files as solc writes them are parsed to objects in the form that the passes need (links in both directions, exits, names of blocks), and parsed_source_ready_partial that all conditions of C50 follow from conditions on the file (SourceSpec.v)"
  },
  {
   "property": "C59",
   "status": "proved",
   "theorems": [
    "gas_infinite_iff_recursion",
    "object_costs_tell_recursion",
    "finite_costs_add_up",
    "costs_do_not_change_inlining",
    "infinite_gas_kept_refuted"
   ],
   "note": "the table of instruction costs is a parameter of the model, so the theorems hold for every table. infinite_gas_kept_refuted records that the test for infinite gas does not keep a function from being inlined, since a function called once is inlined before its costs are looked at. The recursion of compute_gas_bytes into sub-objects is not modelled: nothing calls it, and it uses a method that the class CFG does not have"
  },
  {
   "property": "C60",
   "status": "proved",
   "theorems": [
    "dominance_tree_tells_dominance",
    "tree_walk_is_dominators",
    "immediate_dominators_exist",
    "immediate_dominator_unique",
    "removal_keeps_dominators"
   ],
   "note": "networkx's immediate_dominators is modelled by its documented result (idoms_ok in DomSpec.v); immediate_dominators_exist shows that every component has such a dictionary and immediate_dominator_unique that there is no other. CFGBlockList keeps a copy of the graph that remove_block does not drop: removal_keeps_dominators shows that the copy from before the removal gives the same tree; other uses of the copies are not modelled"
  },
  {
   "property": "C61",
   "status": "proved",
   "theorems": [
    "local_constants_keep_runs",
    "no_constant_arguments_left",
    "constants_assigned_once",
    "local_constants_any_names_refuted"
   ],
   "note": "one component at a time, from any value of the counter; the loop over the functions and subobjects is not modelled. The pass is switched off in the pipeline. The pass does not check its names against those of the program: local_constants_any_names_refuted gives a program with a variable c0 that it changes"
  }
 ]
}