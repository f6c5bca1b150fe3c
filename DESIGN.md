# Formal model of costa-group/grey (Yul CFG -> EVM back end)

The model is written in Rocq/Coq 8.16.1, in `rocq/theories`.  Each topic has
up to three files:

* `XModel.v` - executable Gallina functions that mirror the Python code branch
  by branch, every definition with a comment citing the file and lines it
  models; Python exceptions are values (`option`/`result`), loops with no
  syntactic bound are fuelled and return an explicit out-of-fuel value.
* `XSpec.v` - (where useful) the small independent specification: machine
  semantics, reachability in a graph, permutation, ...  No model helper is
  used there.
* `XProofs.v` - lemmas.
* `XProps.v` - only the property theorems, closed by `exact lemma`, each with
  `Print Assumptions` and a non-vacuity `Example`.

Where a property is false of the code as written, the theorem is called
`..._refuted` and gives a witness; the true part is proved with the forced
hypothesis visible and named `..._partial` when it is not the full property.

## Plan per property

| id | what is modelled | how it is proved |
|----|------------------|------------------|
| C01 C02 | `execute_instr_id`, `check_execution_from_ids` with string ids; a concrete stack machine parametric in the meaning of opcodes | simulation: symbolic stack mapped through a variable environment is the concrete stack; induction over the ids |
| C03 | plus program-order execution over a world `location -> value` with footprints | invariant: for each location, the writers already executed are a prefix of the program-order writers; induction over ids |
| C04 | `check_deps` (max/min of occurrence positions) | list reasoning; induction over the dependency chain |
| C05 | `check_dup_swap`, `greedy_from_json` tail | refutation for the validator alone; bound theorem for the synthesizer's filter |
| C06 | `remove_useless` | loop invariant: emitted prefix is equivalent to consumed prefix |
| C07 C08 C09 | `get_expression`, `is_member_recursive`, `are_dependent_*`, `overlap`, `compute_*_dependences` | refutations for aliasing cases; positive theorem on footprints; linked with C03 |
| C10 C11 C12 | `LivenessState`, `BackwardsAnalysis` | fixpoint invariant; induction over paths; measure for termination; refutations |
| C13 C14 C16 | `liveness/utils.py`, `output_stack_layout`, `substitute_duplicates` | structural induction, permutations |
| C15 | `unify_stacks_brothers*` | induction over the combined layout |
| C17 | `PhiWebs`, `union_find_search` | refinement to an equivalence closure |
| C18 C19 C20 | `ColourAssignment`, `TreeScan._emit_copies`, slot assignment | invariants over operation histories; simulation against a register file |
| C21 | `tag_from_tag_dict` | invariant over request histories |
| C22 C23 C25 | block list, `SplitBlock`, `MergeBlocks`, `update_comes_from` | link-consistency invariant |
| C24 C36 | `variable_renaming.py`, `inline_function.py` | injectivity / substitution lemmas |
| C26 | `traverse_cfg_block_list`, `locate_fallsto_block` | refutation + invariant on a restricted class |
| C27 | numbers | arithmetic |
| C28 C29 | `detect_unused_instructions`, `_build_spec_for_sequence` | reachability closure; invariant over the instruction list |
| C30 C31 | synthesizer phases | loop invariants, fuel |
| C32 | rewrite rules | modular arithmetic, refutations |
| C33 | `split_json` | induction on balanced words |
| C34 | data offsets | invariant over request histories |
| C35 | graph algorithms | DFS invariants |
| C37 C38 | `insert_placeholders.py`, `reachability.py`, `repair_unreachable.py` | invariants along the dominator tree; refutations |
| C39 C40 | composition of the block specification, its dependencies, the validator and the translation into code | simulation obtained by composing C03, C07-C09, C29 |
| C41 | meaning of the graphs of an object with calls and phi functions; meaning of code with jumps; `ProgSem.v`, `ProgSpec.v` | forward simulation, one block per step, with the layouts as invariant |
| C42 | choice of the layouts of all the blocks of a component (`LayoutGenModel.v`) | invariant of the traversal: layouts chosen so far fit, layouts of pending predecessors of a join fixed together; measure for termination |
| C43 | insertion of jumps and tags, splitting at calls, for a whole object (`JumpModel.v`) | invariant of the two loops on the dictionary of tags, the links and the shape of the blocks; traces up to erasure of the additions |
| C44 | the same passes, with a semantics of whole objects that has values, calls and a world (`ObjSem.v`), and the program of `ProgSem.v` read off the result (`ObjProgram.v`) | simulation: every split is a cut of a block (forward simulation with a measure), edits do not change the code once the additions are erased, the erased object is simulated by the program block by block |
| C45 | combination and removal of blocks for a whole object (`CombineModel.v`), with the semantics of `ObjSem.v` | a merge is a cut read backwards: lockstep simulation in both directions; reachability invariant for removal; the hypotheses of C44 are invariants of merging |
| C46 | the worklist of `insert_placeholders.py` and the traversal of `reachability.py` (`PlaceModel.v`), compared with an inductive set of values (`PhiRepairSpec.v`) | invariant of the worklist (what is pending for a visited value lies above it), lexicographic measure for the end; induction on the tree |
| C47 | `variable_renaming.py` on a whole object (`ObjRenameModel.v`), executions of `ObjSem.v` | lockstep simulation with a renaming that is injective on the defined variables |
| C48 | body of the loop of `function_inlining.py` on a whole object (`ObjInlineModel.v` on top of `InlineModel.v`), executions of `ObjSem.v`, `ObjSsaSpec.v` | lockstep simulation; stale values of a former round are excluded by the definition of the variables on every path |
| C49 | the loop of `function_inlining.py` (`InlineDriverModel.v`): calls of every function with their positions, split blocks, `determine_idx`, the functions in a given order (`ObjDriverSpec.v`), and the graph from which networkx finds that order (`OrderModel.v`, `OrderSpec.v`) | invariant of the loop: every kept position, with the pieces of its block, is the position of the call in the current object; each round is C48, which also keeps well-formedness, single assignment and correct calls; sorted components give an order of the functions, and they exist (the number of predecessors grows along edges between components) |
| C50 | the six passes in the order of `preprocessing_methods.py:18-54` (`ObjFrontModel.v`); the conditions on the parsed object are `source_ok` in `ObjLayoutSpec.v` | renaming turns `source_ok` into single assignment, correct calls and layout (`ObjFront.v`); inlining keeps these (`ObjInline.v`, `ObjDriver.v`); they give the hypotheses of C45 and C44, whose simulations are composed with those of C46 and C49; the number of arguments of phi functions follows the entries through all passes (`PhiArity.v`), so the last pass changes nothing (C51) |
| C51 | `minimizing_constants_insertion.py` (`ConstModel.v`), with the decision as a parameter; `ConstSpec.v` | induction over the tree of blocks: nothing is introduced, so nothing is renamed |
| C52 | the preprocessing of C50 followed by the emission of C26, for any findings of the stages between them; `CompileSpec.v` states what has to be found, `CompileCheck.v` decides it | C50 and the program simulation C41 composed; names, arities, tags and return addresses that C41 asks for follow from the conditions on the parsed object (`CompileOrigin.v`, `CompileProofs.v`), the rest is what the check computes, or, in `GenLayout.v`, what the traversal of C42 and the driver of C56 have produced |
| C53 | the ids with memory accesses in place of VGET and VSET (`lowered`, with the addresses of the words) and which word has which variable (`track`); `RegsSpec.v` | simulation of the run of the ids themselves, where VGET reads the variable (`RegsSim.v`), composed with C39 (`RegsBlock.v`); the words are part of the invariants of C41 and C52; own words and no recursion give the condition on calls, and a recursive function refutes it otherwise (`RecursionProps.v`) |
| C54 | the whole search of the synthesizer (`SearchModel.v`): values brought to the top, cleaned, computed beforehand, memory operations, choice of the next element, main loop; what is computed before it is a parameter; `SearchSpec.v` | invariant: the operations emitted so far, run by the validator, give the stack kept by the search (`SearchProofs.v`); during a call the elements counted as part of the term stay in place; the instructions are the original ones up to exchanged operands, where non-commutative ones are exchanged only for operations of greater rank than those computed; composed with C30 and C05 (`SearchProps.v`) |
| C55 | the rest of the synthesizer (`TargetModel.v`): extended dependencies, levels, order of the operations, renaming and insertion of loads, counts of uses, both attempts and the choice between them; `StoreSpec.v`, `TargetSpec.v` | the stores emitted by each phase of the search are those pending, in order (`SearchOrder.v`); every position between 0 and the last is occupied, so joining positions loses nothing and the order is a permutation of the writes; renaming and insertion keep the subsequence of writes (`TargetProofs.v`); the assertion on the order transfers to the sequence (`TargetProps.v`) |
| C56 | the driver of the synthesizer (`GenModel.v`): blocks, functions, objects and sub-objects, validation of each sequence, flags and counters for the repair; `GenSpec.v` lists the block lists of a program and defines loads and saves | induction on the nesting of objects; the shape of the ids of the search (`SearchIds.v`) says that loads and saves are exactly the ids with those prefixes and that a save is followed by its load; composed with C52 in `GenCompile.v` |
| C57 | the translation of the opcodes printed by the compiler into assembly (`ImportModel.v`): both passes, tags, splitting of the text; `ImportSpec.v` has byte code with addresses, its listing, a machine for byte code and one for assembly with tags | both passes compute the same addresses (induction over the listing); lock-step simulation between the machines, in which a JUMPDEST takes two steps of the second; a run in which tags are mere names is the image of every run with addresses; occurrences of INVALID lie within words (`ImportText.v`) |
| C58 | the parser of the JSON files (`ParseModel.v`): instructions, blocks, block lists with the search from Block0 and the translation of the opcodes, functions, nested objects; `ParseSpec.v` has a semantics of the format itself (operands, phi functions, targets, calls) and the meaning of the built-in functions in the assembly | the search ends and visits what is reachable (`dfs_ends`); dictionaries of numbers only grow, so the last one describes all translations; each block is an image of the one of the file (`ParseComponent.v`); lock-step simulation between the file and the parsed object (`ParseSim.v`); induction over nested files; what the passes ask of the parsed object follows from conditions on the file (`SourceSpec.v`, `ParseReady.v`, `ParseSource.v`) |
| C59 | the estimates of gas and bytes (`CostModel.v`): the search over functions with the cache and the set of functions that are being estimated, and the pass of C49 with the costs in its state | invariant of the depth-first search: cached costs are right except for functions that reach one still open, and those are computed with an infinite part (`CostProofs.v`); finite costs satisfy the sums of `CostSpec.v` (`CostSums.v`); the loop of C49 again, with the estimation of each step |
| C60 | the graph of a component and the tree of dominators (`DomModel.v`); `DomSpec.v` has walks, dominance and what networkx documents about immediate dominators | induction on the length of walks: dominators are reached by shorter walks; two dominators of a block are comparable (last visit of either on a walk), so immediate ones exist (`DomProofs.v`) |
| C61 | the pass that introduces variables for constants where they are used (`LocalConstModel.v`), one component; `LocalConstSpec.v` has runs along a path of blocks for any meaning of the operations | invariant of the plan (names distinct and below the counter), then simulation block by block: after a block its new variables hold their constants (`LocalConstProofs.v`); refuted if the program has variables named c0, c1, ... |

## Results

Generated from `MANIFEST.json`.  A theorem whose name ends in `_refuted` shows
that a statement one would expect is false of the code as written; a theorem
that ends in `_partial` proves the property under restrictions that are
hypotheses of its statement.

<!-- results:begin -->
| id | property | status | theorems | restrictions |
|----|----------|--------|----------|--------------|
| C01 | Accepted block code computes the specified stack | proved | `accepted_code_computes_target`, `accepted_code_same_effects` | well-formedness of the specification (wf_sfs) and the depth check are visible hypotheses; see DESIGN.md |
| C02 | Accepted block code with junk leaves the target on top | proved | `accepted_code_with_junk` |  |
| C03 | Accepted block code has the same effects as the block's instructions in program order | proved | `accepted_code_same_effects` |  |
| C04 | Side effects happen exactly once and dependencies are respected transitively | proved | `accepted_effects_once`, `accepted_dependencies_ordered` |  |
| C05 | Emitted DUP/SWAP depth is executable on the EVM | proved | `validator_depth_refuted`, `synthesizer_depth_bounded` | false of the validator alone (refuted), proved for what the synthesizer returns |
| C06 | Peephole clean-up preserves meaning | proved | `cleanup_preserves_runs`, `cleanup_preserves_symbolic_runs`, `cleanup_complete` |  |
| C07 | Storage and transient dependencies are sound | partial | `storage_dependencies_sound_partial`, `transient_dependencies_sound_partial`, `storage_dependencies_refuted`, `create_storage_refuted` | the full claim is false (refuted); proved unless one slot is computed from the other or an access is a contract creation |
| C08 | Memory dependencies are sound | proved | `memory_dependencies_sound`, `dependencies_total`, `reduction_preserves_order`, `dependencies_forward` |  |
| C09 | Externally visible events keep their order | partial | `calls_ordered_partial`, `gas_reads_keep_order`, `events_unordered_refuted` | calls are ordered with every storage and transient access and among themselves; gas reads among themselves; the full claim is false: logs are not ordered (refuted) |
| C10 | Liveness information is sound | partial | `liveness_sound_partial`, `liveness_endless_loop_refuted`, `liveness_critical_edge_refuted` | sound when terminal blocks are reachable and blocks whose successor has phi functions have no other successor; both restrictions are necessary (refuted without them) |
| C11 | Liveness information is minimal | partial | `liveness_minimal_partial`, `liveness_dead_phi_refuted` | exact at block ends; at block starts exact except for phi results, which are always reported (refuted) |
| C12 | Backward analysis terminates | partial | `liveness_terminates_partial`, `liveness_diverges_refuted` | terminates unless some cycle has a phi function after every block; then it can diverge (refuted) |
| C13 | Combining stack layouts keeps exactly the requested elements | proved | `combine_with_order_correct`, `combine_with_order_complete`, `combine_with_junk_complete`, `junk_suffix_optimal`, `combine_with_junk_order_refuted` | order of the fixed elements: kept when the holes can be filled, refuted otherwise |
| C14 | Output layout of a block is complete and correctly ordered | proved | `output_layout_correct`, `propagate_output_correct`, `remove_till_accessible_correct`, `forget_values_correct` |  |
| C15 | Joining blocks agree on the stack layout | proved | `brothers_layouts_agree`, `dominant_layouts_agree`, `brothers_phi_result_lost_refuted`, `brothers_reserved_name_refuted` | position-by-position agreement in full; live-outs of a predecessor are kept except phi results (refuted) and for reserved names (refuted) |
| C16 | Duplicate elimination in layouts is faithful | partial | `substitute_duplicates_partial`, `substitute_duplicates_refuted`, `substitute_duplicates_not_injective_refuted` | distinctness is false (refuted); proved: which positions are renamed and how |
| C17 | Phi-webs are the connected components of the phi relation | proved | `phi_webs_are_components`, `phi_sets_are_components`, `phi_web_counts` |  |
| C18 | Register colouring never shares a register between live values | partial | `tree_scan_loads_right_partial`, `num_regs_covers`, `tree_scan_join_refuted`, `tree_scan_loop_refuted` | along every path of the dominator tree each load finds the value stored for its variable, and the number of registers covers all of them; executions that are not paths of the dominator tree (joins, loop iterations) can find another variable's value (both refuted) |
| C19 | Memory slots of registers are disjoint | proved | `register_slots`, `free_memory_update_refuted` | all registers of all repaired block lists lie in pairwise disjoint 32-byte slots between the initial constant and the one pushed instead; other pushes of the same constant in the start block are also changed (refuted: the update touches more than the free-memory bound) |
| C20 | Register copies implement a parallel assignment | partial | `copies_parallel`, `block_copies_parallel_partial`, `register_accesses`, `copies_same_argument_refuted`, `copies_from_stack_refuted`, `copies_from_stack` | the sequence for any list of register copies with distinct destinations is a parallel assignment on byte-level memory; for the phi functions of the successors it is so when no value must go to two registers (refuted otherwise) and no value comes straight from the stack (refuted: wrong element) |
| C21 | Jump tags are unique and stable | proved | `tags_unique_stable` |  |
| C22 | Splitting a block preserves the control-flow graph and the code | partial | `split_block_preserves_partial`, `split_block_walks`, `split_block_equivalent_partial`, `split_coinciding_targets_refuted`, `split_self_loop_refuted`, `split_name_clash_refuted` | proved for blocks without a self edge, with distinct targets and fresh names for the halves; each of the three restrictions is necessary (refuted without it) |
| C23 | Merging blocks preserves the control-flow graph and the code | partial | `merge_blocks_preserves_partial`, `merge_blocks_walks`, `merge_blocks_equivalent_partial`, `search_fuel`, `combine_blocks_preserves_partial`, `remove_blocks_reachable`, `merge_loop_refuted`, `merge_start_refuted`, `merge_with_itself_refuted`, `merge_coinciding_targets_refuted`, `remove_stale_predecessor_refuted` | one merge, the whole combination pass and the removal of unreachable blocks keep all executions; graphs where the merged chain is a loop, contains the start block or has coinciding targets are refuted, and removal leaves stale predecessors (refuted) |
| C24 | Renaming variables is an alpha-renaming | proved | `renaming_alpha`, `renaming_undefined_capture_refuted` | the renaming is an alpha-renaming that makes definitions of different functions distinct, for programs in which every used variable is defined; a name used but never defined can be captured (refuted without the hypothesis) |
| C25 | Predecessor information is exact after parsing | partial | `parsed_predecessors_partial`, `parsed_exits`, `parsed_self_loop_refuted` | predecessors exact except for self edges, which the parser drops (refuted) |
| C26 | Code emission contains every reachable block once and fall-throughs are adjacent | partial | `emission_layout_partial`, `object_layout_partial`, `tag_defined_once_partial`, `emission_twice_refuted`, `emission_fall_through_refuted`, `terminal_phi_raises`, `cut_before_exit_raises`, `cut_block_code` | for graphs in which the target of a conditional jump has one predecessor and fall-throughs do not end in a block placed before; without the first restriction a block is emitted twice, without the second a fall-through is broken (both refuted) |
| C27 | Constant encoding sizes are minimal and exact | proved | `encoding_size_minimal`, `encoding_size_diverges_refuted`, `push_bytes`, `push_instruction_size`, `opcode_bytes_two_digits`, `opcode_padding_refuted`, `returndatasize_opcode_refuted` | non-negative constants; the size loop diverges on negative ones (refuted); table entries that are not two digits wide are refuted |
| C28 | Unused instruction removal keeps everything needed | proved | `unused_removal_safe`, `unused_removal_complete`, `needed_push_removed_refuted`, `callcode_removed_refuted`, `invalid_removed_refuted` | proved of the removal on its own; the surrounding construction breaks it for duplicated pushes and callcode (refuted) |
| C29 | Block specification is faithful to the instructions | proved | `specification_faithful`, `specification_ids_unique`, `fresh_name_clash_refuted`, `zero_push_id_clash_refuted`, `order_lost_with_removed_read_refuted` | for blocks in SSA form over the supported operations; the excluded cases are refuted |
| C30 | Final permutation phase is correct | partial | `permutation_correct_partial`, `permutation_raises_refuted`, `permutation_diverges_refuted` | whenever the phase returns, its operations turn the stack into the target on every machine state, with SWAPs in reach; that no SWAP index is below 1 is a hypothesis (checked later by the synthesizer, C05). The phase itself may fail its own assertion or loop forever on stacks that have all the elements of the target (both refuted) |
| C31 | Dependency levels are consistent | proved | `dependency_levels_correct`, `dependency_levels_recursive`, `dependency_levels_diverge_refuted` | acyclic dependencies; diverges otherwise (refuted) |
| C32 | Algebraic rewrite rules are valid on 256-bit words | partial | `transform_valid_partial`, `semantic_rules_valid`, `transform_same_text_only`, `transform_division_refuted`, `transform_shift_refuted`, `gt_rule_refuted` | all 48 multi-instruction rules hold on words; single-instruction rules hold except div/sdiv(X,X) at 0 and shl/shr with a zero operand, GT(0,X) (refuted) |
| C33 | Splitting a file into JSON objects returns the top-level objects | proved | `split_json_objects`, `split_json_brace_in_text_refuted`, `split_json_apostrophe_refuted` | for objects in which braces only delimit; otherwise refuted |
| C34 | Object index allocation is injective | partial | `object_indices_injective_partial`, `object_indices_across_functions_refuted`, `object_index_dot_refuted` | within one block list only; numbering restarts for each (refuted) |
| C35 | Loop and back-edge detection | proved | `back_edges_correct`, `forward_graph_acyclic`, `natural_loop_correct`, `loop_forest_partial`, `loop_forest_shared_header_refuted` | back edges and loop bodies in full; the nesting forest built from them loses loops that share a header (refuted) |
| C36 | Function inlining substitutes arguments and results correctly | partial | `inline_function_executions`, `inline_binds_arguments`, `inline_binds_result`, `inline_binds_results`, `parsed_call_binds_arguments`, `parsed_call_binds_result_partial`, `parsed_call_swaps_results`, `parsed_call_binds_result_refuted`, `inline_same_name_refuted` | inlining replaces each visit to the call by a walk of the function body, arguments bound position by position, results bound by renaming (one exit) or phi functions (several exits); for calls as parsed the binding of results holds when the function name contains an underscore and is refuted (results reversed) otherwise |
| C37 | Stores inserted by the repair store the variable they name | partial | `inserted_stores_right_partial`, `inserted_stores_call_refuted` | for blocks that do not end in a function call; in a block that does, the position after the call is used before the call and the return tag is stored (refuted) |
| C38 | Every register is written before it is read | partial | `registers_written_first`, `repair_reads_unwritten_refuted` | for the loads of the code and for the phi arguments that are no longer in the stack at the end of their block, under the hypothesis that each variable read is within DUP reach in its defining block or its phi function is solved through registers; a phi argument still in the stack is read from an unwritten register when another branch gave it a register (refuted) |
| C39 | Compiling a block end to end preserves its meaning | partial | `compiled_block_correct_partial` | composition of C03, C07-C09 and C29. Hypotheses: block in SSA form over the supported operations, no contract creation and no callcode, no slot computed from the slot of another access, logs and reads of the rest of the state not mixed with operations that change it, every loaded or hashed value used (each exclusion is forced: see the refuted theorems of C07, C09, C29) |
| C40 | The dependencies of a block are consistent and sufficient | partial | `specification_dependencies_consistent`, `specification_orders_conflicts_partial` | consistency for every block in SSA form; sufficiency under the hypotheses of C39 |
| C41 | The emitted code of an object does what its control-flow graphs say | partial | `program_simulated_partial`, `program_diverges_partial`, `program_simulated_stack_partial` | composition of C39 and C26: simulation of the graphs (phi functions, calls, returns, recursion, loops) by the emitted code. Hypotheses: every block as in C39, the graphs as in C26, layouts that agree along the edges, jumps and calls with the tag of their target, values fetched from the memory words that hold them, and a program that does not use those words (its state is the same outside them; everywhere when no word is used); the layouts come from C42 |
| C42 | The stack layouts chosen for the blocks fit along every edge | partial | `layouts_fit_partial`, `chosen_layouts_agree`, `values_kept_between`, `layouts_assertion_refuted`, `layouts_two_joins_refuted`, `layouts_critical_phi_refuted` | for graphs without self loops in which no block has two successors that are joins and no phi result is read by another successor of a predecessor of its block (both forced: refuted); the traversal ends, either with layouts that fit or with the assertion on a dominating brother, which can fail (refuted). The result gives the layout conditions of C41 (chosen_layouts_agree). Liveness, variable depths and dominator tree are parameters |
| C43 | Jumps, calls and returns get the tag of the block they go to, and nothing else changes | partial | `jumps_and_calls_placed_partial`, `main_exit_call_refuted`, `split_names_refuted` | for objects without self loops and without conditional jumps to a single target (SplitBlock fails otherwise, C22), whose block names do not become equal when the suffixes f and s are added (forced: refuted). A call that ends the main code gets no return address even if the function returns (refuted) |
| C44 | Inserting jumps and splitting at calls keeps what the whole program does | partial | `jumps_keep_meaning_partial`, `erased_does` | for the objects of C43 whose variables are not named like tags, whose literals can be read, without the operation invalid (dropped later, see the findings), and in which the main code and blocks nothing follows only end with calls of functions that do not return (forced: main_exit_call_refuted). Errors of the original program (reading a variable nobody has assigned, wrong number of arguments) may become anything |
| C45 | Combining and removing blocks keeps what the whole program does | partial | `combine_keeps_meaning_partial`, `combined_object_ok_partial`, `combine_and_jumps_keep_meaning_partial`, `combined_exit_call_refuted` | for the graphs of C23 (no jump to the start block, no chain to merge that is a loop, no conditional jump with both targets equal: forced, refuted there), with phi functions only in blocks that have several predecessors. The composition with the insertion of jumps is for the objects of C44 in which every block can be reached (removal leaves stale predecessors, C23) and a call that returns is followed by some instruction on every path to the end (forced: combined_exit_call_refuted) |
| C46 | Repair of phi values that are out of reach: it ends, and takes care of exactly the values concerned | proved | `phi_repair_ends`, `phi_repair_exact`, `unreachable_values_exact` | for components in which no variable is the result of two phi functions, before any repair; ends otherwise with the KeyError of an argument out of reach that is not a phi result |
| C47 | Renaming the variables keeps the meaning of the whole program | proved | `renaming_keeps_meaning`, `renaming_capture_refuted` | for objects in which every variable read by a component is defined in it, before the placement of jumps (no instruction that pushes a tag); without the first condition the claim is refuted |
| C48 | Inlining the only call of a function keeps the meaning of the whole program | proved | `inlining_keeps_meaning`, `inlining_shared_names_refuted` | for one call, at a given position, of objects in static single assignment form before the placement of jumps, with names not shared between components (refuted without); the choice of the call and the loop over the functions are not part of this theorem |
| C49 | The inlining pass as a whole keeps the meaning of the program | proved | `inlining_pass_keeps_meaning`, `inline_functions_keeps_meaning`, `computed_order_is_inlining_order`, `computed_order_exists`, `inline_functions_recursion_refuted`, `inlining_pass_recursion_refuted`, `inline_functions_order_refuted` | the order of the functions is the one the code takes from the call graph; networkx (condensation, topological_sort) is described by what it documents (OrderSpec.v); functions that are called once and recursive are excluded (refuted without) |
| C50 | The preprocessing passes, one after the other, keep the meaning of the program | partial | `preprocess_keeps_meaning_partial` | missing: functions called once and recursive (refuted, C49), objects with sub-objects, and errors of the parsed program (a read of a variable nobody has assigned, a wrong number of arguments), which may become anything. source_ok states what is asked of the parsed object |
| C51 | The pass that introduces variables for constants changes nothing | proved | `constants_unchanged`, `constants_formula_refuted` | phi functions have one argument for each entry; the dominator tree, computed by networkx, is a parameter whose nodes are blocks. With the formula that is commented out the pass would be wrong (refuted) |
| C52 | The code emitted for an object does what the parsed object does | partial | `compile_keeps_meaning_partial`, `compile_checked_keeps_meaning_partial`, `compile_stack_keeps_meaning_partial`, `compile_staged_keeps_meaning_partial`, `file_compiled_keeps_meaning_partial`, `file_code_keeps_meaning_partial`, `file_program_keeps_meaning_partial` | file_program_keeps_meaning_partial takes the order of the functions from the code (C49); file_code_keeps_meaning_partial starts from the JSON file (C58), has conditions on the program only in terms of that file (plain_file, sound_file, jorder, no_recursion) and shows that parsing and the passes succeed; compile_staged_keeps_meaning_partial takes the layouts from the traversal (C42) and the ids from the driver (C56), and leaves conditions on single blocks; missing: that the stages always find something and programs to be repaired (C18, C20, C38 cover parts), the operation invalid, and files outside these conditions. The check generatedb is proved sound for the conditions generated (generatedb_ok) |
| C53 | Values kept in words of memory are there when they are fetched | partial | `lowered_block_correct_partial`, `own_registers_keep_meaning_partial`, `registers_recursion_refuted` | the program is assumed not to access the words (solc's memory guard, whose constant the code raises: C19); recursion refuted with a function that keeps its argument in its own word across a call of itself; other hypotheses as in C39 (block) and C52 (object) |
| C54 | The synthesizer's sequences compute the target stack | proved | `search_reaches_target`, `synthesizer_reaches_target`, `validator_stack_assertion_holds` | names of variables can be written in VGET and VSET (no line break, no SWAP or DUP) and do not look like the ids of writes; commutative operations have two operands. What __init__ and target compute is universally quantified. A search that raises or does not end returns nothing (C30) |
| C55 | Operations with effects are executed once and in order | partial | `stores_executed_once_partial`, `stores_executed_in_order_partial`, `greedy_reaches_target`, `validator_accepts_partial` | for the operations without a result; missing: operations with effects that also have a result (calls, creations) and the order of loads. An operation without a result must be one of those listed as writes, else it is left out (other_effects_dropped_refuted); the dependencies are between operations of the block. The theorems are about greedy_from_json as a whole, C54's target stack included (greedy_reaches_target) |
| C56 | Every block gets a validated sequence and only what needs it is repaired | partial | `every_block_served`, `repaired_iff_loads`, `unrepaired_without_registers`, `values_to_fix_counted`, `saved_values_loaded`, `driver_returns_partial`, `one_failure_stops_all`, `compile_synthesized_keeps_meaning_partial` | that the driver returns is proved if the synthesizer finds a sequence for each block (C54, C55) and operations with effects have no result; one block without a sequence aborts the whole compilation (one_failure_stops_all). The composition with C52 covers programs that need no repair; its remaining conditions are about the layouts. Not modelled: times and CSV rows |
| C57 | The assembly reconstructed from the compiler's opcodes is the same program | partial | `assembly_does_what_bytes_do`, `addresses_do_not_matter`, `tags_numbered`, `contract_taken_apart`, `constants_kept_refuted`, `invalid_in_code_refuted` | false of the code: a constant equal to the address of a JUMPDEST becomes a tag, so code assembled anew may use another constant (constants_kept_refuted), and an INVALID inside the code cuts it or the contract is refused (invalid_in_code_refuted). Not modelled: operations that look at their position (PC, CODESIZE, CODECOPY) |
| C58 | The parsed program does what the JSON file says | partial | `file_does_the_same_partial`, `parsed_does_the_same_partial`, `parsed_object_ready_partial`, `parsed_source_ready_partial`, `two_results_swapped_refuted`, `entry_ignored_refuted`, `verbatim_raises_refuted`, `start_named_otherwise_refuted` | false of the code: a function with several results and no underscore in its name gets them in the wrong order (two_results_swapped_refuted), the entry of a function is not read (entry_ignored_refuted), verbatim makes the parser raise (verbatim_raises_refuted), and without --builtin-ops the first block has to be called Block0 (start_named_otherwise_refuted). Proved for files without these, whose references are not paths of the form x.y with a one-character first part; the decoding of the JSON text is not modelled. parsed_object_ready_partial: files as solc writes them are parsed to objects in the form that the passes need (links in both directions, exits, names of blocks), and parsed_source_ready_partial that all conditions of C50 follow from conditions on the file (SourceSpec.v) |
| C59 | Cost estimates end, and are infinite exactly where there is recursion | proved | `gas_infinite_iff_recursion`, `object_costs_tell_recursion`, `finite_costs_add_up`, `costs_do_not_change_inlining`, `infinite_gas_kept_refuted` | the table of instruction costs is a parameter of the model, so the theorems hold for every table. infinite_gas_kept_refuted records that the test for infinite gas does not keep a function from being inlined, since a function called once is inlined before its costs are looked at. The recursion of compute_gas_bytes into sub-objects is not modelled: nothing calls it, and it uses a method that the class CFG does not have |
| C60 | The dominator tree tells which blocks every run goes through | proved | `dominance_tree_tells_dominance`, `tree_walk_is_dominators`, `immediate_dominators_exist`, `immediate_dominator_unique`, `removal_keeps_dominators` | networkx's immediate_dominators is modelled by its documented result (idoms_ok in DomSpec.v); immediate_dominators_exist shows that every component has such a dictionary and immediate_dominator_unique that there is no other. CFGBlockList keeps a copy of the graph that remove_block does not drop: removal_keeps_dominators shows that the copy from before the removal gives the same tree; other uses of the copies are not modelled |
| C61 | Introducing variables for constants block by block keeps the program | proved | `local_constants_keep_runs`, `no_constant_arguments_left`, `constants_assigned_once`, `local_constants_any_names_refuted` | one component at a time, from any value of the counter; the loop over the functions and subobjects is not modelled. The pass is switched off in the pipeline. The pass does not check its names against those of the program: local_constants_any_names_refuted gives a program with a variable c0 that it changes |
<!-- results:end -->

## Trusted base

* The kernel of Coq 8.16.1 (no `native_compute`; `vm_compute` is used to
  evaluate closed examples).
* Axioms: none.  Every theorem named in `MANIFEST.json` is followed by a
  `Print Assumptions` in its file, and each prints `Closed under the global
  context`.  A checker that lists the axioms of all loaded modules also reports
  seven constants of the standard library's `Coq.ssr.ssrunder` (`Under_rel`,
  `Under_rel_from_rel`, `Under_relE`, `over_rel`, `over_rel_done`, `Over_rel`,
  `under_rel_done`): they are loaded with the standard library's `Setoid`/`ssr`
  files and no theorem here uses them.
* The reading of the Python code: every definition of the model cites the file
  and lines it models and says where it simplifies.  Nothing was extracted or
  executed against the Python program (the sandbox cannot run it).
* The specification files (`MachineSpec`, `FootprintSpec`, `DepsSpec`,
  `SpecSem`, `BlockSpec`, `LiveSpec`, `CfgSpec`, `RegSpec`, `MemSpec`,
  `EmitSpec`, `PlaceSpec`, `RuleSpec`, `ProgSem`, `ProgSpec`, `LayoutGenSpec`, `JumpSpec`, `ObjSem`, `ObjProgram`, `ObjCombineSpec`, `PhiRepairSpec`, `ObjRenameSpec`, `ObjSsaSpec`, `ObjDriverSpec`, `OrderSpec`, `ParseSpec`, `SourceSpec`): the statement of each property rests
  on them, and they do not mention the model's helpers.

General simplifications, used throughout:

* Python `int` is `Z` or `nat`; `str` is a list of 8-bit characters (non-ASCII
  text is outside the model); `dict` is an association list in insertion
  order; `set` is a list without repetitions.  Where the iteration order of a
  set can influence the result, the order is a parameter and the theorems hold
  for every order.
* Exceptions are values: `AssertionError` is kept apart from the other
  exceptions; recursion and `while` loops without a syntactic bound carry fuel
  and return `OutOfFuel`; a theorem about a result excludes it, and a separate
  theorem shows termination or refutes it.
* Logging, timing, statistics, dot/PDF output and file input/output are left
  out.
* The meaning of EVM operations is a parameter (`semantics`): theorems hold
  for every meaning, with the restrictions they state (which locations an
  operation touches, commutativity, number of results).  Gas consumption, out
  of gas, the 1024 limit of the stack and reverts in the middle of a block are
  not modelled.

## What is modelled

| code | model |
|------|-------|
| `analysis/symbolic_execution.py`, `analysis/greedy_validation.py` | `SymExecModel` |
| `solution_generation/utils.py`, `solution_generation/reconstruct_bytecode.py:22-82` | `AsmModel` |
| `solution_generation/reconstruct_bytecode.py:83-462` (traversal, tags, object layout) | `EmitModel` |
| `greedy/greedy_info.py`, tail of `greedy_previous_param.py` (depth check, clean-up) | `GreedyTailModel` |
| `greedy/greedy_previous_param.py:71-76, 127-247, 317-711, 1593-1758, 1839-1937` (plan of the search, both attempts) | `TargetModel` |
| `greedy/greedy_previous_param.py:713-1383` (search) | `SearchModel` |
| `solution_generation/bytecode2asm.py` | `ImportModel` |
| `parser/parser.py:14-232`, constructors and translation of `parser/cfg_instruction.py`, `parser/cfg_block_list.py:235-271`, `parser/cfg_object.py:59-67` | `ParseModel` |
| `greedy/ids_from_spec.py`, `greedy/greedy_info.py`, `greedy_previous_param.py:1980-1998` | `GenModel` |
| `greedy/greedy_previous_param.py:1384-1560` (final permutation) | `PermutModel` |
| `analysis/instruction_dependencies.py` | `DepsModel` |
| `parser/cfg_block.py` (specification of a block), `parser/cfg_instruction.py` | `SpecModel` |
| `parser/utils_parser.py`, `parser/opcodes.py`, `parser/parser.py` (splitting of files, tags, indices) | `UtilModel`, `CfgModel` |
| `liveness/liveness_state.py`, `liveness_analysis.py`, `analysis/fixpoint_analysis.py` | `LiveModel` |
| `liveness/utils.py`, `liveness/stack_layout_methods.py`, parts of `layout_generation.py` | `LayoutModel`, `UnifyModel` |
| `liveness/layout_generation.py` (traversal of a component) | `LayoutGenModel` |
| `cfg_methods/jump_insertion.py`, `cfg_methods/sub_block_generation.py` (splitting at calls) | `JumpModel` |
| `cfg_methods/sub_block_generation.py` (`combine_remove_blocks_cfg`, one object) | `CombineModel` |
| `graphs/cfg.py` (back edges, natural loops, forest) | `GraphModel` |
| `parser/cfg_block_list.py`, `cfg_methods/cfg_block_actions/*` (split, merge), `sub_block_generation.py` (combine, remove) | `CfgModel` |
| `cfg_methods/variable_renaming.py` | `RenameModel`, `ObjRenameModel` |
| `cfg_methods/cfg_block_actions/inline_function.py` | `InlineModel` |
| `cfg_methods/function_inlining.py` | `ObjInlineModel` (one call), `InlineDriverModel` (the pass for an order given), `OrderModel` (the graph of the order), `CostModel` (the pass with its costs) |
| `graphs/algorithms.py:55-63` (dominator tree), `parser/cfg_block_list.py:153-171` | `DomModel` (`nx.immediate_dominators` by its documented result) |
| `cfg_methods/constants_insertion.py:42-103` | `LocalConstModel` |
| `cfg_methods/cost_computation.py` | `CostModel` (the table of costs of `global_params` is a parameter) |
| `cfg_methods/minimizing_constants_insertion.py` | `ConstModel` (the dominator tree is a parameter) |
| `cfg_methods/rule_simplification.py` | `RuleModel` |
| `reparation/phi_webs.py` | `WebModel` |
| `reparation/colour_assignment.py`, `tree_scan.py`, `utils.py` | `RegModel` |
| `reparation/insert_placeholders.py`, `reachability.py`, `repair_unreachable.py` | `PlaceModel` |

Not modelled: `greedy_previous.py`, `greedy_old.py`, `greedy_new_version.py`,
`greedy_refactored.py` (older synthesizers), `remove_element.py`,
the loop over functions and subobjects of `constants_insertion.py` (lines
18-39), the computation of variable
depths for `LayoutGeneration`, `graphs/algorithms.py:1-50`, the drivers
under `execution/`, `validate_liveness.py`, and the external `networkx`
library (its `transitive_reduction`, dominator trees and SCCs are modelled by
their documented behaviour).

## Findings

Statements one would expect to hold and that are false of the code, each with
a machine-checked witness (the `_refuted` theorems of the table above), and
observations made while modelling:

* Validator: no bound on DUP/SWAP depth (C05); `SWAP0` accepted; VGET pushes
  any variable; ids containing SWAP/DUP are misparsed; `check_deps` raises on
  dependencies of absent ids.
* Dependencies: a storage slot computed from the slot of another access is
  taken to be different (C07); contract creations are not ordered with storage
  accesses (C07); logs are not ordered (C09); a removed read takes transitive
  orderings with it (C29).
* Driver of the synthesizer: an exception of the synthesizer other than a failed
  assertion leaves the empty sequence, which is then validated; a failed
  assertion leaves `None` and the validation raises. Either way one block without
  a sequence aborts the compilation of the whole program (C56).
* `--json-solc`: constants that equal the address of a JUMPDEST are written as
  tags, and INVALID inside the code cuts it or makes the contract be refused (C57).
* Inlining: the test for infinite gas has no effect, because a function called once is
  inlined whatever its costs are. The table of costs is searched for upper-case names
  while operations are in lower case (C59).
* Parser: a function with several results and no underscore in its name gets them
  in the wrong order, the field "entry" of functions is not used, operations called
  verbatim… make it raise (`split_block` is a dict), and without `--builtin-ops` the
  first block of a component has to be called Block0 (C58).
* Specification: duplicated pushes can lose the only definition, `callcode` and
  `invalid` are treated as free of effects, so an `invalid` in the middle of a
  block disappears (C28); names `s0`, `s1`, ... and `PUSH_0` clash
  (C29).
* Liveness: endless loops, critical edges, dead phi functions, divergence
  (C10-C12).
* Layouts: names lost or reserved when joining, duplicates not distinct (C15,
  C16); a block with two successors that are joins makes the traversal read a
  layout that was never chosen, a phi result read after the loop by the block
  that jumps back is lost, and the assertion that a dominating brother has all
  the values fails on nested conditionals (C42).
* Jumps: a call to a returning function that ends the main code gets no return
  address, although the function was given an argument for it; a block named as
  a half of another one is overwritten when that one is split (C43). Combining blocks brings the
  first case about: an empty last block is merged into the block with the call,
  and the program gets stuck where the original one ended (C45).
* Registers: executions that are not paths of the dominator tree, copies of
  the other successors executed too, phi arguments still in the stack (C18,
  C20, C38); registers are static per function, so recursion overwrites them
  (C53);
  the free-memory constant is replaced wherever it occurs in the first block
  (C19).
* Control-flow graph: self edges dropped by the parser (C25), coinciding
  targets, self loops and name clashes in split and merge (C22, C23); inlining
  swaps several results (C36); the assignment dictionary of an inlined function
  is not merged; functions that call each other and are called once make the
  pass raise for some iteration orders of a set of strings and not for others
  (C49).
* Emission: shared conditional targets emitted twice, broken fall-through
  chains (C26).
* Synthesizer: the final permutation may fail its assertion or loop (C30). An
  operation without a result that is not in the list of those that write is
  left out of the sequence (C55). Observations: the filter at the end of
  `sort_with_deps` iterates over keys and compares a character with a number, so
  it never removes anything; `range(1, i)` never looks at the first operation in
  `add_needed_nostores_in_stack`, and the insertion loses the operation when the
  order is empty; the order of transient storage is not consulted there; the
  result of `check_dependencies` is ignored for the sequence with all the values;
  dependency lists and instructions are modified in place and shared by both
  attempts; the first construction is outside the `try`.
* Rewrite rules: division by zero, zero shifts, `GT(0, X)` (C32);
  `rule_simplification.py:894-902` is dead code with syntax errors and integer
  rules never fire.
* Encoding: negative constants diverge, some opcodes are not two digits wide
  (C27).
* `split_block = {}` is a dictionary, so adding to it raises: only function
  calls end blocks (sub_block_generation.py).
- `constants_insertion.py` (switched off in the pipeline) names its variables
  c0, c1, ... without looking at the program: a variable of that name is
  overwritten (`local_constants_any_names_refuted`).

## Wrong programs

`seeded/LOG.jsonl` lists the edits of the model tried in a scratch copy, the
theorems that stopped proving, and the theorems strengthened after an edit
survived.
