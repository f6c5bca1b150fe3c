{"id": "C01", "title": "Accepted block code computes the specified stack", "statement": "If the block validator returns true for a block specification and a sequence of instruction ids with junk not allowed, then running the sequence on a stack machine, starting from any stack whose entries are the values of the source layout, ends without underflow with exactly the values of the target layout, whatever the values of the source variables and whatever the meaning of the operations (commutative ones being symmetric and registers holding the value last saved under that name).", "quantifier": "every specification, every id sequence of any length, every initial value assignment, every interpretation of opcodes", "why_tests_cant": "Tests run the validator on a few blocks; they cannot enumerate all specifications, all id sequences and all machine values for which acceptance must imply correctness.", "anchors": ["src/analysis/greedy_validation.py:check_execution_from_ids", "src/analysis/symbolic_execution.py:execute_instr_id"]}
{"id": "C02", "title": "Accepted block code with junk leaves the target on top", "statement": "If the validator accepts with junk allowed, the top of the machine stack holds exactly the target layout, and every stack word below it is the value of some variable the block knew (an initial value or a computed one).", "quantifier": "every specification, id sequence and value assignment", "why_tests_cant": "The junk part is unconstrained, so each test fixes one accidental shape of it.", "anchors": ["src/analysis/greedy_validation.py:check_execution_from_ids"]}
{"id": "C03", "title": "Accepted block code has the same effects as the block's instructions in program order", "statement": "If the validator accepts and the specification's dependencies order every pair of instructions whose memory/storage accesses conflict, then the final memory/storage contents and all computed values equal those of executing the block's instructions one by one in program order.", "quantifier": "every specification, accepted sequence, initial world and interpretation of the operations consistent with their footprints", "why_tests_cant": "Requires reasoning about all reorderings compatible with the dependencies and all aliasing patterns.", "anchors": ["src/analysis/greedy_validation.py:check_execution_from_ids", "src/analysis/greedy_validation.py:check_deps"]}
{"id": "C04", "title": "Side effects happen exactly once and dependencies are respected transitively", "statement": "In an accepted sequence each instruction flagged as effectful (except gas reads) occurs exactly once, and for every chain of dependencies a -> ... -> b every occurrence of a precedes every occurrence of b.", "quantifier": "every accepted sequence and every chain of dependencies of any length", "why_tests_cant": "Chains and repetitions are unbounded.", "anchors": ["src/analysis/greedy_validation.py:check_deps", "src/analysis/greedy_validation.py:check_execution_from_ids"]}
{"id": "C05", "title": "Emitted DUP/SWAP depth is executable on the EVM", "statement": "Code that reaches emission only uses DUPk and SWAPk with 1 <= k <= 16. (The validator alone does not enforce it; the synthesizer's own bound check must.)", "quantifier": "every id sequence accepted by the validator / returned by the synthesizer", "why_tests_cant": "A stack-too-deep access only appears on particular large blocks.", "anchors": ["src/analysis/symbolic_execution.py:execute_instr_id", "src/greedy/greedy_previous_param.py:check_dup_swap", "src/greedy/greedy_previous_param.py:greedy_from_json"]}
{"id": "C06", "title": "Peephole clean-up preserves meaning", "statement": "Removing useless stack operations (SWAP1 SWAP1, DUP1 SWAP1) from any operation sequence never changes the resulting stack, world or memory, never makes a successful run fail, and never lengthens the code.", "quantifier": "every operation sequence and every machine state", "why_tests_cant": "Unbounded sequences; interactions of cascading cancellations.", "anchors": ["src/greedy/greedy_previous_param.py:remove_useless"]}
{"id": "C07", "title": "Storage and transient dependencies are sound", "statement": "Two storage (or transient storage) accesses of a block that may touch the same slot, one of them a write, are always ordered by the computed dependencies.", "quantifier": "every instruction sequence and every run-time value of the variables", "why_tests_cant": "Aliasing of symbolic keys depends on run-time values.", "anchors": ["src/analysis/instruction_dependencies.py:compute_storage_dependences", "src/analysis/instruction_dependencies.py:are_dependent_accesses", "src/analysis/instruction_dependencies.py:compute_transient_dependences"]}
{"id": "C08", "title": "Memory dependencies are sound", "statement": "Two memory accesses of a block whose byte ranges may intersect, one of them a write, are always ordered by the computed dependencies; two constant byte ranges are reported independent exactly when disjoint.", "quantifier": "every instruction sequence, every constant offset/size and every run-time value", "why_tests_cant": "Infinite domain of offsets and sizes.", "anchors": ["src/analysis/instruction_dependencies.py:compute_memory_dependences", "src/analysis/instruction_dependencies.py:overlap", "src/analysis/instruction_dependencies.py:get_interval"]}
{"id": "C09", "title": "Externally visible events keep their order", "statement": "Operations with externally visible effects (logs, calls, creates) and operations that observe them (returndatasize, msize, gas, balance...) keep their program order in accepted code.", "quantifier": "every block and every accepted sequence", "why_tests_cant": "Only shows on blocks where the synthesizer happens to reorder.", "anchors": ["src/analysis/instruction_dependencies.py:compute_memory_dependences", "src/analysis/instruction_dependencies.py:compute_storage_dependences", "src/parser/constants.py:memory_storage_instructions"]}
{"id": "C10", "title": "Liveness information is sound", "statement": "When the liveness analysis finishes, every variable that may be read later along some control-flow path before being redefined is contained in the reported live-out/live-in sets on that path.", "quantifier": "every control-flow graph, every path of any length", "why_tests_cant": "Infinitely many graphs and paths.", "anchors": ["src/liveness/liveness_analysis.py:LivenessState", "src/analysis/fixpoint_analysis.py:BackwardsAnalysis"]}
{"id": "C11", "title": "Liveness information is minimal", "statement": "Every variable the analysis reports live at a point is really read on some path from that point before being redefined (no spurious liveness).", "quantifier": "every control-flow graph and every reported variable", "why_tests_cant": "Spurious facts depend on graph shape.", "anchors": ["src/liveness/liveness_analysis.py:LivenessState.propagate_state"]}
{"id": "C12", "title": "Backward analysis terminates", "statement": "The backward fixpoint iteration finishes on every control-flow graph.", "quantifier": "every control-flow graph (including phi-functions in loops)", "why_tests_cant": "A test cannot witness non-termination, nor exclude it on unseen graphs.", "anchors": ["src/analysis/fixpoint_analysis.py:BackwardsAnalysis.analyze", "src/liveness/liveness_analysis.py"]}
{"id": "C13", "title": "Combining stack layouts keeps exactly the requested elements", "statement": "Combining a partially filled output layout with the extra live variables yields a layout with no holes, that contains every requested element exactly as many times as requested and keeps the relative order of the fixed ones.", "quantifier": "every partial layout and every list of extra variables", "why_tests_cant": "All hole patterns and lengths.", "anchors": ["src/liveness/utils.py:combine_lists_with_order", "src/liveness/utils.py:combine_lists_with_junk", "src/liveness/utils.py:trim_none"]}
{"id": "C14", "title": "Output layout of a block is complete and correctly ordered", "statement": "The output layout built for a block starts with the elements its last instruction needs, in order, and contains every live-out variable.", "quantifier": "every input layout, live set and final elements", "why_tests_cant": "Combinatorially many layouts.", "anchors": ["src/liveness/stack_layout_methods.py:output_stack_layout"]}
{"id": "C15", "title": "Joining blocks agree on the stack layout", "statement": "Blocks that share a successor are given layouts that agree position by position with the layout the successor expects, after replacing phi results by the corresponding predecessor's argument.", "quantifier": "every set of sibling layouts and phi functions", "why_tests_cant": "All layouts / phi combinations.", "anchors": ["src/liveness/stack_layout_methods.py:unify_stacks_brothers", "src/liveness/stack_layout_methods.py:unify_stacks_dominant"]}
{"id": "C16", "title": "Duplicate elimination in layouts is faithful", "statement": "Renaming duplicated layout entries gives a layout with pairwise distinct names which maps back to the original layout.", "quantifier": "every layout", "why_tests_cant": "All duplicate patterns and names.", "anchors": ["src/liveness/layout_generation.py:substitute_duplicates"]}
{"id": "C17", "title": "Phi-webs are the connected components of the phi relation", "statement": "After joining, two variables are reported in the same class exactly when they are connected through phi functions.", "quantifier": "every sequence of joins and lookups", "why_tests_cant": "Unbounded operation histories.", "anchors": ["src/reparation/phi_webs.py:PhiWebs", "src/cfg_methods/utils.py:union_find_search"]}
{"id": "C18", "title": "Register colouring never shares a register between live values", "statement": "Two values that are simultaneously live never receive the same register number, and the number of registers reported covers all of them.", "quantifier": "every program and every colouring history", "why_tests_cant": "Depends on unbounded histories of allocation/release.", "anchors": ["src/reparation/colour_assignment.py:ColourAssignment", "src/reparation/tree_scan.py:TreeScan"]}
{"id": "C19", "title": "Memory slots of registers are disjoint", "statement": "Distinct registers, and registers of different functions, are given disjoint 32-byte memory slots, all below the adjusted free-memory bound.", "quantifier": "every number of functions/registers and every initial free-memory value", "why_tests_cant": "Unbounded numbers of registers.", "anchors": ["src/reparation/repair_unreachable.py:repair_cfg_objects", "src/reparation/tree_scan.py:_assign_colours_to_constants"]}
{"id": "C20", "title": "Register copies implement a parallel assignment", "statement": "The copy sequence generated at a block border for phi-functions leaves in every destination register the value its source had before the copies, including for cyclic permutations.", "quantifier": "every assignment between registers", "why_tests_cant": "All permutations/cycles of any size.", "anchors": ["src/reparation/tree_scan.py:_emit_copies"]}
{"id": "C21", "title": "Jump tags are unique and stable", "statement": "Every block gets one tag, two different blocks never get the same tag, and a block already tagged keeps its tag, for any history of requests.", "quantifier": "every sequence of tag requests and block renamings", "why_tests_cant": "Unbounded histories.", "anchors": ["src/cfg_methods/jump_insertion.py:tag_from_tag_dict"]}
{"id": "C22", "title": "Splitting a block preserves the control-flow graph and the code", "statement": "Splitting a block keeps predecessor/successor links mutually consistent, keeps all other blocks unchanged, and the concatenated instructions of the two halves are the original ones.", "quantifier": "every block list, block and split position", "why_tests_cant": "All graph shapes.", "anchors": ["src/cfg_methods/cfg_block_actions/split_block.py:SplitBlock"]}
{"id": "C23", "title": "Merging blocks preserves the control-flow graph and the code", "statement": "Merging a block with its unique successor keeps predecessor/successor links mutually consistent and the merged code is the concatenation.", "quantifier": "every block list and mergeable pair", "why_tests_cant": "All graph shapes, including loops.", "anchors": ["src/cfg_methods/cfg_block_actions/merge_blocks.py:MergeBlocks", "src/cfg_methods/sub_block_generation.py:combine_blocks_block_list"]}
{"id": "C24", "title": "Renaming variables is an alpha-renaming", "statement": "Making variable names unique per function maps different variables of a function to different names, never captures a name of another function, and leaves constants untouched.", "quantifier": "every set of functions and variable names", "why_tests_cant": "Name clashes depend on adversarial names.", "anchors": ["src/cfg_methods/variable_renaming.py"]}
{"id": "C25", "title": "Predecessor information is exact after parsing", "statement": "After parsing, B is listed as a predecessor of A exactly when A is a successor of B, and every block keeps its instructions and what its exit does: where it continues and, for a conditional exit, which branch is taken for which value.", "quantifier": "every control-flow graph, every block, every value of the condition", "why_tests_cant": "All graphs, self loops included.", "anchors": ["src/parser/parser.py:update_comes_from"]}
{"id": "C26", "title": "Code emission contains every reachable block once and fall-throughs are adjacent", "statement": "The emitted assembly contains the code of every reachable block exactly once, and a block that falls through to another is immediately followed by it.", "quantifier": "every control-flow graph", "why_tests_cant": "All graph shapes.", "anchors": ["src/solution_generation/reconstruct_bytecode.py:traverse_cfg_block_list", "src/solution_generation/reconstruct_bytecode.py:locate_fallsto_block"]}
{"id": "C27", "title": "Constant encoding sizes are minimal and exact", "statement": "The size computed for pushing a constant is the least number of bytes able to hold it (at least one), and opcode bytes are rendered as exactly two hex digits.", "quantifier": "every integer constant / opcode value", "why_tests_cant": "Infinite domain.", "anchors": ["src/parser/utils_parser.py:number_encoding_size", "src/parser/utils_parser.py:get_num_bytes_int", "src/parser/utils_parser.py:process_opcode"]}
{"id": "C28", "title": "Unused instruction removal keeps everything needed", "statement": "Instructions removed from a block are not effectful and neither a target stack element nor any kept instruction uses their results.", "quantifier": "every instruction list and target stack", "why_tests_cant": "Transitive use chains of any length.", "anchors": ["src/parser/utils_parser.py:detect_unused_instructions", "src/parser/utils_parser.py:dfs"]}
{"id": "C29", "title": "Block specification is faithful to the instructions", "statement": "The generated specification contains, for each instruction of the block, an operation with the same opcode and the same (renamed) arguments and result, constants being pushed by dedicated operations with unique ids.", "quantifier": "every instruction sequence", "why_tests_cant": "Sharing and renaming interact over unbounded sequences.", "anchors": ["src/parser/cfg_block.py:_build_spec_for_sequence", "src/parser/cfg_instruction.py:build_spec"]}
{"id": "C30", "title": "Final permutation phase is correct", "statement": "When the synthesizer's final phase (permuting and cleaning the stack) finishes, the operations it emitted turn the current symbolic stack into the target stack, with SWAPs in reach only.", "quantifier": "every current stack, target stack and reach", "why_tests_cant": "Unbounded stacks.", "anchors": ["src/greedy/greedy_previous_param.py:compute_permut_and_clean"]}
{"id": "C31", "title": "Dependency levels are consistent", "statement": "The level assigned to each instruction strictly increases along dependencies, and the computation ends on acyclic dependencies.", "quantifier": "every dependency relation", "why_tests_cant": "All graphs.", "anchors": ["src/greedy/greedy_previous_param.py:get_min_deps_map"]}
{"id": "C32", "title": "Algebraic rewrite rules are valid on 256-bit words", "statement": "Every rewrite rule replaces an expression by one equal modulo 2^256 for all operand values.", "quantifier": "every operand value", "why_tests_cant": "2^512 operand pairs.", "anchors": ["src/cfg_methods/rule_simplification.py:apply_transform"]}
{"id": "C33", "title": "Splitting a file into JSON objects returns the top-level objects", "statement": "For a file that concatenates brace-balanced objects, splitting returns exactly those objects.", "quantifier": "every sequence of objects with any nesting depth", "why_tests_cant": "Unbounded nesting.", "anchors": ["src/parser/utils_parser.py:split_json"]}
{"id": "C34", "title": "Object index allocation is injective", "statement": "Indices allocated to indirect sub-object references are pairwise distinct, stable for repeated references and never collide with direct ones.", "quantifier": "every sequence of references", "why_tests_cant": "Unbounded histories.", "anchors": ["src/parser/cfg_instruction.py:translate_datasize", "src/parser/cfg_instruction.py:translate_dataoffset"]}
{"id": "C35", "title": "Loop and back-edge detection", "statement": "Removing the reported back edges leaves an acyclic graph and the body reported for a loop is exactly the set of blocks that reach the back edge without leaving the header.", "quantifier": "every graph", "why_tests_cant": "All graphs.", "anchors": ["src/graphs/cfg.py", "src/graphs/algorithms.py"]}
{"id": "C36", "title": "Function inlining substitutes arguments and results correctly", "statement": "Inlining a call binds each formal argument to the corresponding actual argument and each call result to the corresponding returned value.", "quantifier": "every function arity and call", "why_tests_cant": "All arities; order reversal mistakes only show for particular arities.", "anchors": ["src/cfg_methods/cfg_block_actions/inline_function.py:InlineFunction"]}
{"id": "C37", "title": "Stores inserted by the repair store the variable they name", "statement": "Every store DUP-VSET(x,p) that the repair inserts in a block finds the value of x at position p of the stack at that point, at a depth that a DUP reaches; inserting several stores, in any order, changes nothing for the rest of the block, and each store comes before the loads of the same variable in the block.", "quantifier": "every block, every set of variables stored in it and every order of insertion", "why_tests_cant": "The position recorded for a variable must remain right after every later insertion; all blocks, stacks and insertion orders.", "anchors": ["src/reparation/reachability.py", "src/greedy/greedy_info.py:insert_dup_vset"]}
{"id": "C38", "title": "Every register is written before it is read", "statement": "In the repaired code, on the way from the first block to any block along the dominator tree, every load of a variable from its register comes after a store of that variable.", "quantifier": "every dominator tree of blocks, every loop nesting forest, every set order chosen by Python", "why_tests_cant": "An unwritten register holds arbitrary memory; it must not be read on any path of any graph.", "anchors": ["src/reparation/insert_placeholders.py:store_stack_elements_tree", "src/reparation/insert_placeholders.py:fix_inaccessible_phi_values", "src/reparation/reachability.py:construct_reachability"]}
{"id": "C39", "title": "Compiling a block end to end preserves its meaning", "statement": "Take a block of the Yul control-flow graph. If its specification is generated, and a sequence of operations is accepted by the validator and by the depth check and turned into assembly, then running that assembly on a stack laid out as requested ends with the requested final layout (arguments of the terminating call in place of its results), every word holding what the block's instructions compute in program order, the words underneath untouched, and with memory, storage, transient storage and the rest of the state exactly as after the block's instructions.", "quantifier": "every block, every layout, every accepted sequence, every initial stack, state and register contents, every meaning of the operations within the places the EVM gives them", "why_tests_cant": "It ranges over all blocks, all sequences the search may return and all initial states, and rests on the composition of specification generation, dependency analysis and validation.", "anchors": ["src/parser/cfg_block.py:build_spec", "src/parser/cfg_block.py:process_dependences", "src/analysis/instruction_dependencies.py", "src/solution_generation/reconstruct_bytecode.py:asm_from_ids", "src/analysis/greedy_validation.py:check_execution_from_ids"]}
{"id": "C40", "title": "The dependencies of a block are consistent and sufficient", "statement": "The dependencies listed in the specification of a block only mention operations of the specification and follow their order in the block, so at least one schedule satisfies them; and whenever two operations of the specification touch the same byte of memory, slot of storage or other piece of state, and one of them writes it, the dependencies force them to keep the order of the block.", "quantifier": "every block, every layout, every initial state, every pair of operations", "why_tests_cant": "A missing edge shows only when a search happens to reorder the pair and the operands happen to alias.", "anchors": ["src/parser/cfg_block.py:process_dependences", "src/parser/cfg_block.py:build_spec", "src/analysis/instruction_dependencies.py:compute_memory_dependences", "src/analysis/instruction_dependencies.py:simplify_dependences"]}
{"id": "C41", "title": "The emitted code of an object does what its control-flow graphs say", "statement": "Take the control-flow graphs of an object and its functions, compiled block by block with layouts that agree along the edges. If the program, executed on the graphs with its calls and phi functions, stops with some operation, then the emitted assembly executed from its first item stops with the same operation, on the same words, in the same memory, storage and other state; if the program runs forever, so does the assembly. Jumps reach the block the graph names, fall-throughs reach the next block, calls start the function with its arguments and returns continue after the call with the results.", "quantifier": "every object, every function, every layout, every accepted sequence, every number of blocks executed, every nesting of calls, every initial stack, state and register contents", "why_tests_cant": "Runs are unbounded (loops, recursion), and the claim rests on every block, every edge and every tag of the object at once.", "anchors": ["src/solution_generation/reconstruct_bytecode.py:traverse_cfg", "src/solution_generation/reconstruct_bytecode.py:asm_for_split_instruction", "src/solution_generation/reconstruct_bytecode.py:asm_from_ids", "src/parser/cfg_block.py:build_spec", "src/analysis/greedy_validation.py:check_execution_from_ids"]}
{"id": "C42", "title": "The stack layouts chosen for the blocks fit along every edge", "statement": "After layouts have been chosen for the blocks of an object or function, every block that can be reached has one; the first block starts with the parameters; and along every edge the words the predecessor leaves are the words its successor expects, position by position, with the argument of a phi function in the place of its result (in the main code extra words may remain below). Every value a block needs when it starts is in its initial layout. Choosing the layouts always finishes.", "quantifier": "every control-flow graph, every liveness result, every phi function, every order in which blocks are visited, with or without words left behind", "why_tests_cant": "A layout is fixed when the first predecessor of a join is visited and constrains the others, visited later in any order, around loops too.", "anchors": ["src/liveness/layout_generation.py:LayoutGeneration", "src/liveness/layout_generation.py:_construct_code_from_block", "src/liveness/layout_generation.py:_construct_code_from_block_list", "src/liveness/stack_layout_methods.py:unification_block_dict", "src/liveness/stack_layout_methods.py:unify_stacks_brothers"]}
{"id": "C43", "title": "Jumps, calls and returns get the tag of the block they go to, and nothing else changes", "statement": "Inserting jumps and tags and then splitting the blocks of an object after every function call always succeeds. In the result each tag belongs to one block; every jump and conditional jump is the last instruction of its block, is preceded by a push of its tag, and carries the tag of its target; every call is the last instruction of its block, carries first the tag of the first block of the function and last the tag of the block that follows the call (none if nothing follows), and both tags are pushed in the block; every function return carries the return address, which is the first argument of the function. The links of the blocks stay consistent, phi functions stay first, and the executions of the main code and of every function are the original ones once the additions are removed.", "quantifier": "every object with any number of functions, blocks, calls per block, branches, loops and phi functions", "why_tests_cant": "Splitting renames blocks, which moves their tags and changes the targets of jumps that were inserted before; calls may occur any number of times in any block, and every block may be the target of any other.", "anchors": ["src/cfg_methods/jump_insertion.py:insert_jumps_tags_block_list", "src/cfg_methods/jump_insertion.py:tag_from_tag_dict", "src/cfg_methods/sub_block_generation.py:split_blocks_cfg", "src/cfg_methods/sub_block_generation.py:modify_block_list_split", "src/cfg_methods/cfg_block_actions/split_block.py:SplitBlock", "src/parser/cfg_block.py:insert_jump_instruction"]}
{"id": "C44", "title": "Inserting jumps and splitting at calls keeps what the whole program does", "statement": "Take an object (main code and functions that call each other) whose instructions have any meaning on words and on a state of the world. If running it, one instruction at a time, stops with an operation, its arguments and a state, then the object in which jumps, tags, return addresses and call boundaries have been made explicit, run block by block with calls as last instructions, stops with the same operation, arguments and state; if it runs forever, so does the result.", "quantifier": "every object with any number of functions (also recursive ones), blocks, calls, branches, loops and phi functions; every meaning of the operations; every initial state; terminating and non-terminating runs", "why_tests_cant": "Runs are unbounded, the meaning of the operations is arbitrary, and every block may be cut at any number of calls, which renames it in the jumps and phi functions of all others.", "anchors": ["src/cfg_methods/jump_insertion.py:insert_jumps_tags_cfg", "src/cfg_methods/sub_block_generation.py:split_blocks_cfg", "src/cfg_methods/cfg_block_actions/split_block.py:SplitBlock", "src/parser/cfg_block.py:instructions_to_synthesize", "src/parser/cfg_block.py:phi_instructions"]}
{"id": "C45", "title": "Combining and removing blocks keeps what the whole program does", "statement": "Take an object (main code and functions) whose instructions have any meaning on words and on a state of the world. Combining blocks that follow one another and removing blocks that cannot be reached, in the main code and in every function, succeeds, and the result stops with the same operation, arguments and state, and runs forever, exactly when the object did. Followed by the insertion of jumps and the splitting at calls, the program obtained stops and runs forever like the original object.", "quantifier": "every object with any number of functions, blocks, calls, branches, loops and phi functions; every set of operations after which blocks are kept apart; every meaning of the operations; every initial state; terminating and non-terminating runs, in both directions", "why_tests_cant": "Runs are unbounded, the meaning of the operations is arbitrary, and chains of merges of any length rename blocks in the phi functions of others.", "anchors": ["src/cfg_methods/sub_block_generation.py:combine_remove_blocks_cfg", "src/cfg_methods/sub_block_generation.py:combine_blocks_block_list", "src/cfg_methods/sub_block_generation.py:remove_blocks_block_list", "src/cfg_methods/cfg_block_actions/merge_blocks.py:MergeBlocks", "src/cfg_methods/jump_insertion.py:insert_jumps_tags_cfg"]}
{"id": "C46", "title": "Repair of phi values that are out of reach: it ends, and takes care of exactly the values concerned", "statement": "A value counts as out of reach in a block exactly when it is declared in a block that dominates it, is live on the path of the dominator tree in between, and none of the blocks of that path has it at a stack position that can be duplicated. Given the phi results to repair, the repair always ends, also for phi functions of loops that use each other. If it ends with a value, the phi results it solves through registers are exactly the requested ones that are out of reach in their own block, together with the arguments (again phi results) of such phi functions that are out of reach where the control comes from; each block copies exactly the values that such phi functions take from it; the phi functions whose values are asked to share a register are exactly these, with exactly their arguments; nothing else in the blocks changes.", "quantifier": "every component (any number of blocks, phi functions with any number of arguments, cyclic dependencies), every set of phi values to repair in any order, every dominator tree and stack depth", "why_tests_cant": "The worklist can revisit values and follow cycles of phi functions of any length; the dominator tree has any depth.", "anchors": ["src/reparation/insert_placeholders.py:fix_inaccessible_phi_values", "src/reparation/insert_placeholders.py:compute_phi_def2block", "src/reparation/reachability.py:construct_reachability", "src/greedy/greedy_info.py:add_virtual_copy"]}
{"id": "C47", "title": "Renaming the variables keeps the meaning of the whole program", "statement": "Giving every variable of the main code and of the functions a new name does not change what the program does: the renamed object stops with an operation, arguments and final world exactly when the original object does, and runs forever exactly when it does. This holds when every variable that a component reads is an argument or a result of an instruction of that component; a name that is read but not defined can be taken over by a new name, and the program then changes.", "quantifier": "every object (any number of functions, blocks, loops, calls, recursion), every meaning of the operations that does not look at the names of variables, every initial world", "why_tests_cant": "The executions compared are of any length and the names of the input are arbitrary; they may already look like the new names.", "anchors": ["src/cfg_methods/variable_renaming.py:rename_variables_cfg", "src/cfg_methods/variable_renaming.py:renaming_dict_from_instrs", "src/cfg_methods/variable_renaming.py:rename_block_list"]}
{"id": "C48", "title": "Inlining the only call of a function keeps the meaning of the whole program", "statement": "Replacing the only call of a function by the body of the function and removing the function succeeds, and the new object does everything the old one did: if the old object stops with an operation, arguments and a final world, so does the new one with the same ones, and if the old one runs forever so does the new one. The function may have loops, further calls, one exit, several exits or none, and may return its arguments or constants. Variables must have been renamed so that no name is shared between components; otherwise the claim is refuted.", "quantifier": "every object in static single assignment form (any number of functions, blocks, loops, recursion elsewhere), every function with one call, every position of the call, every meaning of the operations that does not look at names, every initial world", "why_tests_cant": "The executions compared are of any length, the function is entered any number of times in a loop, and values of earlier rounds stay in the variables of the inlined body.", "anchors": ["src/cfg_methods/function_inlining.py:inline_functions_cfg_object", "src/cfg_methods/cfg_block_actions/inline_function.py:InlineFunction"]}
{"id": "C49", "title": "The inlining pass as a whole keeps the meaning of the program", "statement": "Inlining every function that is called exactly once, in an order that puts a function before its callers, succeeds whenever no function that is called once calls itself, directly or through others. The positions kept for calls that were split off into other blocks are always the right ones. The new object does everything the old one did: it stops with the same operation, arguments and final world, or runs forever if the old one did. Exactly the functions called once are gone, and the new object is again well formed, in static single assignment form and with correct calls. Without the condition on recursion the claim is refuted: the pass may raise, and whether it does depends on the iteration order of a set of strings.", "quantifier": "every object in static single assignment form with correct calls, any number of functions, calls, calls per block, loops and exits, every order of the functions allowed by the call graph, every meaning of the operations that does not look at names, every initial world", "why_tests_cant": "Blocks are split again and again, by functions that were themselves grown by inlining; the number of calls in a block, the order in which they are handled and the lengths of the executions compared are unbounded.", "anchors": ["src/cfg_methods/function_inlining.py:inline_functions", "src/cfg_methods/function_inlining.py:generate_function2information", "src/cfg_methods/function_inlining.py:inline_functions_cfg_object", "src/cfg_methods/function_inlining.py:_determine_idx", "src/cfg_methods/cfg_block_actions/inline_function.py:InlineFunction"]}
{"id": "C50", "title": "The preprocessing passes, one after the other, keep the meaning of the program", "statement": "From a parsed object the preprocessing passes succeed when run in the order of the driver: unique names, inlining, removing dead blocks and phi-only joins and combining blocks, inserting jumps and tags, splitting, variables for constants. What results is a program for the code generator. Whenever the parsed object stops, so does this program, with the same operation, the same arguments and the same final world; whenever the parsed object runs forever, so does this program. Exactly the functions called once are gone. The conditions are on the parsed object only: nothing is asked of what is between two passes.", "quantifier": "every well formed parsed object without functions that are called once and recursive, any number of functions, blocks, loops, calls and variables, equal names in different functions, every order of the functions allowed by the call graph, every set of operations to split at, every meaning of the operations, every initial world and every initial value of the variables", "why_tests_cant": "Each pass relies on what the earlier ones leave, for unboundedly many shapes of functions and blocks, and the executions compared are of any length, or infinite.", "anchors": ["src/cfg_methods/preprocessing_methods.py:preprocess_cfg", "src/cfg_methods/variable_renaming.py:rename_variables_cfg", "src/cfg_methods/function_inlining.py:inline_functions", "src/cfg_methods/sub_block_generation.py:combine_remove_blocks_cfg", "src/cfg_methods/jump_insertion.py:insert_jumps_tags_cfg", "src/cfg_methods/sub_block_generation.py:split_blocks_cfg"]}
{"id": "C51", "title": "The pass that introduces variables for constants changes nothing", "statement": "As shipped, the last preprocessing pass, which may keep constants in variables, returns the object unchanged and does not fail, provided every phi function has one argument per entry of its block. If the formula in the comment of the function that decides were switched on, the pass would be wrong: a constant introduced in a block is also replaced in the phi functions of that block, which then read a variable nobody has assigned.", "quantifier": "every object, any number of functions, blocks and constants, any tree of blocks to traverse", "why_tests_cant": "The claim is for all objects and traversal orders; a test runs one.", "anchors": ["src/cfg_methods/minimizing_constants_insertion.py:insert_variables_for_constants_propagated", "src/cfg_methods/minimizing_constants_insertion.py:insert_constants_block_dominant_preorder", "src/cfg_methods/minimizing_constants_insertion.py:decide_if_propagated"]}
{"id": "C52", "title": "The code emitted for an object does what the parsed object does", "statement": "Take a parsed object, run the preprocessing passes, and let the later stages find, in whatever way, a layout of the stack before and after each block and a list of instruction ids for each block. If what they found passes a check that can be computed (each block's ids accepted by the validator within the reach of DUP and SWAP, layouts that agree along the edges of the graph, graphs of the shape the emission expects) and the emission succeeds, then running the emitted assembly code from any stack stops with the same operation, the same arguments and the same final state as the parsed object, whenever the parsed object stops, and never stops when the parsed object runs forever.", "quantifier": "every well formed parsed object without functions that are called once and recursive, every order of the functions allowed by the call graph, every result of the later stages that passes the check, every meaning of the operations that touches only the places of the EVM's state those operations touch, every initial state and initial stack", "why_tests_cant": "The compiler is composed of a dozen passes, each relying on what the others leave; programs, layouts and executions are unbounded, and executions may be infinite.", "anchors": ["src/cfg_methods/preprocessing_methods.py:preprocess_cfg", "src/analysis/greedy_validation.py:check_execution_from_ids", "src/solution_generation/reconstruct_bytecode.py:asm_from_ids", "src/solution_generation/reconstruct_bytecode.py:traverse_cfg", "src/parser/cfg_block.py:build_spec"]}
{"id": "C53", "title": "Values kept in words of memory are there when they are fetched", "statement": "Values that cannot be reached in the stack are kept in words of memory: stored where the ids say VSET and fetched where they say VGET. If a validated sequence of ids fetches each value from the word it was last stored in, the code with the memory accesses in place of these ids does what the block does, except in those words, and the words hold the values afterwards. If each function has words of its own and no function calls itself, directly or not, the words of a caller survive its calls and the code of the whole object does what the object does, except in those words. With recursion it does not: the inner call overwrites the words of the outer one.", "quantifier": "every block and object, every choice of words and of the values kept in them, every accepted sequence of ids, every program that does not access those words itself, every initial state, every execution, finite or infinite", "why_tests_cant": "Whether a word survives depends on every path between the store and the fetch, across loops and calls of any depth.", "anchors": ["src/reparation/tree_scan.py:_emit_valid_bytecode", "src/reparation/repair_unreachable.py:repair_cfg_objects", "src/reparation/insert_placeholders.py", "src/solution_generation/reconstruct_bytecode.py:asm_from_ids"]}
{"id": "C54", "title": "The synthesizer's sequences compute the target stack", "statement": "When the synthesizer returns a sequence of ids for the specification of a block, running that sequence symbolically from the source stack never fails and ends with the target stack; if junk is allowed, the target stack is on the top and what is below it is the source stack or nothing. So the first assertion of the validator cannot fail: only the order of dependent operations and the number of times those with effects appear remain to be checked. This holds for whatever order of the pending operations, counts of uses, and set of pushes worth duplicating the search begins with, although it exchanges the operands of operations in place while it works.", "quantifier": "every specification whose values are computed by one operation from earlier ones, every source and target stack, every plan (pending operations, their order, counts of uses), every reach, with and without junk, every number of iterations", "why_tests_cant": "The search keeps its own copy of the stack while it emits operations in a dozen places, with heuristics that depend on positions, counts and depth; tests exercise few of the combinations, and an error in one makes the compiler stop.", "anchors": ["src/greedy/greedy_previous_param.py:SMSgreedy.precompute", "src/greedy/greedy_previous_param.py:SMSgreedy.compute", "src/greedy/greedy_previous_param.py:SMSgreedy.compute_one_with_stack", "src/greedy/greedy_previous_param.py:SMSgreedy.compute_memory_op", "src/greedy/greedy_previous_param.py:greedy_from_json", "src/analysis/greedy_validation.py:check_execution_from_ids"]}
{"id": "C55", "title": "Operations with effects are executed once and in order", "statement": "When the synthesizer returns a sequence of ids for the specification of a block, every operation executed for its effect appears in it exactly once, and where the specification orders two of them, the first is before the second. Together with the target stack this is what the validator checks: the sequence is accepted.", "quantifier": "every specification of a block, whatever its operations, its dependencies of memory, storage and transient storage (which the synthesizer extends and orders itself), its stacks, the reach and the cost of pushes, with and without junk, every number of iterations", "why_tests_cant": "The order of the stores comes out of a level assignment, a merge of positions, a topological interleaving with loads and two passes that rename and insert values, and is then followed by a search that executes pending operations at several places; a dropped or repeated store depends on the shape of the dependency graph and of the stack.", "anchors": ["src/greedy/greedy_previous_param.py:sort_with_deps", "src/greedy/greedy_previous_param.py:join_positions", "src/greedy/greedy_previous_param.py:remove_nostores_and_rename", "src/greedy/greedy_previous_param.py:add_needed_nostores_in_stack", "src/greedy/greedy_previous_param.py:SMSgreedy.__init__", "src/greedy/greedy_previous_param.py:SMSgreedy.target", "src/greedy/greedy_previous_param.py:SMSgreedy.compute", "src/greedy/greedy_previous_param.py:greedy_from_json", "src/analysis/greedy_validation.py:check_execution_from_ids"]}
{"id": "C56", "title": "Every block gets a validated sequence and only what needs it is repaired", "statement": "When the driver of the synthesizer returns, every block of every component of every object and sub-object has a sequence of ids that the validator accepts and whose SWAP and DUP are within the reach of the machine. A component is repaired exactly if one of its blocks loads a value, a component that is not repaired contains no load and no save of a value, the repair is told to fix each value as often as it is loaded before having been saved in its block, and no save is superfluous. If nothing has to be repaired, the code emitted from these sequences does what the object given does.", "quantifier": "every program of any nesting of objects, any functions, any blocks and any specifications of blocks, every number of iterations of the synthesizer", "why_tests_cant": "The driver walks a recursive structure and accumulates flags and counters over it; a component forgotten or a flag lost yields unreachable variables only in programs large enough to exceed the stack reach.", "anchors": ["src/greedy/ids_from_spec.py:cfg_block_spec_ids", "src/greedy/ids_from_spec.py:cfg_spec_ids", "src/greedy/greedy_info.py:GreedyInfo", "src/greedy/greedy_previous_param.py:greedy_standalone", "src/execution/main_execution.py:analyze_single_cfg"]}
{"id": "C57", "title": "The assembly reconstructed from the compiler's opcodes is the same program", "statement": "The assembly that is written after the import with --json-solc does what the byte code does: with every tag standing for the address of its JUMPDEST it ends in the same ways and runs for ever if the byte code does, and if tags are only used to jump this holds wherever the code is put. Tags are numbered 0, 1, ... in the order of the JUMPDESTs and only they are pushed, and creation code and deployed code are found in the compiler's text.", "quantifier": "every byte code and its listing (any operations, push widths, operands, jumps and loops), every meaning of the operations that do not look at their own position, every world, every assignment of addresses to tags", "why_tests_cant": "The two passes over the opcodes have to agree on the address of every operation and the constants have to be told from addresses by their values alone; which constants collide depends on the length of all code before a JUMPDEST.", "anchors": ["src/solution_generation/bytecode2asm.py:bytecode2asm", "src/solution_generation/bytecode2asm.py:asm_from_opcodes", "src/solution_generation/bytecode2asm.py:build_assembly_instruction", "src/execution/main_execution.py:main"]}
{"id": "C58", "title": "The parsed program does what the JSON file says", "statement": "Reading a Yul CFG in JSON succeeds and gives, for every object and every sub-object at the same place, a graph that does what the file describes: the same ends with the same arguments and world, and an endless run exactly if the file describes one. Operands, results, phi functions, both targets of conditional jumps, function arguments and returned values are taken in the order of the format; without --builtin-ops each built-in function becomes the assembly word that stands for it, sub-objects get their position in the file and other names get numbers of their own.", "quantifier": "every file of the format (any nesting of objects, functions, blocks, jumps, loops, calls), every meaning of its operations, every world", "why_tests_cant": "The order of arguments is reversed or kept at several places depending on names, and the translation visits the blocks in an order of its own; a mistake shows only for some combination of calls, phi functions and references.", "anchors": ["src/parser/parser.py:parse_cfg", "src/parser/parser.py:parse_instruction", "src/parser/parser.py:parse_block", "src/parser/parser.py:parser_block_list", "src/parser/cfg_instruction.py:CFGInstruction", "src/parser/cfg_block_list.py:translate_opcodes", "src/parser/cfg_block.py:set_jump_info"]}
{"id": "C59", "title": "Cost estimates end, and are infinite exactly where there is recursion", "statement": "Estimating gas and size of a function, whatever was estimated before, ends without an error even if functions call each other in cycles; the gas is infinite exactly if the function can reach a recursive function (itself or one it calls, directly or through others). Otherwise gas and size are the sums over the instructions of the function, where a call counts as the function called, a constant as its PUSH and a value used again as a DUP. Taking the estimates into account never makes the inlining pass stop or change its result: the functions called once are inlined, the others stay.", "quantifier": "every object with any call graph (cycles included), every table of instruction costs, every state of the cache of earlier estimates, every inlining order", "why_tests_cant": "The estimate is a depth-first search that caches results computed while a cycle is still open; whether a cached value is right depends on the order of the visits and on the shape of the whole call graph.", "anchors": ["src/cfg_methods/cost_computation.py:compute_gas_bytes_function", "src/cfg_methods/cost_computation.py:compute_gas_bytes", "src/cfg_methods/function_inlining.py:_must_be_inlined", "src/cfg_methods/function_inlining.py:inline_functions_cfg_object"]}
{"id": "C60", "title": "The dominator tree tells which blocks every run goes through", "statement": "The tree that stack layouts and the reparation of unreachable variables are based on contains exactly the blocks that can be reached from the start; the start is its root, every other block has one parent, and there are no cycles. Block a is above block b in the tree exactly if every walk from the start to b goes through a, so in a topological order of the tree a block always comes after all blocks that dominate it. The way in the tree between two blocks lists exactly the dominators between them, and the level of a block is the number of other blocks that dominate it.", "quantifier": "every component with consistent links (any branches, loops, unreachable blocks), every dictionary of immediate dominators as networkx documents it, every topological order of the tree", "why_tests_cant": "Dominance speaks about all walks of a graph, of which there are infinitely many as soon as there is a loop.", "anchors": ["src/graphs/algorithms.py:compute_dominance_tree", "src/parser/cfg_block_list.py:to_graph", "src/parser/cfg_block_list.py:dominant_tree", "src/liveness/layout_generation.py:LayoutGeneration", "src/liveness/stack_layout_methods.py:compute_block_level"]}
{"id": "C61", "title": "Introducing variables for constants block by block keeps the program", "statement": "The pass that pushes each constant in the block where it is used (for phi functions, in the block the value comes from) does not change what a run does: along every path of blocks the operations are applied to the same values in the same order, and all variables of the program end with the same values. Afterwards only literal assignments have constants as arguments, and each new variable is assigned by one instruction of one block. The first and the last require that no variable of the program has the form c followed by a number.", "quantifier": "every component the pass accepts without such names, every path of blocks, every initial state, every meaning of the operations in which a push yields its constant", "why_tests_cant": "Paths are unbounded as soon as there is a loop, and the place of a push for a phi function depends on all blocks.", "anchors": ["src/cfg_methods/constants_insertion.py:insert_variables_for_constants", "src/cfg_methods/constants_insertion.py:insert_variables_for_constants_block_list", "src/cfg_methods/constants_insertion.py:insert_constants_block_list"]}
