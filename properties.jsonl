{"id": "C01", "title": "Disassembling an assembled instruction gives the instruction back", "statement": "For every ISA type T built from Bit, BitVector, Enum, Product/Tuple, Sum/TaggedUnion and every instruction i of T, Assembler(T).disassemble(Assembler(T).assemble(i)) returns i, no matter which other assemblers were constructed earlier in the process.", "quantifier": "all ISA types, all instructions of the type, all histories of earlier Assembler constructions", "why_tests_cant": "types and values are unbounded trees; the result also depends on process-wide caches, so every construction order is a separate case", "anchors": ["peak/assembler/assembler.py:_enum,_tuple,_sum,_field,Assembler.assemble,Assembler.disassemble", "peak/assembler/assembler_util.py:_gen_is_valid"]}
{"id": "C02", "title": "Assembling succeeds and fits the advertised width", "statement": "For every well-formed ISA type and every instruction of it, assemble returns without an exception and the integer opcode is in [0, 2**width).", "quantifier": "all ISA types and all instructions", "why_tests_cant": "unbounded nesting and widths", "anchors": ["peak/assembler/assembler.py:Assembler.assemble,Assembler.width"]}
{"id": "C03", "title": "Different instructions never share an opcode", "statement": "For two instructions of one ISA type, equal opcodes imply equal instructions.", "quantifier": "all ISA types, all pairs of instructions", "why_tests_cant": "quadratic in an unbounded instruction space", "anchors": ["peak/assembler/assembler.py:Assembler.assemble"]}
{"id": "C04", "title": "is_valid accepts exactly the bit patterns that encode some instruction", "statement": "Assembler(T).is_valid(op) is true if and only if some instruction of T is laid out in op (tag and field slices; padding of the shorter Sum members is ignored).", "quantifier": "all ISA types, all opcodes of the right width, in a fresh process", "why_tests_cant": "2**width opcodes for unboundedly many types; only the branch-heavy validator generator decides", "anchors": ["peak/assembler/assembler_util.py:_gen_is_valid", "peak/assembler/assembler.py:Assembler.is_valid"]}
{"id": "C05", "title": "is_valid does not depend on what was constructed before", "statement": "For every type T and opcode op, Assembler(T).is_valid(op) returns the same answer in every process history.", "quantifier": "all types, opcodes and histories of earlier Assembler constructions", "why_tests_cant": "histories are unbounded; a test file only ever sees one history", "anchors": ["peak/assembler/assembler_util.py:_gen_is_valid,_validator_cache"]}
{"id": "C06", "title": "disassemble signals a bad opcode with ValueError only", "statement": "disassemble(op) returns an instruction when op encodes one and raises ValueError in every other case; it never raises KeyError.", "quantifier": "all ISA types and all opcodes", "why_tests_cant": "needs the complement of the valid set for every type", "anchors": ["peak/assembler/assembler.py:Assembler.disassemble,_enum,_sum"]}
{"id": "C07", "title": "Disassemble then assemble only clears padding", "statement": "If disassemble(op) returns i then assemble(i) equals op on every bit that carries information, is zero on padding bits, and a second disassemble/assemble changes nothing.", "quantifier": "all ISA types and all decodable opcodes", "why_tests_cant": "2**width opcodes for unboundedly many types", "anchors": ["peak/assembler/assembler.py:_sum,_tuple"]}
{"id": "C08", "title": "sub[path].idx is the slice holding the addressed sub-value", "statement": "For every path into an ISA type and every instruction whose Sum choices follow that path, opcode[sub[path].idx] equals the opcode of the addressed sub-value under the assembler of its type; the path's tag_idx slice holds the tag.", "quantifier": "all types, all instructions, all paths of any depth", "why_tests_cant": "paths are unbounded sequences; offsets accumulate over nesting", "anchors": ["peak/assembler/assembler_abc.py:Sub", "peak/assembler/assembler.py:Assembler.layout"]}
{"id": "C09", "title": "Fields of a Product occupy disjoint consecutive slices that tile the word", "statement": "For a Product/Tuple the layout slices are consecutive, pairwise disjoint, lie in [0,width) and cover it exactly; for a Sum the tag slice and every payload slice are disjoint and inside [0,width).", "quantifier": "all Product/Tuple/Sum types", "why_tests_cant": "unbounded number and width of fields", "anchors": ["peak/assembler/assembler.py:_tuple,_sum"]}
{"id": "C10", "title": "Sum tags do not depend on declaration order", "statement": "If the members of a Sum have pairwise different reprs, then opcodes of all instructions are the same for every order in which the members are listed.", "quantifier": "all Sum types, all permutations of the members, all instructions", "why_tests_cant": "n! orders and unbounded types", "anchors": ["peak/assembler/assembler.py:_sum"]}
{"id": "C11", "title": "Enum auto values are fresh, distinct, least and deterministic", "statement": "Members with explicit values keep them, members declared with new_instruction() get pairwise distinct values that differ from every explicit value, assigned in declaration order as the least unused integers.", "quantifier": "all Enum declarations (any mix of explicit and automatic members)", "why_tests_cant": "unbounded member lists and values", "anchors": ["peak/assembler/assembler.py:_enum"]}
{"id": "C12", "title": "from_fields builds the same word as assembling the ADT value", "statement": "For every Product, Tuple, Sum and TaggedUnion, AssembledADT[...].from_fields applied to the assembled field values equals AssembledADT[...](value); an explicit tag_bv changes the tag bits only.", "quantifier": "all types and values", "why_tests_cant": "unbounded types", "anchors": ["peak/assembler/assembled_adt.py:_create_from_layout,_product_from_fields,_tuple_from_fields,_sum_or_tagged_from_fields"]}
{"id": "C13", "title": "Field access on an assembled value commutes with assembling", "statement": "For every Product/Tuple value v and field f, AssembledADT(v).f equals the assembled v.f; for a Sum the .value of the active member equals the assembled member.", "quantifier": "all types, values, fields", "why_tests_cant": "unbounded types", "anchors": ["peak/assembler/assembled_adt.py:AssembledADT._get", "peak/assembler/assembler_abc.py:Sub"]}
{"id": "C14", "title": "match is true exactly for the active Sum member", "statement": "AssembledADT(v)[T].match is true iff T is the member held by v.", "quantifier": "all Sum/TaggedUnion types, values and members", "why_tests_cant": "unbounded types", "anchors": ["peak/assembler/assembled_adt.py:AssembledADT._get", "peak/assembler2/assembler.py:_sum.match"]}
{"id": "C15", "title": "Equality of assembled values is equality of ADT values", "statement": "AssembledADT(v) == AssembledADT(w), == w and == assemble(w) all hold iff v == w.", "quantifier": "all types and pairs of values", "why_tests_cant": "unbounded types", "anchors": ["peak/assembler/assembled_adt.py:AssembledADT.__eq__"]}
{"id": "C16", "title": "Both assemblers produce identical opcodes", "statement": "assembler2.Assembler(T).assemble(i) equals assembler.Assembler(T).assemble(i) bit for bit, and widths agree.", "quantifier": "all types and instructions", "why_tests_cant": "unbounded types", "anchors": ["peak/assembler2/assembler.py:_enum,_tuple,_sum,_field", "peak/assembler/assembler.py"]}
{"id": "C17", "title": "assembler2 extract, match, from_fields and disassemble agree with assemble", "statement": "extract returns the assembled field, match by name and by type is true iff the member is active, from_fields rebuilds the word (padding aside) and disassemble inverts assemble.", "quantifier": "all types, instructions, fields", "why_tests_cant": "unbounded types", "anchors": ["peak/assembler2/assembler.py:_tuple,_sum"]}
{"id": "C18", "title": "The deprecated auto assembler round-trips", "statement": "generate_assembler(T): disassembler(assembler(i)) == i and the opcode fits the width, for every type and instruction it supports.", "quantifier": "all supported types and instructions", "why_tests_cant": "unbounded types", "anchors": ["peak/auto_assembler.py:generate_assembler,_enum,_sum,_product,_field"]}
{"id": "C19", "title": "bitfield.encode is injective on a type and fits size(T)", "statement": "encode(v, reverse) is in [0, 2**size(T)) and different values of T have different encodings, in both field orders.", "quantifier": "all types, values, both orders", "why_tests_cant": "unbounded types", "anchors": ["peak/bitfield.py:encode,size,sumsize,tag"]}
{"id": "C20", "title": "A register returns the last enabled write", "statement": "After any sequence of calls, the value returned by a register call is the value of the most recent earlier call with enable set, or the initial value if there is none.", "quantifier": "all call sequences, values, initial values", "why_tests_cant": "unbounded histories", "anchors": ["peak/register.py:gen_register", "peak/family.py:_RegFamily.gen_register"]}
{"id": "C21", "title": "RAM and ROM behave as an addressable memory", "statement": "After any sequence of accesses, a RAM read returns the last enabled write to that address (or initial contents), writes affect one address only, reads return the value before the write of the same call, and ROM contents never change; out-of-range addresses raise and change nothing.", "quantifier": "all access sequences, depths, initial contents", "why_tests_cant": "unbounded histories", "anchors": ["peak/memory.py:ROM,RAM,Memory"]}
{"id": "C22", "title": "Attribute registers look like typed attributes", "statement": "On a Peak object with attribute registers, after any sequence of attribute reads and writes, reading attribute a yields the last value successfully assigned to a, a wrongly typed assignment raises TypeError and changes nothing, and the register object itself is never replaced.", "quantifier": "all attribute operation sequences", "why_tests_cant": "unbounded histories", "anchors": ["peak/peak.py:Peak.__getattribute__,Peak.__setattr__", "peak/family.py:_RegFamily.gen_attr_register"]}
{"id": "C23", "title": "family_closure caching is transparent", "statement": "For every sequence of calls, closure(family, ...) returns what the wrapped function would return for exactly that family and arguments, and repeated equal calls return the same object.", "quantifier": "all call sequences over all families", "why_tests_cant": "unbounded histories; the failing history needs two different family classes", "anchors": ["peak/features.py:family_closure", "peak/family.py:AbstractFamily.__eq__,__hash__"]}
{"id": "C24", "title": "Family equality is an equivalence consistent with hash", "statement": "Family equality is reflexive, symmetric and transitive, equal families have equal hashes, and equal families are interchangeable.", "quantifier": "all pairs/triples of family objects including subclasses", "why_tests_cant": "needs all class hierarchies", "anchors": ["peak/family.py:AbstractFamily.__eq__,_AsmFamily.__eq__,_RewriterFamily.__eq__"]}
{"id": "C25", "title": "A black box reports exactly the inputs of its last call and returns exactly the outputs set", "statement": "After any protocol-conforming sequence of set_outputs/call/get_inputs, a call returns the outputs set for it, get_inputs returns the arguments of the last call in declared order, and every out-of-protocol use raises.", "quantifier": "all sequences of operations, all arities", "why_tests_cant": "unbounded histories", "anchors": ["peak/black_box.py:BlackBox"]}
{"id": "C26", "title": "Black box discovery finds every black box once, with a path that leads to it", "statement": "get_black_boxes(obj) lists exactly the black boxes reachable through non-black-box Peak attributes, each under its attribute path, and get_black_box(obj, path) returns the same object.", "quantifier": "all object trees", "why_tests_cant": "unbounded trees", "anchors": ["peak/black_box.py:get_black_boxes,get_black_box"]}
{"id": "C27", "title": "The IR registry never redefines an instruction", "statement": "After any sequence of add_instruction calls, instructions maps each name to the first closure added under it, and each repeated name raises ValueError and changes nothing. A class generated by add_peak_instruction has the given input and output interface, and calling it calls fun(family, *values) with the values in order.", "quantifier": "all call sequences", "why_tests_cant": "unbounded histories", "anchors": ["peak/ir.py:IR.add_instruction,IR.add_peak_instruction"]}
{"id": "C28", "title": "name_outputs/typecheck accept exactly matching results", "statement": "With typecheck on, a call whose results have the declared number and types returns them unchanged and any other result raises TypeError.", "quantifier": "all declared output lists and result tuples", "why_tests_cant": "unbounded arity", "anchors": ["peak/features.py:typecheck,name_outputs,gen_input_t,gen_output_t"]}
{"id": "C29", "title": "Index variables encode each index exactly once", "statement": "For OneHot and Binary index variables over n >= 1 entries: match_index(i) holds for exactly one bit pattern of the variable and decode of it is i; patterns satisfying is_valid are exactly those that decode; no pattern matches two indices.", "quantifier": "all n, all indices, all bit patterns", "why_tests_cant": "unbounded n", "anchors": ["peak/mapper/index_var.py:OneHot,Binary"]}
{"id": "C30", "title": "Formula constructors mean conjunction, disjunction and implication", "statement": "For every nested And/Or/Implies formula the produced expression evaluates to the logical value, and empty conjunctions or disjunctions raise.", "quantifier": "all formulas and valuations", "why_tests_cant": "unbounded trees", "anchors": ["peak/mapper/formula_constructor.py"]}
{"id": "C31", "title": "create_bindings enumerates exactly the type-correct bindings", "statement": "create_bindings(arch, ir) lists, without repetition, exactly the assignments of an IR path of the same type or Unbound to every arch path in which every IR path is used exactly once.", "quantifier": "all finite path/type maps", "why_tests_cant": "combinatorial in unbounded maps", "anchors": ["peak/mapper/utils.py:create_bindings,_sort_by_t"]}
{"id": "C32", "title": "SMTForms partitions the values of a type", "statement": "For every type, each value matches the path_dict of exactly one form, the form's variables are exactly the leaves of that value, and no two forms have the same path_dict.", "quantifier": "all types and values", "why_tests_cant": "unbounded types", "anchors": ["peak/mapper/utils.py:SMTForms"]}
{"id": "C33", "title": "A complete leaf binding rebuilds the original value", "statement": "For every type and value, SimplifyBinding applied to the leaves of the value in any order returns the single binding of the whole value.", "quantifier": "all types, values, leaf orders", "why_tests_cant": "unbounded types and orders", "anchors": ["peak/mapper/utils.py:SimplifyBinding", "peak/mapper/mapper.py:RewriteRule.build_inputs"]}
{"id": "C34", "title": "The black-box side condition is the functional-consistency reduction", "statement": "The formula returned by update_with_bb holds for all black-box outputs iff the original holds for every interpretation of the black-box classes as functions.", "quantifier": "all formulas, all sets of black-box call sites, all function interpretations", "why_tests_cant": "quantifies over functions", "anchors": ["peak/mapper/mapper.py:update_with_bb"]}
{"id": "C35", "title": "The CEGIS loop only returns universally valid solutions", "statement": "If external_loop_solve returns a rule, the existential assignment it was read from satisfies phi for every assignment of the universal variables, for every solver behaviour allowed by the solver contract and any initial vectors.", "quantifier": "all formulas, domains, solver choices, initial vectors", "why_tests_cant": "quantifies over solver behaviours and all universal assignments", "anchors": ["peak/mapper/mapper.py:external_loop_solve"]}
{"id": "C36", "title": "The CEGIS loop answers None only when there is no solution", "statement": "If external_loop_solve returns None then no existential assignment satisfies phi for all universal assignments.", "quantifier": "all formulas, domains, solver choices, initial vectors", "why_tests_cant": "negative existential", "anchors": ["peak/mapper/mapper.py:external_loop_solve"]}
{"id": "C37", "title": "The CEGIS loop terminates", "statement": "With maxloops=None the loop ends after at most (number of universal assignments)+1 solver calls; with maxloops=n it makes at most n+1 iterations and raises LoopException only after all of them.", "quantifier": "all finite formulas and solver choices", "why_tests_cant": "termination over all solver behaviours", "anchors": ["peak/mapper/mapper.py:external_loop_solve"]}
{"id": "C38", "title": "Rules synthesised with the expanded formula are correct", "statement": "If (form, binding, constants) satisfies the ForAll formula built with simple_formula=False, the rewrite rule read off computes the IR outputs on every IR input and every unbound arch input.", "quantifier": "all architectures, IR instructions, bindings, inputs", "why_tests_cant": "quantifies over all programs and inputs", "anchors": ["peak/mapper/mapper.py:IRMapper.__init__,rr_from_solver"]}
{"id": "C39", "title": "Rules synthesised with the simple formula are correct", "statement": "Same as C38 for simple_formula=True.", "quantifier": "all architectures, IR instructions, bindings, inputs", "why_tests_cant": "quantifies over all programs and inputs", "anchors": ["peak/mapper/mapper.py:IRMapper.__init__,rr_from_solver"]}
{"id": "C40", "title": "The mapper finds a rule whenever one exists", "statement": "If some form, type-correct binding and valid constants implement the IR instruction, the ForAll formula is satisfiable, so solve does not answer None.", "quantifier": "all architectures and IR instructions", "why_tests_cant": "negative existential", "anchors": ["peak/mapper/mapper.py:IRMapper.__init__"]}
{"id": "C41", "title": "A constrained input keeps an allowed value in the rule", "statement": "If path_constraints restricts an arch input path, the value bound to this path in the returned rule is one of the allowed values.", "quantifier": "all architectures, constraints, solver models", "why_tests_cant": "depends on solver model completion; the failing case needs an adversarial but legal model", "anchors": ["peak/mapper/mapper.py:rr_from_solver,IRMapper.__init__"]}
{"id": "C42", "title": "Constants in a rule are the constants that were solved for", "statement": "The constant bound to an unbound Const path in the returned rule is the value that satisfied the formula, also when the same path is bound to an IR input in another candidate binding.", "quantifier": "all architectures and solver models", "why_tests_cant": "needs overlapping bindings and adversarial model completion", "anchors": ["peak/mapper/mapper.py:IRMapper.__init__ overlap_subs,rr_from_solver"]}
{"id": "C43", "title": "verify answers None iff the rule is correct, and counterexamples are genuine", "statement": "verify() returns None iff for all inputs every bound output agrees; otherwise the returned inputs make some bound output differ.", "quantifier": "all rules and inputs", "why_tests_cant": "quantifies over all inputs", "anchors": ["peak/mapper/mapper.py:RewriteRule.verify"]}
{"id": "C44", "title": "Serialising and reading a rule preserves its bindings", "statement": "read_serialized_bindings(serialize_bindings(rr)) has the same input and output bindings, also after a JSON round trip that turns tuples into lists.", "quantifier": "all rules with valid constants", "why_tests_cant": "unbounded bindings and path shapes", "anchors": ["peak/mapper/mapper.py:RewriteRule.serialize_bindings,read_serialized_bindings"]}
{"id": "C45", "title": "Initial vectors contain the all-zero, one and all-one vectors", "statement": "_gen_initial supplies, for every width, the universal assignments 0, 1 and -1.", "quantifier": "all widths and variable sets", "why_tests_cant": "all widths", "anchors": ["peak/mapper/mapper.py:_gen_initial,_int_to_pysmt"]}
{"id": "C46", "title": "Multi-instruction bindings are complete and each source is used correctly", "statement": "The bindings enumerated for multi-instruction search assign to every sink a type-correct source exactly as specified, without repetition, and connect only to earlier instructions.", "quantifier": "all path/type maps and program lengths", "why_tests_cant": "combinatorial", "anchors": ["peak/mapper/multi.py:create_bindings,Multi"]}
{"id": "C47", "title": "The mapper evaluates every form from the initial state", "statement": "For a stateful architecture the outputs used in the formula for each form are those of a freshly initialised object.", "quantifier": "all stateful architectures and numbers of forms", "why_tests_cant": "depends on call history of a shared object", "anchors": ["peak/mapper/mapper.py:SMTMapper.__init__,IRMapper.__init__ run_peak"]}
{"id": "C48", "title": "The RV32I example implements the RV32I semantics", "statement": "For every register file, pc and instruction, one step of the simulator produces the register file and pc required by the RISC-V base integer specification for OP, OP-IMM, LUI, AUIPC, JAL, JALR and branches.", "quantifier": "all instructions, register contents, pcs", "why_tests_cant": "2**32 values per register", "anchors": ["examples/riscv/sim.py", "examples/riscv/isa.py"]}
{"id": "C49", "title": "Register x0 always reads zero", "statement": "After any program, reading x0 returns 0 in every register file implementation.", "quantifier": "all instruction sequences", "why_tests_cant": "unbounded histories", "anchors": ["examples/riscv/sim.py", "examples/riscv/family.py"]}
{"id": "C50", "title": "The mappable (SMT) RISC-V core agrees with the simulator", "statement": "For every instruction and register file, the mappable core fed with rf[rs1], rf[rs2], rf[rd] returns the same next pc and the same rd value as the simulator.", "quantifier": "all instructions and register files", "why_tests_cant": "all states", "anchors": ["examples/riscv/family.py", "examples/riscv/sim.py"]}
{"id": "C51", "title": "Instruction field update laws", "statement": "get_fields(set_fields(i, ...)) returns the new fields and keeps the others, set_fields with the same fields is idempotent, and asm_* helpers produce instructions with the requested fields.", "quantifier": "all instruction formats and field values", "why_tests_cant": "all values", "anchors": ["examples/riscv/asm.py"]}
{"id": "C52", "title": "POPCNT, CNTLZ and CNTTZ count what they claim", "statement": "For every 32-bit word the bit counters return the number of set bits, leading zeros and trailing zeros.", "quantifier": "all 32-bit words", "why_tests_cant": "2**32 inputs", "anchors": ["examples/riscv_ext/sim.py"]}
{"id": "C53", "title": "MUL, MULH, MULHSU, MULHU return the specified product halves", "statement": "For all operands the multiply instructions return the low or high word of the signed/unsigned product.", "quantifier": "all pairs of 32-bit words", "why_tests_cant": "2**64 inputs", "anchors": ["examples/riscv_m/sim.py"]}
{"id": "C54", "title": "PE comparison via Sub and condition codes is correct", "statement": "For all operands, subtracting and evaluating each condition code yields the signed or unsigned comparison it names.", "quantifier": "all 16-bit operand pairs and condition codes", "why_tests_cant": "2**32 inputs", "anchors": ["examples/pe1/sim.py", "examples/pe1/cond.py"]}
{"id": "C55", "title": "The LUT selects the addressed table bit", "statement": "For every table and input bits the LUT output is bit (bit0 + 2*bit1 + 4*bit2) of the table.", "quantifier": "all tables and inputs", "why_tests_cant": "kept general over the width", "anchors": ["examples/pe1/lut.py"]}
{"id": "C56", "title": "Pico condition codes and flags", "statement": "For every flag state and operands, pico's flags and conditions match the architecture definition.", "quantifier": "all operands, ops and conditions", "why_tests_cant": "2**16 inputs per op", "anchors": ["examples/pico/sim.py"]}
{"id": "C57", "title": "PDP-8 step semantics", "statement": "For every memory, accumulator and link, the simulator's step matches the PDP-8 definition for memory-reference and operate instructions.", "quantifier": "all states and instructions", "why_tests_cant": "2**12 words of memory", "anchors": ["examples/pdp8/sim.py"]}
{"id": "C58", "title": "Rounding-mode conversions are bijective and respected", "statement": "Converting a rounding mode to the library's enumeration and back is the identity, and an operation requested in mode m is executed in mode m.", "quantifier": "all modes and operations", "why_tests_cant": "covers every operation/mode pair by construction of the dispatch", "anchors": ["peak/float.py"]}
{"id": "C59", "title": "A rewrite rule binds every constant input of the architecture", "statement": "Constructing a RewriteRule whose input binding leaves a Const input of the architecture unbound raises an error; a rule that was constructed can be turned into an instruction without values for constants being missing.", "quantifier": "all bindings and architectures", "why_tests_cant": "unbounded bindings", "anchors": ["peak/mapper/mapper.py:RewriteRule.__post_init__,get_input_paths,build_inputs"]}
{"id": "C60", "title": "A multi-instruction rule computes the IR instruction", "statement": "The bindings and instruction words that Multi returns form a program of N valid instructions whose last outputs equal the outputs of the IR instruction for all IR inputs and all values of unbound inputs; every such program over the enumerated bindings is a solution; use_real does not change which programs are found.", "quantifier": "all architectures, IR instructions, program lengths and index-variable kinds", "why_tests_cant": "quantifies over all programs, inputs and solver answers", "anchors": ["peak/mapper/multi.py:Multi,RR"]}
{"id": "C61", "title": "The base RISC-V instruction set does not depend on what else was loaded", "statement": "riscv.isa.ISA_fc.Py.Inst has the nine base members in every history of evaluating the base and extended instruction sets and importing the assembler helpers.", "quantifier": "all histories of closure evaluations and imports", "why_tests_cant": "unbounded histories; tests run in one import order", "anchors": ["examples/riscv/isa.py", "examples/riscv_ext/isa.py", "examples/riscv/asm.py"]}
{"id": "C62", "title": "Mode registers return the latest written value", "statement": "In every sequence of calls, a register in mode CONST returns the constant, in BYPASS the input, in DELAY or VALID the input of the latest earlier call that wrote (DELAY, or VALID with the clock enable), and the initial value if there is none; the registers of a PE do not influence each other.", "quantifier": "all call sequences, modes and values", "why_tests_cant": "unbounded histories", "anchors": ["examples/pe1/mode.py:RegisterMode", "peak/family.py:gen_register", "examples/pe1/sim.py:PE"]}
{"id": "C63", "title": "PE instructions compute their operation in their signedness", "statement": "For every state, operands and instruction, the data result of the pe1 PE is the result of the named operation on the selected operands, signed or unsigned as the instruction says, and the flags describe it.", "quantifier": "all operations, operands, register modes and states", "why_tests_cant": "2**32 operands per operation", "anchors": ["examples/pe1/sim.py:alu,PE", "examples/pe1/asm.py"]}
{"id": "C64", "title": "gen_pe(n) executes on n inputs and its conditions compare", "statement": "For every n the PE made by examples/pe gen_pe(n) executes instructions on n values, and after Sub each condition code yields the comparison it names.", "quantifier": "all n, operands, modes, states and conditions", "why_tests_cant": "parametric in n; 2**32 operands", "anchors": ["examples/pe/sim.py:gen_pe", "examples/pe/isa.py", "examples/pe/cond.py"]}
{"id": "C65", "title": "Pico executes its instruction set", "statement": "In every state each Pico instruction changes exactly the registers, flags and program counter its definition names; calls return behind the call; add/adc and sub/sbc sequences compute 32-bit sums and differences.", "quantifier": "all programs, states, operands and run lengths", "why_tests_cant": "unbounded runs, 2**256 register states", "anchors": ["examples/pico/sim.py:Pico", "examples/pico/isa.py"]}
{"id": "C66", "title": "Pico's peek and poke functions access the named state", "statement": "peak_flag, peak_reg and peak_pc return the named part of the state; poke_flag, poke_reg and poke_pc change exactly that part and return its old value.", "quantifier": "all states, flags, registers and values", "why_tests_cant": "all states", "anchors": ["examples/pico/sim.py:peak_flag,poke_flag,peak_reg,poke_reg,peak_pc,poke_pc"]}
{"id": "C67", "title": "The PDP-8 example programs compute their function for every operand", "statement": "The programs of the PDP-8 test-suite (addition, or, both exclusive ors, comparison) halt with the right accumulator and link for all operands and every initial accumulator and link.", "quantifier": "all operand values, initial accumulators and links", "why_tests_cant": "2**24 operand pairs; the tests run one pair", "anchors": ["examples/pdp8/test_pdp8.py:test_prog_add,test_prog_or,test_prog_xor1,test_prog_xor2,test_prog_cmp", "examples/pdp8/sim.py:PDP8"]}
{"id": "C68", "title": "PDP-8 assembler mnemonics do what their comments say", "statement": "Executing the instruction a mnemonic of the PDP-8 assembler returns has exactly the commented effect on accumulator, link, program counter and halting, in every state; keywords can be combined in any order.", "quantifier": "all machine states and mnemonics, all keyword lists", "why_tests_cant": "2**12 accumulators for each mnemonic; the tests use one state each", "anchors": ["examples/pdp8/asm.py", "examples/pdp8/sim.py:PDP8.__call__"]}
{"id": "C69", "title": "The mapper finds a rule exactly when there is one", "statement": "The formula built for an IR instruction (expanded or simple) has a solution exactly if there is a well-formed rewrite rule with valid and allowed constants that is correct for all inputs and all allowed values of constrained inputs; solve returns such a rule, and None only if there is none.", "quantifier": "all architectures, IR instructions, path constraints, index-variable kinds, both formulas, all solving strategies", "why_tests_cant": "an existence statement over all rules and a for-all over inputs in both directions; tests sample some instructions", "anchors": ["peak/mapper/mapper.py:IRMapper.__init__,IRMapper.solve,external_loop_solve"]}
{"id": "C70", "title": "The example PEs map exactly Add, Sub, And, Nand, Or and Nor", "statement": "For the tagged and the sum PE and every SmallIR(8) instruction, the mapper finds a rule exactly for Add, Sub, And, Nand, Or and Nor (subject to constraints on the instruction fields); the instruction in the rule is the only possible one, and the PE computes the IR instruction with it for all inputs.", "quantifier": "all SmallIR instructions, constraints of instruction fields, formulas, encodings, solving strategies, operands", "why_tests_cant": "non-existence of a rule cannot be tested; correctness is for all operands; any set of constraints", "anchors": ["examples/tagged_pe/sim.py", "examples/sum_pe/sim.py", "examples/smallir/ir.py", "tests/test_aadt_mapping.py:test_automapper", "peak/mapper/mapper.py:IRMapper"]}
{"id": "C71", "title": "Path constraints decide which instructions can be mapped", "statement": "On the example PEs, a sum or difference with offset c maps exactly if the constraints allow its operation and c; a copy, negation or complement with input in0 restricted to a set S maps exactly if one allowed PE instruction computes it for every value in S.", "quantifier": "all offsets, all sets of allowed values for fields and for in0, formulas, encodings, solving strategies", "why_tests_cant": "all subsets of values; the tests use ten of them", "anchors": ["tests/test_aadt_mapping.py:test_const_constraint,test_non_const_constraint", "peak/mapper/mapper.py:IRMapper,ArchMapper"]}
{"id": "C72", "title": "The enumerating mapper yields exactly the correct mappings", "statement": "gen_mapping yields, up to the number asked for, a mapping for every allowed instruction, every type-correct binding of the CoreIR inputs and every output under which the PE computes the CoreIR model, each of them once, and nothing else; a user who follows a mapping gets the value of the CoreIR model for all inputs; if the inputs do not fit, it raises an AssertionError.", "quantifier": "all PEs, instruction sets, constraints, CoreIR modules, numbers of mappings and input values", "why_tests_cant": "completeness over all permutations of inputs and correctness for all values; the only use is a demo", "anchors": ["peak/mapper/oldmapper.py:gen_mapping,check_equal", "peak/features.py"]}
{"id": "C73", "title": "A Pico instruction encodes to its documented machine word", "statement": "encode of a Pico instruction is the 16 bit word of the table at the top of the instruction set: four bits of operation, then registers, condition and immediate; different instructions have different words.", "quantifier": "all instructions, all orders in which a Sum may list its members", "why_tests_cant": "2**16 words and arbitrary iteration orders of the frozensets of members; the only test of an instruction is skipped", "anchors": ["examples/pico/isa.py", "examples/pico/asm.py", "peak/bitfield.py:encode,instkey,size,sumsize", "tests/test_pico_encode.py:test_jmp"]}
{"id": "C74", "title": "Immediates of the ARM assembler are encoded exactly", "statement": "The ARM assembler accepts an immediate exactly if it is an eight bit number rotated by an even amount, raises ValueError otherwise, and the operand it builds denotes the immediate.", "quantifier": "all integers as immediates, all instructions, both directions of rotation, all register numbers", "why_tests_cant": "2**32 words of which 3073 are representable; the tests print two of them", "anchors": ["examples/arm/asm.py:_imm,data,ldst,b", "examples/arm/isa.py"]}
{"id": "C75", "title": "assembler2's is_valid accepts exactly the words that encode an instruction", "statement": "For peak.assembler2, Assembler(T).is_valid(op) is true exactly if op encodes an instruction of T, whatever assemblers were made before; so it accepts every assembled instruction, disassemble succeeds exactly on accepted words, and peak.assembler accepts the same words.", "quantifier": "all types, words and process histories", "why_tests_cant": "unbounded types and histories; the tests never call is_valid after building other types", "anchors": ["peak/assembler2/assembler.py:is_valid", "peak/assembler2/assembler_util.py:_gen_is_valid"]}
{"id": "C76", "title": "Rules for the register-file PE run on the PE itself", "statement": "For RegPE_mappable the mapper finds a rule for a function of words exactly if one instruction of RegPE computes it from operands in registers (sum, nor, move, complement and constants 0 and -1; of SmallIR(32) Add, Nor and Not). The instruction of a rule found, executed by RegPE with the operands in the registers it names, leaves the result in its destination and changes no other register, and any operands can be so loaded.", "quantifier": "all functions of one or two words, encodings, constraints on instruction fields, register files and solver strategies", "why_tests_cant": "2^64 operand pairs and arbitrary functions; the test runs a few random vectors on SmallIR and rewrites the register numbers first", "anchors": ["examples/reg_file/sim.py:RegPE_fc", "examples/reg_file/sim.py:RegPE_mappable_fc", "examples/reg_file/isa.py:ISA_fc", "examples/riscv/family.py:get_register_file"]}
{"id": "C77", "title": "Rules for the RISC-V core run on the simulator", "statement": "For R32I_mappable of examples/riscv the mapper finds a rule for a function of words exactly if one instruction computes it: the ten register operations in either order, the immediate operations, constants LUI and ADDI reach, negation and comparison with 0 (of SmallIR(32) all but Nand, Nor and Mul). The instruction of a rule found, executed by R32I with the operands in the registers it names, leaves the result in its destination, changes no other register and continues at pc + 4, and any operands can be so loaded.", "quantifier": "all functions of one or two 32-bit words, encodings, constraints on instruction fields, register files, pcs and solver strategies", "why_tests_cant": "2^64 operand pairs and arbitrary functions; the test maps addition only and never runs the rule on the simulator", "anchors": ["examples/riscv/sim.py:R32I_mappable_fc", "examples/riscv/sim.py:R32I_fc", "examples/riscv/isa.py:ISA_fc", "examples/riscv/family.py:get_register_file"]}
{"id": "C78", "title": "A Peak class computes the same in PyFamily and in PyXFamily", "statement": "For a class whose types fit and whose components are called unconditionally, a call that returns in PyFamily returns in PyXFamily when the arguments are the assembled instructions: each output word is the encoding of the PyFamily output, attributes and components correspond again, and so through any history of calls. In PyXFamily such a class never raises, whatever bits its input words hold. A class with this property is itself a component with it, as are the classes of gen_register.", "quantifier": "all programs, types, values, object states, component sets, call histories and earlier assembler builds", "why_tests_cant": "programs, types and histories are unbounded; the tests compare the families on a few classes and inputs", "anchors": ["peak/family.py:PyFamily", "peak/family.py:PyXFamily", "peak/family.py:_AsmFamily.get_adt_t", "peak/family.py:_AsmFamily.get_constructor", "peak/family.py:_RegFamily.gen_register", "peak/assembler/assembled_adt.py:AssembledADT"]}
{"id": "C79", "title": "Calling an assembled class and from_fields agree, however the fields are passed", "statement": "Fields may be passed by position, by name in any order, as ADT values, instances of the assembled class, words or integers for leaves, and through classes with one field, with or without default_bv. For Products, Tuples, TaggedUnions and Sums the class call and from_fields both return, with the same word: the encoding of the value with these fields, so the call equals the call with the assembled value. Arguments bind exactly when they are a prefix of the fields by position and the others by name, each once; otherwise from_fields of a Product raises TypeError.", "quantifier": "all types, values, ways of passing arguments, defaults and earlier assembler builds", "why_tests_cant": "types, keyword orders and nestings are unbounded; the tests call a few classes in one or two ways", "anchors": ["peak/assembler/assembled_adt.py:AssembledADTMeta.__call__", "peak/assembler/assembled_adt.py:_product_from_fields", "peak/assembler/assembled_adt.py:_tuple_from_fields", "peak/assembler/assembled_adt.py:_taggedunion_from_fields", "peak/assembler/assembled_adt.py:_sum_from_fields", "peak/assembler/assembled_adt.py:AssembledADT.__init__"]}
{"id": "C80", "title": "A Peak class run on SMT terms computes, under every valuation, what it computes on words", "statement": "Calling a Peak class of SMTFamily on terms returns terms; under every valuation of the variables these have the values that the PyXFamily class returns on the values of the arguments, and the new object corresponds as well. A call raises on terms exactly if it raises on words. The same holds for any number of calls and for classes that contain other classes. One call on variables covers all calls. Where the PyFamily class returns, the terms evaluate to the encodings of its outputs. A black box stands for any function that answers its recorded inputs with the outputs set for it.", "quantifier": "all programs of the modelled statements, types, terms, valuations, objects, histories and component behaviours", "why_tests_cant": "valuations, programs and histories are unbounded; the tests compare a few SMT terms of a few classes", "anchors": ["peak/family.py:SMTFamily", "peak/family.py:_StdMix", "peak/family.py:_BBFamily", "peak/black_box.py:BlackBox.create_call", "peak/assembler/assembled_adt.py:AssembledADT", "tests/test_register.py", "tests/test_black_box.py"]}
{"id": "C81", "title": "Registers made by a family are what was asked for, and independent", "statement": "gen_register and gen_attr_register return a class for the requested type, initial value and kind, whatever was requested before: a program sees the same values and exceptions as if each request made a fresh class. Two requests return the same class object exactly if family class, type, kind and initial value agree. Each register made from these classes holds the latest write to itself that counts, or the initial value it was requested with.", "quantifier": "all histories of requests, constructions, calls and attribute accesses, all types, initial values and family classes", "why_tests_cant": "interleavings of requests and calls are unbounded; the tests make one or two registers each", "anchors": ["peak/family.py:_RegFamily.gen_register", "peak/family.py:_RegFamily.gen_attr_register", "peak/register.py:gen_register", "tests/test_register.py"]}
{"id": "C82", "title": "The mapper is right about black boxes", "statement": "When the architecture or the IR instruction contains black boxes, process_ir_instruction and solve find a rewrite rule exactly if some rule is correct for all inputs and for every function that the classes of black boxes may compute, the same function for all objects of a class. Asking for the formula that is not simple raises ValueError, and so does a black box that is not called.", "quantifier": "all architectures, IR instructions and classes of black boxes, all strategies of the solver, all functions the boxes may compute", "why_tests_cant": "a test solves one problem and checks its rule with the same formula; that a rule works for every function of the boxes cannot be run", "anchors": ["peak/mapper/mapper.py:IRMapper.__init__", "peak/mapper/mapper.py:update_with_bb", "peak/mapper/mapper.py:create_and_set_bb_outputs", "peak/mapper/mapper.py:IRMapper.solve", "tests/test_black_box_rr.py"]}
{"id": "C83", "title": "What the PE with floating point boxes implements", "statement": "For the PE of examples/fp_pe the mapper finds a rewrite rule for an IR instruction exactly if one instruction of the PE computes it whatever its black boxes compute. So of the integer operations of the small IR with 16 bits exactly Add, Sub, And, Or and Not are found, a floating point operation is found exactly if the PE has a box of its class, the rule is then that operation with the inputs in order and without the immediate, and an operation with a constant second input is found through the immediate while one with a constant first input is not. For the architecture of test_simple exactly integer addition and floating point addition are found.", "quantifier": "all word widths, all functions on one or two words, all classes of black boxes, all values of the immediate, all strategies of the solver", "why_tests_cant": "test_rr tries six IR instructions and trusts verify; that nothing else is found, and that a found rule is right for all functions of the boxes, cannot be run", "anchors": ["examples/fp_pe/sim.py:PE_fc", "examples/fp_pe/sim.py:FPU_fc", "examples/fp_pe/sim.py:ALU_fc", "tests/test_black_box_rr.py:test_rr", "tests/test_black_box_rr.py:test_simple", "peak/mapper/mapper.py:IRMapper.solve"]}
{"id": "C84", "title": "The demonstration PEs compute their operations, and each extends the one before", "statement": "For every pair of operands the ALUs of examples/demo_pes and examples/alu return the sum, difference, bitwise operation or shift their instruction names, and the carry and zero flags. Every instruction of pe1 to pe4 has an instruction of the next PE with the same result and flag. pe5 subtracts, and compares unsigned operands by the carry and for equality by the zero flag; pe6 computes one operation after another. gen_alu(family, width) makes an ALU of that width.", "quantifier": "all instructions and all operands; for the operations a PE does not have, all instructions", "why_tests_cant": "test_alu runs two additions and test_composition sixteen small operand pairs; that no instruction computes, say, a subtraction or a comparison cannot be tested by running some", "anchors": ["examples/demo_pes/pe1/sim.py", "examples/demo_pes/pe4/sim.py", "examples/demo_pes/pe5/sim.py", "examples/demo_pes/pe6/sim.py", "examples/alu/sim.py", "tests/test_magma.py:test_composition", "tests/test_alu.py"]}
{"id": "C85", "title": "Multi finds programs on the architecture of test_basic_rr for exactly the polynomials", "statement": "On the architecture of tests/test_basic_rr.py (registers added or multiplied, an immediate loaded or added) Multi has a program of some length for an IR instruction exactly when the instruction computes a polynomial with integer coefficients modulo 256. More instructions never lose a program. (a + b) * c is found with two or more instructions, Add and Mul of smallir with one, Neg with two, Sub and Not with three, and And, Nand, Or, Nor and both shifts with no number of instructions.", "quantifier": "all IR instructions over bytes, all numbers of instructions, both kinds of index variables, all assemblers of the instruction", "why_tests_cant": "test_basic_rr checks that one program of two instructions is found; that no program of any length exists cannot be tested, and Multi itself only answers for one length", "anchors": ["tests/test_basic_rr.py:6", "tests/test_basic_rr.py:90", "peak/mapper/multi.py:Multi"]}
{"id": "C86", "title": "The mapper sees a Peak class as the family of functions of its values", "statement": "What ArchMapper and IRMapper read off a class (paths, leaf types, forms, outputs, validity of constants, all by way of assembled words) is what the class does on values: each value of the input type belongs to exactly one form, the outputs computed for a form are those of __call__ on the assembled words of the values of this form, and the validity condition holds exactly if every Const field encodes a value. So the quantifier-expanded formula is satisfiable exactly when some form, some valid constants and some placement of the inputs and outputs compute the IR instruction, and every rule found this way is right about values. The quantified formula is equally exact when no output is nested, and raises KeyError exactly when some architecture output and some IR output of the same type are nested.", "quantifier": "all Peak classes over bits, bit vectors, enums, products, sums and tagged unions with modifiers, all __call__ functions, all path constraints, all assembler histories", "why_tests_cant": "a test maps one instruction to one architecture and sees that a rule comes back; that the forms partition the values of every type, and that no rule is missed or wrong, is a statement about all classes", "anchors": ["peak/mapper/mapper.py:60", "peak/mapper/mapper.py:SMTMapper.__init__", "peak/mapper/mapper.py:ArchMapper.__init__", "peak/mapper/mapper.py:is_valid", "peak/mapper/mapper.py:IRMapper.__init__", "peak/mapper/mapper.py:660", "peak/mapper/utils.py:366"]}
{"id": "C87", "title": "On the machine of test_basic_rr the mapper finds exactly the instructions the machine does in one step", "statement": "For the register machine of tests/test_basic_rr.py and any IR instruction taking words (some of them Const) and returning a word, both formulas of ArchMapper are satisfiable exactly when the instruction has at most two data and two Const inputs and computes the sum or product of its only two inputs, one of its inputs, a data input plus a Const input, or, with at most one Const input, a fixed word or a data input plus a fixed word. So the three instructions of the test are found, and of smallir exactly Add and Mul. Multi with one instruction finds the same as ArchMapper when there is no Const input.", "quantifier": "all IR instructions over words: all numbers, names and Const flags of inputs and all functions; both formulas; both kinds of index variables; all assembler histories", "why_tests_cant": "the test maps three instructions; which functions have no rule, and that the two mappers agree, needs every function and every rule", "anchors": ["tests/test_basic_rr.py:33", "tests/test_basic_rr.py:50", "tests/test_basic_rr.py:75", "peak/mapper/mapper.py:ArchMapper.__init__", "peak/mapper/mapper.py:IRMapper.__init__", "peak/mapper/mapper.py:660", "peak/mapper/multi.py:Multi"]}
{"id": "C88", "title": "A rule the mapper finds is accepted by RewriteRule, builds inputs for all values and verifies", "statement": "For two Peak classes without black boxes and without sums in the outputs: RewriteRule accepts every rule made of a solution of the mapper and keeps its binding; build_inputs raises ValueError for a missing or superfluous key and otherwise succeeds exactly if the bound architecture leaves are those of one value, each bound once, and the inputs taken are the leaves of one value of the instruction, each taken once; its words are the canonical encodings of these values; a well-formed rule is correct exactly if, for all values, running both classes on the built inputs and parsing the outputs gives the same word at bound outputs; verify returns None exactly then, and otherwise values on which some bound output differs; a rule binding no output is never verified.", "quantifier": "all pairs of classes, all rules, all dictionaries of values, all solvers that decide the formula of verify, all models the mapper's solver may return", "why_tests_cant": "verify itself runs one rule through one solver; that every rule found verifies, that build_inputs never fails on it and that verify's answer is the truth about all inputs is a statement about all machines and rules", "anchors": ["peak/mapper/mapper.py:RewriteRule.__init__", "peak/mapper/mapper.py:RewriteRule.build_inputs", "peak/mapper/mapper.py:RewriteRule.parse_ir_output", "peak/mapper/mapper.py:RewriteRule.verify", "peak/mapper/mapper.py:60", "peak/mapper/utils.py:226", "peak/mapper/utils.py:351"]}
{"id": "C89", "title": "An ARM instruction encodes to the word its bit positions declare, and different instructions to different words", "statement": "For every instance of Inst of the ARM example - all sixteen data instructions, load, store and branch, register and immediate operands, any condition - bitfield.encode gives the 32-bit word with every field at the position its @bitfield declares; hence two instructions with the same word are equal, and the instructions made by mov, add, and_, or_, eor, b, ldr and str are encoded as ARM words.", "quantifier": "all instructions, all field values, all orders in which a Sum may list its members", "why_tests_cant": "tests/test_arm.py prints the words and has the assertions commented out; one wrong overlap shows only for operands with particular bits", "anchors": ["examples/arm/isa.py", "examples/arm/asm.py", "peak/bitfield.py:encode", "peak/bitfield.py:instkey"]}
{"id": "C90", "title": "ArchMapper and Multi with N=1 find a rule for the same instructions", "statement": "For a Peak class with exactly one Const field (of any type) whose other inputs and outputs are words, and an IR class over words without Const inputs: if ArchMapper(arch).process_ir_instruction(ir) can be solved then Multi(arch, ir, 1) builds its formula and has a solution whose program computes the IR instruction for all inputs, with distinct outputs; and if the IR class has one output and the architecture depends on the values of its fields only, Multi finds a program exactly when ArchMapper finds a rule, for either index variable and with or without use_real.", "quantifier": "all pairs of classes, all instruction types, both index variables, use_real on and off, all solutions", "why_tests_cant": "the two mappers use different formulas (leaves and forms against packed words and is_valid); a test compares them on single pairs of classes and cannot show that neither ever finds what the other misses", "anchors": ["peak/mapper/multi.py:Multi", "peak/mapper/mapper.py:ArchMapper", "peak/mapper/mapper.py:IRMapper", "peak/mapper/multi.py:248"]}
{"id": "C91", "title": "Multi finds exactly the programs of N calls that implement the IR class", "statement": "For a Peak class with exactly one Const field and an IR class without Const inputs, and every N: the rules Multi(arch, ir, N) shows for its solutions are exactly the sequences of N instructions, each with a word that encodes a value of the Const field and with joins to IR inputs (each used once) and to outputs of earlier instructions of the same type, such that calling the class N times in this way, with any words on unjoined inputs, gives on some outputs of the last call the outputs of the IR class for all inputs. Multi finds a rule exactly if there are N assembled instructions with this property, unless the class looks at unused bits of its instruction word.", "quantifier": "all pairs of classes, all N, all instruction types, both index variables, use_real on and off, all solutions, all inputs", "why_tests_cant": "a test runs one solved program on some inputs; it cannot show that no N-instruction program is missed, nor that a solution is correct for all inputs and all values on unjoined inputs", "anchors": ["peak/mapper/multi.py:Multi", "peak/mapper/multi.py:Multi.solve", "peak/mapper/multi.py:parse_peak_fc", "peak/mapper/multi.py:run_peak"]}
{"id": "C92", "title": "Fields of an assembled class and of its instances agree along every path", "statement": "For every path of fields of a type T and every word: the path taken on AssembledADT[T, Assembler, BV] gives the assembled class of the type it leads to (Bits and bit vectors themselves), the path taken on an instance (reading .value of each Match) gives an instance of that class whose bits are the slice sub[path].idx of the word; if the word holds a value, all match flags on the way are true exactly if the path leads to a part of the value, and the instance then holds that part. assembler2 gives the same class, bits and flags. A path that is not in T raises on class and instance the same exception. inst[_TAG] is the tag of the member held. A member of a Sum can be named by its type or its assembled class. Sub is a Mapping: its keys are the fields, each once, and looking up exactly these succeeds.", "quantifier": "all types, words, paths, names, build histories", "why_tests_cant": "paths and types are unbounded; the recursion in tests/test_assembled_adt.py never descends, because it asks isinstance(field, Sum) of a type", "anchors": ["peak/assembler/assembled_adt.py:AssembledADTMeta.__getitem__", "peak/assembler/assembled_adt.py:AssembledADTMeta.__getattr__", "peak/assembler/assembled_adt.py:AssembledADT._get", "peak/assembler/assembler_abc.py:Sub", "peak/assembler2/assembled_adt.py:AssembledADT._get"]}
{"id": "C93", "title": "Rules for a Peak class with state are rules for a new object", "statement": "ArchMapper makes one object of the architecture and calls it for every input form and again in every simple formula; IRMapper makes one object per instruction. A rule is found exactly if some form of a NEW object of the architecture, with constants, computes the instruction of a new object of the IR class; in particular what is found does not depend on the order of the forms, on the formula, or on the instructions mapped before. This holds if what a call returns does not depend on earlier calls.", "quantifier": "all class shapes, states, call functions, constraints, histories of mapping", "why_tests_cant": "the object is hidden in the mapper, states and histories are unbounded; the only test with registers (test_reg) uses classes that set every register in each call", "anchors": ["peak/mapper/mapper.py:SMTMapper.__init__", "peak/mapper/mapper.py:IRMapper.__init__", "peak/mapper/mapper.py:ArchMapper.process_ir_instruction", "tests/test_aadt_mapping.py:test_reg", "examples/reg_file/sim.py:RegPE_mappable_fc"]}
{"id": "C94", "title": "What the mapper finds is right about the source run in Python", "statement": "Take two Peak classes by their source: __call__ as a program with assignments, conditionals, attributes and components. ArchMapper and IRMapper see them through SMTFamily and assembled words. If the expanded formula is satisfiable, there are an input form, constants in range and allowed, and places for all inputs and outputs of the instruction such that whenever the architecture's source, run in PyFamily on values of this form with these constants and the instruction's inputs in their places, returns, and the instruction's source returns, the values at the places of the outputs are equal. This holds if the architecture has one input form or no call depends on earlier ones.", "quantifier": "all sources whose types fit, all types, components, objects, constraints, variants of the formula and input values", "why_tests_cant": "programs, types and values are unbounded; tests map a few fixed classes and never run the Python source on the rule found", "anchors": ["peak/mapper/mapper.py:SMTMapper.__init__", "peak/mapper/mapper.py:ArchMapper.process_ir_instruction", "peak/mapper/mapper.py:IRMapper.solve", "peak/family.py:PyFamily", "peak/family.py:SMTFamily", "peak/features.py:gen_input_t"]}
{"id": "C95", "title": "Classes that set their attributes before reading them have no memory, and rules for them hold in every state", "statement": "Take a Peak class whose __call__ assigns every attribute on every path before it reads it, with components that answer the same in every state. Two objects of the class, whatever their attributes hold, return the same on the same arguments (or raise the same error), in Python and on assembled words. If the mapper's expanded or simple formula is satisfiable for two such classes, with any number of input forms and whatever instructions were mapped before, the rule is right for all their objects run in PyFamily, not only for new ones.", "quantifier": "all sources, all object states, all arguments, types, constraints, variants of the formula and earlier mappings", "why_tests_cant": "states and programs are unbounded; tests call a class a few times from a new object", "anchors": ["peak/family.py:PyFamily", "peak/family.py:PyXFamily", "peak/family.py:_RewriterFamily.assemble", "peak/mapper/mapper.py:SMTMapper.__init__", "peak/mapper/mapper.py:IRMapper.__init__"]}
{"id": "C96", "title": "The layouts of auto_assembler say where the parts of an instruction are", "statement": "generate_assembler(T) returns nested layouts. Following a path of field names and Sum members through them gives bits that lie inside the word; in an assembled instruction these bits are the assembled part, and in every word the disassembler takes they disassemble to the part of the result. Fields of a Product lie one after the other up to the width, members of a Sum start above the tag. wrap_with_disassembler with such a layout, or with the layout of an Assembler, drives every field port of the PE with the encoding of that field.", "quantifier": "all ISA types, instructions, paths and words", "why_tests_cant": "types, paths and words are unbounded; the only test wraps one PE and checks no value", "anchors": ["peak/auto_assembler.py:_enum", "peak/auto_assembler.py:_product", "peak/auto_assembler.py:_sum", "peak/auto_assembler.py:generate_assembler", "peak/rtl_utils.py:wrap_with_disassembler"]}
{"id": "C97", "title": "!= is the negation of == on assembled values and classes", "statement": "For an AssembledADT instance x and any object y, x != y is true iff x == y is false, both raise together, and == is symmetric; x != v for an ADT value v is true iff x does not hold v; equal instances of a class, and an instance and its word, hash alike. The same holds for comparing assembled classes with ADT classes and with each other. Flipping the direction of a magma class twice gives it back.", "quantifier": "all classes, words, values and other operands", "why_tests_cant": "operands are unbounded; tests compare a few Enum values and never two classes with !=", "anchors": ["peak/assembler/assembled_adt.py:AssembledADTMeta.__eq__", "peak/assembler/assembled_adt.py:AssembledADTMeta.__ne__", "peak/assembler/assembled_adt.py:AssembledADT.__eq__", "peak/assembler/assembled_adt.py:AssembledADT.__ne__", "peak/assembler/assembled_adt.py:AssembledADT.__hash__", "peak/assembler/assembled_adt.py:MAADTMeta._flip_magma_"]}
{"id": "C98", "title": "family.assemble replaces the call of the decorated class and nothing else", "statement": "Decorating a class with family.assemble keeps the input_t and output_t of the class. PyFamily leaves the body of __call__, PyXFamily and SMTFamily rewrite it exactly once with the passes of the family, and SMTFamily gives black boxes the generated call, not rewritten. No function that existed before, no other class and no base class changes; classes that inherit the call get the new one. Classes without types are refused with AttributeError by the rewriting families. The annotations MagmaFamily hands to magma have the widths and signs of the source.", "quantifier": "all programs (classes with multiple inheritance and functions), families, passes and annotations", "why_tests_cant": "programs and annotations are unbounded; tests decorate a few classes and never look at other classes afterwards", "anchors": ["peak/family.py:AbstractFamily.assemble", "peak/family.py:_RewriterFamily.assemble", "peak/family.py:_BBFamily.assemble", "peak/family.py:_StdMix.assemble", "peak/family.py:SMTFamily.assemble", "peak/family.py:MagmaFamily.assemble", "peak/family.py:_AsmFamily.get_adt_t", "peak/black_box.py:BlackBox.create_call"]}
{"id": "C99", "title": "assemble_values_in_func computes on codes what the function computes on members", "statement": "The function returned by assemble_values_in_func, called on instructions whose Enum members have been replaced by their codes, returns what the original function returns on the instruction, with members replaced by codes. The new source is the old one with some attributes replaced by numbers.", "quantifier": "all function bodies (expressions), scopes, parameters and assemblers", "why_tests_cant": "bodies and scopes are unbounded; the function is public but no test of the repository calls it", "anchors": ["peak/assembler/utils.py:ISABuilderAssembler.visit_Attribute", "peak/assembler/utils.py:assemble_values_in_func"]}
{"id": "C100", "title": "rules for riscv_m and riscv_ext are instructions the simulator runs", "statement": "On the multiply/divide core and the bit counting core, ArchMapper finds a rule for an IR instruction of one or two words if and only if some output (rd or the next pc) of one instruction is that function of the pc and the registers. A rule names an instruction that satisfies the constraints and, run on the Py core with the operands where the rule puts them, leaves the result in the destination register or continues there, and changes no other register. None means that no instruction of the core does it.", "quantifier": "all functions of one and two words, constraints on instruction fields, encodings, registers, pcs, forall solvers", "why_tests_cant": "functions, register contents and solver answers are unbounded; no test of the repository maps to these two cores", "anchors": ["examples/riscv_m/sim.py:R32I_mappable_fc", "examples/riscv_ext/sim.py:R32I_mappable_fc", "peak/mapper/mapper.py:ArchMapper.process_ir_instruction", "peak/mapper/mapper.py:IRMapper.solve"]}
