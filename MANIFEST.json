{
 "claims": [
  {
   "property": "C01",
   "status": "partial",
   "theorems": [
    "C01_roundtrip_partial",
    "C01_roundtrip_exact",
    "C01_others_lost",
    "C01_any_history_refuted",
    "C01_signed_refuted",
    "C01_full_refuted"
   ],
   "note": "Proved when signed fields are non-negative and no sparse one-hot opcode set containing 0 is requested at two widths. Both restrictions are necessary: counterexamples are proved. C01_roundtrip_exact says which values with negative signed fields survive: exactly those where every bit above the lowest negative field is one."
  },
  {
   "property": "C02",
   "status": "proved",
   "theorems": [
    "C02_assemble_total",
    "C02_assemble_canonical",
    "C02_assemble_word"
   ],
   "note": "C02_assemble_word gives the exact word of every value, negative signed fields included."
  },
  {
   "property": "C03",
   "status": "partial",
   "theorems": [
    "C03_assemble_injective_partial",
    "C03_collisions_exact",
    "C03_survivors",
    "C03_signed_refuted",
    "C03_full_refuted"
   ],
   "note": "Proved in every history for values without negative signed fields; a counterexample with a negative signed field is proved. C03_collisions_exact says exactly which values share a word."
  },
  {
   "property": "C04",
   "status": "partial",
   "theorems": [
    "C04_is_valid_exact_partial",
    "C04_multi_range_refuted",
    "C04_multi_range_accepts_all",
    "C04_accepted_words",
    "C04_encoded_accepted",
    "C04_accepted_encoded",
    "C04_full_refuted"
   ],
   "note": "Exact for types whose opcode sets do not take the multi-range branch. For all types the accepted words are characterised (C04_accepted_words); that branch accepts every word. Histories that recognise a sensitive set at two widths are excluded, see C05."
  },
  {
   "property": "C05",
   "status": "partial",
   "theorems": [
    "C05_is_valid_history_independent_partial",
    "C05_any_history_refuted",
    "C05_full_refuted"
   ],
   "note": "Proved when no sensitive opcode set is requested at two widths; a counterexample is proved otherwise."
  },
  {
   "property": "C06",
   "status": "partial",
   "theorems": [
    "C06_only_ValueError_partial",
    "C06_disassemble_iff_partial",
    "C06_any_history",
    "C06_errors",
    "C06_KeyError_refuted",
    "C06_full_refuted"
   ],
   "note": "ValueError only, under the hypotheses of C04; in any history never a wrong instruction, only ValueError or KeyError; KeyError is proved to occur."
  },
  {
   "property": "C07",
   "status": "partial",
   "theorems": [
    "C07_reassemble_partial",
    "C07_reassemble_exact",
    "C07_full_refuted"
   ],
   "note": "Negative signed fields excluded (they are assembled wrongly, see C01_signed_refuted). C07_reassemble_exact gives the new word in all cases and says when it reads back."
  },
  {
   "property": "C08",
   "status": "proved",
   "theorems": [
    "C08_sub_idx",
    "C08_sub_assemble",
    "C08_tag_idx"
   ],
   "note": ""
  },
  {
   "property": "C09",
   "status": "proved",
   "theorems": [
    "C09_product_layout",
    "C09_product_disjoint",
    "C09_sum_layout",
    "C09_paths_inside"
   ],
   "note": ""
  },
  {
   "property": "C10",
   "status": "proved",
   "theorems": [
    "C10_tags",
    "C10_tags_distinct",
    "C10_tag_order_independent",
    "C10_invalid_tag",
    "C10_no_tag",
    "C10_equal_repr_refuted"
   ],
   "note": "Order independence needs distinct reprs; refuted otherwise."
  },
  {
   "property": "C11",
   "status": "proved",
   "theorems": [
    "C11_enum_codes",
    "C11_enum_codes_distinct"
   ],
   "note": ""
  },
  {
   "property": "C12",
   "status": "partial",
   "theorems": [
    "C12_product_partial",
    "C12_product_canonical",
    "C12_product_raises",
    "C12_sum_partial",
    "C12_sum_encodes",
    "C12_sum_explicit_tag",
    "C12_sum_raises",
    "C12_zero_width_refuted",
    "C12_signed_refuted",
    "C12_full_refuted"
   ],
   "note": "Exact conditions proved; from_fields raises for zero-width fields and one-member sums, and differs from assemble for negative signed fields."
  },
  {
   "property": "C13",
   "status": "partial",
   "theorems": [
    "C13_field_access_partial",
    "C13_survivors",
    "C13_field_access_word",
    "C13_full_refuted"
   ],
   "note": "Negative signed fields excluded for words made by assemble; proved for every word that holds the value, and for values with negative fields that survive assembly."
  },
  {
   "property": "C14",
   "status": "proved",
   "theorems": [
    "C14_match"
   ],
   "note": ""
  },
  {
   "property": "C15",
   "status": "partial",
   "theorems": [
    "C15_equality_partial",
    "C15_equality_exact",
    "C15_other_width",
    "C15_signed_refuted",
    "C15_padding_refuted",
    "C15_full_refuted"
   ],
   "note": "Negative signed fields excluded (refuted); words with different padding are unequal. C15_equality_exact says for all values when == is true."
  },
  {
   "property": "C16",
   "status": "partial",
   "theorems": [
    "C16_same_opcode_partial",
    "C16_same_opcode_exact",
    "C16_full_refuted",
    "C16_canonical",
    "C16_width"
   ],
   "note": "Proved for values without negative signed fields; for those the first assembler is wrong (counterexample) and the second is proved to give the zero-padded encoding for every value. C16_same_opcode_exact says exactly when both agree."
  },
  {
   "property": "C17",
   "status": "partial",
   "theorems": [
    "C17_roundtrip",
    "C17_injective",
    "C17_disassemble_iff",
    "C17_disassemble_error",
    "C17_extract",
    "C17_extract_assembled",
    "C17_match_name",
    "C17_match_type",
    "C17_product_from_fields_partial",
    "C17_sum_from_fields_partial",
    "C17_full_refuted",
    "C17_size_unchecked_refuted",
    "C17_adt_argument_refuted",
    "C17_wrapper"
   ],
   "note": "disassemble, extract and match proved in full. from_fields proved except for zero-width fields and one-member sums, where it raises (counterexample)."
  },
  {
   "property": "C18",
   "status": "partial",
   "theorems": [
    "C18_roundtrip_partial",
    "C18_injective_partial",
    "C18_full_refuted",
    "C18_const",
    "C18_const_silent",
    "C18_const_refuted"
   ],
   "note": "Proved except for a single Bit as Sum member, for which assembling raises AttributeError (counterexample). Constants instead of types assemble to themselves; for other values a ValueError is returned and not raised (counterexample)."
  },
  {
   "property": "C19",
   "status": "partial",
   "theorems": [
    "C19_encode_partial",
    "C19_full_refuted",
    "C19_enum_refuted",
    "C19_tags_refuted",
    "C19_shift_refuted",
    "C19_signed_refuted"
   ],
   "note": "Proved for unsigned fields, Enum values below 2**size, distinct tags and no shift inside; each restriction has a counterexample."
  },
  {
   "property": "C20",
   "status": "proved",
   "theorems": [
    "C20_register",
    "C20_prev",
    "C20_register_noen",
    "C20_rewritten",
    "C20_noen_none_refuted"
   ],
   "note": "For registers without an enable port, writing None keeps the old value; excluded and refuted separately."
  },
  {
   "property": "C21",
   "status": "partial",
   "theorems": [
    "C21_ram_partial",
    "C21_frame",
    "C21_rom",
    "C21_full_refuted"
   ],
   "note": "Proved for every address, with negative ones counting from the end as Python lists do. The claim that negative addresses raise is refuted."
  },
  {
   "property": "C22",
   "status": "partial",
   "theorems": [
    "C22_read_partial",
    "C22_write",
    "C22_dunder",
    "C22_frame",
    "C22_plain",
    "C22_full_refuted"
   ],
   "note": "Reads proved for names that are not of the form __x__; for those the register object itself is returned (counterexample; C22_dunder says what such names do)."
  },
  {
   "property": "C23",
   "status": "partial",
   "theorems": [
    "C23_transparent_partial",
    "C23_same_object_partial",
    "C23_respects",
    "C23_unhashable",
    "C23_kwargs_order_refuted",
    "C23_bind_first_call",
    "C23_full_refuted"
   ],
   "note": "Proved for the shipped families; with user subclasses of PyFamily a class built for another family is returned (counterexample). Keyword order makes a second object (counterexample)."
  },
  {
   "property": "C24",
   "status": "partial",
   "theorems": [
    "C24_refl_sym_ne",
    "C24_transitive_partial",
    "C24_hash_partial",
    "C24_meaning",
    "C24_full_refuted",
    "C24_hash_refuted",
    "C24_transitive_refuted"
   ],
   "note": "Reflexivity, symmetry and != proved for every hierarchy. Transitivity and hash agreement proved among families that share __eq__; PyFamily against PyXFamily breaks both (counterexamples)."
  },
  {
   "property": "C25",
   "status": "partial",
   "theorems": [
    "C25_protocol_partial",
    "C25_protocol_call_order",
    "C25_full_refuted",
    "C25_no_inputs_refuted",
    "C25_none_output_refuted"
   ],
   "note": "Proved in full with inputs in call order; declared order fails for keyword calls in another order (counterexample)."
  },
  {
   "property": "C26",
   "status": "partial",
   "theorems": [
    "C26_discovery_partial",
    "C26_first_query",
    "C26_get_black_box_any_peak",
    "C26_full_refuted"
   ],
   "note": "Proved while no attribute is assigned between queries and for the first query; the cached list goes stale otherwise (counterexample)."
  },
  {
   "property": "C27",
   "status": "partial",
   "theorems": [
    "C27_registry",
    "C27_generated_partial",
    "C27_generated_full_refuted",
    "C27_input_family_refuted",
    "C27_input_fun_refuted",
    "C27_class_t0_refuted",
    "C27_class_family_refuted"
   ],
   "note": "Registry proved in full. Generated classes proved except for names that clash with names in the generated source (counterexamples)."
  },
  {
   "property": "C28",
   "status": "partial",
   "theorems": [
    "C28_typecheck_partial",
    "C28_input_t",
    "C28_output_t",
    "C28_full_refuted",
    "C28_too_few_refuted",
    "C28_none_refuted"
   ],
   "note": "Exact behaviour proved; too many results are accepted and too few raise IndexError (counterexamples)."
  },
  {
   "property": "C29",
   "status": "proved",
   "theorems": [
    "C29_match_decode",
    "C29_out_of_range",
    "C29_valid"
   ],
   "note": ""
  },
  {
   "property": "C30",
   "status": "proved",
   "theorems": [
    "C30_meaning"
   ],
   "note": ""
  },
  {
   "property": "C31",
   "status": "proved",
   "theorems": [
    "C31_bindings"
   ],
   "note": "Paths of a flattened type are distinct (they are dict keys)."
  },
  {
   "property": "C45",
   "status": "partial",
   "theorems": [
    "C45_full_refuted",
    "C45_initial_partial",
    "C45_minus_one_refuted",
    "C45_none"
   ],
   "note": "What the initial vectors contain is proved exactly; the claim that they hold the values asked for fails (counterexamples)."
  },
  {
   "property": "C34",
   "status": "partial",
   "theorems": [
    "C34_ackermann_partial",
    "C34_forall_outputs",
    "C34_full_refuted"
   ],
   "note": "Proved for black boxes called exactly once; a box called twice shares one input and one output variable (counterexample)."
  },
  {
   "property": "C35",
   "status": "proved",
   "theorems": [
    "C35_cegis_sound",
    "C35_direct_sound"
   ],
   "note": "The solver is any function meeting the stated contract (sat answers come with a model, unsat answers are right)."
  },
  {
   "property": "C36",
   "status": "proved",
   "theorems": [
    "C36_cegis_none",
    "C36_direct_none"
   ],
   "note": "Same solver contract."
  },
  {
   "property": "C37",
   "status": "proved",
   "theorems": [
    "C37_terminates",
    "C37_maxloops",
    "C37_enough"
   ],
   "note": ""
  },
  {
   "property": "C38",
   "status": "partial",
   "theorems": [
    "C38_expanded_partial",
    "C38_solve_partial",
    "C38_full_refuted"
   ],
   "note": "Proved when every constrained path is Const, or the model's value for it is allowed; otherwise a legal model gives a wrong rule (counterexample)."
  },
  {
   "property": "C39",
   "status": "partial",
   "theorems": [
    "C39_simple_partial",
    "C39_substituted",
    "C39_full_refuted",
    "C39_constraint_refuted"
   ],
   "note": "Proved for IR instructions without Const inputs and with the condition of C38; with Const inputs the constants must be read from the substituted variables, which the code does not do (counterexample)."
  },
  {
   "property": "C40",
   "status": "partial",
   "theorems": [
    "C40_expanded_partial",
    "C40_simple_partial",
    "C40_not_none",
    "C40_full_refuted",
    "C40_simple_const_refuted"
   ],
   "note": "Proved for architectures with a Const input (others raise AssertionError, counterexample); for the simple formula also without Const inputs of the IR instruction (counterexample) and with at least one output."
  },
  {
   "property": "C41",
   "status": "partial",
   "theorems": [
    "C41_const_partial",
    "C41_full_refuted"
   ],
   "note": "Proved for constrained Const inputs; other constrained inputs may get any value (counterexample)."
  },
  {
   "property": "C42",
   "status": "partial",
   "theorems": [
    "C42_partial",
    "C42_full_refuted"
   ],
   "note": "Proved for IR instructions without Const inputs; counterexample otherwise."
  },
  {
   "property": "C43",
   "status": "partial",
   "theorems": [
    "C43_verify_partial",
    "C43_incomplete",
    "C43_correct_rules_verify",
    "C43_full_refuted"
   ],
   "note": "Proved for rules with a bound output and black boxes called exactly once; a rule without a bound output raises AssertionError (counterexample). Rules found by the synthesis loop are shown to verify."
  },
  {
   "property": "C44",
   "status": "partial",
   "theorems": [
    "C44_roundtrip",
    "C44_json_partial",
    "C44_json_iff",
    "C44_hand",
    "C44_full_refuted"
   ],
   "note": "The direct round trip is proved in full; through JSON exactly for rules whose paths hold no classes (paths into a Sum do, counterexample)."
  },
  {
   "property": "C59",
   "status": "partial",
   "theorems": [
    "C59_constants_partial",
    "C59_values",
    "C59_full_refuted"
   ],
   "note": "The check in the code never fires, so an unbound constant is accepted (counterexample); what is checked instead is proved."
  },
  {
   "property": "C32",
   "status": "partial",
   "theorems": [
    "C32_forms_partial",
    "C32_valuation",
    "C32_value_partial",
    "C32_exactly",
    "C32_full_refuted",
    "C32_value_full_refuted"
   ],
   "note": "Proved for the types on which SMTForms works at all (exactly characterised); a Sum with one member raises ValueError (counterexample). With a value given, proved without tagged unions, which raise KeyError (counterexample)."
  },
  {
   "property": "C33",
   "status": "partial",
   "theorems": [
    "C33_leaves_partial",
    "C33_simplify_partial",
    "C33_no_conflicts",
    "C33_full_refuted",
    "C33_unbound_in_sum"
   ],
   "note": "Proved for the same types, for any covering set of parts in any order, also mixed with paths; a Sum with one member cannot be rebuilt (counterexample)."
  },
  {
   "property": "C46",
   "status": "proved",
   "theorems": [
    "C46_create",
    "C46_programs",
    "C46_build"
   ],
   "note": ""
  },
  {
   "property": "C60",
   "status": "partial",
   "theorems": [
    "C60_sound_partial",
    "C60_exact",
    "C60_use_real",
    "C60_full_refuted"
   ],
   "note": "Proved for IR instructions without black boxes; outputs of black boxes inside the IR are existential in the code, so a wrong program can be accepted (counterexample)."
  },
  {
   "property": "C47",
   "status": "partial",
   "theorems": [
    "C47_history",
    "C47_steady_partial",
    "C47_only_steady",
    "C47_full_refuted"
   ],
   "note": "The mapper reuses one object, so it holds exactly for objects whose outputs never change (both directions proved); a register is a counterexample. The state seen by every formula is stated for all objects."
  },
  {
   "property": "C48",
   "status": "partial",
   "theorems": [
    "C48_step_partial",
    "C48_program_partial",
    "C48_unwritten",
    "C48_big_shift",
    "C48_full_refuted"
   ],
   "note": "Proved for one step and for free-running programs of any length when the registers read were written and no SLL/SRL/SRA has 32 or more in rs2. Reads of unwritten registers raise KeyError; large register shifts use the whole of rs2 instead of its low five bits (counterexample, exact values given)."
  },
  {
   "property": "C49",
   "status": "proved",
   "theorems": [
    "C49_simulator",
    "C49_file",
    "C49_mappable"
   ],
   "note": ""
  },
  {
   "property": "C50",
   "status": "partial",
   "theorems": [
    "C50_agree_partial",
    "C50_subi",
    "C50_full_refuted",
    "C50_alias_refuted"
   ],
   "note": "Proved for all three cores except OP_IMM with tag SUB, which the simulator rejects and the mappable core executes (both stated exactly). The mappable core also has behaviours of no register file when rs1 and rs2 are the same register."
  },
  {
   "property": "C52",
   "status": "proved",
   "theorems": [
    "C52_counts",
    "C52_counts_smt",
    "C52_step",
    "C52_meaning"
   ],
   "note": ""
  },
  {
   "property": "C53",
   "status": "proved",
   "theorems": [
    "C53_step",
    "C53_halves"
   ],
   "note": ""
  },
  {
   "property": "C51",
   "status": "partial",
   "theorems": [
    "C51_fields_partial",
    "C51_determined",
    "C51_laws_partial",
    "C51_muldiv",
    "C51_ext",
    "C51_asm_errors",
    "C51_asm_fields",
    "C51_asm_exec",
    "C51_asm_bit",
    "C51_asm_bit_errors",
    "C51_asm_sub_refuted",
    "C51_full_refuted"
   ],
   "note": "Proved for all base instructions, including which requests raise ValueError and what assembled instructions compute. set_fields raises KeyError on multiply/divide, both helpers fail on extension instructions, asm_SUB with immediate -2048 subtracts 2048 (counterexamples)."
  },
  {
   "property": "C61",
   "status": "partial",
   "theorems": [
    "C61_members",
    "C61_base_partial",
    "C61_env",
    "C61_known",
    "C61_full_refuted"
   ],
   "note": "Exact contents after every history; evaluating riscv_ext's ISA replaces Inst of the cached base namespace (counterexample)."
  },
  {
   "property": "C54",
   "status": "proved",
   "theorems": [
    "C54_compare",
    "C54_flags",
    "C54_asm",
    "C54_alu_code_refuted"
   ],
   "note": "Proved for pe1 in every register state and mode. Beside it: code ALU hands out the data word, not a Bit (counterexample)."
  },
  {
   "property": "C55",
   "status": "proved",
   "theorems": [
    "C55_lut",
    "C55_pe1",
    "C55_pe_lut",
    "C55_tables"
   ],
   "note": ""
  },
  {
   "property": "C62",
   "status": "proved",
   "theorems": [
    "C62_results",
    "C62_pe1",
    "C62_start"
   ],
   "note": ""
  },
  {
   "property": "C63",
   "status": "partial",
   "theorems": [
    "C63_alu",
    "C63_result_partial",
    "C63_unaffected",
    "C63_asm",
    "C63_flags",
    "C63_bit",
    "C63_full_refuted",
    "C63_unsigned_refuted",
    "C63_neg_refuted",
    "C63_lte_bit_refuted"
   ],
   "note": "Proved when the truth value of the Signed member is its meaning, and for the eight operations that do not depend on it. If unsigned counts as true (Python's default for an object) unsigned maximum, minimum, right shift and high products are wrong (counterexamples)."
  },
  {
   "property": "C64",
   "status": "partial",
   "theorems": [
    "C64_two_partial",
    "C64_constant",
    "C64_inputs",
    "C64_full_refuted",
    "C64_inputs_refuted"
   ],
   "note": "Two inputs: results, registers, LUT, EQ, NE proved, signed conditions when the difference does not overflow. The carry and overflow flags are always 0, so the unsigned order conditions are constant; any other number of inputs raises (counterexamples)."
  },
  {
   "property": "C56",
   "status": "partial",
   "theorems": [
    "C56_flags_partial",
    "C56_v_sub",
    "C56_conditions",
    "C56_full_refuted",
    "C56_slt_refuted"
   ],
   "note": "Z, N, C for every operation, V for add and adc, unsigned and equality conditions after sub proved; every condition as a function of the flags. V after sub/sbc is computed from b instead of its complement, so signed conditions can be wrong (exact value of V and counterexamples given)."
  },
  {
   "property": "C65",
   "status": "partial",
   "theorems": [
    "C65_step_partial",
    "C65_run_partial",
    "C65_errors",
    "C65_add32",
    "C65_sub32_refuted",
    "C65_call_return",
    "C65_full_refuted"
   ],
   "note": "Every instruction but LD, and runs of any length. LD raises TypeError. add/adc is 32-bit addition; sub/sbc never is the 32-bit difference (proved for all operands)."
  },
  {
   "property": "C66",
   "status": "partial",
   "theorems": [
    "C66_interface_partial",
    "C66_errors",
    "C66_full_refuted",
    "C66_peak_v_refuted",
    "C66_start"
   ],
   "note": "Registers, program counter reads and flags Z, N, C proved. peak_flag('V') returns C; poke_flag and poke_pc always raise (counterexamples)."
  },
  {
   "property": "C57",
   "status": "partial",
   "theorems": [
    "C57_step_partial",
    "C57_run_partial",
    "C57_poke",
    "C57_full_refuted",
    "C57_snl_refuted",
    "C57_page_refuted",
    "C57_opr1_refuted",
    "C57_memory_refuted",
    "C57_isz_refuted",
    "C57_wrap_refuted"
   ],
   "note": "One step and runs of any length where the state is supported (memory references from page zero with written operands, no auto-indexing, no carry of IAC into the link, no byte swap, not SNL/SZL). Each exclusion has a counterexample, several for all states."
  },
  {
   "property": "C67",
   "status": "partial",
   "theorems": [
    "C67_add",
    "C67_or",
    "C67_xor1",
    "C67_xor2",
    "C67_cmp_partial",
    "C67_cmp_refuted",
    "C67_cmp_full_refuted"
   ],
   "note": "Addition, or and both exclusive ors for all operands. The comparison is right unless the first operand is 0, where it is always wrong."
  },
  {
   "property": "C68",
   "status": "partial",
   "theorems": [
    "C68_mnemonics_partial",
    "C68_bits",
    "C68_conditions",
    "C68_mixed",
    "C68_keywords",
    "C68_glk_refuted",
    "C68_link_refuted",
    "C68_full_refuted"
   ],
   "note": "All mnemonics but GLK (raises TypeError), SZL and SNL (inverted in every state)."
  },
  {
   "property": "C58",
   "status": "partial",
   "theorems": [
    "C58_conversions",
    "C58_execution_partial",
    "C58_const_rm_partial",
    "C58_agree",
    "C58_contents",
    "C58_rmm_refuted",
    "C58_rmm_upwards",
    "C58_names_refuted",
    "C58_const_fma_refuted",
    "C58_predicates_refuted",
    "C58_full_refuted"
   ],
   "note": "Conversions are bijective; RNE and RTZ, and every mode of const_rm, are executed as asked; exact contents of the library. RMM runs in the mode of RUP, RDN and RUP need names hwtypes may not have, the fused multiply-add of const_rm raises NameError, predicates raise AttributeError (counterexamples)."
  },
  {
   "property": "C69",
   "status": "partial",
   "theorems": [
    "C69_rule_expanded",
    "C69_rule_simple_partial",
    "C69_expanded_partial",
    "C69_simple_partial",
    "C69_solve_partial",
    "C69_direct",
    "C69_expanded_direct",
    "C69_simple_exact_partial",
    "C69_simple_no_false",
    "C69_simple_const_partial",
    "C69_full_refuted",
    "C69_simple_vacuous_refuted"
   ],
   "note": "Expanded formula: for architectures with a Const input (without one __init__ raises). Simple formula: moreover IR instructions with outputs, and constraints on non-Const inputs of all forms; with Const inputs of the instruction it finds exactly the rules whose constants are valid for all values of these inputs (C69_simple_exact_partial), which is all rules if validity does not look at leaves of their types. Otherwise the simple formula misses a rule, or is solved vacuously by a forbidden value and yields a wrong rule (counterexamples)."
  },
  {
   "property": "C70",
   "status": "proved",
   "theorems": [
    "C70_table",
    "C70_solve",
    "C70_found",
    "C70_inst",
    "C70_sum"
   ],
   "note": "Exact table for all constraints of instruction fields, both formulas, both encodings and all strategies. The sum PE is the tagged PE exactly if ~ negates the result of match."
  },
  {
   "property": "C71",
   "status": "proved",
   "theorems": [
    "C71_offset",
    "C71_in0",
    "C71_solve_offset",
    "C71_solve_in0"
   ],
   "note": "Exact condition on the constraints; contains the cases of both constraint tests."
  },
  {
   "property": "C72",
   "status": "partial",
   "theorems": [
    "C72_mappings_partial",
    "C72_assert",
    "C72_attrs_refuted",
    "C72_zero_refuted",
    "C72_once_refuted",
    "C72_full_refuted"
   ],
   "note": "Sound and complete, cut off at the maximum, AssertionError exactly if no binding exists; all under the condition that __call__ has the attributes gen_mapping reads. The library sets none of them, so every call on a class of this version raises AttributeError. Inputs missing in the input map have to be 0, and mappings may repeat (counterexamples)."
  },
  {
   "property": "C73",
   "status": "partial",
   "theorems": [
    "C73_word_partial",
    "C73_collisions",
    "C73_documented",
    "C73_full_refuted"
   ],
   "note": "The exact word for every order of Sum members. It is the documented one at most for the all-zero first instruction of each group; instructions collide exactly if the ors of their overlapping fields agree."
  },
  {
   "property": "C74",
   "status": "partial",
   "theorems": [
    "C74_operand_partial",
    "C74_error",
    "C74_registers",
    "C74_full_refuted"
   ],
   "note": "ValueError exactly for words that are no rotated byte. The operand is right exactly for immediates below 16 of loads and stores and for 0 of data instructions (four of eight bits are kept, and data swaps the parts)."
  },
  {
   "property": "C75",
   "status": "partial",
   "theorems": [
    "C75_total",
    "C75_exact_partial",
    "C75_disassembles_partial",
    "C75_accepts_partial",
    "C75_history_independent_partial",
    "C75_same_as_assembler_partial",
    "C75_accepted_words",
    "C75_same_words",
    "C75_multi_range_refuted",
    "C75_any_history_refuted",
    "C75_fewer_requests",
    "C75_full_refuted"
   ],
   "note": "Exact when no opcode set of the type has several ranges and no sensitive set is recognised at two widths in the process (counterexamples for both). Acceptance and independence of the history need only the second condition."
  },
  {
   "property": "C76",
   "status": "partial",
   "theorems": [
    "C76_rule",
    "C76_rule1",
    "C76_solve_partial",
    "C76_solve1",
    "C76_found",
    "C76_binary_only",
    "C76_binary",
    "C76_runs",
    "C76_unary",
    "C76_small_ir",
    "C76_rename",
    "C76_full_refuted"
   ],
   "note": "Exact for functions of one and two words, with any constraints on instruction fields. The instruction of a rule may name one register for both operands, which cannot hold two values (counterexample; the test repairs this by hand); every renaming of registers other than 0 keeps the rule right."
  },
  {
   "property": "C77",
   "status": "partial",
   "theorems": [
    "C77_rule",
    "C77_rule1",
    "C77_solve_partial",
    "C77_solve1_partial",
    "C77_found",
    "C77_binary_only",
    "C77_unary_only",
    "C77_binary",
    "C77_unary",
    "C77_small_ir",
    "C77_no_subi",
    "C77_subi",
    "C77_rename",
    "C77_alias_refuted",
    "C77_full_refuted"
   ],
   "note": "Exact for functions of one and two words, with any constraints on instruction fields. Two counterexamples: the instruction of a rule may be an immediate subtraction, which the simulator rejects (for x + 2048 every rule is one), and may name one register for both operands. A constraint on the tag excludes the first, renaming the registers repairs the second. Only the base core; riscv_m and riscv_ext are in C100."
  },
  {
   "property": "C78",
   "status": "partial",
   "theorems": [
    "C78_same_partial",
    "C78_total",
    "C78_history",
    "C78_component",
    "C78_components",
    "C78_register",
    "C78_full_refuted",
    "C78_untyped_refuted"
   ],
   "note": "Exact correspondence for programs whose types fit and that call components unconditionally. Two counterexamples: a component called under a condition is called always in the rewritten code; ~ on a Python bool. The meaning of the ast_tools passes is taken as stated in FamProgModel.v."
  },
  {
   "property": "C79",
   "status": "partial",
   "theorems": [
    "C79_product_partial",
    "C79_product_value",
    "C79_product_unbound",
    "C79_tuple",
    "C79_tagged_partial",
    "C79_sum",
    "C79_tag",
    "C79_enum",
    "C79_bind",
    "C79_one",
    "C79_nested",
    "C79_full_refuted",
    "C79_adt_refuted",
    "C79_cls"
   ],
   "note": "Fields named cls, default_bv (members also tag_bv) or like a class attribute are excluded; a counterexample is proved. For a member named adt and a word too wide for it the call and from_fields differ. The leaf classes of hwtypes are a parameter that keeps vectors of its own width."
  },
  {
   "property": "C80",
   "status": "partial",
   "theorems": [
    "C80_exact",
    "C80_history",
    "C80_component",
    "C80_same_partial",
    "C80_total",
    "C80_variables",
    "C80_box_exact",
    "C80_black_box",
    "C80_full_refuted",
    "C80_twice_refuted"
   ],
   "note": "SMTFamily and PyXFamily correspond exactly, exceptions included, for every program and valuation. The correspondence with PyFamily has the conditions of C78 (counterexample for a register under a condition). A black box called twice is excluded; a counterexample is proved. Simplifications pysmt makes on terms are taken to keep their value."
  },
  {
   "property": "C81",
   "status": "partial",
   "theorems": [
    "C81_transparent_partial",
    "C81_condition",
    "C81_identity",
    "C81_object",
    "C81_full_refuted"
   ],
   "note": "For hashable initial values, under the condition that a type makes the same value of initial values that are equal as dict keys; this condition is proved necessary and sufficient. An unhashable initial value (a list of bits) raises TypeError although the type accepts it."
  },
  {
   "property": "C82",
   "status": "partial",
   "theorems": [
    "C82_iff_partial",
    "C82_solve_partial",
    "C82_found_partial",
    "C82_machine_partial",
    "C82_mode",
    "C82_uncalled",
    "C82_twice_refuted",
    "C82_full_refuted"
   ],
   "note": "With every black box object called once and the conditions of C69 for the simple formula. A black box called twice can give a wrong rule (refuted): both calls return the same output variables and only the last inputs are kept."
  },
  {
   "property": "C83",
   "status": "proved",
   "theorems": [
    "C83_pe",
    "C83_simple",
    "C83_pure2",
    "C83_pure1",
    "C83_box",
    "C83_box_rule",
    "C83_box_const",
    "C83_small",
    "C83_float",
    "C83_simple_pure2",
    "C83_simple_pure1",
    "C83_simple_box"
   ],
   "note": "The PE of examples/fp_pe and the architecture of test_simple, for the simple formula, any word width and any IR instruction on one or two words whose black boxes are called once."
  },
  {
   "property": "C84",
   "status": "partial",
   "theorems": [
    "C84_pe1",
    "C84_pe2",
    "C84_pe3",
    "C84_pe4",
    "C84_pe5",
    "C84_sub",
    "C84_compare",
    "C84_eq",
    "C84_extends",
    "C84_extends_exact",
    "C84_table",
    "C84_flags",
    "C84_no_carry",
    "C84_full_refuted",
    "C84_pe6",
    "C84_pe6_table",
    "C84_pe6_andnot",
    "C84_alu",
    "C84_alu_width_refuted"
   ],
   "note": "All results and flags proved for all operands. Every PE keeps the results of the one before; with the flag, pe3 keeps pe2 and pe5 keeps pe3, but pe2 shows a flag where pe1 has none and pe4 overwrites the carry of Add, so it cannot compare (counterexamples); the width argument of examples/alu has no effect (counterexample)."
  },
  {
   "property": "C85",
   "status": "proved",
   "theorems": [
    "C85_polynomials",
    "C85_length",
    "C85_longer",
    "C85_differences",
    "C85_test",
    "C85_small"
   ],
   "note": "For all IR instructions over bytes with any number of inputs, both kinds of index variables, both values of use_real and all numbers of instructions. Found means that the formula has a solution; the solver itself is not modelled."
  },
  {
   "property": "C86",
   "status": "proved",
   "theorems": [
    "C86_arch",
    "C86_instr",
    "C86_found",
    "C86_found_simple",
    "C86_found_simple_const",
    "C86_nested_outputs",
    "C86_forms",
    "C86_builds",
    "C86_builds_instr",
    "C86_sum_outputs",
    "C86_function",
    "C86_instr_function",
    "C86_correct",
    "C86_valid"
   ],
   "note": "For all Peak classes whose inputs and outputs are built from bits, bit vectors, enums, products, sums and tagged unions with any modifiers, with the default assembler in any state, and all functions __call__ on the words of the fields. Found means that the formula has a solution; the solver itself is not modelled."
  },
  {
   "property": "C87",
   "status": "proved",
   "theorems": [
    "C87_builds",
    "C87_found",
    "C87_test",
    "C87_small",
    "C87_multi",
    "C87_agree"
   ],
   "note": "For all IR instructions whose inputs are words, Const or not, and which return one word, all functions of these, either formula, either kind of index variables and all assembler histories. Found means that the formula has a solution; the solver itself is not modelled."
  },
  {
   "property": "C88",
   "status": "partial",
   "theorems": [
    "C88_keys",
    "C88_build",
    "C88_values",
    "C88_outputs",
    "C88_apply",
    "C88_verify",
    "C88_verify_none",
    "C88_verify_sorts",
    "C88_solver",
    "C88_rule",
    "C88_found_partial",
    "C88_refused",
    "C88_full_refuted"
   ],
   "note": "For all pairs of classes without black boxes and without sums in the outputs, all rules and all values. The full claim is false: a Const Enum leaf in a field that is not Const as a whole is not covered by the validity condition of the mapper, and RewriteRule refuses the rule found; proved when the Const and constrained Enum leaves are in Const fields. The solver of verify is a hypothesis about one formula, met by trying all values."
  },
  {
   "property": "C89",
   "status": "partial",
   "theorems": [
    "C89_word_partial",
    "C89_conds",
    "C89_collisions",
    "C89_declared",
    "C89_assembled",
    "C89_full_refuted"
   ],
   "note": "The exact word for all instructions and all orders of the Sum members, exactly which instructions share a word, and exactly when the word is the declared one. The full claim is false: encode shifts a field by its bitfield position and again by the sizes of the fields before it, so ra and rb are merged, s and bit 7 of an immediate are merged, and the word is the ARM word for at most three instructions."
  },
  {
   "property": "C90",
   "status": "partial",
   "theorems": [
    "C90_arch_multi",
    "C90_program",
    "C90_agree_partial",
    "C90_agree_free_partial",
    "C90_full_refuted",
    "C90_blind_needed"
   ],
   "note": "For all architectures with one Const field of any type and word inputs and outputs, and all IR instructions over words: a rule of ArchMapper is always a program of Multi with N = 1; conversely when the IR instruction has one output (or its outputs are taken from distinct ones) and the architecture does not look at unused bits of the instruction word. The full claim is false: for two equal outputs Multi takes one output twice (C90_full_refuted), and a class reading padding bits is mapped by Multi only (C90_blind_needed)."
  },
  {
   "property": "C91",
   "status": "partial",
   "theorems": [
    "C91_exact",
    "C91_executions",
    "C91_found_partial",
    "C91_found_free_partial",
    "C91_full_refuted"
   ],
   "note": "For all architectures with one Const field of any type, other inputs of any types and word outputs, all IR classes without Const inputs, and all N: the programs shown are exactly the correct programs with valid instruction words. Multi finds one exactly if assembled instructions do the job, provided the architecture does not look at unused bits of the instruction word; without that the claim is false (C91_full_refuted)."
  },
  {
   "property": "C92",
   "status": "partial",
   "theorems": [
    "C92_access",
    "C92_value",
    "C92_errors",
    "C92_same_paths",
    "C92_assembler2",
    "C92_tag",
    "C92_tag_other",
    "C92_by_class",
    "C92_by_class_refuted",
    "C92_mapping",
    "C92_mapping_enum",
    "C92_mapping_refuted"
   ],
   "note": "Paths, classes, bits, flags and exceptions for all types, words, paths and build histories. Two parts are false: a member of a Sum cannot be named by its assembled class (KeyError, the code for it is never reached), and Sub of an Enum lists keys whose lookup raises TypeError."
  },
  {
   "property": "C93",
   "status": "partial",
   "theorems": [
    "C93_instr",
    "C93_expanded",
    "C93_one_form",
    "C93_history_free",
    "C93_simple",
    "C93_history_free_simple",
    "C93_full_refuted",
    "C93_simple_full_refuted",
    "C93_order_full_refuted"
   ],
   "note": "True for objects whose calls do not depend on earlier calls (both formulas) and for the expanded formula of a class with one input form. In general false: form i is searched on an object that was called i times, the simple formula on one called once per form and once per earlier instruction; what is found is said exactly if the output after n calls depends on n but not on the inputs of those calls."
  },
  {
   "property": "C94",
   "status": "partial",
   "theorems": [
    "C94_shape",
    "C94_call",
    "C94_keeps",
    "C94_terms",
    "C94_arch",
    "C94_instr",
    "C94_correct_partial",
    "C94_history_free",
    "C94_full_refuted"
   ],
   "note": "From source to rule: true if the architecture has one input form or its calls do not depend on earlier ones (so for every source without attributes on components without state). Without this it is false (C94_full_refuted): for a source with two input forms that flips a bit in every call the mapper finds the inverse, which a new object never returns."
  },
  {
   "property": "C95",
   "status": "proved",
   "theorems": [
    "C95_python",
    "C95_words",
    "C95_no_attributes",
    "C95_same",
    "C95_history_free",
    "C95_correct",
    "C95_correct_simple"
   ],
   "note": "For all sources of C78 that set every attribute before they read it (decided by sets_first, which follows both branches of conditionals and return statements) and whose components answer the same in every state. Removes the condition on the number of input forms from C94 and covers the simple formula, for objects in any state."
  },
  {
   "property": "C96",
   "status": "partial",
   "theorems": [
    "C96_bounds",
    "C96_fields",
    "C96_members",
    "C96_enum",
    "C96_parts_partial",
    "C96_reads",
    "C96_wired",
    "C96_wired_asm",
    "C96_only",
    "C96_wirable",
    "C96_full_refuted"
   ],
   "note": "C96_full (every accepted type) is false: a Bit member of a Sum cannot be assembled (C96_full_refuted). Proved for all other types; positions and reading (C96_bounds, C96_reads) hold for all types. Wiring covers instructions that are a Product of words and Enums; what magma accepts is assumed."
  },
  {
   "property": "C97",
   "status": "partial",
   "theorems": [
    "C97_refl",
    "C97_ne_partial",
    "C97_ne_self",
    "C97_ne_shape",
    "C97_sym",
    "C97_words",
    "C97_hash",
    "C97_value",
    "C97_trans_refuted",
    "C97_class_eq",
    "C97_class_ne",
    "C97_class_ne_always",
    "C97_class_trans_refuted",
    "C97_flip",
    "C97_full_refuted"
   ],
   "note": "Proved for every comparison with an instance, and for classes compared with anything but an assembled class of the same kind. C97_full is false: != between two assembled classes is ~ of a Python bool, so it is true even for a class and itself (C97_class_ne_always, C97_full_refuted). How hwtypes vectors compare themselves with an instance is assumed (word_ok)."
  },
  {
   "property": "C98",
   "status": "proved",
   "theorems": [
    "C98_mro",
    "C98_assemble",
    "C98_others",
    "C98_untyped",
    "C98_twice",
    "C98_magmafy",
    "C98_modifiers",
    "C98_get_adt",
    "C98_get_adt_kind",
    "C98_get_adt_py",
    "C98_kinds"
   ],
   "note": "For PyFamily, PyXFamily, SMTFamily and user subclasses without an assemble of their own. What the ast_tools passes do to a body is a parameter (their meaning is in C78, C80); what magma does with the annotations is not modelled."
  },
  {
   "property": "C99",
   "status": "partial",
   "theorems": [
    "C99_run_partial",
    "C99_shape",
    "C99_local_refuted",
    "C99_shadow_refuted",
    "C99_parameter_refuted",
    "C99_nested_refuted",
    "C99_full_refuted"
   ],
   "note": "Proved for functions whose names and attributes are as [fine] says. Missing: the rest, where the full statement is false: names of an enclosing function are not seen by the new function, classes are looked up in the module before the enclosing function (the arguments of eval are swapped), parameters may be taken for classes, and members inside an expression whose attribute is taken are not replaced."
  },
  {
   "property": "C100",
   "status": "partial",
   "theorems": [
    "C100_rule",
    "C100_rule1",
    "C100_solve_partial",
    "C100_solve1_partial",
    "C100_found",
    "C100_binary_only",
    "C100_unary_only",
    "C100_binary",
    "C100_unary",
    "C100_small_ir",
    "C100_no_subi",
    "C100_rename",
    "C100_alias_refuted",
    "C100_pc_refuted",
    "C100_full_refuted"
   ],
   "note": "Exact for functions of one and two words, with any constraints on instruction fields. Three counterexamples to the full statement: the instruction of a rule may be an immediate subtraction, which the simulator rejects; it may name one register for both operands; and an operand may be bound to the pc, because the pc is a plain word in these examples. A constraint on the tag excludes the first, renaming the registers repairs the second. Division is a parameter, assumed to give words."
  }
 ]
}