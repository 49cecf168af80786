# Formal model of peak in Rocq 8.16.1

## Method

The Python sources in /repo were read as text. Nothing was run.
Each modelled function is a total, computable Gallina function.
Exceptions are values of an error type. Unbounded loops are structural recursion,
or recursion on fuel whose exhaustion is a separate, visible result.
Process-wide state (caches, registers, memories) is passed explicitly, so "in every history"
is a quantifier over operation lists.

Each model file contains definitions only, with a comment citing file and lines in /repo.
Files are flat in rocq/theories: `XModel.v` (definitions), `XSpec.v` (what is expected, without
the model's helpers; small specifications are in the Props file), `XProofs.v` (lemmas) and
`XProps.v` (property theorems, a concrete case for every theorem's hypotheses, and
`Print Assumptions`).

Only part of a property being provable, the full statement is a definition `Cxx_full`,
the theorem is called `Cxx_..._partial` and its comment says what is missing; when the full
statement is false there is a theorem `Cxx_full_refuted : ~ Cxx_full`.

When the faithful model violates the natural statement of a property, the violation is
proved as a theorem `..._refuted` with a concrete witness, and the strongest true version
is proved beside it.

## Trusted base

* Coq 8.16.1 kernel (including its `vm_compute` machine).
* `Print Assumptions` of every property theorem is printed during the build. See the section
  "Assumptions" at the end.
* The reading of the Python code recorded in the model files.
* The behaviour of libraries that are not in /repo. They are not installed here, so it is recalled
  from their documentation, and each use is named below:
  * hwtypes: `BitVector[w]` arithmetic is modulo 2^w, integers in comparisons are truncated
    to w bits, `x.concat(y)` puts x in the low bits (this is what `tad` in
    examples/pdp8/sim.py and `_create_from_layout` rely on), `bv[a:b]` is bits a..b-1,
    shifts use the whole shift amount, `Word(b)` of a bit is 0 or 1, Enum members compare by value, `field_dict` order is declaration order for Product,
    `Sum` fields are an unordered set; `adc` is the sum one bit wider, `overflow` the usual
    formula on the three sign bits, SIntVector compares and shifts right signed.
  * pysmt: `solve` is sound and complete, `get_value` of a variable that occurs in no assertion
    may be any value of its sort, `substitute` replaces free variables simultaneously.
  * ast_tools passes (ssa, if_to_phi, bool_to_bit) and magma are not modelled.
  * CPython: dict keeps insertion order, `sorted` is stable, reflected `__eq__` of a subclass
    instance is tried first, `a & b == c` parses as `(a & b) == c`.

## What is modelled, and how each property is handled

| Id | Model | Proof plan |
|----|-------|-----------|
| C01-C03 | `AsmModel.v`: types, values, `_enum`, `_tuple`, `_sum`, `_field`, both caches | induction on types; validators accept all their opcodes at any width where they fit |
| C04-C06 | same, `_gen_is_valid` branch by branch; accepted words in `AsmAccept.v` | exactness lemma per branch; refutations for the multi-range branch and for the cache key |
| C07-C09 | same, `Sub` | bit-level layout relation `encodes` as specification |
| C10 | same | uniqueness of sorting with distinct keys |
| C11 | `_enum` loop | loop invariant against a declarative "least unused" spec |
| C12-C15 | `AadtModel.v`: `_create_from_layout`, `from_fields`, `_get`, `__eq__` | slots list concatenation equals shift/or |
| C16-C17 | `Asm2Model.v`: assembler2 | simulation with C01 model |
| C75 | `Asm2ValidModel.v`: assembler2 `is_valid`, its own caches | as C04, C05; fewer opcode sets |
| C18 | `AutoModel.v` | induction on types |
| C19 | `BitfieldModel.v` | induction on types; refutation for sparse enums |
| C20-C22 | `RegModel.v`: register, memory, attribute protocol | refinement to maps over operation lists |
| C23-C24 | `FamModel.v` | cache invariant over call lists; refutations with subclass families |
| C25-C26 | `BBModel.v` | state machines; object graph as a ranked heap |
| C27-C28 | `IRModel.v` | registry state machine; name resolution of the generated source |
| C29-C30, C45 | `MapIdxModel.v` | arithmetic / structural induction; C45 exact contents and refutation |
| C31 | `BindModel.v` | soundness, completeness, NoDup of the enumeration |
| C32-C33 | `FormModel.v`: `SMTForms`, `SimplifyBinding` | one invariant about forms, variables and the value term, induction on types; covering sets of parts |
| C34 | `BBFormModel.v` | Ackermann reduction, both directions |
| C35-C37 | `CegisModel.v` | loop invariant with solver as a contract-constrained oracle |
| C38-C42 | `MapModel.v` | formula as predicate over valuations, architecture and instruction as functions; rule extraction from any model |
| C69 | `MapModel.v` | a solution is repaired to allowed values of constrained inputs; with C40 both directions; for Const inputs in the simple formula the variables chosen by the binding (`MapConst.v`) |
| C70, C71 | `SmallPeModel.v`: tagged_pe, sum_pe, smallir | C69 for this architecture; rules reduced to one instruction and a choice of inputs, finitely many fields excluded by evaluation |
| C76 | `RegPeModel.v`: the register-file PE and its wrapper | `MapDirect.v`: rules as instruction plus placement of inputs, for any architecture whose constants are one instruction; then case analysis on the instruction |
| C77 | `RiscvMapModel.v`: R32I_mappable of examples/riscv | as C76; value of an instruction as a function on integers, functions of one word listed by an inductive predicate |
| C78 | `FamProgModel.v`: a source language for `__call__`, its meaning in PyFamily and after the rewriting of PyXFamily | typing judgement as a computable check; simulation between ADT values and their encodings, by induction on the program; components by contract, classes shown to satisfy it |
| C79 | `AadtCallModel.v`: `from_fields` with its argument binding, the constructor and the fallback between them | binding characterised by positional prefix and permutation of the keywords; conversion of an argument by induction on one-field classes; widths and depths show that the constructor does not take a field for the whole |
| C80 | `FamSmtModel.v`: the rewritten source of a Peak class run on SMT terms, assembled ADTs over terms, black boxes | evaluation of terms commutes with every operation, by induction on the program; black boxes by counting the calls in the text |
| C81 | `RegGenModel.v`: `gen_register`, `gen_attr_register`, their caches, classes and objects of a process | simulation with a world that makes a fresh class per request; necessity of the condition by a four-step program |
| C82 | `MapBBModel.v`: the simple formula with black boxes, on top of `MapModel.v` (C69) and `BBFormModel.v` (C34) | a solution for all output variables is a solution for all functions (C34 at each valuation), then C69 for each function; the rule is the same because it is read off the index variables |
| C83 | `FpPeModel.v`: the PE of examples/fp_pe and the architecture of test_simple as problems of `MapBBModel.v` (C82) | both are machines with one result, so C82 gives a rule exactly if an instruction computes the IR instruction; constant functions of the boxes separate the ALU from the FPU, and a function that is 1 on one class separates the classes |
| C84 | `DemoPeModel.v`: `__call__` of examples/demo_pes/pe1 to pe6 and examples/alu in PyFamily | arithmetic on words; operations a PE does not have are refuted for each of its finitely many instructions by one of ten operand pairs |
| C85 | `MultiBasicModel.v`: the architecture of tests/test_basic_rr.py in the SMT family, IR instructions over bytes; on top of `MultiModel.v` | C60 turns solutions into programs of four kinds of instructions, whose results are polynomials; conversely code for a polynomial; differences of polynomials for the bitwise operations; the lower bounds of three by enumerating two instructions |
| C86 | `AdtArchModel.v`: types with modifiers, the flat paths, the input and output objects made of assembled words, the forms of both, validity of Const fields, the nested outputs of the simple formula; on top of `FormModel.v`, `AadtModel.v` and `MapModel.v` | the invariant of C32 and C33 for both objects gives `arch_ok` and `instr_ok`, after which C69 applies; then words of fields against values by the assembler theorems (C01-C05) |
| C87 | `BasicMapModel.v`: the class `Arch` of test_basic_rr with its modifiers and assemblers, instructions of words, the instructions of the test and of smallir; on top of `AdtArchModel.v` and `MultiBasicModel.v` | the assembled instruction has one shape, so the forms, words, outputs and validity are computed symbolically; C86 turns the formulas into placements, which are then counted and, by varying unbound operands, identified |
| C88 | `RuleAppModel.v`: `RewriteRule.__init__`, `get_input_paths`, `build_inputs`, `parse_ir_output`, `parse_arch_output`, `verify` on assembled words; on top of `AdtArchModel.v` (classes) and `FormModel.v` (`SimplifyBinding`) | simplifying a full binding of the leaves of a value assembles this value (induction on types); the leaf words of a form whose word encodes a value encode the leaves of the value; the word built is the word of the form, so what the rule does is what C38/C86 say of it |
| C89 | `ArmWordModel.v`: the classes of `examples/arm/isa.py` as `BitfieldModel.bty`, the instructions as values, `encode`; on top of `ArmModel.v` (assembler) | the word as a sum of powers of two times fields, by splitting disjoint ors; collisions by reading off digits |
| C90 | `MultiClassModel.v`: `parse_peak_fc`, `run_peak` and the validity condition of multi.py:40-81, 149-159, 227-248 on assembled words; on top of `AdtArchModel.v` (classes) and `MultiModel.v` | both mappers are turned into statements about calls of the class by C86 and C60; the leaves of a form give the words of a call and conversely, field by field; the word of the Const field is taken apart into the values of a form by C03/C86 |
| C91 | `MultiClassModel.v` and `MultiModel.v` as for C90 | executions are stated as lists of calls of the class; a run of C60 is turned into an execution and conversely by induction on the instruction; words of the Const field by C04; replacing a word by the assembled word of the same instruction keeps every call |
| C92 | `AadtPathModel.v`: access on classes and instances, `Sub` as a Mapping | induction on the path; slices of slices; flags by the ranks of the members |
| C93 | `StateMapModel.v`: the object of `SMTMapper` along its calls | the view with the function after n calls satisfies the interface of C69 form by form; congruence of the built formula |
| C94 | `SrcMapModel.v`: a source program as the class the mapper sees; on top of `FamProgModel.v` (sources), `StateMapModel.v` (objects) and `AdtArchModel.v` | C93 turns the formula into a statement about a new object, C86 into one about words, C78 carries it to the values of the Python run; encodings are injective |
| C95 | no new model; `SetFirstProps.v` on top of `FamProgModel.v` and `SrcMapModel.v` | two runs agree on the attributes surely set so far, by induction on the source; with C93 and C94 this gives the rule for objects in any state |
| C96 | `AutoLayModel.v`: layouts of auto_assembler.py, wiring of rtl_utils.py | induction on paths, slices of slices; C18 for the parts, `enc_fields_nth` for the Assembler |
| C97 | `AadtCmpModel.v`: comparison and hashing in assembled_adt.py | shape of the result of `==`, case analysis; C15 for values |
| C98 | `FamDecoModel.v`: `assemble` of the family classes as a chain along the C3 order, `magmafy`, `get_adt_t` | the decorated heap given explicitly; induction on tuples |
| C99 | `AsmFuncModel.v`: expressions, scopes, `visit_Attribute` | `fine`: which names and attributes are rewritten right; induction on expressions; counterexamples for the rest |
| C100 | `RiscvMapXModel.v`: the forms, leaves and wrapper of riscv_m and riscv_ext, core as a parameter | as C77, with three inputs and two outputs a word can be bound to; the four shapes of an output classify the functions |
| C72 | `OldMapModel.v`: oldmapper.py | permutations, bindings reduced to those of C31 up to order, events of the generator |
| C43 | `VerModel.v` | solver contract; C34 for one valuation; rules of C38 verify |
| C44, C59 | `SerModel.v` | explicit JSON type; constructor checks |
| C46, C60 | `MultiModel.v`: `create_bindings`, `Multi`, `RR` | as C31; formula as predicate over valuations, programs run instruction by instruction |
| C47 | `StateModel.v`: calls of Peak objects by the mappers | state after every call sequence; refutation for a register |
| C48-C50, C52, C53 | `BvModel.v`, `RiscvModel.v`: the three RISC-V examples | 32-bit words as Z modulo 2^32; specification on integers in `RiscvSpec.v` |
| C51, C61 | `RiscvAsmModel.v`: helpers, namespaces | operands as a partial map; namespace state over histories |
| C54, C55, C62-C64 | `PeModel.v`: pe1, pe, PE_lut | 16-bit words as Z; comparisons and flags on integers; register histories |
| C56, C65, C66 | `PicoModel.v`: the Pico simulator and its testing interface | step specification on integers; runs of any length |
| C73 | `PicoWordModel.v`: Pico classes under `encode`; the order of Sum members is arbitrary | documented words; equality of words characterised |
| C74 | `ArmModel.v`: examples/arm/asm.py | rotation bit by bit; the representable words are enumerated completely |
| C57, C67, C68 | `Pdp8Model.v`: the PDP-8 simulator, testing interface and assembler | step specification on integers, runs of any length, the test programs for all operands, meaning of each mnemonic |
| C58 | `FloatModel.v`: the floating point library in the Python family | hwtypes' vectors and the attributes RDN, RUP of its RoundingMode are parameters; exact library contents |

Not modelled: magma hardware generation, the ast_tools passes (C78 states the meaning they are taken to have: both branches
evaluated, variables, attributes and returned values selected by `Bit.ite`, `and`/`or`/`not` on Bits), logging, pretty printing,
random vectors (they are an arbitrary list in the model), z3 itself.

## Weakenings, and why

* Signed fields (C01, C03-C07, C12, C13, C15, C16). `Assembler` ors the value of a negative
  signed field, which sets every higher bit. Theorems about words made by `assemble` exclude
  negative signed fields; a counterexample is proved for each. `AsmSignedProps.v` states what
  happens to the excluded values: the exact word, which values survive a round trip, which collide.
* Caches (C04-C06, C75). The cache key of the assembler lets one type's validator be used for another;
  theorems quantify over every build history and name the condition, counterexamples are proved.
* Zero-width fields and one-member sums (C12, C17). `from_fields` raises there.
* C18: a Bit as Sum member. C19: Enum values too large, equal tags, nested shifts.
* C21: negative addresses. C22: dunder names. C23, C24: PyFamily compared with its subclasses.
  C25: keyword order. C26: assignment after the first query.
* C38, C39, C41: constrained inputs that are not Const are not variables of the formula, so their
  value in the rule is arbitrary. C39, C42: a constant also bound to an IR input elsewhere is
  replaced in the formula but not when the rule is read. C40: architectures without Const inputs,
  and the simple formula with Const inputs of the instruction.
* C69: as C40, and in the simple formula constraints on an input of some forms only: a forbidden value of a
  form without bindings makes the formula true. C70: what `~` does to the result of `match` is a parameter.
* C76: a rule may name one register for two operands. The enum codes, tags and the bits read from the member that does
  not match are parameters.
* C77: SUBI is a rule the simulator rejects; one register for two operands. Parameters as for C76; riscv_m and riscv_ext
  (pc a plain word, so IR words may be bound to it) are in C100.
* C78: components called under a condition (the rewritten code calls them always), programs whose types do not fit, among
  them `~` on a Python bool. Whether hwtypes' `match` and `==` give a bool or a Bit is a parameter; the theorems hold for both.
* C79: fields named `cls` or `default_bv`, members also `tag_bv`, and attributes of the class (a parameter): these names are taken, and
  `RESERVED_NAMES` is checked nowhere. Leaf classes are a parameter, assumed to keep a vector of their own width. Words too wide for
  a leaf (hwtypes truncates them) are outside, with a counterexample. `from_fields` of Enums is not modelled.
* C80: against PyFamily the conditions of C78; a black box that is called twice (it answers with the same outputs and records the last
  inputs only). pysmt's simplification of terms is taken to keep values.
* C81: unhashable initial values. That types treat initial values equal as dict keys alike (1 and True, say) is a condition, shown to be
  exactly what is needed.
* C82: black box objects that are called more than once (refuted), and what C69 leaves open for the simple formula.
* C83: the IEEE arithmetic of the boxes (they are arbitrary functions, as the mapper treats them); rounding modes only through the class of a box.
* C84: families other than PyFamily (pe1 to pe5 raise in their last branch, which the rewriting does not take; the instruction of pe6 is no Const, so the mapper rejects it, C40).
* C85: the solver (found means the formula has a solution), and IR instructions with inputs other than one byte each.
* C86: the solver; classes with state; the conversion of `__call__` to an SMT term (it is a function from words to words); the `strip_modifiers`, `unwrap_modifier` and `wrap_modifier` of hwtypes (assumed).
* C87: the solver; path constraints on this architecture; instructions with outputs or inputs other than words; the conversion of `__call__` to SMT terms.
* C88: black boxes (see C43), sums in outputs, conversion of constants that are not words of the leaf (see C44), which exception words of different sorts raise (that comparing them raises is assumed of hwtypes, and C88_verify_sorts rests on it); the solver of `verify` is a parameter assumed to decide the one formula given to it, and the formula is a function of the variables.
* C89: `encode(reverse=True)`; the order of the members of a Sum is a parameter (hwtypes keeps them in a frozenset); Enum members with equal values are one, and members have no names, so which condition has which value is not stated (C89_conds gives the set of values).
* C90: black boxes, path constraints and IR instructions with Const inputs (Multi refuses them, see C46), data fields that are not Bits or bit vectors.
* C91: as C90, but the data fields of the architecture may have any types; the outputs are Bits and bit vectors.
* C92: the syntax that does not fit a type (attributes of Tuples, items of Products), names hwtypes itself gives a class, tuples as keys of an instance. The hash of an assembled class is taken to differ from that of its type. Unsigned vectors.
* C93: the state is that of one evaluation of the terms: calls are on the words of the input objects under a valuation (C80). Input objects of earlier simple formulas are arbitrary words, one list for all valuations. What is found when the output depends on the inputs of earlier calls is not characterised (then a form is no function of its own leaves). Objects that raise in a call are not covered.
* C94: the limits of C78, C80, C86 and C93 together. Only the expanded formula; outputs without Sum types; one name per input and output. Python calls that raise are outside the statement (both sources must return). A call on words that raises is modelled as returning no outputs; C94_call shows that it does not happen for sources whose types fit.
* C95: the limits of C78, C86 and C94, except its condition on input forms. `sets_first` is a condition on sources, not code of /repo. Components must answer the same in every state, so sources that read a register component are not covered.
* C96: of wrap_with_disassembler only `wire_inst_fields` (14-31) is modelled, as the values that the field ports are driven with; the other ports, circuit construction and magma's type checks are not. That Enums are bits and Products are not is assumed.
* C97: Python's order of asking comparison methods is modelled; the methods of hwtypes vectors are a parameter (`word_ok`), those of ADT values are assumed not to take instances, and hwtypes metaclasses are assumed not to define `__eq__`. Bound classes are cached, so a class is its index.
* C98: functions are bodies with the two type attributes, classes their resolution order and own call. That `apply_passes` returns a new function without these attributes is assumed (family.py:307-313 relies on it). `typecheck=True` and magma's part of MagmaFamily.assemble are not modelled.
* C99: a function body is one expression (names, numbers, attributes and any other node with its children); statements, assignments and the file written by `exec_in_file` are not modelled. That the other nodes do on codes what they do on members is a hypothesis about the values the function meets.
* C100: as C77, and an operand may be bound to the pc or the result to the next pc. Signed and unsigned division and remainder are parameters assumed to give words (`C100_small_ir` also assumes them right on 2 and 1). The theorems hold for every core of C50; for the base core they describe a wrapper with a plain pc, which the repository does not have (its wrapper is C77).
* C73: shifts of nested fields add up, so words have up to 51 bits and registers overlap. C74: `_imm` keeps four bits, `data` swaps
  immediate and rotation.
* C72: the attributes gen_mapping reads are set by no class; inputs missing in the input map, repeated mappings.
* C43: rules without a bound output; boxes called twice. C44: paths holding classes do not survive JSON.
  C59: `isinstance(T, Const)` is never true.
* C32, C33: types with an empty product, a one-member Sum or a zero-width part next to others
  (`buildable` excludes exactly these). C32 with a value: tagged unions.
* C60: black boxes in the IR are chosen by the solver; those in the architecture stop `Multi` with an
  error (line 144).
* C47: the mapper calls one object for all forms and formulas; fresh outputs exactly for objects whose
  outputs do not change.
* C48: registers never written (KeyError) and register shifts by 32 or more. C50: OP_IMM with tag SUB.
  C51: multiply/divide and extension instructions. C61: histories that load the extension.
  Division of riscv_m is a parameter (any functions returning words).
* C63: the truth value of an Enum member (`if signed:`) is a parameter. Unsigned instructions are right
  when it is false for `unsigned`; Python's default is true, and then they run signed.
  C56: V after sub and sbc. C65: LD. C66: `peak_flag('V')`, `poke_flag`, `poke_pc`.
  C57: see `supported` in `Pdp8Props.v`. C67: comparison with 0. C68: GLK, SZL, SNL.
  C58: RMM, and RDN and RUP unless hwtypes has these names; fused multiply-add with a fixed mode.
  C64: conditions that use C or V, and numbers of inputs other than two.
* C34: a black box called more than once in an evaluation. C45: counts outside the stated range.

Smaller parts left out of modelled functions: class attributes as register or black-box holders, closures that call themselves while running,
invalid identifiers in generated source.

Assumptions used by single models: dictionary lookup compares hashes first, identity before `==`;
the hash of a PyXFamily is not 0 (C23).

## Assumptions

Every property theorem prints "Closed under the global context". Files that load mathcomp-style
`ssreflect` through the standard library bring the standard library's own
`Coq.ssr.ssrunder.Under_rel` parameters into scope; no theorem depends on them.
No axiom, `Variable` outside a section, or `Admitted` is used.
