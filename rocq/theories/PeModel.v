(** The processing elements of examples/pe1, examples/pe and examples/PE_lut.
    Definitions only.

    A Bit is a [bool], a Data word an integer of 16 bits (or of [w] bits for
    PE_lut). hwtypes is not in /repo: its operations are those of BvModel. *)
From Coq Require Import ZArith List Bool.
From Verif Require Import Base BvModel.
Import ListNotations.
Open Scope Z_scope.

(** ** Registers with modes *)

(** peak/family.py:183-192 (Register.__call__ with an enable, Python family):
    the old value is returned, the new one is written if [en]. The first
    component is the result, the second the new content. *)
Definition reg_call {T} (v value : T) (en : bool) : T * T :=
  (v, if en then value else v).

(** examples/pe1/mode.py:8-12 and examples/pe/mode.py:8-12 (Mode). *)
Inductive mode := CONST | VALID | BYPASS | DELAY.

(** examples/pe1/mode.py:25-37, examples/pe/mode.py:25-37
    (RegisterMode.__call__). A mode outside the Enum cannot be written, so the
    last branch is absent. *)
Definition mode_call {T} (v : T) (m : mode) (const value : T) (clk_en : bool) : T * T :=
  match m with
  | CONST => let '(_, v') := reg_call v value false in (const, v')
  | BYPASS => let '(_, v') := reg_call v value false in (value, v')
  | DELAY => reg_call v value true
  | VALID => reg_call v value clk_en
  end.

(** A sequence of calls on one RegisterMode object: the results and the final
    content. *)
Fixpoint mode_run {T} (v : T) (calls : list (mode * T * T * bool)) : list T * T :=
  match calls with
  | [] => ([], v)
  | (m, c, x, en) :: tl =>
      let '(r, v') := mode_call v m c x en in
      let '(rs, v'') := mode_run v' tl in (r :: rs, v'')
  end.

(** ** The lookup table *)

(** examples/pe1/lut.py:8-11, examples/pe/lut.py:6-9,
    examples/PE_lut/sim.py:14-17. [IDX_t([bit0, bit1, bit2])] puts bit0 lowest;
    [zext(5)] to 8 bits; [((lut >> i) & 1)[0]]. *)
Definition lut_idx (b0 b1 b2 : bool) : Z := b2z b0 + 2 * b2z b1 + 4 * b2z b2.
Definition lut (tbl : Z) (b0 b1 b2 : bool) : bool :=
  bvbit (Z.land (bvlshr 8 tbl (bvzext 3 5 (lut_idx b0 b1 b2))) 1) 0.

(** ** Condition codes *)

(** examples/pe1/cond.py:7-27, examples/pe/cond.py:4-24 (Cond): the members
    with equal values are the same member. *)
Inductive ccode :=
  cZ | cZ_n | cC | cC_n | cN | cN_n | cV | cV_n
| cUGT | cULE | cSGE | cSLT | cSGT | cSLE | cLUT | cALU.
Definition cEQ := cZ.
Definition cNE := cZ_n.
Definition cUGE := cC.
Definition cULT := cC_n.

(** What [cond] returns: a Bit, or for [Cond.ALU] the 16-bit word it is given
    as [alu]. *)
Inductive pout := PBit (b : bool) | PData (z : Z).

(** examples/pe1/cond.py:35-68, examples/pe/cond.py:26-59 (cond). The second
    file writes [not x] for [~x]; on Bits the truth value is the same. *)
Definition cond (code : ccode) (alu : Z) (lutr Zf Nf Cf Vf : bool) : pout :=
  match code with
  | cZ => PBit Zf
  | cZ_n => PBit (negb Zf)
  | cC => PBit Cf
  | cC_n => PBit (negb Cf)
  | cN => PBit Nf
  | cN_n => PBit (negb Nf)
  | cV => PBit Vf
  | cV_n => PBit (negb Vf)
  | cUGT => PBit (if Cf then negb Zf else Cf)
  | cULE => PBit (if negb Cf then negb Cf else Zf)
  | cSGE => PBit (Bool.eqb Nf Vf)
  | cSLT => PBit (negb (Bool.eqb Nf Vf))
  | cSGT => PBit (if negb Zf then Bool.eqb Nf Vf else negb Zf)
  | cSLE => PBit (if Zf then Zf else negb (Bool.eqb Nf Vf))
  | cALU => PData alu
  | cLUT => PBit lutr
  end.

(** ** The ALU of pe1 *)

(** examples/pe1/isa.py:28-42 (ALU). *)
Inductive aluop :=
  Add | Sub | Abs | GTE_Max | LTE_Min | Sel | Mult0 | Mult1 | Mult2
| SHR | SHL | Or | And | XOr.

(** examples/pe1/isa.py:45-47 (Signed). *)
Inductive signedness := Unsigned | Signed.

(** [a >= b], [a <= b] on BitVector (unsigned) or SIntVector (signed). *)
Definition geb (s : bool) (a b : Z) : bool := if s then bvsle 16 b a else bvule b a.
Definition leb (s : bool) (a b : Z) : bool := if s then bvsle 16 a b else bvule a b.

(** [a >> n]: SIntVector shifts arithmetically. *)
Definition shr (s : bool) (a n : Z) : Z := if s then bvashr 16 a n else bvlshr 16 a n.

(** examples/pe1/sim.py:29-94 (alu). [s] is the truth value of the [signed]
    argument, see [pe1_call]. Result: res, res_p, Z, N, C, V. The branch for
    [ALU.Neg] (lines 83-87) and the final raise are unreachable: every member of
    the Enum is handled before. *)
Definition alu (op : aluop) (s : bool) (a b : Z) (d : bool)
  : Z * bool * bool * bool * bool * bool :=
  let '(mula, mulb) :=
    if s then (bvsext 16 16 a, bvsext 16 16 b) else (bvzext 16 16 a, bvzext 16 16 b) in
  let mul := bvmul 32 mula mulb in
  let '(res, res_p, C, V) :=
    match op with
    | Add => let '(res, C) := adc 16 a b false in (res, C, C, overflow 16 a b res)
    | Sub =>
        let b_not := bvnot 16 b in
        let '(res, C) := adc 16 a b_not true in (res, C, C, overflow 16 a b_not res)
    | Mult0 => (slice mul 0 16, false, false, false)
    | Mult1 => (slice mul 8 24, false, false, false)
    | Mult2 => (slice mul 16 32, false, false, false)
    | GTE_Max => (if geb s a b then a else b, geb s a b, false, false)
    | LTE_Min => (if leb s a b then a else b, geb s a b, false, false)
    | Abs => (if geb s a 0 then a else bvneg 16 a, bvbit a 15, false, false)
    | Sel => (if d then a else b, false, false, false)
    | And => (Z.land a b, false, false, false)
    | Or => (Z.lor a b, false, false, false)
    | XOr => (Z.lxor a b, false, false, false)
    | SHR => (shr s a (slice b 0 4), false, false, false)
    | SHL => (bvshl 16 a (slice b 0 4), false, false, false)
    end in
  (res, res_p, res =? 0, bvbit res 15, C, V).

(** ** The PE of pe1 *)

(** examples/pe1/isa.py:52-66 (Inst). *)
Record inst := Inst {
  i_alu : aluop; i_signed : signedness; i_lut : Z; i_cond : ccode;
  i_rega : mode; i_data0 : Z; i_regb : mode; i_data1 : Z;
  i_regd : mode; i_bit0 : bool; i_rege : mode; i_bit1 : bool;
  i_regf : mode; i_bit2 : bool }.

(** examples/pe1/sim.py:98-110 (PE.__init__): the contents of the five
    registers, all created with init 0. *)
Record pe1 := Pe1 { rega : Z; regb : Z; regd : bool; rege : bool; regf : bool }.
Definition pe1_init : pe1 := Pe1 0 0 false false false.

(** The arguments of one call. *)
Record args := Args {
  a_data0 : Z; a_data1 : Z; a_bit0 : bool; a_bit1 : bool; a_bit2 : bool; a_clk_en : bool }.

Section Truth.
  (** The truth value Python gives a member of the Enum [Signed] in
      [if signed:] (examples/pe1/sim.py:31,84). It is decided by hwtypes, which is
      not in /repo: an Enum without [__bool__] is always true. *)
  Variable truthy : signedness -> bool.

  (** examples/pe1/sim.py:112-140 (PE.__call__): alu_res, res_p, irq and the new
      registers. *)
  Definition pe1_call (p : pe1) (i : inst) (x : args) : Z * pout * bool * pe1 :=
    let en := a_clk_en x in
    let '(ra, rega') := mode_call (rega p) (i_rega i) (i_data0 i) (a_data0 x) en in
    let '(rb, regb') := mode_call (regb p) (i_regb i) (i_data1 i) (a_data1 x) en in
    let '(rd, regd') := mode_call (regd p) (i_regd i) (i_bit0 i) (a_bit0 x) en in
    let '(re, rege') := mode_call (rege p) (i_rege i) (i_bit1 i) (a_bit1 x) en in
    let '(rf, regf') := mode_call (regf p) (i_regf i) (i_bit2 i) (a_bit2 x) en in
    let '(alu_res, alu_res_p, Zf, Nf, Cf, Vf) :=
      alu (i_alu i) (truthy (i_signed i)) ra rb rd in
    let lut_res := lut (i_lut i) rd re rf in
    let res_p := cond (i_cond i) alu_res lut_res Zf Nf Cf Vf in
    (alu_res, res_p, false, Pe1 rega' regb' regd' rege' regf').

  (** A program: a sequence of calls on one PE. *)
  Fixpoint pe1_run (p : pe1) (prog : list (inst * args)) : list (Z * pout * bool) * pe1 :=
    match prog with
    | [] => ([], p)
    | (i, x) :: tl =>
        let '(r, q, irq, p') := pe1_call p i x in
        let '(rs, p'') := pe1_run p' tl in ((r, q, irq) :: rs, p'')
    end.
End Truth.

(** examples/pe1/asm.py:11-24 (inst) with the registers bypassed, and the
    comparison helpers, lines 93-121. *)
Definition asm_inst (op : aluop) (s : signedness) (c : ccode) : inst :=
  Inst op s 0 c BYPASS 0 BYPASS 0 BYPASS false BYPASS false BYPASS false.
Definition asm_eq := asm_inst Sub Unsigned cZ.
Definition asm_ne := asm_inst Sub Unsigned cZ_n.
Definition asm_ult := asm_inst Sub Unsigned cULT.
Definition asm_ule := asm_inst Sub Unsigned cULE.
Definition asm_ugt := asm_inst Sub Unsigned cUGT.
Definition asm_uge := asm_inst Sub Unsigned cUGE.
Definition asm_slt := asm_inst Sub Unsigned cSLT.
Definition asm_sle := asm_inst Sub Unsigned cSLE.
Definition asm_sgt := asm_inst Sub Unsigned cSGT.
Definition asm_sge := asm_inst Sub Unsigned cSGE.

(** examples/pe1/asm.py:28-91, the helpers for the ALU operations. *)
Definition asm_add := asm_inst Add Unsigned cZ.
Definition asm_sub := asm_inst Sub Unsigned cZ.
Definition asm_neg := asm_inst Sub Unsigned cZ.
Definition asm_umult0 := asm_inst Mult0 Unsigned cZ.
Definition asm_umult1 := asm_inst Mult1 Unsigned cZ.
Definition asm_umult2 := asm_inst Mult2 Unsigned cZ.
Definition asm_smult0 := asm_inst Mult0 Signed cZ.
Definition asm_smult1 := asm_inst Mult1 Signed cZ.
Definition asm_smult2 := asm_inst Mult2 Signed cZ.
Definition asm_and := asm_inst And Unsigned cZ.
Definition asm_or := asm_inst Or Unsigned cZ.
Definition asm_xor := asm_inst XOr Unsigned cZ.
Definition asm_lsl := asm_inst SHL Unsigned cZ.
Definition asm_lsr := asm_inst SHR Unsigned cZ.
Definition asm_asr := asm_inst SHR Signed cZ.
Definition asm_sel := asm_inst Sel Unsigned cZ.
Definition asm_abs := asm_inst Abs Signed cZ.
Definition asm_umin := asm_inst LTE_Min Unsigned cZ.
Definition asm_umax := asm_inst GTE_Max Unsigned cZ.
Definition asm_smin := asm_inst LTE_Min Signed cZ.
Definition asm_smax := asm_inst GTE_Max Signed cZ.

(** ** The PE of examples/pe *)

(** examples/pe/isa.py:38-62: the members of the Sum ALU. *)
Inductive gop := GAdd | GSub | GAnd | GOr | GXOr.

(** [eval] of the five classes (examples/pe/isa.py:38-60): res, res_p, C, V.
    [eval] takes exactly two words and the bit. *)
Definition geval (op : gop) (xs : list Z) (bit : bool) : res (Z * bool * bool * bool) :=
  match xs with
  | [a; b] =>
      Ok (match op with
          | GAdd => bvadd 16 a b
          | GSub => bvsub 16 a b
          | GAnd => Z.land a b
          | GOr => Z.lor a b
          | GXOr => Z.lxor a b
          end, false, false, false)
  | _ => Err TypeError
  end.

(** examples/pe/isa.py:25-36,64-67 (LUT, _ALU, Inst): the two Tuples of
    [NUM_INPUTS = 2] entries are pairs. *)
Record ginst := GInst {
  g_op : gop; g_modes : mode * mode; g_consts : Z * Z;
  g_bm : mode * mode * mode; g_bc : bool * bool * bool; g_table : Z; g_cond : ccode }.

(** The state of a PE made by [gen_pe n] (examples/pe/sim.py:13-21): the [n] data
    registers and the three bit registers. *)
Record gpe := GPe { g_data : list Z; g_bits : bool * bool * bool }.
Definition gpe_init (n : nat) : gpe := GPe (repeat 0 n) (false, false, false).

(** [t[i]] on a Tuple of two entries. *)
Definition pair_get {T} (p : T * T) (i : nat) : res T :=
  match i with O => Ok (fst p) | S O => Ok (snd p) | _ => Err IndexError end.

(** examples/pe/sim.py:43-45: the comprehension over the data registers, from
    index [i] on. *)
Fixpoint gpe_data (regs : list Z) (i : nat) (ii : ginst) (xs : list Z) (en : bool)
  : res (list Z * list Z) :=
  match regs with
  | [] => Ok ([], [])
  | v :: tl =>
      do m <- pair_get (g_modes ii) i;
      do c <- pair_get (g_consts ii) i;
      match nth_error xs i with
      | None => Err IndexError
      | Some x =>
          let '(r, v') := mode_call v m c x en in
          do q <- gpe_data tl (S i) ii xs en;
          let '(rs, vs) := q in Ok (r :: rs, v' :: vs)
      end
  end.

(** examples/pe/sim.py:23-54 (PE.__call__). *)
Definition gpe_call (p : gpe) (i : ginst) (xs : list Z) (b0 b1 b2 en : bool)
  : res (Z * pout * bool * gpe) :=
  let '(v0, v1, v2) := g_bits p in
  let '(m0, m1, m2) := g_bm i in
  let '(c0, c1, c2) := g_bc i in
  let '(r0, v0') := mode_call v0 m0 c0 b0 en in
  let '(r1, v1') := mode_call v1 m1 c1 b1 en in
  let '(r2, v2') := mode_call v2 m2 c2 b2 en in
  let lut_res := lut (g_table i) r0 r1 r2 in
  do q <- gpe_data (g_data p) 0 i xs en;
  let '(data, regs') := q in
  do e <- geval (g_op i) data r0;
  let '(alu_res, alu_res_p, Cf, Vf) := e in
  let Zf := alu_res =? 0 in
  let Nf := bvbit alu_res 15 in
  let res_p := cond (g_cond i) alu_res lut_res Zf Nf Cf Vf in
  Ok (alu_res, res_p, false, GPe regs' (v0', v1', v2')).

(** ** The PE of examples/PE_lut *)

(** examples/PE_lut/isa.py:9-12 (OP). *)
Inductive lop := LImm | LAdd | LMux.

(** examples/PE_lut/sim.py:22-33 (ALU.__call__), width [w]. *)
Definition plut_alu (w : Z) (op : lop) (imm a b : Z) (d : bool) : Z :=
  match op with
  | LImm => imm
  | LAdd => bvadd w a b
  | LMux => if d then a else b
  end.

(** examples/PE_lut/sim.py:54-57 (PE.__call__). *)
Definition plut_call (w : Z) (op : lop) (imm tbl d0 d1 : Z) (b0 b1 b2 : bool) : Z * bool :=
  (plut_alu w op imm d0 d1 b0, lut tbl b0 b1 b2).
