(** The RISC-V examples: instruction set, register files, the cores and the
    mappable cores, the bit counter.
    Python sources: examples/riscv/{isa,sim,family}.py,
    examples/riscv_m/{isa,sim}.py, examples/riscv_ext/{isa,sim,family}.py.
    The three cores are copies of each other apart from two branches; one
    function with a [core] argument models the three files, and the lines that
    differ are named. Definitions only. *)
From Coq Require Import ZArith List Bool.
From Verif Require Import Base BvModel.
Import ListNotations.
Open Scope Z_scope.

(** ** Instruction set *)

(** isa.py:21-57. Fields of type Idx are 5 bits, [imm] has the width given in
    the comment. *)
Record dR := mkR { r_rd : Z; r_rs1 : Z; r_rs2 : Z }.
Record dI := mkI { i_rd : Z; i_rs1 : Z; i_imm : Z }.      (* 12 *)
Record dIs := mkIs { is_rd : Z; is_rs1 : Z; is_imm : Z }. (* 5 *)
Record dS := mkS { s_rs1 : Z; s_rs2 : Z; s_imm : Z }.     (* 12 *)
Record dU := mkU { u_rd : Z; u_imm : Z }.                 (* 20 *)
Record dB := mkB { b_rs1 : Z; b_rs2 : Z; b_imm : Z }.     (* 12 *)
Record dJ := mkJ { j_rd : Z; j_imm : Z }.                 (* 20 *)
(** riscv_ext/isa.py:16-18 *)
Record dE := mkE { e_rd : Z; e_rs : Z }.

(** isa.py:60-74; riscv_m/isa.py:75-83; isa.py:80-101; riscv_ext/isa.py:20-23 *)
Inductive arith := ADD | SUB | SLT | SLTU | AND | OR | XOR.
Inductive shift := SLL | SRL | SRA.
Inductive muldiv := MUL | MULH | MULHU | MULHSU | DIV | DIVU | REM | REMU.
Inductive loadinst := LB | LBU | LH | LHU | LW | LWU | LD.
Inductive branchinst := BEQ | BNE | BLT | BLTU | BGE | BGEU.
Inductive bitinst := POPCNT | CNTLZ | CNTTZ.

(** isa.py:76-78, riscv_m/isa.py:88-91 (the member [muldiv] exists only there). *)
Inductive alu := aArith (t : arith) | aShift (t : shift) | aMulDiv (t : muldiv).

(** isa.py:106-123 *)
Inductive opimm := oArith (d : dI) (t : arith) | oShift (d : dIs) (t : shift).

(** isa.py:129-157 ([Inst]); [Ext] only in riscv_ext/isa.py:26-36. The tag of
    [Store] is declared as [LoadInst] (isa.py:151-153). *)
Inductive inst :=
| OP (d : dR) (t : alu)
| OP_IMM (o : opimm)
| LUI (d : dU)
| AUIPC (d : dU)
| JAL (d : dJ)
| JALR (d : dI)
| Branch (d : dB) (t : branchinst)
| Load (d : dI) (t : loadinst)
| Store (d : dS) (t : loadinst)
| Ext (d : dE) (t : bitinst).

(** examples/riscv, examples/riscv_m, examples/riscv_ext *)
Inductive core := Base32 | CoreM | CoreExt.

(** The values of the type [isa.Inst] of a core: fields fit their widths and
    only the core's own members occur. *)
Definition fit (w x : Z) : Prop := 0 <= x < 2 ^ w.
Definition in_isa (c : core) (i : inst) : Prop :=
  match i with
  | OP d t => fit 5 (r_rd d) /\ fit 5 (r_rs1 d) /\ fit 5 (r_rs2 d)
              /\ match t with aMulDiv _ => c = CoreM | _ => True end
  | OP_IMM (oArith d _) | JALR d | Load d _ =>
      fit 5 (i_rd d) /\ fit 5 (i_rs1 d) /\ fit 12 (i_imm d)
  | OP_IMM (oShift d _) => fit 5 (is_rd d) /\ fit 5 (is_rs1 d) /\ fit 5 (is_imm d)
  | LUI d | AUIPC d => fit 5 (u_rd d) /\ fit 20 (u_imm d)
  | JAL d => fit 5 (j_rd d) /\ fit 20 (j_imm d)
  | Branch d _ => fit 5 (b_rs1 d) /\ fit 5 (b_rs2 d) /\ fit 12 (b_imm d)
  | Store d _ => fit 5 (s_rs1 d) /\ fit 5 (s_rs2 d) /\ fit 12 (s_imm d)
  | Ext d _ => fit 5 (e_rd d) /\ fit 5 (e_rs d) /\ c = CoreExt
  end.

(** ** Register file of the simulator: family.py:21-40 *)

(** The dict [self.rf]. *)
Definition rfile := list (Z * Z).
Definition rf_init : rfile := [(0, 0)].                                (* 22-23 *)
Definition rf_load (rf : rfile) (idx : Z) : res Z := dgetE Z.eqb rf idx. (* 25-31 *)
(** 33-39; the isinstance checks always succeed on the core's own calls. *)
Definition rf_store (rf : rfile) (idx value : Z) : rfile :=
  if idx =? 0 then rf else dset Z.eqb rf idx value.

(** ** Bit counter: riscv_ext/sim.py:236-277 *)

(** 238-242: [for i in range(32): cnt = cnt + ((val & (1 << i)) >> i)]. *)
Definition popcnt (val : Z) : Z :=
  fold_left (fun cnt i => bvadd 32 cnt (bvlshr 32 (Z.land val (wrap 32 (Z.shiftl 1 i))) i))
            (pyrange 0 32) 0.

(** Loop state of 243-259 and 260-277: mask, shft, cnt, val. *)
Record cstate := mkC { c_mask : Z; c_shft : Z; c_cnt : Z; c_val : Z }.

Definition clz_step (s : cstate) : cstate :=
  let mask := bvshl 32 (c_mask s) (c_shft s) in
  let hit := Z.land (c_val s) mask =? 0 in
  mkC mask (bvlshr 32 (c_shft s) 1)
      (if hit then bvadd 32 (c_cnt s) (c_shft s) else c_cnt s)
      (if hit then bvshl 32 (c_val s) (c_shft s) else c_val s).

Definition ctz_step (s : cstate) : cstate :=
  let mask := bvlshr 32 (c_mask s) (c_shft s) in
  let hit := Z.land (c_val s) mask =? 0 in
  mkC mask (bvlshr 32 (c_shft s) 1)
      (if hit then bvadd 32 (c_cnt s) (c_shft s) else c_cnt s)
      (if hit then bvlshr 32 (c_val s) (c_shft s) else c_val s).

(** [range(Word.size.bit_length() - 1)] *)
Definition crounds : list Z := pyrange 0 (bit_length 32 - 1).

Definition cinit (val : Z) : cstate := mkC (wrap 32 (-1)) (wrap 32 16) (wrap 32 0) val.

(** 237-277. *)
Definition bitcounter (t : bitinst) (val : Z) : res Z :=
  match t with
  | POPCNT => Ok (popcnt val)
  | CNTLZ =>
      if val =? 0 then Ok (wrap 32 32)
      else let s := fold_left (fun s _ => clz_step s) crounds (cinit val) in
           if c_shft s =? 0 then Ok (c_cnt s) else Err AssertionError
  | CNTTZ =>
      if val =? 0 then Ok (wrap 32 32)
      else let s := fold_left (fun s _ => ctz_step s) crounds (cinit val) in
           if c_shft s =? 0 then Ok (c_cnt s) else Err AssertionError
  end.

(** ** The core: sim.py:27-216 *)

(** The variables assigned by the decoder (sim.py:34-49). *)
Record dec := mkD {
  d_a : Z; d_b : Z; d_exec : alu; d_rd : Z; d_lsb : Z;
  d_br : bool; d_jmp : bool; d_off : Z; d_cz : bool; d_inv : bool }.

(** The initial values of the optional variables, sim.py:41-49. *)
Definition plain (a b : Z) (x : alu) (rd : Z) : dec :=
  mkD a b x rd (wrap 32 (-1)) false false 0 false false.

(** Branch tags, sim.py:119-140: exec_inst, cmp_zero, invert. *)
Definition branch_dec (t : branchinst) : alu * bool * bool :=
  let is_eq := match t with BEQ => true | _ => false end in
  let is_ne := match t with BNE => true | _ => false end in
  let is_bge := match t with BGE => true | _ => false end in
  let is_signed := is_bge || match t with BLT => true | _ => false end in
  let cmp_ge := is_bge || match t with BGEU => true | _ => false end in
  if is_eq || is_ne then (aArith XOR, true, is_ne)
  else if is_signed then (aArith SLT, false, cmp_ge)
  else (aArith SLTU, false, cmp_ge).

Definition is_SUB (t : arith) : bool := match t with SUB => true | _ => false end.

(** sim.py:51-150; riscv_ext/sim.py:150-161 for [Ext]. [load] is the register
    file's load. *)
Definition decode (c : core) (load : Z -> res Z) (i : inst) (pc : Z) : res dec :=
  match i with
  | OP d t =>                                                         (* 51-56 *)
      do a <- load (r_rs1 d); do b <- load (r_rs2 d);
      Ok (plain a b t (r_rd d))
  | OP_IMM (oArith d t) =>                                            (* 60-71 *)
      if is_SUB t then Err AssertionError else
      do a <- load (i_rs1 d);
      Ok (plain a (bvsext 12 20 (i_imm d)) (aArith t) (i_rd d))
  | OP_IMM (oShift d t) =>                                            (* 73-79 *)
      do a <- load (is_rs1 d);
      Ok (plain a (bvzext 5 27 (is_imm d)) (aShift t) (is_rd d))
  | LUI d =>                                                          (* 81-86 *)
      Ok (plain 0 (bvshl 32 (bvsext 20 12 (u_imm d)) 12) (aArith ADD) (u_rd d))
  | AUIPC d =>                                                        (* 88-93 *)
      Ok (plain pc (bvshl 32 (bvsext 20 12 (u_imm d)) 12) (aArith ADD) (u_rd d))
  | JAL d =>                                                          (* 95-101 *)
      Ok (mkD pc (bvshl 32 (bvsext 20 12 (j_imm d)) 1) (aArith ADD) (j_rd d)
              (wrap 32 (-1)) false true 0 false false)
  | JALR d =>                                                         (* 103-110 *)
      do a <- load (i_rs1 d);
      Ok (mkD a (bvsext 12 20 (i_imm d)) (aArith ADD) (i_rd d)
              (bvnot 32 1) false true 0 false false)
  | Branch d t =>                                                     (* 112-140 *)
      do a <- load (b_rs1 d); do b <- load (b_rs2 d);
      let '(x, cz, inv) := branch_dec t in
      Ok (mkD a b x 0 (wrap 32 (-1)) true false
              (bvshl 32 (bvsext 12 20 (b_imm d)) 1) cz inv)
  | Load _ _ | Store _ _ => Ok (plain 0 0 (aArith ADD) 0)             (* 142-150 *)
  | Ext d t =>
      match c with
      | CoreExt => do v <- load (e_rs d); do a <- bitcounter t v;
                   Ok (plain a 0 (aArith ADD) (e_rd d))
      | _ => Err AssertionError             (* assert inst[isa.Store].match *)
      end
  end.

(** sim.py:158-174 *)
Definition exec_arith (t : arith) (a b : Z) : Z :=
  match t with
  | ADD => bvadd 32 a b
  | SUB => bvsub 32 a b
  | SLT => wrap 32 (b2z (bvslt 32 a b))
  | SLTU => wrap 32 (b2z (bvult a b))
  | AND => Z.land a b
  | OR => Z.lor a b
  | XOR => Z.lxor a b
  end.

(** sim.py:175-184 *)
Definition exec_shift (t : shift) (a b : Z) : Z :=
  match t with
  | SLL => bvshl 32 a b
  | SRL => bvlshr 32 a b
  | SRA => bvashr 32 a b
  end.

Section Core.
  (** [bvsdiv], [bvudiv], [bvsrem], [bvurem] of hwtypes: not modelled. *)
  Variables sdiv udiv srem urem : Z -> Z -> Z.

  (** riscv_m/sim.py:181-200 *)
  Definition exec_muldiv (t : muldiv) (a b : Z) : Z :=
    match t with
    | MUL => bvmul 32 a b
    | MULH => slice (bvmul 64 (bvsext 32 32 a) (bvsext 32 32 b)) 32 64
    | MULHU => slice (bvmul 64 (bvzext 32 32 a) (bvzext 32 32 b)) 32 64
    | MULHSU => slice (bvmul 64 (bvsext 32 32 a) (bvzext 32 32 b)) 32 64
    | DIV => sdiv a b
    | DIVU => udiv a b
    | REM => srem a b
    | REMU => urem a b
    end.

  (** sim.py:158-184, before the mask; the last branch of the copies differs. *)
  Definition execute (c : core) (x : alu) (a b : Z) : res Z :=
    match x with
    | aArith t => Ok (exec_arith t a b)
    | aShift t => Ok (exec_shift t a b)
    | aMulDiv t =>
        match c with
        | CoreM => Ok (exec_muldiv t a b)
        | _ => Err AssertionError           (* assert exec_inst.shift.match *)
        end
    end.

  (** sim.py:157, 186-213: the value written to rd and the next pc. *)
  Definition commit (d : dec) (pc c0 : Z) : Z * Z :=
    let target := bvadd 32 pc (d_off d) in
    let c := Z.land c0 (d_lsb d) in
    let next := bvadd 32 pc 4 in
    if d_br d then
      let cond := if d_cz d then c =? 0 else bvbit c 0 in
      (0, if xorb cond (d_inv d) then target else next)
    else if d_jmp d then (next, c)
    else (c, next).

  (** [R32I.__call__]: the register file and the next pc. An exception happens
      before the store, so the register file is then unchanged. *)
  Definition step (c : core) (rf : rfile) (i : inst) (pc : Z) : res Z * rfile :=
    match (do d <- decode c (rf_load rf) i pc;
           do c0 <- execute c (d_exec d) (d_a d) (d_b d);
           if d_jmp d && d_br d then Err AssertionError
           else Ok (d_rd d, commit d pc c0)) with
    | Err e => (Err e, rf)
    | Ok (rd, (out, next)) => (Ok next, rf_store rf rd out)
    end.

  (** A program run: every call uses the pc it is given (the caller owns it). *)
  Fixpoint run (c : core) (rf : rfile) (h : list (inst * Z)) : list (res Z) * rfile :=
    match h with
    | [] => ([], rf)
    | (i, pc) :: h' =>
        let (r, rf1) := step c rf i pc in
        let (rs, rf2) := run c rf1 h' in (r :: rs, rf2)
    end.

  (** A free-running core: the next pc is used for the next fetch. [fetch] is
      the instruction memory. *)
  Fixpoint steps (n : nat) (c : core) (fetch : Z -> inst) (rf : rfile) (pc : Z)
    : res Z * rfile :=
    match n with
    | O => (Ok pc, rf)
    | S n' =>
        match step c rf (fetch pc) pc with
        | (Ok next, rf') => steps n' c fetch rf' next
        | (Err e, rf') => (Err e, rf')
        end
    end.

  (** ** The mappable core: sim.py:221-258 with the SMT family *)

  (** family.py:48-80: three words; index 0 is special in every access. *)
  Record srf := mkSrf { sr_rs1 : Z; sr_rs2 : Z; sr_rd : Z }.
  Definition s_load1 (r : srf) (idx : Z) : Z := if negb (idx =? 0) then sr_rs1 r else 0.
  Definition s_load2 (r : srf) (idx : Z) : Z := if negb (idx =? 0) then sr_rs2 r else 0.
  Definition s_store (r : srf) (idx value : Z) : srf :=
    mkSrf (sr_rs1 r) (sr_rs2 r) (if negb (idx =? 0) then value else sr_rd r).

  (** In the SMT family all branches of an if are evaluated and a multiplexer
      picks the result, and asserts are removed (family.py:46). [x.value] of a
      member that does not match reads bits that belong to something else: the
      accessors return an arbitrary value then. *)
  Record access := mkAcc {
    v_op : inst -> dR * alu; v_opimm : inst -> opimm;
    v_arith : opimm -> dI * arith; v_shift : opimm -> dIs * shift;
    v_lui : inst -> dU; v_auipc : inst -> dU; v_jal : inst -> dJ; v_jalr : inst -> dI;
    v_branch : inst -> dB * branchinst; v_ext : inst -> dE * bitinst;
    v_xa : alu -> arith; v_xs : alu -> shift; v_xm : alu -> muldiv }.

  Definition acc_ok (A : access) : Prop :=
    (forall d t, v_op A (OP d t) = (d, t)) /\ (forall o, v_opimm A (OP_IMM o) = o)
    /\ (forall d t, v_arith A (oArith d t) = (d, t))
    /\ (forall d t, v_shift A (oShift d t) = (d, t))
    /\ (forall d, v_lui A (LUI d) = d) /\ (forall d, v_auipc A (AUIPC d) = d)
    /\ (forall d, v_jal A (JAL d) = d) /\ (forall d, v_jalr A (JALR d) = d)
    /\ (forall d t, v_branch A (Branch d t) = (d, t))
    /\ (forall d t, v_ext A (Ext d t) = (d, t))
    /\ (forall t, v_xa A (aArith t) = t) /\ (forall t, v_xs A (aShift t) = t)
    /\ (forall t, v_xm A (aMulDiv t) = t).

  (** [.match] of the sum members. *)
  Definition m_op i := match i with OP _ _ => true | _ => false end.
  Definition m_opimm i := match i with OP_IMM _ => true | _ => false end.
  Definition m_lui i := match i with LUI _ => true | _ => false end.
  Definition m_auipc i := match i with AUIPC _ => true | _ => false end.
  Definition m_jal i := match i with JAL _ => true | _ => false end.
  Definition m_jalr i := match i with JALR _ => true | _ => false end.
  Definition m_branch i := match i with Branch _ _ => true | _ => false end.
  Definition m_load i := match i with Load _ _ => true | _ => false end.
  Definition m_store i := match i with Store _ _ => true | _ => false end.
  Definition m_arith o := match o with oArith _ _ => true | _ => false end.
  Definition m_xarith x := match x with aArith _ => true | _ => false end.
  Definition m_xshift x := match x with aShift _ => true | _ => false end.

  Definition ite {A} (b : bool) (x y : A) : A := if b then x else y.

  Definition bitcounter_smt (t : bitinst) (val : Z) : Z :=
    match t with
    | POPCNT => popcnt val
    | CNTLZ => ite (val =? 0) (wrap 32 32)
                 (c_cnt (fold_left (fun s _ => clz_step s) crounds (cinit val)))
    | CNTTZ => ite (val =? 0) (wrap 32 32)
                 (c_cnt (fold_left (fun s _ => ctz_step s) crounds (cinit val)))
    end.

  (** sim.py:51-150 after the passes: one multiplexer chain over the branches. *)
  Definition decode_smt (A : access) (c : core) (r : srf) (i : inst) (pc : Z) : dec :=
    let b_op := let (d, t) := v_op A i in
                plain (s_load1 r (r_rs1 d)) (s_load2 r (r_rs2 d)) t (r_rd d) in
    let b_arith := let (d, t) := v_arith A (v_opimm A i) in
                   plain (s_load1 r (i_rs1 d)) (bvsext 12 20 (i_imm d)) (aArith t) (i_rd d) in
    let b_shift := let (d, t) := v_shift A (v_opimm A i) in
                   plain (s_load1 r (is_rs1 d)) (bvzext 5 27 (is_imm d)) (aShift t) (is_rd d) in
    let b_lui := let d := v_lui A i in
                 plain 0 (bvshl 32 (bvsext 20 12 (u_imm d)) 12) (aArith ADD) (u_rd d) in
    let b_auipc := let d := v_auipc A i in
                   plain pc (bvshl 32 (bvsext 20 12 (u_imm d)) 12) (aArith ADD) (u_rd d) in
    let b_jal := let d := v_jal A i in
                 mkD pc (bvshl 32 (bvsext 20 12 (j_imm d)) 1) (aArith ADD) (j_rd d)
                     (wrap 32 (-1)) false true 0 false false in
    let b_jalr := let d := v_jalr A i in
                  mkD (s_load1 r (i_rs1 d)) (bvsext 12 20 (i_imm d)) (aArith ADD) (i_rd d)
                      (bvnot 32 1) false true 0 false false in
    let b_branch := let (d, t) := v_branch A i in
                    let '(x, cz, inv) := branch_dec t in
                    mkD (s_load1 r (b_rs1 d)) (s_load2 r (b_rs2 d)) x 0 (wrap 32 (-1)) true false
                        (bvshl 32 (bvsext 12 20 (b_imm d)) 1) cz inv in
    let b_nop := plain 0 0 (aArith ADD) 0 in
    let b_ext := let (d, t) := v_ext A i in
                 plain (bitcounter_smt t (s_load1 r (e_rs d))) 0 (aArith ADD) (e_rd d) in
    ite (m_op i) b_op
     (ite (m_opimm i) (ite (m_arith (v_opimm A i)) b_arith b_shift)
      (ite (m_lui i) b_lui (ite (m_auipc i) b_auipc (ite (m_jal i) b_jal
       (ite (m_jalr i) b_jalr (ite (m_branch i) b_branch (ite (m_load i) b_nop
        match c with
        | CoreExt => ite (m_store i) b_nop b_ext
        | _ => b_nop
        end))))))).

  (** sim.py:158-184 after the passes. *)
  Definition execute_smt (A : access) (c : core) (x : alu) (a b : Z) : Z :=
    ite (m_xarith x) (exec_arith (v_xa A x) a b)
        match c with
        | CoreM => ite (m_xshift x) (exec_shift (v_xs A x) a b) (exec_muldiv (v_xm A x) a b)
        | _ => exec_shift (v_xs A x) a b
        end.

  (** [R32I_mappable.__call__] (sim.py:234-247): next pc and rd. *)
  Definition mappable (A : access) (c : core) (i : inst) (pc rs1 rs2 rd : Z) : Z * Z :=
    let r := mkSrf rs1 rs2 rd in
    let d := decode_smt A c r i pc in
    let c0 := execute_smt A c (d_exec d) (d_a d) (d_b d) in
    let (out, next) := commit d pc c0 in
    (next, sr_rd (s_store r (d_rd d) out)).
End Core.
