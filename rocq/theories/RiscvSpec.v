(** RV32I (and the multiplications of RV32M, and the bit counts) as written in
    the RISC-V unprivileged manual, on integers. Uses only the instruction
    syntax of RiscvModel. Definitions only. *)
From Coq Require Import ZArith List Bool.
From Verif Require Import RiscvModel.
Import ListNotations.
Open Scope Z_scope.

Definition W : Z := 4294967296.                      (* 2^32 *)
(** Two's complement reading of a w-bit field. *)
Definition sg (w x : Z) : Z := if x <? 2 ^ (w - 1) then x else x - 2 ^ w.

Definition sp_arith (t : arith) (x y : Z) : Z :=
  match t with
  | ADD => (x + y) mod W
  | SUB => (x - y) mod W
  | SLT => if sg 32 x <? sg 32 y then 1 else 0
  | SLTU => if x <? y then 1 else 0
  | AND => Z.land x y
  | OR => Z.lor x y
  | XOR => Z.lxor x y
  end.

(** "the shift amount is held in the lower 5 bits of register rs2" *)
Definition sp_shift (t : shift) (x y : Z) : Z :=
  match t with
  | SLL => (x * 2 ^ (y mod 32)) mod W
  | SRL => x / 2 ^ (y mod 32)
  | SRA => (sg 32 x / 2 ^ (y mod 32)) mod W
  end.

Definition sp_cond (t : branchinst) (x y : Z) : bool :=
  match t with
  | BEQ => x =? y
  | BNE => negb (x =? y)
  | BLT => sg 32 x <? sg 32 y
  | BLTU => x <? y
  | BGE => sg 32 y <=? sg 32 x
  | BGEU => y <=? x
  end.

(** The instructions of the claim: OP, OP-IMM (there is no SUBI), LUI, AUIPC,
    JAL, JALR and branches of RV32I. *)
Definition rv32i (i : inst) : bool :=
  match i with
  | OP _ (aMulDiv _) => false
  | OP_IMM (oArith _ SUB) => false
  | Load _ _ | Store _ _ | Ext _ _ => false
  | _ => true
  end.

(** Registers an instruction reads. *)
Definition reads (i : inst) : list Z :=
  match i with
  | OP d _ => [r_rs1 d; r_rs2 d]
  | OP_IMM (oArith d _) | JALR d => [i_rs1 d]
  | OP_IMM (oShift d _) => [is_rs1 d]
  | Branch d _ => [b_rs1 d; b_rs2 d]
  | Ext d _ => [e_rs d]
  | _ => []
  end.

(** One instruction: the destination (0 when there is none), the value, and
    the next pc. [x r] is the content of register r. *)
Definition sp_step (x : Z -> Z) (pc : Z) (i : inst) : Z * Z * Z :=
  let next := (pc + 4) mod W in
  match i with
  | OP d (aArith t) => (r_rd d, sp_arith t (x (r_rs1 d)) (x (r_rs2 d)), next)
  | OP d (aShift t) => (r_rd d, sp_shift t (x (r_rs1 d)) (x (r_rs2 d)), next)
  | OP_IMM (oArith d t) => (i_rd d, sp_arith t (x (i_rs1 d)) (sg 12 (i_imm d) mod W), next)
  | OP_IMM (oShift d t) => (is_rd d, sp_shift t (x (is_rs1 d)) (is_imm d), next)
  | LUI d => (u_rd d, u_imm d * 4096, next)
  | AUIPC d => (u_rd d, (pc + u_imm d * 4096) mod W, next)
  | JAL d => (j_rd d, next, (pc + 2 * sg 20 (j_imm d)) mod W)
  | JALR d => (i_rd d, next, 2 * (((x (i_rs1 d) + sg 12 (i_imm d)) mod W) / 2))
  | Branch d t =>
      (0, 0, if sp_cond t (x (b_rs1 d)) (x (b_rs2 d))
             then (pc + 2 * sg 12 (b_imm d)) mod W else next)
  | _ => (0, 0, next)
  end.

(** Register contents afterwards: x0 is hard-wired. *)
Definition sp_write (x : Z -> Z) (rd v : Z) : Z -> Z :=
  fun r => if (r =? rd) && negb (r =? 0) then v else x r.

(** n instructions. *)
Fixpoint sp_steps (n : nat) (fetch : Z -> inst) (x : Z -> Z) (pc : Z) : (Z -> Z) * Z :=
  match n with
  | O => (x, pc)
  | S n' =>
      let '(rd, v, next) := sp_step x pc (fetch pc) in
      sp_steps n' fetch (sp_write x rd v) next
  end.

(** RV32M: "MUL ... the lower XLEN bits; MULH, MULHU, MULHSU ... the upper XLEN
    bits of the full 2*XLEN-bit product, for signed*signed, unsigned*unsigned
    and signed rs1 * unsigned rs2". *)
Definition sp_mul (t : muldiv) (x y : Z) : option Z :=
  match t with
  | MUL => Some ((x * y) mod W)
  | MULH => Some (((sg 32 x * sg 32 y) / W) mod W)
  | MULHU => Some ((x * y) / W)
  | MULHSU => Some (((sg 32 x * y) / W) mod W)
  | _ => None
  end.

(** Bits of a 32-bit word, lowest first. *)
Definition bits32 (x : Z) : list bool := map (fun i => Z.testbit x (Z.of_nat i)) (seq 0 32).
Definition count_true (l : list bool) : Z := Z.of_nat (length (filter (fun b => b) l)).
(** Length of the longest prefix of zeros. *)
Fixpoint zeros (l : list bool) : Z :=
  match l with false :: r => 1 + zeros r | _ => 0 end.
Definition sp_bits (t : bitinst) (x : Z) : Z :=
  match t with
  | POPCNT => count_true (bits32 x)
  | CNTLZ => zeros (rev (bits32 x))
  | CNTTZ => zeros (bits32 x)
  end.
