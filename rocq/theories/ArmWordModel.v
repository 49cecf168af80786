(** Machine words of the ARM example: the classes of examples/arm/isa.py and the
    helpers of examples/arm/asm.py under [encode] of peak/bitfield.py. Definitions
    only. *)
From Coq Require Import ZArith List Bool.
From Verif Require Import Base BitfieldModel PicoWordModel ArmModel.
Import ListNotations.
Open Scope Z_scope.

(** ** Classes (examples/arm/isa.py:11-139) *)
(** Lines 11-12, 18-19, 28-30, 105-107. *)
Definition a_imm : bty := BBV 0 8.
Definition a_rot : bty := BBV 8 4.
Definition a_rc : bty := BBV 0 4.
Definition a_shift : bty := BBV 4 8.
Definition a_ra : bty := BBV 16 4.
Definition a_rb : bty := BBV 12 4.
Definition a_s : bty := BBV 20 1.
Definition a_offset : bty := BBV 0 24.
Definition a_l : bty := BBV 24 1.
Definition a_bi : bty := BBV 25 1.
(** Lines 14-16, 21-23, 109-112. *)
Definition a_immop : bty := BProd 0 [a_imm; a_rot].
Definition a_regop : bty := BProd 0 [a_rc; a_shift].
Definition a_branch : bty := BProd 0 [a_offset; a_l; a_bi].
(** Lines 114-132; UGE and ULT are members of their own, with the values of C and
    C_n. *)
Definition a_conds : bty := BEnum 28 [0; 1; 2; 3; 4; 5; 6; 7; 2; 3; 8; 9; 10; 11; 12; 13; 14].

(** Members of the four Sum classes: [Operand] (25-26), [Data] (86-88), [LDST]
    (101-102), [BaseInst] (134-135). *)
Inductive akind := KReg | KImm.
Inductive aop :=
| dAND | dEOR | dSUB | dRSB | dADD | dADC | dSBC | dRSC | dTST | dTEQ | dCMP | dCMN | dORR | dMOV | dBIC | dMVN.
Inductive abase := BData | BLdst | BBranch.

Definition kind_n (k : akind) : Z := match k with KReg => 0 | KImm => 1 end.
Definition aop_n (o : aop) : Z :=
  match o with
  | dAND => 0 | dEOR => 1 | dSUB => 2 | dRSB => 3 | dADD => 4 | dADC => 5 | dSBC => 6 | dRSC => 7
  | dTST => 8 | dTEQ => 9 | dCMP => 10 | dCMN => 11 | dORR => 12 | dMOV => 13 | dBIC => 14 | dMVN => 15
  end.
Definition ldst_n (o : ldst_op) : Z := match o with oSTR => 0 | oLDR => 1 end.
Definition base_n (b : abase) : Z := match b with BData => 0 | BLdst => 1 | BBranch => 2 end.

(** [list(t.fields)] of the four Sum classes: hwtypes keeps the members in a
    frozenset, so the order is arbitrary here. *)
Record aorder := AOrder { ao_kind : list akind; ao_op : list aop; ao_ldst : list ldst_op; ao_base : list abase }.

Definition kind_ty (k : akind) : bty := match k with KReg => a_regop | KImm => a_immop end.
Definition operand_ty (o : aorder) : bty := BSum 25 None (map kind_ty (ao_kind o)).
(** [_Data] (32-36) and [_LDST] (90-93); all members of one Sum have equal layouts. *)
Definition data_ty (o : aorder) : bty := BProd 0 [a_ra; a_rb; operand_ty o; a_s].
Definition ldst_ty (o : aorder) : bty := BProd 0 [a_ra; a_rb; operand_ty o].
Definition base_ty (o : aorder) (b : abase) : bty :=
  match b with
  | BData => BSum 21 None (map (fun _ => data_ty o) (ao_op o))
  | BLdst => BSum 20 None (map (fun _ => ldst_ty o) (ao_ldst o))
  | BBranch => a_branch
  end.
(** [Inst] (137-139). *)
Definition arm_ty (o : aorder) : bty := BProd 0 [BSum 26 None (map (base_ty o) (ao_base o)); a_conds].

(** ** Instructions *)
(** Instances of [BaseInst]: all sixteen data instructions, where
    [ArmModel.base_inst] has the five the assembler makes. *)
Inductive abody :=
| XData (op : aop) (ra rb : Z) (rc : operand) (s : Z)
| XLdst (op : ldst_op) (ra rb : Z) (rc : operand)
| XB (offset l i : Z).
Record ainst := AInst { x_base : abody; x_cond : Z }.

Definition of_data_op (d : data_op) : aop :=
  match d with oMOV => dMOV | oADD => dADD | oAND => dAND | oORR => dORR | oEOR => dEOR end.
Definition of_arm (i : arm_inst) : ainst :=
  AInst match a_base i with
        | AData op ra rb rc s => XData (of_data_op op) ra rb rc s
        | ALdst op ra rb rc => XLdst op ra rb rc
        | AB offset l i => XB offset l i
        end (a_cond i).

(** The instances as nested values. *)
Definition operand_val (o : aorder) (x : operand) : bval :=
  match x with
  | OReg rc shift => WSum (index kind_n KReg (ao_kind o)) (WProd [WBV rc; WBV shift])
  | OImm imm rotate => WSum (index kind_n KImm (ao_kind o)) (WProd [WBV imm; WBV rotate])
  end.
Definition base_val (o : aorder) (b : abody) : bval :=
  match b with
  | XData op ra rb rc s => WSum (index base_n BData (ao_base o))
      (WSum (index aop_n op (ao_op o)) (WProd [WBV ra; WBV rb; operand_val o rc; WBV s]))
  | XLdst op ra rb rc => WSum (index base_n BLdst (ao_base o))
      (WSum (index ldst_n op (ao_ldst o)) (WProd [WBV ra; WBV rb; operand_val o rc]))
  | XB offset l i => WSum (index base_n BBranch (ao_base o)) (WProd [WBV offset; WBV l; WBV i])
  end.

(** [encode(inst)] (peak/bitfield.py:59-93). *)
Definition arm_word (o : aorder) (i : ainst) : res Z :=
  encode false (arm_ty o) (WProd [base_val o (x_base i); WEnum (x_cond i)]).
