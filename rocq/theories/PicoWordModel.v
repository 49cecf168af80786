(** Machine words of the Pico: examples/pico/isa.py under [encode] of
    peak/bitfield.py. Definitions only. *)
From Coq Require Import ZArith List Bool.
From Verif Require Import Base BitfieldModel PicoModel.
Import ListNotations.
Open Scope Z_scope.

(** ** Classes (examples/pico/isa.py:29-131) *)
(** Lines 31-34 and 36-55; UGE and ULT are members of their own. *)
Definition b_rega : bty := BBV 8 4.
Definition b_regb : bty := BBV 4 4.
Definition b_imm : bty := BBV 0 8.
Definition b_cond : bty := BEnum 8 [0; 1; 2; 3; 4; 5; 6; 7; 2; 3; 8; 9; 10; 11; 12; 13; 14; 15].
(** Lines 57-59, 93-95, 113-115. *)
Definition b_alu : bty := BProd 0 [b_rega; b_regb].
Definition b_mem : bty := BProd 0 [b_rega; b_imm].
Definition b_ctl : bty := BProd 0 [b_imm; b_cond].

(** The members of [Inst] (130-131). *)
Inductive pgroup := GLogic | GArith | GMem | GCtl | GWord.

(** Lines 73-74, 89-90, 109-110, 126-127, 29. All members of one Sum have equal
    layouts. *)
Definition group_ty (g : pgroup) : bty :=
  match g with
  | GLogic | GArith => BSum 12 None (repeat b_alu 4)
  | GMem => BSum 12 None (repeat b_mem 4)
  | GCtl => BSum 12 None (repeat b_ctl 3)
  | GWord => BBV 0 16
  end.

(** [list(t.fields)] of the five Sum classes. hwtypes keeps the members in a
    frozenset, so the order is the one of their hashes and is arbitrary here. *)
Record order := Order {
  o_inst : list pgroup; o_logic : list logic_op; o_arith : list arith_op;
  o_mem : list mem_op; o_ctl : list ctl_op }.

Definition group_n (g : pgroup) : Z := match g with GLogic => 0 | GArith => 1 | GMem => 2 | GCtl => 3 | GWord => 4 end.
Definition logic_n (o : logic_op) : Z := match o with pMov => 0 | pAnd => 1 | pOr => 2 | pXOr => 3 end.
Definition arith_n (o : arith_op) : Z := match o with pAdd => 0 | pSub => 1 | pAdc => 2 | pSbc => 3 end.
Definition mem_n (o : mem_op) : Z := match o with pLDLO => 0 | pLDHI => 1 | pLD => 2 | pST => 3 end.
Definition ctl_n (o : ctl_op) : Z := match o with pJump => 0 | pCall => 1 | pReturn => 2 end.
Definition cond_n (c : pcond) : Z :=
  match c with
  | kZ => 0 | kZ_n => 1 | kC => 2 | kC_n => 3 | kN => 4 | kN_n => 5 | kV => 6 | kV_n => 7
  | kUGT => 8 | kULE => 9 | kSGE => 10 | kSLT => 11 | kSGT => 12 | kSLE => 13 | kNever => 14 | kAlways => 15
  end.

(** [list(t.fields).index(x)]; classes are told apart by their numbers. *)
Fixpoint index {A} (num : A -> Z) (x : A) (l : list A) : nat :=
  match l with [] => O | y :: r => if num x =? num y then O else S (index num x r) end.

Definition inst_ty (o : order) : bty := BSum 14 None (map group_ty (o_inst o)).

(** The instruction as nested values. *)
Definition inst_val (o : order) (i : pinst) : bval :=
  let wrap_in g v := WSum (index group_n g (o_inst o)) v in
  match i with
  | ILogic op ra rb => wrap_in GLogic (WSum (index logic_n op (o_logic o)) (WProd [WBV ra; WBV rb]))
  | IArith op ra rb => wrap_in GArith (WSum (index arith_n op (o_arith o)) (WProd [WBV ra; WBV rb]))
  | IMem op ra imm => wrap_in GMem (WSum (index mem_n op (o_mem o)) (WProd [WBV ra; WBV imm]))
  | ICtl op imm c => wrap_in GCtl (WSum (index ctl_n op (o_ctl o)) (WProd [WBV imm; WEnum (cond_n c)]))
  | IWord w => wrap_in GWord (WBV w)
  end.

(** [encode(inst)] (peak/bitfield.py:59-93). *)
Definition pico_word (o : order) (i : pinst) : res Z := encode false (inst_ty o) (inst_val o i).
