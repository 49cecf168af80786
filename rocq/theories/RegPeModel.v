(** The PE with a register file and its mappable wrapper.
    Python source: examples/reg_file/{isa,sim}.py; the register files are those of
    examples/riscv/family.py (RiscvModel). *)
From Coq Require Import ZArith List Bool.
From Verif Require Import Base BvModel RiscvModel BindModel MapIdxModel MapModel.
Import ListNotations.
Open Scope list_scope.
Open Scope Z_scope.

(** ** The instruction (isa.py:16-39) *)
Inductive bop := BAdd | BNor.
Inductive uop := UInv | UMov.
(** BLayout: op, rs1, rs2, rd; ULayout: op, rs1, rd. *)
Inductive rinst := IB (o : bop) (rs1 rs2 rd : Z) | IU (o : uop) (rs1 rd : Z).

(** sim.py:23-27 and 32-36; the asserts hold, the enumerations have two values. *)
Definition b_alu (o : bop) (a b : Z) : Z := match o with BAdd => bvadd 32 a b | BNor => bvnot 32 (Z.lor a b) end.
Definition u_alu (o : uop) (a : Z) : Z := match o with UInv => bvnot 32 a | UMov => a end.

(** [RegPE.__call__] in the Python family (sim.py:17-38): the register file. *)
Definition reg_call (rf : rfile) (i : rinst) : res rfile :=
  match i with
  | IB o rs1 rs2 rd => do a <- rf_load rf rs1; do b <- rf_load rf rs2; Ok (rf_store rf rd (b_alu o a b))
  | IU o rs1 rd => do a <- rf_load rf rs1; Ok (rf_store rf rd (u_alu o a))
  end.

(** The same in the SMT family: both branches are computed and the results
    selected. [value] of the member that does not match reads other bits. *)
Record raccess := mkRacc { v_b : rinst -> bop * Z * Z * Z; v_u : rinst -> uop * Z * Z }.
Definition racc_ok (A : raccess) : Prop :=
  (forall o rs1 rs2 rd, v_b A (IB o rs1 rs2 rd) = (o, rs1, rs2, rd)) /\ (forall o rs1 rd, v_u A (IU o rs1 rd) = (o, rs1, rd)).
Definition m_b (i : rinst) : bool := match i with IB _ _ _ _ => true | _ => false end.
Definition reg_smt (A : raccess) (r : srf) (i : rinst) : srf :=
  let '(bo, b1, b2, bd) := v_b A i in
  let '(uo, u1, ud) := v_u A i in
  s_store r (ite (m_b i) bd ud) (ite (m_b i) (b_alu bo (s_load1 r b1) (s_load2 r b2)) (u_alu uo (s_load1 r u1))).

(** [RegPE_mappable.__call__] (sim.py:50-76). *)
Definition reg_mappable (A : raccess) (i : rinst) (rs1 rs2 rd : Z) : Z := sr_rd (reg_smt A (mkSrf rs1 rs2 rd) i).

(** ** The architecture as the mapper sees it *)

(** Leaf types: Word, Initial(Word), PC(Word) (for the RISC-V core), and the Const
    fields of an instruction with their width. *)
Inductive mty := MWord | MInit | MPc | MConst (w : Z).
Definition mty_eqb (s t : mty) : bool :=
  match s, t with MWord, MWord | MInit, MInit | MPc, MPc => true | MConst v, MConst w => v =? w | _, _ => false end.
Definition mty_const (t : mty) : bool := match t with MConst _ => true | _ => false end.
Definition mty_vals (t : mty) : list Z := pyrange 0 (2 ^ match t with MConst w => w | _ => 32 end).

(** Paths; QIn0, QIn1 and QOut belong to the IR instruction. *)
Inductive rpath := RInst | RBOp | RB1 | RB2 | RBd | RUOp | RU1 | RUd | RRs1 | RRs2 | RRd | ROut | QIn0 | QIn1 | QOut.
Definition rpath_code (p : rpath) : Z :=
  match p with RInst => 0 | RBOp => 1 | RB1 => 2 | RB2 => 3 | RBd => 4 | RUOp => 5 | RU1 => 6 | RUd => 7 | RRs1 => 8 | RRs2 => 9
             | RRd => 10 | ROut => 11 | QIn0 => 12 | QIn1 => 13 | QOut => 14 end.
Definition rpath_eqb (p q : rpath) : bool := rpath_code p =? rpath_code q.

(** The encodings of the two enumerations and the tags of the two members are
    chosen by the assembler; [first]: whether the member b comes first. *)
Record rcode := mkRcode { c_b : bop -> Z; c_bw : Z; c_u : uop -> Z; c_uw : Z; c_tb : Z; c_tu : Z; c_first : bool }.
Definition rcode_ok (C : rcode) : Prop :=
  c_b C BAdd <> c_b C BNor /\ (forall o, 0 <= c_b C o < 2 ^ c_bw C) /\
  c_u C UInv <> c_u C UMov /\ (forall o, 0 <= c_u C o < 2 ^ c_uw C) /\ c_tb C <> c_tu C.

Section Arch.
  Variables (C : rcode) (A : raccess) (cs : list (rpath * list Z)).

  (** [op == isa.BOp.Add] on the bits of the leaf, and the validity of them. *)
  Definition bop_of (z : Z) : bop := if z =? c_b C BAdd then BAdd else BNor.
  Definition uop_of (z : Z) : uop := if z =? c_u C UInv then UInv else UMov.
  Definition bop_valid (z : Z) : bool := (z =? c_b C BAdd) || (z =? c_b C BNor).
  Definition uop_valid (z : Z) : bool := (z =? c_u C UInv) || (z =? c_u C UMov).

  Definition rform (b : bool) : list rpath * list (rpath * Z) :=
    if b then ([RBOp; RB1; RB2; RBd; RRs1; RRs2; RRd], [(RInst, c_tb C)])
    else ([RUOp; RU1; RUd; RRs1; RRs2; RRd], [(RInst, c_tu C)]).
  Definition is_b (fi : nat) : bool := match fi with O => c_first C | _ => negb (c_first C) end.
  Definition rdec (b : bool) (l : rpath -> Z) : rinst :=
    if b then IB (bop_of (l RBOp)) (l RB1) (l RB2) (l RBd) else IU (uop_of (l RUOp)) (l RU1) (l RUd).
  Definition rvalid (b : bool) (l : rpath -> Z) : bool := if b then bop_valid (l RBOp) else uop_valid (l RUOp).
  Definition rsem (i : rinst) (l : rpath -> Z) (q : rpath) : Z := reg_mappable A i (l RRs1) (l RRs2) (l RRd).

  Definition reg_arch : arch rpath mty :=
    {| a_forms := [rform (c_first C); rform (negb (c_first C))];
       a_in := [(RBOp, MConst (c_bw C)); (RB1, MConst 5); (RB2, MConst 5); (RBd, MConst 5);
                (RUOp, MConst (c_uw C)); (RU1, MConst 5); (RUd, MConst 5);
                (RRs1, MWord); (RRs2, MWord); (RRd, MInit)];
       a_out := [(ROut, MWord)];
       a_constr := cs; a_has_const := true;
       a_fsem := fun _ tags l q => rsem (rdec (tags RInst =? c_tb C) l) l q;
       a_sem := fun tags l q => rsem (rdec (tags RInst =? c_tb C) l) l q;
       a_fvalid := fun _ tags l => ((tags RInst =? c_tb C) || (tags RInst =? c_tu C)) && rvalid (tags RInst =? c_tb C) l;
       a_valid := fun tags l => ((tags RInst =? c_tb C) || (tags RInst =? c_tu C)) && rvalid (tags RInst =? c_tb C) l |}.
End Arch.
