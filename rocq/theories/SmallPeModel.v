(** The PEs of the mapping tests and their IR.
    Python source: examples/smallir/ir.py, examples/sum_pe/{isa,sim}.py,
    examples/tagged_pe/{isa,sim}.py.

    Words are integers below [2 ^ w]. The two PEs have the same leaves with
    different names, ("inst", ArithOp, 1) and ("inst", "alu", 1); here they have
    one name. *)
From Coq Require Import ZArith List Bool.
From Verif Require Import Base BvModel BindModel MapIdxModel MapModel.
Import ListNotations.
Open Scope list_scope.
Open Scope Z_scope.

(** ** smallir (ir.py:19-31) *)
Inductive irop := Add | Sub | And | Nand | Or | Nor | Mul | Shftr | Shftl | Not | Neg.
Definition irops : list irop := [Add; Sub; And; Nand; Or; Nor; Mul; Shftr; Shftl; Not; Neg].
Definition unary (o : irop) : bool := match o with Not | Neg => true | _ => false end.
Definition ir_call (w : Z) (o : irop) (x y : Z) : Z :=
  match o with
  | Add => bvadd w x y
  | Sub => bvsub w x y
  | And => Z.land x y
  | Nand => bvnot w (Z.land x y)
  | Or => Z.lor x y
  | Nor => bvnot w (Z.lor x y)
  | Mul => bvmul w x y
  | Shftr => bvlshr w x y
  | Shftl => bvshl w x y
  | Not => bvnot w x
  | Neg => bvneg w x
  end.

(** ** The instruction (sum_pe/isa.py:6-19, tagged_pe/isa.py:6-21) *)
Inductive op := A | B.
Definition op_val (o : op) : Z := match o with A => 1 | B => 2 end.
Inductive inst := IBit (o : op) (neg : Z) | IAlu (o : op) (offset : Z).

(** Lines 19-22 and 30-34 of tagged_pe/sim.py, the same as 20-23 and 31-35 of
    sum_pe/sim.py. [neg.ite] takes its first argument for the vector 1. *)
Definition alu8 (o : op) (offset in0 in1 : Z) : Z :=
  match o with A => bvadd 8 (bvadd 8 in0 in1) offset | B => bvadd 8 (bvsub 8 in0 in1) offset end.
Definition bit8 (o : op) (neg in0 in1 : Z) : Z :=
  let res := match o with A => Z.land in0 in1 | B => Z.lor in0 in1 end in
  if neg =? 0 then res else bvnot 8 res.

(** tagged_pe/sim.py:14-34. *)
Definition tagged_call (i : inst) (in0 in1 in2 in3 : Z) : Z * Z :=
  match i with
  | IAlu o offset => (alu8 o offset in0 in1, in3)
  | IBit o neg => (bit8 o neg in0 in1, in3)
  end.

(** sum_pe/sim.py:14-35. [inv b] is the truth value of [~b] for the result [b]
    of [match]; reading the member that is not there is an error. *)
Definition sum_call (inv : bool -> bool) (i : inst) (in0 in1 in2 in3 : Z) : res (Z * Z) :=
  let is_bitop := inv (match i with IAlu _ _ => true | IBit _ _ => false end) in
  if negb is_bitop then
    match i with IAlu o offset => Ok (alu8 o offset in0 in1, in3) | _ => Err TypeError end
  else
    match i with IBit o neg => Ok (bit8 o neg in0 in1, in3) | _ => Err TypeError end.

(** ** The architecture as the mapper sees it *)
Inductive path := PInst | PBit0 | PBit1 | PAlu0 | PAlu1 | PIn0 | PIn1 | PIn2 | PIn3 | POut | POutBit | QIn0 | QIn1 | QOut.
Definition path_code (p : path) : Z :=
  match p with PInst => 0 | PBit0 => 1 | PBit1 => 2 | PAlu0 => 3 | PAlu1 => 4 | PIn0 => 5 | PIn1 => 6 | PIn2 => 7 | PIn3 => 8
             | POut => 9 | POutBit => 10 | QIn0 => 11 | QIn1 => 12 | QOut => 13 end.
Definition path_eqb (p q : path) : bool := path_code p =? path_code q.

(** Leaf types: words, the enum (two bits: 1 and 2), BitVector[1], Bit; the flag
    is Const. *)
Inductive lty := TWord (c : bool) | TOp (c : bool) | TBv1 (c : bool) | TBit (c : bool).
Definition lty_eqb (s t : lty) : bool :=
  match s, t with TWord c, TWord d | TOp c, TOp d | TBv1 c, TBv1 d | TBit c, TBit d => Bool.eqb c d | _, _ => false end.
Definition lty_const (t : lty) : bool := match t with TWord c | TOp c | TBv1 c | TBit c => c end.
Definition lty_vals (t : lty) : list Z :=
  match t with TWord _ => pyrange 0 256 | TOp _ => pyrange 0 4 | TBv1 _ | TBit _ => pyrange 0 2 end.

(** [op == isa.Op.A] on the two bits of the leaf. *)
Definition op_of (z : Z) : op := if z =? 1 then A else B.
Definition valid_op (z : Z) : bool := (z =? 1) || (z =? 2).

(** The instruction of a form's leaves. *)
Definition inst_of (alu : bool) (l : path -> Z) : inst :=
  if alu then IAlu (op_of (l PAlu0)) (l PAlu1) else IBit (op_of (l PBit0)) (l PBit1).
Definition pe_out (alu : bool) (l : path -> Z) (q : path) : Z :=
  let o := tagged_call (inst_of alu l) (l PIn0) (l PIn1) (l PIn2) (l PIn3) in
  match q with POut => fst o | _ => snd o end.
Definition pe_valid (alu : bool) (l : path -> Z) : bool := valid_op (l (if alu then PAlu0 else PBit0)).

Section Arch.
  (** Tags of the two members; whether the arithmetic member comes first. *)
  Variables (ta tb : Z) (first : bool).

  Definition form (alu : bool) : list path * list (path * Z) :=
    if alu then ([PAlu0; PAlu1; PIn0; PIn1; PIn2; PIn3], [(PInst, ta)])
    else ([PBit0; PBit1; PIn0; PIn1; PIn2; PIn3], [(PInst, tb)]).
  Definition is_alu (fi : nat) : bool := match fi with O => first | _ => negb first end.

  Definition small_arch (cs : list (path * list Z)) : arch path lty :=
    {| a_forms := [form first; form (negb first)];
       a_in := [(PBit0, TOp true); (PBit1, TBv1 true); (PAlu0, TOp true); (PAlu1, TWord true);
                (PIn0, TWord false); (PIn1, TWord false); (PIn2, TWord false); (PIn3, TBit false)];
       a_out := [(POut, TWord false); (POutBit, TBv1 false)];
       a_constr := cs; a_has_const := true;
       a_fsem := fun _ tags l q => pe_out (tags PInst =? ta) l q;
       a_sem := fun tags l q => pe_out (tags PInst =? ta) l q;
       a_fvalid := fun _ tags l => ((tags PInst =? ta) || (tags PInst =? tb)) && pe_valid (tags PInst =? ta) l;
       a_valid := fun tags l => ((tags PInst =? ta) || (tags PInst =? tb)) && pe_valid (tags PInst =? ta) l |}.
End Arch.

(** An instruction of two words or one. *)
Definition small_instr2 (f : Z -> Z -> Z) : instr path lty :=
  {| i_in := [(QIn0, TWord false); (QIn1, TWord false)]; i_out := [(QOut, TWord false)]; i_sem := fun x _ => f (x QIn0) (x QIn1) |}.
Definition small_instr1 (f : Z -> Z) : instr path lty :=
  {| i_in := [(QIn0, TWord false)]; i_out := [(QOut, TWord false)]; i_sem := fun x _ => f (x QIn0) |}.
Definition small_instr (o : irop) : instr path lty :=
  if unary o then small_instr1 (fun x => ir_call 8 o x 0) else small_instr2 (ir_call 8 o).
