(** The PEs with floating point boxes and the IR they are mapped to.
    Python source: examples/fp_pe/sim.py, tests/test_black_box_rr.py:14-63,
    examples/smallir/ir.py, peak/float.py:286-350 (the boxes with a constant rounding
    mode).

    Words are integers below [2 ^ w]; the PE has [w = 16], the one of [test_simple] has
    [w = 8]. *)
From Coq Require Import ZArith List Bool.
From Verif Require Import Base BvModel BindModel MapIdxModel MapModel BBFormModel MapBBModel SmallPeModel.
Import ListNotations.
Open Scope list_scope.
Open Scope Z_scope.

(** ** Instructions (sim.py:10-13, 42-47, 70-77) *)
Inductive aluop := AAdd | ASub | AOr | AAnd | AXor.
Inductive fpuop := FAdd | FMul | FSqrt.
Inductive fop := OAlu (o : aluop) | OFpu (o : fpuop).
Record finst := mkFinst { f_op : fop; f_imm : Z; f_use : bool }.

Definition aluop_val (o : aluop) : Z := match o with AAdd => 1 | ASub => 2 | AOr => 3 | AAnd => 4 | AXor => 5 end.
Definition fpuop_val (o : fpuop) : Z := match o with FAdd => 0 | FMul => 2 | FSqrt => 3 end.

(** [op == ALU_op.Add] and so on, on the bits (55-64, 33-38). *)
Definition aluop_of (z : Z) : aluop :=
  if z =? 1 then AAdd else if z =? 2 then ASub else if z =? 4 then AAnd else if z =? 3 then AOr else AXor.
Definition fpuop_of (z : Z) : fpuop := if z =? 0 then FAdd else if z =? 2 then FMul else FSqrt.
Definition aluop_valid (z : Z) : bool := (1 <=? z) && (z <=? 5).
Definition fpuop_valid (z : Z) : bool := (z =? 0) || (z =? 2) || (z =? 3).

(** [ALU.__call__] (54-65). *)
Definition alu (w : Z) (o : aluop) (a b : Z) : Z :=
  match o with
  | AAdd => bvadd w a b
  | ASub => bvsub w a b
  | AAnd => Z.land a b
  | AOr => Z.lor a b
  | AXor => Z.lxor a b
  end.

(** Classes of boxes: the three of the PE (21-23), and any others of one word or two. *)
Inductive fcls := CAdd | CMul | CSqrt | COther (two : bool) (n : Z).
Definition fcls_eqb (c d : fcls) : bool :=
  match c, d with
  | CAdd, CAdd | CMul, CMul | CSqrt, CSqrt => true
  | COther t n, COther u m => Bool.eqb t u && (n =? m)
  | _, _ => false
  end.
Definition fcls_nin (c : fcls) : nat := match c with CAdd | CMul => 2 | CSqrt => 1 | COther two _ => if two then 2 else 1 end%nat.

(** [inst.op.alu.value] of an instruction of the other member reads other bits. *)
Record faccess := mkFacc { v_alu : fop -> aluop; v_fpu : fop -> fpuop }.
Definition facc_ok (A : faccess) : Prop := (forall o, v_alu A (OAlu o) = o) /\ (forall o, v_fpu A (OFpu o) = o).
Definition m_alu (o : fop) : bool := match o with OAlu _ => true | OFpu _ => false end.

(** [PE.__call__] with [FPU.__call__] in the SMT family (90-100, 29-38): the boxes are
    the objects 0, 1, 2 and are always called. *)
Definition fp_prog (A : faccess) (w : Z) (i : finst) (a b : Z) : comp Z Z :=
  let b := if f_use i then f_imm i else b in
  let alu_out := alu w (v_alu A (f_op i)) a b in
  Call 0 [a; b] (fun add_out => Call 1 [a; b] (fun mul_out => Call 2 [a] (fun sqrt_out =>
    let fpu_out := match v_fpu A (f_op i) with FAdd => hd 0 add_out | FMul => hd 0 mul_out | FSqrt => hd 0 sqrt_out end in
    Ret (if m_alu (f_op i) then alu_out else fpu_out)))).

(** [Arch.__call__] of test_simple (test_black_box_rr.py:39-44). *)
Inductive sop := SAdd | SFp.
Definition sop_val (o : sop) : Z := match o with SAdd => 1 | SFp => 2 end.
Definition sop_of (z : Z) : sop := if z =? 1 then SAdd else SFp.
Definition sop_valid (z : Z) : bool := (z =? 1) || (z =? 2).
Definition simple_prog (w : Z) (o : sop) (a b : Z) : comp Z Z :=
  Call 0 [a; b] (fun fpadd => Ret (match o with SAdd => bvadd w a b | SFp => hd 0 fpadd end)).

(** ** As the mapper sees them *)

(** Paths of the architectures and of the IR instruction. *)
Inductive fpath := FInst | FAluP | FFpuP | FImmP | FUseP | FSop | FA | FB | FOut | FQ0 | FQ1 | FQo.
Definition fpath_code (p : fpath) : Z :=
  match p with FInst => 0 | FAluP => 1 | FFpuP => 2 | FImmP => 3 | FUseP => 4 | FSop => 5 | FA => 6 | FB => 7 | FOut => 8
             | FQ0 => 9 | FQ1 => 10 | FQo => 11 end.
Definition fpath_eqb (p q : fpath) : bool := fpath_code p =? fpath_code q.

(** Leaf types: words, and Const fields with their width. *)
Inductive fty := TWd | TConst (v : Z).
Definition fty_eqb (s t : fty) : bool := match s, t with TWd, TWd => true | TConst v, TConst u => v =? u | _, _ => false end.
Definition fty_const (t : fty) : bool := match t with TConst _ => true | TWd => false end.
Definition fty_vals (w : Z) (t : fty) : list Z := pyrange 0 (2 ^ match t with TConst v => v | TWd => w end).

(** The result of a run as the value of every output. *)
Fixpoint to_out {D A B} (g : A -> B) (c : comp D A) : comp D B :=
  match c with
  | Ret a => Ret (g a)
  | Call o ins k => Call o ins (fun out => to_out g (k out))
  end.
Definition outp (c : comp Z Z) : comp Z (fpath -> Z) := to_out (fun z _ => z) c.

Section Arch.
  (** Tags of the two members, whether [alu] comes first. *)
  Variables (A : faccess) (w ta tf : Z) (first : bool).

  Definition fform (al : bool) : list fpath * list (fpath * Z) :=
    if al then ([FAluP; FImmP; FUseP; FA; FB], [(FInst, ta)]) else ([FFpuP; FImmP; FUseP; FA; FB], [(FInst, tf)]).
  Definition f_alu (fi : nat) : bool := match fi with O => first | _ => negb first end.
  Definition fdec (al : bool) (l : fpath -> Z) : finst :=
    mkFinst (if al then OAlu (aluop_of (l FAluP)) else OFpu (fpuop_of (l FFpuP))) (l FImmP) (negb (l FUseP =? 0)).
  Definition fvalid (al : bool) (l : fpath -> Z) : bool := if al then aluop_valid (l FAluP) else fpuop_valid (l FFpuP).

  (** The parts of the architecture other than its run. No constraints. *)
  Definition fp_arch : arch fpath fty :=
    {| a_forms := [fform first; fform (negb first)];
       a_in := [(FAluP, TConst 3); (FFpuP, TConst 2); (FImmP, TConst w); (FUseP, TConst 1); (FA, TWd); (FB, TWd)];
       a_out := [(FOut, TWd)];
       a_constr := []; a_has_const := true;
       a_fsem := fun _ _ _ _ => 0; a_sem := fun _ _ _ => 0;
       a_fvalid := fun _ tags l => ((tags FInst =? ta) || (tags FInst =? tf)) && fvalid (tags FInst =? ta) l;
       a_valid := fun tags l => ((tags FInst =? ta) || (tags FInst =? tf)) && fvalid (tags FInst =? ta) l |}.

  Definition simple_arch : arch fpath fty :=
    {| a_forms := [([FSop; FA; FB], [])];
       a_in := [(FSop, TConst 2); (FA, TWd); (FB, TWd)];
       a_out := [(FOut, TWd)];
       a_constr := []; a_has_const := true;
       a_fsem := fun _ _ _ _ => 0; a_sem := fun _ _ _ => 0;
       a_fvalid := fun _ _ l => sop_valid (l FSop);
       a_valid := fun _ l => sop_valid (l FSop) |}.
End Arch.

(** ** IR instructions of one or two words, with boxes

    [ir_objs]: the black boxes, numbered from 3, [ir_cls]: their classes. *)
Record fir := mkFir { ir_two : bool; ir_objs : list nat; ir_cls : nat -> fcls; ir_prog : Z -> Z -> comp Z Z }.
Definition fp_instr (i : fir) : instr fpath fty :=
  {| i_in := if ir_two i then [(FQ0, TWd); (FQ1, TWd)] else [(FQ0, TWd)]; i_out := [(FQo, TWd)]; i_sem := fun _ _ => 0 |}.
Definition box_cls (i : fir) (o : nat) : fcls :=
  match o with 0 => CAdd | 1 => CMul | 2 => CSqrt | _ => ir_cls i o end%nat.
Definition fir_prog (i : fir) (x : fpath -> Z) : comp Z (fpath -> Z) := outp (ir_prog i (x FQ0) (if ir_two i then x FQ1 else 0)).

Definition fp_boxed (A : faccess) (w ta tf : Z) (first : bool) (i : fir) : boxed fpath fty fcls :=
  {| b_arch := fp_arch w ta tf first; b_instr := fp_instr i; b_aobjs := [0; 1; 2]%nat; b_iobjs := ir_objs i;
     b_prog := fun tags l => outp (fp_prog A w (fdec (tags FInst =? ta) l) (l FA) (l FB));
     b_iprog := fir_prog i; b_cls := box_cls i; b_nout := fun _ => 1%nat |}.
Definition simple_boxed (w : Z) (i : fir) : boxed fpath fty fcls :=
  {| b_arch := simple_arch; b_instr := fp_instr i; b_aobjs := [0]%nat; b_iobjs := ir_objs i;
     b_prog := fun _ l => outp (simple_prog w (sop_of (l FSop)) (l FA) (l FB));
     b_iprog := fir_prog i; b_cls := box_cls i; b_nout := fun _ => 1%nat |}.

(** Instructions without boxes, and a box as the instruction itself: its run is its
    [__call__], and it is its only black box ([get_black_boxes], black_box.py:12-13). *)
Definition ir_pure1 (f : Z -> Z) : fir := mkFir false [] (fun _ => CAdd) (fun x _ => Ret (f x)).
Definition ir_pure2 (f : Z -> Z -> Z) : fir := mkFir true [] (fun _ => CAdd) (fun x y => Ret (f x y)).
Definition ir_box (c : fcls) : fir :=
  mkFir (Nat.eqb (fcls_nin c) 2) [3%nat] (fun _ => c)
    (fun x y => Call 3 (if Nat.eqb (fcls_nin c) 2 then [x; y] else [x]) (fun out => Ret (hd 0 out))).
(** The instructions of [gen_SmallIR(w)] (ir.py:19-31). *)
Definition small_fir (w : Z) (o : irop) : fir :=
  if unary o then ir_pure1 (fun x => ir_call w o x 0) else ir_pure2 (ir_call w o).
