(** R32I_mappable as the mapper sees it.
    Python source: examples/riscv/{isa,sim}.py; RegPeModel for the leaf types. *)
From Coq Require Import ZArith List Bool.
From Verif Require Import Base BvModel RiscvModel BindModel MapIdxModel MapModel RegPeModel.
Import ListNotations.
Open Scope list_scope.
Open Scope Z_scope.

(** The members of [Inst] (isa.py:157); the forms: OP and OP_IMM once for each
    member of the tagged union in them (isa.py:76-78, 121-123). *)
Inductive member := MOp | MImm | MLui | MAuipc | MJal | MJalr | MBr | MLd | MSt.
Inductive form := FOpA | FOpS | FImmA | FImmS | FLui | FAuipc | FJal | FJalr | FBr | FLd | FSt.
Definition all_forms : list form := [FOpA; FOpS; FImmA; FImmS; FLui; FAuipc; FJal; FJalr; FBr; FLd; FSt].
Definition member_of (f : form) : member :=
  match f with FOpA | FOpS => MOp | FImmA | FImmS => MImm | FLui => MLui | FAuipc => MAuipc | FJal => MJal | FJalr => MJalr
             | FBr => MBr | FLd => MLd | FSt => MSt end.

(** Leaves: the fields of the products; OP has one [data] for both members. *)
Inductive group := GOp | GIA | GIS | GLui | GAuipc | GJal | GJalr | GBr | GLd | GSt.
Inductive slot := SRd | SR1 | SR2 | SImm | STag | STagS.
(** VInst, VAlu, VImm are the paths of the tags; VIn0, VIn1, VRes belong to the
    IR instruction. *)
Inductive vpath := VFld (g : group) (s : slot) | VInst | VAlu | VImm | VPc | VR1 | VR2 | VRd | VNext | VOut | VIn0 | VIn1 | VRes.
Definition group_code (g : group) : Z :=
  match g with GOp => 1 | GIA => 2 | GIS => 3 | GLui => 4 | GAuipc => 5 | GJal => 6 | GJalr => 7 | GBr => 8 | GLd => 9 | GSt => 10 end.
Definition slot_code (s : slot) : Z := match s with SRd => 0 | SR1 => 1 | SR2 => 2 | SImm => 3 | STag => 4 | STagS => 5 end.
Definition vpath_code (p : vpath) : Z :=
  match p with
  | VFld g s => 16 * group_code g + slot_code s
  | VInst => 0 | VAlu => 1 | VImm => 2 | VPc => 3 | VR1 => 4 | VR2 => 5 | VRd => 6 | VNext => 7 | VOut => 8 | VIn0 => 9 | VIn1 => 10 | VRes => 11
  end.
Definition vpath_eqb (p q : vpath) : bool := vpath_code p =? vpath_code q.

(** Encodings of the enumerations and tags, chosen by the assembler, and the
    order of the forms. *)
Record vcode := mkV {
  eA : arith -> Z; wA : Z; eS : shift -> Z; wS : Z; eL : loadinst -> Z; wL : Z; eB : branchinst -> Z; wB : Z;
  tI : member -> Z; tOA : Z; tOS : Z; tMA : Z; tMS : Z; order : list form }.
Definition ariths : list arith := [ADD; SUB; SLT; SLTU; AND; OR; XOR].
Definition shifts : list shift := [SLL; SRL; SRA].
Definition loads : list loadinst := [LB; LBU; LH; LHU; LW; LWU; LD].
Definition branches : list branchinst := [BEQ; BNE; BLT; BLTU; BGE; BGEU].
Definition enc_ok {X} (e : X -> Z) (w : Z) : Prop := (forall x y, e x = e y -> x = y) /\ forall x, 0 <= e x < 2 ^ w.
Definition vcode_ok (V : vcode) : Prop :=
  enc_ok (eA V) (wA V) /\ enc_ok (eS V) (wS V) /\ enc_ok (eL V) (wL V) /\ enc_ok (eB V) (wB V) /\
  (forall m m', tI V m = tI V m' -> m = m') /\ tOA V <> tOS V /\ tMA V <> tMS V /\ forall f, In f (order V).

(** The member of an enumeration with these bits. *)
Definition isenc {X} (e : X -> Z) (all : list X) (z : Z) : bool := existsb (fun x => e x =? z) all.
Definition unenc {X} (e : X -> Z) (all : list X) (x0 : X) (z : Z) : X :=
  match find (fun x => e x =? z) all with Some x => x | None => x0 end.

Section Arch.
  Variables sdiv udiv srem urem : Z -> Z -> Z.
  Variables (V : vcode) (A : access) (cs : list (vpath * list Z)).

  (** isa.py:21-57 (data), 106-157 (members); Const(isa.Inst), sim.py:235. *)
  Definition leaves (f : form) : list (vpath * mty) :=
    let r g s := (VFld g s, MConst 5) in
    match f with
    | FOpA => [r GOp SRd; r GOp SR1; r GOp SR2; (VFld GOp STag, MConst (wA V))]
    | FOpS => [r GOp SRd; r GOp SR1; r GOp SR2; (VFld GOp STagS, MConst (wS V))]
    | FImmA => [r GIA SRd; r GIA SR1; (VFld GIA SImm, MConst 12); (VFld GIA STag, MConst (wA V))]
    | FImmS => [r GIS SRd; r GIS SR1; (VFld GIS SImm, MConst 5); (VFld GIS STag, MConst (wS V))]
    | FLui => [r GLui SRd; (VFld GLui SImm, MConst 20)]
    | FAuipc => [r GAuipc SRd; (VFld GAuipc SImm, MConst 20)]
    | FJal => [r GJal SRd; (VFld GJal SImm, MConst 20)]
    | FJalr => [r GJalr SRd; r GJalr SR1; (VFld GJalr SImm, MConst 12)]
    | FBr => [r GBr SR1; r GBr SR2; (VFld GBr SImm, MConst 12); (VFld GBr STag, MConst (wB V))]
    | FLd => [r GLd SRd; r GLd SR1; (VFld GLd SImm, MConst 12); (VFld GLd STag, MConst (wL V))]
    | FSt => [r GSt SR1; r GSt SR2; (VFld GSt SImm, MConst 12); (VFld GSt STag, MConst (wL V))]
    end.
  Definition vconsts : list (vpath * mty) :=
    leaves FOpA ++ [(VFld GOp STagS, MConst (wS V))] ++ leaves FImmA ++ leaves FImmS ++ leaves FLui ++ leaves FAuipc ++
    leaves FJal ++ leaves FJalr ++ leaves FBr ++ leaves FLd ++ leaves FSt.
  (** sim.py:234-240 *)
  Definition vfree : list (vpath * mty) := [(VPc, MPc); (VR1, MWord); (VR2, MWord); (VRd, MInit)].

  (** Tags of the sum and of the two tagged unions: isa.py:76-78, 121-123, 157. *)
  Definition vtags (f : form) : list (vpath * Z) :=
    (VInst, tI V (member_of f)) ::
    match f with FOpA => [(VAlu, tOA V)] | FOpS => [(VAlu, tOS V)] | FImmA => [(VImm, tMA V)] | FImmS => [(VImm, tMS V)] | _ => [] end.
  Definition form_of (tags : vpath -> Z) : option form := find (fun f => forallb (fun d => tags (fst d) =? snd d) (vtags f)) all_forms.

  (** The instruction with these leaves. *)
  Definition vdec (f : form) (l : vpath -> Z) : inst :=
    let v g s := l (VFld g s) in
    match f with
    | FOpA => OP (mkR (v GOp SRd) (v GOp SR1) (v GOp SR2)) (aArith (unenc (eA V) ariths XOR (v GOp STag)))
    | FOpS => OP (mkR (v GOp SRd) (v GOp SR1) (v GOp SR2)) (aShift (unenc (eS V) shifts SRA (v GOp STagS)))
    | FImmA => OP_IMM (oArith (mkI (v GIA SRd) (v GIA SR1) (v GIA SImm)) (unenc (eA V) ariths XOR (v GIA STag)))
    | FImmS => OP_IMM (oShift (mkIs (v GIS SRd) (v GIS SR1) (v GIS SImm)) (unenc (eS V) shifts SRA (v GIS STag)))
    | FLui => LUI (mkU (v GLui SRd) (v GLui SImm))
    | FAuipc => AUIPC (mkU (v GAuipc SRd) (v GAuipc SImm))
    | FJal => JAL (mkJ (v GJal SRd) (v GJal SImm))
    | FJalr => JALR (mkI (v GJalr SRd) (v GJalr SR1) (v GJalr SImm))
    | FBr => Branch (mkB (v GBr SR1) (v GBr SR2) (v GBr SImm)) (unenc (eB V) branches BGEU (v GBr STag))
    | FLd => Load (mkI (v GLd SRd) (v GLd SR1) (v GLd SImm)) (unenc (eL V) loads LD (v GLd STag))
    | FSt => Store (mkS (v GSt SR1) (v GSt SR2) (v GSt SImm)) (unenc (eL V) loads LD (v GSt STag))
    end.
  (** Bits that are no member of an enumeration are not an instruction (mapper.py:147, 208-212). *)
  Definition vvalid (f : form) (l : vpath -> Z) : bool :=
    match f with
    | FOpA => isenc (eA V) ariths (l (VFld GOp STag)) | FOpS => isenc (eS V) shifts (l (VFld GOp STagS))
    | FImmA => isenc (eA V) ariths (l (VFld GIA STag)) | FImmS => isenc (eS V) shifts (l (VFld GIS STag))
    | FBr => isenc (eB V) branches (l (VFld GBr STag))
    | FLd => isenc (eL V) loads (l (VFld GLd STag)) | FSt => isenc (eL V) loads (l (VFld GSt STag))
    | _ => true
    end.
  (** sim.py:234-247 *)
  Definition vsem (i : inst) (l : vpath -> Z) (q : vpath) : Z :=
    let r := mappable sdiv udiv srem urem A Base32 i (l VPc) (l VR1) (l VR2) (l VRd) in
    match q with VNext => fst r | _ => snd r end.

  (** What the mapper takes from the class (mapper.py:101-187). *)
  Definition riscv_arch : arch vpath mty :=
    {| a_forms := map (fun f => (map fst (leaves f ++ vfree), vtags f)) (order V);
       a_in := vconsts ++ vfree;
       a_out := [(VNext, MPc); (VOut, MWord)];
       a_constr := cs; a_has_const := true;
       a_fsem := fun _ tags l q => match form_of tags with Some f => vsem (vdec f l) l q | None => 0 end;
       a_sem := fun tags l q => match form_of tags with Some f => vsem (vdec f l) l q | None => 0 end;
       a_fvalid := fun _ tags l => match form_of tags with Some f => vvalid f l | None => false end;
       a_valid := fun tags l => match form_of tags with Some f => vvalid f l | None => false end |}.
End Arch.
