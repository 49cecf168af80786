(** R32I_mappable of examples/riscv_m and examples/riscv_ext as the mapper sees it.
    Python source: examples/riscv_m/{isa,sim}.py, examples/riscv_ext/{isa,sim}.py; what they share with examples/riscv is cited
    by the lines there. Like RiscvMapModel, with the core as a parameter and the forms of the multiply/divide and bit
    counting instructions, and with a pc that is a plain word. *)
From Coq Require Import ZArith List Bool.
From Verif Require Import Base BvModel RiscvModel BindModel MapIdxModel MapModel RegPeModel RiscvMapModel.
Import ListNotations.
Open Scope list_scope.
Open Scope Z_scope.

(** The members of [Inst] (isa.py:157, riscv_ext/isa.py:36); the forms: OP and OP_IMM once for each
    member of the tagged union in them (isa.py:76-78, 121-123, riscv_m/isa.py:88-91). *)
Inductive x_member := XMOp | XMImm | XMLui | XMAuipc | XMJal | XMJalr | XMBr | XMLd | XMSt | XMExt.
Inductive x_form := XFOpA | XFOpS | XFImmA | XFImmS | XFLui | XFAuipc | XFJal | XFJalr | XFBr | XFLd | XFSt | XFOpM | XFExt.
Definition x_all_forms : list x_form := [XFOpA; XFOpS; XFImmA; XFImmS; XFLui; XFAuipc; XFJal; XFJalr; XFBr; XFLd; XFSt; XFOpM; XFExt].
(** The forms a core has. *)
Definition x_has (c : core) (f : x_form) : bool :=
  match f, c with XFOpM, CoreM => true | XFOpM, _ => false | XFExt, CoreExt => true | XFExt, _ => false | _, _ => true end.
Definition x_member_of (f : x_form) : x_member :=
  match f with XFOpA | XFOpS | XFOpM => XMOp | XFImmA | XFImmS => XMImm | XFLui => XMLui | XFAuipc => XMAuipc | XFJal => XMJal | XFJalr => XMJalr
             | XFBr => XMBr | XFLd => XMLd | XFSt => XMSt | XFExt => XMExt end.

(** Leaves: the fields of the products; OP has one [data] for all members. *)
Inductive x_group := XGOp | XGIA | XGIS | XGLui | XGAuipc | XGJal | XGJalr | XGBr | XGLd | XGSt | XGExt.
Inductive x_slot := XSRd | XSR1 | XSR2 | XSImm | XSTag | XSTagS | XSTagM.
(** VInst, VAlu, VImm are the paths of the tags; VIn0, VIn1, VRes belong to the
    IR instruction. *)
Inductive x_vpath := XVFld (g : x_group) (s : x_slot) | XVInst | XVAlu | XVImm | XVPc | XVR1 | XVR2 | XVRd | XVNext | XVOut | XVIn0 | XVIn1 | XVRes.
Definition x_group_code (g : x_group) : Z :=
  match g with XGOp => 1 | XGIA => 2 | XGIS => 3 | XGLui => 4 | XGAuipc => 5 | XGJal => 6 | XGJalr => 7 | XGBr => 8 | XGLd => 9 | XGSt => 10 | XGExt => 11 end.
Definition x_slot_code (s : x_slot) : Z := match s with XSRd => 0 | XSR1 => 1 | XSR2 => 2 | XSImm => 3 | XSTag => 4 | XSTagS => 5 | XSTagM => 6 end.
Definition x_vpath_code (p : x_vpath) : Z :=
  match p with
  | XVFld g s => 16 * x_group_code g + x_slot_code s
  | XVInst => 0 | XVAlu => 1 | XVImm => 2 | XVPc => 3 | XVR1 => 4 | XVR2 => 5 | XVRd => 6 | XVNext => 7 | XVOut => 8 | XVIn0 => 9 | XVIn1 => 10 | XVRes => 11
  end.
Definition x_vpath_eqb (p q : x_vpath) : bool := x_vpath_code p =? x_vpath_code q.

(** Encodings of the enumerations and tags, chosen by the assembler, and the
    order of the forms. *)
Record x_vcode := x_mkV {
  x_eA : arith -> Z; x_wA : Z; x_eS : shift -> Z; x_wS : Z; x_eL : loadinst -> Z; x_wL : Z; x_eB : branchinst -> Z; x_wB : Z;
  x_eM : muldiv -> Z; x_wM : Z; x_eE : bitinst -> Z; x_wE : Z;
  x_tI : x_member -> Z; x_tOA : Z; x_tOS : Z; x_tOM : Z; x_tMA : Z; x_tMS : Z; x_order : list x_form }.
Definition muldivs : list muldiv := [MUL; MULH; MULHU; MULHSU; DIV; DIVU; REM; REMU].
Definition bitinsts : list bitinst := [POPCNT; CNTLZ; CNTTZ].
Definition x_vcode_ok (c : core) (V : x_vcode) : Prop :=
  enc_ok (x_eA V) (x_wA V) /\ enc_ok (x_eS V) (x_wS V) /\ enc_ok (x_eL V) (x_wL V) /\ enc_ok (x_eB V) (x_wB V) /\
  enc_ok (x_eM V) (x_wM V) /\ enc_ok (x_eE V) (x_wE V) /\
  (forall m m', x_tI V m = x_tI V m' -> m = m') /\ x_tOA V <> x_tOS V /\ x_tOA V <> x_tOM V /\ x_tOS V <> x_tOM V /\ x_tMA V <> x_tMS V /\
  forall f, In f (x_order V) <-> x_has c f = true.

Section Arch.
  Variables sdiv udiv srem urem : Z -> Z -> Z.
  Variables (c : core) (V : x_vcode) (A : access) (cs : list (x_vpath * list Z)).

  (** isa.py:21-57 (data), 106-157 (members); Const(isa.Inst), sim.py:235. *)
  Definition x_leaves (f : x_form) : list (x_vpath * mty) :=
    let r g s := (XVFld g s, MConst 5) in
    match f with
    | XFOpA => [r XGOp XSRd; r XGOp XSR1; r XGOp XSR2; (XVFld XGOp XSTag, MConst (x_wA V))]
    | XFOpS => [r XGOp XSRd; r XGOp XSR1; r XGOp XSR2; (XVFld XGOp XSTagS, MConst (x_wS V))]
    | XFImmA => [r XGIA XSRd; r XGIA XSR1; (XVFld XGIA XSImm, MConst 12); (XVFld XGIA XSTag, MConst (x_wA V))]
    | XFImmS => [r XGIS XSRd; r XGIS XSR1; (XVFld XGIS XSImm, MConst 5); (XVFld XGIS XSTag, MConst (x_wS V))]
    | XFLui => [r XGLui XSRd; (XVFld XGLui XSImm, MConst 20)]
    | XFAuipc => [r XGAuipc XSRd; (XVFld XGAuipc XSImm, MConst 20)]
    | XFJal => [r XGJal XSRd; (XVFld XGJal XSImm, MConst 20)]
    | XFJalr => [r XGJalr XSRd; r XGJalr XSR1; (XVFld XGJalr XSImm, MConst 12)]
    | XFBr => [r XGBr XSR1; r XGBr XSR2; (XVFld XGBr XSImm, MConst 12); (XVFld XGBr XSTag, MConst (x_wB V))]
    | XFLd => [r XGLd XSRd; r XGLd XSR1; (XVFld XGLd XSImm, MConst 12); (XVFld XGLd XSTag, MConst (x_wL V))]
    | XFSt => [r XGSt XSR1; r XGSt XSR2; (XVFld XGSt XSImm, MConst 12); (XVFld XGSt XSTag, MConst (x_wL V))]
    | XFOpM => [r XGOp XSRd; r XGOp XSR1; r XGOp XSR2; (XVFld XGOp XSTagM, MConst (x_wM V))]
    | XFExt => [r XGExt XSRd; r XGExt XSR1; (XVFld XGExt XSTag, MConst (x_wE V))]
    end.
  Definition x_vconsts : list (x_vpath * mty) :=
    x_leaves XFOpA ++ [(XVFld XGOp XSTagS, MConst (x_wS V))] ++ (if x_has c XFOpM then [(XVFld XGOp XSTagM, MConst (x_wM V))] else []) ++
    (if x_has c XFExt then x_leaves XFExt else []) ++ x_leaves XFImmA ++ x_leaves XFImmS ++ x_leaves XFLui ++ x_leaves XFAuipc ++
    x_leaves XFJal ++ x_leaves XFJalr ++ x_leaves XFBr ++ x_leaves XFLd ++ x_leaves XFSt.
  (** riscv_m/sim.py:250-256, riscv_ext/sim.py:295-301: unlike in examples/riscv the pc is a plain word. *)
  Definition x_vfree : list (x_vpath * mty) := [(XVPc, MWord); (XVR1, MWord); (XVR2, MWord); (XVRd, MInit)].

  (** Tags of the sum and of the two tagged unions: isa.py:76-78, 121-123, 157. *)
  Definition x_vtags (f : x_form) : list (x_vpath * Z) :=
    (XVInst, x_tI V (x_member_of f)) ::
    match f with XFOpA => [(XVAlu, x_tOA V)] | XFOpS => [(XVAlu, x_tOS V)] | XFOpM => [(XVAlu, x_tOM V)] | XFImmA => [(XVImm, x_tMA V)] | XFImmS => [(XVImm, x_tMS V)] | _ => [] end.
  Definition x_form_of (tags : x_vpath -> Z) : option x_form := find (fun f => forallb (fun d => tags (fst d) =? snd d) (x_vtags f)) (filter (x_has c) x_all_forms).

  (** The instruction with these leaves. *)
  Definition x_vdec (f : x_form) (l : x_vpath -> Z) : inst :=
    let v g s := l (XVFld g s) in
    match f with
    | XFOpA => OP (mkR (v XGOp XSRd) (v XGOp XSR1) (v XGOp XSR2)) (aArith (unenc (x_eA V) ariths XOR (v XGOp XSTag)))
    | XFOpS => OP (mkR (v XGOp XSRd) (v XGOp XSR1) (v XGOp XSR2)) (aShift (unenc (x_eS V) shifts SRA (v XGOp XSTagS)))
    | XFImmA => OP_IMM (oArith (mkI (v XGIA XSRd) (v XGIA XSR1) (v XGIA XSImm)) (unenc (x_eA V) ariths XOR (v XGIA XSTag)))
    | XFImmS => OP_IMM (oShift (mkIs (v XGIS XSRd) (v XGIS XSR1) (v XGIS XSImm)) (unenc (x_eS V) shifts SRA (v XGIS XSTag)))
    | XFLui => LUI (mkU (v XGLui XSRd) (v XGLui XSImm))
    | XFAuipc => AUIPC (mkU (v XGAuipc XSRd) (v XGAuipc XSImm))
    | XFJal => JAL (mkJ (v XGJal XSRd) (v XGJal XSImm))
    | XFJalr => JALR (mkI (v XGJalr XSRd) (v XGJalr XSR1) (v XGJalr XSImm))
    | XFBr => Branch (mkB (v XGBr XSR1) (v XGBr XSR2) (v XGBr XSImm)) (unenc (x_eB V) branches BGEU (v XGBr XSTag))
    | XFLd => Load (mkI (v XGLd XSRd) (v XGLd XSR1) (v XGLd XSImm)) (unenc (x_eL V) loads LD (v XGLd XSTag))
    | XFSt => Store (mkS (v XGSt XSR1) (v XGSt XSR2) (v XGSt XSImm)) (unenc (x_eL V) loads LD (v XGSt XSTag))
    | XFOpM => OP (mkR (v XGOp XSRd) (v XGOp XSR1) (v XGOp XSR2)) (aMulDiv (unenc (x_eM V) muldivs REMU (v XGOp XSTagM)))
    | XFExt => Ext (mkE (v XGExt XSRd) (v XGExt XSR1)) (unenc (x_eE V) bitinsts CNTTZ (v XGExt XSTag))
    end.
  (** Bits that are no member of an enumeration are not an instruction (mapper.py:147, 208-212). *)
  Definition x_vvalid (f : x_form) (l : x_vpath -> Z) : bool :=
    match f with
    | XFOpA => isenc (x_eA V) ariths (l (XVFld XGOp XSTag)) | XFOpS => isenc (x_eS V) shifts (l (XVFld XGOp XSTagS))
    | XFImmA => isenc (x_eA V) ariths (l (XVFld XGIA XSTag)) | XFImmS => isenc (x_eS V) shifts (l (XVFld XGIS XSTag))
    | XFBr => isenc (x_eB V) branches (l (XVFld XGBr XSTag))
    | XFLd => isenc (x_eL V) loads (l (XVFld XGLd XSTag)) | XFSt => isenc (x_eL V) loads (l (XVFld XGSt XSTag))
    | XFOpM => isenc (x_eM V) muldivs (l (XVFld XGOp XSTagM)) | XFExt => isenc (x_eE V) bitinsts (l (XVFld XGExt XSTag))
    | _ => true
    end.
  (** sim.py:234-247; riscv_m/sim.py:249-262; riscv_ext/sim.py:295-307 *)
  Definition x_vsem (i : inst) (l : x_vpath -> Z) (q : x_vpath) : Z :=
    let r := mappable sdiv udiv srem urem A c i (l XVPc) (l XVR1) (l XVR2) (l XVRd) in
    match q with XVNext => fst r | _ => snd r end.

  (** What the mapper takes from the class (mapper.py:101-187). *)
  Definition x_riscv_arch : arch x_vpath mty :=
    {| a_forms := map (fun f => (map fst (x_leaves f ++ x_vfree), x_vtags f)) (x_order V);
       a_in := x_vconsts ++ x_vfree;
       a_out := [(XVNext, MWord); (XVOut, MWord)]; (* riscv_m/sim.py:249, riscv_ext/sim.py:294 *)
       a_constr := cs; a_has_const := true;
       a_fsem := fun _ tags l q => match x_form_of tags with Some f => x_vsem (x_vdec f l) l q | None => 0 end;
       a_sem := fun tags l q => match x_form_of tags with Some f => x_vsem (x_vdec f l) l q | None => 0 end;
       a_fvalid := fun _ tags l => match x_form_of tags with Some f => x_vvalid f l | None => false end;
       a_valid := fun tags l => match x_form_of tags with Some f => x_vvalid f l | None => false end |}.
End Arch.
