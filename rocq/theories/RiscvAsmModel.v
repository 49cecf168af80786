(** The assembler helpers of the RISC-V examples: asm_*, set_fields, get_fields,
    and the instruction-set namespaces.
    Python sources: examples/riscv/asm.py (examples/riscv_m/asm.py is the same
    text), examples/riscv_ext/{asm,isa}.py. Definitions only. *)
From Coq Require Import ZArith List Bool.
From Verif Require Import Base BvModel RiscvModel.
Import ListNotations.
Open Scope Z_scope.

(** ** Layouts *)

(** Names of the fields of the layout products. *)
Inductive fname := Frs1 | Frs2 | Frd | Fimm | Frs.
Definition fname_eqb (a b : fname) : bool :=
  match a, b with
  | Frs1, Frs1 | Frs2, Frs2 | Frd, Frd | Fimm, Fimm | Frs, Frs => true
  | _, _ => false
  end.

(** The layout classes, isa.py:21-57, riscv_ext/isa.py:16-18. *)
Inductive layout := LR | LI | LIs | LS | LU | LB | LJ | LE.

(** [T.field_dict]: names and sizes. *)
Definition field_dict (l : layout) : list (fname * Z) :=
  match l with
  | LR => [(Frd, 5); (Frs1, 5); (Frs2, 5)]
  | LI => [(Frd, 5); (Frs1, 5); (Fimm, 12)]
  | LIs => [(Frd, 5); (Frs1, 5); (Fimm, 5)]
  | LS => [(Frs1, 5); (Frs2, 5); (Fimm, 12)]
  | LU => [(Frd, 5); (Fimm, 20)]
  | LB => [(Frs1, 5); (Frs2, 5); (Fimm, 12)]
  | LJ => [(Frd, 5); (Fimm, 20)]
  | LE => [(Frd, 5); (Frs, 5)]
  end.

(** An instance of a layout class. *)
Inductive data :=
| DR (d : dR) | DI (d : dI) | DIs (d : dIs) | DS (d : dS) | DU (d : dU)
| DB (d : dB) | DJ (d : dJ) | DE (d : dE).

Definition type_of (d : data) : layout :=
  match d with
  | DR _ => LR | DI _ => LI | DIs _ => LIs | DS _ => LS | DU _ => LU
  | DB _ => LB | DJ _ => LJ | DE _ => LE
  end.

(** [getattr(data, name)] *)
Definition data_get (d : data) (f : fname) : res Z :=
  match d, f with
  | DR r, Frd => Ok (r_rd r) | DR r, Frs1 => Ok (r_rs1 r) | DR r, Frs2 => Ok (r_rs2 r)
  | DI r, Frd => Ok (i_rd r) | DI r, Frs1 => Ok (i_rs1 r) | DI r, Fimm => Ok (i_imm r)
  | DIs r, Frd => Ok (is_rd r) | DIs r, Frs1 => Ok (is_rs1 r) | DIs r, Fimm => Ok (is_imm r)
  | DS r, Frs1 => Ok (s_rs1 r) | DS r, Frs2 => Ok (s_rs2 r) | DS r, Fimm => Ok (s_imm r)
  | DU r, Frd => Ok (u_rd r) | DU r, Fimm => Ok (u_imm r)
  | DB r, Frs1 => Ok (b_rs1 r) | DB r, Frs2 => Ok (b_rs2 r) | DB r, Fimm => Ok (b_imm r)
  | DJ r, Frd => Ok (j_rd r) | DJ r, Fimm => Ok (j_imm r)
  | DE r, Frd => Ok (e_rd r) | DE r, Frs => Ok (e_rs r)
  | _, _ => Err AttributeError
  end.

(** [data_type( **kwargs)]: a missing keyword is a TypeError. The callers pass
    only names of the type, so the check for unknown names is left out. *)
Definition kw (k : list (fname * Z)) (f : fname) : res Z :=
  match dget fname_eqb k f with Some v => Ok v | None => Err TypeError end.

Definition data_new (l : layout) (k : list (fname * Z)) : res data :=
  match l with
  | LR => do a <- kw k Frd; do b <- kw k Frs1; do c <- kw k Frs2; Ok (DR (mkR a b c))
  | LI => do a <- kw k Frd; do b <- kw k Frs1; do c <- kw k Fimm; Ok (DI (mkI a b c))
  | LIs => do a <- kw k Frd; do b <- kw k Frs1; do c <- kw k Fimm; Ok (DIs (mkIs a b c))
  | LS => do a <- kw k Frs1; do b <- kw k Frs2; do c <- kw k Fimm; Ok (DS (mkS a b c))
  | LU => do a <- kw k Frd; do b <- kw k Fimm; Ok (DU (mkU a b))
  | LB => do a <- kw k Frs1; do b <- kw k Frs2; do c <- kw k Fimm; Ok (DB (mkB a b c))
  | LJ => do a <- kw k Frd; do b <- kw k Fimm; Ok (DJ (mkJ a b))
  | LE => do a <- kw k Frd; do b <- kw k Frs; Ok (DE (mkE a b))
  end.

(** ** Constructors and _unpack *)

(** Members of the sum [isa.Inst]. *)
Inductive itype := TOP | TOPIMM | TLUI | TAUIPC | TJAL | TJALR | TBranch | TLoad | TStore | TExt.
Definition itype_eqb (a b : itype) : bool :=
  match a, b with
  | TOP, TOP | TOPIMM, TOPIMM | TLUI, TLUI | TAUIPC, TAUIPC | TJAL, TJAL | TJALR, TJALR
  | TBranch, TBranch | TLoad, TLoad | TStore, TStore | TExt, TExt => true
  | _, _ => false
  end.

Inductive tag :=
| tArith (t : arith) | tShift (t : shift) | tMulDiv (t : muldiv)
| tLoad (t : loadinst) | tBranch (t : branchinst) | tBit (t : bitinst).

(** Module state: the members of [isa.Inst] when a helper runs, and the keys of
    [CONSTRUCTORS] (asm.py:123-125, computed when the module was imported). *)
Record env := mkEnv { e_members : list itype; e_known : list itype }.

(** [inst[T].match] *)
Definition imatch (i : inst) (t : itype) : bool :=
  match i, t with
  | OP _ _, TOP | OP_IMM _, TOPIMM | LUI _, TLUI | AUIPC _, TAUIPC | JAL _, TJAL | JALR _, TJALR
  | Branch _ _, TBranch | Load _ _, TLoad | Store _ _, TStore | Ext _ _, TExt => true
  | _, _ => false
  end.

(** 144-178, the body for the matching member: data and tag. *)
Definition parts (i : inst) : data * option tag :=
  match i with
  | OP d (aArith t) => (DR d, Some (tArith t))
  | OP d (aShift t) => (DR d, Some (tShift t))
  | OP d (aMulDiv t) => (DR d, Some (tMulDiv t))
  | OP_IMM (oArith d t) => (DI d, Some (tArith t))
  | OP_IMM (oShift d t) => (DIs d, Some (tShift t))
  | LUI d => (DU d, None)
  | AUIPC d => (DU d, None)
  | JAL d => (DJ d, None)
  | JALR d => (DI d, None)
  | Branch d t => (DB d, Some (tBranch t))
  | Load d t => (DI d, Some (tLoad t))
  | Store d t => (DS d, Some (tLoad t))
  | Ext d t => (DE d, Some (tBit t))
  end.

(** 138-180 *)
Definition unpack (e : env) (i : inst) : res (data * option tag * itype) :=
  match find (imatch i) (e_members e) with
  | Some t => Ok (parts i, t)
  | None => Err AssertionError
  end.

(** 87-119 [_gen(T)(data, tag)]; the annotation of the generated products is
    checked by hwtypes (TypeError). *)
Definition construct (t : itype) (d : data) (g : option tag) : res inst :=
  match t, g with
  | TOPIMM, Some (tArith x) =>                                        (* 98-102 *)
      match d with DI r => Ok (OP_IMM (oArith r x)) | _ => Err TypeError end
  | TOPIMM, Some (tShift x) =>
      match d with DIs r => Ok (OP_IMM (oShift r x)) | _ => Err TypeError end
  | TOPIMM, _ => Err KeyError                                         (* attrs[tag_type] *)
  | TOP, Some (tArith x) =>                                           (* 106-110 *)
      match d with DR r => Ok (OP r (aArith x)) | _ => Err TypeError end
  | TOP, Some (tShift x) =>
      match d with DR r => Ok (OP r (aShift x)) | _ => Err TypeError end
  | TOP, _ => Err KeyError
  | TBranch, Some (tBranch x) =>                                      (* 111-113 *)
      match d with DB r => Ok (Branch r x) | _ => Err TypeError end
  | TLoad, Some (tLoad x) =>
      match d with DI r => Ok (Load r x) | _ => Err TypeError end
  | TStore, Some (tLoad x) =>
      match d with DS r => Ok (Store r x) | _ => Err TypeError end
  | TExt, Some (tBit x) =>
      match d with DE r => Ok (Ext r x) | _ => Err TypeError end
  | TLUI, _ => match d with DU r => Ok (LUI r) | _ => Err TypeError end   (* 114-117 *)
  | TAUIPC, _ => match d with DU r => Ok (AUIPC r) | _ => Err TypeError end
  | TJAL, _ => match d with DJ r => Ok (JAL r) | _ => Err TypeError end
  | TJALR, _ => match d with DI r => Ok (JALR r) | _ => Err TypeError end
  | _, _ => Err TypeError
  end.

(** 128-135; None is a KeyError. *)
Definition imm_bits (l : layout) : option (Z * Z) :=
  match l with
  | LI => Some (0, 12) | LIs => Some (0, 5) | LS => Some (0, 12) | LU => Some (12, 32)
  | LB => Some (1, 13) | LJ => Some (1, 21) | _ => None
  end.

(** ** set_fields and get_fields *)

(** The keyword arguments of [set_fields]; also the dict made by [get_fields]. *)
Record fields := mkF { f_rs1 : option Z; f_rs2 : option Z; f_rd : option Z; f_imm : option Z }.

(** 199 *)
Definition FIELDS (q : fields) : list (fname * option Z) :=
  [(Frs1, f_rs1 q); (Frs2, f_rs2 q); (Frd, f_rd q); (Fimm, f_imm q)].

(** 202-226, one field: the entry of [kwargs], if any. *)
Definition set_one (d : data) (fv : fname * option Z) : res (list (fname * Z)) :=
  let (f, v) := fv in
  let ft := dget fname_eqb (field_dict (type_of d)) f in
  match v with
  | Some v =>
      match ft with
      | None => Err ValueError
      | Some size =>
          if v <? 0 then Err ValueError else
          do bits <- (match f with
                      | Fimm => match imm_bits (type_of d) with Some b => Ok b | None => Err KeyError end
                      | _ => Ok (0, size)
                      end);
          if negb (v mod Z.shiftl 1 (fst bits) =? 0) then Err ValueError else
          if negb (v mod Z.shiftl 1 (snd bits) =? v) then Err ValueError else
          Ok [(f, wrap size (Z.shiftr v (fst bits)))]
      end
  | None =>
      match ft with
      | Some _ => do x <- data_get d f; Ok [(f, x)]
      | None => Ok []
      end
  end.

(** 183-233 *)
Definition set_fields (e : env) (i : inst) (q : fields) : res inst :=
  do u <- unpack e i;
  let '(d, g, t) := u in
  if negb (existsb (itype_eqb t) (e_known e)) then Err KeyError else
  do ks <- mapM (set_one d) (FIELDS q);
  do d' <- data_new (type_of d) (List.concat ks);
  construct t d' g.

(** 236-247; [kwargs] starts with four None entries, other names fail the assert. *)
Definition put (acc : fields) (f : fname) (v : Z) : res fields :=
  match f with
  | Frs1 => Ok (mkF (Some v) (f_rs2 acc) (f_rd acc) (f_imm acc))
  | Frs2 => Ok (mkF (f_rs1 acc) (Some v) (f_rd acc) (f_imm acc))
  | Frd => Ok (mkF (f_rs1 acc) (f_rs2 acc) (Some v) (f_imm acc))
  | Fimm => Ok (mkF (f_rs1 acc) (f_rs2 acc) (f_rd acc) (Some v))
  | Frs => Err AssertionError
  end.

Fixpoint get_loop (d : data) (fs : list (fname * Z)) (acc : fields) : res fields :=
  match fs with
  | [] => Ok acc
  | (f, _) :: fs' =>
      do v <- data_get d f;
      do v' <- (match f with
                | Fimm => match imm_bits (type_of d) with
                          | Some b => Ok (Z.shiftl v (fst b))
                          | None => Err KeyError
                          end
                | _ => Ok v
                end);
      do acc' <- put acc f v';
      get_loop d fs' acc'
  end.

Definition get_fields (e : env) (i : inst) : res fields :=
  do u <- unpack e i;
  let '(d, _, _) := u in
  get_loop d (field_dict (type_of d)) (mkF None None None None).

(** ** asm_* *)

(** 10-30 with LAYOUT = I; the generated functions for ArithInst except SUB
    (33-44). [isa.Idx(int)] keeps the low bits. *)
Definition asm_arith (t : arith) (rs1 rd : Z) (rs2 imm : option Z) : res inst :=
  match imm, rs2 with
  | Some _, Some _ => Err ValueError
  | None, None => Err ValueError
  | Some k, None => Ok (OP_IMM (oArith (mkI (wrap 5 rd) (wrap 5 rs1) (wrap 12 k)) t))
  | None, Some r => Ok (OP (mkR (wrap 5 rd) (wrap 5 rs1) (wrap 5 r)) (aArith t))
  end.

(** 47-56, LAYOUT = Is *)
Definition asm_shift (t : shift) (rs1 rd : Z) (rs2 imm : option Z) : res inst :=
  match imm, rs2 with
  | Some _, Some _ => Err ValueError
  | None, None => Err ValueError
  | Some k, None => Ok (OP_IMM (oShift (mkIs (wrap 5 rd) (wrap 5 rs1) (wrap 5 k)) t))
  | None, Some r => Ok (OP (mkR (wrap 5 rd) (wrap 5 rs1) (wrap 5 r)) (aShift t))
  end.

(** 60-78 *)
Definition asm_SUB (rs1 rd : Z) (rs2 imm : option Z) : res inst :=
  match imm, rs2 with
  | Some _, Some _ => Err ValueError
  | None, None => Err ValueError
  | Some k, None => Ok (OP_IMM (oArith (mkI (wrap 5 rd) (wrap 5 rs1) (bvneg 12 (wrap 12 k))) ADD))
  | None, Some r => Ok (OP (mkR (wrap 5 rd) (wrap 5 rs1) (wrap 5 r)) (aArith SUB))
  end.

(** riscv_ext/asm.py:8-21 *)
Definition asm_bit (t : bitinst) (rs rd rs1 : option Z) : res inst :=
  match rd with
  | None => Err ValueError
  | Some rd =>
      match rs, rs1 with
      | None, None => Err ValueError
      | Some _, Some _ => Err ValueError
      | Some r, None => Ok (Ext (mkE (wrap 5 rd) (wrap 5 r)) t)
      | None, Some r => Ok (Ext (mkE (wrap 5 rd) (wrap 5 r)) t)
      end
  end.

(** ** The namespaces: riscv/isa.py:157-159, riscv_ext/isa.py:13-38 *)

(** [Inst = Sum[...]] of the base instruction set. *)
Definition base_members : list itype :=
  [TOP; TOPIMM; TLUI; TAUIPC; TJAL; TJALR; TBranch; TLoad; TStore].

(** Process state: the cached namespace of riscv's [ISA_fc] for the Py family,
    as the members of its attribute [Inst]; whether riscv_ext's [ISA_fc] has
    run; the keys of [CONSTRUCTORS] once riscv.asm has been imported. Both
    [ISA_fc.Py] use the same PyFamily class (riscv_ext/family.py:5) and cache
    their result (features.py:99ff, modelled in FamModel.v). *)
Record nstate := mkNs { n_base : option (list itype); n_ext : bool; n_known : option (list itype) }.
Definition ns_init : nstate := mkNs None false None.

(** [riscv.isa.ISA_fc.Py] *)
Definition base_isa (s : nstate) : nstate :=
  match n_base s with
  | Some _ => s
  | None => mkNs (Some base_members) (n_ext s) (n_known s)
  end.

(** [riscv_ext.isa.ISA_fc.Py]: takes the namespace of the base and assigns its
    attribute [Inst] (line 36). *)
Definition ext_isa (s : nstate) : nstate :=
  if n_ext s then s
  else let s1 := base_isa s in mkNs (Some (base_members ++ [TExt])) true (n_known s1).

(** Import of riscv.asm: line 8, then 123-125. *)
Definition import_asm (s : nstate) : nstate :=
  match n_known s with
  | Some _ => s
  | None => let s1 := base_isa s in mkNs (n_base s1) (n_ext s1) (n_base s1)
  end.

(** Import of riscv_ext.asm: lines 1-4. *)
Definition import_ext_asm (s : nstate) : nstate := ext_isa (import_asm s).

Inductive nop := BaseISA | ExtISA | ImportAsm | ImportExtAsm.
Definition ns_step (s : nstate) (o : nop) : nstate :=
  match o with
  | BaseISA => base_isa s
  | ExtISA => ext_isa s
  | ImportAsm => import_asm s
  | ImportExtAsm => import_ext_asm s
  end.
Definition ns_run (h : list nop) : nstate := fold_left ns_step h ns_init.

(** What the helpers of riscv.asm see after a history that imports them. *)
Definition env_of (s : nstate) : option env :=
  match n_base s, n_known s with
  | Some m, Some k => Some (mkEnv m k)
  | _, _ => None
  end.
