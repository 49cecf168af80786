(** The ARM example: examples/arm/asm.py on the classes of examples/arm/isa.py.
    Definitions only. *)
From Coq Require Import ZArith List Bool.
From Verif Require Import Base.
Import ListNotations.
Open Scope Z_scope.

(** ** Immediates (asm.py:23-32) *)

(** [w.bits()] of a Word, least significant bit first; and [Word(bits)]. *)
Definition bits (w : Z) : list bool := map (fun k => Z.testbit w (Z.of_nat k)) (seq 0 32).
Fixpoint of_bits (l : list bool) : Z :=
  match l with [] => 0 | b :: r => Z.b2z b + 2 * of_bits r end.

(** [rol] (24-26). *)
Definition rol (w : Z) (n : nat) : Z := let b := bits w in of_bits (skipn n b ++ firstn n b).

(** The loop of lines 28-32; [is_] is what remains of [range(16)]. *)
Fixpoint imm_loop (w : Z) (is_ : list nat) : res (Z * Z) :=
  match is_ with
  | [] => Err ValueError
  | i :: r =>
      let x := rol w (2 * i) in
      if x <? 256 then Ok (x mod 2 ^ 4, Z.of_nat i) else imm_loop w r
  end.

(** [_imm(val)]; [Word(val)] wraps. *)
Definition imm_enc (val : Z) : res (Z * Z) := imm_loop (wrap 32 val) (seq 0 16).

(** ** Instructions (isa.py:11-26, 32-36, 86-93, 105-112, 137-139) *)
Inductive operand := OReg (rc shift : Z) | OImm (imm rotate : Z).
Inductive data_op := oMOV | oADD | oAND | oORR | oEOR.
Inductive ldst_op := oLDR | oSTR.
Inductive base_inst :=
| AData (op : data_op) (ra rb : Z) (rc : operand) (s : Z)
| ALdst (op : ldst_op) (ra rb : Z) (rc : operand)
| AB (offset l i : Z).
(** The condition is passed through; a member is given by its value. *)
Record arm_inst := ArmInst { a_base : base_inst; a_cond : Z }.

(** [data] (34-43) behind [mov], [add], [and_], [or_], [eor] (45-58). Arguments are
    Python integers; every constructor wraps. *)
Definition asm_data (op : data_op) (ra rb : Z) (rc : option Z) (shift imm s cond : Z) : res arm_inst :=
  let ra := wrap 4 ra in
  let rb := wrap 4 rb in
  let s := wrap 1 s in
  do rc <- match rc with
           | None => do p <- imm_enc imm;
                     let (rotate, imm) := p : Z * Z in Ok (OImm (wrap 8 imm) (wrap 4 rotate))
           | Some rc => Ok (OReg (wrap 4 rc) (wrap 8 shift))
           end;
  Ok (ArmInst (AData op ra rb rc s) cond).

(** [b] (61-64). *)
Definition asm_b (offset link cond : Z) : arm_inst := ArmInst (AB (wrap 24 offset) (wrap 1 link) 1) cond.

(** [ldst] (67-75) behind [ldr] and [str] (77-81). *)
Definition asm_ldst (op : ldst_op) (ra rb : Z) (rc : option Z) (shift imm cond : Z) : res arm_inst :=
  let ra := wrap 4 ra in
  let rb := wrap 4 rb in
  do rc <- match rc with
           | None => do p <- imm_enc imm;
                     let (imm, rotate) := p : Z * Z in Ok (OImm (wrap 8 imm) (wrap 4 rotate))
           | Some rc => Ok (OReg (wrap 4 rc) (wrap 8 shift))
           end;
  Ok (ArmInst (ALdst op ra rb rc) cond).
