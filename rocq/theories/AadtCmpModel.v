(** Model of comparing assembled values and assembled classes:
    peak/assembler/assembled_adt.py:202-219 (classes), 298-317 (instances), 328-345 (directions)
    and peak/assembler2/assembled_adt.py:76-93, 154-173, 210-236, which has the same code. Definitions only.
    [==] follows Python: the method of the left operand, then that of the right one (first if the type of
    the right operand is a proper subclass of the type of the left), then identity. *)
From Coq Require Import String ZArith List Bool.
From Verif Require Import Base AsmModel AadtModel.
Import ListNotations.
Open Scope Z_scope.

(** What a comparison gives: an hwtypes Bit, a Python bool, or an int. *)
Inductive pyv := PBit (b : bool) | PBool (b : bool) | PInt (z : Z).
(** [bool(x)]. *)
Definition truth (x : pyv) : bool :=
  match x with PBit b | PBool b => b | PInt z => negb (z =? 0) end.
(** [~x]: Bits are negated; a Python bool is an int, so [~True] is -2 and [~False] is -1. *)
Definition inv (x : pyv) : pyv :=
  match x with PBit b => PBit (negb b) | PBool b => PInt (- Z.b2z b - 1) | PInt z => PInt (- z - 1) end.

(** ** Instances. Classes are named by numbers: bound classes are cached by hwtypes, so a class is its index. *)
Section Inst.
Variable adt : nat -> nat.          (* adt_t of an assembled class (221-223) *)
Variable asmof : nat -> asm.        (* its assembler (136) *)
Variable bv : nat -> nat.           (* its bv_type (229-231) *)
Variable bvsub : nat -> nat -> bool. (* issubclass on the vector classes of hwtypes, of equal size *)

(** Operands: instance of assembled class [c], vector of class [k] and size [w], value of ADT class [T]
    and anything else (not comparable with the others). *)
Inductive obj := OInst (c : nat) (z : Z) | OWord (k : nat) (w z : Z) | OVal (T : nat) (v : val) | OOther (n : nat).

(** [inst.__eq__(other)] (304-314); [None] is NotImplemented. No class has subclasses. *)
Definition inst_eq (c : nat) (z : Z) (y : obj) : res (option pyv) :=
  match y with
  | OInst c' z' => Ok (if Nat.eqb c c' then Some (PBit (z =? z')) else None)
  | OWord k w x =>
      Ok (if bvsub k (bv c) && (w =? a_width (asmof c)) then Some (PBit (z =? x)) else None)
  | OVal T v =>
      if Nat.eqb T (adt c) then do x <- assemble (asmof c) v; Ok (Some (PBit (z =? x))) else Ok None
  | OOther _ => Ok None
  end.

(** [vector.__eq__(inst)], of hwtypes: not modelled, given by [word_eq]. The [__eq__] of an ADT value
    does not take instances (hwtypes, assumed). *)
Variable word_eq : nat -> Z -> Z -> nat -> Z -> option pyv.

(** [x == y] where one of them is an instance; [same] tells whether both are one object, which only
    matters when no method answers. *)
Definition py_eq (same : bool) (x y : obj) : res pyv :=
  match x, y with
  | OInst c z, OInst c' z' =>
      do r <- inst_eq c z y;
      match r with
      | Some b => Ok b
      | None => do r' <- inst_eq c' z' x; Ok (match r' with Some b => b | None => PBool same end)
      end
  | OInst c z, OWord k w u =>
      do r <- inst_eq c z y;
      match r with
      | Some b => Ok b
      | None => Ok (match word_eq k w u c z with Some b => b | None => PBool false end)
      end
  | OInst c z, _ =>
      do r <- inst_eq c z y; Ok (match r with Some b => b | None => PBool false end)
  | OWord k w u, OInst c z =>
      match word_eq k w u c z with
      | Some b => Ok b
      | None => do r <- inst_eq c z x; Ok (match r with Some b => b | None => PBool false end)
      end
  | _, OInst c z =>
      do r <- inst_eq c z x; Ok (match r with Some b => b | None => PBool false end)
  | _, _ => Err NotImplementedError
  end.

(** [x != y] for an instance [x] (316-317). *)
Definition py_ne (same : bool) (x y : obj) : res pyv := do r <- py_eq same x y; Ok (inv r).

(** [hash(x)] (298-299): an instance hashes as its word, a vector of class [bv_type[width]]. The hash
    of hwtypes is given by [whash]; that of other objects by [ohash]. *)
Variable whash : nat -> Z -> Z -> Z.
Variable ohash : obj -> Z.
Definition py_hash (x : obj) : Z :=
  match x with
  | OInst c z => whash (bv c) (a_width (asmof c)) z
  | OWord k w z => whash k w z
  | _ => ohash x
  end.
End Inst.

(** ** Classes. [k_magma] says that the class is a MAADT (its metaclass is MAADTMeta, a subclass of AssembledADTMeta);
    then [k_dir] is its direction, the fourth index. *)
Inductive dir := DIn | DOut | DInOut | DUndirected.
Record kls := mkK { k_adt : nat; k_asm : nat; k_bv : nat; k_dir : option dir }.
Definition k_magma (c : kls) : bool := match k_dir c with Some _ => true | None => false end.
Definition dir_eqb (a b : dir) : bool :=
  match a, b with DIn, DIn | DOut, DOut | DInOut, DInOut | DUndirected, DUndirected => true | _, _ => false end.
(** Bound classes are cached: one object per index (hwtypes). *)
Definition k_same (c d : kls) : bool :=
  Nat.eqb (k_adt c) (k_adt d) && Nat.eqb (k_asm c) (k_asm d) && Nat.eqb (k_bv c) (k_bv d) &&
  match k_dir c, k_dir d with Some a, Some b => dir_eqb a b | None, None => true | _, _ => false end.

(** ADT class, assembled class, Enum member, vector, anything else. *)
Inductive cobj := CAdt (T : nat) | CAadt (c : kls) | CMember (n : nat) | CWord (w z : Z) | COther (n : nat).

(** [T == y] for an ADT class [T]: [type.__eq__] answers for [T] itself only, then the method of [y]
    is asked (202-213 when [y] is an assembled class: its [adt_t] is compared with [T] and the answer is made a Bit). *)
Definition adt_cls_eq (T : nat) (y : cobj) : pyv :=
  match y with
  | CAdt U => PBool (Nat.eqb T U)
  | CAadt c => PBit (Nat.eqb (k_adt c) T)
  | _ => PBool false
  end.

(** [cls.__eq__(other)] (202-213). A class made from an Enum member cannot be made (136), so the branch for
    vectors (208-211) is never taken. *)
Definition cls_meth (c : kls) (y : cobj) : option pyv :=
  match y with
  | CAadt d =>
      if k_magma c && negb (k_magma d)
      then Some (PBit (truth (adt_cls_eq (k_adt c) y)))
      else if k_same c d then Some (PBool true) else None
  | CAdt _ | CMember _ => Some (PBit (truth (adt_cls_eq (k_adt c) y)))
  | CWord _ _ | COther _ => None
  end.

(** [cls == y]. *)
Definition cls_eq (c : kls) (y : cobj) : pyv :=
  match y with
  | CAadt d =>
      let first := if negb (k_magma c) && k_magma d then cls_meth d (CAadt c) else cls_meth c y in
      let second := if negb (k_magma c) && k_magma d then cls_meth c y else cls_meth d (CAadt c) in
      match first with
      | Some b => b
      | None => match second with Some b => b | None => PBool (k_same c d) end
      end
  | _ => match cls_meth c y with Some b => b | None => PBool false end
  end.
(** [cls != y] (215-216). *)
Definition cls_ne (c : kls) (y : cobj) : pyv := inv (cls_eq c y).

(** [_flip_magma_] (338-345) and [_qualify_magma_] (335-336); classes without a direction have neither. *)
Definition flip_magma (c : kls) : kls :=
  match k_dir c with
  | Some DIn => mkK (k_adt c) (k_asm c) (k_bv c) (Some DOut)
  | Some DOut => mkK (k_adt c) (k_asm c) (k_bv c) (Some DIn)
  | _ => c
  end.
Definition qualify_magma (c : kls) (d : dir) : kls := mkK (k_adt c) (k_asm c) (k_bv c) (Some d).
