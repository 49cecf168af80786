(** The demonstration PEs.
    Python source: examples/demo_pes/pe1 .. pe6 ({isa,sim}.py, pe6/alu.py),
    examples/alu/{isa,sim}.py.

    The classes are those of PyFamily. Words are integers below 2^16 (isa.py:3).
    Fields of an instruction are members of their Enum: the Product of hwtypes
    checks them, so the branches that raise TypeError are left out. The
    assertions at the end of [__call__] hold by type. *)
From Coq Require Import ZArith List Bool.
From Verif Require Import Base BvModel.
Import ListNotations.
Open Scope list_scope.
Open Scope Z_scope.

(** pe5/isa.py:5-27; pe1 to pe4 have the first one to four fields. *)
Inductive dop := DAdd | DAnd | DXor | DShft.
Inductive dflag := DC | DZ.
Inductive dinv := DIdent | DInvert.
Inductive dbit := DZero | DOne.
Record i1 := I1 { a1 : dop }.
Record i2 := I2 { a2 : dop; f2 : dflag }.
Record i3 := I3 { a3 : dop; f3 : dflag; v3 : dinv }.
Record i4 := I4 { a4 : dop; f4 : dflag; v4 : dinv; b4 : dbit }.

(** [ft.reduce(operator.or_, res, Bit(0))]: over the bits, lowest first. *)
Definition or_bits (res : Z) : bool :=
  fold_left (fun acc i => acc || bvbit res (Z.of_nat i)) (seq 0 16) false.

(** [alu] of pe1, pe2 and pe3 (sim.py:18-34): result, carry, zero. *)
Definition alu123 (o : dop) (data0 data1 : Z) (bit0 : bool) : Z * bool * bool :=
  let '(res, carry) :=
    match o with
    | DAdd => adc 16 data0 data1 bit0
    | DAnd => (Z.land data0 data1, false)
    | DXor => (Z.lxor data0 data1, false)
    | DShft => (bvshl 16 data0 data1, false)
    end in
  (res, carry, negb (or_bits res)).

(** [alu] of pe4 (18-35): the carry of Add is overwritten (21). *)
Definition alu4 (o : dop) (data0 data1 : Z) (bit0 : bool) : Z * bool * bool :=
  let '(res, carry) :=
    match o with
    | DAdd => let '(res, _) := adc 16 data0 data1 bit0 in (res, false)
    | DAnd => (Z.land data0 data1, false)
    | DXor => (Z.lxor data0 data1, false)
    | DShft => (bvshl 16 data0 data1, false)
    end in
  (res, carry, negb (or_bits res)).

(** [alu] of pe5 (17-33). *)
Definition alu5 (o : dop) (data0 data1 : Z) (bit0 : bool) : Z * bool * bool :=
  let '(res, carry, zero) :=
    match o with
    | DAdd => let '(res, carry) := adc 16 data0 data1 bit0 in (res, carry, false)
    | DAnd => (if bit0 then Z.land data0 data1 else Z.lor data0 data1, false, false)
    | DXor => (Z.lxor data0 data1, false, bit0)
    | DShft => (if bit0 then bvshl 16 data0 data1 else bvlshr 16 data0 data1, false, false)
    end in
  (res, carry, xorb zero (negb (or_bits res))).

(** [flag_mux] (pe2/sim.py:36-42) and [inverter] (pe3/sim.py:44-50). *)
Definition flag_mux (f : dflag) (carry zero : bool) : bool := match f with DC => carry | DZ => zero end.
Definition inverter (v : dinv) (data : Z) : Z := match v with DInvert => bvnot 16 data | DIdent => data end.
(** [Bit(inst.BIT.value)] (pe4/sim.py:53), members pe4/isa.py:19-21. *)
Definition bit_const (b : dbit) : bool := match b with DZero => false | DOne => true end.

(** [__call__] of pe1 (36-41), pe2 (44-49), pe3 (52-58), pe4 (53-59), pe5 (51-57). *)
Definition pe1 (i : i1) (data0 data1 : Z) : Z * bool :=
  let '(res, _, _) := alu123 (a1 i) data0 data1 false in (res, false).
Definition pe2 (i : i2) (data0 data1 : Z) : Z * bool :=
  let '(res, carry, zero) := alu123 (a2 i) data0 data1 false in (res, flag_mux (f2 i) carry zero).
Definition pe3 (i : i3) (data0 data1 : Z) : Z * bool :=
  let '(res, carry, zero) := alu123 (a3 i) data0 (inverter (v3 i) data1) false in
  (res, flag_mux (f3 i) carry zero).
Definition pe4 (i : i4) (data0 data1 : Z) : Z * bool :=
  let '(res, carry, zero) := alu4 (a4 i) data0 (inverter (v4 i) data1) (bit_const (b4 i)) in
  (res, flag_mux (f4 i) carry zero).
Definition pe5 (i : i4) (data0 data1 : Z) : Z * bool :=
  let '(res, carry, zero) := alu5 (a4 i) data0 (inverter (v4 i) data1) (bit_const (b4 i)) in
  (res, flag_mux (f4 i) carry zero).

(** ** pe6 *)

(** ALU (alu.py:12-23); signed and unsigned vectors have the same bits. *)
Definition alu6 (o : dop) (data0 data1 : Z) : Z :=
  match o with
  | DAdd => bvadd 16 data0 data1
  | DAnd => Z.land data0 data1
  | DXor => Z.lxor data0 data1
  | DShft => bvshl 16 data0 data1
  end.
Record i6 := I6 { op0 : dop; op1 : dop; choice : bool }.
(** sim.py:28-35. *)
Definition pe6 (i : i6) (data0 data1 : Z) : Z :=
  let data1 := alu6 (op1 i) data0 data1 in
  let data0 := alu6 (op0 i) data0 data1 in
  if choice i then data1 else data0.

(** ** examples/alu *)

(** isa.py:7-12. *)
Inductive aop := OAdd | OSub | OOr | OAnd | OXor.
(** [gen_alu(family, width)] (sim.py:6-28). [None] is an object that equals no
    member (test_alu.py passes 5); [PeakNotImplementedError] is a
    NotImplementedError. The width is not used (7). *)
Definition alu_call (width : Z) (o : option aop) (a b : Z) : res Z :=
  match o with
  | Some OAdd => Ok (bvadd 16 a b)
  | Some OSub => Ok (bvsub 16 a b)
  | Some OAnd => Ok (Z.land a b)
  | Some OOr => Ok (Z.lor a b)
  | Some OXor => Ok (Z.lxor a b)
  | None => Err NotImplementedError
  end.
