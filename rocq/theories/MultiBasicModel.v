(** The architecture of tests/test_basic_rr.py and the instructions [Multi] looks for
    on it. Python source: tests/test_basic_rr.py:6-44, 90-103, examples/smallir/ir.py,
    peak/mapper/multi.py (MultiModel.v).

    The instruction word is the one of peak/assembler (AsmModel.v, AadtModel.v). *)
From Coq Require Import String ZArith List Bool.
From Verif Require Import Base MultiModel BvModel SmallPeModel AsmModel AadtModel.
Import ListNotations.
Open Scope string_scope.
Open Scope list_scope.
Open Scope Z_scope.

(** ** The instruction (6-28). [repr] of a field starts with its name. *)
Definition fk (s : string) : key := Key s ("('" ++ s ++ "', ").
Definition rr_op : ty := TEnum "RRInst.OP" [EInt 1; EInt 2].
Definition ri_op : ty := TEnum "RIInst.OP" [EInt 3; EInt 4].
Definition rr_inst : ty := TProd "RRInst" [(fk "OP", rr_op); (fk "rs0", TBV 2); (fk "rs1", TBV 2); (fk "rd", TBV 2)].
Definition ri_inst : ty :=
  TProd "RIInst" [(fk "OP", ri_op); (fk "rs", TBV 2); (fk "rd", TBV 2); (fk "imm0", TBV 8); (fk "imm1", TBV 8)].
Definition basic_inst : ty := TSum true "Inst" [(fk "RR", rr_inst); (fk "RI", ri_inst)].

(** An attribute of an assembled instruction: the class of the value, its bits, [match]. *)
Definition attr (a : asm) (z : Z) (k : key) : res (asm * Z * option bool) :=
  match sub_step a k with
  | None => Err KeyError
  | Some (_, f) => do '(x, m) <- aadt_get a z k; Ok (f, x, m)
  end.
(** [e == OP.m] as a condition. *)
Definition is_op (a : asm) (z : Z) (m : emem) : res bool :=
  do e <- aadt_eq a z (FAdt (VEnum m));
  match e with Some b => Ok b | None => Err TypeError end.
Definition ite {A} (b : option bool) (x y : A) : A := match b with Some true => x | _ => y end.

(** [Arch.__call__] (30-44) in the SMT family: both branches are evaluated and the
    condition selects. *)
Definition basic_call (a : asm) (inst r0 r1 : Z) : res (Z * Z) :=
  do '(arr, rr, m) <- attr a inst (fk "RR");
  do '(ao, op, _) <- attr arr rr (fk "OP");
  do mul <- is_op ao op (EInt 2);
  let t := if mul then (bvmul 8 r0 r1, r0) else (bvadd 8 r0 r1, r0) in
  do '(ari, ri, _) <- attr a inst (fk "RI");
  do '(_, imm, _) <- attr ari ri (fk "imm1");
  do '(ao', op', _) <- attr ari ri (fk "OP");
  do ld <- is_op ao' op' (EInt 3);
  let e := if ld then (imm, r0) else (bvadd 8 r0 imm, r0) in
  Ok (ite m t e).

(** As [Multi] sees it: types are given by their widths, the fields of the output are
    the indices of a tuple (features.py:73). *)
Definition basic_arch (a : asm) : archinfo nat :=
  mkArchI [("inst", Z.to_nat (a_width a))] [("r0", 8%nat); ("r1", 8%nat)] [("0", 8%nat); ("1", 8%nat)]
    (fun x g => match basic_call a (x "inst") (x "r0") (x "r1") with
                | Ok (p, q) => if String.eqb g "0" then p else q
                | Err _ => 0
                end)
    (fun _ z => a_isv a z) false.

(** An IR instruction of words, without Const inputs and black boxes, computing [f] of
    its inputs in order. *)
Definition word_ir (gs : list string) (o : string) (f : list Z -> Z) : irinfo nat :=
  mkIr [] (map (fun g => (g, 8%nat)) gs) [(o, 8%nat)] (fun _ x _ => f (map x gs)).

(** [ir_add3_fc] (90-96); the result is the only field of a tuple. *)
Definition add3_ir : irinfo nat :=
  word_ir ["a"; "b"; "c"] "0" (fun xs => bvmul 8 (bvadd 8 (nth 0 xs 0) (nth 1 xs 0)) (nth 2 xs 0)).
(** The instructions of [gen_SmallIR(8)]. *)
Definition small_word_ir (o : irop) : irinfo nat :=
  word_ir (if unary o then ["in0"] else ["in0"; "in1"]) "out" (fun xs => ir_call 8 o (nth 0 xs 0) (nth 1 xs 0)).
