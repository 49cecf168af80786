(** The architecture of tests/test_basic_rr.py as [ArchMapper] sees it, and the
    instructions looked for on it. Python source: tests/test_basic_rr.py:6-87,
    examples/smallir/ir.py; peak/mapper/mapper.py as in AdtArchModel.v. *)
From Coq Require Import String ZArith List Bool.
From Verif Require Import Base BvModel SmallPeModel AsmModel AadtModel FormModel AdtArchModel MultiBasicModel.
Import ListNotations.
Open Scope string_scope.
Open Scope list_scope.
Open Scope Z_scope.

(** The inputs of [Arch] (33): [Const(Inst)] and two words. The types are those of
    MultiBasicModel.v. *)
Definition plain (s : string) (t : ty) : key * mty := (fk s, MLeaf t).
Definition rr_m : mty := MProd "RRInst" [plain "OP" rr_op; plain "rs0" (TBV 2); plain "rs1" (TBV 2); plain "rd" (TBV 2)].
Definition ri_m : mty :=
  MProd "RIInst" [plain "OP" ri_op; plain "rs" (TBV 2); plain "rd" (TBV 2); plain "imm0" (TBV 8); plain "imm1" (TBV 8)].
Definition inst_m : mty := MMod "Const" (MSum true "Inst" [(fk "RR", rr_m); (fk "RI", ri_m)]).
Definition basic_in : list (key * mty) := [(fk "inst", inst_m); plain "r0" (TBV 8); plain "r1" (TBV 8)].
(** The fields of the output are the indices of a tuple (features.py:73). *)
Definition basic_out : list (key * mty) := [plain "0" (TBV 8); plain "1" (TBV 8)].
Definition basic_in_t : ty := TProd "Input" (strip_fields basic_in).
Definition basic_out_t : ty := TProd "Output" (strip_fields basic_out).

(** [Arch] with the assemblers of its inputs and outputs; [inst] is read with the
    assembler of the field. *)
Definition basic_class (ia oa : asm) : pclass :=
  PClass basic_in ia basic_out oa
    (fun ws => match ws, member_asm ia (fk "inst") with
               | [z; r0; r1], Ok a => match basic_call a z r0 r1 with Ok (p, q) => [p; q] | Err _ => [] end
               | _, _ => []
               end).

(** An IR instruction of words: its inputs with whether they are Const, and what it
    computes of them in order. *)
Definition word_m (c : bool) : mty := if c then MMod "Const" (MLeaf (TBV 8)) else MLeaf (TBV 8).
Definition word_class (ins : list (key * bool)) (o : key) (f : list Z -> Z) (ia oa : asm) : pclass :=
  PClass (map (fun e => (fst e, word_m (snd e))) ins) ia [(o, MLeaf (TBV 8))] oa (fun ws => [f ws]).

(** The three instructions of the test (50-72): inputs and function. *)
Definition add_ins : list (key * bool) := [(fk "a", false); (fk "b", false)].
Definition add_f (xs : list Z) : Z := bvadd 8 (nth 0 xs 0) (nth 1 xs 0).
Definition inc_ins : list (key * bool) := [(fk "a", false)].
Definition inc_f (xs : list Z) : Z := bvadd 8 (nth 0 xs 0) 1.
Definition const_ins : list (key * bool) := [(fk "c", true)].
Definition const_f (xs : list Z) : Z := nth 0 xs 0.

(** The instructions of [gen_SmallIR(8)]. *)
Definition small_ins (o : irop) : list (key * bool) :=
  if unary o then [(fk "in0", false)] else [(fk "in0", false); (fk "in1", false)].
Definition small_f (o : irop) (xs : list Z) : Z := ir_call 8 o (nth 0 xs 0) (nth 1 xs 0).
