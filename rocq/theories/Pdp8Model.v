(** The PDP-8 simulator, examples/pdp8/isa.py, sim.py and asm.py.
    Definitions only.

    Memory cells and the program counter are Python objects whose type depends on
    the history: words, wider bit vectors made by [addr], the integer 0 of cells
    never written, or instructions. The model keeps that. *)
From Coq Require Import ZArith List Bool.
From Verif Require Import Base BvModel.
Import ListNotations.
Open Scope Z_scope.

(** ** Instructions (examples/pdp8/isa.py) *)

(** isa.py:10-17 (IA, MP). *)
Inductive ia := DIRECT | INDIRECT.
Inductive mp := PAGE_ZERO | CURRENT_PAGE.

(** isa.py:21-31 (MRI and its subclasses); addresses are 7-bit. *)
Inductive mri_op := oAND | oTAD | oISZ | oDCA | oJMS | oJMP.
Record mri := Mri { m_i : ia; m_p : mp; m_addr : Z }.

(** isa.py:38-56 (OPR1, OPR2). *)
Record opr1 := Opr1 {
  cla1 : bool; cll : bool; cma : bool; cml : bool;
  rar : bool; ral : bool; twice : bool; iac : bool }.
Record opr2 := Opr2 {
  cla2 : bool; sma : bool; sza : bool; snl : bool; skip : bool; osr : bool; hlt : bool }.

(** isa.py:59-72 (OPR, Inst). *)
Inductive inst8 :=
| IMri (op : mri_op) (x : mri)
| IIot (x : mri)
| IOpr1 (x : opr1)
| IOpr2 (x : opr2).

(** ** Values *)
Inductive dv :=
| VB (w z : Z)       (* a BitVector[w] *)
| VI (z : Z)         (* a Python int *)
| VInst (i : inst8).

(** sim.py:12-20 (PDP8.__init__): RAM of 4096 cells, a cell not given holds the
    integer 0 (peak/memory.py:5-10, [init=0]). *)
Record pdp8 := Pdp8 { pc : dv; acc : Z; lnk : bool; running : bool; mem : Z -> dv }.
Definition pdp8_init (cells : list dv) : pdp8 :=
  Pdp8 (VB 12 0) 0 false true
    (fun a => match nth_error cells (Z.to_nat a) with Some v => v | None => VI 0 end).

(** [int(addr)] as an index into the list of cells (peak/memory.py:12-17).
    Integers in cells are never negative. *)
Definition index (a : dv) : res Z :=
  match a with
  | VB _ z | VI z => if (0 <=? z) && (z <? 4096) then Ok z else Err IndexError
  | VInst _ => Err TypeError
  end.

(** sim.py:146-150 (load, store). *)
Definition load (m : Z -> dv) (a : dv) : res dv := do k <- index a; Ok (m k).
Definition store (m : Z -> dv) (a v : dv) : res (Z -> dv) :=
  do k <- index a; Ok (fun j => if j =? k then v else m j).

(** [v + 1]. *)
Definition add1 (v : dv) : res dv :=
  match v with
  | VB w z => Ok (VB w (wrap w (z + 1)))
  | VI z => Ok (VI (z + 1))
  | VInst _ => Err TypeError
  end.

(** [data == 0]. *)
Definition is0 (v : dv) : bool :=
  match v with VB _ z | VI z => z =? 0 | VInst _ => false end.

(** [self.acc & data]: another size is an error, an int is converted. *)
Definition and_acc (a : Z) (v : dv) : res Z :=
  match v with
  | VB w z => if w =? 12 then Ok (Z.land a z) else Err TypeError
  | VI z => Ok (Z.land a (wrap 12 z))
  | VInst _ => Err TypeError
  end.

(** sim.py:37-41: [data.concat(0)] added to [acc.concat(lnk)], both 13 bits. Only
    bit vectors have [concat]. *)
Definition tad (a : Z) (l : bool) (v : dv) : res (Z * bool) :=
  match v with
  | VB w z =>
      if w =? 12 then
        let r := bvadd 13 (concat 12 a (b2z l)) (concat 12 z 0) in
        Ok (slice r 0 12, bvbit r 12)
      else Err TypeError
  | VI _ => Err AttributeError
  | VInst _ => Err AttributeError
  end.

(** [bvrol], [bvror] of 13 bits by 0 < k < 13. *)
Definition rol13 (x k : Z) : Z := Z.lor (bvshl 13 x k) (bvlshr 13 x (13 - k)).
Definition ror13 (x k : Z) : Z := Z.lor (bvlshr 13 x k) (bvshl 13 x (13 - k)).

(** sim.py:65-87, the operate instructions of group 1, on accumulator and link,
    in the order of the code. *)
Definition do_opr1 (x : opr1) (a : Z) (l : bool) : Z * bool :=
  let a := if cla1 x then 0 else a in
  let a := if cma x then bvnot 12 a else a in
  let l := if cll x then false else l in
  let l := if cml x then negb l else l in
  let a := if iac x then bvadd 12 a 1 else a in
  let k := if twice x then 2 else 1 in
  let '(a, l) :=
    if ral x then
      let r := rol13 (concat 12 a (b2z l)) k in (slice r 0 12, bvbit r 12)
    else (a, l) in
  if rar x then
    let r := ror13 (concat 12 a (b2z l)) k in (slice r 0 12, bvbit r 12)
  else (a, l).

(** sim.py:91-114: does an instruction of group 2 skip? *)
Definition skips (x : opr2) (a : Z) (l : bool) : bool :=
  if sma x || sza x || snl x || skip x then
    if negb (skip x) then
      let s := false in
      let s := if sma x then s || Bool.eqb (bvbit a 11) true else s in
      let s := if sza x then s || (a =? 0) else s in
      if snl x then s || Bool.eqb l false else s
    else
      let s := true in
      if sma x || sza x || snl x then
        let s := if sma x then s && Bool.eqb (bvbit a 11) false else s in
        let s := if sza x then s && negb (a =? 0) else s in
        if snl x then s && Bool.eqb l true else s
      else s
  else false.

Section P.
  (** The value of [inst.p == ZERO] (sim.py:126), an Enum member compared with a
      Bit. hwtypes decides it; comparing objects of unrelated types gives False. *)
  Variable p_is_zero : mp -> bool.

  (** sim.py:123-137 (addr). [pc] is the incremented one. [Word(addr)] has 12
      bits, so the page lands above bit 12. *)
  Definition addr (m : Z -> dv) (x : mri) (p : dv) : res dv :=
    do page <- (if p_is_zero (m_p x) then Ok (VB 5 0)
                else match p with
                     | VB w z => Ok (VB (w - 7) (slice (wrap w (z - 1)) 7 w))
                     | VI _ | VInst _ => Err TypeError
                     end);
    do a <- (match page with
             | VB wp zp => Ok (VB (12 + wp) (concat 12 (m_addr x) zp))
             | _ => Err TypeError
             end);
    match m_i x with INDIRECT => load m a | DIRECT => Ok a end.

  (** sim.py:21-121 (PDP8.__call__). *)
  Definition step (s : pdp8) : res pdp8 :=
    if negb (running s) then Ok s
    else
      do c <- load (mem s) (pc s);
      do p <- add1 (pc s);
      match c with
      | VB _ _ | VI _ => Err AttributeError
      | VInst (IMri op x) =>
          do a <- addr (mem s) x p;
          match op with
          | oAND =>
              do d <- load (mem s) a;
              do r <- and_acc (acc s) d;
              Ok (Pdp8 p r (lnk s) (running s) (mem s))
          | oTAD =>
              do d <- load (mem s) a;
              do r <- tad (acc s) (lnk s) d;
              Ok (Pdp8 p (fst r) (snd r) (running s) (mem s))
          | oISZ =>
              do d <- load (mem s) a;
              do d' <- add1 d;
              do m' <- store (mem s) a d';
              do p' <- (if is0 d' then add1 p else Ok p);
              Ok (Pdp8 p' (acc s) (lnk s) (running s) m')
          | oDCA =>
              do m' <- store (mem s) a (VB 12 (acc s));
              Ok (Pdp8 p 0 (lnk s) (running s) m')
          | oJMP => Ok (Pdp8 a (acc s) (lnk s) (running s) (mem s))
          | oJMS =>
              do m' <- store (mem s) a p;
              do p' <- add1 a;
              Ok (Pdp8 p' (acc s) (lnk s) (running s) m')
          end
      | VInst (IIot _) => Ok (Pdp8 p (acc s) (lnk s) (running s) (mem s))
      | VInst (IOpr1 x) =>
          let '(a, l) := do_opr1 x (acc s) (lnk s) in
          Ok (Pdp8 p a l (running s) (mem s))
      | VInst (IOpr2 x) =>
          do p' <- (if skips x (acc s) (lnk s) then add1 p else Ok p);
          Ok (Pdp8 p' (if cla2 x then 0 else acc s) (lnk s)
                (if hlt x then false else running s) (mem s))
      end.

  (** [n] calls. *)
  Fixpoint steps (n : nat) (s : pdp8) : res pdp8 :=
    match n with O => Ok s | S k => do s' <- step s; steps k s' end.

  (** sim.py:142-144 (run), with fuel for the loop. *)
  Fixpoint run (fuel : nat) (s : pdp8) : res pdp8 :=
    match fuel with
    | O => Err OutOfFuel
    | S k => if running s then do s' <- step s; run k s' else Ok s
    end.
End P.

(** ** The testing interface (sim.py:155-177) *)

(** poke_mem returns the old contents as an int, which an instruction does not
    have; the value is stored before that. *)
Definition poke_mem (s : pdp8) (a z : Z) : res pdp8 :=
  match mem s (wrap 12 a) with
  | VInst _ => Err TypeError
  | _ => Ok (Pdp8 (pc s) (acc s) (lnk s) (running s)
               (fun j => if j =? wrap 12 a then VB 12 (wrap 12 z) else mem s j))
  end.
Definition poke_acc (s : pdp8) (z : Z) : pdp8 :=
  Pdp8 (pc s) (wrap 12 z) (lnk s) (running s) (mem s).
Definition poke_lnk (s : pdp8) (l : bool) : pdp8 :=
  Pdp8 (pc s) (acc s) l (running s) (mem s).
Definition poke_pc (s : pdp8) (z : Z) : pdp8 :=
  Pdp8 (VB 12 (wrap 12 z)) (acc s) (lnk s) (running s) (mem s).

(** ** The assembler (examples/pdp8/asm.py) *)

(** asm.py:4-25, with the default modes. *)
Definition asm_mri (op : mri_op) (a : Z) : inst8 := IMri op (Mri DIRECT PAGE_ZERO (wrap 7 a)).
Definition asm_and := asm_mri oAND.
Definition asm_tad := asm_mri oTAD.
Definition asm_dca := asm_mri oDCA.
Definition asm_isz := asm_mri oISZ.
Definition asm_jmp := asm_mri oJMP.
Definition asm_jms := asm_mri oJMS.

(** asm.py:31-34 (opr1). Only prints a message if both rotations are asked for.
    An argument is a keyword; the list is the keywords given (as 1). *)
Inductive kw1 := Kcla | Kcll | Kcma | Kcml | Krar | Kral | Ktwice | Kiac | Krol.
Definition kw1_eqb (x y : kw1) : bool :=
  match x, y with
  | Kcla, Kcla | Kcll, Kcll | Kcma, Kcma | Kcml, Kcml | Krar, Krar | Kral, Kral
  | Ktwice, Ktwice | Kiac, Kiac | Krol, Krol => true
  | _, _ => false
  end.
Definition given1 (k : kw1) (l : list kw1) : bool := existsb (kw1_eqb k) l.
(** A keyword given twice or not a parameter is a TypeError. *)
Fixpoint dup1 (l : list kw1) : bool :=
  match l with [] => false | k :: l => given1 k l || dup1 l end.
Definition asm_opr1 (l : list kw1) : res inst8 :=
  if dup1 l || given1 Krol l then Err TypeError
  else Ok (IOpr1 (Opr1 (given1 Kcla l) (given1 Kcll l) (given1 Kcma l) (given1 Kcml l)
                   (given1 Krar l) (given1 Kral l) (given1 Ktwice l) (given1 Kiac l))).

(** asm.py:37-104, the mnemonics of group 1. *)
Definition asm_cla l := asm_opr1 (Kcla :: l).
Definition asm_cma l := asm_opr1 (Kcma :: l).
Definition asm_sta := asm_opr1 [Kcla; Kcma].
Definition asm_cll l := asm_opr1 (Kcll :: l).
Definition asm_cml l := asm_opr1 (Kcml :: l).
Definition asm_stl := asm_opr1 [Kcll; Kcml].
Definition asm_glk := asm_opr1 [Kcla; Krol].
Definition asm_iac l := asm_opr1 (Kiac :: l).
Definition asm_rar l := asm_opr1 (Krar :: l).
Definition asm_rtr l := asm_opr1 (Krar :: Ktwice :: l).
Definition asm_lsr := asm_opr1 [Kcll; Krar].
Definition asm_ral l := asm_opr1 (Kral :: l).
Definition asm_rtl l := asm_opr1 (Kral :: Ktwice :: l).
Definition asm_lsl := asm_opr1 [Kcll; Kral].
Definition asm_nop := asm_opr1 [].
Definition asm_cia l := asm_opr1 (Kcma :: Kiac :: l).

(** asm.py:116-123 (opr2), the parameters in order. *)
Record kw2 := Kw2 {
  q_cla : bool; q_sma : bool; q_sza : bool; q_snl : bool; q_spa : bool; q_sna : bool;
  q_szl : bool; q_skip : bool; q_osr : bool; q_hlt : bool }.
Definition asm_opr2 (k : kw2) : inst8 :=
  let flags2 := q_spa k || q_sna k || q_szl k in
  let skip := if flags2 then true else q_skip k in
  IOpr2 (Opr2 (q_cla k) (q_sma k || q_spa k) (q_sza k || q_sna k) (q_snl k || q_szl k)
           skip (q_osr k) (q_hlt k)).

(** asm.py:126-155, the mnemonics of group 2, without further keywords. *)
Definition asm_sza := asm_opr2 (Kw2 false false true false false false false false false false).
Definition asm_sna := asm_opr2 (Kw2 false false false false false true false false false false).
Definition asm_sma := asm_opr2 (Kw2 false true false false false false false false false false).
Definition asm_spa := asm_opr2 (Kw2 false false false false true false false false false false).
Definition asm_szl := asm_opr2 (Kw2 false false false false false false true false false false).
Definition asm_snl := asm_opr2 (Kw2 false false false true false false false false false false).
Definition asm_skp := asm_opr2 (Kw2 false false false false false false false true false false).
Definition asm_hlt := asm_opr2 (Kw2 false false false false false false false false false true).
