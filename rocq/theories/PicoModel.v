(** The Pico processor, examples/pico/isa.py and examples/pico/sim.py.
    Definitions only. Words are integers of 16 bits, Bits are [bool]. *)
From Coq Require Import ZArith List Bool.
From Verif Require Import Base BvModel.
Import ListNotations.
Open Scope Z_scope.

(** ** Instructions (examples/pico/isa.py:36-131) *)
Inductive arith_op := pAdd | pSub | pAdc | pSbc.
Inductive logic_op := pMov | pAnd | pOr | pXOr.
Inductive mem_op := pLDLO | pLDHI | pLD | pST.
Inductive ctl_op := pJump | pCall | pReturn.

(** examples/pico/isa.py:36-55 (Cond); UGE = C and ULT = C_n. *)
Inductive pcond :=
  kZ | kZ_n | kC | kC_n | kN | kN_n | kV | kV_n
| kUGT | kULE | kSGE | kSLT | kSGT | kSLE | kNever | kAlways.

(** isa.py:130-131 (Inst). Register numbers are 4-bit, immediates 8-bit. *)
Inductive pinst :=
| ILogic (op : logic_op) (ra rb : Z)
| IArith (op : arith_op) (ra rb : Z)
| IMem (op : mem_op) (ra imm : Z)
| ICtl (op : ctl_op) (imm : Z) (c : pcond)
| IWord (w : Z).

(** ** Registers and memory *)

(** peak/register.py:22-39 with peak/memory.py:15-17 (RAM): [mem[int(addr)]]. *)
Definition rget (l : list Z) (r : Z) : res Z :=
  match nth_error l (Z.to_nat r) with Some v => Ok v | None => Err IndexError end.
Fixpoint upd (l : list Z) (n : nat) (v : Z) : list Z :=
  match l, n with
  | [], _ => []
  | _ :: tl, O => v :: tl
  | x :: tl, S m => x :: upd tl m v
  end.
Definition rset (l : list Z) (r v : Z) : res (list Z) :=
  match nth_error l (Z.to_nat r) with
  | Some _ => Ok (upd l (Z.to_nat r) v)
  | None => Err IndexError
  end.

(** sim.py:69-78 (Pico.__init__). *)
Record pico := Pico {
  pc : Z; regs : list Z; fZ : bool; fN : bool; fC : bool; fV : bool }.
Definition pico_init : pico := Pico 0 (repeat 0 16) false false false false.

(** ** Combinational parts *)

(** sim.py:9-19 (arith): result and carry. *)
Definition arith (op : arith_op) (a b : Z) (c : bool) : Z * bool :=
  match op with
  | pAdd => adc 16 a b false
  | pSub => adc 16 a (bvnot 16 b) true
  | pAdc => adc 16 a b c
  | pSbc => adc 16 a (bvnot 16 b) (negb c)
  end.

(** sim.py:21-31 (logic). *)
Definition logic (op : logic_op) (a b : Z) : Z :=
  match op with
  | pMov => b
  | pAnd => Z.land a b
  | pOr => Z.lor a b
  | pXOr => Z.lxor a b
  end.

(** sim.py:33-65 (cond), as a truth value. *)
Definition pcond_holds (c : pcond) (Zf Nf Cf Vf : bool) : bool :=
  match c with
  | kZ => Zf
  | kZ_n => negb Zf
  | kC => Cf
  | kC_n => negb Cf
  | kN => Nf
  | kN_n => negb Nf
  | kV => Vf
  | kV_n => negb Vf
  | kUGT => if Cf then negb Zf else Cf
  | kULE => if negb Cf then negb Cf else Zf
  | kSGE => Bool.eqb Nf Vf
  | kSLT => negb (Bool.eqb Nf Vf)
  | kSGT => if negb Zf then Bool.eqb Nf Vf else negb Zf
  | kSLE => if Zf then Zf else negb (Bool.eqb Nf Vf)
  | kNever => false
  | kAlways => true
  end.

(** ** One step *)

(** sim.py:94-109 (alu) for Logic: C and V keep their values. *)
Definition step_logic (s : pico) (op : logic_op) (ra rb : Z) : res pico :=
  do a <- rget (regs s) ra;
  do b <- rget (regs s) rb;
  let r := logic op a b in
  do rs <- rset (regs s) ra r;
  Ok (Pico (bvadd 16 (pc s) 1) rs (r =? 0) (bvbit r 15) (fC s) (fV s)).

(** sim.py:94-109 (alu) for Arith. *)
Definition step_arith (s : pico) (op : arith_op) (ra rb : Z) : res pico :=
  do a <- rget (regs s) ra;
  do b <- rget (regs s) rb;
  let '(r, c) := arith op a b (fC s) in
  do rs <- rset (regs s) ra r;
  Ok (Pico (bvadd 16 (pc s) 1) rs (r =? 0) (bvbit r 15) c (overflow 16 a b r)).

(** sim.py:111-123 (memory): the new state and the words printed by ST.
    [raise NotImplemented(inst)] calls an object that is not callable. *)
Definition step_mem (s : pico) (op : mem_op) (ra imm : Z) : res (pico * list Z) :=
  let next rs out :=
    Ok (Pico (bvadd 16 (pc s) 1) rs (fZ s) (fN s) (fC s) (fV s), out) in
  match op with
  | pLDLO => do rs <- rset (regs s) ra (wrap 16 imm); next rs []
  | pLDHI => do rs <- rset (regs s) ra (wrap 16 (Z.shiftl imm 8)); next rs []
  | pST =>
      if imm =? 0 then do v <- rget (regs s) ra; next (regs s) [v] else next (regs s) []
  | pLD => Err TypeError
  end.

(** sim.py:125-145 (control). [LR] is register 15 (line 5). *)
Definition step_ctl (s : pico) (op : ctl_op) (imm : Z) (c : pcond) : res pico :=
  let taken := pcond_holds c (fZ s) (fN s) (fC s) (fV s) in
  let at_ p rs := Ok (Pico p rs (fZ s) (fN s) (fC s) (fV s)) in
  if taken then
    match op with
    | pJump => at_ (wrap 16 imm) (regs s)
    | pCall => do rs <- rset (regs s) 15 (bvadd 16 (pc s) 1); at_ (wrap 16 imm) rs
    | pReturn => do v <- rget (regs s) 15; at_ v (regs s)
    end
  else at_ (bvadd 16 (pc s) 1) (regs s).

(** peak/memory.py:5-13 with sim.py:71 (ROM of 256 cells; those not given hold
    [Word(0)]), and sim.py:84: a Word has no attribute [_value_]. Given cells
    are instructions. *)
Definition fetch (mem : list pinst) (p : Z) : res pinst :=
  if p <? 256 then
    match nth_error mem (Z.to_nat p) with Some i => Ok i | None => Err AttributeError end
  else Err IndexError.

(** sim.py:80-92 (Pico.__call__). *)
Definition step (mem : list pinst) (s : pico) : res (pico * list Z) :=
  do i <- fetch mem (pc s);
  match i with
  | ILogic op ra rb => do s' <- step_logic s op ra rb; Ok (s', [])
  | IArith op ra rb => do s' <- step_arith s op ra rb; Ok (s', [])
  | IMem op ra imm => step_mem s op ra imm
  | ICtl op imm c => do s' <- step_ctl s op imm c; Ok (s', [])
  | IWord _ => Err TypeError
  end.

(** [n] steps, with everything printed. *)
Fixpoint run (mem : list pinst) (n : nat) (s : pico) : res (pico * list Z) :=
  match n with
  | O => Ok (s, [])
  | S m =>
      do so <- step mem s;
      let '(s', o) := so in
      do so' <- run mem m s';
      let '(s'', o') := so' in Ok (s'', o ++ o')
  end.

(** ** The testing interface (sim.py:149-187) *)
Inductive flag := FZ | FN | FC | FV.

(** sim.py:149-158 (peak_flag). *)
Definition peak_flag (s : pico) (f : flag) : bool :=
  match f with FZ => fZ s | FN => fN s | FC => fC s | FV => fC s end.

(** peak/register.py:28-35 called with an optional second argument: a call
    without it is a TypeError. The first component is the returned old value. *)
Definition reg_call {T} (v value : T) (en : option bool) : res (T * T) :=
  match en with
  | Some e => Ok (v, if e then value else v)
  | None => Err TypeError
  end.

(** sim.py:160-169 (poke_flag): the register is called with the value only. *)
Definition poke_flag (s : pico) (f : flag) (v : bool) : res (pico * bool) :=
  match f with
  | FZ => do ov <- reg_call (fZ s) v None;
          Ok (Pico (pc s) (regs s) (snd ov) (fN s) (fC s) (fV s), fst ov)
  | FN => do ov <- reg_call (fN s) v None;
          Ok (Pico (pc s) (regs s) (fZ s) (snd ov) (fC s) (fV s), fst ov)
  | FC => do ov <- reg_call (fC s) v None;
          Ok (Pico (pc s) (regs s) (fZ s) (fN s) (snd ov) (fV s), fst ov)
  | FV => do ov <- reg_call (fV s) v None;
          Ok (Pico (pc s) (regs s) (fZ s) (fN s) (fC s) (snd ov), fst ov)
  end.

(** sim.py:171-181 (peak_pc, poke_pc, peak_reg, poke_reg). [Reg4(addr)] and
    [Word(value)] truncate. [poke_pc] calls the register with the value only. *)
Definition peak_pc (s : pico) : Z := pc s.
Definition poke_pc (s : pico) (v : Z) : res (pico * Z) :=
  do ov <- reg_call (pc s) (wrap 16 v) None;
  Ok (Pico (snd ov) (regs s) (fZ s) (fN s) (fC s) (fV s), fst ov).
Definition peak_reg (s : pico) (r : Z) : res Z := rget (regs s) (wrap 4 r).
Definition poke_reg (s : pico) (r v : Z) : res (pico * Z) :=
  do old <- rget (regs s) (wrap 4 r);
  do rs <- rset (regs s) (wrap 4 r) (wrap 16 v);
  Ok (Pico (pc s) rs (fZ s) (fN s) (fC s) (fV s), old).
