(** Registers, memories and attribute registers.
    Python sources: peak/register.py, peak/memory.py, peak/peak.py, peak/family.py. *)
From Coq Require Import String Ascii ZArith List Bool.
From Verif Require Import Base.
Import ListNotations.
Open Scope Z_scope.

(** ** Registers *)
Section Register.
  (** [V]: values of the register's type T. A Python argument may also be
      [None], hence [option V]. *)
  Context {V : Type}.

  (** One call of a register. *)
  Record rcall := { rc_value : option V; rc_en : bool }.

  (** family.py:187-192 and register.py:28-35 ([__call__] with enable).
      The result is the returned value (or exception) and the new
      [self.value]. [en] is the truth value of the [en] argument. *)
  Definition reg_call (s : option V) (value : option V) (en : bool)
    : res (option V) * option V :=
    match value with
    | None => (Err AssertionError, s)        (* assert value is not None *)
    | Some _ => (Ok s, if en then value else s)
    end.

  (** family.py:205-208 ([has_enable=False]): no assertion, always written. *)
  Definition reg_call_noen (s : option V) (value : option V)
    : res (option V) * option V :=
    (Ok s, value).

  (** The same [__call__] after the passes of [_StdMix] (family.py:301): ssa
      turns the conditional assignment into [self.value = ite(en, value, old)].
      [ite] is the family's [Bit.ite]. *)
  Definition reg_call_ite (ite : bool -> option V -> option V -> option V)
    (s : option V) (value : option V) (en : bool) : res (option V) * option V :=
    match value with
    | None => (Err AssertionError, s)
    | Some _ => (Ok s, ite en value s)
    end.

  (** A history of calls: list of results and final state. *)
  Fixpoint reg_run (s : option V) (h : list rcall) : list (res (option V)) * option V :=
    match h with
    | [] => ([], s)
    | c :: h' =>
        let (r, s') := reg_call s (rc_value c) (rc_en c) in
        let (rs, s'') := reg_run s' h' in (r :: rs, s'')
    end.

  Fixpoint reg_run_noen (s : option V) (h : list (option V))
    : list (res (option V)) * option V :=
    match h with
    | [] => ([], s)
    | v :: h' =>
        let (r, s') := reg_call_noen s v in
        let (rs, s'') := reg_run_noen s' h' in (r :: rs, s'')
    end.

  (** family.py:194-198, 210-214 ([prev]). *)
  Definition reg_prev (s : option V) : option V := s.

  (** ** Memories *)

  (** memory.py:6-10 ([ROM.__init__]): n registers, the i-th initialised with
      [mem[i]] or [init]. [range(n)] is empty for negative n. *)
  Definition mem_init (n : Z) (mem : list V) (init : V) : list (option V) :=
    map (fun i => Some (nth i mem init)) (seq 0 (Z.to_nat n)).

  (** Python list indexing [l[i]] for a list of length n: position in the list,
      negative indices count from the end, IndexError otherwise. *)
  Definition pyindex (n : nat) (i : Z) : res nat :=
    if (0 <=? i) && (i <? Z.of_nat n) then Ok (Z.to_nat i)
    else if (- Z.of_nat n <=? i) && (i <? 0) then Ok (Z.to_nat (i + Z.of_nat n))
    else Err IndexError.

  Fixpoint upd {A} (l : list A) (k : nat) (x : A) : list A :=
    match l, k with
    | [], _ => []
    | _ :: r, O => x :: r
    | y :: r, S k' => y :: upd r k' x
    end.

  (** memory.py:16-17 ([RAM.__call__]). [addr] is already [int(addr)]. *)
  Definition ram_call (m : list (option V)) (addr : Z) (data : option V) (wen : bool)
    : res (option V) * list (option V) :=
    match pyindex (length m) addr with
    | Err e => (Err e, m)
    | Ok k => let (r, s) := reg_call (nth k m None) data wen in (r, upd m k s)
    end.

  (** memory.py:12-13 ([ROM.__call__]): [self.mem[int(addr)](0, 0)]. [zero] is
      the argument 0. *)
  Definition rom_call (zero : V) (m : list (option V)) (addr : Z)
    : res (option V) * list (option V) :=
    match pyindex (length m) addr with
    | Err e => (Err e, m)
    | Ok k => let (r, s) := reg_call (nth k m None) (Some zero) false in (r, upd m k s)
    end.

  Record macc := { ma_addr : Z; ma_data : option V; ma_wen : bool }.

  Fixpoint ram_run (m : list (option V)) (h : list macc)
    : list (res (option V)) * list (option V) :=
    match h with
    | [] => ([], m)
    | a :: h' =>
        let (r, m') := ram_call m (ma_addr a) (ma_data a) (ma_wen a) in
        let (rs, m'') := ram_run m' h' in (r :: rs, m'')
    end.

  Fixpoint rom_run (zero : V) (m : list (option V)) (h : list Z)
    : list (res (option V)) * list (option V) :=
    match h with
    | [] => ([], m)
    | a :: h' =>
        let (r, m') := rom_call zero m a in
        let (rs, m'') := rom_run zero m' h' in (r :: rs, m'')
    end.
End Register.

(** ** Attribute registers *)

(** peak.py:33-36 ([_is_dunder]). *)
Definition is_dunder (name : string) : bool :=
  let n := String.length name in
  let at_ i := substring i 1 name in
  let eq := String.eqb in
  (Nat.ltb 4 n)
  && eq (substring 0 2 name) "__"%string
  && eq (substring (n - 2) 2 name) "__"%string
  && negb (eq (at_ 2%nat) "_"%string)
  && negb (eq (at_ (n - 3)%nat) "_"%string).

Section Attr.
  (** [D]: plain values; [T]: types; [inst v t] is [isinstance(v, t)] for plain
      values. A register object is never an instance of a register type T. *)
  Context {D T : Type} (inst : D -> T -> bool).

  (** Python values that can sit in an instance attribute: a plain value, or a
      reference to an attribute register object (family.py:231-241). *)
  Inductive pyval := PData (d : D) | PReg (loc : nat).

  (** An attribute register object: its type and its [self.value]. *)
  Definition heap := list (T * D).
  (** [obj.__dict__] of a Peak object. *)
  Definition attrs := list (string * pyval).
  Definition ostate := (heap * attrs)%type.

  (** [object.__getattribute__] restricted to instance attributes. *)
  Definition raw_get (a : attrs) (n : string) : option pyval := dget String.eqb a n.

  (** peak.py:42-53 ([Peak.__getattribute__]): plain values have no [_peak_]. *)
  Definition peak_get (st : ostate) (n : string) : res pyval :=
    match raw_get (snd st) n with
    | None => Err AttributeError
    | Some v =>
        if is_dunder n then Ok v
        else match v with
             | PData d => Ok (PData d)
             | PReg l =>
                 match nth_error (fst st) l with
                 | Some (_, d) => Ok (PData d)
                 | None => Err OutOfFuel   (* dangling reference: excluded by wf *)
                 end
             end
    end.

  (** peak.py:55-69 ([Peak.__setattr__]) with the setter of family.py:235-238. *)
  Definition peak_set (st : ostate) (n : string) (v : pyval) : res unit * ostate :=
    let (h, a) := st in
    let store := (Ok tt, (h, dset String.eqb a n v)) in
    if is_dunder n then store
    else match raw_get a n with
         | None => store
         | Some (PData _) => store
         | Some (PReg l) =>
             match nth_error h l with
             | None => (Err OutOfFuel, st)
             | Some (t, _) =>
                 match v with
                 | PReg _ => (Err TypeError, st)
                 | PData d => if inst d t then (Ok tt, (upd h l (t, d), a))
                              else (Err TypeError, st)
                 end
             end
         end.

  Inductive aop := AGet (n : string) | ASet (n : string) (v : pyval).

  Definition astep (st : ostate) (o : aop) : res pyval * ostate :=
    match o with
    | AGet n => (peak_get st n, st)
    | ASet n v =>
        let (r, st') := peak_set st n v in
        (match r with Ok _ => Ok v | Err e => Err e end, st')
    end.

  Fixpoint arun (st : ostate) (h : list aop) : list (res pyval) * ostate :=
    match h with
    | [] => ([], st)
    | o :: h' =>
        let (r, st') := astep st o in
        let (rs, st'') := arun st' h' in (r :: rs, st'')
    end.
End Attr.
Arguments PData {D} d.
Arguments PReg {D} loc.
