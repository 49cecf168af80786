(** The floating point library, peak/float.py, in the Python family. Definitions
    only.

    hwtypes' floating point vectors are a parameter: [impl h op args] is the result
    of method [op] on vectors of rounding mode [h]. So are the attributes RDN and
    RUP of hwtypes' RoundingMode, which float.py uses beside RNE, RTZ, RTN, RTP and
    RNA ([None]: no such attribute). *)
From Coq Require Import String Ascii ZArith List Bool.
From Verif Require Import Base.
Import ListNotations.
Open Scope string_scope.
Open Scope list_scope.
Open Scope Z_scope.

(** float.py:15-20 (RoundingMode), and hwtypes' RoundingMode. *)
Inductive rm := RNE | RTZ | RDN | RUP | RMM.
Inductive hw := hRNE | hRNA | hRTP | hRTN | hRTZ.

(** [e.value] as a BitVector[3] (float.py:25). *)
Definition bv3 (m : rm) : Z :=
  match m with RNE => 0 | RTZ => 1 | RDN => 2 | RUP => 3 | RMM => 4 end.

(** float.py:26-41 (RM_to_RM_hwtypes, RM_hwtypes_to_RM). *)
Definition to_hw (m : rm) : hw :=
  match m with RNE => hRNE | RTZ => hRTZ | RDN => hRTN | RUP => hRTP | RMM => hRNA end.
Definition of_hw (h : hw) : rm :=
  match h with hRNE => RNE | hRTZ => RTZ | hRTN => RDN | hRTP => RUP | hRNA => RMM end.

Definition rm_eqb (x y : rm) : bool := bv3 x =? bv3 y.

(** float.py:43-56 (from_rm) and 58-71 (to_rm). *)
Definition from_rm (m : rm) : Z :=
  if rm_eqb m RNE then bv3 RNE else if rm_eqb m RTZ then bv3 RTZ else
  if rm_eqb m RDN then bv3 RDN else if rm_eqb m RUP then bv3 RUP else bv3 RMM.
Definition to_rm (v : Z) : rm :=
  if v =? bv3 RNE then RNE else if v =? bv3 RTZ then RTZ else
  if v =? bv3 RDN then RDN else if v =? bv3 RUP then RUP else RMM.

(** float.py:76-78 (_format_name); [str.capitalize] of ASCII names. *)
Definition lower (c : ascii) : ascii :=
  let n := nat_of_ascii c in
  if (Nat.leb 65 n && Nat.leb n 90)%bool then ascii_of_nat (n + 32) else c.
Definition upper (c : ascii) : ascii :=
  let n := nat_of_ascii c in
  if (Nat.leb 97 n && Nat.leb n 122)%bool then ascii_of_nat (n - 32) else c.
Fixpoint lower_s (s : string) : string :=
  match s with EmptyString => EmptyString | String c s => String (lower c) (lower_s s) end.
Definition capitalize (s : string) : string :=
  match s with EmptyString => EmptyString | String c s => String (upper c) (lower_s s) end.
Definition is_fp (s : string) : bool := String.prefix "fp_" s.
Definition format_name (s : string) : res string :=
  if is_fp s then Ok (capitalize (substring 3 (String.length s - 3) s) ++ "_fc")%string
  else Err AssertionError.

(** What an entry of the library is: the generator and the method it was given. *)
Inductive entry :=
| EUnary (op : string)     (* gen_unary *)
| EBinary (op : string)    (* gen_binary *)
| EBit (op : string)       (* gen_binary_bit *)
| EFma.                    (* fp_fma *)

Definition comparisons : list string := ["fp_leq"; "fp_lt"; "fp_geq"; "fp_gt"; "fp_eq"].

(** The loop of float.py:230-237 over [AbstractFPVector.__dict__], given as names
    with numbers of parameters (self included); the same loop is at 343-350. *)
Definition entry_of (k : string) (params : nat) : option entry :=
  if Nat.eqb params 1 then Some (EUnary k)
  else if existsb (String.eqb k) comparisons then Some (EBit k)
  else if Nat.eqb params 2 then Some (EBinary k)
  else None.
Definition upd (d : list (string * entry)) (n : string) (e : entry) : list (string * entry) :=
  dset String.eqb d n e.
Fixpoint gen_closures (abs : list (string * nat)) (d : list (string * entry))
  : res (list (string * entry)) :=
  match abs with
  | [] => Ok d
  | (k, n) :: abs =>
      if is_fp k then
        match entry_of k n with
        | Some e => do f <- format_name k; gen_closures abs (upd d f e)
        | None => gen_closures abs d
        end
      else gen_closures abs d
  end.
(** float.py:229-280: the operations, then the fused multiply-add. *)
Definition library (abs : list (string * nat)) : res (list (string * entry)) :=
  do d <- gen_closures abs []; do f <- format_name "fp_fma"; Ok (upd d f EFma).

Section F.
  (** Results of methods of floating point vectors: vectors (as words) or Bits. *)
  Variable alias_rdn alias_rup : option hw.
  Inductive fpval := FVec (z : Z) | FBit (b : bool).
  Variable impl : hw -> string -> list Z -> fpval.

  (** [RoundingMode_hwtypes.<name>]. *)
  Definition attr (a : option hw) : res hw :=
    match a with Some h => Ok h | None => Err AttributeError end.

  (** The if-chains of float.py:128-156, 166-194, 204-226, 245-277: the mode the
      operands are cast to. *)
  Definition dispatch (m : rm) : res hw :=
    if rm_eqb m RNE then Ok hRNE
    else if rm_eqb m RTZ then Ok hRTZ
    else if rm_eqb m RDN then attr alias_rdn
    else if rm_eqb m RUP then attr alias_rup
    else if rm_eqb m RMM then attr alias_rup
    else Err AssertionError.

  (** [out.reinterpret_as_bv()]; a Bit has no such method. *)
  Definition as_bv (v : fpval) : res fpval :=
    match v with FVec z => Ok (FVec z) | FBit _ => Err AttributeError end.

  (** The [__call__] of the generated classes. A wrong number of arguments is a
      TypeError. *)
  Definition call (e : entry) (m : rm) (args : list Z) : res fpval :=
    match e, args with
    | EUnary op, [x] => do h <- dispatch m; as_bv (impl h op [x])
    | EBinary op, [x; y] => do h <- dispatch m; as_bv (impl h op [x; y])
    | EBit op, [x; y] => do h <- dispatch m; Ok (impl h op [x; y])
    | EFma, [x; y; z] => do h <- dispatch m; as_bv (impl h "fp_fma" [x; y; z])
    | _, _ => Err TypeError
    end.

  (** float.py:287-367 (const_rm), the classes for a fixed mode (114-117 for the
      cast). [_fp_fma] uses a name, [fp_fma_fc], that is not defined. *)
  Definition call_const (e : entry) (m : rm) (args : list Z) : res fpval :=
    match e, args with
    | EUnary op, [x] => as_bv (impl (to_hw m) op [x])
    | EBinary op, [x; y] => as_bv (impl (to_hw m) op [x; y])
    | EBit op, [x; y] => Ok (impl (to_hw m) op [x; y])
    | EFma, _ => Err NameError
    | _, _ => Err TypeError
    end.
End F.
