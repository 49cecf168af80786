(** Shared vocabulary: Python errors as values, dictionaries as association
    lists, fixed-width words as integers. Definitions only. *)
From Coq Require Import String ZArith List Bool.
Import ListNotations.
Open Scope Z_scope.

(** Exceptions the modelled code can raise. [OutOfFuel] is not a Python
    exception: it marks exhaustion of a fuel argument, and every use is proved
    unreachable. *)
Inductive pyerr :=
| KeyError | ValueError | TypeError | AssertionError | AttributeError
| IndexError | NameError | NotImplementedError | LoopException | OutOfFuel.

Inductive res (A : Type) :=
| Ok (a : A)
| Err (e : pyerr).
Arguments Ok {A} a.
Arguments Err {A} e.

Definition bind {A B} (r : res A) (f : A -> res B) : res B :=
  match r with Ok a => f a | Err e => Err e end.
Notation "'do' x <- r ; k" := (bind r (fun x => k))
  (at level 200, x name, r at level 100, k at level 200).
Notation "'do' ' p <- r ; k" := (bind r (fun p => k))
  (at level 200, p pattern, r at level 100, k at level 200).

Definition is_ok {A} (r : res A) : bool :=
  match r with Ok _ => true | Err _ => false end.

(** Python [dict] with insertion order, as an association list. *)
Section Dict.
  Context {K V : Type} (eqb : K -> K -> bool).
  Fixpoint dget (d : list (K * V)) (k : K) : option V :=
    match d with
    | [] => None
    | (k', v) :: d' => if eqb k k' then Some v else dget d' k
    end.
  (** [d[k] = v]: overwrite in place, or append. *)
  Fixpoint dset (d : list (K * V)) (k : K) (v : V) : list (K * V) :=
    match d with
    | [] => [(k, v)]
    | (k', v') :: d' => if eqb k k' then (k', v) :: d' else (k', v') :: dset d' k v
    end.
  (** [d[k]] raising KeyError. *)
  Definition dgetE (d : list (K * V)) (k : K) : res V :=
    match dget d k with Some v => Ok v | None => Err KeyError end.
End Dict.

(** Python [int.bit_length]. *)
Definition bit_length (z : Z) : Z :=
  if z =? 0 then 0 else Z.log2 (Z.abs z) + 1.

(** Value of [BitVector[w](z)] for an integer z: truncation modulo 2^w
    (hwtypes, assumed). *)
Definition wrap (w z : Z) : Z := z mod 2 ^ w.

(** Value of [bv[lo:hi]]: bits lo .. hi-1 (hwtypes, assumed). *)
Definition slice (op lo hi : Z) : Z := Z.land (Z.shiftr op lo) (Z.ones (hi - lo)).

(** Value of [x.concat(y)] where x has width w: x occupies the low bits. *)
Definition concat (w x y : Z) : Z := Z.lor x (Z.shiftl y w).

(** Signed reading of a w-bit word: [BitVector.as_sint]. *)
Definition to_signed (w z : Z) : Z :=
  if Z.testbit z (w - 1) then z - 2 ^ w else z.

Definition b2z (b : bool) : Z := if b then 1 else 0.

Fixpoint zmem (x : Z) (l : list Z) : bool :=
  match l with [] => false | y :: r => (x =? y) || zmem x r end.

(** Python [range(a, b)]. *)
Definition pyrange (a b : Z) : list Z :=
  map (fun i => a + Z.of_nat i) (seq 0 (Z.to_nat (b - a))).

(** Stable insertion sort with a boolean order: model of Python [sorted]. *)
Section Sort.
  Context {A : Type} (leb : A -> A -> bool).
  Fixpoint insert (x : A) (l : list A) : list A :=
    match l with
    | [] => [x]
    | y :: r => if leb x y then x :: y :: r else y :: insert x r
    end.
  Fixpoint isort (l : list A) : list A :=
    match l with [] => [] | x :: r => insert x (isort r) end.
End Sort.

Fixpoint list_eqb {A} (eqb : A -> A -> bool) (a b : list A) : bool :=
  match a, b with
  | [], [] => true
  | x :: a', y :: b' => eqb x y && list_eqb eqb a' b'
  | _, _ => false
  end.

Section MapM.
  Context {A B : Type} (f : A -> res B).
  Fixpoint mapM (l : list A) : res (list B) :=
    match l with
    | [] => Ok []
    | x :: r => do y <- f x; do ys <- mapM r; Ok (y :: ys)
    end.
End MapM.
