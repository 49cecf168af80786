(** Operations of hwtypes.BitVector[w] used by the examples, on integers
    0 <= x < 2^w. hwtypes is not in /repo; its behaviour is assumed as written
    here (see DESIGN.md). Definitions only. *)
From Coq Require Import ZArith Bool.
From Verif Require Import Base.
Open Scope Z_scope.

(** [x + y], [x - y], [x * y], [-x], [~x]: modulo 2^w. *)
Definition bvadd (w x y : Z) : Z := wrap w (x + y).
Definition bvsub (w x y : Z) : Z := wrap w (x - y).
Definition bvmul (w x y : Z) : Z := wrap w (x * y).
Definition bvneg (w x : Z) : Z := wrap w (- x).
Definition bvnot (w x : Z) : Z := wrap w (Z.lnot x).

(** [bvshl], [bvlshr], [bvashr]: the whole unsigned value of y is the amount. *)
Definition bvshl (w x y : Z) : Z := wrap w (Z.shiftl x y).
Definition bvlshr (w x y : Z) : Z := wrap w (Z.shiftr x y).
Definition bvashr (w x y : Z) : Z := wrap w (Z.shiftr (to_signed w x) y).

(** [bvult], [bvslt], [bvule], [bvsle], [==]. *)
Definition bvult (x y : Z) : bool := x <? y.
Definition bvslt (w x y : Z) : bool := to_signed w x <? to_signed w y.
Definition bvule (x y : Z) : bool := x <=? y.
Definition bvsle (w x y : Z) : bool := to_signed w x <=? to_signed w y.

(** [x.zext(k)], [x.sext(k)]: concatenation with k zeros / copies of the top
    bit. *)
Definition bvzext (w k x : Z) : Z := concat w x 0.
Definition bvsext (w k x : Z) : Z :=
  concat w x (if Z.testbit x (w - 1) then Z.ones k else 0).

(** [x[i]] as a Bit. *)
Definition bvbit (x i : Z) : bool := Z.testbit x i.

(** hwtypes [BitVector.adc]: both operands zero-extended by one bit, the carry
    to [w + 1] bits; the low [w] bits and the top bit of the sum. *)
Definition adc (w a b : Z) (c : bool) : Z * bool :=
  let r := wrap (w + 1) (bvzext w 1 a + bvzext w 1 b + b2z c) in
  (slice r 0 w, bvbit r w).

(** hwtypes [overflow(a, b, res)] (used at examples/pe1/sim.py:44,49 and
    examples/pico/sim.py:108). *)
Definition overflow (w a b r : Z) : bool :=
  let ma := bvbit a (w - 1) in
  let mb := bvbit b (w - 1) in
  let n := bvbit r (w - 1) in
  (ma && mb && negb n) || (negb ma && negb mb && n).
