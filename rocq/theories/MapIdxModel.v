(** Index variables, formula constructors and initial vectors of the mapper.
    Python sources: peak/mapper/index_var.py, peak/mapper/formula_constructor.py,
    peak/mapper/mapper.py:859-887. *)
From Coq Require Import ZArith List Bool.
From Verif Require Import Base.
Import ListNotations.
Open Scope list_scope.
Open Scope Z_scope.

(** ** index_var.py *)
Inductive ivar := OneHot | Binary.

(** [len(bin(x)) - 2]: [bin] writes at least one digit, and a sign for negative
    numbers. *)
Definition bin_digits (x : Z) : Z := Z.max 1 (bit_length (Z.abs x)) + (if x <? 0 then 1 else 0).

(** Lines 43-45, 55-57. *)
Definition var_len (k : ivar) (n : Z) : Z :=
  match k with OneHot => n | Binary => bin_digits (n - 1) end.

(** Lines 47-49, 59-61. *)
Definition translate_index (k : ivar) (i : Z) : Z :=
  match k with OneHot => 2 ^ i | Binary => i end.

(** Lines 12-15, as a predicate on the value [v] of the variable. hwtypes
    truncates the integer operand to the size of the vector. *)
Definition match_index (k : ivar) (n i v : Z) : res bool :=
  if (0 <=? i) && (i <? n) then Ok (v =? wrap (var_len k n) (translate_index k i)) else Err ValueError.

(** Lines 17-21. *)
Fixpoint decode_from (k : ivar) (is : list Z) (v : Z) : res Z :=
  match is with
  | [] => Err ValueError
  | i :: r => if v =? translate_index k i then Ok i else decode_from k r v
  end.
Definition decode (k : ivar) (n v : Z) : res Z := decode_from k (pyrange 0 n) v.

(** Lines 51-52, 63-67; [var - 1] wraps. *)
Definition is_valid (k : ivar) (n v : Z) : bool :=
  let w := var_len k n in
  match k with
  | OneHot => (Z.land v (wrap w (v - 1)) =? wrap w 0) && negb (v =? wrap w 0)
  | Binary => if n =? 2 ^ w then true else v <? wrap w n
  end.

(** ** formula_constructor.py *)
Section Formulas.
  (** [E]: the SMTBit expressions used as leaves. *)
  Context {E : Type}.

  (** Objects given to the constructors; [FBad] is a value that is neither a
      FormulaConstructor nor an SMTBit. *)
  Inductive fc :=
  | FLeaf (e : E)
  | FBad
  | FAnd (l : list fc)
  | FOr (l : list fc)
  | FImplies (p q : fc).

  (** The resulting SMTBit expression. *)
  Inductive sexp := SLeaf (e : E) | SAnd (a b : sexp) | SOr (a b : sexp) | SNot (a : sexp).

  (** [reduce(op, gen)] without initial value (4-5). *)
  Definition reduce (op : sexp -> sexp -> sexp) (l : list sexp) : res sexp :=
    match l with [] => Err TypeError | x :: r => Ok (fold_left op r x) end.

  (** [_check] (29-32) and [to_hwtypes] (41-42, 52-53, 64-65) in one pass. Both
      a bad element and a failure while building an element are AssertionErrors,
      so the order of the two checks does not show. *)
  Fixpoint build (f : fc) : res sexp :=
    let builds := fix builds (l : list fc) : res (list sexp) :=
      match l with
      | [] => Ok []
      | x :: r => do x' <- build x; do r' <- builds r; Ok (x' :: r')
      end in
    match f with
    | FLeaf e => Ok (SLeaf e)
    | FBad => Err AssertionError
    | FAnd [] => Err AssertionError
    | FAnd l => do ls <- builds l; reduce SAnd ls
    | FOr [] => Err AssertionError
    | FOr l => do ls <- builds l; reduce SOr ls
    | FImplies p q => do a <- build p; do b <- build q; Ok (SOr (SNot a) b)
    end.

  Variable ev : E -> bool.
  Fixpoint seval (s : sexp) : bool :=
    match s with
    | SLeaf e => ev e
    | SAnd a b => seval a && seval b
    | SOr a b => seval a || seval b
    | SNot a => negb (seval a)
    end.
End Formulas.
Arguments fc E : clear implicits.
Arguments sexp E : clear implicits.

(** ** Initial vectors (mapper.py:859-887) *)
Inductive sort := SBool | SBV (w : Z).
(** Constants of a sort. *)
Inductive sconst := CBool (b : bool) | CBV (z w : Z).

(** Lines 859-864. Python's [x % 0] is an error. *)
Definition int_to_pysmt (x : Z) (s : sort) : res sconst :=
  match s with
  | SBV w => if w =? 0 then Err ValueError else Ok (CBV (x mod w) w)
  | SBool => Ok (CBool (negb (x =? 0)))
  end.

(** Lines 874-887. [rnd k] is what [random.randrange] gives for the k-th random
    vector and each variable. *)
Definition gen_vector {X} (y : list (X * sort)) (val : X -> sort -> Z) : res (list (X * sconst)) :=
  mapM (fun v => do c <- int_to_pysmt (val (fst v) (snd v)) (snd v); Ok (fst v, c)) y.
Definition gen_initial {X} (y : list (X * sort)) (num : Z) (rnd : Z -> X -> sort -> Z)
  : res (list (list (X * sconst))) :=
  if num <? 0 then Ok []
  else mapM (gen_vector y)
         ([(fun _ _ => 0); (fun _ _ => 1); (fun _ _ => -1)] ++ map rnd (pyrange 0 num)).
