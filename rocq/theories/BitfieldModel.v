(** Model of peak/bitfield.py. Words are Python integers, so unbounded. *)
From Coq Require Import ZArith List Bool.
From Verif Require Import Base.
Import ListNotations.
Open Scope Z_scope.

(** Classes as [size] and [encode] see them. [sh] is the class attribute set by
    [@bitfield(sh)] (52-56), 0 by default. Enum members are given by their
    integer values; members of a Sum by their position in [list(t.fields)];
    [tags] is the class attribute set by [@tag] (8-19), listed by position.
    Field names play no role, except that a field called [bitfield] would shadow
    the class attribute (60); that case is left out. *)
Inductive bty :=
| BBit (sh : Z)
| BBV (sh w : Z)
| BSInt (sh w : Z)
| BEnum (sh : Z) (ms : list Z)
| BProd (sh : Z) (fs : list bty)
| BSum (sh : Z) (tags : option (list Z)) (fs : list bty).

Inductive bval :=
| WBit (b : bool)
| WBV (z : Z)
| WEnum (z : Z)
| WProd (vs : list bval)
| WSum (i : nat) (v : bval).

(** [magma.bitutils.clog2]: least w with n <= 2^w (n >= 1). *)
Definition clog2 (n : Z) : Z := Z.log2_up n.

(** [sumsize] (35-41). *)
Definition sumsize (tags : option (list Z)) (n : nat) : Z :=
  match tags with
  | Some ts => clog2 (fold_right Z.max 0 ts + 1)
  | None => clog2 (Z.of_nat n)
  end.

(** [size] (21-33). *)
Fixpoint bsize (t : bty) : Z :=
  match t with
  | BBit _ => 1
  | BBV _ w | BSInt _ w => w
  | BEnum _ ms => clog2 (Z.of_nat (length ms))
  | BProd _ fs => (fix go (fs : list bty) : Z := match fs with [] => 0 | t' :: r => bsize t' + go r end) fs
  | BSum _ tags fs =>
      (fix go (fs : list bty) : Z := match fs with [] => 0 | t' :: r => Z.max (bsize t') (go r) end) fs
      + sumsize tags (length fs)
  end.

(** [instkey] (43-50). *)
Definition instkey (tags : option (list Z)) (i : nat) : res Z :=
  match tags with
  | Some ts => match nth_error ts i with Some x => Ok x | None => Err KeyError end
  | None => Ok (Z.of_nat i)
  end.

Definition shift_of (t : bty) : Z :=
  match t with BBit s | BBV s _ | BSInt s _ | BEnum s _ | BProd s _ | BSum s _ _ => s end.

(** [encode] (59-93). [int()] of a signed vector is signed. *)
Fixpoint encode (rev : bool) (t : bty) (v : bval) {struct t} : res Z :=
  do word <-
    match t, v with
    | BBit _, WBit b => Ok (b2z b)
    | BBV _ _, WBV z => Ok z
    | BSInt _ w, WBV z => Ok (to_signed w z)
    | BEnum _ _, WEnum z => Ok z
    | BProd _ fs, WProd vs =>
        if rev then
          (fix go (fs : list bty) (vs : list bval) (pos word : Z) : res Z :=
             match fs, vs with
             | t' :: fs', v' :: vs' =>
                 do x <- encode rev t' v';
                 go fs' vs' (pos - bsize t') (Z.lor word (Z.shiftl x (pos - bsize t')))
             | _, _ => Ok word
             end) fs vs (bsize t) 0
        else
          (fix go (fs : list bty) (vs : list bval) (pos word : Z) : res Z :=
             match fs, vs with
             | t' :: fs', v' :: vs' =>
                 do x <- encode rev t' v';
                 go fs' vs' (pos + bsize t') (Z.lor word (Z.shiftl x pos))
             | _, _ => Ok word
             end) fs vs 0 0
    | BSum _ tags fs, WSum i v' =>
        do tag <- instkey tags i;
        do x <- (fix go (fs : list bty) (j : nat) : res Z :=
           match fs, j with
           | t' :: _, O => encode rev t' v'
           | _ :: r, S j' => go r j'
           | [], _ => Err ValueError
           end) fs i;
        if rev then Ok (Z.lor (Z.shiftl tag (bsize t - sumsize tags (length fs))) x)
        else Ok (Z.lor (Z.shiftl x (sumsize tags (length fs))) tag)
    | _, _ => Err ValueError
    end;
  Ok (Z.shiftl word (shift_of t)).
