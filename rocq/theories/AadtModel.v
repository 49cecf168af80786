(** Model of peak/assembler/assembled_adt.py: AssembledADT classes over concrete
    bit vectors. Definitions only. *)
From Coq Require Import String ZArith List Bool.
From Verif Require Import Base AsmModel.
Import ListNotations.
Open Scope Z_scope.

(** A bit vector: size and unsigned value. *)
Definition bv := (Z * Z)%type.
Definition bv_concat (x y : bv) : bv := (fst x + fst y, Z.lor (snd x) (Z.shiftl (snd y) (fst x))).

(** [sorted(layout.values())]: tuples compare lexicographically. *)
Definition pair_leb (a b : Z * Z) : bool :=
  (fst a <? fst b) || ((fst a =? fst b) && (snd a <=? snd b)).

(** The check on neighbouring ranges (assembled_adt.py:37-43). *)
Fixpoint ranges_ok (width : Z) (rs : list (Z * Z)) : bool :=
  match rs with
  | r0 :: ((r1 :: _) as tl) =>
      (0 <=? fst r0) && (fst r0 <? snd r0) && (snd r0 <=? fst r1)
      && (fst r1 <? snd r1) && (snd r1 <=? width) && ranges_ok width tl
  | _ => true
  end.

(** [slots[low:hi] = v, *(None ...)] (46-48). A slot is [None] or a bit vector.
    The right hand side always has at least the one element [v]. *)
Definition slot_set (slots : list (option bv)) (lo hi : Z) (v : bv) : list (option bv) :=
  firstn (Z.to_nat lo) slots
  ++ Some v :: repeat None (Z.to_nat (hi - (lo + 1)))
  ++ skipn (Z.to_nat hi) slots.

Fixpoint somes {A} (l : list (option A)) : list A :=
  match l with [] => [] | Some x :: r => x :: somes r | None :: r => somes r end.

(** [reduce(concat, ...)] (49): TypeError on an empty sequence. *)
Definition reduce_concat (l : list bv) : res bv :=
  match l with [] => Err TypeError | x :: r => Ok (fold_left bv_concat r x) end.

Definition key_in (k : key) (l : list key) : bool := existsb (key_eqb k) l.
(** [layout.keys() != field_bvs.keys()] compares as sets. *)
Definition same_keys (a b : list key) : bool :=
  forallb (fun k => key_in k b) a && forallb (fun k => key_in k a) b.

(** The loop over [layout.items()] (46-48). *)
Fixpoint fill (layout : list (key * (Z * Z))) (bvs : list (key * bv)) (slots : list (option bv))
  : res (list (option bv)) :=
  match layout with
  | [] => Ok slots
  | (k, (lo, hi)) :: r =>
      do v <- dgetE key_eqb bvs k;
      fill r bvs (slot_set slots lo hi v)
  end.

(** [_create_from_layout] (33-52). *)
Definition create_from_layout (width : Z) (layout : list (key * (Z * Z)))
  (bvs : list (key * bv)) (default : Z) : res Z :=
  if negb (same_keys (map fst layout) (map fst bvs)) then Err ValueError
  else if negb (ranges_ok width (isort pair_leb (map snd layout))) then Err ValueError
  else
    do slots <- fill layout bvs (repeat (Some (1, wrap 1 default)) (Z.to_nat width));
    do b <- reduce_concat (somes slots);
    if fst b =? width then Ok (snd b) else Err AssertionError.

(** An argument for a field: an ADT value, or a bit vector / assembled value. *)
Inductive farg := FAdt (v : val) | FWord (w z : Z).

(** [getattr(cls, k)(v)] / [cls[k](v)] (73, 81, 112, 124): the class of a field is
    Bit or BitVector for leaves (177-187), else an AssembledADT whose constructor
    is lines 243-253. Bit vectors of the wrong size are TypeErrors here (hwtypes
    would truncate leaves). *)
Definition field_new (t : ty) (a : asm) (x : farg) : res bv :=
  match x with
  | FWord w z => if w =? a_width a then Ok (w, z) else Err TypeError
  | FAdt v =>
      match t, v with
      | TBit, VBit b => Ok (1, b2z b)
      | TBV w, VBV z => Ok (w, z)
      | TSInt w, VBV z => Ok (w, z)
      | (TEnum _ _ | TProd _ _ | TSum _ _ _), _ => do z <- assemble a v; Ok (a_width a, z)
      | _, _ => Err TypeError
      end
  end.

Fixpoint new_fields (fs : list (key * ty)) (as_ : list (key * (Z * Z) * asm)) (args : list farg)
  : res (list (key * bv)) :=
  match fs, as_, args with
  | [], [], [] => Ok []
  | (k, t) :: fs', (_, _, a) :: as', x :: args' =>
      do b <- field_new t a x;
      do r <- new_fields fs' as' args';
      Ok ((k, b) :: r)
  | _, _, _ => Err TypeError
  end.

(** [_product_from_fields], [_tuple_from_fields] (107-127); arguments in
    declaration order (signature binding is in [AadtCallModel]). *)
Definition prod_from_fields (fs : list (key * ty)) (a : asm) (args : list farg) (default : Z) : res Z :=
  match a with
  | ATuple w as_ =>
      do bvs <- new_fields fs as_ args;
      create_from_layout w (map fst as_) bvs default
  | _ => Err TypeError
  end.

Definition k_value : key := Key "value" "value".
Definition k_tag : key := Key "tag" "tag".

(** [_sum_from_fields], [_taggedunion_from_fields] (68-103); [tag_bv] is the
    optional explicit tag word. *)
Definition sum_from_fields (fs : list (key * ty)) (a : asm) (k : key) (x : farg)
  (tag_bv : option Z) (default : Z) : res Z :=
  match a with
  | ASum w tagw as_ _ _ =>
      match dget key_eqb fs k, sum_find as_ k with
      | Some t, Some (_, lay, f) =>
          do v <- field_new t f x;
          do tag <- (match tag_bv with Some z => Ok z | None => assemble_tag a k end);
          create_from_layout w [(k_value, lay); (k_tag, (0, tagw))]
            [(k_value, v); (k_tag, (tagw, tag))] default
      | _, _ => Err AttributeError
      end
  | _ => Err TypeError
  end.

(** Field access [_get] (261-295): the bits of the field and, for a Sum, whether
    the tag matches. *)
Definition aadt_get (a : asm) (op : Z) (k : key) : res (Z * option bool) :=
  match sub_step a k with
  | None => Err KeyError
  | Some ((lo, _), f) =>
      let field := slice op lo (lo + a_width f) in
      match a with
      | ASum _ tagw _ _ _ =>
          do t <- assemble_tag a k;
          Ok (field, Some (slice op 0 tagw =? t))
      | _ => Ok (field, None)
      end
  end.

(** [AssembledADT(x)] (243-253). *)
Definition aadt_new (a : asm) (x : farg) : res Z :=
  match x with
  | FAdt v => assemble a v
  | FWord w z => if w =? a_width a then Ok z else Err TypeError
  end.

(** [__eq__] (304-314) on an instance with word [z]; [None] is NotImplemented. *)
Definition aadt_eq (a : asm) (z : Z) (other : farg) : res (option bool) :=
  match other with
  | FWord w y => if w =? a_width a then Ok (Some (z =? y)) else Ok None
  | FAdt v => do y <- assemble a v; Ok (Some (z =? y))
  end.
