(** Model of peak/assembler2/assembler.py and assembler2/assembled_adt.py over
    concrete bit vectors. Assembler objects are cached by type and hold nothing
    but closures over the type, so they are functions of the type here.
    [is_valid] is in Asm2ValidModel.v. *)
From Coq Require Import String ZArith List Bool.
From Verif Require Import Base AsmModel AadtModel.
Import ListNotations.
Open Scope Z_scope.

(** [width] (assembler.py:132, 176, 276, 364-369). The maximum over the members
    of a Sum is taken in declaration order instead of sorted order. *)
Fixpoint a2_width (t : ty) : Z :=
  match t with
  | TBit => 1
  | TBV w | TSInt w => w
  | TEnum _ ms => match enum_table ms with Ok tbl => bit_length (zmax (map snd tbl)) | Err _ => 0 end
  | TProd _ fs =>
      (fix go (fs : list (key * ty)) : Z :=
         match fs with [] => 0 | (_, t') :: r => a2_width t' + go r end) fs
  | TSum _ _ fs =>
      bit_length (Z.of_nat (length fs) - 1) +
      (fix go (fs : list (key * ty)) : Z :=
         match fs with [] => 0 | (_, t') :: r => Z.max (a2_width t') (go r) end) fs
  end.

Definition a2_tagw (fs : list (key * ty)) : Z := bit_length (Z.of_nat (length fs) - 1).

(** [layout] of a Product or Tuple (160-173), by field name. *)
Fixpoint a2_layout (base : Z) (fs : list (key * ty)) : list (key * (Z * Z)) :=
  match fs with
  | [] => []
  | (k, t) :: r => (k, (base, base + a2_width t)) :: a2_layout (base + a2_width t) r
  end.

(** [name_to_tag] (254-265): position among the fields sorted by repr. *)
Fixpoint index_of (k : key) (l : list (key * ty)) (n : Z) : option Z :=
  match l with
  | [] => None
  | (k', _) :: r => if key_eqb k k' then Some n else index_of k r (n + 1)
  end.
Definition a2_tag (fs : list (key * ty)) (k : key) : option Z := index_of k (isort field_leb fs) 0.

(** [tag_to_name] *)
Definition a2_name (fs : list (key * ty)) (tag : Z) : option (key * ty) :=
  if tag <? 0 then None else nth_error (isort field_leb fs) (Z.to_nat tag).

(** [_extend_to_width] (237-241) *)
Definition zext_to (x w W : Z) : res Z := if W <? w then Err TypeError else Ok x.

(** [assemble] (134-135, 178-185, 283-297, 371-372). Bit vectors of width
    [a2_width t] as unsigned integers; [<<] truncates. *)
Fixpoint a2_asm (t : ty) (v : val) {struct t} : res Z :=
  match t, v with
  | TBit, VBit b => Ok (b2z b)
  | TBV w, VBV z => Ok (wrap w z)
  | TSInt w, VBV z => Ok (wrap w z)
  | TEnum c ms, VEnum m => do tbl <- enum_table ms; do x <- dgetE emem_eqb tbl m; Ok (wrap (a2_width (TEnum c ms)) x)
  | TProd c fs, VProd vs =>
      let W := a2_width (TProd c fs) in
      (fix go (fs : list (key * ty)) (vs : list val) (base opcode : Z) : res Z :=
         match fs, vs with
         | [], _ => Ok opcode
         | (_, t') :: fs', v' :: vs' =>
             do x <- a2_asm t' v';
             do x' <- zext_to x (a2_width t') W;
             go fs' vs' (base + a2_width t') (Z.lor opcode (wrap W (Z.shiftl x' base)))
         | _, [] => Err KeyError
         end) fs vs 0 0
  | TSum g c fs, VSum k v' =>
      let tagw := a2_tagw fs in
      let pw := a2_width (TSum g c fs) - tagw in
      match a2_tag fs k with
      | None => Err KeyError
      | Some tag =>
          (fix go (fs : list (key * ty)) : res Z :=
             match fs with
             | [] => Err KeyError
             | (k', t') :: r =>
                 if key_eqb k k' then
                   do x <- a2_asm t' v';
                   do x' <- zext_to x (a2_width t') pw;
                   Ok (snd (bv_concat (tagw, wrap tagw tag) (pw, x')))
                 else go r
             end) fs
      end
  | _, _ => Err TypeError
  end.

(** [disassemble] (143-144, 211-216, 330-337, 380-381). No validity check. *)
Fixpoint a2_dsm (t : ty) (op : Z) {struct t} : res val :=
  match t with
  | TBit => Ok (VBit (negb (op =? 0)))
  | TBV w | TSInt w => Ok (VBV op)
  | TEnum _ ms => do tbl <- enum_table ms; do m <- dsm_lookup tbl op; Ok (VEnum m)
  | TProd _ fs =>
      do vs <- (fix go (fs : list (key * ty)) (base : Z) : res (list val) :=
         match fs with
         | [] => Ok []
         | (_, t') :: r =>
             do v <- a2_dsm t' (slice op base (base + a2_width t'));
             do vs <- go r (base + a2_width t');
             Ok (v :: vs)
         end) fs 0;
      Ok (VProd vs)
  | TSum _ _ fs =>
      let tagw := a2_tagw fs in
      match a2_name fs (slice op 0 tagw) with
      | None => Err KeyError
      | Some (k, _) =>
          (fix go (fs : list (key * ty)) : res val :=
             match fs with
             | [] => Err KeyError
             | (k', t') :: r =>
                 if key_eqb k k' then
                   do v <- a2_dsm t' (slice op tagw (tagw + a2_width t'));
                   Ok (VSum k v)
                 else go r
             end) fs
      end
  end.

(** [extract] (146-147, 218-222, 339-340, 383-384) by field name. *)
Definition a2_extract (t : ty) (op : Z) (k : key) : res Z :=
  match t with
  | TProd _ fs =>
      match dget key_eqb (a2_layout 0 fs) k with
      | Some (lo, hi) => Ok (slice op lo hi)
      | None => Err KeyError
      end
  | TSum _ _ fs =>
      match dget key_eqb fs k with
      | Some t' => Ok (slice op (a2_tagw fs) (a2_tagw fs + a2_width t'))
      | None => Err KeyError
      end
  | _ => Err TypeError
  end.

(** [match] by name and by type (342-348). *)
Definition a2_match (t : ty) (op : Z) (k : key) : res bool :=
  match t with
  | TSum _ _ fs =>
      match a2_tag fs k with
      | Some tag => Ok (slice op 0 (a2_tagw fs) =? wrap (a2_tagw fs) tag)
      | None => Err KeyError
      end
  | _ => Err TypeError
  end.

Fixpoint tags_of_type (l : list (key * ty)) (u : ty) (n : Z) : list Z :=
  match l with
  | [] => []
  | (_, t') :: r => (if ty_eqb u t' then [n] else []) ++ tags_of_type r u (n + 1)
  end.
Definition a2_match_type (t : ty) (op : Z) (u : ty) : res bool :=
  match t with
  | TSum _ _ fs =>
      Ok (fold_left orb (map (fun tag => slice op 0 (a2_tagw fs) =? wrap (a2_tagw fs) tag)
                             (tags_of_type (isort field_leb fs) u 0)) false)
  | _ => Err TypeError
  end.

(** [_create_from_layout] (67-97). The slots start as [T[1]()]: 0 for concrete
    vectors, a fresh variable for SMT vectors; [pad i] is the value of slot i. *)
Definition create2 (width : Z) (layout : list (key * (Z * Z))) (bvs : list (key * bv))
  (pad : nat -> bool) : res Z :=
  if negb (same_keys (map fst layout) (map fst bvs)) then Err ValueError
  else if negb (ranges_ok width (isort pair_leb (map snd layout))) then Err ValueError
  else match bvs with
  | [] => Err AssertionError
  | _ =>
    do slots <- fill layout bvs (map (fun i => Some (1, b2z (pad i))) (seq 0 (Z.to_nat width)));
    do b <- reduce_concat (somes slots);
    if fst b =? width then Ok (snd b) else Err AssertionError
  end.

(** [from_fields] of a Product, Tuple (187-209) and of a Sum, TaggedUnion
    (300-327). Sizes of the given vectors are not compared with the layout. *)
Definition a2_prod_from_fields (t : ty) (args : list bv) (pad : nat -> bool) : res Z :=
  match t with
  | TProd _ fs =>
      if negb (Nat.eqb (length fs) (length args)) then Err TypeError
      else create2 (a2_width t) (a2_layout 0 fs) (combine (map fst fs) args) pad
  | _ => Err TypeError
  end.
Definition a2_sum_from_fields (t : ty) (k : key) (x : bv) (pad : nat -> bool) : res Z :=
  match t with
  | TSum _ _ fs =>
      match a2_tag fs k, dget key_eqb fs k with
      | Some tag, Some t' =>
          create2 (a2_width t)
            [(k_value, (a2_tagw fs, a2_tagw fs + a2_width t')); (k_tag, (0, a2_tagw fs))]
            [(k_value, x); (k_tag, (a2_tagw fs, wrap (a2_tagw fs) tag))] pad
      | _, _ => Err KeyError
      end
  | _ => Err TypeError
  end.

(** [_as_bv] in AssembledADT.from_fields (assembled_adt.py:177-189): an ADT value
    is only accepted when it is an instance of the whole type [cls.adt_t]; [t] is
    the type of the field the argument is meant for. *)
Definition a2_as_bv (t : ty) (x : farg) : res bv :=
  match x with
  | FWord w z => Ok (w, z)
  | FAdt v =>
      match t, v with
      | TBit, VBit b => Ok (1, b2z b)
      | TBV w, VBV z => Ok (w, z)
      | TSInt w, VBV z => Ok (w, z)
      | _, _ => Err TypeError
      end
  end.
Definition aadt2_prod_from_fields (t : ty) (args : list farg) (pad : nat -> bool) : res Z :=
  match t with
  | TProd _ fs =>
      do bvs <- mapM (fun p => a2_as_bv (snd (fst p)) (snd p)) (combine fs args);
      if negb (Nat.eqb (length fs) (length args)) then Err TypeError
      else a2_prod_from_fields t bvs pad
  | _ => Err TypeError
  end.

(** [_get] (assembled_adt.py:136-152). *)
Definition aadt2_get (t : ty) (op : Z) (k : key) : res (Z * option bool) :=
  do x <- a2_extract t op k;
  match t with
  | TSum _ _ _ => do m <- a2_match t op k; Ok (x, Some m)
  | _ => Ok (x, None)
  end.
