(** Model of peak/auto_assembler.py over concrete bit vectors. Constant fields
    ([_bv_const], 156-166) are not modelled: [ty] has no constant types. The
    [krepr] of a Sum member stands for its sort key (name, module) (122).
    A [TProd] is a Product; a plain Tuple raises TypeError in
    [generate_assembler] (168-184). *)
From Coq Require Import String ZArith List Bool.
From Verif Require Import Base AsmModel Asm2Model.
Import ListNotations.
Open Scope Z_scope.

(** First loop of [_enum] (53-59). *)
Fixpoint aut_scan (ms : list emem) (tbl : list (emem * Z)) (used : list Z)
  (free : list emem) : list (emem * Z) * list Z * list emem :=
  match ms with
  | [] => (tbl, used, free)
  | EInt v :: r => aut_scan r (dset emem_eqb tbl (EInt v) v) (v :: used) free
  | EAuto n :: r => aut_scan r tbl used (free ++ [EAuto n])
  end.

(** [i_map] (60-66): [free.pop()] takes the last automatic member first; the
    inner loop is [next_free]. *)
Definition aut_table (ms : list emem) : res (list (emem * Z)) :=
  let '(tbl, used, free) := aut_scan ms [] [] [] in
  enum_assign (rev free) 0 tbl used.

(** [get_width] (27-43, 68). [max(used)] is the maximum of the assigned codes. *)
Fixpoint aut_width (t : ty) : Z :=
  match t with
  | TBit => 1
  | TBV w | TSInt w => w
  | TEnum _ ms => match aut_table ms with Ok tbl => bit_length (zmax (map snd tbl)) | Err _ => 0 end
  | TProd _ fs =>
      (fix go (fs : list (key * ty)) : Z :=
         match fs with [] => 0 | (_, t') :: r => aut_width t' + go r end) fs
  | TSum _ _ fs =>
      (fix go (fs : list (key * ty)) : Z :=
         match fs with [] => 0 | (_, t') :: r => Z.max (aut_width t') (go r) end) fs
      + bit_length (Z.of_nat (length fs))
  end.

Definition aut_tagw (fs : list (key * ty)) : Z := bit_length (Z.of_nat (length fs)).

(** Which types [generate_assembler] accepts (168-184): a TaggedUnion raises
    TypeError, an empty Sum or Enum raises ValueError ([max] of nothing). *)
Fixpoint aut_gen (t : ty) : res unit :=
  match t with
  | TBit | TBV _ | TSInt _ => Ok tt
  | TEnum _ ms => match ms with [] => Err ValueError | _ => Ok tt end
  | TProd _ fs =>
      (fix go (fs : list (key * ty)) : res unit :=
         match fs with [] => Ok tt | (_, t') :: r => do _ <- aut_gen t'; go r end) fs
  | TSum true _ _ => Err TypeError
  | TSum false _ [] => Err ValueError
  | TSum false _ fs =>
      (fix go (fs : list (key * ty)) : res unit :=
         match fs with [] => Ok tt | (_, t') :: r => do _ <- aut_gen t'; go r end) fs
  end.

(** [assembler] (75-76, 99-104, 130-140, 150-151). A Bit has no [zext] (hwtypes,
    assumed), so a Bit member of a Sum raises AttributeError (137). *)
Fixpoint aut_asm (t : ty) (v : val) {struct t} : res Z :=
  match t, v with
  | TBit, VBit b => Ok (b2z b)
  | TBV w, VBV z => Ok z
  | TSInt w, VBV z => Ok z
  | TEnum c ms, VEnum m =>
      do tbl <- aut_table ms; do x <- dgetE emem_eqb tbl m; Ok (wrap (aut_width (TEnum c ms)) x)
  | TProd c fs, VProd vs =>
      let W := aut_width (TProd c fs) in
      (fix go (fs : list (key * ty)) (vs : list val) (base opcode : Z) : res Z :=
         match fs, vs with
         | [], _ => Ok opcode
         | (_, t') :: fs', v' :: vs' =>
             do x <- aut_asm t' v';
             go fs' vs' (base + aut_width t') (Z.lor opcode (wrap W (Z.shiftl (wrap W x) base)))
         | _, [] => Err KeyError
         end) fs vs 0 0
  | TSum g c fs, VSum k v' =>
      let tagw := aut_tagw fs in
      let W := aut_width (TSum g c fs) in
      match a2_tag fs k with
      | None => Err KeyError
      | Some tag =>
          (fix go (fs : list (key * ty)) : res Z :=
             match fs with
             | [] => Err KeyError
             | (k', t') :: r =>
                 if key_eqb k k' then
                   do x <- aut_asm t' v';
                   match t' with
                   | TBit => Err AttributeError
                   | _ => Ok (Z.lor (wrap tagw tag) (wrap W (Z.shiftl x tagw)))
                   end
                 else go r
             end) fs
      end
  | _, _ => Err TypeError
  end.

(** [disassembler] (77-78, 106-111, 142-145, 152-153). *)
Fixpoint aut_dsm (t : ty) (op : Z) {struct t} : res val :=
  match t with
  | TBit => Ok (VBit (negb (op =? 0)))
  | TBV w | TSInt w => Ok (VBV op)
  | TEnum _ ms => do tbl <- aut_table ms; do m <- dsm_lookup tbl op; Ok (VEnum m)
  | TProd _ fs =>
      do vs <- (fix go (fs : list (key * ty)) (base : Z) : res (list val) :=
         match fs with
         | [] => Ok []
         | (_, t') :: r =>
             do v <- aut_dsm t' (slice op base (base + aut_width t'));
             do vs <- go r (base + aut_width t');
             Ok (v :: vs)
         end) fs 0;
      Ok (VProd vs)
  | TSum _ _ fs =>
      let tagw := aut_tagw fs in
      match a2_name fs (slice op 0 tagw) with
      | None => Err KeyError
      | Some (k, _) =>
          (fix go (fs : list (key * ty)) : res val :=
             match fs with
             | [] => Err KeyError
             | (k', t') :: r =>
                 if key_eqb k k' then
                   do v <- aut_dsm t' (slice op tagw (tagw + aut_width t'));
                   Ok (VSum k v)
                 else go r
             end) fs
      end
  end.

(** [_bv_const] (156-166): the assembler of a bit vector constant instead of a type,
    with its width. Other values are not an error: a ValueError object is returned
    (160, 164), not raised. [inst != isa] on words of the width of the constant. *)
Inductive cres := CWord (z : Z) | CExc (e : pyerr).
Definition const_asm (isa inst : Z) : res cres := if negb (inst =? isa) then Ok (CExc ValueError) else Ok (CWord inst).
Definition const_dsm (isa opcode : Z) : res cres := if negb (opcode =? isa) then Ok (CExc ValueError) else Ok (CWord opcode).
Definition aut_const (w isa : Z) : (Z -> res cres) * (Z -> res cres) * Z := (const_asm isa, const_dsm isa, w).
