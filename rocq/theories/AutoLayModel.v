(** Model of the layouts of peak/auto_assembler.py and of the wiring of an
    instruction port in peak/rtl_utils.py. *)
From Coq Require Import String ZArith List Bool.
From Verif Require Import Base AsmModel Asm2Model AutoModel.
Import ListNotations.
Open Scope Z_scope.

(** Keys of a layout: the name of a field (auto_assembler.py:96), the type of a
    member of a Sum (128), a member of an Enum (70). *)
Inductive lkey := LField (k : key) | LMember (m : emem).
Definition lkey_eqb (a b : lkey) : bool :=
  match a, b with
  | LField k, LField k' => key_eqb k k'
  | LMember m, LMember m' => emem_eqb m m'
  | _, _ => false
  end.

(** The fourth result of [generate_assembler]: None for words (154), otherwise a
    dictionary of triples (base, top, layout of the part). *)
Inductive lay := LNone | LDict (es : list (lkey * (Z * Z * lay))).

(** The layouts built by [_enum] (69-70), [_product] (91-97) and [_sum] (122-128),
    selected as in [generate_assembler] (168-184). The loop of [_sum] runs over the
    sorted members and here over the declared ones; the dictionary is only used by key.
    Repeated members of an Enum set the same entry again. *)
Fixpoint aut_layout (t : ty) : lay :=
  match t with
  | TBit | TBV _ | TSInt _ => LNone
  | TEnum c ms => LDict (map (fun m => (LMember m, (0, aut_width (TEnum c ms), LNone))) ms)
  | TProd _ fs =>
      LDict ((fix go (fs : list (key * ty)) (base : Z) : list (lkey * (Z * Z * lay)) :=
                match fs with
                | [] => []
                | (k, t') :: r =>
                    (LField k, (base, base + aut_width t', aut_layout t')) :: go r (base + aut_width t')
                end) fs 0)
  | TSum _ _ fs =>
      let tagw := aut_tagw fs in
      LDict ((fix go (fs : list (key * ty)) : list (lkey * (Z * Z * lay)) :=
                match fs with
                | [] => []
                | (k, t') :: r => (LField k, (tagw, tagw + aut_width t', aut_layout t')) :: go r
                end) fs)
  end.

(** [layout[key]]: KeyError if there is no such key, TypeError for None. *)
Definition lay_get (l : lay) (k : lkey) : res (Z * Z * lay) :=
  match l with LNone => Err TypeError | LDict es => dgetE lkey_eqb es k end.

(** The bits that the nested layouts name by a path: [begin], [end] and the inner
    layout are read at each step and the inner bounds are relative to the outer
    [wrapper_inst[begin:end]] (rtl_utils.py:16-22). *)
Fixpoint region (l : lay) (op : Z) (p : list key) : res Z :=
  match p with
  | [] => Ok op
  | k :: r => do '(lo, hi, l') <- lay_get l (LField k); region l' (slice op lo hi) r
  end.

(** The ports of the fields of the PE's instruction: their widths, or None where
    [m.wire] cannot connect bits (rtl_utils.py:30). Words and Enums are bits in magma; a
    Product or Sum is not (magma, assumed). *)
Definition wirable (t : ty) : bool :=
  match t with TProd _ _ | TSum _ _ _ => false | _ => true end.
Definition ports (width : ty -> Z) (fs : list (key * ty)) : list (key * option Z) :=
  map (fun f => (fst f, if wirable (snd f) then Some (width (snd f)) else None)) fs.

(** [wire_inst_fields] of the wrapper's instruction bits to the instruction port of
    the PE (rtl_utils.py:23-30): the value each field port of the PE is driven with. The
    first branch (15-22) is for a wrapper port that is a Product, which it never is (10, 38).
    A port that does not exist raises AttributeError, and an Enum member is no attribute name
    (TypeError). [m.bit] of a one bit region (29) is its bit; magma rejects a region of another
    width (assumed). *)
Fixpoint wire_inst (ps : list (key * option Z)) (es : list (lkey * (Z * Z))) (op : Z) : res (list (key * Z)) :=
  match es with
  | [] => Ok []
  | (LMember _, _) :: _ => Err TypeError
  | (LField k, (lo, hi)) :: r =>
      match dget key_eqb ps k with
      | None => Err AttributeError
      | Some None => Err TypeError
      | Some (Some w) =>
          if hi - lo =? w
          then do ws <- wire_inst ps r op; Ok ((k, slice op lo hi) :: ws)
          else Err TypeError
      end
  end.

(** [wire_inst_fields(getattr(io, key), getattr(pe, key), layout)] (37-39) with the layout
    [generate_assembler] gives for the instruction type; only [value[0]] and [value[1]] are used. *)
Definition wrap_inst (t : ty) (op : Z) : res (list (key * Z)) :=
  match t, aut_layout t with
  | TProd _ fs, LDict es => wire_inst (ports aut_width fs) (map (fun e => (fst e, fst (snd e))) es) op
  | _, _ => Err AttributeError
  end.

(** The same with [asm.layout] of an [Assembler] (assembler.py:49-51, 151), as in
    tests/test_magma.py:145-160; [width] gives the widths of the field ports. *)
Definition wrap_inst_asm (width : ty -> Z) (t : ty) (a : asm) (op : Z) : res (list (key * Z)) :=
  match t, a with
  | TProd _ fs, ATuple _ fs' =>
      wire_inst (ports width fs) (map (fun e => (LField (fst (fst e)), snd (fst e))) fs') op
  | _, _ => Err AttributeError
  end.
