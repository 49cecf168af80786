(** Model of field access on assembled classes and their instances, along paths:
    peak/assembler/assembled_adt.py:136, 168-197, 243-295, peak/assembler/assembler_abc.py:104-175
    and peak/assembler2/assembled_adt.py:136-152. Definitions only. *)
From Coq Require Import String ZArith List Bool.
From Verif Require Import Base AsmModel AadtModel Asm2Model.
Import ListNotations.
Open Scope Z_scope.

(** What [AssembledADT[T, Assembler, BV]] evaluates to (172-190): Bits and bit vectors are not
    wrapped, everything else becomes a bound class. [ty] has no class for Unsigned vectors. *)
Inductive acls := KBit | KVec (w : Z) | KSigned (w : Z) | KAdt (t : ty).
Definition aadt_class (t : ty) : acls :=
  match t with
  | TBit => KBit
  | TBV w => KVec w
  | TSInt w => KSigned w
  | _ => KAdt t
  end.

(** How a field is named: an attribute (Product, TaggedUnion) or an index (Tuple, Sum). The syntax that
    does not fit the type is not modelled, it depends on hwtypes. *)
Inductive how := Attr | Item.
(** [AttributeError] or [KeyError] (256, 259). *)
Definition missing (h : how) : pyerr := match h with Attr => AttributeError | Item => KeyError end.

(** Names of Enum members: [field_dict] of an Enum maps them to the members. Members with an explicit
    value have no name in [emem]; it is given by [nm]. *)
Section Names.
Variable nm : emem -> string.
Definition is_member (ms : list emem) (k : key) : bool := existsb (fun m => String.eqb (nm m) (kname k)) ms.

(** [Assembler.sub.get(key, _MISSING)] (assembler_abc.py:130-149 through [Mapping.get], which catches
    KeyError only): leaf types have no [field_dict] (AttributeError); the value of an Enum name is a member,
    not a type, so [Assembler(member)] raises TypeError (assembler.py:38). *)
Definition sub_get (t : ty) (a : asm) (k : key) : res (option ((Z * Z) * asm)) :=
  match t with
  | TBit | TBV _ | TSInt _ => Err AttributeError
  | TEnum _ ms => if is_member ms k then Err TypeError else Ok None
  | _ => Ok (sub_step a k)
  end.

(** [cls.attr] and [cls[key]] (168-171, 192-197). For an Enum member [unbound_t[(member, ...)]] makes a class whose
    [__init__] calls [Assembler(member)] (136): TypeError. An index that is not there raises in
    hwtypes; KeyError stands for it. Classes of leaves are hwtypes classes without such attributes. *)
Definition class_get (h : how) (c : acls) (k : key) : res acls :=
  match c with
  | KAdt (TProd _ fs) | KAdt (TSum _ _ fs) =>
      match dget key_eqb fs k with
      | Some t => Ok (aadt_class t)
      | None => Err (missing h)
      end
  | KAdt (TEnum _ ms) => if is_member ms k then Err TypeError else Err (missing h)
  | _ => Err (missing h)
  end.

Fixpoint class_path (c : acls) (p : list (how * key)) : res acls :=
  match p with
  | [] => Ok c
  | (h, k) :: r => do c' <- class_get h c k; class_path c' r
  end.

(** Instances: Bits, vectors, and instances of an assembled class, whose class holds the assembler (136). *)
Inductive inst := IBit (b : bool) | IVec (w z : Z) | ISigned (w z : Z) | IAdt (t : ty) (a : asm) (z : Z).
Definition class_of (i : inst) : acls :=
  match i with IBit _ => KBit | IVec w _ => KVec w | ISigned w _ => KSigned w | IAdt t _ _ => KAdt t end.
Definition bits_of (i : inst) : Z :=
  match i with IBit b => Z.b2z b | IVec _ z | ISigned _ z | IAdt _ _ z => z end.

(** [AssembledADT[T, Assembler, BV](z)] for a word [z] of the right width (243-253); [a] is [Assembler(T)]. *)
Definition mk (t : ty) (a : asm) (z : Z) : inst :=
  match aadt_class t with
  | KBit => IBit (Z.testbit z 0)
  | KVec n => IVec n z
  | KSigned n => ISigned n z
  | KAdt t => IAdt t a z
  end.

(** The field from its slice of the word (265-268, 243-253): bit 0 for a Bit (IndexError on an empty
    slice), [V[w](x)] for vectors (hwtypes keeps the low bits), and for an assembled class
    the word if it is as wide as the assembler of the class says, else TypeError. *)
Definition wrap_field (c : acls) (f : asm) (w z : Z) : res inst :=
  match c with
  | KBit => if w <=? 0 then Err IndexError else Ok (IBit (Z.testbit z 0))
  | KVec n => Ok (IVec n (wrap n z))
  | KSigned n => Ok (ISigned n (wrap n z))
  | KAdt t => if w =? a_width f then Ok (IAdt t f z) else Err TypeError
  end.

(** What a member of a Sum can be named by (261-295): its key, an assembled class, a tag, or [_TAG]. *)
Inductive name := NKey (k : key) | NClass (t : ty) (k : key) | NTagBits (z : Z) | NTag.

(** [inst._get(key, getter, Error)] (261-295) for a key of [field_dict]: the field and, in a Sum, [match]. *)
Definition inst_get (h : how) (i : inst) (k : key) : res (inst * option bool) :=
  match i with
  | IAdt t a z =>
      do s <- sub_get t a k;
      match s with
      | Some ((lo, _), f) =>
          do c <- class_get h (KAdt t) k;
          do x <- wrap_field c f (a_width f) (slice z lo (lo + a_width f));
          match t with
          | TSum _ _ _ =>
              do '(l, u) <- sub_tag_idx a [];
              do tag <- assemble_tag a k;
              Ok (x, Some (slice z l u =? tag))
          | _ => Ok (x, None)
          end
      | None => Err (missing h)
      end
  | _ => Err (missing h)
  end.

(** [inst[name]]. An assembled class, and a vector, are looked up in [field_dict] first (263); they are no key
    of it (the hash of an assembled class is its own, 218-219), so 271-272 raises; the code
    for them (283-286, 291) is not reached. [AssembledADT[leaf]] is the leaf class, which is the key itself. *)
Definition inst_item (i : inst) (n : name) : res (inst + (inst * option bool)) :=
  match n, i with
  | NKey k, _ => do r <- inst_get Item i k; Ok (inr r)
  | NClass t k, IAdt _ _ _ =>
      match aadt_class t with
      | KAdt _ => Err KeyError
      | _ => do r <- inst_get Item i k; Ok (inr r)
      end
  | NTagBits _, IAdt _ _ _ => Err KeyError
  | NTag, IAdt (TSum _ _ _) a z =>
      do '(l, u) <- sub_tag_idx a [];
      Ok (inl (IVec (u - l) (slice z l u)))
  | _, _ => Err KeyError
  end.

(** [inst.f.g...], reading [.value] of every [Match] on the way ([safe=False], so it can be read); the [match]
    flags on the way are kept. *)
Fixpoint inst_path (i : inst) (p : list (how * key)) : res (inst * list bool) :=
  match p with
  | [] => Ok (i, [])
  | (h, k) :: r =>
      do '(x, m) <- inst_get h i k;
      do '(y, ms) <- inst_path x r;
      Ok (y, match m with Some b => b :: ms | None => ms end)
  end.

(** The same for assembler2 (assembled_adt.py:136-152 there); its assembler is a function of the type. *)
Definition inst2_get (h : how) (c : acls) (z : Z) (k : key) : res (acls * Z * option bool) :=
  match c with
  | KAdt t =>
      do x <- a2_extract t z k;
      do c' <- class_get h c k;
      match t with
      | TSum _ _ _ => do m <- a2_match t z k; Ok (c', x, Some m)
      | _ => Ok (c', x, None)
      end
  | _ => Err (missing h)
  end.
Fixpoint inst2_path (c : acls) (z : Z) (p : list (how * key)) : res (acls * Z * list bool) :=
  match p with
  | [] => Ok (c, z, [])
  | (h, k) :: r =>
      do '(c', x, m) <- inst2_get h c z k;
      do '(c2, y, ms) <- inst2_path c' x r;
      Ok (c2, y, match m with Some b => b :: ms | None => ms end)
  end.

(** [Sub] as a Mapping (assembler_abc.py:151-156): [iter] goes over [field_dict], [len] over [fields]. *)
Definition sub_iter (t : ty) : res (list key) :=
  match t with
  | TBit | TBV _ | TSInt _ => Err AttributeError
  | TEnum _ ms => Ok (map (fun m => Key (nm m) (nm m)) ms)
  | TProd _ fs | TSum _ _ fs => Ok (map fst fs)
  end.
Definition sub_len (t : ty) : res Z :=
  match t with
  | TBit | TBV _ | TSInt _ => Err AttributeError
  | TEnum _ ms => Ok (Z.of_nat (length ms))
  | TProd _ fs | TSum _ _ fs => Ok (Z.of_nat (length fs))
  end.
End Names.
