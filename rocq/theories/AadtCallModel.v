(** Calling an AssembledADT class: peak/assembler/assembled_adt.py:68-163 and
    243-253. Definitions only.

    [AadtModel] has the placement of the fields; here are the ways the fields can be
    passed, the conversion of each one by the class of its field, and the fallback
    from the constructor to [from_fields]. *)
From Coq Require Import String ZArith List Bool.
From Verif Require Import Base AsmModel AadtModel.
Import ListNotations.
Open Scope string_scope.
Open Scope list_scope.
Open Scope Z_scope.

(** What is passed: a bit vector of the class's [bv_type], an instance of the
    AssembledADT of a type, a value of an ADT class (of a hwtypes constant class, if
    the type is a leaf), an integer, a key of a Sum, anything else. *)
Inductive carg := CWord (w z : Z) | CInst (t : ty) (z : Z) | CAdt (t : ty) (v : val) | CInt (z : Z) | CKey (k : key) | COther.

Definition kwargs := list (string * carg).
Definition has (kws : kwargs) (n : string) : bool := match dget String.eqb kws n with Some _ => true | None => false end.
Definition drop (n : string) (kws : kwargs) : kwargs := filter (fun e => negb (String.eqb (fst e) n)) kws.

(** Binding of arguments to parameters ([sig.bind], line 110, and the interpreter's
    own). *)
Fixpoint bind_pos (params : list string) (pos : list carg) : res (list string) :=
  match params, pos with
  | ps, [] => Ok ps
  | [], _ :: _ => Err TypeError
  | _ :: ps, _ :: xs => bind_pos ps xs
  end.
Definition bind_args (params : list string) (pos : list carg) (kws : kwargs) : res (list carg) :=
  do rest <- bind_pos params pos;
  if forallb (fun e => existsb (String.eqb (fst e)) rest) kws then
    do xs <- mapM (fun p => match dget String.eqb kws p with Some x => Ok x | None => Err TypeError end) rest;
    Ok (pos ++ xs)
  else Err TypeError.

(** [default_bv], an integer, 0 if not given. *)
Definition default_of (kws : kwargs) : res Z :=
  match dget String.eqb kws "default_bv" with
  | None => Ok 0
  | Some (CInt d) => Ok d
  | Some _ => Err TypeError
  end.

Section Call.
  (** [cls._assembler_] of the class over a type. *)
  Variable asmof : ty -> asm.
  (** Bit, BitVector[w], Signed[w] of the family called with one argument; the bits. *)
  Variable leaf_new : ty -> carg -> res Z.
  (** Product or Tuple, by the class. *)
  Variable is_tuple : string -> bool.
  (** Attributes of the class or its metaclass: [getattr(cls, name)] finds them
      before the field of that name. Calling what it finds gives bits or raises. *)
  Variable shadow : string -> option (carg -> res Z).

  (** [AssembledADT.__init__] (243-253). *)
  Definition init (t : ty) (x : carg) : res Z :=
    match x with
    | CInst t' z => if ty_eqb t t' then Ok z else Err TypeError
    | CAdt t' v => if ty_eqb t t' then assemble (asmof t) v else Err TypeError
    | CWord w z => if w =? a_width (asmof t) then Ok z else Err TypeError
    | _ => Err TypeError
    end.

  (** The class of a field called with one argument: [__call__] (152-163), where
      [from_fields] with one positional argument fits only a Product or Tuple with
      one field. Classes over leaves are the leaf classes (177-187). *)
  Fixpoint new (t : ty) (x : carg) {struct t} : res Z :=
    match t with
    | TBit | TBV _ | TSInt _ => leaf_new t x
    | TEnum _ _ | TSum _ _ _ => init t x
    | TProd c fs =>
        match init t x with
        | Err TypeError =>
            match fs with
            | [(k, t')] =>
                do z <- match (if is_tuple c then None else shadow (kname k)) with Some f => f x | None => new t' x end;
                prod_from_fields fs (asmof t) [FWord (a_width (asmof t')) z] 0
            | _ => Err TypeError
            end
        | r => r
        end
    end.

  (** [getattr(cls, k)(v)] (73, 112). *)
  Definition new_attr (f : key * ty) (x : carg) : res Z :=
    match shadow (kname (fst f)) with Some g => g x | None => new (snd f) x end.
  Fixpoint new_all (mk : key * ty -> carg -> res Z) (fs : list (key * ty)) (xs : list carg) : res (list farg) :=
    match fs, xs with
    | [], [] => Ok []
    | f :: fs', x :: xs' => do z <- mk f x; do zs <- new_all mk fs' xs'; Ok (FWord (a_width (asmof (snd f))) z :: zs)
    | _, _ => Err TypeError
    end.

  (** [_product_from_fields] (107-116). The keyword-only parameter [default_bv] and
      the first parameter [cls] are taken before the fields. *)
  Definition product_ff (t : ty) (fs : list (key * ty)) (pos : list carg) (kws : kwargs) : res Z :=
    if has kws "cls" then Err TypeError else
    do xs <- bind_args (map (fun f => kname (fst f)) fs) pos (drop "default_bv" kws);
    do zs <- new_all new_attr fs xs;
    do d <- default_of kws;
    prod_from_fields fs (asmof t) zs d.

  (** [_tuple_from_fields] (118-127). *)
  Definition tuple_ff (t : ty) (fs : list (key * ty)) (pos : list carg) (kws : kwargs) : res Z :=
    match drop "default_bv" kws with
    | [] =>
        if negb (length pos =? length fs)%nat then Err TypeError else
        do zs <- new_all (fun f => new (snd f)) fs pos;
        do d <- default_of kws;
        prod_from_fields fs (asmof t) zs d
    | _ => Err TypeError
    end.

  (** The argument [tag_bv] and its width, where it becomes a slot of the word (48 and
      55-63). *)
  Definition tag_arg (kws : kwargs) : res (option (Z * Z)) :=
    match dget String.eqb kws "tag_bv" with
    | None => Ok None
    | Some (CWord w g) => Ok (Some (w, g))
    | Some (CInst s g) => Ok (Some (a_width (asmof s), g))
    | Some _ => Err TypeError
    end.
  (** [_sum_or_tagged_from_fields] (85-103) for the converted value. A tag of another
      width makes a word of another width, which line 49 asserts not to happen. *)
  Definition sum_ff_value (t : ty) (fs : list (key * ty)) (k : key) (t' : ty) (z : Z) (kws : kwargs) : res Z :=
    do d <- default_of kws;
    do r <- sum_from_fields fs (asmof t) k (FWord (a_width (asmof t')) z) (match tag_arg kws with Ok (Some (_, g)) => Some g | _ => None end) d;
    do g <- tag_arg kws;
    match g, asmof t with
    | None, _ => Ok r
    | Some (w, _), ASum _ tagw _ _ _ => if w =? tagw then Ok r else Err AssertionError
    | _, _ => Err AssertionError
    end.

  (** [_taggedunion_from_fields] (68-74). *)
  Definition tagged_ff (t : ty) (fs : list (key * ty)) (pos : list carg) (kws : kwargs) : res Z :=
    if has kws "cls" then Err TypeError else
    match pos, drop "tag_bv" (drop "default_bv" kws) with
    | [], [(n, x)] =>
        match find (fun f => String.eqb (kname (fst f)) n) fs with
        | Some f => do z <- new_attr f x; sum_ff_value t fs (fst f) (snd f) z kws
        | None => Err AttributeError
        end
    | _, _ => Err TypeError
    end.

  (** [_sum_from_fields] (78-82). *)
  Definition sum_ff (t : ty) (fs : list (key * ty)) (pos : list carg) (kws : kwargs) : res Z :=
    if has kws "cls" then Err TypeError else
    do xs <- bind_args ["tag"; "value"] pos (drop "tag_bv" (drop "default_bv" kws));
    match xs with
    | [CKey k; x] =>
        match dget key_eqb fs k with
        | Some t' => do z <- new t' x; sum_ff_value t fs k t' z kws
        | None => Err KeyError
        end
    | _ => Err KeyError
    end.

  (** [cls.from_fields] (133-150); [_enum_from_fields] (129-130) is left out, see
      [cls_call]. *)
  Definition from_fields (t : ty) (pos : list carg) (kws : kwargs) : res Z :=
    match t with
    | TProd c fs => if is_tuple c then tuple_ff t fs pos kws else product_ff t fs pos kws
    | TSum true _ fs => tagged_ff t fs pos kws
    | TSum false _ fs => sum_ff t fs pos kws
    | _ => Err AttributeError
    end.

  (** The constructor as the interpreter calls it; its parameter is called [adt]. *)
  Definition init_call (t : ty) (pos : list carg) (kws : kwargs) : res Z :=
    match pos, kws with
    | [x], [] => init t x
    | [], [(n, x)] => if String.eqb n "adt" then init t x else Err TypeError
    | _, _ => Err TypeError
    end.

  (** [AssembledADTMeta.__call__] (152-163). *)
  Definition cls_call (t : ty) (pos : list carg) (kws : kwargs) : res Z :=
    if has kws "cls" then Err TypeError else
    match t with
    | TEnum _ _ => init_call t pos kws
    | _ => match init_call t pos kws with Err TypeError => from_fields t pos kws | r => r end
    end.
End Call.
