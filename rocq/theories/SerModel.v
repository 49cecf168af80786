(** Rewrite rules: construction, serialisation, reading. Python source:
    peak/mapper/mapper.py:214-250 ([RewriteRule.__init__], [get_input_paths]),
    362-382 ([serialize_bindings]) and 384-410 ([read_serialized_bindings]). *)
From Coq Require Import String Ascii ZArith List Bool.
From Verif Require Import Base.
Import ListNotations.
Open Scope string_scope.
Open Scope list_scope.
Open Scope Z_scope.

(** Path elements: names of Product and TaggedUnion fields, indices of Tuple
    fields, and the types that name the fields of a Sum. *)
Inductive elt := EStr (s : string) | EInt (z : Z) | EType (n : nat).
Definition elt_eqb (a b : elt) : bool :=
  match a, b with
  | EStr s, EStr t => String.eqb s t
  | EInt x, EInt y => x =? y
  | EType m, EType n => Nat.eqb m n
  | _, _ => false
  end.
Definition path := list elt.

(** Python objects that occur in the serialised form. *)
Inductive obj :=
  | OAtom (a : elt)
  | OBool (b : bool)
  | OTuple (l : list obj)
  | OList (l : list obj)
  | ODict (d : list (string * obj)).

(** Kinds of bit-vector classes: BitVector, Unsigned, Signed. *)
Inductive kind := KPlain | KUnsigned | KSigned.

(** First component of an input binding given to [RewriteRule]. *)
Inductive given :=
  | GPath (p : path)
  | GUnbound
  | GInt (z : Z)
  | GBool (b : bool)
  | GBV (k : kind) (w v : Z)
  | GBit (b : bool)
  | GEnum (code : Z) (* a member of the Enum of this leaf, by its assembled value *)
  | GOther.          (* anything else *)

(** Leaf types: bit vectors, Bit, and Enums with width and validity. *)
Inductive leaf := LBV (k : kind) (w : Z) | LBit | LEnum (w : Z) (valid : Z -> bool).

(** First component of an input binding kept by a rule. *)
Inductive src := SPath (p : path) | SUnbound | SBV (k : kind) (w v : Z) | SBit (b : bool).

Record rule := mkRule { ib : list (src * path); ob : list (option path * path) }.

(** Lines 227-234: [aadt(ir_path)] with the class of assembled_adt.py:174-186
    for bit vectors and [AssembledADT.__init__] for Enums. The constructors of
    hwtypes truncate; [Bit] wants 0 or 1 for integers. [GOther] stands for objects
    the hwtypes constructors reject. *)
Definition coerce (t : leaf) (g : given) : res src :=
  match t, g with
  | LBV k w, GInt z => Ok (SBV k w (wrap w z))
  | LBV k w, GBool b => Ok (SBV k w (wrap w (b2z b)))
  | LBV k w, GBit b => Ok (SBV k w (wrap w (b2z b)))
  | LBV k w, GBV _ _ v => Ok (SBV k w (wrap w v))
  | LBit, GBool b => Ok (SBit b)
  | LBit, GBit b => Ok (SBit b)
  | LBit, GInt z => if z =? 0 then Ok (SBit false) else if z =? 1 then Ok (SBit true) else Err ValueError
  | LBit, GBV _ _ v => Ok (SBit (negb (v =? 0)))
  | LEnum w valid, GEnum z => if valid z then Ok (SBV KPlain w z) else Err ValueError
  | LEnum w valid, GBV k w' v =>
      if w =? w' then if valid v then Ok (SBV k w v) else Err ValueError else Err TypeError
  | _, _ => Err TypeError
  end.

Section Rule.
  (** [_create_path_to_adt(arch_fc.Py.input_t)] (220): the leaves of the input
      type, with the flag of the Const modifier. *)
  Variable types : list (path * (leaf * bool)).
  Definition path_eqb (p q : path) : bool := list_eqb elt_eqb p q.

  (** Lines 222-235. [isinstance(T, Const)] with a type [T] is False whatever
      the modifiers are, because [Const] is a class of values; a missing path is
      a KeyError when it is looked up. *)
  Definition mk_entry (e : given * path) : res (src * path) :=
    match fst e with
    | GUnbound => do _ <- dgetE path_eqb types (snd e); Ok (SUnbound, snd e)
    | GPath p => Ok (SPath p, snd e)
    | g => do t <- dgetE path_eqb types (snd e); do v <- coerce (fst t) g; Ok (v, snd e)
    end.
  Definition mk_rule (i : list (given * path)) (o : list (option path * path)) : res rule :=
    do l <- mapM mk_entry i; Ok {| ib := l; ob := o |}.

  (** Lines 240-250, as lists. The lookup only happens for unbound entries; the
      Const test is False as above. *)
  Definition get_input_paths (r : rule) : list path * list path :=
    (flat_map (fun e => match fst e with SPath p => [p] | _ => [] end) (ib r),
     flat_map (fun e => match fst e with SUnbound => [snd e] | _ => [] end) (ib r)).

  Definition opath (p : path) : obj := OTuple (map OAtom p).
  Definition ostr (s : string) : obj := OAtom (EStr s).

  (** Lines 362-382. *)
  Definition ser_in (e : src * path) : obj :=
    match fst e with
    | SBV _ w v => OTuple [ODict [("type", ostr "BitVector"); ("width", OAtom (EInt w)); ("value", OAtom (EInt v))]; opath (snd e)]
    | SBit b => OTuple [ODict [("type", ostr "Bit"); ("width", OAtom (EInt 1)); ("value", OBool b)]; opath (snd e)]
    | SUnbound => OTuple [ostr "unbound"; opath (snd e)]
    | SPath p => OTuple [opath p; opath (snd e)]
    end.
  Definition ser_out (e : option path * path) : obj :=
    match fst e with
    | None => OTuple [ostr "unbound"; opath (snd e)]
    | Some p => OTuple [opath p; opath (snd e)]
    end.
  Definition serialize (r : rule) : obj :=
    ODict [("ibinding", OList (map ser_in (ib r))); ("obinding", OList (map ser_out (ob r)))].

  (** [json.loads(json.dumps(o))]: tuples come back as lists, classes are not
      serialisable. *)
  Fixpoint json (o : obj) : res obj :=
    match o with
    | OAtom (EType _) => Err TypeError
    | OAtom a => Ok (OAtom a)
    | OBool b => Ok (OBool b)
    | OTuple l | OList l =>
        do l' <- (fix go (l : list obj) := match l with [] => Ok [] | x :: r => do y <- json x; do r' <- go r; Ok (y :: r') end) l;
        Ok (OList l')
    | ODict d =>
        do d' <- (fix go (d : list (string * obj)) := match d with [] => Ok [] | (k, x) :: r => do y <- json x; do r' <- go r; Ok ((k, y) :: r') end) d;
        Ok (ODict d')
    end.

  (** [o[n]] for a sequence; other objects do not occur in serialised rules. *)
  Definition index (o : obj) (n : nat) : res obj :=
    match o with
    | OTuple l | OList l => match nth_error l n with Some x => Ok x | None => Err IndexError end
    | _ => Err TypeError
    end.
  Definition get (o : obj) (k : string) : res obj :=
    match o with ODict d => dgetE String.eqb d k | _ => Err TypeError end.
  Definition is_dict (o : obj) : bool := match o with ODict _ => true | _ => false end.
  Definition eq_str (o : obj) (s : string) : bool :=
    match o with OAtom (EStr t) => String.eqb s t | _ => false end.

  (** [tuple(o)], used as a dictionary key: the elements must be hashable. A
      string gives its characters. *)
  Fixpoint chars (s : string) : list elt :=
    match s with EmptyString => [] | String c r => EStr (String c EmptyString) :: chars r end.
  Definition to_path (o : obj) : res path :=
    match o with
    | OTuple l | OList l => mapM (fun x => match x with OAtom a => Ok a | _ => Err TypeError end) l
    | ODict d => Ok (map (fun kv => EStr (fst kv)) d)
    | OAtom (EStr s) => Ok (chars s)
    | _ => Err TypeError
    end.

  (** [BitVector[u['width']](u['value'])] and [Bit(u['value'])] (393-396). An
      unknown type leaves the dict, which the rule constructor rejects. *)
  Definition read_value (u : obj) : res given :=
    do t <- get u "type";
    if eq_str t "BitVector" then
      do w <- get u "width"; do v <- get u "value";
      match w, v with
      | OAtom (EInt w), OAtom (EInt v) => Ok (GBV KPlain w (wrap w v))
      | OAtom (EInt w), OBool b => Ok (GBV KPlain w (wrap w (b2z b)))
      | _, _ => Err TypeError
      end
    else if eq_str t "Bit" then
      do v <- get u "value";
      match v with
      | OBool b => Ok (GBit b)
      | OAtom (EInt z) => if z =? 0 then Ok (GBit false) else if z =? 1 then Ok (GBit true) else Err ValueError
      | _ => Err TypeError
      end
    else Ok GOther.

  (** Lines 389-402. *)
  Definition read_in (e : obj) : res (given * path) :=
    do u <- index e 0;
    if is_dict u then do v <- index e 1; do g <- read_value u; do p <- to_path v; Ok (g, p)
    else if eq_str u "unbound" then do v <- index e 1; do p <- to_path v; Ok (GUnbound, p)
    else do q <- to_path u; do v <- index e 1; do p <- to_path v; Ok (GPath q, p).
  (** Lines 404-408. *)
  Definition read_out (e : obj) : res (option path * path) :=
    do u <- index e 0;
    if eq_str u "unbound" then do v <- index e 1; do p <- to_path v; Ok (None, p)
    else do q <- to_path u; do v <- index e 1; do p <- to_path v; Ok (Some q, p).

  (** Lines 384-410. *)
  Definition read (o : obj) : res rule :=
    do il <- get o "ibinding"; do ol <- get o "obinding";
    match il, ol with
    | OList il, OList ol =>
        do i <- mapM read_in il; do o <- mapM read_out ol; mk_rule i o
    | _, _ => Err TypeError
    end.
End Rule.
