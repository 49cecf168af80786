(** Family equality and the family closure cache.
    Python sources: peak/family.py, peak/features.py. *)
From Coq Require Import String ZArith List Bool.
From Verif Require Import Base.
Import ListNotations.
Open Scope Z_scope.

(** ** Families *)

(** Which [__eq__]/[__hash__] pair the method resolution order finds:
    AbstractFamily (family.py:37-51), _AsmFamily (115-124) or
    _RewriterFamily (148-155). A class that defines one defines both. *)
Inductive eqkind := KAbs | KAsm | KRew.

Section Family.
  (** [C]: family classes; [sub c d] is [issubclass(c, d)]; [meth c] is the
      pair found for c; [hv] is Python's hash of an attribute value. *)
  Context {C : Type} (ceqb : C -> C -> bool) (sub : C -> C -> bool) (meth : C -> eqkind).
  Context (hv : Z -> Z).

  (** A family object. [f_id] is its identity. [f_asm], [f_aadt], [f_extras],
      [f_passes] stand for the attributes set in family.py:98-102 and 133-135,
      up to [==]. A class that never sets them (PyFamily) has kind KAbs. *)
  Record family := mkFamily {
    f_id : Z; f_cls : C; f_asm : Z; f_aadt : Z; f_extras : Z; f_passes : Z }.

  (** [type(a).__eq__(a, b)]; [None] is NotImplemented. *)
  Definition eq_method (a b : family) : option bool :=
    if sub (f_cls b) (f_cls a) then
      Some (match meth (f_cls a) with
            | KAbs => true
            | KAsm => (f_asm a =? f_asm b) && (f_aadt a =? f_aadt b)
                      && (f_extras a =? f_extras b)
            | KRew => f_passes a =? f_passes b
            end)
    else None.

  (** The Python expression [a == b]: the reflected method goes first when the
      right operand's class is a proper subclass, identity decides when both
      return NotImplemented. *)
  Definition py_eq (a b : family) : bool :=
    let right_first := negb (ceqb (f_cls a) (f_cls b)) && sub (f_cls b) (f_cls a) in
    let m1 := if right_first then eq_method b a else eq_method a b in
    let m2 := if right_first then eq_method a b else eq_method b a in
    match m1 with
    | Some r => r
    | None => match m2 with Some r => r | None => f_id a =? f_id b end
    end.

  (** [type(a).__ne__(a, b)], family.py:43-48: the inner [==] is the full
      operator, so it never yields NotImplemented. *)
  Definition ne_method (a b : family) : bool := negb (py_eq a b).

  (** The Python expression [a != b]. *)
  Definition py_ne (a b : family) : bool :=
    if negb (ceqb (f_cls a) (f_cls b)) && sub (f_cls b) (f_cls a)
    then ne_method b a else ne_method a b.

  (** [hash(a)]. *)
  Definition fhash (a : family) : Z :=
    match meth (f_cls a) with
    | KAbs => 0
    | KAsm => 2 * hv (f_asm a) + 3 * hv (f_aadt a) + 5 * hv (f_extras a)
    | KRew => hv (f_passes a)
    end.
End Family.
Arguments family C : clear implicits.
Arguments mkFamily {C}.

(** The classes of family.py, and user subclasses: [UCls n b] is a class that
    derives from b, distinguished by n. *)
Inductive bcls := Py | PyX | Smt | Magma | UCls (n : Z) (base : bcls).

Fixpoint bcls_eqb (a b : bcls) : bool :=
  match a, b with
  | Py, Py | PyX, PyX | Smt, Smt | Magma, Magma => true
  | UCls n x, UCls m y => (n =? m) && bcls_eqb x y
  | _, _ => false
  end.

(** [issubclass]: PyXFamily derives from PyFamily (family.py:318), SMTFamily and
    MagmaFamily from neither (322, 354). *)
Fixpoint bsub (a b : bcls) : bool :=
  bcls_eqb a b ||
  match a with
  | PyX => match b with Py => true | _ => false end
  | UCls _ x => bsub x b
  | _ => false
  end.

(** Method resolution: PyFamily finds AbstractFamily's methods; PyXFamily and
    SMTFamily reach _AsmFamily through _StdMix (289), MagmaFamily directly
    (354). A user class that does not override inherits. *)
Fixpoint bmeth (a : bcls) : eqkind :=
  match a with
  | Py => KAbs
  | PyX | Smt | Magma => KAsm
  | UCls _ x => bmeth x
  end.

(** ** family_closure *)
Section Closure.
  (** [A]: argument values, [R]: what a wrapped function builds.
      [aeq]: identity or [==]; [ahash]: hash, [None] when unhashable;
      [isfun]: [isinstance(x, types.FunctionType)];
      [app x c]: calling the value x with arguments c. *)
  Context {A R : Type} (aeq : A -> A -> bool) (ahash : A -> option Z)
          (isfun : A -> bool).
  Record call := mkCall { c_args : list A; c_kw : list (string * A) }.
  Context (app : A -> call -> res R).

  (** features.py:138: the key [(tuple(args), tuple(kwargs.items()))] is the
      call itself. Tuples compare elementwise, and a dict entry matches when
      hash and [==] agree. *)
  Definition kv_eq (x y : string * A) : bool :=
    String.eqb (fst x) (fst y) && aeq (snd x) (snd y).
  Definition oz_eqb (x y : option Z) : bool :=
    match x, y with Some a, Some b => a =? b | None, None => true | _, _ => false end.
  Definition arg_match (x y : A) : bool := oz_eqb (ahash x) (ahash y) && aeq x y.
  Definition kv_match (x y : string * A) : bool :=
    String.eqb (fst x) (fst y) && arg_match (snd x) (snd y).
  Definition key_match (x y : call) : bool :=
    list_eqb arg_match (c_args x) (c_args y) && list_eqb kv_match (c_kw x) (c_kw y).
  Definition hashable (x : A) : bool := match ahash x with Some _ => true | None => false end.
  Definition key_hashable (c : call) : bool :=
    forallb hashable (c_args c) && forallb (fun kv => hashable (snd kv)) (c_kw c).

  (** A result object: identity and contents. *)
  Definition obj := (nat * R)%type.

  (** [family_closure] object: [is_bound], [fc], [cache]; the counter numbers
      the objects built so far. Entries are searched in insertion order, as
      CPython does for keys with one hash. *)
  Record closure := { cl_fc : option A; cl_cache : list (call * obj); cl_next : nat }.

  (** features.py:100-106. *)
  Definition closure_init (arg : A) : closure :=
    {| cl_fc := if isfun arg then Some arg else None; cl_cache := []; cl_next := O |}.

  (** Result of one [__call__]: the closure itself after binding, or an object. *)
  Inductive cres := CSelf | CObj (o : obj).

  Fixpoint lookup (l : list (call * obj)) (k : call) : option obj :=
    match l with
    | [] => None
    | (k', o) :: r => if key_match k' k then Some o else lookup r k
    end.

  (** features.py:134-143, with [_bind] (108-111), which takes exactly one
      argument (called [fc] when given by keyword). *)
  Definition cl_call (s : closure) (c : call) : res cres * closure :=
    match cl_fc s with
    | None =>
        match c_args c, c_kw c with
        | [x], [] => (Ok CSelf, {| cl_fc := Some x; cl_cache := []; cl_next := cl_next s |})
        | [], [(n, x)] =>
            if String.eqb n "fc"
            then (Ok CSelf, {| cl_fc := Some x; cl_cache := []; cl_next := cl_next s |})
            else (Err TypeError, s)
        | _, _ => (Err TypeError, s)
        end
    | Some fc =>
        if negb (key_hashable c) then (Err TypeError, s)
        else match lookup (cl_cache s) c with
             | Some o => (Ok (CObj o), s)
             | None =>
                 match app fc c with
                 | Err e => (Err e, s)
                 | Ok r =>
                     let o := (cl_next s, r) in
                     (Ok (CObj o), {| cl_fc := cl_fc s; cl_cache := cl_cache s ++ [(c, o)];
                                      cl_next := S (cl_next s) |})
                 end
             end
    end.

  Fixpoint cl_run (s : closure) (h : list call) : list (res cres) * closure :=
    match h with
    | [] => ([], s)
    | c :: h' =>
        let (r, s') := cl_call s c in
        let (rs, s'') := cl_run s' h' in (r :: rs, s'')
    end.
End Closure.
Arguments call A : clear implicits.
Arguments mkCall {A}.
Arguments closure A R : clear implicits.
Arguments obj R : clear implicits.
Arguments cres R : clear implicits.
