(** Model of what a Peak class computes in PyFamily and in PyXFamily
    (peak/family.py:259-318): the same source, run directly on ADT values, and run
    after [assemble] has rewritten [__call__] and replaced ADT values by
    AssembledADT words. Definitions only.

    The source of [__call__] is a term of [stmt]. The meaning of the rewriting
    passes (family.py:299: ssa, bool_to_bit, if_to_phi) is that of the library
    ast_tools, which is not in /repo; it is taken to be: both branches of every
    conditional are evaluated, variables and attributes are selected by
    [Bit.ite] afterwards, the value returned is selected by the conditions under
    which the return statements stand, attributes are written once at the end,
    [and], [or], [not] become operations on Bits. *)
From Coq Require Import String ZArith List Bool.
From Verif Require Import Base AsmModel AsmCheck AadtModel.
Import ListNotations.
Open Scope string_scope.
Open Scope list_scope.
Open Scope Z_scope.

(** ** Source programs *)

(** A bit vector operation of hwtypes: types of arguments and result, and the
    function on unsigned values; the result is truncated to its size. *)
Record prim := Prim { o_args : list ty; o_res : ty; o_fun : list Z -> Z }.

(** Expressions. The class of the ADT object a field is taken from, which Python
    finds at run time, is written in the term. *)
Inductive expr :=
| EVar (x : string)
| EAttr (r : string)                     (* self.r *)
| ELit (t : ty) (v : val)                (* T(v): a bit vector literal, get_adt_t(T)(constant) *)
| EGet (t : ty) (e : expr) (k : key)     (* e.k or e[k] of a Product or Tuple *)
| EMatch (t : ty) (e : expr) (k : key)   (* e[k].match *)
| EValue (t : ty) (e : expr) (k : key)   (* e[k].value *)
| EMake (t : ty) (es : exprs)            (* get_constructor(T)(...) of a Product or Tuple *)
| EInj (t : ty) (k : key) (e : expr)     (* get_constructor(T)(k, e) of a Sum or TaggedUnion *)
| EEq (e1 e2 : expr)                     (* e1 == e2 *)
| EEqC (e : expr) (v : val)              (* e == constant, an ADT value *)
| EOp (o : prim) (es : exprs)
| EInv (e : expr)                        (* ~e for a Bit *)
| EIte (c e1 e2 : expr)                  (* c.ite(e1, e2) *)
| ECond (c e1 e2 : expr)                 (* e1 if c else e2 *)
| EAnd (e1 e2 : expr) | EOr (e1 e2 : expr) | ENot (e : expr)
with exprs := ENil | ECons (e : expr) (es : exprs).

(** Statements. [SCall] calls a component (a register, another Peak object) that
    keeps state. A body that ends without [return] is written with [SRet ENil]. *)
Inductive stmt :=
| SSkip
| SAssign (x : string) (e : expr)
| SAttr (r : string) (e : expr)          (* self.r = e *)
| SCall (xs : list string) (m : string) (es : exprs)
| SIf (c : expr) (s1 s2 : stmt)
| SSeq (s1 s2 : stmt)
| SRet (es : exprs).

(** A Peak class: parameters, attributes, outputs and the body of [__call__]. *)
Record pclass := PClass {
  c_params : list (string * ty); c_attrs : list (string * ty);
  c_rets : list ty; c_body : stmt }.

Definition env (A : Type) := list (string * A).
Definition get {A} (e : env A) (x : string) : option A := dget String.eqb e x.
Definition set {A} (e : env A) (x : string) (v : A) : env A := dset String.eqb e x v.
Definition getE {A} (e : env A) (x : string) : res A :=
  match get e x with Some v => Ok v | None => Err NameError end.

Fixpoint bind_all {A} (e : env A) (xs : list string) (vs : list A) : res (env A) :=
  match xs, vs with
  | [], [] => Ok e
  | x :: xs', v :: vs' => bind_all (set e x v) xs' vs'
  | _, _ => Err TypeError
  end.

(** Every path through the statement ends in a return. *)
Fixpoint returns (s : stmt) : bool :=
  match s with
  | SRet _ => true
  | SIf _ s1 s2 => returns s1 && returns s2
  | SSeq s1 s2 => returns s1 || returns s2
  | _ => false
  end.

Definition is_leaf (t : ty) : bool :=
  match t with TBit | TBV _ | TSInt _ => true | _ => false end.

Definition leaf_width (t : ty) : Z :=
  match t with TBit => 1 | TBV w => w | TSInt w => w | _ => 0 end.

(** Unsigned value of a leaf. *)
Definition leaf_bits (t : ty) (v : val) : res Z :=
  match t, v with
  | TBit, VBit b => Ok (b2z b)
  | TBV _, VBV z => Ok z
  | TSInt _, VBV z => Ok z
  | _, _ => Err TypeError
  end.

(** Equality of ADT values (hwtypes: by class and value). *)
Fixpoint val_eqb (a b : val) : bool :=
  match a, b with
  | VBit x, VBit y => Bool.eqb x y
  | VBV x, VBV y => x =? y
  | VEnum m, VEnum n => emem_eqb m n
  | VProd vs, VProd ws =>
      (fix go (vs ws : list val) : bool :=
         match vs, ws with
         | [], [] => true
         | v :: vs', w :: ws' => val_eqb v w && go vs' ws'
         | _, _ => false
         end) vs ws
  | VSum k v, VSum l w => key_eqb k l && val_eqb v w
  | _, _ => false
  end.

Fixpoint field_at (fs : list (key * ty)) (vs : list val) (k : key) : res val :=
  match fs, vs with
  | (k', _) :: fs', v :: vs' => if key_eqb k k' then Ok v else field_at fs' vs' k
  | _, _ => Err AttributeError
  end.

(** ** PyFamily (family.py:259-287): the source as it stands *)

(** Values: an instance of a hwtypes class, a Python bool, or the integer that
    [~] gives for a Python bool. *)
Inductive pval := PV (v : val) | PB (b : bool) | PI (z : Z).

(** [bool(x)], used by [if], [and], [or], [not]. *)
Definition truth (x : pval) : res bool :=
  match x with
  | PV (VBit b) => Ok b
  | PB b => Ok b
  | PI z => Ok (negb (z =? 0))
  | PV _ => Err TypeError
  end.

Definition adt_of (x : pval) : res val :=
  match x with PV v => Ok v | _ => Err TypeError end.

Fixpoint leaf_args (ts : list ty) (xs : list val) : res (list Z) :=
  match ts, xs with
  | [], [] => Ok []
  | t :: ts', x :: xs' => do z <- leaf_bits t x; do zs <- leaf_args ts' xs'; Ok (z :: zs)
  | _, _ => Err TypeError
  end.

Section Py.
  (** Whether hwtypes answers [match] and [==] of two ADT objects with a Python
      bool (true) or a Bit (false). *)
  Variable match_bool eq_bool : bool.

  Definition mk_truth (as_bool b : bool) : pval := if as_bool then PB b else PV (VBit b).

  (** [==]: a Bit for bit vectors, see above for the others. *)
  Definition py_eq (a b : val) : pval :=
    match a with
    | VBit _ | VBV _ => PV (VBit (val_eqb a b))
    | _ => mk_truth eq_bool (val_eqb a b)
    end.

  Fixpoint peval (ev : env pval) (at_ : env val) (e : expr) {struct e} : res pval :=
    match e with
    | EVar x => getE ev x
    | EAttr r => do v <- getE at_ r; Ok (PV v)
    | ELit _ v => Ok (PV v)
    | EGet t e k =>
        do x <- peval ev at_ e; do v <- adt_of x;
        match t, v with
        | TProd _ fs, VProd vs => do f <- field_at fs vs k; Ok (PV f)
        | _, _ => Err AttributeError
        end
    | EMatch t e k =>
        do x <- peval ev at_ e; do v <- adt_of x;
        match v with VSum k' _ => Ok (mk_truth match_bool (key_eqb k k')) | _ => Err AttributeError end
    | EValue t e k =>
        do x <- peval ev at_ e; do v <- adt_of x;
        match v with
        | VSum k' v' => if key_eqb k k' then Ok (PV v') else Err TypeError
        | _ => Err AttributeError
        end
    | EMake t es => do xs <- pevals ev at_ es; do vs <- mapM adt_of xs; Ok (PV (VProd vs))
    | EInj t k e => do x <- peval ev at_ e; do v <- adt_of x; Ok (PV (VSum k v))
    | EEq e1 e2 =>
        do x <- peval ev at_ e1; do y <- peval ev at_ e2;
        do v <- adt_of x; do w <- adt_of y; Ok (py_eq v w)
    | EEqC e c => do x <- peval ev at_ e; do v <- adt_of x; Ok (py_eq v c)
    | EOp o es =>
        do xs <- pevals ev at_ es; do vs <- mapM adt_of xs; do zs <- leaf_args (o_args o) vs;
        Ok (PV (leaf_val (o_res o) (wrap (leaf_width (o_res o)) (o_fun o zs))))
    | EInv e =>
        do x <- peval ev at_ e;
        match x with
        | PV (VBit b) => Ok (PV (VBit (negb b)))
        | PB b => Ok (PI (-1 - b2z b))
        | PI z => Ok (PI (-1 - z))
        | PV _ => Err TypeError
        end
    | EIte c e1 e2 =>
        do x <- peval ev at_ c; do y <- peval ev at_ e1; do z <- peval ev at_ e2;
        match x with PV (VBit b) => Ok (if b then y else z) | _ => Err AttributeError end
    | ECond c e1 e2 =>
        do x <- peval ev at_ c; do b <- truth x; if b then peval ev at_ e1 else peval ev at_ e2
    | EAnd e1 e2 => do x <- peval ev at_ e1; do b <- truth x; if b then peval ev at_ e2 else Ok x
    | EOr e1 e2 => do x <- peval ev at_ e1; do b <- truth x; if b then Ok x else peval ev at_ e2
    | ENot e => do x <- peval ev at_ e; do b <- truth x; Ok (PB (negb b))
    end
  with pevals (ev : env pval) (at_ : env val) (es : exprs) {struct es} : res (list pval) :=
    match es with
    | ENil => Ok []
    | ECons e es' => do x <- peval ev at_ e; do xs <- pevals ev at_ es'; Ok (x :: xs)
    end.

  (** State of the components and what calling one does. *)
  Context {Sp : Type} (pcall : string -> Sp -> list val -> res (list val * Sp)).

  (** Variables, attributes, components; the result says what was returned. *)
  Definition pst := (env pval * env val * Sp)%type.
  Fixpoint pexec (s : stmt) (st : pst) {struct s} : res (pst * option (list pval)) :=
    let '(ev, at_, cs) := st in
    match s with
    | SSkip => Ok (st, None)
    | SAssign x e => do v <- peval ev at_ e; Ok ((set ev x v, at_, cs), None)
    | SAttr r e => do x <- peval ev at_ e; do v <- adt_of x; Ok ((ev, set at_ r v, cs), None)
    | SCall xs m es =>
        do ys <- pevals ev at_ es; do vs <- mapM adt_of ys; do '(rs, cs') <- pcall m cs vs;
        do ev' <- bind_all ev xs (map PV rs); Ok ((ev', at_, cs'), None)
    | SIf c s1 s2 =>
        do x <- peval ev at_ c; do b <- truth x;
        if b then pexec s1 st else pexec s2 st
    | SSeq s1 s2 =>
        do '(st1, r) <- pexec s1 st;
        match r with Some _ => Ok (st1, r) | None => pexec s2 st1 end
    | SRet es => do xs <- pevals ev at_ es; Ok (st, Some xs)
    end.

  (** Calling the object: the outputs and the object afterwards. *)
  Definition py_call (c : pclass) (obj : env val * Sp) (args : list val)
    : res (list pval * (env val * Sp)) :=
    do ev <- bind_all [] (map fst (c_params c)) (map PV args);
    do '((_, at_, cs), r) <- pexec (c_body c) (ev, fst obj, snd obj);
    match r with Some vs => Ok (vs, (at_, cs)) | None => Err TypeError end.
End Py.

(** ** PyXFamily (family.py:289-318) *)

(** A value: its class (the leaf class or the AssembledADT of the type) and its
    bits. *)
Inductive xval := XW (t : ty) (z : Z).

Definition x_bit (x : xval) : res Z :=
  match x with XW TBit z => Ok z | _ => Err TypeError end.
Definition x_cond (x : xval) : res bool := do z <- x_bit x; Ok (negb (z =? 0)).
Definition x_of (t : ty) (x : xval) : res Z :=
  match x with XW t' z => if ty_eqb t t' then Ok z else Err TypeError end.

(** [Bit.ite]: both branches must have one type. *)
Definition x_ite (c : bool) (a b : xval) : res xval :=
  match a, b with XW t z, XW t' z' => if ty_eqb t t' then Ok (XW t (if c then z else z')) else Err TypeError end.

Fixpoint x_ites (c : bool) (a b : list xval) : res (list xval) :=
  match a, b with
  | [], [] => Ok []
  | x :: a', y :: b' => do v <- x_ite c x y; do vs <- x_ites c a' b'; Ok (v :: vs)
  | _, _ => Err TypeError
  end.

(** Names of both environments. A name of one branch only keeps its value. *)
Definition names {A B} (e1 : env A) (e2 : env B) : list string := map fst e1 ++ map fst e2.
Definition phi (c : bool) (e1 e2 : env xval) : res (env xval) :=
  mapM (fun x =>
    match get e1 x, get e2 x with
    | Some a, Some b => do v <- x_ite c a b; Ok (x, v)
    | Some a, None => Ok (x, a)
    | None, Some b => Ok (x, b)
    | None, None => Err NameError
    end) (names e1 e2).

Section PyX.
  (** The assembler object of a type, [family._assembler(T)]. *)
  Variable asmof : ty -> asm.

  Definition x_arg (x : xval) : farg := match x with XW t z => FWord (a_width (asmof t)) z end.

  (** [T(v)] for a constant (assembled_adt.py:243-253 for ADTs). *)
  Definition x_lit (t : ty) (v : val) : res Z :=
    if is_leaf t then leaf_bits t v else aadt_new (asmof t) (FAdt v).

  (** [==] with a constant (assembled_adt.py:304-314 for ADTs). *)
  Definition x_eqc (t : ty) (z : Z) (v : val) : res bool :=
    if is_leaf t then do y <- leaf_bits t v; Ok (z =? y)
    else do r <- aadt_eq (asmof t) z (FAdt v);
         match r with Some b => Ok b | None => Err TypeError end.

  Fixpoint x_prims (ts : list ty) (xs : list xval) : res (list Z) :=
    match ts, xs with
    | [], [] => Ok []
    | t :: ts', x :: xs' => do z <- x_of t x; do zs <- x_prims ts' xs'; Ok (z :: zs)
    | _, _ => Err TypeError
    end.

  Fixpoint xeval (ev at_ : env xval) (e : expr) {struct e} : res xval :=
    match e with
    | EVar x => getE ev x
    | EAttr r => getE at_ r
    | ELit t v => do z <- x_lit t v; Ok (XW t z)
    | EGet t e k =>
        do x <- xeval ev at_ e; do z <- x_of t x;
        match t with
        | TProd _ fs =>
            match dget key_eqb fs k with
            | Some t' => do '(f, _) <- aadt_get (asmof t) z k; Ok (XW t' f)
            | None => Err AttributeError
            end
        | _ => Err AttributeError
        end
    | EMatch t e k =>
        do x <- xeval ev at_ e; do z <- x_of t x;
        do '(_, m) <- aadt_get (asmof t) z k;
        match m with Some b => Ok (XW TBit (b2z b)) | None => Err AttributeError end
    | EValue t e k =>
        do x <- xeval ev at_ e; do z <- x_of t x;
        match t with
        | TSum _ _ fs =>
            match dget key_eqb fs k with
            | Some t' => do '(f, _) <- aadt_get (asmof t) z k; Ok (XW t' f)
            | None => Err AttributeError
            end
        | _ => Err AttributeError
        end
    | EMake t es =>
        do xs <- xevals ev at_ es;
        match t with
        | TProd _ fs => do z <- prod_from_fields fs (asmof t) (map x_arg xs) 0; Ok (XW t z)
        | _ => Err TypeError
        end
    | EInj t k e =>
        do x <- xeval ev at_ e;
        match t with
        | TSum _ _ fs => do z <- sum_from_fields fs (asmof t) k (x_arg x) None 0; Ok (XW t z)
        | _ => Err TypeError
        end
    | EEq e1 e2 =>
        do x <- xeval ev at_ e1; do y <- xeval ev at_ e2;
        match x, y with
        | XW t z, XW t' z' => if ty_eqb t t' then Ok (XW TBit (b2z (z =? z'))) else Err TypeError
        end
    | EEqC e c =>
        do x <- xeval ev at_ e;
        match x with XW t z => do b <- x_eqc t z c; Ok (XW TBit (b2z b)) end
    | EOp o es =>
        do xs <- xevals ev at_ es; do zs <- x_prims (o_args o) xs;
        Ok (XW (o_res o) (wrap (leaf_width (o_res o)) (o_fun o zs)))
    | EInv e | ENot e => do x <- xeval ev at_ e; do z <- x_bit x; Ok (XW TBit (1 - z))
    | EIte c e1 e2 | ECond c e1 e2 =>
        do x <- xeval ev at_ c; do b <- x_cond x;
        do y <- xeval ev at_ e1; do z <- xeval ev at_ e2; x_ite b y z
    | EAnd e1 e2 =>
        do x <- xeval ev at_ e1; do a <- x_bit x; do y <- xeval ev at_ e2; do b <- x_bit y;
        Ok (XW TBit (Z.land a b))
    | EOr e1 e2 =>
        do x <- xeval ev at_ e1; do a <- x_bit x; do y <- xeval ev at_ e2; do b <- x_bit y;
        Ok (XW TBit (Z.lor a b))
    end
  with xevals (ev at_ : env xval) (es : exprs) {struct es} : res (list xval) :=
    match es with
    | ENil => Ok []
    | ECons e es' => do x <- xeval ev at_ e; do xs <- xevals ev at_ es'; Ok (x :: xs)
    end.

  Context {Sx : Type} (xcall : string -> Sx -> list xval -> res (list xval * Sx)).

  (** A return statement met: the conditions it stands under, the values and the
      attributes at that point. *)
  Definition xret := (bool * list xval * env xval)%type.
  Definition xst := (env xval * env xval * Sx)%type.

  (** [path] is the conjunction of the conditions around the statement. Calls of
      components are executed where they stand, under any condition. *)
  Fixpoint xexec (path : bool) (s : stmt) (st : xst) {struct s} : res (xst * list xret) :=
    let '(ev, at_, cs) := st in
    match s with
    | SSkip => Ok (st, [])
    | SAssign x e => do v <- xeval ev at_ e; Ok ((set ev x v, at_, cs), [])
    | SAttr r e => do v <- xeval ev at_ e; Ok ((ev, set at_ r v, cs), [])
    | SCall xs m es =>
        do vs <- xevals ev at_ es; do '(rs, cs') <- xcall m cs vs;
        do ev' <- bind_all ev xs rs; Ok ((ev', at_, cs'), [])
    | SIf c s1 s2 =>
        do x <- xeval ev at_ c; do b <- x_cond x;
        do '((ev1, at1, cs1), r1) <- xexec (path && b) s1 (ev, at_, cs);
        do '((ev2, at2, cs2), r2) <- xexec (path && negb b) s2 (ev, at_, cs1);
        if returns s1 then Ok ((ev2, at2, cs2), r1 ++ r2)
        else if returns s2 then Ok ((ev1, at1, cs2), r1 ++ r2)
        else
          do ev' <- phi b ev1 ev2; do at' <- phi b at1 at2;
          Ok ((ev', at', cs2), r1 ++ r2)
    | SSeq s1 s2 =>
        do '(st1, r1) <- xexec path s1 st;
        if returns s1 then Ok (st1, r1)
        else do '(st2, r2) <- xexec path s2 st1; Ok (st2, r1 ++ r2)
    | SRet es => do vs <- xevals ev at_ es; Ok (st, [(path, vs, at_)])
    end.

  (** The final selection: the first return statement whose conditions hold, the
      last one otherwise. *)
  Fixpoint pick (rs : list xret) : res (list xval * env xval) :=
    match rs with
    | [] => Err TypeError
    | [(_, vs, at_)] => Ok (vs, at_)
    | (g, vs, at_) :: r =>
        do '(vs', at') <- pick r;
        do ws <- x_ites g vs vs'; do aw <- phi g at_ at';
        Ok (ws, aw)
    end.

  Definition px_call (c : pclass) (obj : env xval * Sx) (args : list xval)
    : res (list xval * (env xval * Sx)) :=
    do ev <- bind_all [] (map fst (c_params c)) args;
    do '((_, _, cs), rs) <- xexec true (c_body c) (ev, fst obj, snd obj);
    do '(vs, at_) <- pick rs; Ok (vs, (at_, cs)).
End PyX.

(** ** Programs whose types fit *)

(** Type of an expression: a class, or a truth value that may be a Python bool
    in PyFamily. *)
Inductive ety := W (t : ty) | Truth.
Definition ety_eqb (a b : ety) : bool :=
  match a, b with W s, W t => ty_eqb s t | Truth, Truth => true | _, _ => false end.

Definition bitlike (a : ety) : bool := match a with W TBit => true | Truth => true | _ => false end.

(** Width of the assembled type. *)
Definition ty_width (t : ty) : Z := match build ps0 t with Ok (a, _) => a_width a | Err _ => 0 end.

(** Constructors of these types accept fields (compare C12). *)
Definition makeable (fs : list (key * ty)) : bool :=
  match fs with
  | [] => false
  | [_] => true
  | _ => forallb (fun f => negb (ty_width (snd f) =? 0)) fs
  end.

Definition lit_ok (t : ty) (v : val) : bool :=
  wf_b t && has_ty_b t v && (is_leaf t || nonneg_b t v).

Definition eq_ety (t : ty) : ety := if is_leaf t then W TBit else Truth.

Fixpoint texp (G : env ety) (D : env ty) (e : expr) {struct e} : option ety :=
  match e with
  | EVar x => get G x
  | EAttr r => match get D r with Some t => Some (W t) | None => None end
  | ELit t v => if lit_ok t v then Some (W t) else None
  | EGet t e k =>
      match t, texp G D e with
      | TProd _ fs, Some (W t0) =>
          if ty_eqb t t0 && wf_b t then match dget key_eqb fs k with Some t' => Some (W t') | None => None end else None
      | _, _ => None
      end
  | EMatch t e k =>
      match t, texp G D e with
      | TSum _ _ fs, Some (W t0) =>
          if ty_eqb t t0 && wf_b t then match dget key_eqb fs k with Some _ => Some Truth | None => None end else None
      | _, _ => None
      end
  | EValue t e k =>
      match t, texp G D e with
      | TSum _ _ fs, Some (W t0) =>
          if ty_eqb t t0 && wf_b t then match dget key_eqb fs k with Some t' => Some (W t') | None => None end else None
      | _, _ => None
      end
  | EMake t es =>
      match t, texps G D es with
      | TProd _ fs, Some ts =>
          if wf_b t && makeable fs && list_eqb ety_eqb ts (map (fun f => W (snd f)) fs) then Some (W t) else None
      | _, _ => None
      end
  | EInj t k e =>
      match t, texp G D e with
      | TSum _ _ fs, Some (W t0) =>
          match dget key_eqb fs k with
          | Some t' => if wf_b t && ty_eqb t' t0 && (2 <=? length fs)%nat && negb (ty_width t' =? 0)
                       then Some (W t) else None
          | None => None
          end
      | _, _ => None
      end
  | EEq e1 e2 =>
      match texp G D e1, texp G D e2 with
      | Some (W t), Some (W t') => if ty_eqb t t' && wf_b t then Some (eq_ety t) else None
      | _, _ => None
      end
  | EEqC e v =>
      match texp G D e with
      | Some (W t) => if lit_ok t v then Some (eq_ety t) else None
      | _ => None
      end
  | EOp o es =>
      match texps G D es with
      | Some ts =>
          if forallb is_leaf (o_args o) && is_leaf (o_res o) && wf_b (o_res o)
             && list_eqb ety_eqb ts (map W (o_args o)) then Some (W (o_res o)) else None
      | None => None
      end
  | EInv e => match texp G D e with Some (W TBit) => Some (W TBit) | _ => None end
  | EIte c e1 e2 =>
      match texp G D c, texp G D e1, texp G D e2 with
      | Some (W TBit), Some (W t), Some (W t') => if ty_eqb t t' then Some (W t) else None
      | _, _, _ => None
      end
  | ECond c e1 e2 =>
      match texp G D c, texp G D e1, texp G D e2 with
      | Some b, Some a1, Some a2 => if bitlike b && ety_eqb a1 a2 then Some a1 else None
      | _, _, _ => None
      end
  | EAnd e1 e2 | EOr e1 e2 =>
      match texp G D e1, texp G D e2 with
      | Some a, Some b =>
          if bitlike a && bitlike b
          then Some (match a, b with W TBit, W TBit => W TBit | _, _ => Truth end) else None
      | _, _ => None
      end
  | ENot e => match texp G D e with Some a => if bitlike a then Some Truth else None | None => None end
  end
with texps (G : env ety) (D : env ty) (es : exprs) {struct es} : option (list ety) :=
  match es with
  | ENil => Some []
  | ECons e es' =>
      match texp G D e, texps G D es' with Some t, Some ts => Some (t :: ts) | _, _ => None end
  end.

(** Types after a conditional: both branches agree on the names they share. *)
Fixpoint gmerge_names (xs : list string) (G1 G2 : env ety) : option (env ety) :=
  match xs with
  | [] => Some []
  | x :: r =>
      match gmerge_names r G1 G2, get G1 x, get G2 x with
      | Some G, Some a, Some b => if ety_eqb a b then Some ((x, a) :: G) else None
      | Some G, Some a, None => Some ((x, a) :: G)
      | Some G, None, Some b => Some ((x, b) :: G)
      | _, _, _ => None
      end
  end.
Definition gmerge (G1 G2 : env ety) : option (env ety) := gmerge_names (names G1 G2) G1 G2.

Fixpoint bind_types (G : env ety) (xs : list string) (ts : list ty) : option (env ety) :=
  match xs, ts with
  | [], [] => Some G
  | x :: xs', t :: ts' => bind_types (set G x (W t)) xs' ts'
  | _, _ => None
  end.

Section Check.
  (** Parameter and result types of the components. *)
  Variable csig : string -> option (list ty * list ty).
  Variable D : env ty.
  Variable rets : list ty.

  (** [top]: the statement is outside every conditional and no return statement
      stands before it, so that control surely reaches it. With [strict], calls
      of components are allowed there only. *)
  Variable strict : bool.
  Fixpoint tstmt (top : bool) (G : env ety) (s : stmt) {struct s} : option (env ety * bool) :=
    match s with
    | SSkip => Some (G, false)
    | SAssign x e => match texp G D e with Some t => Some (set G x t, false) | None => None end
    | SAttr r e =>
        match texp G D e, get D r with
        | Some (W t), Some t' => if ty_eqb t t' then Some (G, false) else None
        | _, _ => None
        end
    | SCall xs m es =>
        if top || negb strict then
          match csig m, texps G D es with
          | Some (ps, qs), Some ts =>
              if list_eqb ety_eqb ts (map W ps) && forallb wf_b qs
              then match bind_types G xs qs with Some G' => Some (G', false) | None => None end else None
          | _, _ => None
          end
        else None
    | SIf c s1 s2 =>
        match texp G D c with
        | Some b =>
            if bitlike b then
              match tstmt false G s1, tstmt false G s2 with
              | Some (G1, m1), Some (G2, m2) =>
                  if returns s1 then Some (G2, m1 || m2)
                  else if returns s2 then Some (G1, m1 || m2)
                  else match gmerge G1 G2 with Some G' => Some (G', m1 || m2) | None => None end
              | _, _ => None
              end
            else None
        | None => None
        end
    | SSeq s1 s2 =>
        match tstmt top G s1 with
        | Some (G1, m1) =>
            if returns s1 then Some (G1, m1)
            else match tstmt (top && negb m1) G1 s2 with
                 | Some (G2, m2) => Some (G2, m1 || m2)
                 | None => None
                 end
        | None => None
        end
    | SRet es =>
        match texps G D es with
        | Some ts => if list_eqb ety_eqb ts (map W rets) then Some (G, true) else None
        | None => None
        end
    end.
End Check.

(** A class whose types fit and whose [__call__] always returns. *)
Definition class_ok (strict : bool) (csig : string -> option (list ty * list ty)) (c : pclass) : bool :=
  forallb (fun p => wf_b (snd p)) (c_params c) && forallb (fun p => wf_b (snd p)) (c_attrs c)
  && returns (c_body c)
  && match bind_types [] (map fst (c_params c)) (map snd (c_params c)) with
     | Some G => match tstmt csig (c_attrs c) (c_rets c) strict true G (c_body c) with Some _ => true | None => false end
     | None => false
     end.
