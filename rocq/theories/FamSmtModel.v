(** Model of what a Peak class computes in SMTFamily (peak/family.py:322-350): the
    rewritten source of PyXFamily, run on SMT terms. Definitions only.

    The passes are those of [FamProgModel] (family.py:289-302, SMTFamily and PyXFamily
    share _StdMix). hwtypes builds pysmt terms; here a term is an element of [tm], up to
    simplifications pysmt may make. *)
From Coq Require Import String ZArith List Bool.
From Verif Require Import Base AsmModel AsmCheck AadtModel FamProgModel.
Import ListNotations.
Open Scope string_scope.
Open Scope list_scope.
Open Scope Z_scope.

(** Terms: variables, constants, [x[lo:hi]], [concat] (the width is that of the first
    operand), equality, [ite], operations on Bits, the other operations of hwtypes with
    their result width and function. *)
Inductive tm :=
| MVar (x : string)
| MConst (z : Z)
| MSlice (a : tm) (lo hi : Z)
| MConcat (w : Z) (a b : tm)
| MEq (a b : tm)
| MIte (c a b : tm)
| MNot (a : tm)
| MAnd (a b : tm)
| MOr (a b : tm)
| MOp (w : Z) (f : list Z -> Z) (args : list tm).

(** The value of a term under a valuation of the variables. *)
Fixpoint meval (rho : string -> Z) (m : tm) {struct m} : Z :=
  match m with
  | MVar x => rho x
  | MConst z => z
  | MSlice a lo hi => slice (meval rho a) lo hi
  | MConcat w a b => Z.lor (meval rho a) (Z.shiftl (meval rho b) w)
  | MEq a b => b2z (meval rho a =? meval rho b)
  | MIte c a b => if negb (meval rho c =? 0) then meval rho a else meval rho b
  | MNot a => 1 - meval rho a
  | MAnd a b => Z.land (meval rho a) (meval rho b)
  | MOr a b => Z.lor (meval rho a) (meval rho b)
  | MOp w f args => wrap w (f (map (meval rho) args))
  end.

(** A value: its class and its term. *)
Inductive sval := SW (t : ty) (m : tm).

Definition s_bit (x : sval) : res tm := match x with SW TBit m => Ok m | _ => Err TypeError end.
Definition s_of (t : ty) (x : sval) : res tm :=
  match x with SW t' m => if ty_eqb t t' then Ok m else Err TypeError end.
(** [SMTBit.ite]. *)
Definition s_ite (c : tm) (a b : sval) : res sval :=
  match a, b with SW t m, SW t' m' => if ty_eqb t t' then Ok (SW t (MIte c m m')) else Err TypeError end.
Fixpoint s_ites (c : tm) (a b : list sval) : res (list sval) :=
  match a, b with
  | [], [] => Ok []
  | x :: a', y :: b' => do v <- s_ite c x y; do vs <- s_ites c a' b'; Ok (v :: vs)
  | _, _ => Err TypeError
  end.
Definition s_phi (c : tm) (e1 e2 : env sval) : res (env sval) :=
  mapM (fun x =>
    match get e1 x, get e2 x with
    | Some a, Some b => do v <- s_ite c a b; Ok (x, v)
    | Some a, None => Ok (x, a)
    | None, Some b => Ok (x, b)
    | None, None => Err NameError
    end) (names e1 e2).

(** ** AssembledADT over SMT bit vectors (assembled_adt.py)
    The functions of [AadtModel] with terms for the bits. *)
Definition sbv := (Z * tm)%type.
Definition s_concat (x y : sbv) : sbv := (fst x + fst y, MConcat (fst x) (snd x) (snd y)).
Definition s_slot_set (slots : list (option sbv)) (lo hi : Z) (v : sbv) : list (option sbv) :=
  firstn (Z.to_nat lo) slots
  ++ Some v :: repeat None (Z.to_nat (hi - (lo + 1)))
  ++ skipn (Z.to_nat hi) slots.
Definition s_reduce (l : list sbv) : res sbv :=
  match l with [] => Err TypeError | x :: r => Ok (fold_left s_concat r x) end.
Fixpoint s_fill (layout : list (key * (Z * Z))) (bvs : list (key * sbv)) (slots : list (option sbv))
  : res (list (option sbv)) :=
  match layout with
  | [] => Ok slots
  | (k, (lo, hi)) :: r => do v <- dgetE key_eqb bvs k; s_fill r bvs (s_slot_set slots lo hi v)
  end.
(** [_create_from_layout] (33-52). *)
Definition s_create (width : Z) (layout : list (key * (Z * Z))) (bvs : list (key * sbv)) (default : Z) : res tm :=
  if negb (same_keys (map fst layout) (map fst bvs)) then Err ValueError
  else if negb (ranges_ok width (isort pair_leb (map snd layout))) then Err ValueError
  else
    do slots <- s_fill layout bvs (repeat (Some (1, MConst (wrap 1 default))) (Z.to_nat width));
    do b <- s_reduce (somes slots);
    if fst b =? width then Ok (snd b) else Err AssertionError.

(** The class of a field called with a word (243-253). *)
Definition s_field (a : asm) (x : sbv) : res sbv := if fst x =? a_width a then Ok x else Err TypeError.
Fixpoint s_fields (fs : list (key * ty)) (as_ : list (key * (Z * Z) * asm)) (args : list sbv) : res (list (key * sbv)) :=
  match fs, as_, args with
  | [], [], [] => Ok []
  | (k, t) :: fs', (_, _, a) :: as', x :: args' => do b <- s_field a x; do r <- s_fields fs' as' args'; Ok ((k, b) :: r)
  | _, _, _ => Err TypeError
  end.
(** [_product_from_fields], [_tuple_from_fields] (107-127). *)
Definition s_prod (fs : list (key * ty)) (a : asm) (args : list sbv) (default : Z) : res tm :=
  match a with
  | ATuple w as_ => do bvs <- s_fields fs as_ args; s_create w (map fst as_) bvs default
  | _ => Err TypeError
  end.
(** [_sum_from_fields], [_taggedunion_from_fields] (68-103). *)
Definition s_sum (fs : list (key * ty)) (a : asm) (k : key) (x : sbv) (default : Z) : res tm :=
  match a with
  | ASum w tagw as_ _ _ =>
      match dget key_eqb fs k, sum_find as_ k with
      | Some _, Some (_, lay, f) =>
          do v <- s_field f x;
          do tag <- assemble_tag a k;
          s_create w [(k_value, lay); (k_tag, (0, tagw))] [(k_value, v); (k_tag, (tagw, MConst tag))] default
      | _, _ => Err AttributeError
      end
  | _ => Err TypeError
  end.
(** [_get] (261-295): the field, and for a Sum the Bit [tag == T]. *)
Definition s_get (a : asm) (op : tm) (k : key) : res (tm * option tm) :=
  match sub_step a k with
  | None => Err KeyError
  | Some ((lo, _), f) =>
      let field := MSlice op lo (lo + a_width f) in
      match a with
      | ASum _ tagw _ _ _ => do t <- assemble_tag a k; Ok (field, Some (MEq (MSlice op 0 tagw) (MConst t)))
      | _ => Ok (field, None)
      end
  end.

(** ** SMTFamily *)
Section Smt.
  (** The assembler object of a type. *)
  Variable asmof : ty -> asm.

  Definition s_arg (x : sval) : sbv := match x with SW t m => (a_width (asmof t), m) end.
  (** [==] with a constant (assembled_adt.py:304-314 for ADTs). *)
  Definition s_eqc (t : ty) (m : tm) (v : val) : res tm :=
    if is_leaf t then do y <- leaf_bits t v; Ok (MEq m (MConst y))
    else do y <- assemble (asmof t) v; Ok (MEq m (MConst y)).
  Fixpoint s_prims (ts : list ty) (xs : list sval) : res (list tm) :=
    match ts, xs with
    | [], [] => Ok []
    | t :: ts', x :: xs' => do z <- s_of t x; do zs <- s_prims ts' xs'; Ok (z :: zs)
    | _, _ => Err TypeError
    end.

  (** Expressions, as [xeval]. *)
  Fixpoint seval (ev at_ : env sval) (e : expr) {struct e} : res sval :=
    match e with
    | EVar x => getE ev x
    | EAttr r => getE at_ r
    | ELit t v => do z <- x_lit asmof t v; Ok (SW t (MConst z))
    | EGet t e k =>
        do x <- seval ev at_ e; do m <- s_of t x;
        match t with
        | TProd _ fs =>
            match dget key_eqb fs k with
            | Some t' => do '(f, _) <- s_get (asmof t) m k; Ok (SW t' f)
            | None => Err AttributeError
            end
        | _ => Err AttributeError
        end
    | EMatch t e k =>
        do x <- seval ev at_ e; do m <- s_of t x;
        do '(_, b) <- s_get (asmof t) m k;
        match b with Some b => Ok (SW TBit b) | None => Err AttributeError end
    | EValue t e k =>
        do x <- seval ev at_ e; do m <- s_of t x;
        match t with
        | TSum _ _ fs =>
            match dget key_eqb fs k with
            | Some t' => do '(f, _) <- s_get (asmof t) m k; Ok (SW t' f)
            | None => Err AttributeError
            end
        | _ => Err AttributeError
        end
    | EMake t es =>
        do xs <- sevals ev at_ es;
        match t with
        | TProd _ fs => do m <- s_prod fs (asmof t) (map s_arg xs) 0; Ok (SW t m)
        | _ => Err TypeError
        end
    | EInj t k e =>
        do x <- seval ev at_ e;
        match t with
        | TSum _ _ fs => do m <- s_sum fs (asmof t) k (s_arg x) 0; Ok (SW t m)
        | _ => Err TypeError
        end
    | EEq e1 e2 =>
        do x <- seval ev at_ e1; do y <- seval ev at_ e2;
        match x, y with
        | SW t m, SW t' m' => if ty_eqb t t' then Ok (SW TBit (MEq m m')) else Err TypeError
        end
    | EEqC e c =>
        do x <- seval ev at_ e;
        match x with SW t m => do b <- s_eqc t m c; Ok (SW TBit b) end
    | EOp o es =>
        do xs <- sevals ev at_ es; do ms <- s_prims (o_args o) xs;
        Ok (SW (o_res o) (MOp (leaf_width (o_res o)) (o_fun o) ms))
    | EInv e | ENot e => do x <- seval ev at_ e; do m <- s_bit x; Ok (SW TBit (MNot m))
    | EIte c e1 e2 | ECond c e1 e2 =>
        do x <- seval ev at_ c; do b <- s_bit x;
        do y <- seval ev at_ e1; do z <- seval ev at_ e2; s_ite b y z
    | EAnd e1 e2 =>
        do x <- seval ev at_ e1; do a <- s_bit x; do y <- seval ev at_ e2; do b <- s_bit y;
        Ok (SW TBit (MAnd a b))
    | EOr e1 e2 =>
        do x <- seval ev at_ e1; do a <- s_bit x; do y <- seval ev at_ e2; do b <- s_bit y;
        Ok (SW TBit (MOr a b))
    end
  with sevals (ev at_ : env sval) (es : exprs) {struct es} : res (list sval) :=
    match es with
    | ENil => Ok []
    | ECons e es' => do x <- seval ev at_ e; do xs <- sevals ev at_ es'; Ok (x :: xs)
    end.

  (** Components on terms: registers, other Peak objects, black boxes. *)
  Context {Ss : Type} (scall : string -> Ss -> list sval -> res (list sval * Ss)).

  Definition sret := (tm * list sval * env sval)%type.
  Definition sst := (env sval * env sval * Ss)%type.

  (** Statements, as [xexec]; [path] is the conjunction of the conditions around the
      statement, written with [ite]. *)
  Fixpoint sexec (path : tm) (s : stmt) (st : sst) {struct s} : res (sst * list sret) :=
    let '(ev, at_, cs) := st in
    match s with
    | SSkip => Ok (st, [])
    | SAssign x e => do v <- seval ev at_ e; Ok ((set ev x v, at_, cs), [])
    | SAttr r e => do v <- seval ev at_ e; Ok ((ev, set at_ r v, cs), [])
    | SCall xs m es =>
        do vs <- sevals ev at_ es; do '(rs, cs') <- scall m cs vs;
        do ev' <- bind_all ev xs rs; Ok ((ev', at_, cs'), [])
    | SIf c s1 s2 =>
        do x <- seval ev at_ c; do b <- s_bit x;
        do '((ev1, at1, cs1), r1) <- sexec (MIte b path (MConst 0)) s1 (ev, at_, cs);
        do '((ev2, at2, cs2), r2) <- sexec (MIte b (MConst 0) path) s2 (ev, at_, cs1);
        if returns s1 then Ok ((ev2, at2, cs2), r1 ++ r2)
        else if returns s2 then Ok ((ev1, at1, cs2), r1 ++ r2)
        else
          do ev' <- s_phi b ev1 ev2; do at' <- s_phi b at1 at2;
          Ok ((ev', at', cs2), r1 ++ r2)
    | SSeq s1 s2 =>
        do '(st1, r1) <- sexec path s1 st;
        if returns s1 then Ok (st1, r1)
        else do '(st2, r2) <- sexec path s2 st1; Ok (st2, r1 ++ r2)
    | SRet es => do vs <- sevals ev at_ es; Ok (st, [(path, vs, at_)])
    end.

  Fixpoint s_pick (rs : list sret) : res (list sval * env sval) :=
    match rs with
    | [] => Err TypeError
    | [(_, vs, at_)] => Ok (vs, at_)
    | (g, vs, at_) :: r =>
        do '(vs', at') <- s_pick r;
        do ws <- s_ites g vs vs'; do aw <- s_phi g at_ at';
        Ok (ws, aw)
    end.

  (** Calling the object. *)
  Definition smt_call (c : pclass) (obj : env sval * Ss) (args : list sval)
    : res (list sval * (env sval * Ss)) :=
    do ev <- bind_all [] (map fst (c_params c)) args;
    do '((_, _, cs), rs) <- sexec (MConst 1) (c_body c) (ev, fst obj, snd obj);
    do '(vs, at_) <- s_pick rs; Ok (vs, (at_, cs)).
End Smt.

(** Black boxes (family.py:247-254, black_box.py:41-60), called with positional
    arguments: a call answers with the outputs set before and remembers its inputs.
    [outs] are the outputs set, [arity] the number of inputs; the state is the last
    inputs of each box. The same for terms and for words. *)
Section Boxes.
  Context {A : Type} (outs : string -> option (list A)) (arity : string -> nat).
  Definition box_call (m : string) (ins : env (list A)) (xs : list A) : res (list A * env (list A)) :=
    match outs m with
    | None => Err ValueError
    | Some ys =>
        match xs with
        | [] => Err ValueError
        | _ => if (length xs =? arity m)%nat then Ok (ys, set ins m xs) else Err ValueError
        end
    end.
End Boxes.
