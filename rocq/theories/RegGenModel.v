(** Registers made by a family: [_RegFamily.gen_register] and [gen_attr_register]
    (peak/family.py:160-243) with their process-wide caches, and the objects made from
    the classes they return. Definitions only.

    The family enters the cache key by its class only (168, 220). The body of the
    generated class uses the family for the annotation of [en] and for its passes,
    which are fixed by the family class (family.py:293-301), so an instance of the
    family is not part of the model. The methods are those of [RegModel] (C20, C22). *)
From Coq Require Import String ZArith List Bool.
From Verif Require Import Base RegModel.
Import ListNotations.
Open Scope list_scope.
Open Scope Z_scope.

Section RegGen.
  (** Family classes, types, initial values as passed, values of the types. *)
  Context {F T I V : Type}.
  (** [is] for classes and types. *)
  Variables (feq : F -> F -> bool) (teq : T -> T -> bool).
  (** Python's [==] on initial values together with their hash, as dicts use it. *)
  Variable ieq : I -> I -> bool.
  (** Whether [hash(init)] returns; else it raises TypeError, which the [except
      KeyError] around the lookup (170-173, 222-225) does not catch. *)
  Variable hashable : I -> bool.
  (** [T(init)]. *)
  Variable conv : T -> I -> res V.
  (** [isinstance(value, T)]. *)
  Variable inst : V -> T -> bool.

  (** What is asked for: a register with or without enable, an attribute register.
      [has_enable] is a bool. The two caches are one here, the kind is in the key. *)
  Inductive kind := KReg (en : bool) | KAttr.
  Definition kind_eqb (a b : kind) : bool :=
    match a, b with KReg x, KReg y => Bool.eqb x y | KAttr, KAttr => true | _, _ => false end.
  Record request := Req { q_fam : F; q_ty : T; q_init : I; q_kind : kind }.
  (** Equality of cache keys (169, 221). *)
  Definition req_eqb (a b : request) : bool :=
    feq (q_fam a) (q_fam b) && teq (q_ty a) (q_ty b) && ieq (q_init a) (q_init b) && kind_eqb (q_kind a) (q_kind b).

  (** The process: the cache (keys and class objects, numbered), the generated classes
      (what they closed over), the objects (their class and [self.value]), and what the
      program holds: the results of its requests and constructions, in order. *)
  Record proc := Proc {
    p_cache : list (request * nat);
    p_classes : list request;
    p_objs : list (nat * option V);
    h_classes : list (option nat);
    h_objs : list (option nat) }.
  Definition proc0 : proc := Proc [] [] [] [] [].

  Fixpoint find_key (c : list (request * nat)) (q : request) : option nat :=
    match c with [] => None | (q', n) :: r => if req_eqb q' q then Some n else find_key r q end.

  (** [gen_register] (167-216), [gen_attr_register] (218-243). *)
  Definition gen (q : request) (p : proc) : res nat * proc :=
    if negb (hashable (q_init q)) then
      (Err TypeError, Proc (p_cache p) (p_classes p) (p_objs p) (h_classes p ++ [None]) (h_objs p))
    else
      match find_key (p_cache p) q with
      | Some n => (Ok n, Proc (p_cache p) (p_classes p) (p_objs p) (h_classes p ++ [Some n]) (h_objs p))
      | None =>
          let n := length (p_classes p) in
          (Ok n, Proc (p_cache p ++ [(q, n)]) (p_classes p ++ [q]) (p_objs p) (h_classes p ++ [Some n]) (h_objs p))
      end.

  (** What a program does. Classes and objects are named by the position of the request
      or construction that returned them. A value is [None] for Python's None. *)
  Inductive op :=
  | OGen (q : request)
  | ONew (c : nat)
  | OCall (o : nat) (v : option V) (en : bool)   (* of a register with enable *)
  | OCallN (o : nat) (v : option V)              (* without *)
  | OPrev (o : nat)
  | OPoke (o : nat) (v : V)
  | OPeek (o : nat).
  (** What it sees: nothing, a value or an exception. *)
  Inductive seen := SNone | SVal (v : option V) | SErr (e : pyerr).

  Definition held (l : list (option nat)) (i : nat) : option nat := match nth_error l i with Some (Some n) => Some n | _ => None end.

  (** The methods of an object of a class (184-214, 230-241). *)
  Definition method (k : kind) (t : T) (s : option V) (o : op) : seen * option V :=
    match o, k with
    | OCall _ v en, KReg true =>
        let (r, s') := reg_call s v en in (match r with Ok x => SVal x | Err e => SErr e end, s')
    | OCallN _ v, KReg false =>
        let (r, s') := reg_call_noen s v in (match r with Ok x => SVal x | Err e => SErr e end, s')
    | OCall _ _ _, KReg false | OCallN _ _, KReg true => (SErr TypeError, s)
    | OPrev _, KReg _ => (SVal (reg_prev s), s)
    | OPoke _ v, KAttr => if inst v t then (SNone, Some v) else (SErr TypeError, s)
    | OPeek _, KAttr => (SVal s, s)
    | (OCall _ _ _ | OCallN _ _), KAttr => (SErr TypeError, s)      (* not callable *)
    | _, _ => (SErr AttributeError, s)
    end.
  Definition target (o : op) : nat :=
    match o with OCall n _ _ | OCallN n _ | OPrev n | OPoke n _ | OPeek n => n | _ => 0%nat end.

  Definition step (o : op) (p : proc) : seen * proc :=
    match o with
    | OGen q => match gen q p with (Ok _, p') => (SNone, p') | (Err e, p') => (SErr e, p') end
    | ONew c =>
        let fail e := (SErr e, Proc (p_cache p) (p_classes p) (p_objs p) (h_classes p) (h_objs p ++ [None])) in
        match held (h_classes p) c with
        | None => fail NameError
        | Some n =>
            match nth_error (p_classes p) n with
            | None => fail NameError
            | Some q =>
                match conv (q_ty q) (q_init q) with
                | Err e => fail e
                | Ok v => (SNone, Proc (p_cache p) (p_classes p) (p_objs p ++ [(n, Some v)]) (h_classes p) (h_objs p ++ [Some (length (p_objs p))]))
                end
            end
        end
    | _ =>
        match held (h_objs p) (target o) with
        | None => (SErr NameError, p)
        | Some k =>
            match nth_error (p_objs p) k with
            | None => (SErr NameError, p)
            | Some (n, s) =>
                match nth_error (p_classes p) n with
                | None => (SErr NameError, p)
                | Some q =>
                    let (r, s') := method (q_kind q) (q_ty q) s o in
                    (r, Proc (p_cache p) (p_classes p) (upd (p_objs p) k (n, s')) (h_classes p) (h_objs p))
                end
            end
        end
    end.

  Fixpoint run (p : proc) (os : list op) : list seen * proc :=
    match os with
    | [] => ([], p)
    | o :: r => let (x, p') := step o p in let (xs, p'') := run p' r in (x :: xs, p'')
    end.
End RegGen.
Arguments proc : clear implicits.
Arguments op : clear implicits.
Arguments request : clear implicits.
Arguments seen : clear implicits.
