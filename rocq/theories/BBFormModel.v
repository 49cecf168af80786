(** Black boxes in formulas. Python source: peak/mapper/mapper.py:89-108
    ([create_and_set_bb_outputs], [get_bb_inputs]) and 425-462
    ([update_with_bb]). *)
From Coq Require Import ZArith List Bool.
From Verif Require Import Base MapIdxModel.
Import ListNotations.
Open Scope list_scope.
Open Scope Z_scope.

Section BBForm.
  (** [D]: values of inputs and outputs, [C]: black-box classes, both with [==].
      Formulas are given by their value under one valuation, so an SMTBit is a
      [bool] and an SMT term is a [D]. *)
  Context {D C : Type} (deqb : D -> D -> bool) (ceqb : C -> C -> bool).

  (** A run of a Peak object: calls of black-box objects (numbered) and the final
      result. The continuation receives the outputs of the call. *)
  Inductive comp (A : Type) := Ret (a : A) | Call (o : nat) (ins : list D) (k : list D -> comp A).
  Arguments Ret {A} a.
  Arguments Call {A} o ins k.

  (** The run in the mapper: each black box returns the outputs set by
      [create_and_set_bb_outputs] (89-102). Also the calls made, in order. *)
  Fixpoint sym_run {A} (outs : nat -> list D) (c : comp A) : A * list (nat * list D) :=
    match c with
    | Ret a => (a, [])
    | Call o ins k => let (a, tr) := sym_run outs (k (outs o)) in (a, (o, ins) :: tr)
    end.

  (** [bb._get_inputs()] after the run (104-108): the last call's inputs. *)
  Fixpoint last_input (tr : list (nat * list D)) (o : nat) : option (list D) :=
    match tr with
    | [] => None
    | (o', ins) :: r =>
        match last_input r o with
        | Some i => Some i
        | None => if Nat.eqb o o' then Some ins else None
        end
    end.
  Definition get_bb_inputs (tr : list (nat * list D)) (objs : list nat) : res (list (list D)) :=
    mapM (fun o => match last_input tr o with Some i => Ok i | None => Err ValueError end) objs.

  (** One entry of [bb_io] is a pair of inputs and outputs. *)
  Definition io := (list D * list D)%type.

  (** Lines 440-450 for one architecture: [bb_io.setdefault(type(bb), []).append((i, o))]. *)
  Fixpoint add_io (d : list (C * list io)) (es : list (C * io)) : list (C * list io) :=
    match es with
    | [] => d
    | (c, e) :: r =>
        let old := match dget ceqb d c with Some l => l | None => [] end in
        add_io (dset ceqb d c (old ++ [e])) r
    end.

  (** [itertools.combinations(v, 2)]. *)
  Fixpoint pairs {X} (l : list X) : list (X * X) :=
    match l with [] => [] | x :: r => map (pair x) r ++ pairs r end.

  (** [And((a == b) for a, b in zip(x, y))]: the constructor asserts that the
      list is not empty. *)
  Definition and_eq (x y : list D) : res (fc bool) :=
    match combine x y with
    | [] => Err AssertionError
    | l => Ok (FAnd (map (fun p => FLeaf (deqb (fst p) (snd p))) l))
    end.

  (** Lines 453-458. *)
  Definition pair_cond (p : io * io) : res (fc bool) :=
    let '((i0, o0), (i1, o1)) := p in
    if negb (Nat.eqb (length i0) (length i1)) then Err AssertionError
    else if negb (Nat.eqb (length o0) (length o1)) then Err AssertionError
    else do ic <- and_eq i0 i1; do oc <- and_eq o0 o1; Ok (FImplies ic oc).

  (** Lines 438-462. [es]: class, inputs and outputs of the black boxes of the
      architecture, then of the IR instruction. The equality of the key sets
      (435-436) holds by construction. *)
  Definition update_with_bb (f : fc bool) (es : list (C * io)) : res (fc bool * list D) :=
    let bb_forall := flat_map (fun e => snd (snd e)) es in
    let bb_io := add_io [] es in
    do conds <- mapM pair_cond (flat_map (fun kv => pairs (snd kv)) bb_io);
    Ok (match conds with [] => f | _ => FImplies (FAnd conds) f end, bb_forall).

  (** The way [verify] (317-351) and [IRMapper] (660-709) use it: run both
      objects, relate the results, add the black-box condition. [cls] is the
      class of an object; [f] relates the two results. *)
  Definition bb_formula {A B} (cls : nat -> C) (aobjs iobjs : list nat) (arch : comp A) (ir : comp B)
             (f : A -> B -> fc bool) (outs : nat -> list D) : res (fc bool * list D) :=
    let (a, atr) := sym_run outs arch in
    let (b, itr) := sym_run outs ir in
    do ai <- get_bb_inputs atr aobjs;
    do ii <- get_bb_inputs itr iobjs;
    update_with_bb (f a b)
      (map (fun p => (cls (fst p), (snd p, outs (fst p)))) (combine aobjs ai)
       ++ map (fun p => (cls (fst p), (snd p, outs (fst p)))) (combine iobjs ii)).
End BBForm.
Arguments comp D A : clear implicits.
Arguments Ret {D A} a.
Arguments Call {D A} o ins k.
