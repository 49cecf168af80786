(** Model of [is_valid] in peak/assembler2/assembler.py. Its validators come from
    assembler2/assembler_util.py, a copy of assembler/assembler_util.py with its own
    [_validator_cache], so they depend on the assemblers made before. Definitions only.
    Line numbers without a file are those of assembler2/assembler.py. *)
From Coq Require Import String ZArith List Bool.
From Verif Require Import Base AsmModel Asm2Model.
Import ListNotations.
Open Scope Z_scope.

(** The part of an Assembler object that [is_valid] uses: nothing for a leaf (389-390),
    the width and validator of an Enum (153), the layout and members of a Product or
    Tuple (228-233), per member type of a Sum its validator, layout and assembler
    (278-280, 350-358). *)
Inductive vasm :=
| V2Leaf
| V2Enum (w : Z) (v : validator)
| V2Tuple (fs : list (Z * Z * vasm))
| V2Sum (tagw : Z) (gs : list (validator * (Z * Z) * vasm)).

(** Process state: [_validator_cache] (assembler2/assembler_util.py:15) and the instance
    cache of AssemblerMeta (assembler2/assembler_abc.py:13-40). *)
Record vstate := VS { vs_vc : vcache; vs_ic : list (ty * vasm) }.
Definition vs0 : vstate := VS [] [].

Section Build.
  Variable build : vstate -> ty -> res (vasm * vstate).

  (** First loop of [_tuple] (161-173). *)
  Fixpoint v2_tuple (st : vstate) (base : Z) (fs : list (key * ty)) : res (list (Z * Z * vasm) * vstate) :=
    match fs with
    | [] => Ok ([], st)
    | (_, t) :: r =>
        do '(a, st1) <- build st t;
        do '(rest, st2) <- v2_tuple st1 (base + a2_width t) r;
        Ok ((base, base + a2_width t, a) :: rest, st2)
    end.

  (** First loop of [_sum] (260-273), over the distinct member types: a type met before
      is already in [layout]. *)
  Fixpoint v2_members (st : vstate) (gs : list (ty * list Z)) : res (list (ty * list Z * vasm) * vstate) :=
    match gs with
    | [] => Ok ([], st)
    | (t, tags) :: r =>
        do '(a, st1) <- build st t;
        do '(rest, st2) <- v2_members st1 r;
        Ok ((t, tags, a) :: rest, st2)
    end.
End Build.

(** Tag validators (278-280). *)
Fixpoint v2_groups (vc : vcache) (tagw : Z) (gs : list (ty * list Z * vasm))
  : res (list (validator * (Z * Z) * vasm) * vcache) :=
  match gs with
  | [] => Ok ([], vc)
  | (t, tags, a) :: r =>
      do '(v, vc1) <- gen_is_valid vc tags tagw;
      do '(rest, vc2) <- v2_groups vc1 tagw r;
      Ok ((v, (tagw, tagw + a2_width t), a) :: rest, vc2)
  end.

(** [Assembler.__init__] (21-39) with [_enum] (100-155), [_tuple], [_sum], [_field]. *)
Definition v2_init (build : vstate -> ty -> res (vasm * vstate)) (st : vstate) (t : ty) : res (vasm * vstate) :=
  match t with
  | TBit | TBV _ | TSInt _ => Ok (V2Leaf, st)
  | TEnum _ ms =>
      do tbl <- enum_table ms;
      do '(v, vc) <- gen_is_valid (vs_vc st) (map snd tbl) (a2_width t);
      Ok (V2Enum (a2_width t) v, VS vc (vs_ic st))
  | TProd _ fs => do '(xs, st') <- v2_tuple build st 0 fs; Ok (V2Tuple xs, st')
  | TSum _ _ fs =>
      match isort field_leb fs with
      | [] => Err NameError (* 275: [tag] is unbound *)
      | sorted =>
          do '(ms, st1) <- v2_members build st (group_by_ty sorted);
          do '(gs, vc) <- v2_groups (vs_vc st1) (a2_tagw fs) ms;
          Ok (V2Sum (a2_tagw fs) gs, VS vc (vs_ic st1))
      end
  end.

(** [Assembler(isa)] through AssemblerMeta.__call__ (assembler2/assembler_abc.py:27-40). *)
Fixpoint v2_fuel (n : nat) (st : vstate) (t : ty) : res (vasm * vstate) :=
  match n with
  | O => Err OutOfFuel
  | S n' =>
      match dget ty_eqb (vs_ic st) t with
      | Some a => Ok (a, st)
      | None => do '(a, st') <- v2_init (v2_fuel n') st t; Ok (a, VS (vs_vc st') (dset ty_eqb (vs_ic st') t a))
      end
  end.
Definition v2_build (st : vstate) (t : ty) : res (vasm * vstate) := v2_fuel (depth t) st t.

(** A process history, as in [run_history]. *)
Fixpoint v2_history (st : vstate) (h : list ty) : vstate :=
  match h with
  | [] => st
  | t :: r => match v2_build st t with Ok (_, st') => v2_history st' r | Err _ => v2_history st r end
  end.

(** [is_valid] (153, 228-233, 350-358, 389-390). [Assembler(field)] inside it returns the
    cached object. *)
Fixpoint v2_valid (a : vasm) (op : Z) {struct a} : bool :=
  match a with
  | V2Leaf => true
  | V2Enum w v => run_validator w op v
  | V2Tuple fs =>
      fold_left andb (map (fun e : Z * Z * vasm => v2_valid (snd e) (slice op (fst (fst e)) (snd (fst e)))) fs) true
  | V2Sum tagw gs =>
      fold_left orb
        (map (fun e : validator * (Z * Z) * vasm =>
                run_validator tagw (slice op 0 tagw) (fst (fst e))
                && v2_valid (snd e) (slice op (fst (snd (fst e))) (snd (snd (fst e))))) gs) false
  end.
