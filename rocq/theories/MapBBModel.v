(** The synthesis formula when the architecture or the IR instruction contains
    black boxes. Python source: peak/mapper/mapper.py:89-108, 464-726 ([IRMapper]
    with [simple_formula]), 808-856 (solving and extraction).

    [MapModel] has the formula without black boxes; this file runs the objects with
    the output variables of the black boxes and adds [update_with_bb] (C34). *)
From Coq Require Import ZArith List Bool.
From Verif Require Import Base BindModel MapIdxModel CegisModel MapModel BBFormModel.
Import ListNotations.
Open Scope list_scope.
Open Scope Z_scope.

Section MapBB.
  Context {P T C : Type} (peqb : P -> P -> bool) (teqb : T -> T -> bool) (ceqb : C -> C -> bool) (isconst : T -> bool).

  (** The variables of [MapModel] and the outputs of black box object [o]
      (89-102). *)
  Inductive bvar := BV (v : var P) | BOut (o j : nat).
  Definition bvar_eqb (a b : bvar) : bool :=
    match a, b with
    | BV v, BV w => var_eqb peqb v w
    | BOut o j, BOut o' j' => Nat.eqb o o' && Nat.eqb j j'
    | _, _ => false
    end.
  Definition plain (r : bvar -> Z) : val P := fun v => r (BV v).

  (** The objects: their black boxes ([get_black_boxes], by number), and their runs as
      functions of the variables. [prog tags leaves] replaces [a_sem] of [a], [iprog ir]
      replaces [i_sem] of [i]; the other parts of [a] and [i] are as in [MapModel].
      [cls] is [type(bb)], [nout] the number of its outputs. *)
  Record boxed := mkBoxed {
    b_arch : arch P T;
    b_instr : instr P T;
    b_aobjs : list nat;
    b_iobjs : list nat;
    b_prog : (P -> Z) -> (P -> Z) -> comp Z (P -> Z);
    b_iprog : (P -> Z) -> comp Z (P -> Z);
    b_cls : nat -> C;
    b_nout : C -> nat }.

  Variables (k : ivar) (b : boxed).

  (** The architecture and the instruction that have returned [oa] and [oi]. *)
  Definition returned (oa : P -> Z) : arch P T :=
    {| a_forms := a_forms (b_arch b); a_in := a_in (b_arch b); a_out := a_out (b_arch b); a_constr := a_constr (b_arch b);
       a_has_const := a_has_const (b_arch b);
       a_fsem := fun _ _ _ => oa; a_sem := fun _ _ => oa;
       a_fvalid := a_fvalid (b_arch b); a_valid := a_valid (b_arch b) |}.
  Definition ireturned (oi : P -> Z) : instr P T :=
    {| i_in := i_in (b_instr b); i_out := i_out (b_instr b); i_sem := fun _ => oi |}.

  (** The tuple of output variables of an object, under a valuation. *)
  Definition outs_of (r : bvar -> Z) (o : nat) : list Z :=
    map (fun j => r (BOut o j)) (seq 0 (b_nout b (b_cls b o))).

  (** Lines 650-711 at the values [r] of the input variables and [outs] of the
      output variables: run both, build the formula, add the condition,
      [to_hwtypes]. *)
  Definition value_at (r : val P) (outs : nat -> list Z) : res bool :=
    do g <- bb_formula Z.eqb ceqb (b_cls b) (b_aobjs b) (b_iobjs b)
              (b_prog b (tags_of r) (leaves_of r)) (b_iprog b (ir_of r))
              (fun oa oi => FLeaf (formula_simple peqb teqb isconst k (returned oa) (ireturned oi) r)) outs;
    do s <- build (fst g);
    Ok (seval (fun e => e) s).

  (** The formula after the substitutions (712-721); the output variables are not
      substituted. *)
  Definition phi_bb (r : bvar -> Z) : bool :=
    match value_at (overlap_sub peqb teqb isconst k (b_arch b) (b_instr b) (plain r)) (outs_of r) with Ok v => v | Err _ => false end.

  (** Lines 629-646 and 723. *)
  Definition forall_bb : list bvar :=
    map BV (forall_simple peqb teqb isconst (b_arch b) (b_instr b)) ++
    flat_map (fun o => map (BOut o) (seq 0 (b_nout b (b_cls b o)))) (b_aobjs b ++ b_iobjs b).

  Inductive built_bb := BBNone | BBForm (y : list bvar) (phi : (bvar -> Z) -> bool).

  (** Lines 473-475. *)
  Definition mode_check (simple : bool) : res unit :=
    match b_aobjs b ++ b_iobjs b with
    | [] => Ok tt
    | _ :: _ => if simple then Ok tt else Err ValueError
    end.

  (** [IRMapper.__init__] with the simple formula. Running the objects raises, if at
      all, for all values alike ([get_bb_inputs] of a box that was not called, numbers
      of inputs that differ), so all-zero values stand for the terms. Which of two errors
      is raised first is not kept. *)
  Definition build_bb : res built_bb :=
    do f <- build_simple peqb teqb isconst k (returned (fun _ => 0)) (ireturned (fun _ => 0));
    match f with
    | BNone => Ok BBNone
    | BForm _ _ => do v <- value_at (fun _ => 0) (fun o => repeat 0 (b_nout b (b_cls b o))); Ok (BBForm forall_bb phi_bb)
    end.

  (** [rr_from_solver] (834-856) reads index variables and constants only. *)
  Definition rr_from_bb (r : bvar -> Z) : res (rule P) := rr_from_solver peqb teqb isconst k (b_arch b) (b_instr b) (plain r).
End MapBB.
Arguments bvar P : clear implicits.
Arguments boxed P T C : clear implicits.
Arguments built_bb P : clear implicits.
