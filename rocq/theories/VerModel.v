(** Verification of a rewrite rule. Python source: peak/mapper/mapper.py:240-289
    ([get_input_paths], [build_inputs]) and 306-360 ([verify]). *)
From Coq Require Import ZArith List Bool.
From Verif Require Import Base MapIdxModel BBFormModel MapModel.
Import ListNotations.
Open Scope list_scope.
Open Scope Z_scope.

Section Verify.
  (** [P]: paths; [C]: black-box classes. *)
  Context {P C : Type} (peqb : P -> P -> bool) (ceqb : C -> C -> bool).

  (** The two designs: leaves of the inputs (for the architecture one list per
      form), leaves of the outputs, and one run of a fresh object on leaf values,
      with its calls of black boxes (see BBFormModel). *)
  Record design := {
    d_ir_in : list P; d_ir_out : list P;
    d_forms : list (list P); d_arch_out : list P;
    d_ir : (P -> Z) -> comp Z (P -> Z);
    d_arch : nat -> (P -> Z) -> comp Z (P -> Z);
    d_cls : nat -> C;        (* class of a black-box object *)
    d_aobjs : list nat; d_iobjs : list nat }.
  Variable d : design.

  Definition vmem (p : P) (l : list P) : bool := existsb (peqb p) l.
  (** Same paths, each once. *)
  Definition same_paths (l m : list P) : bool :=
    Nat.eqb (length l) (length m) && forallb (fun p => vmem p m) l && forallb (fun p => vmem p l) m.

  Variable ru : rule P.

  (** Lines 240-250; the Const test is always False (see SerModel). *)
  Definition ir_paths : list P := flat_map (fun e => match fst e with SPath p => [p] | _ => [] end) (r_in ru).
  Definition arch_paths : list P := flat_map (fun e => match fst e with SUnbound => [snd e] | _ => [] end) (r_in ru).

  (** Lines 259-279: SimplifyBinding succeeds iff the bound paths are the leaves
      of the IR input, each once, and of one form of the architecture. *)
  Definition find_form : option nat :=
    find (fun fi => same_paths (map snd (r_in ru)) (nth fi (d_forms d) [])) (seq 0 (length (d_forms d))).

  (** The value of a leaf of the architecture (262-272). *)
  Fixpoint leaf_val (rin : list (src P * P)) (x u : P -> Z) (p : P) : Z :=
    match rin with
    | [] => 0
    | (s, q) :: r =>
        if peqb p q then match s with SPath ip => x ip | SVal z => z | SUnbound => u q end
        else leaf_val r x u p
    end.

  (** A valuation of the variables made in 314-321. *)
  Record vals := { v_x : P -> Z; v_u : P -> Z; v_outs : nat -> list Z }.

  (** Lines 329-340 on the two results. *)
  Definition agree (a b : P -> Z) : fc bool :=
    FAnd (flat_map (fun e => match fst e with None => [] | Some q => [FLeaf (b q =? a (snd e))] end) (r_out ru)).
  Definition outputs_known : bool :=
    forallb (fun e => match fst e with None => true | Some q => vmem q (d_ir_out d) && vmem (snd e) (d_arch_out d) end) (r_out ru).

  (** The value of the formula of line 342 for a valuation. *)
  Definition formula (fi : nat) (v : vals) : res bool :=
    do g <- bb_formula Z.eqb ceqb (d_cls d) (d_aobjs d) (d_iobjs d)
              (d_arch d fi (leaf_val (r_in ru) (v_x v) (v_u v))) (d_ir d (v_x v)) agree (v_outs v);
    do s <- build (fst g); Ok (seval (fun b => b) s).

  (** Lines 306-360. [sat_or] is the solver's answer for a formula. Whether the
      construction raises is decided without looking at values; the model tries
      it on one valuation [v0] with the right numbers of black-box outputs. *)
  Definition verify (v0 : vals) (sat_or : (vals -> bool) -> option vals) : res (option (list (P * Z) * list (P * Z))) :=
    if negb (same_paths ir_paths (d_ir_in d)) then Err AssertionError
    else match find_form with
    | None => Err AssertionError
    | Some fi =>
        if negb outputs_known then Err ValueError
        else
          do _ <- formula fi v0;
          match sat_or (fun v => match formula fi v with Ok b => negb b | Err _ => false end) with
          | None => Ok None
          | Some v => Ok (Some (map (fun p => (p, v_x v p)) ir_paths, map (fun p => (p, v_u v p)) arch_paths))
          end
    end.
End Verify.
Arguments design P C : clear implicits.
Arguments vals P : clear implicits.
