(** The solving strategies of the mapper. Python source:
    peak/mapper/mapper.py:808-826 ([solve]) and 893-924 ([external_loop_solve]). *)
From Coq Require Import ZArith List Bool.
From Verif Require Import Base.
Import ListNotations.
Open Scope list_scope.
Open Scope Z_scope.

Section Cegis.
  (** [V]: pysmt variables; values are integers. *)
  Context {V : Type} (veqb : V -> V -> bool).
  Definition valuation := V -> Z.
  Definition vmem (v : V) (l : list V) : bool := existsb (veqb v) l.

  (** A quantifier-free formula: [get_free_variables] and its meaning. *)
  Record form := { fv : list V; sem : valuation -> bool }.

  (** The values of [s] on [vs], of [r] elsewhere. *)
  Definition override (vs : list V) (s r : valuation) : valuation :=
    fun v => if vmem v vs then s v else r v.

  (** [phi.substitute({v: s(v) for v in vs}).simplify()]. *)
  Definition subst (f : form) (vs : list V) (s : valuation) : form :=
    {| fv := filter (fun v => negb (vmem v vs)) (fv f); sem := fun r => sem f (override vs s r) |}.
  Definition fnot (f : form) : form := {| fv := fv f; sem := fun r => negb (sem f r) |}.

  (** The SMT solver. [solve_or k as] is the answer of the k-th [solver.solve()]
      with assertions [as]; the valuation is what [get_value] then returns, also
      for variables that occur in no assertion. [model_or k f] is
      [smt.get_model(f)] in the same iteration. *)
  Context (solve_or : nat -> list form -> option valuation) (model_or : nat -> form -> option valuation).

  (** Result of the loop: the valuation passed to [rr_from_solver], None,
      LoopException, or model fuel exhausted. *)
  Inductive outcome := ODone (r : valuation) | ONone | OLoop | OFuel.

  (** Lines 905-924. [loops] is the Python counter, so it is also the number of
      [solve()] calls made before this iteration. The second component of the
      result is the number of iterations made. *)
  Fixpoint loop (fuel : nat) (y x : list V) (phi : form) (maxloops : option Z)
           (loops : nat) (as_ : list form) : outcome * nat :=
    match fuel with
    | O => (OFuel, loops)
    | S fuel' =>
        if match maxloops with None => true | Some n => Z.of_nat loops <=? n end then
          match solve_or loops as_ with
          | None => (ONone, S loops)
          | Some r =>
              let tau := r in
              match model_or loops (fnot (subst phi x tau)) with
              | None => (ODone r, S loops)
              | Some sigma => loop fuel' y x phi maxloops (S loops) (as_ ++ [subst phi y sigma])
              end
          end
        else (OLoop, loops)
    end.

  Definition ftrue : form := {| fv := []; sem := fun _ => true |}.

  (** Lines 893-903; [init] are the initial vectors (see C45 for what
      [_gen_initial] puts there). *)
  Definition external_loop_solve (fuel : nat) (y : list V) (phi : form) (maxloops : option Z)
             (init : list valuation) : outcome * nat :=
    let x := filter (fun v => negb (vmem v y)) (fv phi) in
    loop fuel y x phi maxloops 0 (ftrue :: map (subst phi y) init).

  (** Lines 821-826 with [external_loop=False]: one call with the quantified
      formula; [forall_or] is the solver's answer for [ForAll(y, phi)]. *)
  Definition direct_solve (forall_or : list V -> form -> option valuation) (y : list V) (phi : form) : outcome :=
    match forall_or y phi with None => ONone | Some r => ODone r end.
End Cegis.
Arguments valuation V : clear implicits.
Arguments form V : clear implicits.
Arguments outcome V : clear implicits.
