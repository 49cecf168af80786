(** Which states of a Peak object the mapper's formulas are about.
    Python source: peak/mapper/mapper.py:112-170 ([SMTMapper]), 180-206 ([ArchMapper]) and
    the calls of Peak objects in [IRMapper] (464-466, 651-661). *)
From Coq Require Import ZArith List Bool.
From Verif Require Import Base.
Import ListNotations.
Open Scope list_scope.

Section State.
  (** A Peak class: [call i s] is the output of an object in state [s] called on [i] and
      the object's next state; [init] is the state of a new object. Values are SMT terms,
      given by what they stand for. *)
  Context {St I O : Type}.
  Record peak := mkPeak { init : St; call : I -> St -> O * St }.

  (** The loop at 145-155: one object (129), called on every input form. *)
  Fixpoint form_calls (p : peak) (s : St) (forms : list I) : list O * St :=
    match forms with
    | [] => ([], s)
    | i :: r => let (o, s1) := call p i s in let (os, s2) := form_calls p s1 r in (o :: os, s2)
    end.

  (** An [SMTMapper]: the outputs found for each form and the state of [self.peak_obj]. *)
  Record mapper := mkMapper { mp_outs : list O; mp_state : St }.
  Definition smt_mapper (p : peak) (forms : list I) : mapper :=
    let (os, s) := form_calls p (init p) forms in mkMapper os s.

  (** [run_peak] (651-658). *)
  Definition run_peak (p : peak) (m : mapper) (i : I) : O * mapper :=
    let (o, s) := call p i (mp_state m) in (o, mkMapper (mp_outs m) s).

  (** One [process_ir_instruction]: the IR class, its one form, whether bindings exist
      (506-522, else nothing is built), whether the simple formula is wanted, and the whole
      inputs used for it. *)
  Record request := mkReq { rq_ir : peak; rq_form : I; rq_bindings : bool; rq_simple : bool; rq_arch_in : I; rq_ir_in : I }.

  (** The outputs that go into the formula: of the architecture, one per form or one for
      the whole input, and of the IR. The simple formula calls both objects again (660, 661);
      the other uses the outputs found when the mappers were made. *)
  Inductive used := NoFormula | UForms (arch : list O) (ir : list O) | UWhole (arch ir : O).

  Definition process (p : peak) (m : mapper) (r : request) : used * mapper :=
    let irm := smt_mapper (rq_ir r) [rq_form r] in
    if negb (rq_bindings r) then (NoFormula, m)
    else if rq_simple r then
      let (a, m1) := run_peak p m (rq_arch_in r) in
      let (i, _) := run_peak (rq_ir r) irm (rq_ir_in r) in
      (UWhole a i, m1)
    else (UForms (mp_outs m) (mp_outs irm), m).

  (** A session: an [ArchMapper] and the instructions given to it. *)
  Fixpoint processes (p : peak) (m : mapper) (rs : list request) : list used :=
    match rs with
    | [] => []
    | r :: rest => let (u, m1) := process p m r in u :: processes p m1 rest
    end.
  Definition session (p : peak) (forms : list I) (rs : list request) : list used :=
    processes p (smt_mapper p forms) rs.
End State.
Arguments peak : clear implicits.
Arguments request : clear implicits.
Arguments mapper : clear implicits.
