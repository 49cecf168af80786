(** What the mapper makes of a Peak class whose objects keep state (attributes,
    registers): [SMTMapper] makes one object and calls it once for every input form
    (peak/mapper/mapper.py:129, 144-155), and the simple formula calls the same object
    again (651-660). Definitions only. *)
From Coq Require Import String ZArith List Bool.
From Verif Require Import Base BindModel MapIdxModel MapModel AsmModel AadtModel FormModel AdtArchModel.
Import ListNotations.
Open Scope string_scope.
Open Scope list_scope.
Open Scope Z_scope.

Section State.
  (** The shape of the class: its [c_call] is not used. *)
  Variable C : pclass.
  (** An object answers to the words of the inputs with the words of the outputs and
      goes to its next state; [o0] is the object [Peak_cls()] (129). Under a valuation of
      the variables, terms are words (C80). *)
  Context {Obj : Type}.
  Variable ocall : Obj -> list Z -> list Z * Obj.
  Variable o0 : Obj.

  (** The class with a given function for [__call__]. *)
  Definition with_call (f : list Z -> list Z) : pclass := PClass (c_in C) (c_ia C) (c_out C) (c_oa C) f.
  Definition on_obj (o : Obj) : pclass := with_call (fun ws => fst (ocall o ws)).

  (** The state after a call with an input object (145, 149). *)
  Definition next (o : Obj) (z : Z) : Obj := match in_words C z with Ok ws => snd (ocall o ws) | Err _ => o end.

  (** Lines 144-149: the object when form [fi] is called, all forms before it having
      been called in order under the same valuation. *)
  Definition obj_at (fi : nat) (tags l : path -> Z) : Obj :=
    fold_left (fun o i => next o (form_word C i tags l)) (seq 0 fi) o0.

  (** Lines 651-660: the object when the simple formula calls it: after the [n] forms and
      after the calls by the simple formulas of earlier instructions, whose input objects
      are free variables of this formula (559-566; only the own ones are substituted,
      712-718). *)
  Definition obj_simple (n : nat) (past : list Z) (tags l : path -> Z) : Obj :=
    fold_left next past (obj_at n tags l).

  (** [ArchMapper] (172-204). The number of output forms does not depend on the words. *)
  Definition st_arch (past : list Z) (cs : list (path * list Z)) : res (arch path lty) :=
    do A <- adt_arch (on_obj o0) cs;
    Ok {| a_forms := a_forms A; a_in := a_in A; a_out := a_out A; a_constr := a_constr A; a_has_const := a_has_const A;
          a_fsem := fun fi tags l q => out_at (on_obj (obj_at fi tags l)) (form_word C fi tags l) q;
          a_sem := fun tags l q => out_at (on_obj (obj_simple (length (a_forms A)) past tags l)) (full_word C tags l) q;
          a_fvalid := a_fvalid A; a_valid := a_valid A |}.

  (** [IRMapper] (464-470): a new object for every instruction; its outputs in the
      expanded formula are those of line 149, in the simple formula those of the second
      call (654), whose input object is substituted by [input_value] (716). *)
  Definition st_instr (simple : bool) : res (instr path lty) :=
    do I <- adt_instr (on_obj o0);
    Ok {| i_in := i_in I; i_out := i_out I;
          i_sem := fun x q =>
            let o := if simple then next o0 (form_word C 0 (fun _ => 0) x) else o0 in
            out_at (on_obj o) (form_word C 0 (fun _ => 0) x) q |}.
End State.
