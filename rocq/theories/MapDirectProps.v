(** C69 in direct terms: which IR instructions have a rule, stated with the
    values of the leaves only. *)
From Coq Require Import ZArith List Bool Lia.
From Verif Require Import Base BvModel BindModel MapIdxModel CegisModel CegisProps
  MapModel MapProofs MapMain MapProps MapIff MapIffProps MapDirect RegPeModel RegPeProofs RegPeProps.
Import ListNotations.
Open Scope list_scope.
Open Scope Z_scope.

(** A rewrite rule exists if and only if some form has valid constants with which
    it computes the IR instruction, the IR inputs being wired to distinct free
    leaves of the form and the IR outputs read at distinct outputs. *)
Theorem C69_direct {P T} (peqb : P -> P -> bool) (teqb : T -> T -> bool) (isconst : T -> bool) (td : T -> list Z)
    (a : arch P T) (i : instr P T) fs fv :
  eqs peqb teqb -> arch_ok isconst a fs fv -> instr_ok i ->
  implementable peqb isconst td a i fs fv <-> direct peqb isconst td a i fs fv.
Proof. intros Heq Ha Hi. exact (implementable_direct peqb isconst (proj1 Heq) td a i fs fv Ha Hi). Qed.

(** The expanded formula is satisfiable exactly then. *)
Theorem C69_expanded_direct {P T} (peqb : P -> P -> bool) (teqb : T -> T -> bool) (isconst : T -> bool) (td : T -> list Z) (tagd : P -> list Z)
    (k : ivar) (a : arch P T) (i : instr P T) fs fv :
  eqs peqb teqb -> arch_ok isconst a fs fv -> arch_ext a -> instr_ok i -> inhabited_types td tagd a i -> constr_ok td a -> a_has_const a = true ->
  satisfiable peqb teqb td tagd k a i (build_expanded peqb teqb isconst k a i) <-> direct peqb isconst td a i fs fv.
Proof.
  intros Heq Ha Hx Hi Hn Hc Hh. rewrite <- (C69_direct peqb teqb isconst td a i fs fv Heq Ha Hi).
  exact (C69_expanded_partial _ _ peqb teqb isconst Heq td tagd k a i fs fv Ha Hx Hi Hn Hc Hh).
Qed.

(** A case: the sum on the PE with a register file, where the second operand may
    only be register 9; the difference has no rule. *)
Definition nine : list (rpath * list Z) := [(RB2, [9])].
Example C69_direct_case :
  direct rpath_eqb mty_const mty_vals (reg_arch code0 racc0 nine) (word2 QIn0 QIn1 QOut MWord (bvadd 32)) (rfs code0 racc0) (rfv code0) /\
  ~ direct rpath_eqb mty_const mty_vals (reg_arch code0 racc0 nine) (word2 QIn0 QIn1 QOut MWord (bvsub 32)) (rfs code0 racc0) (rfv code0).
Proof.
  assert (O : on_rfields code0 nine).
  { split; [repeat constructor; cbn; intuition discriminate|]. intros p zs [I|[]]. injection I as <- <-.
    split; [cbn; auto 8|]. split; [discriminate|]. intros z [<-|[]]; cbn; lia. }
  pose proof (reg_arch_ok code0 racc0 nine code0_ok (rf_nodup _ _ O) (rf_incl _ _ O)) as Ok.
  split.
  - apply (C69_direct rpath_eqb mty_eqb mty_const mty_vals _ _ _ _ reg_eqs Ok (word2_ok _ _ _ _ _ n01)).
    apply (C76_rule code0 racc0 nine code0_ok O). exists (IB BAdd 4 9 7). split.
    + split; [repeat split; unfold RiscvModel.fit; lia|]. intros p zs z [I|[]] E. injection I as <- <-. injection E as <-. now left.
    + left. apply gives_val; [exact racc0_ok|]. split; [discriminate|]. reflexivity.
  - intros D. apply (C69_direct rpath_eqb mty_eqb mty_const mty_vals _ _ _ _ reg_eqs Ok (word2_ok _ _ _ _ _ n01)) in D.
    apply (C76_binary_only code0 racc0 nine (bvsub 32) code0_ok racc0_ok O) in D as (g & Ig & E).
    assert (X : forallb (differ2 (bvsub 32)) eight = true) by (vm_compute; reflexivity).
    pose proof (proj1 (forallb_forall _ _) X g Ig) as Y. rewrite (differ2_no _ _ E) in Y. discriminate.
Qed.

Print Assumptions C69_direct.
Print Assumptions C69_expanded_direct.
Print Assumptions C69_direct_case.
