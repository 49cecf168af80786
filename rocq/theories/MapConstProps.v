(** C69 for the simple formula and IR instructions with Const inputs. *)
From Coq Require Import ZArith List Bool Lia.
From Verif Require Import Base BaseLemmas BindModel BindProps MapIdxModel MapIdxProps CegisModel CegisProps
  MapModel MapProofs MapMain MapProps MapIff MapIffProps MapDirect MapDirectProps MapConst.
Import ListNotations.
Import Inst.
Open Scope list_scope.
Open Scope Z_scope.

(** The simple formula has a solution exactly if a form with constants computes
    the IR instruction and these constants are valid together with all values of
    the Const leaves that take IR inputs. Missing for C69: architectures without
    a Const input, instructions without outputs, and constrained inputs that are
    not Const and leaves of some forms only. *)
Theorem C69_simple_exact_partial :
  forall (P T : Type) (peqb : P -> P -> bool) (teqb : T -> T -> bool) (isconst : T -> bool), eqs peqb teqb ->
  forall td tagd k (a : arch P T) i fs fv, arch_ok isconst a fs fv -> instr_ok i ->
    inhabited_types td tagd a i -> constr_ok td a -> a_has_const a = true -> i_out i <> [] -> in_all_forms peqb isconst a ->
    satisfiable peqb teqb td tagd k a i (build_simple peqb teqb isconst k a i) <-> direct_simple peqb isconst td a i fs fv.
Proof.
  intros P T peqb teqb isconst [Hp Ht] td tagd k a i fs fv Ha Hi (H1 & H2 & H3) Hc Hh Ho Al. split.
  - intros (y & phi & r & B & S & Sol).
    exact (simple_direct peqb teqb isconst Hp Ht td k a i fs fv Ha Hi Hc tagd y phi [] r Al B S (Sol [])).
  - intros Dr. destruct (direct_simple_solution peqb teqb isconst Hp Ht td k a i fs fv Ha Hi Hc tagd H1 H2 H3 Hh Ho Dr)
      as (y & phi & r & B & S & Sol). exists y, phi, r. split; [exact B|]. split; [exact S|]. exact Sol.
Qed.

(** So it finds no more than there is. *)
Lemma direct_simple_direct {P T} (peqb : P -> P -> bool) (isconst : T -> bool) td (a : arch P T) i fs fv :
  direct_simple peqb isconst td a i fs fv -> direct peqb isconst td a i fs fv.
Proof.
  intros (fi & f & l0 & bnd & obnd & Ef & Tl0 & Cl0 & B & Inj & O & OInj & E).
  exists fi, f, l0, bnd, obnd. split; [exact Ef|]. split; [exact Tl0|]. split; [apply E; auto|]. split; [exact Cl0|].
  split; [exact B|]. split; [exact Inj|]. split; [exact O|]. split; [exact OInj|].
  intros q t Iq l Tl Kl Zl. destruct (E l Tl Kl) as [_ X]. exact (X Zl q t Iq).
Qed.

Theorem C69_simple_no_false :
  forall (P T : Type) (peqb : P -> P -> bool) (teqb : T -> T -> bool) (isconst : T -> bool), eqs peqb teqb ->
  forall td tagd k (a : arch P T) i fs fv, arch_ok isconst a fs fv -> instr_ok i -> constr_ok td a -> in_all_forms peqb isconst a ->
    satisfiable peqb teqb td tagd k a i (build_simple peqb teqb isconst k a i) -> implementable peqb isconst td a i fs fv.
Proof.
  intros P T peqb teqb isconst Heq td tagd k a i fs fv Ha Hi Hc Al (y & phi & r & B & S & Sol).
  apply (C69_direct peqb teqb isconst td a i fs fv Heq Ha Hi). apply direct_simple_direct. destruct Heq as [Hp Ht].
  exact (simple_direct peqb teqb isconst Hp Ht td k a i fs fv Ha Hi Hc tagd y phi [] r Al B S (Sol [])).
Qed.

(** It finds all there is if validity does not look at Const leaves of the type
    of a Const input of the instruction; in particular, if the instruction has
    no Const input. *)
Definition valid_elsewhere {P T} (isconst : T -> bool) (td : T -> list Z) (a : arch P T) (i : instr P T) (fv : nat -> (P -> Z) -> bool) : Prop :=
  forall fi f l l', nth_error (a_forms a) fi = Some f -> typed td (a_in a) l -> typed td (a_in a) l' ->
    (forall p t, In p (fst f) -> In (p, t) (a_in a) -> isconst t = true -> (forall q, ~ In (q, t) (i_in i)) -> l p = l' p) ->
    fv fi l = fv fi l'.

Theorem C69_simple_const_partial :
  forall (P T : Type) (peqb : P -> P -> bool) (teqb : T -> T -> bool) (isconst : T -> bool), eqs peqb teqb ->
  forall td tagd k (a : arch P T) i fs fv, arch_ok isconst a fs fv -> instr_ok i ->
    inhabited_types td tagd a i -> constr_ok td a -> a_has_const a = true -> i_out i <> [] -> in_all_forms peqb isconst a ->
    valid_elsewhere isconst td a i fv ->
    satisfiable peqb teqb td tagd k a i (build_simple peqb teqb isconst k a i) <-> implementable peqb isconst td a i fs fv.
Proof.
  intros P T peqb teqb isconst Heq td tagd k a i fs fv Ha Hi Hn Hc Hh Ho Al Ve.
  split; [now apply (C69_simple_no_false P T peqb teqb isconst Heq td tagd k a i fs fv Ha Hi Hc Al)|].
  intros M. apply (C69_simple_exact_partial P T peqb teqb isconst Heq td tagd k a i fs fv Ha Hi Hn Hc Hh Ho Al).
  apply (C69_direct peqb teqb isconst td a i fs fv Heq Ha Hi) in M.
  destruct M as (fi & f & l0 & bnd & obnd & Ef & Tl0 & Fl0 & Cl0 & B & Inj & O & OInj & E).
  exists fi, f, l0, bnd, obnd. split; [exact Ef|]. split; [exact Tl0|]. split; [exact Cl0|].
  split; [exact B|]. split; [exact Inj|]. split; [exact O|]. split; [exact OInj|].
  intros l Tl Kl. split; [|intros Zl q t Iq; exact (E q t Iq l Tl Kl Zl)].
  rewrite <- Fl0. apply (Ve fi f l l0 Ef Tl Tl0). intros p t If I C N. apply (Kl p t I If C). intros q t' Iq X.
  destruct (B q t' Iq) as (B1 & _). rewrite X in B1. apply (N q).
  pose proof (In_dget peqb (proj1 Heq) _ _ _ (ok_in _ _ _ _ Ha) I) as E1. pose proof (In_dget peqb (proj1 Heq) _ _ _ (ok_in _ _ _ _ Ha) B1) as E2.
  rewrite E1 in E2. injection E2 as ->. exact Iq.
Qed.

Lemma no_const_elsewhere {P T} (isconst : T -> bool) td (a : arch P T) i fs fv : arch_ok isconst a fs fv ->
  (forall p t, In (p, t) (i_in i) -> isconst t = false) -> valid_elsewhere isconst td a i fv.
Proof.
  intros Ha Nc fi f l l' Ef _ _ H. apply (ok_vlocal _ _ _ _ Ha fi f l l' Ef). intros p t If I C. apply (H p t If I C).
  intros q Iq. rewrite (Nc q t Iq) in C. discriminate.
Qed.

(** A case. The architecture adds the constants 3 and 5 to its data input, and 5
    must be 0: the instruction with a Const addend goes through constant 3, and
    although constant 5 has the same type the formula keeps it 0. *)
Lemma case_types : inhabited_types td tagd arch2 addc.
Proof. apply inhabited0; [flat_tac|]. intros [|fi] f p z E; try (destruct fi; discriminate). injection E as <-. intros []. Qed.

Lemma case_direct : direct_simple Z.eqb snd td arch2 addc fs2 fv2.
Proof.
  exists 0%nat, ([1; 3; 5], []), (fun _ => 0), (fun q => if q =? 11 then 1 else 3), (fun _ => 20).
  split; [reflexivity|]. split; [apply typed_bits; [auto|flat_tac]|]. split; [intros p zs []|]. split; [|split; [|split; [|split]]].
  - intros q t [I|[I|[]]]; injection I as <- <-; cbn; intuition.
  - intros q t q' t' [I|[I|[]]] [J|[J|[]]]; injection I as <- <-; injection J as <- <-; cbn; congruence.
  - intros q t [I|[]]. injection I as <- <-. now left.
  - intros q t q' t' [I|[]] [J|[]]. injection I as <- <-. injection J as <- <-. reflexivity.
  - intros l _ Kl. assert (E : l 5 = 0).
    { apply (Kl 5 (1, true)); [cbn; auto|cbn; auto|reflexivity|]. intros q' t'' [I|[I|[]]]; injection I as <- <-; discriminate. }
    split; [unfold fv2; now rewrite E|]. intros _ q t [I|[]]. injection I as <- <-.
    cbn [addc MapModel.i_sem]. unfold fs2. cbn [Z.eqb]. rewrite E. f_equal. cbn. lia.
Qed.

Example C69_simple_exact_case : satisfiable Z.eqb teqb td tagd OneHot arch2 addc (simple0 arch2 addc).
Proof.
  apply (C69_simple_exact_partial _ _ Z.eqb teqb snd eqs_ok td tagd OneHot arch2 addc fs2 fv2 arch2_ok addc_ok case_types).
  - intros p zs [].
  - reflexivity.
  - discriminate.
  - intros p fi f [].
  - exact case_direct.
Qed.

(** In the architecture of C40_simple_const_refuted the only constant must be 0:
    a rule exists, but its constant is not valid for all values of the addend. *)
Example C69_simple_gap : direct Z.eqb snd td arch3 addc fs3 fv3 /\ ~ direct_simple Z.eqb snd td arch3 addc fs3 fv3.
Proof.
  destruct C40_simple_const_refuted as (A & I & M & _ & _).
  split; [now apply (C69_direct Z.eqb teqb snd td arch3 addc fs3 fv3 eqs_ok A I)|].
  intros (fi & f & l0 & bnd & obnd & Ef & Tl0 & Cl0 & B & Inj & O & OInj & E).
  destruct fi as [|fi]; [|destruct fi; discriminate]. injection Ef as <-.
  assert (B13 : bnd 13 = 3).
  { destruct (B 13 (1, true) ltac:(cbn; auto)) as ([X|[X|[]]] & _); [discriminate|]. now injection X as <-. }
  destruct (E (fun p => if p =? 3 then 1 else 0)) as [X _].
  - apply typed_bits; [|flat_tac]. intros p. destruct (p =? 3); auto.
  - intros p t' [J|[J|[]]]; injection J as <- <-; intros _ C N; [discriminate|]. destruct (N 13 (1, true)); [cbn; auto|exact B13].
  - discriminate.
Qed.

Print Assumptions C69_simple_exact_partial.
Print Assumptions C69_simple_no_false.
Print Assumptions C69_simple_const_partial.
Print Assumptions C69_simple_exact_case.
Print Assumptions C69_simple_gap.
