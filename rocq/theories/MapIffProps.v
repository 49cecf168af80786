(** C69: the mapper finds a rule exactly when there is one. *)
From Coq Require Import ZArith List Bool Lia Permutation.
From Verif Require Import Base BaseLemmas BindModel BindProps MapIdxModel MapIdxProps CegisModel CegisProps MapModel MapProofs MapMain MapProps MapIff.
Import ListNotations.
Open Scope list_scope.
Open Scope Z_scope.

(** Full property, for both formulas: there is a solution exactly if some rule
    is well formed, has valid and allowed constants, and is correct for all
    inputs, with every allowed value of the constrained inputs. *)
Definition C69_full : Prop :=
  forall (P T : Type) (peqb : P -> P -> bool) (teqb : T -> T -> bool) (isconst : T -> bool), eqs peqb teqb ->
  forall td tagd k (a : arch P T) i fs fv, arch_ok isconst a fs fv -> arch_ext a -> instr_ok i ->
    inhabited_types td tagd a i -> constr_ok td a ->
    (satisfiable peqb teqb td tagd k a i (build_expanded peqb teqb isconst k a i) <-> implementable peqb isconst td a i fs fv) /\
    (satisfiable peqb teqb td tagd k a i (build_simple peqb teqb isconst k a i) <-> implementable peqb isconst td a i fs fv).

(** Constrained inputs that are not Const are leaves of all forms. *)
Definition in_all_forms {P T} (peqb : P -> P -> bool) (isconst : T -> bool) (a : arch P T) : Prop :=
  forall p fi f, In p (map fst (a_constr a)) -> is_const peqb isconst a p = false ->
    nth_error (a_forms a) fi = Some f -> In p (fst f).

(** Values of constrained Const inputs are allowed. *)
Definition const_allowed {P T} (peqb : P -> P -> bool) (isconst : T -> bool) (a : arch P T) (ru : rule P) : Prop :=
  forall p zs z, In (p, zs) (a_constr a) -> is_const peqb isconst a p = true -> In (SVal z, p) (r_in ru) -> In z zs.

(** What C38 leaves open: the rule of any solution, also one whose value for a
    constrained input is not allowed, is correct for all allowed values. *)
Theorem C69_rule_expanded :
  forall (P T : Type) (peqb : P -> P -> bool) (teqb : T -> T -> bool) (isconst : T -> bool), eqs peqb teqb ->
  forall td tagd k (a : arch P T) i fs fv, arch_ok isconst a fs fv -> arch_ext a -> instr_ok i -> constr_ok td a ->
  forall y phi vs r, build_expanded peqb teqb isconst k a i = Ok (BForm y phi) ->
    sorted (dom peqb teqb td tagd k a i) r -> solves (dom peqb teqb td tagd k a i) y (mkform vs phi) r ->
    exists ru, rr_from_solver peqb teqb isconst k a i r = Ok ru /\ well_formed peqb isconst a i ru /\
      valid_consts td a fv ru /\ const_allowed peqb isconst a ru /\ correct_any isconst td a i fs ru.
Proof.
  intros P T peqb teqb isconst [Hp Ht] td tagd k a i fs fv Ha He Hi Hc y phi vs r B S Sol.
  destruct (expanded_any peqb teqb isconst Hp Ht td k a i fs fv Ha Hi He Hc tagd y phi vs r B S Sol) as (ru & R & W & V & C).
  destruct (expanded_sound peqb teqb isconst Hp Ht td k a i fs fv Ha Hi tagd y phi vs r B S Sol) as (ru' & R' & _ & A & _).
  rewrite R in R'. injection R' as <-. exists ru. split; [exact R|]. split; [exact W|]. split; [exact V|]. split; [exact A|exact C].
Qed.

Lemma built_has_bindings {P T} (peqb : P -> P -> bool) (teqb : T -> T -> bool) (isconst : T -> bool) k (a : arch P T) i y phi :
  build_simple peqb teqb isconst k a i = Ok (BForm y phi) -> has_bindings peqb teqb a i = true.
Proof. unfold build_simple. destruct (has_bindings peqb teqb a i); [auto|discriminate]. Qed.

(** Missing: instructions with Const inputs, and constrained inputs that are
    leaves of some forms only. *)
Theorem C69_rule_simple_partial :
  forall (P T : Type) (peqb : P -> P -> bool) (teqb : T -> T -> bool) (isconst : T -> bool), eqs peqb teqb ->
  forall td tagd k (a : arch P T) i fs fv, arch_ok isconst a fs fv -> arch_ext a -> instr_ok i -> constr_ok td a ->
  (forall p t, In (p, t) (i_in i) -> isconst t = false) -> in_all_forms peqb isconst a ->
  forall y phi vs r, build_simple peqb teqb isconst k a i = Ok (BForm y phi) ->
    sorted (dom peqb teqb td tagd k a i) r -> solves (dom peqb teqb td tagd k a i) y (mkform vs phi) r ->
    exists ru, rr_from_solver peqb teqb isconst k a i r = Ok ru /\ well_formed peqb isconst a i ru /\
      valid_consts td a fv ru /\ const_allowed peqb isconst a ru /\ correct_any isconst td a i fs ru.
Proof.
  intros P T peqb teqb isconst [Hp Ht] td tagd k a i fs fv Ha He Hi Hc Nc Al y phi vs r B S Sol.
  assert (Se : seen peqb teqb isconst a i).
  { apply (seen_all peqb teqb isconst Hp Ht a i fs fv Ha Hi Al). eapply built_has_bindings; eauto. }
  destruct (simple_any peqb teqb isconst Hp Ht td k a i fs fv Ha Hi Hc tagd y phi vs r Nc Se B S Sol) as (ru & R & W & V & C).
  destruct (simple_sound peqb teqb isconst Hp Ht td k a i fs fv Ha Hi tagd y phi vs r B S Sol) as (ru' & R' & _ & _ & A & _).
  assert (X : rr_from_solver peqb teqb isconst k a i r = Ok ru').
  { unfold rr_from_solver in *. rewrite <- R'. symmetry. apply (rr_ext peqb teqb isconst k a i).
    intros v. apply (overlap_sub_id peqb teqb isconst k a i). exact (no_overlap peqb teqb isconst Hp Ht a i fs fv Ha Hi Nc). }
  rewrite R in X. injection X as <-. exists ru. split; [exact R|]. split; [exact W|]. split; [exact V|]. split; [exact A|exact C].
Qed.

(** Missing for C69: architectures without a Const input. *)
Theorem C69_expanded_partial :
  forall (P T : Type) (peqb : P -> P -> bool) (teqb : T -> T -> bool) (isconst : T -> bool), eqs peqb teqb ->
  forall td tagd k (a : arch P T) i fs fv, arch_ok isconst a fs fv -> arch_ext a -> instr_ok i ->
    inhabited_types td tagd a i -> constr_ok td a -> a_has_const a = true ->
    satisfiable peqb teqb td tagd k a i (build_expanded peqb teqb isconst k a i) <-> implementable peqb isconst td a i fs fv.
Proof.
  intros P T peqb teqb isconst [Hp Ht] td tagd k a i fs fv Ha He Hi Hn Hc Hh. split.
  - intros (y & phi & r & B & S & Sol).
    apply (implementable_from peqb teqb isconst Hp td k a i fs fv Ha Hc tagd
             (solves (dom peqb teqb td tagd k a i) y (mkform [] phi)) r S (Sol [])).
    + intros c r' Ac S' Sol'. now apply (repair_expanded peqb teqb isconst Hp Ht td k a i fs fv Ha Hi He tagd y phi [] r' c B S' Sol').
    + intros r' S' Sol'. exact (expanded_any peqb teqb isconst Hp Ht td k a i fs fv Ha Hi He Hc tagd y phi [] r' B S' Sol').
    + intros r' S' Sol'.
      destruct (expanded_sound peqb teqb isconst Hp Ht td k a i fs fv Ha Hi tagd y phi [] r' B S' Sol') as (ru & R & _ & A & _). eauto.
  - now apply (C40_expanded_partial P T peqb teqb isconst (conj Hp Ht) td tagd k a i fs fv).
Qed.

(** Missing for C69: as above, and instructions without outputs or with Const
    inputs, and constrained inputs that are leaves of some forms only. *)
Theorem C69_simple_partial :
  forall (P T : Type) (peqb : P -> P -> bool) (teqb : T -> T -> bool) (isconst : T -> bool), eqs peqb teqb ->
  forall td tagd k (a : arch P T) i fs fv, arch_ok isconst a fs fv -> arch_ext a -> instr_ok i ->
    inhabited_types td tagd a i -> constr_ok td a -> a_has_const a = true ->
    i_out i <> [] -> (forall p t, In (p, t) (i_in i) -> isconst t = false) -> in_all_forms peqb isconst a ->
    satisfiable peqb teqb td tagd k a i (build_simple peqb teqb isconst k a i) <-> implementable peqb isconst td a i fs fv.
Proof.
  intros P T peqb teqb isconst [Hp Ht] td tagd k a i fs fv Ha He Hi Hn Hc Hh Ho Nc Al. split.
  - intros (y & phi & r & B & S & Sol).
    assert (Se : seen peqb teqb isconst a i).
    { apply (seen_all peqb teqb isconst Hp Ht a i fs fv Ha Hi Al). eapply built_has_bindings; eauto. }
    apply (implementable_from peqb teqb isconst Hp td k a i fs fv Ha Hc tagd
             (solves (dom peqb teqb td tagd k a i) y (mkform [] phi)) r S (Sol [])).
    + intros c r' Ac S' Sol'. now apply (repair_simple peqb teqb isconst Hp td k a i tagd y phi [] r' c Se B).
    + intros r' S' Sol'. exact (simple_any peqb teqb isconst Hp Ht td k a i fs fv Ha Hi Hc tagd y phi [] r' Nc Se B S' Sol').
    + intros r' S' Sol'.
      destruct (simple_sound peqb teqb isconst Hp Ht td k a i fs fv Ha Hi tagd y phi [] r' B S' Sol') as (ru & R & _ & _ & A & _).
      exists ru. split; auto. unfold rr_from_solver in *. rewrite <- R. symmetry. apply (rr_ext peqb teqb isconst k a i).
      intros v. apply (overlap_sub_id peqb teqb isconst k a i). exact (no_overlap peqb teqb isconst Hp Ht a i fs fv Ha Hi Nc).
  - now apply (C40_simple_partial P T peqb teqb isconst (conj Hp Ht) td tagd k a i fs fv).
Qed.

(** The answers of the solving strategies. *)
Inductive answers {P} (peqb : P -> P -> bool) (d : var P -> list Z) (y : list (var P)) (f : form (var P)) (o : outcome (var P)) : Prop :=
| by_loop so mo fuel m init c : solver_ok d so -> model_ok d mo -> Forall (sorted d) init ->
    external_loop_solve (var_eqb peqb) so mo fuel y f m init = (o, c) -> answers peqb d y f o
| by_direct fo : forall_ok d fo -> direct_solve fo y f = o -> answers peqb d y f o.

Lemma answers_ok {P} (peqb : P -> P -> bool) : (forall a b, peqb a b = true <-> a = b) ->
  forall d y vs (phi : val P -> bool) o, wf (mkform vs phi) -> answers peqb d y (mkform vs phi) o ->
  match o with
  | ODone r => sorted d r /\ solves d y (mkform vs phi) r
  | ONone => forall r, sorted d r -> ~ solves d y (mkform vs phi) r
  | _ => True
  end.
Proof.
  intros Hp d y vs phi o W A. destruct o as [r| | |]; auto.
  - destruct A as [so mo fuel m init c Hs Hm Fi H|fo Hf H].
    + eapply C35_cegis_sound; eauto. now apply var_eqb_eq.
    + eapply C35_direct_sound; eauto.
  - intros r S Sol. destruct A as [so mo fuel m init c Hs Hm Fi H|fo Hf H].
    + exact (C36_cegis_none _ _ d (var_eqb_eq peqb Hp) so mo Hs Hm y _ W fuel m init c Fi H r S Sol).
    + exact (C36_direct_none _ d fo Hf y _ W H r S Sol).
Qed.

(** The whole of [solve] for either formula: a found rule is well formed and
    correct, and None is answered only if there is no rule. *)
Theorem C69_solve_partial :
  forall (P T : Type) (peqb : P -> P -> bool) (teqb : T -> T -> bool) (isconst : T -> bool), eqs peqb teqb ->
  forall td tagd k (a : arch P T) i fs fv, arch_ok isconst a fs fv -> arch_ext a -> instr_ok i ->
    inhabited_types td tagd a i -> constr_ok td a -> a_has_const a = true ->
  forall b, b = build_expanded peqb teqb isconst k a i \/
    b = build_simple peqb teqb isconst k a i /\
      i_out i <> [] /\ (forall p t, In (p, t) (i_in i) -> isconst t = false) /\ in_all_forms peqb isconst a ->
  let d := dom peqb teqb td tagd k a i in
  match b with
  | Ok BNone => ~ implementable peqb isconst td a i fs fv
  | Ok (BForm y phi) => forall vs, wf (mkform vs phi) -> forall o, answers peqb d y (mkform vs phi) o ->
      match o with
      | ODone r => implementable peqb isconst td a i fs fv /\
          exists ru, rr_from_solver peqb teqb isconst k a i r = Ok ru /\ well_formed peqb isconst a i ru /\
            valid_consts td a fv ru /\ const_allowed peqb isconst a ru /\ correct_any isconst td a i fs ru
      | ONone => ~ implementable peqb isconst td a i fs fv
      | _ => True
      end
  | Err _ => ~ implementable peqb isconst td a i fs fv
  end.
Proof.
  intros P T peqb teqb isconst E td tagd k a i fs fv Ha He Hi Hn Hc Hh b Hb d.
  assert (Sat : satisfiable peqb teqb td tagd k a i b <-> implementable peqb isconst td a i fs fv).
  { destruct Hb as [->|(-> & Ho & Nc & Al)]; [apply C69_expanded_partial|apply C69_simple_partial]; auto. }
  destruct b as [[|y phi]|e].
  - rewrite <- Sat. intros (y & phi & r & X & _). discriminate.
  - intros vs W o A. pose proof (answers_ok peqb (proj1 E) d y vs phi o W A) as H. destruct o as [r| | |]; auto.
    + destruct H as [S Sol]. split.
      * apply Sat. exists y, phi, r. split; [reflexivity|]. split; [exact S|]. intros vs'. exact Sol.
      * destruct Hb as [Hb|(Hb & Ho & Nc & Al)]; symmetry in Hb.
        -- eapply C69_rule_expanded; eauto.
        -- eapply C69_rule_simple_partial; eauto.
    + rewrite <- Sat. intros (y' & phi' & r & X & S & Sol). injection X as <- <-. exact (H r S (Sol vs)).
  - rewrite <- Sat. intros (y & phi & r & X & _). discriminate.
Qed.

(** * Refutations *)
Import Inst.

(** The Const input of C40_simple_const_refuted. *)
Theorem C69_full_refuted : ~ C69_full.
Proof.
  intros H. destruct C40_simple_const_refuted as (A & I & M & _ & N). apply N.
  apply (H _ _ Z.eqb teqb snd eqs_ok td tagd OneHot arch3 addc fs3 fv3 A arch3_ext I); auto.
  - apply inhabited0; [flat_tac|]. intros [|fi] f p z E; [|destruct fi; discriminate]. injection E as <-. intros [].
  - intros p zs [].
Qed.

(** A sum input, not Const, whose members 1 and 2 have different types; both
    forms copy (the low bit of) their member. The member 2 must be 0. *)
Definition fs5 (fi : nat) (l : Z -> Z) (q : Z) : Z := match fi with O => l 1 | _ => l 2 mod 2 end.
Definition arch5 : arch Z T :=
  {| a_forms := [([1; 5], [(9, 0)]); ([2; 5], [(9, 1)])];
     a_in := [(1, (1, false)); (2, (2, false)); (5, (1, true))];
     a_out := [(20, (1, false))];
     a_constr := [(2, [0])]; a_has_const := true;
     a_fsem := fun fi _ l q => fs5 fi l q;
     a_sem := fun tags l q => if tags 9 =? 0 then fs5 0 l q else fs5 1 l q;
     a_fvalid := fun _ _ _ => true; a_valid := fun _ _ => true |}.
(** The instruction inverts its bit. *)
Definition not1 : instr Z T :=
  {| i_in := [(11, (1, false))]; i_out := [(21, (1, false))]; i_sem := fun x q => 1 - x 11 |}.

Lemma arch5_ok : arch_ok snd arch5 fs5 (fun _ _ => true).
Proof.
  constructor; cbn [arch5 a_forms a_in a_out a_constr a_fsem a_sem a_fvalid a_valid]; auto.
  - repeat constructor; cbn; intuition lia.
  - repeat constructor; cbn; intuition lia.
  - repeat constructor; cbn; intuition lia.
  - intros x [<-|[]]. cbn. auto.
  - intros [|[|fi]] f E; try (destruct fi; discriminate); injection E as <-; intros x; cbn; intuition lia.
  - intros [|[|fi]] f E; try (destruct fi; discriminate); injection E as <-; repeat constructor; cbn; intuition lia.
  - intros [|[|fi]] f tags l q E H; try (destruct fi; discriminate); injection E as <-;
      pose proof (H _ (or_introl eq_refl)) as X; cbn [fst snd] in X; rewrite X; reflexivity.
  - intros [|[|fi]] f l l' q E H; try (destruct fi; discriminate); injection E as <-; cbn [fst snd fs5] in *;
      rewrite !H by (cbn; auto); reflexivity.
Qed.
Lemma not1_ok : instr_ok not1.
Proof.
  constructor; [repeat constructor; cbn; intuition lia..|].
  intros x x' q H. cbn [not1 i_sem]. erewrite !H by (cbn; eauto). reflexivity.
Qed.
Lemma arch5_ext : arch_ext arch5.
Proof.
  intros tags tags' l l' Et El. cbn [arch5 a_fsem a_sem a_fvalid a_valid].
  assert (E : forall fi q, fs5 fi l q = fs5 fi l' q).
  { intros [|fi] q; cbn [fs5]; rewrite !El by (cbn; auto); reflexivity. }
  rewrite (Et 9) by (cbn; auto). repeat split; auto. intros q. now rewrite !E.
Qed.

Lemma arch5_constr : constr_ok td arch5.
Proof.
  intros p zs [[= <- <-]|[]]. split; [discriminate|]. intros t z I [<-|[]]. cbn in I.
  destruct I as [I|[I|[I|[]]]]; injection I; intros; subst; try discriminate. apply pyrange_In. cbn. lia.
Qed.
Lemma arch5_inhabited : inhabited_types td tagd arch5 not1.
Proof.
  apply inhabited0; [flat_tac|]. intros [|[|fi]] f p z E; try (destruct fi; discriminate); injection E as <-;
    intros [[= <- <-]|[]]; auto.
Qed.

Lemma no_not1 : ~ implementable Z.eqb snd td arch5 not1 fs5 (fun _ _ => true).
Proof.
  intros (ru & W & (l0 & Tl0 & Vl0 & _) & Al & C).
  destruct (rule_eq Z.eqb snd (proj1 eqs_ok) td arch5 not1 fs5 _ arch5_ok not1_ok ru l0 W Tl0 Vl0 Al C)
    as (f & bnd & Ef & B & _ & _ & O).
  destruct (B 11 (1, false) ltac:(cbn; auto)) as (B1 & B2 & _).
  destruct (O 21 (1, false) ltac:(cbn; auto)) as (ap & [Iap|[]] & E). injection Iap as <-.
  cbn in B1. destruct B1 as [B1|[B1|[B1|[]]]]; try (injection B1 as _ X; discriminate). injection B1 as B1.
  destruct (r_form ru) as [|[|n]]; [| |destruct n; discriminate]; injection Ef as <-.
  - assert (X : i_sem not1 (fun q => (fun p => if p =? 1 then 0 else l0 p) (bnd q)) 21 = fs5 0 (fun p => if p =? 1 then 0 else l0 p) 20).
    + apply (E (fun p => if p =? 1 then 0 else l0 p)).
      * intros p t I. destruct (p =? 1) eqn:Ep; [|now apply Tl0]. apply Z.eqb_eq in Ep. subst p. cbn in I.
        destruct I as [I|[I|[I|[]]]]; injection I; intros; subst; try discriminate. apply pyrange_In. cbn. lia.
      * intros p t I _ Ct _. destruct (p =? 1) eqn:Ep; auto. apply Z.eqb_eq in Ep. subst p. cbn in I.
        destruct I as [I|[I|[I|[]]]]; injection I; intros; subst; discriminate.
      * intros p zs [[= <- <-]|[]] I _. cbn in I. intuition discriminate.
    + cbn [not1 i_sem fs5] in X. rewrite <- B1 in X. cbn in X. discriminate.
  - rewrite <- B1 in B2. cbn in B2. intuition discriminate.
Qed.

(** A model: form 0, the only bindings, the constant 0 - and the member 2, which
    form 0 does not have, is 1. *)
Definition r5 (v : var Z) : Z := match v with VFi | VBi | VBo => 1 | VLeaf 2 => 1 | _ => 0 end.

(** The simple formula asks for correctness only if all constraints hold; a
    constraint on a leaf of a form without bindings is on a variable that is not
    quantified, so it is solved by a forbidden value. There is no rule, and the
    one found is wrong; the expanded formula has no solution. *)
Theorem C69_simple_vacuous_refuted :
  arch_ok snd arch5 fs5 (fun _ _ => true) /\ arch_ext arch5 /\ instr_ok not1 /\ inhabited_types td tagd arch5 not1 /\ constr_ok td arch5 /\
  a_has_const arch5 = true /\ i_out not1 <> [] /\ (forall p t, In (p, t) (i_in not1) -> snd t = false) /\
  ~ implementable Z.eqb snd td arch5 not1 fs5 (fun _ _ => true) /\
  ~ satisfiable Z.eqb teqb td tagd OneHot arch5 not1 (expanded0 arch5 not1) /\
  (exists y phi, simple0 arch5 not1 = Ok (BForm y phi) /\ forall vs, solves (d0 arch5 not1) y (mkform vs phi) r5) /\
  sorted (d0 arch5 not1) r5 /\
  rr_from_solver Z.eqb teqb snd OneHot arch5 not1 r5 =
    Ok {| r_form := 0; r_in := [(SPath 11, 1); (SVal 0, 5)]; r_out := [(Some 21, 20)] |}.
Proof.
  split; [exact arch5_ok|]. split; [exact arch5_ext|]. split; [exact not1_ok|]. split; [exact arch5_inhabited|].
  split; [exact arch5_constr|]. split; [reflexivity|]. split; [discriminate|]. split; [flat_tac|]. split; [exact no_not1|]. split.
  { intros S. apply no_not1. revert S. apply C69_expanded_partial; auto using eqs_ok, arch5_ok, arch5_ext, not1_ok, arch5_inhabited, arch5_constr. }
  split; [|split; [|reflexivity]].
  - apply (solved0 arch5 not1 fs5 _ _ r5 arch5_ok not1_ok arch5_ext (or_intror eq_refl)); vm_compute; reflexivity.
  - assert (L : forall p, dget Z.eqb (a_in arch5) p = if p =? 1 then Some (1, false) else if p =? 2 then Some (2, false) else if p =? 5 then Some (1, true) else None)
      by (intros p; cbn [arch5 a_in dget]; rewrite (Z.eqb_sym p 1), (Z.eqb_sym p 2), (Z.eqb_sym p 5); reflexivity).
    assert (Z0 : forall p, In 0 (path_dom Z.eqb td (a_in arch5) p)).
    { intros p. unfold path_dom. rewrite L. destruct (p =? 1), (p =? 2), (p =? 5); vm_compute; auto. }
    intros v. unfold d0. destruct v as [p|p|p| | | |p|p]; cbn [dom]; try (vm_compute; auto; fail); try apply Z0.
    + destruct (Z.eq_dec p 2) as [->|N]; [vm_compute; auto|].
      replace (r5 (VLeaf p)) with 0 by (destruct p as [|[|[]|]|]; cbn [r5]; congruence). apply Z0.
    + unfold path_dom. cbn [not1 i_in dget r5]. destruct (Z.eqb _ _); vm_compute; auto.
Qed.

(** The solution of C38_full_refuted: its value for the constrained input 2 is
    forbidden, and the rule works for all allowed values. *)
Example C69_case :
  let a := arch1 [(2, [0])] in
  arch_ok snd a fs1 (fun _ _ => true) /\ arch_ext a /\ instr_ok id1 /\ constr_ok td a /\ inhabited_types td tagd a id1 /\
  a_has_const a = true /\ in_all_forms Z.eqb snd a /\
  implementable Z.eqb snd td a id1 fs1 (fun _ _ => true) /\
  satisfiable Z.eqb teqb td tagd OneHot a id1 (simple0 a id1) /\ r1 (VLeaf 2) = 1 /\
  exists y phi ru, expanded0 a id1 = Ok (BForm y phi) /\ (forall vs, solves (d0 a id1) y (mkform vs phi) r1) /\
    rr_from_solver Z.eqb teqb snd OneHot a id1 r1 = Ok ru /\ correct_any snd td a id1 fs1 ru.
Proof.
  intros a. pose proof (arch1_okc 2 ltac:(auto)) as A. split; [exact A|]. split; [apply arch1_ext|]. split; [exact id1_ok|].
  assert (Co : constr_ok td a).
  { intros p zs [[= <- <-]|[]]. split; [discriminate|]. intros t z I [<-|[]]. apply in_bits; auto. revert I. cbn.
    intros I. repeat (destruct I as [I|I]; [inversion I; reflexivity|]). destruct I. }
  split; [exact Co|].
  assert (Ih : inhabited_types td tagd a id1).
  { apply inhabited0; [flat_tac|]. intros [|[|fi]] f p z E; try (destruct fi; discriminate); injection E as <-;
      intros [[= <- <-]|[]]; auto. }
  split; [exact Ih|]. split; [reflexivity|].
  assert (Al : in_all_forms Z.eqb snd a).
  { intros p fi f [<-|[]] _ E. destruct fi as [|[|fi]]; [| |destruct fi; discriminate]; injection E as <-; cbn; auto. }
  split; [exact Al|].
  destruct (unlucky _ (or_introl eq_refl)) as (y & phi & B & Sol).
  pose proof (r1_sorted a id1 ltac:(cbn; auto)) as S.
  assert (M : implementable Z.eqb snd td a id1 fs1 (fun _ _ => true)).
  { apply (C69_expanded_partial _ _ Z.eqb teqb snd eqs_ok td tagd OneHot a id1 fs1 _ A (arch1_ext _) id1_ok Ih Co eq_refl).
    exists y, phi, r1. auto. }
  split; [exact M|]. split.
  { apply (C69_simple_partial _ _ Z.eqb teqb snd eqs_ok td tagd OneHot a id1 fs1 (fun _ _ => true) A (arch1_ext _) id1_ok Ih Co eq_refl); auto.
    - discriminate.
    - flat_tac. }
  split; [reflexivity|].
  destruct (C69_rule_expanded _ _ Z.eqb teqb snd eqs_ok td tagd OneHot a id1 fs1 _ A (arch1_ext _) id1_ok Co y phi [] r1 B S (Sol []))
    as (ru & R & _ & _ & _ & C).
  exists y, phi, ru. auto.
Qed.

Print Assumptions C69_rule_expanded.
Print Assumptions C69_rule_simple_partial.
Print Assumptions C69_expanded_partial.
Print Assumptions C69_simple_partial.
Print Assumptions C69_solve_partial.
Print Assumptions C69_full_refuted.
Print Assumptions C69_simple_vacuous_refuted.
Print Assumptions C69_case.
