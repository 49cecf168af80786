(** C38-C42: rules read off the synthesis formulas. *)
From Coq Require Import ZArith List Bool Lia Permutation.
From Verif Require Import Base BaseLemmas BindModel BindProps MapIdxModel MapIdxProps CegisModel CegisProps MapModel MapProofs MapMain.
Import ListNotations.
Open Scope list_scope.
Open Scope Z_scope.

(** Equality tests decide equality. *)
Definition eqs {P T : Type} (peqb : P -> P -> bool) (teqb : T -> T -> bool) : Prop :=
  (forall a b, peqb a b = true <-> a = b) /\ (forall a b, teqb a b = true <-> a = b).

(** Non-Const constrained inputs happen to have allowed values in the model. *)
Definition lucky {P T} (peqb : P -> P -> bool) (isconst : T -> bool) (a : arch P T) (r : val P) : Prop :=
  forall p zs, In (p, zs) (a_constr a) -> is_const peqb isconst a p = false -> In (r (VLeaf p)) zs.

Definition mkform {P} (vs : list (var P)) (phi : val P -> bool) : form (var P) :=
  {| CegisModel.fv := vs; sem := phi |}.

(** * C38 *)

(** Full property: every solution of the expanded formula gives a correct rule. *)
Definition C38_full : Prop :=
  forall (P T : Type) (peqb : P -> P -> bool) (teqb : T -> T -> bool) (isconst : T -> bool), eqs peqb teqb ->
  forall td tagd k (a : arch P T) i fs fv, arch_ok isconst a fs fv -> instr_ok i ->
  forall y phi vs r, build_expanded peqb teqb isconst k a i = Ok (BForm y phi) ->
    sorted (dom peqb teqb td tagd k a i) r -> solves (dom peqb teqb td tagd k a i) y (mkform vs phi) r ->
    exists ru, rr_from_solver peqb teqb isconst k a i r = Ok ru /\ well_formed peqb isconst a i ru /\
      valid_consts td a fv ru /\ correct td a i fs ru.

(** Missing for C38: models whose value for a constrained input that is not
    Const is not allowed; the formula does not mention this variable. *)
Theorem C38_expanded_partial :
  forall (P T : Type) (peqb : P -> P -> bool) (teqb : T -> T -> bool) (isconst : T -> bool), eqs peqb teqb ->
  forall td tagd k (a : arch P T) i fs fv, arch_ok isconst a fs fv -> instr_ok i ->
  forall y phi vs r, build_expanded peqb teqb isconst k a i = Ok (BForm y phi) ->
    sorted (dom peqb teqb td tagd k a i) r -> solves (dom peqb teqb td tagd k a i) y (mkform vs phi) r ->
    lucky peqb isconst a r ->
    exists ru, rr_from_solver peqb teqb isconst k a i r = Ok ru /\ well_formed peqb isconst a i ru /\
      valid_consts td a fv ru /\ correct td a i fs ru.
Proof.
  intros P T peqb teqb isconst [Hp Ht] td tagd k a i fs fv Ha Hi y phi vs r B S Sol L.
  destruct (expanded_sound peqb teqb isconst Hp Ht td k a i fs fv Ha Hi tagd y phi vs r B S Sol) as (ru & R & W & _ & C).
  exists ru. destruct (C L). auto.
Qed.

(** The whole way through the solving strategies. [vs] are the free variables
    of the formula. *)
Theorem C38_solve_partial :
  forall (P T : Type) (peqb : P -> P -> bool) (teqb : T -> T -> bool) (isconst : T -> bool), eqs peqb teqb ->
  forall td tagd k (a : arch P T) i fs fv, arch_ok isconst a fs fv -> instr_ok i ->
  (forall p zs, In (p, zs) (a_constr a) -> is_const peqb isconst a p = true) ->
  forall y phi vs, build_expanded peqb teqb isconst k a i = Ok (BForm y phi) -> wf (mkform vs phi) ->
  let d := dom peqb teqb td tagd k a i in
  forall solve_or model_or forall_or, solver_ok d solve_or -> model_ok d model_or -> forall_ok d forall_or ->
  forall fuel maxloops init r c, Forall (sorted d) init ->
    external_loop_solve (var_eqb peqb) solve_or model_or fuel y (mkform vs phi) maxloops init = (ODone r, c) \/
    direct_solve forall_or y (mkform vs phi) = ODone r ->
    exists ru, rr_from_solver peqb teqb isconst k a i r = Ok ru /\ well_formed peqb isconst a i ru /\
      valid_consts td a fv ru /\ correct td a i fs ru.
Proof.
  intros P T peqb teqb isconst [Hp Ht] td tagd k a i fs fv Ha Hi Nc y phi vs B W d so mo fo Hs Hm Hf fuel m init r c Fi H.
  assert (sorted d r /\ solves d y (mkform vs phi) r) as [S Sol].
  { destruct H as [H|H].
    - eapply C35_cegis_sound; eauto. apply var_eqb_eq. exact Hp.
    - eapply C35_direct_sound; eauto. }
  apply (C38_expanded_partial P T peqb teqb isconst (conj Hp Ht) td tagd k a i fs fv Ha Hi y phi vs r B S Sol).
  intros p zs I C. rewrite (Nc p zs I) in C. discriminate.
Qed.

(** * C39 *)
Definition C39_full : Prop :=
  forall (P T : Type) (peqb : P -> P -> bool) (teqb : T -> T -> bool) (isconst : T -> bool), eqs peqb teqb ->
  forall td tagd k (a : arch P T) i fs fv, arch_ok isconst a fs fv -> instr_ok i ->
  forall y phi vs r, build_simple peqb teqb isconst k a i = Ok (BForm y phi) ->
    sorted (dom peqb teqb td tagd k a i) r -> solves (dom peqb teqb td tagd k a i) y (mkform vs phi) r ->
    exists ru, rr_from_solver peqb teqb isconst k a i r = Ok ru /\ well_formed peqb isconst a i ru /\
      valid_consts td a fv ru /\ correct td a i fs ru.

(** Missing for C39: constrained inputs that are not Const, and IR instructions
    with Const inputs when a variable is bound in one candidate and constant in
    another. *)
Theorem C39_simple_partial :
  forall (P T : Type) (peqb : P -> P -> bool) (teqb : T -> T -> bool) (isconst : T -> bool), eqs peqb teqb ->
  forall td tagd k (a : arch P T) i fs fv, arch_ok isconst a fs fv -> instr_ok i ->
  (forall p t, In (p, t) (i_in i) -> isconst t = false) ->
  forall y phi vs r, build_simple peqb teqb isconst k a i = Ok (BForm y phi) ->
    sorted (dom peqb teqb td tagd k a i) r -> solves (dom peqb teqb td tagd k a i) y (mkform vs phi) r ->
    lucky peqb isconst a r ->
    exists ru, rr_from_solver peqb teqb isconst k a i r = Ok ru /\ well_formed peqb isconst a i ru /\
      valid_consts td a fv ru /\ correct td a i fs ru.
Proof.
  intros P T peqb teqb isconst [Hp Ht] td tagd k a i fs fv Ha Hi Nc y phi vs r B S Sol L.
  destruct (simple_sound peqb teqb isconst Hp Ht td k a i fs fv Ha Hi tagd y phi vs r B S Sol) as (ru & R & W & V & _ & C).
  exists ru. rewrite <- R. split; [|auto].
  apply (rr_ext peqb teqb isconst k a i). intros v. symmetry.
  apply (overlap_sub_id peqb teqb isconst k a i).
  exact (no_overlap peqb teqb isconst Hp Ht a i fs fv Ha Hi Nc).
Qed.

(** With Const inputs of the IR instruction too, the formula itself is sound:
    the rule is correct when overlapping constants are read from the variable
    that replaced them. *)
Theorem C39_substituted :
  forall (P T : Type) (peqb : P -> P -> bool) (teqb : T -> T -> bool) (isconst : T -> bool), eqs peqb teqb ->
  forall td tagd k (a : arch P T) i fs fv, arch_ok isconst a fs fv -> instr_ok i ->
  forall y phi vs r, build_simple peqb teqb isconst k a i = Ok (BForm y phi) ->
    sorted (dom peqb teqb td tagd k a i) r -> solves (dom peqb teqb td tagd k a i) y (mkform vs phi) r ->
    lucky peqb isconst a r ->
    exists ru, rr_from_solver peqb teqb isconst k a i (overlap_sub peqb teqb isconst k a i r) = Ok ru /\
      well_formed peqb isconst a i ru /\ valid_consts td a fv ru /\ correct td a i fs ru.
Proof.
  intros P T peqb teqb isconst [Hp Ht] td tagd k a i fs fv Ha Hi y phi vs r B S Sol L.
  destruct (simple_sound peqb teqb isconst Hp Ht td k a i fs fv Ha Hi tagd y phi vs r B S Sol) as (ru & R & W & V & _ & C).
  exists ru. auto.
Qed.

(** * C40 *)

(** A rule exists: well formed, valid and allowed constants, correct for every
    allowed value of the constrained inputs. *)
Definition implementable {P T} (peqb : P -> P -> bool) (isconst : T -> bool) td (a : arch P T) i fs fv : Prop :=
  exists ru, well_formed peqb isconst a i ru /\ valid_consts td a fv ru /\ allowed_consts a ru /\
             correct_any isconst td a i fs ru.

(** Types have values; tags of the forms are values of their tag variables. *)
Definition inhabited_types {P T} (td : T -> list Z) (tagd : P -> list Z) (a : arch P T) (i : instr P T) : Prop :=
  (forall p t, In (p, t) (i_in i) -> td t <> []) /\ (forall p, tagd p <> []) /\
  (forall fi f p z, nth_error (a_forms a) fi = Some f -> In (p, z) (snd f) -> In z (tagd p)).

Definition satisfiable {P T} (peqb : P -> P -> bool) (teqb : T -> T -> bool) td tagd k a i (b : res (built P)) : Prop :=
  exists y phi r, b = Ok (BForm y phi) /\ sorted (dom peqb teqb td tagd k a i) r /\
    forall vs, solves (dom peqb teqb td tagd k a i) y (mkform vs phi) r.

Definition C40_full : Prop :=
  forall (P T : Type) (peqb : P -> P -> bool) (teqb : T -> T -> bool) (isconst : T -> bool), eqs peqb teqb ->
  forall td tagd k (a : arch P T) i fs fv, arch_ok isconst a fs fv -> instr_ok i -> inhabited_types td tagd a i -> constr_ok td a ->
    implementable peqb isconst td a i fs fv ->
    satisfiable peqb teqb td tagd k a i (build_expanded peqb teqb isconst k a i) /\
    satisfiable peqb teqb td tagd k a i (build_simple peqb teqb isconst k a i).

(** Missing for C40: architectures without a Const input, and for the simple
    formula instructions without outputs or with Const inputs. *)
Theorem C40_expanded_partial :
  forall (P T : Type) (peqb : P -> P -> bool) (teqb : T -> T -> bool) (isconst : T -> bool), eqs peqb teqb ->
  forall td tagd k (a : arch P T) i fs fv, arch_ok isconst a fs fv -> instr_ok i -> inhabited_types td tagd a i -> constr_ok td a ->
    a_has_const a = true ->
    implementable peqb isconst td a i fs fv ->
    satisfiable peqb teqb td tagd k a i (build_expanded peqb teqb isconst k a i).
Proof.
  intros P T peqb teqb isconst [Hp Ht] td tagd k a i fs fv Ha Hi (I1 & I2 & I3) Hc Hh (ru & W & V & A & C).
  destruct (expanded_complete peqb teqb isconst Hp Ht td k a i fs fv Ha Hi tagd I1 I2 I3 Hc ru [] Hh W V A C) as (y & phi & r & B & S & Sol).
  exists y, phi, r. split; auto.
Qed.

Theorem C40_simple_partial :
  forall (P T : Type) (peqb : P -> P -> bool) (teqb : T -> T -> bool) (isconst : T -> bool), eqs peqb teqb ->
  forall td tagd k (a : arch P T) i fs fv, arch_ok isconst a fs fv -> instr_ok i -> inhabited_types td tagd a i -> constr_ok td a ->
    a_has_const a = true -> i_out i <> [] -> (forall p t, In (p, t) (i_in i) -> isconst t = false) ->
    implementable peqb isconst td a i fs fv ->
    satisfiable peqb teqb td tagd k a i (build_simple peqb teqb isconst k a i).
Proof.
  intros P T peqb teqb isconst [Hp Ht] td tagd k a i fs fv Ha Hi (I1 & I2 & I3) Hc Hh Ho Nc (ru & W & V & A & C).
  destruct (simple_complete peqb teqb isconst Hp Ht td k a i fs fv Ha Hi tagd I1 I2 I3 Hc ru [] Hh Ho Nc W V A C) as (y & phi & r & B & S & Sol).
  exists y, phi, r. split; auto.
Qed.

(** So no strategy answers None for a satisfiable formula. *)
Theorem C40_not_none :
  forall (P T : Type) (peqb : P -> P -> bool) (teqb : T -> T -> bool), eqs peqb teqb ->
  forall td tagd k (a : arch P T) i b, satisfiable peqb teqb td tagd k a i b ->
  let d := dom peqb teqb td tagd k a i in
  exists y phi, b = Ok (BForm y phi) /\
  forall vs, wf (mkform vs phi) ->
  forall solve_or model_or forall_or, solver_ok d solve_or -> model_ok d model_or -> forall_ok d forall_or ->
  forall fuel maxloops init, Forall (sorted d) init ->
    fst (external_loop_solve (var_eqb peqb) solve_or model_or fuel y (mkform vs phi) maxloops init) <> ONone /\
    direct_solve forall_or y (mkform vs phi) <> ONone.
Proof.
  intros P T peqb teqb [Hp Ht] td tagd k a i b (y & phi & r & B & S & Sol) d. exists y, phi. split; [exact B|].
  intros vs W so mo fo Hs Hm Hf fuel m init Fi. split.
  - destruct (external_loop_solve _ so mo fuel y (mkform vs phi) m init) as [o c] eqn:E. cbn [fst]. intros ->.
    exact (C36_cegis_none _ _ d (var_eqb_eq peqb Hp) so mo Hs Hm y _ W fuel m init c Fi E r S (Sol vs)).
  - intros E. exact (C36_direct_none _ d fo Hf y _ W E r S (Sol vs)).
Qed.

(** * C41 *)
Definition C41_full : Prop :=
  forall (P T : Type) (peqb : P -> P -> bool) (teqb : T -> T -> bool) (isconst : T -> bool), eqs peqb teqb ->
  forall td tagd k (a : arch P T) i fs fv, arch_ok isconst a fs fv -> instr_ok i ->
  forall y phi vs r,
    build_expanded peqb teqb isconst k a i = Ok (BForm y phi) \/ build_simple peqb teqb isconst k a i = Ok (BForm y phi) ->
    sorted (dom peqb teqb td tagd k a i) r -> solves (dom peqb teqb td tagd k a i) y (mkform vs phi) r ->
    exists ru, rr_from_solver peqb teqb isconst k a i r = Ok ru /\
      forall p zs, In (p, zs) (a_constr a) -> forall s, In (s, p) (r_in ru) -> exists z, s = SVal z /\ In z zs.

(** Missing for C41: constrained inputs that are not Const; for the simple
    formula also instructions with Const inputs. *)
Theorem C41_const_partial :
  forall (P T : Type) (peqb : P -> P -> bool) (teqb : T -> T -> bool) (isconst : T -> bool), eqs peqb teqb ->
  forall td tagd k (a : arch P T) i fs fv, arch_ok isconst a fs fv -> instr_ok i ->
  forall y phi vs r,
    build_expanded peqb teqb isconst k a i = Ok (BForm y phi) \/
    build_simple peqb teqb isconst k a i = Ok (BForm y phi) /\ (forall p t, In (p, t) (i_in i) -> isconst t = false) ->
    sorted (dom peqb teqb td tagd k a i) r -> solves (dom peqb teqb td tagd k a i) y (mkform vs phi) r ->
    exists ru, rr_from_solver peqb teqb isconst k a i r = Ok ru /\
      forall p t zs, In (p, zs) (a_constr a) -> In (p, t) (a_in a) -> isconst t = true ->
        forall s, In (s, p) (r_in ru) -> exists z, s = SVal z /\ In z zs.
Proof.
  intros P T peqb teqb isconst [Hp Ht] td tagd k a i fs fv Ha Hi y phi vs r B S Sol.
  assert (X : exists ru, rr_from_solver peqb teqb isconst k a i r = Ok ru /\ well_formed peqb isconst a i ru /\
      (forall p zs z, In (p, zs) (a_constr a) -> is_const peqb isconst a p = true -> In (SVal z, p) (r_in ru) -> In z zs)).
  { destruct B as [B|[B Nc]].
    - destruct (expanded_sound peqb teqb isconst Hp Ht td k a i fs fv Ha Hi tagd y phi vs r B S Sol) as (ru & R & W & A & _). eauto.
    - destruct (simple_sound peqb teqb isconst Hp Ht td k a i fs fv Ha Hi tagd y phi vs r B S Sol) as (ru & R & W & _ & A & _).
      exists ru. rewrite <- R. split; [|auto].
      apply (rr_ext peqb teqb isconst k a i). intros v. symmetry. apply (overlap_sub_id peqb teqb isconst k a i).
      exact (no_overlap peqb teqb isconst Hp Ht a i fs fv Ha Hi Nc). }
  destruct X as (ru & R & (f & _ & _ & _ & Wc & _) & A). exists ru. split; [exact R|].
  intros p t zs I J C s K. destruct (Wc s p K ltac:(now apply (in_map fst) in I)) as (z & ->). exists z. split; auto.
  eapply A; eauto. now rewrite (is_const_eq peqb isconst Hp a fs fv Ha _ _ J).
Qed.

(** * C42 *)

(** Full property: the constants in the rule are valid, as the formula demands
    of those it was solved for, and they are the values the formula was
    evaluated with. *)
Definition C42_full : Prop :=
  forall (P T : Type) (peqb : P -> P -> bool) (teqb : T -> T -> bool) (isconst : T -> bool), eqs peqb teqb ->
  forall td tagd k (a : arch P T) i fs fv, arch_ok isconst a fs fv -> instr_ok i ->
  forall y phi vs r, build_simple peqb teqb isconst k a i = Ok (BForm y phi) ->
    sorted (dom peqb teqb td tagd k a i) r -> solves (dom peqb teqb td tagd k a i) y (mkform vs phi) r ->
    exists ru, rr_from_solver peqb teqb isconst k a i r = Ok ru /\ valid_consts td a fv ru.

(** Missing for C42: instructions with Const inputs. *)
Theorem C42_partial :
  forall (P T : Type) (peqb : P -> P -> bool) (teqb : T -> T -> bool) (isconst : T -> bool), eqs peqb teqb ->
  forall td tagd k (a : arch P T) i fs fv, arch_ok isconst a fs fv -> instr_ok i ->
  (forall p t, In (p, t) (i_in i) -> isconst t = false) ->
  forall y phi vs r, build_simple peqb teqb isconst k a i = Ok (BForm y phi) ->
    sorted (dom peqb teqb td tagd k a i) r -> solves (dom peqb teqb td tagd k a i) y (mkform vs phi) r ->
    exists ru, rr_from_solver peqb teqb isconst k a i r = Ok ru /\ valid_consts td a fv ru.
Proof.
  intros P T peqb teqb isconst [Hp Ht] td tagd k a i fs fv Ha Hi Nc y phi vs r B S Sol.
  destruct (simple_sound peqb teqb isconst Hp Ht td k a i fs fv Ha Hi tagd y phi vs r B S Sol) as (ru & R & W & V & _ & C).
  exists ru. rewrite <- R. split; [|auto].
  apply (rr_ext peqb teqb isconst k a i). intros v. symmetry.
  apply (overlap_sub_id peqb teqb isconst k a i).
  exact (no_overlap peqb teqb isconst Hp Ht a i fs fv Ha Hi Nc).
Qed.

(** * Instances *)
Module Inst.
  (** Paths are numbers, a type is a width and a Const flag. *)
  Definition T := (Z * bool)%type.
  Definition teqb (x y : T) : bool := (fst x =? fst y) && Bool.eqb (snd x) (snd y).
  Definition td (t : T) : list Z := pyrange 0 (2 ^ fst t).
  Definition tagd (p : Z) : list Z := [0; 1].

  Lemma eqs_ok : eqs Z.eqb teqb.
  Proof.
    split; [intros; apply Z.eqb_eq|]. intros [a b] [c d]. unfold teqb. cbn [fst snd].
    rewrite andb_true_iff, Z.eqb_eq, Bool.eqb_true_iff. split; [intros [-> ->]; auto|intros [= -> ->]; auto].
  Qed.

  (** Two data inputs 1 and 2, a Const sum 9 with members 3 and 4; form 0 adds
      its constant 3 to the sum of the data, form 1 multiplies. *)
  Definition fs1 (fi : nat) (l : Z -> Z) (q : Z) : Z :=
    match fi with O => (l 1 + l 2 + l 3) mod 2 | _ => (l 1 * l 2 * l 4) mod 2 end.
  Definition arch1 (cs : list (Z * list Z)) : arch Z T :=
    {| a_forms := [([1; 2; 3], [(9, 0)]); ([1; 2; 4], [(9, 1)])];
       a_in := [(1, (1, false)); (2, (1, false)); (3, (1, true)); (4, (1, true))];
       a_out := [(20, (1, false))];
       a_constr := cs; a_has_const := true;
       a_fsem := fun fi _ l q => fs1 fi l q;
       a_sem := fun tags l q => if tags 9 =? 0 then fs1 0 l q else fs1 1 l q;
       a_fvalid := fun _ _ _ => true; a_valid := fun _ _ => true |}.

  Lemma arch1_ok cs : NoDup (map fst cs) -> incl (map fst cs) [1; 2; 3; 4] -> arch_ok snd (arch1 cs) fs1 (fun _ _ => true).
  Proof.
    intros N I. constructor; cbn [arch1 a_forms a_in a_out a_constr a_fsem a_sem a_fvalid a_valid]; auto.
    - repeat constructor; cbn; intuition lia.
    - repeat constructor; cbn; intuition lia.
    - intros [|[|fi]] f E; try (destruct fi; discriminate); injection E as <-; intros x; cbn; intuition lia.
    - intros [|[|fi]] f E; try (destruct fi; discriminate); injection E as <-; repeat constructor; cbn; intuition lia.
    - intros [|[|fi]] f tags l q E H; try (destruct fi; discriminate); injection E as <-;
        pose proof (H _ (or_introl eq_refl)) as X; cbn [fst snd] in X; rewrite X; reflexivity.
    - intros [|[|fi]] f l l' q E H; try (destruct fi; discriminate); injection E as <-; cbn [fst snd fs1] in *;
        rewrite !H by (cbn; auto); reflexivity.
  Qed.

  (** The IR instruction: exclusive or of two bits. *)
  Definition xor1 : instr Z T :=
    {| i_in := [(11, (1, false)); (12, (1, false))]; i_out := [(21, (1, false))]; i_sem := fun x q => (x 11 + x 12) mod 2 |}.
  Lemma xor1_ok : instr_ok xor1.
  Proof.
    constructor; [repeat constructor; cbn; intuition lia..|].
    intros x x' q H. cbn [xor1 i_sem]. erewrite !H by (cbn; eauto). reflexivity.
  Qed.

  (** Identity on one bit. *)
  Definition id1 : instr Z T :=
    {| i_in := [(11, (1, false))]; i_out := [(21, (1, false))]; i_sem := fun x q => x 11 |}.
  Lemma id1_ok : instr_ok id1.
  Proof.
    constructor; [repeat constructor; cbn; intuition lia..|].
    intros x x' q H. cbn [id1 i_sem]. erewrite !H by (cbn; eauto). reflexivity.
  Qed.

  (** A model: form 0, first bindings, constant 3 is 0, data 2 is 1. *)
  Definition r1 (v : var Z) : Z :=
    match v with VFi | VBi | VBo => 1 | VLeaf 2 => 1 | _ => 0 end.

  Lemma bit (s : val Z) a i p t : sorted (dom Z.eqb teqb td tagd OneHot a i) s -> dget Z.eqb (a_in a) p = Some t -> fst t = 1 ->
    s (VLeaf p) = 0 \/ s (VLeaf p) = 1.
  Proof.
    intros S E F. specialize (S (VLeaf p)). cbn [dom] in S. unfold path_dom in S. rewrite E in S.
    unfold td in S. rewrite F in S. apply pyrange_In in S. change (2 ^ 1) with 2 in S. lia.
  Qed.
  Lemma ibit (s : val Z) a i p t : sorted (dom Z.eqb teqb td tagd OneHot a i) s -> dget Z.eqb (i_in i) p = Some t -> fst t = 1 ->
    s (VIr p) = 0 \/ s (VIr p) = 1.
  Proof.
    intros S E F. specialize (S (VIr p)). cbn [dom] in S. unfold path_dom in S. rewrite E in S.
    unfold td in S. rewrite F in S. apply pyrange_In in S. change (2 ^ 1) with 2 in S. lia.
  Qed.

  Lemma arch1_ext cs : arch_ext (arch1 cs).
  Proof.
    intros tags tags' l l' Et El. cbn [arch1 a_fsem a_sem a_fvalid a_valid].
    assert (E : forall fi q, fs1 fi l q = fs1 fi l' q).
    { intros [|fi] q; cbn [fs1]; rewrite !El by (cbn; auto); reflexivity. }
    repeat split; auto. intros q. rewrite (Et 9) by (cbn; auto). destruct (tags' 9 =? 0); auto.
  Qed.

  (** Valuations given by tables. *)
  Fixpoint tab (l : list (var Z * Z)) (v : var Z) : Z :=
    match l with [] => 0 | (u, z) :: l' => if var_eqb Z.eqb v u then z else tab l' v end.

  Lemma tab_agree (s : val Z) vs v : In v vs -> s v = tab (map (fun u => (u, s u)) vs) v.
  Proof.
    induction vs as [|u vs IH]; [intros []|]. cbn [map tab]. intros I.
    destruct (var_eqb Z.eqb v u) eqn:E; [apply (var_eqb_eq Z.eqb Z.eqb_eq) in E; now subst|].
    destruct I as [->|I]; auto. rewrite (proj2 (var_eqb_eq Z.eqb Z.eqb_eq v v) eq_refl) in E. discriminate.
  Qed.

  (** Two constants 3 and 5 of the same type; 5 must be 0. *)
  Definition fs2 (fi : nat) (l : Z -> Z) (q : Z) : Z := (l 1 + l 3 + l 5) mod 2.
  Definition fv2 (fi : nat) (l : Z -> Z) : bool := l 5 =? 0.
  Definition arch2 : arch Z T :=
    {| a_forms := [([1; 3; 5], [])];
       a_in := [(1, (1, false)); (3, (1, true)); (5, (1, true))];
       a_out := [(20, (1, false))];
       a_constr := []; a_has_const := true;
       a_fsem := fun fi _ l q => fs2 fi l q; a_sem := fun _ l q => fs2 0 l q;
       a_fvalid := fun fi _ l => fv2 fi l; a_valid := fun _ l => fv2 0 l |}.

  Lemma arch2_ok : arch_ok snd arch2 fs2 fv2.
  Proof.
    constructor; cbn [arch2 a_forms a_in a_out a_constr a_fsem a_sem a_fvalid a_valid]; auto; try (now repeat constructor; cbn; intuition lia); try (now intros x []).
    - intros [|fi] f E; try (destruct fi; discriminate); injection E as <-; intros x; cbn; intuition lia.
    - intros [|fi] f E; try (destruct fi; discriminate); injection E as <-; constructor.
    - intros [|fi] f l l' q E H; try (destruct fi; discriminate). injection E as <-. unfold fs2. cbn [fst] in H.
      rewrite !H by (cbn; auto). reflexivity.
    - intros [|fi] f l l' E H; try (destruct fi; discriminate). injection E as <-. unfold fv2. cbn [fst] in H.
      rewrite (H 5 (1, true)) by (cbn; auto). reflexivity.
  Qed.

  Lemma arch2_ext : arch_ext arch2.
  Proof.
    intros tags tags' l l' Et El. cbn [arch2 a_fsem a_sem a_fvalid a_valid]. unfold fs2, fv2.
    rewrite !El by (cbn; auto). auto.
  Qed.

  (** Adding a Const input. *)
  Definition addc : instr Z T :=
    {| i_in := [(11, (1, false)); (13, (1, true))]; i_out := [(21, (1, false))]; i_sem := fun x q => (x 11 + x 13) mod 2 |}.
  Lemma addc_ok : instr_ok addc.
  Proof.
    constructor; [repeat constructor; cbn; intuition lia..|].
    intros x x' q H. cbn [addc i_sem]. erewrite !H by (cbn; eauto). reflexivity.
  Qed.

  (** A model: 13 bound to 3, the constant 5 solved to be 0 ([VEx 5]), the
      variable no longer used, [VLeaf 5], is 1. *)
  Definition r2 (v : var Z) : Z :=
    match v with VFi | VBi | VBo => 1 | VLeaf 5 => 1 | _ => 0 end.

  (** Only the value 0 of the constant 3 is valid. *)
  Definition fs3 (fi : nat) (l : Z -> Z) (q : Z) : Z := (l 1 + l 3) mod 2.
  Definition fv3 (fi : nat) (l : Z -> Z) : bool := l 3 =? 0.
  Definition arch3 : arch Z T :=
    {| a_forms := [([1; 3], [])];
       a_in := [(1, (1, false)); (3, (1, true))];
       a_out := [(20, (1, false))];
       a_constr := []; a_has_const := true;
       a_fsem := fun fi _ l q => fs3 fi l q; a_sem := fun _ l q => fs3 0 l q;
       a_fvalid := fun fi _ l => fv3 fi l; a_valid := fun _ l => fv3 0 l |}.
  Lemma arch3_ok : arch_ok snd arch3 fs3 fv3.
  Proof.
    constructor; cbn [arch3 a_forms a_in a_out a_constr a_fsem a_sem a_fvalid a_valid]; auto; try (now repeat constructor; cbn; intuition lia); try (now intros x []).
    - intros [|fi] f E; try (destruct fi; discriminate); injection E as <-; intros x; cbn; intuition lia.
    - intros [|fi] f E; try (destruct fi; discriminate); injection E as <-; constructor.
    - intros [|fi] f l l' q E H; try (destruct fi; discriminate). injection E as <-. unfold fs3. cbn [fst] in H.
      rewrite !H by (cbn; auto). reflexivity.
    - intros [|fi] f l l' E H; try (destruct fi; discriminate). injection E as <-. unfold fv3. cbn [fst] in H.
      rewrite (H 3 (1, true)) by (cbn; auto). reflexivity.
  Qed.

  Lemma arch3_ext : arch_ext arch3.
  Proof.
    intros tags tags' l l' Et El. cbn [arch3 a_fsem a_sem a_fvalid a_valid]. unfold fs3, fv3.
    rewrite !El by (cbn; auto). auto.
  Qed.

  (** No Const input at all. *)
  Definition arch4 : arch Z T :=
    {| a_forms := [([1], [])]; a_in := [(1, (1, false))]; a_out := [(20, (1, false))];
       a_constr := []; a_has_const := false;
       a_fsem := fun _ _ l q => l 1; a_sem := fun _ l q => l 1;
       a_fvalid := fun _ _ _ => true; a_valid := fun _ _ => true |}.
  Lemma arch4_ok : arch_ok snd arch4 (fun _ l _ => l 1) (fun _ _ => true).
  Proof.
    constructor; cbn [arch4 a_forms a_in a_out a_constr a_fsem a_sem a_fvalid a_valid]; auto; try (now repeat constructor; cbn; intuition lia); try (now intros x []).
    - intros [|fi] f E; try (destruct fi; discriminate); injection E as <-; intros x; cbn; intuition lia.
    - intros [|fi] f E; try (destruct fi; discriminate); injection E as <-; constructor.
    - intros [|fi] f l l' q E H; try (destruct fi; discriminate). injection E as <-. apply H. now left.
  Qed.

  Ltac sort_tac :=
    intros v; cbn [dom]; unfold path_dom, tagd, td;
    repeat match goal with |- context [match ?v with VLeaf _ => _ | _ => _ end] => destruct v end.

  Lemma in_bits z : z = 0 \/ z = 1 -> forall t, fst t = 1 -> In z (td t).
  Proof. intros H t E. unfold td. rewrite E. apply pyrange_In. change (2 ^ 1) with 2. lia. Qed.

  (** A valuation by zeros and ones is well sorted for one-bit types. *)
  Lemma bits_sorted k (a : arch Z T) (i : instr Z T) (r : val Z) : (forall v, r v = 0 \/ r v = 1) ->
    (forall p, r (VLeaf p) = 0 \/ In p (map fst (a_in a))) ->
    (forall p, r (VAll p) = 0) -> (forall p, r (VEx p) = 0) -> (forall p, r (VIr p) = 0) ->
    (forall p t, In (p, t) (a_in a) \/ In (p, t) (i_in i) -> fst t = 1) ->
    In (r VFi) (dom Z.eqb teqb td tagd k a i VFi) -> In (r VBi) (dom Z.eqb teqb td tagd k a i VBi) ->
    In (r VBo) (dom Z.eqb teqb td tagd k a i VBo) ->
    sorted (dom Z.eqb teqb td tagd k a i) r.
  Proof.
    intros H L A E I W F1 F2 F3.
    assert (Z0 : forall (flat : list (Z * T)) p, (forall p t, In (p, t) flat -> fst t = 1) -> In 0 (path_dom Z.eqb td flat p)).
    { intros flat p Wf. unfold path_dom. destruct (dget Z.eqb flat p) as [t|] eqn:Et; [|now left].
      apply (dget_In Z.eqb Z.eqb_eq) in Et. apply in_bits; eauto. }
    intros [p|p|p| | | |p|p]; auto; cbn [dom].
    - destruct (L p) as [->|J]; [apply Z0; eauto|]. unfold path_dom.
      destruct (dget Z.eqb (a_in a) p) as [t|] eqn:Et.
      + apply (dget_In Z.eqb Z.eqb_eq) in Et. apply in_bits; eauto.
      + apply (dget_None Z.eqb Z.eqb_eq) in Et. contradiction.
    - unfold tagd. destruct (H (VTag p)) as [->| ->]; cbn; auto.
    - rewrite I. apply Z0. eauto.
    - rewrite A. apply Z0. eauto.
    - rewrite E. apply Z0. eauto.
  Qed.
End Inst.
Import Inst.

Ltac bits_tac r :=
  apply bits_sorted;
  [ intros []; cbn [r]; auto; match goal with p : Z |- _ => destruct p as [|[[[]|[]|]|[[]|[]|]|]|]; auto end
  | intros p; cbn; destruct p as [|[[[]|[]|]|[[]|[]|]|]|]; auto 8
  | reflexivity | reflexivity | reflexivity
  | intros p t; cbn; intros [I|I]; repeat (destruct I as [I|I]; [injection I as <- <-; reflexivity|]); destruct I
  | vm_compute; auto | vm_compute; auto | vm_compute; auto ].

Lemma r1_sorted a i : In (a, i) [(arch1 [], xor1); (arch1 [(2, [0])], id1)] ->
  sorted (dom Z.eqb teqb td tagd OneHot a i) r1.
Proof. intros [[= <- <-]|[[= <- <-]|[]]]; bits_tac r1. Qed.
Lemma r2_sorted : sorted (dom Z.eqb teqb td tagd OneHot arch2 addc) r2.
Proof. bits_tac r2. Qed.

(** Solutions of an instance are checked by going through the values of the
    free variables. *)
Fixpoint tabs (d : var Z -> list Z) (y : list (var Z)) (r : val Z) (vs : list (var Z)) : list (list (var Z * Z)) :=
  match vs with
  | [] => [[]]
  | v :: vs' => flat_map (fun t => map (fun z => (v, z) :: t) (if existsb (var_eqb Z.eqb v) y then d v else [r v])) (tabs d y r vs')
  end.

Lemma tabs_In d y r (s : val Z) vs : sorted d s -> (forall v, ~ In v y -> s v = r v) ->
  In (map (fun v => (v, s v)) vs) (tabs d y r vs).
Proof.
  intros S A. induction vs as [|v vs IH]; cbn [map tabs]; [now left|].
  apply in_flat_map. eexists. split; [exact IH|]. apply (in_map (fun z => (v, z) :: map (fun v => (v, s v)) vs)).
  destruct (existsb (var_eqb Z.eqb v) y) eqn:E; [apply S|]. left. symmetry. apply A. intros I.
  assert (X : existsb (var_eqb Z.eqb v) y = true)
    by (apply existsb_exists; exists v; split; auto; now apply (var_eqb_eq Z.eqb Z.eqb_eq)).
  congruence.
Qed.

Definition formula_of (b : res (built Z)) : list (var Z) * (val Z -> bool) :=
  match b with Ok (BForm y phi) => (y, phi) | _ => ([], fun _ => false) end.

Lemma formula_of_eq b : match b with Ok (BForm _ _) => true | _ => false end = true ->
  b = Ok (BForm (fst (formula_of b)) (snd (formula_of b))).
Proof. destruct b as [[|y phi]|]; try discriminate. reflexivity. Qed.

Definition checks (d : var Z -> list Z) (vs0 : list (var Z)) (r : val Z) (b : res (built Z)) : bool :=
  forallb (fun t => snd (formula_of b) (tab t)) (tabs d (fst (formula_of b)) r vs0).

Lemma checks_solves vs0 d y phi vs r :
  wf (mkform vs0 phi) -> checks d vs0 r (Ok (BForm y phi)) = true -> solves d y (mkform vs phi) r.
Proof.
  intros W C s S A. cbn [mkform sem]. unfold checks in C. cbn [formula_of fst snd] in C.
  rewrite forallb_forall in C. rewrite <- (C _ (tabs_In d y r s vs0 S A)).
  apply W. intros v I. now apply tab_agree.
Qed.

Definition d0 a i := dom Z.eqb teqb td tagd OneHot a i.
Definition expanded0 := build_expanded Z.eqb teqb snd OneHot.
Definition simple0 := build_simple Z.eqb teqb snd OneHot.

Lemma solved0 a i fs fv b r : arch_ok snd a fs fv -> instr_ok i -> arch_ext a ->
  b = expanded0 a i \/ b = simple0 a i ->
  match b with Ok (BForm _ _) => true | _ => false end = true ->
  checks (d0 a i) (vars_of a i) r b = true ->
  exists y phi, b = Ok (BForm y phi) /\ forall vs, solves (d0 a i) y (mkform vs phi) r.
Proof.
  intros Ha Hi He B F C. apply formula_of_eq in F. revert F. generalize (fst (formula_of b)), (snd (formula_of b)).
  intros y phi ->. exists y, phi. split; auto. intros vs. apply (checks_solves (vars_of a i)); auto.
  destruct eqs_ok as [Hp Ht].
  destruct B as [B|B]; [eapply expanded_wf|eapply simple_wf]; eauto.
Qed.

Lemma arch1_okc p : p = 2 \/ p = 3 -> arch_ok snd (arch1 [(p, [0])]) fs1 (fun _ _ => true).
Proof.
  intros H. apply arch1_ok; [repeat constructor; cbn; intuition lia|]. intros x; cbn; intuition lia.
Qed.
Lemma arch1_ok0 : arch_ok snd (arch1 []) fs1 (fun _ _ => true).
Proof. apply arch1_ok; [constructor|intros x []]. Qed.

(** The constrained data input 2 must be 0 and is 1 in the model, which the
    formula does not notice. *)
Lemma unlucky b : b = expanded0 (arch1 [(2, [0])]) id1 \/ b = simple0 (arch1 [(2, [0])]) id1 ->
  exists y phi, b = Ok (BForm y phi) /\ forall vs, solves (d0 (arch1 [(2, [0])]) id1) y (mkform vs phi) r1.
Proof.
  intros B. apply (solved0 _ id1 fs1 _ b r1 (arch1_okc 2 ltac:(auto)) id1_ok (arch1_ext _) B);
    destruct B as [-> | ->]; vm_compute; reflexivity.
Qed.

Lemma typed_bits i (l : Z -> Z) : (forall p, l p = 0 \/ l p = 1) -> (forall p t, In (p, t) i -> fst t = 1) -> typed td i l.
Proof. intros H W p t I. apply in_bits; eauto. Qed.

Ltac flat_tac := intros ?p ?t; cbn; intros ?I;
  repeat match goal with I : _ \/ _ |- _ => destruct I as [I|I]; [injection I as <- <-; reflexivity|] end;
  match goal with I : False |- _ => destruct I end.

Theorem C38_full_refuted : ~ C38_full.
Proof.
  intros H. destruct (unlucky _ (or_introl eq_refl)) as (y & phi & B & S).
  destruct (H _ _ Z.eqb teqb snd eqs_ok td tagd OneHot _ id1 fs1 _ (arch1_okc 2 ltac:(auto)) id1_ok y phi [] r1 B
              (r1_sorted _ _ ltac:(cbn; auto)) (S [])) as (ru & R & _ & _ & C).
  vm_compute in R. injection R as <-.
  pose (l := fun p : Z => match p with 2 => 1 | _ => 0 end).
  assert (X : id1.(i_sem) (fun _ => 0) 21 = fs1 0 l 20); [|vm_compute in X; discriminate].
  apply C; [..|now left].
  - apply typed_bits; [auto|flat_tac].
  - apply typed_bits; [|flat_tac]. intros [|[[]|[]|]|]; cbn; auto.
  - intros s p I. cbn in I. repeat (destruct I as [I|I]; [injection I as <- <-; reflexivity|]). destruct I.
Qed.

Theorem C41_full_refuted : ~ C41_full.
Proof.
  intros H. destruct (unlucky _ (or_introl eq_refl)) as (y & phi & B & S).
  destruct (H _ _ Z.eqb teqb snd eqs_ok td tagd OneHot _ id1 fs1 _ (arch1_okc 2 ltac:(auto)) id1_ok y phi [] r1 (or_introl B)
              (r1_sorted _ _ ltac:(cbn; auto)) (S [])) as (ru & R & C).
  vm_compute in R. injection R as <-.
  destruct (C 2 [0] ltac:(now left) (SVal 1) ltac:(cbn; auto)) as (z & [= <-] & [E|[]]). discriminate.
Qed.

(** The same with the simple formula. *)
Theorem C39_constraint_refuted : exists y phi, simple0 (arch1 [(2, [0])]) id1 = Ok (BForm y phi) /\
  (forall vs, solves (d0 (arch1 [(2, [0])]) id1) y (mkform vs phi) r1) /\
  forall ru, rr_from_solver Z.eqb teqb snd OneHot (arch1 [(2, [0])]) id1 r1 = Ok ru ->
    ~ allowed_consts (arch1 [(2, [0])]) ru /\ ~ correct td (arch1 [(2, [0])]) id1 fs1 ru.
Proof.
  destruct (unlucky _ (or_intror eq_refl)) as (y & phi & B & S). exists y, phi. repeat split; auto; intros C;
    vm_compute in H; injection H as <-.
  - destruct (C 1 2 [0] ltac:(cbn; auto) ltac:(now left)) as [E|[]]. discriminate.
  - pose (l := fun p : Z => match p with 2 => 1 | _ => 0 end).
    assert (X : id1.(i_sem) (fun _ => 0) 21 = fs1 0 l 20); [|vm_compute in X; discriminate].
    apply C; [..|now left].
    + apply typed_bits; [auto|flat_tac].
    + apply typed_bits; [|flat_tac]. intros [|[[]|[]|]|]; cbn; auto.
    + intros s p I. cbn in I. repeat (destruct I as [I|I]; [injection I as <- <-; reflexivity|]). destruct I.
Qed.

(** The constant 5 is bound to 13 in another candidate, so the formula speaks
    of [VEx 5]; the rule takes the value of [VLeaf 5]. *)
Lemma overlapped : exists y phi, simple0 arch2 addc = Ok (BForm y phi) /\
  forall vs, solves (d0 arch2 addc) y (mkform vs phi) r2.
Proof.
  apply (solved0 arch2 addc fs2 fv2 _ r2 arch2_ok addc_ok arch2_ext (or_intror eq_refl)); vm_compute; reflexivity.
Qed.

Theorem C39_full_refuted : ~ C39_full.
Proof.
  intros H. destruct overlapped as (y & phi & B & S).
  destruct (H _ _ Z.eqb teqb snd eqs_ok td tagd OneHot arch2 addc fs2 fv2 arch2_ok addc_ok y phi [] r2 B r2_sorted (S []))
    as (ru & R & _ & _ & C).
  vm_compute in R. injection R as <-.
  pose (l := fun p : Z => match p with 5 => 1 | _ => 0 end).
  assert (X : addc.(i_sem) (fun _ => 0) 21 = fs2 0 l 20); [|vm_compute in X; discriminate].
  apply C; [..|now left].
  - apply typed_bits; [auto|flat_tac].
  - apply typed_bits; [|flat_tac]. intros [|[[[]|[]|]|[[]|[]|]|]|]; cbn; auto.
  - intros s p I. cbn in I. repeat (destruct I as [I|I]; [injection I as <- <-; reflexivity|]). destruct I.
Qed.

Theorem C42_full_refuted : ~ C42_full.
Proof.
  intros H. destruct overlapped as (y & phi & B & S).
  destruct (H _ _ Z.eqb teqb snd eqs_ok td tagd OneHot arch2 addc fs2 fv2 arch2_ok addc_ok y phi [] r2 B r2_sorted (S []))
    as (ru & R & l & _ & L & V).
  vm_compute in R. injection R as <-. cbn [r_in r_form] in *. unfold fv2 in V.
  rewrite (L 1 5) in V by (cbn; auto). discriminate.
Qed.

Lemma inhabited0 a i : (forall p t, In (p, t) (i_in i) -> fst t = 1) ->
  (forall fi f p z, nth_error (a_forms a) fi = Some f -> In (p, z) (snd f) -> z = 0 \/ z = 1) -> inhabited_types td tagd a i.
Proof.
  intros W F. split; [|split].
  - intros p t I. unfold td. now rewrite (W p t I).
  - discriminate.
  - intros fi f p z N I. destruct (F fi f p z N I) as [-> | ->]; cbn; auto.
Qed.

(** The input of the IR instruction is passed to an architecture that copies it. *)
Theorem C40_full_refuted : ~ C40_full.
Proof.
  intros H.
  destruct (H _ _ Z.eqb teqb snd eqs_ok td tagd OneHot arch4 id1 _ _ arch4_ok id1_ok) as [(y & phi & r & B & _) _].
  - apply inhabited0; [flat_tac|]. intros [|fi] f p z E; try (destruct fi; discriminate). injection E as <-. intros [].
  - intros p zs [].
  - exists {| r_form := 0; r_in := [(SPath 11, 1)]; r_out := [(Some 21, 20)] |}. split; [|split; [|split]].
    + eexists. split; [reflexivity|]. split; [|split; [|split]].
      * split; [reflexivity|split].
        -- intros p q [[= <- <-]|[]]. exists (1, false). cbn. auto.
        -- intros p t [[= <- <-]|[]]. reflexivity.
      * split; [reflexivity|split].
        -- intros p q [[= <- <-]|[]]. exists (1, false). cbn. auto.
        -- intros p t [[= <- <-]|[]]. reflexivity.
      * intros s p _ [].
      * intros s p t [[= <- <-]|[]] _ _. discriminate.
    + exists (fun _ => 0). split; [apply typed_bits; [auto|flat_tac]|]. split; [|reflexivity].
      intros z p [E|[]]. discriminate.
    + intros z p zs _ [].
    + intros x l _ _ F q ap [[= <- <-]|[]]. cbn. symmetry. apply (F (SPath 11) 1 (1, false)); cbn; auto.
  - vm_compute in B. discriminate.
Qed.

(** With a Const input, bound to a constant of which only some values are
    valid, the simple formula has no solution although a rule exists and the
    expanded formula has one. *)
Theorem C40_simple_const_refuted :
  arch_ok snd arch3 fs3 fv3 /\ instr_ok addc /\ implementable Z.eqb snd td arch3 addc fs3 fv3 /\
  satisfiable Z.eqb teqb td tagd OneHot arch3 addc (expanded0 arch3 addc) /\
  ~ satisfiable Z.eqb teqb td tagd OneHot arch3 addc (simple0 arch3 addc).
Proof.
  split; [exact arch3_ok|]. split; [exact addc_ok|].
  assert (M : implementable Z.eqb snd td arch3 addc fs3 fv3).
  { exists {| r_form := 0; r_in := [(SPath 11, 1); (SPath 13, 3)]; r_out := [(Some 21, 20)] |}. split; [|split; [|split]].
    + eexists. split; [reflexivity|]. split; [|split; [|split]].
      * split; [reflexivity|split].
        -- intros p q [[= <- <-]|[[= <- <-]|[]]]; eexists; cbn; auto.
        -- intros p t [[= <- <-]|[[= <- <-]|[]]]; reflexivity.
      * split; [reflexivity|split].
        -- intros p q [[= <- <-]|[]]. exists (1, false). cbn. auto.
        -- intros p t [[= <- <-]|[]]. reflexivity.
      * intros s p _ [].
      * intros s p t [[= <- <-]|[[= <- <-]|[]]] _ _; discriminate.
    + exists (fun _ => 0). split; [apply typed_bits; [auto|flat_tac]|]. split; [|reflexivity].
      intros z p [E|[E|[]]]; discriminate.
    + intros z p zs _ [].
    + intros x l _ _ F q ap [[= <- <-]|[]]. cbn. unfold fs3.
      pose proof (F (SPath 11) 1 (1, false) ltac:(cbn; auto) ltac:(cbn; auto)) as E1.
      pose proof (F (SPath 13) 3 (1, true) ltac:(cbn; auto) ltac:(cbn; auto)) as E2. cbn in E1, E2. now rewrite E1, E2. }
  split; [exact M|]. split.
  - apply (C40_expanded_partial _ _ Z.eqb teqb snd eqs_ok td tagd OneHot arch3 addc fs3 fv3 arch3_ok addc_ok); auto.
    + apply inhabited0; [flat_tac|]. intros [|fi] f p z E; try (destruct fi; discriminate). injection E as <-. intros [].
    + intros p zs [].
  - intros (y & phi & r & B & S & Sol). specialize (Sol (vars_of arch3 addc)).
    pose (s := fun v : var Z => match v with
                 | VLeaf p => if p =? 1 then 0 else if p =? 3 then 1 else r v
                 | VIr p => if p =? 11 then 0 else if p =? 13 then 1 else r v
                 | _ => r v end).
    assert (Ss : sorted (d0 arch3 addc) s).
    { intros v. pose proof (S v) as Sv. destruct v as [p|p|p| | | |p|p]; try exact Sv; cbn [s].
      - destruct (Z.eqb_spec p 1) as [->|]; [vm_compute; auto|]. destruct (Z.eqb_spec p 3) as [->|]; [vm_compute; auto|exact Sv].
      - destruct (Z.eqb_spec p 11) as [->|]; [vm_compute; auto|]. destruct (Z.eqb_spec p 13) as [->|]; [vm_compute; auto|exact Sv]. }
    assert (Y : y = fst (formula_of (simple0 arch3 addc))) by now rewrite B.
    assert (F : phi = snd (formula_of (simple0 arch3 addc))) by now rewrite B.
    assert (P : phi s = true).
    { apply Sol; [exact Ss|]. intros v N. subst y. destruct v as [p|p|p| | | |p|p]; auto; cbn [s].
      - destruct (Z.eqb_spec p 1) as [->|]; [destruct N; vm_compute; auto|].
        destruct (Z.eqb_spec p 3) as [->|]; [destruct N; vm_compute; auto|auto].
      - destruct (Z.eqb_spec p 11) as [->|]; [destruct N; vm_compute; auto 8|].
        destruct (Z.eqb_spec p 13) as [->|]; [destruct N; vm_compute; auto 8|auto]. }
    destruct eqs_ok as [Hp Ht].
    assert (W : wf (mkform (vars_of arch3 addc) phi)) by (eapply simple_wf; eauto using arch3_ok, addc_ok, arch3_ext).
    change (sem (mkform (vars_of arch3 addc) phi) s = true) in P.
    rewrite (W s (tab (map (fun v => (v, s v)) (vars_of arch3 addc))) (fun v I => tab_agree s _ v I)) in P.
    cbn [mkform sem] in P.
    pose proof (tabs_In (d0 arch3 addc) [VFi; VBi; VBo; VAll 1; VEx 1; VAll 3; VEx 3] s s (vars_of arch3 addc) Ss (fun _ _ => eq_refl)) as I.
    assert (C : forallb (fun t => negb (snd (formula_of (simple0 arch3 addc)) (tab t)))
                  (tabs (d0 arch3 addc) [VFi; VBi; VBo; VAll 1; VEx 1; VAll 3; VEx 3] s (vars_of arch3 addc)) = true)
      by (vm_compute; reflexivity).
    rewrite forallb_forall in C. specialize (C _ I). rewrite <- F, P in C. discriminate.
Qed.

(** * The hypotheses of the positive theorems can be met *)

(** Exclusive or from form 0 with constant 0. *)
Lemma xor_solved b : b = expanded0 (arch1 []) xor1 \/ b = simple0 (arch1 []) xor1 ->
  exists y phi, b = Ok (BForm y phi) /\ forall vs, solves (d0 (arch1 []) xor1) y (mkform vs phi) r1.
Proof.
  intros B. apply (solved0 _ xor1 fs1 _ b r1 arch1_ok0 xor1_ok (arch1_ext _) B); destruct B as [-> | ->]; vm_compute; reflexivity.
Qed.

Example C38_C39_case :
  (exists y phi, expanded0 (arch1 []) xor1 = Ok (BForm y phi) /\ forall vs, solves (d0 (arch1 []) xor1) y (mkform vs phi) r1) /\
  (exists y phi, simple0 (arch1 []) xor1 = Ok (BForm y phi) /\ forall vs, solves (d0 (arch1 []) xor1) y (mkform vs phi) r1) /\
  arch_ok snd (arch1 []) fs1 (fun _ _ => true) /\ instr_ok xor1 /\ sorted (d0 (arch1 []) xor1) r1 /\ lucky Z.eqb snd (arch1 []) r1 /\
  (forall p t, In (p, t) (i_in xor1) -> snd t = false) /\
  rr_from_solver Z.eqb teqb snd OneHot (arch1 []) xor1 r1 =
    Ok {| r_form := 0; r_in := [(SPath 11, 1); (SPath 12, 2); (SVal 0, 3)]; r_out := [(Some 21, 20)] |}.
Proof.
  split; [apply xor_solved; auto|]. split; [apply xor_solved; auto|]. split; [exact arch1_ok0|]. split; [exact xor1_ok|].
  split; [apply r1_sorted; cbn; auto|]. split; [intros p zs []|]. split; [flat_tac|reflexivity].
Qed.

(** The rule of the case is what the theorem says. *)
Example C38_case_correct : correct td (arch1 []) xor1 fs1
  {| r_form := 0; r_in := [(SPath 11, 1); (SPath 12, 2); (SVal 0, 3)]; r_out := [(Some 21, 20)] |}.
Proof.
  destruct C38_C39_case as ((y & phi & B & Sol) & _ & A & I & S & L & _ & R).
  destruct (C38_expanded_partial _ _ Z.eqb teqb snd eqs_ok td tagd OneHot _ _ _ _ A I y phi [] r1 B S (Sol []) L) as (ru & R' & _ & _ & C).
  rewrite R in R'. injection R' as <-. exact C.
Qed.

(** Free variables for the theorems that use the solving strategies. *)
Example C38_C40_wf_case : exists y phi, expanded0 (arch1 []) xor1 = Ok (BForm y phi) /\ wf (mkform (vars_of (arch1 []) xor1) phi).
Proof.
  destruct (xor_solved _ (or_introl eq_refl)) as (y & phi & B & _). exists y, phi. split; auto.
  destruct eqs_ok as [Hp Ht]. eapply expanded_wf; eauto using arch1_ok0, xor1_ok, arch1_ext.
Qed.

(** A constraint on the constant 3. *)
Example C40_C41_case :
  let a := arch1 [(3, [0])] in
  arch_ok snd a fs1 (fun _ _ => true) /\ inhabited_types td tagd a xor1 /\ constr_ok td a /\ a_has_const a = true /\ i_out xor1 <> [] /\
  implementable Z.eqb snd td a xor1 fs1 (fun _ _ => true) /\
  satisfiable Z.eqb teqb td tagd OneHot a xor1 (expanded0 a xor1) /\
  satisfiable Z.eqb teqb td tagd OneHot a xor1 (simple0 a xor1).
Proof.
  intros a. pose proof (arch1_okc 3 ltac:(auto)) as A. split; [exact A|].
  assert (Ih : inhabited_types td tagd a xor1).
  { apply inhabited0; [flat_tac|]. intros [|[|fi]] f p z E; try (destruct fi; discriminate); injection E as <-;
      intros [[= <- <-]|[]]; auto. }
  split; [exact Ih|].
  assert (Co : constr_ok td a).
  { intros p zs [[= <- <-]|[]]. split; [discriminate|]. intros t z I [<-|[]]. apply in_bits; auto. revert I. cbn.
    intros I. repeat (destruct I as [I|I]; [inversion I; reflexivity|]). destruct I. }
  split; [exact Co|]. split; [reflexivity|]. split; [discriminate|].
  assert (M : implementable Z.eqb snd td a xor1 fs1 (fun _ _ => true)).
  { exists {| r_form := 0; r_in := [(SPath 11, 1); (SPath 12, 2); (SVal 0, 3)]; r_out := [(Some 21, 20)] |}. split; [|split; [|split]].
    + eexists. split; [reflexivity|]. split; [|split; [|split]].
      * split; [reflexivity|split].
        -- intros p q [[= <- <-]|[[= <- <-]|[E|[]]]]; [| |discriminate]; eexists; cbn; auto.
        -- intros p t [[= <- <-]|[[= <- <-]|[]]]; reflexivity.
      * split; [reflexivity|split].
        -- intros p q [[= <- <-]|[]]. exists (1, false). cbn. auto.
        -- intros p t [[= <- <-]|[]]. reflexivity.
      * intros s p I [<-|[]]. destruct I as [I|[I|[I|[]]]]; try discriminate. injection I as <-. eauto.
      * intros s p t I _ _. destruct I as [I|[I|[I|[]]]]; injection I as <- <-; discriminate.
    + exists (fun _ => 0). split; [apply typed_bits; [auto|flat_tac]|]. split; [|reflexivity].
      intros z p I. destruct I as [I|[I|[I|[]]]]; try discriminate. now injection I as <- <-.
    + intros z p zs I [[= <- <-]|[]]. destruct I as [I|[I|[I|[]]]]; try discriminate. injection I as <-. now left.
    + intros x l _ _ F q ap [[= <- <-]|[]]. cbn [xor1 i_sem r_form fs1].
      pose proof (F (SPath 11) 1 (1, false) ltac:(cbn; auto) ltac:(cbn; auto)) as E1.
      pose proof (F (SPath 12) 2 (1, false) ltac:(cbn; auto) ltac:(cbn; auto)) as E2.
      pose proof (F (SVal 0) 3 (1, true) ltac:(cbn; auto) ltac:(cbn; auto 8)) as [E3 _].
      cbn in E1, E2. rewrite E1, E2, (E3 eq_refl), Z.add_0_r. reflexivity. }
  split; [exact M|]. split.
  - now apply (C40_expanded_partial _ _ Z.eqb teqb snd eqs_ok td tagd OneHot a xor1 _ _ A xor1_ok).
  - apply (C40_simple_partial _ _ Z.eqb teqb snd eqs_ok td tagd OneHot a xor1 _ _ A xor1_ok); auto; [discriminate|flat_tac].
Qed.

Print Assumptions C38_expanded_partial.
Print Assumptions C38_solve_partial.
Print Assumptions C39_simple_partial.
Print Assumptions C39_substituted.
Print Assumptions C40_expanded_partial.
Print Assumptions C40_simple_partial.
Print Assumptions C40_not_none.
Print Assumptions C41_const_partial.
Print Assumptions C42_partial.
Print Assumptions C38_full_refuted.
Print Assumptions C41_full_refuted.
Print Assumptions C39_constraint_refuted.
Print Assumptions C39_full_refuted.
Print Assumptions C42_full_refuted.
Print Assumptions C40_full_refuted.
Print Assumptions C40_simple_const_refuted.
