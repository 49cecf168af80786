(** Solutions of the synthesis formulas against existing rules. The formulas
    leave the value of a constrained input that is not Const open; every
    solution stays one when these values are replaced by allowed ones. *)
From Coq Require Import ZArith List Bool Lia Permutation.
From Verif Require Import Base BaseLemmas BindModel BindProps MapIdxModel MapIdxProps CegisModel CegisProps MapModel MapProofs MapMain MapProps.
Import ListNotations.
Open Scope list_scope.
Open Scope Z_scope.

Section Iff.
  Context {P T : Type} (peqb : P -> P -> bool) (teqb : T -> T -> bool) (isconst : T -> bool).
  Hypothesis Hp : forall a b, peqb a b = true <-> a = b.
  Hypothesis Ht : forall a b, teqb a b = true <-> a = b.
  Variable td : T -> list Z.
  Variables (k : ivar) (a : arch P T) (i : instr P T).
  Variables (fs : nat -> (P -> Z) -> P -> Z) (fv : nat -> (P -> Z) -> bool).
  Hypothesis Ha : arch_ok isconst a fs fv.
  Hypothesis Hi : instr_ok i.
  Hypothesis Hext : arch_ext a.
  Hypothesis Hc : constr_ok td a.
  Variable tagd : P -> list Z.
  Let D := dom peqb teqb td tagd k a i.
  Let isc := is_const peqb isconst a.
  Let rr := rr_from_solver peqb teqb isconst k a i.

  Lemma constrain_all_skip cs : forall (f : val P -> bool) (Q : var P -> Prop),
    (forall r s, (forall v, ~ Q v -> r v = s v) -> f r = f s) ->
    forall r s, (forall v, ~ Q v -> (forall p, v = VLeaf p -> In p (map fst cs) -> isc p = true) -> r v = s v) ->
    constrain_all peqb isconst a cs f r = constrain_all peqb isconst a cs f s.
  Proof.
    induction cs as [|[p zs] cs IH]; intros f Q Hf r s E; cbn [constrain_all].
    { apply Hf. intros v Nq. apply E; [exact Nq|]. intros q _ []. }
    destruct (is_const peqb isconst a p) eqn:C.
    - apply (IH f Q Hf). intros v Nq H. apply E; auto. intros q -> [<-|J]; auto.
    - apply (IH _ (fun v => Q v \/ v = VLeaf p)).
      + intros r' s' E'. apply forallb_ext_In. intros z _. apply Hf. intros v Nq. unfold upd.
        destruct (var_eqb peqb v (VLeaf p)) eqn:Ev; auto. apply E'. intros [H|H]; [auto|].
        subst v. rewrite (proj2 (var_eqb_eq peqb Hp _ _) eq_refl) in Ev. discriminate.
      + intros v Nq H. apply E; [intros X; apply Nq; auto|]. intros q -> [<-|J]; [|auto].
        exfalso. apply Nq. auto.
  Qed.

  (** Allowed values for the constrained inputs that are not Const. *)
  Definition allows (c : P -> Z) : Prop := forall p zs, In (p, zs) (a_constr a) -> isc p = false -> In (c p) zs.
  Definition repair (c : P -> Z) (r : val P) : val P :=
    fun v => match v with VLeaf p => if is_constrained peqb a p && negb (isc p) then c p else r v | _ => r v end.

  Lemma repair_sorted c r : allows c -> sorted D r -> sorted D (repair c r).
  Proof.
    intros A S v. destruct v as [p| | | | | | |]; try apply S. cbn [repair].
    destruct (is_constrained peqb a p && negb (isc p)) eqn:E; [|apply S].
    apply andb_true_iff in E as [E N]. apply negb_true_iff in N.
    apply (is_constrained_In peqb Hp) in E. apply in_map_iff in E as ((p' & zs) & Ep & I). cbn [fst] in Ep. subst p'.
    unfold D. cbn [dom]. unfold path_dom. destruct (dget peqb (a_in a) p) as [t|] eqn:Et.
    - apply (dget_In peqb Hp) in Et. destruct (Hc p zs I) as [_ H]. apply (H t); [exact Et|]. now apply (A p zs).
    - exfalso. apply (dget_None peqb Hp) in Et. apply Et. apply (ok_constr_in _ _ _ _ Ha). now apply (in_map fst) in I.
  Qed.

  Lemma repair_lucky c r : allows c -> lucky peqb isconst a (repair c r).
  Proof.
    intros A p zs I N. cbn [repair]. fold isc in N. rewrite N, andb_true_r.
    assert (is_constrained peqb a p = true) as -> by (apply (is_constrained_In peqb Hp); now apply (in_map fst) in I).
    now apply (A p zs).
  Qed.

  Lemma repair_expanded y phi vs r c : build_expanded peqb teqb isconst k a i = Ok (BForm y phi) -> sorted D r ->
    solves D y (mkform vs phi) r -> allows c -> solves D y (mkform vs phi) (repair c r).
  Proof.
    unfold build_expanded. destruct (negb (has_bindings peqb teqb a i)); [discriminate|].
    destruct (negb (a_has_const a)); [discriminate|]. destruct (empty_constraint a) eqn:Ec; [discriminate|].
    intros E. injection E as <- <-. intros S Sol A s Ss Es. cbn [mkform sem].
    pose (s0 := fun v => match v with VLeaf p => if is_constrained peqb a p && negb (isc p) then r v else s v | _ => s v end).
    assert (H : sem (mkform vs (constrain_ex peqb isconst a (a_constr a) (constrain_all peqb isconst a (a_constr a)
                 (fun r0 => existsb (fun f : val P -> bool => f r0) (disjuncts_expanded peqb teqb k a i))))) s0 = true).
    { apply Sol.
      - intros v. unfold s0. destruct v as [p| | | | | | |]; try apply Ss. destruct (_ && _); [apply S|apply Ss].
      - intros v Nv. unfold s0. destruct v as [p| | | | | | |]; try (rewrite (Es _ Nv); reflexivity).
        destruct (is_constrained peqb a p && negb (isc p)) eqn:E; [reflexivity|]. rewrite (Es _ Nv). cbn [repair]. now rewrite E. }
    cbn [mkform sem] in H. apply (constrain_ex_iff peqb isconst) in H as [H1 H2]. apply (constrain_ex_iff peqb isconst). split.
    - rewrite <- H1. apply (constrain_all_skip _ _ (fun _ => False)).
      + intros u u' E. apply (disjuncts_agree peqb teqb isconst Hp Ht k a i fs fv Ha Hi Hext). intros v _. now apply E.
      + intros v _ Hv. unfold s0. destruct v as [p| | | | | | |]; try reflexivity.
        destruct (is_constrained peqb a p && negb (isc p)) eqn:E; [|reflexivity].
        apply andb_true_iff in E as [E N]. apply (is_constrained_In peqb Hp) in E. rewrite (Hv p eq_refl E) in N. discriminate.
    - intros p zs I C. specialize (H2 p zs I C). unfold s0 in H2. fold isc in C. rewrite C, andb_false_r in H2. exact H2.
  Qed.

  (** For the simple formula the constrained input must occur in some binding. *)
  Lemma repair_simple y phi vs r c :
    (forall p, In p (map fst (a_constr a)) -> isc p = false -> In p (forall_arch peqb teqb isconst a i)) ->
    build_simple peqb teqb isconst k a i = Ok (BForm y phi) ->
    solves D y (mkform vs phi) r -> solves D y (mkform vs phi) (repair c r).
  Proof.
    intros Hf. unfold build_simple. destruct (negb (has_bindings peqb teqb a i)); [discriminate|].
    destruct (negb (a_has_const a)); [discriminate|].
    match goal with |- (if ?c then _ else _) = _ -> _ => destruct c; [discriminate|] end.
    destruct (empty_constraint a); [discriminate|].
    intros E. injection E as <- <-. intros Sol s Ss Es. apply Sol; auto. intros v Nv. rewrite (Es v Nv).
    destruct v as [p| | | | | | |]; try reflexivity. cbn [repair].
    destruct (is_constrained peqb a p && negb (isc p)) eqn:E; [|reflexivity]. exfalso. apply Nv.
    apply andb_true_iff in E as [E N]. apply negb_true_iff in N. apply (is_constrained_In peqb Hp) in E.
    apply (forall_simple_In peqb teqb isconst a i). right. left. exists p. split; [reflexivity|]. split; [|now apply Hf].
    destruct (overlap peqb teqb isconst a i p) eqn:O; auto. apply (overlap_const peqb teqb isconst Hp) in O. fold isc in O. congruence.
  Qed.

  Lemma rr_form r ru : rr r = Ok ru ->
    exists b, ru = {| r_form := r_form ru; r_in := rin peqb isconst a b r; r_out := r_out ru |} /\
    forall c, rr (repair c r) = Ok {| r_form := r_form ru; r_in := rin peqb isconst a b (repair c r); r_out := r_out ru |}.
  Proof.
    unfold rr, rr_from_solver. intros E.
    destruct (decode k (Z.of_nat (nforms a)) (r VFi)) as [fi|] eqn:E1; [|discriminate]. cbn [bind] in E.
    destruct (decode k (Z.of_nat (max_input_bindings peqb teqb a i)) (r VBi)) as [bi|] eqn:E2; [|discriminate]. cbn [bind] in E.
    destruct (decode k (Z.of_nat (length (output_bindings peqb teqb a i))) (r VBo)) as [bo|] eqn:E3; [|discriminate]. cbn [bind] in E.
    destruct (nthE (input_bindings peqb teqb a i) fi) as [ibs|] eqn:E4; [|discriminate]. cbn [bind] in E.
    destruct (nthE ibs bi) as [b|] eqn:E5; [|discriminate]. cbn [bind] in E.
    destruct (nthE (output_bindings peqb teqb a i) bo) as [o|] eqn:E6; [|discriminate]. cbn [bind] in E.
    injection E as <-. exists b. cbn [r_form r_out]. split; [reflexivity|]. intros c. cbn [repair].
    rewrite E1. cbn [bind]. rewrite E2. cbn [bind]. rewrite E3. cbn [bind]. rewrite E4. cbn [bind]. rewrite E5. cbn [bind].
    rewrite E6. reflexivity.
  Qed.

  (** An allowed choice near given leaves. *)
  Definition near (l : P -> Z) (p : P) : Z :=
    match dget peqb (a_constr a) p with Some zs => if zmem (l p) zs then l p else hd 0 zs | None => 0 end.
  Lemma near_dget p zs : In (p, zs) (a_constr a) -> dget peqb (a_constr a) p = Some zs.
  Proof. intros I. apply (In_dget peqb Hp); auto. apply (ok_constr _ _ _ _ Ha). Qed.
  Lemma near_allows l : allows (near l).
  Proof.
    intros p zs I _. unfold near. rewrite (near_dget p zs I). destruct (zmem (l p) zs) eqn:E; [now apply zmem_In in E|].
    apply hd_In. now destruct (Hc p zs I).
  Qed.
  Lemma near_same l p zs : In (p, zs) (a_constr a) -> In (l p) zs -> near l p = l p.
  Proof. intros I J. unfold near. rewrite (near_dget p zs I). apply zmem_In in J. now rewrite J. Qed.

  Lemma rin_In b r s p : In (s, p) (rin peqb isconst a b r) -> exists o, In (o, p) b /\
    s = match o with Some ip => SPath ip | None => if isc p || is_constrained peqb a p then SVal (r (VLeaf p)) else SUnbound end.
  Proof. intros I. apply in_map_iff in I as ((o & q) & E & I). cbn [fst snd] in E. injection E as <- <-. exists o. auto. Qed.
  Lemma rin_In' b r o p : In (o, p) b ->
    In (match o with Some ip => SPath ip | None => if isc p || is_constrained peqb a p then SVal (r (VLeaf p)) else SUnbound end, p)
       (rin peqb isconst a b r).
  Proof. intros I. apply in_map_iff. exists (o, p). auto. Qed.

  (** Every solution whose repairs give correct rules gives one that works for
      all allowed values. *)
  Lemma any_from r ru : sorted D r -> rr r = Ok ru -> well_formed peqb isconst a i ru ->
    (forall c, allows c -> exists ru', rr (repair c r) = Ok ru' /\ valid_consts td a fv ru' /\ correct td a i fs ru') ->
    valid_consts td a fv ru /\ correct_any isconst td a i fs ru.
  Proof.
    intros S R (f & Ef & (Pm & _ & _) & _) H. destruct (rr_form r ru R) as (b & Eru & Rc). rewrite Eru in *. cbn [r_form r_in r_out] in *.
    rewrite shape_rin in Pm.
    assert (Tp : forall o p, In (o, p) b -> exists t, In (p, t) (a_in a) /\ In p (fst f)).
    { intros o p I. apply (in_map snd) in I. cbn [snd] in I. apply (Permutation_in _ Pm) in I.
      apply in_map_iff in I as ((p' & t) & E & I). cbn [fst] in E. subst p'. apply filter_In in I as [I J]. cbn [fst] in J.
      exists t. split; auto. now apply (pmem_In peqb Hp) in J. }
    split.
    - destruct (H (near (fun _ => 0)) (near_allows _)) as (ru' & R' & (l & Tl & Vl & Fl) & _).
      rewrite Rc in R'. injection R' as <-. cbn [r_form r_in] in *.
      exists (fun p => if is_constrained peqb a p && negb (isc p) then r (VLeaf p) else l p). split; [|split].
      + intros p t I. destruct (_ && _); [|now apply Tl]. pose proof (S (VLeaf p)) as Sp. unfold D in Sp. cbn [dom] in Sp.
        unfold path_dom in Sp. now rewrite (In_dget peqb Hp _ _ _ (ok_in _ _ _ _ Ha) I) in Sp.
      + intros z p I. cbn [r_in] in I. apply rin_In in I as ([ip|] & I & E); [discriminate|].
        destruct (isc p || is_constrained peqb a p) eqn:C; [|discriminate]. injection E as ->.
        destruct (is_constrained peqb a p && negb (isc p)) eqn:N; [reflexivity|].
        apply Vl. apply (rin_In' b (repair (near (fun _ => 0)) r)) in I. rewrite C in I. cbn [repair] in I. now rewrite N in I.
      + rewrite <- Fl. cbn [r_form]. apply (ok_vlocal _ _ _ _ Ha _ f); auto. intros p t _ I C.
        assert (isc p = true) as -> by (unfold isc; now rewrite (is_const_eq peqb isconst Hp a fs fv Ha _ _ I)).
        now rewrite andb_false_r.
    - intros x l Tx Tl F q ap Io. cbn [r_form r_out] in *.
      destruct (H (near l) (near_allows l)) as (ru' & R' & _ & C). rewrite Rc in R'. injection R' as <-.
      apply (C x l); auto. intros s p I. apply rin_In in I as (o & I & ->). destruct (Tp o p I) as (t & It & _).
      pose proof (F _ p t (rin_In' b r o p I) It) as Fp. destruct o as [ip|]; [exact Fp|].
      destruct (isc p || is_constrained peqb a p) eqn:E; [|exact Logic.I]. destruct Fp as [F1 F2]. cbn [repair].
      destruct (is_constrained peqb a p && negb (isc p)) eqn:N.
      + apply andb_true_iff in N as [N _]. apply (is_constrained_In peqb Hp) in N. apply in_map_iff in N as ((p' & zs) & Ep & Iz).
        cbn [fst] in Ep. subst p'. symmetry. apply (near_same l p zs); auto.
      + apply F1. destruct (isc p) eqn:Ic; [|cbn [orb] in E; rewrite E in N; discriminate].
        unfold isc in Ic. now rewrite (is_const_eq peqb isconst Hp a fs fv Ha _ _ It) in Ic.
  Qed.

  Theorem expanded_any y phi vs r : build_expanded peqb teqb isconst k a i = Ok (BForm y phi) -> sorted D r ->
    solves D y (mkform vs phi) r ->
    exists ru, rr r = Ok ru /\ well_formed peqb isconst a i ru /\ valid_consts td a fv ru /\ correct_any isconst td a i fs ru.
  Proof.
    intros B S Sol. destruct (expanded_sound peqb teqb isconst Hp Ht td k a i fs fv Ha Hi tagd y phi vs r B S Sol) as (ru & R & W & _ & _).
    exists ru. split; [exact R|]. split; [exact W|]. apply (any_from r ru S R W). intros c Ac.
    destruct (C38_expanded_partial P T peqb teqb isconst (conj Hp Ht) td tagd k a i fs fv Ha Hi y phi vs (repair c r) B
                (repair_sorted c r Ac S) (repair_expanded y phi vs r c B S Sol Ac) (repair_lucky c r Ac)) as (ru' & R' & _ & V & C).
    eauto.
  Qed.

  Definition seen : Prop :=
    forall p, In p (map fst (a_constr a)) -> isc p = false -> In p (forall_arch peqb teqb isconst a i).

  Theorem simple_any y phi vs r : (forall p t, In (p, t) (i_in i) -> isconst t = false) -> seen ->
    build_simple peqb teqb isconst k a i = Ok (BForm y phi) -> sorted D r ->
    solves D y (mkform vs phi) r ->
    exists ru, rr r = Ok ru /\ well_formed peqb isconst a i ru /\ valid_consts td a fv ru /\ correct_any isconst td a i fs ru.
  Proof.
    intros Nc Se B S Sol.
    assert (Sc : forall c, allows c -> exists ru', rr (repair c r) = Ok ru' /\ well_formed peqb isconst a i ru' /\
                   valid_consts td a fv ru' /\ correct td a i fs ru').
    { intros c Ac. apply (C39_simple_partial P T peqb teqb isconst (conj Hp Ht) td tagd k a i fs fv Ha Hi Nc y phi vs (repair c r) B
                (repair_sorted c r Ac S) (repair_simple y phi vs r c Se B Sol) (repair_lucky c r Ac)). }
    destruct (simple_sound peqb teqb isconst Hp Ht td k a i fs fv Ha Hi tagd y phi vs r B S Sol) as (ru & R & W & _ & _ & _).
    assert (R' : rr r = Ok ru).
    { rewrite <- R. apply (rr_ext peqb teqb isconst k a i). intros v. symmetry. apply (overlap_sub_id peqb teqb isconst k a i).
      exact (no_overlap peqb teqb isconst Hp Ht a i fs fv Ha Hi Nc). }
    exists ru. split; [exact R'|]. split; [exact W|]. apply (any_from r ru S R' W). intros c Ac.
    destruct (Sc c Ac) as (ru' & X & _ & V & C). eauto.
  Qed.

  (** A constrained input of all forms occurs in the bindings, if there are any. *)
  Lemma seen_all : (forall p fi f, In p (map fst (a_constr a)) -> isc p = false -> nth_error (a_forms a) fi = Some f -> In p (fst f)) ->
    has_bindings peqb teqb a i = true -> seen.
  Proof.
    intros H B p Ip N. apply (forall_arch_In peqb teqb isconst a i).
    unfold has_bindings in B. apply andb_true_iff in B as [B _]. apply negb_true_iff, Nat.eqb_neq in B.
    assert (X : exists ibs b, In ibs (input_bindings peqb teqb a i) /\ In b ibs).
    { unfold max_input_bindings in B. induction (input_bindings peqb teqb a i) as [|ibs l IH]; [now destruct B|].
      cbn [map fold_right] in B. destruct ibs as [|b ibs]; [|exists (b :: ibs), b; split; now left].
      destruct IH as (ibs & b & I1 & I2); [cbn [length] in B; lia|]. exists ibs, b. split; auto. now right. }
    destruct X as (ibs & b & I1 & I2). apply In_nth_error in I1 as (fi & E1). apply In_nth_error in I2 as (bi & E2).
    destruct (ib_typed peqb teqb isconst Hp Ht a i fs fv Ha Hi fi ibs bi b E1 E2) as (f & Ef & (Pm & _ & _) & _).
    exists ((fi, bi), b). assert (J : In p (map snd b)).
    { apply (Permutation_in _ (Permutation_sym Pm)). apply in_map_iff.
      pose proof (ok_constr_in _ _ _ _ Ha p Ip) as K. apply in_map_iff in K as ((p' & t) & E & K). cbn [fst] in E. subst p'.
      exists (p, t). split; auto. apply filter_In. split; auto. cbn [fst]. apply (pmem_In peqb Hp). eapply H; eauto. }
    apply in_map_iff in J as ((s & p') & E & J). cbn [snd] in E. subst p'. exists s. split; [|split; auto].
    apply (fbs_In peqb teqb a i). eauto.
  Qed.

  (** Replacing the open values of a solution by allowed ones gives a rule
      with allowed constants. *)
  Lemma implementable_from (sol : val P -> Prop) r : sorted D r -> sol r ->
    (forall c r, allows c -> sorted D r -> sol r -> sol (repair c r)) ->
    (forall r, sorted D r -> sol r ->
       exists ru, rr r = Ok ru /\ well_formed peqb isconst a i ru /\ valid_consts td a fv ru /\ correct_any isconst td a i fs ru) ->
    (forall r, sorted D r -> sol r -> exists ru, rr r = Ok ru /\
       forall p zs z, In (p, zs) (a_constr a) -> isc p = true -> In (SVal z, p) (r_in ru) -> In z zs) ->
    implementable peqb isconst td a i fs fv.
  Proof.
    intros S Sol Rp An Ac. pose (r' := repair (near (fun _ => 0)) r).
    pose proof (near_allows (fun _ => 0)) as Al.
    assert (S' : sorted D r') by now apply repair_sorted. assert (Sol' : sol r') by now apply Rp.
    destruct (An r' S' Sol') as (ru & R & W & V & C). destruct (Ac r' S' Sol') as (ru' & R' & A).
    rewrite R in R'. injection R' as <-. exists ru. split; [exact W|]. split; [exact V|]. split; [|exact C].
    intros z p zs I Iz. destruct (isc p) eqn:E; [eapply A; eauto|].
    destruct (rr_form r' ru R) as (b & Eru & _). rewrite Eru in I. cbn [r_in] in I. apply rin_In in I as ([ip|] & _ & X); [discriminate|].
    destruct (_ || _); [|discriminate]. injection X as ->. now apply (repair_lucky _ r Al p zs).
  Qed.

  (** What a rule says: the IR inputs are sent to different leaves of the form,
      and the outputs agree for all values of the leaves that keep the
      constants and the constraints. *)
  Definition bound (b : list (option P * P)) (q : P) : P :=
    match find (fun e => match fst e with Some q' => peqb q q' | None => false end) b with Some (_, p) => p | None => q end.

  Lemma bound_In b q : uses peqb b q = 1%nat -> In (Some q, bound b q) b /\ forall p, In (Some q, p) b -> p = bound b q.
  Proof.
    unfold uses, bound. induction b as [|[[q'|] p'] b IH]; cbn [filter find fst]; [discriminate| |].
    - destruct (peqb q q') eqn:E.
      + apply Hp in E. subst q'. cbn [length]. intros H. split; [now left|]. intros p [[= ->]|I]; [reflexivity|]. exfalso.
        assert (J : In (Some q, p) (filter (fun e => match fst e with Some q' => peqb q q' | None => false end) b)).
        { apply filter_In. split; auto. now apply Hp. }
        destruct (filter _ b); [destruct J|discriminate].
      + intros H. destruct (IH H) as [I J]. split; [now right|]. intros p [[= -> ->]|K]; [|auto].
        rewrite (proj2 (Hp q q) eq_refl) in E. discriminate.
    - intros H. destruct (IH H) as [I J]. split; [now right|]. intros p [K|K]; [discriminate|auto].
  Qed.

  Lemma snd_unique {X Y} (l : list (X * Y)) x x' y : NoDup (map snd l) -> In (x, y) l -> In (x', y) l -> x = x'.
  Proof.
    induction l as [|[u v] l IH]; cbn [map snd]; intros N I J; [destruct I|]. inversion N as [|? ? N1 N2]; subst.
    destruct I as [I|I], J as [J|J]; auto.
    - congruence.
    - injection I as -> ->. destruct N1. now apply (in_map snd) in J.
    - injection J as -> ->. destruct N1. now apply (in_map snd) in I.
  Qed.

  Theorem rule_eq_out ru l0 : well_formed peqb isconst a i ru -> typed td (a_in a) l0 ->
    (forall z p, In (SVal z, p) (r_in ru) -> l0 p = z) -> allowed_consts a ru -> correct_any isconst td a i fs ru ->
    exists f bnd obnd, nth_error (a_forms a) (r_form ru) = Some f /\
      (forall q t, In (q, t) (i_in i) -> In (bnd q, t) (a_in a) /\ In (bnd q) (fst f) /\ ~ In (bnd q) (map fst (a_constr a)) /\
         In (SPath q, bnd q) (r_in ru)) /\
      (forall q t q' t', In (q, t) (i_in i) -> In (q', t') (i_in i) -> bnd q = bnd q' -> q = q') /\
      (forall p zs, In (p, zs) (a_constr a) -> In p (fst f) -> In (l0 p) zs) /\
      (forall q t, In (q, t) (i_out i) -> In (obnd q, t) (a_out a) /\ In (Some q, obnd q) (r_out ru)) /\
      (forall q t q' t', In (q, t) (i_out i) -> In (q', t') (i_out i) -> obnd q = obnd q' -> q = q') /\
      forall q t, In (q, t) (i_out i) ->
        forall l, typed td (a_in a) l ->
          (forall p t', In (p, t') (a_in a) -> In p (fst f) -> isconst t' = true ->
             (forall q' t'', In (q', t'') (i_in i) -> bnd q' <> p) -> l p = l0 p) ->
          (forall p zs, In (p, zs) (a_constr a) -> In p (fst f) -> isc p = false -> In (l p) zs) ->
          i_sem i (fun q => l (bnd q)) q = fs (r_form ru) l (obnd q).
  Proof.
    intros (f & Ef & Tc & (Po & To & Uo) & Wc & Wv) Tl0 Vl0 Al C. pose proof Tc as (Pm & Tb & Ub).
    exists f, (bound (shape (r_in ru))), (bound (r_out ru)). split; [exact Ef|].
    assert (In_src : forall s p, In (s, p) (r_in ru) ->
              In (match s with SPath q => Some q | _ => None end, p) (shape (r_in ru))).
    { intros s p I. apply in_map_iff. exists (s, p). auto. }
    assert (Fp : forall o p, In (o, p) (shape (r_in ru)) -> In p (fst f)).
    { intros o p I. apply (in_map snd) in I. apply (Permutation_in _ Pm) in I. cbn [snd] in I.
      apply in_map_iff in I as (e & E & I). apply filter_In in I as [_ I]. apply (pmem_In peqb Hp) in I. now rewrite E in I. }
    assert (B : forall q t, In (q, t) (i_in i) -> In (Some q, bound (shape (r_in ru)) q) (shape (r_in ru)) /\
              forall p, In (Some q, p) (shape (r_in ru)) -> p = bound (shape (r_in ru)) q).
    { intros q t I. apply bound_In. eapply Ub; eauto. }
    split; [|split; [|split; [|split; [|split]]]].
    - intros q t I. destruct (B q t I) as [J _]. split; [|split; [|split]].
      + destruct (Tb q _ J) as (t' & I' & K). apply filter_In in K as [K _].
        pose proof (In_dget peqb Hp _ _ _ (ok_iin _ Hi) I) as E. pose proof (In_dget peqb Hp _ _ _ (ok_iin _ Hi) I') as E'. congruence.
      + eapply Fp; eauto.
      + intros N. apply in_map_iff in J as ((s & p) & E & J). cbn [fst snd] in E. injection E as E1 E2. rewrite <- E2 in N.
        destruct (Wc s p J N) as (z & ->). discriminate.
      + apply in_map_iff in J as ((s & p) & E & J). cbn [fst snd] in E. injection E as E1 E2. rewrite <- E2.
        destruct s as [q'|z|]; [|discriminate..]. injection E1 as ->. exact J.
    - intros q t q' t' I I' E. destruct (B q t I) as [J _]. destruct (B q' t' I') as [J' _]. rewrite <- E in J'.
      pose proof (bound_once peqb isconst a i fs fv Ha f _ _ _ _ Tc J J') as X. congruence.
    - intros p zs I J. assert (K : In p (map snd (shape (r_in ru)))).
      { apply (Permutation_in _ (Permutation_sym Pm)). pose proof (ok_constr_in _ _ _ _ Ha p ltac:(now apply (in_map fst) in I)) as M.
        apply in_map_iff in M as (e & E & M). apply in_map_iff. exists e. split; auto. apply filter_In. split; auto.
        rewrite E. now apply (pmem_In peqb Hp). }
      apply in_map_iff in K as ((o & p') & E & K). cbn [snd] in E. subst p'. apply in_map_iff in K as ((s & p') & E & K).
      cbn [fst snd] in E. injection E as E1 ->. destruct (Wc s p K ltac:(now apply (in_map fst) in I)) as (z & ->).
      rewrite (Vl0 z p K). eapply Al; eauto.
    - intros q t Iq. destruct (bound_In (r_out ru) q (Uo q t Iq)) as [J _]. split; [|exact J].
      destruct (To q _ J) as (t' & I' & K).
      pose proof (In_dget peqb Hp _ _ _ (ok_iout _ Hi) Iq) as E. pose proof (In_dget peqb Hp _ _ _ (ok_iout _ Hi) I') as E'. congruence.
    - intros q t q' t' I I' E. destruct (bound_In (r_out ru) q (Uo q t I)) as [J _]. destruct (bound_In (r_out ru) q' (Uo q' t' I')) as [J' _].
      rewrite <- E in J'.
      assert (N : NoDup (map snd (r_out ru))) by (apply (Permutation_NoDup (Permutation_sym Po)); exact (ok_out _ _ _ _ Ha)).
      pose proof (snd_unique (r_out ru) _ _ _ N J J') as X. congruence.
    - intros q t Iq. destruct (bound_In (r_out ru) q (Uo q t Iq)) as [J _].
      intros l Tl Kl Cl. apply (C (fun q => l (bound (shape (r_in ru)) q)) l); auto.
      + intros q' t' I. apply Tl. destruct (B q' t' I) as [J' _]. destruct (Tb q' _ J') as (t2 & I2 & K). apply filter_In in K as [K _].
        pose proof (In_dget peqb Hp _ _ _ (ok_iin _ Hi) I) as E. pose proof (In_dget peqb Hp _ _ _ (ok_iin _ Hi) I2) as E'. congruence.
      + intros s p t' I It. pose proof (In_src s p I) as Is. destruct s as [ip|z|]; auto.
        * destruct (Tb ip p Is) as (t2 & I2 & _). f_equal. now apply (B ip t2 I2).
        * assert (Cc : isconst t' = true -> l p = z).
          { intros Ct. rewrite (Kl p t' It (Fp _ _ Is) Ct); [now apply Vl0|]. intros q' t2 I2 E. destruct (B q' t2 I2) as [J' _].
            rewrite E in J'. pose proof (bound_once peqb isconst a i fs fv Ha f _ _ _ _ Tc Is J'). discriminate. }
          split; [exact Cc|]. intros zs Iz. destruct (isconst t') eqn:Ct; [rewrite Cc by reflexivity; eapply Al; eauto|].
          apply (Cl p zs Iz (Fp _ _ Is)). unfold isc. now rewrite (is_const_eq peqb isconst Hp a fs fv Ha _ _ It).
  Qed.

  Theorem rule_eq ru l0 : well_formed peqb isconst a i ru -> typed td (a_in a) l0 ->
    (forall z p, In (SVal z, p) (r_in ru) -> l0 p = z) -> allowed_consts a ru -> correct_any isconst td a i fs ru ->
    exists f bnd, nth_error (a_forms a) (r_form ru) = Some f /\
      (forall q t, In (q, t) (i_in i) -> In (bnd q, t) (a_in a) /\ In (bnd q) (fst f) /\ ~ In (bnd q) (map fst (a_constr a))) /\
      (forall q t q' t', In (q, t) (i_in i) -> In (q', t') (i_in i) -> bnd q = bnd q' -> q = q') /\
      (forall p zs, In (p, zs) (a_constr a) -> In p (fst f) -> In (l0 p) zs) /\
      forall q t, In (q, t) (i_out i) -> exists ap, In (ap, t) (a_out a) /\
        forall l, typed td (a_in a) l ->
          (forall p t', In (p, t') (a_in a) -> In p (fst f) -> isconst t' = true ->
             (forall q' t'', In (q', t'') (i_in i) -> bnd q' <> p) -> l p = l0 p) ->
          (forall p zs, In (p, zs) (a_constr a) -> In p (fst f) -> isc p = false -> In (l p) zs) ->
          i_sem i (fun q => l (bnd q)) q = fs (r_form ru) l ap.
  Proof.
    intros W Tl0 Vl0 Al C. destruct (rule_eq_out ru l0 W Tl0 Vl0 Al C) as (f & bnd & obnd & Ef & H1 & H2 & H3 & H4 & _ & H5).
    exists f, bnd. split; [exact Ef|].
    split; [intros q t I; destruct (H1 q t I) as (X & Y & Z & _); auto|]. split; [exact H2|]. split; [exact H3|].
    intros q t I. exists (obnd q). split; [exact (proj1 (H4 q t I))|exact (H5 q t I)].
  Qed.
End Iff.
