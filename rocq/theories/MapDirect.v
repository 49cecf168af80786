(** Rules in direct terms: a form, constants, and where the inputs and outputs
    go. Machines: architectures whose Const leaves are one instruction. *)
From Coq Require Import ZArith List Bool Lia Permutation.
From Verif Require Import Base BaseLemmas BindModel BindProps MapIdxModel MapIdxProps CegisModel CegisProps
  MapModel MapProofs MapMain MapProps MapIff MapIffProps.
Import ListNotations.
Open Scope list_scope.
Open Scope Z_scope.

(** A form [fi] of the architecture with valid and allowed constants [l0], an
    injective assignment of the IR inputs to leaves of the form and of the IR
    outputs to outputs, of the same types, such that the outputs agree for all
    values of the leaves with these constants and allowed constrained values. *)
Definition direct {P T} (peqb : P -> P -> bool) (isconst : T -> bool) (td : T -> list Z) (a : arch P T) (i : instr P T)
    (fs : nat -> (P -> Z) -> P -> Z) (fv : nat -> (P -> Z) -> bool) : Prop :=
  exists fi f l0 bnd obnd, nth_error (a_forms a) fi = Some f /\ typed td (a_in a) l0 /\ fv fi l0 = true /\
    (forall p zs, In (p, zs) (a_constr a) -> In p (fst f) -> In (l0 p) zs) /\
    (forall q t, In (q, t) (i_in i) -> In (bnd q, t) (a_in a) /\ In (bnd q) (fst f) /\ ~ In (bnd q) (map fst (a_constr a))) /\
    (forall q t q' t', In (q, t) (i_in i) -> In (q', t') (i_in i) -> bnd q = bnd q' -> q = q') /\
    (forall q t, In (q, t) (i_out i) -> In (obnd q, t) (a_out a)) /\
    (forall q t q' t', In (q, t) (i_out i) -> In (q', t') (i_out i) -> obnd q = obnd q' -> q = q') /\
    forall q t, In (q, t) (i_out i) -> forall l, typed td (a_in a) l ->
      (forall p t', In (p, t') (a_in a) -> In p (fst f) -> isconst t' = true ->
         (forall q' t'', In (q', t'') (i_in i) -> bnd q' <> p) -> l p = l0 p) ->
      (forall p zs, In (p, zs) (a_constr a) -> In p (fst f) -> is_const peqb isconst a p = false -> In (l p) zs) ->
      i_sem i (fun q => l (bnd q)) q = fs fi l (obnd q).

Section Direct.
  Context {P T : Type} (peqb : P -> P -> bool) (isconst : T -> bool).
  Hypothesis Hp : forall a b, peqb a b = true <-> a = b.
  Variable td : T -> list Z.
  Variables (a : arch P T) (i : instr P T).
  Variables (fs : nat -> (P -> Z) -> P -> Z) (fv : nat -> (P -> Z) -> bool).
  Hypothesis Ha : arch_ok isconst a fs fv.
  Hypothesis Hi : instr_ok i.

  (** The IR path sent to [p]. *)
  Definition inverse (ir : list (P * T)) (bnd : P -> P) (p : P) : option P :=
    match find (fun e => peqb (bnd (fst e)) p) ir with Some e => Some (fst e) | None => None end.

  Lemma inverse_Some ir bnd p q : inverse ir bnd p = Some q -> exists t, In (q, t) ir /\ bnd q = p.
  Proof.
    unfold inverse. destruct (find _ ir) as [[q' t]|] eqn:E; [|discriminate]. intros [= <-].
    apply find_some in E as [I E]. apply Hp in E. eauto.
  Qed.
  Lemma inverse_None ir bnd p : inverse ir bnd p = None -> forall q t, In (q, t) ir -> bnd q <> p.
  Proof.
    unfold inverse. destruct (find _ ir) as [e|] eqn:E; [discriminate|]. intros _ q t I X.
    pose proof (find_none _ _ E _ I) as Y. cbn [fst] in Y. apply Hp in X. congruence.
  Qed.
  Lemma inverse_bnd ir bnd q t : (forall q t q' t', In (q, t) ir -> In (q', t') ir -> bnd q = bnd q' -> q = q') ->
    In (q, t) ir -> inverse ir bnd (bnd q) = Some q.
  Proof.
    intros Inj I. destruct (inverse ir bnd (bnd q)) as [q'|] eqn:E.
    - destruct (inverse_Some _ _ _ _ E) as (t' & I' & X). f_equal. eapply Inj; eauto.
    - exfalso. exact (inverse_None _ _ _ E q t I eq_refl).
  Qed.

  Lemma uses_inverse ir bnd (flat : list (P * T)) q t :
    (forall q t q' t', In (q, t) ir -> In (q', t') ir -> bnd q = bnd q' -> q = q') -> In (q, t) ir ->
    NoDup (map fst flat) -> In (bnd q) (map fst flat) ->
    uses peqb (map (fun e => (inverse ir bnd (fst e), fst e)) flat) q = 1%nat.
  Proof.
    intros Inj I. unfold uses.
    assert (Z : forall flat, ~ In (bnd q) (map fst flat) ->
              length (filter (fun e : option P * P => match fst e with Some q' => peqb q q' | None => false end)
                        (map (fun e : P * T => (inverse ir bnd (fst e), fst e)) flat)) = 0%nat).
    { intros fl N. induction fl as [|[p u] fl IH]; [reflexivity|]. cbn [map filter fst].
      assert (X : match inverse ir bnd p with Some q' => peqb q q' | None => false end = false).
      { destruct (inverse ir bnd p) as [q'|] eqn:E; [|reflexivity]. apply not_true_is_false. intros X. apply Hp in X. subst q'.
        destruct (inverse_Some _ _ _ _ E) as (_ & _ & Y). apply N. left. auto. }
      rewrite X. apply IH. intros J. apply N. now right. }
    induction flat as [|[p u] fl IH]; cbn [map filter fst]; intros N J; [destruct J|]. inversion N as [|? ? N1 N2]; subst.
    destruct J as [J|J].
    - subst p. rewrite (inverse_bnd ir bnd q t Inj I). rewrite (proj2 (Hp q q) eq_refl). cbn [length]. f_equal. now apply Z.
    - assert (X : match inverse ir bnd p with Some q' => peqb q q' | None => false end = false).
      { destruct (inverse ir bnd p) as [q'|] eqn:E; [|reflexivity]. apply not_true_is_false. intros X. apply Hp in X. subst q'.
        destruct (inverse_Some _ _ _ _ E) as (_ & _ & Y). subst p. contradiction. }
      rewrite X. now apply IH.
  Qed.

  Lemma filter_fst_NoDup (l : list (P * T)) (g : P * T -> bool) : NoDup (map fst l) -> NoDup (map fst (filter g l)).
  Proof.
    induction l as [|e l IH]; cbn [map filter]; intros N; [constructor|]. inversion N as [|? ? N1 N2]; subst.
    destruct (g e); auto. cbn [map]. constructor; auto. intros I. apply N1. apply in_map_iff in I as (e' & X & I).
    apply filter_In in I as [I _]. rewrite <- X. now apply in_map.
  Qed.

  (** The rule for a form, constants and a placement. *)
  Lemma direct_rule fi f l0 bnd obnd :
    nth_error (a_forms a) fi = Some f -> typed td (a_in a) l0 -> fv fi l0 = true ->
    (forall p zs, In (p, zs) (a_constr a) -> In p (fst f) -> In (l0 p) zs) ->
    (forall q t, In (q, t) (i_in i) -> In (bnd q, t) (a_in a) /\ In (bnd q) (fst f) /\ ~ In (bnd q) (map fst (a_constr a))) ->
    (forall q t q' t', In (q, t) (i_in i) -> In (q', t') (i_in i) -> bnd q = bnd q' -> q = q') ->
    (forall q t, In (q, t) (i_out i) -> In (obnd q, t) (a_out a)) ->
    (forall q t q' t', In (q, t) (i_out i) -> In (q', t') (i_out i) -> obnd q = obnd q' -> q = q') ->
    (forall q t, In (q, t) (i_out i) -> forall l, typed td (a_in a) l ->
      (forall p t', In (p, t') (a_in a) -> In p (fst f) -> isconst t' = true ->
         (forall q' t'', In (q', t'') (i_in i) -> bnd q' <> p) -> l p = l0 p) ->
      (forall p zs, In (p, zs) (a_constr a) -> In p (fst f) -> is_const peqb isconst a p = false -> In (l p) zs) ->
      i_sem i (fun q => l (bnd q)) q = fs fi l (obnd q)) ->
    exists ru, r_form ru = fi /\
      (forall p t, In (p, t) (a_in a) -> In p (fst f) -> isconst t = true -> (forall q' t'', In (q', t'') (i_in i) -> bnd q' <> p) ->
         In (SVal (l0 p), p) (r_in ru)) /\
      (forall q t, In (q, t) (i_in i) -> In (SPath q, bnd q) (r_in ru)) /\
      (forall q t, In (q, t) (i_out i) -> In (Some q, obnd q) (r_out ru)) /\
      well_formed peqb isconst a i ru /\ valid_consts td a fv ru /\ allowed_consts a ru /\ correct_any isconst td a i fs ru.
  Proof.
    intros Ef Tl0 Fl0 Cl0 B Inj O OInj E.
    set (flat := filter (fun e : P * T => pmem peqb (fst e) (fst f)) (a_in a)).
    set (s := fun e : P * T => match inverse (i_in i) bnd (fst e) with
              | Some q => SPath q
              | None => if isconst (snd e) then SVal (l0 (fst e))
                        else match dget peqb (a_constr a) (fst e) with Some _ => SVal (l0 (fst e)) | None => SUnbound end
              end).
    assert (Sh : forall e, match s e with SPath q => Some q | _ => None end = inverse (i_in i) bnd (fst e)).
    { intros e. unfold s. destruct (inverse _ _ _); auto. destruct (isconst _); auto. destruct (dget _ _ _); auto. }
    assert (Nflat : NoDup (map fst flat)) by (apply filter_fst_NoDup; exact (ok_in _ _ _ _ Ha)).
    assert (Flat : forall p t, In (p, t) flat <-> In (p, t) (a_in a) /\ In p (fst f)).
    { intros p t. unfold flat. rewrite filter_In. cbn [fst]. now rewrite (pmem_In peqb Hp). }
    exists {| r_form := fi; r_in := map (fun e => (s e, fst e)) flat;
              r_out := map (fun e => (inverse (i_out i) obnd (fst e), fst e)) (a_out a) |}.
    assert (Rin : forall s' p, In (s', p) (map (fun e => (s e, fst e)) flat) -> exists t, In (p, t) flat /\ s' = s (p, t)).
    { intros s' p I. apply in_map_iff in I as ((p' & t) & X & I). cbn [fst] in X. injection X as <- <-. eauto. }
    assert (Sv : forall e z, s e = SVal z -> z = l0 (fst e)).
    { intros e z. unfold s. destruct (inverse _ _ _); [discriminate|]. destruct (isconst _); [now intros [= <-]|].
      destruct (dget _ _ _); [now intros [= <-]|discriminate]. }
    split; [|split; [|split; [|split; [|split; [|split; [|split]]]]]].
    1: reflexivity.
    1: { intros p t It If Ct Nb. cbn [r_in]. apply in_map_iff. exists (p, t). split; [|apply Flat; auto]. cbn [fst snd]. f_equal. unfold s. cbn [fst snd].
      destruct (inverse (i_in i) bnd p) as [q|] eqn:X; [|now rewrite Ct]. destruct (inverse_Some _ _ _ _ X) as (u & Iq & Y). destruct (Nb q u Iq Y). }
    1: { intros q t I. cbn [r_in]. destruct (B q t I) as (B1 & B2 & _). apply in_map_iff. exists (bnd q, t). split; [|apply Flat; auto].
      cbn [fst]. f_equal. unfold s. cbn [fst]. now rewrite (inverse_bnd (i_in i) bnd q t Inj I). }
    1: { intros q t I. cbn [r_out]. apply in_map_iff. exists (obnd q, t). split; [|exact (O q t I)]. cbn [fst].
      now rewrite (inverse_bnd (i_out i) obnd q t OInj I). }
    + exists f. split; [exact Ef|]. cbn [r_in r_out]. split; [|split; [|split]].
      * split; [|split].
        -- unfold shape. rewrite !map_map. cbn [snd]. fold flat. rewrite (map_ext _ fst); auto.
        -- intros q p I. unfold shape in I. rewrite map_map in I. apply in_map_iff in I as ((p' & t) & X & I). cbn [fst snd] in X.
           injection X as X ->. rewrite Sh in X. cbn [fst] in X. destruct (inverse_Some _ _ _ _ X) as (t' & Iq & <-).
           exists t'. split; [exact Iq|]. destruct (B q t' Iq) as (B1 & B2 & _). apply Flat. auto.
        -- intros q t I. unfold shape. rewrite map_map. cbn [fst snd].
           rewrite (map_ext (fun e => (match s e with SPath q0 => Some q0 | _ => None end, fst e)) (fun e => (inverse (i_in i) bnd (fst e), fst e)))
             by (intros e; now rewrite Sh).
           apply (uses_inverse (i_in i) bnd flat q t Inj I Nflat). destruct (B q t I) as (B1 & B2 & _).
           apply in_map_iff. exists (bnd q, t). split; auto. apply Flat. auto.
      * split; [|split].
        -- rewrite map_map. cbn [snd]. reflexivity.
        -- intros q p I. apply in_map_iff in I as ((p' & t) & X & I). cbn [fst] in X. injection X as X ->.
           destruct (inverse_Some _ _ _ _ X) as (t' & Iq & <-). exists t'. split; auto.
        -- intros q t I. apply (uses_inverse (i_out i) obnd (a_out a) q t OInj I (ok_out _ _ _ _ Ha)).
           apply in_map_iff. exists (obnd q, t). split; auto.
      * intros s' p I N. destruct (Rin s' p I) as (t & It & ->). unfold s. cbn [fst snd].
        destruct (inverse (i_in i) bnd p) as [q|] eqn:X.
        { destruct (inverse_Some _ _ _ _ X) as (t' & Iq & <-). destruct (B q t' Iq) as (_ & _ & B3). contradiction. }
        destruct (isconst t); [eauto|]. apply in_map_iff in N as ((p' & zs) & Y & N). cbn [fst] in Y. subst p'.
        rewrite (In_dget peqb Hp _ _ _ (ok_constr _ _ _ _ Ha) N). eauto.
      * intros s' p t I It Ct. destruct (Rin s' p I) as (t' & It' & ->). apply Flat in It' as [It' _].
        assert (t' = t) as ->.
        { pose proof (In_dget peqb Hp _ _ _ (ok_in _ _ _ _ Ha) It). pose proof (In_dget peqb Hp _ _ _ (ok_in _ _ _ _ Ha) It'). congruence. }
        unfold s. cbn [fst snd]. rewrite Ct. destruct (inverse _ _ _); discriminate.
    + exists l0. split; [exact Tl0|]. split; [|exact Fl0]. cbn [r_in]. intros z p I. destruct (Rin _ p I) as (t & _ & X).
      symmetry in X. apply Sv in X. now subst z.
    + cbn [r_in]. intros z p zs I Iz. destruct (Rin _ p I) as (t & It & X). symmetry in X. apply Sv in X. cbn [fst] in X. subst z.
      apply Flat in It as [_ It]. eauto.
    + intros x l Tx Tl F q ap I. cbn [r_in r_out r_form] in *. apply in_map_iff in I as ((p' & t) & X & I). cbn [fst] in X.
      injection X as X ->. destruct (inverse_Some _ _ _ _ X) as (t' & Iq & <-).
      assert (Fl : forall p t, In (p, t) flat -> match s (p, t) with
                | SPath ip => l p = x ip
                | SVal z => (isconst t = true -> l p = z) /\ forall zs, In (p, zs) (a_constr a) -> In (l p) zs
                | SUnbound => True end).
      { intros p u I'. apply (F (s (p, u)) p u).
        - apply in_map_iff. exists (p, u). auto.
        - apply Flat in I' as [I' _]. exact I'. }
      rewrite (ok_ilocal i Hi x (fun q => l (bnd q)) q).
      * apply (E q t' Iq l Tl).
        -- intros p u It If Ct Nb. specialize (Fl p u (proj2 (Flat p u) (conj It If))). unfold s in Fl. cbn [fst snd] in Fl.
           rewrite Ct in Fl. destruct (inverse (i_in i) bnd p) as [q'|] eqn:Y.
           ++ destruct (inverse_Some _ _ _ _ Y) as (u' & Iu & Z). now destruct (Nb q' u' Iu).
           ++ now apply Fl.
        -- intros p zs Iz If Nc.
           assert (exists u, In (p, u) (a_in a)) as (u & It).
           { pose proof (ok_constr_in _ _ _ _ Ha p ltac:(now apply (in_map fst) in Iz)) as M.
             apply in_map_iff in M as ((p' & u) & Y & M). cbn [fst] in Y. subst p'. eauto. }
           specialize (Fl p u (proj2 (Flat p u) (conj It If))). unfold s in Fl. cbn [fst snd] in Fl.
           destruct (inverse (i_in i) bnd p) as [q'|] eqn:Y.
           { destruct (inverse_Some _ _ _ _ Y) as (u' & Iu & <-). destruct (B q' u' Iu) as (_ & _ & B3). destruct B3.
             now apply (in_map fst) in Iz. }
           destruct (isconst u); [now apply Fl|]. rewrite (In_dget peqb Hp _ _ _ (ok_constr _ _ _ _ Ha) Iz) in Fl. now apply Fl.
      * intros p u Iu. destruct (B p u Iu) as (B1 & B2 & _).
        specialize (Fl (bnd p) u (proj2 (Flat _ _) (conj B1 B2))). unfold s in Fl. cbn [fst snd] in Fl.
        rewrite (inverse_bnd (i_in i) bnd p u Inj Iu) in Fl. auto.
  Qed.

  Theorem implementable_direct : implementable peqb isconst td a i fs fv <-> direct peqb isconst td a i fs fv.
  Proof.
    split.
    - intros (ru & W & (l0 & Tl0 & Vl0 & Fl0) & Al & C).
      destruct (rule_eq_out peqb isconst Hp td a i fs fv Ha Hi ru l0 W Tl0 Vl0 Al C)
        as (f & bnd & obnd & Ef & H1 & H2 & H3 & H4 & H5 & H6).
      exists (r_form ru), f, l0, bnd, obnd. split; [exact Ef|]. split; [exact Tl0|]. split; [exact Fl0|].
      split; [exact H3|]. split; [intros q t I; destruct (H1 q t I) as (X & Y & Z & _); auto|].
      split; [exact H2|]. split; [intros q t I; exact (proj1 (H4 q t I))|].
      split; [exact H5|exact H6].
    - intros (fi & f & l0 & bnd & obnd & Ef & Tl0 & Fl0 & Cl0 & B & Inj & O & OInj & E).
      destruct (direct_rule fi f l0 bnd obnd Ef Tl0 Fl0 Cl0 B Inj O OInj E) as (ru & _ & _ & _ & _ & R). exists ru. exact R.
  Qed.
End Direct.

(** ** Machines *)

(** An architecture whose Const leaves are one instruction: [dec fi l] is the
    instruction of form [fi], [sem] what it computes from the other leaves, which
    all forms have. Only Const leaves are constrained. *)
Record machine {P T I : Type} (isconst : T -> bool) (td : T -> list Z) (a : arch P T)
    (fs : nat -> (P -> Z) -> P -> Z) (fv : nat -> (P -> Z) -> bool)
    (valid : I -> Prop) (dec : nat -> (P -> Z) -> I) (sem : I -> (P -> Z) -> P -> Z) : Prop := {
  mc_constr : forall p t, In p (map fst (a_constr a)) -> In (p, t) (a_in a) -> isconst t = true;
  mc_free : forall fi f p t, nth_error (a_forms a) fi = Some f -> In (p, t) (a_in a) -> isconst t = false -> In p (fst f);
  mc_fs : forall fi f l q, nth_error (a_forms a) fi = Some f -> typed td (a_in a) l -> fv fi l = true -> fs fi l q = sem (dec fi l) l q;
  mc_valid : forall fi f l, nth_error (a_forms a) fi = Some f -> typed td (a_in a) l -> fv fi l = true ->
    (forall p zs, In (p, zs) (a_constr a) -> In p (fst f) -> In (l p) zs) -> valid (dec fi l);
  mc_enc : forall i, valid i -> exists fi f l, nth_error (a_forms a) fi = Some f /\ typed td (a_in a) l /\ fv fi l = true /\
    (forall p zs, In (p, zs) (a_constr a) -> In p (fst f) -> In (l p) zs) /\ dec fi l = i;
  mc_dec : forall fi f l l', nth_error (a_forms a) fi = Some f ->
    (forall p t, In (p, t) (a_in a) -> In p (fst f) -> isconst t = true -> l p = l' p) -> dec fi l = dec fi l';
  mc_sem : forall i l l' q, (forall p t, In (p, t) (a_in a) -> isconst t = false -> l p = l' p) -> sem i l q = sem i l' q }.

(** With the IR inputs at [bnd] and the IR outputs at [obnd] the instruction [m]
    computes the IR instruction [i], whatever the other inputs are. *)
Definition placed {P T} (a : arch P T) (i : instr P T) (bnd obnd : P -> P) : Prop :=
  (forall q t, In (q, t) (i_in i) -> In (bnd q, t) (a_in a)) /\
  (forall q t q' t', In (q, t) (i_in i) -> In (q', t') (i_in i) -> bnd q = bnd q' -> q = q') /\
  (forall q t, In (q, t) (i_out i) -> In (obnd q, t) (a_out a)) /\
  (forall q t q' t', In (q, t) (i_out i) -> In (q', t') (i_out i) -> obnd q = obnd q' -> q = q').
Definition computes {P T I} (td : T -> list Z) (a : arch P T) (i : instr P T) (sem : I -> (P -> Z) -> P -> Z) (m : I) (bnd obnd : P -> P) : Prop :=
  forall q t, In (q, t) (i_out i) -> forall l, typed td (a_in a) l -> i_sem i (fun q => l (bnd q)) q = sem m l (obnd q).

(** The instruction of a rule, and where it puts inputs and outputs: the rule
    gives each constant of its form, and the instruction has these constants. *)
Definition rule_of {P T I} (isconst : T -> bool) (td : T -> list Z) (a : arch P T) (i : instr P T) (fv : nat -> (P -> Z) -> bool) (dec : nat -> (P -> Z) -> I) (ru : rule P) (m : I) (bnd obnd : P -> P) : Prop :=
  (exists f l, nth_error (a_forms a) (r_form ru) = Some f /\ typed td (a_in a) l /\ fv (r_form ru) l = true /\
     (forall p t, In (p, t) (a_in a) -> In p (fst f) -> isconst t = true -> In (SVal (l p), p) (r_in ru)) /\ dec (r_form ru) l = m) /\
  (forall q t, In (q, t) (i_in i) -> In (SPath q, bnd q) (r_in ru)) /\
  (forall q t, In (q, t) (i_out i) -> In (Some q, obnd q) (r_out ru)).

Section Machine.
  Context {P T I : Type} (peqb : P -> P -> bool) (teqb : T -> T -> bool) (isconst : T -> bool).
  Hypothesis Heq : eqs peqb teqb.
  Variable td : T -> list Z.
  Variables (a : arch P T) (i : instr P T).
  Variables (fs : nat -> (P -> Z) -> P -> Z) (fv : nat -> (P -> Z) -> bool).
  Hypothesis Ha : arch_ok isconst a fs fv.
  Hypothesis Hi : instr_ok i.
  Variables (valid : I -> Prop) (dec : nat -> (P -> Z) -> I) (sem : I -> (P -> Z) -> P -> Z).
  Hypothesis Hm : machine isconst td a fs fv valid dec sem.
  Hypothesis Nc : forall q t, In (q, t) (i_in i) -> isconst t = false.

  Lemma type_unique p t t' : In (p, t) (a_in a) -> In (p, t') (a_in a) -> t = t'.
  Proof.
    intros X Y. pose proof (In_dget peqb (proj1 Heq) _ _ _ (ok_in _ _ _ _ Ha) X).
    pose proof (In_dget peqb (proj1 Heq) _ _ _ (ok_in _ _ _ _ Ha) Y). congruence.
  Qed.
  Definition const_leaf (p : P) : bool := match dget peqb (a_in a) p with Some t => isconst t | None => false end.
  Lemma const_leaf_eq p t : In (p, t) (a_in a) -> const_leaf p = isconst t.
  Proof. intros X. unfold const_leaf. now rewrite (In_dget peqb (proj1 Heq) _ _ _ (ok_in _ _ _ _ Ha) X). Qed.
  (** [l] with the constants of [l0]. *)
  Definition with_consts (l0 l : P -> Z) (p : P) : Z := if const_leaf p then l0 p else l p.
  Lemma with_typed l0 l : typed td (a_in a) l0 -> typed td (a_in a) l -> typed td (a_in a) (with_consts l0 l).
  Proof. intros X Y p t It. unfold with_consts. destruct (const_leaf p); auto. Qed.
  Lemma fv_with fi f l0 l : nth_error (a_forms a) fi = Some f -> fv fi (with_consts l0 l) = fv fi l0.
  Proof.
    intros Ef. apply (ok_vlocal _ _ _ _ Ha fi f _ _ Ef). intros p t _ It Ct. unfold with_consts.
    now rewrite (const_leaf_eq p t It), Ct.
  Qed.
  Lemma dec_with fi f l0 l : nth_error (a_forms a) fi = Some f -> dec fi (with_consts l0 l) = dec fi l0.
  Proof.
    intros Ef. apply (mc_dec _ _ _ _ _ _ _ _ Hm fi f _ _ Ef). intros p t It _ Ct. unfold with_consts.
    now rewrite (const_leaf_eq p t It), Ct.
  Qed.
  Lemma sem_with m l0 l q : sem m (with_consts l0 l) q = sem m l q.
  Proof.
    apply (mc_sem _ _ _ _ _ _ _ _ Hm). intros p t It Ct. unfold with_consts. now rewrite (const_leaf_eq p t It), Ct.
  Qed.
  Lemma isc_const p : In p (map fst (a_constr a)) -> is_const peqb isconst a p = true.
  Proof.
    intros X. pose proof (ok_constr_in _ _ _ _ Ha p X) as M. apply in_map_iff in M as ((p' & t) & E & M). cbn [fst] in E. subst p'.
    rewrite (is_const_eq peqb isconst (proj1 Heq) a fs fv Ha _ _ M). exact (mc_constr _ _ _ _ _ _ _ _ Hm p t X M).
  Qed.

  Lemma rule_machine ru : well_formed peqb isconst a i ru -> valid_consts td a fv ru -> allowed_consts a ru ->
    correct_any isconst td a i fs ru ->
    exists m bnd obnd, valid m /\ placed a i bnd obnd /\ computes td a i sem m bnd obnd /\ rule_of isconst td a i fv dec ru m bnd obnd.
  Proof.
    intros W (l0 & Tl0 & Vl0 & Fl0) Al C.
    destruct (rule_eq_out peqb isconst (proj1 Heq) td a i fs fv Ha Hi ru l0 W Tl0 Vl0 Al C)
      as (f & bnd & obnd & Ef & H1 & H2 & H3 & H4 & H5 & H6).
    exists (dec (r_form ru) l0), bnd, obnd. split; [exact (mc_valid _ _ _ _ _ _ _ _ Hm _ _ _ Ef Tl0 Fl0 H3)|]. split; [|split].
    - split; [|split; [exact H2|split; [|exact H5]]].
      + intros q t X. exact (proj1 (H1 q t X)).
      + intros q t X. exact (proj1 (H4 q t X)).
    - intros q t X l Tl. rewrite <- (sem_with _ l0 l). rewrite <- (dec_with _ _ l0 l Ef).
      rewrite <- (mc_fs _ _ _ _ _ _ _ _ Hm _ _ _ _ Ef (with_typed _ _ Tl0 Tl)).
      + rewrite <- (H6 q t X (with_consts l0 l)).
        * apply (ok_ilocal _ Hi). intros p u Ip. destruct (H1 p u Ip) as (B1 & _). unfold with_consts.
          now rewrite (const_leaf_eq _ _ B1), (Nc p u Ip).
        * now apply with_typed.
        * intros p u Ip _ Cu _. unfold with_consts. now rewrite (const_leaf_eq _ _ Ip), Cu.
        * intros p zs Ip If Ni. rewrite (isc_const p) in Ni; [discriminate|]. now apply (in_map fst) in Ip.
      + now rewrite (fv_with _ _ _ _ Ef).
    - split.
      { exists f, l0. split; [exact Ef|]. split; [exact Tl0|]. split; [exact Fl0|]. split; [|reflexivity]. intros p t Ip If Ct.
        destruct W as (f' & Ef' & (Pm & Tb & _) & _ & _ & Wv). rewrite Ef in Ef'. injection Ef' as <-.
        assert (J : In p (map snd (shape (r_in ru)))).
        { apply (Permutation_in _ (Permutation_sym Pm)). apply in_map_iff. exists (p, t). split; [reflexivity|].
          apply filter_In. split; [exact Ip|]. apply (pmem_In peqb (proj1 Heq)). exact If. }
        apply in_map_iff in J as ((o & p') & E & J). cbn [snd] in E. subst p'. pose proof J as J'.
        apply in_map_iff in J as ((s & p') & E & J). destruct s as [q|z|]; injection E as <- <-.
        - exfalso. destruct (Tb q p' J') as (u & Iq & Iu). apply filter_In in Iu as [Iu _].
          rewrite (type_unique p' t u Ip Iu) in Ct. rewrite (Nc q u Iq) in Ct. discriminate.
        - rewrite (Vl0 z p' J). exact J.
        - exfalso. exact (Wv _ _ t J Ip Ct eq_refl). }
      split; [intros q t X; exact (proj2 (proj2 (proj2 (H1 q t X))))|intros q t X; exact (proj2 (H4 q t X))].
  Qed.

  (** Every instruction that computes the IR instruction is the one of a rule. *)
  Lemma machine_rule m bnd obnd : valid m -> placed a i bnd obnd -> computes td a i sem m bnd obnd ->
    exists ru, well_formed peqb isconst a i ru /\ valid_consts td a fv ru /\ allowed_consts a ru /\ correct_any isconst td a i fs ru /\
      rule_of isconst td a i fv dec ru m bnd obnd.
  Proof.
    intros Vm (B1 & B2 & B3 & B4) Co.
    destruct (mc_enc _ _ _ _ _ _ _ _ Hm m Vm) as (fi & f & l0 & Ef & Tl0 & Fl0 & Cl0 & Ed).
    assert (Nb : forall p u, In (p, u) (a_in a) -> isconst u = true -> forall q' u', In (q', u') (i_in i) -> bnd q' <> p).
    { intros p u Ip Cu q' u' Iq X. pose proof (B1 q' u' Iq) as Y. rewrite X in Y.
      rewrite (type_unique p u u' Ip Y) in Cu. rewrite (Nc q' u' Iq) in Cu. discriminate. }
    destruct (direct_rule peqb isconst (proj1 Heq) td a i fs fv Ha Hi fi f l0 bnd obnd Ef Tl0 Fl0 Cl0) as (ru & Rf & Rc & Ri & Ro & R); try assumption.
    - intros q t X. pose proof (B1 q t X) as Y. split; [exact Y|]. split.
      + exact (mc_free _ _ _ _ _ _ _ _ Hm fi f _ _ Ef Y (Nc q t X)).
      + intros N. pose proof (mc_constr _ _ _ _ _ _ _ _ Hm _ _ N Y) as K. rewrite (Nc q t X) in K. discriminate.
    - intros q t X l Tl Cl _.
      assert (K : forall p u, In (p, u) (a_in a) -> In p (fst f) -> isconst u = true -> l p = l0 p).
      { intros p u Ip If Cu. apply (Cl p u Ip If Cu). exact (Nb p u Ip Cu). }
      rewrite (Co q t X l Tl). rewrite (mc_fs _ _ _ _ _ _ _ _ Hm fi f l (obnd q) Ef Tl).
      + rewrite <- Ed. f_equal. symmetry. exact (mc_dec _ _ _ _ _ _ _ _ Hm fi f l l0 Ef K).
      + rewrite (ok_vlocal _ _ _ _ Ha fi f l l0 Ef); [exact Fl0|]. intros p u If Ip Cu. now apply (K p u).
    - exists ru. destruct R as (R1 & R2 & R3 & R4). split; [exact R1|]. split; [exact R2|]. split; [exact R3|]. split; [exact R4|].
      split; [|split; [exact Ri|exact Ro]]. exists f, l0. rewrite Rf. split; [exact Ef|]. split; [exact Tl0|]. split; [exact Fl0|]. split; [|exact Ed].
      intros p t Ip If Ct. apply (Rc p t Ip If Ct). exact (Nb p t Ip Ct).
  Qed.

  (** A rule exists exactly if some instruction computes the IR instruction. *)
  Theorem machine_iff : implementable peqb isconst td a i fs fv <->
    exists m bnd obnd, valid m /\ placed a i bnd obnd /\ computes td a i sem m bnd obnd.
  Proof.
    split.
    - intros (ru & W & V & Al & C). destruct (rule_machine ru W V Al C) as (m & bnd & obnd & Vm & Pl & Co & _). eauto 6.
    - intros (m & bnd & obnd & Vm & Pl & Co). destruct (machine_rule m bnd obnd Vm Pl Co) as (ru & W & V & Al & C & _). exists ru. auto.
  Qed.

  (** ** The mapper *)
  Variables (k : ivar) (tagd : P -> list Z).
  Hypotheses (Hext : arch_ext a) (Hn : inhabited_types td tagd a i) (Hcs : constr_ok td a) (Hh : a_has_const a = true) (Ho : i_out i <> []).

  Definition built_with (simple : bool) : res (built P) :=
    (if simple then build_simple else build_expanded) peqb teqb isconst k a i.
  (** What [solve] may return, with any of the strategies. *)
  Definition answer (simple : bool) (o : outcome (var P)) : Prop :=
    match built_with simple with
    | Ok BNone => o = ONone
    | Ok (BForm y phi) => answers peqb (dom peqb teqb td tagd k a i) y (mkform (vars_of a i) phi) o
    | Err _ => False
    end.

  Lemma machine_all_forms : in_all_forms peqb isconst a.
  Proof. intros p fi f X Y. rewrite (isc_const p X) in Y. discriminate. Qed.
  Lemma machine_const_allowed ru : const_allowed peqb isconst a ru -> allowed_consts a ru.
  Proof. intros H z p zs X Y. apply (H p zs z Y); auto. apply isc_const. now apply (in_map fst) in Y. Qed.
  Lemma built_cases simple : built_with simple = build_expanded peqb teqb isconst k a i \/
    built_with simple = build_simple peqb teqb isconst k a i /\
      i_out i <> [] /\ (forall p t, In (p, t) (i_in i) -> isconst t = false) /\ in_all_forms peqb isconst a.
  Proof. unfold built_with. destruct simple; [right|now left]. split; [reflexivity|]. auto using machine_all_forms. Qed.
  Lemma built_wf simple y phi : built_with simple = Ok (BForm y phi) -> wf (mkform (vars_of a i) phi).
  Proof.
    destruct Heq as [Hp Ht]. unfold built_with. destruct simple; intros E.
    - exact (simple_wf peqb teqb isconst Hp Ht k a i _ _ Ha Hi Hext y phi E).
    - exact (expanded_wf peqb teqb isconst Hp Ht k a i _ _ Ha Hi Hext y phi E).
  Qed.

  (** A rule found is an instruction that computes the IR instruction, with the
      inputs and outputs of the rule; None is answered only if no valid
      instruction does, however inputs and outputs are placed. *)
  Theorem machine_solve simple o : answer simple o ->
    match o with
    | ODone r => exists ru m bnd obnd, rr_from_solver peqb teqb isconst k a i r = Ok ru /\
        valid m /\ placed a i bnd obnd /\ computes td a i sem m bnd obnd /\ rule_of isconst td a i fv dec ru m bnd obnd
    | ONone => forall m bnd obnd, valid m -> placed a i bnd obnd -> ~ computes td a i sem m bnd obnd
    | _ => True
    end.
  Proof.
    pose proof (C69_solve_partial _ _ peqb teqb isconst Heq td tagd k a i fs fv Ha Hext Hi Hn Hcs Hh _ (built_cases simple)) as H.
    unfold answer. intros A.
    assert (K : match o with
      | ODone r => implementable peqb isconst td a i fs fv /\
          exists ru, rr_from_solver peqb teqb isconst k a i r = Ok ru /\ well_formed peqb isconst a i ru /\
            valid_consts td a fv ru /\ const_allowed peqb isconst a ru /\ correct_any isconst td a i fs ru
      | ONone => ~ implementable peqb isconst td a i fs fv
      | _ => True
      end).
    { destruct (built_with simple) as [[|y phi]|e] eqn:E; [subst o; exact H| |destruct A]. exact (H _ (built_wf simple y phi E) o A). }
    destruct o as [r| | |]; auto.
    - destruct K as (_ & ru & Er & W & V & Ca & C).
      destruct (rule_machine ru W V (machine_const_allowed ru Ca) C) as (m & bnd & obnd & M). exists ru, m, bnd, obnd. split; [exact Er|exact M].
    - rewrite machine_iff in K. intros m bnd obnd Vm Pl Co. apply K. eauto 6.
  Qed.

  (** If some instruction computes it, the formula is built and a solver that
      decides it finds a rule. *)
  Theorem machine_found simple m bnd obnd : valid m -> placed a i bnd obnd -> computes td a i sem m bnd obnd ->
    exists y phi, built_with simple = Ok (BForm y phi) /\
      forall fo, forall_ok (dom peqb teqb td tagd k a i) fo ->
        exists r, direct_solve fo y (mkform (vars_of a i) phi) = ODone r.
  Proof.
    intros Vm Pl Co. assert (M : implementable peqb isconst td a i fs fv) by (apply machine_iff; eauto 6).
    assert (S : satisfiable peqb teqb td tagd k a i (built_with simple)).
    { destruct (built_cases simple) as [->|(-> & X1 & X2 & X3)].
      - now apply (C69_expanded_partial _ _ peqb teqb isconst Heq td tagd k a i _ _ Ha Hext Hi Hn Hcs Hh).
      - now apply (C69_simple_partial _ _ peqb teqb isconst Heq td tagd k a i _ _ Ha Hext Hi Hn Hcs Hh X1 X2 X3). }
    destruct S as (y & phi & r & E & S & Sol). exists y, phi. split; [exact E|]. intros fo Hf. unfold direct_solve.
    destruct (fo y _) as [r'|] eqn:Fo; [eauto|]. exfalso.
    assert (A : answer simple ONone).
    { unfold answer. rewrite E. apply (by_direct peqb _ _ _ _ fo Hf). unfold direct_solve. now rewrite Fo. }
    pose proof (machine_solve simple ONone A) as K. cbn in K. exact (K m bnd obnd Vm Pl Co).
  Qed.
End Machine.

(** ** Instructions of one and two words *)
Definition word2 {P T} (q0 q1 qo : P) (t : T) (f : Z -> Z -> Z) : instr P T :=
  {| i_in := [(q0, t); (q1, t)]; i_out := [(qo, t)]; i_sem := fun x _ => f (x q0) (x q1) |}.
Definition word1 {P T} (q0 qo : P) (t : T) (f : Z -> Z) : instr P T :=
  {| i_in := [(q0, t)]; i_out := [(qo, t)]; i_sem := fun x _ => f (x q0) |}.

Lemma word2_ok {P T} (q0 q1 qo : P) (t : T) f : q0 <> q1 -> instr_ok (word2 q0 q1 qo t f).
Proof.
  intros N. constructor.
  - cbn [word2 i_in map fst]. constructor; [intros [X|[]]; congruence|]. constructor; [intros []|constructor].
  - cbn [word2 i_out map fst]. constructor; [intros []|constructor].
  - intros x x' q H. cbn [word2 i_sem]. rewrite (H q0 t), (H q1 t); cbn; auto.
Qed.
Lemma word1_ok {P T} (q0 qo : P) (t : T) f : instr_ok (word1 q0 qo t f).
Proof.
  constructor.
  - cbn [word1 i_in map fst]. constructor; [intros []|constructor].
  - cbn [word1 i_out map fst]. constructor; [intros []|constructor].
  - intros x x' q H. cbn [word1 i_sem]. rewrite (H q0 t); cbn; auto.
Qed.

(** [m] computes the function of the inputs [p0], [p1] at the output [po]. *)
Definition does2 {P T I} (td : T -> list Z) (a : arch P T) (sem : I -> (P -> Z) -> P -> Z) (t : T) (f : Z -> Z -> Z) (m : I) (p0 p1 po : P) : Prop :=
  In (p0, t) (a_in a) /\ In (p1, t) (a_in a) /\ p0 <> p1 /\ In (po, t) (a_out a) /\
  forall l, typed td (a_in a) l -> f (l p0) (l p1) = sem m l po.
Definition does1 {P T I} (td : T -> list Z) (a : arch P T) (sem : I -> (P -> Z) -> P -> Z) (t : T) (f : Z -> Z) (m : I) (p0 po : P) : Prop :=
  In (p0, t) (a_in a) /\ In (po, t) (a_out a) /\ forall l, typed td (a_in a) l -> f (l p0) = sem m l po.

Section Words.
  Context {P T I : Type} (peqb : P -> P -> bool) (td : T -> list Z).
  Hypothesis Hp : forall a b, peqb a b = true <-> a = b.
  Variables (a : arch P T) (sem : I -> (P -> Z) -> P -> Z) (q0 q1 qo : P) (t : T).
  Hypothesis N01 : q0 <> q1.

  Lemma does2_from f m bnd obnd : placed a (word2 q0 q1 qo t f) bnd obnd -> computes td a (word2 q0 q1 qo t f) sem m bnd obnd ->
    does2 td a sem t f m (bnd q0) (bnd q1) (obnd qo).
  Proof.
    intros (B1 & B2 & B3 & _) C. cbn [word2 i_in i_out] in *. split; [apply B1; now left|]. split; [apply B1; right; now left|]. split.
    - intros X. apply N01. eapply B2; [now left|right; now left|exact X].
    - split; [apply B3; now left|]. intros l Tl. exact (C qo t (or_introl eq_refl) l Tl).
  Qed.
  Lemma does2_to f m p0 p1 po : does2 td a sem t f m p0 p1 po ->
    exists bnd obnd, placed a (word2 q0 q1 qo t f) bnd obnd /\ computes td a (word2 q0 q1 qo t f) sem m bnd obnd.
  Proof.
    intros (I0 & I1 & N & Io & E). exists (fun q => if peqb q q0 then p0 else p1), (fun _ => po).
    assert (E0 : peqb q0 q0 = true) by now apply Hp.
    assert (E1 : peqb q1 q0 = false) by (apply not_true_is_false; intros X; apply Hp in X; congruence).
    split; [split; [|split; [|split]]|]; cbn [word2 i_in i_out i_sem].
    - intros q u [X|[X|[]]]; injection X as <- <-; rewrite ?E0, ?E1; auto.
    - intros q u q' u' [X|[X|[]]] [Y|[Y|[]]]; injection X as <- <-; injection Y as <- <-; rewrite ?E0, ?E1; congruence.
    - intros q u [X|[]]. injection X as <- <-. exact Io.
    - intros q u q' u' [X|[]] [Y|[]] _. congruence.
    - intros q u [X|[]] l Tl. injection X as <- <-. cbn [word2 i_sem]. rewrite E0, E1. now apply E.
  Qed.
  Lemma does1_from f m bnd obnd : placed a (word1 q0 qo t f) bnd obnd -> computes td a (word1 q0 qo t f) sem m bnd obnd ->
    does1 td a sem t f m (bnd q0) (obnd qo).
  Proof.
    intros (B1 & B2 & B3 & _) C. cbn [word1 i_in i_out] in *. split; [apply B1; now left|].
    split; [apply B3; now left|]. intros l Tl. exact (C qo t (or_introl eq_refl) l Tl).
  Qed.
  Lemma does1_to f m p0 po : does1 td a sem t f m p0 po ->
    exists bnd obnd, placed a (word1 q0 qo t f) bnd obnd /\ computes td a (word1 q0 qo t f) sem m bnd obnd.
  Proof.
    intros (I0 & Io & E). exists (fun _ => p0), (fun _ => po).
    split; [split; [|split; [|split]]|]; cbn [word1 i_in i_out i_sem].
    - intros q u [X|[]]; injection X as <- <-; auto.
    - intros q u q' u' [X|[]] [Y|[]] _. congruence.
    - intros q u [X|[]]. injection X as <- <-. exact Io.
    - intros q u q' u' [X|[]] [Y|[]] _. congruence.
    - intros q u [X|[]] l Tl. injection X as <- <-. cbn [word1 i_sem]. now apply E.
  Qed.
End Words.
