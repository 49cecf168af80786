(** The simple formula for IR instructions with Const inputs. A Const leaf that
    some binding gives to an IR input and some binding leaves free has two
    variables (peak/mapper/mapper.py 536-568); the formula reads the one that the
    chosen binding calls for, and asks for validity (571) for all values of the
    bound leaves. *)
From Coq Require Import ZArith List Bool Lia Permutation.
From Verif Require Import Base BaseLemmas BindModel BindProps MapIdxModel MapIdxProps CegisModel CegisProps
  MapModel MapProofs MapMain MapProps MapIff MapIffProps MapDirect.
Import ListNotations.
Open Scope list_scope.
Open Scope Z_scope.

(** As [direct], but valid for all values of the Const leaves that take an IR
    input. *)
Definition direct_simple {P T} (peqb : P -> P -> bool) (isconst : T -> bool) (td : T -> list Z) (a : arch P T) (i : instr P T)
    (fs : nat -> (P -> Z) -> P -> Z) (fv : nat -> (P -> Z) -> bool) : Prop :=
  exists fi f l0 bnd obnd, nth_error (a_forms a) fi = Some f /\ typed td (a_in a) l0 /\
    (forall p zs, In (p, zs) (a_constr a) -> In p (fst f) -> In (l0 p) zs) /\
    (forall q t, In (q, t) (i_in i) -> In (bnd q, t) (a_in a) /\ In (bnd q) (fst f) /\ ~ In (bnd q) (map fst (a_constr a))) /\
    (forall q t q' t', In (q, t) (i_in i) -> In (q', t') (i_in i) -> bnd q = bnd q' -> q = q') /\
    (forall q t, In (q, t) (i_out i) -> In (obnd q, t) (a_out a)) /\
    (forall q t q' t', In (q, t) (i_out i) -> In (q', t') (i_out i) -> obnd q = obnd q' -> q = q') /\
    forall l, typed td (a_in a) l ->
      (forall p t', In (p, t') (a_in a) -> In p (fst f) -> isconst t' = true ->
         (forall q' t'', In (q', t'') (i_in i) -> bnd q' <> p) -> l p = l0 p) ->
      fv fi l = true /\
      ((forall p zs, In (p, zs) (a_constr a) -> In p (fst f) -> is_const peqb isconst a p = false -> In (l p) zs) ->
       forall q t, In (q, t) (i_out i) -> i_sem i (fun q => l (bnd q)) q = fs fi l (obnd q)).

Section Const.
  Context {P T : Type} (peqb : P -> P -> bool) (teqb : T -> T -> bool) (isconst : T -> bool).
  Hypothesis Hp : forall a b, peqb a b = true <-> a = b.
  Hypothesis Ht : forall a b, teqb a b = true <-> a = b.
  Variable td : T -> list Z.
  Variables (k : ivar) (a : arch P T) (i : instr P T).
  Variables (fs : nat -> (P -> Z) -> P -> Z) (fv : nat -> (P -> Z) -> bool).
  Hypothesis Ha : arch_ok isconst a fs fv.
  Hypothesis Hi : instr_ok i.
  Hypothesis Hc : constr_ok td a.
  Variable tagd : P -> list Z.
  Let ib := input_bindings peqb teqb a i.
  Let ob := output_bindings peqb teqb a i.
  Let D := dom peqb teqb td tagd k a i.
  Let isc := is_const peqb isconst a.

  (** Which variable stands for a leaf of the chosen form. *)
  Lemma e_conds_iff fi f ibs bi b r p s0 :
    nth_error (a_forms a) fi = Some f -> nth_error ib fi = Some ibs -> nth_error ibs bi = Some b ->
    form_match k a fi r = true -> ib_match peqb teqb k a i bi r = true -> In (s0, p) b ->
    e_conds peqb teqb isconst k a i p r = true <-> s0 = None /\ isc p = true.
  Proof.
    intros Ef E2 E3 K1 K2 I.
    destruct (ib_typed peqb teqb isconst Hp Ht a i fs fv Ha Hi fi ibs bi b E2 E3) as (f' & Ef' & Tb & _).
    unfold e_conds. rewrite existsb_exists. split.
    - intros ((fi' & bi') & J & M). cbn [fst snd] in M. apply andb_true_iff in M as [Ma Mb].
      apply (exists_fbs_In peqb teqb isconst Hp a i) in J as (b' & J & J1 & J2). apply (fbs_In peqb teqb a i) in J as (ibs' & F1 & F2).
      destruct (fb_index peqb teqb k a i r fi ibs bi b fi' ibs' bi' b') as (-> & -> & ->); auto.
      split; auto. eapply (bound_once peqb isconst a i fs fv Ha f' b p); eauto.
    - intros [-> C]. exists (fi, bi). cbn [fst snd]. rewrite K1, K2. split; auto.
      apply (exists_fbs_In peqb teqb isconst Hp a i). exists b. split; [|auto]. apply (fbs_In peqb teqb a i). eauto.
  Qed.

  Lemma constrained_not_bound p s fb : In p (map fst (a_constr a)) -> In fb (fbs peqb teqb a i) -> In (s, p) (snd fb) -> s = None.
  Proof.
    intros Ip I J. destruct s as [ip|]; [|reflexivity]. exfalso. destruct fb as ((fi & bi) & b).
    apply (fbs_In peqb teqb a i) in I as (ibs & E1 & E2).
    destruct (ib_typed peqb teqb isconst Hp Ht a i fs fv Ha Hi fi ibs bi b E1 E2) as (f & _ & _ & Cb).
    exact (Cb ip p J Ip).
  Qed.

  Lemma constrained_no_overlap p : In p (map fst (a_constr a)) -> overlap peqb teqb isconst a i p = false.
  Proof.
    intros Ip. destruct (overlap peqb teqb isconst a i p) eqn:O; auto. exfalso.
    pose proof (overlap_const peqb teqb isconst Hp a i p O) as C. apply (overlap_iff peqb teqb isconst Hp a i) in O as [I _].
    apply (forall_arch_In peqb teqb isconst a i) in I as (fb & s & I & J & N).
    rewrite N in C; [discriminate|]. eapply constrained_not_bound; eauto.
  Qed.

  (** ** Solutions give [direct_simple] *)
  Theorem simple_direct y phi vs r : in_all_forms peqb isconst a ->
    build_simple peqb teqb isconst k a i = Ok (BForm y phi) -> sorted D r ->
    solves D y {| CegisModel.fv := vs; sem := phi |} r -> direct_simple peqb isconst td a i fs fv.
  Proof.
    intros Al. unfold build_simple. destruct (negb (has_bindings peqb teqb a i)); [discriminate|].
    destruct (negb (a_has_const a)); [discriminate|].
    match goal with |- (if ?c then _ else _) = _ -> _ => destruct c; [discriminate|] end.
    destruct (empty_constraint a); [discriminate|].
    intros E. injection E as <- <-. intros S Sol.
    set (r1 := overlap_sub peqb teqb isconst k a i r).
    pose proof (Sol r S (fun v _ => eq_refl)) as H0. cbn [sem] in H0. fold r1 in H0.
    unfold formula_simple, preconditions in H0. rewrite !andb_true_iff in H0.
    destruct H0 as [[[[[_ Hf] Ho] Hk] Hfb] _].
    apply existsb_exists in Hf as ((fi & f) & If & Hf). apply enumerate_In in If. cbn [fst snd] in Hf.
    apply andb_true_iff in Hf as [M1 G2].
    apply existsb_exists in Ho as ((bo & o) & E4 & M3). apply enumerate_In in E4. cbn [fst] in M3.
    apply existsb_exists in Hfb as (((fi2 & bi) & b) & Ib & Hfb). cbn [fst snd] in Hfb. apply andb_true_iff in Hfb as [M1' M2].
    pose proof Ib as FBI. apply (fbs_In peqb teqb a i) in Ib as (ibs & E2 & E3).
    assert (fi2 = fi) as ->.
    { apply (matches_same k (nforms a) VFi fi2 fi r1); auto; [|eapply nth_error_lt, If].
      apply (ib_nth peqb teqb a i) in E2 as (f2 & Ef & _). now apply nth_error_lt in Ef. }
    destruct (ib_typed peqb teqb isconst Hp Ht a i fs fv Ha Hi fi ibs bi b E2 E3) as (f' & Ef & Tb & Cb).
    rewrite If in Ef. injection Ef as <-. pose proof Tb as (Pm & Ty & Us).
    pose proof (ob_typed peqb teqb isconst Hp Ht a i fs fv Ha Hi bo o E4) as (Po & To & Uo).
    rewrite tag_conds_iff in G2.
    set (bnd := bound peqb b). set (obnd := bound peqb o).
    assert (B : forall q t, In (q, t) (i_in i) -> In (Some q, bnd q) b /\ forall p, In (Some q, p) b -> p = bnd q).
    { intros q t I. apply (bound_In peqb Hp). eapply Us; eauto. }
    assert (Bt : forall q t, In (q, t) (i_in i) -> In (bnd q, t) (a_in a) /\ In (bnd q) (fst f)).
    { intros q t I. destruct (B q t I) as [J _]. destruct (Ty q _ J) as (t' & I' & K). apply filter_In in K as [K K'].
      pose proof (In_dget peqb Hp _ _ _ (ok_iin _ Hi) I) as X. pose proof (In_dget peqb Hp _ _ _ (ok_iin _ Hi) I') as X'.
      rewrite X in X'. injection X' as <-. split; [exact K|]. now apply (pmem_In peqb Hp) in K'. }
    assert (Tr : typed td (a_in a) (leaves_of r1)).
    { intros p t I. pose proof (overlap_sub_sorted peqb teqb isconst td k a i tagd r S p) as J.
      now rewrite (path_dom_In peqb Hp td _ p t (ok_in _ _ _ _ Ha) I) in J. }
    (* constants: those of the solution, and any allowed value for the other constrained leaves *)
    set (l0 := fun p => if isc p then r1 (VLeaf p) else match dget peqb (a_constr a) p with Some zs => hd 0 zs | None => r1 (VLeaf p) end).
    exists fi, f, l0, bnd, obnd. split; [exact If|]. split.
    { intros p t I. unfold l0. destruct (isc p); [exact (Tr p t I)|]. destruct (dget peqb (a_constr a) p) as [zs|] eqn:E; [|exact (Tr p t I)].
      apply (dget_In peqb Hp) in E. destruct (Hc p zs E) as [Ne Hz]. apply (Hz t); auto. now apply hd_In. }
    split.
    { intros p zs I _. unfold l0. rewrite (In_dget peqb Hp _ _ _ (ok_constr _ _ _ _ Ha) I). destruct (isc p) eqn:C.
      - unfold constr_conds in Hk. rewrite forallb_forall in Hk.
        specialize (Hk _ I). cbn [fst snd] in Hk. fold (isc p) in Hk. rewrite C in Hk. cbn [Bool.eqb] in Hk.
        apply existsb_exists in Hk as (z & Iz & E). apply Z.eqb_eq in E. now rewrite E.
      - apply hd_In. now apply (Hc p). }
    split.
    { intros q t I. destruct (Bt q t I) as [B1 B2]. split; [exact B1|]. split; [exact B2|].
      destruct (B q t I) as [J _]. exact (Cb q _ J). }
    split.
    { intros q t q' t' I I' E. destruct (B q t I) as [J _]. destruct (B q' t' I') as [J' _]. rewrite <- E in J'.
      pose proof (bound_once peqb isconst a i fs fv Ha f _ _ _ _ Tb J J') as X. congruence. }
    split.
    { intros q t I. destruct (bound_In peqb Hp o q (Uo q t I)) as [J _]. destruct (To q _ J) as (t' & I' & K).
      pose proof (In_dget peqb Hp _ _ _ (ok_iout _ Hi) I) as X. pose proof (In_dget peqb Hp _ _ _ (ok_iout _ Hi) I') as X'.
      rewrite X in X'. injection X' as <-. exact K. }
    split.
    { intros q t q' t' I I' E. destruct (bound_In peqb Hp o q (Uo q t I)) as [J _]. destruct (bound_In peqb Hp o q' (Uo q' t' I')) as [J' _].
      unfold obnd in E. rewrite <- E in J'.
      assert (N : NoDup (map snd o)) by (apply (Permutation_NoDup (Permutation_sym Po)); exact (ok_out _ _ _ _ Ha)).
      pose proof (snd_unique o _ _ _ N J J') as X. congruence. }
    intros l Tl Kl.
    set (y := forall_simple peqb teqb isconst a i) in *.
    set (x := fun q => l (bnd q)).
    set (s := choose peqb y r x l).
    assert (NY : forall v, ~ In v y -> s v = r v).
    { intros v N. unfold s, choose. destruct (in_y peqb y v) eqn:E; auto. apply (in_y_In peqb Hp) in E. contradiction. }
    assert (NY' : forall v, (forall p, v <> VAll p) -> (forall p, v <> VLeaf p) -> (forall p, v <> VIr p) -> s v = r v).
    { intros v A B' C. apply NY. intros I. apply (forall_simple_In peqb teqb isconst a i) in I as [(p & E & _)|[(p & E & _)|(p & E & _)]];
        [exact (A p E)|exact (B' p E)|exact (C p E)]. }
    assert (YA : forall p, In (VAll p) y -> s (VAll p) = l p).
    { intros p I. unfold s, choose. apply (in_y_In peqb Hp) in I. now rewrite I. }
    assert (YL : forall p, In (VLeaf p) y -> s (VLeaf p) = l p).
    { intros p I. unfold s, choose. apply (in_y_In peqb Hp) in I. now rewrite I. }
    assert (YI : forall p, In (VIr p) y -> s (VIr p) = x p).
    { intros p I. unfold s, choose. apply (in_y_In peqb Hp) in I. now rewrite I. }
    assert (Dl : forall p, In p (map fst (a_in a)) -> In (l p) (path_dom peqb td (a_in a) p)).
    { intros p I. now apply (path_dom_typed peqb Hp). }
    assert (FA : forall p, In p (forall_arch peqb teqb isconst a i) -> In p (map fst (a_in a))).
    { intros p I. apply (forall_arch_In peqb teqb isconst a i) in I as (((fi' & bi') & b') & s' & I & J & _).
      apply (fbs_In peqb teqb a i) in I as (ibs' & J1 & J2).
      eapply (binding_path peqb teqb isconst Hp Ht a i fs fv Ha Hi); eauto. }
    assert (Ss : sorted D s).
    { intros v. destruct (in_y peqb y v) eqn:Ey; [|unfold s, choose; rewrite Ey; apply S]. apply (in_y_In peqb Hp) in Ey.
      pose proof Ey as Ey'. apply (forall_simple_In peqb teqb isconst a i) in Ey as [(p & -> & _ & I)|[(p & -> & _ & I)|(p & -> & I)]].
      - rewrite (YA p Ey'). apply Dl; auto.
      - rewrite (YL p Ey'). apply Dl; auto.
      - rewrite (YI p Ey'). unfold D. cbn [dom]. apply (forall_ir_In peqb teqb a i) in I as (((fi' & bi') & b') & ap' & I & J). cbn [snd] in J.
        apply (fbs_In peqb teqb a i) in I as (ibs' & J1 & J2).
        destruct (ib_typed peqb teqb isconst Hp Ht a i fs fv Ha Hi fi' ibs' bi' b' J1 J2) as (f2 & _ & (_ & Tb2 & _) & _).
        destruct (Tb2 p ap' J) as (t & It & _). rewrite (path_dom_In peqb Hp td _ p t (ok_iin _ Hi) It).
        unfold x. apply Tl. now apply Bt. }
    pose proof (Sol s Ss NY) as H1. cbn [sem] in H1.
    set (s1 := overlap_sub peqb teqb isconst k a i s) in *.
    assert (M1r : form_match k a fi r = true).
    { unfold form_match, matches in *. unfold r1 in M1. now rewrite overlap_sub_other in M1 by discriminate. }
    assert (M2r : ib_match peqb teqb k a i bi r = true).
    { unfold ib_match, matches in *. unfold r1 in M2. now rewrite overlap_sub_other in M2 by discriminate. }
    assert (N1r : form_match k a fi s = true) by (unfold form_match, matches in *; rewrite NY' by discriminate; exact M1r).
    assert (N2r : ib_match peqb teqb k a i bi s = true) by (unfold ib_match, matches in *; rewrite NY' by discriminate; exact M2r).
    assert (N1 : form_match k a fi s1 = true).
    { unfold form_match, matches in *. unfold s1. now rewrite overlap_sub_other by discriminate. }
    assert (N2 : ib_match peqb teqb k a i bi s1 = true).
    { unfold ib_match, matches in *. unfold s1. now rewrite overlap_sub_other by discriminate. }
    assert (N3 : ob_match peqb teqb k a i bo s1 = true).
    { unfold ob_match, matches in *. unfold s1, r1 in *. rewrite overlap_sub_other in * by discriminate.
      rewrite NY' by discriminate. exact M3. }
    assert (Tg : forall d, In d (snd f) -> tags_of s1 (fst d) = snd d).
    { intros d I. unfold tags_of, s1. rewrite overlap_sub_other, NY' by discriminate. rewrite <- (G2 d I).
      unfold r1. now rewrite overlap_sub_other by discriminate. }
    (* the leaves of the form in s1 are those of l *)
    assert (LV : forall p, In p (fst f) -> s1 (VLeaf p) = l p).
    { intros p I. pose proof I as If'. apply (leaf_bound peqb Hp a i f b p Tb (ok_leaves _ _ _ _ Ha _ _ If)) in I as (s0 & J).
      assert (Fp : s0 = None -> isc p = true -> l p = r1 (VLeaf p)).
      { intros -> C. pose proof (ok_leaves _ _ _ _ Ha _ _ If p If') as K. apply in_map_iff in K as ((p' & t) & X & K). cbn [fst] in X. subst p'.
        rewrite (Kl p t K If').
        - unfold l0. now rewrite C.
        - unfold isc in C. now rewrite (is_const_eq peqb isconst Hp a fs fv Ha _ _ K) in C.
        - intros q t' Iq X. destruct (B q t' Iq) as [Jq _]. rewrite X in Jq.
          pose proof (bound_once peqb isconst a i fs fv Ha f b p _ _ Tb J Jq). discriminate. }
      unfold s1. cbn [overlap_sub]. destruct (overlap peqb teqb isconst a i p) eqn:O.
      - pose proof (overlap_const peqb teqb isconst Hp a i p O) as C. pose proof O as O'. apply (overlap_iff peqb teqb isconst Hp a i) in O as [Oa Oe].
        destruct (e_conds peqb teqb isconst k a i p s) eqn:Ee.
        + apply (e_conds_iff fi f ibs bi b s p s0 If E2 E3 N1r N2r J) in Ee as [-> _]. rewrite (Fp eq_refl C).
          unfold r1. cbn [overlap_sub]. rewrite O'. rewrite (proj2 (e_conds_iff fi f ibs bi b r p None If E2 E3 M1r M2r J)) by auto.
          rewrite NY' by discriminate. reflexivity.
        + rewrite YA; [reflexivity|]. apply (forall_simple_In peqb teqb isconst a i). left. exists p. auto.
      - destruct s0 as [ip|].
        + rewrite YL; [reflexivity|]. apply (forall_simple_In peqb teqb isconst a i). right. left. exists p. split; auto. split; auto.
          apply (forall_arch_In peqb teqb isconst a i). exists ((fi, bi), b), (Some ip). split; auto. split; auto. discriminate.
        + destruct (isc p) eqn:C.
          * rewrite (Fp eq_refl eq_refl). unfold r1. cbn [overlap_sub]. rewrite O. apply NY.
            intros Y. apply (forall_simple_In peqb teqb isconst a i) in Y as [(p' & E & _)|[(p' & E & _ & Y)|(p' & E & _)]]; try discriminate.
            injection E as <-. assert (overlap peqb teqb isconst a i p = true); [|congruence].
            apply (overlap_iff peqb teqb isconst Hp a i). split; auto. exists (fi, bi). apply (exists_fbs_In peqb teqb isconst Hp a i). exists b. auto.
          * rewrite YL; [reflexivity|]. apply (forall_simple_In peqb teqb isconst a i). right. left. exists p. split; auto. split; auto.
            apply (forall_arch_In peqb teqb isconst a i). exists ((fi, bi), b), None. auto. }
    assert (IV : forall ip ap', In (Some ip, ap') b -> s1 (VIr ip) = x ip).
    { intros ip ap' J. unfold s1. rewrite overlap_sub_other by discriminate. apply YI.
      apply (forall_simple_In peqb teqb isconst a i). right. right. exists ip. split; auto. apply (forall_ir_In peqb teqb a i). exists ((fi, bi), b), ap'. auto. }
    unfold formula_simple in H1. apply andb_true_iff in H1 as [Hpre H1]. split.
    { unfold preconditions in Hpre. rewrite !andb_true_iff in Hpre. destruct Hpre as [[[[Hv _] _] _] _].
      rewrite (ok_valid _ _ _ _ Ha fi f _ _ If Tg) in Hv. rewrite <- Hv. apply (ok_vlocal _ _ _ _ Ha fi f _ _ If).
      intros p t I _ _. symmetry. exact (LV p I). }
    intros Cl q t Iq.
    assert (KC : constr_conds peqb isconst a false s1 = true).
    { apply forallb_forall. intros (p & zs) I. cbn [fst snd]. destruct (is_const peqb isconst a p) eqn:C; cbn [Bool.eqb]; auto.
      apply existsb_exists. exists (s1 (VLeaf p)). rewrite Z.eqb_refl. split; auto.
      pose proof (Al p fi f ltac:(now apply (in_map fst) in I) C If) as Ip. rewrite (LV p Ip). now apply Cl. }
    assert (FB : existsb (fun fb => fb_cond peqb teqb k a i fb s1) (fbs peqb teqb a i) = true).
    { apply existsb_exists. exists ((fi, bi), b). split; auto. unfold fb_cond. cbn [fst snd]. rewrite N1, N2. cbn [andb].
      apply forallb_forall. intros ([ip|] & ap') J; auto. cbn [fst snd]. apply Z.eqb_eq.
      rewrite (IV ip ap' J). rewrite LV.
      - destruct (Ty ip ap' J) as (t' & It & _). unfold x. f_equal. now apply (proj2 (B ip t' It)).
      - apply (leaf_bound peqb Hp a i f b ap' Tb (ok_leaves _ _ _ _ Ha _ _ If)). eauto. }
    rewrite KC, FB in H1. cbn [andb negb orb] in H1.
    unfold F_simple in H1. fold ob in H1. rewrite forallb_forall in H1.
    specialize (H1 (bo, o) ltac:(now apply enumerate_In)). cbn [fst snd] in H1. rewrite N3 in H1. cbn [negb orb] in H1.
    rewrite forallb_forall in H1. specialize (H1 _ (proj1 (bound_In peqb Hp o q (Uo q t Iq)))). cbn [fst snd] in H1. apply Z.eqb_eq in H1.
    rewrite (ok_sem _ _ _ _ Ha fi f _ _ _ If Tg) in H1.
    rewrite (ok_ilocal _ Hi _ x) in H1.
    2:{ intros p t' I. destruct (B p t' I) as [J _]. unfold ir_of. eauto. }
    fold x. rewrite H1. apply (ok_local _ _ _ _ Ha fi f _ _ _ If). exact LV.
  Qed.

  (** ** [direct_simple] gives a solution *)
  Hypothesis Htd : forall p t, In (p, t) (i_in i) -> td t <> [].
  Hypothesis Htag : forall p, tagd p <> [].
  Hypothesis Htagf : forall fi f p z, nth_error (a_forms a) fi = Some f -> In (p, z) (snd f) -> In z (tagd p).

  Lemma simple_witness_const ru f ibs bi b bo o l0 vs :
    a_has_const a = true -> i_out i <> [] ->
    well_formed peqb isconst a i ru ->
    typed td (a_in a) l0 -> (forall z p, In (SVal z, p) (r_in ru) -> l0 p = z) ->
    (forall l, typed td (a_in a) l -> (forall z p t, In (SVal z, p) (r_in ru) -> In (p, t) (a_in a) -> isconst t = true -> l p = z) ->
       fv (r_form ru) l = true) ->
    allowed_consts a ru -> correct_any isconst td a i fs ru ->
    nth_error (a_forms a) (r_form ru) = Some f -> nth_error ib (r_form ru) = Some ibs ->
    nth_error ibs bi = Some b -> nth_error ob bo = Some o -> Permutation (shape (r_in ru)) b -> Permutation (r_out ru) o ->
    exists y phi, build_simple peqb teqb isconst k a i = Ok (BForm y phi) /\
      sorted D (witness peqb isconst td k a i tagd (r_form ru) f bi bo l0) /\
      solves D y {| CegisModel.fv := vs; sem := phi |} (witness peqb isconst td k a i tagd (r_form ru) f bi bo l0).
  Proof.
    intros Hh Ho WF Tl0 Vl0 Fl0 Al Cor E1 E2 E3 E4 P1 P2.
    set (fi := r_form ru) in *.
    eexists _, _. split.
    { unfold build_simple. erewrite has_bindings_true by eauto. rewrite Hh, (empty_constraint_false td a Hc). cbn [negb].
      match goal with |- (if ?c then _ else _) = _ => assert (c = false) as -> end; [|reflexivity].
      match goal with |- ?c = false => destruct c eqn:Ec end; auto. exfalso.
      apply existsb_exists in Ec as (o1 & Io & Ec). rewrite forallb_forall in Ec.
      apply In_nth_error in Io as (bo1 & Io). apply (ob_typed peqb teqb isconst Hp Ht a i fs fv Ha Hi) in Io.
      destruct (i_out i) as [|[q t] io] eqn:Eo; [congruence|]. destruct Io as (_ & _ & U).
      specialize (U q t (or_introl eq_refl)). unfold uses in U.
      destruct (filter _ o1) as [|e l] eqn:Ef; [discriminate|].
      assert (I : In e (e :: l)) by now left. rewrite <- Ef in I. apply filter_In in I as [I J].
      specialize (Ec e I). destruct (fst e); discriminate. }
    set (w := witness peqb isconst td k a i tagd fi f bi bo l0).
    assert (Sw : sorted D w) by (eapply (witness_sorted peqb teqb isconst Hp td k a i fs fv Ha tagd Htd Htag Htagf Hc); eauto).
    split; [exact Sw|].
    set (y := forall_simple peqb teqb isconst a i).
    intros s Ss Sy. cbn [sem]. set (s1 := overlap_sub peqb teqb isconst k a i s).
    destruct (ib_typed peqb teqb isconst Hp Ht a i fs fv Ha Hi fi ibs bi b E2 E3) as (f' & Ef & Tb & Cb).
    rewrite E1 in Ef. injection Ef as <-.
    assert (NY0 : forall v, (forall p, v <> VLeaf p) -> (forall p, v <> VIr p) -> (forall p, v <> VAll p) -> s v = w v).
    { intros v A B C. apply Sy. intros I.
      apply (forall_simple_In peqb teqb isconst a i) in I as [(p & E & _)|[(p & E & _)|(p & E & _)]]; [exact (C p E)|exact (A p E)|exact (B p E)]. }
    assert (NY : forall v, (forall p, v <> VLeaf p) -> (forall p, v <> VIr p) -> (forall p, v <> VAll p) -> s1 v = w v).
    { intros v A B C. unfold s1. rewrite overlap_sub_other by exact A. now apply NY0. }
    assert (N1r : form_match k a fi s = true).
    { apply matches_iff; [eapply nth_error_lt, E1|]. rewrite NY0 by discriminate. reflexivity. }
    assert (N2r : ib_match peqb teqb k a i bi s = true).
    { apply matches_iff; [eapply Nat.lt_le_trans; [eapply nth_error_lt, E3|eapply mib_ge, E2]|]. rewrite NY0 by discriminate. reflexivity. }
    assert (FBI : In ((fi, bi), b) (fbs peqb teqb a i)) by (apply (fbs_In peqb teqb a i); eauto).
    (* a Const leaf that the rule leaves free *)
    assert (CL : forall p t, In (None, p) b -> In p (fst f) -> In (p, t) (a_in a) -> isconst t = true -> s1 (VLeaf p) = l0 p).
    { intros p t Ib I J C. assert (Cp : isc p = true) by (unfold isc; now rewrite (is_const_eq peqb isconst Hp a fs fv Ha _ _ J)).
      assert (Wp : w (VLeaf p) = l0 p /\ w (VEx p) = l0 p).
      { unfold w. cbn [witness]. assert (pmem peqb p (map fst (a_in a)) = true) as -> by (apply (pmem_In peqb Hp); now apply (in_map fst) in J).
        destruct (dget peqb (a_constr a) p); auto. fold (isc p). rewrite Cp. assert (pmem peqb p (fst f) = true) as -> by now apply (pmem_In peqb Hp).
        split; reflexivity. }
      destruct Wp as [W1 W2]. unfold s1. cbn [overlap_sub]. destruct (overlap peqb teqb isconst a i p) eqn:O.
      - rewrite (proj2 (e_conds_iff fi f ibs bi b s p None E1 E2 E3 N1r N2r Ib)) by auto. rewrite NY0 by discriminate. exact W2.
      - rewrite <- W1. apply Sy. intros Y.
        apply (forall_simple_In peqb teqb isconst a i) in Y as [(p' & E & _)|[(p' & E & _ & Y)|(p' & E & _)]]; try discriminate.
        injection E as <-. assert (overlap peqb teqb isconst a i p = true); [|congruence].
        apply (overlap_iff peqb teqb isconst Hp a i). split; auto. exists (fi, bi). apply (exists_fbs_In peqb teqb isconst Hp a i). exists b. auto. }
    assert (Ts : typed td (a_in a) (leaves_of s1)).
    { intros p t I. pose proof (overlap_sub_sorted peqb teqb isconst td k a i tagd s Ss p) as J.
      now rewrite (path_dom_In peqb Hp td _ p t (ok_in _ _ _ _ Ha) I) in J. }
    assert (Src : forall s' p, In (s', p) (r_in ru) -> In (match s' with SPath p0 => Some p0 | _ => None end, p) b /\ In p (fst f)).
    { intros s' p I. assert (K : In (match s' with SPath p0 => Some p0 | _ => None end, p) b).
      { apply (Permutation_in _ P1). apply in_map_iff. exists (s', p). auto. }
      split; [exact K|]. apply (leaf_bound peqb Hp a i f b p Tb (ok_leaves _ _ _ _ Ha _ _ E1)). eauto. }
    assert (Tg : forall d, In d (snd f) -> tags_of s1 (fst d) = snd d).
    { intros [p z] I. unfold tags_of. rewrite NY by discriminate. unfold w. cbn [witness fst snd]. unfold tag_of.
      now rewrite (In_dget peqb Hp _ _ _ (ok_tags _ _ _ _ Ha fi f E1) I). }
    assert (N1 : form_match k a fi s1 = true).
    { apply matches_iff; [eapply nth_error_lt, E1|]. rewrite NY by discriminate. reflexivity. }
    assert (N2 : ib_match peqb teqb k a i bi s1 = true).
    { apply matches_iff; [eapply Nat.lt_le_trans; [eapply nth_error_lt, E3|eapply mib_ge, E2]|]. rewrite NY by discriminate. reflexivity. }
    assert (N3 : ob_match peqb teqb k a i bo s1 = true).
    { apply matches_iff; [eapply nth_error_lt, E4|]. rewrite NY by discriminate. reflexivity. }
    unfold formula_simple, preconditions. rewrite !andb_true_iff. repeat split.
    - rewrite (ok_valid _ _ _ _ Ha fi f _ _ E1 Tg). apply Fl0; [exact Ts|]. intros z p t I J C.
      destruct (Src _ p I) as [K1 K2]. unfold leaves_of. rewrite (CL p t K1 K2 J C). now apply Vl0.
    - apply existsb_exists. exists (fi, f). split; [now apply enumerate_In|]. cbn [fst snd]. rewrite N1. cbn [andb].
      apply tag_conds_iff. exact Tg.
    - apply existsb_exists. exists (bo, o). split; [now apply enumerate_In|]. exact N3.
    - apply forallb_forall. intros (p & zs) I. cbn [fst snd]. destruct (is_const peqb isconst a p) eqn:C; cbn [Bool.eqb]; auto.
      apply existsb_exists. exists (s1 (VLeaf p)). rewrite Z.eqb_refl. split; auto.
      assert (Kp : In p (map fst (a_constr a))) by now apply (in_map fst) in I.
      unfold s1. cbn [overlap_sub]. rewrite (constrained_no_overlap p Kp). rewrite Sy.
      2:{ intros Y. apply (forall_simple_In peqb teqb isconst a i) in Y as [(p' & E & _)|[(p' & E & _ & Y)|(p' & E & _)]]; try discriminate.
          injection E as <-. apply (forall_arch_In peqb teqb isconst a i) in Y as (fb & s0 & I1 & J & N).
          rewrite N in C; [discriminate|]. eapply constrained_not_bound; eauto. }
      unfold w. cbn [witness]. pose proof (ok_constr_in _ _ _ _ Ha p Kp) as Jp.
      assert (pmem peqb p (map fst (a_in a)) = true) as -> by now apply (pmem_In peqb Hp).
      rewrite (In_dget peqb Hp _ _ _ (ok_constr _ _ _ _ Ha) I), C, andb_true_r.
      destruct (pmem peqb p (fst f)) eqn:Em; [|apply hd_In; now apply (Hc p)].
      apply (pmem_In peqb Hp) in Em.
      apply (leaf_bound peqb Hp a i f b p Tb (ok_leaves _ _ _ _ Ha _ _ E1)) in Em as (s' & J).
      apply (Permutation_in _ (Permutation_sym P1)) in J. apply in_map_iff in J as ((s'' & ap) & E & J). cbn [fst snd] in E. injection E as E ->.
      destruct WF as (_ & _ & _ & _ & Wc & _). destruct (Wc s'' p J Kp) as (z & ->).
      rewrite (Vl0 z p J). eapply Al; eauto.
    - apply existsb_exists. exists ((fi, bi), b). split; [exact FBI|]. cbn [fst snd]. now rewrite N1, N2.
    - destruct (constr_conds peqb isconst a false s1 && existsb (fun fb => fb_cond peqb teqb k a i fb s1) (fbs peqb teqb a i)) eqn:Fc; auto.
      cbn [negb orb]. apply andb_true_iff in Fc as [KC FB].
      apply existsb_exists in FB as (((fi1 & bi1) & b1) & Ib & FB). unfold fb_cond in FB. cbn [fst snd] in FB.
      rewrite !andb_true_iff in FB. destruct FB as [[K1 K2] FB]. apply (fbs_In peqb teqb a i) in Ib as (ibs1 & F1 & F2).
      destruct (fb_index peqb teqb k a i s1 fi ibs bi b fi1 ibs1 bi1 b1) as (-> & -> & ->); auto. clear F1 F2 K1 K2.
      rewrite forallb_forall in FB.
      unfold F_simple. fold ob. apply forallb_forall. intros (bo1 & o1) Io. apply enumerate_In in Io. cbn [fst snd].
      destruct (ob_match peqb teqb k a i bo1 s1) eqn:K3; auto. cbn [negb orb].
      assert (bo1 = bo) as ->.
      { apply (matches_same k (length ob) VBo bo1 bo s1); auto; eapply nth_error_lt; eauto. }
      rewrite E4 in Io. injection Io as <-.
      apply forallb_forall. intros [[q|] ap] Io; auto. cbn [fst snd]. apply Z.eqb_eq.
      rewrite (ok_sem _ _ _ _ Ha fi f _ _ _ E1 Tg).
      apply (Cor (ir_of s1) (leaves_of s1)).
      + intros p t I. unfold ir_of, s1. rewrite overlap_sub_other by discriminate. specialize (Ss (VIr p)). unfold D in Ss. cbn [dom] in Ss.
        now rewrite (path_dom_In peqb Hp td _ p t (ok_iin _ Hi) I) in Ss.
      + exact Ts.
      + intros s' p t I J. unfold leaves_of, ir_of. destruct (Src s' p I) as [K Kf].
        destruct s' as [ip|z|]; auto.
        * specialize (FB _ K). cbn [fst snd] in FB. now apply Z.eqb_eq.
        * split.
          { intros C. rewrite <- (Vl0 z p I). eapply CL; eauto. }
          intros zs Kz. destruct (is_const peqb isconst a p) eqn:C.
          { assert (isconst t = true) by now rewrite <- (is_const_eq peqb isconst Hp a fs fv Ha _ _ J).
            rewrite (CL p t) by auto. rewrite (Vl0 z p I). eapply Al; eauto. }
          unfold constr_conds in KC. rewrite forallb_forall in KC. specialize (KC _ Kz). cbn [fst snd] in KC. rewrite C in KC.
          cbn [Bool.eqb] in KC. apply existsb_exists in KC as (z' & Iz & E). apply Z.eqb_eq in E. now rewrite E.
      + apply (Permutation_in _ (Permutation_sym P2)). exact Io.
  Qed.

  Theorem direct_simple_solution : a_has_const a = true -> i_out i <> [] -> direct_simple peqb isconst td a i fs fv ->
    exists y phi r, build_simple peqb teqb isconst k a i = Ok (BForm y phi) /\ sorted D r /\
      forall vs, solves D y {| CegisModel.fv := vs; sem := phi |} r.
  Proof.
    intros Hh Ho (fi & f & l0 & bnd & obnd & Ef & Tl0 & Cl0 & B & Inj & O & OInj & E).
    assert (Fl0 : fv fi l0 = true) by (apply E; auto).
    destruct (direct_rule peqb isconst Hp td a i fs fv Ha Hi fi f l0 bnd obnd Ef Tl0 Fl0 Cl0 B Inj O OInj) as (ru & R1 & R2 & R3 & R4 & W & V & Al & C).
    { intros q t Iq l Tl Kl Zl. destruct (E l Tl Kl) as [_ X]. eapply X; eauto. }
    subst fi. destruct (rule_entries peqb teqb isconst Hp Ht a i fs fv Ha Hi ru W) as (f' & ibs & bi & b & bo & o & E1 & E2 & E3 & E4 & P1 & P2).
    rewrite Ef in E1. injection E1 as <-. destruct V as (l1 & Tl1 & Vl1 & _).
    assert (Fl : forall l, typed td (a_in a) l ->
              (forall z p t, In (SVal z, p) (r_in ru) -> In (p, t) (a_in a) -> isconst t = true -> l p = z) -> fv (r_form ru) l = true).
    { intros l Tl Kl. apply (E l Tl). intros p t I If Ct Nb. apply (Kl (l0 p) p t); auto. exact (R2 p t I If Ct Nb). }
    destruct (simple_witness_const ru f ibs bi b bo o l1 [] Hh Ho W Tl1 Vl1 Fl Al C Ef E2 E3 E4 P1 P2) as (y & phi & X & S & Sol).
    exists y, phi. eexists. split; [exact X|]. split; [exact S|]. intros vs. exact Sol.
  Qed.
End Const.
