(** A value encoded by the word of a form: the leaf words of the form encode its leaves. *)
From Coq Require Import String ZArith List Bool Lia Permutation.
From Verif Require Import Base BaseLemmas BindModel MapIdxModel MapIdxProps BindProps MapModel MapProofs MapMain MapProps
  AsmModel AsmSpec AsmValid AsmEnum AsmBuild AsmProofs AsmSub AsmMore AadtModel AadtProofs FormModel FormProofs FormMain FormSimp FormProps
  AdtArchModel AdtArchProofs AdtArchMain RuleAppProofs.
Import ListNotations.
Open Scope list_scope.
Open Scope Z_scope.

Lemma enc_form R J leafv tagv t : good_request R -> forall a p out vm z f v, wf_ty t -> buildable t -> asm_rel R t a ->
  smt_forms leafv tagv t a p None = Ok (out, vm, z) -> In f out -> tags_fit tagv p t f -> enc J t (f_val f) v ->
  forall r x, In (p ++ r, x) (f_vars f) -> exists t' v', sub_val t v r t' v' /\ is_leaf t' /\ enc J t' x v'.
Proof.
  intros GR. induction t as [|w|w|c ms|c fs IH|g c fs IH] using ty_ind'; intros a p out vm z f v W B A E I T En r x Ix.
  1-4: cbn [smt_forms] in E; unfold leaf_form in E; injection E as <- _ _; destruct I as [<-|[]]; cbn [f_val f_vars] in *;
    destruct Ix as [[= E1 <-]|[]]; rewrite <- (app_nil_r p) in E1 at 1; apply app_inv_head in E1; subst r;
    eexists _, v; split; [constructor|]; split; [exact Logic.I|exact En].
  - destruct (prod_parts R leafv tagv c fs a p out vm z GR W B A E) as (rs & L & Ez & O).
    apply In_nth_error in I as [j Ej]. destruct (F2_nth' _ _ _ O j f Ej) as (l & _ & Fl & G & Ef & Ed & Ev).
    assert (NoDup (map fst fs)) as ND by (inversion W; auto).
    pose proof (F2_length _ _ _ Fl) as L1. pose proof (F2_length _ _ _ L) as L2.
    assert (forall k t fa, In (k, t) fs -> member_asm a k = Ok fa -> wf_ty t /\ buildable t /\ asm_rel R t fa) as Mem.
    { intros k t fa Ik Em. destruct (prod_member R c fs a k t W A Ik) as (fa' & lo & Em' & Af & _). assert (fa' = fa) by congruence. subst fa'.
      split; [eapply wf_members_prod; eauto|]. split; auto. inversion B as [? Lf|? ? _ _ BF|]; subst; [destruct Lf|eapply BF; eauto]. }
    assert (forall i k t g, nth_error fs i = Some (k, t) -> nth_error l i = Some g -> aadt_get a (f_val f) k = Ok (f_val g, None)) as Get.
    { intros i k t g Ei Eg.
      assert (exists q, nth_error rs i = Some q) as [q Eq] by (apply (nth_same_length l rs i g); [lia|exact Eg]).
      eapply (prod_get R c fs a (combine (map q_width rs) (map f_val l)) (f_val f) GR W A); [| | |exact Ef|exact Ei|].
      - inversion B as [? Lf|? ? NE _ _|]; subst; [destruct Lf|auto].
      - inversion B as [? Lf|? ? _ NZ _|]; subst; [destruct Lf|auto].
      - apply F2_intro; [rewrite combine_length, !map_length; lia|]. intros j' [k' t'] [w0 x0] Ek Ec.
        apply nth_combine in Ec as [Ea Eb]. rewrite nth_error_map in Ea, Eb.
        destruct (nth_error rs j') as [q'|] eqn:Eq'; [|discriminate]. destruct (nth_error l j') as [g'|] eqn:Eg'; [|discriminate].
        cbn in Ea, Eb. injection Ea as <-. injection Eb as <-. cbn [fst snd].
        destruct (F2_nth _ _ _ L j' _ Ek) as (q2 & Eq2 & fa & Em & Wd & Rn). assert (q2 = q') by congruence. subst q2. cbn [fst snd] in *.
        destruct (F2_nth _ _ _ Fl j' g' Eg') as (q2 & Eq3 & Ig). assert (q2 = q') by congruence. subst q2.
        destruct (Mem k' t' fa (nth_error_In _ _ Ek) Em) as (Wt & Bt & Af). rewrite Wd. split; [apply (asm_rel_width R t' Wt fa Af)|].
        apply (i_frng _ _ _ _ _ _ _ _ _ _ (inv_of R leafv tagv t' fa _ _ _ _ GR Wt Bt Af Rn) g' Ig).
      - apply nth_combine. rewrite !nth_error_map, Eq, Eg. split; reflexivity. }
    destruct (parts_vars_shape p fs l f G Ev (p ++ r)) as (i & k & t & g & r' & Ei & Eg & Er); [apply (in_map fst) in Ix; exact Ix|].
    apply app_inv_head in Er. subst r. apply (part_vars p fs ND l f G Ev i k t g Ei Eg) in Ix. rewrite <- snoc_app in Ix.
    assert (exists q, nth_error rs i = Some q) as [q Eq] by (apply (nth_same_length l rs i g); [lia|exact Eg]).
    destruct (F2_nth _ _ _ L i _ Ei) as (q2 & Eq2 & fa & Em & Wd & Rn). assert (q2 = q) by congruence. subst q2. cbn [fst snd] in *.
    destruct (F2_nth _ _ _ Fl i g Eg) as (q2 & Eq3 & Ig). assert (q2 = q) by congruence. subst q2.
    pose proof (nth_error_In _ _ Ei) as Ik. destruct (Mem k t fa Ik Em) as (Wt & Bt & Af).
    pose proof (enc_has_ty J _ _ _ En) as Hv. inversion Hv as [| | | |? ? vs F|]; subst.
    assert (exists u, nth_error vs i = Some u) as [u Eu].
    { destruct (F2_nth _ _ _ F i _ Ei) as (u & Eu & _). eauto. }
    assert (sub_val (TProd c fs) (VProd vs) [k] t u) as Sv by (econstructor; [exact Ei|exact Eu|constructor]).
    destruct (aadt_get_spec R J _ _ _ _ _ a (f_val f) Sv GR W A En) as (y & m & a' & Eg' & Eu' & _).
    rewrite (Get i k t g Ei Eg) in Eg'. injection Eg' as <- _.
    rewrite Forall_forall in IH. destruct (IH (k, t) Ik fa (p ++ [k]) _ _ _ g u Wt Bt Af Rn Ig) with (r := r') (x := x) as (t' & v' & S' & L' & E'); auto.
    + intros r0 k0 g0 c0 fs0 Id S. rewrite snoc_app in *. apply (T (k :: r0) k0 g0 c0 fs0); [|econstructor; eauto].
      apply (part_dict p fs ND l f G Ed i k t g Ei Eg). exact Id.
    + exists t', v'. split; auto. econstructor; eauto.
  - inversion B as [? Lf| |? ? ? L2 NW BF]; subst; [destruct Lf|]. assert (NoDup (map fst fs)) as ND by (inversion W; auto).
    assert (forall k t, In (k, t) fs -> wf_ty t) as WF by (intros k t Ik; eapply wf_members_sum; eauto).
    cbn [smt_forms] in E. destruct a as [| | |w0 tagw as_ gs tv]; try discriminate. set (a := ASum w0 tagw as_ gs tv) in *.
    destruct (sum_loop (smt_forms leafv tagv) g fs a p None (wrap tagw (tagv p)) fs) as [rs|] eqn:L; [|discriminate]. cbn [bind] in E.
    destruct (ite_chain rs) as [y|] eqn:Ey; [|discriminate]. cbn [bind] in E. injection E as <- _ _. apply sum_loop_inv in L.
    apply in_flat_map in I as (q & Ir & I). apply In_nth_error in Ir as [i Er]. apply In_nth_error in I as [j Ej].
    destruct (F2_nth' _ _ _ L i q Er) as ([k t] & Ei & fa & sf & x0 & m & Em & Ek & Rn & Ew & Fs & Eg & Mr). cbn [fst snd] in *.
    destruct (F2_nth' _ _ _ Fs j f Ej) as (f0 & Ef0 & Sf). pose proof (nth_error_In _ _ Ef0) as If0. pose proof (nth_error_In _ _ Ei) as Ik.
    unfold sum_form in Sf. destruct (existsb _ (f_dict f0)); [discriminate|].
    destruct (sum_from_fields fs a k (FWord (a_width fa) (f_val f0)) (Some (wrap tagw (tagv p))) 0) as [y0|] eqn:Y0; [|discriminate].
    cbn [bind] in Sf. injection Sf as <-. cbn [f_val f_vars] in *. unfold tags_fit in T. cbn [f_dict] in T.
    destruct (sum_words R g c fs a k t GR W A Ik)
      as (w1 & tagw' & as' & gs' & tv' & fa' & pre & post & Ea & Etw & Hfs & Em' & Af & Rr & Lw & Pt & Pfa & _ & Sw).
    unfold a in Ea. injection Ea as <- <- <- <- <-. assert (fa' = fa) by congruence. subst fa'.
    assert (wf_ty t) as Wt by eauto. assert (buildable t) as Bt by eauto.
    assert (wrap tagw (tagv p) = rank_at pre k post) as Et.
    { destruct (T [] k g c fs) as (pre' & u & post' & Hfs' & Eq); [rewrite app_nil_r; left; auto|constructor|]. rewrite app_nil_r in Eq.
      destruct (nodup_split_unique fs pre pre' post post' k t u ND Hfs Hfs') as (<- & _ & <-). rewrite Eq. apply wrap_small. exact Rr. }
    pose proof (inv_of R leafv tagv t fa (p ++ [k]) _ _ _ GR Wt Bt Af Rn) as IV.
    destruct (Sw (wrap tagw (tagv p)) (f_val f0)) as [_ Sw2]; [rewrite Et; exact Rr|apply (i_frng _ _ _ _ _ _ _ _ _ _ IV f0 If0)|].
    destruct (Sw2 L2 (NW k t Ik)) as (op & Eop & _ & Gop & _). rewrite Y0 in Eop. injection Eop as <-. rewrite Et, Z.eqb_refl in Gop.
    pose proof (enc_has_ty J _ _ _ En) as Hv. inversion Hv as [| | | | |? ? ? k1 t1 u I1 Hu]; subst v.
    destruct (aadt_match_spec R J g c fs k1 u k t a y0 GR W A En Ik) as (x1 & b & Gx & Hb). rewrite Gop in Gx. injection Gx as <- <-.
    assert (k = k1) by (apply Hb; auto). subst k1.
    assert (t1 = t) as -> by (apply (dget_key_In fs k t1 ND) in I1; apply (dget_key_In fs k t ND) in Ik; congruence).
    assert (sub_val (TSum g c fs) (VSum k u) [k] t u) as Sv by (econstructor; [exact Ik|constructor]).
    destruct (aadt_get_spec R J _ _ _ _ _ a y0 Sv GR W A En) as (x1 & m1 & a' & Eg' & Eu' & _). rewrite Gop in Eg'. injection Eg' as <- _.
    destruct (i_cov _ _ _ _ _ _ _ _ _ _ IV f0 If0) as (v0 & _ & M).
    assert (exists r', r = k :: r') as [r' ->].
    { apply (in_map fst) in Ix. cbn [fst] in Ix. apply (mt_vars _ _ _ _ M) in Ix as (r' & Eq & _). rewrite snoc_app in Eq. apply app_inv_head in Eq. eauto. }
    rewrite <- snoc_app in Ix. rewrite Forall_forall in IH.
    destruct (IH (k, t) Ik fa (p ++ [k]) _ _ _ f0 u Wt Bt Af Rn If0) with (r := r') (x := x) as (t' & v' & S' & L' & E'); auto.
    + intros r9 k9 g9 c9 fs9 Id S. rewrite snoc_app in *. apply (T (k :: r9) k9 g9 c9 fs9); [right; exact Id|econstructor; eauto].
    + exists t', v'. split; auto. econstructor; eauto.
Qed.
