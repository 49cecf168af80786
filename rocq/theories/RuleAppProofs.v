(** [simplify] on bindings of leaf values: words of forms. *)
From Coq Require Import String ZArith List Bool Lia Permutation.
From Verif Require Import Base BaseLemmas BindModel MapIdxModel MapIdxProps BindProps MapModel MapProofs MapMain MapProps
  AsmModel AsmSpec AsmValid AsmEnum AsmBuild AsmProofs AsmSub AsmMore AadtModel AadtProofs FormModel FormProofs FormMain FormSimp FormProps
  AdtArchModel AdtArchProofs AdtArchMain.
Import ListNotations.
Open Scope list_scope.
Open Scope Z_scope.

(** * A product whose members simplify to values *)
Lemma simplify_prod c fs a b (wd vl : key -> Z) : NoDup (map fst fs) ->
  (forall s q, In (s, q) b -> exists k r t, q = k :: r /\ In (k, t) fs) ->
  (forall k t, In (k, t) fs -> below k b <> [] /\ exists fa, member_asm a k = Ok fa /\ wd k = a_width fa /\
     simplify t fa (below k b) = Ok [(SVal (vl k), [])]) ->
  simplify (TProd c fs) a b = do v <- prod_from_fields fs a (map (fun f => FWord (wd (fst f)) (vl (fst f))) fs) 0; Ok [(SVal v, [])].
Proof.
  intros ND Hd Hm.
  assert (whole b = false) as Wh.
  { destruct b as [|[s [|k q]] [|]]; auto. destruct (Hd s [] (or_introl eq_refl)) as (? & ? & ? & X & _). discriminate. }
  destruct (group_by_spec fs b) with (d0 := @nil (key * list entry)) (b0 := @nil entry) as (d & Ed & Nd & Gd).
  { intros s q I. destruct (Hd s q I) as (k & r & t & -> & It). exists k, r, t. split; auto. apply dget_key_In; auto. }
  { split; [constructor|]. intros k. reflexivity. }
  cbn [app] in Gd.
  assert (forall k, In k (map fst d) <-> In k (map fst fs)) as Kd.
  { intros k. split; intros I.
    - destruct (below k b) as [|[s q] l] eqn:Eb.
      + pose proof (Gd k) as E. rewrite Eb in E. apply (dget_None key_eqb key_eqb_eq) in E. contradiction.
      + assert (In (s, k :: q) b) as Ib by (apply below_In; rewrite Eb; left; auto).
        destruct (Hd _ _ Ib) as (k' & r & t & E & It). injection E as <- _. apply (in_map fst) in It. exact It.
    - apply in_map_iff in I as ([k' t] & E & I). cbn in E. subst k'. destruct (Hm k t I) as [Nb _].
      pose proof (Gd k) as E. destruct (below k b) as [|e l]; [congruence|]. apply (dget_In key_eqb key_eqb_eq) in E. apply (in_map fst) in E. exact E. }
  assert (length d = length fs) as Ld.
  { rewrite <- (map_length fst d), <- (map_length fst fs). apply Permutation_length, NoDup_Permutation; auto. }
  assert (forall k l, In (k, l) d -> l = below k b) as Bl.
  { intros k l I. apply (dget_NoDup key_eqb key_eqb_eq) in I; auto. rewrite Gd in I. destruct (below k b); congruence. }
  set (sd := map (fun e : key * list entry => (fst e, [(@SVal path (vl (fst e)), @nil key)])) d).
  assert (mapM (fun e => do s <- at_member simplify a (fst e) (snd e) fs; Ok (fst e, s)) d = Ok sd) as Es.
  { unfold sd. apply mapM_Ok.
    assert (forall e, In e d -> In e d) as Inc by auto. revert Inc. generalize d at 1 3 4 as d'. induction d' as [|[k l] d' IH]; intros Inc; [constructor|].
    cbn [map]. constructor; [|apply IH; intros e I; apply Inc; right; auto]. cbn [fst snd].
    pose proof (Inc _ (or_introl eq_refl)) as I. rewrite (Bl k l I).
    assert (In k (map fst fs)) as Ik by (apply Kd; apply (in_map fst) in I; exact I).
    apply in_map_iff in Ik as ([k' t] & E & Ik). cbn in E. subst k'. destruct (Hm k t Ik) as (_ & fa & Em & _ & Sm).
    rewrite (at_member_In simplify a k t _ fs ND Ik), Em. cbn [bind]. rewrite Sm. reflexivity. }
  cbn [simplify]. rewrite Wh, Ed. cbn [bind]. rewrite Ld, Nat.eqb_refl. cbn [negb]. rewrite Es. cbn [bind].
  assert (forallb (fun e : key * list entry => match one_value (snd e) with Some _ => true | None => false end) sd = true) as ->.
  { unfold sd. apply forallb_forall. intros e I. apply in_map_iff in I as (e' & <- & _). reflexivity. }
  match goal with |- context [mapM ?F fs] => assert (mapM F fs = Ok (map (fun f => FWord (wd (fst f)) (vl (fst f))) fs)) as -> end; [|reflexivity].
  apply mapM_Ok. assert (forall f, In f fs -> In f fs) as Inc by auto. revert Inc. generalize fs at 1 3 4 as fs'.
  induction fs' as [|[k t] fs' IH]; intros Inc; [constructor|]. cbn [map]. constructor; [|apply IH; intros f I; apply Inc; right; auto].
  cbn [fst snd]. pose proof (Inc _ (or_introl eq_refl)) as I. destruct (Hm k t I) as (_ & fa & Em & Ew & _). rewrite Em. cbn [bind].
  assert (@dget key (list entry) key_eqb sd k = Some [(SVal (vl k), [])]) as E.
  { assert (In k (map fst d)) as Ik by (apply Kd; apply (in_map fst) in I; exact I). unfold sd. clear - Ik.
    induction d as [|[k' l] d IH]; [destruct Ik|]. cbn [map fst dget] in *. destruct (key_eqb k k') eqn:E.
    - apply key_eqb_eq in E as ->. reflexivity.
    - apply IH. destruct Ik as [->|]; auto. rewrite (proj2 (key_eqb_eq k k) eq_refl) in E. discriminate. }
  unfold dgetE. change (dget key_eqb sd k) with (@dget key (list entry) key_eqb sd k). rewrite E. cbn [bind one_value]. rewrite Ew. reflexivity.
Qed.

(** * A sum *)
Lemma strip_below k b : (forall s q, In (s, q) b -> exists r, q = k :: r) -> mapM (strip_field k) b = Ok (below k b).
Proof.
  induction b as [|[s q] b IH]; intros Hd; auto. cbn [mapM]. destruct (Hd s q (or_introl eq_refl)) as [r ->].
  unfold strip_field at 1. cbn [snd fst]. rewrite (proj2 (key_eqb_eq k k) eq_refl). cbn [bind].
  rewrite IH by (intros; eapply Hd; right; eauto). cbn [bind below flat_map snd fst]. rewrite (proj2 (key_eqb_eq k k) eq_refl). auto.
Qed.

Lemma simplify_sum g c fs a b k t fa z : NoDup (map fst fs) -> In (k, t) fs -> b <> [] -> (forall s q, In (s, q) b -> exists r, q = k :: r) ->
  member_asm a k = Ok fa -> simplify t fa (below k b) = Ok [(SVal z, [])] ->
  simplify (TSum g c fs) a b = do v <- sum_from_fields fs a k (FWord (a_width fa) z) None 0; Ok [(SVal v, [])].
Proof.
  intros ND I NE Hd Em Es.
  assert (whole b = false) as Wh.
  { destruct b as [|[s [|k' q]] [|]]; auto. destruct (Hd s [] (or_introl eq_refl)) as (? & X). discriminate. }
  cbn [simplify]. rewrite Wh. destruct b as [|[s q] b0] eqn:Eb; [congruence|]. rewrite <- Eb in *.
  destruct (Hd s q) as [r ->]; [rewrite Eb; left; auto|]. rewrite (strip_below k b Hd). cbn [bind].
  rewrite (at_member_In simplify a k t _ fs ND I), Em. cbn [bind]. rewrite Es. reflexivity.
Qed.

(** * The word of a form *)
Definition binds (p : path) (f : form) (b : list entry) : Prop :=
  NoDup (map snd b) /\ forall s q, In (s, q) b <-> exists z, s = SVal z /\ In (p ++ q, z) (f_vars f).

Lemma form_leaf R leafv tagv t a p out vm z f : good_request R -> wf_ty t -> buildable t -> asm_rel R t a ->
  smt_forms leafv tagv t a p None = Ok (out, vm, z) -> In f out -> exists r x, In (p ++ r, x) (f_vars f).
Proof.
  intros GR W B A E I. destruct (i_cov _ _ _ _ _ _ _ _ _ _ (inv_of R leafv tagv t a p out vm z GR W B A E) f I) as (v & Hv & M).
  destruct (leaf_exists t W B v Hv) as [q L]. assert (In (p ++ q) (map fst (f_vars f))) as X by (apply (mt_vars _ _ _ _ M); eauto).
  apply in_map_iff in X as ([q' x] & Eq & X). cbn in Eq. subst q'. eauto.
Qed.

(* the member forms by key *)
Definition part_at (fs : list (key * ty)) (rs : list pres) (l : list form) (k : key) : pres * form :=
  match find (fun e => key_eqb k (fst (fst e))) (combine fs (combine rs l)) with Some e => snd e | None => (PR 0 [] (VM [] [] []) 0, Form 0 [] []) end.

Lemma part_at_nth fs : NoDup (map fst fs) -> forall rs l i k t r gf, nth_error fs i = Some (k, t) -> nth_error rs i = Some r -> nth_error l i = Some gf ->
  part_at fs rs l k = (r, gf).
Proof.
  unfold part_at. induction fs as [|[k' t'] fs IHf]; intros ND rs l i k t r gf E1 E2 E3; [destruct i; discriminate|].
  cbn [map fst] in ND. inversion ND as [|? ? N1 N2]; subst. destruct rs as [|r' rs]; [destruct i; discriminate|]. destruct l as [|g' l]; [destruct i; discriminate|].
  cbn [combine find fst]. destruct i as [|i]; cbn [nth_error] in *.
  - injection E1 as -> ->. injection E2 as ->. injection E3 as ->. rewrite (proj2 (key_eqb_eq k k) eq_refl). reflexivity.
  - destruct (key_eqb k k') eqn:Ek; [|eapply IHf; eauto]. apply key_eqb_eq in Ek as ->. exfalso. apply N1. apply nth_error_In in E1.
    apply (in_map fst) in E1. exact E1.
Qed.

Lemma simplify_form R leafv tagv t : good_request R -> forall a p out vm z b f, wf_ty t -> buildable t -> asm_rel R t a ->
  smt_forms leafv tagv t a p None = Ok (out, vm, z) -> In f out -> tags_fit tagv p t f -> binds p f b ->
  simplify t a b = Ok [(SVal (f_val f), [])].
Proof.
  intros GR. induction t as [|w|w|c ms|c fs IH|g c fs IH] using ty_ind'; intros a p out vm z b f W B A E I T [Nb Hb].
  1-4: cbn [smt_forms] in E; unfold leaf_form in E; injection E as <- _ _; destruct I as [<-|[]]; cbn [f_val f_vars] in *;
    set (x := wrap (a_width a) (leafv p)) in *;
    assert (b = [(SVal x, [])]) as -> by
      (assert (forall e, In e b -> e = (SVal x, [])) as X by
         (intros [s q] Ie; apply Hb in Ie as (z0 & -> & [[= E1 <-]|[]]); rewrite <- (app_nil_r p) in E1 at 1; apply app_inv_head in E1; now subst);
       assert (In (SVal x, []) b) as Y by (apply Hb; exists x; split; auto; left; rewrite app_nil_r; auto);
       destruct b as [|e [|e' b]]; [destruct Y|rewrite (X e) by (left; auto); auto|];
       exfalso; rewrite (X e), (X e') in Nb by (cbn; auto); inversion Nb as [|? ? N1 _]; apply N1; left; auto);
    reflexivity.
  - destruct (prod_parts R leafv tagv c fs a p out vm z GR W B A E) as (rs & L & Ez & O).
    apply In_nth_error in I as [j Ej]. destruct (F2_nth' _ _ _ O j f Ej) as (l & _ & Fl & G & Ef & Ed & Ev).
    assert (NoDup (map fst fs)) as ND by (inversion W; auto).
    pose proof (F2_length _ _ _ Fl) as L1. pose proof (F2_length _ _ _ L) as L2.
    set (at_k := part_at fs rs l).
    assert (forall i k t r gf, nth_error fs i = Some (k, t) -> nth_error rs i = Some r -> nth_error l i = Some gf -> at_k k = (r, gf)) as Atk
      by (intros; unfold at_k; eapply part_at_nth; eauto).
    clearbody at_k.
    rewrite (simplify_prod c fs a b (fun k => q_width (fst (at_k k))) (fun k => f_val (snd (at_k k))) ND).
    + match goal with |- (do v <- ?X; _) = _ => assert (X = Ok (f_val f)) as -> end; [|reflexivity]. rewrite <- Ef. f_equal.
      assert (forall i k t, nth_error fs i = Some (k, t) -> exists r gf, nth_error rs i = Some r /\ nth_error l i = Some gf /\ at_k k = (r, gf)) as X.
      { intros i k t Ei. destruct (nth_same_length fs rs i _ L2 Ei) as [r Er]. destruct (nth_same_length rs l i _ (eq_sym L1) Er) as [gf Eg]. exists r, gf. split; auto. split; auto. eapply Atk; eauto. }
      clear - X L1 L2. revert rs l L1 L2 X. generalize at_k as ak. clear. induction fs as [|[k t] fs IHf]; intros ak rs l L1 L2 X.
      * destruct rs; [|discriminate]. destruct l; [|discriminate]. reflexivity.
      * destruct rs as [|r rs]; [discriminate|]. destruct l as [|gf l]; [discriminate|]. cbn [map combine fst snd]. f_equal.
        { destruct (X 0%nat k t eq_refl) as (r' & g' & [= <-] & [= <-] & ->). reflexivity. }
        { apply IHf; [now injection L1|now injection L2|]. intros i k' t' Ei. apply (X (S i) k' t' Ei). }
    + intros s q Ie. apply Hb in Ie as (z0 & -> & Iv). apply (in_map fst) in Iv. cbn [fst] in Iv.
      destruct (parts_vars_shape p fs l f G Ev (p ++ q) Iv) as (i & k & t & gf & r & Ei & _ & Eq). apply app_inv_head in Eq. subst q.
      exists k, r, t. split; auto. eapply nth_error_In; eauto.
    + intros k t Ik. pose proof Ik as Ik2. apply In_nth_error in Ik2 as [i Ei].
      destruct (nth_same_length fs rs i _ L2 Ei) as [r Er]. destruct (nth_same_length rs l i _ (eq_sym L1) Er) as [gf Eg].
      rewrite (Atk i k t r gf Ei Er Eg). cbn [fst snd].
      destruct (F2_nth _ _ _ L i _ Ei) as (r' & Er' & fa & Em & Ew & Rn). assert (r' = r) by congruence. subst r'. cbn [fst snd] in *.
      destruct (F2_nth _ _ _ Fl i gf Eg) as (r' & Er2 & Ig). assert (r' = r) by congruence. subst r'.
      destruct (prod_member R c fs a k t W A Ik) as (fa' & lo & Em' & Af & _). assert (fa' = fa) by congruence. subst fa'.
      assert (wf_ty t) as Wt by (eapply wf_members_prod; eauto).
      assert (buildable t) as Bt by (inversion B as [? Lf|? ? _ _ BF|]; subst; [destruct Lf|eapply BF; eauto]).
      assert (binds (p ++ [k]) gf (below k b)) as Bg.
      { split; [apply below_nodup; auto|]. intros s q. rewrite below_In, Hb, snoc_app.
        split; intros (z0 & -> & Iv); exists z0; (split; [reflexivity|]); eapply (part_vars p fs ND l f G Ev i k t gf Ei Eg); eauto. }
      split.
      * destruct (form_leaf R leafv tagv t fa (p ++ [k]) _ _ _ gf GR Wt Bt Af Rn Ig) as (q & x & Iq). intros Emp.
        assert (In (SVal x, q) (below k b)) as Y by (apply Bg; eauto). rewrite Emp in Y. destruct Y.
      * exists fa. split; auto. split; auto. rewrite Forall_forall in IH. eapply (IH (k, t) Ik); [exact Wt|exact Bt|exact Af|exact Rn|exact Ig| |exact Bg].
        intros r' k' g' c' fs' Id S. cbn [snd] in S. rewrite snoc_app in *. apply (T (k :: r') k' g' c' fs'); [|econstructor; eauto].
        apply (part_dict p fs ND l f G Ed i k t gf Ei Eg). exact Id.
  - inversion B as [? Lf| |? ? ? L2 NW BF]; subst; [destruct Lf|]. assert (NoDup (map fst fs)) as ND by (inversion W; auto).
    assert (forall k t, In (k, t) fs -> wf_ty t) as WF by (intros k t Ik; eapply wf_members_sum; eauto).
    cbn [smt_forms] in E. destruct a as [| | |w0 tagw as_ gs tv]; try discriminate. set (a := ASum w0 tagw as_ gs tv) in *.
    destruct (sum_loop (smt_forms leafv tagv) g fs a p None (wrap tagw (tagv p)) fs) as [rs|] eqn:L; [|discriminate]. cbn [bind] in E.
    destruct (ite_chain rs) as [y|] eqn:Ey; [|discriminate]. cbn [bind] in E. injection E as <- _ _. apply sum_loop_inv in L.
    apply in_flat_map in I as (r & Ir & I). apply In_nth_error in Ir as [i Er]. apply In_nth_error in I as [j Ej].
    destruct (F2_nth' _ _ _ L i r Er) as ([k t] & Ei & fa & sf & x & m & Em & Ek & Rn & Ew & Fs & Eg & Mr). cbn [fst snd] in *.
    destruct (F2_nth' _ _ _ Fs j f Ej) as (f0 & Ef0 & Sf). pose proof (nth_error_In _ _ Ef0) as If0. pose proof (nth_error_In _ _ Ei) as Ik.
    unfold sum_form in Sf. destruct (existsb _ (f_dict f0)); [discriminate|].
    destruct (sum_from_fields fs a k (FWord (a_width fa) (f_val f0)) (Some (wrap tagw (tagv p))) 0) as [y0|] eqn:Y0; [|discriminate].
    cbn [bind] in Sf. injection Sf as <-. cbn [f_val f_vars] in *. unfold tags_fit in T. cbn [f_dict] in T.
    destruct (sum_words R g c fs a k t GR W A Ik)
      as (w1 & tagw' & as' & gs' & tv' & fa' & pre & post & Ea & Etw & Hfs & Em' & Af & Rr & Lw & Pt & Pfa & _ & _).
    unfold a in Ea. injection Ea as <- <- <- <- <-. assert (fa' = fa) by congruence. subst fa'.
    assert (assemble_tag a k = Ok (wrap tagw (tagv p))) as Et.
    { destruct (T [] k g c fs) as (pre' & u & post' & Hfs' & Eq); [rewrite app_nil_r; left; auto|constructor|]. rewrite app_nil_r in Eq.
      destruct (nodup_split_unique fs pre pre' post post' k t u ND Hfs Hfs') as (<- & _ & <-). rewrite Eq, (wrap_small _ _ Rr).
      apply (tags_spec R g c fs a pre k t post GR W A Hfs). }
    assert (wf_ty t) as Wt by eauto. assert (buildable t) as Bt by eauto.
    pose proof (i_cov _ _ _ _ _ _ _ _ _ _ (inv_of R leafv tagv t fa (p ++ [k]) _ _ _ GR Wt Bt Af Rn) f0 If0) as (v & Hv & M).
    assert (forall s q, In (s, q) b -> exists r, q = k :: r) as Hd.
    { intros s q Ie. apply Hb in Ie as (z0 & -> & Iv). apply (in_map fst) in Iv. cbn [fst] in Iv.
      apply (mt_vars _ _ _ _ M) in Iv as (r' & Eq & _). rewrite snoc_app in Eq. apply app_inv_head in Eq. eauto. }
    assert (binds (p ++ [k]) f0 (below k b)) as Bg.
    { split; [apply below_nodup; auto|]. intros s q. rewrite below_In, Hb, snoc_app. tauto. }
    rewrite (simplify_sum g c fs a b k t fa (f_val f0) ND Ik); auto.
    + assert (sum_from_fields fs a k (FWord (a_width fa) (f_val f0)) None 0 = Ok y0) as ->; [|reflexivity].
      rewrite <- Y0. unfold a in *. cbn [sum_from_fields]. rewrite Et. reflexivity.
    + intros ->. destruct (form_leaf R leafv tagv t fa (p ++ [k]) _ _ _ f0 GR Wt Bt Af Rn If0) as (q & z0 & Iq).
      assert (In (SVal z0, q) (below k [])) as Y by (apply Bg; eauto). destruct Y.
    + rewrite Forall_forall in IH. eapply (IH (k, t) Ik); [exact Wt|exact Bt|exact Af|exact Rn|exact If0| |exact Bg].
      intros r' k' g' c' fs' Id S. cbn [snd] in S. rewrite snoc_app in *. apply (T (k :: r') k' g' c' fs'); [right; exact Id|econstructor; eauto].
Qed.

(** * Only the leaves of a value are accepted *)
Lemma mapM_each {X Y} (f : X -> res Y) l ys : mapM f l = Ok ys -> forall x, In x l -> exists y, f x = Ok y.
Proof. intros E x I. apply mapM_F2 in E. apply In_nth_error in I as [i Ei]. destruct (F2_nth _ _ _ E i x Ei) as (y & _ & Ey). eauto. Qed.

Lemma simplify_leaves t : forall a b b', simplify t a b = Ok b' -> wf_ty t ->
  (forall q, In q (map snd b) -> exists u, sub_ty t q u /\ is_leaf u) ->
  exists v, has_ty t v /\ forall q, In q (map snd b) <-> leaf_path t v q.
Proof.
  induction t as [|w|w|c ms|c fs IH|g c fs IH] using ty_ind'; intros a b b' E W Hl.
  1-4: match goal with |- exists v, has_ty ?t v /\ _ => destruct (inhabited t W) as (v & Hv & _) end; exists v; split; auto; intros q;
    cbn [simplify] in E; destruct b as [|[s [|k0 q0]] [|? ?]]; try discriminate; cbn [map snd In]; split;
      [intros [<-|[]]; eexists _, v; split; [constructor|exact Logic.I]|intros (t' & v' & S & _); inversion S; subst; auto].
  - assert (NoDup (map fst fs)) as ND by (inversion W; auto).
    assert (whole b = false) as Wh.
    { destruct b as [|[s [|k q]] [|]]; auto. destruct (Hl []) as (u & S & L); [left; auto|]. inversion S; subst. destruct L. }
    cbn [simplify] in E. rewrite Wh in E. destruct (group_by fs [] b) as [d|] eqn:Ed; [|discriminate]. cbn [bind] in E.
    pose proof (group_by_heads _ _ _ _ Ed) as Hd.
    destruct (group_by_spec fs b Hd [] []) as (d' & Ed' & N & G); [split; [constructor|reflexivity]|].
    rewrite Ed in Ed'. injection Ed' as <-. cbn [app] in G.
    destruct (length d =? length fs)%nat eqn:Eln; [|discriminate]. apply Nat.eqb_eq in Eln. cbn [negb] in E.
    destruct (mapM (fun e => do s <- at_member simplify a (fst e) (snd e) fs; Ok (fst e, s)) d) as [sd|] eqn:Es; [|discriminate]. clear E.
    assert (incl (map fst d) (map fst fs)) as Id.
    { intros k I. apply in_map_iff in I as ([k' l] & <- & I). cbn [fst]. pose proof (dget_NoDup key_eqb key_eqb_eq d k' l N I) as X. rewrite G in X.
      destruct (below k' b) as [|[s q] l0] eqn:Eb; [discriminate|]. assert (In (s, k' :: q) b) as Ib by (apply below_In; rewrite Eb; left; auto).
      destruct (Hd _ _ Ib) as (k & r & t & Eq & Et). injection Eq as <- _. apply (dget_In key_eqb key_eqb_eq) in Et. apply (in_map fst) in Et. exact Et. }
    assert (incl (map fst fs) (map fst d)) as Id'.
    { apply NoDup_length_incl; auto. rewrite !map_length. lia. }
    assert (forall k t, In (k, t) fs -> exists v, has_ty t v /\ forall q, In q (map snd (below k b)) <-> leaf_path t v q) as Mem.
    { intros k t I. pose proof (Id' k (in_map fst _ _ I)) as Ik. apply in_map_iff in Ik as ([k' l] & Eq & Ik). cbn in Eq. subst k'.
      pose proof (dget_NoDup key_eqb key_eqb_eq d k l N Ik) as X. rewrite G in X.
      destruct (mapM_each _ _ _ Es _ Ik) as [y Ey]. cbn [fst snd] in Ey. rewrite (at_member_In simplify a k t l fs ND I) in Ey.
      destruct (member_asm a k) as [fa|]; [|discriminate]. cbn [bind] in Ey. destruct (simplify t fa l) as [s|] eqn:Em; [|discriminate].
      assert (l = below k b) as -> by (destruct (below k b); congruence). rewrite Forall_forall in IH.
      apply (IH (k, t) I fa _ s Em); [eapply wf_members_prod; eauto|]. intros q Iq. apply below_path in Iq. destruct (Hl _ Iq) as (u & S & L).
      inversion S as [|? ? k0 r0 t0 u0 I0 S0|]; subst. exists u. cbn [snd]. split; auto.
      assert (t0 = t) as <-; auto. apply (dget_key_In fs k t0 ND) in I0. apply (dget_key_In fs k t ND) in I. congruence. }
    assert (exists vs, Forall2 (fun f v => has_ty (snd f) v /\ forall q, In q (map snd (below (fst f) b)) <-> leaf_path (snd f) v q) fs vs) as [vs F].
    { clear - Mem. assert (forall k t, In (k, t) fs -> exists v, has_ty t v /\ forall q, In q (map snd (below k b)) <-> leaf_path t v q) as M' by auto.
      revert M'. clear Mem. generalize fs as l. induction l as [|[k t] l IHl]; intros M'; [exists []; constructor|].
      destruct (M' k t (or_introl eq_refl)) as (v & Hv). destruct IHl as [vs F]; [intros; apply M'; right; auto|]. exists (v :: vs). constructor; auto. }
    exists (VProd vs). split.
    { constructor. clear - F. induction F as [|? ? ? ? [X _] _ IHF]; constructor; auto. }
    intros q. split.
    + intros I. apply in_map_iff in I as ([s q'] & Eq & I). cbn in Eq. subst q'. destruct (Hd s q I) as (k & r & t & -> & Et).
      apply (dget_In key_eqb key_eqb_eq) in Et. apply In_nth_error in Et as [i Ei]. destruct (F2_nth _ _ _ F i _ Ei) as (v & Ev & Hv & Hq). cbn [fst snd] in *.
      apply (leaf_prod c fs vs i k t v r ND Ei Ev). apply Hq, below_path. apply (in_map snd) in I. exact I.
    + intros L. destruct (leaf_prod_inv _ _ _ _ L) as (i & k & t & v & r & -> & Ei & Ev).
      destruct (F2_nth _ _ _ F i _ Ei) as (v' & Ev' & Hv & Hq). assert (v' = v) by congruence. subst v'. cbn [fst snd] in *.
      apply below_path, Hq. apply (leaf_prod c fs vs i k t v r ND Ei Ev). exact L.
  - assert (NoDup (map fst fs)) as ND by (inversion W; auto).
    assert (whole b = false) as Wh.
    { destruct b as [|[s [|k q]] [|]]; auto. destruct (Hl []) as (u & S & L); [left; auto|]. inversion S; subst. destruct L. }
    cbn [simplify] in E. rewrite Wh in E. destruct b as [|[s [|k q]] b0] eqn:Eb; try discriminate. rewrite <- Eb in *.
    destruct (mapM (strip_field k) b) as [sub|] eqn:Em; [|discriminate]. cbn [bind] in E.
    destruct (at_member simplify a k sub fs) as [sl|] eqn:X; [|discriminate]. clear E.
    apply mapM_strip in Em as [-> Hd]. apply at_member_inv in X as (t & fa & It & X). rewrite Forall_forall in IH.
    destruct (IH (k, t) It fa _ sl X) as (v & Hv & Hq); [eapply wf_members_sum; eauto| |].
    { intros r Ir. apply below_path in Ir. destruct (Hl _ Ir) as (u & S & L). inversion S as [| |? ? ? k0 r0 t0 u0 I0 S0]; subst. exists u. cbn [snd]. split; auto.
      assert (t0 = t) as <-; auto. apply (dget_key_In fs k t0 ND) in I0. apply (dget_key_In fs k t ND) in It. congruence. }
    cbn [snd] in *. exists (VSum k v). split; [econstructor; eauto|]. intros r. split.
    + intros I. apply in_map_iff in I as ([s' q'] & Eq & I). cbn in Eq. subst q'. destruct (Hd s' r I) as [r' ->].
      apply (leaf_sum g c fs k t v r' ND It). apply Hq, below_path. apply (in_map snd) in I. exact I.
    + intros L. destruct (leaf_sum_inv _ _ _ _ _ _ L) as [r' ->]. apply below_path, Hq. apply (leaf_sum g c fs k t v r' ND It). exact L.
Qed.
