(** C32, C33: forms of a type, and rebuilding a value from a binding. *)
From Coq Require Import String ZArith List Bool Lia Permutation.
From Verif Require Import Base BaseLemmas BindModel MapIdxProps BindProps MapModel
  AsmModel AsmSpec AsmValid AsmEnum AsmBuild AsmProofs AsmSub AsmCheck AsmMore AsmProps Asm2Model Asm2Proofs AadtModel AadtProofs
  FormModel FormProofs FormMain FormSimp.
Import ListNotations.
Open Scope list_scope.
Open Scope Z_scope.

(** * C32 *)

(** What the property asks of the forms [out] of a type at path [p]: every value
    matches one form and only one, every form is the form of some value, and no two
    forms have the same path_dict. [matches] says that the path_dict lists exactly the
    choices made in the value and the variables are exactly its leaves. *)
Definition partition (p : path) (t : ty) (out : list form) : Prop :=
  (forall v, has_ty t v -> exists i f, nth_error out i = Some f /\ matches p t v f /\
     forall j f', nth_error out j = Some f' -> matches p t v f' -> j = i) /\
  (forall f, In f out -> exists v, has_ty t v /\ matches p t v f) /\
  (forall i j f f', nth_error out i = Some f -> nth_error out j = Some f' -> same_dict f f' -> i = j).

Lemma same_dict_sym f f' : same_dict f f' -> same_dict f' f.
Proof. intros H q k. symmetry. apply H. Qed.

Lemma inv_partition leafv tagv J p t a value out vm z : Inv leafv tagv J p t a value out vm z -> partition p t out.
Proof.
  intros IV. pose proof (distinct_nth _ same_dict out same_dict_sym (i_dis _ _ _ _ _ _ _ _ _ _ IV)) as D. split; [|split; auto].
  - intros v H. destruct (i_ex _ _ _ _ _ _ _ _ _ _ IV v H) as (f & I & M). apply In_nth_error in I as [i Ei].
    exists i, f. split; auto. split; auto. intros j f' Ej M'. eapply D; eauto.
    intros q k. rewrite (mt_dict _ _ _ _ M' q k), (mt_dict _ _ _ _ M q k). tauto.
  - apply IV.
Qed.

Lemma sub_val_ty t v r t' v' : sub_val t v r t' v' -> sub_ty t r t'.
Proof. induction 1; [constructor|eapply st_prod; eauto; eapply nth_error_In; eauto|eapply st_sum; eauto]. Qed.

(** Every value is described by some valuation of the variables. *)
Lemma agree_exists p t : wf_ty t -> forall v, has_ty t v -> exists leafv tagv, agree leafv tagv (fun j => j = 0) p t v.
Proof.
  intros W v H.
  enough (exists lv tv : path -> Z, (forall r t' v', sub_val t v r t' v' -> is_leaf t' -> canonical t' (lv r) v') /\
    (forall r g c fs k w, sub_val t v r (TSum g c fs) (VSum k w) -> rank_of fs k (tv r))) as (lv & tv & H1 & H2).
  { exists (fun q => lv (skipn (length p) q)), (fun q => tv (skipn (length p) q)).
    assert (forall r, skipn (length p) (p ++ r) = r) as E by (intros r; rewrite skipn_app, skipn_all, Nat.sub_diag; auto).
    split; intros; rewrite E; [apply H1; auto|eapply H2; eauto]. }
  revert v H. induction t as [| | |c ms|c fs IH|g c fs IH] using ty_ind'; intros v H.
  1-4: destruct (a2_asm_spec _ W v H) as (op & _ & C); exists (fun _ => op), (fun _ => 0); split; intros *; intros S;
    inversion S; subst; auto.
  - inversion H as [| | | |? ? vs F|]; subst. assert (NoDup (map fst fs)) as ND by (inversion W; auto).
    assert (Forall (fun f => wf_ty (snd f)) fs) as WF by (inversion W; auto).
    enough (exists lv tv : path -> Z, forall i k t v, nth_error fs i = Some (k, t) -> nth_error vs i = Some v ->
      (forall r t' v', sub_val t v r t' v' -> is_leaf t' -> canonical t' (lv (k :: r)) v') /\
      (forall r g c fs k' w, sub_val t v r (TSum g c fs) (VSum k' w) -> rank_of fs k' (tv (k :: r)))) as (lv & tv & X).
    { exists lv, tv. split.
      - intros r t' v' S L. inversion S; subst; [destruct L|]. eapply X; eauto.
      - intros r g0 c0 fs0 k0 w0 S. inversion S; subst. eapply X; eauto. }
    clear W H. induction F as [|[k t] v fs vs Hv F IHF].
    { exists (fun _ => 0), (fun _ => 0). intros [|i]; discriminate. }
    inversion WF as [|? ? W1 W2]; subst. inversion IH as [|? ? I1 I2]; subst. cbn [map fst] in ND. inversion ND as [|? ? N1 N2]; subst.
    destruct (IHF I2 N2 W2) as (lv & tv & X). destruct (I1 W1 v Hv) as (lv0 & tv0 & Y1 & Y2).
    exists (fun q => match q with k' :: r => if key_eqb k' k then lv0 r else lv q | [] => 0 end),
      (fun q => match q with k' :: r => if key_eqb k' k then tv0 r else tv q | [] => 0 end).
    intros [|i] k' t' v' E E'; cbn [nth_error] in *.
    + injection E as <- <-. injection E' as <-. rewrite (proj2 (key_eqb_eq k k) eq_refl). auto.
    + destruct (key_eqb k' k) eqn:Ek; [|eauto]. apply key_eqb_eq in Ek as ->. exfalso. apply N1. apply nth_error_In, (in_map fst) in E. exact E.
  - inversion H as [| | | | |? ? ? k t v' I Hv]; subst. rewrite Forall_forall in IH.
    assert (NoDup (map fst fs)) as ND by (inversion W; auto).
    destruct (IH (k, t) I (wf_members_sum g c fs k t W I) v' Hv) as (lv & tv & Y1 & Y2).
    pose proof I as I0. apply in_split in I0 as (pre & post & Hfs).
    exists (fun q => match q with _ :: r => lv r | [] => 0 end),
      (fun q => match q with _ :: r => tv r | [] => rank_at pre k post end). split.
    + intros r t' v0 S L. inversion S as [| |? ? ? ? ? t0 ? ? ? I' S']; subst; [destruct L|].
      assert (t0 = t) as -> by (eapply nodup_key_fun; eauto). eapply Y1; eauto.
    + intros r g0 c0 fs0 k0 w0 S. inversion S as [| |? ? ? ? ? t0 ? ? ? I' S']; subst; [exists pre, t, post; auto|].
      assert (t0 = t) as -> by (eapply nodup_key_fun; eauto). eapply Y2; eauto.
Qed.

Definition C32_full : Prop := forall leafv tagv h t a p, Forall wf_ty (t :: h) -> built h t a ->
  exists out vm z, smt_forms leafv tagv t a p None = Ok (out, vm, z) /\ partition p t out.

(** Missing for C32: types with an empty product, a sum with one member, or a
    zero-width part next to others raise an error; see [C32_exactly]. The second half
    says that under a valuation of the variables which agrees with a value, its form
    and the term for the whole value both hold the value. *)
Theorem C32_forms_partial leafv tagv h t a p : Forall wf_ty (t :: h) -> built h t a -> buildable t ->
  exists out vm z, smt_forms leafv tagv t a p None = Ok (out, vm, z) /\ partition p t out /\
    (forall f q x, In f out -> In (q, x) (f_vars f) ->
       exists r t' w, q = p ++ r /\ sub_ty t r t' /\ swidth t' w /\ x = wrap w (leafv q)) /\
    (forall v, has_ty t v -> agree leafv tagv (fun j => j = 0) p t v ->
       canonical t z v /\ (forall f, In f out -> matches p t v f -> canonical t (f_val f) v) /\
       (forall r g c fs k w, sub_val t v r (TSum g c fs) (VSum k w) -> exists ms, In (p ++ r, ms) (m_match vm) /\
          map fst ms = map fst fs /\ forall k' b, In (k', b) ms -> (b = true <-> k' = k)) /\
       (forall r g c fs k w, sub_val t v r (TSum g c fs) (VSum k w) -> exists x, In (p ++ r, x) (m_tag vm) /\ rank_of fs k x)).
Proof.
  intros W Bu B. pose proof (built_rel h t a W Bu) as A. assert (wf_ty t) as Wt by (inversion W; auto).
  destruct (all_work leafv tagv (fun j => j = 0) eq_refl (reqs (t :: h)) (reqs_good _ W) t a p None Wt B A) as (out & vm & z & E & IV).
  { intros op X. discriminate. }
  exists out, vm, z. split; auto. split; [eapply inv_partition; eauto|]. split.
  - intros f q x I I'. eapply (i_fresh _ _ _ _ _ _ _ _ _ _ IV eq_refl). eapply (i_vars _ _ _ _ _ _ _ _ _ _ IV); eauto.
  - intros v H G. destruct (i_sem _ _ _ _ _ _ _ _ _ _ IV v H G) as (H1 & H2 & H3 & H4). split; auto. split; auto. split.
    + intros r g c fs k w S. destruct (i_matches _ _ _ _ _ _ _ _ _ _ IV) as [_ K].
      assert (In (p ++ r) (map fst (m_match vm))) as I by (apply K; exists r, (TSum g c fs); split; auto; split; [eapply sub_val_ty; eauto|exact Logic.I]).
      apply in_map_iff in I as ([q ms] & E' & I). cbn in E'. subst q. exists ms. split; auto. apply (H4 r g c fs k w S). auto.
    + intros r g c fs k w S. destruct (i_tags _ _ _ _ _ _ _ _ _ _ IV) as [_ K].
      assert (In (p ++ r) (map fst (m_tag vm))) as I by (apply K; exists r, (TSum g c fs); split; auto; split; [eapply sub_val_ty; eauto|exact Logic.I]).
      apply in_map_iff in I as ([q x] & E' & I). cbn in E'. subst q. exists x. split; auto. apply (H4 r g c fs k w S). auto.
Qed.

(** Every value is described by some valuation of the variables. *)
Theorem C32_valuation p t v : wf_ty t -> has_ty t v -> exists leafv tagv, agree leafv tagv (fun j => j = 0) p t v.
Proof. intros W H. apply agree_exists; auto. Qed.

(** With the word of a value given, the pieces found are those of the value.
    Missing for C32: tagged unions, see [C32_value_full_refuted]. *)
Definition C32_value_full : Prop := forall leafv tagv h t a p op v, Forall wf_ty (t :: h) -> built h t a -> buildable t ->
  has_ty t v -> encodes t op v -> exists out vm z, smt_forms leafv tagv t a p (Some op) = Ok (out, vm, z) /\ partition p t out /\
    encodes t z v /\ (forall f, In f out -> matches p t v f -> encodes t (f_val f) v /\
       forall r t' v' x, sub_val t v r t' v' -> is_leaf t' -> In (p ++ r, x) (f_vars f) -> encodes t' x v').

Theorem C32_value_partial leafv tagv h t a p op v : Forall wf_ty (t :: h) -> built h t a -> buildable t -> untagged t ->
  has_ty t v -> encodes t op v -> exists out vm z, smt_forms leafv tagv t a p (Some op) = Ok (out, vm, z) /\ partition p t out /\
    encodes t z v /\ (forall f, In f out -> matches p t v f -> encodes t (f_val f) v /\
       forall r t' v' x, sub_val t v r t' v' -> is_leaf t' -> In (p ++ r, x) (f_vars f) -> encodes t' x v').
Proof.
  intros W Bu B U H En. pose proof (built_rel h t a W Bu) as A. assert (wf_ty t) as Wt by (inversion W; auto).
  destruct (all_work leafv tagv (fun _ => True) Logic.I (reqs (t :: h)) (reqs_good _ W) t a p (Some op) Wt B A) as (out & vm & z & E & IV).
  { intros op' [= <-]. split; auto. apply (enc_range (fun _ => True) t Wt op v); auto. apply (asm_rel_width _ t Wt a A). }
  exists out, vm, z. split; auto. split; [eapply inv_partition; eauto|].
  destruct (i_sem _ _ _ _ _ _ _ _ _ _ IV v H En) as (H1 & H2 & H3 & H4). split; auto.
  intros f I M. split; [apply H2; auto|]. intros r t' v' x S L Ix. apply (H3 r t' v' x S L). eapply (i_vars _ _ _ _ _ _ _ _ _ _ IV); eauto.
Qed.

(** ** Which types work *)
Lemma prod_from_ok R c fs a args op : wf_ty (TProd c fs) -> asm_rel R (TProd c fs) a -> prod_from_fields fs a args 0 = Ok op ->
  fs <> [] /\ (length fs = 1%nat \/ forall k t, In (k, t) fs -> ~ swidth t 0).
Proof.
  intros W A E. inversion A as [| | | |? ? w fs' T|]; subst. cbn [prod_from_fields] in E.
  pose proof (tup_rel_length _ _ _ _ _ T) as Lf.
  destruct (new_fields fs fs' args) as [bvs|]; [|discriminate]. cbn [bind] in E. unfold create_from_layout in E.
  destruct (negb (same_keys (map fst (map fst fs')) (map fst bvs))); [discriminate|].
  destruct (negb (ranges_ok w (isort pair_leb (map snd (map fst fs'))))) eqn:Er; [discriminate|]. apply negb_false_iff in Er.
  split.
  - intros ->. inversion T; subst. cbn in E. discriminate.
  - destruct fs as [|f1 [|f2 fs]]; [cbn in E|left; auto|].
    { left. inversion T; subst. cbn in E. discriminate. }
    right. intros k t I S0. pose proof (ranges_ok_pos _ _ Er) as P. rewrite isort_length, !map_length, Lf in P. specialize (P ltac:(cbn; lia)).
    assert (forall b l w l', tup_rel R b l w l' -> Forall (fun f => wf_ty (snd f)) l -> In (k, t) l -> exists lo, In (lo, lo) (map snd (map fst l'))) as HH.
    { clear - S0. intros b l w l' T. induction T as [b|b k0 t0 r w a rest Ha Tr IH]; intros WF I; [destruct I|].
      inversion WF as [|? ? W1 W2]; subst. destruct I as [[= -> ->]|I].
      - exists b. left. cbn [fst snd]. cbn [snd] in W1. destruct (asm_rel_width R t W1 a Ha) as [S _]. rewrite (swidth_fun t _ _ S S0), Z.add_0_r. auto.
      - destruct (IH W2 I) as [lo Il]. exists lo. right. auto. }
    destruct (HH 0 _ w fs' T) as [lo Il]; [inversion W; auto|auto|].
    apply isort_In_pair in Il. specialize (P _ Il). cbn in P. lia.
Qed.

Lemma prod_loop_inv F a p fs rs : prod_loop F a p None fs = Ok rs ->
  forall k t, In (k, t) fs -> exists fa r, member_asm a k = Ok fa /\ F t fa (p ++ [k]) None = Ok r.
Proof.
  revert rs. induction fs as [|[k0 t0] fs IH]; intros rs E k t I; [destruct I|]. cbn [prod_loop] in E.
  destruct (member_asm a k0) as [fa|] eqn:Em; [|discriminate]. cbn [bind] in E.
  destruct (F t0 fa (p ++ [k0]) None) as [[[sf vm] x]|] eqn:Ef; [|discriminate]. cbn [bind] in E.
  destruct I as [[= -> ->]|I]; [eauto|].
  destruct (prod_loop F a p None fs) as [rs'|]; [|discriminate]. eauto.
Qed.
Lemma sum_loop_inv F g all a p tag fs rs : sum_loop F g all a p None tag fs = Ok rs ->
  forall k t, In (k, t) fs -> exists fa sf vm x w, member_asm a k = Ok fa /\ F t fa (p ++ [k]) None = Ok (sf, vm, x) /\
    sum_from_fields all a k (FWord (a_width fa) x) (Some tag) 0 = Ok w.
Proof.
  revert rs. induction fs as [|[k0 t0] fs IH]; intros rs E k t I; [destruct I|]. cbn [sum_loop] in E.
  destruct (member_asm a k0) as [fa|] eqn:Em; [|discriminate]. cbn [bind] in E.
  destruct (F t0 fa (p ++ [k0]) None) as [[[sf vm] x]|] eqn:Ef; [|discriminate]. cbn [bind] in E.
  destruct (sum_from_fields all a k0 (FWord (a_width fa) x) (Some tag) 0) as [w|] eqn:Es; [|discriminate]. cbn [bind] in E.
  destruct (mapM (sum_form all a fa p None tag k0) sf); [|discriminate]. cbn [bind] in E.
  destruct (aadt_get a w k0); [|discriminate]. cbn [bind] in E.
  destruct I as [[= -> ->]|I]; [exists fa, sf, vm, x, w; auto|].
  destruct (sum_loop F g all a p None tag fs) as [rs'|]; [|discriminate]. eauto.
Qed.

Lemma forms_buildable leafv tagv R t : good_request R -> wf_ty t -> forall a p r, asm_rel R t a ->
  smt_forms leafv tagv t a p None = Ok r -> buildable t.
Proof.
  intros GR. induction t as [| | |c ms|c fs IH|g c fs IH] using ty_ind'; intros W a p r A E; try (apply bd_leaf; exact Logic.I).
  - cbn [smt_forms] in E. destruct (prod_loop (smt_forms leafv tagv) a p None fs) as [rs|] eqn:El; [|discriminate]. cbn [bind] in E.
    destruct (prod_from_fields fs a _ 0) as [z|] eqn:Ep; [|discriminate].
    destruct (prod_from_ok R c fs a _ z W A Ep) as [NE NZ]. apply bd_prod; auto. intros k t I.
    destruct (prod_loop_inv _ _ _ _ _ El k t I) as (fa & r' & Em & Ef). destruct (prod_member R c fs a k t W A I) as (fa' & lo & Em' & Af & _).
    assert (fa' = fa) as -> by congruence. rewrite Forall_forall in IH. apply (IH (k, t) I (wf_members_prod c fs k t W I) fa (p ++ [k]) r'); auto.
  - destruct a as [| | |w tagw as_ gs tv]; try (inversion A; fail). cbn [smt_forms] in E.
    set (tag := wrap tagw (tagv p)) in *. set (a := ASum w tagw as_ gs tv) in *.
    destruct (sum_loop (smt_forms leafv tagv) g fs a p None tag fs) as [rs|] eqn:El; [|discriminate].
    assert (forall k t, In (k, t) fs -> buildable t /\ (2 <= length fs)%nat /\ ~ swidth t 0) as X.
    { intros k t I. destruct (sum_loop_inv _ _ _ _ _ _ _ _ El k t I) as (fa & sf & vm & x & wd & Em & Ef & Es).
      destruct (sum_words R g c fs a k t GR W A I)
        as (w' & tagw' & as' & gs' & tv' & fa' & pre & post & Ea & Etw & Hfs & Em' & Af & Rr & Lw & Pt & Pfa & Eg & SW).
      assert (fa' = fa) as -> by congruence. injection Ea as <- <- <- <- <-. rewrite Forall_forall in IH.
      pose proof (wf_members_sum g c fs k t W I) as Wt.
      assert (buildable t) as Bt by (apply (IH (k, t) I Wt fa (p ++ [k]) (sf, vm, x)); auto). split; auto.
      destruct (all_work leafv tagv (fun j => j = 0) eq_refl R GR t fa (p ++ [k]) None Wt Bt Af) as (out & vm' & z & E' & IV); [intros op X; discriminate|].
      rewrite Ef in E'. injection E' as <- <- <-. pose proof (i_rng _ _ _ _ _ _ _ _ _ _ IV) as Rx.
      destruct (SW tag x (wrap_range tagw _ Pt) Rx) as [Bad _]. split.
      - destruct (Nat.lt_ge_cases (length fs) 2) as [L|]; auto. exfalso. rewrite Bad in Es; [discriminate|left].
        assert (length fs <> 0%nat); [|lia]. destruct fs; [destruct I|discriminate].
      - intros S0. rewrite Bad in Es; [discriminate|auto]. }
    assert (fs <> []) as NE by (inversion W; auto). destruct fs as [|[k t] fs'] eqn:Efs; [congruence|]. rewrite <- Efs in *.
    apply bd_sum; [apply (X k t); rewrite Efs; left; auto|intros k' t' I; apply (X k' t' I)..].
Qed.

(** Exactly the types without an empty product, one-member sum or zero-width part
    next to others. *)
Theorem C32_exactly leafv tagv h t a p : Forall wf_ty (t :: h) -> built h t a ->
  ((exists r, smt_forms leafv tagv t a p None = Ok r) <-> buildable t).
Proof.
  intros W Bu. split.
  - intros [r E]. apply (forms_buildable leafv tagv (reqs (t :: h)) t (reqs_good _ W) ltac:(inversion W; auto) a p r (built_rel h t a W Bu) E).
  - intros B. destruct (C32_forms_partial leafv tagv h t a p W Bu B) as (out & vm & z & E & _). eauto.
Qed.

(** ** Cases *)
Definition one_sum : ty := TSum false "S" [(ky "a", TBit)].
Definition asm_of (t : ty) : asm := match build ps0 t with Ok (a, _) => a | Err _ => AField TBit 0 end.

Theorem C32_full_refuted : ~ C32_full.
Proof.
  intros H. destruct (H (fun _ => 0) (fun _ => 0) [] one_sum (asm_of one_sum) []) as (out & vm & z & E & _).
  - apply wf_all_b. reflexivity.
  - eexists. vm_compute. reflexivity.
  - vm_compute in E. discriminate.
Qed.

Definition two_tags : ty := TSum true "U" [(ky "a", TBit); (ky "b", TBit)].
Lemma two_buildable g : buildable (TSum g "U" [(ky "a", TBit); (ky "b", TBit)]).
Proof.
  apply bd_sum; [cbn; lia| |]; intros k t [[= <- <-]|[[= <- <-]|[]]]; try (apply bd_leaf; exact Logic.I); intros S; inversion S.
Qed.

Theorem C32_value_full_refuted : ~ C32_value_full.
Proof.
  intros H. destruct (H (fun _ => 0) (fun _ => 0) [] two_tags (asm_of two_tags) [] 2 (VSum (ky "a") (VBit true))) as (out & vm & z & E & _).
  - apply wf_all_b. reflexivity.
  - eexists. vm_compute. reflexivity.
  - apply two_buildable.
  - apply has_ty_b_spec. reflexivity.
  - apply (enc_sum _ true "U" [(ky "a", TBit); (ky "b", TBit)] [] (ky "a") TBit [(ky "b", TBit)] 2 1 1 0 (VBit true)); auto; try lia.
    + apply (sw_sum true "U" [(ky "a", TBit); (ky "b", TBit)] [1; 1]). repeat constructor.
    + constructor.
    + apply (enc_bit _ true).
    + reflexivity.
  - vm_compute in E. discriminate.
Qed.

(** An instruction type with nested sums; four forms. *)
Definition fx_imm : ty := TSum true "Imm" [(ky "short", TBV 4); (ky "pair", TProd "P" [(ky "x", TBV 8); (ky "y", TBit)])].
Definition fx_isa : ty := TProd "Inst" [(ky "op", ex_op); (ky "imm", fx_imm); (ky "s", TSum false "R" [(ky "u", TBit); (ky "v", TSInt 8)])].
Definition fx_val : val := VProd [VEnum (EAuto "Mul"); VSum (ky "pair") (VProd [VBV 171; VBit true]); VSum (ky "v") (VBV 200)].

Lemma nz t a : wf_b t = true -> built [] t a -> a_width a <> 0 -> ~ swidth t 0.
Proof.
  intros W Bu N S. assert (Forall wf_ty [t]) as Wt by (constructor; [apply wf_b_spec; auto|constructor]).
  destruct (asm_rel_width _ t (wf_b_spec t W) a (built_rel [] t a Wt Bu)) as [S' _]. apply N. eapply swidth_fun; eauto.
Qed.
Ltac nz := match goal with |- ~ swidth ?t 0 => apply (nz t (asm_of t)); [reflexivity|eexists; vm_compute; reflexivity|vm_compute; discriminate] end.
Ltac members := let k := fresh "k" in let t := fresh "t" in let I := fresh "I" in intros k t I; repeat (destruct I as [I|I]; [injection I as <- <-|]); [..|destruct I].

Lemma fx_buildable : buildable fx_isa.
Proof.
  assert (buildable fx_imm) as B.
  { apply bd_sum; [cbn; lia|members; nz|]. members; [apply bd_leaf; exact Logic.I|].
    apply bd_prod; [discriminate|right; members; nz|]. members; apply bd_leaf; exact Logic.I. }
  apply bd_prod; [discriminate|right; members; nz|]. members; [apply bd_leaf; exact Logic.I|exact B|].
  apply bd_sum; [cbn; lia|members; nz|]. members; apply bd_leaf; exact Logic.I.
Qed.

Example C32_case :
  Forall wf_ty [fx_isa] /\ built [] fx_isa (asm_of fx_isa) /\ buildable fx_isa /\ has_ty fx_isa fx_val /\
  match smt_forms (fun q => Z.of_nat (length q)) (fun _ => 1) fx_isa (asm_of fx_isa) [] None with
  | Ok (out, _, _) => map f_dict out =
      map (fun '(i, s) => [([ky "imm"], ky i); ([ky "s"], ky s)])
        [("short", "u"); ("short", "v"); ("pair", "u"); ("pair", "v")]%string
  | Err _ => False
  end.
Proof.
  split; [apply wf_all_b; reflexivity|]. split; [eexists; vm_compute; reflexivity|]. split; [apply fx_buildable|].
  split; [apply has_ty_b_spec; reflexivity|]. vm_compute. reflexivity.
Qed.

Example C32_value_case :
  let t := TProd "Q" [(ky "m", TSum false "R" [(ky "u", TBit); (ky "v", TBV 8)]); (ky "n", TBV 3)] in
  buildable t /\ untagged t /\ has_ty t (VProd [VSum (ky "v") (VBV 77); VBV 5]) /\
  canonical t (1 + 2 * 77 + 2 ^ 9 * 5) (VProd [VSum (ky "v") (VBV 77); VBV 5]) /\
  match smt_forms (fun _ => 0) (fun _ => 0) t (asm_of t) [] (Some (1 + 2 * 77 + 2 ^ 9 * 5)) with
  | Ok (out, _, z) => map f_vars out = [[([ky "m"; ky "u"], 1); ([ky "n"], 5)]; [([ky "m"; ky "v"], 77); ([ky "n"], 5)]]
      /\ z = 1 + 2 * 77 + 2 ^ 9 * 5
  | Err _ => False
  end.
Proof.
  intros t. assert (buildable t) as B.
  { apply bd_prod; [discriminate|right; members; nz|]. members; [|apply bd_leaf; exact Logic.I].
    apply bd_sum; [cbn; lia|members; nz|]. members; apply bd_leaf; exact Logic.I. }
  split; auto. split.
  { apply ut_prod. members; [|apply ut_leaf; exact Logic.I]. apply ut_sum. members; apply ut_leaf; exact Logic.I. }
  split; [apply has_ty_b_spec; reflexivity|]. split; [|vm_compute; auto].
  destruct (a2_asm_spec t) with (v := VProd [VSum (ky "v") (VBV 77); VBV 5]) as (op & E & C);
    [apply wf_b_spec; reflexivity|apply has_ty_b_spec; reflexivity|].
  vm_compute in E. injection E as <-. exact C.
Qed.

(** * C33 *)

(** The leaves of [v], in any order, each with the word of its value. *)
Definition leaves_of (t : ty) (v : val) (b : list entry) : Prop :=
  NoDup (map snd b) /\ (forall q, In q (map snd b) <-> leaf_path t v q) /\
  forall s q, In (s, q) b -> exists t' v' x, sub_val t v q t' v' /\ s = SVal x /\ canonical t' x v'.

Definition C33_full : Prop := forall h t a v b, Forall wf_ty (t :: h) -> built h t a -> has_ty t v -> leaves_of t v b ->
  exists op, simplify t a b = Ok [(SVal op, [])] /\ canonical t op v.

Lemma leaf_anti t : forall v q r, leaf_path t v q -> leaf_path t v (q ++ r) -> wf_ty t -> r = [].
Proof.
  induction t as [| | |c ms|c fs IH|g c fs IH] using ty_ind'; intros v q r (t1 & v1 & S1 & L1) (t2 & v2 & S2 & L2) W;
    try (inversion S1; subst; inversion S2; subst; auto; fail).
  - inversion S1 as [|? ? vs k q1 i t v' ? ? Ei Ev S1'|]; subst; [destruct L1|]. cbn [app] in S2.
    assert (NoDup (map fst fs)) as ND by (inversion W; auto).
    apply (sub_prod c fs vs i k t v' _ _ _ ND Ei Ev) in S2. pose proof (nth_error_In _ _ Ei) as I. rewrite Forall_forall in IH.
    apply (IH (k, t) I v' q1 r); [exists t1, v1; split; assumption|exists t2, v2; split; assumption|exact (wf_members_prod c fs k t W I)].
  - inversion S1 as [| |? ? ? k q1 t v' ? ? I S1']; subst; [destruct L1|]. cbn [app] in S2.
    assert (NoDup (map fst fs)) as ND by (inversion W; auto).
    apply (sub_sum g c fs k t v' _ _ _ ND I) in S2. rewrite Forall_forall in IH.
    apply (IH (k, t) I v' q1 r); [exists t1, v1; split; assumption|exists t2, v2; split; assumption|exact (wf_members_sum g c fs k t W I)].
Qed.

Lemma leaves_cut ev t v b : (forall z, ev (SVal z) = Some z) -> wf_ty t -> leaves_of t v b -> cut (fun j => j = 0) ev t v b.
Proof.
  intros Ev W (N & P & V). constructor; auto.
  - intros q r I I'. apply P in I. apply P in I'. exact (leaf_anti t v q r I I' W).
  - intros q L. exists q, []. rewrite app_nil_r. split; auto. apply P. auto.
  - intros s q I. destruct (V s q I) as (t' & v' & x & S & -> & C). exists t', v', x. auto.
Qed.

(** Values are rebuilt from any covering set of parts, not only from the leaves, and
    sources that are paths survive: [ev] says what each path stands for. The result
    covers the value again with the same meaning, keeps exactly the same paths, and
    is simplified as far as possible: next to or below the parent of any constant
    part there is a path. Missing for C33: types that [SMTForms] rejects too. *)
Theorem C33_simplify_partial ev h t a v b : (forall z, ev (SVal z) = Some z) -> ev SUnbound = None ->
  Forall wf_ty (t :: h) -> built h t a -> buildable t -> has_ty t v -> cut (fun j => j = 0) ev t v b ->
  exists b', simplify t a b = Ok b' /\ cut (fun j => j = 0) ev t v b' /\
    (forall p q, In (SPath p, q) b' <-> In (SPath p, q) b) /\
    (forall z q k, In (SVal z, q ++ [k]) b' -> exists p r, In (SPath p, q ++ r) b').
Proof.
  intros Ev Eu W Bu B H C.
  destruct (all_simp (fun j => j = 0) eq_refl ev Ev Eu (reqs (t :: h)) (reqs_good _ W) t a v b) as (b' & E & [S1 S2 S3]); auto.
  { inversion W; auto. } { apply built_rel; auto. }
  exists b'. auto.
Qed.

Theorem C33_leaves_partial h t a v b : Forall wf_ty (t :: h) -> built h t a -> buildable t -> has_ty t v -> leaves_of t v b ->
  exists op, simplify t a b = Ok [(SVal op, [])] /\ canonical t op v.
Proof.
  intros W Bu B H L. set (ev := fun s : src path => match s with SVal z => Some z | _ => None end).
  assert (wf_ty t) as Wt by (inversion W; auto).
  destruct (all_simp (fun j => j = 0) eq_refl ev ltac:(auto) eq_refl (reqs (t :: h)) (reqs_good _ W) t a v b Wt B (built_rel h t a W Bu) H) as (b' & E & S).
  { apply leaves_cut; auto. }
  destruct (simplified_value (fun j => j = 0) ev ltac:(auto) eq_refl t v b b' Wt B H S) as (z & -> & En).
  { intros p q I. apply (s_path _ _ _ _ _ _ S) in I. destruct L as (_ & _ & V). destruct (V _ _ I) as (? & ? & ? & _ & X & _). discriminate. }
  exists z. auto.
Qed.

(** A binding with two entries at the same position, or one above another, is never
    accepted. *)
Lemma at_member_inv F a k sub fs s : at_member F a k sub fs = Ok s -> exists t fa, In (k, t) fs /\ F t fa sub = Ok s.
Proof.
  induction fs as [|[k' t] fs IH]; [discriminate|]. cbn [at_member]. destruct (key_eqb k k') eqn:E.
  - apply key_eqb_eq in E as ->. destruct (member_asm a k') as [fa|]; [|discriminate]. cbn [bind]. intros H. exists t, fa. split; [left|]; auto.
  - intros H. destruct (IH H) as (t' & fa & I & X). exists t', fa. split; [right|]; auto.
Qed.

Definition incomparable (b : list entry) : Prop :=
  NoDup (map snd b) /\ forall q r, In q (map snd b) -> In (q ++ r) (map snd b) -> r = [].

Lemma whole_incomparable b : whole b = true -> incomparable b.
Proof.
  destruct b as [|[s [|? ?]] [|? ?]]; try discriminate. intros _. split; [repeat constructor; intros []|].
  intros q r [<-|[]] [E|[]]. cbn in E. auto.
Qed.

Lemma below_incomparable b : (forall s, ~ In (s, []) b) -> (forall k, incomparable (below k b)) -> incomparable b.
Proof.
  intros NW H. split.
  - assert (forall k, NoDup (map snd (below k b))) as N by (intros k; apply H). clear H.
    induction b as [|[s q] b IH]; [constructor|]. cbn [map snd]. destruct q as [|k q]; [destruct (NW s); left; auto|]. constructor.
    + specialize (N k). cbn [below flat_map snd fst] in N. rewrite (proj2 (key_eqb_eq k k) eq_refl) in N. cbn [app map snd] in N.
      inversion N as [|? ? N1 _]; subst. fold (below k b) in N1. rewrite below_path in N1. auto.
    + apply IH; [intros s' I; apply (NW s'); right; auto|]. intros k'. specialize (N k'). cbn [below flat_map snd fst] in N.
      destruct (key_eqb k k'); [|exact N]. cbn [app map snd] in N. inversion N; auto.
  - intros q r I I'. destruct q as [|k q].
    + apply in_map_iff in I as ([s q] & E & I). cbn in E. subst q. destruct (NW s I).
    + cbn [app] in I'. rewrite <- below_path in I. rewrite <- below_path in I'. apply (proj2 (H k) q r); auto.
Qed.

Lemma mapM_strip k b sub : mapM (strip_field k) b = Ok sub -> sub = below k b /\ forall s q, In (s, q) b -> exists r, q = k :: r.
Proof.
  revert sub. induction b as [|[s q] b IH]; cbn [mapM]; intros sub E.
  - injection E as <-. split; auto. intros ? ? [].
  - unfold strip_field at 1 in E. cbn [snd fst] in E. destruct q as [|k' q]; [discriminate|]. destruct (key_eqb k' k) eqn:Ek; [|discriminate].
    pose proof Ek as Ek'. apply key_eqb_eq in Ek as ->. cbn [bind] in E. destruct (mapM (strip_field k) b) as [sub'|]; [|discriminate]. cbn [bind] in E.
    injection E as <-. destruct (IH sub' eq_refl) as [-> X]. split.
    + cbn [below flat_map snd fst]. rewrite Ek'. auto.
    + intros s' q' [[= <- <-]|I]; eauto.
Qed.

Lemma group_by_heads fs b : forall d d', group_by fs d b = Ok d' -> forall s q, In (s, q) b -> exists k r t, q = k :: r /\ dget key_eqb fs k = Some t.
Proof.
  induction b as [|[s [|k q]] b IH]; cbn [group_by]; intros d d' E s' q' I; [destruct I|discriminate|].
  destruct (dget key_eqb fs k) as [t|] eqn:Et; [|discriminate]. destruct I as [[= <- <-]|I]; [eauto|]. eapply IH; eauto.
Qed.

Theorem C33_no_conflicts t : forall a b b', simplify t a b = Ok b' -> incomparable b.
Proof.
  induction t as [| | |c ms|c fs IH|g c fs IH] using ty_ind'; intros a b b' E;
    destruct (whole b) eqn:Wh; try (apply whole_incomparable; auto; fail);
    cbn [simplify] in E; rewrite Wh in E; try discriminate E.
  - destruct (group_by fs [] b) as [d|] eqn:Ed; [|discriminate]. cbn [bind] in E.
    pose proof (group_by_heads _ _ _ _ Ed) as Hd.
    destruct (group_by_spec fs b Hd [] []) as (d' & Ed' & N & G); [split; [constructor|reflexivity]|].
    rewrite Ed in Ed'. injection Ed' as <-. cbn [app] in G.
    destruct (negb (length d =? length fs)%nat); [discriminate|].
    destruct (mapM (fun e => do s <- at_member simplify a (fst e) (snd e) fs; Ok (fst e, s)) d) as [sd|] eqn:Es; [|discriminate]. clear E.
    apply below_incomparable.
    + intros s I. destruct (Hd _ _ I) as (? & ? & ? & X & _). discriminate.
    + intros k. destruct (below k b) as [|e l] eqn:Eb; [split; [constructor|intros ? ? []]|]. rewrite <- Eb.
      assert (In (k, below k b) d) as I by (apply (dget_In key_eqb key_eqb_eq); rewrite G, Eb; auto).
      assert (exists s, at_member simplify a k (below k b) fs = Ok s) as [s X].
      { clear - I Es. revert sd Es. induction d as [|e d IH]; [destruct I|]. cbn [mapM]. intros sd Es.
        destruct (at_member simplify a (fst e) (snd e) fs) as [s|] eqn:E; [|discriminate]. cbn [bind] in Es.
        destruct I as [->|I]; [eauto|]. destruct (mapM _ d) as [sd'|]; [|discriminate]. eauto. }
      apply at_member_inv in X as (t & fa & It & X). rewrite Forall_forall in IH. apply (IH (k, t) It fa _ s). exact X.
  - destruct b as [|[s [|k q]] b0] eqn:Eb; try discriminate. rewrite <- Eb in *.
    destruct (mapM (strip_field k) b) as [sub|] eqn:Em; [|discriminate]. cbn [bind] in E.
    destruct (at_member simplify a k sub fs) as [sl|] eqn:X; [|discriminate].
    apply mapM_strip in Em as [-> Hd]. apply at_member_inv in X as (t & fa & It & X). rewrite Forall_forall in IH.
    apply below_incomparable.
    + intros s' I. destruct (Hd _ _ I) as [? ?]. discriminate.
    + intros k'. destruct (key_eqb k' k) eqn:Ek.
      * apply key_eqb_eq in Ek as ->. apply (IH (k, t) It fa _ sl). exact X.
      * destruct (below k' b) as [|[s' q'] l] eqn:Eb'; [split; [constructor|intros ? ? []]|]. exfalso.
        assert (In (s', k' :: q') b) as I by (apply below_In; rewrite Eb'; left; auto). destruct (Hd _ _ I) as [r Er]. injection Er as -> _.
        rewrite (proj2 (key_eqb_eq k k) eq_refl) in Ek. discriminate.
Qed.

Theorem C33_full_refuted : ~ C33_full.
Proof.
  intros H. destruct (H [] one_sum (asm_of one_sum) (VSum (ky "a") (VBit true)) [(SVal 1, [ky "a"])]) as (op & E & _).
  - apply wf_all_b. reflexivity.
  - eexists. vm_compute. reflexivity.
  - apply has_ty_b_spec. reflexivity.
  - split; [repeat constructor; intros []|]. split.
    + intros q. split.
      * intros [<-|[]]. exists TBit, (VBit true). split; [|exact Logic.I]. eapply sv_sum; [left; reflexivity|constructor].
      * intros (t' & v' & S & L). inversion S as [| |? ? ? ? ? t0 ? ? ? I S']; subst; [destruct L|]. destruct I as [[= <-]|[]].
        inversion S'; subst. left; auto.
    + intros s q [[= <- <-]|[]]. exists TBit, (VBit true), 1. split; [eapply sv_sum; [left; reflexivity|constructor]|]. split; auto. apply (enc_bit _ true).
  - vm_compute in E. discriminate.
Qed.

(** An unbound entry as the whole content of a sum is mistaken for a value. *)
Theorem C33_unbound_in_sum : forall g, exists t a, built [] t a /\ buildable t /\ t = TSum g "U" [(ky "a", TBit); (ky "b", TBit)] /\
  simplify t a [(SUnbound, [ky "a"])] = Err TypeError.
Proof.
  intros g. exists (TSum g "U" [(ky "a", TBit); (ky "b", TBit)]), (asm_of (TSum g "U" [(ky "a", TBit); (ky "b", TBit)])).
  split; [eexists; destruct g; vm_compute; reflexivity|]. split; [apply two_buildable|]. split; [reflexivity|]. destruct g; vm_compute; reflexivity.
Qed.

(** The leaves of the example value, out of order, and the same with one of them a path. *)
Example C33_case :
  Forall wf_ty [fx_isa] /\ built [] fx_isa (asm_of fx_isa) /\ buildable fx_isa /\ has_ty fx_isa fx_val /\
  simplify fx_isa (asm_of fx_isa)
    [(SVal 1, [ky "imm"; ky "pair"; ky "y"]); (SVal 200, [ky "s"; ky "v"]); (SVal 2, [ky "op"]); (SVal 171, [ky "imm"; ky "pair"; ky "x"])]
    = Ok [(SVal (2 + 2 ^ 3 * (0 + 2 * (171 + 2 ^ 8)) + 2 ^ 13 * (1 + 2 * 200)), [])] /\
  simplify fx_isa (asm_of fx_isa)
    [(SVal 1, [ky "imm"; ky "pair"; ky "y"]); (SVal 200, [ky "s"; ky "v"]); (SPath [ky "o"], [ky "op"]); (SVal 171, [ky "imm"; ky "pair"; ky "x"])]
    = Ok [(SVal (0 + 2 * (171 + 2 ^ 8)), [ky "imm"]); (SVal (1 + 2 * 200), [ky "s"]); (SPath [ky "o"], [ky "op"])].
Proof.
  split; [apply wf_all_b; reflexivity|]. split; [eexists; vm_compute; reflexivity|]. split; [apply fx_buildable|].
  split; [apply has_ty_b_spec; reflexivity|]. split; vm_compute; reflexivity.
Qed.

Print Assumptions C32_forms_partial.
Print Assumptions C32_valuation.
Print Assumptions C32_value_partial.
Print Assumptions C32_exactly.
Print Assumptions C32_full_refuted.
Print Assumptions C32_value_full_refuted.
Print Assumptions C33_simplify_partial.
Print Assumptions C33_leaves_partial.
Print Assumptions C33_no_conflicts.
Print Assumptions C33_full_refuted.
Print Assumptions C33_unbound_in_sum.
