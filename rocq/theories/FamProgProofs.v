(** Lemmas about Peak classes in PyFamily and PyXFamily. *)
From Coq Require Import String ZArith List Bool Lia.
From Verif Require Import Base BaseLemmas AsmModel AsmSpec AsmValid AsmEnum AsmBuild AsmProofs AsmSub AsmMore AsmCheck AsmProps
  AadtModel AadtProofs FamProgModel.
Import ListNotations.
Open Scope string_scope.
Open Scope list_scope.
Open Scope Z_scope.

(** ** Assembled constructors on arbitrary words *)
Definition word_for (t : ty) (x : farg) : Prop :=
  exists w z, x = FWord w z /\ swidth t w /\ 0 <= z < 2 ^ w.

Lemma new_fields_words R b fs w fs' : tup_rel R b fs w fs' -> forall args,
  Forall (fun f => wf_ty (snd f)) fs -> Forall2 (fun f x => word_for (snd f) x) fs args ->
  exists bvs, new_fields fs fs' args = Ok bvs /\ map fst bvs = map fst fs /\
    Forall (fun e => bv_ok (snd e)) bvs /\ b + fst (cat (map snd bvs)) = w.
Proof.
  induction 1 as [b|b k t r w a rest Ha Tr IH]; intros args WF F.
  - inversion F; subst. exists []. cbn. repeat split; auto; lia.
  - inversion F as [|? x ? args' Fx Fr]; subst. inversion WF as [|? ? W1 W2]; subst. cbn [fst snd] in *.
    destruct Fx as (wx & z & -> & Sx & Rz).
    destruct (asm_rel_width R t W1 a Ha) as [Sa Pa].
    assert (wx = a_width a) as -> by (eapply swidth_fun; eauto).
    destruct (IH args' W2 Fr) as (bvs & En & Ek & Fo & Es).
    exists ((k, (a_width a, z)) :: bvs). cbn [new_fields field_new]. rewrite Z.eqb_refl. cbn [bind].
    rewrite En. cbn [bind map fst snd cat]. split; auto. split; [f_equal; auto|].
    split; [constructor; auto; split; cbn; auto|lia].
Qed.

Lemma prod_from_fields_words R c fs a args d :
  wf_ty (TProd c fs) -> asm_rel R (TProd c fs) a ->
  Forall2 (fun f x => word_for (snd f) x) fs args ->
  fs <> [] -> (length fs = 1%nat \/ forall k t, In (k, t) fs -> ~ swidth t 0) ->
  exists op, prod_from_fields fs a args d = Ok op /\ 0 <= op < 2 ^ a_width a.
Proof.
  intros W A F NE Pos. inversion A as [| | | |? ? w fs' T|]; subst.
  assert (Forall (fun f => wf_ty (snd f)) fs) as WF by (inversion W; auto).
  assert (NoDup (map fst fs)) as ND by (inversion W; auto).
  destruct (new_fields_words R 0 fs w fs' T args WF F) as (bvs & En & Ek & Fo & Es).
  cbn [prod_from_fields a_width]. rewrite En. cbn [bind].
  unfold create_from_layout. rewrite (prod_layout_eq _ _ _ _ _ T).
  set (ws := map (fun e : key * (Z * Z) * asm => a_width (snd e)) fs') in *.
  assert (length ws = length fs) as Lw by (unfold ws; rewrite map_length; eapply tup_rel_length; eauto).
  rewrite map_fst_combine, map_snd_combine by (rewrite tiles_length, map_length; auto).
  rewrite Ek, same_keys_refl. cbn [negb].
  assert (Forall (fun w => 0 <= w) ws) as Pw.
  { unfold ws. eapply tup_rel_widths; eauto. }
  assert (w = zsum ws) as Eww by (destruct (tup_rel_layout _ _ _ _ _ T) as (_ & _ & E); exact E).
  rewrite isort_id by (apply tiles_sorted; auto).
  assert (exists sl, fill (combine (map fst fs) (tiles 0 ws)) bvs (repeat (Some (1, wrap 1 d)) (Z.to_nat w)) = Ok sl
            /\ somes sl = map snd bvs /\ ranges_ok w (tiles 0 ws) = true) as (sl & E1 & E2 & E3).
  { destruct Pos as [L1|Pos].
    - destruct fs as [|[k t] [|]]; try discriminate. destruct ws as [|w0 [|]]; try discriminate.
      destruct bvs as [|[k' v] [|]]; try discriminate. cbn [map fst] in Ek. injection Ek as ->.
      cbn [map fst tiles combine fill dgetE dget]. unfold dgetE. cbn [dget].
      rewrite (proj2 (key_eqb_eq k k)) by auto. cbn [bind]. eexists. split; [reflexivity|].
      split; [|reflexivity]. unfold slot_set. cbn [Z.to_nat firstn app somes]. rewrite somes_app, somes_none. cbn [app].
      unfold zsum in Eww. cbn [fold_right] in Eww. rewrite Z.add_0_l, skipn_all2; [reflexivity|].
      rewrite repeat_length. lia.
    - assert (Forall (fun w => 0 < w) ws) as Pp.
      { apply Forall_forall. intros x I. rewrite Forall_forall in Pw. specialize (Pw x I).
        destruct (Z.eq_dec x 0) as [->|]; [|lia]. exfalso.
        unfold ws in I. apply in_map_iff in I as ([[k lay] a] & E0 & I). cbn in E0.
        destruct (tup_rel_In _ _ _ _ _ T _ _ _ I) as (t & It & At).
        apply (Pos k t It). rewrite <- E0. rewrite Forall_forall in WF.
        apply (asm_rel_width R t (WF _ It) a At). }
      destruct (fill_tiles (map fst fs) ws bvs bvs 0 [] (repeat (Some (1, wrap 1 d)) (Z.to_nat w))) as (sl & E1 & E2); auto.
      + rewrite map_length; auto.
      + rewrite Ek; auto.
      + lia.
      + rewrite repeat_length. lia.
      + exists sl. split; auto. split.
        * rewrite E2. cbn [app somes]. rewrite Eww, skipn_all2, app_nil_r; auto. rewrite repeat_length. lia.
        * apply ranges_ok_tiles; auto; lia. }
  rewrite E3. cbn [negb]. rewrite E1. cbn [bind]. rewrite E2.
  assert (map snd bvs <> []) as NEb.
  { destruct bvs; [destruct fs; [congruence|discriminate]|discriminate]. }
  assert (Forall bv_ok (map snd bvs)) as Fb.
  { apply Forall_forall. intros x I. apply in_map_iff in I as (e & <- & I). rewrite Forall_forall in Fo. auto. }
  rewrite reduce_concat_ok; auto.
  cbn [bind]. rewrite Z.add_0_l in Es. rewrite Es, Z.eqb_refl. eexists. split; [reflexivity|].
  rewrite <- Es. apply (cat_ok _ Fb).
Qed.

Lemma sum_from_fields_words R g c fs a k t x d :
  good_request R -> wf_ty (TSum g c fs) -> asm_rel R (TSum g c fs) a -> In (k, t) fs -> word_for t x ->
  (2 <= length fs)%nat -> ~ swidth t 0 ->
  exists op, sum_from_fields fs a k x None d = Ok op /\ 0 <= op < 2 ^ a_width a.
Proof.
  intros GR W A I (wx & z & -> & Sx & Rz) L2 NW. pose proof I as I0. apply in_split in I0 as (pre & post & Hfs).
  destruct (tags_spec R g c fs a pre k t post GR W A Hfs) as (T1 & _ & _).
  pose proof (rank_lt _ _ _ _ _ Hfs) as Rl.
  destruct (sub_ty_spec R _ [k] t (st_sum g c fs k [] t t I (st_here t)) W a A 0) as (o & f' & Ep & Af' & Wf & O & Lf).
  inversion A as [| | | | |? ? ? sorted tagw pw fs' gs tv E1 E2 S G1 G2 Vt]; subst sorted tagw a.
  assert (no_dup_keys fs) as ND by (inversion W; auto).
  pose proof (rank_index pre k t post) as Ri. rewrite <- Hfs in Ri.
  destruct (sum_find_spec _ _ _ _ _ _ _ _ _ _ (sorted_keys_NoDup fs ND) S Ri) as (f & Ef & Af).
  rewrite Z.add_0_l, Z2Nat.id in Ef by lia.
  destruct (asm_rel_width R t Wf f Af) as [Sf Pf].
  assert (wx = a_width f) as -> by (eapply swidth_fun; eauto).
  cbn [sub_path sub_step] in Ep. rewrite Ef in Ep. injection Ep as Eo <-.
  set (tw := bit_length (Z.of_nat (length fs) - 1)) in *.
  assert (bits_for (Z.of_nat (length fs) - 1) = tw) as Eb by (apply bits_for_bit_length; lia).
  assert (rank_at pre k post < 2 ^ tw) as Rt by (rewrite <- Eb; apply lt_pow2_bits_for; lia).
  assert (0 <= tw) by apply bit_length_nonneg. cbn [a_width] in Lf.
  assert (a_width f <> 0) as NZ by (intros E; rewrite E in Sf; auto).
  assert (0 < tw) as Ptw.
  { assert (tw <> 0); [|lia]. intros E. rewrite E in Rt, Eb.
    pose proof (lt_pow2_bits_for (Z.of_nat (length fs) - 1) (Z.of_nat (length fs) - 1) ltac:(lia)) as P.
    rewrite Eb in P. change (2 ^ 0) with 1 in P. lia. }
  unfold sum_from_fields. rewrite (dget_key_In fs k t ND I), Ef. cbn [field_new]. rewrite Z.eqb_refl. cbn [bind].
  rewrite T1. cbn [bind]. rewrite create_sum by (auto; lia). eexists. split; [reflexivity|].
  cbn [a_width]. set (w := tw + pw) in *.
  pose proof (pow2_pos tw ltac:(lia)). pose proof (pow2_pos (a_width f) ltac:(lia)).
  pose proof (pow2_pos (w - tw - a_width f) ltac:(lia)) as P1.
  replace (2 ^ w) with (2 ^ tw * (2 ^ a_width f * 2 ^ (w - tw - a_width f)))
    by (rewrite <- !Z.pow_add_r by lia; f_equal; lia).
  set (A1 := 2 ^ tw) in *. set (B1 := 2 ^ a_width f) in *. set (C1 := 2 ^ (w - tw - a_width f)) in *.
  assert (0 <= z + B1 * (wrap 1 d * (C1 - 1)) <= B1 * C1 - 1).
  { destruct (wrap1 d) as [-> | ->]; nia. }
  nia.
Qed.

Lemma aadt_get_words R t k t' a op : sub_ty t [k] t' -> good_request R -> wf_ty t -> asm_rel R t a ->
  exists x m w, aadt_get a op k = Ok (x, m) /\ wf_ty t' /\ swidth t' w /\ 0 <= x < 2 ^ w /\
    match t with TSum _ _ _ => exists b, m = Some b | _ => m = None end.
Proof.
  intros St GR W A.
  destruct (sub_ty_spec R t [k] t' St W a A 0) as (o & f & Ep & Af & Wf & O & L).
  destruct (asm_rel_width R t' Wf f Af) as [Sf Pf].
  cbn [sub_path] in Ep. unfold aadt_get.
  destruct (sub_step a k) as [[[lo hi] f0]|] eqn:Es; [|discriminate].
  injection Ep as Eo ->. assert (lo = o) as -> by lia.
  assert (0 <= slice op o (o + a_width f) < 2 ^ a_width f) as Rg.
  { pose proof (slice_range op o (o + a_width f) ltac:(lia)) as X. replace (o + a_width f - o) with (a_width f) in X by lia. auto. }
  inversion St as [|c fs k0 p t0 t1 I Sp|g c fs k0 p t0 t1 I Sp]; subst; inversion A; subst.
  - do 3 eexists. split; [reflexivity|]. repeat split; eauto; lia.
  - apply in_split in I as (pre & post & Hfs).
    destruct (tags_spec R g c fs _ pre k t0 post GR W A Hfs) as (T1 & _). rewrite T1. cbn [bind].
    do 3 eexists. split; [reflexivity|]. repeat split; eauto; lia.
Qed.

(** ** Equality tests *)
Lemma val_ind' (P : val -> Prop) :
  (forall b, P (VBit b)) -> (forall z, P (VBV z)) -> (forall m, P (VEnum m)) ->
  (forall vs, Forall P vs -> P (VProd vs)) -> (forall k v, P v -> P (VSum k v)) -> forall v, P v.
Proof.
  intros H1 H2 H3 H4 H5. fix IH 1. intros [b|z|m|vs|k v]; [apply H1|apply H2|apply H3| |apply H5, IH].
  apply H4. induction vs as [|v vs IHv]; constructor; [apply IH|apply IHv].
Qed.

Lemma val_eqb_eq a : forall b, val_eqb a b = true <-> a = b.
Proof.
  induction a as [b|z|m|vs IH|k v IH] using val_ind'; intros [b'|z'|m'|vs'|k' v']; cbn [val_eqb];
    try (split; congruence).
  - rewrite Bool.eqb_true_iff. split; congruence.
  - rewrite Z.eqb_eq. split; congruence.
  - rewrite emem_eqb_eq. split; congruence.
  - revert vs'. induction IH as [|v vs Hv F IHf]; intros [|w ws]; try (split; congruence).
    rewrite andb_true_iff, Hv. specialize (IHf ws). split.
    + intros [-> H]. apply IHf in H. congruence.
    + intros [= -> ->]. split; auto. apply IHf; auto.
  - rewrite andb_true_iff, IH, key_eqb_eq. split; [intros [-> ->]; auto|intros [= -> ->]; auto].
Qed.

Lemma ety_eqb_eq a b : ety_eqb a b = true <-> a = b.
Proof.
  destruct a, b; cbn; try (split; congruence). rewrite ty_eqb_eq. split; congruence.
Qed.
Lemma ty_eqb_refl t : ty_eqb t t = true.
Proof. apply ty_eqb_eq; auto. Qed.

Lemma get_set A (e : env A) x v y : get (set e x v) y = if String.eqb y x then Some v else get e y.
Proof. apply (dget_dset String.eqb String.eqb_eq). Qed.

(** ** Words of a type *)
Definition xtyped (a : ety) (x : xval) : Prop :=
  match a, x with
  | W t, XW t' z => t' = t /\ exists w, swidth t w /\ 0 <= z < 2 ^ w
  | Truth, XW t' z => t' = TBit /\ 0 <= z < 2
  end.
Definition wf_ety (a : ety) : Prop := match a with W t => wf_ty t | Truth => True end.

(** The word holds the value. *)
Definition vrel (t : ty) (v : val) (x : xval) : Prop := exists z, x = XW t z /\ canonical t z v.
Definition rel (a : ety) (p : pval) (x : xval) : Prop :=
  match a with
  | W t => exists v, p = PV v /\ vrel t v x
  | Truth => exists b, truth p = Ok b /\ x = XW TBit (b2z b)
  end.

Lemma b2z_range b : 0 <= b2z b < 2.
Proof. destruct b; cbn; lia. Qed.

Section Prog.
  Variable asmof : ty -> asm.
  Hypothesis asmof_ok : forall t, wf_ty t -> exists R, good_request R /\ asm_rel R t (asmof t).

  Lemma asm_sw t : wf_ty t -> swidth t (a_width (asmof t)).
  Proof. intros W. destruct (asmof_ok t W) as (R & _ & A). apply (asm_rel_width R t W _ A). Qed.

  Lemma rel_xtyped a p x : wf_ety a -> rel a p x -> xtyped a x.
  Proof.
    destruct a as [t|]; cbn [wf_ety rel xtyped].
    - intros Wt (v & -> & z & -> & C). split; auto. exists (a_width (asmof t)). split; [apply asm_sw; auto|].
      eapply enc_range; eauto. apply asm_sw; auto.
    - intros _ (b & _ & ->). split; auto. apply b2z_range.
  Qed.

  Lemma xtyped_word t x : wf_ty t -> xtyped (W t) x -> word_for t (x_arg asmof x).
  Proof.
    intros Wt. destruct x as [t' z]. cbn [xtyped x_arg]. intros (-> & w & S & Rz).
    exists (a_width (asmof t)), z. split; auto. split; [apply asm_sw; auto|].
    replace (a_width (asmof t)) with w; auto. eapply swidth_fun; eauto. apply asm_sw; auto.
  Qed.

  Lemma xtyped_bit a x : bitlike a = true -> xtyped a x -> exists z, x = XW TBit z /\ 0 <= z < 2.
  Proof.
    destruct x as [t z]. destruct a as [[| | | | |]|]; try discriminate; cbn [xtyped]; intros _ H.
    - destruct H as (-> & w & S & Rz). inversion S; subst. exists z. split; auto.
    - destruct H as (-> & Rz). eauto.
  Qed.

  Lemma rel_bit a p x : bitlike a = true -> rel a p x -> exists b, truth p = Ok b /\ x = XW TBit (b2z b).
  Proof.
    destruct a as [[| | | | |]|]; try discriminate; cbn [rel]; intros _ H; auto.
    destruct H as (v & -> & z & -> & C). inversion C; subst. exists b. auto.
  Qed.

  Lemma x_cond_b2z b : x_cond (XW TBit (b2z b)) = Ok b.
  Proof. destruct b; reflexivity. Qed.

  Definition env_ok (G : env ety) (X : env xval) : Prop :=
    forall x, match get G x, get X x with
              | Some t, Some v => wf_ety t /\ xtyped t v
              | None, None => True
              | _, _ => False
              end.
  Definition attr_ok (D : env ty) (X : env xval) : Prop :=
    forall r, match get D r, get X r with
              | Some t, Some v => wf_ty t /\ xtyped (W t) v
              | None, None => True
              | _, _ => False
              end.

  Lemma lit_x t v : lit_ok t v = true -> exists z, x_lit asmof t v = Ok z /\ canonical t z v /\ wf_ty t.
  Proof.
    unfold lit_ok. rewrite !andb_true_iff. intros [[Wb Hb] Nb].
    pose proof (wf_b_spec _ Wb) as Wt. pose proof (has_ty_b_spec _ _ Hb) as H. unfold x_lit.
    destruct (is_leaf t) eqn:L.
    - destruct H; try discriminate; cbn [leaf_bits]; eexists; (split; [reflexivity|]); split; auto; constructor; auto.
    - cbn [orb] in Nb. apply nonneg_b_spec in Nb. destruct (asmof_ok t Wt) as (R & _ & A).
      destruct (assemble_spec R t _ v Wt A H Nb) as (op & E & C & _). exists op. auto.
  Qed.

  Lemma eqc_x t z v : lit_ok t v = true -> exists y, canonical t y v /\ wf_ty t /\ x_eqc asmof t z v = Ok (z =? y).
  Proof.
    unfold lit_ok. rewrite !andb_true_iff. intros [[Wb Hb] Nb].
    pose proof (wf_b_spec _ Wb) as Wt. pose proof (has_ty_b_spec _ _ Hb) as H. unfold x_eqc.
    destruct (is_leaf t) eqn:L.
    - destruct H; try discriminate; cbn [leaf_bits bind]; eexists; (split; [constructor; auto|]); split; auto.
    - cbn [orb] in Nb. apply nonneg_b_spec in Nb. destruct (asmof_ok t Wt) as (R & _ & A).
      destruct (assemble_spec R t _ v Wt A H Nb) as (op & E & C & _). exists op. split; auto. split; auto.
      cbn [aadt_eq]. rewrite E. reflexivity.
  Qed.

  Lemma ty_width_0 t : wf_ty t -> negb (ty_width t =? 0) = true -> ~ swidth t 0.
  Proof.
    intros Wt H S. unfold ty_width in H.
    destruct (build_history [] t) as (a & st & E & A); [constructor; auto|]. cbn [run_history] in E. rewrite E in H.
    destruct (asm_rel_width _ t Wt a A) as [Sa _]. rewrite (swidth_fun t _ _ Sa S) in H. discriminate.
  Qed.

  Lemma makeable_ok fs : Forall (fun f => wf_ty (snd f)) fs -> makeable fs = true ->
    fs <> [] /\ (length fs = 1%nat \/ forall k t, In (k, t) fs -> ~ swidth t 0).
  Proof.
    intros WF. destruct fs as [|f [|f' fs]]; cbn [makeable]; try discriminate.
    - intros _. split; [discriminate|auto].
    - intros H. split; [discriminate|]. right. intros k t I. rewrite forallb_forall in H.
      rewrite Forall_forall in WF. specialize (H _ I). specialize (WF _ I). cbn [snd] in *. apply ty_width_0; auto.
  Qed.

  Lemma field_In fs (k : key) (t : ty) : dget key_eqb fs k = Some t -> In (k, t) fs.
  Proof. apply (dget_In key_eqb key_eqb_eq). Qed.

  Lemma prod_wf c fs : wf_ty (TProd c fs) -> Forall (fun f => wf_ty (snd f)) fs.
  Proof. inversion 1; auto. Qed.

  (** ** Evaluation of fitting programs succeeds on any words *)
  Scheme expr_mut := Induction for expr Sort Prop with exprs_mut := Induction for exprs Sort Prop.

  Section Total.
    Variable G : env ety.
    Variable D : env ty.
    Variable X A : env xval.
    Hypothesis HX : env_ok G X.
    Hypothesis HA : attr_ok D A.

    Lemma x_ite_ok c a x y : xtyped a x -> xtyped a y -> x_ite c x y = Ok (if c then x else y).
    Proof.
      destruct x as [t z], y as [t' z']. intros H H'.
      assert (t' = t) as ->. { destruct a; cbn in *; destruct H, H'; congruence. }
      cbn [x_ite]. rewrite ty_eqb_refl. destruct c; reflexivity.
    Qed.

    Lemma x_of_ok t x : xtyped (W t) x -> exists z, x = XW t z /\ x_of t x = Ok z /\ exists w, swidth t w /\ 0 <= z < 2 ^ w.
    Proof.
      destruct x as [t' z]. cbn [xtyped]. intros (-> & w & S & Rz). exists z. split; auto. cbn [x_of].
      rewrite ty_eqb_refl. eauto.
    Qed.

    Lemma bit_typed z : 0 <= z < 2 -> xtyped (W TBit) (XW TBit z).
    Proof. intros. split; auto. exists 1. split; [constructor|]. cbn; lia. Qed.

    Lemma leaf_sw t : is_leaf t = true -> swidth t (leaf_width t).
    Proof. destruct t; try discriminate; intros _; constructor. Qed.

    Lemma x_prims_ok ts : forall xs, Forall2 xtyped (map W ts) xs ->
      exists zs, x_prims ts xs = Ok zs.
    Proof.
      induction ts as [|t ts IH]; intros xs F; inversion F as [|? x ? xs' Hx Fr]; subst; cbn [x_prims]; eauto.
      destruct (x_of_ok t x Hx) as (z & _ & -> & _). destruct (IH _ Fr) as (zs & ->). cbn [bind]. eauto.
    Qed.

    Lemma bitlike_wf a : bitlike a = true -> wf_ety a.
    Proof. destruct a as [[| | | | |]|]; try discriminate; intros _; cbn; auto. constructor. Qed.

    Lemma eq_ety_bit t z : wf_ty t -> 0 <= z < 2 -> wf_ety (eq_ety t) /\ xtyped (eq_ety t) (XW TBit z).
    Proof.
      intros Wt Hz. unfold eq_ety. destruct (is_leaf t).
      - split; [constructor|apply bit_typed; auto].
      - cbn. auto.
    Qed.

    Lemma list_etys l l' : list_eqb ety_eqb l l' = true -> l = l'.
    Proof. apply (list_eqb_eq _ _ ety_eqb_eq). Qed.

    Lemma xeval_ok : forall e a, texp G D e = Some a -> exists x, xeval asmof X A e = Ok x /\ wf_ety a /\ xtyped a x.
    Proof.
      apply (expr_mut
        (fun e => forall a, texp G D e = Some a -> exists x, xeval asmof X A e = Ok x /\ wf_ety a /\ xtyped a x)
        (fun es => forall l, texps G D es = Some l ->
           exists xs, xevals asmof X A es = Ok xs /\ Forall wf_ety l /\ Forall2 xtyped l xs)).
      - intros x a E. cbn [texp xeval] in *. pose proof (HX x) as H. rewrite E in H. unfold getE.
        destruct (get X x) as [v|]; [|destruct H]. destruct H. eauto.
      - intros r a E. cbn [texp xeval] in *. pose proof (HA r) as H. unfold getE.
        destruct (get D r) as [t|]; [|discriminate]. injection E as <-.
        destruct (get A r) as [v|]; [|destruct H]. destruct H. eauto.
      - intros t v a E. cbn [texp xeval] in *. destruct (lit_ok t v) eqn:L; [|discriminate]. injection E as <-.
        destruct (lit_x t v L) as (z & Ez & C & Wt). rewrite Ez. cbn [bind]. eexists. split; [reflexivity|].
        split; auto. apply (rel_xtyped (W t) (PV v)); auto. exists v. split; auto. exists z; auto.
      - intros t e IH k a E. cbn [texp xeval] in *. destruct t as [| | | |c fs|]; try discriminate.
        destruct (texp G D e) as [[t0|]|]; try discriminate.
        destruct (ty_eqb (TProd c fs) t0 && wf_b (TProd c fs)) eqn:C; [|discriminate].
        apply andb_true_iff in C as [C Wb]. apply ty_eqb_eq in C as <-. apply wf_b_spec in Wb.
        destruct (dget key_eqb fs k) as [t'|] eqn:Ek; [|discriminate]. injection E as <-.
        destruct (IH _ eq_refl) as (x & -> & _ & Hx). destruct (x_of_ok _ _ Hx) as (z & -> & Eo & _).
        cbn [bind]. rewrite Eo. cbn [bind].
        destruct (asmof_ok _ Wb) as (R & GR & Ar).
        destruct (aadt_get_words R _ k t' _ z (st_prod c fs k [] t' t' (field_In _ _ _ Ek) (st_here t')) GR Wb Ar)
          as (y & m & w & -> & Wt' & Sw & Ry & _).
        cbn [bind]. eexists. split; [reflexivity|]. split; [exact Wt'|]. split; eauto.
      - intros t e IH k a E. cbn [texp xeval] in *. destruct t as [| | | | |g c fs]; try discriminate.
        destruct (texp G D e) as [[t0|]|]; try discriminate.
        destruct (ty_eqb (TSum g c fs) t0 && wf_b (TSum g c fs)) eqn:C; [|discriminate].
        apply andb_true_iff in C as [C Wb]. apply ty_eqb_eq in C as <-. apply wf_b_spec in Wb.
        destruct (dget key_eqb fs k) as [t'|] eqn:Ek; [|discriminate]. injection E as <-.
        destruct (IH _ eq_refl) as (x & -> & _ & Hx). destruct (x_of_ok _ _ Hx) as (z & -> & Eo & _).
        cbn [bind]. rewrite Eo. cbn [bind].
        destruct (asmof_ok _ Wb) as (R & GR & Ar).
        destruct (aadt_get_words R _ k t' _ z (st_sum g c fs k [] t' t' (field_In _ _ _ Ek) (st_here t')) GR Wb Ar)
          as (y & m & w & -> & Wt' & Sw & Ry & (b & ->)).
        cbn [bind]. eexists. split; [reflexivity|]. split; [exact Logic.I|]. split; auto. apply b2z_range.
      - intros t e IH k a E. cbn [texp xeval] in *. destruct t as [| | | | |g c fs]; try discriminate.
        destruct (texp G D e) as [[t0|]|]; try discriminate.
        destruct (ty_eqb (TSum g c fs) t0 && wf_b (TSum g c fs)) eqn:C; [|discriminate].
        apply andb_true_iff in C as [C Wb]. apply ty_eqb_eq in C as <-. apply wf_b_spec in Wb.
        destruct (dget key_eqb fs k) as [t'|] eqn:Ek; [|discriminate]. injection E as <-.
        destruct (IH _ eq_refl) as (x & -> & _ & Hx). destruct (x_of_ok _ _ Hx) as (z & -> & Eo & _).
        cbn [bind]. rewrite Eo. cbn [bind].
        destruct (asmof_ok _ Wb) as (R & GR & Ar).
        destruct (aadt_get_words R _ k t' _ z (st_sum g c fs k [] t' t' (field_In _ _ _ Ek) (st_here t')) GR Wb Ar)
          as (y & m & w & -> & Wt' & Sw & Ry & _).
        cbn [bind]. eexists. split; [reflexivity|]. split; [exact Wt'|]. split; eauto.
      - intros t es IH a E. cbn [texp xeval] in *. fold (xevals asmof) in *. destruct t as [| | | |c fs|]; try discriminate.
        destruct (texps G D es) as [ts|]; [|discriminate].
        destruct (wf_b (TProd c fs) && makeable fs && list_eqb ety_eqb ts (map (fun f => W (snd f)) fs)) eqn:C; [|discriminate].
        apply andb_true_iff in C as [C Et]. apply andb_true_iff in C as [Wb Mk]. apply list_etys in Et. subst ts.
        injection E as <-. apply wf_b_spec in Wb.
        destruct (IH _ eq_refl) as (xs & -> & Wf & Hxs). cbn [bind].
        destruct (makeable_ok fs (prod_wf _ _ Wb) Mk) as [NE Pos].
        destruct (asmof_ok _ Wb) as (R & GR & Ar).
        destruct (prod_from_fields_words R c fs _ (map (x_arg asmof) xs) 0 Wb Ar) as (op & -> & Ro); auto.
        { clear - Wb Hxs asmof_ok. pose proof (prod_wf _ _ Wb) as WF. revert xs Hxs.
          induction fs as [|f fs IH]; intros xs H; inversion H as [|? x ? xs' Hx Hr]; subst; cbn [map]; constructor.
          - inversion WF; subst. apply xtyped_word; auto.
          - inversion WF; subst. inversion Wb; subst. apply IH; auto. constructor; auto. inversion H4; auto. }
        cbn [bind]. eexists. split; [reflexivity|]. split; [exact Wb|]. split; auto. eexists. split; [|exact Ro]. apply asm_sw; auto.
      - intros t k e IH a E. cbn [texp xeval] in *. destruct t as [| | | | |g c fs]; try discriminate.
        destruct (texp G D e) as [[t0|]|]; try discriminate.
        destruct (dget key_eqb fs k) as [t'|] eqn:Ek; [|discriminate].
        destruct (wf_b (TSum g c fs) && ty_eqb t' t0 && (2 <=? length fs)%nat && negb (ty_width t' =? 0)) eqn:C; [|discriminate].
        apply andb_true_iff in C as [C Nz]. apply andb_true_iff in C as [C L2]. apply andb_true_iff in C as [Wb Et].
        apply ty_eqb_eq in Et as <-. apply wf_b_spec in Wb. apply Nat.leb_le in L2. injection E as <-.
        destruct (IH _ eq_refl) as (x & -> & Wt' & Hx). cbn [bind wf_ety] in *.
        destruct (asmof_ok _ Wb) as (R & GR & Ar).
        destruct (sum_from_fields_words R g c fs _ k t' (x_arg asmof x) 0 GR Wb Ar (field_In _ _ _ Ek)) as (op & -> & Ro); auto.
        { apply xtyped_word; auto. } { apply ty_width_0; auto. }
        cbn [bind]. eexists. split; [reflexivity|]. split; [exact Wb|]. split; auto. eexists. split; [|exact Ro]. apply asm_sw; auto.
      - intros e1 IH1 e2 IH2 a E. cbn [texp xeval] in *.
        destruct (texp G D e1) as [[t|]|]; try discriminate. destruct (texp G D e2) as [[t'|]|]; try discriminate.
        destruct (ty_eqb t t' && wf_b t) eqn:C; [|discriminate]. apply andb_true_iff in C as [C Wb].
        apply ty_eqb_eq in C as <-. injection E as <-.
        destruct (IH1 _ eq_refl) as (x & -> & Wt & Hx). destruct (IH2 _ eq_refl) as (y & -> & _ & Hy). cbn [bind].
        destruct x as [tx zx], y as [ty_ zy]. destruct Hx as (-> & _), Hy as (-> & _). rewrite ty_eqb_refl.
        eexists. split; [reflexivity|]. apply eq_ety_bit; auto. apply b2z_range.
      - intros e IH v a E. cbn [texp xeval] in *. destruct (texp G D e) as [[t|]|]; try discriminate.
        destruct (lit_ok t v) eqn:L; [|discriminate]. injection E as <-.
        destruct (IH _ eq_refl) as ([tx z] & -> & Wt & Hx). cbn [bind]. destruct Hx as (-> & _).
        destruct (eqc_x t z v L) as (y & _ & _ & ->). cbn [bind]. eexists. split; [reflexivity|].
        apply eq_ety_bit; auto. apply b2z_range.
      - intros o es IH a E. cbn [texp xeval] in *. fold (xevals asmof) in *. destruct (texps G D es) as [ts|]; [|discriminate].
        destruct (forallb is_leaf (o_args o) && is_leaf (o_res o) && wf_b (o_res o) && list_eqb ety_eqb ts (map W (o_args o))) eqn:C;
          [|discriminate].
        apply andb_true_iff in C as [C Et]. apply andb_true_iff in C as [C Wb]. apply andb_true_iff in C as [_ Lr].
        apply list_etys in Et. subst ts. injection E as <-. apply wf_b_spec in Wb.
        destruct (IH _ eq_refl) as (xs & -> & _ & Hxs). cbn [bind]. destruct (x_prims_ok _ _ Hxs) as (zs & ->). cbn [bind].
        eexists. split; [reflexivity|]. split; [exact Wb|]. split; auto.
        exists (leaf_width (o_res o)). split; [apply leaf_sw; auto|]. apply wrap_range.
        eapply swidth_nonneg; eauto. apply leaf_sw; auto.
      - intros e IH a E. cbn [texp xeval] in *. destruct (texp G D e) as [[[| | | | |]|]|]; try discriminate. injection E as <-.
        destruct (IH _ eq_refl) as (x & -> & _ & Hx). destruct (xtyped_bit (W TBit) x eq_refl Hx) as (z & -> & Rz). cbn [bind x_bit].
        eexists. split; [reflexivity|]. split; [constructor|]. apply bit_typed; lia.
      - intros c IHc e1 IH1 e2 IH2 a E. cbn [texp xeval] in *.
        destruct (texp G D c) as [[[| | | | |]|]|]; try discriminate.
        destruct (texp G D e1) as [[t|]|]; try discriminate. destruct (texp G D e2) as [[t'|]|]; try discriminate.
        destruct (ty_eqb t t') eqn:Et; [|discriminate]. apply ty_eqb_eq in Et as <-. injection E as <-.
        destruct (IHc _ eq_refl) as (x & -> & _ & Hx). destruct (xtyped_bit (W TBit) x eq_refl Hx) as (z & -> & Rz).
        destruct (IH1 _ eq_refl) as (y1 & -> & Wt & Hy1). destruct (IH2 _ eq_refl) as (y2 & -> & _ & Hy2).
        cbn [bind x_cond x_bit]. rewrite (x_ite_ok _ (W t) y1 y2 Hy1 Hy2). eexists. split; [reflexivity|]. split; auto.
        destruct (negb (z =? 0)); auto.
      - intros c IHc e1 IH1 e2 IH2 a E. cbn [texp xeval] in *.
        destruct (texp G D c) as [b|]; [|discriminate].
        destruct (texp G D e1) as [a1|]; [|discriminate]. destruct (texp G D e2) as [a2|]; [|discriminate].
        destruct (bitlike b && ety_eqb a1 a2) eqn:C; [|discriminate]. apply andb_true_iff in C as [Bl C].
        apply ety_eqb_eq in C as <-. injection E as <-.
        destruct (IHc _ eq_refl) as (x & -> & _ & Hx). destruct (xtyped_bit b x Bl Hx) as (z & -> & Rz).
        destruct (IH1 _ eq_refl) as (y1 & -> & Wt & Hy1). destruct (IH2 _ eq_refl) as (y2 & -> & _ & Hy2).
        cbn [bind x_cond x_bit]. rewrite (x_ite_ok _ a1 y1 y2 Hy1 Hy2). eexists. split; [reflexivity|]. split; auto.
        destruct (negb (z =? 0)); auto.
      - intros e1 IH1 e2 IH2 a E. cbn [texp xeval] in *.
        destruct (texp G D e1) as [a1|]; [|discriminate]. destruct (texp G D e2) as [a2|]; [|discriminate].
        destruct (bitlike a1 && bitlike a2) eqn:C; [|discriminate]. apply andb_true_iff in C as [B1 B2]. injection E as <-.
        destruct (IH1 _ eq_refl) as (x & -> & _ & Hx). destruct (xtyped_bit a1 x B1 Hx) as (z & -> & Rz).
        destruct (IH2 _ eq_refl) as (y & -> & _ & Hy). destruct (xtyped_bit a2 y B2 Hy) as (z' & -> & Rz').
        cbn [bind x_bit]. eexists. split; [reflexivity|].
        assert (0 <= Z.land z z' < 2).
        { assert ((z = 0 \/ z = 1) /\ (z' = 0 \/ z' = 1)) as [[-> | ->] [-> | ->]] by lia; cbn; lia. }
        destruct a1 as [[| | | | |]|], a2 as [[| | | | |]|]; try discriminate; (split; [cbn; auto; constructor|]); try (split; auto; fail).
        apply bit_typed; auto.
      - intros e1 IH1 e2 IH2 a E. cbn [texp xeval] in *.
        destruct (texp G D e1) as [a1|]; [|discriminate]. destruct (texp G D e2) as [a2|]; [|discriminate].
        destruct (bitlike a1 && bitlike a2) eqn:C; [|discriminate]. apply andb_true_iff in C as [B1 B2]. injection E as <-.
        destruct (IH1 _ eq_refl) as (x & -> & _ & Hx). destruct (xtyped_bit a1 x B1 Hx) as (z & -> & Rz).
        destruct (IH2 _ eq_refl) as (y & -> & _ & Hy). destruct (xtyped_bit a2 y B2 Hy) as (z' & -> & Rz').
        cbn [bind x_bit]. eexists. split; [reflexivity|].
        assert (0 <= Z.lor z z' < 2).
        { assert ((z = 0 \/ z = 1) /\ (z' = 0 \/ z' = 1)) as [[-> | ->] [-> | ->]] by lia; cbn; lia. }
        destruct a1 as [[| | | | |]|], a2 as [[| | | | |]|]; try discriminate; (split; [cbn; auto; constructor|]); try (split; auto; fail).
        apply bit_typed; auto.
      - intros e IH a E. cbn [texp xeval] in *. destruct (texp G D e) as [b|]; [|discriminate].
        destruct (bitlike b) eqn:B; [|discriminate]. injection E as <-.
        destruct (IH _ eq_refl) as (x & -> & _ & Hx). destruct (xtyped_bit b x B Hx) as (z & -> & Rz). cbn [bind x_bit].
        eexists. split; [reflexivity|]. split; [exact Logic.I|]. split; auto. lia.
      - intros l E. cbn in E. injection E as <-. cbn. eexists; repeat split; auto.
      - intros e IH es IHs l E. cbn [texps xevals] in *. fold (xeval asmof) in *. destruct (texp G D e) as [t|]; [|discriminate].
        destruct (texps G D es) as [ts|]; [|discriminate]. injection E as <-.
        destruct (IH _ eq_refl) as (x & -> & Wt & Hx). destruct (IHs _ eq_refl) as (xs & -> & Wts & Hxs). cbn [bind].
        eexists; repeat split; auto.
    Qed.

    Lemma xevals_ok : forall es l, texps G D es = Some l ->
      exists xs, xevals asmof X A es = Ok xs /\ Forall wf_ety l /\ Forall2 xtyped l xs.
    Proof.
      induction es as [|e es IHs]; intros l E.
      - cbn in E. injection E as <-. cbn. eexists; repeat split; auto.
      - cbn [texps xevals] in *. fold (xeval asmof) in *. destruct (texp G D e) as [t|] eqn:Et; [|discriminate].
        destruct (texps G D es) as [ts|]; [|discriminate]. injection E as <-.
        destruct (xeval_ok e t Et) as (x & -> & Wt & Hx). destruct (IHs _ eq_refl) as (xs & -> & Wts & Hxs). cbn [bind].
        eexists; repeat split; auto.
    Qed.
  End Total.

  (** ** Expressions compute the same *)
  Section Sim.
    Variable match_bool eq_bool : bool.
    Variable G : env ety.
    Variable D : env ty.
    Variable P : env pval.
    Variable PA : env val.
    Variable X A : env xval.
    Hypothesis HX : env_ok G X.
    Hypothesis HA : attr_ok D A.
    Hypothesis HP : forall x p, get P x = Some p -> exists t v, get G x = Some t /\ get X x = Some v /\ rel t p v.
    Hypothesis HPA : forall r t, get D r = Some t -> exists v x, get PA r = Some v /\ get A r = Some x /\ vrel t v x.

    Lemma truth_mk c b : truth (mk_truth c b) = Ok b.
    Proof. destruct c; reflexivity. Qed.

    Lemma field_at_nth fs : forall vs k v, field_at fs vs k = Ok v ->
      exists i t, nth_error fs i = Some (k, t) /\ nth_error vs i = Some v /\ dget key_eqb fs k = Some t.
    Proof.
      induction fs as [|[k' t] fs IH]; intros [|w vs] k v E; cbn [field_at] in E; try discriminate.
      cbn [dget]. destruct (key_eqb k k') eqn:Ek.
      - injection E as <-. apply key_eqb_eq in Ek as <-. exists 0%nat, t. auto.
      - destruct (IH _ _ _ E) as (i & t' & E1 & E2 & E3). exists (S i), t'. auto.
    Qed.

    Lemma py_eq_rel t v w z z' : wf_ty t -> canonical t z v -> canonical t z' w ->
      rel (eq_ety t) (py_eq eq_bool v w) (XW TBit (b2z (z =? z'))).
    Proof.
      intros Wt C1 C2.
      assert (val_eqb v w = (z =? z')) as E.
      { destruct (val_eqb v w) eqn:E.
        - apply val_eqb_eq in E as <-. symmetry. apply Z.eqb_eq. eapply canonical_fun; eauto.
        - symmetry. apply Z.eqb_neq. intros <-. pose proof (enc_inj _ t Wt z v w C1 C2) as Ev.
          apply val_eqb_eq in Ev. congruence. }
      unfold py_eq, eq_ety. pose proof (enc_has_ty _ _ _ _ C1) as H.
      destruct H; cbn [is_leaf rel]; rewrite E; try (exists (z =? z')).
      - eexists. split; [reflexivity|]. eexists. split; [reflexivity|]. constructor.
      - eexists. split; [reflexivity|]. eexists. split; [reflexivity|]. constructor.
      - eexists. split; [reflexivity|]. eexists. split; [reflexivity|]. constructor.
      - rewrite truth_mk; auto.
      - rewrite truth_mk; auto.
      - rewrite truth_mk; auto.
    Qed.

    Lemma leaf_rel ts : forall vs xs, Forall2 (fun t vx => vrel t (fst vx) (snd vx)) ts (combine vs xs) ->
      length vs = length ts -> length xs = length ts -> forall zs,
      leaf_args ts vs = Ok zs -> x_prims ts xs = Ok zs.
    Proof.
      induction ts as [|t ts IH]; intros [|v vs] [|x xs] F L1 L2 zs E; try discriminate; cbn [leaf_args x_prims] in *; auto.
      cbn [combine] in F. inversion F as [|? ? ? ? Hv Fr]; subst. cbn [fst snd] in Hv.
      destruct Hv as (z & -> & C). cbn [x_of]. rewrite ty_eqb_refl. cbn [bind].
      destruct (leaf_bits t v) as [z1|] eqn:E1; [|discriminate]. cbn [bind] in E.
      destruct (leaf_args ts vs) as [zs1|] eqn:E2; [|discriminate]. injection E as <-.
      assert (z1 = z) as ->. { destruct C; cbn in E1; try discriminate; injection E1; auto. }
      rewrite (IH vs xs Fr) with (zs := zs1); auto.
    Qed.

    Lemma leaf_val_enc t z : is_leaf t = true -> wf_ty t -> 0 <= z < 2 ^ leaf_width t -> canonical t z (leaf_val t z).
    Proof.
      destruct t; try discriminate; cbn [leaf_width leaf_val]; intros _ _ H.
      - change (2 ^ 1) with 2 in H. assert (z = 0 \/ z = 1) as [-> | ->] by lia.
        + apply (enc_bit _ false).
        + apply (enc_bit _ true).
      - constructor; auto.
      - constructor; auto.
    Qed.

    Lemma rels_vals ts : forall ps xs vs, Forall2 (fun a px => rel a (fst px) (snd px)) (map W ts) (combine ps xs) ->
      length ps = length ts -> length xs = length ts -> mapM adt_of ps = Ok vs ->
      Forall2 (fun t vx => vrel t (fst vx) (snd vx)) ts (combine vs xs) /\ length vs = length ts.
    Proof.
      induction ts as [|t ts IH]; intros [|p ps] [|x xs] vs F L1 L2 E; try discriminate.
      - cbn in E. injection E as <-. cbn. auto.
      - cbn [map combine] in F. inversion F as [|? ? ? ? Hp Fr]; subst. cbn [fst snd rel] in Hp.
        destruct Hp as (v & -> & Hv). cbn [mapM adt_of bind] in E.
        destruct (mapM adt_of ps) as [vs'|] eqn:Em; [|discriminate]. injection E as <-.
        destruct (IH ps xs vs' Fr) as [F1 L]; auto. cbn [combine length]. split; [constructor; auto|lia].
    Qed.

    Lemma rel_truth_bit a p x b : bitlike a = true -> rel a p x -> truth p = Ok b -> x = XW TBit (b2z b).
    Proof. intros B H E. destruct (rel_bit a p x B H) as (b' & E' & ->). congruence. Qed.

    Lemma arg_words t v x : vrel t v x -> wf_ty t -> arg_for (fun j => j = 0) t v (x_arg asmof x).
    Proof. intros (z & -> & C) Wt. apply af_word; auto. apply asm_sw; auto. Qed.

    Definition sim_e (e : expr) : Prop := forall a p, texp G D e = Some a -> peval match_bool eq_bool P PA e = Ok p ->
      exists x, xeval asmof X A e = Ok x /\ rel a p x.
    Definition sim_es (es : exprs) : Prop := forall l ps, texps G D es = Some l -> pevals match_bool eq_bool P PA es = Ok ps ->
      exists xs, xevals asmof X A es = Ok xs /\ Forall2 (fun a px => rel a (fst px) (snd px)) l (combine ps xs) /\
        length ps = length l /\ length xs = length l.

    Lemma texp_wf e a : texp G D e = Some a -> wf_ety a.
    Proof. intros E. destruct (xeval_ok G D X A HX HA e a E) as (x & _ & Wa & _). auto. Qed.

    Lemma cond_pick e1 e2 a c (b : bool) p : sim_e e1 -> sim_e e2 -> texp G D e1 = Some a -> texp G D e2 = Some a ->
      xeval asmof X A c = Ok (XW TBit (b2z b)) ->
      peval match_bool eq_bool P PA (if b then e1 else e2) = Ok p ->
      exists x, xeval asmof X A (ECond c e1 e2) = Ok x /\ rel a p x.
    Proof.
      intros S1 S2 T1 T2 Ec Ep.
      destruct (xeval_ok G D X A HX HA e1 a T1) as (x1 & E1 & _ & H1).
      destruct (xeval_ok G D X A HX HA e2 a T2) as (x2 & E2 & _ & H2).
      cbn [xeval]. fold (xeval asmof) in *. rewrite Ec. cbn [bind]. rewrite x_cond_b2z. cbn [bind]. rewrite E1, E2. cbn [bind].
      rewrite (x_ite_ok _ a x1 x2 H1 H2). eexists. split; [reflexivity|].
      destruct b.
      - destruct (S1 a p T1 Ep) as (x & E & R). congruence.
      - destruct (S2 a p T2 Ep) as (x & E & R). congruence.
    Qed.

    Ltac pfold := fold (xevals asmof) in *; fold (xeval asmof) in *; fold (peval match_bool eq_bool) in *;
      fold (pevals match_bool eq_bool) in *.

    Lemma xeval_sim_both : (forall e, sim_e e) /\ (forall es, sim_es es).
    Proof.
      assert (forall e, sim_e e) as He; [|split; auto].
      2:{ induction es as [|e es IH]; intros l ps E Ep.
        - cbn in E, Ep. injection E as <-. injection Ep as <-. exists []. cbn. repeat split; auto.
        - cbn [texps pevals xevals] in *. pfold.
          destruct (texp G D e) as [t|] eqn:Et; [|discriminate].
          destruct (texps G D es) as [ts|] eqn:Ets; [|discriminate]. injection E as <-.
          destruct (peval match_bool eq_bool P PA e) as [p|] eqn:E1; [|discriminate]. cbn [bind] in Ep.
          destruct (pevals match_bool eq_bool P PA es) as [ps'|] eqn:E2; [|discriminate]. injection Ep as <-.
          destruct (He e t p Et E1) as (x & -> & Hx). destruct (IH ts ps' Ets E2) as (xs & -> & F & L1 & L2).
          cbn [bind]. exists (x :: xs). split; auto. cbn [combine length]. split; [constructor; auto|]. split; lia. }
      apply (expr_mut sim_e sim_es); unfold sim_e, sim_es.
      - intros x a p E Ep. cbn [texp xeval peval] in *. unfold getE in *. destruct (get P x) as [q|] eqn:Eq; [|discriminate].
        injection Ep as <-. destruct (HP x q Eq) as (t & v & E1 & E2 & R). rewrite E2. exists v. split; auto. congruence.
      - intros r a p E Ep. cbn [texp xeval peval] in *. unfold getE in *. destruct (get D r) as [t|] eqn:Et; [|discriminate].
        injection E as <-. destruct (HPA r t Et) as (v & x & E1 & E2 & R). rewrite E1 in Ep. cbn [bind] in Ep.
        injection Ep as <-. rewrite E2. exists x. split; auto. exists v. auto.
      - intros t v a p E Ep. cbn [texp xeval peval] in *. destruct (lit_ok t v) eqn:L; [|discriminate]. injection E as <-.
        injection Ep as <-. destruct (lit_x t v L) as (z & Ez & C & Wt). rewrite Ez. cbn [bind]. eexists. split; [reflexivity|].
        exists v. split; auto. exists z; auto.
      - intros t e IH k a p E Ep. cbn [texp xeval peval] in *. pfold. destruct t as [| | | |c fs|]; try discriminate.
        destruct (texp G D e) as [[t0|]|] eqn:Te; try discriminate.
        destruct (ty_eqb (TProd c fs) t0 && wf_b (TProd c fs)) eqn:C; [|discriminate].
        apply andb_true_iff in C as [C Wb]. apply ty_eqb_eq in C as <-. apply wf_b_spec in Wb.
        destruct (dget key_eqb fs k) as [t'|] eqn:Ek; [|discriminate]. injection E as <-.
        destruct (peval match_bool eq_bool P PA e) as [q|] eqn:Eq; [|discriminate]. cbn [bind] in Ep.
        destruct (IH _ _ eq_refl eq_refl) as (x & -> & v & -> & z & -> & Cz). cbn [bind adt_of x_of] in *.
        destruct v as [| | |vs|]; try discriminate.
        destruct (field_at fs vs k) as [f|] eqn:Ef; [|discriminate]. cbn [bind] in Ep. injection Ep as <-.
        rewrite ty_eqb_refl. cbn [bind].
        destruct (field_at_nth _ _ _ _ Ef) as (i & t1 & N1 & N2 & Ek'). rewrite Ek in Ek'. injection Ek' as <-.
        destruct (asmof_ok _ Wb) as (R & GR & Ar).
        destruct (aadt_get_spec R _ (TProd c fs) (VProd vs) k t' f (asmof (TProd c fs)) z
          (sv_prod c fs vs k [] i t' f t' f N1 N2 (sv_here t' f)) GR Wb Ar Cz) as (y & m & a' & -> & Ce & _).
        cbn [bind]. eexists. split; [reflexivity|]. exists f. split; auto. exists y; auto.
      - intros t e IH k a p E Ep. cbn [texp xeval peval] in *. pfold. destruct t as [| | | | |g c fs]; try discriminate.
        destruct (texp G D e) as [[t0|]|] eqn:Te; try discriminate.
        destruct (ty_eqb (TSum g c fs) t0 && wf_b (TSum g c fs)) eqn:C; [|discriminate].
        apply andb_true_iff in C as [C Wb]. apply ty_eqb_eq in C as <-. apply wf_b_spec in Wb.
        destruct (dget key_eqb fs k) as [t'|] eqn:Ek; [|discriminate]. injection E as <-.
        destruct (peval match_bool eq_bool P PA e) as [q|] eqn:Eq; [|discriminate]. cbn [bind] in Ep.
        destruct (IH _ _ eq_refl eq_refl) as (x & -> & v & -> & z & -> & Cz). cbn [bind adt_of x_of] in *.
        destruct v as [| | | |k' v']; try discriminate. injection Ep as <-.
        rewrite ty_eqb_refl. cbn [bind]. destruct (asmof_ok _ Wb) as (R & GR & Ar).
        destruct (aadt_match_spec R _ g c fs k' v' k t' (asmof (TSum g c fs)) z GR Wb Ar Cz (field_In _ _ _ Ek)) as (y & b & -> & Hb).
        cbn [bind]. eexists. split; [reflexivity|]. exists b. rewrite truth_mk. split; auto. f_equal.
        rewrite <- key_eqb_eq in Hb. destruct (key_eqb k k'), b; auto; destruct Hb as [B1 B2]; auto; symmetry; auto.
      - intros t e IH k a p E Ep. cbn [texp xeval peval] in *. pfold. destruct t as [| | | | |g c fs]; try discriminate.
        destruct (texp G D e) as [[t0|]|] eqn:Te; try discriminate.
        destruct (ty_eqb (TSum g c fs) t0 && wf_b (TSum g c fs)) eqn:C; [|discriminate].
        apply andb_true_iff in C as [C Wb]. apply ty_eqb_eq in C as <-. apply wf_b_spec in Wb.
        destruct (dget key_eqb fs k) as [t'|] eqn:Ek; [|discriminate]. injection E as <-.
        destruct (peval match_bool eq_bool P PA e) as [q|] eqn:Eq; [|discriminate]. cbn [bind] in Ep.
        destruct (IH _ _ eq_refl eq_refl) as (x & -> & v & -> & z & -> & Cz). cbn [bind adt_of x_of] in *.
        destruct v as [| | | |k' v']; try discriminate. destruct (key_eqb k k') eqn:Kk; [|discriminate].
        apply key_eqb_eq in Kk as <-. injection Ep as <-.
        rewrite ty_eqb_refl. cbn [bind]. destruct (asmof_ok _ Wb) as (R & GR & Ar).
        pose proof (enc_has_ty _ _ _ _ Cz) as Ht. inversion Ht as [| | | | |? ? ? ? t1 ? I1 H1]; subst.
        assert (t1 = t') as ->.
        { eapply nodup_key_fun; [|exact I1|exact (field_In _ _ _ Ek)]. inversion Wb; auto. }
        destruct (aadt_get_spec R _ (TSum g c fs) (VSum k v') k t' v' (asmof (TSum g c fs)) z
          (sv_sum g c fs k [] t' v' t' v' I1 (sv_here t' v')) GR Wb Ar Cz) as (y & m & a' & -> & Ce & _).
        cbn [bind]. eexists. split; [reflexivity|]. exists v'. split; auto. exists y; auto.
      - intros t es IH a p E Ep. cbn [texp xeval peval] in *. pfold. destruct t as [| | | |c fs|]; try discriminate.
        destruct (texps G D es) as [ts|] eqn:Tes; [|discriminate].
        destruct (wf_b (TProd c fs) && makeable fs && list_eqb ety_eqb ts (map (fun f => W (snd f)) fs)) eqn:C; [|discriminate].
        apply andb_true_iff in C as [C Et]. apply andb_true_iff in C as [Wb Mk]. apply list_etys in Et. subst ts.
        injection E as <-. apply wf_b_spec in Wb.
        destruct (pevals match_bool eq_bool P PA es) as [qs|] eqn:Eq; [|discriminate]. cbn [bind] in Ep.
        destruct (mapM adt_of qs) as [vs|] eqn:Ev; [|discriminate]. cbn [bind] in Ep. injection Ep as <-.
        destruct (IH _ _ eq_refl eq_refl) as (xs & -> & F & L1 & L2). cbn [bind].
        rewrite <- (map_map snd W) in F, L1, L2. rewrite map_length in L1, L2.
        destruct (rels_vals _ _ _ _ F L1 L2 Ev) as [Fv Lv]. rewrite map_length in *.
        destruct (makeable_ok fs (prod_wf _ _ Wb) Mk) as [NE Pos].
        destruct (asmof_ok _ Wb) as (R & GR & Ar).
        destruct (prod_from_fields_ok R (fun j => j = 0) c fs _ vs (map (x_arg asmof) xs) 0 eq_refl Wb Ar) as (op & -> & Co); auto.
        { rewrite map_length. congruence. }
        { pose proof (prod_wf _ _ Wb) as WF. clear - WF Fv Lv L2 asmof_ok. revert vs xs Fv Lv L2.
          induction WF as [|f fs Wf WF IH]; intros [|v vs] [|x xs] H L L'; try discriminate; cbn [map combine] in *; constructor.
          - inversion H; subst. apply arg_words; auto.
          - inversion H; subst. apply IH; auto. }
        cbn [bind]. eexists. split; [reflexivity|]. eexists. split; [reflexivity|]. eexists. split; [reflexivity|]. auto.
      - intros t k e IH a p E Ep. cbn [texp xeval peval] in *. pfold. destruct t as [| | | | |g c fs]; try discriminate.
        destruct (texp G D e) as [[t0|]|] eqn:Te; try discriminate.
        destruct (dget key_eqb fs k) as [t'|] eqn:Ek; [|discriminate].
        destruct (wf_b (TSum g c fs) && ty_eqb t' t0 && (2 <=? length fs)%nat && negb (ty_width t' =? 0)) eqn:C; [|discriminate].
        apply andb_true_iff in C as [C Nz]. apply andb_true_iff in C as [C L2]. apply andb_true_iff in C as [Wb Et].
        apply ty_eqb_eq in Et as <-. apply wf_b_spec in Wb. apply Nat.leb_le in L2. injection E as <-.
        destruct (peval match_bool eq_bool P PA e) as [q|] eqn:Eq; [|discriminate]. cbn [bind] in Ep.
        destruct (IH _ _ eq_refl eq_refl) as (x & -> & v & -> & Hv). cbn [bind adt_of] in *. injection Ep as <-.
        pose proof (texp_wf _ _ Te) as Wt'. cbn [wf_ety] in Wt'.
        destruct (asmof_ok _ Wb) as (R & GR & Ar).
        destruct (sum_from_fields_ok R (fun j => j = 0) g c fs (asmof (TSum g c fs)) k t' (x_arg asmof x) v 0 eq_refl) as (op & -> & Co); auto.
        { apply field_In; auto. } { apply arg_words; auto. } { apply ty_width_0; auto. }
        cbn [bind]. eexists. split; [reflexivity|]. eexists. split; [reflexivity|]. eexists. split; [reflexivity|]. auto.
      - intros e1 IH1 e2 IH2 a p E Ep. cbn [texp xeval peval] in *. pfold.
        destruct (texp G D e1) as [[t|]|]; try discriminate. destruct (texp G D e2) as [[t'|]|]; try discriminate.
        destruct (ty_eqb t t' && wf_b t) eqn:C; [|discriminate]. apply andb_true_iff in C as [C Wb].
        apply ty_eqb_eq in C as <-. injection E as <-. apply wf_b_spec in Wb.
        destruct (peval match_bool eq_bool P PA e1) as [q|]; [|discriminate]. cbn [bind] in Ep.
        destruct (peval match_bool eq_bool P PA e2) as [q'|]; [|discriminate]. cbn [bind] in Ep.
        destruct (IH1 _ _ eq_refl eq_refl) as (x & -> & v & -> & z & -> & C1).
        destruct (IH2 _ _ eq_refl eq_refl) as (x' & -> & v' & -> & z' & -> & C2). cbn [bind adt_of] in *. injection Ep as <-.
        rewrite ty_eqb_refl. eexists. split; [reflexivity|]. apply py_eq_rel; auto.
      - intros e IH c a p E Ep. cbn [texp xeval peval] in *. pfold. destruct (texp G D e) as [[t|]|]; try discriminate.
        destruct (lit_ok t c) eqn:L; [|discriminate]. injection E as <-.
        destruct (peval match_bool eq_bool P PA e) as [q|]; [|discriminate]. cbn [bind] in Ep.
        destruct (IH _ _ eq_refl eq_refl) as (x & -> & v & -> & z & -> & C1). cbn [bind adt_of] in *. injection Ep as <-.
        destruct (eqc_x t z c L) as (y & C2 & Wt & ->). cbn [bind]. eexists. split; [reflexivity|]. apply py_eq_rel; auto.
      - intros o es IH a p E Ep. cbn [texp xeval peval] in *. pfold. destruct (texps G D es) as [ts|]; [|discriminate].
        destruct (forallb is_leaf (o_args o) && is_leaf (o_res o) && wf_b (o_res o) && list_eqb ety_eqb ts (map W (o_args o))) eqn:C;
          [|discriminate].
        apply andb_true_iff in C as [C Et]. apply andb_true_iff in C as [C Wb]. apply andb_true_iff in C as [_ Lr].
        apply list_etys in Et. subst ts. injection E as <-. apply wf_b_spec in Wb.
        destruct (pevals match_bool eq_bool P PA es) as [qs|]; [|discriminate]. cbn [bind] in Ep.
        destruct (mapM adt_of qs) as [vs|] eqn:Ev; [|discriminate]. cbn [bind] in Ep.
        destruct (leaf_args (o_args o) vs) as [zs|] eqn:El; [|discriminate]. cbn [bind] in Ep. injection Ep as <-.
        destruct (IH _ _ eq_refl eq_refl) as (xs & -> & F & L1 & L2). rewrite map_length in L1, L2. cbn [bind].
        destruct (rels_vals _ _ _ _ F L1 L2 Ev) as [Fv Lv].
        rewrite (leaf_rel _ _ _ Fv Lv L2 _ El). cbn [bind]. eexists. split; [reflexivity|].
        eexists. split; [reflexivity|]. eexists. split; [reflexivity|]. apply leaf_val_enc; auto. apply wrap_range.
        eapply swidth_nonneg; eauto. apply leaf_sw; auto.
      - intros e IH a p E Ep. cbn [texp xeval peval] in *. pfold.
        destruct (texp G D e) as [[[| | | | |]|]|]; try discriminate. injection E as <-.
        destruct (peval match_bool eq_bool P PA e) as [q|]; [|discriminate]. cbn [bind] in Ep.
        destruct (IH _ _ eq_refl eq_refl) as (x & -> & v & -> & z & -> & C1). inversion C1; subst. cbn [bind x_bit].
        injection Ep as <-. eexists. split; [reflexivity|]. eexists. split; [reflexivity|].
        exists (1 - b2z b). split; auto. destruct b; [apply (enc_bit _ false)|apply (enc_bit _ true)].
      - intros c IHc e1 IH1 e2 IH2 a p E Ep.
        assert (texp G D (ECond c e1 e2) = Some a /\
          (exists b, xeval asmof X A c = Ok (XW TBit (b2z b)) /\ peval match_bool eq_bool P PA (if b then e1 else e2) = Ok p) /\
          texp G D e1 = Some a /\ texp G D e2 = Some a) as (_ & (b & Ec & Eb) & T1 & T2).
        { cbn [texp peval] in *. pfold.
          destruct (texp G D c) as [[[| | | | |]|]|]; try discriminate.
          destruct (texp G D e1) as [[t|]|]; try discriminate. destruct (texp G D e2) as [[t'|]|]; try discriminate.
          destruct (ty_eqb t t') eqn:Et; [|discriminate]. apply ty_eqb_eq in Et as <-. injection E as <-.
          destruct (peval match_bool eq_bool P PA c) as [q|]; [|discriminate]. cbn [bind] in Ep.
          destruct (peval match_bool eq_bool P PA e1) as [q1|] eqn:Q1; [|discriminate]. cbn [bind] in Ep.
          destruct (peval match_bool eq_bool P PA e2) as [q2|] eqn:Q2; [|discriminate]. cbn [bind] in Ep.
          destruct (IHc _ _ eq_refl eq_refl) as (x & -> & v & -> & z & -> & C1). inversion C1; subst.
          injection Ep as <-. cbn [bitlike andb ety_eqb]. rewrite ty_eqb_refl. split; auto. split; auto.
          exists b. split; auto. destruct b; auto. }
        exact (cond_pick e1 e2 a c b p IH1 IH2 T1 T2 Ec Eb).
      - intros c IHc e1 IH1 e2 IH2 a p E Ep.
        assert ((exists b, xeval asmof X A c = Ok (XW TBit (b2z b)) /\ peval match_bool eq_bool P PA (if b then e1 else e2) = Ok p) /\
          texp G D e1 = Some a /\ texp G D e2 = Some a) as ((b & Ec & Eb) & T1 & T2).
        { cbn [texp peval] in *. pfold.
          destruct (texp G D c) as [bt|]; [|discriminate].
          destruct (texp G D e1) as [a1|]; [|discriminate]. destruct (texp G D e2) as [a2|]; [|discriminate].
          destruct (bitlike bt && ety_eqb a1 a2) eqn:C; [|discriminate]. apply andb_true_iff in C as [Bl C].
          apply ety_eqb_eq in C as <-. injection E as <-.
          destruct (peval match_bool eq_bool P PA c) as [q|]; [|discriminate]. cbn [bind] in Ep.
          destruct (truth q) as [b|] eqn:Tq; [|discriminate]. cbn [bind] in Ep.
          destruct (IHc _ _ eq_refl eq_refl) as (x & -> & Rx). rewrite (rel_truth_bit _ _ _ _ Bl Rx Tq).
          split; auto. exists b. split; auto. destruct b; auto. }
        exact (cond_pick e1 e2 a c b p IH1 IH2 T1 T2 Ec Eb).
      - intros e1 IH1 e2 IH2 a p E Ep. cbn [texp xeval peval] in *. pfold.
        destruct (texp G D e1) as [a1|] eqn:T1; [|discriminate]. destruct (texp G D e2) as [a2|] eqn:T2; [|discriminate].
        destruct (bitlike a1 && bitlike a2) eqn:C; [|discriminate]. apply andb_true_iff in C as [B1 B2]. injection E as <-.
        destruct (peval match_bool eq_bool P PA e1) as [q|]; [|discriminate]. cbn [bind] in Ep.
        destruct (truth q) as [b|] eqn:Tq; [|discriminate]. cbn [bind] in Ep.
        destruct (IH1 _ _ eq_refl eq_refl) as (x & -> & Rx). pose proof (rel_truth_bit _ _ _ _ B1 Rx Tq) as ->. cbn [bind x_bit].
        destruct (xeval_ok G D X A HX HA e2 a2 T2) as (y & Ey & _ & Hy). destruct (xtyped_bit a2 y B2 Hy) as (zy & -> & Rzy).
        rewrite Ey. cbn [bind x_bit]. eexists. split; [reflexivity|].
        destruct b; cbn [b2z].
        + destruct (IH2 _ _ eq_refl Ep) as (y' & Ey' & Ry). rewrite Ey in Ey'. injection Ey' as <-.
          destruct (rel_bit a2 _ _ B2 Ry) as (b' & Tb & [= ->]).
          replace (Z.land 1 (b2z b')) with (b2z b') by (destruct b'; reflexivity).
          destruct a1 as [[| | | | |]|], a2 as [[| | | | |]|]; try discriminate; cbn [rel]; auto; exists b'; auto.
        + injection Ep as <-. replace (Z.land 0 zy) with (b2z false) by (assert (zy = 0 \/ zy = 1) as [-> | ->] by lia; reflexivity).
          destruct a1 as [[| | | | |]|], a2 as [[| | | | |]|]; try discriminate; cbn [rel] in *; auto; exists false; auto.
      - intros e1 IH1 e2 IH2 a p E Ep. cbn [texp xeval peval] in *. pfold.
        destruct (texp G D e1) as [a1|] eqn:T1; [|discriminate]. destruct (texp G D e2) as [a2|] eqn:T2; [|discriminate].
        destruct (bitlike a1 && bitlike a2) eqn:C; [|discriminate]. apply andb_true_iff in C as [B1 B2]. injection E as <-.
        destruct (peval match_bool eq_bool P PA e1) as [q|]; [|discriminate]. cbn [bind] in Ep.
        destruct (truth q) as [b|] eqn:Tq; [|discriminate]. cbn [bind] in Ep.
        destruct (IH1 _ _ eq_refl eq_refl) as (x & -> & Rx). pose proof (rel_truth_bit _ _ _ _ B1 Rx Tq) as ->. cbn [bind x_bit].
        destruct (xeval_ok G D X A HX HA e2 a2 T2) as (y & Ey & _ & Hy). destruct (xtyped_bit a2 y B2 Hy) as (zy & -> & Rzy).
        rewrite Ey. cbn [bind x_bit]. eexists. split; [reflexivity|].
        destruct b; cbn [b2z].
        + injection Ep as <-. replace (Z.lor 1 zy) with (b2z true) by (assert (zy = 0 \/ zy = 1) as [-> | ->] by lia; reflexivity).
          destruct a1 as [[| | | | |]|], a2 as [[| | | | |]|]; try discriminate; cbn [rel] in *; auto; exists true; auto.
        + destruct (IH2 _ _ eq_refl Ep) as (y' & Ey' & Ry). rewrite Ey in Ey'. injection Ey' as <-.
          destruct (rel_bit a2 _ _ B2 Ry) as (b' & Tb & [= ->]).
          replace (Z.lor 0 (b2z b')) with (b2z b') by (destruct b'; reflexivity).
          destruct a1 as [[| | | | |]|], a2 as [[| | | | |]|]; try discriminate; cbn [rel]; auto; exists b'; auto.
      - intros e IH a p E Ep. cbn [texp xeval peval] in *. pfold. destruct (texp G D e) as [bt|]; [|discriminate].
        destruct (bitlike bt) eqn:B; [|discriminate]. injection E as <-.
        destruct (peval match_bool eq_bool P PA e) as [q|]; [|discriminate]. cbn [bind] in Ep.
        destruct (truth q) as [b|] eqn:Tq; [|discriminate]. cbn [bind] in Ep. injection Ep as <-.
        destruct (IH _ _ eq_refl eq_refl) as (x & -> & Rx). pose proof (rel_truth_bit _ _ _ _ B Rx Tq) as ->. cbn [bind x_bit].
        eexists. split; [reflexivity|]. exists (negb b). split; auto. destruct b; reflexivity.
      - intros l ps E Ep. cbn in E, Ep. injection E as <-. injection Ep as <-. exists []. cbn. repeat split; auto.
      - intros e IH es IHs l ps E Ep. cbn [texps pevals xevals] in *. pfold.
        destruct (texp G D e) as [t|] eqn:Et; [|discriminate].
        destruct (texps G D es) as [ts|] eqn:Ets; [|discriminate]. injection E as <-.
        destruct (peval match_bool eq_bool P PA e) as [p|] eqn:E1; [|discriminate]. cbn [bind] in Ep.
        destruct (pevals match_bool eq_bool P PA es) as [ps'|] eqn:E2; [|discriminate]. injection Ep as <-.
        destruct (IH t p eq_refl eq_refl) as (x & -> & Hx). destruct (IHs ts ps' eq_refl eq_refl) as (xs & -> & F & L1 & L2).
        cbn [bind]. exists (x :: xs). split; auto. cbn [combine length]. split; [constructor; auto|]. split; lia.
    Qed.
    Definition xeval_sim := proj1 xeval_sim_both.
    Definition xevals_sim := proj2 xeval_sim_both.
  End Sim.

  (** ** Merging environments *)
  Definition merged {B} (c : bool) (a b : option B) : option B :=
    match a, b with Some x, Some y => Some (if c then x else y) | Some x, None => Some x | None, o => o end.

  Lemma get_In A (e : env A) x v : get e x = Some v -> In x (map fst e).
  Proof.
    intros E. apply (dget_In String.eqb String.eqb_eq) in E. apply in_map_iff. exists (x, v). auto.
  Qed.
  Lemma In_get A (e : env A) x : In x (map fst e) -> exists v, get e x = Some v.
  Proof.
    intros I. unfold get. destruct (dget String.eqb e x) as [v|] eqn:E; eauto.
    apply (dget_None String.eqb String.eqb_eq) in E. contradiction.
  Qed.

  Lemma phi_ok c X1 X2 :
    (forall x a b, get X1 x = Some a -> get X2 x = Some b -> exists t, xtyped t a /\ xtyped t b) ->
    exists X, phi c X1 X2 = Ok X /\ forall x, get X x = merged c (get X1 x) (get X2 x).
  Proof.
    intros H. unfold phi.
    assert (forall ns, (forall x, In x ns -> In x (names X1 X2)) ->
      exists X, mapM (fun x => match get X1 x, get X2 x with
          | Some a, Some b => do v <- x_ite c a b; Ok (x, v)
          | Some a, None => Ok (x, a)
          | None, Some b => Ok (x, b)
          | None, None => Err NameError
          end) ns = Ok X /\
        forall x, get X x = if existsb (String.eqb x) ns then merged c (get X1 x) (get X2 x) else None) as K.
    { induction ns as [|n ns IH]; intros Hin; cbn [mapM].
      - exists []. split; auto.
      - destruct IH as (X & E & HX); [intros; apply Hin; right; auto|].
        assert (exists v, match get X1 n, get X2 n with
          | Some a, Some b => do v <- x_ite c a b; Ok (n, v)
          | Some a, None => Ok (n, a)
          | None, Some b => Ok (n, b)
          | None, None => Err NameError
          end = Ok (n, v) /\ merged c (get X1 n) (get X2 n) = Some v) as (v & Ev & Mv).
        { destruct (get X1 n) as [a|] eqn:Ea; destruct (get X2 n) as [b|] eqn:Eb.
          - destruct (H n a b Ea Eb) as (t & Ta & Tb). rewrite (x_ite_ok c t a b Ta Tb). cbn [bind merged]. eauto.
          - cbn. eauto.
          - cbn. eauto.
          - exfalso. specialize (Hin n (or_introl eq_refl)). unfold names in Hin. apply in_app_iff in Hin as [I|I];
              apply In_get in I as (v & Ev); congruence. }
        rewrite Ev. cbn [bind]. rewrite E. cbn [bind]. eexists. split; [reflexivity|].
        intros x. unfold get. cbn [dget existsb]. destruct (String.eqb x n) eqn:Ex.
        + apply String.eqb_eq in Ex as ->. cbn [orb]. symmetry. exact Mv.
        + cbn [orb]. apply HX. }
    destruct (K (names X1 X2) (fun x I => I)) as (X & E & HX). exists X. split; auto.
    intros x. rewrite HX. destruct (existsb (String.eqb x) (names X1 X2)) eqn:Ex; auto.
    destruct (get X1 x) as [a|] eqn:Ea.
    { exfalso. apply get_In in Ea. assert (existsb (String.eqb x) (names X1 X2) = true); [|congruence].
      apply existsb_exists. exists x. split; [apply in_app_iff; auto|apply String.eqb_refl]. }
    destruct (get X2 x) as [b|] eqn:Eb; auto.
    exfalso. apply get_In in Eb. assert (existsb (String.eqb x) (names X1 X2) = true); [|congruence].
    apply existsb_exists. exists x. split; [apply in_app_iff; auto|apply String.eqb_refl].
  Qed.

  Lemma gmerge_ok G1 G2 G : gmerge G1 G2 = Some G ->
    (forall x a b, get G1 x = Some a -> get G2 x = Some b -> a = b) /\
    forall x, get G x = merged true (get G1 x) (get G2 x).
  Proof.
    unfold gmerge. intros E.
    assert (forall ns G, gmerge_names ns G1 G2 = Some G ->
      (forall x a b, In x ns -> get G1 x = Some a -> get G2 x = Some b -> a = b) /\
      forall x, get G x = if existsb (String.eqb x) ns then merged true (get G1 x) (get G2 x) else None) as K.
    { clear. induction ns as [|n ns IH]; intros G E; cbn [gmerge_names] in E.
      - injection E as <-. split; [intros ? ? ? []|auto].
      - destruct (gmerge_names ns G1 G2) as [G'|]; [|discriminate]. destruct (IH G' eq_refl) as [I1 I2].
        destruct (get G1 n) as [a|] eqn:Ea; destruct (get G2 n) as [b|] eqn:Eb; try discriminate.
        + destruct (ety_eqb a b) eqn:Eab; [|discriminate]. apply ety_eqb_eq in Eab as <-. injection E as <-. split.
          * intros x a' b' [<-|I] E1 E2; [congruence|eauto].
          * intros x. unfold get at 1. cbn [dget existsb]. destruct (String.eqb x n) eqn:Ex; [|apply I2].
            apply String.eqb_eq in Ex as ->. cbn [orb]. rewrite Ea, Eb. reflexivity.
        + injection E as <-. split.
          * intros x a' b' [<-|I] E1 E2; [congruence|eauto].
          * intros x. unfold get at 1. cbn [dget existsb]. destruct (String.eqb x n) eqn:Ex; [|apply I2].
            apply String.eqb_eq in Ex as ->. cbn [orb]. rewrite Ea, Eb. reflexivity.
        + injection E as <-. split.
          * intros x a' b' [<-|I] E1 E2; [congruence|eauto].
          * intros x. unfold get at 1. cbn [dget existsb]. destruct (String.eqb x n) eqn:Ex; [|apply I2].
            apply String.eqb_eq in Ex as ->. cbn [orb]. rewrite Ea, Eb. reflexivity. }
    destruct (K _ _ E) as [K1 K2]. split.
    - intros x a b E1 E2. apply (K1 x); auto. apply in_app_iff. left. eapply get_In; eauto.
    - intros x. rewrite K2. destruct (existsb (String.eqb x) (names G1 G2)) eqn:Ex; auto.
      destruct (get G1 x) as [a|] eqn:Ea.
      { exfalso. apply get_In in Ea. assert (existsb (String.eqb x) (names G1 G2) = true); [|congruence].
        apply existsb_exists. exists x. split; [apply in_app_iff; auto|apply String.eqb_refl]. }
      destruct (get G2 x) as [b|] eqn:Eb; auto.
      exfalso. apply get_In in Eb. assert (existsb (String.eqb x) (names G1 G2) = true); [|congruence].
      apply existsb_exists. exists x. split; [apply in_app_iff; auto|apply String.eqb_refl].
  Qed.

  Lemma phi_env c G1 G2 G X1 X2 : gmerge G1 G2 = Some G -> env_ok G1 X1 -> env_ok G2 X2 ->
    exists X, phi c X1 X2 = Ok X /\ env_ok G X /\
      forall x, get X x = merged c (get X1 x) (get X2 x).
  Proof.
    intros Eg H1 H2. destruct (gmerge_ok _ _ _ Eg) as [Ga Gb].
    destruct (phi_ok c X1 X2) as (X & E & HX).
    { intros x a b E1 E2. specialize (H1 x). specialize (H2 x). rewrite E1 in H1. rewrite E2 in H2.
      destruct (get G1 x) as [t1|] eqn:T1; [|destruct H1]. destruct (get G2 x) as [t2|] eqn:T2; [|destruct H2].
      pose proof (Ga x _ _ T1 T2) as <-. exists t1. tauto. }
    exists X. split; auto. split; auto. intros x. rewrite Gb, HX. specialize (H1 x). specialize (H2 x).
    destruct (get G1 x) as [t1|] eqn:T1; destruct (get X1 x) as [v1|]; try (destruct H1; fail);
    destruct (get G2 x) as [t2|] eqn:T2; destruct (get X2 x) as [v2|]; try (destruct H2; fail); cbn [merged]; auto.
    pose proof (Ga x _ _ T1 T2) as <-. destruct c; auto.
  Qed.

  Lemma phi_attr c D X1 X2 : attr_ok D X1 -> attr_ok D X2 ->
    exists X, phi c X1 X2 = Ok X /\ attr_ok D X /\ forall x, get X x = if c then get X1 x else get X2 x.
  Proof.
    intros H1 H2.
    destruct (phi_ok c X1 X2) as (X & E & HX).
    { intros x a b E1 E2. specialize (H1 x). specialize (H2 x). rewrite E1 in H1. rewrite E2 in H2.
      destruct (get D x) as [t1|] eqn:T1; [|destruct H1]. exists (W t1). tauto. }
    exists X. split; auto.
    assert (forall x, get X x = if c then get X1 x else get X2 x) as K.
    { intros x. rewrite HX. specialize (H1 x). specialize (H2 x).
      destruct (get D x); destruct (get X1 x), (get X2 x); cbn [merged]; try tauto; destruct c; auto. }
    split; auto. intros x. rewrite K. destruct c; [apply H1|apply H2].
  Qed.

  Lemma env_set G X x a v : env_ok G X -> wf_ety a -> xtyped a v -> env_ok (set G x a) (set X x v).
  Proof. intros H Wa T y. rewrite !get_set. destruct (String.eqb y x); auto. apply H. Qed.

  Lemma attr_set D X r t v : attr_ok D X -> get D r = Some t -> xtyped (W t) v -> attr_ok D (set X r v).
  Proof.
    intros H E T y. rewrite get_set. specialize (H y). destruct (String.eqb y r) eqn:Ey; auto.
    apply String.eqb_eq in Ey as ->. rewrite E in *. destruct (get X r); tauto.
  Qed.

  Definition prel (G : env ety) (P : env pval) (X : env xval) : Prop :=
    forall x p, get P x = Some p -> exists t v, get G x = Some t /\ get X x = Some v /\ rel t p v.
  Definition arel (D : env ty) (P : env val) (X : env xval) : Prop :=
    forall r t, get D r = Some t -> exists v x, get P r = Some v /\ get X r = Some x /\ vrel t v x.

  Lemma prel_set G P X x a p v : prel G P X -> rel a p v -> prel (set G x a) (set P x p) (set X x v).
  Proof.
    intros H R y q. rewrite !get_set. destruct (String.eqb y x); [|apply H]. intros [= <-]. eauto.
  Qed.

  Lemma arel_set D P X r t p v : arel D P X -> get D r = Some t -> vrel t p v -> arel D (set P r p) (set X r v).
  Proof.
    intros H E R y t'. rewrite !get_set. destruct (String.eqb y r) eqn:Ey; [|apply H].
    apply String.eqb_eq in Ey as ->. rewrite E. intros [= <-]. eauto.
  Qed.

  (** Three lists of one length: types, values, words holding them. *)
  Fixpoint vrels (ts : list ty) (vs : list val) (xs : list xval) : Prop :=
    match ts, vs, xs with
    | [], [], [] => True
    | t :: ts', v :: vs', x :: xs' => vrel t v x /\ vrels ts' vs' xs'
    | _, _, _ => False
    end.

  Lemma vrels_combine ts : forall vs xs, Forall2 (fun t vx => vrel t (fst vx) (snd vx)) ts (combine vs xs) ->
    length vs = length ts -> length xs = length ts -> vrels ts vs xs.
  Proof.
    induction ts as [|t ts IH]; intros [|v vs] [|x xs] F L1 L2; try discriminate; cbn; auto.
    inversion F; subst. split; auto.
  Qed.

  Lemma vrels_typed ts : Forall wf_ty ts -> forall vs xs, vrels ts vs xs -> Forall2 xtyped (map W ts) xs.
  Proof.
    induction 1 as [|t ts Wt F IH]; intros [|v vs] [|x xs] H; cbn in H; try tauto; cbn [map]; constructor.
    - destruct H as [H _]. apply (rel_xtyped (W t) (PV v)); auto. exists v; auto.
    - destruct H as [_ H]. eauto.
  Qed.

  Lemma bind_env xs : forall ts G G' X vs, bind_types G xs ts = Some G' -> env_ok G X ->
    Forall wf_ty ts -> Forall2 xtyped (map W ts) vs ->
    exists X', bind_all X xs vs = Ok X' /\ env_ok G' X'.
  Proof.
    induction xs as [|x xs IH]; intros [|t ts] G G' X vs E H WF F; try discriminate; inversion F; subst; cbn [bind_types bind_all] in *.
    - injection E as <-. eauto.
    - inversion WF; subst. eapply IH; eauto. apply env_set; auto.
  Qed.

  Lemma bind_rel xs : forall ts G G' P P' X vs us, bind_types G xs ts = Some G' -> prel G P X ->
    vrels ts vs us -> bind_all P xs (map PV vs) = Ok P' ->
    exists X', bind_all X xs us = Ok X' /\ prel G' P' X'.
  Proof.
    induction xs as [|x xs IH]; intros [|t ts] G G' P P' X [|v vs] [|u us] E H F Eb; try discriminate; cbn in F; try tauto;
      cbn [bind_types bind_all map] in *.
    - injection E as <-. injection Eb as <-. eauto.
    - destruct F as [Fv F]. eapply IH; eauto. apply prel_set; auto. exists v. auto.
  Qed.

  Section Stmt.
    Variable match_bool eq_bool : bool.
    Context {Sp Sx : Type}.
    Variable pcall : string -> Sp -> list val -> res (list val * Sp).
    Variable xcall : string -> Sx -> list xval -> res (list xval * Sx).
    Variable csig : string -> option (list ty * list ty).
    Variable Inv : Sx -> Prop.
    Variable Rc : Sp -> Sx -> Prop.
    Hypothesis call_ok : forall m ps qs s xs, csig m = Some (ps, qs) -> Inv s -> Forall2 xtyped (map W ps) xs ->
      exists rs s', xcall m s xs = Ok (rs, s') /\ Inv s' /\ Forall2 xtyped (map W qs) rs.
    Hypothesis call_sim : forall m ps qs sp sx vs xs rs sp', csig m = Some (ps, qs) -> Inv sx -> Rc sp sx ->
      vrels ps vs xs -> pcall m sp vs = Ok (rs, sp') ->
      exists us sx', xcall m sx xs = Ok (us, sx') /\ Rc sp' sx' /\ vrels qs rs us.
    Variable D : env ty.
    Variable rets : list ty.

    Definition ret_ok (r : xret) : Prop :=
      match r with (_, vs, at_) => Forall2 xtyped (map W rets) vs /\ attr_ok D at_ end.
    Definition off (r : xret) : Prop := fst (fst r) = false.

    Lemma xexec_ok strict s : forall top G G' m path X A cs,
      tstmt csig D rets strict top G s = Some (G', m) -> env_ok G X -> attr_ok D A -> Inv cs ->
      exists X' A' cs' rs, xexec asmof xcall path s (X, A, cs) = Ok ((X', A', cs'), rs) /\
        env_ok G' X' /\ attr_ok D A' /\ Inv cs' /\ Forall ret_ok rs /\ (returns s = true -> rs <> []) /\
        (m = false -> rs = []) /\ (path = false -> Forall off rs) /\ (strict = true -> top = false -> cs' = cs).
    Proof.
      induction s as [|x e|r e|xs mth es|c s1 IH1 s2 IH2|s1 IH1 s2 IH2|es]; intros top G G' m path X A cs T HX HA HI;
        cbn [tstmt xexec] in *.
      - injection T as <- <-. exists X, A, cs, []. repeat split; auto. discriminate.
      - destruct (texp G D e) as [a|] eqn:Te; [|discriminate]. injection T as <- <-.
        destruct (xeval_ok G D X A HX HA e a Te) as (v & -> & Wa & Hv). cbn [bind].
        exists (set X x v), A, cs, []. repeat split; auto; try discriminate. apply env_set; auto.
      - destruct (texp G D e) as [[t|]|] eqn:Te; try discriminate. destruct (get D r) as [t'|] eqn:Er; [|discriminate].
        destruct (ty_eqb t t') eqn:Et; [|discriminate]. apply ty_eqb_eq in Et as <-. injection T as <- <-.
        destruct (xeval_ok G D X A HX HA e (W t) Te) as (v & -> & Wa & Hv). cbn [bind].
        exists X, (set A r v), cs, []. repeat split; auto; try discriminate. eapply attr_set; eauto.
      - destruct (top || negb strict) eqn:Top; [|discriminate].
        destruct (csig mth) as [[ps qs]|] eqn:Ec; [|discriminate].
        destruct (texps G D es) as [ts|] eqn:Tes; [|discriminate].
        destruct (list_eqb ety_eqb ts (map W ps) && forallb wf_b qs) eqn:C; [|discriminate].
        apply andb_true_iff in C as [C Wq]. apply list_etys in C. subst ts. apply wf_all_b in Wq.
        destruct (bind_types G xs qs) as [G1|] eqn:Eb; [|discriminate]. injection T as <- <-.
        destruct (xevals_ok G D X A HX HA es _ Tes) as (vs & -> & _ & Hvs). cbn [bind].
        destruct (call_ok mth ps qs cs vs Ec HI Hvs) as (rs & cs' & -> & HI' & Hrs). cbn [bind].
        destruct (bind_env xs qs G G1 X rs Eb HX Wq Hrs) as (X' & -> & HX'). cbn [bind].
        exists X', A, cs', []. repeat split; auto; try discriminate.
        intros -> ->. discriminate.
      - destruct (texp G D c) as [a|] eqn:Tc; [|discriminate]. destruct (bitlike a) eqn:Ba; [|discriminate].
        destruct (tstmt csig D rets strict false G s1) as [[G1 m1]|] eqn:T1; [|discriminate].
        destruct (tstmt csig D rets strict false G s2) as [[G2 m2]|] eqn:T2; [|discriminate].
        destruct (xeval_ok G D X A HX HA c a Tc) as (v & -> & Wa & Hv). cbn [bind].
        destruct (xtyped_bit a v Ba Hv) as (z & -> & Rz). cbn [x_cond x_bit bind].
        set (b := negb (z =? 0)).
        destruct (IH1 false G G1 m1 (path && b) X A cs T1 HX HA HI)
          as (X1 & A1 & cs1 & r1 & -> & HX1 & HA1 & HI1 & Hr1 & Nr1 & Mr1 & Pr1 & S1). cbn [bind].
        destruct (IH2 false G G2 m2 (path && negb b) X A cs1 T2 HX HA HI1)
          as (X2 & A2 & cs2 & r2 & -> & HX2 & HA2 & HI2 & Hr2 & Nr2 & Mr2 & Pr2 & S2). cbn [bind].
        assert (forall M, m1 || m2 = M -> M = false -> r1 ++ r2 = []) as HM.
        { intros M <- E. apply orb_false_iff in E as [E1 E2]. rewrite Mr1, Mr2; auto. }
        assert (Forall ret_ok (r1 ++ r2)) as HR by (apply Forall_app; auto).
        assert (path = false -> Forall off (r1 ++ r2)) as HO.
        { intros ->. apply Forall_app. split; [apply Pr1|apply Pr2]; auto. }
        assert (strict = true -> top = false -> cs2 = cs) as HS.
        { intros E _. rewrite S2, S1; auto. }
        assert (returns s1 && returns s2 = true -> r1 ++ r2 <> []) as HN.
        { intros E. apply andb_true_iff in E as [E1 _]. specialize (Nr1 E1). destruct r1; [congruence|discriminate]. }
        destruct (returns s1) eqn:R1; [|destruct (returns s2) eqn:R2].
        + injection T as <- <-. exists X2, A2, cs2, (r1 ++ r2). cbn [returns]. rewrite R1. repeat split; eauto.
        + injection T as <- <-. exists X1, A1, cs2, (r1 ++ r2). cbn [returns]. rewrite R1. repeat split; eauto; discriminate.
        + destruct (gmerge G1 G2) as [G3|] eqn:Eg; [|discriminate]. injection T as <- <-.
          destruct (phi_env b G1 G2 G3 X1 X2 Eg HX1 HX2) as (X3 & -> & HX3 & _). cbn [bind].
          destruct (phi_attr b D A1 A2 HA1 HA2) as (A3 & -> & HA3 & _). cbn [bind].
          exists X3, A3, cs2, (r1 ++ r2). cbn [returns]. rewrite R1. repeat split; eauto; discriminate.
      - destruct (tstmt csig D rets strict top G s1) as [[G1 m1]|] eqn:T1; [|discriminate].
        destruct (IH1 top G G1 m1 path X A cs T1 HX HA HI)
          as (X1 & A1 & cs1 & r1 & -> & HX1 & HA1 & HI1 & Hr1 & Nr1 & Mr1 & Pr1 & S1). cbn [bind].
        destruct (returns s1) eqn:R1.
        + injection T as <- <-. exists X1, A1, cs1, r1. cbn [returns]. rewrite R1. repeat split; auto.
        + destruct (tstmt csig D rets strict (top && negb m1) G1 s2) as [[G2 m2]|] eqn:T2; [|discriminate]. injection T as <- <-.
          destruct (IH2 (top && negb m1) G1 G2 m2 path X1 A1 cs1 T2 HX1 HA1 HI1)
            as (X2 & A2 & cs2 & r2 & -> & HX2 & HA2 & HI2 & Hr2 & Nr2 & Mr2 & Pr2 & S2). cbn [bind].
          exists X2, A2, cs2, (r1 ++ r2). cbn [returns]. rewrite R1. cbn [orb]. repeat split; auto.
          * apply Forall_app; auto.
          * intros E. specialize (Nr2 E). destruct r1; [auto|discriminate].
          * intros E. apply orb_false_iff in E as [E1 E2]. rewrite Mr1, Mr2; auto.
          * intros E. apply Forall_app; auto.
          * intros E1 E2. rewrite S2, S1; auto. rewrite E2. reflexivity.
      - destruct (texps G D es) as [ts|] eqn:Tes; [|discriminate].
        destruct (list_eqb ety_eqb ts (map W rets)) eqn:C; [|discriminate]. apply list_etys in C. subst ts. injection T as <- <-.
        destruct (xevals_ok G D X A HX HA es _ Tes) as (vs & -> & _ & Hvs). cbn [bind].
        exists X, A, cs, [(path, vs, A)]. split; auto. split; auto. split; auto. split; auto.
        split; [constructor; auto; split; auto|]. split; [discriminate|]. split; [discriminate|].
        split; [|auto]. intros ->. constructor; [reflexivity|constructor].
    Qed.

    Lemma pexec_returns s : forall st st' r, returns s = true -> pexec match_bool eq_bool pcall s st = Ok (st', r) -> r <> None.
    Proof.
      induction s as [|x e|r0 e|xs mth es|c s1 IH1 s2 IH2|s1 IH1 s2 IH2|es]; intros [[P PA] cs] st' r E Ex;
        cbn [returns pexec] in *; try discriminate.
      - apply andb_true_iff in E as [E1 E2].
        destruct (peval match_bool eq_bool P PA c) as [p|]; [|discriminate]. cbn [bind] in Ex.
        destruct (truth p) as [b|]; [|discriminate]. cbn [bind] in Ex. destruct b; eauto.
      - destruct (pexec match_bool eq_bool pcall s1 (P, PA, cs)) as [[st1 r1]|] eqn:E1; [|discriminate]. cbn [bind] in Ex.
        destruct r1 as [vs|].
        + injection Ex as <- <-. discriminate.
        + apply orb_true_iff in E as [E|E]; [|eauto]. exfalso. eapply IH1; eauto.
      - destruct (pevals match_bool eq_bool P PA es) as [vs|]; [|discriminate]. cbn [bind] in Ex. injection Ex as <- <-. discriminate.
    Qed.

    (** The statement ended normally, or returned these values. *)
    Definition outcome (r : option (list pval)) (G' : env ety) (P' : env pval) (PA' : env val) (X' A' : env xval) (rs : list xret) : Prop :=
      match r with
      | None => Forall off rs /\ prel G' P' X' /\ arel D PA' A'
      | Some ps => exists r1 vs at_ r2 us, rs = r1 ++ (true, vs, at_) :: r2 /\ Forall off r1 /\
                     mapM adt_of ps = Ok us /\ vrels rets us vs /\ arel D PA' at_
      end.

    Lemma outcome_app_off r G' P' PA' X' A' rs1 rs2 : Forall off rs1 -> outcome r G' P' PA' X' A' rs2 ->
      outcome r G' P' PA' X' A' (rs1 ++ rs2).
    Proof.
      intros F. destruct r as [ps|]; cbn [outcome].
      - intros (r1 & vs & at_ & r2 & us & -> & F1 & H). exists (rs1 ++ r1), vs, at_, r2, us.
        rewrite app_assoc. split; auto. split; auto. apply Forall_app; auto.
      - intros (F2 & H). split; auto. apply Forall_app; auto.
    Qed.

    Lemma outcome_app_some ps G' P' PA' X' A' G2 P2 X2 A2 rs1 rs2 : outcome (Some ps) G' P' PA' X' A' rs1 ->
      outcome (Some ps) G2 P2 PA' X2 A2 (rs1 ++ rs2).
    Proof.
      cbn [outcome]. intros (r1 & vs & at_ & r2 & us & -> & F1 & H). exists r1, vs, at_, (r2 ++ rs2), us.
      rewrite <- app_assoc. split; auto.
    Qed.

    Lemma mapM_adt ts : forall ps xs, Forall2 (fun a px => rel a (fst px) (snd px)) (map W ts) (combine ps xs) ->
      length ps = length ts -> length xs = length ts -> exists vs, mapM adt_of ps = Ok vs /\ vrels ts vs xs.
    Proof.
      induction ts as [|t ts IH]; intros [|p ps] [|x xs] F L1 L2; try discriminate.
      - exists []. split; cbn; auto.
      - cbn [map combine] in F. inversion F as [|? ? ? ? Hp Fr]; subst. cbn [fst snd rel] in Hp.
        destruct Hp as (v & -> & Hv). destruct (IH ps xs Fr) as (vs & Ev & Hvs); auto.
        exists (v :: vs). cbn [mapM adt_of bind]. rewrite Ev. cbn. auto.
    Qed.

    Lemma xexec_sim s : forall top G G' m X A cs P PA csp P' PA' csp' r,
      tstmt csig D rets true top G s = Some (G', m) -> env_ok G X -> attr_ok D A -> Inv cs ->
      prel G P X -> arel D PA A -> Rc csp cs ->
      pexec match_bool eq_bool pcall s (P, PA, csp) = Ok ((P', PA', csp'), r) ->
      exists X' A' cs' rs, xexec asmof xcall true s (X, A, cs) = Ok ((X', A', cs'), rs) /\
        Rc csp' cs' /\ outcome r G' P' PA' X' A' rs.
    Proof.
      induction s as [|x e|rg e|xs mth es|c s1 IH1 s2 IH2|s1 IH1 s2 IH2|es];
        intros top G G' m X A cs P PA csp P' PA' csp' r T HX HA HI HP HPA HR Ex;
        cbn [pexec] in Ex.
      - injection Ex as <- <- <- <-. cbn [tstmt xexec] in *. injection T as <- <-.
        exists X, A, cs, []. repeat split; auto.
      - cbn [tstmt xexec] in *. destruct (texp G D e) as [a|] eqn:Te; [|discriminate]. injection T as <- <-.
        destruct (peval match_bool eq_bool P PA e) as [p|] eqn:Ep; [|discriminate]. cbn [bind] in Ex. injection Ex as <- <- <- <-.
        destruct (xeval_sim match_bool eq_bool G D P PA X A HX HA HP HPA e a p Te Ep) as (v & -> & Hv). cbn [bind].
        exists (set X x v), A, cs, []. split; auto. split; auto. split; auto. split; auto. apply prel_set; auto.
      - cbn [tstmt xexec] in *. destruct (texp G D e) as [[t|]|] eqn:Te; try discriminate.
        destruct (get D rg) as [t'|] eqn:Er; [|discriminate].
        destruct (ty_eqb t t') eqn:Et; [|discriminate]. apply ty_eqb_eq in Et as <-. injection T as <- <-.
        destruct (peval match_bool eq_bool P PA e) as [p|] eqn:Ep; [|discriminate]. cbn [bind] in Ex.
        destruct (xeval_sim match_bool eq_bool G D P PA X A HX HA HP HPA e (W t) p Te Ep) as (v & -> & pv & -> & Hv). cbn [bind adt_of] in *.
        injection Ex as <- <- <- <-.
        exists X, (set A rg v), cs, []. split; auto. split; auto. split; auto. split; auto. eapply arel_set; eauto.
      - cbn [tstmt xexec] in *. destruct (top || negb true) eqn:Top; [|discriminate].
        destruct (csig mth) as [[ps qs]|] eqn:Ec; [|discriminate].
        destruct (texps G D es) as [ts|] eqn:Tes; [|discriminate].
        destruct (list_eqb ety_eqb ts (map W ps) && forallb wf_b qs) eqn:C; [|discriminate].
        apply andb_true_iff in C as [C Wq]. apply list_etys in C. subst ts. apply wf_all_b in Wq.
        destruct (bind_types G xs qs) as [G1|] eqn:Eb; [|discriminate]. injection T as <- <-.
        destruct (pevals match_bool eq_bool P PA es) as [pv|] eqn:Ep; [|discriminate]. cbn [bind] in Ex.
        destruct (xevals_sim match_bool eq_bool G D P PA X A HX HA HP HPA es _ pv Tes Ep) as (vs & -> & F & L1 & L2). cbn [bind].
        rewrite map_length in L1, L2. destruct (mapM_adt _ _ _ F L1 L2) as (us & Eu & Hus). rewrite Eu in Ex. cbn [bind] in Ex.
        destruct (pcall mth csp us) as [[rv csp1]|] eqn:Epc; [|discriminate]. cbn [bind] in Ex.
        destruct (bind_all P xs (map PV rv)) as [P1|] eqn:Ebp; [|discriminate]. cbn [bind] in Ex. injection Ex as <- <- <- <-.
        destruct (call_sim mth ps qs csp cs us vs rv csp1 Ec HI HR Hus Epc) as (xr & cs' & -> & HR' & Hr). cbn [bind].
        destruct (bind_rel xs qs G G1 P P1 X rv xr Eb HP Hr Ebp) as (X' & -> & HP'). cbn [bind].
        exists X', A, cs', []. split; auto. split; auto. split; auto.
      - pose proof T as T0. cbn [tstmt] in T. destruct (texp G D c) as [a|] eqn:Tc; [|discriminate].
        destruct (bitlike a) eqn:Ba; [|discriminate].
        destruct (tstmt csig D rets true false G s1) as [[G1 m1]|] eqn:T1; [|discriminate].
        destruct (tstmt csig D rets true false G s2) as [[G2 m2]|] eqn:T2; [|discriminate].
        destruct (peval match_bool eq_bool P PA c) as [p|] eqn:Ep; [|discriminate]. cbn [bind] in Ex.
        destruct (truth p) as [b|] eqn:Tp; [|discriminate]. cbn [bind] in Ex.
        destruct (xeval_sim match_bool eq_bool G D P PA X A HX HA HP HPA c a p Tc Ep) as (v & Ev & Hv).
        pose proof (rel_truth_bit _ _ _ _ Ba Hv Tp) as ->.
        assert (exists X1 A1 X2 A2 cs' r1 r2,
          xexec asmof xcall b s1 (X, A, cs) = Ok ((X1, A1, cs), r1) /\
          xexec asmof xcall (negb b) s2 (X, A, cs) = Ok ((X2, A2, cs), r2) /\ cs' = cs /\
          env_ok G1 X1 /\ env_ok G2 X2 /\ attr_ok D A1 /\ attr_ok D A2 /\ Rc csp' cs' /\
          (b = true -> outcome r G1 P' PA' X1 A1 r1 /\ Forall off r2) /\
          (b = false -> Forall off r1 /\ outcome r G2 P' PA' X2 A2 r2))
          as (X1 & A1 & X2 & A2 & cs' & r1 & r2 & E1 & E2 & -> & HX1 & HX2 & HA1 & HA2 & HRc & Ht & Hf).
        { destruct (xexec_ok true s1 false G G1 m1 b X A cs T1 HX HA HI)
            as (X1 & A1 & cs1 & r1 & E1 & HX1 & HA1 & HI1 & Hr1 & Nr1 & Mr1 & Pr1 & S1). rewrite (S1 eq_refl eq_refl) in *.
          destruct (xexec_ok true s2 false G G2 m2 (negb b) X A cs T2 HX HA HI)
            as (X2 & A2 & cs2 & r2 & E2 & HX2 & HA2 & HI2 & Hr2 & Nr2 & Mr2 & Pr2 & S2). rewrite (S2 eq_refl eq_refl) in *.
          exists X1, A1, X2, A2, cs, r1, r2. do 7 (split; [auto|]).
          destruct b; cbn [negb] in *.
          - destruct (IH1 false G G1 m1 X A cs P PA csp P' PA' csp' r T1 HX HA HI HP HPA HR Ex) as (Xa & Aa & ca & ra & Ea & HRa & Ha).
            rewrite E1 in Ea. injection Ea as <- <- <- <-. split; auto. split; [auto|discriminate].
          - destruct (IH2 false G G2 m2 X A cs P PA csp P' PA' csp' r T2 HX HA HI HP HPA HR Ex) as (Xa & Aa & ca & ra & Ea & HRa & Ha).
            rewrite E2 in Ea. injection Ea as <- <- <- <-. split; auto. split; [discriminate|auto]. }
        cbn [xexec]. rewrite Ev. cbn [bind]. rewrite x_cond_b2z. cbn [bind andb]. rewrite E1. cbn [bind]. rewrite E2. cbn [bind].
        assert (forall Gn Xn An, (r = None -> prel Gn P' Xn /\ arel D PA' An) -> outcome r Gn P' PA' Xn An (r1 ++ r2)) as K.
        { intros Gn Xn An Hn. destruct r as [ps|].
          - destruct b.
            + destruct (Ht eq_refl) as [H _]. eapply outcome_app_some; eauto.
            + destruct (Hf eq_refl) as [F H]. apply outcome_app_off; auto.
          - destruct (Hn eq_refl) as [H1 H2]. cbn [outcome]. split; auto. apply Forall_app. destruct b.
            + destruct (Ht eq_refl) as [(F & _) F2]. auto.
            + destruct (Hf eq_refl) as [F1 (F & _)]. auto. }
        destruct (returns s1) eqn:R1; [|destruct (returns s2) eqn:R2].
        + injection T as <- <-. exists X2, A2, cs, (r1 ++ r2). split; auto. split; auto. apply K. intros ->.
          destruct b; [exfalso; eapply (pexec_returns s1); eauto|]. destruct (Hf eq_refl) as [_ (_ & H)]. auto.
        + injection T as <- <-. exists X1, A1, cs, (r1 ++ r2). split; auto. split; auto. apply K. intros ->.
          destruct b; [|exfalso; eapply (pexec_returns s2); eauto]. destruct (Ht eq_refl) as [(_ & H) _]. auto.
        + destruct (gmerge G1 G2) as [G3|] eqn:Eg; [|discriminate]. injection T as <- <-.
          destruct (phi_env b G1 G2 G3 X1 X2 Eg HX1 HX2) as (X3 & -> & HX3 & M3). cbn [bind].
          destruct (phi_attr b D A1 A2 HA1 HA2) as (A3 & -> & HA3 & M4). cbn [bind].
          exists X3, A3, cs, (r1 ++ r2). split; auto. split; auto. apply K. intros ->.
          destruct (gmerge_ok _ _ _ Eg) as [Ga Gb]. destruct b.
          * destruct (Ht eq_refl) as [(_ & H1 & H2) _]. split.
            -- intros y q Eq. destruct (H1 y q Eq) as (t & u & Et & Eu & Ru). exists t, u.
               rewrite Gb, M3, Et, Eu. split; [destruct (get G2 y); auto|]. split; [destruct (get X2 y); auto|auto].
            -- intros y t Et. destruct (H2 y t Et) as (q & u & Eq & Eu & Ru). exists q, u. rewrite M4. auto.
          * destruct (Hf eq_refl) as [_ (_ & H1 & H2)]. split.
            -- intros y q Eq. destruct (H1 y q Eq) as (t & u & Et & Eu & Ru). exists t, u.
               rewrite Gb, M3, Et, Eu. split.
               { destruct (get G1 y) as [t1|] eqn:E0; cbn [merged]; auto. f_equal. eapply Ga; eauto. }
               split; [destruct (get X1 y); auto|auto].
            -- intros y t Et. destruct (H2 y t Et) as (q & u & Eq & Eu & Ru). exists q, u. rewrite M4. auto.
      - cbn [tstmt] in T. destruct (tstmt csig D rets true top G s1) as [[G1 m1]|] eqn:T1; [|discriminate].
        destruct (pexec match_bool eq_bool pcall s1 (P, PA, csp)) as [[[[P1 PA1] csp1] r1]|] eqn:Ex1; [|discriminate]. cbn [bind] in Ex.
        destruct (xexec_ok true s1 top G G1 m1 true X A cs T1 HX HA HI)
          as (Xa & Aa & csa & ra & Ea & HXa & HAa & HIa & Hra & Nra & Mra & _ & Sa).
        destruct (IH1 top G G1 m1 X A cs P PA csp P1 PA1 csp1 r1 T1 HX HA HI HP HPA HR Ex1) as (X1 & A1 & cs1 & rs1 & E1 & HR1 & O1).
        rewrite Ea in E1. injection E1 as <- <- <- <-.
        cbn [xexec]. rewrite Ea. cbn [bind]. destruct (returns s1) eqn:R1.
        + injection T as <- <-. destruct r1 as [ps|]; [|exfalso; eapply (pexec_returns s1); eauto].
          injection Ex as <- <- <- <-. exists Xa, Aa, csa, ra. auto.
        + destruct (tstmt csig D rets true (top && negb m1) G1 s2) as [[G2 m2]|] eqn:T2; [|discriminate]. injection T as <- <-.
          destruct r1 as [ps|].
          * injection Ex as <- <- <- <-.
            assert (m1 = true) as ->.
            { destruct m1; auto. rewrite (Mra eq_refl) in O1. destruct O1 as (q & ? & ? & ? & ? & E & _). destruct q; discriminate. }
            rewrite andb_false_r in T2.
            destruct (xexec_ok true s2 false G1 G2 m2 true Xa Aa csa T2 HXa HAa HIa)
              as (Xb & Ab & csb & rb & -> & HXb & HAb & HIb & Hrb & Nrb & Mrb & _ & Sb). rewrite (Sb eq_refl eq_refl) in *. cbn [bind].
            exists Xb, Ab, csa, (ra ++ rb). split; auto. split; auto. eapply outcome_app_some; eauto.
          * destruct O1 as (F1 & HP1 & HPA1).
            destruct (IH2 (top && negb m1) G1 G2 m2 Xa Aa csa P1 PA1 csp1 P' PA' csp' r T2 HXa HAa HIa HP1 HPA1 HR1 Ex)
              as (Xb & Ab & csb & rb & -> & HRb & Ob). cbn [bind].
            exists Xb, Ab, csb, (ra ++ rb). split; auto. split; auto. apply outcome_app_off; auto.
      - cbn [tstmt xexec] in *. destruct (texps G D es) as [ts|] eqn:Tes; [|discriminate].
        destruct (list_eqb ety_eqb ts (map W rets)) eqn:C; [|discriminate]. apply list_etys in C. subst ts. injection T as <- <-.
        destruct (pevals match_bool eq_bool P PA es) as [pv|] eqn:Ep; [|discriminate]. cbn [bind] in Ex. injection Ex as <- <- <- <-.
        destruct (xevals_sim match_bool eq_bool G D P PA X A HX HA HP HPA es _ pv Tes Ep) as (vs & -> & F & L1 & L2). cbn [bind].
        rewrite map_length in L1, L2. destruct (mapM_adt _ _ _ F L1 L2) as (us & Eu & Hus).
        exists X, A, cs, [(true, vs, A)]. split; auto. split; auto. exists [], vs, A, [], us. cbn [app]. auto.
    Qed.

    Lemma x_ites_ok c ts : forall a b, Forall2 xtyped ts a -> Forall2 xtyped ts b -> x_ites c a b = Ok (if c then a else b).
    Proof.
      induction ts as [|t ts IH]; intros a b Fa Fb; inversion Fa; inversion Fb; subst; cbn [x_ites].
      - destruct c; auto.
      - rewrite (x_ite_ok c t) by auto. cbn [bind]. rewrite IH by auto. cbn [bind]. destruct c; auto.
    Qed.

    Lemma pick_ok rs : rs <> [] -> Forall ret_ok rs ->
      exists vs at_, pick rs = Ok (vs, at_) /\ Forall2 xtyped (map W rets) vs /\ attr_ok D at_ /\
        forall r1 vs0 at0 r2, rs = r1 ++ (true, vs0, at0) :: r2 -> Forall off r1 ->
          vs = vs0 /\ forall r, get at_ r = get at0 r.
    Proof.
      induction rs as [|[[g us] au] rs IH]; intros NE F; [congruence|]. inversion F as [|? ? Hr Fr]; subst. destruct Hr as [Hu Hau].
      destruct rs as [|r' rs].
      - exists us, au. cbn [pick]. split; auto. split; auto. split; auto. intros r1 vs0 at0 r2 E _.
        destruct r1 as [|q r1]; cbn [app] in E.
        + injection E as -> -> -> _. auto.
        + injection E as _ E. destruct r1; discriminate.
      - destruct IH as (vs & at_ & E & Hvs & Hat & Hp); [discriminate|auto|].
        change (pick ((g, us, au) :: r' :: rs)) with
          (do '(vs', at') <- pick (r' :: rs); do ws <- x_ites g us vs'; do aw <- phi g au at'; Ok (ws, aw)).
        rewrite E. cbn [bind]. rewrite (x_ites_ok g _ us vs Hu Hvs). cbn [bind].
        destruct (phi_attr g D au at_ Hau Hat) as (aw & -> & Haw & Mw). cbn [bind].
        exists (if g then us else vs), aw. split; auto. split; [destruct g; auto|]. split; auto.
        intros r1 vs0 at0 r2 Er Fo. destruct r1 as [|q r1]; cbn [app] in Er.
        + injection Er as -> -> -> _. split; auto.
        + injection Er as <- Er. inversion Fo as [|? ? Oq Fo']; subst. unfold off in Oq. cbn [fst] in Oq. subst g.
          destruct (Hp _ _ _ _ Er Fo') as [-> Hg]. split; auto. intros r. rewrite Mw. apply Hg.
    Qed.
  End Stmt.
End Prog.
