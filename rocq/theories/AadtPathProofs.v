(** Proofs about field access along paths. *)
From Coq Require Import String ZArith List Bool Lia.
From Verif Require Import Base BaseLemmas AsmModel AsmSpec AsmValid AsmEnum AsmBuild AsmProofs AsmSub.
From Verif Require Import AadtModel AadtProofs Asm2Model Asm2Proofs AadtPathModel.
Import ListNotations.
Open Scope Z_scope.

Lemma mk_class t a z : class_of (mk t a z) = aadt_class t.
Proof. destruct t; reflexivity. Qed.

Lemma mk_bits R t a z : asm_rel R t a -> 0 <= z < 2 ^ a_width a -> bits_of (mk t a z) = z.
Proof.
  intros A Hz. destruct t; try reflexivity. inversion A; subst. cbn in *. assert (z = 0 \/ z = 1) as [->| ->] by lia; reflexivity.
Qed.

Lemma wrap_field_mk R t f z : wf_ty t -> asm_rel R t f -> 0 <= z < 2 ^ a_width f ->
  wrap_field (aadt_class t) f (a_width f) z = Ok (mk t f z).
Proof.
  intros W A Hz. unfold mk. destruct t; cbn [aadt_class wrap_field].
  - inversion A; subst. reflexivity.
  - inversion A; subst. cbn [a_width] in Hz. do 2 f_equal. unfold wrap. apply Z.mod_small; auto.
  - inversion A; subst. cbn [a_width] in Hz. do 2 f_equal. unfold wrap. apply Z.mod_small; auto.
  - now rewrite Z.eqb_refl.
  - now rewrite Z.eqb_refl.
  - now rewrite Z.eqb_refl.
Qed.

Lemma slice_in z lo w : 0 <= lo -> 0 <= w -> 0 <= slice z lo (lo + w) < 2 ^ w.
Proof.
  intros H H'. pose proof (slice_range z lo (lo + w) ltac:(lia)) as X. replace (lo + w - lo) with w in X by lia. exact X.
Qed.

(** One step of the assembler, for a key that is there and one that is not. *)
Lemma step_in R t k t' a : sub_ty t [k] t' -> wf_ty t -> asm_rel R t a ->
  exists lo hi f, sub_step a k = Some ((lo, hi), f) /\ sub_path a 0 [k] = Ok (lo, f) /\ asm_rel R t' f /\ wf_ty t' /\
    0 <= lo /\ 0 <= a_width f /\ lo + a_width f <= a_width a.
Proof.
  intros S W A. destruct (sub_ty_spec R t [k] t' S W a A 0) as (o & f & E & Af & Wf & O & L).
  cbn [sub_path] in E. destruct (sub_step a k) as [[[lo hi] f0]|] eqn:Es; [|discriminate E].
  injection E as E1 ->. assert (lo = o) as -> by lia. exists o, hi, f.
  destruct (asm_rel_width R t' Wf f Af) as [_ P].
  split; auto. split; [|auto 6]. cbn [sub_path]. rewrite Es. f_equal.
Qed.

Lemma tup_find_none R b fs w fs' k : tup_rel R b fs w fs' -> (forall t, ~ In (k, t) fs) -> tup_find fs' k = None.
Proof.
  induction 1 as [b|b k' t r w a rest Ha Tr IH]; intros N; [reflexivity|]. cbn [tup_find].
  destruct (key_eqb k k') eqn:E.
  - apply key_eqb_eq in E as ->. destruct (N t). left; auto.
  - apply IH. intros u I. apply (N u). right; auto.
Qed.
Lemma sum_find_none R tagw tag pw l fs w k : sum_rel R tagw tag pw l fs w -> (forall t, ~ In (k, t) l) -> sum_find fs k = None.
Proof.
  induction 1 as [|tagw tag pw k' t r a rest w Ha Sr IH]; intros N; [reflexivity|]. cbn [sum_find].
  destruct (key_eqb k k') eqn:E.
  - apply key_eqb_eq in E as ->. destruct (N t). left; auto.
  - apply IH. intros u I. apply (N u). right; auto.
Qed.
Lemma step_out_prod R c fs a k : asm_rel R (TProd c fs) a -> (forall t, ~ In (k, t) fs) -> sub_step a k = None.
Proof. intros A N. inversion A; subst. rewrite sub_step_tuple. eapply tup_find_none; eauto. Qed.
Lemma step_out_sum R g c fs a k : asm_rel R (TSum g c fs) a -> (forall t, ~ In (k, t) fs) -> sub_step a k = None.
Proof.
  intros A N. inversion A; subst. cbn [sub_step]. match goal with S : sum_rel _ _ _ _ _ _ _ |- _ => rewrite (sum_find_none _ _ _ _ _ _ _ k S); auto end.
  intros t I. apply (N t). eapply isort_In1; eauto.
Qed.

Lemma dget_none fs k : dget key_eqb fs k = None -> forall t : ty, ~ In (k, t) fs.
Proof.
  induction fs as [|[k' t'] fs IH]; intros E t I; [destruct I|]. cbn [dget] in E.
  destruct (key_eqb k k') eqn:Ek; [discriminate E|]. destruct I as [[= -> ->]|I]; [|eapply IH; eauto].
  rewrite (proj2 (key_eqb_eq k k) eq_refl) in Ek. discriminate Ek.
Qed.
Lemma dget_some fs k t : dget key_eqb fs k = Some t -> In (k, t : ty) fs.
Proof. apply (dget_In key_eqb key_eqb_eq). Qed.

Section Access.
  Variable nm : emem -> string.
  Notation class_get := (class_get nm).
  Notation class_path := (class_path nm).
  Notation inst_get := (inst_get nm).
  Notation inst_path := (inst_path nm).

  Lemma class_in h t k t' : sub_ty t [k] t' -> wf_ty t -> class_get h (aadt_class t) k = Ok (aadt_class t').
  Proof.
    intros S W. inversion S as [|c fs ? p t1 ? I S1|g c fs ? p t1 ? I S1]; subst; inversion S1; subst; inversion W; subst;
      cbn [aadt_class AadtPathModel.class_get]; rewrite (dget_key_In _ _ _ ltac:(eassumption) I); reflexivity.
  Qed.
  Lemma class_in_adt h t k t' : sub_ty t [k] t' -> wf_ty t -> class_get h (KAdt t) k = Ok (aadt_class t').
  Proof. intros S W. rewrite <- (class_in h t k t' S W). inversion S; subst; reflexivity. Qed.

  (** The [match] flag of a member in a word. *)
  Definition flag (t : ty) (z : Z) (k : key) (m : option bool) : Prop :=
    match t with
    | TSum g c fs => exists pre u post, fs = pre ++ (k, u) :: post /\
        m = Some (slice z 0 (bits_for (Z.of_nat (length fs) - 1)) =? rank_at pre k post)
    | _ => m = None
    end.

  Lemma inst_in R h t k t' a z : good_request R -> sub_ty t [k] t' -> wf_ty t -> asm_rel R t a ->
    exists lo f m, sub_path a 0 [k] = Ok (lo, f) /\ asm_rel R t' f /\ wf_ty t' /\ 0 <= lo /\ 0 <= a_width f /\ lo + a_width f <= a_width a /\
      inst_get h (mk t a z) k = Ok (mk t' f (slice z lo (lo + a_width f)), m) /\ flag t z k m.
  Proof.
    intros GR S W A. destruct (step_in R t k t' a S W A) as (lo & hi & f & Es & Ep & Af & Wf & O & P & L).
    pose proof (wrap_field_mk R t' f (slice z lo (lo + a_width f)) Wf Af (slice_in z lo _ O P)) as Ew.
    pose proof (class_in_adt h t k t' S W) as Ec.
    inversion S as [|c fs ? p t1 ? I S1|g c fs ? p t1 ? I S1]; subst; inversion S1; subst.
    - exists lo, f, None. do 6 (split; auto). split; [|reflexivity].
      unfold mk at 1. cbn [aadt_class AadtPathModel.inst_get sub_get bind]. rewrite Es, Ec. cbn [bind]. rewrite Ew. reflexivity.
    - apply in_split in I as (pre & post & Hfs).
      destruct (tags_spec R g c fs a pre k t' post GR W A Hfs) as (T & _ & _).
      pose proof (rank_lt _ _ _ _ _ Hfs) as Rl.
      exists lo, f, (Some (slice z 0 (bits_for (Z.of_nat (length fs) - 1)) =? rank_at pre k post)). do 6 (split; auto). split.
      + unfold mk at 1. cbn [aadt_class AadtPathModel.inst_get sub_get bind]. rewrite Es, Ec. cbn [bind]. rewrite Ew, T. cbn [bind].
        inversion A; subst. unfold sub_tag_idx. cbn [sub_path bind]. rewrite (bits_for_bit_length) by lia. reflexivity.
      + exists pre, t', post. auto.
  Qed.

  (** Flags along a path: those of the Sums on the way. *)
  Inductive flags (R : list Z -> Z -> Prop) : ty -> asm -> Z -> list key -> list bool -> Prop :=
  | fl_nil t a z : flags R t a z [] []
  | fl_cons t a z k p t' lo f m ms : sub_ty t [k] t' -> sub_path a 0 [k] = Ok (lo, f) -> flag t z k m ->
      flags R t' f (slice z lo (lo + a_width f)) p ms ->
      flags R t a z (k :: p) (match m with Some b => b :: ms | None => ms end).

  Lemma sub_path_off a : forall p off o f, sub_path a off p = Ok (o, f) -> forall off', sub_path a off' p = Ok (off' + (o - off), f).
  Proof.
    intros p. revert a. induction p as [|k p IH]; intros a off o f E off'; cbn [sub_path] in *.
    - injection E as -> ->. f_equal. f_equal. lia.
    - destruct (sub_step a k) as [[[lo hi] g]|]; [|discriminate E]. rewrite (IH _ _ _ _ E (off' + lo)). f_equal. f_equal. lia.
  Qed.

  Lemma sub_ty_cons t k p u : sub_ty t (k :: p) u -> exists t', sub_ty t [k] t' /\ sub_ty t' p u.
  Proof.
    intros S. inversion S; subst.
    - eexists. split; [eapply st_prod; [eassumption|constructor]|auto].
    - eexists. split; [eapply st_sum; [eassumption|constructor]|auto].
  Qed.

  Lemma path_in R p : good_request R -> forall t u a z, sub_ty t (map snd p) u -> wf_ty t -> asm_rel R t a -> 0 <= z < 2 ^ a_width a ->
    class_path (aadt_class t) p = Ok (aadt_class u) /\
    exists lo f ms, sub_path a 0 (map snd p) = Ok (lo, f) /\ asm_rel R u f /\ wf_ty u /\ 0 <= lo /\ 0 <= a_width f /\ lo + a_width f <= a_width a /\
      inst_path (mk t a z) p = Ok (mk u f (slice z lo (lo + a_width f)), ms) /\ flags R t a z (map snd p) ms.
  Proof.
    intros GR. induction p as [|[h k] p IH]; intros t u a z S W A Hz.
    - inversion S; subst. split; [reflexivity|]. exists 0, a, []. destruct (asm_rel_width R u W a A) as [_ P].
      split; auto. split; auto. split; auto. split; [lia|]. split; auto. split; [lia|]. split; [|constructor].
      cbn [AadtPathModel.inst_path]. rewrite Z.add_0_l, slice_full by auto. reflexivity.
    - cbn [map snd] in S. destruct (sub_ty_cons _ _ _ _ S) as (t' & S1 & S2).
      destruct (inst_in R h t k t' a z GR S1 W A) as (lo & f & m & Ep & Af & Wf & O & P & L & Ei & Fl).
      destruct (IH t' u f (slice z lo (lo + a_width f)) S2 Wf Af (slice_in z lo _ O P)) as (Ec & lo2 & f2 & ms & Ep2 & Af2 & Wf2 & O2 & P2 & L2 & Ei2 & Fl2).
      split.
      { cbn [AadtPathModel.class_path]. rewrite (class_in h t k t' S1 W). cbn [bind]. exact Ec. }
      exists (lo + lo2), f2, (match m with Some b => b :: ms | None => ms end).
      split.
      { cbn [map snd sub_path] in *. destruct (sub_step a k) as [[[l0 h0] g]|]; [|discriminate Ep].
        injection Ep as El ->. rewrite (sub_path_off _ _ _ _ _ Ep2 (0 + l0)). f_equal. f_equal. lia. }
      split; auto. split; auto. split; [lia|]. split; [lia|]. split; [lia|]. split.
      { cbn [AadtPathModel.inst_path]. rewrite Ei. cbn [bind]. rewrite Ei2. cbn [bind].
        rewrite slice_slice by lia. rewrite Z.add_assoc. reflexivity. }
      cbn [map snd]. eapply fl_cons; eauto.
  Qed.

  (** Outside the type both kinds of access fail alike. *)
  Lemma get_out R h t a z k : asm_rel R t a -> (forall t', ~ sub_ty t [k] t') ->
    exists e, class_get h (aadt_class t) k = Err e /\ inst_get h (mk t a z) k = Err e /\
      e = match t with TEnum _ ms => if is_member nm ms k then TypeError else missing h | _ => missing h end.
  Proof.
    intros A N. destruct t as [| | |c ms|c fs|g c fs]; unfold mk; cbn [aadt_class AadtPathModel.class_get AadtPathModel.inst_get sub_get bind].
    1-3: eexists; auto.
    - destruct (is_member nm ms k); cbn [bind]; eexists; auto.
    - destruct (dget key_eqb fs k) as [t'|] eqn:E.
      + destruct (N t'). eapply st_prod; [apply dget_some; eassumption|constructor].
      + rewrite (step_out_prod R c fs a k A (dget_none _ _ E)). eexists; auto.
    - destruct (dget key_eqb fs k) as [t'|] eqn:E.
      + destruct (N t'). eapply st_sum; [apply dget_some; eassumption|constructor].
      + rewrite (step_out_sum R g c fs a k A (dget_none _ _ E)). eexists; auto.
  Qed.

  Lemma sub_ty_dec t k : (exists t', sub_ty t [k] t') \/ (forall t', ~ sub_ty t [k] t').
  Proof.
    destruct t as [| | |c ms|c fs|g c fs].
    1-4: right; intros t' S; inversion S.
    - destruct (dget key_eqb fs k) as [t'|] eqn:E.
      + left. exists t'. eapply st_prod; [apply dget_some; eassumption|constructor].
      + right. intros t' S. inversion S; subst. eapply dget_none; eauto.
    - destruct (dget key_eqb fs k) as [t'|] eqn:E.
      + left. exists t'. eapply st_sum; [apply dget_some; eassumption|constructor].
      + right. intros t' S. inversion S; subst. eapply dget_none; eauto.
  Qed.

  Lemma sub_ty_one_fun t k t1 t2 : wf_ty t -> sub_ty t [k] t1 -> sub_ty t [k] t2 -> t1 = t2.
  Proof.
    intros W S1 S2. inversion S1 as [|? ? ? ? x1 ? I1 X1|? ? ? ? ? x1 ? I1 X1]; subst; inversion S2 as [|? ? ? ? x2 ? I2 X2|? ? ? ? ? x2 ? I2 X2]; subst;
      inversion X1; inversion X2; subst; inversion W; subst; eapply nodup_key_fun; eauto.
  Qed.
  Lemma sub_ty_one_wf t k t' : wf_ty t -> sub_ty t [k] t' -> wf_ty t'.
  Proof.
    intros W S. inversion S as [|? fs ? ? x1 ? I1 X1|? ? fs ? ? x1 ? I1 X1]; subst; inversion X1; subst; inversion W as [| | | |? ? ? F|? ? ? ? ? F]; subst;
      rewrite Forall_forall in F; apply (F _ I1).
  Qed.
  Lemma sub_ty_path_dec q : forall t, wf_ty t -> (exists u, sub_ty t q u) \/ (forall u, ~ sub_ty t q u).
  Proof.
    induction q as [|k q IH]; intros t W; [left; exists t; constructor|].
    destruct (sub_ty_dec t k) as [[t' S1]|N].
    - destruct (IH t' (sub_ty_one_wf _ _ _ W S1)) as [[u S2]|N2].
      + left. exists u. inversion S1; subst; match goal with X : sub_ty _ [] _ |- _ => inversion X; subst end; econstructor; eauto.
      + right. intros u S. destruct (sub_ty_cons _ _ _ _ S) as (t2 & S2 & S3). rewrite (sub_ty_one_fun _ _ _ _ W S2 S1) in S3. eapply N2; eauto.
    - right. intros u S. destruct (sub_ty_cons _ _ _ _ S) as (t' & S1 & _). eapply N; eauto.
  Qed.

  Lemma path_out R p : good_request R -> forall t a z, wf_ty t -> asm_rel R t a -> 0 <= z < 2 ^ a_width a ->
    (forall u, ~ sub_ty t (map snd p) u) ->
    exists q h k r u e, p = q ++ (h, k) :: r /\ sub_ty t (map snd q) u /\ (forall u', ~ sub_ty u [k] u') /\
      e = match u with TEnum _ ms => if is_member nm ms k then TypeError else missing h | _ => missing h end /\
      class_path (aadt_class t) p = Err e /\ inst_path (mk t a z) p = Err e.
  Proof.
    intros GR. induction p as [|[h k] p IH]; intros t a z W A Hz N.
    - destruct (N t). constructor.
    - destruct (sub_ty_dec t k) as [[t' S1]|N1].
      + destruct (inst_in R h t k t' a z GR S1 W A) as (lo & f & m & Ep & Af & Wf & O & P & L & Ei & Fl).
        destruct (IH t' f (slice z lo (lo + a_width f)) Wf Af (slice_in z lo _ O P)) as (q & h' & k' & r & u & e & -> & Sq & Nu & Ee & Ec & Eq).
        { intros u S2. apply (N u). cbn [map snd]. inversion S1; subst; match goal with X : sub_ty _ [] _ |- _ => inversion X; subst end.
          - eapply st_prod; eauto. - eapply st_sum; eauto. }
        exists ((h, k) :: q), h', k', r, u, e. split; auto. split.
        { cbn [map snd]. inversion S1; subst; match goal with X : sub_ty _ [] _ |- _ => inversion X; subst end.
          - eapply st_prod; eauto. - eapply st_sum; eauto. }
        split; auto. split; auto. cbn [AadtPathModel.class_path AadtPathModel.inst_path].
        rewrite (class_in h t k t' S1 W), Ei. cbn [bind]. rewrite Ec, Eq. auto.
      + destruct (get_out R h t a z k A N1) as (e & Ec & Ei & Ee).
        exists [], h, k, p, t, e. split; auto. split; [constructor|]. split; auto. split; auto.
        cbn [AadtPathModel.class_path AadtPathModel.inst_path]. rewrite Ec, Ei. auto.
  Qed.

  (** All flags are true exactly along paths into the value. *)
  Lemma sub_val_cons t v k p u x t' : wf_ty t -> sub_ty t [k] t' -> sub_val t v (k :: p) u x -> exists v', sub_val t v [k] t' v' /\ sub_val t' v' p u x.
  Proof.
    intros W S V. inversion V as [|c fs vs ? ? i t1 v1 ? ? Ei Ev V1|g c fs ? ? t1 v1 ? ? I V1]; subst;
      inversion S as [|? ? ? ? t2 ? I2 S2|? ? ? ? ? t2 ? I2 S2]; subst; inversion S2; subst.
    - assert (t1 = t') as ->. { inversion W; subst. eapply nodup_key_fun; eauto. eapply nth_error_In; eauto. }
      exists v1. split; auto. eapply sv_prod; eauto. constructor.
    - assert (t1 = t') as ->. { inversion W; subst. eapply nodup_key_fun; eauto. }
      exists v1. split; auto. eapply sv_sum; eauto. constructor.
  Qed.

  Lemma sub_val_one t v k t' v' p u x : sub_val t v [k] t' v' -> sub_val t' v' p u x -> sub_val t v (k :: p) u x.
  Proof.
    intros V Vx. inversion V as [|c fs vs k1 p1 i t1 v1 t2 v2 Ei Ev V1|g c fs k1 p1 t1 v1 t2 v2 I V1]; clear V; subst.
    - assert (t1 = t' /\ v1 = v') as [-> ->] by (inversion V1; auto). eapply sv_prod; eauto.
    - assert (t1 = t' /\ v1 = v') as [-> ->] by (inversion V1; auto). eapply sv_sum; eauto.
  Qed.

  Lemma rank_key fs pre k u post pre' k' u' post' : no_dup_keys fs -> fs = pre ++ (k, u) :: post -> fs = pre' ++ (k', u') :: post' ->
    rank_at pre k post = rank_at pre' k' post' -> k = k'.
  Proof.
    intros ND E E' Er. destruct (a2_tag_spec fs pre k u post ND E) as (_ & _ & _ & _ & N).
    destruct (a2_tag_spec fs pre' k' u' post' ND E') as (_ & _ & _ & _ & N'). rewrite Er in N. congruence.
  Qed.

  Lemma enc_fields_at J fs : forall y vs, enc_fields J fs y vs -> forall k t, In (k, t) fs ->
    exists i v, nth_error fs i = Some (k, t) /\ nth_error vs i = Some v.
  Proof.
    induction fs as [|[k0 t0] fs IH]; intros y vs E k t I; [destruct I|]. inversion E; subst. destruct I as [[= -> ->]|I].
    - exists O. eexists. split; reflexivity.
    - destruct (IH _ _ ltac:(eassumption) k t I) as (i & v' & E1 & E2). exists (S i), v'. auto.
  Qed.

  Lemma flag_step R J t a z v k t' lo f m : wf_ty t -> asm_rel R t a -> enc J t z v -> sub_ty t [k] t' -> sub_path a 0 [k] = Ok (lo, f) -> flag t z k m ->
    (m <> Some false <-> exists v', sub_val t v [k] t' v') /\
    (m <> Some false -> exists v', sub_val t v [k] t' v' /\ enc J t' (slice z lo (lo + a_width f)) v').
  Proof.
    intros W A E S Ep F.
    assert (forall v', sub_val t v [k] t' v' -> enc J t' (slice z lo (lo + a_width f)) v') as En.
    { intros v' V. destruct (sub_spec R J t v [k] t' v' V W a z A E 0) as (o & f' & Ep' & _ & _ & _ & _ & En).
      rewrite Ep in Ep'. injection Ep' as -> ->. exact En. }
    assert (m <> Some false <-> exists v', sub_val t v [k] t' v') as Iff.
    { inversion S as [|c fs ? p t1 ? I S1|g c fs ? p t1 ? I S1]; subst; inversion S1; subst; cbn [flag] in F.
      - subst m. split; [|intros _; discriminate]. intros _. inversion E as [| | | |? ? ? vs F|]; subst.
        destruct (enc_fields_at _ _ _ _ F k t' I) as (i & v' & E1 & E2). exists v'. eapply sv_prod; eauto. constructor.
      - destruct F as (pre & u & post & Hfs & ->).
        inversion E as [| | | | |? ? ? pre0 k0 t0 post0 W0 w x junk v0 Hfs0 SW Sw Ex Hj HJ HW]. subst g0 c0 fs0.
        match goal with X : _ = z |- _ => rename X into Hz end.
        assert (no_dup_keys fs) as ND by (inversion W; auto).
        pose proof (rank_lt _ _ _ _ _ Hfs0) as Rl.
        rewrite slice_low; [|apply bits_for_nonneg|split; [lia|apply lt_pow2_bits_for; lia]].
        split.
        + intros Nf. assert (rank_at pre0 k0 post0 = rank_at pre k post) as Er.
          { destruct (rank_at pre0 k0 post0 =? rank_at pre k post) eqn:Eb; [apply Z.eqb_eq; auto|destruct (Nf eq_refl)]. }
          assert (k0 = k) as -> by (eapply rank_key; eauto).
          assert (t0 = t') as ->. { eapply nodup_key_fun; eauto. rewrite Hfs0. apply in_app_iff. right; left; auto. }
          exists v0. eapply sv_sum; eauto. constructor.
        + intros (v' & V). assert (k0 = k) as -> by (inversion V; auto).
          assert (rank_at pre0 k post0 = rank_at pre k post) as Er.
          { destruct (a2_tag_spec _ pre k u post ND Hfs) as (T1 & _). destruct (a2_tag_spec _ pre0 k t0 post0 ND Hfs0) as (T2 & _). congruence. }
          rewrite Er, Z.eqb_refl. discriminate. }
    split; auto. intros Nf. apply Iff in Nf as (v' & V). exists v'. auto.
  Qed.

  Lemma flags_value R J p : good_request R -> forall t u a z v ms lo f, sub_ty t p u -> wf_ty t -> asm_rel R t a -> enc J t z v -> flags R t a z p ms ->
    sub_path a 0 p = Ok (lo, f) -> (Forall (eq true) ms <-> exists x, sub_val t v p u x) /\
    (forall x, sub_val t v p u x -> enc J u (slice z lo (lo + a_width f)) x).
  Proof.
    intros GR. induction p as [|k p IH]; intros t u a z v ms lo f S W A E F Ep.
    - inversion F; subst. inversion S; subst. split.
      + split; [intros _; exists v; constructor|constructor].
      + intros x V. destruct (sub_spec R J _ _ _ _ _ V W a z A E 0) as (o & f' & Ep' & _ & _ & _ & _ & En).
        rewrite Ep in Ep'. injection Ep' as -> ->. exact En.
    - split.
      2:{ intros x V. destruct (sub_spec R J _ _ _ _ _ V W a z A E 0) as (o & f' & Ep' & _ & _ & _ & _ & En).
          rewrite Ep in Ep'. injection Ep' as -> ->. exact En. }
      inversion F as [|? ? ? ? ? t' lo1 f1 m ms1 S1 Ep1 Fl F1]; subst.
      destruct (step_in R t k t' a S1 W A) as (l0 & h0 & f0 & Es & Ep0 & Af & Wf & O & P & L).
      rewrite Ep1 in Ep0. injection Ep0 as <- <-.
      assert (sub_ty t' p u) as S2.
      { destruct (sub_ty_cons _ _ _ _ S) as (t2 & S2 & S3). assert (t2 = t') as <-; auto.
        clear - S1 S2 W. inversion S1 as [|? ? ? ? x1 ? I1 X1|? ? ? ? ? x1 ? I1 X1]; subst; inversion S2 as [|? ? ? ? x2 ? I2 X2|? ? ? ? ? x2 ? I2 X2]; subst;
          inversion X1; inversion X2; subst; inversion W; subst; eapply nodup_key_fun; eauto. }
      destruct (flag_step R J t a z v k t' lo1 f1 m W A E S1 Ep1 Fl) as [Iff Step].
      assert (Forall (eq true) (match m with Some b => b :: ms1 | None => ms1 end) <-> m <> Some false /\ Forall (eq true) ms1) as Split.
      { destruct m as [[|]|].
        - split; [intros X; inversion X; subst; split; [discriminate|auto]|intros [_ X]; constructor; auto].
        - split; [intros X; inversion X as [|? ? X1 X2]; discriminate X1|intros [X _]; destruct X; reflexivity].
        - split; [intros X; split; [discriminate|auto]|tauto]. }
      rewrite Split.
      assert (exists lo2, sub_path f1 0 p = Ok (lo2, f)) as (lo2 & Ep2).
      { cbn [sub_path] in Ep, Ep1. destruct (sub_step a k) as [[[l0 hh] g]|]; [|discriminate Ep].
        injection Ep1 as _ ->. rewrite (sub_path_off _ _ _ _ _ Ep 0). eexists; reflexivity. }
      split.
      + intros [Nf Fo]. destruct (Step Nf) as (v' & V & En).
        destruct (IH t' u f1 _ v' ms1 lo2 f S2 Wf Af En F1 Ep2) as [I2 _]. destruct (proj1 I2 Fo) as [x Vx]. exists x.
        eapply sub_val_one; eauto.
      + intros (x & V). destruct (sub_val_cons _ _ _ _ _ _ _ W S1 V) as (v' & V1 & V2).
        assert (m <> Some false) as Nf by (apply Iff; eauto). split; auto.
        destruct (Step Nf) as (v2 & V3 & En).
        assert (v2 = v') as ->.
        { clear - V1 V3 W S1. inversion V1 as [|c fs vs ? ? i t1 v1 ? ? Ei Ev X1|g c fs ? ? t1 v1 ? ? I X1]; subst; inversion X1; subst;
            inversion V3 as [|? ? ? ? ? i2 ? ? ? ? Ei2 Ev2 X2|? ? ? ? ? ? ? ? ? I2 X2]; subst; inversion X2; subst; auto.
          assert (i2 = i) as ->; [|congruence]. inversion W; subst.
          apply (proj1 (NoDup_nth_error (map fst fs))); [assumption| |].
          - apply nth_error_Some. rewrite nth_error_map, Ei2. discriminate.
          - rewrite !nth_error_map, Ei, Ei2. reflexivity. }
        destruct (IH t' u f1 _ v' ms1 lo2 f S2 Wf Af En F1 Ep2) as [I2 _]. apply I2. eauto.
  Qed.

  (** assembler2 reads the same. *)
  Lemma a2_width_asm R t a : wf_ty t -> asm_rel R t a -> a2_width t = a_width a.
  Proof. intros W A. eapply swidth_fun; [apply a2_width_spec; auto|apply (asm_rel_width R t W a A)]. Qed.

  Lemma a2_layout_find R b fs w fs' k : tup_rel R b fs w fs' -> Forall (fun f => wf_ty (snd f)) fs ->
    dget key_eqb (a2_layout b fs) k = option_map fst (tup_find fs' k).
  Proof.
    induction 1 as [b|b k' t r w a rest Ha Tr IH]; intros WF; [reflexivity|]. inversion WF as [|? ? W1 W2]; subst. cbn [snd] in W1.
    cbn [a2_layout dget tup_find]. rewrite (a2_width_asm R t a W1 Ha). destruct (key_eqb k k'); [reflexivity|auto].
  Qed.

  Lemma inst2_in R h t k t' a z lo f m : good_request R -> sub_ty t [k] t' -> wf_ty t -> asm_rel R t a -> sub_path a 0 [k] = Ok (lo, f) -> flag t z k m ->
    inst2_get nm h (aadt_class t) z k = Ok (aadt_class t', slice z lo (lo + a_width f), m).
  Proof.
    intros GR S W A Ep F. pose proof (class_in_adt h t k t' S W) as Ec.
    destruct (step_in R t k t' a S W A) as (l0 & h0 & f0 & Es & Ep0 & Af & Wf & O & P & L).
    rewrite Ep in Ep0. injection Ep0 as <- <-.
    inversion S as [|c fs ? p t1 ? I S1|g c fs ? p t1 ? I S1]; subst; inversion S1; subst; cbn [flag] in F.
    - subst m. cbn [aadt_class inst2_get a2_extract]. inversion A as [| | | |? ? w fs' T|]; subst.
      assert (Forall (fun f => wf_ty (snd f)) fs) as WF by (inversion W; auto).
      assert (NoDup (map fst fs)) as ND by (inversion W; auto).
      rewrite (a2_layout_find R 0 fs w fs' k T WF). rewrite sub_step_tuple in Es. rewrite Es. cbn [option_map fst bind].
      rewrite Ec. cbn [bind]. apply In_nth_error in I as (i & Ei).
      destruct (tup_find_layout _ _ _ _ _ T ND WF i k t' Ei) as (ws & a' & _ & Etf & _). rewrite Es in Etf. injection Etf as -> -> ->. reflexivity.
    - destruct F as (pre & u & post & Hfs & ->).
      assert (no_dup_keys fs) as ND by (inversion W; auto).
      cbn [aadt_class inst2_get a2_extract]. rewrite (dget_key_In fs k t' ND I). cbn [bind]. rewrite Ec. cbn [bind a2_match].
      destruct (a2_tag_spec fs pre k u post ND Hfs) as (T1 & T2 & T3 & T4 & _). rewrite T1, T4. cbn [bind].
      rewrite T3, (a2_width_asm R t' f Wf Af).
      assert (lo = bits_for (Z.of_nat (length fs) - 1)) as ->; [|reflexivity].
      rewrite <- T3. inversion A as [| | | | |? ? ? sorted tagw pw fs' gs tv E1 E2 Sm G1 G2 Vt]; subst sorted tagw; subst a.
      cbn [sub_path sub_step] in Ep. destruct (sum_find fs' k) as [[[tg [l1 h1]] f1]|] eqn:Ef; [|discriminate Ep].
      injection Ep as El _.
      pose proof (rank_index pre k u post) as Ri. rewrite <- Hfs in Ri.
      destruct (sum_find_spec _ _ _ _ _ _ _ _ _ _ (sorted_keys_NoDup fs ND) Sm Ri) as (a1 & Ef1 & _).
      rewrite Ef in Ef1. unfold a2_tagw. congruence.
  Qed.

  Lemma path2_in R p : good_request R -> forall t u a z lo f ms, sub_ty t (map snd p) u -> wf_ty t -> asm_rel R t a -> 0 <= z < 2 ^ a_width a ->
    sub_path a 0 (map snd p) = Ok (lo, f) -> flags R t a z (map snd p) ms ->
    inst2_path nm (aadt_class t) z p = Ok (aadt_class u, slice z lo (lo + a_width f), ms).
  Proof.
    intros GR. induction p as [|[h k] p IH]; intros t u a z lo f ms S W A Hz Ep F.
    - inversion S; subst. inversion F; subst. cbn in Ep. injection Ep as <- <-. cbn [inst2_path].
      rewrite Z.add_0_l, slice_full; auto. apply (asm_rel_width R u W a A).
    - cbn [map snd] in *. inversion F as [|? ? ? ? ? t' lo1 f1 m ms1 S1 Ep1 Fl F1]; subst.
      destruct (step_in R t k t' a S1 W A) as (l0 & h0 & f0 & Es & Ep0 & Af & Wf & O & P & L).
      rewrite Ep1 in Ep0. injection Ep0 as <- <-.
      assert (sub_ty t' (map snd p) u) as S2.
      { destruct (sub_ty_cons _ _ _ _ S) as (t2 & S2 & S3). assert (t2 = t') as <-; auto.
        clear - S1 S2 W. inversion S1 as [|? ? ? ? x1 ? I1 X1|? ? ? ? ? x1 ? I1 X1]; subst; inversion S2 as [|? ? ? ? x2 ? I2 X2|? ? ? ? ? x2 ? I2 X2]; subst;
          inversion X1; inversion X2; subst; inversion W; subst; eapply nodup_key_fun; eauto. }
      destruct (path_in R p GR t' u f1 (slice z lo1 (lo1 + a_width f1)) S2 Wf Af (slice_in z lo1 _ O P)) as (_ & lo2 & f2 & ms2 & Ep2 & Af2 & Wf2 & O2 & P2 & L2 & _).
      cbn [inst2_path]. rewrite (inst2_in R h t k t' a z lo1 f1 m GR S1 W A Ep1 Fl). cbn [bind].
      rewrite (IH t' u f1 _ lo2 f2 ms1 S2 Wf Af (slice_in z lo1 _ O P) Ep2 F1). cbn [bind].
      rewrite slice_slice by lia.
      cbn [sub_path] in Ep, Ep1. rewrite Es in Ep.
      rewrite (sub_path_off _ _ _ _ _ Ep2 (0 + lo1)) in Ep. injection Ep as <- <-.
      do 3 f_equal. f_equal; lia.
  Qed.
End Access.
