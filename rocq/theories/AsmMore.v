(** Further lemmas: totality with negative fields, tiling, permutations. *)
From Coq Require Import String ZArith List Bool Lia Permutation Sorted.
From Verif Require Import Base BaseLemmas AsmModel AsmSpec AsmValid AsmEnum AsmBuild AsmProofs AsmSub.
Import ListNotations.
Open Scope Z_scope.

(** ** Bounds of the integer opcode, also for negative fields *)
Lemma land_le_l a b : 0 <= a -> Z.land a b <= a.
Proof.
  intros H. enough (0 <= a - Z.land a b) by lia.
  rewrite Z.sub_nocarry_ldiff.
  - apply Z.ldiff_nonneg. auto.
  - apply Z.bits_inj'. intros n _. rewrite Z.ldiff_spec, Z.land_spec, Z.bits_0.
    destruct (Z.testbit a n), (Z.testbit b n); auto.
Qed.

Lemma lor_bounds w a b : 0 <= w -> - 2 ^ w < a < 2 ^ w -> - 2 ^ w < b < 2 ^ w ->
  - 2 ^ w < Z.lor a b < 2 ^ w.
Proof.
  intros Hw Ha Hb. pose proof (pow2_pos w Hw).
  destruct (Z_lt_ge_dec a 0) as [Na|Pa]; [|destruct (Z_lt_ge_dec b 0) as [Nb|Pb]].
  - assert (0 <= Z.land (Z.lnot a) (Z.lnot b) <= Z.lnot a) as L.
    { pose proof (Z.lnot_nonneg a) as LN. split; [apply Z.land_nonneg; left; lia|].
      apply land_le_l. lia. }
    rewrite <- Z.lnot_lor in L. pose proof (Z.lnot_involutive (Z.lor a b)) as I.
    unfold Z.lnot in *. lia.
  - assert (0 <= Z.land (Z.lnot a) (Z.lnot b) <= Z.lnot b) as L.
    { rewrite Z.land_comm. pose proof (Z.lnot_nonneg b) as LN. split; [apply Z.land_nonneg; left; lia|].
      apply land_le_l. lia. }
    rewrite <- Z.lnot_lor in L. pose proof (Z.lnot_involutive (Z.lor a b)) as I.
    unfold Z.lnot in *. lia.
  - assert (0 <= Z.lor a b) by (apply Z.lor_nonneg; lia). split; [lia|].
    destruct (Z.eq_dec (Z.lor a b) 0) as [->|N]; [lia|].
    apply Z.log2_lt_pow2; [lia|]. rewrite Z.log2_lor by lia.
    apply Z.max_lub_lt.
    + destruct (Z.eq_dec a 0) as [->|]; [|apply Z.log2_lt_pow2; lia].
      change (Z.log2 0) with 0. destruct (Z.eq_dec w 0) as [->|]; [|lia].
      change (2 ^ 0) with 1 in *. assert (b = 0) by lia. subst. cbn in N. congruence.
    + destruct (Z.eq_dec b 0) as [->|]; [|apply Z.log2_lt_pow2; lia].
      change (Z.log2 0) with 0. destruct (Z.eq_dec w 0) as [->|]; [|lia].
      change (2 ^ 0) with 1 in *. assert (a = 0) by lia. subst. cbn in N. congruence.
Qed.

Lemma shiftl_bounds n w x : 0 <= n -> 0 <= w -> - 2 ^ w < x < 2 ^ w ->
  - 2 ^ (n + w) < Z.shiftl x n < 2 ^ (n + w).
Proof.
  intros Hn Hw Hx. rewrite Z.shiftl_mul_pow2 by auto. rewrite (pow2_split n w) by auto.
  pose proof (pow2_pos n Hn). nia.
Qed.

Lemma bounds_mono a b x : 0 <= a <= b -> - 2 ^ a < x < 2 ^ a -> - 2 ^ b < x < 2 ^ b.
Proof. intros H Hx. pose proof (pow2_mono a b H). lia. Qed.

Lemma bit_length_bounds w x : 0 <= w -> - 2 ^ w < x < 2 ^ w -> bit_length x <= w.
Proof.
  intros Hw Hx. unfold bit_length. destruct (Z.eqb_spec x 0); [lia|].
  assert (Z.log2 (Z.abs x) < w); [|lia]. apply Z.log2_lt_pow2; lia.
Qed.

Section Total.
  Variable R : list Z -> Z -> Prop.

  Lemma tup_asm_total b fs w fs' : tup_rel R b fs w fs' -> forall acc vs,
    Forall (fun f => wf_ty (snd f) -> forall a v, asm_rel R (snd f) a -> has_ty (snd f) v ->
              exists op, a_asm a v = Ok op /\ - 2 ^ a_width a < op < 2 ^ a_width a) fs ->
    Forall (fun f => wf_ty (snd f)) fs ->
    Forall2 (fun f v => has_ty (snd f) v) fs vs ->
    0 <= b -> - 2 ^ b < acc < 2 ^ b ->
    exists y, tup_asm fs' vs acc = Ok y /\ - 2 ^ w < y < 2 ^ w.
  Proof.
    induction 1 as [b|b k t r w a rest Ha Tr IH]; intros acc vs HI W H Hb Hacc.
    - inversion H; subst. cbn. eauto.
    - inversion HI as [|? ? I1 I2]; inversion W as [|? ? W1 W2]; subst.
      inversion H as [|? v ? vs' H1 H2]; subst. cbn [snd] in *.
      destruct (I1 W1 a v Ha H1) as (op & E & B).
      destruct (asm_rel_width R t W1 a Ha) as [_ P].
      cbn [tup_asm]. rewrite E. cbn [bind].
      apply IH; auto; try lia.
      apply lor_bounds; [lia| |].
      + eapply (bounds_mono b); auto. lia.
      + apply shiftl_bounds; auto.
  Qed.

  Lemma a_asm_total t : wf_ty t -> forall a v, asm_rel R t a -> has_ty t v ->
    exists op, a_asm a v = Ok op /\ - 2 ^ a_width a < op < 2 ^ a_width a.
  Proof.
    induction t as [| | |c ms|c fs IH|g c fs IH] using ty_ind'; intros W a v A H.
    - inversion A; inversion H; subst. eexists. split; [reflexivity|]. destruct b; cbn; lia.
    - inversion A; inversion H; subst. eexists. split; [reflexivity|]. cbn [a_width]. lia.
    - inversion A; inversion H; inversion W; subst. eexists. split; [reflexivity|]. cbn [a_width].
      match goal with X : VBV _ = VBV _ |- _ => injection X as -> | _ => idtac end.
      unfold to_signed. destruct (Z.testbit z (w - 1)) eqn:T; [|lia].
      destruct (Z.eq_dec z 0) as [->|]; [rewrite Z.bits_0 in T; discriminate|lia].
    - inversion A as [| | |? ? tbl ops w vd E1 E2 E3 V| |]; inversion H; subst.
      destruct (enum_facts c ms tbl W E1) as (_ & ND & _ & _ & T & _ & F).
      destruct (T m) as [x Ix]; auto. exists x. cbn [a_asm a_width].
      unfold dgetE. erewrite (dget_NoDup emem_eqb emem_eqb_eq) by eauto. split; auto.
      apply (in_map snd) in Ix. apply F in Ix. cbn [snd] in Ix. lia.
    - inversion A as [| | | |? ? w fs' T|]; inversion H as [| | | |? ? vs F|]; subst.
      rewrite a_asm_tuple. cbn [a_width].
      assert (Forall (fun f => wf_ty (snd f)) fs) as WF by (inversion W; auto).
      apply (tup_asm_total 0 fs w fs' T 0 vs); auto; cbn; lia.
    - inversion A as [| | | | |? ? ? sorted tagw pw fs' gs tv E1 E2 S G1 G2 Vt]; subst.
      inversion H as [| | | | |? ? ? k t v0 I Hv]; subst.
      assert (no_dup_keys fs) as ND by (inversion W; auto).
      assert (wf_ty t) as Wt by (eapply wf_members_sum; eauto).
      pose proof I as I2. apply (isort_In2 field_leb) in I2. apply In_nth_error in I2 as [i Ri].
      destruct (sum_find_spec _ _ _ _ _ _ _ _ _ _ (sorted_keys_NoDup fs ND) S Ri) as (f & Ef & Af).
      rewrite Forall_forall in IH. destruct (IH _ I Wt f v0 Af Hv) as (op & Eo & B).
      rewrite a_asm_sum, Ef, Eo. cbn [bind a_width]. eexists. split; [reflexivity|].
      set (tw := bit_length (Z.of_nat (length fs) - 1)) in *.
      assert (0 <= tw) as Ptw by apply bit_length_nonneg.
      destruct (asm_rel_width R t Wt f Af) as [Sf Pf].
      assert (i < length fs)%nat as Li.
      { rewrite <- (isort_length field_leb). apply nth_error_Some. congruence. }
      assert (Z.of_nat i < 2 ^ tw) as Lt.
      { unfold tw. rewrite <- bits_for_bit_length by lia. apply lt_pow2_bits_for. lia. }
      assert (a_width f <= pw) as Le.
      { pose proof (sum_rel_spec _ _ _ _ _ _ _ S) as (-> & L & Hs). rewrite zmaximum_max by lia.
        apply Hs in Ri as (a' & Ea & _ & Aa').
        assert (a_width f = a_width a') as ->.
        { eapply swidth_fun; [exact Sf|]. apply (asm_rel_width R t); auto. }
        assert (a_width a' <= zmaximum (map (fun e : key * Z * (Z * Z) * asm => a_width (snd e)) fs')); [|lia].
        apply zmaximum_ge. apply in_map_iff. eexists. split; [|eapply nth_error_In; eauto]. reflexivity. }
      apply lor_bounds; [lia| |].
      + apply shiftl_bounds; [auto|lia|]. eapply (bounds_mono (a_width f)); [lia|auto].
      + rewrite Z.add_0_l. apply (bounds_mono tw); lia.
  Qed.

  Lemma assemble_total t a v : wf_ty t -> asm_rel R t a -> has_ty t v ->
    exists op, assemble a v = Ok op /\ 0 <= op < 2 ^ a_width a.
  Proof.
    intros W A H. destruct (a_asm_total t W a v A H) as (op & E & B).
    destruct (asm_rel_width R t W a A) as [_ P].
    unfold assemble. rewrite E. cbn [bind]. rewrite (proj2 (Z.leb_le _ _)) by (apply bit_length_bounds; auto).
    eexists. split; [reflexivity|]. apply wrap_range; auto.
  Qed.
End Total.

(** ** Permuting the members of a Sum *)
Lemma zmaximum_perm l l' : Permutation l l' -> zmaximum l = zmaximum l'.
Proof. unfold zmaximum. induction 1; cbn [fold_right]; lia. Qed.

Lemma widths_perm fs fs' : Permutation fs fs' -> forall ws,
  Forall2 (fun f w => swidth (snd f) w) fs ws ->
  exists ws', Permutation ws ws' /\ Forall2 (fun (f : key * ty) w => swidth (snd f) w) fs' ws'.
Proof.
  induction 1 as [|x l l' P IH|x y l|l l' l'' P1 IH1 P2 IH2]; intros ws F.
  - inversion F; subst. eauto.
  - inversion F as [|? w ? ws0 S F0]; subst. destruct (IH _ F0) as (ws' & P' & F').
    exists (w :: ws'). split; auto.
  - inversion F as [|? w ? ws0 S F0]; subst. inversion F0 as [|? w1 ? ws1 S1 F1]; subst.
    exists (w1 :: w :: ws1). split; [constructor|]. auto.
  - destruct (IH1 _ F) as (ws' & P' & F'). destruct (IH2 _ F') as (ws2 & P'' & F'').
    exists ws2. split; auto. eapply Permutation_trans; eauto.
Qed.

Lemma swidth_perm g c fs fs' w : Permutation fs fs' -> swidth (TSum g c fs) w -> swidth (TSum g c fs') w.
Proof.
  intros P S. inversion S as [| | | | |? ? ? ws F]; subst.
  destruct (widths_perm _ _ P _ F) as (ws' & P' & F').
  rewrite (Permutation_length P), (zmaximum_perm _ _ P'). constructor. auto.
Qed.

Lemma enc_perm J g c fs fs' op v : Permutation fs fs' ->
  NoDup (map (fun f => krepr (fst f)) fs) ->
  enc J (TSum g c fs) op v -> enc J (TSum g c fs') op v.
Proof.
  intros P ND E.
  inversion E as [| | | | |? ? ? pre k t post W w x junk v0 Hfs SW Sw Ex Hj HJ HW].
  assert (In (k, t) fs') as I.
  { eapply Permutation_in; eauto. rewrite Hfs. apply in_app_iff. right. left. auto. }
  apply in_split in I as (pre' & post' & Hfs').
  pose proof (rank_perm fs fs' pre k t post pre' post' P ND Hfs Hfs') as ->.
  rewrite (Permutation_length P) in *.
  apply (enc_sum J g c fs' pre' k t post' W w x junk v0); auto.
  - eapply swidth_perm; eauto.
  - pose proof (rank_perm fs fs' pre k t post pre' post' P ND Hfs Hfs') as <-. auto.
Qed.

(** ** Independence of histories *)
Definition accepts (ops : list Z) (c : Z) : Prop := In c ops \/ multi_range ops.

Lemma multi_range_dec_pos ops : increasing ops -> (forall c, In c ops -> 0 <= c) ->
  multi_range ops \/ ~ multi_range ops.
Proof.
  intros S P.
  assert (contiguous ops \/ ~ contiguous ops) as [C|C].
  { destruct ops as [|x l]; [left; intros ? ? ? []|]. pose proof (is_range_iff x l S) as IR.
    destruct (list_eqb _ _ _); [left; apply IR; auto|right; rewrite <- IR; congruence]. }
  { right. intros (Q & _). contradiction. }
  pose proof (all_one_hot_iff ops P) as OH.
  destruct (all_one_hot ops); [right; intros (_ & Q & _); apply Q, OH; auto|].
  destruct (le_dec 3 (length ops)) as [L|L]; [|right; intros (_ & _ & Q & _); contradiction].
  destruct (Z_lt_dec (11 * Z.of_nat (runs ops)) (10 * Z.of_nat (length ops))) as [M|M];
    [left|right; intros (_ & _ & _ & Q); contradiction].
  split; auto. split; auto. rewrite <- OH. congruence.
Qed.

Lemma vrel_accepts_iff R ops w v : good_request R -> exact_ok R -> vrel R ops w v ->
  forall c, 0 <= c < 2 ^ w -> (multi_range ops \/ ~ multi_range ops) ->
  (run_validator w c v = true <-> accepts ops c).
Proof.
  intros GR EX V c Hc [M|M].
  - split; [right; auto|]. intros _. destruct V as (_ & w0 & _ & G). eapply gen_rel_multi; eauto.
  - rewrite (vrel_exact R GR ops w v EX M V c Hc). unfold accepts. tauto.
Qed.

Lemma isv_agree R R' t : good_request R -> exact_ok R -> good_request R' -> exact_ok R' -> wf_ty t ->
  forall a a' op, asm_rel R t a -> asm_rel R' t a' -> 0 <= op < 2 ^ a_width a ->
  a_isv a op = true -> a_isv a' op = true.
Proof.
  intros GR EX GR' EX'.
  induction t as [| | |c ms|c fs IH|g c fs IH] using ty_ind'; intros W a a' op A A' Rg V.
  1-3: inversion A'; auto.
  - inversion A as [| | |? ? tbl ops w vd E1 E2 E3 Vr| |]; subst.
    inversion A' as [| | |? ? tbl' ops' w' vd' E1' E2' E3' Vr'| |]; subst.
    rewrite E1 in E1'. injection E1' as <-. cbn [a_isv a_width] in *.
    destruct (multi_range_dec_pos (isort Z.leb (map snd tbl))) as [M|M].
    { apply (GR _ _ (proj1 Vr)). }
    { intros x I. apply (GR _ _ (proj1 Vr)) in I. lia. }
    + apply (vrel_accepts_iff R' _ _ _ GR' EX' Vr' op Rg (or_introl M)).
      apply (vrel_accepts_iff R _ _ _ GR EX Vr op Rg (or_introl M)). auto.
    + apply (vrel_accepts_iff R' _ _ _ GR' EX' Vr' op Rg (or_intror M)).
      apply (vrel_accepts_iff R _ _ _ GR EX Vr op Rg (or_intror M)). auto.
  - inversion A as [| | | |? ? w fs' T|]; subst. inversion A' as [| | | |? ? w2 fs2 T2|]; subst.
    cbn [a_isv a_width] in *. apply fold_andb_map in V as [_ V]. apply fold_andb_map. split; auto.
    assert (Forall (fun f => wf_ty (snd f)) fs) as WF by (inversion W; auto).
    enough (forall b w fs', tup_rel R b fs w fs' -> 0 <= b -> forall fs2 w2, tup_rel R' b fs w2 fs2 ->
      (forall e, In e fs' -> a_isv (snd e) (slice op (fst (snd (fst e))) (snd (snd (fst e)))) = true) ->
      forall e, In e fs2 -> a_isv (snd e) (slice op (fst (snd (fst e))) (snd (snd (fst e)))) = true) as G.
    { apply (G 0 w fs' T ltac:(lia) fs2 w2 T2 V). }
    clear A A' W Rg T T2 V fs' fs2 w w2. intros b w fs' T. revert IH WF.
    induction T as [b|b k t r w a rest Ha Tr IHT]; intros IH WF Hb fs2 w2 T2 V.
    + inversion T2; subst. intros ? [].
    + inversion T2 as [|? ? ? ? ? a2 rest2 Ha2 Tr2]; subst.
      inversion IH as [|? ? I1 I2]; inversion WF as [|? ? W1 W2]; subst. cbn [snd] in *.
      destruct (asm_rel_width R t W1 a Ha) as [Sa Pa]. destruct (asm_rel_width R' t W1 a2 Ha2) as [Sa2 Pa2].
      assert (a_width a2 = a_width a) as Ew by (eapply swidth_fun; eauto). rewrite Ew in *.
      intros e [<-|I].
      * cbn [fst snd]. apply (I1 W1 a a2); auto.
        -- pose proof (slice_range op b (b + a_width a)). replace (b + a_width a - b) with (a_width a) in H by lia.
           apply H. lia.
        -- apply (V _ (or_introl eq_refl)).
      * eapply IHT; eauto; [lia|]. intros; apply V; right; auto.
  - inversion A as [| | | | |? ? ? sorted tagw pw fs' gs tv E1 E2 S G1 G2 Vt]; subst.
    inversion A' as [| | | | |? ? ? sorted' tagw' pw' fs2 gs2 tv2 E1' E2' S' G1' G2' Vt']; subst.
    cbn [a_isv] in *. set (tw := bit_length (Z.of_nat (length fs) - 1)) in *.
    apply fold_orb_map in V as [|([[[u vd] lay] f] & Ig & V)]; [discriminate|]. cbn [fst snd] in V.
    destruct (G1 _ _ _ _ Ig) as (-> & Af & ops & Vr & Hops). cbn [fst snd] in V.
    apply andb_true_iff in V as [V1 V2]. apply fold_orb_map. right.
    assert (no_dup_keys fs) as ND by (inversion W; auto).
    destruct (GR _ _ (proj1 Vr)) as (Io & NEo & Ptw & Fo).
    destruct ops as [|x0 ops0]; [congruence|]. destruct (proj1 (Hops x0) (or_introl eq_refl)) as (i & k & Ei & _).
    destruct (G2' _ _ _ Ei) as (vd2 & lay2 & f2 & Ig2).
    destruct (G1' _ _ _ _ Ig2) as (-> & Af2 & ops2 & Vr2 & Hops2).
    exists (u, vd2, (tw, tw + a_width f2), f2). split; auto. cbn [fst snd].
    assert (In (k, u) fs) as I by (apply (isort_In1 field_leb); eapply nth_error_In; eauto).
    assert (wf_ty u) as Wt by (eapply wf_members_sum; eauto).
    destruct (asm_rel_width R u Wt f Af) as [Sf Pf]. destruct (asm_rel_width R' u Wt f2 Af2) as [Sf2 Pf2].
    assert (a_width f2 = a_width f) as Ew by (eapply swidth_fun; eauto). rewrite Ew in *.
    assert (ops2 = x0 :: ops0) as ->.
    { apply increasing_ext; auto; [apply (GR' _ _ (proj1 Vr2))|]. intros x. rewrite Hops2, Hops. reflexivity. }
    assert (0 <= slice op 0 tw < 2 ^ tw) as Rt.
    { pose proof (slice_range op 0 tw ltac:(lia)) as Rt. rewrite Z.sub_0_r in Rt. auto. }
    apply andb_true_iff. split.
    + destruct (multi_range_dec_pos (x0 :: ops0)) as [M|M]; auto.
      { intros x J. apply Fo in J. lia. }
      * apply (vrel_accepts_iff R' _ _ _ GR' EX' Vr2 _ Rt (or_introl M)).
        apply (vrel_accepts_iff R _ _ _ GR EX Vr _ Rt (or_introl M)). auto.
      * apply (vrel_accepts_iff R' _ _ _ GR' EX' Vr2 _ Rt (or_intror M)).
        apply (vrel_accepts_iff R _ _ _ GR EX Vr _ Rt (or_intror M)). auto.
    + rewrite Forall_forall in IH. apply (IH _ I Wt f f2); auto.
      pose proof (slice_range op tw (tw + a_width f)). replace (tw + a_width f - tw) with (a_width f) in H by lia.
      apply H. lia.
Qed.
