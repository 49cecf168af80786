(** Which words [is_valid] accepts when opcode sets of several ranges occur. *)
From Coq Require Import String ZArith List Bool Lia Permutation Sorted.
From Verif Require Import Base BaseLemmas AsmModel AsmSpec AsmValid AsmEnum AsmBuild AsmProofs AsmMore Asm2Model Asm2Proofs Asm2ValidModel Asm2Valid.
Import ListNotations.
Open Scope Z_scope.

(** * Specification *)
(** [accepted t op]: [op] has the layout of an instruction of [t], except that an Enum
    field or a tag may be any word of its width if the codes it has to be one of take the
    branch of several ranges. *)
Inductive accepted : ty -> Z -> Prop :=
| ac_bit op : 0 <= op < 2 -> accepted TBit op
| ac_bv w op : 0 <= op < 2 ^ w -> accepted (TBV w) op
| ac_sint w op : 0 <= op < 2 ^ w -> accepted (TSInt w) op
| ac_enum c ms codes w op :
    increasing codes -> (forall x, In x codes <-> exists m, enum_code ms m x) ->
    swidth (TEnum c ms) w -> 0 <= op < 2 ^ w -> In op codes \/ multi_range codes -> accepted (TEnum c ms) op
| ac_prod c fs op : accepted_fields fs op -> accepted (TProd c fs) op
| ac_sum g c fs u tags tag w x junk W :
    increasing tags -> tags <> [] ->
    (forall y, In y tags <-> exists pre k post, fs = pre ++ (k, u) :: post /\ y = rank_at pre k post) ->
    0 <= tag < 2 ^ bits_for (Z.of_nat (length fs) - 1) -> In tag tags \/ multi_range tags ->
    swidth u w -> accepted u x -> 0 <= junk -> swidth (TSum g c fs) W ->
    tag + 2 ^ bits_for (Z.of_nat (length fs) - 1) * (x + 2 ^ w * junk) < 2 ^ W ->
    accepted (TSum g c fs) (tag + 2 ^ bits_for (Z.of_nat (length fs) - 1) * (x + 2 ^ w * junk))
with accepted_fields : list (key * ty) -> Z -> Prop :=
| af_nil : accepted_fields [] 0
| af_cons k t r w x y : swidth t w -> accepted t x -> accepted_fields r y -> accepted_fields ((k, t) :: r) (x + 2 ^ w * y).

(** * Lemmas *)
Lemma low_high_unique m x y x' y' : 0 <= x < m -> 0 <= x' < m -> x + m * y = x' + m * y' -> x = x' /\ y = y'.
Proof.
  intros H H' E. assert (y = y') as ->; [|split; lia].
  assert (forall a b, 0 <= a < m -> (a + m * b) / m = b) as D by (intros a b Ha; rewrite Z.mul_comm, Z.div_add, Z.div_small by lia; lia).
  rewrite <- (D x y H), E. apply D, H'.
Qed.

Lemma accepted_range t : wf_ty t -> forall op, accepted t op -> 0 <= op < 2 ^ a2_width t.
Proof.
  induction t as [| | |c ms|c fs IH|g c fs IH] using ty_ind'; intros W op A.
  - inversion A; subst. exact H.
  - inversion A; subst. auto.
  - inversion A; subst. auto.
  - inversion A as [| | |? ? ops w ? Inc Hc Sw Rg D| |]; subst.
    assert (w = a2_width (TEnum c ms)) as <- by (eapply swidth_fun; eauto using a2_width_spec). exact Rg.
  - inversion A as [| | | |? ? ? AF|]; subst. rewrite a2_width_prod. assert (WF : Forall (fun f => wf_ty (snd f)) fs) by (inversion W; auto).
    clear A W. revert op AF WF IH. induction fs as [|[k t] fs IHf]; intros op AF WF IH; inversion AF as [|? ? ? w x y Sw Ax Ay]; subst; cbn [sum_widths].
    + cbn. lia.
    + inversion WF as [|? ? W1 W2]; inversion IH as [|? ? I1 I2]; subst. cbn [snd] in *.
      assert (w = a2_width t) as -> by (eapply swidth_fun; eauto using a2_width_spec).
      pose proof (I1 W1 _ Ax) as Rx. pose proof (IHf y Ay W2 I2) as Ry. pose proof (a2_width_nonneg _ W1). pose proof (sum_widths_nonneg _ W2).
      rewrite pow2_split by lia. pose proof (pow2_pos (a2_width t) ltac:(lia)). nia.
  - inversion A as [| | | | |? ? ? u tags tag w x junk W0 Inc NE Hr Rt D Sw Ax Pj SW Lt]; subst.
    assert (W0 = a2_width (TSum g c fs)) as -> by (eapply swidth_fun; eauto using a2_width_spec).
    split; auto. assert (exists k, In (k, u) fs) as [k I].
    { destruct tags as [|y tags]; [congruence|]. destruct (proj1 (Hr y) (or_introl eq_refl)) as (pre & k & post & E & _).
      exists k. rewrite E. apply in_app_iff. right. left. auto. }
    assert (wf_ty u) as Wu by (eapply wf_members_sum; eauto).
    rewrite Forall_forall in IH. pose proof (IH _ I Wu _ Ax) as Rx. cbn [snd] in Rx.
    assert (w = a2_width u) as -> by (eapply swidth_fun; eauto using a2_width_spec).
    pose proof (a2_width_nonneg _ Wu). pose proof (pow2_pos (a2_width u) ltac:(lia)).
    assert (0 <= bits_for (Z.of_nat (length fs) - 1)) by (rewrite bits_for_bit_length; [apply bit_length_nonneg|destruct fs; [destruct I|cbn [length]; lia]]).
    pose proof (pow2_pos (bits_for (Z.of_nat (length fs) - 1)) ltac:(lia)). nia.
Qed.

Section Accept.
  Variable R : list Z -> Z -> Prop.
  Hypothesis GR : good_request R.
  Hypothesis EX : exact_ok R.

  Lemma vrel_accept ops w v c : vrel R ops w v -> 0 <= c < 2 ^ w -> (run_validator w c v = true <-> In c ops \/ multi_range ops).
  Proof.
    intros V Hc. apply (vrel_accepts_iff R ops w v GR EX V c Hc). destruct (GR _ _ (proj1 V)) as (Inc & _ & _ & F).
    apply multi_range_dec_pos; auto. intros x I. apply F in I. lia.
  Qed.

  Lemma v2_accepted t : wf_ty t -> forall a op, v2_rel R t a -> 0 <= op < 2 ^ a2_width t ->
    (v2_valid a op = true <-> accepted t op).
  Proof.
    induction t as [| | |c ms|c fs IH|g c fs IH] using ty_ind'; intros W a op A Rg.
    - inversion A; subst. split; [intros _; constructor; exact Rg|auto].
    - inversion A; subst. split; [intros _; constructor; exact Rg|auto].
    - inversion A; subst. split; [intros _; constructor; exact Rg|auto].
    - inversion A as [| | |? ? tbl vd E1 Vr| |]; subst. cbn [v2_valid]. rewrite (vrel_accept _ _ _ op Vr Rg).
      destruct (enum_facts c ms tbl W E1) as (_ & ND & NS & Hc & _ & S & F).
      assert (Hx : forall x, In x (isort Z.leb (map snd tbl)) <-> exists m, enum_code ms m x).
      { intros x. rewrite isort_In. split.
        - intros J. apply in_map_iff in J as ([m y] & <- & J). exists m. apply Hc. exact J.
        - intros [m C]. apply Hc in C. apply (in_map snd) in C. exact C. }
      split.
      + intros D. apply (ac_enum c ms (isort Z.leb (map snd tbl)) (a2_width (TEnum c ms))); auto using a2_width_spec. apply isort_increasing; auto.
      + intros Ac. inversion Ac as [| | |? ? ops w ? Inc Hc' Sw Rg' D| |]; subst.
        assert (ops = isort Z.leb (map snd tbl)) as -> by (apply increasing_ext; auto using isort_increasing; intros x; rewrite Hc', Hx; reflexivity). exact D.
    - inversion A as [| | | |? ? xs T|]; subst. cbn [v2_valid]. rewrite a2_width_prod in Rg.
      assert (WF : Forall (fun f => wf_ty (snd f)) fs) by (inversion W; auto).
      enough (X : forall b fs xs, v2_tup R b fs xs -> 0 <= b -> Forall (fun f => wf_ty (snd f)) fs ->
        Forall (fun f => wf_ty (snd f) -> forall a op, v2_rel R (snd f) a -> 0 <= op < 2 ^ a2_width (snd f) -> (v2_valid a op = true <-> accepted (snd f) op)) fs ->
        0 <= op < 2 ^ (b + sum_widths fs) ->
        ((forall e, In e xs -> v2_valid (snd e) (slice op (fst (fst e)) (snd (fst e))) = true) <-> accepted_fields fs (op / 2 ^ b))).
      { specialize (X 0 fs xs T ltac:(lia) WF IH Rg). rewrite Z.pow_0_r, Z.div_1_r in X. rewrite fold_andb_map. split.
        - intros [_ V]. constructor. apply X, V.
        - intros Ac. inversion Ac as [| | | |? ? ? AF|]; subst. split; auto. apply X, AF. }
      clear - op. induction 1 as [b|b k t r a rest Ha Tr IHT]; intros Pb WF IH Rg.
      + cbn in Rg. rewrite Z.add_0_r in Rg. rewrite Z.div_small by lia. split; [constructor|intros _ ? []].
      + inversion WF as [|? ? W1 W2]; inversion IH as [|? ? I1 I2]; subst. cbn [snd sum_widths] in *.
        pose proof (a2_width_spec _ W1) as Sa. pose proof (a2_width_nonneg _ W1) as Pa.
        assert (Rs : 0 <= slice op b (b + a2_width t) < 2 ^ a2_width t).
        { pose proof (slice_range op b (b + a2_width t)) as H. replace (b + a2_width t - b) with (a2_width t) in H by lia. apply H. lia. }
        assert (Eop : op / 2 ^ b = slice op b (b + a2_width t) + 2 ^ a2_width t * (op / 2 ^ (b + a2_width t))).
        { rewrite slice_div by lia. replace (b + a2_width t - b) with (a2_width t) by lia.
          rewrite pow2_split by lia. pose proof (pow2_pos b Pb). pose proof (pow2_pos _ Pa).
          rewrite <- Z.div_div by lia. apply split_low; auto. }
        assert (IH' := IHT ltac:(lia) W2 I2 ltac:(rewrite <- Z.add_assoc; exact Rg)).
        specialize (I1 W1 a _ Ha Rs). split.
        * intros V. rewrite Eop. econstructor; eauto.
          -- apply I1. apply (V _ (or_introl eq_refl)).
          -- apply IH'. intros; apply V; right; auto.
        * intros Af. inversion Af as [|? ? ? w x y Sw Ax Ay Ee E0]; subst.
          assert (w = a2_width t) as -> by (eapply swidth_fun; eauto). pose proof (accepted_range _ W1 _ Ax) as Rx.
          rewrite Eop in E0. destruct (low_high_unique _ _ _ _ _ Rx Rs E0) as [-> ->].
          intros e [<-|Ie]; [apply I1, Ax|apply IH'; auto].
    - inversion A as [| | | | |? ? ? gs G1 G2]; subst. cbn [v2_valid].
      assert (no_dup_keys fs) as ND by (inversion W; auto). assert (0 <= a2_tagw fs) as Ptw by apply bit_length_nonneg.
      pose proof (slice_range op 0 (a2_tagw fs) ltac:(lia)) as Rt. rewrite Z.sub_0_r in Rt.
      assert (fs <> []) as NE by (inversion W; auto).
      assert (bits_for (Z.of_nat (length fs) - 1) = a2_tagw fs) as Eb by (apply bits_for_bit_length; destruct fs; [congruence|cbn [length]; lia]).
      assert (Hrk : forall u x, (exists i k, nth_error (isort field_leb fs) i = Some (k, u) /\ x = Z.of_nat i) <->
        exists pre k post, fs = pre ++ (k, u) :: post /\ x = rank_at pre k post).
      { intros u x. split.
        - intros (i & k & Ei & ->). apply rank_iff in Ei as (pre & post & ? & ?); auto. exists pre, k, post. auto.
        - intros (pre & k & post & E & ->). exists (Z.to_nat (rank_at pre k post)), k.
          pose proof (rank_nonneg pre k post). split; [|lia]. rewrite E. apply rank_index. }
      pose proof (a2_width_spec _ W) as SW. rewrite fold_orb_map. rewrite Forall_forall in IH.
      assert (Rs : forall u, wf_ty u -> 0 <= slice op (a2_tagw fs) (a2_tagw fs + a2_width u) < 2 ^ a2_width u).
      { intros u Wu. pose proof (a2_width_nonneg _ Wu). pose proof (slice_range op (a2_tagw fs) (a2_tagw fs + a2_width u)) as H'.
        replace (a2_tagw fs + a2_width u - a2_tagw fs) with (a2_width u) in H' by lia. apply H'. lia. }
      assert (Eop : forall u, wf_ty u -> op = slice op 0 (a2_tagw fs) + 2 ^ a2_tagw fs *
        (slice op (a2_tagw fs) (a2_tagw fs + a2_width u) + 2 ^ a2_width u * (op / 2 ^ a2_tagw fs / 2 ^ a2_width u))).
      { intros u Wu. pose proof (a2_width_nonneg _ Wu). rewrite (slice_div op (a2_tagw fs)) by lia.
        replace (a2_tagw fs + a2_width u - a2_tagw fs) with (a2_width u) by lia.
        rewrite <- split_low by auto. apply split_low; auto. }
      split.
      + intros [|([[vd lay] f] & Ig & V)]; [discriminate|]. cbn [fst snd] in V.
        destruct (G1 _ _ _ Ig) as (u & ops & -> & Af & Vr & Hops). cbn [fst snd] in V. apply andb_true_iff in V as [V1 V2].
        destruct (GR _ _ (proj1 Vr)) as (Inc & NEo & _).
        assert (exists k, In (k, u) fs) as [k I].
        { destruct ops as [|y ops]; [congruence|]. destruct (proj1 (Hops y) (or_introl eq_refl)) as (i & k & Ei & _).
          exists k. apply nth_error_In in Ei. now apply (isort_In1 field_leb) in Ei. }
        assert (wf_ty u) as Wu by (eapply wf_members_sum; eauto).
        pose proof (Eop u Wu) as E. rewrite E. rewrite <- Eb. apply (ac_sum g c fs u ops) with (W := a2_width (TSum g c fs)); auto; try rewrite Eb; auto.
        * intros y. rewrite Hops. apply Hrk.
        * apply (vrel_accept _ _ _ _ Vr Rt). exact V1.
        * apply a2_width_spec; auto.
        * apply (IH _ I Wu f); auto.
        * pose proof (pow2_pos _ Ptw). pose proof (pow2_pos _ (a2_width_nonneg _ Wu)). apply Z.div_pos; auto. apply Z.div_pos; lia.
        * rewrite <- E. apply Rg.
      + intros Ac. right. inversion Ac as [| | | | |? ? ? u tags tag w x junk W0 Inc NEt Hr Rtag D Sw Ax Pj SW' Lt E1 E2]. subst g0 c0 fs0.
        assert (exists i k, nth_error (isort field_leb fs) i = Some (k, u)) as (i & k & Ei).
        { destruct tags as [|y tags]; [congruence|]. destruct (proj1 (Hr y) (or_introl eq_refl)) as (pre & k & post & E).
          destruct (proj2 (Hrk u y)) as (i & k' & Ei & _); [exists pre, k, post; exact E|]. eauto. }
        destruct (G2 _ _ _ Ei) as (vd & f & ops & Ig & Af & Vr & Hops).
        assert (In (k, u) fs) as I by (apply nth_error_In in Ei; now apply (isort_In1 field_leb) in Ei).
        assert (wf_ty u) as Wu by (eapply wf_members_sum; eauto). pose proof (a2_width_nonneg _ Wu) as Pu.
        assert (w = a2_width u) as -> by (eapply swidth_fun; eauto using a2_width_spec). pose proof (accepted_range _ Wu _ Ax) as Rx.
        assert (tags = ops) as ->.
        { apply increasing_ext; auto; [apply (GR _ _ (proj1 Vr))|]. intros y. rewrite Hr, Hops, Hrk. reflexivity. }
        exists (vd, (a2_tagw fs, a2_tagw fs + a2_width u), f). split; auto. cbn [fst snd]. rewrite Eb in *. apply andb_true_iff. split.
        * rewrite slice_low by auto. apply (vrel_accept _ _ _ _ Vr Rtag). exact D.
        * rewrite slice_mid by auto. apply (IH _ I Wu f); auto.
  Qed.
End Accept.

(** The objects of peak/assembler answer as those of peak/assembler2. *)
Lemma asm_v2 R t : good_request R -> wf_ty t -> forall a, asm_rel R t a -> exists x, v2_rel R t x /\ forall op, v2_valid x op = a_isv a op.
Proof.
  intros GR. induction t as [| | |c ms|c fs IH|g c fs IH] using ty_ind'; intros W a A.
  - inversion A; subst. exists V2Leaf. split; [constructor|reflexivity].
  - inversion A; subst. exists V2Leaf. split; [constructor|reflexivity].
  - inversion A; subst. exists V2Leaf. split; [constructor|reflexivity].
  - inversion A as [| | |? ? tbl ops w vd E1 E2 E3 Vr| |]; subst.
    assert (Ew : a2_width (TEnum c ms) = bit_length (zmax (map snd tbl))) by (cbn [a2_width]; rewrite E1; reflexivity).
    exists (V2Enum (a2_width (TEnum c ms)) vd). split.
    + econstructor; eauto. rewrite Ew. exact Vr.
    + intros op. cbn [v2_valid a_isv]. now rewrite Ew.
  - inversion A as [| | | |? ? w fs' T|]; subst. assert (WF : Forall (fun f => wf_ty (snd f)) fs) by (inversion W; auto).
    assert (exists xs, v2_tup R 0 fs xs /\ forall op,
      map (fun e : Z * Z * vasm => v2_valid (snd e) (slice op (fst (fst e)) (snd (fst e)))) xs =
      map (fun e : key * (Z * Z) * asm => a_isv (snd e) (slice op (fst (snd (fst e))) (snd (snd (fst e))))) fs') as (xs & T' & E).
    { clear A W. revert T WF IH. generalize 0. intros b T. induction T as [b|b k t r w a rest Ha Tr IHT]; intros WF IH.
      - exists []. split; [constructor|reflexivity].
      - inversion WF as [|? ? W1 W2]; inversion IH as [|? ? I1 I2]; subst. cbn [snd] in *.
        destruct (I1 W1 _ Ha) as (x & Rx & Ex). destruct (asm_rel_width R t W1 a Ha) as [Sa Pa].
        assert (Ew : a_width a = a2_width t) by (eapply swidth_fun; eauto using a2_width_spec). rewrite Ew in *.
        destruct (IHT W2 I2) as (xs & Rxs & Exs). exists ((b, b + a2_width t, x) :: xs). split; [constructor; auto|].
        intros op. cbn [map fst snd]. rewrite Ex, Exs. reflexivity. }
    exists (V2Tuple xs). split; [constructor; auto|]. intros op. cbn [v2_valid a_isv]. now rewrite E.
  - inversion A as [| | | | |? ? ? sorted tagw pw fs' gs tv E1 E2 S G1 G2 Vt]; subst. rewrite Forall_forall in IH.
    assert (exists xs, Forall2 (fun (e : ty * validator * (Z * Z) * asm) (x : validator * (Z * Z) * vasm) =>
      fst x = (snd (fst (fst e)), (a2_tagw fs, a2_tagw fs + a2_width (fst (fst (fst e))))) /\ snd (fst e) = snd (fst x) /\
      v2_rel R (fst (fst (fst e))) (snd x) /\ forall op, v2_valid (snd x) op = a_isv (snd e) op) gs xs) as (xs & F).
    { assert (Hg : forall e, In e gs -> exists x : validator * (Z * Z) * vasm,
        fst x = (snd (fst (fst e)), (a2_tagw fs, a2_tagw fs + a2_width (fst (fst (fst e))))) /\ snd (fst e) = snd (fst x) /\
        v2_rel R (fst (fst (fst e))) (snd x) /\ forall op, v2_valid (snd x) op = a_isv (snd e) op).
      { intros [[[u v] lay] b] I. destruct (G1 _ _ _ _ I) as (-> & Ab & ops & Vr & Hops). cbn [fst snd].
        assert (exists k, In (k, u) fs) as [k J].
        { destruct (GR _ _ (proj1 Vr)) as (_ & NE & _). destruct ops as [|y ops]; [congruence|].
          destruct (proj1 (Hops y) (or_introl eq_refl)) as (i & k & Ei & _). exists k. apply nth_error_In in Ei. now apply (isort_In1 field_leb) in Ei. }
        assert (wf_ty u) as Wu by (eapply wf_members_sum; eauto). destruct (IH _ J Wu _ Ab) as (x & Rx & Ex).
        destruct (asm_rel_width R u Wu b Ab) as [Sa Pa].
        assert (Ew : a_width b = a2_width u) by (eapply swidth_fun; eauto using a2_width_spec).
        exists (v, (a2_tagw fs, a2_tagw fs + a2_width u), x). cbn [fst snd]. rewrite Ew. auto. }
      clear - Hg. induction gs as [|e gs IHg]; [exists []; constructor|].
      destruct (Hg e (or_introl eq_refl)) as (x & Hx). destruct IHg as (xs & Hxs); [intros; apply Hg; right; auto|]. exists (x :: xs). constructor; auto. }
    exists (V2Sum (a2_tagw fs) xs). split.
    + constructor.
      * intros v lay x I. destruct (Forall2_In_r _ _ _ _ F I) as ([[[u v'] lay'] b] & J & E1 & E2 & Rx & _). cbn [fst snd] in *. injection E1 as -> ->.
        destruct (G1 _ _ _ _ J) as (_ & _ & ops & Vr & Hops). exists u, ops. auto.
      * intros i k u Ei. destruct (G2 _ _ _ Ei) as (v & lay & b & J). destruct (Forall2_In_l _ _ _ _ F J) as ([[v' lay'] x] & I & E1 & E2 & Rx & _).
        cbn [fst snd] in *. injection E1 as -> ->. destruct (G1 _ _ _ _ J) as (_ & _ & ops & Vr & Hops). exists v, x, ops. auto.
    + intros op. cbn [v2_valid a_isv]. f_equal. clear - F.
      induction F as [|[[[u v] lay] b] [[v' lay'] x] gs xs (E1 & E2 & _ & Ex) F IHF]; auto. cbn [map fst snd] in *.
      injection E1 as -> ->. subst lay. cbn [fst snd]. rewrite Ex, IHF. reflexivity.
Qed.
