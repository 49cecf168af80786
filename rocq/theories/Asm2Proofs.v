(** assembler2 against the encoding specification. *)
From Coq Require Import String ZArith List Bool Lia Permutation Sorted.
From Verif Require Import Base BaseLemmas AsmModel AsmSpec AsmValid AsmEnum AsmBuild AsmProofs AsmSub AsmMore AadtModel AadtProofs Asm2Model.
Import ListNotations.
Open Scope Z_scope.

(** * Widths *)
Fixpoint sum_widths (fs : list (key * ty)) : Z :=
  match fs with [] => 0 | (_, t') :: r => a2_width t' + sum_widths r end.
Fixpoint max_widths (fs : list (key * ty)) : Z :=
  match fs with [] => 0 | (_, t') :: r => Z.max (a2_width t') (max_widths r) end.

Lemma a2_width_prod c fs : a2_width (TProd c fs) = sum_widths fs.
Proof. reflexivity. Qed.
Lemma a2_width_sum g c fs : a2_width (TSum g c fs) = a2_tagw fs + max_widths fs.
Proof. reflexivity. Qed.

Lemma a2_width_spec t : wf_ty t -> swidth t (a2_width t).
Proof.
  induction t as [| | |c ms|c fs IH|g c fs IH] using ty_ind'; intros W.
  1-3: constructor.
  - destruct (enum_table_spec c ms W) as (tbl & E & _). cbn [a2_width]. rewrite E.
    eapply enum_facts; eauto.
  - rewrite a2_width_prod. assert (Forall (fun f => wf_ty (snd f)) fs) as WF by (inversion W; auto).
    assert (Forall2 (fun f w => swidth (snd f) w) fs (map (fun f => a2_width (snd f)) fs)) as F.
    { clear W. induction fs as [|f fs IHf]; cbn; constructor; inversion IH; inversion WF; subst; auto. }
    replace (sum_widths fs) with (zsum (map (fun f => a2_width (snd f)) fs)); [constructor; auto|].
    clear. unfold zsum. induction fs as [|[k t] fs IH]; cbn; auto; f_equal; auto.
  - rewrite a2_width_sum. assert (Forall (fun f => wf_ty (snd f)) fs) as WF by (inversion W; auto).
    assert (Forall2 (fun f w => swidth (snd f) w) fs (map (fun f => a2_width (snd f)) fs)) as F.
    { clear W. induction fs as [|f fs IHf]; cbn; constructor; inversion IH; inversion WF; subst; auto. }
    assert (fs <> []) as NE by (inversion W; auto).
    unfold a2_tagw. rewrite <- bits_for_bit_length by (destruct fs; [congruence|cbn [length]; lia]).
    replace (max_widths fs) with (zmaximum (map (fun f => a2_width (snd f)) fs)); [constructor; auto|].
    clear. unfold zmaximum. induction fs as [|[k t] fs IH]; cbn; auto; f_equal; auto.
Qed.

Lemma a2_width_nonneg t : wf_ty t -> 0 <= a2_width t.
Proof. intros W. eapply swidth_nonneg; eauto using a2_width_spec. Qed.

Lemma max_widths_ge fs k t : In (k, t) fs -> a2_width t <= max_widths fs.
Proof.
  induction fs as [|[k' t'] fs IH]; cbn [max_widths]; intros []; [|specialize (IH H); lia].
  injection H as -> ->. lia.
Qed.
Lemma sum_widths_nonneg fs : Forall (fun f => wf_ty (snd f)) fs -> 0 <= sum_widths fs.
Proof. induction 1 as [|[k t] fs W F IH]; cbn [sum_widths]; [lia|]. pose proof (a2_width_nonneg _ W). cbn in *. lia. Qed.

(** * Tags *)
Lemma index_of_nth l : NoDup (map fst l) -> forall i k t n,
  nth_error l i = Some (k, t) -> index_of k l n = Some (n + Z.of_nat i).
Proof.
  induction l as [|[k' t'] l IH]; intros ND i k t n E; [destruct i; discriminate|].
  inversion ND as [|? ? N1 N2]; subst. cbn [index_of]. destruct i as [|i]; cbn in E.
  - injection E as -> ->. rewrite (proj2 (key_eqb_eq k k)) by auto. f_equal. lia.
  - destruct (key_eqb k k') eqn:Ek.
    + apply key_eqb_eq in Ek as ->. destruct N1. apply nth_error_In in E. apply (in_map fst) in E. exact E.
    + rewrite (IH N2 i k t (n + 1) E). f_equal. lia.
Qed.

Lemma a2_tag_spec fs pre k t post : no_dup_keys fs -> fs = pre ++ (k, t) :: post ->
  a2_tag fs k = Some (rank_at pre k post) /\
  0 <= rank_at pre k post < 2 ^ a2_tagw fs /\ a2_tagw fs = bits_for (Z.of_nat (length fs) - 1) /\
  wrap (a2_tagw fs) (rank_at pre k post) = rank_at pre k post /\
  a2_name fs (rank_at pre k post) = Some (k, t).
Proof.
  intros ND E. pose proof (rank_lt _ _ _ _ _ E) as Rl.
  pose proof (rank_index pre k t post) as Ri. rewrite <- E in Ri.
  assert (a2_tagw fs = bits_for (Z.of_nat (length fs) - 1)) as Eb
    by (unfold a2_tagw; rewrite bits_for_bit_length by lia; auto).
  assert (rank_at pre k post < 2 ^ a2_tagw fs) by (rewrite Eb; apply lt_pow2_bits_for; lia).
  split; [|split; [lia|split; [auto|split]]].
  - unfold a2_tag. rewrite (index_of_nth _ (sorted_keys_NoDup fs ND) _ k t 0 Ri). f_equal. lia.
  - apply wrap_small. lia.
  - unfold a2_name. rewrite (proj2 (Z.ltb_ge _ _)) by lia. auto.
Qed.

Lemma a2_name_inv fs tag k t : no_dup_keys fs -> a2_name fs tag = Some (k, t) ->
  exists pre post, fs = pre ++ (k, t) :: post /\ tag = rank_at pre k post.
Proof.
  unfold a2_name. intros ND. destruct (Z.ltb_spec tag 0); [discriminate|]. intros E.
  apply rank_iff in E as (pre & post & E & R); auto. exists pre, post. split; auto. lia.
Qed.

(** * Assembling *)
Fixpoint a2_tup_asm (W : Z) (fs : list (key * ty)) (vs : list val) (base opcode : Z) : res Z :=
  match fs, vs with
  | [], _ => Ok opcode
  | (_, t') :: fs', v' :: vs' =>
      do x <- a2_asm t' v';
      do x' <- zext_to x (a2_width t') W;
      a2_tup_asm W fs' vs' (base + a2_width t') (Z.lor opcode (wrap W (Z.shiftl x' base)))
  | _, [] => Err KeyError
  end.

Lemma a2_asm_prod c fs vs : a2_asm (TProd c fs) (VProd vs) = a2_tup_asm (sum_widths fs) fs vs 0 0.
Proof.
  rewrite <- (a2_width_prod c). unfold a2_asm; fold a2_asm. cbv zeta. generalize (a2_width (TProd c fs)). intros W.
  generalize 0 at 1 3. generalize 0. revert vs. induction fs as [|[k t] fs IH]; intros vs x y; [reflexivity|].
  destruct vs as [|v vs]; [reflexivity|]. cbn [a2_tup_asm]. destruct (a2_asm t v); [|reflexivity]. cbn [bind].
  destruct (zext_to _ _ _); [|reflexivity]. cbn [bind]. apply IH.
Qed.

Lemma a2_asm_sum g c fs k v :
  a2_asm (TSum g c fs) (VSum k v) =
  match a2_tag fs k with
  | None => Err KeyError
  | Some tag =>
      match dget key_eqb fs k with
      | None => Err KeyError
      | Some t' =>
          do x <- a2_asm t' v;
          do x' <- zext_to x (a2_width t') (max_widths fs);
          Ok (snd (bv_concat (a2_tagw fs, wrap (a2_tagw fs) tag) (max_widths fs, x')))
      end
  end.
Proof.
  unfold a2_asm; fold a2_asm. cbv zeta. rewrite a2_width_sum.
  replace (a2_tagw fs + max_widths fs - a2_tagw fs) with (max_widths fs) by lia.
  destruct (a2_tag fs k) as [tag|]; auto. generalize (a2_tagw fs) (max_widths fs). intros tw mw.
  induction fs as [|[k' t'] fs IH]; [reflexivity|]. cbn [dget]. destruct (key_eqb k k'); auto.
Qed.

Lemma a2_tup_asm_spec W fs : forall acc vs b,
  Forall (fun f => wf_ty (snd f) -> forall v, has_ty (snd f) v ->
            exists op, a2_asm (snd f) v = Ok op /\ canonical (snd f) op v) fs ->
  Forall (fun f => wf_ty (snd f)) fs ->
  Forall2 (fun f v => has_ty (snd f) v) fs vs ->
  0 <= b -> 0 <= acc < 2 ^ b -> b + sum_widths fs <= W ->
  exists y, a2_tup_asm W fs vs b acc = Ok (acc + 2 ^ b * y) /\ enc_fields (fun j => j = 0) fs y vs.
Proof.
  induction fs as [|[k t] fs IHF]; intros acc vs b IH WF F Hb Hacc LW.
  - inversion F; subst. exists 0. cbn. rewrite Z.mul_0_r, Z.add_0_r. split; auto. constructor.
  - inversion F as [|? v0 ? vs0 Hv Fv]; subst.
    inversion IH as [|? ? I1 I2]; inversion WF as [|? ? W1 W2]; subst. cbn [snd sum_widths] in *.
    destruct (I1 W1 v0 Hv) as (x & Ex & Cx).
    pose proof (a2_width_spec _ W1) as Sw. pose proof (a2_width_nonneg _ W1) as Pw.
    pose proof (sum_widths_nonneg _ W2) as Ps.
    pose proof (enc_range _ _ W1 _ _ _ Cx Sw) as Rx.
    cbn [a2_tup_asm]. rewrite Ex. cbn [bind]. unfold zext_to. rewrite (proj2 (Z.ltb_ge _ _)) by lia. cbn [bind].
    assert (0 <= Z.shiftl x b < 2 ^ W) as Rs.
    { rewrite Z.shiftl_mul_pow2 by lia. pose proof (pow2_pos b Hb). split; [nia|].
      assert (x * 2 ^ b < 2 ^ (b + a2_width t)) by (rewrite pow2_split by lia; nia).
      pose proof (pow2_mono (b + a2_width t) W ltac:(lia)). lia. }
    rewrite wrap_small by auto. rewrite lor_shiftl_add by auto.
    destruct (IHF (acc + 2 ^ b * x) vs0 (b + a2_width t)) as (y & Ey & Cy); auto; try lia.
    { rewrite pow2_split by lia. pose proof (pow2_pos b Hb). nia. }
    exists (x + 2 ^ a2_width t * y). split.
    + rewrite Ey. f_equal. rewrite pow2_split by lia. lia.
    + econstructor; eauto.
Qed.

Lemma a2_asm_spec t : wf_ty t -> forall v, has_ty t v ->
  exists op, a2_asm t v = Ok op /\ canonical t op v.
Proof.
  induction t as [| | |c ms|c fs IH|g c fs IH] using ty_ind'; intros W v H.
  - inversion H; subst. eexists. split; [reflexivity|]. constructor.
  - inversion H; subst. cbn [a2_asm]. rewrite wrap_small by auto. eexists. split; [reflexivity|]. constructor; auto.
  - inversion H; subst. cbn [a2_asm]. rewrite wrap_small by auto. eexists. split; [reflexivity|]. constructor; auto.
  - inversion H as [| | |? ? m I| |]; subst. destruct (enum_table_spec c ms W) as (tbl & E & _).
    destruct (enum_facts c ms tbl W E) as (_ & ND & _ & Hc & Ht & _ & Rg).
    destruct (Ht m I) as [x Hx]. exists x. cbn [a2_asm a2_width]. rewrite E. cbn [bind]. unfold dgetE.
    rewrite (dget_NoDup emem_eqb emem_eqb_eq tbl m x ND Hx). cbn [bind]. split.
    + f_equal. apply wrap_small. apply Rg. apply (in_map snd) in Hx. exact Hx.
    + constructor. apply Hc; auto.
  - inversion H as [| | | |? ? vs F|]; subst. rewrite a2_asm_prod.
    assert (Forall (fun f => wf_ty (snd f)) fs) as WF by (inversion W; auto).
    destruct (a2_tup_asm_spec (sum_widths fs) fs 0 vs 0 IH WF F) as (y & E & Ef); try (cbn; lia).
    exists y. rewrite E. split; [f_equal; lia|]. constructor; auto.
  - inversion H as [| | | | |? ? ? k t v' I Hv]; subst.
    assert (no_dup_keys fs) as ND by (inversion W; auto).
    assert (wf_ty t) as Wt by (eapply wf_members_sum; eauto).
    destruct (in_split_key _ _ _ I) as (pre & post & Efs).
    destruct (a2_tag_spec fs pre k t post ND Efs) as (T1 & T2 & T3 & T4 & _).
    rewrite Forall_forall in IH. destruct (IH _ I Wt v' Hv) as (x & Ex & Cx). cbn [snd] in *.
    pose proof (a2_width_spec _ Wt) as Sw. pose proof (a2_width_nonneg _ Wt) as Pw.
    pose proof (enc_range _ _ Wt _ _ _ Cx Sw) as Rx. pose proof (max_widths_ge fs k t I) as Le.
    rewrite a2_asm_sum, T1, (dget_key_In fs k t ND I), Ex. cbn [bind]. unfold zext_to.
    rewrite (proj2 (Z.ltb_ge _ _)) by lia. cbn [bind bv_concat snd fst]. rewrite T4.
    assert (0 <= a2_tagw fs) by apply bit_length_nonneg.
    rewrite lor_shiftl_add by auto. eexists. split; [reflexivity|].
    replace (rank_at pre k post + 2 ^ a2_tagw fs * x) with
      (rank_at pre k post + 2 ^ bits_for (Z.of_nat (length fs) - 1) * (x + 2 ^ a2_width t * 0))
      by (rewrite <- T3; lia).
    eapply enc_sum with (W := a2_width (TSum g c fs)); eauto; [apply a2_width_spec; auto|lia|].
    rewrite <- T3, Z.mul_0_r, Z.add_0_r, a2_width_sum, pow2_split by lia.
    pose proof (pow2_mono (a2_width t) (max_widths fs) ltac:(lia)). nia.
Qed.

(** * Disassembling *)
Fixpoint a2_tup_dsm (fs : list (key * ty)) (op base : Z) : res (list val) :=
  match fs with
  | [] => Ok []
  | (_, t') :: r =>
      do v <- a2_dsm t' (slice op base (base + a2_width t'));
      do vs <- a2_tup_dsm r op (base + a2_width t');
      Ok (v :: vs)
  end.

Lemma a2_dsm_prod c fs op : a2_dsm (TProd c fs) op = do vs <- a2_tup_dsm fs op 0; Ok (VProd vs).
Proof.
  unfold a2_dsm; fold a2_dsm. f_equal. generalize 0. induction fs as [|[k t] fs IH]; intros z; [reflexivity|].
  cbn [a2_tup_dsm]. destruct (a2_dsm t _); [|reflexivity]. cbn [bind]. rewrite IH. reflexivity.
Qed.

Lemma a2_dsm_sum g c fs op : a2_dsm (TSum g c fs) op =
  match a2_name fs (slice op 0 (a2_tagw fs)) with
  | None => Err KeyError
  | Some (k, _) =>
      match dget key_eqb fs k with
      | None => Err KeyError
      | Some t' => do v <- a2_dsm t' (slice op (a2_tagw fs) (a2_tagw fs + a2_width t')); Ok (VSum k v)
      end
  end.
Proof.
  unfold a2_dsm; fold a2_dsm. cbv zeta. destruct (a2_name _ _) as [[k t]|]; auto.
  generalize (a2_tagw fs). intros tw.
  induction fs as [|[k' t'] fs IH]; [reflexivity|]. cbn [dget]. destruct (key_eqb k k'); auto.
Qed.

Lemma a2_dsm_spec J t : wf_ty t -> forall op v, enc J t op v -> a2_dsm t op = Ok v.
Proof.
  induction t as [| | |c ms|c fs IH|g c fs IH] using ty_ind'; intros W op v E.
  - inversion E; subst. cbn. destruct b; reflexivity.
  - inversion E; subst. reflexivity.
  - inversion E; subst. reflexivity.
  - inversion E as [| | |? ? m k C| |]; subst. destruct (enum_table_spec c ms W) as (tbl & Et & _).
    destruct (enum_facts c ms tbl W Et) as (_ & ND & NS & Hc & _).
    cbn [a2_dsm]. rewrite Et. cbn [bind]. apply Hc in C. apply (dsm_lookup_Ok tbl op m NS) in C. rewrite C. reflexivity.
  - inversion E as [| | | |? ? ? vs F|]; subst. rewrite a2_dsm_prod.
    assert (Forall (fun f => wf_ty (snd f)) fs) as WF by (inversion W; auto). clear E W.
    assert (forall b low, 0 <= b -> 0 <= low < 2 ^ b -> a2_tup_dsm fs (low + 2 ^ b * op) b = Ok vs) as X.
    { induction F as [|k t r w x y v vs Sw Ex Ef IHF]; intros b low Hb Hl; [reflexivity|].
      inversion IH as [|? ? I1 I2]; inversion WF as [|? ? W1 W2]; subst. cbn [snd] in *.
      assert (w = a2_width t) as -> by (eapply swidth_fun; eauto using a2_width_spec).
      pose proof (a2_width_nonneg _ W1) as Pw. pose proof (enc_range _ _ W1 _ _ _ Ex Sw) as Rx.
      cbn [a2_tup_dsm].
      rewrite (slice_mid low x y b (a2_width t)) by auto. rewrite (I1 W1 _ _ Ex). cbn [bind].
      replace (low + 2 ^ b * (x + 2 ^ a2_width t * y)) with ((low + 2 ^ b * x) + 2 ^ (b + a2_width t) * y)
        by (rewrite pow2_split by lia; ring).
      rewrite IHF; auto; [lia|]. rewrite pow2_split by lia. pose proof (pow2_pos b Hb). nia. }
    specialize (X 0 0 ltac:(lia) ltac:(cbn; lia)). rewrite Z.add_0_l, Z.mul_1_l in X. rewrite X. reflexivity.
  - inversion E as [| | | | |? ? ? pre k t post W0 w x junk v0 Hfs SW Sw Ex Hj HJ HW]; subst g0 c0 fs0 v op.
    assert (no_dup_keys fs) as ND by (inversion W; auto).
    assert (In (k, t) fs) as I by (rewrite Hfs; apply in_elt).
    assert (wf_ty t) as Wt by (eapply wf_members_sum; eauto).
    destruct (a2_tag_spec fs pre k t post ND Hfs) as (T1 & T2 & T3 & T4 & T5). rewrite <- T3.
    assert (w = a2_width t) as -> by (eapply swidth_fun; eauto using a2_width_spec).
    pose proof (a2_width_nonneg _ Wt) as Pw. pose proof (enc_range _ _ Wt _ _ _ Ex Sw) as Rx.
    assert (0 <= a2_tagw fs) as Pt by apply bit_length_nonneg.
    rewrite a2_dsm_sum, slice_low by auto. rewrite T5, (dget_key_In fs k t ND I).
    rewrite slice_mid by auto.
    rewrite Forall_forall in IH. pose proof (IH _ I Wt _ _ Ex) as X. cbn [snd] in X. rewrite X. reflexivity.
Qed.

Lemma a2_dsm_sound t : wf_ty t -> forall op v, 0 <= op < 2 ^ a2_width t -> a2_dsm t op = Ok v -> encodes t op v.
Proof.
  induction t as [| | |c ms|c fs IH|g c fs IH] using ty_ind'; intros W op v Rg D.
  - cbn in *. assert (op = 0 \/ op = 1) as [->| ->] by lia; injection D as <-; [apply enc_bit with (b := false)|apply enc_bit with (b := true)].
  - cbn in *. injection D as <-. constructor; auto.
  - cbn in *. injection D as <-. constructor; auto.
  - cbn [a2_dsm] in D. destruct (enum_table ms) as [tbl|] eqn:Et; [|discriminate]. cbn [bind] in D.
    destruct (enum_facts c ms tbl W Et) as (_ & ND & NS & Hc & _).
    destruct (dsm_lookup tbl op) as [m|] eqn:Ed; [|discriminate]. injection D as <-.
    constructor. apply Hc. apply (dsm_lookup_Ok tbl op m NS). auto.
  - rewrite a2_dsm_prod in D. assert (Forall (fun f => wf_ty (snd f)) fs) as WF by (inversion W; auto). clear W.
    rewrite a2_width_prod in Rg.
    assert (forall b vs, 0 <= b -> a2_tup_dsm fs op b = Ok vs -> 0 <= op / 2 ^ b < 2 ^ sum_widths fs ->
      enc_fields (fun _ => True) fs (op / 2 ^ b) vs) as X.
    { clear D Rg v. induction fs as [|[k t] fs IHF]; intros b vs Hb D Rg.
      - cbn in *. injection D as <-. assert (op / 2 ^ b = 0) as -> by lia. constructor.
      - inversion IH as [|? ? I1 I2]; inversion WF as [|? ? W1 W2]; subst. cbn [snd sum_widths a2_tup_dsm] in *.
        pose proof (a2_width_nonneg _ W1) as Pw. pose proof (sum_widths_nonneg _ W2) as Ps.
        destruct (a2_dsm t _) as [v|] eqn:Ed; [|discriminate]. cbn [bind] in D.
        destruct (a2_tup_dsm fs op (b + a2_width t)) as [vs'|] eqn:Er; [|discriminate]. injection D as <-.
        pose proof (slice_range op b (b + a2_width t) ltac:(lia)) as Rs.
        replace (b + a2_width t - b) with (a2_width t) in Rs by lia.
        specialize (I1 W1 _ _ Rs Ed).
        rewrite (split_low (op / 2 ^ b) (a2_width t) Pw).
        rewrite slice_div in I1 by lia. replace (b + a2_width t - b) with (a2_width t) in I1 by lia.
        assert (op / 2 ^ b / 2 ^ a2_width t = op / 2 ^ (b + a2_width t)) as Ed2.
        { pose proof (pow2_pos b Hb). pose proof (pow2_pos _ Pw). rewrite Z.div_div, <- pow2_split by lia. auto. }
        econstructor; [apply a2_width_spec; auto|exact I1|].
        rewrite Ed2. apply IHF; auto; [lia|]. rewrite <- Ed2.
        pose proof (pow2_pos (a2_width t) Pw). split; [apply Z.div_pos; lia|].
        apply Z.div_lt_upper_bound; [lia|]. rewrite <- pow2_split by lia. lia. }
    destruct (a2_tup_dsm fs op 0) as [vs|] eqn:Ed; [|discriminate]. injection D as <-.
    specialize (X 0 vs ltac:(lia) Ed). rewrite Z.div_1_r in X. constructor. auto.
  - rewrite a2_dsm_sum in D. assert (no_dup_keys fs) as ND by (inversion W; auto).
    destruct (a2_name fs (slice op 0 (a2_tagw fs))) as [[k t]|] eqn:En; [|discriminate].
    apply a2_name_inv in En as (pre & post & Hfs & Et); auto.
    assert (In (k, t) fs) as I by (rewrite Hfs; apply in_elt).
    rewrite (dget_key_In fs k t ND I) in D.
    assert (wf_ty t) as Wt by (eapply wf_members_sum; eauto).
    destruct (a2_dsm t _) as [v'|] eqn:Ed; [|discriminate]. injection D as <-.
    destruct (a2_tag_spec fs pre k t post ND Hfs) as (T1 & T2 & T3 & T4 & T5).
    pose proof (a2_width_nonneg _ Wt) as Pw. assert (0 <= a2_tagw fs) as Pt by apply bit_length_nonneg.
    pose proof (slice_range op (a2_tagw fs) (a2_tagw fs + a2_width t) ltac:(lia)) as Rs.
    replace (a2_tagw fs + a2_width t - a2_tagw fs) with (a2_width t) in Rs by lia.
    rewrite Forall_forall in IH. pose proof (IH _ I Wt _ _ Rs Ed) as Ex. cbn [snd] in Ex.
    rewrite slice_div in Ex by lia. replace (a2_tagw fs + a2_width t - a2_tagw fs) with (a2_width t) in Ex by lia.
    pose proof (split_low op (a2_tagw fs) Pt) as S1.
    pose proof (split_low (op / 2 ^ a2_tagw fs) (a2_width t) Pw) as S2.
    rewrite Et in S1. rewrite S2 in S1. rewrite T3 in S1. rewrite S1.
    eapply enc_sum with (W := a2_width (TSum g c fs)); eauto using a2_width_spec.
    + rewrite <- T3. exact Ex.
    + apply Z.div_pos; [apply Z.div_pos; [lia|]|]; apply pow2_pos; lia.
    + rewrite <- S1. lia.
Qed.

Lemma a2_dsm_err t : wf_ty t -> forall op e, a2_dsm t op = Err e -> e = KeyError.
Proof.
  induction t as [| | |c ms|c fs IH|g c fs IH] using ty_ind'; intros W op e D.
  - discriminate.
  - discriminate.
  - discriminate.
  - cbn [a2_dsm] in D. destruct (enum_table_spec c ms W) as (tbl & E & _). rewrite E in D. cbn [bind] in D.
    destruct (dsm_lookup tbl op) eqn:Ed; [discriminate|]. cbn in D. injection D as <-. eapply dsm_lookup_err; eauto.
  - rewrite a2_dsm_prod in D. assert (Forall (fun f => wf_ty (snd f)) fs) as WF by (inversion W; auto).
    destruct (a2_tup_dsm fs op 0) as [|e0] eqn:Ed; [discriminate|]. injection D as <-. clear W. revert Ed. generalize 0.
    induction fs as [|[k t] fs IHF]; intros b Ed; [discriminate|].
    inversion IH as [|? ? I1 I2]; inversion WF as [|? ? W1 W2]; subst. cbn [snd a2_tup_dsm] in *.
    destruct (a2_dsm t _) eqn:E1; cbn [bind] in Ed; [|injection Ed as <-; eauto].
    destruct (a2_tup_dsm fs op _) eqn:E2; cbn [bind] in Ed; [discriminate|injection Ed as <-; eauto].
  - rewrite a2_dsm_sum in D. assert (no_dup_keys fs) as ND by (inversion W; auto).
    destruct (a2_name fs (slice op 0 (a2_tagw fs))) as [[k t]|] eqn:En; [|congruence].
    apply a2_name_inv in En as (pre & post & Hfs & Et); auto.
    assert (In (k, t) fs) as I by (rewrite Hfs; apply in_elt).
    rewrite (dget_key_In fs k t ND I) in D. rewrite Forall_forall in IH.
    destruct (a2_dsm t _) eqn:E1; cbn [bind] in D; [discriminate|injection D as <-].
    eapply (IH _ I); eauto. eapply wf_members_sum; eauto.
Qed.

(** * Fields *)
Lemma extract_prod J fs : forall y vs, enc_fields J fs y vs -> Forall (fun f => wf_ty (snd f)) fs ->
  NoDup (map fst fs) -> forall i k t v b low, nth_error fs i = Some (k, t) -> nth_error vs i = Some v ->
  0 <= b -> 0 <= low < 2 ^ b ->
  exists lo hi, dget key_eqb (a2_layout b fs) k = Some (lo, hi) /\
    enc J t (slice (low + 2 ^ b * y) lo hi) v.
Proof.
  induction 1 as [|k0 t0 r w x y v0 vs Sw Ex Ef IH]; intros WF ND i k t v b low Ei Ev Hb Hl; [destruct i; discriminate|].
  inversion WF as [|? ? W1 W2]; inversion ND as [|? ? N1 N2]; subst. cbn [snd fst map] in *.
  assert (w = a2_width t0) as -> by (eapply swidth_fun; eauto using a2_width_spec).
  pose proof (a2_width_nonneg _ W1) as Pw. pose proof (enc_range _ _ W1 _ _ _ Ex Sw) as Rx.
  cbn [a2_layout dget]. destruct i as [|i]; cbn in Ei, Ev.
  - injection Ei as -> ->. injection Ev as ->. rewrite (proj2 (key_eqb_eq k k)) by auto.
    do 2 eexists. split; [reflexivity|]. rewrite slice_mid by auto. auto.
  - destruct (key_eqb k k0) eqn:Ek.
    + apply key_eqb_eq in Ek as ->. destruct N1. apply nth_error_In in Ei. apply (in_map fst) in Ei. exact Ei.
    + replace (low + 2 ^ b * (x + 2 ^ a2_width t0 * y)) with ((low + 2 ^ b * x) + 2 ^ (b + a2_width t0) * y)
        by (rewrite pow2_split by lia; ring).
      eapply IH; eauto; [lia|]. rewrite pow2_split by lia. pose proof (pow2_pos b Hb). nia.
Qed.

Lemma a2_extract_spec J t op v k t' v' : wf_ty t -> enc J t op v -> sub_val t v [k] t' v' ->
  exists x, a2_extract t op k = Ok x /\ enc J t' x v'.
Proof.
  intros W E Sv.
  inversion Sv as [|c fs vs ? ? i t1 v1 ? ? Ei Ev S1|g c fs ? ? t1 v1 ? ? I S1]; subst; inversion S1; subst.
  - inversion E as [| | | |? ? ? ? F|]; subst. inversion W; subst.
    destruct (extract_prod J fs op vs F ltac:(auto) ltac:(auto) i k t' v' 0 0 Ei Ev ltac:(lia) ltac:(cbn; lia))
      as (lo & hi & Ed & En). cbn [a2_extract]. rewrite Ed. rewrite Z.mul_1_l, Z.add_0_l in En. eauto.
  - inversion E as [| | | | |? ? ? pre k0 t0 post W0 w x junk v0 Hfs SW Sw Ex Hj HJ HW]; subst k0 v0 g0 c0 fs0.
    assert (no_dup_keys fs) as ND by (inversion W; auto).
    assert (In (k, t0) fs) as I0 by (rewrite Hfs; apply in_elt).
    assert (t0 = t') as -> by (eapply nodup_key_fun; eauto).
    assert (wf_ty t') as Wt by (eapply wf_members_sum; eauto).
    destruct (a2_tag_spec fs pre k t' post ND Hfs) as (T1 & T2 & T3 & T4 & T5). rewrite <- T3 in *.
    assert (w = a2_width t') as -> by (eapply swidth_fun; eauto using a2_width_spec).
    pose proof (a2_width_nonneg _ Wt) as Pw. pose proof (enc_range _ _ Wt _ _ _ Ex Sw) as Rx.
    assert (0 <= a2_tagw fs) as Pt by apply bit_length_nonneg.
    cbn [a2_extract]. rewrite (dget_key_In fs k t' ND I). rewrite slice_mid by auto. eauto.
Qed.

Lemma a2_tag_bits J g c fs op k v : wf_ty (TSum g c fs) -> enc J (TSum g c fs) op (VSum k v) ->
  exists pre t post, fs = pre ++ (k, t) :: post /\ slice op 0 (a2_tagw fs) = rank_at pre k post.
Proof.
  intros W E.
  inversion E as [| | | | |? ? ? pre k0 t0 post W0 w x junk v0 Hfs SW Sw Ex Hj HJ HW]; subst k0 v0 g0 c0 fs0.
  assert (no_dup_keys fs) as ND by (inversion W; auto).
  destruct (a2_tag_spec fs pre k t0 post ND Hfs) as (T1 & T2 & T3 & T4 & T5). rewrite <- T3.
  exists pre, t0, post. split; auto. apply slice_low; auto. apply bit_length_nonneg.
Qed.

Lemma a2_match_spec J g c fs op k v k' t' : wf_ty (TSum g c fs) -> enc J (TSum g c fs) op (VSum k v) ->
  In (k', t') fs -> exists b, a2_match (TSum g c fs) op k' = Ok b /\ (b = true <-> k' = k).
Proof.
  intros W E I'. destruct (a2_tag_bits J g c fs op k v W E) as (pre & t & post & Hfs & Eb).
  assert (no_dup_keys fs) as ND by (inversion W; auto).
  apply in_split in I' as (pre' & post' & Hfs').
  destruct (a2_tag_spec fs pre k t post ND Hfs) as (T1 & _ & _ & _ & T5).
  destruct (a2_tag_spec fs pre' k' t' post' ND Hfs') as (T1' & _ & _ & T4' & T5').
  cbn [a2_match]. rewrite T1', T4', Eb. eexists. split; [reflexivity|]. rewrite Z.eqb_eq. split.
  - intros Er. rewrite Er in T5. congruence.
  - intros ->. congruence.
Qed.

Lemma tags_of_type_In l u x : forall n, In x (tags_of_type l u n) <->
  exists i k, nth_error l i = Some (k, u) /\ x = n + Z.of_nat i.
Proof.
  induction l as [|[k t] l IH]; intros n; cbn [tags_of_type].
  - split; [intros []|]. intros (i & k & E & _). destruct i; discriminate.
  - rewrite in_app_iff, IH. split.
    + intros [H|(i & k' & E & ->)].
      * destruct (ty_eqb u t) eqn:Eu; [|destruct H]. apply ty_eqb_eq in Eu as ->. destruct H as [<-|[]].
        exists O, k. split; auto. lia.
      * exists (S i), k'. split; auto. lia.
    + intros ([|i] & k' & E & ->); cbn in E.
      * injection E as -> ->. left. rewrite (proj2 (ty_eqb_eq u u)) by auto. left. lia.
      * right. exists i, k'. split; auto. lia.
Qed.

Lemma a2_match_type_spec J g c fs op k v u : wf_ty (TSum g c fs) -> enc J (TSum g c fs) op (VSum k v) ->
  exists b, a2_match_type (TSum g c fs) op u = Ok b /\ (b = true <-> In (k, u) fs).
Proof.
  intros W E. destruct (a2_tag_bits J g c fs op k v W E) as (pre & t & post & Hfs & Eb).
  assert (no_dup_keys fs) as ND by (inversion W; auto).
  destruct (a2_tag_spec fs pre k t post ND Hfs) as (T1 & T2 & T3 & T4 & T5).
  cbn [a2_match_type]. eexists. split; [reflexivity|].
  rewrite fold_orb_map, Eb. split.
  - intros [|(x & I & Ex)]; [discriminate|]. apply tags_of_type_In in I as (i & k' & Ei & ->). rewrite Z.add_0_l in Ex.
    pose proof Ei as Ei'. apply rank_iff in Ei' as (pre' & post' & Hfs' & Er); auto. rewrite Er in Ex.
    destruct (a2_tag_spec fs pre' k' u post' ND Hfs') as (T1' & _ & _ & T4' & T5').
    rewrite T4' in Ex. apply Z.eqb_eq in Ex. rewrite <- Ex in T5'. rewrite T5 in T5'. injection T5' as <- <-.
    rewrite Hfs. apply in_elt.
  - intros I. assert (u = t) as -> by (eapply nodup_key_fun; eauto; rewrite Hfs; apply in_elt).
    right. exists (rank_at pre k post). split.
    + apply tags_of_type_In. pose proof (rank_index pre k t post) as Ri. rewrite <- Hfs in Ri.
      exists (Z.to_nat (rank_at pre k post)), k. split; auto. lia.
    + rewrite T4. apply Z.eqb_refl.
Qed.

(** * from_fields *)
Lemma a2_layout_tiles fs : forall b, a2_layout b fs = combine (map fst fs) (tiles b (map (fun f => a2_width (snd f)) fs)).
Proof. induction fs as [|[k t] fs IH]; intros b; cbn; auto. f_equal. apply IH. Qed.

Lemma sum_widths_zsum fs : sum_widths fs = zsum (map (fun f => a2_width (snd f)) fs).
Proof. unfold zsum. induction fs as [|[k t] fs IH]; cbn; auto; f_equal; auto. Qed.

Definition word_for (J : Z -> Prop) (t : ty) (v : val) (x : bv) : Prop :=
  swidth t (fst x) /\ enc J t (snd x) v.

Lemma words_cat J fs : forall vs xs, Forall (fun f => wf_ty (snd f)) fs ->
  Forall2 (fun f vx => word_for J (snd f) (fst vx) (snd vx)) fs (combine vs xs) ->
  length vs = length xs ->
  Forall bv_ok xs /\ enc_fields J fs (snd (cat xs)) vs /\ fst (cat xs) = sum_widths fs /\ length xs = length fs.
Proof.
  induction fs as [|[k t] fs IH]; intros vs xs WF F L.
  - destruct vs as [|v vs], xs as [|x xs]; inversion F; try discriminate. cbn. repeat split; auto. constructor.
  - destruct vs as [|v vs], xs as [|x xs]; inversion F as [|? ? ? ? [Sx Ex] Fr]; try discriminate; subst.
    inversion WF as [|? ? W1 W2]; subst. cbn [fst snd] in *.
    destruct (IH vs xs W2 Fr ltac:(cbn in L; lia)) as (F1 & E1 & E2 & E3).
    assert (fst x = a2_width t) as Ew by (eapply swidth_fun; eauto using a2_width_spec).
    cbn [cat fst snd sum_widths length]. split; [|split; [|split]].
    + constructor; auto. split; [rewrite Ew; apply a2_width_nonneg; auto|eapply enc_range; eauto].
    + econstructor; eauto.
    + lia.
    + lia.
Qed.

Lemma a2_prod_from_fields_ok (J : Z -> Prop) c fs vs xs pad :
  wf_ty (TProd c fs) -> length vs = length xs ->
  Forall2 (fun f vx => word_for J (snd f) (fst vx) (snd vx)) fs (combine vs xs) ->
  fs <> [] -> (length fs = 1%nat \/ forall k t, In (k, t) fs -> ~ swidth t 0) ->
  exists op, a2_prod_from_fields (TProd c fs) xs pad = Ok op /\ enc J (TProd c fs) op (VProd vs).
Proof.
  intros W L F NE Pos.
  assert (Forall (fun f => wf_ty (snd f)) fs) as WF by (inversion W; auto).
  assert (NoDup (map fst fs)) as ND by (inversion W; auto).
  destruct (words_cat J fs vs xs WF F L) as (Fo & Ef & Es & Lx).
  unfold a2_prod_from_fields. rewrite (proj2 (Nat.eqb_eq _ _)) by lia. cbn [negb].
  unfold create2. rewrite a2_layout_tiles. rewrite a2_width_prod, sum_widths_zsum.
  set (ws := map (fun f : key * ty => a2_width (snd f)) fs) in *.
  assert (length ws = length fs) as Lw by (unfold ws; rewrite map_length; auto).
  rewrite map_fst_combine, map_snd_combine by (rewrite ?tiles_length, ?map_length; auto).
  rewrite map_fst_combine by (rewrite map_length; auto).
  rewrite same_keys_refl. cbn [negb].
  assert (Forall (fun w => 0 <= w) ws) as Pw.
  { unfold ws. clear - WF. induction WF; cbn; constructor; auto. apply a2_width_nonneg; auto. }
  assert (0 <= zsum ws) as Pz by (unfold ws; rewrite <- sum_widths_zsum; apply sum_widths_nonneg; auto).
  rewrite isort_id by (apply tiles_sorted; auto).
  assert (combine (map fst fs) xs <> []) as NEc by (destruct fs, xs; cbn in *; congruence || discriminate).
  set (s0 := map (fun i => Some (1, b2z (pad i))) (seq 0 (Z.to_nat (zsum ws)))).
  assert (@length (option bv) s0 = Z.to_nat (zsum ws)) as Ls by (unfold s0; rewrite map_length, seq_length; auto).
  assert (exists sl, fill (combine (map fst fs) (tiles 0 ws)) (combine (map fst fs) xs) s0 = Ok sl
            /\ somes sl = xs /\ ranges_ok (zsum ws) (tiles 0 ws) = true) as (sl & E1 & E2 & E3).
  { destruct Pos as [L1|Pos].
    - destruct fs as [|[k t] [|]]; try discriminate. destruct ws as [|w0 [|]]; try discriminate.
      destruct xs as [|x [|]]; try discriminate.
      cbn [map fst tiles combine fill]. unfold dgetE. cbn [dget].
      rewrite (proj2 (key_eqb_eq k k)) by auto. cbn [bind]. eexists. split; [reflexivity|].
      split; [|reflexivity]. unfold slot_set. change (Z.to_nat 0) with 0%nat. cbn [firstn app somes].
      rewrite somes_app, somes_none. cbn [app].
      unfold zsum in Ls. cbn [fold_right] in Ls. rewrite Z.add_0_l, skipn_all2; [reflexivity|]. rewrite Z.add_0_r in Ls. apply Nat.eq_le_incl. exact Ls.
    - assert (Forall (fun w => 0 < w) ws) as Pp.
      { apply Forall_forall. intros x I. rewrite Forall_forall in Pw. specialize (Pw x I).
        destruct (Z.eq_dec x 0) as [->|]; [|lia]. exfalso.
        unfold ws in I. apply in_map_iff in I as ([k t] & E0 & I). cbn in E0.
        rewrite Forall_forall in WF. apply (Pos k t I). rewrite <- E0. apply a2_width_spec, (WF _ I). }
      destruct (fill_tiles (map fst fs) ws (combine (map fst fs) xs) (combine (map fst fs) xs) 0 [] s0) as (sl & E1 & E2); auto.
      + rewrite map_length; auto.
      + rewrite map_fst_combine by (rewrite map_length; auto). auto.
      + rewrite map_fst_combine by (rewrite map_length; auto). auto.
      + lia.
      + lia.
      + exists sl. split; auto. split.
        * rewrite E2. cbn [app somes]. rewrite map_snd_combine by (rewrite map_length; auto).
          rewrite skipn_all2, app_nil_r; auto. lia.
        * apply ranges_ok_tiles; auto; lia. }
  rewrite E3. cbn [negb]. destruct (combine (map fst fs) xs) as [|e l] eqn:Ec; [congruence|].
  rewrite E1. cbn [bind]. rewrite E2.
  rewrite reduce_concat_ok; auto. 2:{ destruct xs; [destruct fs; cbn in *; congruence|discriminate]. }
  cbn [bind]. rewrite Es, sum_widths_zsum. fold ws. rewrite Z.eqb_refl. eexists. split; [reflexivity|].
  constructor. auto.
Qed.

Definition pad_ok (J : Z -> Prop) (pad : nat -> bool) : Prop :=
  forall a n, J (snd (cat (map (fun i => (1, b2z (pad i))) (seq a n)))).

Lemma bits_ok (pad : nat -> bool) n : forall a, Forall bv_ok (map (fun i => (1, b2z (pad i))) (seq a n)) /\
  fst (cat (map (fun i => (1, b2z (pad i))) (seq a n))) = Z.of_nat n.
Proof.
  induction n as [|n IH]; intros a; cbn [seq map cat]; [split; [constructor|reflexivity]|].
  destruct (IH (S a)) as [F E]. split.
  - constructor; auto. split; cbn [fst snd]; [lia|]. destruct (pad a); cbn; lia.
  - cbn [fst]. rewrite E. lia.
Qed.

Lemma skipn_map_seq A (f : nat -> A) n : forall a m, skipn m (map f (seq a n)) = map f (seq (a + m) (n - m)).
Proof.
  induction n as [|n IH]; intros a [|m]; cbn [seq map skipn]; auto.
  - rewrite Nat.add_0_r. auto.
  - rewrite IH. replace (S a + m)%nat with (a + S m)%nat by lia. auto.
Qed.
Lemma somes_map A B (f : A -> B) l : somes (map (fun x => Some (f x)) l) = map f l.
Proof. induction l; cbn; auto. f_equal; auto. Qed.

Lemma create2_sum w tagw f z tag pad :
  0 < tagw -> 0 < f -> tagw + f <= w -> 0 <= tag < 2 ^ tagw -> 0 <= z < 2 ^ f ->
  exists junk, create2 w [(k_value, (tagw, tagw + f)); (k_tag, (0, tagw))]
    [(k_value, (f, z)); (k_tag, (tagw, tag))] pad = Ok (tag + 2 ^ tagw * (z + 2 ^ f * junk)) /\
    0 <= junk < 2 ^ (w - tagw - f) /\ (forall J, pad_ok J pad -> J junk).
Proof.
  intros Pt Pf Lw Rt Rz. unfold create2.
  replace (same_keys _ _) with true by reflexivity. cbn [negb map snd isort insert].
  unfold pair_leb at 1. cbn [fst snd].
  rewrite (proj2 (Z.ltb_ge tagw 0)) by lia. rewrite (proj2 (Z.eqb_neq tagw 0)) by lia. cbn [orb andb].
  cbn [ranges_ok fst snd].
  rewrite !(proj2 (Z.leb_le _ _)), !(proj2 (Z.ltb_lt _ _)) by lia. cbn [andb negb].
  match goal with |- context [fill ?l ?b ?s] =>
    change (fill l b s) with (Ok (slot_set (slot_set s tagw (tagw + f) (f, z)) 0 tagw (tagw, tag))) end.
  cbn [bind]. rewrite slot_set_sum by (rewrite ?map_length, ?seq_length; lia).
  rewrite skipn_map_seq. cbn [Nat.add].
  cbn [somes]. rewrite somes_app, somes_none. cbn [app somes]. rewrite somes_app, somes_none, somes_map. cbn [app].
  set (n := (Z.to_nat w - Z.to_nat (tagw + f))%nat). set (s := Z.to_nat (tagw + f)).
  destruct (bits_ok pad n s) as [Fb Eb].
  rewrite reduce_concat_ok; [|discriminate|].
  2:{ constructor; [split; cbn [fst snd]; lia|]. constructor; [split; cbn [fst snd]; lia|]. auto. }
  cbn [bind cat fst snd]. rewrite Eb.
  exists (snd (cat (map (fun i => (1, b2z (pad i))) (seq s n)))).
  replace (tagw + (f + Z.of_nat n) =? w) with true by lia. split; auto. split.
  - destruct (cat_ok _ Fb) as [_ Rg]. rewrite Eb in Rg. replace (w - tagw - f) with (Z.of_nat n) by lia. auto.
  - intros J Hp. apply Hp.
Qed.

Lemma a2_sum_from_fields_ok (J : Z -> Prop) g c fs k t v x pad :
  wf_ty (TSum g c fs) -> In (k, t) fs -> word_for J t v x -> pad_ok J pad ->
  (2 <= length fs)%nat -> ~ swidth t 0 ->
  exists op, a2_sum_from_fields (TSum g c fs) k x pad = Ok op /\ enc J (TSum g c fs) op (VSum k v).
Proof.
  intros W I [Sx Ex] HP L2 NW.
  assert (no_dup_keys fs) as ND by (inversion W; auto).
  assert (wf_ty t) as Wt by (eapply wf_members_sum; eauto).
  pose proof (in_split_key _ _ _ I) as (pre & post & Hfs).
  destruct (a2_tag_spec fs pre k t post ND Hfs) as (T1 & T2 & T3 & T4 & T5).
  destruct x as [w z]. cbn [fst snd] in *.
  assert (w = a2_width t) as -> by (eapply swidth_fun; eauto using a2_width_spec).
  pose proof (enc_range _ _ Wt _ _ _ Ex Sx) as Rz. pose proof (a2_width_nonneg _ Wt) as Pw.
  assert (a2_width t <> 0) as NZ by (intros E; rewrite E in Sx; auto).
  assert (0 <= a2_tagw fs) as Pt0 by apply bit_length_nonneg.
  assert (0 < a2_tagw fs) as Pt.
  { assert (a2_tagw fs <> 0); [|lia]. intros E.
    pose proof (lt_pow2_bits_for (Z.of_nat (length fs) - 1) (Z.of_nat (length fs) - 1) ltac:(lia)) as P.
    rewrite <- T3, E in P. change (2 ^ 0) with 1 in P. lia. }
  pose proof (max_widths_ge fs k t I) as Le.
  assert (a2_width (TSum g c fs) = a2_tagw fs + max_widths fs) as EW by apply a2_width_sum.
  unfold a2_sum_from_fields. rewrite T1, (dget_key_In fs k t ND I), T4.
  destruct (create2_sum (a2_width (TSum g c fs)) (a2_tagw fs) (a2_width t) z (rank_at pre k post) pad)
    as (junk & Ec & Rj & Hj); try lia.
  eexists. split; [exact Ec|]. rewrite T3 in *.
  apply enc_sum with (t := t) (W := a2_width (TSum g c fs)); auto using a2_width_spec; [lia|apply Hj; exact HP|].
  rewrite EW in *. set (tw := bits_for (Z.of_nat (length fs) - 1)) in *.
  replace (tw + max_widths fs) with (tw + (a2_width t + (tw + max_widths fs - tw - a2_width t))) at 1 by lia.
  rewrite !pow2_split by lia. pose proof (pow2_pos tw ltac:(lia)). pose proof (pow2_pos (a2_width t) ltac:(lia)).
  set (A1 := 2 ^ tw) in *. set (B1 := 2 ^ a2_width t) in *. set (C1 := 2 ^ (tw + max_widths fs - tw - a2_width t)) in *.
  assert (z + B1 * junk <= B1 * C1 - 1) by nia. nia.
Qed.

Lemma pad_zero : pad_ok (fun j => j = 0) (fun _ => false).
Proof.
  intros a n. revert a. induction n as [|n IH]; intros a; cbn [seq map cat snd fst]; auto.
  rewrite (IH (S a)). reflexivity.
Qed.
