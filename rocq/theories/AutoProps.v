(** Property theorem C18: peak/auto_assembler.py. *)
From Coq Require Import String ZArith List Bool Lia Permutation.
From Verif Require Import Base BaseLemmas AsmModel AsmSpec AsmValid AsmEnum AsmBuild AsmProofs AsmCheck AsmProps
  AadtModel AadtProofs Asm2Model Asm2Proofs AutoModel.
Import ListNotations.
Open Scope list_scope.
Open Scope Z_scope.

(** * Enum *)
Lemma aut_scan_eq ms : (forall v, In (EInt v) ms -> 0 <= v) -> forall tbl used free,
  enum_scan ms tbl used free = Ok (aut_scan ms tbl used free).
Proof.
  induction ms as [|[v|n] ms IH]; intros P tbl used free; cbn [enum_scan aut_scan]; auto.
  - rewrite (proj2 (Z.ltb_ge _ _)) by (apply P; left; auto). apply IH. intros; apply P; right; auto.
  - apply IH. intros; apply P; right; auto.
Qed.

Lemma aut_table_spec c ms : wf_ty (TEnum c ms) ->
  exists tbl, aut_table ms = Ok tbl /\ NoDup (map fst tbl) /\ NoDup (map snd tbl) /\
    (forall m, In m ms <-> exists x, In (m, x) tbl) /\
    (forall m x, In (m, x) tbl -> 0 <= x < 2 ^ aut_width (TEnum c ms)) /\
    (forall v, In (EInt v) ms -> In (EInt v, v) tbl).
Proof.
  intros W. inversion W as [| | |? ? NE P D| |]; subst. apply autos_NoDup in D.
  destruct (enum_scan_spec ms [] [] []) as (tbl & used & E & ND & T & U & V); auto.
  { constructor. } { intros ? ? []. } { intros; cbn; tauto. }
  rewrite aut_scan_eq in E by auto. injection E as E. cbn [app] in E.
  assert (HT : forall m x, In (m, x) tbl <-> m = EInt x /\ In (EInt x) ms).
  { intros m x. split.
    - intros I. pose proof (T _ _ I) as ->. split; auto. apply U, V in I. destruct I as [[]|I]; auto.
    - intros [-> I]. apply U, V. auto. }
  assert (NoDup (map EAuto (autos ms))) as NDa by (apply FinFun.Injective_map_NoDup; auto; intros a b; congruence).
  destruct (enum_assign_spec ms (rev (map EAuto (autos ms))) 0 0 O tbl used) as (ext & Ea & Fa & Ga); auto; try lia.
  { intros x. rewrite V. cbn. intuition lia. }
  { apply NoDup_rev; auto. }
  { intros m I I2. apply in_rev in I. apply in_map_iff in I as (n & <- & I).
    apply in_map_iff in I2 as ([m' x] & E2 & I2). cbn in E2. subst. apply HT in I2 as [? _]. discriminate. }
  assert (aut_table ms = Ok (tbl ++ ext)) as Et by (unfold aut_table; rewrite E; auto).
  exists (tbl ++ ext). split; auto.
  assert (NoDup (map fst (tbl ++ ext))) as N1.
  { rewrite map_app, Fa. apply NoDup_app_intro; auto; [apply NoDup_rev; auto|].
    intros m I I2. apply in_rev in I2. apply in_map_iff in I2 as (n & <- & I2).
    apply in_map_iff in I as ([m' x] & E2 & I). cbn in E2. subst. apply HT in I as [? _]. discriminate. }
  assert (forall m x, In (m, x) (tbl ++ ext) -> 0 <= x) as Pos.
  { intros m x I. apply in_app_iff in I as [I|I]; [apply HT in I as [_ I]; auto|apply Ga in I; tauto]. }
  assert (forall m m' x, In (m, x) (tbl ++ ext) -> In (m', x) (tbl ++ ext) -> m = m') as Inj.
  { intros m m' x A B. apply in_app_iff in A as [A|A], B as [B|B].
    - apply HT in A as [-> _]. apply HT in B as [-> _]. auto.
    - apply HT in A as [_ A]. apply Ga in B. tauto.
    - apply HT in B as [_ B]. apply Ga in A. tauto.
    - apply Ga in A as (_ & _ & j & A1 & A2). apply Ga in B as (_ & _ & j' & B1 & B2).
      assert (j = j') as -> by lia. congruence. }
  split; auto. split; [|split; [|split]].
  - clear - N1 Inj. induction (tbl ++ ext) as [|[m x] l IH]; [constructor|]. inversion N1; subst. cbn. constructor.
    + intros J. apply in_map_iff in J as ([m' y] & Ey & J). cbn in Ey. subst y.
      assert (m = m') by (apply (Inj m m' x); [left|right]; auto). subst.
      destruct H1. apply (in_map fst) in J. exact J.
    + apply IH; auto. intros a b y A B. apply (Inj a b y); right; auto.
  - intros m. split.
    + intros I. destruct m as [v|n].
      * exists v. apply in_app_iff. left. apply HT. auto.
      * assert (In (EAuto n) (map fst ext)) as Ie.
        { rewrite Fa. apply in_rev. rewrite rev_involutive. apply in_map, autos_In; auto. }
        apply in_map_iff in Ie as ([m' x] & E1 & Ie). cbn in E1. subst. exists x. apply in_app_iff; auto.
    + intros (x & I). apply in_app_iff in I as [I|I]; [apply HT in I as [-> I]; auto|].
      apply (in_map fst) in I. rewrite Fa in I. apply in_rev in I. apply in_map_iff in I as (n & En & I).
      cbn in En. subst. apply autos_In; auto.
  - intros m x I. split; [eauto|]. cbn [aut_width]. rewrite Et.
    destruct (zmax_spec (map snd (tbl ++ ext))) as (Z1 & Z2 & Z3).
    pose proof (Z1 x (in_map snd _ _ I)). pose proof (bit_length_lt _ Z3). lia.
  - intros v I. apply in_app_iff. left. apply HT. auto.
Qed.

(** * Widths and unfolding equations *)
Fixpoint asum_widths (fs : list (key * ty)) : Z :=
  match fs with [] => 0 | (_, t') :: r => aut_width t' + asum_widths r end.
Fixpoint amax_widths (fs : list (key * ty)) : Z :=
  match fs with [] => 0 | (_, t') :: r => Z.max (aut_width t') (amax_widths r) end.
Lemma aut_width_prod c fs : aut_width (TProd c fs) = asum_widths fs.
Proof. reflexivity. Qed.
Lemma aut_width_sum g c fs : aut_width (TSum g c fs) = amax_widths fs + aut_tagw fs.
Proof. reflexivity. Qed.

Lemma aut_width_nonneg t : wf_ty t -> 0 <= aut_width t.
Proof.
  induction t as [| | |c ms|c fs IH|g c fs IH] using ty_ind'; intros W.
  - cbn; lia.
  - inversion W; cbn; lia.
  - inversion W; cbn; lia.
  - cbn [aut_width]. destruct (aut_table ms); [apply bit_length_nonneg|lia].
  - rewrite aut_width_prod. assert (Forall (fun f => wf_ty (snd f)) fs) as WF by (inversion W; auto).
    clear W. induction fs as [|[k t] fs IHF]; cbn [asum_widths]; [lia|].
    inversion IH; inversion WF; subst. cbn [snd] in *. specialize (H1 H5). specialize (IHF H2 H6). lia.
  - rewrite aut_width_sum. pose proof (bit_length_nonneg (Z.of_nat (length fs))).
    assert (0 <= amax_widths fs); [|unfold aut_tagw; lia].
    clear. induction fs as [|[k t] fs IHF]; cbn [amax_widths]; lia.
Qed.
Lemma amax_widths_ge fs k t : In (k, t) fs -> aut_width t <= amax_widths fs.
Proof.
  induction fs as [|[k' t'] fs IH]; cbn [amax_widths]; intros []; [|specialize (IH H); lia].
  injection H as -> ->. lia.
Qed.
Lemma asum_widths_nonneg fs : Forall (fun f => wf_ty (snd f)) fs -> 0 <= asum_widths fs.
Proof. induction 1 as [|[k t] fs W F IH]; cbn [asum_widths]; [lia|]. pose proof (aut_width_nonneg _ W). cbn in *. lia. Qed.

Fixpoint aut_tup_asm (W : Z) (fs : list (key * ty)) (vs : list val) (base opcode : Z) : res Z :=
  match fs, vs with
  | [], _ => Ok opcode
  | (_, t') :: fs', v' :: vs' =>
      do x <- aut_asm t' v';
      aut_tup_asm W fs' vs' (base + aut_width t') (Z.lor opcode (wrap W (Z.shiftl (wrap W x) base)))
  | _, [] => Err KeyError
  end.
Lemma aut_asm_prod c fs vs : aut_asm (TProd c fs) (VProd vs) = aut_tup_asm (asum_widths fs) fs vs 0 0.
Proof.
  rewrite <- (aut_width_prod c). unfold aut_asm; fold aut_asm. cbv zeta. generalize (aut_width (TProd c fs)). intros W.
  generalize 0 at 1 3. generalize 0. revert vs. induction fs as [|[k t] fs IH]; intros vs x y; [reflexivity|].
  destruct vs as [|v vs]; [reflexivity|]. cbn [aut_tup_asm]. destruct (aut_asm t v); [|reflexivity]. cbn [bind]. apply IH.
Qed.
Lemma aut_asm_sum g c fs k v :
  aut_asm (TSum g c fs) (VSum k v) =
  match a2_tag fs k with
  | None => Err KeyError
  | Some tag =>
      match dget key_eqb fs k with
      | None => Err KeyError
      | Some t' =>
          do x <- aut_asm t' v;
          match t' with
          | TBit => Err AttributeError
          | _ => Ok (Z.lor (wrap (aut_tagw fs) tag) (wrap (aut_width (TSum g c fs)) (Z.shiftl x (aut_tagw fs))))
          end
      end
  end.
Proof.
  unfold aut_asm; fold aut_asm. cbv zeta.
  destruct (a2_tag fs k) as [tag|]; auto. generalize (aut_tagw fs) (aut_width (TSum g c fs)). intros tw mw.
  induction fs as [|[k' t'] fs IH]; [reflexivity|]. cbn [dget]. destruct (key_eqb k k'); auto.
Qed.
Fixpoint aut_tup_dsm (fs : list (key * ty)) (op base : Z) : res (list val) :=
  match fs with
  | [] => Ok []
  | (_, t') :: r =>
      do v <- aut_dsm t' (slice op base (base + aut_width t'));
      do vs <- aut_tup_dsm r op (base + aut_width t');
      Ok (v :: vs)
  end.
Lemma aut_dsm_prod c fs op : aut_dsm (TProd c fs) op = do vs <- aut_tup_dsm fs op 0; Ok (VProd vs).
Proof.
  unfold aut_dsm; fold aut_dsm. f_equal. generalize 0. induction fs as [|[k t] fs IH]; intros z; [reflexivity|].
  cbn [aut_tup_dsm]. destruct (aut_dsm t _); [|reflexivity]. cbn [bind]. rewrite IH. reflexivity.
Qed.
Lemma aut_dsm_sum g c fs op : aut_dsm (TSum g c fs) op =
  match a2_name fs (slice op 0 (aut_tagw fs)) with
  | None => Err KeyError
  | Some (k, _) =>
      match dget key_eqb fs k with
      | None => Err KeyError
      | Some t' => do v <- aut_dsm t' (slice op (aut_tagw fs) (aut_tagw fs + aut_width t')); Ok (VSum k v)
      end
  end.
Proof.
  unfold aut_dsm; fold aut_dsm. cbv zeta. destruct (a2_name _ _) as [[k t]|]; auto.
  generalize (aut_tagw fs). intros tw.
  induction fs as [|[k' t'] fs IH]; [reflexivity|]. cbn [dget]. destruct (key_eqb k k'); auto.
Qed.

(** * C18 *)
(** No member of a Sum is a single Bit. *)
Inductive no_bit_member : ty -> Prop :=
| nb_bit : no_bit_member TBit
| nb_bv w : no_bit_member (TBV w)
| nb_sint w : no_bit_member (TSInt w)
| nb_enum c ms : no_bit_member (TEnum c ms)
| nb_prod c fs : Forall (fun f => no_bit_member (snd f)) fs -> no_bit_member (TProd c fs)
| nb_sum g c fs : Forall (fun f => no_bit_member (snd f) /\ snd f <> TBit) fs -> no_bit_member (TSum g c fs).

Definition round_trips (t : ty) (v : val) : Prop :=
  exists op, aut_asm t v = Ok op /\ 0 <= op < 2 ^ aut_width t /\ aut_dsm t op = Ok v.

Lemma aut_tup_spec W fs : forall acc vs b,
  Forall (fun f => wf_ty (snd f) -> no_bit_member (snd f) -> forall v, has_ty (snd f) v -> round_trips (snd f) v) fs ->
  Forall (fun f => wf_ty (snd f)) fs -> Forall (fun f => no_bit_member (snd f)) fs ->
  Forall2 (fun f v => has_ty (snd f) v) fs vs ->
  0 <= b -> 0 <= acc < 2 ^ b -> b + asum_widths fs <= W ->
  exists y, aut_tup_asm W fs vs b acc = Ok (acc + 2 ^ b * y) /\ 0 <= y < 2 ^ asum_widths fs /\
    aut_tup_dsm fs (acc + 2 ^ b * y) b = Ok vs.
Proof.
  induction fs as [|[k t] fs IHF]; intros acc vs b IH WF NB F Hb Hacc LW.
  - inversion F; subst. exists 0. cbn. rewrite Z.mul_0_r, Z.add_0_r. split; auto. split; [lia|auto].
  - inversion F as [|? v0 ? vs0 Hv Fv]; subst.
    inversion IH as [|? ? I1 I2]; inversion WF as [|? ? W1 W2]; inversion NB as [|? ? B1 B2]; subst. cbn [snd asum_widths] in *.
    destruct (I1 W1 B1 v0 Hv) as (x & Ex & Rx & Dx).
    pose proof (aut_width_nonneg _ W1) as Pw. pose proof (asum_widths_nonneg _ W2) as Ps.
    cbn [aut_tup_asm]. rewrite Ex. cbn [bind].
    pose proof (pow2_mono (aut_width t) W ltac:(lia)) as Mw.
    rewrite (wrap_small W x) by lia.
    assert (0 <= Z.shiftl x b < 2 ^ W) as Rs.
    { rewrite Z.shiftl_mul_pow2 by lia. pose proof (pow2_pos b Hb). split; [nia|].
      assert (x * 2 ^ b < 2 ^ (b + aut_width t)) by (rewrite pow2_split by lia; nia).
      pose proof (pow2_mono (b + aut_width t) W ltac:(lia)). lia. }
    rewrite wrap_small by auto. rewrite lor_shiftl_add by auto.
    destruct (IHF (acc + 2 ^ b * x) vs0 (b + aut_width t)) as (y & Ey & Ry & Dy); auto; try lia.
    { rewrite pow2_split by lia. pose proof (pow2_pos b Hb). nia. }
    assert (acc + 2 ^ b * x + 2 ^ (b + aut_width t) * y = acc + 2 ^ b * (x + 2 ^ aut_width t * y)) as Eq
      by (rewrite pow2_split by lia; ring).
    rewrite Eq in *.
    exists (x + 2 ^ aut_width t * y). split; auto. split.
    + rewrite pow2_split by lia. pose proof (pow2_pos (aut_width t) Pw). nia.
    + cbn [aut_tup_dsm]. rewrite slice_mid by auto. rewrite Dx. cbn [bind]. rewrite Dy. reflexivity.
Qed.

Lemma aut_tag_spec fs pre k t post : no_dup_keys fs -> fs = pre ++ (k, t) :: post ->
  exists tag, a2_tag fs k = Some tag /\ 0 <= tag < 2 ^ aut_tagw fs /\ a2_name fs tag = Some (k, t).
Proof.
  intros ND E. destruct (a2_tag_spec fs pre k t post ND E) as (T1 & T2 & T3 & T4 & T5).
  exists (rank_at pre k post). split; auto. split; auto.
  pose proof (rank_lt _ _ _ _ _ E). pose proof (bit_length_lt (Z.of_nat (length fs)) ltac:(lia)). unfold aut_tagw. lia.
Qed.

(** The full property, for every type generate_assembler accepts; it is false,
    see [C18_full_refuted]. *)
Definition C18_full : Prop := forall t v, wf_ty t -> aut_gen t = Ok tt -> has_ty t v -> round_trips t v.

(** Proved when no Sum member is a single Bit. *)
Theorem C18_roundtrip_partial t v : wf_ty t -> no_bit_member t -> has_ty t v -> round_trips t v.
Proof.
  revert v. induction t as [| | |c ms|c fs IH|g c fs IH] using ty_ind'; intros v W NB H.
  - inversion H; subst. exists (b2z b). split; auto. destruct b; cbn; split; auto; lia.
  - inversion H; subst. exists z. cbn. auto.
  - inversion H; subst. exists z. cbn. auto.
  - inversion H as [| | |? ? m I| |]; subst. destruct (aut_table_spec c ms W) as (tbl & E & N1 & N2 & Hm & Rg & _).
    destruct (proj1 (Hm m) I) as [x Ix]. exists x. cbn [aut_asm aut_dsm]. rewrite E. cbn [bind]. unfold dgetE.
    rewrite (dget_NoDup emem_eqb emem_eqb_eq tbl m x N1 Ix). cbn [bind].
    rewrite wrap_small by eauto. split; auto. split; [eauto|].
    apply (dsm_lookup_Ok tbl x m N2) in Ix. rewrite Ix. reflexivity.
  - inversion H as [| | | |? ? vs F|]; subst. unfold round_trips. rewrite aut_asm_prod, aut_width_prod.
    assert (Forall (fun f => wf_ty (snd f)) fs) as WF by (inversion W; auto).
    assert (Forall (fun f => no_bit_member (snd f)) fs) as NF by (inversion NB; auto).
    destruct (aut_tup_spec (asum_widths fs) fs 0 vs 0) as (y & E & R & D); auto; try (cbn; lia).
    { eapply Forall_impl; [|exact IH]. cbn. intros [k t] Hi Wt Nt v Hv. apply Hi; auto. }
    rewrite Z.mul_1_l, Z.add_0_l in E, D.
    exists y. split; auto. split; auto. rewrite aut_dsm_prod, D. reflexivity.
  - inversion H as [| | | | |? ? ? k t v' I Hv]; subst.
    assert (no_dup_keys fs) as ND by (inversion W; auto).
    assert (wf_ty t) as Wt by (eapply wf_members_sum; eauto).
    assert (no_bit_member t /\ t <> TBit) as [Nt Nb].
    { inversion NB as [| | | | |? ? ? F]; subst. rewrite Forall_forall in F. exact (F _ I). }
    destruct (in_split_key _ _ _ I) as (pre & post & Efs).
    destruct (aut_tag_spec fs pre k t post ND Efs) as (tag & T1 & T2 & T3).
    rewrite Forall_forall in IH. destruct (IH _ I v' Wt Nt Hv) as (x & Ex & Rx & Dx). cbn [snd] in *.
    pose proof (aut_width_nonneg _ Wt) as Pw. pose proof (amax_widths_ge fs k t I) as Le.
    assert (0 <= aut_tagw fs) as Pt by apply bit_length_nonneg.
    unfold round_trips. rewrite aut_asm_sum, T1, (dget_key_In fs k t ND I), Ex. cbn [bind].
    set (W0 := aut_width (TSum g c fs)). assert (W0 = amax_widths fs + aut_tagw fs) as EW by reflexivity.
    assert (0 <= x < 2 ^ amax_widths fs) as Rx' by (pose proof (pow2_mono _ _ (conj Pw Le)); lia).
    assert (0 <= Z.shiftl x (aut_tagw fs) < 2 ^ W0) as Rs.
    { rewrite Z.shiftl_mul_pow2, EW, pow2_split by lia. pose proof (pow2_pos (aut_tagw fs) Pt). nia. }
    exists (tag + 2 ^ aut_tagw fs * x). split; [|split].
    + rewrite !wrap_small, lor_shiftl_add by auto. destruct t; auto; congruence.
    + rewrite EW, pow2_split by lia. pose proof (pow2_pos (aut_tagw fs) Pt). nia.
    + rewrite aut_dsm_sum, slice_low by auto. rewrite T3, (dget_key_In fs k t ND I).
      replace x with (x + 2 ^ aut_width t * 0) at 1 by lia. rewrite slice_mid by auto. rewrite Dx. reflexivity.
Qed.

Theorem C18_injective_partial t v v' op : wf_ty t -> no_bit_member t -> has_ty t v -> has_ty t v' ->
  aut_asm t v = Ok op -> aut_asm t v' = Ok op -> v = v'.
Proof.
  intros W N H H' E E'. destruct (C18_roundtrip_partial t v W N H) as (o & Eo & _ & D).
  destruct (C18_roundtrip_partial t v' W N H') as (o' & Eo' & _ & D'). congruence.
Qed.

Open Scope string_scope.
Definition ex18 : ty := TProd "Inst" [(ky "op", ex_op); (ky "imm", TSum false "Imm"
  [(ky "short", TBV 4); (ky "pair", TProd "P" [(ky "x", TBV 8); (ky "y", TBit)]); (ky "none", TBV 0)]); (ky "s", TSInt 8)].
Example C18_case : wf_ty ex18 /\ no_bit_member ex18 /\ aut_gen ex18 = Ok tt /\ has_ty ex18 ex_val /\
  aut_width ex18 = 22 /\ aut_asm ex18 ex_val = Ok (1 + 2 ^ 3 * (1 + 2 ^ 2 * (171 + 2 ^ 8)) + 2 ^ 14 * 5).
Proof.
  split; [apply wf_b_spec; reflexivity|]. split.
  - repeat (constructor; cbn; try discriminate).
  - split; [reflexivity|]. split; [apply has_ty_b_spec; reflexivity|]. split; vm_compute; reflexivity.
Qed.

(** A Bit member is accepted, but assembling it raises AttributeError. *)
Theorem C18_full_refuted : ~ C18_full.
Proof.
  intros F. destruct (F (TSum false "S" [(ky "Bit", TBit); (ky "BV4", TBV 4)]) (VSum (ky "Bit") (VBit true))) as (op & E & _).
  - apply wf_b_spec. reflexivity.
  - reflexivity.
  - apply has_ty_b_spec. reflexivity.
  - vm_compute in E. discriminate.
Qed.

(** * Constants *)

(** A constant assembles to itself and back, in its own width, and words are the
    answer for nothing else. *)
Theorem C18_const : forall w c x, 0 <= c < 2 ^ w ->
  match aut_const w c with (asm, dsm, width) =>
    width = w /\ asm c = Ok (CWord c) /\ dsm c = Ok (CWord c) /\
    (forall z, asm x = Ok (CWord z) \/ dsm x = Ok (CWord z) -> x = c /\ z = c)
  end.
Proof.
  intros w c x H. unfold aut_const, const_asm, const_dsm. rewrite Z.eqb_refl. cbn [negb].
  repeat split; destruct (Z.eqb_spec x c) as [->|]; cbn [negb] in *; destruct H0; congruence.
Qed.
(** One would expect another value to raise. It never does: a ValueError is returned,
    so a caller sees an assembled value. *)
Definition C18_const_full : Prop := forall w c x, 0 <= c < 2 ^ w -> 0 <= x < 2 ^ w -> x <> c ->
  match aut_const w c with (asm, dsm, _) => (exists e, asm x = Err e) /\ exists e, dsm x = Err e end.
Theorem C18_const_silent : forall w c x, x <> c ->
  match aut_const w c with (asm, dsm, _) => asm x = Ok (CExc ValueError) /\ dsm x = Ok (CExc ValueError) end.
Proof. intros w c x H. unfold aut_const, const_asm, const_dsm. rewrite (proj2 (Z.eqb_neq x c) H). split; reflexivity. Qed.
Theorem C18_const_refuted : ~ C18_const_full.
Proof. intros F. destruct (F 4 3 5 ltac:(lia) ltac:(lia) ltac:(lia)) as ((e & E) & _). discriminate E. Qed.
Example C18_const_case : 0 <= 3 < 2 ^ 4 /\ const_asm 3 3 = Ok (CWord 3) /\ const_asm 3 5 = Ok (CExc ValueError).
Proof. split; [lia|split; reflexivity]. Qed.

Print Assumptions C18_roundtrip_partial.
Print Assumptions C18_injective_partial.
Print Assumptions C18_full_refuted.
Print Assumptions C18_const.
Print Assumptions C18_const_silent.
Print Assumptions C18_const_refuted.
