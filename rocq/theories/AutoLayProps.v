(** Property theorems C96: the layouts of peak/auto_assembler.py and the wiring of
    peak/rtl_utils.py. *)
From Coq Require Import String ZArith List Bool Lia Permutation.
From Verif Require Import Base BaseLemmas AsmModel AsmSpec AsmValid AsmEnum AsmBuild AsmProofs AsmCheck AsmSub AsmProps
  AadtModel AadtProofs Asm2Model Asm2Proofs AutoModel AutoProps AutoLayModel.
Import ListNotations.
Open Scope list_scope.
Open Scope Z_scope.

Fixpoint prod_entries (fs : list (key * ty)) (base : Z) : list (lkey * (Z * Z * lay)) :=
  match fs with
  | [] => []
  | (k, t') :: r => (LField k, (base, base + aut_width t', aut_layout t')) :: prod_entries r (base + aut_width t')
  end.
Fixpoint sum_entries (tagw : Z) (fs : list (key * ty)) : list (lkey * (Z * Z * lay)) :=
  match fs with
  | [] => []
  | (k, t') :: r => (LField k, (tagw, tagw + aut_width t', aut_layout t')) :: sum_entries tagw r
  end.
Lemma lay_prod c fs : aut_layout (TProd c fs) = LDict (prod_entries fs 0).
Proof. reflexivity. Qed.
Lemma lay_sum g c fs : aut_layout (TSum g c fs) = LDict (sum_entries (aut_tagw fs) fs).
Proof. unfold aut_layout; fold aut_layout. cbv zeta. generalize (aut_tagw fs). intros z. f_equal.
  induction fs as [|[k t] fs IH]; [reflexivity|]. cbn [sum_entries]. rewrite <- IH. reflexivity. Qed.

Lemma path_wf t p t' : sub_ty t p t' -> wf_ty t -> wf_ty t'.
Proof.
  induction 1 as [t|c fs k p t t' I S IH|g c fs k p t t' I S IH]; intros W; auto; apply IH.
  - assert (Forall (fun f => wf_ty (snd f)) fs) as WF by (inversion W; auto). rewrite Forall_forall in WF. exact (WF _ I).
  - eapply wf_members_sum; eauto.
Qed.
Lemma nth_not_in (fs : list (key * ty)) k t i : nth_error fs i = Some (k, t) -> In k (map fst fs).
Proof. intros E. apply nth_error_In in E. apply (in_map fst) in E. exact E. Qed.

Lemma prod_get fs : forall b i k t, NoDup (map fst fs) -> nth_error fs i = Some (k, t) ->
  dgetE lkey_eqb (prod_entries fs b) (LField k) =
    Ok (b + asum_widths (firstn i fs), b + asum_widths (firstn i fs) + aut_width t, aut_layout t).
Proof.
  unfold dgetE. induction fs as [|[k0 t0] fs IH]; intros b i k t ND E; [destruct i; discriminate|].
  inversion ND as [|? ? N1 N2]; subst. destruct i as [|i]; cbn in E.
  - injection E as -> ->. cbn [prod_entries dget lkey_eqb firstn asum_widths].
    rewrite (proj2 (key_eqb_eq k k)) by auto. rewrite Z.add_0_r. reflexivity.
  - cbn [prod_entries dget lkey_eqb firstn asum_widths]. destruct (key_eqb k k0) eqn:Ek.
    + apply key_eqb_eq in Ek as ->. destruct N1. eapply nth_not_in; eauto.
    + rewrite (IH (b + aut_width t0) i k t N2 E). do 3 f_equal; lia.
Qed.
Lemma sum_get tw fs : forall k t, NoDup (map fst fs) -> In (k, t) fs ->
  dgetE lkey_eqb (sum_entries tw fs) (LField k) = Ok (tw, tw + aut_width t, aut_layout t).
Proof.
  unfold dgetE. induction fs as [|[k0 t0] fs IH]; intros k t ND I; [destruct I|].
  inversion ND as [|? ? N1 N2]; subst. cbn [sum_entries dget lkey_eqb]. destruct I as [I|I].
  - injection I as -> ->. rewrite (proj2 (key_eqb_eq k k)) by auto. reflexivity.
  - destruct (key_eqb k k0) eqn:Ek; [|apply IH; auto].
    apply key_eqb_eq in Ek as ->. destruct N1. apply (in_map fst) in I. exact I.
Qed.

Lemma prefix_le fs : Forall (fun f => wf_ty (snd f)) fs -> forall i k t, nth_error fs i = Some (k, t) ->
  0 <= asum_widths (firstn i fs) /\ 0 <= aut_width t /\ asum_widths (firstn i fs) + aut_width t <= asum_widths fs.
Proof.
  induction 1 as [|[k0 t0] fs W F IH]; intros i k t E; [destruct i; discriminate|].
  pose proof (aut_width_nonneg _ W) as P. pose proof (asum_widths_nonneg _ F) as Ps. cbn [snd] in *.
  destruct i as [|i]; cbn in E.
  - injection E as -> ->. cbn. lia.
  - destruct (IH i k t E) as (A & B & C). cbn [firstn asum_widths]. lia.
Qed.

(** ** Where the parts are *)
(** A path of field names and Sum members names the bits [lo], …, [lo + width - 1] of the
    word, inside the word. *)
Theorem C96_bounds t p t' : wf_ty t -> sub_ty t p t' ->
  exists lo, 0 <= lo /\ lo + aut_width t' <= aut_width t /\
    forall op, 0 <= op < 2 ^ aut_width t -> region (aut_layout t) op p = Ok (slice op lo (lo + aut_width t')).
Proof.
  intros W S. revert W.
  induction S as [t|c fs k p t t' I S IH|g c fs k p t t' I S IH]; intros W.
  - exists 0. pose proof (aut_width_nonneg _ W). split; [lia|]. split; [lia|].
    intros op R. cbn [region]. rewrite Z.add_0_l, slice_full by auto. reflexivity.
  - assert (Forall (fun f => wf_ty (snd f)) fs) as WF by (inversion W; auto).
    assert (NoDup (map fst fs)) as ND by (inversion W; auto).
    destruct (In_nth_error _ _ I) as [i Ei]. destruct (prefix_le fs WF i k t Ei) as (A & B & C).
    destruct IH as (lo & L0 & L1 & R). { rewrite Forall_forall in WF. exact (WF _ I). }
    exists (asum_widths (firstn i fs) + lo). rewrite aut_width_prod. split; [lia|]. split; [lia|].
    intros op Ro. cbn [region]. rewrite lay_prod. cbn [lay_get]. rewrite (prod_get fs 0 i k t ND Ei). cbn [bind].
    rewrite R.
    + assert (wf_ty t') as Wt'. { eapply path_wf; [exact S|]. rewrite Forall_forall in WF. exact (WF _ I). }
      pose proof (aut_width_nonneg _ Wt'). rewrite slice_slice by lia. do 2 f_equal; lia.
    + pose proof (slice_range op (0 + asum_widths (firstn i fs)) (0 + asum_widths (firstn i fs) + aut_width t) ltac:(lia)) as Q.
      replace (_ - _) with (aut_width t) in Q by lia. exact Q.
  - assert (Forall (fun f => wf_ty (snd f)) fs) as WF by (inversion W; auto).
    assert (NoDup (map fst fs)) as ND by (inversion W; auto).
    assert (wf_ty t) as Wt by (rewrite Forall_forall in WF; exact (WF _ I)).
    destruct (IH Wt) as (lo & L0 & L1 & R). pose proof (amax_widths_ge fs k t I) as Le.
    assert (0 <= aut_tagw fs) as Pt by apply bit_length_nonneg. pose proof (aut_width_nonneg _ Wt) as Pw.
    exists (aut_tagw fs + lo). rewrite aut_width_sum. split; [lia|]. split; [lia|].
    intros op Ro. cbn [region]. rewrite lay_sum. cbn [lay_get]. rewrite (sum_get _ fs k t ND I). cbn [bind].
    rewrite R.
    + assert (wf_ty t') as Wt' by (eapply path_wf; eauto).
      pose proof (aut_width_nonneg _ Wt'). rewrite slice_slice by lia. do 2 f_equal; lia.
    + pose proof (slice_range op (aut_tagw fs) (aut_tagw fs + aut_width t) ltac:(lia)) as Q.
      replace (_ - _) with (aut_width t) in Q by lia. exact Q.
Qed.

(** The fields of a Product lie one after the other, the first at bit 0, the last ending at
    the width. *)
Theorem C96_fields c fs i k t : wf_ty (TProd c fs) -> nth_error fs i = Some (k, t) ->
  exists lo, lay_get (aut_layout (TProd c fs)) (LField k) = Ok (lo, lo + aut_width t, aut_layout t) /\
    (i = O -> lo = 0) /\
    (S i = length fs -> lo + aut_width t = aut_width (TProd c fs)) /\
    (forall k' t', nth_error fs (S i) = Some (k', t') ->
       lay_get (aut_layout (TProd c fs)) (LField k') =
         Ok (lo + aut_width t, lo + aut_width t + aut_width t', aut_layout t')).
Proof.
  intros W E. assert (NoDup (map fst fs)) as ND by (inversion W; auto).
  rewrite lay_prod. cbn [lay_get]. exists (asum_widths (firstn i fs)). split; [|split; [|split]].
  - rewrite (prod_get fs 0 i k t ND E). reflexivity.
  - intros ->. reflexivity.
  - intros L. rewrite aut_width_prod. clear - E L. revert i E L.
    induction fs as [|[k0 t0] fs IH]; intros [|i] E L; cbn in E, L; try discriminate.
    + injection E as -> ->. destruct fs; [|discriminate]. cbn. lia.
    + cbn [firstn asum_widths]. rewrite <- (IH i E ltac:(lia)). lia.
  - intros k' t' E'. rewrite (prod_get fs 0 (S i) k' t' ND E'). cbn [Z.add].
    assert (asum_widths (firstn (S i) fs) = asum_widths (firstn i fs) + aut_width t) as ->; [|reflexivity].
    clear - E. revert i E. induction fs as [|[k0 t0] fs IH]; intros [|i] E; try discriminate.
    + injection E as -> ->. cbn. lia.
    + change (firstn (S (S i)) ((k0, t0) :: fs)) with ((k0, t0) :: firstn (S i) fs).
      change (firstn (S i) ((k0, t0) :: fs)) with ((k0, t0) :: firstn i fs).
      cbn [asum_widths]. rewrite (IH i E). lia.
Qed.

(** The members of a Sum all start right above the tag. *)
Theorem C96_members g c fs k t : wf_ty (TSum g c fs) -> In (k, t) fs ->
  lay_get (aut_layout (TSum g c fs)) (LField k) =
    Ok (bit_length (Z.of_nat (length fs)), bit_length (Z.of_nat (length fs)) + aut_width t, aut_layout t).
Proof.
  intros W I. assert (NoDup (map fst fs)) as ND by (inversion W; auto).
  rewrite lay_sum. exact (sum_get _ fs k t ND I).
Qed.

(** Every member of an Enum has the whole word. *)
Theorem C96_enum c ms m : In m ms ->
  lay_get (aut_layout (TEnum c ms)) (LMember m) = Ok (0, aut_width (TEnum c ms), LNone).
Proof.
  intros I. cbn [aut_layout lay_get]. generalize (aut_width (TEnum c ms)). intros w. unfold dgetE.
  induction ms as [|m0 ms IH]; [destruct I|]. cbn [map dget lkey_eqb]. destruct (emem_eqb m m0) eqn:E; [reflexivity|].
  destruct I as [->|I]; [|exact (IH I)]. rewrite (proj2 (emem_eqb_eq m m)) in E by auto. discriminate.
Qed.

(** ** What the parts hold *)
Lemma tup_field W fs : forall acc vs b op,
  Forall (fun f => wf_ty (snd f)) fs -> Forall (fun f => no_bit_member (snd f)) fs ->
  Forall2 (fun f v => has_ty (snd f) v) fs vs ->
  0 <= b -> 0 <= acc < 2 ^ b -> b + asum_widths fs <= W ->
  aut_tup_asm W fs vs b acc = Ok op ->
  forall i k t v, nth_error fs i = Some (k, t) -> nth_error vs i = Some v ->
  aut_asm t v = Ok (slice op (b + asum_widths (firstn i fs)) (b + asum_widths (firstn i fs) + aut_width t)).
Proof.
  induction fs as [|[k0 t0] fs IHF]; intros acc vs b op WF NB F Hb Hacc LW E i k t v Ei Ev; [destruct i; discriminate|].
  inversion F as [|? v0 ? vs0 Hv Fv]; subst.
  inversion WF as [|? ? W1 W2]; inversion NB as [|? ? B1 B2]; subst. cbn [snd asum_widths] in *.
  destruct (C18_roundtrip_partial t0 v0 W1 B1 Hv) as (x & Ex & Rx & Dx).
  pose proof (aut_width_nonneg _ W1) as Pw. pose proof (asum_widths_nonneg _ W2) as Ps.
  cbn [aut_tup_asm] in E. rewrite Ex in E. cbn [bind] in E.
  pose proof (pow2_mono (aut_width t0) W ltac:(lia)) as Mw.
  rewrite (wrap_small W x) in E by lia.
  assert (0 <= Z.shiftl x b < 2 ^ W) as Rs.
  { rewrite Z.shiftl_mul_pow2 by lia. pose proof (pow2_pos b Hb). split; [nia|].
    assert (x * 2 ^ b < 2 ^ (b + aut_width t0)) by (rewrite pow2_split by lia; nia).
    pose proof (pow2_mono (b + aut_width t0) W ltac:(lia)). lia. }
  rewrite wrap_small in E by auto. rewrite lor_shiftl_add in E by auto.
  assert (0 <= acc + 2 ^ b * x < 2 ^ (b + aut_width t0)) as Ra.
  { rewrite pow2_split by lia. pose proof (pow2_pos b Hb). nia. }
  destruct i as [|i]; cbn in Ei, Ev.
  - injection Ei as -> ->. injection Ev as ->. cbn [firstn asum_widths]. rewrite Z.add_0_r.
    destruct (aut_tup_spec W fs (acc + 2 ^ b * x) vs0 (b + aut_width t)) as (y & Ey & _); auto; try lia.
    { apply Forall_forall. intros f _ Wf Nf w Hw. apply C18_roundtrip_partial; auto. }
    rewrite Ey in E. injection E as <-. rewrite Ex. f_equal. symmetry.
    replace (acc + 2 ^ b * x + 2 ^ (b + aut_width t) * y) with (acc + 2 ^ b * (x + 2 ^ aut_width t * y))
      by (rewrite pow2_split by lia; ring).
    apply slice_mid; auto.
  - cbn [firstn asum_widths]. rewrite Z.add_assoc. eapply IHF; eauto; lia.
Qed.

(** The bits a path names hold the assembled part of the instruction, whatever the other
    parts are. [C96_full] asks it of every type [generate_assembler] accepts. *)
Definition holds_part (t : ty) (v : val) (p : list key) (t' : ty) (v' : val) : Prop :=
  exists op op', aut_asm t v = Ok op /\ aut_asm t' v' = Ok op' /\ region (aut_layout t) op p = Ok op' /\
    aut_dsm t' op' = Ok v'.
Definition C96_full : Prop := forall t v p t' v', wf_ty t -> aut_gen t = Ok tt -> has_ty t v ->
  sub_val t v p t' v' -> holds_part t v p t' v'.

(** Missing for C96: types where a member of a Sum is a single Bit, whose instructions
    cannot be assembled ([C96_full_refuted]). *)
Theorem C96_parts_partial t v p t' v' : wf_ty t -> no_bit_member t -> has_ty t v -> sub_val t v p t' v' ->
  holds_part t v p t' v'.
Proof.
  intros W N H S. revert W N H.
  induction S as [t v|c fs vs k p i t v t' v' Ef Ev S IH|g c fs k p t v t' v' I S IH]; intros W N H.
  - destruct (C18_roundtrip_partial t v W N H) as (op & E & R & D). exists op, op. auto.
  - destruct (C18_roundtrip_partial _ _ W N H) as (op & E & R & _).
    inversion H as [| | | |? ? ? F|]; subst.
    assert (Forall (fun f => wf_ty (snd f)) fs) as WF by (inversion W; auto).
    assert (NoDup (map fst fs)) as ND by (inversion W; auto).
    assert (Forall (fun f => no_bit_member (snd f)) fs) as NF by (inversion N; auto).
    pose proof (nth_error_In _ _ Ef) as I.
    pose proof E as E0. rewrite aut_asm_prod in E0.
    pose proof (tup_field (asum_widths fs) fs 0 vs 0 op WF NF F ltac:(lia) ltac:(cbn; lia) ltac:(lia) E0 i k t v Ef Ev) as Ex.
    assert (has_ty t v) as Hv.
    { clear - F Ef Ev. revert i Ef Ev. induction F as [|f w fs vs Hf F IH]; intros [|i] Ef Ev; try discriminate.
      - injection Ef as ->. injection Ev as ->. exact Hf.
      - eapply IH; eauto. }
    rewrite Forall_forall in WF, NF.
    destruct (IH (WF _ I) (NF _ I) Hv) as (o1 & o2 & A1 & A2 & A3 & A4). cbn [snd] in *.
    exists op, o2. split; [exact E|]. split; [exact A2|]. split; [|exact A4].
    cbn [region]. rewrite lay_prod. cbn [lay_get]. rewrite (prod_get fs 0 i k t ND Ef). cbn [bind].
    rewrite Ex in A1. injection A1 as <-. exact A3.
  - inversion H as [| | | | |? ? ? k' t0 v0 I0 Hv]; subst.
    assert (no_dup_keys fs) as ND by (inversion W; auto).
    assert (t0 = t) as ->.
    { pose proof (dget_key_In fs k t ND I) as A. rewrite (dget_key_In fs k t0 ND I0) in A. congruence. }
    assert (wf_ty t) as Wt by (eapply wf_members_sum; eauto).
    assert (no_bit_member t /\ t <> TBit) as [Nt Nb].
    { inversion N as [| | | | |? ? ? F]; subst. rewrite Forall_forall in F. exact (F _ I). }
    destruct (in_split_key _ _ _ I) as (pre & post & Efs).
    destruct (aut_tag_spec fs pre k t post ND Efs) as (tag & T1 & T2 & T3).
    destruct (C18_roundtrip_partial t v Wt Nt Hv) as (x & Ex & Rx & _).
    destruct (IH Wt Nt Hv) as (o1 & o2 & A1 & A2 & A3 & A4). rewrite Ex in A1. injection A1 as <-.
    pose proof (aut_width_nonneg _ Wt) as Pw. pose proof (amax_widths_ge fs k t I) as Le.
    assert (0 <= aut_tagw fs) as Pt by apply bit_length_nonneg.
    set (W0 := aut_width (TSum g c fs)). assert (W0 = amax_widths fs + aut_tagw fs) as EW by reflexivity.
    assert (0 <= x < 2 ^ amax_widths fs) as Rx' by (pose proof (pow2_mono _ _ (conj Pw Le)); lia).
    assert (0 <= Z.shiftl x (aut_tagw fs) < 2 ^ W0) as Rs.
    { rewrite Z.shiftl_mul_pow2, EW, pow2_split by lia. pose proof (pow2_pos (aut_tagw fs) Pt). nia. }
    exists (tag + 2 ^ aut_tagw fs * x), o2. split; [|split; [exact A2|split; [|exact A4]]].
    + rewrite aut_asm_sum, T1, (dget_key_In fs k t ND I), Ex. cbn [bind]. fold W0.
      rewrite !wrap_small, lor_shiftl_add by auto. destruct t; auto; congruence.
    + cbn [region]. rewrite lay_sum. cbn [lay_get]. rewrite (sum_get _ fs k t ND I). cbn [bind].
      replace x with (x + 2 ^ aut_width t * 0) at 1 by lia. rewrite slice_mid by auto. exact A3.
Qed.

(** The disassembler reads the same bits: in every word that it takes, also words that are
    no assembled instruction, the bits a path names disassemble to that part. *)
Lemma tup_dsm_field fs : forall op b vs, aut_tup_dsm fs op b = Ok vs ->
  forall i k t v, nth_error fs i = Some (k, t) -> nth_error vs i = Some v ->
  aut_dsm t (slice op (b + asum_widths (firstn i fs)) (b + asum_widths (firstn i fs) + aut_width t)) = Ok v.
Proof.
  induction fs as [|[k0 t0] fs IH]; intros op b vs E i k t v Ei Ev; [destruct i; discriminate|].
  cbn [aut_tup_dsm] in E. destruct (aut_dsm t0 _) as [v0|] eqn:E0; [|discriminate]. cbn [bind] in E.
  destruct (aut_tup_dsm fs op _) as [vs0|] eqn:E1; [|discriminate]. cbn [bind] in E. injection E as <-.
  destruct i as [|i]; cbn in Ei, Ev.
  - injection Ei as -> ->. injection Ev as ->. cbn [firstn asum_widths]. rewrite Z.add_0_r. exact E0.
  - cbn [firstn asum_widths]. rewrite Z.add_assoc. eapply IH; eauto.
Qed.
Theorem C96_reads t v p t' v' op : wf_ty t -> aut_dsm t op = Ok v -> sub_val t v p t' v' ->
  exists op', region (aut_layout t) op p = Ok op' /\ aut_dsm t' op' = Ok v'.
Proof.
  intros W D S. revert op W D.
  induction S as [t v|c fs vs k p i t v t' v' Ef Ev S IH|g c fs k p t v t' v' I S IH]; intros op W D.
  - exists op. auto.
  - assert (Forall (fun f => wf_ty (snd f)) fs) as WF by (inversion W; auto).
    assert (NoDup (map fst fs)) as ND by (inversion W; auto).
    rewrite aut_dsm_prod in D. destruct (aut_tup_dsm fs op 0) as [ws|] eqn:E; [|discriminate].
    injection D as ->. pose proof (tup_dsm_field fs op 0 vs E i k t v Ef Ev) as Dv.
    rewrite Forall_forall in WF. destruct (IH _ (WF _ (nth_error_In _ _ Ef)) Dv) as (op' & R & D').
    exists op'. split; [|exact D']. cbn [region]. rewrite lay_prod. cbn [lay_get].
    rewrite (prod_get fs 0 i k t ND Ef). exact R.
  - assert (no_dup_keys fs) as ND by (inversion W; auto). assert (wf_ty t) as Wt by (eapply wf_members_sum; eauto).
    rewrite aut_dsm_sum in D. destruct (a2_name fs _) as [[k0 t0]|]; [|discriminate].
    destruct (dget key_eqb fs k0) as [t1|] eqn:G; [|discriminate].
    destruct (aut_dsm t1 _) as [v1|] eqn:E; [|discriminate]. injection D as -> ->.
    rewrite (dget_key_In fs k t ND I) in G. injection G as <-.
    destruct (IH _ Wt E) as (op' & R & D'). exists op'. split; [|exact D'].
    cbn [region]. rewrite lay_sum. cbn [lay_get]. rewrite (sum_get _ fs k t ND I). exact R.
Qed.

(** ** The wrapped PE *)
(** Words and Enums; a Product or Sum is no port of bits. *)
Definition bits_port (t : ty) : Prop := match t with TProd _ _ | TSum _ _ _ => False | _ => True end.
Lemma bits_wirable fs : Forall (fun f : key * ty => bits_port (snd f)) fs -> Forall (fun f : key * ty => wirable (snd f) = true) fs.
Proof. apply Forall_impl. intros [k []]; cbn; tauto. Qed.
(** Wrapping a PE whose instruction is a Product of words and Enums: driven with an assembled
    instruction, every field port gets the assembled field. *)
Lemma ports_get width fs k t : no_dup_keys fs -> In (k, t) fs -> wirable t = true ->
  dget key_eqb (ports width fs) k = Some (Some (width t)).
Proof.
  unfold ports. induction fs as [|[k0 t0] fs IH]; intros ND I Wi; [destruct I|].
  inversion ND as [|? ? N1 N2]; subst. cbn [map dget fst snd]. destruct I as [I|I].
  - injection I as -> ->. rewrite (proj2 (key_eqb_eq k k)), Wi by auto. reflexivity.
  - destruct (key_eqb k k0) eqn:Ek; [|apply IH; auto].
    apply key_eqb_eq in Ek as ->. destruct N1. apply (in_map fst) in I. exact I.
Qed.
Fixpoint cuts (width : ty -> Z) (fs : list (key * ty)) (op b : Z) : list (key * Z) :=
  match fs with
  | [] => []
  | (k, t) :: r => (k, slice op b (b + width t)) :: cuts width r op (b + width t)
  end.
Lemma wire_from ps fs : forall b op, (forall k t, In (k, t) fs -> dget key_eqb ps k = Some (Some (aut_width t))) ->
  wire_inst ps (map (fun e => (fst e, fst (snd e))) (prod_entries fs b)) op = Ok (cuts aut_width fs op b).
Proof.
  induction fs as [|[k t] fs IH]; intros b op A; [reflexivity|]. cbn [prod_entries map fst snd wire_inst cuts].
  rewrite (A k t (or_introl eq_refl)). replace (b + aut_width t - b) with (aut_width t) by lia.
  rewrite Z.eqb_refl. rewrite IH; [reflexivity|]. intros k' t' I. apply A. right. exact I.
Qed.
Lemma cuts_names width fs op : forall b, map fst (cuts width fs op b) = map fst fs.
Proof. induction fs as [|[k t] fs IH]; intros b; [reflexivity|]. cbn [cuts map fst]. f_equal. apply IH. Qed.

Theorem C96_wired c fs vs : wf_ty (TProd c fs) -> no_bit_member (TProd c fs) ->
  Forall (fun f => bits_port (snd f)) fs -> has_ty (TProd c fs) (VProd vs) ->
  exists op ws, aut_asm (TProd c fs) (VProd vs) = Ok op /\ wrap_inst (TProd c fs) op = Ok ws /\
    map fst ws = map fst fs /\
    forall i k t v, nth_error fs i = Some (k, t) -> nth_error vs i = Some v ->
      exists w, nth_error ws i = Some (k, w) /\ aut_asm t v = Ok w /\ aut_dsm t w = Ok v.
Proof.
  intros W N WI%bits_wirable H. destruct (C18_roundtrip_partial _ _ W N H) as (op & E & R & D).
  assert (no_dup_keys fs) as ND by (inversion W; auto).
  assert (Forall (fun f => wf_ty (snd f)) fs) as WF by (inversion W; auto).
  assert (Forall (fun f => no_bit_member (snd f)) fs) as NF by (inversion N; auto).
  inversion H as [| | | |? ? ? F|]; subst.
  eexists op, _. split; [exact E|]. split; [|split].
  - unfold wrap_inst. rewrite lay_prod. apply wire_from. intros k t I. apply ports_get; auto.
    rewrite Forall_forall in WI. exact (WI _ I).
  - apply cuts_names.
  - rewrite aut_asm_prod in E. intros i k t v Ei Ev.
    pose proof (tup_field (asum_widths fs) fs 0 vs 0 op WF NF F ltac:(lia) ltac:(cbn; lia) ltac:(lia) E i k t v Ei Ev) as Ex.
    rewrite aut_dsm_prod in D. destruct (aut_tup_dsm fs op 0) as [ws|] eqn:Et; [|discriminate]. injection D as ->.
    pose proof (tup_dsm_field fs op 0 vs Et i k t v Ei Ev) as Dx.
    eexists. split; [|split; [exact Ex|exact Dx]]. clear - Ei. revert i Ei. generalize 0.
    induction fs as [|[k0 t0] fs IH]; intros b [|i] Ei; try discriminate.
    + injection Ei as -> ->. cbn [cuts nth_error firstn asum_widths]. rewrite Z.add_0_r. reflexivity.
    + cbn [cuts nth_error firstn asum_widths]. rewrite (IH (b + aut_width t0) i Ei). rewrite Z.add_assoc. reflexivity.
Qed.

(** The same with the layout of an Assembler, for every word that encodes the instruction. *)
Lemma cuts_rel R width b fs w fs' : tup_rel R b fs w fs' -> Forall (fun f => wf_ty (snd f)) fs ->
  Forall (fun f => swidth (snd f) (width (snd f))) fs ->
  forall ps op, (forall k t, In (k, t) fs -> dget key_eqb ps k = Some (Some (width t))) ->
  wire_inst ps (map (fun e => (LField (fst (fst e)), snd (fst e))) fs') op = Ok (cuts width fs op b).
Proof.
  induction 1 as [b|b k t r w a rest Ha Tr IH]; intros WF SW ps op A; [reflexivity|].
  inversion WF as [|? ? W1 W2]; inversion SW as [|? ? S1 S2]; subst. cbn [snd] in *.
  destruct (asm_rel_width R t W1 a Ha) as [Sa Pa]. assert (a_width a = width t) as Ew by (eapply swidth_fun; eauto).
  cbn [map fst snd wire_inst cuts]. rewrite (A k t (or_introl eq_refl)), Ew.
  replace (b + width t - b) with (width t) by lia. rewrite Z.eqb_refl.
  rewrite Ew in IH. rewrite (IH W2 S2); [reflexivity|]. intros k' t' I. apply A. right. exact I.
Qed.
Theorem C96_wired_asm h c fs a width op vs : Forall wf_ty (TProd c fs :: h) -> built h (TProd c fs) a ->
  Forall (fun f => bits_port (snd f)) fs -> Forall (fun f => swidth (snd f) (width (snd f))) fs ->
  encodes (TProd c fs) op (VProd vs) ->
  exists ws, wrap_inst_asm width (TProd c fs) a op = Ok ws /\ map fst ws = map fst fs /\
    forall i k t v, nth_error fs i = Some (k, t) -> nth_error vs i = Some v ->
      exists w, nth_error ws i = Some (k, w) /\ encodes t w v.
Proof.
  intros W B WI%bits_wirable SW E. assert (wf_ty (TProd c fs)) as Wt by (inversion W; auto).
  pose proof (built_rel h _ a W B) as A. inversion A as [| | | |? ? w fs' T|]; subst.
  assert (no_dup_keys fs) as ND by (inversion Wt; auto).
  assert (Forall (fun f => wf_ty (snd f)) fs) as WF by (inversion Wt; auto).
  exists (cuts width fs op 0). split; [|split; [apply cuts_names|]].
  - unfold wrap_inst_asm. eapply cuts_rel; eauto. intros k t I. apply ports_get; auto.
    rewrite Forall_forall in WI. exact (WI _ I).
  - inversion E as [| | | |? ? ? ? F|]; subst. intros i k t v Ei Ev.
    exists (slice op (zsum (map (fun f => width (snd f)) (firstn i fs)))
              (zsum (map (fun f => width (snd f)) (firstn i fs)) + width t)). split.
    + assert (forall b, nth_error (cuts width fs op b) i =
        Some (k, slice op (b + zsum (map (fun f => width (snd f)) (firstn i fs)))
                   (b + zsum (map (fun f => width (snd f)) (firstn i fs)) + width t))) as G; [|exact (G 0)].
      clear - Ei. revert i Ei. induction fs as [|[k0 t0] fs IH]; intros [|i] Ei b; try discriminate.
      * injection Ei as -> ->. cbn [cuts nth_error firstn map]. unfold zsum. cbn [fold_right]. rewrite Z.add_0_r. reflexivity.
      * cbn [cuts nth_error firstn map snd]. rewrite (IH i Ei). unfold zsum. cbn [fold_right]. rewrite Z.add_assoc. reflexivity.
    + eapply enc_fields_nth; eauto.
      * clear - SW. revert i. induction SW as [|f fs Sf SW IH]; intros [|i]; cbn [firstn map]; constructor; auto.
      * rewrite Forall_forall in SW. exact (SW _ (nth_error_In _ _ Ei)).
Qed.

(** The layouts name nothing else: what is not a path of fields and members raises, also
    into the members of an Enum. *)
Lemma prod_only fs k : forall b e, dgetE lkey_eqb (prod_entries fs b) (LField k) = Ok e ->
  exists t, In (k, t) fs /\ snd e = aut_layout t.
Proof.
  unfold dgetE. induction fs as [|[k0 t0] fs IH]; intros b e E; cbn [prod_entries dget lkey_eqb] in E; [discriminate|].
  destruct (key_eqb k k0) eqn:Ek.
  - apply key_eqb_eq in Ek as ->. injection E as <-. exists t0. split; [left|]; reflexivity.
  - destruct (IH _ _ E) as (t & I & X). exists t. split; [right; exact I|exact X].
Qed.
Lemma sum_only tw fs k : forall e, dgetE lkey_eqb (sum_entries tw fs) (LField k) = Ok e ->
  exists t, In (k, t) fs /\ snd e = aut_layout t.
Proof.
  unfold dgetE. induction fs as [|[k0 t0] fs IH]; intros e E; cbn [sum_entries dget lkey_eqb] in E; [discriminate|].
  destruct (key_eqb k k0) eqn:Ek.
  - apply key_eqb_eq in Ek as ->. injection E as <-. exists t0. split; [left|]; reflexivity.
  - destruct (IH _ E) as (t & I & X). exists t. split; [right; exact I|exact X].
Qed.
Lemma enum_only w ms k : dgetE lkey_eqb (map (fun m => (LMember m, (0, w, LNone))) ms) (LField k) = @Err (Z * Z * lay) KeyError.
Proof. unfold dgetE. induction ms as [|m ms IH]; [reflexivity|]. cbn [map dget lkey_eqb]. exact IH. Qed.
Theorem C96_only p : forall t op z, region (aut_layout t) op p = Ok z -> exists t', sub_ty t p t'.
Proof.
  induction p as [|k p IH]; intros t op z E; [exists t; constructor|]. cbn [region] in E.
  destruct (lay_get (aut_layout t) (LField k)) as [[[lo hi] l]|] eqn:G; [|discriminate]. cbn [bind] in E.
  destruct t as [|w|w|c ms|c fs|g c fs]; try discriminate G.
  - cbn [aut_layout lay_get] in G. rewrite enum_only in G. discriminate.
  - rewrite lay_prod in G. destruct (prod_only _ _ _ _ G) as (t & I & X). cbn [snd] in X. subst l.
    destruct (IH _ _ _ E) as (t' & S). exists t'. econstructor; eauto.
  - rewrite lay_sum in G. destruct (sum_only _ _ _ _ G) as (t & I & X). cbn [snd] in X. subst l.
    destruct (IH _ _ _ E) as (t' & S). exists t'. econstructor; eauto.
Qed.

(** Instructions can be wired exactly if no field is a Product or a Sum. *)
Lemma wire_needs ps fs : forall b op ws,
  wire_inst ps (map (fun e => (fst e, fst (snd e))) (prod_entries fs b)) op = Ok ws ->
  forall k t, In (k, t) fs -> exists w, dget key_eqb ps k = Some (Some w).
Proof.
  induction fs as [|[k0 t0] fs IH]; intros b op ws E k t I; [destruct I|]. cbn [prod_entries map fst snd wire_inst] in E.
  destruct (dget key_eqb ps k0) as [[w|]|] eqn:D; try discriminate. destruct (b + aut_width t0 - b =? w); [|discriminate].
  destruct (wire_inst ps (map (fun e => (fst e, fst (snd e))) (prod_entries fs (b + aut_width t0))) op) as [ws'|] eqn:R; [|discriminate].
  destruct I as [I|I]; [injection I as <- <-; eauto|]. eapply IH; eauto.
Qed.
Lemma ports_not fs k t : NoDup (map fst fs) -> In (k, t) fs -> ~ bits_port t -> dget key_eqb (ports aut_width fs) k = Some None.
Proof.
  unfold ports. induction fs as [|[k0 t0] fs IH]; intros ND I N; [destruct I|].
  inversion ND as [|? ? N1 N2]; subst. cbn [map dget fst snd]. destruct I as [I|I].
  - injection I as -> ->. rewrite (proj2 (key_eqb_eq k k)) by auto. destruct t; cbn in N; tauto || reflexivity.
  - destruct (key_eqb k k0) eqn:Ek; [|apply IH; auto].
    apply key_eqb_eq in Ek as ->. destruct N1. apply (in_map fst) in I. exact I.
Qed.
Theorem C96_wirable c fs op : wf_ty (TProd c fs) ->
  (exists ws, wrap_inst (TProd c fs) op = Ok ws) <-> Forall (fun f => bits_port (snd f)) fs.
Proof.
  intros W. assert (no_dup_keys fs) as ND by (inversion W; auto). unfold wrap_inst. rewrite lay_prod. split.
  - intros (ws & E). rewrite Forall_forall. intros [k t] I. cbn [snd].
    destruct (wire_needs _ _ _ _ _ E k t I) as (w & D).
    assert (B : bits_port t \/ ~ bits_port t) by (destruct t; cbn; tauto). destruct B as [B|B]; [exact B|].
    rewrite (ports_not fs k t ND I B) in D. discriminate.
  - intros WI%bits_wirable. eexists. apply wire_from. intros k t I. apply ports_get; auto. rewrite Forall_forall in WI. exact (WI _ I).
Qed.

Open Scope string_scope.
Example C96_case : exists v', wf_ty ex18 /\ no_bit_member ex18 /\ aut_gen ex18 = Ok tt /\ has_ty ex18 ex_val /\
  sub_val ex18 ex_val [ky "imm"; ky "pair"; ky "x"] (TBV 8) v' /\
  (do op <- aut_asm ex18 ex_val; region (aut_layout ex18) op [ky "imm"; ky "pair"; ky "x"]) = Ok 171.
Proof.
  destruct C18_case as (W & N & G & H & _). eexists. split; [exact W|]. split; [exact N|]. split; [exact G|].
  split; [exact H|]. split; [|vm_compute; reflexivity].
  eapply sv_prod with (i := 1%nat); [reflexivity|reflexivity|].
  eapply sv_sum with (t := TProd "P" [(ky "x", TBV 8); (ky "y", TBit)]); [cbn; auto|].
  eapply sv_prod with (i := 0%nat); [reflexivity|reflexivity|]. constructor.
Qed.
(** The instruction of tests/test_magma.py with two Enums and a Bit, and a word. *)
Definition ex96 : ty := TProd "Inst" [(ky "op0", ex_op); (ky "choice", TBit); (ky "op1", ex_op); (ky "imm", TBV 4)].
Definition ex96_val : val := VProd [VEnum (EAuto "Mul"); VBit true; VEnum (EInt 4); VBV 9].
Example C96_case_wired : wf_ty ex96 /\ no_bit_member ex96 /\ has_ty ex96 ex96_val /\
  (do op <- aut_asm ex96 ex96_val; wrap_inst ex96 op) = Ok [(ky "op0", 1); (ky "choice", 1); (ky "op1", 4); (ky "imm", 9)].
Proof.
  split; [apply wf_b_spec; reflexivity|]. split; [repeat (constructor; cbn; try discriminate)|].
  split; [apply has_ty_b_spec; reflexivity|]. vm_compute. reflexivity.
Qed.
Example C96_case_wired_asm : exists a op, Forall wf_ty [ex96] /\ built [] ex96 a /\
  Forall (fun f => swidth (snd f) (aut_width (snd f)))
    [(ky "op0", ex_op); (ky "choice", TBit); (ky "op1", ex_op); (ky "imm", TBV 4)] /\
  assemble a ex96_val = Ok op /\ encodes ex96 op ex96_val /\
  wrap_inst_asm aut_width ex96 a op = Ok [(ky "op0", 2); (ky "choice", 1); (ky "op1", 4); (ky "imm", 9)].
Proof.
  assert (Forall wf_ty [ex96]) as W by (apply wf_all_b; vm_compute; reflexivity).
  assert (swidth ex_op 3) as So.
  { assert (exists a, built [] ex_op a /\ a_width a = 3) as (a & B & E).
    { eexists. split; [eexists; vm_compute; reflexivity|reflexivity]. }
    rewrite <- E. assert (Forall wf_ty [ex_op]) as Wo by (apply wf_all_b; vm_compute; reflexivity).
    refine (proj1 (asm_rel_width _ ex_op _ a (built_rel [] ex_op a Wo B))). inversion Wo; auto. }
  assert (exists a, built [] ex96 a) as [a B] by (eexists; eexists; vm_compute; reflexivity).
  assert (has_ty ex96 ex96_val) as H by (apply has_ty_b_spec; reflexivity).
  assert (nonneg_signed ex96 ex96_val) as N by (repeat constructor).
  destruct (assemble_spec _ ex96 a ex96_val ltac:(inversion W; auto) (built_rel [] ex96 a W B) H N) as (op & E & C & _).
  exists a, op. split; [exact W|]. split; [exact B|]. split.
  { repeat constructor; exact So. }
  split; [exact E|]. split; [eapply canonical_encodes; eauto|].
  clear - B E. destruct B as [st B]. vm_compute in B. injection B as <- _. vm_compute in E. injection E as <-. vm_compute. reflexivity.
Qed.
(** A nested Product cannot be wired, although its layout is there. *)
Example C96_case_nested : wrap_inst (TProd "I" [(ky "p", TProd "P" [(ky "x", TBV 8)])]) 5 = Err TypeError /\
  region (aut_layout (TProd "I" [(ky "p", TProd "P" [(ky "x", TBV 8)])])) 5 [ky "p"; ky "x"] = Ok 5.
Proof. split; vm_compute; reflexivity. Qed.

Theorem C96_full_refuted : ~ C96_full.
Proof.
  intros F. destruct (F (TSum false "S" [(ky "Bit", TBit); (ky "BV4", TBV 4)]) (VSum (ky "Bit") (VBit true)) [] _ _
    ltac:(apply wf_b_spec; reflexivity) eq_refl ltac:(apply has_ty_b_spec; reflexivity) (sv_here _ _)) as (op & op' & E & _).
  vm_compute in E. discriminate.
Qed.

Print Assumptions C96_bounds.
Print Assumptions C96_fields.
Print Assumptions C96_members.
Print Assumptions C96_enum.
Print Assumptions C96_parts_partial.
Print Assumptions C96_reads.
Print Assumptions C96_wired.
Print Assumptions C96_wired_asm.
Print Assumptions C96_full_refuted.
Print Assumptions C96_only.
Print Assumptions C96_wirable.
