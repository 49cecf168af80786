(** Negative signed fields: the exact word of every value, and which values
    survive assembling. *)
From Coq Require Import String ZArith List Bool Lia Permutation.
From Verif Require Import Base BaseLemmas AsmModel AsmSpec AsmValid AsmEnum AsmBuild AsmProofs AsmMore AsmSub Asm2Model Asm2Proofs.
Import ListNotations.
Open Scope Z_scope.

(** ** Specification *)

(** [neg_end t v p]: v has a negative signed field, and the lowest one ends below
    bit p of the word. *)
Inductive neg_end : ty -> val -> Z -> Prop :=
| ne_sint w z : 2 ^ (w - 1) <= z -> neg_end (TSInt w) (VBV z) w
| ne_prod c fs vs p : neg_fields fs vs p -> neg_end (TProd c fs) (VProd vs) p
| ne_sum g c fs k t v p :
    In (k, t) fs -> neg_end t v p -> neg_end (TSum g c fs) (VSum k v) (bits_for (Z.of_nat (length fs) - 1) + p)
with neg_fields : list (key * ty) -> list val -> Z -> Prop :=
| nf_here k t r v vs p : neg_end t v p -> neg_fields ((k, t) :: r) (v :: vs) p
| nf_later k t r v vs w p :
    nonneg_signed t v -> swidth t w -> neg_fields r vs p -> neg_fields ((k, t) :: r) (v :: vs) (w + p).

(** The value that a word of ones stands for. *)
Definition all_ones (t : ty) (v : val) : Prop := exists w, swidth t w /\ encodes t (2 ^ w - 1) v.

(** Every field above a negative signed field is all ones. *)
Inductive survives : ty -> val -> Prop :=
| su_nonneg t v : nonneg_signed t v -> survives t v
| su_sint w z : survives (TSInt w) (VBV z)
| su_prod c fs vs : survive_fields fs vs -> survives (TProd c fs) (VProd vs)
| su_sum g c fs k t v : In (k, t) fs -> survives t v -> survives (TSum g c fs) (VSum k v)
with survive_fields : list (key * ty) -> list val -> Prop :=
| sf_below k t r v vs : nonneg_signed t v -> survive_fields r vs -> survive_fields ((k, t) :: r) (v :: vs)
| sf_above k t r v vs p :
    neg_end t v p -> survives t v -> Forall2 (fun f v => all_ones (snd f) v) r vs ->
    survive_fields ((k, t) :: r) (v :: vs).

(** ** Cases *)
Lemma signed_cases t : wf_ty t -> forall v, has_ty t v -> nonneg_signed t v \/ exists p, neg_end t v p.
Proof.
  induction t as [| | |c ms|c fs IH|g c fs IH] using ty_ind'; intros W v H.
  - inversion H; subst. left. constructor.
  - inversion H; subst. left. constructor.
  - inversion H; subst. destruct (Z_lt_ge_dec z (2 ^ (w - 1))); [left; now constructor|right; exists w; constructor; lia].
  - inversion H; subst. left. constructor.
  - inversion H as [| | | |? ? vs F|]; subst. assert (WF : Forall (fun f => wf_ty (snd f)) fs) by (inversion W; auto).
    assert (Forall2 (fun f v => nonneg_signed (snd f) v) fs vs \/ exists p, neg_fields fs vs p) as [N|[p N]].
    { clear H W. revert WF IH. induction F as [|[k t] v fs vs Hv F IHF]; intros WF IH; [left; constructor|].
      inversion WF; inversion IH; subst. cbn [snd] in *. destruct (H5 H1 v Hv) as [N|[p N]].
      - destruct (IHF H2 H6) as [N'|[p N']]; [left; now constructor|]. right. eexists. eapply nf_later; eauto. now apply a2_width_spec.
      - right. exists p. now constructor. }
    + left. now constructor.
    + right. exists p. now constructor.
  - inversion H as [| | | | |? ? ? k t v' I Hv]; subst. rewrite Forall_forall in IH.
    destruct (IH _ I (wf_members_sum _ _ _ _ _ W I) v' Hv) as [N|[p N]]; [left|right; eexists]; econstructor; eauto.
Qed.

Lemma neg_not_nonneg t : wf_ty t -> forall v p, neg_end t v p -> nonneg_signed t v -> False.
Proof.
  induction t as [| | |c ms|c fs IH|g c fs IH] using ty_ind'; intros W v p N NN; try solve [inversion N].
  - inversion N; subst. inversion NN; subst. lia.
  - inversion N as [|? ? vs ? F|]; subst. inversion NN as [| | | |? ? ? F'|]; subst.
    assert (WF : Forall (fun f => wf_ty (snd f)) fs) by (inversion W; auto).
    clear N NN W. revert p F WF IH. induction F' as [|[k t] v fs vs Hv F' IHF]; intros p F WF IH; [inversion F|].
    inversion WF; inversion IH; subst. inversion F; subst; cbn [snd] in *; eauto.
  - inversion N as [| |? ? ? k t v' q I N']; subst. inversion NN as [| | | | |? ? ? ? t' ? I' NN']; subst.
    assert (ND : no_dup_keys fs) by (inversion W; auto). assert (t' = t) as -> by (eapply nodup_key_fun; eauto).
    rewrite Forall_forall in IH. eapply (IH _ I); eauto. eapply wf_members_sum; eauto.
Qed.

Lemma neg_range t : wf_ty t -> forall v p w, neg_end t v p -> swidth t w -> 0 <= p <= w.
Proof.
  induction t as [| | |c ms|c fs IH|g c fs IH] using ty_ind'; intros W v p w0 N S; try solve [inversion N].
  - inversion N; inversion S; inversion W; subst. lia.
  - inversion N as [|? ? vs ? F|]; subst. inversion S as [| | | |? ? ws FW|]; subst.
    assert (WF : Forall (fun f => wf_ty (snd f)) fs) by (inversion W; auto).
    clear N S W. revert vs p F WF IH. induction FW as [|[k t] w fs ws Sw FW IHF]; intros vs p F WF IH; [inversion F|].
    inversion WF; inversion IH; subst. cbn [snd] in *. pose proof (zsum_widths_nonneg _ _ H2 FW) as Z0.
    change (zsum (w :: ws)) with (w + zsum ws). pose proof (swidth_nonneg _ H1 _ Sw). inversion F as [? ? ? ? ? ? Nv|? ? ? ? ? w' p' NNv Sw' F']; subst.
    + pose proof (H5 H1 _ _ _ Nv Sw). lia.
    + assert (w' = w) as -> by (eapply swidth_fun; eauto). pose proof (IHF _ _ F' H2 H6). lia.
  - inversion N as [| |? ? ? k t v' q I N']; subst. inversion S as [| | | | |? ? ? ws FW]; subst.
    rewrite Forall_forall in IH. assert (Wt : wf_ty t) by (eapply wf_members_sum; eauto).
    assert (exists w, swidth t w /\ w <= zmaximum ws) as (w & Sw & L).
    { clear - FW I. induction FW as [|f w fs ws Sw FW IH]; [easy|]. unfold zmaximum in *. cbn [fold_right]. destruct I as [->|I].
      - exists w. split; auto. lia. - destruct (IH I) as (w' & S' & L). exists w'. split; auto. lia. }
    pose proof (IH _ I Wt _ _ _ N' Sw). pose proof (bits_for_nonneg (Z.of_nat (length fs) - 1)). lia.
Qed.

Lemma neg_fields_nonneg fs : Forall (fun f : key * ty => wf_ty (snd f)) fs -> forall vs p, neg_fields fs vs p -> 0 <= p.
Proof.
  induction fs as [|[k t] fs IH]; intros WF vs p F; inversion F as [? ? ? ? ? ? Nv|? ? ? ? ? w' p' NNv Sw' F']; subst;
    inversion WF as [|? ? W1 W2]; subst; cbn [snd] in *.
  - apply (neg_range t) with (w := a2_width t) in Nv; auto; [lia|now apply a2_width_spec].
  - pose proof (IH W2 _ _ F'). pose proof (swidth_nonneg _ W1 _ Sw'). lia.
Qed.

(** ** The word of a value with a negative field *)
Lemma lor_absorb acc y b : 0 <= b -> - 2 ^ b <= acc < 0 -> Z.lor acc (Z.shiftl y b) = acc.
Proof.
  intros Hb R. apply Z.bits_inj'. intros k Hk. rewrite Z.lor_spec. destruct (Z_lt_ge_dec k b) as [L|G].
  - rewrite Z.shiftl_spec_low by lia. apply orb_false_r.
  - assert (Z.testbit acc k = true) as ->; [|reflexivity].
    replace acc with (- (- acc)) by lia. apply Z.bits_opp with (a := - acc) in Hk. rewrite Hk.
    assert (Z.testbit (Z.pred (- acc)) k = false) as ->; [|reflexivity].
    destruct (Z.eq_dec (Z.pred (- acc)) 0) as [->|N]; [apply Z.bits_0|]. apply Z.bits_above_log2; [lia|].
    apply Z.log2_lt_pow2; [lia|]. pose proof (pow2_mono b k ltac:(lia)). lia.
Qed.

Lemma mod_low x y p w : 0 <= p <= w -> (x + 2 ^ w * y) mod 2 ^ p = x mod 2 ^ p.
Proof.
  intros H. replace w with (p + (w - p)) by lia. rewrite pow2_split by lia.
  replace (x + 2 ^ p * 2 ^ (w - p) * y) with (x + (2 ^ (w - p) * y) * 2 ^ p) by ring. apply Z.mod_add. pose proof (pow2_pos p ltac:(lia)). lia.
Qed.
Lemma mod_high x y p w : 0 <= p -> 0 <= w -> 0 <= x < 2 ^ w -> (x + 2 ^ w * y) mod 2 ^ (w + p) = x + 2 ^ w * (y mod 2 ^ p).
Proof.
  intros Hp Hw Hx. rewrite pow2_split by lia. pose proof (pow2_pos w Hw). pose proof (pow2_pos p Hp).
  rewrite (Z.div_mod y (2 ^ p)) at 1 by lia. pose proof (Z.mod_pos_bound y (2 ^ p) ltac:(lia)).
  replace (x + 2 ^ w * (2 ^ p * (y / 2 ^ p) + y mod 2 ^ p)) with (x + 2 ^ w * (y mod 2 ^ p) + y / 2 ^ p * (2 ^ w * 2 ^ p)) by ring.
  rewrite Z.mod_add by lia. apply Z.mod_small. nia.
Qed.

Section Word.
  Variable R : list Z -> Z -> Prop.

  (** Fields above a negative one change nothing. *)
  Lemma tup_asm_absorb b fs w fs' : tup_rel R b fs w fs' -> forall acc vs,
    Forall (fun f => wf_ty (snd f)) fs -> Forall2 (fun f v => has_ty (snd f) v) fs vs -> 0 <= b -> - 2 ^ b <= acc < 0 ->
    tup_asm fs' vs acc = Ok acc.
  Proof.
    induction 1 as [b|b k t r w a rest Ha Tr IH]; intros acc vs WF F Hb Hacc; [inversion F; subst; reflexivity|].
    inversion WF as [|? ? W1 W2]; inversion F as [|? y ? vs' Hy F']; subst. cbn [snd tup_asm] in *.
    destruct (a_asm_total R t W1 a y Ha Hy) as (op & E & _). rewrite E. cbn [bind].
    rewrite lor_absorb by auto. destruct (asm_rel_width R t W1 a Ha) as [_ P]. apply IH; auto; try lia.
    pose proof (pow2_mono b (b + a_width a) ltac:(lia)). lia.
  Qed.

  Lemma a_asm_neg t : wf_ty t -> forall a v e p, asm_rel R t a -> canonical t e v -> neg_end t v p ->
    a_asm a v = Ok (e mod 2 ^ p - 2 ^ p).
  Proof.
    induction t as [| | |c ms|c fs IH|g c fs IH] using ty_ind'; intros W a v e p A C N; try solve [inversion N].
    - inversion N; subst. inversion A; subst. inversion C; subst. inversion W; subst. cbn [a_asm leaf_int].
      rewrite Z.mod_small by lia. f_equal. unfold to_signed.
      assert (Z.testbit z (p - 1) = true) as ->; [|reflexivity].
      apply Z.testbit_true; [lia|]. assert (2 ^ p = 2 * 2 ^ (p - 1)) by (rewrite <- Z.pow_succ_r by lia; f_equal; lia).
      replace z with (z - 2 ^ (p - 1) + 1 * 2 ^ (p - 1)) by lia. rewrite Z.div_add by lia. rewrite Z.div_small by lia. reflexivity.
    - inversion N as [|? ? vs ? F|]; subst. inversion A as [| | | |? ? w fs' T|]; subst. inversion C as [| | | |? ? ? ? Ef|]; subst.
      assert (WF : Forall (fun f => wf_ty (snd f)) fs) by (inversion W; auto). rewrite a_asm_tuple.
      assert (G : forall b fs w fs', tup_rel R b fs w fs' -> forall vs p y acc,
        Forall (fun f => wf_ty (snd f) -> forall a v e p, asm_rel R (snd f) a -> canonical (snd f) e v -> neg_end (snd f) v p -> a_asm a v = Ok (e mod 2 ^ p - 2 ^ p)) fs ->
        Forall (fun f => wf_ty (snd f)) fs -> neg_fields fs vs p -> enc_fields (fun j => j = 0) fs y vs -> 0 <= b -> 0 <= acc < 2 ^ b ->
        tup_asm fs' vs acc = Ok (acc + 2 ^ b * (y mod 2 ^ p - 2 ^ p))).
      { clear. induction 1 as [b|b k t r w a rest Ha Tr IHT]; intros vs p y acc IH WF F Ef Hb Hacc; [inversion F|].
        inversion IH as [|? ? I1 I2]; inversion WF as [|? ? W1 W2]; subst. cbn [snd] in *. inversion Ef as [|? ? ? w' x y' v vs' Sw Ex Ef']; subst.
        destruct (asm_rel_width R t W1 a Ha) as [Sa Pa]. assert (w' = a_width a) as -> by (eapply swidth_fun; eauto).
        pose proof (enc_range _ _ W1 _ _ _ Ex Sa) as Rx. pose proof (pow2_pos b Hb) as Pb.
        inversion F as [? ? ? ? ? ? Nv|? ? ? ? ? w' p' NNv Sw' F']; subst; cbn [tup_asm].
        - rewrite (I1 W1 a v x p Ha Ex Nv). cbn [bind]. rewrite lor_shiftl_add by auto.
          pose proof (neg_range t W1 _ _ _ Nv Sa) as Rp. rewrite mod_low by lia.
          pose proof (pow2_pos p ltac:(lia)) as Pp. pose proof (Z.mod_pos_bound x (2 ^ p) ltac:(lia)).
          apply (tup_asm_absorb _ _ _ _ Tr); auto; try lia.
          + clear - Ef'. induction Ef'; constructor; auto. cbn. eapply enc_has_ty; eauto.
          + rewrite pow2_split by lia. pose proof (pow2_mono p (a_width a) ltac:(lia)). nia.
        - assert (w' = a_width a) as -> by (eapply swidth_fun; eauto).
          destruct (a_asm_spec R t W1 a v Ha (enc_has_ty _ _ _ _ Ex) NNv) as (x0 & E0 & C0).
          assert (x0 = x) as -> by (apply (canonical_fun t W1 _ _ _ C0 Ex)). rewrite E0. cbn [bind]. rewrite lor_shiftl_add by auto.
          rewrite (IHT vs' p' y'); auto; try lia.
          + pose proof (neg_fields_nonneg _ W2 _ _ F') as Pp. rewrite mod_high by auto. rewrite !pow2_split by lia. f_equal. ring.
          + rewrite pow2_split by lia. pose proof (pow2_pos (a_width a) Pa). nia. }
      rewrite (G 0 fs w fs' T vs p e 0); auto; try lia. f_equal. rewrite Z.pow_0_r. lia.
    - inversion N as [| |? ? ? k t v' q I N']; subst.
      inversion A as [| | | | |? ? ? sorted tagw pw fs' gs tv E1 E2 S G1 G2 Vt]; subst.
      inversion C as [| | | | |? ? ? pre k0 t0 post W0 w x junk v0 Hfs SW Sw Ex Hj HJ HW]; subst v0 k0.
      assert (no_dup_keys fs) as ND by (inversion W; auto).
      assert (t0 = t) as -> by (eapply nodup_key_fun; eauto; rewrite Hfs; apply in_app_iff; right; left; auto).
      assert (wf_ty t) as Wt by (eapply wf_members_sum; eauto).
      pose proof (rank_index pre k t post) as Ri. rewrite <- Hfs in Ri.
      destruct (sum_find_spec _ _ _ _ _ _ _ _ _ _ (sorted_keys_NoDup fs ND) S Ri) as (a & Ef & Aa).
      rewrite Forall_forall in IH. pose proof (IH _ I Wt a v' x q Aa Ex N') as Ea. cbn [snd] in *.
      rewrite a_asm_sum, Ef, Ea. cbn [bind].
      pose proof (rank_lt _ _ _ _ _ Hfs) as Rl. rewrite Z.add_0_l, Z2Nat.id by lia.
      set (tw := bit_length (Z.of_nat (length fs) - 1)).
      assert (bits_for (Z.of_nat (length fs) - 1) = tw) as Eb by (apply bits_for_bit_length; lia).
      assert (0 <= tw) by apply bit_length_nonneg. rewrite Eb in *.
      assert (Rt : 0 <= rank_at pre k post < 2 ^ tw) by (split; [lia|]; rewrite <- Eb; apply lt_pow2_bits_for; lia).
      rewrite Z.lor_comm, lor_shiftl_add by auto. subst junk. rewrite Z.mul_0_r, Z.add_0_r.
      pose proof (neg_range t Wt _ _ _ N' Sw). rewrite mod_high by (auto; lia). rewrite pow2_split by lia. f_equal. ring.
  Qed.
End Word.

(** ** Which words still hold the value *)
Lemma ones_fields fs : Forall (fun f : key * ty => wf_ty (snd f)) fs -> forall ws vs, Forall2 (fun f w => swidth (snd f) w) fs ws ->
  (enc_fields (fun _ => True) fs (2 ^ zsum ws - 1) vs <-> Forall2 (fun f v => all_ones (snd f) v) fs vs).
Proof.
  induction fs as [|[k t] fs IH]; intros WF ws vs FW.
  - inversion FW; subst. change (2 ^ zsum [] - 1) with 0. split; intros H; inversion H; subst; constructor.
  - inversion FW as [|? w ? ws' Sw FW']; subst. inversion WF as [|? ? W1 W2]; subst. cbn [snd] in *. pose proof (swidth_nonneg _ W1 _ Sw) as P.
    pose proof (zsum_widths_nonneg _ _ W2 FW') as P'. change (zsum (w :: ws')) with (w + zsum ws').
    assert (E0 : 2 ^ (w + zsum ws') - 1 = (2 ^ w - 1) + 2 ^ w * (2 ^ zsum ws' - 1)) by (rewrite pow2_split by lia; ring). rewrite E0.
    split.
    + intros H. inversion H as [|? ? ? w' x y v vs' Sw' Ex Ef EE]; subst. assert (w' = w) as -> by (eapply swidth_fun; eauto).
      pose proof (enc_range _ _ W1 _ _ _ Ex Sw). pose proof (pow2_pos w P).
      assert (x = 2 ^ w - 1 /\ y = 2 ^ zsum ws' - 1) as [-> ->].
      { assert (y = 2 ^ zsum ws' - 1) by nia. subst. lia. }
      constructor; [exists w; auto|]. apply (IH W2 ws'); auto.
    + intros H. inversion H as [|? v ? vs' (w' & Sw' & Ex) F]; subst. cbn [snd] in *. assert (w' = w) as -> by (eapply swidth_fun; eauto).
      econstructor; eauto. apply (IH W2 ws'); auto.
Qed.

Lemma enc_weaken t : forall x v, canonical t x v -> encodes t x v.
Proof.
  induction t as [| | |c ms|c fs IH|g c fs IH] using ty_ind'; intros x v E.
  1-4: inversion E; subst; now constructor.
  - inversion E as [| | | |? ? ? vs F|]; subst. constructor. clear E. revert x vs F IH.
    induction fs as [|[k t] fs IHF]; intros x vs F IH; inversion F; subst; [constructor|]. inversion IH; subst. cbn [snd] in *. econstructor; eauto. now apply H1.
  - inversion E as [| | | | |? ? ? pre k t post W0 w x0 junk v0 Hfs SW Sw Ex Hj HJ HW]; subst. econstructor; eauto.
    rewrite Forall_forall in IH. apply (IH (k, t)); auto. apply in_app_iff. right. now left.
Qed.

Lemma survives_sum g c fs k v : survives (TSum g c fs) (VSum k v) ->
  nonneg_signed (TSum g c fs) (VSum k v) \/ exists t, In (k, t) fs /\ survives t v.
Proof. intros S. inversion S; subst; eauto. Qed.

Lemma holds_iff t : wf_ty t -> forall v e p W, canonical t e v -> neg_end t v p -> swidth t W ->
  (encodes t (e mod 2 ^ p + (2 ^ W - 2 ^ p)) v <-> survives t v).
Proof.
  induction t as [| | |c ms|c fs IH|g c fs IH] using ty_ind'; intros W v e p W0 C N S; try solve [inversion N].
  - inversion N; subst. inversion C; subst. inversion S; subst. rewrite Z.mod_small, Z.sub_diag, Z.add_0_r by lia.
    split; intros _; [apply su_sint|now constructor].
  - inversion N as [|? ? vs ? F|]; subst. inversion C as [| | | |? ? ? ? Ef|]; subst. inversion S as [| | | |? ? ws FW|]; subst.
    assert (WF : Forall (fun f => wf_ty (snd f)) fs) by (inversion W; auto).
    assert (G : enc_fields (fun _ => True) fs (e mod 2 ^ p + (2 ^ zsum ws - 2 ^ p)) vs <-> survive_fields fs vs).
    { clear C N S W. revert vs p e F Ef WF IH.
      induction FW as [|[k t] w fs ws Sw FW IHF]; intros vs p e F Ef WF IH; [inversion F|].
      inversion WF as [|? ? W1 W2]; inversion IH as [|? ? I1 I2]; subst. cbn [snd] in *.
      inversion Ef as [|? ? ? w' x y v vs' Sw' Ex Ef']; subst. assert (w' = w) as -> by (eapply swidth_fun; eauto). clear Sw'.
      pose proof (enc_range _ _ W1 _ _ _ Ex Sw) as Rx. pose proof (swidth_nonneg _ W1 _ Sw) as Pw. pose proof (pow2_pos w Pw).
      pose proof (zsum_widths_nonneg _ _ W2 FW) as Pz. change (zsum (w :: ws)) with (w + zsum ws).
      inversion F as [? ? ? ? ? ? Nv|? ? ? ? ? w' p' NNv Sw' F']; subst.
      - pose proof (neg_range t W1 _ _ _ Nv Sw) as Rp. rewrite mod_low by lia. pose proof (pow2_pos p ltac:(lia)).
        pose proof (Z.mod_pos_bound x (2 ^ p) ltac:(lia)). pose proof (pow2_mono p w ltac:(lia)).
        replace (x mod 2 ^ p + (2 ^ (w + zsum ws) - 2 ^ p)) with (x mod 2 ^ p + (2 ^ w - 2 ^ p) + 2 ^ w * (2 ^ zsum ws - 1)) by (rewrite pow2_split by lia; ring).
        pose proof (I1 W1 _ _ _ _ Ex Nv Sw) as Iv. split.
        + intros H3. inversion H3 as [|? ? ? w' x' y' v' vs'' Sw' Ex' Ef'' EE]; subst. assert (w' = w) as -> by (eapply swidth_fun; eauto).
          pose proof (enc_range _ _ W1 _ _ _ Ex' Sw) as Rx'.
          assert (y' = 2 ^ zsum ws - 1) by nia. subst y'. assert (x' = x mod 2 ^ p + (2 ^ w - 2 ^ p)) by lia. subst x'.
          eapply sf_above; eauto; [now apply Iv|]. apply (ones_fields fs W2 ws); auto.
        + intros H3. inversion H3 as [? ? ? ? ? NNv|? ? ? ? ? p' _ Sv Fo]; subst; [now destruct (neg_not_nonneg t W1 _ _ Nv)|].
          econstructor; eauto; [now apply Iv|]. apply (ones_fields fs W2 ws); auto.
      - assert (w' = w) as -> by (eapply swidth_fun; eauto).
        pose proof (neg_fields_nonneg _ W2 _ _ F') as Pp.
        rewrite mod_high by auto.
        replace (x + 2 ^ w * (y mod 2 ^ p') + (2 ^ (w + zsum ws) - 2 ^ (w + p'))) with (x + 2 ^ w * (y mod 2 ^ p' + (2 ^ zsum ws - 2 ^ p')))
          by (rewrite !pow2_split by lia; ring).
        assert (Iv : enc_fields (fun _ => True) fs (y mod 2 ^ p' + (2 ^ zsum ws - 2 ^ p')) vs' <-> survive_fields fs vs').
        { apply IHF; auto. }
        split.
        + intros H3. inversion H3 as [|? ? ? w' x' y' v' vs'' Sw'' Ex' Ef'' EE]; subst. assert (w' = w) as -> by (eapply swidth_fun; eauto).
          pose proof (enc_range _ _ W1 _ _ _ Ex' Sw) as Rx'. set (Y := y mod 2 ^ p' + (2 ^ zsum ws - 2 ^ p')) in *.
          assert (y' = Y) by nia. subst y'. apply sf_below; auto. now apply Iv.
        + intros H3. inversion H3 as [? ? ? ? ? _ Sf|? ? ? ? ? q Nv]; subst; [|now destruct (neg_not_nonneg t W1 _ _ Nv)].
          econstructor; eauto; [now apply enc_weaken|now apply Iv]. }
    split.
    + intros E. inversion E; subst. apply su_prod. now apply G.
    + intros Su. inversion Su; subst; [exfalso; eapply neg_not_nonneg; eauto|]. constructor. now apply G.
  - inversion N as [| |? ? ? k t v' q I N']; subst.
    inversion C as [| | | | |? ? ? pre k0 t0 post W1 w x junk v0 Hfs SW Sw Ex Hj HJ HW]; subst v0 k0.
    assert (no_dup_keys fs) as ND by (inversion W; auto).
    assert (t0 = t) as -> by (eapply nodup_key_fun; eauto; rewrite Hfs; apply in_app_iff; right; left; auto).
    assert (W1 = W0) as -> by (eapply swidth_fun; eauto).
    assert (wf_ty t) as Wt by (eapply wf_members_sum; eauto). rewrite Forall_forall in IH.
    set (tw := bits_for (Z.of_nat (length fs) - 1)) in *. assert (Ptw : 0 <= tw) by apply bits_for_nonneg.
    pose proof (rank_lt _ _ _ _ _ Hfs) as Rl.
    assert (Rt : 0 <= rank_at pre k post < 2 ^ tw) by (split; [lia|]; unfold tw; apply lt_pow2_bits_for; lia).
    pose proof (swidth_nonneg _ Wt _ Sw) as Pw. pose proof (neg_range t Wt _ _ _ N' Sw) as Rq.
    assert (tw + w <= W0) as LW.
    { inversion SW as [| | | | |? ? ? ws FW]; subst. fold tw. assert (w <= zmaximum ws); [|lia].
      clear - FW I Sw. induction FW as [|f w' fs ws S' FW IH]; [easy|]. unfold zmaximum in *. cbn [fold_right]. destruct I as [->|I].
      - assert (w' = w) as -> by (eapply swidth_fun; eauto). lia. - specialize (IH I). lia. }
    pose proof (enc_range _ _ Wt _ _ _ Ex Sw) as Rx. pose proof (IH _ I Wt _ _ _ _ Ex N' Sw) as Iv. cbn [snd] in Iv.
    subst junk. rewrite Z.mul_0_r, Z.add_0_r, mod_high by (auto; lia).
    pose proof (pow2_pos q ltac:(lia)). pose proof (pow2_pos w Pw). pose proof (pow2_pos tw Ptw). pose proof (pow2_pos (W0 - tw - w) ltac:(lia)).
    pose proof (Z.mod_pos_bound x (2 ^ q) ltac:(lia)). pose proof (pow2_mono q w ltac:(lia)).
    assert (EW : rank_at pre k post + 2 ^ tw * (x mod 2 ^ q) + (2 ^ W0 - 2 ^ (tw + q)) =
                 rank_at pre k post + 2 ^ tw * (x mod 2 ^ q + (2 ^ w - 2 ^ q) + 2 ^ w * (2 ^ (W0 - tw - w) - 1))).
    { replace W0 with (tw + (w + (W0 - tw - w))) at 1 by lia. rewrite !(pow2_split tw), (pow2_split w) by lia. ring. }
    rewrite EW. split.
    + intros E. inversion E as [| | | | |? ? ? pre' k0 t0 post' W1 w' x' junk v0 Hfs' SW' Sw' Ex' Hj' _ HW']; subst v0 k0.
      destruct (nodup_split_unique fs pre' pre post' post k t0 t ND Hfs' Hfs) as (-> & -> & ->).
      assert (w' = w) as -> by (eapply swidth_fun; eauto). fold tw in HW'.
      pose proof (enc_range _ _ Wt _ _ _ Ex' Sw) as Rx'.
      assert (x' + 2 ^ w * junk = x mod 2 ^ q + (2 ^ w - 2 ^ q) + 2 ^ w * (2 ^ (W0 - tw - w) - 1)) as EE.
      { match goal with X : rank_at _ _ _ + _ = rank_at _ _ _ + _ |- _ => fold tw in X; apply (Z.mul_reg_l _ _ (2 ^ tw)); [lia|clear - X; lia] end. }
      assert (junk = 2 ^ (W0 - tw - w) - 1) by nia. subst junk. assert (x' = x mod 2 ^ q + (2 ^ w - 2 ^ q)) by lia. subst x'.
      eapply su_sum; eauto. now apply Iv.
    + intros Su. apply survives_sum in Su as [NN|(t0 & I' & Sv)]; [exfalso; apply (neg_not_nonneg _ W _ _ N NN)|].
      assert (t0 = t) as -> by (eapply nodup_key_fun; eauto).
      eapply enc_sum with (W := W0) (w := w); eauto; try lia; [now apply Iv|].
      fold tw. rewrite <- EW. replace W0 with (tw + (W0 - tw)) by lia. rewrite !(pow2_split tw) by lia.
      pose proof (pow2_mono q (W0 - tw) ltac:(lia)). nia.
Qed.
