(** C01, C02, C03, C07, C13, C15, C16 for all values, negative signed fields included. *)
From Coq Require Import String ZArith List Bool Lia.
From Verif Require Import Base BaseLemmas AsmModel AsmSpec AsmValid AsmEnum AsmBuild AsmProofs AsmSub AsmCheck AsmMore AsmProps
  AadtModel AadtProofs AadtProps Asm2Model Asm2Proofs Asm2Props AsmSigned.
Import ListNotations.
Open Scope string_scope.
Open Scope list_scope.
Open Scope Z_scope.

(** The word of a value: its encoding with zero padding, with ones above the lowest
    negative signed field. *)
Definition word_of (t : ty) (W : Z) (v : val) (op : Z) : Prop :=
  exists e, canonical t e v /\
    (nonneg_signed t v /\ op = e \/ exists p, neg_end t v p /\ 0 <= p <= W /\ op = e mod 2 ^ p + (2 ^ W - 2 ^ p)).

Lemma assemble_word R t a v : wf_ty t -> asm_rel R t a -> has_ty t v ->
  exists op, assemble a v = Ok op /\ word_of t (a_width a) v op.
Proof.
  intros W A H. destruct (asm_rel_width R t W a A) as [Sa Pa]. destruct (signed_cases t W v H) as [N|[p N]].
  - destruct (assemble_spec R t a v W A H N) as (op & E & C & _). exists op. split; auto. exists op. auto.
  - destruct (a2_asm_spec t W v H) as (e & _ & C). pose proof (neg_range t W _ _ _ N Sa) as Rp.
    pose proof (a_asm_neg R t W a v e p A C N) as Ea. destruct (assemble_total R t a v W A H) as (op & E & _). exists op. split; auto.
    unfold assemble in E. rewrite Ea in E. cbn [bind] in E. destruct (bit_length _ <=? _); [|discriminate]. injection E as <-.
    exists e. split; auto. right. exists p. split; auto. split; auto. unfold wrap.
    pose proof (pow2_pos p ltac:(lia)). pose proof (pow2_mono p (a_width a) ltac:(lia)). pose proof (Z.mod_pos_bound e (2 ^ p) ltac:(lia)).
    replace (e mod 2 ^ p - 2 ^ p) with (e mod 2 ^ p + (2 ^ a_width a - 2 ^ p) + (-1) * 2 ^ a_width a) by ring.
    rewrite Z.mod_add by lia. apply Z.mod_small. lia.
Qed.

(** ** C02 The exact word *)
Theorem C02_assemble_word h t a v : Forall wf_ty (t :: h) -> built h t a -> has_ty t v ->
  exists op, assemble a v = Ok op /\ word_of t (a_width a) v op.
Proof. intros W B. apply (assemble_word _ t a v (wf_head _ _ W) (built_rel h t a W B)). Qed.

Lemma word_holds t a R v op : wf_ty t -> asm_rel R t a -> word_of t (a_width a) v op -> (encodes t op v <-> survives t v).
Proof.
  intros W A (e & C & [[N ->]|(p & N & _ & ->)]).
  - split; intros _; [now constructor|now apply enc_weaken].
  - destruct (asm_rel_width R t W a A) as [Sa _]. apply (holds_iff t W v e p _ C N Sa).
Qed.

(** ** C01 Exactly which values survive a round trip *)
Theorem C01_roundtrip_exact h t a v op : Forall wf_ty (t :: h) -> same_width_zero_hot (t :: h) -> built h t a -> has_ty t v ->
  assemble a v = Ok op -> (disassemble a op = Ok v <-> survives t v).
Proof.
  intros W S B H E. pose proof (built_rel h t a W B) as A. pose proof (wf_head _ _ W) as Wt.
  destruct (assemble_word _ t a v Wt A H) as (op' & E' & Wo). assert (op' = op) as -> by congruence.
  destruct (assemble_total _ t a v Wt A H) as (op' & E'' & Rg). assert (op' = op) as -> by congruence.
  rewrite <- (word_holds t a _ v op Wt A Wo). split.
  - apply (sound_spec _ t Wt a op v A Rg).
  - intros En. now destruct (dis_spec _ (reqs_good _ W) _ (acc_reqs _ S) t Wt a op v A En).
Qed.

(** In any history: other values never come back. *)
Theorem C01_others_lost h t a v op : Forall wf_ty (t :: h) -> built h t a -> has_ty t v -> ~ survives t v ->
  assemble a v = Ok op -> disassemble a op <> Ok v.
Proof.
  intros W B H N E D. apply N. pose proof (built_rel h t a W B) as A. pose proof (wf_head _ _ W) as Wt.
  destruct (assemble_word _ t a v Wt A H) as (op' & E' & Wo). assert (op' = op) as -> by congruence.
  destruct (assemble_total _ t a v Wt A H) as (op' & E'' & Rg). assert (op' = op) as -> by congruence.
  apply (word_holds t a _ v op Wt A Wo). apply (sound_spec _ t Wt a op v A Rg D).
Qed.

(** A signed field that is the last one may be negative, and one below fields of ones. *)
Definition sg_ty : ty := TProd "P" [(ky "x", TBV 3); (ky "s", TSInt 8); (ky "y", TBit)].
Definition sg_asm : asm := match build ps0 sg_ty with Ok (a, _) => a | Err _ => AField TBit 0 end.
Lemma sg_wf : Forall wf_ty [sg_ty]. Proof. apply wf_all_b. reflexivity. Qed.
Lemma sg_built : built [] sg_ty sg_asm. Proof. eexists. vm_compute. reflexivity. Qed.
Lemma sg_survives : survives sg_ty (VProd [VBV 5; VBV 200; VBit true]).
Proof.
  constructor 3. apply sf_below; [constructor|]. eapply sf_above.
  - constructor. change (2 ^ (8 - 1)) with 128. lia.
  - apply su_sint.
  - constructor; [|constructor]. exists 1. split; [constructor|]. apply (enc_bit _ true).
Qed.
Lemma sg_lost : ~ survives sg_ty (VProd [VBV 5; VBV 200; VBit false]).
Proof.
  intros S. assert (H : has_ty sg_ty (VProd [VBV 5; VBV 200; VBit false])) by (apply has_ty_b_spec; reflexivity).
  pose proof (built_rel _ _ _ sg_wf sg_built) as A. destruct (assemble_word _ _ _ _ (wf_head _ _ sg_wf) A H) as (op & E & Wo).
  apply (word_holds _ _ _ _ _ (wf_head _ _ sg_wf) A Wo) in S. vm_compute in E. injection E as <-.
  inversion S as [| | | |? ? ? ? F|]; subst.
  inversion F as [|? ? ? w1 x1 y1 ? ? S1 E1 F1]; subst. inversion S1; subst. inversion E1; subst.
  inversion F1 as [|? ? ? w2 x2 y2 ? ? S2 E2 F2]; subst. inversion S2; subst. inversion E2; subst.
  inversion F2 as [|? ? ? w3 x3 y3 ? ? S3 E3 F3]; subst. inversion S3; subst. inversion E3; subst. inversion F3; subst. discriminate.
Qed.
Example C01_exact_case :
  assemble sg_asm (VProd [VBV 5; VBV 200; VBit true]) = Ok (5 + 8 * 200 + 2048) /\
  disassemble sg_asm (5 + 8 * 200 + 2048) = Ok (VProd [VBV 5; VBV 200; VBit true]) /\
  assemble sg_asm (VProd [VBV 5; VBV 200; VBit false]) = Ok (5 + 8 * 200 + 2048).
Proof. repeat split; vm_compute; reflexivity. Qed.

(** ** C03 Exactly which values collide *)
Lemma split_unique m x x' y y' : 0 <= x < m -> 0 <= x' < m -> x + m * y = x' + m * y' -> x = x' /\ y = y'.
Proof. intros R R' E. assert (y = y') by nia. subst. lia. Qed.

Lemma neg_fun t : wf_ty t -> forall v p p', neg_end t v p -> neg_end t v p' -> p = p'.
Proof.
  induction t as [| | |c ms|c fs IH|g c fs IH] using ty_ind'; intros W v p p' N N'; try solve [inversion N].
  - inversion N; inversion N'; subst. congruence.
  - inversion N as [|? ? vs ? F|]; subst. inversion N' as [|? ? ? ? F'|]; subst.
    assert (WF : Forall (fun f => wf_ty (snd f)) fs) by (inversion W; auto). clear N N' W.
    revert vs p p' F F' WF IH. induction fs as [|[k t] fs IHF]; intros vs p p' F F' WF IH; [inversion F|].
    inversion WF as [|? ? W1 W2]; inversion IH as [|? ? I1 I2]; subst. cbn [snd] in *.
    inversion F as [? ? ? ? ? ? Nv|? ? ? ? ? w q NN Sw Fq]; subst; inversion F' as [? ? ? ? ? ? Nv'|? ? ? ? ? w' q' NN' Sw' Fq']; subst.
    + apply (I1 W1 v); auto.
    + now destruct (neg_not_nonneg t W1 _ _ Nv).
    + now destruct (neg_not_nonneg t W1 _ _ Nv').
    + rewrite (swidth_fun _ _ _ Sw Sw'). f_equal. eapply IHF; eauto.
  - inversion N as [| |? ? ? k t v0 q I Nq]; subst. inversion N' as [| |? ? ? ? t' ? q' I' Nq']; subst.
    assert (ND : no_dup_keys fs) by (inversion W; auto). assert (t' = t) as -> by (eapply nodup_key_fun; eauto).
    rewrite Forall_forall in IH. f_equal. apply (IH _ I (wf_members_sum _ _ _ _ _ W I) v0); auto.
Qed.

(** Values whose encodings agree below the lowest negative field share that field. *)
Lemma neg_shared t : wf_ty t -> forall v v' e e' p, canonical t e v -> canonical t e' v' -> neg_end t v p ->
  e mod 2 ^ p = e' mod 2 ^ p -> neg_end t v' p.
Proof.
  induction t as [| | |c ms|c fs IH|g c fs IH] using ty_ind'; intros W v v' e e' p C C' N E; try solve [inversion N].
  - inversion N; subst. inversion C; subst. inversion C'; subst. rewrite !Z.mod_small in E by lia. subst. now constructor.
  - inversion N as [|? ? vs ? F|]; subst. inversion C as [| | | |? ? ? ? Ef|]; subst. inversion C' as [| | | |? ? ? vs' Ef'|]; subst. constructor.
    assert (WF : Forall (fun f => wf_ty (snd f)) fs) by (inversion W; auto). clear N C C' W.
    revert vs vs' e e' p F Ef Ef' E WF IH. induction fs as [|[k t] fs IHF]; intros vs vs' e e' p F Ef Ef' E WF IH; [inversion F|].
    inversion WF as [|? ? W1 W2]; inversion IH as [|? ? I1 I2]; subst. cbn [snd] in *.
    inversion Ef as [|? ? ? w x y v vs0 Sw Ex Ey]; subst. inversion Ef' as [|? ? ? w' x' y' v' vs0' Sw' Ex' Ey']; subst.
    assert (w' = w) as -> by (eapply swidth_fun; eauto).
    pose proof (enc_range _ _ W1 _ _ _ Ex Sw) as Rx. pose proof (enc_range _ _ W1 _ _ _ Ex' Sw) as Rx'. pose proof (swidth_nonneg _ W1 _ Sw) as Pw.
    inversion F as [? ? ? ? ? ? Nv|? ? ? ? ? w' q NN Swq Fq]; subst.
    + pose proof (neg_range t W1 _ _ _ Nv Sw). rewrite !mod_low in E by lia. apply nf_here. eapply (I1 W1); eauto.
    + assert (w' = w) as -> by (eapply swidth_fun; eauto). pose proof (neg_fields_nonneg _ W2 _ _ Fq) as Pq.
      rewrite !mod_high in E by auto. pose proof (pow2_pos w Pw).
      destruct (split_unique _ _ _ _ _ Rx Rx' E) as [<- Ey0].
      assert (v' = v) as -> by (eapply (enc_inj _ t W1); eauto). apply nf_later; auto. eapply IHF; eauto.
  - inversion N as [| |? ? ? k t v0 q I Nq]; subst.
    inversion C as [| | | | |? ? ? pre k0 t0 post W0 w x junk v1 Hfs SW Sw Ex Hj HJ HW]; subst v1 k0 junk.
    assert (no_dup_keys fs) as ND by (inversion W; auto).
    assert (t0 = t) as -> by (eapply nodup_key_fun; eauto; rewrite Hfs; apply in_app_iff; right; left; auto).
    assert (wf_ty t) as Wt by (eapply wf_members_sum; eauto). rewrite Forall_forall in IH.
    inversion C' as [| | | | |? ? ? pre' k' t' post' W0' w' x' junk' v1 Hfs' SW' Sw' Ex' Hj' HJ' HW']; subst junk'.
    set (tw := bits_for (Z.of_nat (length fs) - 1)) in *. assert (Ptw : 0 <= tw) by apply bits_for_nonneg.
    pose proof (rank_lt _ _ _ _ _ Hfs) as Rl. pose proof (rank_lt _ _ _ _ _ Hfs') as Rl'.
    assert (Rt : forall r, 0 <= r < Z.of_nat (length fs) -> r < 2 ^ tw) by (intros; unfold tw; apply lt_pow2_bits_for; lia).
    pose proof (neg_range t Wt _ _ _ Nq Sw) as Rq.
    match goal with X : _ = e' |- _ => rewrite <- X in E end. match goal with X : _ = e |- _ => rewrite <- X in E end. fold tw in E.
    rewrite !Z.mul_0_r, !Z.add_0_r, !mod_high in E by (auto; try lia; split; try lia; apply Rt; lia).
    pose proof (pow2_pos tw Ptw). pose proof (Rt _ Rl) as Hr0. pose proof (Rt _ Rl') as Hr1.
    destruct (split_unique _ _ _ _ _ (conj (proj1 Rl) Hr0) (conj (proj1 Rl') Hr1) E) as [Er Em].
    pose proof (rank_index pre k t post) as Ri. pose proof (rank_index pre' k' t' post') as Ri'. rewrite <- Hfs in Ri. rewrite <- Hfs' in Ri'.
    rewrite <- Er, Ri in Ri'. injection Ri' as <- <-.
    apply ne_sum with (t := t); auto. eapply (IH _ I Wt); eauto.
Qed.

Theorem C03_collisions_exact h t a v v' e e' : Forall wf_ty (t :: h) -> built h t a -> has_ty t v -> has_ty t v' ->
  canonical t e v -> canonical t e' v' ->
  (assemble a v = assemble a v' <-> v = v' \/ exists p, neg_end t v p /\ e mod 2 ^ p = e' mod 2 ^ p).
Proof.
  intros W B H H' C C'. pose proof (built_rel h t a W B) as A. pose proof (wf_head _ _ W) as Wt.
  destruct (assemble_word _ t a v Wt A H) as (op & E & e0 & C0 & Wo). assert (e0 = e) as -> by (eapply canonical_fun; eauto).
  destruct (assemble_word _ t a v' Wt A H') as (op' & E' & e0' & C0' & Wo'). assert (e0' = e') as -> by (eapply canonical_fun; eauto).
  rewrite E, E'.
  assert (Low : forall e p W, 0 <= p <= W -> (e mod 2 ^ p + (2 ^ W - 2 ^ p)) mod 2 ^ p = e mod 2 ^ p).
  { intros x p w R. pose proof (pow2_pos p ltac:(lia)). replace w with (p + (w - p)) by lia. rewrite pow2_split by lia.
    replace (x mod 2 ^ p + (2 ^ p * 2 ^ (w - p) - 2 ^ p)) with (x mod 2 ^ p + (2 ^ (w - p) - 1) * 2 ^ p) by ring. rewrite Z.mod_add by lia. apply Z.mod_mod. lia. }
  split.
  - intros Eq. injection Eq as <-. destruct Wo as [[N ->]|(p & N & Rp & Ep)], Wo' as [[N' Eo]|(p' & N' & Rp' & Ep')].
    + left. subst. eapply enc_inj; eauto.
    + exfalso. eapply (neg_not_nonneg t Wt v p'); auto. eapply (neg_shared t Wt v' v e' e); eauto. rewrite Ep'. symmetry. apply Low. auto.
    + exfalso. eapply (neg_not_nonneg t Wt v' p); auto. eapply (neg_shared t Wt v v' e e'); eauto. rewrite <- Eo, Ep. symmetry. apply Low. auto.
    + right. assert (p = p' \/ p < p' \/ p' < p) as [<-|[L|L]] by lia.
      * exists p. split; auto. rewrite <- (Low e p (a_width a)), <- (Low e' p (a_width a)) by auto. congruence.
      * exists p. split; auto. rewrite <- (Low e p (a_width a)) by auto. rewrite <- Ep, Ep'.
        replace p' with (p + (p' - p)) by lia. replace (a_width a) with (p + (a_width a - p)) by lia.
        pose proof (pow2_pos p ltac:(lia)). rewrite !pow2_split by lia.
        replace (e' mod (2 ^ p * 2 ^ (p' - p)) + (2 ^ p * 2 ^ (a_width a - p) - 2 ^ p * 2 ^ (p' - p))) with (e' mod (2 ^ p * 2 ^ (p' - p)) + (2 ^ (a_width a - p) - 2 ^ (p' - p)) * 2 ^ p) by ring.
        rewrite Z.mod_add by lia. pose proof (pow2_pos (p' - p) ltac:(lia)). rewrite Z.rem_mul_r by lia.
        rewrite (Z.mul_comm (2 ^ p)), Z.mod_add by lia. apply Z.mod_mod. lia.
      * assert (Em : e mod 2 ^ p' = e' mod 2 ^ p').
        { rewrite <- (Low e' p' (a_width a)) by auto. rewrite <- Ep', Ep.
          replace p with (p' + (p - p')) by lia. replace (a_width a) with (p' + (a_width a - p')) by lia.
          pose proof (pow2_pos p' ltac:(lia)). rewrite !pow2_split by lia.
          replace (e mod (2 ^ p' * 2 ^ (p - p')) + (2 ^ p' * 2 ^ (a_width a - p') - 2 ^ p' * 2 ^ (p - p'))) with (e mod (2 ^ p' * 2 ^ (p - p')) + (2 ^ (a_width a - p') - 2 ^ (p - p')) * 2 ^ p') by ring.
          rewrite Z.mod_add by lia. pose proof (pow2_pos (p - p') ltac:(lia)). rewrite Z.rem_mul_r by lia.
          rewrite (Z.mul_comm (2 ^ p')), Z.mod_add by lia. symmetry. apply Z.mod_mod. lia. }
        assert (N2 : neg_end t v p') by (eapply (neg_shared t Wt v' v e' e); eauto). pose proof (neg_fun t Wt _ _ _ N N2). lia.
  - intros [<-|(p & N & Em)]; [congruence|]. f_equal.
    assert (N' : neg_end t v' p) by (eapply (neg_shared t Wt v v' e e'); eauto).
    destruct Wo as [[NN _]|(q & Nq & Rq & ->)]; [now destruct (neg_not_nonneg t Wt v p)|].
    destruct Wo' as [[NN _]|(q' & Nq' & Rq' & ->)]; [now destruct (neg_not_nonneg t Wt v' p)|].
    rewrite (neg_fun t Wt _ _ _ Nq N), (neg_fun t Wt _ _ _ Nq' N'). lia.
Qed.

(** Surviving values never collide, in any history. *)
Theorem C03_survivors h t a v v' : Forall wf_ty (t :: h) -> built h t a -> has_ty t v -> has_ty t v' ->
  survives t v -> survives t v' -> assemble a v = assemble a v' -> v = v'.
Proof.
  intros W B H H' S S' E. pose proof (built_rel h t a W B) as A. pose proof (wf_head _ _ W) as Wt.
  destruct (assemble_word _ t a v Wt A H) as (op & Eo & Wo). destruct (assemble_word _ t a v' Wt A H') as (op' & Eo' & Wo').
  assert (op' = op) as -> by congruence. apply (word_holds t a _ v op Wt A Wo) in S. apply (word_holds t a _ v' op Wt A Wo') in S'.
  eapply enc_inj; eauto.
Qed.

Example C03_exact_case :
  neg_end sg_ty (VProd [VBV 5; VBV 200; VBit true]) 11 /\
  canonical sg_ty (5 + 8 * (200 + 256 * 1)) (VProd [VBV 5; VBV 200; VBit true]) /\ canonical sg_ty (5 + 8 * (200 + 256 * 0)) (VProd [VBV 5; VBV 200; VBit false]) /\
  (5 + 8 * (200 + 256 * 1)) mod 2 ^ 11 = (5 + 8 * (200 + 256 * 0)) mod 2 ^ 11.
Proof.
  split.
  { constructor. change 11 with (3 + 8). apply nf_later; [constructor|constructor|]. apply nf_here. constructor. change (2 ^ (8 - 1)) with 128. lia. }
  assert (X : forall b, canonical sg_ty (5 + 8 * (200 + 256 * b2z b)) (VProd [VBV 5; VBV 200; VBit b])).
  { intros b. constructor. change 8 with (2 ^ 3). change 256 with (2 ^ 8). eapply (ef_cons _ _ _ _ 3 5); [constructor|constructor; cbn; lia|].
    eapply (ef_cons _ _ _ _ 8 200); [constructor|constructor; cbn; lia|]. replace (b2z b) with (b2z b + 2 ^ 1 * 0) by lia.
    eapply (ef_cons _ _ _ _ 1 (b2z b) 0); constructor. }
  split; [apply (X true)|]. split; [apply (X false)|]. reflexivity.
Qed.

(** ** C07 Disassemble, then assemble *)
Theorem C07_reassemble_exact h t a op v : Forall wf_ty (t :: h) -> same_width_zero_hot (t :: h) -> built h t a -> 0 <= op < 2 ^ a_width a ->
  disassemble a op = Ok v ->
  exists op', assemble a v = Ok op' /\ word_of t (a_width a) v op' /\ (disassemble a op' = Ok v <-> survives t v).
Proof.
  intros W S B Rg D. pose proof (built_rel h t a W B) as A. pose proof (wf_head _ _ W) as Wt.
  pose proof (enc_has_ty _ _ _ _ (sound_spec _ t Wt a op v A Rg D)) as H.
  destruct (assemble_word _ t a v Wt A H) as (op' & E & Wo). exists op'. split; auto. split; auto. apply (C01_roundtrip_exact h); auto.
Qed.

(** ** C13 Fields of surviving values *)
Theorem C13_survivors h t a op v k t' v' : Forall wf_ty (t :: h) -> built h t a -> has_ty t v -> survives t v ->
  aadt_new a (FAdt v) = Ok op -> sub_val t v [k] t' v' ->
  exists x m, aadt_get a op k = Ok (x, m) /\ encodes t' x v'.
Proof.
  intros W B H S E Sv. cbn [aadt_new] in E. pose proof (built_rel h t a W B) as A. pose proof (wf_head _ _ W) as Wt.
  destruct (assemble_word _ t a v Wt A H) as (op' & E' & Wo). assert (op' = op) as -> by congruence.
  apply (C13_field_access_word h t a op v k t' v' W B); auto. now apply (word_holds t a _ v op Wt A Wo).
Qed.

(** ** C15 Equality decides exactly the collisions *)
Theorem C15_equality_exact h t a v v' op e e' : Forall wf_ty (t :: h) -> built h t a -> has_ty t v -> has_ty t v' ->
  canonical t e v -> canonical t e' v' -> aadt_new a (FAdt v) = Ok op ->
  exists b, aadt_eq a op (FAdt v') = Ok (Some b) /\ (b = true <-> v = v' \/ exists p, neg_end t v p /\ e mod 2 ^ p = e' mod 2 ^ p).
Proof.
  intros W B H H' C C' E. cbn [aadt_new] in E.
  destruct (C02_assemble_word h t a v' W B H') as (op' & E' & _). exists (op =? op'). cbn [aadt_eq]. rewrite E'. cbn [bind]. split; auto.
  rewrite <- (C03_collisions_exact h t a v v' e e' W B H H' C C'), E, E', Z.eqb_eq. split; intros; congruence.
Qed.

(** ** C16 Exactly when both assemblers agree *)
Theorem C16_same_opcode_exact h t a v e : Forall wf_ty (t :: h) -> built h t a -> has_ty t v -> canonical t e v ->
  (assemble a v = a2_asm t v <-> forall p, neg_end t v p -> e / 2 ^ p = 2 ^ (a_width a - p) - 1).
Proof.
  intros W B H C. pose proof (built_rel h t a W B) as A. pose proof (wf_head _ _ W) as Wt.
  destruct (a2_asm_spec t Wt v H) as (e1 & E2 & C1). assert (e1 = e) as -> by (eapply canonical_fun; eauto). rewrite E2.
  destruct (assemble_word _ t a v Wt A H) as (op & E & e0 & C0 & Wo). assert (e0 = e) as -> by (eapply canonical_fun; eauto). rewrite E.
  destruct Wo as [[N ->]|(p & N & Rp & ->)].
  - split; auto. intros _ p Np. now destruct (neg_not_nonneg t Wt v p).
  - pose proof (pow2_pos p ltac:(lia)). assert (S : 2 ^ a_width a = 2 ^ p * 2 ^ (a_width a - p)) by (rewrite <- pow2_split by lia; f_equal; lia).
    pose proof (Z.div_mod e (2 ^ p) ltac:(lia)) as D. split.
    + intros Eq q Nq. rewrite (neg_fun t Wt _ _ _ Nq N). assert (EE : e = e mod 2 ^ p + (2 ^ a_width a - 2 ^ p)) by congruence. nia.
    + intros F. specialize (F p N). f_equal. rewrite F in D. nia.
Qed.

Print Assumptions C02_assemble_word.
Print Assumptions C01_roundtrip_exact.
Print Assumptions C01_others_lost.
Print Assumptions C01_exact_case.
Print Assumptions sg_survives.
Print Assumptions sg_lost.
Print Assumptions C03_collisions_exact.
Print Assumptions C03_survivors.
Print Assumptions C03_exact_case.
Print Assumptions C07_reassemble_exact.
Print Assumptions C13_survivors.
Print Assumptions C15_equality_exact.
Print Assumptions C16_same_opcode_exact.
