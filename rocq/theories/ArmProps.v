(** C74: immediate operands of the ARM assembler. *)
From Coq Require Import ZArith List Bool Lia.
From Verif Require Import Base BaseLemmas ArmModel.
Import ListNotations.
Open Scope Z_scope.

(** ** Specification *)

(** An eight bit immediate rotated by twice the rotation is the 32 bit word v.
    The rotation is to the right, as in the architecture, or to the left. *)
Inductive direction := Right | Left.
Definition from (d : direction) (k rot : Z) : Z := match d with Right => (k + 2 * rot) mod 32 | Left => (k - 2 * rot) mod 32 end.
Definition denotes (d : direction) (imm rot v : Z) : Prop :=
  0 <= v < 2 ^ 32 /\ forall k, 0 <= k < 32 -> Z.testbit v k = Z.testbit imm (from d k rot).

(** Words that some immediate operand denotes. *)
Definition representable (d : direction) (v : Z) : Prop := exists imm rot, 0 <= imm < 256 /\ 0 <= rot < 16 /\ denotes d imm rot v.

Definition operand_of (i : arm_inst) : option operand :=
  match a_base i with AData _ _ _ rc _ => Some rc | ALdst _ _ _ rc => Some rc | AB _ _ _ => None end.
Definition operand_denotes (d : direction) (i : arm_inst) (v : Z) : Prop :=
  exists imm rot, operand_of i = Some (OImm imm rot) /\ denotes d imm rot v.

(** ** Rotation *)
Lemma of_bits_testbit l k : 0 <= k -> Z.testbit (of_bits l) k = nth (Z.to_nat k) l false.
Proof.
  revert k. induction l as [|b l IH]; intros k Hk; cbn [of_bits].
  - rewrite Z.testbit_0_l. now destruct (Z.to_nat k).
  - destruct (Z.eq_dec k 0) as [->|N].
    + rewrite Z.add_comm, Z.testbit_0_r. reflexivity.
    + replace (Z.to_nat k) with (S (Z.to_nat (k - 1))) by lia. cbn [nth]. rewrite <- IH by lia.
      rewrite Z.add_comm. replace k with (Z.succ (k - 1)) at 1 by lia. apply Z.testbit_succ_r. lia.
Qed.
Lemma of_bits_range l : 0 <= of_bits l < 2 ^ Z.of_nat (length l).
Proof.
  induction l as [|b l IH]; cbn [of_bits length]; [cbn; lia|]. rewrite Nat2Z.inj_succ, Z.pow_succ_r by lia. destruct b; cbn [Z.b2z]; lia.
Qed.
Lemma bits_nth w k : (k < 32)%nat -> nth k (bits w) false = Z.testbit w (Z.of_nat k).
Proof.
  intros H. unfold bits. rewrite (nth_indep _ false (Z.testbit w (Z.of_nat 0))) by (rewrite map_length, seq_length; auto).
  rewrite (map_nth (fun k => Z.testbit w (Z.of_nat k))), seq_nth; auto.
Qed.
Lemma bits_length w : length (bits w) = 32%nat. Proof. unfold bits. now rewrite map_length, seq_length. Qed.

Lemma rol_range w n : (n <= 32)%nat -> 0 <= rol w n < 2 ^ 32.
Proof.
  intros H. unfold rol. pose proof (of_bits_range (skipn n (bits w) ++ firstn n (bits w))) as R.
  rewrite app_length, skipn_length, firstn_length, bits_length in R. replace (32 - n + Nat.min n 32)%nat with 32%nat in R by lia. exact R.
Qed.
Lemma rol_testbit w n k : (n <= 32)%nat -> 0 <= k < 32 -> Z.testbit (rol w n) k = Z.testbit w ((k + Z.of_nat n) mod 32).
Proof.
  intros H Hk. unfold rol. rewrite of_bits_testbit by lia.
  destruct (Z_lt_ge_dec (k + Z.of_nat n) 32) as [L|G].
  - rewrite app_nth1 by (rewrite skipn_length, bits_length; lia). rewrite Z.mod_small by lia.
    rewrite <- (firstn_skipn n (bits w)) at 1.
    assert (E : forall j, nth j (skipn n (bits w)) false = nth (n + j) (bits w) false).
    { intros j. rewrite <- (firstn_skipn n (bits w)) at 2. rewrite app_nth2; rewrite firstn_length, bits_length; [f_equal|]; lia. }
    rewrite firstn_skipn, E, bits_nth by lia. f_equal. lia.
  - rewrite app_nth2 by (rewrite skipn_length, bits_length; lia). rewrite skipn_length, bits_length.
    replace (k + Z.of_nat n) with (k + Z.of_nat n - 32 + 1 * 32) by lia. rewrite Z.mod_add, Z.mod_small by lia.
    assert (E : forall j, (j < n)%nat -> nth j (firstn n (bits w)) false = nth j (bits w) false).
    { intros j J. rewrite <- (firstn_skipn n (bits w)) at 2. rewrite app_nth1; auto. rewrite firstn_length, bits_length. lia. }
    rewrite E, bits_nth by lia. f_equal. lia.
Qed.

Lemma word_ext x y : 0 <= x < 2 ^ 32 -> 0 <= y < 2 ^ 32 -> (forall k, 0 <= k < 32 -> Z.testbit x k = Z.testbit y k) -> x = y.
Proof.
  intros X Y E. apply Z.bits_inj'. intros k Hk. destruct (Z_lt_ge_dec k 32); [apply E; lia|].
  rewrite <- (Z.mod_small x (2 ^ 32)), <- (Z.mod_small y (2 ^ 32)), !Z.mod_pow2_bits_high by lia. reflexivity.
Qed.

(** The rotation that [denotes] describes. *)
Definition turn (d : direction) (rot : Z) : nat := match d with Right => Z.to_nat (2 * rot) | Left => Z.to_nat (32 - 2 * rot) end.
Lemma denotes_rol d imm rot v : 0 <= rot < 16 -> (denotes d imm rot v <-> v = rol imm (turn d rot)).
Proof.
  intros R. assert (T : (turn d rot <= 32)%nat) by (destruct d; cbn [turn]; lia).
  assert (F : forall k, (k + Z.of_nat (turn d rot)) mod 32 = from d k rot).
  { intros k. destruct d; cbn [turn from]; rewrite Z2Nat.id by lia; auto. replace (k + (32 - 2 * rot)) with (k - 2 * rot + 1 * 32) by lia. now rewrite Z.mod_add. }
  split.
  - intros [V E]. apply word_ext; auto; [now apply rol_range|]. intros k Hk. now rewrite E, rol_testbit, F.
  - intros ->. split; [now apply rol_range|]. intros k Hk. now rewrite rol_testbit, F.
Qed.

Lemma rol_rol w n m : (n <= 32)%nat -> (m <= 32)%nat -> (n + m = 32 \/ n + m = 0)%nat -> 0 <= w < 2 ^ 32 -> rol (rol w n) m = w.
Proof.
  intros N M S W. apply word_ext; auto; [now apply rol_range|]. intros k Hk. rewrite rol_testbit by auto.
  rewrite rol_testbit by (auto; apply Z.mod_pos_bound; lia). f_equal. rewrite Zplus_mod_idemp_l.
  destruct S. - replace (k + Z.of_nat m + Z.of_nat n) with (k + 1 * 32) by lia. rewrite Z.mod_add, Z.mod_small; lia.
  - replace (k + Z.of_nat m + Z.of_nat n) with k by lia. apply Z.mod_small. lia.
Qed.

(** ** All representable words *)
Definition all_words : list Z := flat_map (fun rot => map (fun imm => rol (Z.of_nat imm) (2 * rot)) (seq 0 256)) (seq 0 16).

Lemma representable_all d v : representable d v <-> In v all_words.
Proof.
  unfold all_words. rewrite in_flat_map. split.
  - intros (imm & rot & I & R & D). apply denotes_rol in D; auto. destruct d; cbn [turn] in D.
    + exists (Z.to_nat rot). split; [apply in_seq; lia|]. apply in_map_iff. exists (Z.to_nat imm). split; [|apply in_seq; lia].
      rewrite D, Z2Nat.id by lia. f_equal. lia.
    + destruct (Z.eq_dec rot 0) as [->|N].
      * exists 0%nat. split; [apply in_seq; lia|]. apply in_map_iff. exists (Z.to_nat imm). split; [|apply in_seq; lia].
        rewrite D, Z2Nat.id by lia. apply word_ext; [apply rol_range; lia|apply rol_range; lia|].
        intros k Hk. rewrite !rol_testbit by lia. f_equal. change (Z.of_nat (2 * 0)) with 0. change (Z.of_nat (Z.to_nat (32 - 2 * 0))) with 32.
        replace (k + 32) with (k + 0 + 1 * 32) by lia. now rewrite Z.mod_add.
      * exists (Z.to_nat (16 - rot)). split; [apply in_seq; lia|]. apply in_map_iff. exists (Z.to_nat imm). split; [|apply in_seq; lia].
        rewrite D, Z2Nat.id by lia. f_equal. lia.
  - intros (i & I & X). apply in_seq in I. apply in_map_iff in X as (imm & E & X). apply in_seq in X.
    destruct d.
    + exists (Z.of_nat imm), (Z.of_nat i). split; [lia|]. split; [lia|]. apply denotes_rol; [lia|]. rewrite <- E. f_equal. cbn [turn]. lia.
    + destruct i as [|i].
      * exists (Z.of_nat imm), 0. split; [lia|]. split; [lia|]. apply denotes_rol; [lia|]. rewrite <- E.
        apply word_ext; [apply rol_range; lia|apply rol_range; cbn; lia|].
        intros k Hk. rewrite !rol_testbit by (cbn; lia). f_equal. change (Z.of_nat (2 * 0)) with 0. change (Z.of_nat (turn Left 0)) with 32.
        replace (k + 32) with (k + 0 + 1 * 32) by lia. now rewrite Z.mod_add.
      * exists (Z.of_nat imm), (16 - Z.of_nat (S i)). split; [lia|]. split; [lia|]. apply denotes_rol; [lia|]. rewrite <- E. f_equal. cbn [turn]. lia.
Qed.

Lemma loop_ok w is_ p : (forall i, In i is_ -> (i < 16)%nat) -> 0 <= w < 2 ^ 32 -> imm_loop w is_ = Ok p -> representable Left w.
Proof.
  intros B W. induction is_ as [|i is_ IH]; cbn [imm_loop]; [discriminate|]. pose proof (B i (or_introl eq_refl)) as Hi.
  destruct (Z.ltb_spec (rol w (2 * i)) 256) as [L|L]; [|intros E; apply IH; auto; intros; apply B; now right].
  intros _. pose proof (rol_range w (2 * i) ltac:(lia)). exists (rol w (2 * i)), (Z.of_nat i). split; [lia|]. split; [lia|].
  apply denotes_rol; [lia|]. symmetry. destruct i as [|i].
  - cbn [turn]. change (Z.to_nat (32 - 2 * Z.of_nat 0)) with 32%nat.
    apply word_ext; auto; [apply rol_range; lia|]. intros k Hk. rewrite !rol_testbit; try lia; [|apply Z.mod_pos_bound; lia].
    f_equal. rewrite Zplus_mod_idemp_l. change (Z.of_nat (2 * 0)) with 0. change (Z.of_nat 32) with 32. replace (k + 32 + 0) with (k + 1 * 32) by lia.
    rewrite Z.mod_add, Z.mod_small; lia.
  - cbn [turn]. apply rol_rol; auto; lia.
Qed.

Definition check (v : Z) : bool :=
  match imm_enc v with
  | Ok (x, i) =>
      (0 <=? x) && (x <? 16) && (0 <=? i) && (i <? 16) &&
      Bool.eqb (rol x (turn Right i) =? v) (v <? 16) && Bool.eqb (rol x (turn Left i) =? v) (v <? 16) &&
      Bool.eqb (rol i (turn Right x) =? v) (v =? 0) && Bool.eqb (rol i (turn Left x) =? v) (v =? 0)
  | Err _ => false
  end.
Lemma all_checked : forallb check all_words = true.
Proof. vm_compute. reflexivity. Qed.

Lemma eqb_iff d x i v n : 0 <= i < 16 -> Bool.eqb (rol x (turn d i) =? v) n = true -> (denotes d x i v <-> n = true).
Proof.
  intros R E. apply eqb_prop in E. rewrite denotes_rol by auto. rewrite <- E, Z.eqb_eq. split; intros; congruence.
Qed.

Lemma enc_spec v : 0 <= v < 2 ^ 32 -> forall d, representable d v ->
  exists x i, imm_enc v = Ok (x, i) /\ 0 <= x < 16 /\ 0 <= i < 16 /\ (denotes d x i v <-> v < 16) /\ (denotes d i x v <-> v = 0).
Proof.
  intros V d R. apply representable_all in R. pose proof (proj1 (forallb_forall check all_words) all_checked v R) as C.
  unfold check in C. destruct (imm_enc v) as [[x i]|]; [|discriminate]. exists x, i. split; auto.
  rewrite !andb_true_iff in C. destruct C as [[[[[[[C1 C2] C3] C4] C5] C6] C7] C8].
  assert (Hx : 0 <= x < 16) by lia. assert (Hi : 0 <= i < 16) by lia. split; auto. split; auto.
  destruct d.
  - rewrite (eqb_iff Right x i v _ Hi C5), (eqb_iff Right i x v _ Hx C7). rewrite Z.ltb_lt, Z.eqb_eq. tauto.
  - rewrite (eqb_iff Left x i v _ Hi C6), (eqb_iff Left i x v _ Hx C8). rewrite Z.ltb_lt, Z.eqb_eq. tauto.
Qed.

Lemma enc_wrap v : imm_enc v = imm_enc (wrap 32 v).
Proof. unfold imm_enc. f_equal. unfold wrap. now rewrite Zmod_mod. Qed.

Lemma enc_error d v : ~ representable d (wrap 32 v) <-> imm_enc v = Err ValueError.
Proof.
  assert (W : 0 <= wrap 32 v < 2 ^ 32) by (apply Z.mod_pos_bound; lia). split.
  - intros N. unfold imm_enc. destruct (imm_loop (wrap 32 v) (seq 0 16)) as [p|e] eqn:E.
    + exfalso. apply N. apply loop_ok in E; auto; [|intros i I; apply in_seq in I; lia]. apply representable_all. now apply representable_all in E.
    + revert E. generalize (seq 0 16). induction l as [|i l IH]; cbn [imm_loop]; [congruence|]. destruct (_ <? 256); [discriminate|auto].
  - intros E R. rewrite enc_wrap in E. destruct (enc_spec _ W d R) as (x & i & E' & _). congruence.
Qed.

Lemma wrap_id w x : 0 <= x < 2 ^ w -> wrap w x = x.
Proof. intros. unfold wrap. now apply Z.mod_small. Qed.

(** ** C74 *)

(** The property: an immediate that can be represented is accepted, and the
    instruction has an operand that denotes it; the architecture rotates right. *)
Definition C74_full : Prop := forall v, representable Right (wrap 32 v) ->
  (forall op ra rb shift s cond, exists i, asm_data op ra rb None shift v s cond = Ok i /\ operand_denotes Right i (wrap 32 v)) /\
  (forall op ra rb shift cond, exists i, asm_ldst op ra rb None shift v cond = Ok i /\ operand_denotes Right i (wrap 32 v)).

(** Missing for C74: exactly the immediates below 16 of loads and stores are right,
    and of data instructions only 0, whichever way the operand is rotated. *)
Theorem C74_operand_partial d v : representable d (wrap 32 v) ->
  (forall op ra rb shift s cond, exists i, asm_data op ra rb None shift v s cond = Ok i /\ (operand_denotes d i (wrap 32 v) <-> wrap 32 v = 0)) /\
  (forall op ra rb shift cond, exists i, asm_ldst op ra rb None shift v cond = Ok i /\ (operand_denotes d i (wrap 32 v) <-> wrap 32 v < 16)).
Proof.
  intros R. assert (W : 0 <= wrap 32 v < 2 ^ 32) by (apply Z.mod_pos_bound; lia).
  destruct (enc_spec _ W d R) as (x & i & E & Hx & Hi & DL & DD). rewrite <- enc_wrap in E. split; intros.
  - unfold asm_data. rewrite E. cbn [bind]. eexists. split; [reflexivity|]. unfold operand_denotes, operand_of. cbn [a_base].
    rewrite (wrap_id 8 i), (wrap_id 4 x) by lia. rewrite <- DD. split; [intros (a & b & Q & H); injection Q as <- <-; auto|eauto].
  - unfold asm_ldst. rewrite E. cbn [bind]. eexists. split; [reflexivity|]. unfold operand_denotes, operand_of. cbn [a_base].
    rewrite (wrap_id 8 x), (wrap_id 4 i) by lia. rewrite <- DL. split; [intros (a & b & Q & H); injection Q as <- <-; auto|eauto].
Qed.

(** Immediates that no operand denotes raise ValueError, and only those. *)
Theorem C74_error d v :
  (forall op ra rb shift s cond, asm_data op ra rb None shift v s cond = Err ValueError <-> ~ representable d (wrap 32 v)) /\
  (forall op ra rb shift cond, asm_ldst op ra rb None shift v cond = Err ValueError <-> ~ representable d (wrap 32 v)).
Proof.
  unfold asm_data, asm_ldst. split; intros; rewrite (enc_error d v); destruct (imm_enc v) as [[x i]|e]; cbn [bind]; split; congruence.
Qed.

(** Registers: every integer is accepted and taken modulo its width; with a register
    operand the immediate is ignored. *)
Theorem C74_registers ra rb rc shift imm s cond :
  (forall op, asm_data op ra rb (Some rc) shift imm s cond = Ok (ArmInst (AData op (ra mod 16) (rb mod 16) (OReg (rc mod 16) (shift mod 256)) (s mod 2)) cond)) /\
  (forall op, asm_ldst op ra rb (Some rc) shift imm cond = Ok (ArmInst (ALdst op (ra mod 16) (rb mod 16) (OReg (rc mod 16) (shift mod 256))) cond)) /\
  (forall offset link, asm_b offset link cond = ArmInst (AB (offset mod 2 ^ 24) (link mod 2) 1) cond).
Proof. repeat split. Qed.

(** 1 and 0x3fc are representable, 0x101 is not. *)
Example C74_case :
  representable Right 1 /\ representable Right 1020 /\ ~ representable Right 257 /\
  (exists i, asm_data oMOV 0 1 None 0 1 0 14 = Ok i /\ operand_of i = Some (OImm 0 1)) /\
  (exists i, asm_ldst oLDR 0 1 None 0 1 14 = Ok i /\ operand_of i = Some (OImm 1 0)) /\
  (exists i, asm_ldst oLDR 0 1 None 0 1020 14 = Ok i /\ operand_of i = Some (OImm 15 1)) /\
  asm_data oADD 0 1 None 0 257 0 14 = Err ValueError.
Proof.
  assert (R : forall v, existsb (Z.eqb v) all_words = true -> representable Right v).
  { intros v E. apply existsb_exists in E as (x & I & E). apply Z.eqb_eq in E. subst. now apply representable_all. }
  split; [apply R; vm_compute; reflexivity|]. split; [apply R; vm_compute; reflexivity|].
  split; [change 257 with (wrap 32 257); apply enc_error; vm_compute; reflexivity|].
  split; [eexists; split; vm_compute; reflexivity|]. split; [eexists; split; vm_compute; reflexivity|].
  split; [eexists; split; vm_compute; reflexivity|]. vm_compute. reflexivity.
Qed.

Theorem C74_full_refuted : ~ C74_full.
Proof.
  intros F. destruct C74_case as (R & _). destruct (F 1 R) as [D _]. destruct (D oMOV 0 1 0 0 14) as (i & E & O).
  destruct (proj1 (C74_operand_partial Right 1 R) oMOV 0 1 0 0 14) as (j & E' & I). rewrite E in E'. injection E' as <-. apply I in O. discriminate O.
Qed.

Print Assumptions C74_operand_partial.
Print Assumptions C74_error.
Print Assumptions C74_registers.
Print Assumptions C74_case.
Print Assumptions C74_full_refuted.
