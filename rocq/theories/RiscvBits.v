(** The bit counter and the multiplications. *)
From Coq Require Import ZArith List Bool Lia.
From Verif Require Import Base BaseLemmas BvModel BvLemmas RiscvModel RiscvSpec RiscvProofs.
Import ListNotations.
Open Scope Z_scope.

(** ** Counting set bits *)
Lemma one_bit val i : fit 32 val -> 0 <= i < 32 ->
  bvlshr 32 (Z.land val (wrap 32 (Z.shiftl 1 i))) i = b2z (Z.testbit val i).
Proof.
  intros F I. assert (P : 0 < 2 ^ i < 2 ^ 32).
  { split; [apply pow2_pos; lia|apply Z.pow_lt_mono_r; lia]. }
  rewrite (wrap_small 32 (Z.shiftl 1 i)) by (rewrite Z.shiftl_mul_pow2; lia).
  unfold bvlshr. rewrite Z.shiftl_1_l.
  assert (E : Z.shiftr (Z.land val (2 ^ i)) i = b2z (Z.testbit val i)).
  { apply Z.bits_inj'. intros n N. rewrite Z.shiftr_spec, Z.land_spec, Z.pow2_bits_eqb by lia.
    destruct (Z.eqb_spec i (n + i)) as [E|E].
    - replace n with 0 by lia. rewrite Z.add_0_l. destruct (Z.testbit val i); reflexivity.
    - rewrite andb_false_r. destruct (Z.testbit val i); cbn [b2z]; [|symmetry; apply Z.bits_0].
      destruct n as [|n|n]; [lia|reflexivity|lia]. }
  rewrite E. apply wrap_small. destruct (Z.testbit val i); cbn [b2z]; split; try lia; reflexivity.
Qed.

Lemma count_cons b l : count_true (b :: l) = b2z b + count_true l.
Proof.
  unfold count_true. destruct b; cbn [filter length b2z]; lia.
Qed.

Lemma popcnt_fold val : fit 32 val -> forall l cnt,
  Forall (fun i => 0 <= i < 32) l -> 0 <= cnt -> cnt + Z.of_nat (length l) < 2 ^ 32 ->
  fold_left (fun cnt i => bvadd 32 cnt (bvlshr 32 (Z.land val (wrap 32 (Z.shiftl 1 i))) i)) l cnt
  = cnt + count_true (map (Z.testbit val) l).
Proof.
  intros F l. induction l as [|i l IH]; intros cnt A C L.
  - cbn [fold_left map]. unfold count_true. cbn [filter length]. lia.
  - inversion A as [|? ? A1 A2]; subst. cbn [fold_left map]. rewrite count_cons.
    cbn [length] in L. rewrite one_bit by auto.
    assert (B : 0 <= b2z (Z.testbit val i) <= 1) by (destruct (Z.testbit val i); cbn; lia).
    unfold bvadd. rewrite wrap_small by lia. rewrite IH by (auto; lia). lia.
Qed.

Lemma pyrange_seq n : pyrange 0 (Z.of_nat n) = map Z.of_nat (seq 0 n).
Proof. unfold pyrange. rewrite Z.sub_0_r, Nat2Z.id. apply map_ext. intros; lia. Qed.

Lemma popcnt_spec val : fit 32 val -> popcnt val = sp_bits POPCNT val.
Proof.
  intros F. unfold popcnt.
  assert (A : Forall (fun i => 0 <= i < 32) (pyrange 0 32)).
  { apply Forall_forall. intros i I. apply pyrange_In in I. exact I. }
  assert (L : 0 + Z.of_nat (length (pyrange 0 32)) < 2 ^ 32).
  { unfold pyrange. rewrite map_length, seq_length. vm_compute. reflexivity. }
  rewrite (popcnt_fold val F (pyrange 0 32) 0 A (Z.le_refl 0) L).
  cbn [sp_bits]. unfold bits32. change 32 with (Z.of_nat 32). rewrite pyrange_seq, map_map.
  reflexivity.
Qed.

(** ** Leading and trailing zeros *)
Lemma zeros_at l : forall n, (forall i, (i < n)%nat -> nth i l true = false) ->
  nth n l true = true -> zeros l = Z.of_nat n.
Proof.
  induction l as [|b l IH]; intros n H T.
  - destruct n as [|n]; [reflexivity|]. specialize (H O ltac:(lia)). discriminate.
  - destruct n as [|n].
    + cbn [nth] in T. subst. reflexivity.
    + pose proof (H O ltac:(lia)) as H0. cbn [nth] in H0. subst.
      cbn [zeros]. rewrite (IH n); [lia| |exact T].
      intros i I. exact (H (S i) ltac:(lia)).
Qed.

Lemma bits32_nth x n : (n < 32)%nat -> nth n (bits32 x) true = Z.testbit x (Z.of_nat n).
Proof.
  intros N. unfold bits32. set (f := fun i => Z.testbit x (Z.of_nat i)).
  rewrite (nth_indep _ true (f O)) by (rewrite map_length, seq_length; auto).
  rewrite map_nth, seq_nth by auto. reflexivity.
Qed.

Lemma bits32_length x : length (bits32 x) = 32%nat.
Proof. unfold bits32. rewrite map_length, seq_length. reflexivity. Qed.

(** A word whose highest set bit is 31 - n has n leading zeros. *)
Lemma clz_spec x n : 0 <= n < 32 -> 2 ^ (31 - n) <= x < 2 ^ (32 - n) ->
  sp_bits CNTLZ x = n.
Proof.
  intros N X. cbn [sp_bits]. rewrite <- (Z2Nat.id n) by lia.
  assert (T : forall i, (i < 32)%nat ->
    nth i (rev (bits32 x)) true = Z.testbit x (31 - Z.of_nat i)).
  { intros i I. rewrite rev_nth by (rewrite bits32_length; auto). rewrite bits32_length.
    rewrite bits32_nth by lia. f_equal. lia. }
  apply zeros_at.
  - intros i I. rewrite T by lia. apply testbit_high with (32 - n); [|lia].
    split; [pose proof (pow2_pos (31 - n)); lia|lia].
  - rewrite T by lia. rewrite Z2Nat.id by lia.
    replace (31 - n) with (32 - n - 1) by lia. rewrite top_bit; [|lia|].
    + apply Z.leb_le. replace (32 - n - 1) with (31 - n) by lia. lia.
    + pose proof (pow2_pos (31 - n)). lia.
Qed.

Lemma ctz_spec y n : 0 <= n < 32 -> 0 <= y -> Z.testbit y 0 = true ->
  sp_bits CNTTZ (y * 2 ^ n) = n.
Proof.
  intros N Y O. cbn [sp_bits]. rewrite <- (Z2Nat.id n) at 2 by lia.
  apply zeros_at.
  - intros i I. rewrite bits32_nth by lia. apply Z.mul_pow2_bits_low. lia.
  - rewrite bits32_nth by lia. rewrite Z2Nat.id by lia.
    rewrite Z.mul_pow2_bits by lia. replace (n - n) with 0 by lia. exact O.
Qed.

(** One round of the leading-zero loop: the mask selects the top s bits. *)
Lemma mask_top s x : 0 < s <= 32 -> fit 32 x ->
  (Z.land x (Z.shiftl (Z.ones s) (32 - s)) =? 0) = (x <? 2 ^ (32 - s)).
Proof.
  intros S F. set (k := 32 - s).
  assert (E : Z.land x (Z.shiftl (Z.ones s) k) = (x / 2 ^ k) * 2 ^ k).
  { apply Z.bits_inj'. intros n N. rewrite Z.land_spec.
    destruct (Z_lt_ge_dec n k) as [L|G].
    - rewrite Z.shiftl_spec_low, andb_false_r by lia. symmetry. apply Z.mul_pow2_bits_low. lia.
    - rewrite Z.shiftl_spec by lia. rewrite Z.mul_pow2_bits by lia.
      rewrite Z.div_pow2_bits by lia. replace (n - k + k) with n by lia.
      destruct (Z_lt_ge_dec n 32) as [H|H].
      + rewrite Z.ones_spec_low by lia. apply andb_true_r.
      + rewrite (testbit_high 32 x) by (auto; lia). reflexivity. }
  rewrite E. pose proof (pow2_pos k ltac:(lia)) as P. unfold fit in F.
  destruct (Z.ltb_spec x (2 ^ k)) as [L|G].
  - rewrite Z.div_small by lia. reflexivity.
  - apply Z.eqb_neq. assert (1 <= x / 2 ^ k) by (apply Z.div_le_lower_bound; lia). nia.
Qed.

Lemma clz_mask st : c_mask (clz_step st) = bvshl 32 (c_mask st) (c_shft st).
Proof. reflexivity. Qed.
Lemma clz_shft st : c_shft (clz_step st) = bvlshr 32 (c_shft st) 1.
Proof. reflexivity. Qed.

(** Invariant of the leading-zero loop with shift s about to be used:
    fewer than 2s leading zeros are left. *)
Definition clz_inv (x s : Z) (st : cstate) : Prop :=
  0 <= c_cnt st /\ c_cnt st <= 32 - 2 * s /\ c_val st = x * 2 ^ c_cnt st
  /\ 2 ^ (32 - 2 * s) <= c_val st < 2 ^ 32.

Lemma clz_round x s st :
  0 < s <= 16 -> clz_inv x s st -> c_shft st = s ->
  bvshl 32 (c_mask st) s = Z.shiftl (Z.ones s) (32 - s) ->
  0 <= c_cnt (clz_step st) /\ c_cnt (clz_step st) <= 32 - s
  /\ c_val (clz_step st) = x * 2 ^ c_cnt (clz_step st)
  /\ 2 ^ (32 - s) <= c_val (clz_step st) < 2 ^ 32.
Proof.
  intros S (C0 & C1 & V & L & H) Sh M. unfold clz_step. rewrite Sh, M. cbn [c_cnt c_val].
  pose proof (pow2_pos (32 - 2 * s) ltac:(lia)) as P0.
  rewrite mask_top by (try lia; unfold fit; lia).
  destruct (Z.ltb_spec (c_val st) (2 ^ (32 - s))) as [Lt|Ge].
  - assert (Wc : 32 < 2 ^ 32) by reflexivity.
    unfold bvadd. rewrite wrap_small by lia.
    rewrite bvshl_eq by lia.
    assert (E1 : 2 ^ 32 = 2 ^ (32 - s) * 2 ^ s) by (rewrite <- Z.pow_add_r by lia; f_equal; lia).
    assert (E2 : 2 ^ (32 - s) = 2 ^ (32 - 2 * s) * 2 ^ s)
      by (rewrite <- Z.pow_add_r by lia; f_equal; lia).
    pose proof (pow2_pos s ltac:(lia)) as Ps.
    rewrite wrap_small by nia.
    repeat split; try lia.
    + rewrite V. rewrite Z.pow_add_r by lia. ring.
    + rewrite E2. nia.
    + nia.
  - repeat split; auto; lia.
Qed.

Lemma ctz_mask st : c_mask (ctz_step st) = bvlshr 32 (c_mask st) (c_shft st).
Proof. reflexivity. Qed.
Lemma ctz_shft st : c_shft (ctz_step st) = bvlshr 32 (c_shft st) 1.
Proof. reflexivity. Qed.

Definition ctz_inv (x s : Z) (st : cstate) : Prop :=
  0 <= c_cnt st /\ c_cnt st <= 32 - 2 * s /\ x = c_val st * 2 ^ c_cnt st
  /\ 0 <= c_val st < 2 ^ 32 /\ c_val st mod 2 ^ (2 * s) <> 0.

Lemma ctz_round x s st :
  0 < s <= 16 -> ctz_inv x s st -> c_shft st = s ->
  bvlshr 32 (c_mask st) s = Z.ones s ->
  0 <= c_cnt (ctz_step st) /\ c_cnt (ctz_step st) <= 32 - s
  /\ x = c_val (ctz_step st) * 2 ^ c_cnt (ctz_step st)
  /\ 0 <= c_val (ctz_step st) < 2 ^ 32 /\ c_val (ctz_step st) mod 2 ^ s <> 0.
Proof.
  intros S (C0 & C1 & V & R & D) Sh M. unfold ctz_step. rewrite Sh, M. cbn [c_cnt c_val].
  rewrite Z.land_ones by lia. pose proof (pow2_pos s ltac:(lia)) as Ps.
  destruct (Z.eqb_spec (c_val st mod 2 ^ s) 0) as [E|N].
  - assert (Wc : 32 < 2 ^ 32) by reflexivity.
    unfold bvadd. rewrite wrap_small by lia.
    rewrite bvlshr_eq by (auto; lia).
    pose proof (Z.div_mod (c_val st) (2 ^ s) ltac:(lia)) as Q. rewrite E, Z.add_0_r in Q.
    pose proof (div_pow2_le (c_val st) s ltac:(lia) ltac:(lia)) as B.
    repeat split; try lia.
    + rewrite V at 1. rewrite Z.pow_add_r by lia. rewrite Q at 1. ring.
    + intros E2. apply D. replace (2 * s) with (s + s) by lia. rewrite Z.pow_add_r by lia.
      rewrite Z.rem_mul_r by lia. rewrite E, E2. ring.
  - repeat split; auto; lia.
Qed.

Lemma bitcounter_spec t x : fit 32 x -> bitcounter t x = Ok (sp_bits t x).
Proof.
  intros F. destruct t; cbn [bitcounter].
  - rewrite popcnt_spec by auto. reflexivity.
  - destruct (Z.eqb_spec x 0) as [->|N]; [reflexivity|]. unfold fit in F.
    change crounds with [0; 1; 2; 3; 4]. cbn [fold_left].
    assert (I0 : clz_inv x 16 (cinit x)).
    { unfold clz_inv, cinit. cbn [c_cnt c_val]. change (wrap 32 0) with 0.
      change (2 ^ (32 - 2 * 16)) with 1. change (2 ^ 0) with 1. lia. }
    pose proof (clz_round x 16 (cinit x) ltac:(lia) I0
      ltac:(repeat rewrite clz_mask; repeat rewrite clz_shft; vm_compute; reflexivity) ltac:(repeat rewrite clz_mask; repeat rewrite clz_shft; vm_compute; reflexivity)) as I1.
    pose proof (clz_round x 8 (clz_step (cinit x)) ltac:(lia) I1
      ltac:(repeat rewrite clz_mask; repeat rewrite clz_shft; vm_compute; reflexivity) ltac:(repeat rewrite clz_mask; repeat rewrite clz_shft; vm_compute; reflexivity)) as I2.
    pose proof (clz_round x 4 _ ltac:(lia) I2
      ltac:(repeat rewrite clz_mask; repeat rewrite clz_shft; vm_compute; reflexivity) ltac:(repeat rewrite clz_mask; repeat rewrite clz_shft; vm_compute; reflexivity)) as I3.
    pose proof (clz_round x 2 _ ltac:(lia) I3
      ltac:(repeat rewrite clz_mask; repeat rewrite clz_shft; vm_compute; reflexivity) ltac:(repeat rewrite clz_mask; repeat rewrite clz_shft; vm_compute; reflexivity)) as I4.
    pose proof (clz_round x 1 _ ltac:(lia) I4
      ltac:(repeat rewrite clz_mask; repeat rewrite clz_shft; vm_compute; reflexivity) ltac:(repeat rewrite clz_mask; repeat rewrite clz_shft; vm_compute; reflexivity)) as I5.
    assert (Sh : c_shft (clz_step (clz_step (clz_step (clz_step (clz_step (cinit x)))))) = 0)
      by (repeat rewrite clz_shft; vm_compute; reflexivity).
    set (st := clz_step (clz_step (clz_step (clz_step (clz_step (cinit x)))))) in *.
    rewrite Sh. change (0 =? 0) with true. cbv iota. f_equal. symmetry.
    destruct I5 as (A & B & C & D).
    assert (P : 2 ^ 32 = 2 ^ (32 - c_cnt st) * 2 ^ c_cnt st) by (rewrite <- Z.pow_add_r by lia; f_equal; lia).
    assert (P1 : 2 ^ (32 - 1) = 2 ^ (31 - c_cnt st) * 2 ^ c_cnt st) by (rewrite <- Z.pow_add_r by lia; f_equal; lia).
    pose proof (pow2_pos (c_cnt st) A).
    apply clz_spec; [lia|]. rewrite C in D. rewrite P, P1 in D. nia.
  - destruct (Z.eqb_spec x 0) as [->|N]; [reflexivity|]. unfold fit in F.
    change crounds with [0; 1; 2; 3; 4]. cbn [fold_left].
    assert (I0 : ctz_inv x 16 (cinit x)).
    { unfold ctz_inv, cinit. cbn [c_cnt c_val]. change (wrap 32 0) with 0.
      change (2 * 16) with 32. change (2 ^ 0) with 1. rewrite Z.mod_small by lia. lia. }
    pose proof (ctz_round x 16 (cinit x) ltac:(lia) I0
      ltac:(repeat rewrite ctz_mask; repeat rewrite ctz_shft; vm_compute; reflexivity) ltac:(repeat rewrite ctz_mask; repeat rewrite ctz_shft; vm_compute; reflexivity)) as I1.
    pose proof (ctz_round x 8 (ctz_step (cinit x)) ltac:(lia) I1
      ltac:(repeat rewrite ctz_mask; repeat rewrite ctz_shft; vm_compute; reflexivity) ltac:(repeat rewrite ctz_mask; repeat rewrite ctz_shft; vm_compute; reflexivity)) as I2.
    pose proof (ctz_round x 4 _ ltac:(lia) I2
      ltac:(repeat rewrite ctz_mask; repeat rewrite ctz_shft; vm_compute; reflexivity) ltac:(repeat rewrite ctz_mask; repeat rewrite ctz_shft; vm_compute; reflexivity)) as I3.
    pose proof (ctz_round x 2 _ ltac:(lia) I3
      ltac:(repeat rewrite ctz_mask; repeat rewrite ctz_shft; vm_compute; reflexivity) ltac:(repeat rewrite ctz_mask; repeat rewrite ctz_shft; vm_compute; reflexivity)) as I4.
    pose proof (ctz_round x 1 _ ltac:(lia) I4
      ltac:(repeat rewrite ctz_mask; repeat rewrite ctz_shft; vm_compute; reflexivity) ltac:(repeat rewrite ctz_mask; repeat rewrite ctz_shft; vm_compute; reflexivity)) as I5.
    assert (Sh : c_shft (ctz_step (ctz_step (ctz_step (ctz_step (ctz_step (cinit x)))))) = 0)
      by (repeat rewrite ctz_shft; vm_compute; reflexivity).
    set (st := ctz_step (ctz_step (ctz_step (ctz_step (ctz_step (cinit x)))))) in *.
    rewrite Sh. change (0 =? 0) with true. cbv iota. f_equal. symmetry.
    destruct I5 as (A & B & C & D & E). rewrite C. apply ctz_spec; try lia.
    rewrite Z.bit0_odd. rewrite Zmod_odd in E. destruct (Z.odd (c_val st)); auto.
Qed.

Lemma bitcounter_smt_spec t x : fit 32 x -> bitcounter_smt t x = sp_bits t x.
Proof.
  intros F. pose proof (bitcounter_spec t x F) as B. destruct t; cbn [bitcounter bitcounter_smt] in *.
  - congruence.
  - destruct (x =? 0); unfold ite; [congruence|].
    destruct (c_shft _ =? 0); [congruence|discriminate].
  - destruct (x =? 0); unfold ite; [congruence|].
    destruct (c_shft _ =? 0); [congruence|discriminate].
Qed.

Lemma sp_bits_range t x : 0 <= sp_bits t x <= 32.
Proof.
  assert (Hz : forall l, 0 <= zeros l <= Z.of_nat (length l)).
  { induction l as [|[] l IH]; cbn [zeros length]; lia. }
  destruct t; cbn [sp_bits].
  - unfold count_true. pose proof (bits32_length x) as L.
    assert (H : forall l, (length (filter (fun b : bool => b) l) <= length l)%nat).
    { induction l as [|[] l IH]; cbn [filter length]; lia. }
    specialize (H (bits32 x)). lia.
  - specialize (Hz (rev (bits32 x))). rewrite rev_length, bits32_length in Hz. lia.
  - specialize (Hz (bits32 x)). rewrite bits32_length in Hz. lia.
Qed.

(** ** Multiplication *)
Section Mul.
  Variables sdiv udiv srem urem : Z -> Z -> Z.

  Lemma high_half p : slice (wrap 64 p) 32 64 = (p / W) mod W.
  Proof.
    rewrite slice_eq by lia. change (64 - 32) with 32. change (2 ^ 32) with W.
    unfold wrap. change (2 ^ 64) with (W * W). rewrite Z.rem_mul_r by (unfold W; lia).
    rewrite (Z.add_comm (p mod W)), Z.mul_comm, Z.div_add_l by (unfold W; lia).
    rewrite (Z.div_small (p mod W)) by (apply Z.mod_pos_bound; unfold W; lia).
    rewrite Z.add_0_r. apply Z.mod_mod. discriminate.
  Qed.

  Lemma mul_spec t x y v : fit 32 x -> fit 32 y -> sp_mul t x y = Some v ->
    exec_muldiv sdiv udiv srem urem t x y = v.
  Proof.
    intros X Y E. destruct t; cbn [sp_mul exec_muldiv] in *; try discriminate;
      injection E as <-.
    - reflexivity.
    - rewrite !bvsext_eq by (auto; lia). change (32 + 32) with 64. unfold bvmul.
      rewrite wrap_mul_l, wrap_mul_r by lia. rewrite !sg_eq by (auto; lia). apply high_half.
    - rewrite !bvzext_eq. unfold bvmul. rewrite high_half. apply Z.mod_small.
      unfold fit in *. change (2 ^ 32) with W in *.
      assert (WP : 0 < W) by reflexivity.
      split; [apply Z.div_pos; nia|]. apply Z.div_lt_upper_bound; nia.
    - rewrite !bvsext_eq by (auto; lia). rewrite bvzext_eq. change (32 + 32) with 64. unfold bvmul.
      rewrite wrap_mul_l by lia. rewrite sg_eq by (auto; lia). apply high_half.
  Qed.
End Mul.
