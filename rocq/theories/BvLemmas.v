(** Lemmas about BvModel. *)
From Coq Require Import ZArith List Bool Lia.
From Verif Require Import Base BaseLemmas BvModel.
Open Scope Z_scope.

Lemma wrap_mod w x : 0 <= w -> exists k, wrap w x = x + k * 2 ^ w.
Proof.
  intros W. unfold wrap. pose proof (pow2_pos w W).
  pose proof (Z.div_mod x (2 ^ w) ltac:(lia)) as D.
  exists (- (x / 2 ^ w)). lia.
Qed.

Lemma wrap_eqm w x k : 0 <= w -> wrap w (x + k * 2 ^ w) = wrap w x.
Proof. intros W. unfold wrap. apply Z.mod_add. pose proof (pow2_pos w W). lia. Qed.

Lemma wrap_add_l w x y : 0 <= w -> wrap w (wrap w x + y) = wrap w (x + y).
Proof.
  intros W. unfold wrap. pose proof (pow2_pos w W). rewrite Z.add_mod_idemp_l; lia.
Qed.
Lemma wrap_add_r w x y : 0 <= w -> wrap w (x + wrap w y) = wrap w (x + y).
Proof.
  intros W. unfold wrap. pose proof (pow2_pos w W). rewrite Z.add_mod_idemp_r; lia.
Qed.
Lemma wrap_mul_l w x y : 0 <= w -> wrap w (wrap w x * y) = wrap w (x * y).
Proof.
  intros W. unfold wrap. pose proof (pow2_pos w W). rewrite Z.mul_mod_idemp_l; lia.
Qed.
Lemma wrap_mul_r w x y : 0 <= w -> wrap w (x * wrap w y) = wrap w (x * y).
Proof.
  intros W. unfold wrap. pose proof (pow2_pos w W). rewrite Z.mul_mod_idemp_r; lia.
Qed.
Lemma wrap_wrap w x : 0 <= w -> wrap w (wrap w x) = wrap w x.
Proof. intros W. apply wrap_small, wrap_range, W. Qed.

(** The top bit of a w-bit word. *)
Lemma top_bit w x : 0 < w -> 0 <= x < 2 ^ w -> Z.testbit x (w - 1) = (2 ^ (w - 1) <=? x).
Proof.
  intros W X. assert (P : 2 ^ w = 2 * 2 ^ (w - 1)).
  { replace w with (1 + (w - 1)) at 1 by lia. rewrite Z.pow_add_r by lia. reflexivity. }
  pose proof (pow2_pos (w - 1) ltac:(lia)) as Q.
  destruct (Z.leb_spec (2 ^ (w - 1)) x) as [L|L].
  - apply Z.testbit_true; [lia|].
    rewrite Z.mod_small; [symmetry; apply Z.div_unique with (x - 2 ^ (w - 1)); lia|].
    split; [apply Z.div_pos; lia|apply Z.div_lt_upper_bound; lia].
  - apply Z.testbit_false; [lia|]. rewrite Z.div_small by lia. reflexivity.
Qed.

(** Two's complement value, written without bits. *)
Lemma to_signed_eq w x : 0 < w -> 0 <= x < 2 ^ w ->
  to_signed w x = if x <? 2 ^ (w - 1) then x else x - 2 ^ w.
Proof.
  intros W X. unfold to_signed. rewrite top_bit by auto.
  destruct (Z.leb_spec (2 ^ (w - 1)) x); destruct (Z.ltb_spec x (2 ^ (w - 1))); lia.
Qed.

Lemma to_signed_range w x : 0 < w -> 0 <= x < 2 ^ w ->
  - 2 ^ (w - 1) <= to_signed w x < 2 ^ (w - 1).
Proof.
  intros W X. rewrite to_signed_eq by auto.
  assert (P : 2 ^ w = 2 * 2 ^ (w - 1)).
  { replace w with (1 + (w - 1)) at 1 by lia. rewrite Z.pow_add_r by lia. reflexivity. }
  destruct (Z.ltb_spec x (2 ^ (w - 1))); lia.
Qed.

Lemma wrap_to_signed w x : 0 <= w -> wrap w (to_signed w x) = wrap w x.
Proof.
  intros W. unfold to_signed. destruct (Z.testbit x (w - 1)); auto.
  replace (x - 2 ^ w) with (x + (-1) * 2 ^ w) by lia. apply wrap_eqm; auto.
Qed.

Lemma bvzext_eq w k x : bvzext w k x = x.
Proof. unfold bvzext, concat. rewrite Z.shiftl_0_l, Z.lor_0_r. reflexivity. Qed.

Lemma bvsext_eq w k x : 0 < w -> 0 <= k -> 0 <= x < 2 ^ w ->
  bvsext w k x = wrap (w + k) (to_signed w x).
Proof.
  intros W K X. unfold bvsext, concat, to_signed.
  pose proof (pow2_pos w ltac:(lia)) as Pw. pose proof (pow2_pos k K) as Pk.
  assert (P : 2 ^ (w + k) = 2 ^ w * 2 ^ k) by (apply Z.pow_add_r; lia).
  rewrite top_bit by auto. destruct (Z.leb_spec (2 ^ (w - 1)) x) as [L|L].
  - rewrite lor_shiftl_add by lia. rewrite Z.ones_equiv.
    replace (x - 2 ^ w) with (x + 2 ^ w * Z.pred (2 ^ k) + (-1) * 2 ^ (w + k)) by (rewrite P; lia).
    rewrite wrap_eqm by lia. symmetry. apply wrap_small. rewrite P. nia.
  - rewrite Z.shiftl_0_l, Z.lor_0_r. symmetry. apply wrap_small. rewrite P. nia.
Qed.

Lemma bvshl_eq w x y : 0 <= y -> bvshl w x y = wrap w (x * 2 ^ y).
Proof. intros. unfold bvshl. rewrite Z.shiftl_mul_pow2; auto. Qed.

Lemma div_pow2_le x y : 0 <= y -> 0 <= x -> 0 <= x / 2 ^ y <= x.
Proof.
  intros Y X. pose proof (pow2_pos y Y) as P. split; [apply Z.div_pos; lia|].
  apply Z.div_le_upper_bound; [lia|]. nia.
Qed.

Lemma bvlshr_eq w x y : 0 <= y -> 0 <= x < 2 ^ w -> bvlshr w x y = x / 2 ^ y.
Proof.
  intros Y X. unfold bvlshr. rewrite Z.shiftr_div_pow2 by auto.
  apply wrap_small. pose proof (div_pow2_le x y Y ltac:(lia)). lia.
Qed.

Lemma bvashr_eq w x y : 0 <= y -> bvashr w x y = wrap w (to_signed w x / 2 ^ y).
Proof. intros. unfold bvashr. rewrite Z.shiftr_div_pow2; auto. Qed.

(** ** Bitwise operations stay in range *)
Lemma fit_testbit w x : 0 <= w -> 0 <= x ->
  (forall n, w <= n -> Z.testbit x n = false) -> x < 2 ^ w.
Proof.
  intros W X H. destruct (Z.eq_dec x 0) as [->|N]; [apply pow2_pos; auto|].
  apply Z.log2_lt_pow2; [lia|].
  destruct (Z_lt_ge_dec (Z.log2 x) w) as [L|G]; auto.
  specialize (H (Z.log2 x) ltac:(lia)). rewrite Z.bit_log2 in H by lia. discriminate.
Qed.

Lemma testbit_high w x n : 0 <= x < 2 ^ w -> w <= n -> Z.testbit x n = false.
Proof.
  intros X N. destruct (Z.eq_dec x 0) as [->|Nz]; [apply Z.bits_0|].
  apply Z.bits_above_log2; [lia|].
  assert (Z.log2 x < w) by (apply Z.log2_lt_pow2; lia). lia.
Qed.

Lemma land_range w x y : 0 <= w -> 0 <= x < 2 ^ w -> 0 <= y < 2 ^ w ->
  0 <= Z.land x y < 2 ^ w.
Proof.
  intros W X Y. assert (0 <= Z.land x y) by (apply Z.land_nonneg; lia). split; auto.
  apply fit_testbit; auto. intros n N. rewrite Z.land_spec, (testbit_high w x); auto.
Qed.
Lemma lor_range w x y : 0 <= w -> 0 <= x < 2 ^ w -> 0 <= y < 2 ^ w ->
  0 <= Z.lor x y < 2 ^ w.
Proof.
  intros W X Y. assert (0 <= Z.lor x y) by (apply Z.lor_nonneg; lia). split; auto.
  apply fit_testbit; auto. intros n N.
  rewrite Z.lor_spec, (testbit_high w x), (testbit_high w y); auto.
Qed.
Lemma lxor_range w x y : 0 <= w -> 0 <= x < 2 ^ w -> 0 <= y < 2 ^ w ->
  0 <= Z.lxor x y < 2 ^ w.
Proof.
  intros W X Y. assert (0 <= Z.lxor x y) by (apply Z.lxor_nonneg; lia). split; auto.
  apply fit_testbit; auto. intros n N.
  rewrite Z.lxor_spec, (testbit_high w x), (testbit_high w y); auto.
Qed.
Lemma bvnot_eq w x : 0 <= w -> 0 <= x < 2 ^ w -> bvnot w x = 2 ^ w - 1 - x.
Proof.
  intros W X. unfold bvnot, Z.lnot.
  replace (Z.pred (- x)) with (2 ^ w - 1 - x + (-1) * 2 ^ w) by lia.
  rewrite wrap_eqm by auto. apply wrap_small. lia.
Qed.
Lemma wrap_m1 w : 0 <= w -> wrap w (-1) = Z.ones w.
Proof.
  intros W. rewrite Z.ones_equiv. pose proof (pow2_pos w W).
  rewrite <- (wrap_eqm w (-1) 1) by auto.
  replace (-1 + 1 * 2 ^ w) with (Z.pred (2 ^ w)) by lia. apply wrap_small. lia.
Qed.
Lemma land_all w x : 0 <= w -> 0 <= x < 2 ^ w -> Z.land x (wrap w (-1)) = x.
Proof.
  intros W X. rewrite wrap_m1 by auto. rewrite Z.land_ones by auto. apply Z.mod_small; auto.
Qed.
(** Clearing the lowest bit. *)
Lemma land_not1 w x : 0 < w -> 0 <= x < 2 ^ w -> Z.land x (bvnot w 1) = 2 * (x / 2).
Proof.
  intros W X. unfold bvnot, wrap. rewrite <- Z.land_ones by lia.
  rewrite (Z.land_comm (Z.lnot 1)), Z.land_assoc, Z.land_ones by lia.
  rewrite Z.mod_small by auto. rewrite <- Z.ldiff_land. change 1 with (Z.ones 1).
  rewrite Z.ldiff_ones_r by lia. rewrite Z.shiftl_mul_pow2, Z.shiftr_div_pow2 by lia.
  change (2 ^ 1) with 2. lia.
Qed.
