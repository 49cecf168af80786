(** Lemmas about the shared vocabulary. *)
From Coq Require Import String Ascii ZArith List Bool Lia Permutation Sorted.
From Verif Require Import Base.
Import ListNotations.
Open Scope Z_scope.

Lemma Ok_inj A (a b : A) : Ok a = Ok b -> a = b.
Proof. congruence. Qed.

(** * Powers of two, slices and concatenation *)

Lemma pow2_pos w : 0 <= w -> 0 < 2 ^ w.
Proof. intros; apply Z.pow_pos_nonneg; lia. Qed.

Lemma pow2_split a b : 0 <= a -> 0 <= b -> 2 ^ (a + b) = 2 ^ a * 2 ^ b.
Proof. intros; apply Z.pow_add_r; lia. Qed.

Lemma pow2_mono a b : 0 <= a <= b -> 2 ^ a <= 2 ^ b.
Proof. intros; apply Z.pow_le_mono_r; lia. Qed.

Lemma slice_eq op lo hi :
  0 <= lo <= hi -> slice op lo hi = (op / 2 ^ lo) mod 2 ^ (hi - lo).
Proof.
  intros. unfold slice. rewrite Z.land_ones by lia. rewrite Z.shiftr_div_pow2 by lia.
  reflexivity.
Qed.

Lemma slice_range op lo hi : 0 <= lo <= hi -> 0 <= slice op lo hi < 2 ^ (hi - lo).
Proof.
  intros. rewrite slice_eq by lia. apply Z.mod_pos_bound. apply pow2_pos; lia.
Qed.

(** Slicing out of low + 2^lo * (x + 2^w * high). *)
Lemma slice_mid low x high lo w :
  0 <= lo -> 0 <= w -> 0 <= low < 2 ^ lo -> 0 <= x < 2 ^ w ->
  slice (low + 2 ^ lo * (x + 2 ^ w * high)) lo (lo + w) = x.
Proof.
  intros Hlo Hw Hl Hx. rewrite slice_eq by lia.
  replace (lo + w - lo) with w by lia.
  pose proof (pow2_pos lo Hlo). pose proof (pow2_pos w Hw).
  rewrite (Z.mul_comm (2 ^ lo)). rewrite Z.div_add by lia.
  rewrite (Z.div_small low) by lia. rewrite Z.add_0_l.
  rewrite (Z.mul_comm (2 ^ w)). rewrite Z.mod_add by lia. apply Z.mod_small; lia.
Qed.

Lemma slice_low x high w :
  0 <= w -> 0 <= x < 2 ^ w -> slice (x + 2 ^ w * high) 0 w = x.
Proof.
  intros. pose proof (slice_mid 0 x high 0 w) as P.
  rewrite Z.pow_0_r in P. rewrite Z.add_0_l, Z.mul_1_l in P. apply P; lia.
Qed.

Lemma slice_full x w : 0 <= w -> 0 <= x < 2 ^ w -> slice x 0 w = x.
Proof.
  intros. pose proof (slice_low x 0 w) as P. rewrite Z.mul_0_r, Z.add_0_r in P.
  apply P; lia.
Qed.

(** Every number is its low part plus 2^lo times the rest. *)
Lemma split_low op w : 0 <= w -> op = slice op 0 w + 2 ^ w * (op / 2 ^ w).
Proof.
  intros. rewrite slice_eq by lia. rewrite Z.pow_0_r, Z.div_1_r, Z.sub_0_r.
  pose proof (pow2_pos w H). pose proof (Z.div_mod op (2 ^ w)). lia.
Qed.

Lemma slice_div op lo hi : 0 <= lo <= hi -> slice op lo hi = slice (op / 2 ^ lo) 0 (hi - lo).
Proof.
  intros. rewrite !slice_eq by lia. rewrite Z.pow_0_r, Z.div_1_r, Z.sub_0_r. reflexivity.
Qed.

Lemma slice_slice op lo w a b :
  0 <= lo -> 0 <= a <= b -> b <= w ->
  slice (slice op lo (lo + w)) a b = slice op (lo + a) (lo + b).
Proof.
  intros. unfold slice.
  apply Z.bits_inj'. intros n Hn.
  rewrite !Z.land_spec, !Z.shiftr_spec, !Z.land_spec, !Z.shiftr_spec by lia.
  replace (lo + w - lo) with w by lia. replace (lo + b - (lo + a)) with (b - a) by lia.
  destruct (Z_lt_ge_dec n (b - a)).
  - rewrite !Z.ones_spec_low by lia. rewrite !andb_true_r.
    f_equal. lia.
  - rewrite !(Z.ones_spec_high _ n) by lia. rewrite !andb_false_r. reflexivity.
Qed.

Lemma land_0_disjoint x y w : 0 <= w -> 0 <= x < 2 ^ w -> Z.land x (Z.shiftl y w) = 0.
Proof.
  intros Hw Hx. apply Z.bits_inj'. intros n Hn. rewrite Z.land_spec, Z.bits_0.
  destruct (Z_lt_ge_dec n w).
  - rewrite Z.shiftl_spec_low by lia. apply andb_false_r.
  - assert (Z.testbit x n = false) as ->; [|reflexivity].
    destruct (Z.eq_dec x 0) as [->|]; [apply Z.bits_0|].
    apply Z.bits_above_log2; [lia|].
    assert (Z.log2 x < w); [apply Z.log2_lt_pow2; lia | lia].
Qed.

Lemma lor_shiftl_add x y w :
  0 <= w -> 0 <= x < 2 ^ w -> Z.lor x (Z.shiftl y w) = x + 2 ^ w * y.
Proof.
  intros Hw Hx. rewrite <- Z.lxor_lor by (apply land_0_disjoint; auto).
  rewrite <- Z.add_nocarry_lxor by (apply land_0_disjoint; auto).
  rewrite Z.shiftl_mul_pow2 by lia. lia.
Qed.

Lemma wrap_small w z : 0 <= z < 2 ^ w -> wrap w z = z.
Proof. intros; unfold wrap; apply Z.mod_small; auto. Qed.

Lemma wrap_range w z : 0 <= w -> 0 <= wrap w z < 2 ^ w.
Proof. intros; unfold wrap; apply Z.mod_pos_bound, pow2_pos; auto. Qed.

(** * bit_length *)

Lemma bit_length_nonneg z : 0 <= bit_length z.
Proof.
  unfold bit_length. destruct (z =? 0); [lia|]. pose proof (Z.log2_nonneg (Z.abs z)). lia.
Qed.

Lemma bit_length_le z w : 0 <= z -> 0 <= w -> (bit_length z <= w <-> z < 2 ^ w).
Proof.
  intros Hz Hw. unfold bit_length. destruct (Z.eqb_spec z 0) as [->|N].
  - pose proof (pow2_pos w Hw). lia.
  - rewrite Z.abs_eq by lia. pose proof (Z.log2_lt_pow2 z w). lia.
Qed.

Lemma bit_length_lt z : 0 <= z -> z < 2 ^ bit_length z.
Proof. intros. apply bit_length_le; auto using bit_length_nonneg. lia. Qed.

(** * Dictionaries *)
Section DictLemmas.
  Context {K V : Type} (eqb : K -> K -> bool).
  Hypothesis eqb_eq : forall a b, eqb a b = true <-> a = b.

  Lemma eqb_refl_ k : eqb k k = true.
  Proof. apply eqb_eq; auto. Qed.

  Lemma dget_dset (d : list (K * V)) k v k' :
    dget eqb (dset eqb d k v) k' = if eqb k' k then Some v else dget eqb d k'.
  Proof.
    induction d as [|[a b] d IH]; cbn.
    - destruct (eqb k' k); auto.
    - destruct (eqb k a) eqn:E; cbn.
      + apply eqb_eq in E as ->. destruct (eqb k' a); auto.
      + rewrite IH. destruct (eqb k' a) eqn:E1, (eqb k' k) eqn:E2; auto.
        apply eqb_eq in E1 as ->. apply eqb_eq in E2 as ->.
        rewrite eqb_refl_ in E. discriminate.
  Qed.

  Lemma dget_In (d : list (K * V)) k v : dget eqb d k = Some v -> In (k, v) d.
  Proof.
    induction d as [|[a b] d IH]; cbn; [discriminate|].
    destruct (eqb k a) eqn:E; [|auto].
    intros [= ->]. apply eqb_eq in E as ->. auto.
  Qed.

  Lemma dget_None (d : list (K * V)) k : dget eqb d k = None <-> ~ In k (map fst d).
  Proof.
    induction d as [|[a b] d IH]; cbn; [tauto|].
    destruct (eqb k a) eqn:E.
    - apply eqb_eq in E as ->. split; [discriminate|]. intros N. destruct N; auto.
    - rewrite IH. split; intros H; [intros [->|]; auto|tauto].
      rewrite eqb_refl_ in E. discriminate.
  Qed.

  Lemma dget_NoDup (d : list (K * V)) k v :
    NoDup (map fst d) -> In (k, v) d -> dget eqb d k = Some v.
  Proof.
    induction d as [|[a b] d IH]; cbn; [tauto|]. intros N [E|I]; inversion N; subst.
    - injection E as -> ->. rewrite eqb_refl_. auto.
    - destruct (eqb k a) eqn:E; auto. apply eqb_eq in E as ->.
      destruct H1. apply (in_map fst) in I. exact I.
  Qed.

  Lemma In_dset (d : list (K * V)) k v x :
    In x (dset eqb d k v) -> x = (k, v) \/ In x d.
  Proof.
    induction d as [|[a b] d IH]; cbn; [intuition auto|].
    destruct (eqb k a) eqn:E; cbn.
    - apply eqb_eq in E as ->. intuition auto.
    - intuition auto.
  Qed.

  Lemma dset_new (d : list (K * V)) k v :
    ~ In k (map fst d) -> dset eqb d k v = d ++ [(k, v)].
  Proof.
    induction d as [|[a b] d IH]; cbn; auto. intros N.
    destruct (eqb k a) eqn:E; [apply eqb_eq in E as ->; tauto|]. rewrite IH; tauto.
  Qed.
End DictLemmas.

Lemma list_eqb_eq A (eqb : A -> A -> bool) :
  (forall a b, eqb a b = true <-> a = b) ->
  forall l l', list_eqb eqb l l' = true <-> l = l'.
Proof.
  intros H l. induction l as [|x l IH]; intros [|y l']; cbn; try (split; congruence).
  rewrite andb_true_iff, H, IH. split; [intros [-> ->]; auto|intros [= -> ->]; auto].
Qed.

Lemma zmem_In x l : zmem x l = true <-> In x l.
Proof.
  induction l as [|y l IH]; cbn; [split; [discriminate|tauto]|].
  rewrite orb_true_iff, IH, Z.eqb_eq. intuition auto.
Qed.

Lemma pyrange_In a b x : In x (pyrange a b) <-> a <= x < b.
Proof.
  unfold pyrange. rewrite in_map_iff. split.
  - intros (i & <- & I). apply in_seq in I. lia.
  - intros. exists (Z.to_nat (x - a)). split; [lia|]. apply in_seq. lia.
Qed.

Lemma pyrange_cons a b : a < b -> pyrange a b = a :: pyrange (a + 1) b.
Proof.
  intros. unfold pyrange. destruct (Z.to_nat (b - a)) as [|n] eqn:E; [lia|].
  replace (Z.to_nat (b - (a + 1))) with n by lia.
  cbn [seq map]. f_equal; [lia|]. rewrite <- seq_shift, map_map. apply map_ext. intros; lia.
Qed.

Lemma pyrange_nil a b : b <= a -> pyrange a b = [].
Proof. intros. unfold pyrange. replace (Z.to_nat (b - a)) with O by lia. reflexivity. Qed.

(** * Sorting *)
Section SortLemmas.
  Context {A : Type} (leb : A -> A -> bool).
  Hypothesis total : forall a b, leb a b = true \/ leb b a = true.
  Hypothesis trans : forall a b c, leb a b = true -> leb b c = true -> leb a c = true.

  Lemma insert_perm x l : Permutation (insert leb x l) (x :: l).
  Proof.
    induction l as [|y l IH]; cbn; auto. destruct (leb x y); auto.
    rewrite IH. apply perm_swap.
  Qed.

  Lemma isort_perm l : Permutation (isort leb l) l.
  Proof. induction l as [|x l IH]; cbn; auto. rewrite insert_perm, IH. auto. Qed.

  Lemma isort_In l x : In x (isort leb l) <-> In x l.
  Proof.
    split; apply Permutation_in; [|symmetry]; apply isort_perm.
  Qed.

  Lemma isort_In1 l x : In x (isort leb l) -> In x l.
  Proof. apply isort_In. Qed.
  Lemma isort_In2 l x : In x l -> In x (isort leb l).
  Proof. apply isort_In. Qed.

  Lemma isort_length l : length (isort leb l) = length l.
  Proof. apply Permutation_length, isort_perm. Qed.

  Definition le_ (a b : A) : Prop := leb a b = true.

  Lemma insert_sorted x l : StronglySorted le_ l -> StronglySorted le_ (insert leb x l).
  Proof.
    induction l as [|y l IH]; cbn; intros S.
    - repeat constructor.
    - inversion S; subst. destruct (leb x y) eqn:E.
      + constructor; auto. constructor; auto.
        eapply Forall_impl; [|eassumption]. intros z Hz. eapply trans; eauto.
      + constructor; [auto|].
        eapply Permutation_Forall; [symmetry; apply insert_perm|].
        constructor; auto. destruct (total x y); unfold le_; congruence.
  Qed.

  Lemma isort_sorted l : StronglySorted le_ (isort leb l).
  Proof. induction l; cbn; [constructor|]. apply insert_sorted; auto. Qed.

  (** Sorting a sorted list changes nothing. *)
  Lemma isort_id l : StronglySorted le_ l -> isort leb l = l.
  Proof.
    induction 1 as [|x l S IH F]; cbn; auto. rewrite IH.
    destruct l as [|y l]; cbn; auto. inversion F; subst.
    unfold le_ in *. rewrite H1. auto.
  Qed.
End SortLemmas.

(** ** Strings *)
Lemma ascii_compare_N a b :
  Ascii.compare a b = N.compare (N_of_ascii a) (N_of_ascii b).
Proof. reflexivity. Qed.

Lemma str_compare_refl s : String.compare s s = Eq.
Proof.
  induction s as [|a s IH]; cbn; auto. rewrite ascii_compare_N, N.compare_refl. auto.
Qed.

Lemma str_compare_trans_lt a : forall b c,
  String.compare a b = Lt -> String.compare b c = Lt -> String.compare a c = Lt.
Proof.
  induction a as [|x a IH]; intros [|y b] [|z c]; cbn; try discriminate; auto.
  rewrite !ascii_compare_N.
  destruct (N.compare_spec (N_of_ascii x) (N_of_ascii y)) as [E1|E1|E1]; try discriminate;
  destruct (N.compare_spec (N_of_ascii y) (N_of_ascii z)) as [E2|E2|E2]; try discriminate;
  intros H1 H2.
  - rewrite E1, E2, N.compare_refl. eauto.
  - rewrite E1. apply N.compare_lt_iff in E2. rewrite E2. auto.
  - rewrite <- E2. apply N.compare_lt_iff in E1. rewrite E1. auto.
  - assert (N_of_ascii x < N_of_ascii z)%N as E by lia.
    apply N.compare_lt_iff in E. rewrite E. auto.
Qed.

Lemma str_compare_eq a b : String.compare a b = Eq <-> a = b.
Proof.
  split; [apply String.compare_eq_iff|intros ->; apply str_compare_refl].
Qed.

Lemma str_compare_gt a b : String.compare a b = Gt <-> String.compare b a = Lt.
Proof. rewrite String.compare_antisym. destruct (String.compare b a); cbn; split; congruence. Qed.

(** * Lists *)
Lemma nth_error_In_iff A (l : list A) x : In x l <-> exists i, nth_error l i = Some x.
Proof.
  split; [apply In_nth_error|]. intros [i H]. eapply nth_error_In; eauto.
Qed.

Lemma fold_orb l b : fold_left orb l b = b || existsb (fun x => x) l.
Proof.
  revert b; induction l as [|x l IH]; cbn; intros b; [rewrite orb_false_r; auto|].
  rewrite IH. rewrite orb_assoc. auto.
Qed.

Lemma fold_andb l b : fold_left andb l b = b && forallb (fun x => x) l.
Proof.
  revert b; induction l as [|x l IH]; cbn; intros b; [rewrite andb_true_r; auto|].
  rewrite IH. rewrite andb_assoc. auto.
Qed.

Lemma fold_orb_map A (f : A -> bool) l b :
  fold_left orb (map f l) b = true <-> b = true \/ exists x, In x l /\ f x = true.
Proof.
  rewrite fold_orb, orb_true_iff, existsb_exists. split; (intros [H|H]; [auto|right]).
  - destruct H as (y & I & E). apply in_map_iff in I as (x & <- & I). eauto.
  - destruct H as (x & I & E). exists (f x). split; auto. apply in_map; auto.
Qed.

Lemma fold_andb_map A (f : A -> bool) l b :
  fold_left andb (map f l) b = true <-> b = true /\ forall x, In x l -> f x = true.
Proof.
  rewrite fold_andb, andb_true_iff, forallb_forall. split; intros [H1 H2]; split; auto.
  - intros x I. apply H2. apply in_map; auto.
  - intros y I. apply in_map_iff in I as (x & <- & I). auto.
Qed.

Lemma mapM_Ok A B (f : A -> res B) l ys :
  mapM f l = Ok ys <-> Forall2 (fun x y => f x = Ok y) l ys.
Proof.
  revert ys; induction l as [|x l IH]; intros ys; cbn.
  - split; [intros [= <-]; constructor|inversion 1; auto].
  - destruct (f x) eqn:E; cbn.
    + destruct (mapM f l) as [zs|] eqn:E2; cbn.
      * split.
        -- intros [= <-]. constructor; auto. apply IH; auto.
        -- inversion 1; subst. apply IH in H4. congruence.
      * split; [discriminate|]. inversion 1; subst. apply IH in H4. congruence.
    + split; [discriminate|]. inversion 1; congruence.
Qed.

Lemma NoDup_app_intro A (l l' : list A) :
  NoDup l -> NoDup l' -> (forall x, In x l -> ~ In x l') -> NoDup (l ++ l').
Proof.
  induction 1 as [|x l N ND IH]; cbn; intros ND' D; auto. constructor.
  - rewrite in_app_iff. intros [|I]; auto. apply (D x); auto.
  - apply IH; auto.
Qed.
