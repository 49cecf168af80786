(** C84: what the demonstration PEs compute. *)
From Coq Require Import ZArith List Bool Lia.
From Verif Require Import Base BaseLemmas BvModel BvLemmas PeProps SmallPeModel DemoPeModel.
Import ListNotations.
Open Scope list_scope.
Open Scope Z_scope.

(** * Specification *)

(** Operations of the unit: [b] is the second operand after the inverter, [c] the
    constant bit. The word [r] and the carry. *)
Definition bitwise (op : bool -> bool -> bool) (a b r : Z) : Prop :=
  forall n, 0 <= n < 16 -> Z.testbit r n = op (Z.testbit a n) (Z.testbit b n).
Definition does_op (o : dop) (c : bool) (a b r : Z) (carry : bool) : Prop :=
  word r /\
  match o with
  | DAdd => a + b + b2z c = r + (if carry then 65536 else 0)
  | DAnd => bitwise andb a b r /\ carry = false
  | DXor => bitwise xorb a b r /\ carry = false
  | DShft => r = (a * 2 ^ b) mod 65536 /\ carry = false
  end.
Definition inverted (v : dinv) (b : Z) : Z := match v with DIdent => b | DInvert => 65535 - b end.
Definition flag_is (f : dflag) (r : Z) (carry flag : bool) : Prop :=
  match f with DC => flag = carry | DZ => flag = true <-> r = 0 end.
(** The operations of pe5: the constant bit selects and from or, left from right, and
    inverts the zero flag of an exclusive or. *)
Definition does_op5 (o : dop) (c : bool) (a b r : Z) (carry : bool) : Prop :=
  word r /\
  match o, c with
  | DAdd, _ => a + b + b2z c = r + (if carry then 65536 else 0)
  | DAnd, true => bitwise andb a b r /\ carry = false
  | DAnd, false => bitwise orb a b r /\ carry = false
  | DXor, _ => bitwise xorb a b r /\ carry = false
  | DShft, true => r = (a * 2 ^ b) mod 65536 /\ carry = false
  | DShft, false => r = a / 2 ^ b /\ carry = false
  end.
Definition flag_is5 (o : dop) (f : dflag) (c : bool) (r : Z) (carry flag : bool) : Prop :=
  match f with
  | DC => flag = carry
  | DZ => match o, c with DXor, true => flag = true <-> r <> 0 | _, _ => flag = true <-> r = 0 end
  end.

(** * Lemmas *)

Lemma or_bits_zero r : word r -> (or_bits r = false <-> r = 0).
Proof.
  intros W. unfold word in W. unfold or_bits.
  assert (G : forall l acc, fold_left (fun x i => x || bvbit r (Z.of_nat i)) l acc = acc || existsb (fun i => bvbit r (Z.of_nat i)) l).
  { induction l as [|i l IH]; intros acc; cbn [fold_left existsb]; [now rewrite orb_false_r|]. now rewrite IH, orb_assoc. }
  rewrite G. cbn [orb]. split.
  - intros E. apply Z.bits_inj'. intros n Hn. rewrite Z.bits_0. destruct (Z_lt_dec n 16) as [L|L].
    + destruct (Z.testbit r n) eqn:T; [|reflexivity]. exfalso. rewrite <- not_true_iff_false in E. apply E. apply existsb_exists.
      exists (Z.to_nat n). split; [apply in_seq; lia|]. unfold bvbit. now rewrite Z2Nat.id.
    + apply (testbit_high 16); [exact W|lia].
  - intros ->. apply not_true_iff_false. intros E. apply existsb_exists in E as (i & _ & E). unfold bvbit in E. now rewrite Z.bits_0 in E.
Qed.
Lemma zero_flag r : word r -> (negb (or_bits r) = true <-> r = 0).
Proof. intros W. rewrite negb_true_iff. now apply or_bits_zero. Qed.

Lemma inverter_eq v b : word b -> inverter v b = inverted v b /\ word (inverted v b).
Proof.
  intros W. unfold word in *. destruct v; cbn [inverter inverted]; [split; [reflexivity|lia]|]. split; [|lia]. rewrite bvnot_eq by (change (2 ^ 16) with 65536; lia). reflexivity.
Qed.

Lemma word_land a b : word a -> word b -> word (Z.land a b).
Proof. exact (land_range 16 a b ltac:(lia)). Qed.
Lemma word_lor a b : word a -> word b -> word (Z.lor a b).
Proof. exact (lor_range 16 a b ltac:(lia)). Qed.
Lemma word_lxor a b : word a -> word b -> word (Z.lxor a b).
Proof. exact (lxor_range 16 a b ltac:(lia)). Qed.
Lemma word_wrap x : word (wrap 16 x).
Proof. exact (Z.mod_pos_bound x (2 ^ 16) ltac:(lia)). Qed.

Lemma add_ok a b c : word a -> word b -> let '(r, carry) := adc 16 a b c in word r /\ a + b + b2z c = r + (if carry then 65536 else 0).
Proof.
  intros A B. rewrite adc_spec by assumption. unfold word in *. split; [apply Z.mod_pos_bound; lia|].
  destruct (Z.leb_spec 65536 (a + b + b2z c)) as [L|L].
  - rewrite <- (Z.mod_unique (a + b + b2z c) 65536 1 (a + b + b2z c - 65536)); destruct c; cbn [b2z] in *; lia.
  - rewrite Z.mod_small; destruct c; cbn [b2z] in *; lia.
Qed.

Lemma alu123_ok o c a b : word a -> word b ->
  let '(r, carry, zero) := alu123 o a b c in does_op o c a b r carry /\ (zero = true <-> r = 0).
Proof.
  intros A B. unfold alu123. destruct o.
  - pose proof (add_ok a b c A B) as H. destruct (adc 16 a b c) as [r carry]. destruct H as (W & E). split; [split; [exact W|exact E]|now apply zero_flag].
  - pose proof (word_land a b A B). split; [|now apply zero_flag]. split; [assumption|]. split; [|reflexivity]. intros n _. apply Z.land_spec.
  - pose proof (word_lxor a b A B). split; [|now apply zero_flag]. split; [assumption|]. split; [|reflexivity]. intros n _. apply Z.lxor_spec.
  - assert (word (bvshl 16 a b)) by apply word_wrap. split; [|now apply zero_flag]. split; [assumption|]. split; [|reflexivity].
    apply bvshl_eq. unfold word in B. lia.
Qed.

(** * Results and flags *)

Theorem C84_pe1 : forall o a b r flag, word a -> word b -> pe1 (I1 o) a b = (r, flag) ->
  (exists carry, does_op o false a b r carry) /\ flag = false.
Proof.
  intros o a b r flag A B E. unfold pe1 in E. cbn [a1] in E. pose proof (alu123_ok o false a b A B) as H.
  destruct (alu123 o a b false) as [[r' carry] zero]. apply pair_equal_spec in E; destruct E as [<- <-]. split; [|reflexivity]. exists carry. apply H.
Qed.

Theorem C84_pe2 : forall o f a b r flag, word a -> word b -> pe2 (I2 o f) a b = (r, flag) ->
  exists carry, does_op o false a b r carry /\ flag_is f r carry flag.
Proof.
  intros o f a b r flag A B E. unfold pe2 in E. cbn [a2 f2] in E. pose proof (alu123_ok o false a b A B) as H.
  destruct (alu123 o a b false) as [[r' carry] zero]. apply pair_equal_spec in E; destruct E as [<- <-]. destruct H as (H & Z0). exists carry. split; [exact H|]. destruct f; [reflexivity|exact Z0].
Qed.

Theorem C84_pe3 : forall o f v a b r flag, word a -> word b -> pe3 (I3 o f v) a b = (r, flag) ->
  exists carry, does_op o false a (inverted v b) r carry /\ flag_is f r carry flag.
Proof.
  intros o f v a b r flag A B E. unfold pe3 in E. cbn [a3 f3 v3] in E. destruct (inverter_eq v b B) as (Ei & W). rewrite Ei in E.
  pose proof (alu123_ok o false a (inverted v b) A W) as H.
  destruct (alu123 o a (inverted v b) false) as [[r' carry] zero]. apply pair_equal_spec in E; destruct E as [<- <-]. destruct H as (H & Z0). exists carry. split; [exact H|]. destruct f; [reflexivity|exact Z0].
Qed.

(** pe4 has the result of an addition with carry in, but no carry out. *)
Theorem C84_pe4 : forall o f v c a b r flag, word a -> word b -> pe4 (I4 o f v c) a b = (r, flag) ->
  exists carry, does_op o (bit_const c) a (inverted v b) r carry /\ flag_is f r false flag.
Proof.
  intros o f v c a b r flag A B E. unfold pe4 in E. cbn [a4 f4 v4 b4] in E. destruct (inverter_eq v b B) as (Ei & W). rewrite Ei in E.
  pose proof (alu123_ok o (bit_const c) a (inverted v b) A W) as H. unfold alu123 in H. unfold alu4 in E.
  destruct o; [destruct (adc 16 a (inverted v b) (bit_const c)) as [r' carry]| | |]; apply pair_equal_spec in E; destruct E as [<- <-]; destruct H as (H & Z0);
    eexists; (split; [exact H|]); destruct f; try reflexivity; exact Z0.
Qed.

Theorem C84_pe5 : forall o f v c a b r flag, word a -> word b -> pe5 (I4 o f v c) a b = (r, flag) ->
  exists carry, does_op5 o (bit_const c) a (inverted v b) r carry /\ flag_is5 o f (bit_const c) r carry flag.
Proof.
  intros o f v c a b r flag A B E. unfold pe5 in E. cbn [a4 f4 v4 b4] in E. destruct (inverter_eq v b B) as (Ei & W). rewrite Ei in E.
  set (b' := inverted v b) in *. unfold alu5 in E. destruct o.
  - pose proof (add_ok a b' (bit_const c) A W) as H. destruct (adc 16 a b' (bit_const c)) as [r' carry]. destruct H as (Wr & H). rewrite xorb_false_l in E. apply pair_equal_spec in E; destruct E as [<- <-].
    exists carry. split; [split; [exact Wr|exact H]|]. pose proof (zero_flag r' Wr). destruct f, c; cbn; auto.
  - rewrite xorb_false_l in E. destruct c; cbn [bit_const] in *; apply pair_equal_spec in E; destruct E as [<- <-]; exists false.
    + pose proof (word_lor a b' A W) as Wr. split; [split; [exact Wr|split; [intros n _; apply Z.lor_spec|reflexivity]]|]. pose proof (zero_flag _ Wr). destruct f; cbn; auto.
    + pose proof (word_land a b' A W) as Wr. split; [split; [exact Wr|split; [intros n _; apply Z.land_spec|reflexivity]]|]. pose proof (zero_flag _ Wr). destruct f; cbn; auto.
  - assert (E1 : r = Z.lxor a b') by congruence. assert (E2 : flag = flag_mux f false (xorb (bit_const c) (negb (or_bits (Z.lxor a b'))))) by congruence. clear E. subst r flag.
    exists false. pose proof (word_lxor a b' A W) as Wr.
    split; [split; [exact Wr|destruct c; (split; [intros n _; apply Z.lxor_spec|reflexivity])]|]. pose proof (zero_flag _ Wr) as Z0. destruct f; [reflexivity|].
    destruct c; cbn [bit_const flag_mux flag_is5]; [rewrite xorb_false_l; exact Z0|]. rewrite xorb_true_l, negb_true_iff, negb_false_iff.
    rewrite <- (or_bits_zero _ Wr). destruct (or_bits _); split; congruence.
  - rewrite xorb_false_l in E. destruct c; cbn [bit_const] in *; apply pair_equal_spec in E; destruct E as [<- <-]; exists false.
    + assert (Wr : word (bvlshr 16 a b')) by apply word_wrap. split; [split; [exact Wr|split; [|reflexivity]]|].
      * apply bvlshr_eq; [unfold word in W; lia|exact A].
      * pose proof (zero_flag _ Wr). destruct f; cbn; auto.
    + assert (Wr : word (bvshl 16 a b')) by apply word_wrap. split; [split; [exact Wr|split; [|reflexivity]]|].
      * apply bvshl_eq. unfold word in W; lia.
      * pose proof (zero_flag _ Wr). destruct f; cbn; auto.
Qed.

(** * Subtraction and comparisons *)

Theorem C84_sub : forall f a b, word a -> word b ->
  fst (pe4 (I4 DAdd f DInvert DOne) a b) = (a - b) mod 65536 /\ fst (pe5 (I4 DAdd f DInvert DOne) a b) = (a - b) mod 65536.
Proof.
  intros f a b A B. pose proof (sub_adc a b A B) as E. unfold pe4, pe5, alu4, alu5. cbn [a4 f4 v4 b4 inverter bit_const]. rewrite E. split; reflexivity.
Qed.

(** With the carry as flag, pe5 compares (also for equality, C84_eq). *)
Theorem C84_compare : forall a b, word a -> word b ->
  snd (pe5 (I4 DAdd DC DInvert DOne) a b) = (b <=? a) /\
  snd (pe5 (I4 DAdd DC DInvert DZero) a b) = (b <? a) /\
  snd (pe3 (I3 DAdd DC DInvert) a b) = (b <? a).
Proof.
  intros a b A B. pose proof (sub_adc a b A B) as E. unfold pe3, pe5, alu5, alu123. cbn [a4 f4 v4 b4 a3 f3 v3 inverter bit_const]. rewrite E. split; [reflexivity|].
  assert (X : snd (adc 16 a (bvnot 16 b) false) = (b <? a)).
  { destruct (inverter_eq DInvert b B) as (X & W). cbn [inverter inverted] in X, W. rewrite X, adc_spec by assumption. cbn [snd b2z]. unfold word in *.
    destruct (Z.leb_spec 65536 (a + (65535 - b) + 0)), (Z.ltb_spec b a); try reflexivity; lia. }
  destruct (adc 16 a (bvnot 16 b) false) as [r c]. cbn [snd] in X. subst c. split; reflexivity.
Qed.

Theorem C84_eq : forall a b, word a -> word b ->
  (snd (pe2 (I2 DXor DZ) a b) = true <-> a = b) /\ (snd (pe3 (I3 DXor DZ DIdent) a b) = true <-> a = b) /\
  (snd (pe4 (I4 DXor DZ DIdent DZero) a b) = true <-> a = b) /\ (snd (pe5 (I4 DXor DZ DIdent DZero) a b) = true <-> a = b) /\
  (snd (pe5 (I4 DXor DZ DIdent DOne) a b) = true <-> a <> b).
Proof.
  intros a b A B. assert (X : negb (or_bits (Z.lxor a b)) = true <-> a = b).
  { rewrite zero_flag by now apply word_lxor. apply Z.lxor_eq_0_iff. }
  split; [exact X|]. split; [exact X|]. split; [exact X|].
  assert (Y0 : snd (pe5 (I4 DXor DZ DIdent DZero) a b) = negb (or_bits (Z.lxor a b))).
  { unfold pe5, alu5. cbn [a4 f4 v4 b4 inverter bit_const flag_mux snd]. now destruct (or_bits _). }
  rewrite Y0. split; [exact X|].
  assert (Y : snd (pe5 (I4 DXor DZ DIdent DOne) a b) = or_bits (Z.lxor a b)).
  { unfold pe5, alu5. cbn [a4 f4 v4 b4 inverter bit_const flag_mux snd]. now destruct (or_bits _). }
  rewrite Y. rewrite <- X. destruct (or_bits (Z.lxor a b)); cbn; split; congruence.
Qed.

(** * Each PE and the one before *)

Theorem C84_extends : forall a b, word a -> word b ->
  (forall o f, fst (pe2 (I2 o f) a b) = fst (pe1 (I1 o) a b)) /\
  (forall o f, pe3 (I3 o f DIdent) a b = pe2 (I2 o f) a b) /\
  (forall o f v, fst (pe4 (I4 o f v DZero) a b) = fst (pe3 (I3 o f v) a b)) /\
  (forall o v, pe4 (I4 o DZ v DZero) a b = pe3 (I3 o DZ v) a b) /\
  (forall o f v, pe5 (I4 o f v (match o with DAdd | DXor => DZero | _ => DOne end)) a b = pe3 (I3 o f v) a b) /\
  (forall o f v c, fst (pe5 (I4 o f v (match o with DAdd => c | DXor => DZero | _ => DOne end)) a b) = fst (pe4 (I4 o f v c) a b)) /\
  (forall o v c, pe5 (I4 o DZ v (match o with DAdd => c | DXor => DZero | _ => DOne end)) a b = pe4 (I4 o DZ v c) a b).
Proof.
  intros a b A B. split; [|split; [|split; [|split; [|split; [|split]]]]].
  - intros o f. unfold pe1, pe2. cbn [a1 a2 f2]. destruct (alu123 o a b false) as [[r c] z]. reflexivity.
  - reflexivity.
  - intros o f v. unfold pe3, pe4, alu123, alu4. cbn [a3 f3 v3 a4 f4 v4 b4 bit_const]. destruct o; try reflexivity; destruct (adc _ _ _ _); reflexivity.
  - intros o v. unfold pe3, pe4, alu123, alu4. cbn [a3 f3 v3 a4 f4 v4 b4 bit_const]. destruct o; try reflexivity; destruct (adc _ _ _ _); reflexivity.
  - intros o f v. unfold pe3, pe5, alu123, alu5. destruct o; cbn [a3 f3 v3 a4 f4 v4 b4 bit_const]; [destruct (adc _ _ _ _)| | |]; rewrite xorb_false_l; reflexivity.
  - intros o f v c. unfold pe4, pe5, alu4, alu5. destruct o; cbn [a4 f4 v4 b4 bit_const]; [destruct (adc _ _ _ _)| | |]; reflexivity.
  - intros o v c. unfold pe4, pe5, alu4, alu5. destruct o; cbn [a4 f4 v4 b4 bit_const]; [destruct (adc _ _ _ _)| | |]; rewrite xorb_false_l; reflexivity.
Qed.

Theorem C84_no_carry : forall o v c a b, snd (pe4 (I4 o DC v c) a b) = false.
Proof. intros o v c a b. unfold pe4, alu4. cbn [a4 f4 v4 b4]. destruct o; try reflexivity; destruct (adc _ _ _ _); reflexivity. Qed.

(** * Which functions a PE has *)

Definition has {I} (P : I -> Z -> Z -> Z * bool) (f : Z -> Z -> Z) : Prop := exists i, forall a b, word a -> word b -> fst (P i a b) = f a b.
Definition has_flag {I} (P : I -> Z -> Z -> Z * bool) (p : Z -> Z -> bool) : Prop := exists i, forall a b, word a -> word b -> snd (P i a b) = p a b.

Definition dops := [DAdd; DAnd; DXor; DShft].
Definition all1 := map I1 dops.
Definition all2 := flat_map (fun o => map (I2 o) [DC; DZ]) dops.
Definition all3 := flat_map (fun i => map (I3 (a2 i) (f2 i)) [DIdent; DInvert]) all2.
Definition all4 := flat_map (fun i => map (I4 (a3 i) (f3 i) (v3 i)) [DZero; DOne]) all3.
Lemma all1_in i : In i all1.
Proof. destruct i as [[]]; cbn; auto 10. Qed.
Lemma all2_in i : In i all2.
Proof. destruct i as [[] []]; cbn; auto 10. Qed.
Lemma all3_in i : In i all3.
Proof. destruct i as [[] [] []]; cbn; auto 20. Qed.
Lemma all4_in i : In i all4.
Proof. destruct i as [[] [] [] []]; cbn; auto 40. Qed.

Definition pts : list (Z * Z) := [(0, 0); (1, 0); (0, 1); (1, 1); (3, 2); (2, 3); (6, 1); (65535, 1); (5, 3); (9, 9)].
Lemma pts_word p : In p pts -> word (fst p) /\ word (snd p).
Proof. cbn. intros H. repeat (destruct H as [<-|H]; [cbn; unfold word; lia|]). destruct H. Qed.
Definition refutes {A} (eqb : A -> A -> bool) (g f : Z -> Z -> A) : bool := existsb (fun p => negb (eqb (g (fst p) (snd p)) (f (fst p) (snd p)))) pts.
Lemma refutes_ok {A} (eqb : A -> A -> bool) g f : (forall x, eqb x x = true) -> refutes eqb g f = true -> ~ forall a b, word a -> word b -> g a b = f a b.
Proof.
  intros R H E. apply existsb_exists in H as (p & I & H). destruct (pts_word p I) as (Wa & Wb). rewrite (E _ _ Wa Wb), R in H. discriminate.
Qed.
Lemma has_not {I} (P : I -> Z -> Z -> Z * bool) all f : (forall i, In i all) ->
  forallb (fun i => refutes Z.eqb (fun a b => fst (P i a b)) f) all = true -> ~ has P f.
Proof. intros A H (i & E). rewrite forallb_forall in H. exact (refutes_ok _ _ _ Z.eqb_refl (H i (A i)) E). Qed.
Lemma flag_not {I} (P : I -> Z -> Z -> Z * bool) all p : (forall i, In i all) ->
  forallb (fun i => refutes Bool.eqb (fun a b => snd (P i a b)) p) all = true -> ~ has_flag P p.
Proof. intros A H (i & E). rewrite forallb_forall in H. exact (refutes_ok _ _ _ Bool.eqb_reflx (H i (A i)) E). Qed.

(** Result and flag together: pe3 has all instructions of pe2, pe5 all of pe3; but pe1
    has no flag, where pe2 always shows one, and pe4 has no carry. *)
Definition extends {I J} (P : I -> Z -> Z -> Z * bool) (Q : J -> Z -> Z -> Z * bool) : Prop :=
  forall i, exists j, forall a b, word a -> word b -> Q j a b = P i a b.
Definition C84_full : Prop := extends pe1 pe2 /\ extends pe2 pe3 /\ extends pe3 pe4 /\ extends pe4 pe5.
Definition out_eqb (x y : Z * bool) : bool := (fst x =? fst y) && Bool.eqb (snd x) (snd y).
Lemma extends_not {I J} (P : I -> Z -> Z -> Z * bool) (Q : J -> Z -> Z -> Z * bool) all i : (forall j, In j all) ->
  forallb (fun j => refutes out_eqb (Q j) (P i)) all = true -> ~ extends P Q.
Proof.
  intros A H E. destruct (E i) as (j & X). rewrite forallb_forall in H.
  exact (refutes_ok out_eqb _ _ (fun x => eq_trans (f_equal2 andb (Z.eqb_refl _) (Bool.eqb_reflx _)) eq_refl) (H j (A j)) X).
Qed.
Theorem C84_extends_exact : ~ extends pe1 pe2 /\ extends pe2 pe3 /\ ~ extends pe3 pe4 /\ ~ extends pe4 pe5 /\ extends pe3 pe5.
Proof.
  split; [apply (extends_not pe1 pe2 all2 (I1 DAdd) all2_in); vm_compute; reflexivity|].
  split; [intros [o f]; exists (I3 o f DIdent); reflexivity|].
  split; [apply (extends_not pe3 pe4 all4 (I3 DAdd DC DIdent) all4_in); vm_compute; reflexivity|].
  split; [apply (extends_not pe4 pe5 all4 (I4 DAdd DC DIdent DZero) all4_in); vm_compute; reflexivity|].
  intros [o f v]. exists (I4 o f v (match o with DAdd | DXor => DZero | _ => DOne end)). intros a b A B.
  exact (proj1 (proj2 (proj2 (proj2 (proj2 (C84_extends a b A B))))) o f v).
Qed.
Theorem C84_full_refuted : ~ C84_full.
Proof. intros (H & _). exact (proj1 C84_extends_exact H). Qed.

(** Operations on two words: the small IR on 16 bits. *)
Definition pe_has (n : Z) (o : irop) : bool :=
  match o with Add | And | Shftl => true | Sub => 4 <=? n | Or | Shftr => n =? 5 | _ => false end.

Ltac yes i := exists i; intros a b Wa Wb.
Lemma add_word a b : word a -> word b -> fst (adc 16 a b false) = bvadd 16 a b.
Proof. intros A B. rewrite adc_spec by assumption. cbn [fst b2z]. rewrite Z.add_0_r. reflexivity. Qed.

Theorem C84_table : forall o, unary o = false ->
  (has pe1 (ir_call 16 o) <-> pe_has 1 o = true) /\ (has pe2 (ir_call 16 o) <-> pe_has 2 o = true) /\
  (has pe3 (ir_call 16 o) <-> pe_has 3 o = true) /\ (has pe4 (ir_call 16 o) <-> pe_has 4 o = true) /\
  (has pe5 (ir_call 16 o) <-> pe_has 5 o = true).
Proof.
  intros o U. split; [|split; [|split; [|split]]]; (split; [intros H; destruct (pe_has _ o) eqn:E; [reflexivity|exfalso; revert H]|intros E]).
  1: apply (has_not pe1 all1 _ all1_in). 3: apply (has_not pe2 all2 _ all2_in). 5: apply (has_not pe3 all3 _ all3_in).
  7: apply (has_not pe4 all4 _ all4_in). 9: apply (has_not pe5 all4 _ all4_in).
  1,3,5,7,9: destruct o; try discriminate; vm_compute; reflexivity.
  - destruct o; try discriminate; [yes (I1 DAdd)|yes (I1 DAnd); reflexivity|yes (I1 DShft); reflexivity].
    change (ir_call 16 Add a b) with (bvadd 16 a b). rewrite <- add_word by auto. unfold pe1, alu123. cbn [a1]. now destruct (adc _ _ _ _).
  - destruct o; try discriminate; [yes (I2 DAdd DC)|yes (I2 DAnd DC); reflexivity|yes (I2 DShft DC); reflexivity].
    change (ir_call 16 Add a b) with (bvadd 16 a b). rewrite <- add_word by auto. unfold pe2, alu123. cbn [a2 f2]. now destruct (adc _ _ _ _).
  - destruct o; try discriminate; [yes (I3 DAdd DC DIdent)|yes (I3 DAnd DC DIdent); reflexivity|yes (I3 DShft DC DIdent); reflexivity].
    change (ir_call 16 Add a b) with (bvadd 16 a b). rewrite <- add_word by auto. unfold pe3, alu123. cbn [a3 f3 v3 inverter]. now destruct (adc _ _ _ _).
  - destruct o; try discriminate; [yes (I4 DAdd DC DIdent DZero)|yes (I4 DAdd DC DInvert DOne)|yes (I4 DAnd DC DIdent DZero); reflexivity|yes (I4 DShft DC DIdent DZero); reflexivity].
    + change (ir_call 16 Add a b) with (bvadd 16 a b). rewrite <- add_word by auto. unfold pe4, alu4. cbn [a4 f4 v4 b4 inverter bit_const]. now destruct (adc _ _ _ _).
    + exact (proj1 (C84_sub DC a b Wa Wb)).
  - destruct o; try discriminate;
      [yes (I4 DAdd DC DIdent DZero)|yes (I4 DAdd DC DInvert DOne)|yes (I4 DAnd DC DIdent DOne); reflexivity|yes (I4 DAnd DC DIdent DZero); reflexivity
      |yes (I4 DShft DC DIdent DZero); reflexivity|yes (I4 DShft DC DIdent DOne); reflexivity].
    + change (ir_call 16 Add a b) with (bvadd 16 a b). rewrite <- add_word by auto. unfold pe5, alu5. cbn [a4 f4 v4 b4 inverter bit_const]. now destruct (adc _ _ _ _).
    + exact (proj2 (C84_sub DC a b Wa Wb)).
Qed.

(** Comparisons through the flag. *)
Inductive cmp := Eq_ | Ne_ | Lt_ | Le_.
Definition cmp_call (c : cmp) (a b : Z) : bool := match c with Eq_ => a =? b | Ne_ => negb (a =? b) | Lt_ => b <? a | Le_ => b <=? a end.
Definition pe_cmp (n : Z) (c : cmp) : bool :=
  match c with Eq_ => 2 <=? n | Ne_ => n =? 5 | Lt_ => (n =? 3) || (n =? 5) | Le_ => n =? 5 end.

Theorem C84_flags : forall c,
  (has_flag pe1 (cmp_call c) <-> pe_cmp 1 c = true) /\ (has_flag pe2 (cmp_call c) <-> pe_cmp 2 c = true) /\
  (has_flag pe3 (cmp_call c) <-> pe_cmp 3 c = true) /\ (has_flag pe4 (cmp_call c) <-> pe_cmp 4 c = true) /\
  (has_flag pe5 (cmp_call c) <-> pe_cmp 5 c = true).
Proof.
  intros c. assert (B : forall x (P : Prop) y, (x = true <-> P) -> (y = true <-> P) -> x = y :> bool) by (intros [] P []; intuition congruence).
  split; [|split; [|split; [|split]]]; (split; [intros H; destruct (pe_cmp _ c) eqn:E; [reflexivity|exfalso; revert H]|intros E]).
  1: apply (flag_not pe1 all1 _ all1_in). 3: apply (flag_not pe2 all2 _ all2_in). 5: apply (flag_not pe3 all3 _ all3_in).
  7: apply (flag_not pe4 all4 _ all4_in). 9: apply (flag_not pe5 all4 _ all4_in).
  1,3,5,7,9: destruct c; try discriminate; vm_compute; reflexivity.
  - destruct c; discriminate.
  - destruct c; try discriminate. exists (I2 DXor DZ). intros a b Wa Wb. destruct (C84_eq a b Wa Wb) as (H & _). exact (B _ _ _ H (Z.eqb_eq a b)).
  - destruct c; try discriminate; [exists (I3 DXor DZ DIdent)|exists (I3 DAdd DC DInvert)]; intros a b Wa Wb.
    + destruct (C84_eq a b Wa Wb) as (_ & H & _). exact (B _ _ _ H (Z.eqb_eq a b)).
    + exact (proj2 (proj2 (C84_compare a b Wa Wb))).
  - destruct c; try discriminate. exists (I4 DXor DZ DIdent DZero). intros a b Wa Wb. destruct (C84_eq a b Wa Wb) as (_ & _ & H & _). exact (B _ _ _ H (Z.eqb_eq a b)).
  - destruct c; [exists (I4 DXor DZ DIdent DZero)|exists (I4 DXor DZ DIdent DOne)|exists (I4 DAdd DC DInvert DZero)|exists (I4 DAdd DC DInvert DOne)]; intros a b Wa Wb.
    + destruct (C84_eq a b Wa Wb) as (_ & _ & _ & H & _). exact (B _ _ _ H (Z.eqb_eq a b)).
    + destruct (C84_eq a b Wa Wb) as (_ & _ & _ & _ & H). refine (B _ _ _ H _). cbn [cmp_call]. rewrite negb_true_iff. apply Z.eqb_neq.
    + exact (proj1 (proj2 (C84_compare a b Wa Wb))).
    + exact (proj1 (C84_compare a b Wa Wb)).
Qed.

(** * pe6: the second unit feeds the first *)

Theorem C84_pe6 : forall i a b, word a -> word b ->
  exists d c0 c1, does_op (op1 i) false a b d c1 /\
    (if choice i then pe6 i a b = d else does_op (op0 i) false a d (pe6 i a b) c0).
Proof.
  assert (X : forall o a b, word a -> word b -> exists c, does_op o false a b (alu6 o a b) c).
  { intros o a b A B. pose proof (alu123_ok o false a b A B) as H. unfold alu123 in H. destruct o; cbn [alu6]; [|eexists; apply H..].
    destruct (adc 16 a b false) as [r c] eqn:E. exists c. rewrite <- add_word by assumption. rewrite E. apply H. }
  intros [o0 o1 ch] a b A B. unfold pe6. cbn [op0 op1 choice]. destruct (X o1 a b A B) as (c1 & H1). destruct (X o0 a (alu6 o1 a b) A (proj1 H1)) as (c0 & H0).
  exists (alu6 o1 a b), c0, c1. split; [exact H1|]. destruct ch; [reflexivity|exact H0].
Qed.

Definition pe6f (i : i6) (a b : Z) : Z * bool := (pe6 i a b, false).
Definition all6 := flat_map (fun o0 => flat_map (fun o1 => [I6 o0 o1 true; I6 o0 o1 false]) dops) dops.
Lemma all6_in i : In i all6.
Proof. destruct i as [[] [] []]; cbn; auto 40. Qed.
(** Of the small IR it has Add, And and Shftl; chaining gives and-not, but neither or
    nor subtraction. *)
Theorem C84_pe6_table : forall o, unary o = false -> (has pe6f (ir_call 16 o) <-> o = Add \/ o = And \/ o = Shftl).
Proof.
  intros o U. split.
  - intros H. destruct o; try discriminate; auto; exfalso; revert H; apply (has_not pe6f all6 _ all6_in); vm_compute; reflexivity.
  - intros [->|[->| ->]]; [exists (I6 DAdd DAdd true)|exists (I6 DAdd DAnd true)|exists (I6 DAdd DShft true)]; reflexivity.
Qed.
Theorem C84_pe6_andnot : forall a b, word a -> word b -> pe6 (I6 DXor DAnd false) a b = Z.land a (65535 - b).
Proof.
  intros a b A B. unfold pe6. cbn [op0 op1 choice alu6]. destruct (inverter_eq DInvert b B) as (X & W). cbn [inverter inverted] in X, W. rewrite <- X.
  apply Z.bits_inj'. intros n Hn. rewrite Z.lxor_spec, !Z.land_spec. destruct (Z_lt_dec n 16) as [L|L].
  - unfold bvnot, wrap. rewrite Z.mod_pow2_bits_low by lia. rewrite Z.lnot_spec by lia. destruct (Z.testbit a n), (Z.testbit b n); reflexivity.
  - rewrite (testbit_high 16 a n A) by lia. reflexivity.
Qed.

(** * examples/alu *)

Theorem C84_alu : forall width o a b, word a -> word b ->
  match o with
  | None => alu_call width o a b = Err NotImplementedError
  | Some o => exists r, alu_call width (Some o) a b = Ok r /\ word r /\
      match o with
      | OAdd => r = (a + b) mod 65536 | OSub => r = (a - b) mod 65536
      | OOr => bitwise orb a b r | OAnd => bitwise andb a b r | OXor => bitwise xorb a b r
      end
  end.
Proof.
  intros width [o|] a b A B; [|reflexivity]. destruct o; cbn [alu_call]; (eexists; split; [reflexivity|]).
  - split; [apply word_wrap|reflexivity].
  - split; [apply word_wrap|reflexivity].
  - split; [now apply word_lor|]. intros n _. apply Z.lor_spec.
  - split; [now apply word_land|]. intros n _. apply Z.land_spec.
  - split; [now apply word_lxor|]. intros n _. apply Z.lxor_spec.
Qed.
(** The argument [width] of gen_alu has no effect: an ALU of 8 bits does not wrap at
    2^8. *)
Definition C84_alu_width_full : Prop := forall width a b, 0 < width -> 0 <= a < 2 ^ width -> 0 <= b < 2 ^ width ->
  alu_call width (Some OAdd) a b = Ok ((a + b) mod 2 ^ width).
Theorem C84_alu_width_refuted : ~ C84_alu_width_full.
Proof. intros H. specialize (H 8 255 1 ltac:(lia) ltac:(cbn; lia) ltac:(cbn; lia)). vm_compute in H. discriminate. Qed.

(** * Cases *)
Example C84_case :
  word 40000 /\ word 30000 /\
  pe1 (I1 DShft) 3 4 = (48, false) /\ pe2 (I2 DAdd DC) 40000 30000 = (4464, true) /\ pe3 (I3 DAnd DZ DInvert) 40000 30000 = (34880, false) /\
  pe4 (I4 DAdd DC DInvert DOne) 40000 30000 = (10000, false) /\ pe5 (I4 DAdd DC DInvert DOne) 40000 30000 = (10000, true) /\
  pe5 (I4 DShft DZ DIdent DZero) 40000 3 = (5000, false) /\ pe6 (I6 DShft DAnd false) 7 5 = 224 /\
  alu_call 16 (Some OSub) 3 5 = Ok 65534 /\ alu_call 16 None 3 5 = Err NotImplementedError.
Proof. unfold word. split; [lia|]. split; [lia|]. repeat (split; [vm_compute; reflexivity|]). reflexivity. Qed.

Print Assumptions C84_pe1.
Print Assumptions C84_pe2.
Print Assumptions C84_pe3.
Print Assumptions C84_pe4.
Print Assumptions C84_pe5.
Print Assumptions C84_sub.
Print Assumptions C84_compare.
Print Assumptions C84_eq.
Print Assumptions C84_extends.
Print Assumptions C84_extends_exact.
Print Assumptions C84_no_carry.
Print Assumptions C84_full_refuted.
Print Assumptions C84_table.
Print Assumptions C84_flags.
Print Assumptions C84_pe6.
Print Assumptions C84_pe6_table.
Print Assumptions C84_pe6_andnot.
Print Assumptions C84_alu.
Print Assumptions C84_alu_width_refuted.
