(** Lemmas about the opcode validators of assembler_util.py. *)
From Coq Require Import String ZArith List Bool Lia Permutation Sorted.
From Verif Require Import Base BaseLemmas AsmModel AsmSpec.
Import ListNotations.
Open Scope Z_scope.

Definition fits (w : Z) (ops : list Z) : Prop := forall c, In c ops -> 0 <= c < 2 ^ w.

(** What [_gen_is_valid] may return for the sorted opcodes at width [w]. *)
Inductive gen_rel (w : Z) : list Z -> validator -> Prop :=
| g_all : gen_rel w (pyrange 0 (2 ^ w)) VdAll
| g_naive ops : ~ multi_range ops -> gen_rel w ops (VdNaive ops)
| g_upper mx : 0 <= mx -> gen_rel w (pyrange 0 (mx + 1)) (VdUpper mx)
| g_lower mn : 0 <= mn -> mn < 2 ^ w -> (3 <= length (pyrange mn (2 ^ w)))%nat -> gen_rel w (pyrange mn (2 ^ w)) (VdLower mn)
| g_between mn mx : mn <= mx -> gen_rel w (pyrange mn (mx + 1)) (VdBetween mn mx)
| g_onehot ops : sparse_one_hot ops -> gen_rel w ops (VdOneHot (one_hot_invalid w ops))
| g_ranges ops rs : multi_range ops -> gen_rel w ops (VdRanges rs).

(** ** One-hot numbers *)
Lemma land_pred_pow2 k : 0 <= k -> Z.land (2 ^ k) (2 ^ k - 1) = 0.
Proof.
  intros. replace (2 ^ k - 1) with (Z.ones k) by (rewrite Z.ones_equiv; lia).
  rewrite Z.land_ones by lia. apply Z.mod_same. pose proof (pow2_pos k H); lia.
Qed.

Lemma one_hot_iff x : 0 <= x -> (Z.land x (x - 1) = 0 <-> x = 0 \/ exists k, 0 <= k /\ x = 2 ^ k).
Proof.
  intros Hx. split.
  - intros L. destruct (Z.eq_dec x 0) as [|N]; auto. right.
    pose proof (Z.log2_nonneg x). pose proof (Z.log2_spec x ltac:(lia)) as [L1 L2].
    exists (Z.log2 x). split; auto.
    destruct (Z.eq_dec x (2 ^ Z.log2 x)) as [|NE]; auto. exfalso.
    assert (Z.testbit (Z.land x (x - 1)) (Z.log2 x) = true) as T.
    { rewrite Z.land_spec, Z.bit_log2 by lia. cbn.
      replace (Z.log2 x) with (Z.log2 (x - 1)); [apply Z.bit_log2; pose proof (pow2_pos _ H); lia|].
      apply Z.log2_unique; lia. }
    rewrite L, Z.bits_0 in T. discriminate.
  - intros [->|(k & Hk & ->)]; [reflexivity|]. apply land_pred_pow2; auto.
Qed.

Lemma all_one_hot_iff ops : (forall c, In c ops -> 0 <= c) ->
  (all_one_hot ops = true <-> one_hot_set ops).
Proof.
  intros P. unfold all_one_hot, one_hot_set. rewrite forallb_forall. split; intros H c I.
  - apply one_hot_iff; auto. apply Z.eqb_eq; auto.
  - apply Z.eqb_eq. apply one_hot_iff; auto.
Qed.

Lemma one_hot_missing_In n : forall x ops y, 0 < x ->
  In y (one_hot_missing n x ops) <->
  exists k, (k < n)%nat /\ y = x * 2 ^ Z.of_nat k /\ ~ In y ops.
Proof.
  induction n as [|n IH]; intros x ops y Hx; cbn [one_hot_missing].
  - cbn. split; [tauto|intros (k & ? & _); lia].
  - rewrite in_app_iff, IH by (rewrite Z.shiftl_mul_pow2 by lia; lia).
    rewrite Z.shiftl_mul_pow2 by lia. change (2 ^ 1) with 2.
    split.
    + intros [I|(k & Hk & -> & N)].
      * exists O. split; [lia|]. destruct (zmem x ops) eqn:E; [destruct I|].
        destruct I as [<-|[]]. rewrite Z.mul_1_r. split; auto.
        rewrite <- zmem_In. congruence.
      * exists (S k). split; [lia|].
        assert (x * 2 * 2 ^ Z.of_nat k = x * 2 ^ Z.of_nat (S k)) as <-; auto.
        rewrite Nat2Z.inj_succ, Z.pow_succ_r by lia. lia.
    + intros ([|k] & Hk & -> & N).
      * left. rewrite Z.mul_1_r in *. rewrite <- zmem_In in N.
        destruct (zmem x ops); [congruence|]. left; auto.
      * right. exists k. split; [lia|].
        assert (x * 2 * 2 ^ Z.of_nat k = x * 2 ^ Z.of_nat (S k)) as ->; auto.
        rewrite Nat2Z.inj_succ, Z.pow_succ_r by lia. lia.
Qed.

Lemma one_hot_invalid_In w ops y : 0 <= w ->
  In y (one_hot_invalid w ops) <->
  ~ In y ops /\ (y = 0 \/ exists k, 0 <= k < w /\ y = 2 ^ k).
Proof.
  intros Hw. unfold one_hot_invalid. rewrite in_app_iff, one_hot_missing_In by lia.
  split.
  - intros [I|(k & Hk & -> & N)].
    + destruct (zmem 0 ops) eqn:E; [destruct I|]. destruct I as [<-|[]].
      split; auto. rewrite <- zmem_In. congruence.
    + rewrite Z.mul_1_l in *. split; auto. right. exists (Z.of_nat k). split; [lia|auto].
  - intros [N [->|(k & Hk & ->)]].
    + left. rewrite <- zmem_In in N. destruct (zmem 0 ops); [congruence|left; auto].
    + right. exists (Z.to_nat k). rewrite Z2Nat.id, Z.mul_1_l by lia. split; [lia|auto].
Qed.

(** ** Acceptance *)

(** A validator made at width [w0] accepts its opcodes at width [W]. *)
Lemma gen_rel_accepts w0 W ops v :
  0 <= w0 -> 0 <= W -> gen_rel w0 ops v -> fits W ops ->
  (In 0 ops -> sparse_one_hot ops -> w0 = W) ->
  forall c, In c ops -> run_validator W c v = true.
Proof.
  intros Hw0 HW G F C c I. pose proof (F c I) as Hc. destruct G; cbn [run_validator].
  - auto.
  - apply fold_orb_map. right. exists c. split; auto. rewrite wrap_small by auto. apply Z.eqb_refl.
  - apply pyrange_In in I. rewrite wrap_small; [lia|]. apply F. apply pyrange_In; lia.
  - apply pyrange_In in I. rewrite wrap_small; [lia|]. apply F. apply pyrange_In; lia.
  - apply pyrange_In in I. rewrite !wrap_small; [lia| |];
    apply F; apply pyrange_In; lia.
  - apply andb_true_iff. split.
    + apply Z.eqb_eq. destruct (Z.eq_dec c 0) as [->|N]; [reflexivity|].
      rewrite wrap_small by lia. apply one_hot_iff; [lia|]. apply H; auto.
    + apply fold_andb_map. split; auto. intros b Hb.
      apply one_hot_invalid_In in Hb as [Nb Hb]; auto.
      apply negb_true_iff, Z.eqb_neq. intros ->.
      destruct Hb as [->|(k & Hk & ->)].
      * unfold wrap in I. rewrite Zmod_0_l in I; auto.
      * destruct (Z_lt_ge_dec k W) as [L|L].
        -- rewrite wrap_small in I; auto. split; [apply Z.pow_nonneg; lia|].
           apply Z.pow_lt_mono_r; lia.
        -- assert (wrap W (2 ^ k) = 0) as E.
           { unfold wrap. replace k with ((k - W) + W) by lia.
             rewrite Z.pow_add_r by lia. apply Z_mod_mult. }
           rewrite E in I. specialize (C I H). lia.
  - apply fold_orb_map. auto.
Qed.

Lemma pyrange_contiguous a b : contiguous (pyrange a b).
Proof. intros x y z. rewrite !pyrange_In. lia. Qed.

(** ** Exactness *)
Lemma gen_rel_exact w0 W ops v :
  0 <= w0 -> 0 <= W -> gen_rel w0 ops v -> fits W ops ->
  (w0 = W \/ (~ top_run w0 ops /\ ~ sparse_one_hot ops)) ->
  ~ multi_range ops ->
  forall c, 0 <= c < 2 ^ W -> run_validator W c v = true <-> In c ops.
Proof.
  intros Hw0 HW G F C M c Hc.
  split; [|apply (gen_rel_accepts w0 W ops v); auto; tauto].
  pose proof (pow2_pos w0 Hw0).
  destruct G; cbn [run_validator].
  - intros _. apply pyrange_In. destruct C as [->|[N _]]; [lia|].
    destruct N. split; [apply pyrange_contiguous|]. rewrite !pyrange_In. split; [lia|left; lia].
  - rewrite fold_orb_map. intros [?|(x & I & E)]; [discriminate|].
    rewrite wrap_small in E by auto. apply Z.eqb_eq in E as ->. auto.
  - assert (0 <= mx < 2 ^ W) by (apply F, pyrange_In; lia).
    rewrite wrap_small by auto. intros. apply pyrange_In; lia.
  - assert (0 <= mn < 2 ^ W) by (apply F, pyrange_In; lia).
    rewrite wrap_small by auto. intros. apply pyrange_In.
    destruct C as [->|[N _]]; [lia|]. destruct N.
    split; [apply pyrange_contiguous|]. rewrite !pyrange_In. split; [lia|right; auto].
  - assert (0 <= mn < 2 ^ W) by (apply F, pyrange_In; lia).
    assert (0 <= mx < 2 ^ W) by (apply F, pyrange_In; lia).
    rewrite !wrap_small by auto. intros. apply pyrange_In. lia.
  - destruct C as [->|[_ N]]; [|tauto].
    intros E. apply andb_true_iff in E as [E1 E2].
    apply fold_andb_map in E2 as [_ E2].
    destruct (in_dec Z.eq_dec c ops) as [|NI]; auto. exfalso.
    assert (In c (one_hot_invalid W ops)) as I.
    { apply one_hot_invalid_In; auto. split; auto.
      destruct (Z.eq_dec c 0) as [|N]; auto. right.
      rewrite wrap_small in E1 by lia. apply Z.eqb_eq, one_hot_iff in E1; [|lia].
      destruct E1 as [|(k & Hk & ->)]; [lia|]. exists k. split; auto. split; auto.
      apply (Z.pow_lt_mono_r_iff 2); lia. }
    apply E2 in I. rewrite wrap_small, Z.eqb_refl in I by auto. discriminate.
  - tauto.
Qed.

(** Every word is accepted when the opcodes form several runs. *)
Lemma gen_rel_multi w0 W ops v c : gen_rel w0 ops v -> multi_range ops -> run_validator W c v = true.
Proof.
  intros G M. assert (forall a b, ~ multi_range (pyrange a b)) as N.
  { intros a b (Q & _). apply Q. intros x y z. rewrite !pyrange_In. lia. }
  destruct G; try (exfalso; eapply N; eauto; fail); try contradiction.
  - destruct M as (_ & Q & _). destruct H as (P & _). contradiction.
  - cbn [run_validator]. apply fold_orb_map. auto.
Qed.

(** A multi-range validator accepts everything. *)
Lemma ranges_accept_all W op rs : run_validator W op (VdRanges rs) = true.
Proof. cbn [run_validator]. apply fold_orb_map. auto. Qed.

(** ** The generator *)

Lemma increasing_NoDup l : increasing l -> NoDup l.
Proof.
  induction 1 as [|x l S IH F]; constructor; auto. intros I.
  rewrite Forall_forall in F. specialize (F x I). lia.
Qed.

Lemma increasing_ext l : forall l', increasing l -> increasing l' ->
  (forall x, In x l <-> In x l') -> l = l'.
Proof.
  induction l as [|x l IH]; intros [|y l'] S S' E; auto.
  - destruct (proj2 (E y)); left; auto.
  - destruct (proj1 (E x)); left; auto.
  - inversion S as [|? ? S1 F1]; inversion S' as [|? ? S2 F2]; subst.
    rewrite Forall_forall in F1, F2.
    assert (x = y).
    { destruct (proj1 (E x)) as [|I]; [left; auto|auto|].
      destruct (proj2 (E y)) as [|I']; [left; auto|auto|].
      specialize (F1 y I'). specialize (F2 x I). lia. }
    subst. f_equal. apply IH; auto. intros z. split; intros I.
    + destruct (proj1 (E z)) as [<-|]; [right; auto| |auto].
      specialize (F1 y I). lia.
    + destruct (proj2 (E z)) as [<-|]; [right; auto| |auto].
      specialize (F2 y I). lia.
Qed.

Lemma pyrange_increasing a b : increasing (pyrange a b).
Proof.
  destruct (Z_le_gt_dec b a); [rewrite pyrange_nil by lia; constructor|].
  remember (Z.to_nat (b - a)) as n. revert a Heqn g.
  induction n as [|n IH]; intros a E g; [lia|].
  rewrite pyrange_cons by lia. constructor.
  - destruct (Z_le_gt_dec b (a + 1)); [rewrite pyrange_nil by lia; constructor|].
    apply IH; lia.
  - rewrite Forall_forall. intros x I. apply pyrange_In in I. lia.
Qed.

Lemma isort_increasing l : NoDup l -> increasing (isort Z.leb l).
Proof.
  intros N.
  assert (StronglySorted (le_ Z.leb) (isort Z.leb l)) as S.
  { apply isort_sorted; intros; unfold le_ in *; lia. }
  assert (NoDup (isort Z.leb l)) as N'.
  { eapply Permutation_NoDup; [symmetry; apply isort_perm|auto]. }
  induction S as [|x l' S IH F]; [constructor|]. inversion N'; subst.
  constructor; [apply IH; auto|].
  apply Forall_forall. intros y I. rewrite Forall_forall in F. specialize (F y I).
  unfold le_ in F. assert (x <> y) by (intros ->; auto). lia.
Qed.

Lemma isort_increasing_id l : increasing l -> isort Z.leb l = l.
Proof.
  intros S. apply isort_id. induction S as [|x l S IH F]; constructor; auto.
  eapply Forall_impl; [|exact F]. unfold le_; intros; lia.
Qed.

Lemma last_In (A : Type) (l : list A) d : l <> [] -> In (last l d) l.
Proof.
  induction l as [|x l IH]; [congruence|]. intros _. destruct l as [|y l]; [left; auto|].
  right. apply IH. congruence.
Qed.

Lemma increasing_last x l : increasing (x :: l) ->
  forall c, In c (x :: l) -> x <= c <= last (x :: l) x.
Proof.
  revert x. induction l as [|y l IH]; intros x S c I.
  - destruct I as [<-|[]]. cbn. lia.
  - inversion S as [|? ? S1 F]; subst. inversion F; subst.
    replace (last (x :: y :: l) x) with (last (y :: l) y).
    2:{ cbn [last]. clear. revert y. induction l; intros; cbn; auto. destruct l; auto. }
    destruct I as [<-|I].
    + specialize (IH y S1 y (or_introl eq_refl)). lia.
    + specialize (IH y S1 c I). lia.
Qed.

(** The [is_range] test. *)
Lemma is_range_iff x l : increasing (x :: l) ->
  (list_eqb Z.eqb (x :: l) (pyrange x (last (x :: l) x + 1)) = true <-> contiguous (x :: l)).
Proof.
  intros S. rewrite (list_eqb_eq Z Z.eqb Z.eqb_eq). split.
  - intros E a b c Ia Ib Hc. rewrite E in Ia, Ib |- *. apply pyrange_In in Ia, Ib.
    apply pyrange_In. lia.
  - intros C. apply increasing_ext; auto using pyrange_increasing. intros y.
    rewrite pyrange_In. split.
    + intros I. apply increasing_last in I; auto. lia.
    + intros Hy. apply (C x (last (x :: l) x) y); [left; auto|apply last_In; congruence|lia].
Qed.

(** Runs found by the splitting loop are maximal runs, one per run end. *)
Lemma split_ranges_spec rest : forall lb i ops,
  increasing (i :: rest) -> lb <= i ->
  (forall c, lb <= c <= i -> In c ops) -> ~ In (lb - 1) ops ->
  (forall c, i < c -> (In c ops <-> In c rest)) ->
  forall lo hi, In (lo, hi) (split_ranges lb i rest) ->
    lo < hi /\ (forall c, lo <= c < hi -> In c ops) /\ ~ In (lo - 1) ops /\ ~ In hi ops.
Proof.
  induction rest as [|j rest IH]; intros lb i ops S L C N R lo hi I; cbn [split_ranges] in I.
  - destruct I as [[= <- <-]|[]]. split; [lia|]. split; [intros; apply C; lia|].
    split; auto. rewrite R by lia. cbn; auto.
  - inversion S as [|? ? S1 F]; subst. inversion F; subst.
    inversion S1 as [|? ? S2 F2]; subst. rewrite Forall_forall in F2.
    destruct (Z.eqb_spec j (i + 1)) as [->|NE].
    + eapply (IH lb (i + 1) ops); auto; try lia.
      * intros c Hc. destruct (Z.eq_dec c (i + 1)) as [->|]; [|apply C; lia].
        apply R; [lia|left; auto].
      * intros c Hc. rewrite R by lia. cbn. intuition lia.
    + destruct I as [[= <- <-]|I].
      * split; [lia|]. split; [intros; apply C; lia|]. split; auto.
        rewrite R by lia. cbn. intros [|I]; [lia|]. specialize (F2 _ I). lia.
      * eapply (IH j j ops); auto; try lia.
        -- intros c Hc. replace c with j by lia. apply R; [lia|left; auto].
        -- destruct (Z.eq_dec (j - 1) i) as [E|E]; [lia|]. rewrite R by lia.
           cbn. intros [|I2]; [lia|]. specialize (F2 _ I2). lia.
        -- intros c Hc. rewrite R by lia. cbn. intuition lia.
Qed.

Lemma existsb_Zeqb_In c ops : existsb (Z.eqb c) ops = true <-> In c ops.
Proof.
  rewrite existsb_exists. split.
  - intros (x & I & E). apply Z.eqb_eq in E as ->. auto.
  - intros. exists c. split; auto. apply Z.eqb_refl.
Qed.

Lemma split_ranges_length rest : forall lb i ops,
  increasing (i :: rest) ->
  (forall c, i < c -> (In c ops <-> In c rest)) ->
  length (split_ranges lb i rest) =
  length (filter (fun c => negb (existsb (Z.eqb (c + 1)) ops)) (i :: rest)).
Proof.
  induction rest as [|j rest IH]; intros lb i ops S R; cbn [split_ranges].
  - cbn [filter length]. destruct (existsb (Z.eqb (i + 1)) ops) eqn:E; auto.
    apply existsb_Zeqb_In in E. apply R in E; [destruct E|lia].
  - inversion S as [|? ? S1 F]; subst. inversion F; subst.
    inversion S1 as [|? ? S2 F2]; subst. rewrite Forall_forall in F2.
    assert (forall c, j < c -> (In c ops <-> In c rest)) as R'.
    { intros c Hc. rewrite R by lia. cbn. intuition lia. }
    destruct (Z.eqb_spec j (i + 1)) as [->|NE].
    + rewrite (IH lb (i + 1) ops) by auto.
      change (filter _ (i :: i + 1 :: rest)) with
        (if negb (existsb (Z.eqb (i + 1)) ops)
         then i :: filter (fun c => negb (existsb (Z.eqb (c + 1)) ops)) (i + 1 :: rest)
         else filter (fun c => negb (existsb (Z.eqb (c + 1)) ops)) (i + 1 :: rest)).
      assert (existsb (Z.eqb (i + 1)) ops = true) as ->; auto.
      apply existsb_Zeqb_In. apply R; [lia|left; auto].
    + cbn [length]. rewrite (IH j j ops) by auto.
      change (filter _ (i :: j :: rest)) with
        (if negb (existsb (Z.eqb (i + 1)) ops)
         then i :: filter (fun c => negb (existsb (Z.eqb (c + 1)) ops)) (j :: rest)
         else filter (fun c => negb (existsb (Z.eqb (c + 1)) ops)) (j :: rest)).
      assert (existsb (Z.eqb (i + 1)) ops = false) as ->; auto.
      apply not_true_is_false. rewrite existsb_Zeqb_In. intros I.
      apply R in I; [|lia]. destruct I as [|I]; [lia|]. specialize (F2 _ I). lia.
Qed.

(** The cache holds validators made for requests in [R]. *)
Definition vc_inv (R : list Z -> Z -> Prop) (c : vcache) : Prop :=
  forall ops v, In (ops, v) c -> exists w0, R ops w0 /\ gen_rel w0 ops v.

Lemma vkey_eqb_eq a b : vkey_eqb a b = true <-> a = b.
Proof. apply list_eqb_eq, Z.eqb_eq. Qed.

(** Requests are closed under splitting into runs. *)
Definition run_closed (R : list Z -> Z -> Prop) : Prop :=
  forall ops w a b, R ops w -> ~ contiguous ops -> ~ one_hot_set ops ->
    (3 <= length ops)%nat -> a <= b -> (forall x, a <= x <= b -> In x ops) ->
    ~ In (a - 1) ops -> ~ In (b + 1) ops ->
    R (pyrange a (b + 1)) w.

Definition good_request (R : list Z -> Z -> Prop) : Prop :=
  forall ops w, R ops w -> increasing ops /\ ops <> [] /\ 0 <= w /\ fits w ops.

Lemma vc_inv_dset R c ops w v :
  vc_inv R c -> R ops w -> gen_rel w ops v -> vc_inv R (dset vkey_eqb c ops v).
Proof.
  intros I HR G ops' v' H. apply (In_dset vkey_eqb vkey_eqb_eq) in H as [[= -> ->]|H]; eauto.
Qed.

Lemma gen_body_spec rec R c ops w :
  good_request R -> run_closed R -> vc_inv R c -> R ops w ->
  ((~ contiguous ops /\ ~ one_hot_set ops /\ (3 <= length ops)%nat) ->
   forall c lo hi, vc_inv R c -> R (pyrange lo hi) w ->
     exists v c', rec c (pyrange lo hi) w = Ok (v, c') /\ vc_inv R c') ->
  exists v c' w0, gen_body rec c ops w = Ok (v, c') /\ vc_inv R c' /\
                  R ops w0 /\ gen_rel w0 ops v.
Proof.
  intros GR RC VI HR Hrec. destruct (GR _ _ HR) as (S & NE & Hw & F).
  unfold gen_body. rewrite (isort_increasing_id ops S).
  destruct (dget vkey_eqb c ops) as [v|] eqn:D.
  { apply (dget_In vkey_eqb vkey_eqb_eq) in D. destruct (VI _ _ D) as (w0 & ? & ?).
    exists v, c, w0. auto. }
  destruct ops as [|x l]; [congruence|].
  set (mx := last (x :: l) x).
  assert (Hmx : In mx (x :: l)) by (apply last_In; congruence).
  assert (forall v c0, gen_rel w (x :: l) v -> vc_inv R c0 ->
    exists v' c' w0, Ok (v, dset vkey_eqb c0 (x :: l) v) = Ok (v', c') /\
      vc_inv R c' /\ R (x :: l) w0 /\ gen_rel w0 (x :: l) v') as Ret.
  { intros v c0 G V0. exists v, (dset vkey_eqb c0 (x :: l) v), w.
    repeat split; auto. eapply vc_inv_dset; eauto. }
  assert (Z.shiftl 1 w = 2 ^ w) as Sh by (rewrite Z.shiftl_mul_pow2 by lia; lia).
  rewrite Sh.
  pose proof (is_range_iff x l S) as IR. fold mx in IR.
  destruct (list_eqb Z.eqb (x :: l) (pyrange x (mx + 1))) eqn:Er.
  - apply (list_eqb_eq Z Z.eqb Z.eqb_eq) in Er. cbn [andb].
    destruct (Z.eqb_spec x 0) as [E0|E0]; [destruct (Z.eqb_spec mx (2 ^ w - 1)) as [E1|E1]|]; cbn [andb].
    + apply Ret; auto. rewrite Er, E0, E1. replace (2 ^ w - 1 + 1) with (2 ^ w) by lia. constructor.
    + destruct (Nat.ltb_spec (length (x :: l)) 3) as [L|L]; [apply Ret; auto; constructor; intros (_ & _ & Q & _); lia|].
      apply Ret; auto. rewrite Er, E0. constructor. apply F in Hmx; lia.
    + destruct (Nat.ltb_spec (length (x :: l)) 3) as [L|L]; [apply Ret; auto; constructor; intros (_ & _ & Q & _); lia|].
      destruct (Z.eqb_spec mx (2 ^ w - 1)) as [E1|E1].
      * apply Ret; auto. rewrite Er, E1. replace (2 ^ w - 1 + 1) with (2 ^ w) by lia.
        assert (0 <= x < 2 ^ w) by (apply F; left; auto). constructor; [lia|lia|].
        replace (2 ^ w) with (mx + 1) by lia. rewrite <- Er. exact L.
      * apply Ret; auto. rewrite Er. constructor.
        apply (increasing_last x l S) in Hmx. fold mx in Hmx. lia.
  - cbn [andb].
    assert (~ contiguous (x :: l)) as NC by (rewrite <- IR; congruence).
    destruct (Nat.ltb_spec (length (x :: l)) 3) as [L|L]; [apply Ret; auto; constructor; intros (_ & _ & Q & _); lia|].
    pose proof (all_one_hot_iff (x :: l) ltac:(intros; apply F; auto)) as OH.
    destruct (all_one_hot (x :: l)) eqn:Eo.
    + destruct (_ <? _)%nat; apply Ret; auto; constructor.
      * split; [apply OH; auto|]. split; auto.
      * intros (_ & Q & _). apply Q, OH; auto.
    + assert (~ one_hot_set (x :: l)) as NO by (rewrite <- OH; congruence).
      specialize (Hrec (conj NC (conj NO L))).
      assert (forall y, In y l -> x < y) as Hlt.
      { inversion S; subst. apply Forall_forall; auto. }
      assert (exists rs c', gen_ranges rec c (split_ranges x x l) w = Ok (rs, c') /\
                vc_inv R c' /\ length rs = length (split_ranges x x l)) as (rs & c' & E & VI' & Len).
      { assert (forall lo hi, In (lo, hi) (split_ranges x x l) -> R (pyrange lo hi) w) as HRr.
        { intros lo hi I.
          eapply (split_ranges_spec l x x (x :: l)) in I as (H1 & H2 & H3 & H4); auto; try lia.
          - replace hi with (hi - 1 + 1) by lia. apply (RC (x :: l)); auto; try lia.
            + intros. apply H2; lia.
            + replace (hi - 1 + 1) with hi by lia; auto.
          - intros y Hy. replace y with x by lia. left; auto.
          - intros [|I']; [lia|]. specialize (Hlt _ I'). lia.
          - intros y Hy. cbn. intuition lia. }
        clear - HRr Hrec VI. revert c VI HRr.
        induction (split_ranges x x l) as [|[lo hi] rs IH]; intros c VI H; cbn [gen_ranges].
        - exists [], c. auto.
        - destruct (Hrec c lo hi VI) as (v & c1 & E1 & V1); [apply H; left; auto|].
          rewrite E1. cbn [bind].
          destruct (IH c1 V1) as (vs & c2 & E2 & V2 & L2); [intros; apply H; right; auto|].
          rewrite E2. cbn [bind]. exists (v :: vs), c2. cbn. auto. }
      rewrite E. cbn [bind].
      rewrite Len, (split_ranges_length l x x (x :: l)) by (auto; intros; cbn; intuition lia).
      fold (runs (x :: l)).
      destruct (Z.ltb_spec (11 * Z.of_nat (runs (x :: l))) (10 * Z.of_nat (length (x :: l)))).
      * apply Ret; auto. constructor. repeat split; auto.
      * apply Ret; auto. constructor. intros (_ & _ & _ & Q). lia.
Qed.

Lemma gen_is_valid_spec R c opcodes ops w :
  good_request R -> run_closed R -> vc_inv R c ->
  isort Z.leb opcodes = ops -> R ops w ->
  exists v c' w0, gen_is_valid c opcodes w = Ok (v, c') /\ vc_inv R c' /\
                  R ops w0 /\ gen_rel w0 ops v.
Proof.
  intros GR RC VI E HR.
  assert (gen_is_valid c opcodes w = gen_is_valid c ops w) as ->.
  { unfold gen_is_valid. cbn [gen_fuel]. unfold gen_body at 1 3. rewrite E.
    rewrite (isort_increasing_id ops) by (apply (GR _ _ HR)). auto. }
  unfold gen_is_valid. cbn [gen_fuel].
  apply (gen_body_spec _ R); auto.
  intros _ c1 lo hi V1 R1.
  destruct (gen_body_spec (fun _ _ _ => Err OutOfFuel) R c1 (pyrange lo hi) w) as
    (v & c' & w0 & E1 & V' & _); auto.
  - intros [N _]. destruct N. apply pyrange_contiguous.
  - eauto.
Qed.
