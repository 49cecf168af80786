(** C89: machine words of the ARM example. *)
From Coq Require Import ZArith List Bool Lia Permutation.
From Verif Require Import Base BaseLemmas BitfieldModel BitfieldProps PicoWordModel PicoWordProps ArmModel ArmWordModel.
Import ListNotations.
Open Scope Z_scope.

(** ** Specification *)

(** Instructions whose fields have their widths. *)
Definition operand_wf (x : operand) : Prop :=
  match x with
  | OReg rc shift => 0 <= rc < 16 /\ 0 <= shift < 256
  | OImm imm rotate => 0 <= imm < 256 /\ 0 <= rotate < 16
  end.
Definition body_wf (b : abody) : Prop :=
  match b with
  | XData _ ra rb rc s => 0 <= ra < 16 /\ 0 <= rb < 16 /\ operand_wf rc /\ 0 <= s < 2
  | XLdst _ ra rb rc => 0 <= ra < 16 /\ 0 <= rb < 16 /\ operand_wf rc
  | XB offset l i => 0 <= offset < 16777216 /\ 0 <= l < 2 /\ 0 <= i < 2
  end.
Definition arm_wf (i : ainst) : Prop := body_wf (x_base i) /\ 0 <= x_cond i < 15.

Definition all_ops : list aop :=
  [dAND; dEOR; dSUB; dRSB; dADD; dADC; dSBC; dRSC; dTST; dTEQ; dCMP; dCMN; dORR; dMOV; dBIC; dMVN].
(** An order of the members: each exactly once. *)
Definition aorder_ok (o : aorder) : Prop :=
  Permutation (ao_kind o) [KReg; KImm] /\ Permutation (ao_op o) all_ops /\
  Permutation (ao_ldst o) [oSTR; oLDR] /\ Permutation (ao_base o) [BData; BLdst; BBranch].

(** The word the declared bit positions describe, which is the ARM word: the
    second operand in bits 0-11 with bit 25 set for an immediate, registers in bits
    16-19 and 12-15, S in bit 20, the operation in bits 21-24, load or store in bit
    20, offset, link and a set bit 25 of a branch, the class in bits 26-27, the
    condition in bits 28-31. Sums are numbered as declared. *)
Definition opcode (o : aop) : Z :=
  match o with
  | dAND => 0 | dEOR => 1 | dSUB => 2 | dRSB => 3 | dADD => 4 | dADC => 5 | dSBC => 6 | dRSC => 7
  | dTST => 8 | dTEQ => 9 | dCMP => 10 | dCMN => 11 | dORR => 12 | dMOV => 13 | dBIC => 14 | dMVN => 15
  end.
Definition operand_word (x : operand) : Z :=
  match x with OReg rc shift => rc + 2 ^ 4 * shift | OImm imm rotate => imm + 2 ^ 8 * rotate + 2 ^ 25 end.
Definition declared (i : ainst) : Z :=
  2 ^ 28 * x_cond i +
  match x_base i with
  | XData op ra rb rc s => 2 ^ 21 * opcode op + 2 ^ 20 * s + 2 ^ 16 * ra + 2 ^ 12 * rb + operand_word rc
  | XLdst op ra rb rc => 2 ^ 26 + 2 ^ 20 * match op with oSTR => 0 | oLDR => 1 end + 2 ^ 16 * ra + 2 ^ 12 * rb + operand_word rc
  | XB offset l i => 2 ^ 27 + 2 ^ 25 * i + 2 ^ 24 * l + offset
  end.

(** Two instructions that cannot be told apart by their words: [ra] and [rb] are
    merged, and so are [s] and bit 7 of an immediate. *)
Definition operand_collide (x : operand) (s : Z) (y : operand) (s' : Z) : Prop :=
  match x, y with
  | OReg rc shift, OReg rc' shift' => rc = rc' /\ shift = shift' /\ s = s'
  | OImm imm rotate, OImm imm' rotate' => Z.lor imm (128 * s) = Z.lor imm' (128 * s') /\ rotate = rotate'
  | _, _ => False
  end.
Definition arm_collide (i j : ainst) : Prop :=
  x_cond i = x_cond j /\
  match x_base i, x_base j with
  | XData op ra rb rc s, XData op' ra' rb' rc' s' => op = op' /\ Z.lor ra rb = Z.lor ra' rb' /\ operand_collide rc s rc' s'
  | XLdst op ra rb rc, XLdst op' ra' rb' rc' => op = op' /\ Z.lor ra rb = Z.lor ra' rb' /\ rc = rc'
  | XB offset l k, XB offset' l' k' => offset = offset' /\ l = l' /\ k = k'
  | _, _ => False
  end.

(** Where the parts of the word really are. *)
Definition place {A} (num : A -> Z) (x : A) (l : list A) : Z := Z.of_nat (index num x l).
Definition kind_of (x : operand) : akind := match x with OReg _ _ => KReg | OImm _ _ => KImm end.
Definition operand_bits (x : operand) : Z :=
  match x with OReg rc shift => rc + 2 ^ 8 * shift | OImm imm rotate => imm + 2 ^ 16 * rotate end.
Definition arm_layout (o : aorder) (i : ainst) : Z :=
  2 ^ 56 * x_cond i +
  match x_base i with
  | XData op ra rb rc s =>
      2 ^ 26 * place base_n BData (ao_base o) + 2 ^ 49 * place aop_n op (ao_op o) + 2 ^ 69 * Z.lor ra rb +
      2 ^ 86 * place kind_n (kind_of rc) (ao_kind o) + 2 ^ 87 * Z.lor (operand_bits rc) (128 * s)
  | XLdst op ra rb rc =>
      2 ^ 26 * place base_n BLdst (ao_base o) + 2 ^ 48 * place ldst_n op (ao_ldst o) + 2 ^ 65 * Z.lor ra rb +
      2 ^ 82 * place kind_n (kind_of rc) (ao_kind o) + 2 ^ 83 * operand_bits rc
  | XB offset l k => 2 ^ 26 * place base_n BBranch (ao_base o) + 2 ^ 28 * offset + 2 ^ 76 * l + 2 ^ 78 * k
  end.

(** ** Proofs *)
Ltac pows := repeat match goal with
  | |- context [2 ^ ?k] => let v := eval vm_compute in (2 ^ k) in progress change (2 ^ k) with v
  | H : context [2 ^ ?k] |- _ => let v := eval vm_compute in (2 ^ k) in progress change (2 ^ k) with v in H end.

Lemma ok_inj {A} (x y : A) : Ok x = Ok y -> x = y. Proof. congruence. Qed.
Lemma kind_n_inj x y : kind_n x = kind_n y -> x = y. Proof. now destruct x, y. Qed.
Lemma ldst_n_inj x y : ldst_n x = ldst_n y -> x = y. Proof. now destruct x, y. Qed.
Lemma base_n_inj x y : base_n x = base_n y -> x = y. Proof. now destruct x, y. Qed.
Definition aop_of (z : Z) : aop := nth (Z.to_nat z) all_ops dAND.
Lemma aop_of_n x : aop_of (aop_n x) = x. Proof. now destruct x. Qed.
Lemma aop_n_inj x y : aop_n x = aop_n y -> x = y. Proof. intros E. now rewrite <- (aop_of_n x), E, aop_of_n. Qed.

Lemma in_kinds k : In k [KReg; KImm]. Proof. destruct k; cbn; auto. Qed.
Lemma in_ops x : In x all_ops.
Proof. rewrite <- (aop_of_n x). unfold aop_of. apply nth_In. destruct x; cbn; lia. Qed.
Lemma in_ldst x : In x [oSTR; oLDR]. Proof. destruct x; cbn; auto. Qed.
Lemma in_bases x : In x [BData; BLdst; BBranch]. Proof. destruct x; cbn; auto. Qed.

Lemma lor_small a b w : 0 <= w -> 0 <= a < 2 ^ w -> 0 <= b < 2 ^ w -> 0 <= Z.lor a b < 2 ^ w.
Proof.
  intros Hw Ha Hb. split; [apply Z.lor_nonneg; lia|].
  destruct (Z.eq_dec (Z.lor a b) 0) as [->|N]; [lia|]. assert (0 < Z.lor a b) by (pose proof (proj2 (Z.lor_nonneg a b) ltac:(lia)); lia).
  apply Z.log2_lt_pow2; auto. rewrite Z.log2_lor by lia.
  assert (forall x, 0 <= x < 2 ^ w -> x = 0 \/ Z.log2 x < w).
  { intros x R. destruct (Z.eq_dec x 0); auto. right. apply Z.log2_lt_pow2; lia. }
  destruct (H0 a Ha) as [->|]; destruct (H0 b Hb) as [->|]; try (rewrite Z.lor_0_l in N); cbn [Z.log2] in *; try lia;
    change (Z.log2 0) with 0; try lia.
  - rewrite Z.max_r by apply Z.log2_nonneg. lia.
  - rewrite Z.max_l by apply Z.log2_nonneg. lia.
Qed.

Lemma operand_enc o x : aorder_ok o -> operand_wf x ->
  encode false (operand_ty o) (operand_val o x) = Ok (tagged 25 1 (place kind_n (kind_of x) (ao_kind o)) (operand_bits x)).
Proof.
  intros (P & _) W. unfold operand_ty, place.
  assert (T : forall k v z, encode false (kind_ty k) v = Ok z ->
    encode false (BSum 25 None (map kind_ty (ao_kind o))) (WSum (index kind_n k (ao_kind o)) v) = Ok (tagged 25 1 (Z.of_nat (index kind_n k (ao_kind o))) z)).
  { intros k v z E. destruct (pos_spec kind_n kind_n_inj _ _ k P (in_kinds k)) as [N L]. cbn [length] in L.
    apply (sum_word 25 _ _ (kind_ty k)); auto; try lia; [now rewrite nth_error_map, N|rewrite map_length, (Permutation_length P); reflexivity]. }
  destruct x as [rc sh|imm rot]; cbn [operand_val kind_of operand_bits operand_wf] in *; apply T; cbn [kind_ty]; unfold a_regop, a_immop;
    rewrite encode_prod; cbn [enc_fwd encode a_rc a_shift a_imm a_rot bind shift_of bsize Z.add];
    rewrite !Z.shiftl_0_r, Z.lor_0_l, Z.shiftl_shiftl by lia.
  - change (4 + 4) with 8. rewrite lor_shiftl_add by (pows; lia). reflexivity.
  - change (8 + 8) with 16. rewrite lor_shiftl_add by (pows; lia). reflexivity.
Qed.

Lemma operand_size o : aorder_ok o -> bsize (operand_ty o) = 13.
Proof.
  intros (P & _). unfold operand_ty. rewrite bsize_sum, map_length, (Permutation_length P). change (sumsize None 2) with 1.
  assert (M : forall l : list akind, l <> [] -> bmax (map kind_ty l) = 12).
  { induction l as [|k l IH]; [easy|]. intros _. cbn [map bmax]. replace (bsize (kind_ty k)) with 12 by now destruct k.
    destruct l as [|k' l]; [reflexivity|]. rewrite IH; [reflexivity|discriminate]. }
  cbn [length]. change (sumsize None 2) with 1. rewrite M; [reflexivity|]. intros E. rewrite E in P. now apply Permutation_nil in P.
Qed.

Lemma regs_enc ra rb : Z.lor (Z.shiftl (Z.shiftl ra 16) 0) (Z.shiftl (Z.shiftl rb 12) 4) = 2 ^ 16 * Z.lor ra rb.
Proof. rewrite Z.shiftl_0_r, Z.shiftl_shiftl by lia. change (12 + 4) with 16. now rewrite <- Z.shiftl_lor, shiftl_pow by lia. Qed.

Lemma tag_low k t : 0 <= t < 2 -> forall x y, Z.lor (t + 2 * x) (2 ^ 8 * y) = t + 2 * Z.lor x (2 ^ 7 * y) + 0 * k.
Proof.
  intros R x y. replace (2 ^ 8 * y) with (Z.shiftl (2 ^ 7 * y) 1) by (rewrite shiftl_pow by lia; pows; lia).
  replace (t + 2 * x) with (Z.lor t (Z.shiftl x 1)) by (rewrite lor_shiftl_add by (pows; lia); pows; lia).
  rewrite <- Z.lor_assoc, <- Z.shiftl_lor, lor_shiftl_add by (pows; lia). pows. lia.
Qed.

Lemma place_kind o k : aorder_ok o -> 0 <= place kind_n k (ao_kind o) < 2.
Proof. intros (P & _). apply (pos_range kind_n kind_n_inj _ _ k 2 P); [apply in_kinds|cbn; lia]. Qed.
Lemma place_op o k : aorder_ok o -> 0 <= place aop_n k (ao_op o) < 16.
Proof. intros (_ & P & _). apply (pos_range aop_n aop_n_inj _ _ k 16 P); [apply in_ops|cbn; lia]. Qed.
Lemma place_ldst o k : aorder_ok o -> 0 <= place ldst_n k (ao_ldst o) < 2.
Proof. intros (_ & _ & P & _). apply (pos_range ldst_n ldst_n_inj _ _ k 2 P); [apply in_ldst|cbn; lia]. Qed.
Lemma place_base o k : aorder_ok o -> 0 <= place base_n k (ao_base o) < 4.
Proof. intros (_ & _ & _ & P). apply (pos_range base_n base_n_inj _ _ k 4 P); [apply in_bases|cbn; lia]. Qed.

Lemma data_enc o ra rb rc s : aorder_ok o -> body_wf (XData dAND ra rb rc s) ->
  encode false (data_ty o) (WProd [WBV ra; WBV rb; operand_val o rc; WBV s]) =
  Ok (2 ^ 16 * Z.lor ra rb + 2 ^ 33 * place kind_n (kind_of rc) (ao_kind o) + 2 ^ 34 * Z.lor (operand_bits rc) (128 * s)).
Proof.
  intros O (Ra & Rb & W & S). unfold data_ty. rewrite encode_prod. cbn [enc_fwd]. rewrite (operand_enc o rc O W), (operand_size o O).
  cbn [encode a_ra a_rb a_s bind shift_of bsize Z.add]. rewrite Z.lor_0_l, regs_enc, Z.shiftl_0_r.
  pose proof (place_kind o (kind_of rc) O) as K. set (k := place _ _ _) in *. set (x := operand_bits rc). do 1 f_equal.
  assert (L : 0 <= Z.lor ra rb < 16) by (apply (lor_small ra rb 4); pows; lia).
  change (Z.pos (4 + 4)) with 8. change (Z.pos (4 + 4 + 13)) with 21. rewrite (Z.shiftl_shiftl s) by lia. change (20 + 21) with 41.
  replace (Z.shiftl (tagged 25 1 k x) 8) with (Z.shiftl (k + 2 * x) 33) by (unfold tagged; rewrite !shiftl_pow by lia; pows; lia).
  replace (Z.shiftl s 41) with (Z.shiftl (2 ^ 8 * s) 33) by (rewrite !shiftl_pow by lia; pows; lia).
  rewrite <- Z.lor_assoc, <- Z.shiftl_lor, (tag_low 0 k K x s), lor_shiftl_add by (pows; lia). change (2 ^ 7) with 128. pows. lia.
Qed.
Lemma ldst_enc o ra rb rc : aorder_ok o -> body_wf (XLdst oSTR ra rb rc) ->
  encode false (ldst_ty o) (WProd [WBV ra; WBV rb; operand_val o rc]) =
  Ok (2 ^ 16 * Z.lor ra rb + 2 ^ 33 * place kind_n (kind_of rc) (ao_kind o) + 2 ^ 34 * operand_bits rc).
Proof.
  intros O (Ra & Rb & W). unfold ldst_ty. rewrite encode_prod. cbn [enc_fwd]. rewrite (operand_enc o rc O W).
  cbn [encode a_ra a_rb bind shift_of bsize Z.add]. rewrite Z.lor_0_l, regs_enc, Z.shiftl_0_r.
  set (k := place _ _ _) in *. set (x := operand_bits rc). do 1 f_equal.
  assert (L : 0 <= Z.lor ra rb < 16) by (apply (lor_small ra rb 4); pows; lia).
  change (Z.pos (4 + 4)) with 8.
  replace (Z.shiftl (tagged 25 1 k x) 8) with (Z.shiftl (k + 2 * x) 33) by (unfold tagged; rewrite !shiftl_pow by lia; pows; lia).
  rewrite lor_shiftl_add by (pows; lia). pows. lia.
Qed.
Lemma branch_enc offset l i : body_wf (XB offset l i) ->
  encode false a_branch (WProd [WBV offset; WBV l; WBV i]) = Ok (offset + 2 ^ 48 * l + 2 ^ 50 * i).
Proof.
  intros (Ro & Rl & Ri). unfold a_branch. rewrite encode_prod. cbn [enc_fwd encode a_offset a_l a_bi bind shift_of bsize Z.add].
  rewrite !Z.shiftl_0_r, Z.lor_0_l, !Z.shiftl_shiftl by lia. change (24 + 24) with 48. change (25 + Z.pos (24 + 1)) with 50.
  rewrite (lor_shiftl_add offset l 48) by (pows; lia). rewrite lor_shiftl_add by (pows; lia). reflexivity.
Qed.

(** A Sum all of whose members have the same layout. *)
Lemma same_word {A} (num : A -> Z) (Inj : forall x y, num x = num y -> x = y) sh w t l all op v x : 0 <= sh -> Permutation l all -> In op all ->
  sumsize None (length all) = w -> Z.of_nat (length all) <= 2 ^ w -> encode false t v = Ok x ->
  encode false (BSum sh None (map (fun _ => t) l)) (WSum (index num op l) v) = Ok (tagged sh w (place num op l) x).
Proof.
  intros Hs P I S L4 E. destruct (pos_spec num Inj _ _ op P I) as [N L]. apply (sum_word sh _ _ t); auto; try lia.
  - now rewrite nth_error_map, N.
  - now rewrite map_length, (Permutation_length P).
Qed.

Lemma lor_gap lo c hi k n : 0 <= k <= n -> 0 <= lo < 2 ^ k -> 0 <= lo + 2 ^ k * c < 2 ^ n ->
  Z.lor (lo + 2 ^ n * hi) (2 ^ k * c) = lo + 2 ^ k * c + 2 ^ n * hi.
Proof.
  intros Hk Rl Rc. assert (2 ^ k <= 2 ^ n) by (apply Z.pow_le_mono_r; lia). rewrite <- (lor_shiftl_add lo hi n) by lia.
  rewrite <- Z.lor_assoc, (Z.lor_comm (Z.shiftl hi n)), Z.lor_assoc, <- (shiftl_pow k c) by lia.
  rewrite (lor_shiftl_add lo c k) by lia. rewrite (shiftl_pow k c) by lia. rewrite lor_shiftl_add by lia. reflexivity.
Qed.

Lemma arm_word_layout o i : aorder_ok o -> arm_wf i -> arm_word o i = Ok (arm_layout o i).
Proof.
  intros O [W C]. pose proof O as (Pk & Po & Pl & Pb). destruct i as [b c]. cbn [x_base x_cond] in *. unfold arm_word, arm_ty.
  assert (B : forall g v x, encode false (base_ty o g) v = Ok x ->
    encode false (BSum 26 None (map (base_ty o) (ao_base o))) (WSum (index base_n g (ao_base o)) v) = Ok (tagged 26 2 (place base_n g (ao_base o)) x)).
  { intros g v x E. destruct (pos_spec base_n base_n_inj _ _ g Pb (in_bases g)) as [N L]. cbn [length] in L.
    apply (sum_word 26 _ _ (base_ty o g)); auto; try lia; [now rewrite nth_error_map, N|rewrite map_length, (Permutation_length Pb); reflexivity]. }
  assert (SB : bsize (BSum 26 None (map (base_ty o) (ao_base o))) = 28).
  { rewrite bsize_sum, map_length, (Permutation_length Pb). cbn [length]. change (sumsize None 3) with 2.
    assert (D : forall (A : Type) (t : bty) (l : list A), l <> [] -> 0 <= bsize t -> bmax (map (fun _ => t) l) = bsize t).
    { intros A t. induction l as [|a l IH]; [easy|]. intros _ N. cbn [map bmax]. destruct l as [|a' l]; [cbn [map bmax]; lia|].
      rewrite IH; [lia|discriminate|auto]. }
    assert (SD : bsize (base_ty o BData) = 26).
    { cbn [base_ty]. rewrite bsize_sum, map_length, (Permutation_length Po). change (sumsize None (length all_ops)) with 4.
      assert (E : bsize (data_ty o) = 22). { unfold data_ty. rewrite bsize_prod. cbn [bsizes]. rewrite (operand_size o O). reflexivity. }
      rewrite D; rewrite ?E; try lia. intros E0. rewrite E0 in Po. now apply Permutation_nil in Po. }
    assert (SL : bsize (base_ty o BLdst) = 22).
    { cbn [base_ty]. rewrite bsize_sum, map_length, (Permutation_length Pl). cbn [length]. change (sumsize None 2) with 1.
      assert (E : bsize (ldst_ty o) = 21). { unfold ldst_ty. rewrite bsize_prod. cbn [bsizes]. rewrite (operand_size o O). reflexivity. }
      rewrite D; rewrite ?E; try lia. intros E0. rewrite E0 in Pl. now apply Permutation_nil in Pl. }
    assert (SR : bsize (base_ty o BBranch) = 26) by reflexivity.
    assert (M : forall l, (forall g, In g l -> In g [BData; BLdst; BBranch]) -> 0 <= bmax (map (base_ty o) l) <= 26 /\ (In BData l -> bmax (map (base_ty o) l) = 26)).
    { induction l as [|g l IH]; intros Il; [cbn; split; [lia|easy]|]. destruct IH as [I1 I2]; [intros; apply Il; now right|]. cbn [map bmax].
      assert (R : 22 <= bsize (base_ty o g) <= 26) by (destruct g; lia). split; [lia|]. intros [->|I]; [lia|]. rewrite (I2 I). lia. }
    rewrite (proj2 (M (ao_base o) ltac:(intros g _; apply in_bases))); [reflexivity|].
    apply (Permutation_in _ (Permutation_sym Pb)). now left. }
  assert (K : forall v x, encode false (BSum 26 None (map (base_ty o) (ao_base o))) v = Ok x ->
    encode false (BProd 0 [BSum 26 None (map (base_ty o) (ao_base o)); a_conds]) (WProd [v; WEnum c]) = Ok (Z.lor x (2 ^ 56 * c))).
  { intros v x E. rewrite encode_prod. cbn [enc_fwd]. rewrite E, SB. cbn [encode a_conds bind shift_of].
    rewrite Z.lor_0_l, !Z.shiftl_0_r, Z.shiftl_shiftl by lia. change (28 + (0 + 28)) with 56. now rewrite shiftl_pow by lia. }
  pose proof (place_base o BData O). pose proof (place_base o BLdst O). pose proof (place_base o BBranch O).
  destruct b as [op ra rb rc s|op ra rb rc|offset l k]; cbn [base_val].
  - erewrite K; [|apply (B BData); cbn [base_ty];
      eapply (same_word aop_n aop_n_inj 21 4 _ _ _ op _ _ ltac:(lia) Po (in_ops op)); [reflexivity|cbn; lia|now apply data_enc]].
    unfold arm_layout. cbn [x_base x_cond]. do 1 f_equal. pose proof (place_op o op O). unfold tagged.
    set (b := place base_n BData (ao_base o)) in *. set (p := place aop_n _ _) in *. set (q := place kind_n _ _). set (y := Z.lor (operand_bits rc) _). set (r := Z.lor ra rb).
    replace (2 ^ 26 * _) with ((2 ^ 26 * b + 2 ^ 49 * p) + 2 ^ 69 * (r + 2 ^ 17 * q + 2 ^ 18 * y)) by (pows; lia).
    rewrite lor_gap by (pows; lia). pows. lia.
  - erewrite K; [|apply (B BLdst); cbn [base_ty];
      eapply (same_word ldst_n ldst_n_inj 20 1 _ _ _ op _ _ ltac:(lia) Pl (in_ldst op)); [reflexivity|cbn; lia|now apply ldst_enc]].
    unfold arm_layout. cbn [x_base x_cond]. do 1 f_equal. pose proof (place_ldst o op O). unfold tagged.
    set (b := place base_n BLdst (ao_base o)) in *. set (p := place ldst_n _ _) in *. set (q := place kind_n _ _). set (y := operand_bits rc). set (r := Z.lor ra rb).
    replace (2 ^ 26 * _) with ((2 ^ 26 * b + 2 ^ 48 * p) + 2 ^ 65 * (r + 2 ^ 17 * q + 2 ^ 18 * y)) by (pows; lia).
    rewrite lor_gap by (pows; lia). pows. lia.
  - erewrite K; [|apply (B BBranch); now apply branch_enc].
    unfold arm_layout. cbn [x_base x_cond body_wf] in *. do 1 f_equal. unfold tagged.
    set (b := place base_n BBranch (ao_base o)) in *.
    replace (2 ^ 26 * _) with ((2 ^ 26 * b + 2 ^ 28 * offset) + 2 ^ 76 * (l + 4 * k)) by (pows; lia).
    rewrite lor_gap by (pows; lia). pows. lia.
Qed.

Lemma bits_range x : operand_wf x -> 0 <= operand_bits x < 2 ^ 20.
Proof. destruct x; cbn [operand_wf operand_bits]; pows; lia. Qed.
Lemma bits_s x s : operand_wf x -> 0 <= s < 2 -> Z.lor (operand_bits x) (128 * s) =
  match x with OReg rc shift => rc + 128 * s + 2 ^ 8 * shift | OImm imm rotate => Z.lor imm (128 * s) + 2 ^ 16 * rotate end.
Proof.
  intros W S. destruct x as [rc sh|imm rot]; cbn [operand_wf operand_bits] in *; change (128 * s) with (2 ^ 7 * s).
  - rewrite (lor_gap rc s sh 7 8) by (pows; lia). reflexivity.
  - rewrite <- (lor_shiftl_add imm rot 16), <- Z.lor_assoc, (Z.lor_comm (Z.shiftl rot 16)), Z.lor_assoc by (pows; lia).
    rewrite lor_shiftl_add; [reflexivity|lia|]. apply lor_small; pows; lia.
Qed.

Lemma operand_collide_iff x s y s' : operand_wf x -> operand_wf y -> 0 <= s < 2 -> 0 <= s' < 2 -> kind_of x = kind_of y ->
  (Z.lor (operand_bits x) (128 * s) = Z.lor (operand_bits y) (128 * s') <-> operand_collide x s y s').
Proof.
  intros Wx Wy S S' K. rewrite !bits_s by auto. destruct x as [rc sh|imm rot], y as [rc' sh'|imm' rot']; try discriminate K; cbn [operand_wf operand_collide] in *.
  - pows. lia.
  - assert (R : forall a t, 0 <= a < 256 -> 0 <= t < 2 -> 0 <= Z.lor a (128 * t) < 2 ^ 16) by (intros; apply lor_small; pows; lia).
    pose proof (R imm s ltac:(lia) S). pose proof (R imm' s' ltac:(lia) S'). pows. lia.
Qed.
Lemma bits_inj x y : operand_wf x -> operand_wf y -> kind_of x = kind_of y -> operand_bits x = operand_bits y -> x = y.
Proof.
  destruct x as [rc sh|imm rot], y as [rc' sh'|imm' rot']; cbn [operand_wf operand_bits kind_of]; intros Wx Wy K E; try discriminate K; pows; f_equal; lia.
Qed.

(** Reading off the digits of a number. *)
Lemma peel5 a b d e p c r q y p' c' r' q' y' : 0 <= a -> 0 <= b -> 0 <= d -> 0 <= e ->
  0 <= p < 2 ^ a -> 0 <= p' < 2 ^ a -> 0 <= c < 2 ^ b -> 0 <= c' < 2 ^ b -> 0 <= r < 2 ^ d -> 0 <= r' < 2 ^ d -> 0 <= q < 2 ^ e -> 0 <= q' < 2 ^ e ->
  p + 2 ^ a * (c + 2 ^ b * (r + 2 ^ d * (q + 2 ^ e * y))) = p' + 2 ^ a * (c' + 2 ^ b * (r' + 2 ^ d * (q' + 2 ^ e * y'))) ->
  c = c' /\ p = p' /\ r = r' /\ q = q' /\ y = y'.
Proof.
  intros A B D X P P' C C' R R' Q Q' E. apply add_inj in E as [-> E]; auto. apply add_inj in E as [-> E]; auto. apply add_inj in E as [-> E]; auto.
  apply add_inj in E as [-> ->]; auto.
Qed.

(** ** C89 *)

(** The property: encoding an instruction gives the ARM word, so different
    instructions have different words. *)
Definition C89_full : Prop := forall o i, aorder_ok o -> arm_wf i -> arm_word o i = Ok (declared i).

(** Missing for C89: the word is not the one declared by the bit positions. It is
    this one. *)
Theorem C89_word_partial o i : aorder_ok o -> arm_wf i -> arm_word o i = Ok (arm_layout o i).
Proof. apply arm_word_layout. Qed.

(** Words of different instructions are different exactly if the instructions do
    not collide. *)
Theorem C89_collisions o i j : aorder_ok o -> arm_wf i -> arm_wf j -> (arm_word o i = arm_word o j <-> arm_collide i j).
Proof.
  intros O Wi Wj. rewrite !arm_word_layout by auto. pose proof O as (Pk & Po & Pl & Pb).
  destruct i as [b c], j as [b' c']. destruct Wi as [W C], Wj as [W' C']. cbn [x_base x_cond] in *.
  pose proof (place_base o BData O). pose proof (place_base o BLdst O). pose proof (place_base o BBranch O).
  assert (GB : forall g h, place base_n g (ao_base o) = place base_n h (ao_base o) -> g = h)
    by (intros g h; apply (pos_inj base_n base_n_inj _ _ g h Pb); apply in_bases).
  assert (N1 : place base_n BData (ao_base o) <> place base_n BLdst (ao_base o)) by (intros E; apply GB in E; discriminate).
  assert (N2 : place base_n BData (ao_base o) <> place base_n BBranch (ao_base o)) by (intros E; apply GB in E; discriminate).
  assert (N3 : place base_n BLdst (ao_base o) <> place base_n BBranch (ao_base o)) by (intros E; apply GB in E; discriminate).
  assert (LR : forall a d, 0 <= a < 16 -> 0 <= d < 16 -> 0 <= Z.lor a d < 16) by (intros a d Ha Hd; apply (lor_small a d 4); pows; lia).
  assert (LS : forall x s, operand_wf x -> 0 <= s < 2 -> 0 <= Z.lor (operand_bits x) (128 * s) < 2 ^ 20).
  { intros x s Wx S. apply lor_small; [lia|now apply bits_range|pows; lia]. }
  assert (GK : forall x y, place kind_n (kind_of x) (ao_kind o) = place kind_n (kind_of y) (ao_kind o) -> kind_of x = kind_of y)
    by (intros x y; apply (pos_inj kind_n kind_n_inj _ _ _ _ Pk); apply in_kinds).
  unfold arm_layout, arm_collide. cbn [x_base x_cond].
  set (pd := place base_n BData (ao_base o)) in *. set (pl := place base_n BLdst (ao_base o)) in *. set (pb := place base_n BBranch (ao_base o)) in *.
  destruct b as [op ra rb rc s|op ra rb rc|offset l k], b' as [op' ra' rb' rc' s'|op' ra' rb' rc'|offset' l' k']; cbn [body_wf] in W, W';
    (split; [intros E; apply ok_inj in E|intros F; f_equal]).
  - destruct W as (Ra & Rb & Wc & Sr), W' as (Ra' & Rb' & Wc' & Sr'). pose proof (LR ra rb Ra Rb). pose proof (LR ra' rb' Ra' Rb').
    pose proof (LS rc s Wc Sr) as Q. pose proof (LS rc' s' Wc' Sr') as Q'. pose proof (place_op o op O). pose proof (place_op o op' O).
    pose proof (place_kind o (kind_of rc) O). pose proof (place_kind o (kind_of rc') O).
    assert (X : c = c' /\ place aop_n op (ao_op o) = place aop_n op' (ao_op o) /\ Z.lor ra rb = Z.lor ra' rb' /\
      place kind_n (kind_of rc) (ao_kind o) = place kind_n (kind_of rc') (ao_kind o) /\ Z.lor (operand_bits rc) (128 * s) = Z.lor (operand_bits rc') (128 * s')).
    { apply (peel5 7 13 17 1); try lia; try (pows; lia). }
    destruct X as (-> & X1 & X2 & X3 & X4). apply GK in X3. split; [auto|]. split; [|split; [auto|now apply operand_collide_iff]].
    apply (pos_inj aop_n aop_n_inj _ _ op op' Po); auto; apply in_ops.
  - destruct W as (Ra & Rb & Wc & Sr), W' as (Ra' & Rb' & Wc' & Sr'). destruct F as (-> & -> & -> & F).
    assert (K : kind_of rc = kind_of rc') by (destruct rc, rc'; cbn in F; auto; contradiction).
    apply (operand_collide_iff rc s rc' s' Wc Wc' Sr Sr' K) in F. now rewrite F, K.
  - exfalso. clear - E H H0 H1 N1 N2 N3. pows. lia.
  - destruct F as [_ []].
  - exfalso. clear - E H H0 H1 N1 N2 N3. pows. lia.
  - destruct F as [_ []].
  - exfalso. clear - E H H0 H1 N1 N2 N3. pows. lia.
  - destruct F as [_ []].
  - destruct W as (Ra & Rb & Wc), W' as (Ra' & Rb' & Wc'). pose proof (LR ra rb Ra Rb). pose proof (LR ra' rb' Ra' Rb').
    pose proof (bits_range rc Wc) as Q. pose proof (bits_range rc' Wc') as Q'. pose proof (place_ldst o op O). pose proof (place_ldst o op' O).
    pose proof (place_kind o (kind_of rc) O). pose proof (place_kind o (kind_of rc') O).
    assert (X : c = c' /\ place ldst_n op (ao_ldst o) = place ldst_n op' (ao_ldst o) /\ Z.lor ra rb = Z.lor ra' rb' /\
      place kind_n (kind_of rc) (ao_kind o) = place kind_n (kind_of rc') (ao_kind o) /\ operand_bits rc = operand_bits rc').
    { apply (peel5 8 9 17 1); try lia; try (pows; lia). }
    destruct X as (-> & X1 & X2 & X3 & X4). apply GK in X3. split; [auto|]. split; [|split; [auto|now apply bits_inj]].
    apply (pos_inj ldst_n ldst_n_inj _ _ op op' Pl); auto; apply in_ldst.
  - destruct F as (-> & -> & -> & ->). reflexivity.
  - exfalso. clear - E H H0 H1 N1 N2 N3. pows. lia.
  - destruct F as [_ []].
  - exfalso. clear - E H H0 H1 N1 N2 N3. pows. lia.
  - destruct F as [_ []].
  - exfalso. clear - E H H0 H1 N1 N2 N3. pows. lia.
  - destruct F as [_ []].
  - pows. lia.
  - destruct F as (-> & -> & -> & ->). reflexivity.
Qed.

(** When the word is the declared one: only for the instructions all of whose
    parts are zero, with the condition EQ, and then only if their classes come
    first. A branch made by [b] sets bit 78. *)
Definition arm_first (o : aorder) (i : ainst) : Prop :=
  x_cond i = 0 /\
  match x_base i with
  | XData op ra rb rc s => op = dAND /\ ra = 0 /\ rb = 0 /\ rc = OReg 0 0 /\ s = 0 /\
      nth_error (ao_op o) 0 = Some dAND /\ nth_error (ao_kind o) 0 = Some KReg /\ nth_error (ao_base o) 0 = Some BData
  | XLdst op ra rb rc => op = oSTR /\ ra = 0 /\ rb = 0 /\ rc = OReg 0 0 /\
      nth_error (ao_ldst o) 0 = Some oSTR /\ nth_error (ao_kind o) 0 = Some KReg /\ nth_error (ao_base o) 1 = Some BLdst
  | XB offset l k => offset = 0 /\ l = 0 /\ k = 0 /\ nth_error (ao_base o) 2 = Some BBranch
  end.

Lemma lor_0 a b : Z.lor a b = 0 -> a = 0 /\ b = 0.
Proof. apply Z.lor_eq_0_iff. Qed.

Theorem C89_declared o i : aorder_ok o -> arm_wf i -> (arm_word o i = Ok (declared i) <-> arm_first o i).
Proof.
  intros O [W C]. rewrite (arm_word_layout o i O (conj W C)). pose proof O as (Pk & Po & Pl & Pb). destruct i as [b c]. cbn [x_base x_cond] in *.
  pose proof (place_base o BData O). pose proof (place_base o BLdst O). pose proof (place_base o BBranch O).
  assert (LR : forall a d, 0 <= a < 16 -> 0 <= d < 16 -> 0 <= Z.lor a d < 16) by (intros a d Ha Hd; apply (lor_small a d 4); pows; lia).
  assert (OW : forall x, operand_wf x -> 0 <= operand_word x < 2 ^ 26) by (intros [? ?|? ?]; cbn [operand_wf operand_word]; pows; lia).
  assert (IB : forall g n, place base_n g (ao_base o) = Z.of_nat n -> nth_error (ao_base o) n = Some g)
    by (intros g n; apply (index_pos base_n base_n_inj _ _ g n Pb), in_bases).
  assert (IK : forall g n, place kind_n g (ao_kind o) = Z.of_nat n -> nth_error (ao_kind o) n = Some g)
    by (intros g n; apply (index_pos kind_n kind_n_inj _ _ g n Pk), in_kinds).
  assert (IO : forall g n, place aop_n g (ao_op o) = Z.of_nat n -> nth_error (ao_op o) n = Some g)
    by (intros g n; apply (index_pos aop_n aop_n_inj _ _ g n Po), in_ops).
  assert (IL : forall g n, place ldst_n g (ao_ldst o) = Z.of_nat n -> nth_error (ao_ldst o) n = Some g)
    by (intros g n; apply (index_pos ldst_n ldst_n_inj _ _ g n Pl), in_ldst).
  assert (ND : forall A (l all : list A), Permutation l all -> NoDup all -> NoDup l) by (intros A l all P N; apply (Permutation_NoDup (Permutation_sym P) N)).
  unfold arm_layout, declared, arm_first. cbn [x_base x_cond].
  destruct b as [op ra rb rc s|op ra rb rc|offset l k]; cbn [body_wf] in W; split.
  - intros E. apply ok_inj in E. destruct W as (Ra & Rb & Wc & Sr). pose proof (LR ra rb Ra Rb) as L0.
    assert (LS : 0 <= Z.lor (operand_bits rc) (128 * s)) by (apply Z.lor_nonneg; pose proof (bits_range rc Wc); lia).
    pose proof (OW rc Wc) as OWr. pose proof (place_op o op O). pose proof (place_kind o (kind_of rc) O).
    assert (OP : 0 <= opcode op < 16) by (destruct op; cbn; lia).
    assert (X : Z.lor ra rb = 0 /\ Z.lor (operand_bits rc) (128 * s) = 0 /\ c = 0 /\ place kind_n (kind_of rc) (ao_kind o) = 0 /\ place aop_n op (ao_op o) = 0) by (pows; lia).
    destruct X as (X1 & X2 & -> & X4 & X5). rewrite X1, X2, X4, X5 in E. apply lor_0 in X1 as [-> ->]. apply lor_0 in X2 as [X2 X3]. assert (s = 0) by lia. subst s.
    assert (WW : operand_word rc = 0 \/ operand_word rc = 2 ^ 25) by (destruct rc; cbn [operand_wf operand_bits operand_word] in *; pows; lia).
    assert (Y : place base_n BData (ao_base o) = 0 /\ opcode op = 0 /\ operand_word rc = 0) by (pows; lia). destruct Y as (Y1 & Y2 & Y3).
    assert (op = dAND) by (destruct op; cbn in Y2; congruence || auto). subst op.
    destruct rc as [rc sh|imm rot]; cbn [operand_wf operand_word operand_bits kind_of] in *; pows; [|lia].
    assert (rc = 0) by lia. assert (sh = 0) by lia. subst. repeat (split; [reflexivity|]). repeat split; [apply (IO _ 0%nat)|apply (IK _ 0%nat)|apply (IB _ 0%nat)]; auto.
  - intros (-> & -> & -> & -> & -> & -> & F1 & F2 & F3). cbn [kind_of].
    destruct (ao_op o) as [|x1 r1]; [discriminate|]. injection F1 as ->. destruct (ao_kind o) as [|x2 r2]; [discriminate|]. injection F2 as ->.
    destruct (ao_base o) as [|x3 r3]; [discriminate|]. injection F3 as ->. reflexivity.
  - intros E. apply ok_inj in E. destruct W as (Ra & Rb & Wc). pose proof (LR ra rb Ra Rb) as L0. pose proof (bits_range rc Wc) as LS.
    pose proof (OW rc Wc) as OWr. pose proof (place_ldst o op O). pose proof (place_kind o (kind_of rc) O). set (q := match op with oLDR => 1 | oSTR => 0 end) in *.
    assert (OP : 0 <= q < 2) by (subst q; destruct op; lia).
    assert (X : Z.lor ra rb = 0 /\ operand_bits rc = 0 /\ c = 0 /\ place kind_n (kind_of rc) (ao_kind o) = 0 /\ place ldst_n op (ao_ldst o) = 0) by (pows; lia).
    destruct X as (X1 & X2 & -> & X4 & X5). rewrite X1, X2, X4, X5 in E. apply lor_0 in X1 as [-> ->].
    assert (WW : operand_word rc = 0 \/ operand_word rc = 2 ^ 25) by (destruct rc; cbn [operand_wf operand_bits operand_word] in *; pows; lia).
    assert (Y : place base_n BLdst (ao_base o) = 1 /\ q = 0 /\ operand_word rc = 0) by (pows; lia). destruct Y as (Y1 & Y2 & Y3).
    assert (op = oSTR) by (subst q; destruct op; [discriminate|reflexivity]). subst op.
    destruct rc as [rc sh|imm rot]; cbn [operand_wf operand_word operand_bits kind_of] in *; pows; [|lia].
    assert (rc = 0) by lia. assert (sh = 0) by lia. subst rc sh. repeat (split; [reflexivity|]). repeat split; [apply (IL _ 0%nat)|apply (IK _ 0%nat)|apply (IB _ 1%nat)]; auto.
  - intros (-> & -> & -> & -> & -> & F1 & F2 & F3). cbn [kind_of].
    assert (Y : index base_n BLdst (ao_base o) = 1%nat).
    { apply (pos_index base_n base_n_inj); auto. apply (ND _ _ _ Pb). repeat (constructor; [cbn; intuition discriminate|]). constructor. }
    unfold place. rewrite Y. clear IB F3 Y.
    destruct (ao_ldst o) as [|x1 r1]; [discriminate|]. injection F1 as ->. destruct (ao_kind o) as [|x2 r2]; [discriminate|]. injection F2 as ->. reflexivity.
  - intros E. apply ok_inj in E. assert (X : offset = 0 /\ l = 0 /\ k = 0 /\ c = 0 /\ place base_n BBranch (ao_base o) = 2) by (pows; lia).
    destruct X as (-> & -> & -> & -> & X). repeat (split; [reflexivity|]). now apply (IB _ 2%nat).
  - intros (-> & -> & -> & -> & F3).
    assert (Y : index base_n BBranch (ao_base o) = 2%nat).
    { apply (pos_index base_n base_n_inj); auto. apply (ND _ _ _ Pb). repeat (constructor; [cbn; intuition discriminate|]). constructor. }
    unfold place. rewrite Y. reflexivity.
Qed.

(** What the assembler makes: the fields have their widths, so the theorems
    apply; and no word of a branch made by [b] is the declared one. *)
Theorem C89_assembled op lop ra rb rc shift imm s offset link cond : 0 <= cond < 15 ->
  (forall i, asm_data op ra rb rc shift imm s cond = Ok i -> arm_wf (of_arm i)) /\
  (forall i, asm_ldst lop ra rb rc shift imm cond = Ok i -> arm_wf (of_arm i)) /\
  arm_wf (of_arm (asm_b offset link cond)) /\
  (forall o, aorder_ok o -> arm_word o (of_arm (asm_b offset link cond)) <> Ok (declared (of_arm (asm_b offset link cond)))).
Proof.
  intros C. assert (R4 : forall z, 0 <= wrap 4 z < 16) by (intros; apply Z.mod_pos_bound; reflexivity).
  assert (R8 : forall z, 0 <= wrap 8 z < 256) by (intros; apply Z.mod_pos_bound; reflexivity).
  assert (R1 : forall z, 0 <= wrap 1 z < 2) by (intros; apply Z.mod_pos_bound; reflexivity).
  assert (R24 : forall z, 0 <= wrap 24 z < 16777216) by (intros; apply Z.mod_pos_bound; reflexivity).
  assert (WB : arm_wf (of_arm (asm_b offset link cond))) by (split; [cbn [of_arm asm_b a_base x_base body_wf]; auto; split; [auto|split; [auto|lia]]|exact C]).
  split; [|split; [|split; [exact WB|]]].
  - intros i E. unfold asm_data in E. destruct rc as [rc|]; cbn [bind] in E.
    + injection E as <-. split; [|exact C]. cbn [of_arm a_base x_base body_wf operand_wf]. auto 6.
    + destruct (imm_enc imm) as [[r m]|]; cbn [bind] in E; [|discriminate]. injection E as <-. split; [|exact C]. cbn [of_arm a_base x_base body_wf operand_wf]. auto 6.
  - intros i E. unfold asm_ldst in E. destruct rc as [rc|]; cbn [bind] in E.
    + injection E as <-. split; [|exact C]. cbn [of_arm a_base x_base body_wf operand_wf]. auto 6.
    + destruct (imm_enc imm) as [[r m]|]; cbn [bind] in E; [|discriminate]. injection E as <-. split; [|exact C]. cbn [of_arm a_base x_base body_wf operand_wf]. auto 6.
  - intros o O E. apply (C89_declared o _ O WB) in E. destruct E as (_ & _ & _ & K & _). cbn in K. discriminate K.
Qed.

(** Members in the order of their declaration. *)
Definition arm_decl : aorder := AOrder [KReg; KImm] all_ops [oSTR; oLDR] [BData; BLdst; BBranch].
Lemma arm_decl_ok : aorder_ok arm_decl. Proof. repeat split; reflexivity. Qed.

(** tests/test_arm.py:13-16 prints the word of [mov(R0, R1, imm=1)]. *)
Example C89_case :
  (exists i, asm_data oMOV 0 1 None 0 1 0 14 = Ok i /\
     arm_word arm_decl (of_arm i) = Ok (2 ^ 49 * 13 + 2 ^ 56 * 14 + 2 ^ 69 + 2 ^ 86 + 2 ^ 87 * (2 ^ 16)) /\
     declared (of_arm i) = 0xe3a01100) /\
  (exists i j, asm_data oADD 1 2 (Some 3) 0 0 0 14 = Ok i /\ asm_data oADD 3 0 (Some 3) 0 0 0 14 = Ok j /\ i <> j /\
     arm_word arm_decl (of_arm i) = arm_word arm_decl (of_arm j)) /\
  arm_word arm_decl (AInst (XData dADD 1 2 (OImm 128 0) 0) 14) = arm_word arm_decl (AInst (XData dADD 1 2 (OImm 0 0) 1) 14) /\
  arm_word arm_decl (AInst (XData dADD 1 2 (OReg 3 4) 0) 14) <> arm_word arm_decl (AInst (XData dADD 1 2 (OReg 3 4) 1) 14) /\
  arm_word arm_decl (AInst (XLdst oSTR 0 0 (OReg 0 0)) 0) = Ok (declared (AInst (XLdst oSTR 0 0 (OReg 0 0)) 0)).
Proof.
  split; [eexists; repeat split; vm_compute; reflexivity|]. split.
  - do 2 eexists. split; [vm_compute; reflexivity|]. split; [vm_compute; reflexivity|]. split; [discriminate|vm_compute; reflexivity].
  - split; [vm_compute; reflexivity|]. split; [vm_compute; discriminate|vm_compute; reflexivity].
Qed.

Theorem C89_full_refuted : ~ C89_full.
Proof.
  intros F. specialize (F arm_decl (AInst (XB 0 0 1) 14) arm_decl_ok).
  destruct (C89_declared arm_decl (AInst (XB 0 0 1) 14) arm_decl_ok ltac:(split; cbn; lia)) as [D _].
  destruct (D (F ltac:(split; cbn; lia))) as [X _]. discriminate X.
Qed.

(** The conditions that [arm_wf] admits are exactly the values of the Enum [Conds]. *)
Theorem C89_conds o : exists b pos ms, arm_ty o = BProd 0 [b; BEnum pos ms] /\ pos = 28 /\ forall c, In c ms <-> 0 <= c < 15.
Proof.
  do 3 eexists. split; [reflexivity|]. split; [reflexivity|]. intros c. cbn [In]. split; [intuition lia|].
  intros H. assert (c = 0 \/ c = 1 \/ c = 2 \/ c = 3 \/ c = 4 \/ c = 5 \/ c = 6 \/ c = 7 \/ c = 8 \/ c = 9 \/ c = 10 \/ c = 11 \/ c = 12 \/ c = 13 \/ c = 14) by lia.
  intuition.
Qed.

Print Assumptions C89_word_partial.
Print Assumptions C89_conds.
Print Assumptions C89_collisions.
Print Assumptions C89_declared.
Print Assumptions C89_assembled.
Print Assumptions C89_case.
Print Assumptions C89_full_refuted.
