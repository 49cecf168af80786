(** C73: machine words of the Pico. *)
From Coq Require Import ZArith List Bool Lia Permutation.
From Verif Require Import Base BaseLemmas BitfieldModel BitfieldProps PicoModel PicoWordModel.
Import ListNotations.
Open Scope Z_scope.

(** ** Specification *)

(** Instructions whose fields have their widths. *)
Definition inst_wf (i : pinst) : Prop :=
  match i with
  | ILogic _ ra rb | IArith _ ra rb => 0 <= ra < 16 /\ 0 <= rb < 16
  | IMem _ ra imm => 0 <= ra < 16 /\ 0 <= imm < 256
  | ICtl _ imm _ => 0 <= imm < 256
  | IWord w => 0 <= w < 65536
  end.

(** An order of the members: each exactly once. *)
Definition order_ok (o : order) : Prop :=
  Permutation (o_inst o) [GLogic; GArith; GMem; GCtl; GWord] /\ Permutation (o_logic o) [pMov; pAnd; pOr; pXOr] /\
  Permutation (o_arith o) [pAdd; pSub; pAdc; pSbc] /\ Permutation (o_mem o) [pLDLO; pLDHI; pLD; pST] /\
  Permutation (o_ctl o) [pJump; pCall; pReturn].

(** The codes of the conditions (isa.py:37-55). *)
Definition cond_code (c : pcond) : Z :=
  match c with
  | kZ => 0 | kZ_n => 1 | kC => 2 | kC_n => 3 | kN => 4 | kN_n => 5 | kV => 6 | kV_n => 7
  | kUGT => 8 | kULE => 9 | kSGE => 10 | kSLT => 11 | kSGT => 12 | kSLE => 13 | kNever => 14 | kAlways => 15
  end.

(** The words documented in examples/pico/isa.py:7-27: four bits of operation, then
    fields. Data words stand for themselves. *)
Definition documented (i : pinst) : Z :=
  match i with
  | ILogic op ra rb => 4096 * match op with pMov => 0 | pAnd => 1 | pOr => 2 | pXOr => 3 end + 256 * ra + 16 * rb
  | IArith op ra rb => 4096 * match op with pAdd => 4 | pSub => 5 | pAdc => 6 | pSbc => 7 end + 256 * ra + 16 * rb
  | IMem op ra imm => 4096 * match op with pLDLO => 8 | pLDHI => 9 | pLD => 10 | pST => 11 end + 256 * ra + imm
  | ICtl op imm c => 4096 * match op with pJump => 12 | pCall => 13 | pReturn => 14 end + 256 * cond_code c + imm
  | IWord w => w
  end.

(** Two instructions that cannot be told apart by their words. *)
Definition collide (i j : pinst) : Prop :=
  match i, j with
  | ILogic op ra rb, ILogic op' ra' rb' => op = op' /\ Z.lor ra rb = Z.lor ra' rb'
  | IArith op ra rb, IArith op' ra' rb' => op = op' /\ Z.lor ra rb = Z.lor ra' rb'
  | IMem op ra imm, IMem op' ra' imm' => op = op' /\ Z.lor (16 * ra) imm = Z.lor (16 * ra') imm'
  | ICtl op imm c, ICtl op' imm' c' => op = op' /\ imm = imm' /\ c = c'
  | IWord w, IWord w' => w = w'
  | _, _ => False
  end.

(** ** Proofs *)
Lemma index_nth {A} (num : A -> Z) : (forall x y, num x = num y -> x = y) -> forall l x, In x l ->
  nth_error l (index num x l) = Some x /\ (index num x l < length l)%nat.
Proof.
  intros Inj. induction l as [|y l IH]; intros x I; [easy|]. cbn [index]. destruct (num x =? num y) eqn:E.
  - apply Z.eqb_eq, Inj in E. subst. cbn. split; auto. lia.
  - destruct I as [->|I]; [rewrite Z.eqb_refl in E; discriminate|]. destruct (IH x I). cbn. split; auto. lia.
Qed.
Lemma index_inj {A} (num : A -> Z) : (forall x y, num x = num y -> x = y) -> forall l x y, In x l -> In y l ->
  index num x l = index num y l -> x = y.
Proof.
  intros Inj l x y I J E. destruct (index_nth num Inj l x I) as [X _], (index_nth num Inj l y J) as [Y _]. rewrite E in X. congruence.
Qed.
Lemma group_n_inj x y : group_n x = group_n y -> x = y. Proof. now destruct x, y. Qed.
Lemma logic_n_inj x y : logic_n x = logic_n y -> x = y. Proof. now destruct x, y. Qed.
Lemma arith_n_inj x y : arith_n x = arith_n y -> x = y. Proof. now destruct x, y. Qed.
Lemma mem_n_inj x y : mem_n x = mem_n y -> x = y. Proof. now destruct x, y. Qed.
Lemma ctl_n_inj x y : ctl_n x = ctl_n y -> x = y. Proof. now destruct x, y. Qed.
Lemma cond_code_inj x y : cond_code x = cond_code y -> x = y. Proof. now destruct x, y. Qed.
Lemma cond_code_range c : 0 <= cond_code c < 16. Proof. destruct c; cbn; lia. Qed.

Lemma pos_spec {A} (num : A -> Z) (Inj : forall x y, num x = num y -> x = y) l all x : Permutation l all -> In x all ->
  nth_error l (index num x l) = Some x /\ (index num x l < length all)%nat.
Proof.
  intros P I. rewrite <- (Permutation_length P). apply index_nth; auto. apply (Permutation_in _ (Permutation_sym P) I).
Qed.

(** Exact positions of the parts of the word, for every order. *)
Definition tagged (sh w tag x : Z) : Z := 2 ^ sh * (tag + 2 ^ w * x).

Lemma shift_or x w tag : 0 <= w -> 0 <= tag < 2 ^ w -> Z.lor (Z.shiftl x w) tag = tag + 2 ^ w * x.
Proof. intros. rewrite Z.lor_comm. now apply lor_shiftl_add. Qed.

Lemma sum_word sh fs i t v x w : 0 <= sh -> nth_error fs i = Some t -> encode false t v = Ok x -> sumsize None (length fs) = w -> Z.of_nat i < 2 ^ w ->
  encode false (BSum sh None fs) (WSum i v) = Ok (tagged sh w (Z.of_nat i) x).
Proof.
  intros Hs E1 E2 E3 L. rewrite encode_sum. cbn [instkey bind]. rewrite E1, E2. cbn [bind]. rewrite E3. unfold tagged. do 1 f_equal.
  rewrite shift_or, shiftl_pow; auto. - subst w. apply sumsize_nonneg. - lia.
Qed.

Lemma alu_word ra rb : encode false b_alu (WProd [WBV ra; WBV rb]) = Ok (256 * Z.lor ra rb).
Proof.
  unfold b_alu. rewrite encode_prod. cbn [enc_fwd encode b_rega b_regb bind shift_of bsize Z.add].
  rewrite !Z.shiftl_0_r, Z.lor_0_l, Z.shiftl_shiftl by lia. change (4 + 4) with 8. rewrite <- Z.shiftl_lor, shiftl_pow by lia. reflexivity.
Qed.
Lemma mem_word ra imm : encode false b_mem (WProd [WBV ra; WBV imm]) = Ok (16 * Z.lor (16 * ra) imm).
Proof.
  unfold b_mem. rewrite encode_prod. cbn [enc_fwd encode b_rega b_imm bind shift_of bsize Z.add].
  rewrite !Z.shiftl_0_r, Z.lor_0_l.
  replace (Z.shiftl ra 8) with (Z.shiftl (16 * ra) 4) by (rewrite !shiftl_pow by lia; lia). rewrite <- Z.shiftl_lor, shiftl_pow by lia. reflexivity.
Qed.
Lemma ctl_word imm c : 0 <= imm < 256 -> encode false b_ctl (WProd [WBV imm; WEnum (cond_n c)]) = Ok (imm + 65536 * cond_code c).
Proof.
  intros R. replace (cond_code c) with (cond_n c) by now destruct c. unfold b_ctl. rewrite encode_prod. cbn [enc_fwd encode b_cond b_imm bind shift_of bsize Z.add].
  rewrite !Z.shiftl_0_r, Z.lor_0_l, Z.shiftl_shiftl by lia. change (8 + 8) with 16. rewrite lor_shiftl_add; [reflexivity|lia|].
  split; [lia|]. change (2 ^ 16) with 65536. lia.
Qed.

(** The word: tag of the group in bits 14-16, of the operation in bits 29-30. *)
Definition layout (o : order) (i : pinst) : Z :=
  let pos {A} (num : A -> Z) x l := Z.of_nat (index num x l) in
  match i with
  | ILogic op ra rb => tagged 14 3 (pos group_n GLogic (o_inst o)) (tagged 12 2 (pos logic_n op (o_logic o)) (256 * Z.lor ra rb))
  | IArith op ra rb => tagged 14 3 (pos group_n GArith (o_inst o)) (tagged 12 2 (pos arith_n op (o_arith o)) (256 * Z.lor ra rb))
  | IMem op ra imm => tagged 14 3 (pos group_n GMem (o_inst o)) (tagged 12 2 (pos mem_n op (o_mem o)) (16 * Z.lor (16 * ra) imm))
  | ICtl op imm c => tagged 14 3 (pos group_n GCtl (o_inst o)) (tagged 12 2 (pos ctl_n op (o_ctl o)) (imm + 65536 * cond_code c))
  | IWord w => tagged 14 3 (pos group_n GWord (o_inst o)) w
  end.

Lemma inst_word o g v x : order_ok o -> encode false (group_ty g) v = Ok x ->
  encode false (inst_ty o) (WSum (index group_n g (o_inst o)) v) = Ok (tagged 14 3 (Z.of_nat (index group_n g (o_inst o))) x).
Proof.
  intros (P & _) E. assert (I : In g [GLogic; GArith; GMem; GCtl; GWord]) by (destruct g; cbn; auto 6).
  destruct (pos_spec group_n group_n_inj _ _ g P I) as [N L]. cbn [length] in L. apply (sum_word 14 (map group_ty (o_inst o)) _ (group_ty g)); auto; try lia.
  - now rewrite nth_error_map, N.
  - rewrite map_length, (Permutation_length P). reflexivity.
Qed.

Lemma nth_repeat {A} (x : A) n i : (i < n)%nat -> nth_error (repeat x n) i = Some x.
Proof. revert i. induction n as [|n IH]; intros [|i] L; cbn; auto; try lia. apply IH. lia. Qed.

Lemma op_word {A} (num : A -> Z) (Inj : forall x y, num x = num y -> x = y) t l all op v x : Permutation l all -> In op all ->
  sumsize None (length all) = 2 -> (length all <= 4)%nat -> encode false t v = Ok x ->
  encode false (BSum 12 None (repeat t (length all))) (WSum (index num op l) v) = Ok (tagged 12 2 (Z.of_nat (index num op l)) x).
Proof.
  intros P I S L4 E. destruct (pos_spec num Inj _ _ op P I) as [N L]. apply (sum_word 12 _ _ t); auto; try lia.
  - now apply nth_repeat.
  - now rewrite repeat_length.
Qed.

Lemma word_layout o i : order_ok o -> inst_wf i -> pico_word o i = Ok (layout o i).
Proof.
  intros O W. pose proof O as (_ & Pl & Pa & Pm & Pc). unfold pico_word, inst_val, layout.
  destruct i as [op ra rb|op ra rb|op ra imm|op imm c|w]; apply inst_word; auto; cbn [group_ty].
  - apply (op_word logic_n logic_n_inj b_alu _ _ op _ _ Pl); [destruct op; cbn; auto|reflexivity|cbn; lia|apply alu_word].
  - apply (op_word arith_n arith_n_inj b_alu _ _ op _ _ Pa); [destruct op; cbn; auto|reflexivity|cbn; lia|apply alu_word].
  - apply (op_word mem_n mem_n_inj b_mem _ _ op _ _ Pm); [destruct op; cbn; auto|reflexivity|cbn; lia|apply mem_word].
  - apply (op_word ctl_n ctl_n_inj b_ctl _ _ op _ _ Pc); [destruct op; cbn; auto|reflexivity|cbn; lia|now apply ctl_word].
Qed.

Lemma tagged_inj sh w t x t' x' : 0 <= sh -> 0 <= w -> 0 <= t < 2 ^ w -> 0 <= t' < 2 ^ w -> tagged sh w t x = tagged sh w t' x' -> t = t' /\ x = x'.
Proof.
  unfold tagged. intros Hs Hw R R' E. pose proof (pow2_pos sh Hs). apply (add_inj w); auto. nia.
Qed.

Lemma pos_range {A} (num : A -> Z) (Inj : forall x y, num x = num y -> x = y) l all x n : Permutation l all -> In x all -> Z.of_nat (length all) <= n ->
  0 <= Z.of_nat (index num x l) < n.
Proof. intros P I L. destruct (pos_spec num Inj _ _ x P I). lia. Qed.
Lemma pos_inj {A} (num : A -> Z) (Inj : forall x y, num x = num y -> x = y) l all x y : Permutation l all -> In x all -> In y all ->
  Z.of_nat (index num x l) = Z.of_nat (index num y l) -> x = y.
Proof.
  intros P I J E. apply Nat2Z.inj in E. apply (index_inj num Inj l); auto; apply (Permutation_in _ (Permutation_sym P)); auto.
Qed.

(** ** C73 *)

(** The property: encoding an instruction gives its documented word. *)
Definition C73_full : Prop := forall o i, order_ok o -> inst_wf i -> pico_word o i = Ok (documented i).

(** Missing for C73: the word is not the documented one. It is this one. *)
Theorem C73_word_partial o i : order_ok o -> inst_wf i -> pico_word o i = Ok (layout o i).
Proof. apply word_layout. Qed.

(** Words of different instructions are different exactly if they do not collide:
    the two registers of an operation and register and immediate of a memory
    instruction are merged. *)
Theorem C73_collisions o i j : order_ok o -> inst_wf i -> inst_wf j -> (pico_word o i = pico_word o j <-> collide i j).
Proof.
  intros O Wi Wj. rewrite !word_layout by auto. pose proof O as (P & Pl & Pa & Pm & Pc).
  assert (G : forall g, 0 <= Z.of_nat (index group_n g (o_inst o)) < 2 ^ 3).
  { intros g. apply (pos_range group_n group_n_inj _ _ g (2 ^ 3) P); [destruct g; cbn; auto 6|cbn; lia]. }
  assert (GI : forall g h x y, tagged 14 3 (Z.of_nat (index group_n g (o_inst o))) x = tagged 14 3 (Z.of_nat (index group_n h (o_inst o))) y -> g = h /\ x = y).
  { intros g h x y E. apply tagged_inj in E as [E ->]; auto; try lia. split; auto.
    apply (pos_inj group_n group_n_inj _ _ g h P) in E; auto; destruct g, h; cbn; auto 6. }
  split.
  - intros E. injection E as E.
    destruct i as [op ra rb|op ra rb|op ra imm|op imm c|w], j as [op' ra' rb'|op' ra' rb'|op' ra' imm'|op' imm' c'|w']; unfold layout in E;
      apply GI in E as [X E]; try discriminate X; clear X; cbn [collide]; auto;
      apply tagged_inj in E as [X E]; try lia.
    + split; [|lia]. apply (pos_inj logic_n logic_n_inj _ _ op op' Pl); auto; destruct op, op'; cbn; auto.
    + apply (pos_range logic_n logic_n_inj _ _ op (2 ^ 2) Pl); [destruct op; cbn; auto|cbn; lia].
    + apply (pos_range logic_n logic_n_inj _ _ op' (2 ^ 2) Pl); [destruct op'; cbn; auto|cbn; lia].
    + split; [|lia]. apply (pos_inj arith_n arith_n_inj _ _ op op' Pa); auto; destruct op, op'; cbn; auto.
    + apply (pos_range arith_n arith_n_inj _ _ op (2 ^ 2) Pa); [destruct op; cbn; auto|cbn; lia].
    + apply (pos_range arith_n arith_n_inj _ _ op' (2 ^ 2) Pa); [destruct op'; cbn; auto|cbn; lia].
    + split; [|lia]. apply (pos_inj mem_n mem_n_inj _ _ op op' Pm); auto; destruct op, op'; cbn; auto.
    + apply (pos_range mem_n mem_n_inj _ _ op (2 ^ 2) Pm); [destruct op; cbn; auto|cbn; lia].
    + apply (pos_range mem_n mem_n_inj _ _ op' (2 ^ 2) Pm); [destruct op'; cbn; auto|cbn; lia].
    + cbn [inst_wf] in Wi, Wj. assert (imm = imm') by lia. split; [|split; [auto|apply cond_code_inj; lia]].
      apply (pos_inj ctl_n ctl_n_inj _ _ op op' Pc); auto; destruct op, op'; cbn; auto.
    + apply (pos_range ctl_n ctl_n_inj _ _ op (2 ^ 2) Pc); [destruct op; cbn; auto|cbn; lia].
    + apply (pos_range ctl_n ctl_n_inj _ _ op' (2 ^ 2) Pc); [destruct op'; cbn; auto|cbn; lia].
  - destruct i as [op ra rb|op ra rb|op ra imm|op imm c|w], j as [op' ra' rb'|op' ra' rb'|op' ra' imm'|op' imm' c'|w']; cbn [collide]; try tauto; unfold layout.
    + intros [-> ->]; reflexivity.
    + intros [-> ->]; reflexivity.
    + intros [-> ->]; reflexivity.
    + intros (-> & -> & ->); reflexivity.
    + intros ->; reflexivity.
Qed.

(** When the word is the documented one: at most for five instructions. *)
Definition first_of (o : order) (i : pinst) : Prop :=
  match i with
  | ILogic op ra rb => op = pMov /\ ra = 0 /\ rb = 0 /\ nth_error (o_logic o) 0 = Some pMov /\ nth_error (o_inst o) 0 = Some GLogic
  | IArith op ra rb => op = pAdd /\ ra = 0 /\ rb = 0 /\ nth_error (o_arith o) 0 = Some pAdd /\ nth_error (o_inst o) 1 = Some GArith
  | IMem op ra imm => op = pLDLO /\ ra = 0 /\ imm = 0 /\ nth_error (o_mem o) 0 = Some pLDLO /\ nth_error (o_inst o) 2 = Some GMem
  | ICtl op imm c => op = pJump /\ imm = 0 /\ c = kZ /\ nth_error (o_ctl o) 0 = Some pJump /\ nth_error (o_inst o) 3 = Some GCtl
  | IWord w => w = 0 /\ nth_error (o_inst o) 0 = Some GWord
  end.

Lemma lor_zero a b : 0 <= a -> 0 <= b -> Z.lor a b = 0 -> a = 0 /\ b = 0.
Proof. intros _ _. apply Z.lor_eq_0_iff. Qed.

Lemma small_word sh t x d : 0 <= d < 65536 -> 0 <= x -> 0 <= t < 8 -> sh = 14 -> tagged sh 3 t x = d -> x = 0 /\ d = 16384 * t.
Proof. intros Hd Hx Ht -> E. unfold tagged in E. change (2 ^ 14) with 16384 in E. change (2 ^ 3) with 8 in E. lia. Qed.

Lemma index_pos {A} (num : A -> Z) (Inj : forall x y, num x = num y -> x = y) l all x n : Permutation l all -> In x all ->
  Z.of_nat (index num x l) = Z.of_nat n -> nth_error l n = Some x.
Proof. intros P I E. apply Nat2Z.inj in E. subst n. now apply (pos_spec num Inj l all). Qed.
Lemma pos_index {A} (num : A -> Z) (Inj : forall x y, num x = num y -> x = y) l n x : NoDup l -> nth_error l n = Some x -> index num x l = n.
Proof.
  intros N E. destruct (index_nth num Inj l x (nth_error_In _ _ E)) as [E' L]. apply (proj1 (NoDup_nth_error l) N); congruence.
Qed.

Lemma lor_nonneg a b : 0 <= a -> 0 <= b -> 0 <= Z.lor a b.
Proof. intros. apply Z.lor_nonneg. auto. Qed.

Theorem C73_documented o i : order_ok o -> inst_wf i -> (pico_word o i = Ok (documented i) <-> first_of o i).
Proof.
  intros O W. rewrite word_layout by auto. pose proof O as (P & Pl & Pa & Pm & Pc).
  assert (G : forall g, 0 <= Z.of_nat (index group_n g (o_inst o)) < 8).
  { intros g. apply (pos_range group_n group_n_inj _ _ g 8 P); [destruct g; cbn; auto 6|cbn; lia]. }
  assert (N : NoDup (o_inst o)) by (apply (Permutation_NoDup (Permutation_sym P)); repeat (constructor; [cbn; intuition discriminate|]); constructor).
  assert (IG : forall g n, Z.of_nat (index group_n g (o_inst o)) = Z.of_nat n -> nth_error (o_inst o) n = Some g).
  { intros g n. apply (index_pos group_n group_n_inj _ _ g n P). destruct g; cbn; auto 6. }
  assert (T2 : forall t x, 0 <= t -> 0 <= x -> 0 <= tagged 12 2 t x /\ (tagged 12 2 t x = 0 -> t = 0 /\ x = 0)).
  { intros t x Ht Hx. unfold tagged. change (2 ^ 12) with 4096. change (2 ^ 2) with 4. lia. }
  split.
  - intros E. injection E as E. destruct i as [op ra rb|op ra rb|op ra imm|op imm c|w]; cbn [inst_wf] in W; unfold layout in E.
    + pose proof (lor_nonneg ra rb ltac:(lia) ltac:(lia)) as LN. apply small_word in E; auto; [|unfold documented; destruct op; lia|apply T2; lia].
      destruct E as [E D]. apply T2 in E as [E1 E2]; try lia. assert (ZZ : Z.lor ra rb = 0) by lia. apply lor_zero in ZZ as [-> ->]; try lia.
      apply (index_pos logic_n logic_n_inj _ _ op 0 Pl) in E1; [|destruct op; cbn; auto]. unfold documented in D.
      assert (op = pMov) by (destruct op; auto; lia). subst op. cbn [first_of]. repeat split; auto. apply IG. lia.
    + pose proof (lor_nonneg ra rb ltac:(lia) ltac:(lia)) as LN. apply small_word in E; auto; [|unfold documented; destruct op; lia|apply T2; lia].
      destruct E as [E D]. apply T2 in E as [E1 E2]; try lia. assert (ZZ : Z.lor ra rb = 0) by lia. apply lor_zero in ZZ as [-> ->]; try lia.
      apply (index_pos arith_n arith_n_inj _ _ op 0 Pa) in E1; [|destruct op; cbn; auto]. unfold documented in D.
      assert (op = pAdd) by (destruct op; auto; lia). subst op. cbn [first_of]. repeat split; auto. apply IG. lia.
    + pose proof (lor_nonneg (16 * ra) imm ltac:(lia) ltac:(lia)) as LN. apply small_word in E; auto; [|unfold documented; destruct op; lia|apply T2; lia].
      destruct E as [E D]. apply T2 in E as [E1 E2]; try lia. assert (ZZ : Z.lor (16 * ra) imm = 0) by lia. apply lor_zero in ZZ as [Z1 ->]; try lia.
      assert (ra = 0) by lia. subst ra.
      apply (index_pos mem_n mem_n_inj _ _ op 0 Pm) in E1; [|destruct op; cbn; auto]. unfold documented in D.
      assert (op = pLDLO) by (destruct op; auto; lia). subst op. cbn [first_of]. repeat split; auto. apply IG. lia.
    + pose proof (cond_code_range c). apply small_word in E; auto; [|unfold documented; destruct op; lia|apply T2; lia].
      destruct E as [E D]. apply T2 in E as [E1 E2]; try lia. assert (imm = 0) by lia. assert (C0 : cond_code c = cond_code kZ) by (cbn; lia). apply cond_code_inj in C0. subst.
      apply (index_pos ctl_n ctl_n_inj _ _ op 0 Pc) in E1; [|destruct op; cbn; auto]. unfold documented in D. cbn [cond_code] in D.
      assert (op = pJump) by (destruct op; auto; lia). subst op. cbn [first_of]. repeat split; auto. apply IG. lia.
    + apply small_word in E; auto; try (unfold documented; lia). destruct E as [E D]. subst w. cbn [first_of documented] in *. split; auto. apply IG. lia.
  - intros F. f_equal.
    assert (IZ : forall g n, nth_error (o_inst o) n = Some g -> index group_n g (o_inst o) = n) by (intros; now apply (pos_index group_n group_n_inj)).
    destruct i as [op ra rb|op ra rb|op ra imm|op imm c|w]; cbn [first_of] in F; unfold layout.
    + destruct F as (-> & -> & -> & F1 & F2). rewrite (IZ _ _ F2). destruct (o_logic o) as [|y l]; [discriminate|]. injection F1 as ->. reflexivity.
    + destruct F as (-> & -> & -> & F1 & F2). rewrite (IZ _ _ F2). destruct (o_arith o) as [|y l]; [discriminate|]. injection F1 as ->. reflexivity.
    + destruct F as (-> & -> & -> & F1 & F2). rewrite (IZ _ _ F2). destruct (o_mem o) as [|y l]; [discriminate|]. injection F1 as ->. reflexivity.
    + destruct F as (-> & -> & -> & F1 & F2). rewrite (IZ _ _ F2). destruct (o_ctl o) as [|y l]; [discriminate|]. injection F1 as ->. reflexivity.
    + destruct F as (-> & F2). rewrite (IZ _ _ F2). reflexivity.
Qed.

(** Members in the order of their declaration. *)
Definition decl_order : order := Order [GLogic; GArith; GMem; GCtl; GWord] [pMov; pAnd; pOr; pXOr] [pAdd; pSub; pAdc; pSbc] [pLDLO; pLDHI; pLD; pST] [pJump; pCall; pReturn].
Lemma decl_ok : order_ok decl_order. Proof. repeat split; reflexivity. Qed.

(** The skipped test (tests/test_pico_encode.py:16-19) expects 0xcf00 for jmp(0). *)
Example C73_jmp : pico_word decl_order (ICtl pJump 0 kAlways) = Ok (2 ^ 14 * (3 + 8 * 2 ^ 12 * (4 * 65536 * 15))) /\
  documented (ICtl pJump 0 kAlways) = 0xcf00 /\
  pico_word decl_order (IArith pAdd 1 2) = pico_word decl_order (IArith pAdd 3 0) /\
  pico_word decl_order (IMem pLDLO 1 5) = pico_word decl_order (IMem pLDLO 0 21).
Proof. repeat split; vm_compute; reflexivity. Qed.

Theorem C73_full_refuted : ~ C73_full.
Proof.
  intros F. specialize (F decl_order (ICtl pJump 0 kAlways) decl_ok ltac:(cbn; lia)). vm_compute in F. discriminate.
Qed.

Print Assumptions C73_word_partial.
Print Assumptions C73_collisions.
Print Assumptions C73_documented.
Print Assumptions C73_jmp.
Print Assumptions C73_full_refuted.
