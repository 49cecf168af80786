(** Property theorems C01-C11: peak/assembler. *)
From Coq Require Import String ZArith List Bool Lia Permutation Sorted.
From Verif Require Import Base BaseLemmas AsmModel AsmSpec AsmValid AsmEnum AsmBuild AsmProofs AsmSub AsmCheck AsmMore.
Import ListNotations.
Open Scope Z_scope.
Open Scope string_scope.

(** [built h t a]: [a] is what [Assembler(t)] returns after the assemblers of the
    types in [h] were requested, in that order. *)
Definition built (h : list ty) (t : ty) (a : asm) : Prop :=
  exists st, build (run_history ps0 h) t = Ok (a, st).

Lemma built_rel h t a : Forall wf_ty (t :: h) -> built h t a -> asm_rel (reqs (t :: h)) t a.
Proof.
  intros W [st E]. destruct (build_history h t W) as (a' & st' & E' & A).
  rewrite E in E'. injection E' as <- <-. auto.
Qed.

Lemma acc_reqs ts : same_width_zero_hot ts -> acc_ok (reqs ts).
Proof. intros S ops w0 W (t1 & I1 & R1) (t2 & I2 & R2) Z0 SP.
  exact (S _ _ _ _ _ I1 I2 R1 R2 Z0 SP).
Qed.

Lemma exact_reqs ts : same_width ts -> exact_ok (reqs ts).
Proof.
  intros S ops w0 W (t1 & I1 & R1) (t2 & I2 & R2).
  destruct (S _ _ _ _ _ I1 I2 R1 R2) as [|(A & B & C)]; auto.
Qed.

Lemma same_width_zero ts : same_width ts -> same_width_zero_hot ts.
Proof.
  intros S t1 t2 ops w1 w2 I1 I2 R1 R2 Z0 SP.
  destruct (S _ _ _ _ _ I1 I2 R1 R2) as [|(A & B & C)]; [auto|contradiction].
Qed.

(** ** Example types and values *)
Definition ky (s : string) : key := Key s ("('" ++ s ++ "')").
Definition ex_op : ty := TEnum "Op" [EAuto "Add"; EInt 0; EAuto "Mul"; EInt 4].
Definition ex_imm : ty := TSum true "Imm" [(ky "short", TBV 4); (ky "pair", TProd "P" [(ky "x", TBV 8); (ky "y", TBit)]); (ky "none", TBV 0)].
Definition ex_isa : ty := TProd "Inst" [(ky "op", ex_op); (ky "imm", ex_imm); (ky "s", TSInt 8)].
Definition ex_hist : list ty := [ex_imm; TEnum "Other" [EInt 0; EInt 1; EInt 2; EInt 4]; TSum false "S" [(ky "a", TBit); (ky "b", ex_op)]].
Definition ex_val : val := VProd [VEnum (EAuto "Mul"); VSum (ky "pair") (VProd [VBV 171; VBit true]); VBV 5].

Lemma ex_wf : Forall wf_ty (ex_isa :: ex_hist).
Proof. apply wf_all_b. vm_compute. reflexivity. Qed.
Lemma ex_same_width : same_width (ex_isa :: ex_hist).
Proof. apply same_width_ok_spec; [apply ex_wf|vm_compute; reflexivity]. Qed.
Lemma ex_zero_hot : same_width_zero_hot (ex_isa :: ex_hist).
Proof. apply same_width_zero, ex_same_width. Qed.
Lemma ex_no_multi : no_multi_range ex_isa.
Proof. apply no_multi_ok_spec; [apply wf_b_spec; reflexivity|vm_compute; reflexivity]. Qed.
Lemma ex_has_ty : has_ty ex_isa ex_val.
Proof. apply has_ty_b_spec. vm_compute. reflexivity. Qed.
Lemma ex_nonneg : nonneg_signed ex_isa ex_val.
Proof. apply nonneg_b_spec. vm_compute. reflexivity. Qed.
Definition ex_asm : asm :=
  match build (run_history ps0 ex_hist) ex_isa with Ok (a, _) => a | Err _ => AField TBit 0 end.
Lemma ex_built : built ex_hist ex_isa ex_asm.
Proof. eexists. vm_compute. reflexivity. Qed.

(** ** C01 Round trip *)
(** The full property; it is false, see [C01_full_refuted]. *)
Definition C01_full : Prop := forall h t a v,
  Forall wf_ty (t :: h) -> built h t a -> has_ty t v ->
  exists op, assemble a v = Ok op /\ 0 <= op < 2 ^ a_width a /\
             a_isv a op = true /\ disassemble a op = Ok v.
(** Every well-formed value without negative signed fields is disassembled from
    its opcode, in every history in which no sparse one-hot opcode set containing
    0 is requested at two different widths. *)
Theorem C01_roundtrip_partial h t a v :
  Forall wf_ty (t :: h) -> same_width_zero_hot (t :: h) -> built h t a ->
  has_ty t v -> nonneg_signed t v ->
  exists op, assemble a v = Ok op /\ 0 <= op < 2 ^ a_width a /\
             a_isv a op = true /\ disassemble a op = Ok v.
Proof.
  intros W S B H N. pose proof (built_rel h t a W B) as A.
  assert (wf_ty t) as Wt by (inversion W; auto).
  destruct (assemble_spec _ t a v Wt A H N) as (op & E & C & Rg).
  destruct (dis_spec _ (reqs_good _ W) _ (acc_reqs _ S) t Wt a op v A C). eauto.
Qed.

Example C01_roundtrip_case :
  Forall wf_ty (ex_isa :: ex_hist) /\ same_width_zero_hot (ex_isa :: ex_hist) /\
  built ex_hist ex_isa ex_asm /\ has_ty ex_isa ex_val /\ nonneg_signed ex_isa ex_val /\
  assemble ex_asm ex_val = Ok (2 + 2 ^ 3 * (1 + 2 ^ 2 * (171 + 2 ^ 8)) + 2 ^ 14 * 5).
Proof.
  repeat split; auto using ex_wf, ex_zero_hot, ex_built, ex_has_ty, ex_nonneg.
Qed.

(** Without the hypothesis on histories the property fails: a TaggedUnion with
    nine members, four of one type at tags 0, 1, 2 and 4, caches a validator that
    an Enum with these values then reuses at width 3. *)
Definition bad_union : ty := TSum true "U"
  [(ky "f0", TBV 1); (ky "f1", TBV 1); (ky "f2", TBV 1); (ky "f3", TBV 2); (ky "f4", TBV 1);
   (ky "f5", TBV 2); (ky "f6", TBV 2); (ky "f7", TBV 2); (ky "f8", TBV 2)].
Definition bad_enum : ty := TEnum "E" [EInt 0; EInt 1; EInt 2; EInt 4].
Theorem C01_any_history_refuted :
  exists h t a v op, Forall wf_ty (t :: h) /\ built h t a /\ has_ty t v /\ nonneg_signed t v /\
    assemble a v = Ok op /\ disassemble a op = Err ValueError.
Proof.
  exists [bad_union], bad_enum. do 2 eexists. exists 0.
  split; [apply wf_all_b; vm_compute; reflexivity|].
  split; [eexists; vm_compute; reflexivity|].
  split; [apply ht_enum with (m := EInt 0); cbn; auto|].
  split; [constructor|]. split; vm_compute; reflexivity.
Qed.

(** A negative signed field overwrites the fields above it. *)
Theorem C01_signed_refuted :
  exists t a v v' op, wf_ty t /\ built [] t a /\ has_ty t v /\ v <> v' /\
    assemble a v = Ok op /\ disassemble a op = Ok v'.
Proof.
  exists (TProd "P" [(ky "x", TSInt 8); (ky "y", TBit)]). eexists.
  exists (VProd [VBV 255; VBit false]), (VProd [VBV 255; VBit true]), 511.
  split; [apply wf_b_spec; vm_compute; reflexivity|].
  split; [eexists; vm_compute; reflexivity|].
  split; [apply has_ty_b_spec; vm_compute; reflexivity|]. split; [discriminate|].
  split; vm_compute; reflexivity.
Qed.

(** ** C02 Totality and width *)
(** Construction succeeds in every history, the width is the one expected from
    the type, and every value, negative fields included, assembles to a word of
    that width. *)
Theorem C02_assemble_total h t v :
  Forall wf_ty (t :: h) -> has_ty t v ->
  exists a op, built h t a /\ swidth t (a_width a) /\
    assemble a v = Ok op /\ 0 <= op < 2 ^ a_width a.
Proof.
  intros W H. assert (wf_ty t) as Wt by (inversion W; auto).
  destruct (build_history h t W) as (a & st' & E & A).
  destruct (assemble_total _ t a v Wt A H) as (op & Eo & B).
  destruct (asm_rel_width _ t Wt a A) as [S _].
  exists a, op. split; [exists st'; auto|auto].
Qed.

(** Values without negative fields get the encoding with zero padding. *)
Theorem C02_assemble_canonical h t a v :
  Forall wf_ty (t :: h) -> built h t a -> has_ty t v -> nonneg_signed t v ->
  exists op, assemble a v = Ok op /\ canonical t op v.
Proof.
  intros W B H N. assert (wf_ty t) as Wt by (inversion W; auto).
  destruct (assemble_spec _ t a v Wt (built_rel h t a W B) H N) as (op & E & C & _). eauto.
Qed.

Example C02_case : Forall wf_ty (ex_isa :: ex_hist) /\ has_ty ex_isa ex_val /\ a_width ex_asm = 22.
Proof. repeat split; auto using ex_wf, ex_has_ty. Qed.

(** ** C03 Injectivity *)
(** The full property; it is false, see [C03_full_refuted]. *)
Definition C03_full : Prop := forall h t a v v' op,
  Forall wf_ty (t :: h) -> built h t a -> has_ty t v -> has_ty t v' ->
  assemble a v = Ok op -> assemble a v' = Ok op -> v = v'.
(** Proved without negative signed fields. *)
Theorem C03_assemble_injective_partial h t a v v' op :
  Forall wf_ty (t :: h) -> built h t a ->
  has_ty t v -> nonneg_signed t v -> has_ty t v' -> nonneg_signed t v' ->
  assemble a v = Ok op -> assemble a v' = Ok op -> v = v'.
Proof.
  intros W B H N H' N' E E'. assert (wf_ty t) as Wt by (inversion W; auto).
  pose proof (built_rel h t a W B) as A.
  destruct (assemble_spec _ t a v Wt A H N) as (o & Eo & C & _).
  destruct (assemble_spec _ t a v' Wt A H' N') as (o' & Eo' & C' & _).
  rewrite E in Eo. rewrite E' in Eo'. injection Eo as <-. injection Eo' as <-.
  eapply enc_inj; eauto.
Qed.

Example C03_case : exists op, assemble ex_asm ex_val = Ok op.
Proof. eexists. vm_compute. reflexivity. Qed.

Theorem C03_signed_refuted :
  exists t a v v' op, wf_ty t /\ built [] t a /\ has_ty t v /\ has_ty t v' /\ v <> v' /\
    assemble a v = Ok op /\ assemble a v' = Ok op.
Proof.
  exists (TProd "P" [(ky "x", TSInt 8); (ky "y", TBit)]). eexists.
  exists (VProd [VBV 255; VBit false]), (VProd [VBV 255; VBit true]), 511.
  split; [apply wf_b_spec; vm_compute; reflexivity|].
  split; [eexists; vm_compute; reflexivity|].
  split; [apply has_ty_b_spec; vm_compute; reflexivity|]. split; [apply has_ty_b_spec; vm_compute; reflexivity|]. split; [discriminate|].
  split; vm_compute; reflexivity.
Qed.

(** ** C04 is_valid is exact *)
(** The full property; it is false, see [C04_full_refuted]. *)
Definition C04_full : Prop := forall h t a op,
  Forall wf_ty (t :: h) -> built h t a -> 0 <= op < 2 ^ a_width a ->
  (a_isv a op = true <-> exists v, has_ty t v /\ encodes t op v).
(** Proved when no opcode set of [t] takes the multi-range branch and no sensitive
    opcode set is requested at two widths. *)
Theorem C04_is_valid_exact_partial h t a op :
  Forall wf_ty (t :: h) -> same_width (t :: h) -> no_multi_range t -> built h t a ->
  0 <= op < 2 ^ a_width a ->
  (a_isv a op = true <-> exists v, has_ty t v /\ encodes t op v).
Proof.
  intros W S M B Rg. assert (wf_ty t) as Wt by (inversion W; auto).
  pose proof (built_rel h t a W B) as A. split.
  - intros V. destruct (isv_spec _ (reqs_good _ W) (exact_reqs _ S) t Wt M a op A Rg V) as [v E].
    exists v. split; auto. eapply enc_has_ty; eauto.
  - intros (v & _ & E). apply (dis_spec _ (reqs_good _ W) _ (acc_reqs _ (same_width_zero _ S)) t Wt a op v A E).
Qed.

Example C04_case : Forall wf_ty (ex_isa :: ex_hist) /\ same_width (ex_isa :: ex_hist) /\
  no_multi_range ex_isa /\ built ex_hist ex_isa ex_asm /\ a_isv ex_asm 0 = true /\ a_isv ex_asm 3 = false.
Proof. repeat split; auto using ex_wf, ex_same_width, ex_no_multi, ex_built. Qed.

(** Codes {0,1,2,4,5}: 3 is accepted although no member has this code. *)
Definition multi_enum : ty := TEnum "M" [EInt 0; EInt 1; EInt 2; EInt 4; EInt 5].
Theorem C04_multi_range_refuted :
  exists t a op, wf_ty t /\ built [] t a /\ 0 <= op < 2 ^ a_width a /\
    a_isv a op = true /\ ~ exists v, encodes t op v.
Proof.
  exists multi_enum. eexists. exists 3.
  split; [apply wf_b_spec; vm_compute; reflexivity|].
  split; [eexists; vm_compute; reflexivity|].
  split; [vm_compute; split; [discriminate|reflexivity]|].
  split; [vm_compute; reflexivity|].
  intros [v E]. inversion E as [| | |? ? m k [I C]| |]; subst.
  repeat (destruct I as [<-|I]; [cbn in C; lia|]). destruct I.
Qed.

(** For such code sets every word is accepted, in every history. *)
Theorem C04_multi_range_accepts_all h c ms ops a :
  Forall wf_ty (TEnum c ms :: h) -> built h (TEnum c ms) a ->
  increasing ops -> (forall x, In x ops <-> exists m, enum_code ms m x) -> multi_range ops ->
  forall op, a_isv a op = true.
Proof.
  intros W B I H M op. pose proof (built_rel h _ a W B) as A.
  assert (wf_ty (TEnum c ms)) as Wt by (inversion W; auto).
  inversion A as [| | |? ? tbl ops' w vd E1 E2 E3 (_ & w0 & _ & G)| |]; subst.
  destruct (enum_facts c ms tbl Wt E1) as (_ & ND & NS & Hc & _).
  assert (isort Z.leb (map snd tbl) = ops) as Eq.
  { apply increasing_ext; auto using isort_increasing. intros x. rewrite H. split.
    - intros J. apply isort_In1 in J. apply in_map_iff in J as ([m y] & <- & J). exists m. apply Hc, J.
    - intros [m C]. apply isort_In2. apply Hc in C. apply (in_map snd) in C. exact C. }
  rewrite Eq in G. cbn [a_isv]. eapply gen_rel_multi; eauto.
Qed.

Example C04_multi_case : multi_range [0; 1; 2; 4; 5].
Proof.
  split; [|split; [|split]].
  - intros C. specialize (C 2 4 3 ltac:(cbn; auto) ltac:(cbn; auto 6) ltac:(lia)). cbn in C. lia.
  - intros C. destruct (C 5) as [|(k & Hk & E)]; [cbn; auto 6|lia|].
    destruct (Z_lt_le_dec k 3) as [L|L].
    + assert (k = 0 \/ k = 1 \/ k = 2) as [->|[->| ->]] by lia; discriminate.
    + pose proof (pow2_mono 3 k ltac:(lia)). change (2 ^ 3) with 8 in *. lia.
  - cbn. lia.
  - vm_compute. reflexivity.
Qed.

(** ** C05 is_valid does not depend on the history *)
(** The full property; it is false, see [C05_full_refuted]. *)
Definition C05_full : Prop := forall h h' t a a' op,
  Forall wf_ty (t :: h) -> Forall wf_ty (t :: h') ->
  built h t a -> built h' t a' -> 0 <= op < 2 ^ a_width a ->
  a_isv a op = a_isv a' op.
(** Proved for histories that request no sensitive opcode set at two widths. *)
Theorem C05_is_valid_history_independent_partial h h' t a a' op :
  Forall wf_ty (t :: h) -> Forall wf_ty (t :: h') ->
  same_width (t :: h) -> same_width (t :: h') ->
  built h t a -> built h' t a' -> 0 <= op < 2 ^ a_width a ->
  a_isv a op = a_isv a' op.
Proof.
  intros W W' S S' B B' Rg. assert (wf_ty t) as Wt by (inversion W; auto).
  pose proof (built_rel h t a W B) as A. pose proof (built_rel h' t a' W' B') as A'.
  destruct (asm_rel_width _ t Wt a A) as [Sa _]. destruct (asm_rel_width _ t Wt a' A') as [Sa' _].
  assert (a_width a' = a_width a) as Ew by (eapply swidth_fun; eauto).
  pose proof (isv_agree _ _ t (reqs_good _ W) (exact_reqs _ S) (reqs_good _ W') (exact_reqs _ S') Wt a a' op A A' Rg) as P.
  pose proof (isv_agree _ _ t (reqs_good _ W') (exact_reqs _ S') (reqs_good _ W) (exact_reqs _ S) Wt a' a op A' A) as Q.
  rewrite Ew in Q. specialize (Q Rg).
  destruct (a_isv a op), (a_isv a' op); auto. symmetry; auto.
Qed.

Example C05_case : same_width (ex_isa :: ex_hist) /\ same_width (ex_isa :: []) /\
  exists a, built [] ex_isa a.
Proof.
  split; [apply ex_same_width|]. split.
  - apply same_width_ok_spec; [apply wf_all_b|]; vm_compute; reflexivity.
  - eexists. eexists. vm_compute. reflexivity.
Qed.

(** An Enum {0, 1} followed by a TaggedUnion whose members 0 and 1 share a type:
    after the Enum, the union accepts tag 2 or 3 with a payload of that type. *)
Definition small_enum : ty := TEnum "B" [EInt 0; EInt 1].
Theorem C05_any_history_refuted :
  exists h h' t a a' op, Forall wf_ty (t :: h) /\ Forall wf_ty (t :: h') /\
    built h t a /\ built h' t a' /\ 0 <= op < 2 ^ a_width a /\
    a_isv a op = true /\ a_isv a' op = false.
Proof.
  exists [small_enum], [], (TSum true "U" [(ky "a", TBV 1); (ky "b", TBV 1); (ky "c", TEnum "Z" [EInt 2; EInt 1])]).
  eexists. eexists. exists 3.
  split; [apply wf_all_b; vm_compute; reflexivity|].
  split; [apply wf_all_b; vm_compute; reflexivity|].
  split; [eexists; vm_compute; reflexivity|].
  split; [eexists; vm_compute; reflexivity|].
  split; [vm_compute; split; [discriminate|reflexivity]|].
  split; vm_compute; reflexivity.
Qed.

(** ** C06 Errors of disassemble *)
(** The full property; it is false, see [C06_full_refuted]. *)
Definition C06_full : Prop := forall h t a op,
  Forall wf_ty (t :: h) -> built h t a -> 0 <= op < 2 ^ a_width a ->
  (exists v, disassemble a op = Ok v /\ encodes t op v) \/
  (disassemble a op = Err ValueError /\ forall v, ~ encodes t op v).
(** disassemble returns exactly the encoded value. *)
Theorem C06_disassemble_iff_partial h t a op v :
  Forall wf_ty (t :: h) -> same_width_zero_hot (t :: h) -> built h t a ->
  0 <= op < 2 ^ a_width a ->
  (disassemble a op = Ok v <-> encodes t op v).
Proof.
  intros W S B Rg. assert (wf_ty t) as Wt by (inversion W; auto).
  pose proof (built_rel h t a W B) as A. split.
  - intros D. exact (sound_spec _ t Wt a op v A Rg D).
  - intros E. apply (dis_spec _ (reqs_good _ W) _ (acc_reqs _ S) t Wt a op v A E).
Qed.

Theorem C06_only_ValueError_partial h t a op :
  Forall wf_ty (t :: h) -> same_width (t :: h) -> no_multi_range t -> built h t a ->
  0 <= op < 2 ^ a_width a ->
  (exists v, disassemble a op = Ok v /\ encodes t op v) \/
  (disassemble a op = Err ValueError /\ forall v, ~ encodes t op v).
Proof.
  intros W S M B Rg. assert (wf_ty t) as Wt by (inversion W; auto).
  pose proof (built_rel h t a W B) as A.
  pose proof (C06_disassemble_iff_partial h t a op) as D.
  destruct (a_isv a op) eqn:V.
  - apply (C04_is_valid_exact_partial h t a op W S M B Rg) in V as (v & _ & E). left. exists v. split; auto.
    apply D; auto using same_width_zero.
  - right. split.
    + destruct a; cbn [disassemble]; rewrite V; reflexivity.
    + intros v E. assert (a_isv a op = true) as V'; [|congruence].
      apply (C04_is_valid_exact_partial h t a op W S M B Rg). exists v. split; auto. eapply enc_has_ty; eauto.
Qed.

(** In every history the result is never a wrong instruction and the only other
    exception is KeyError. *)
Theorem C06_any_history h t a op :
  Forall wf_ty (t :: h) -> built h t a -> 0 <= op < 2 ^ a_width a ->
  match disassemble a op with
  | Ok v => encodes t op v
  | Err e => e = ValueError \/ e = KeyError
  end.
Proof.
  intros W B Rg. assert (wf_ty t) as Wt by (inversion W; auto).
  pose proof (built_rel h t a W B) as A. destruct (disassemble a op) as [v|e] eqn:D.
  - exact (sound_spec _ t Wt a op v A Rg D).
  - eapply err_spec; eauto.
Qed.

Example C06_case : Forall wf_ty (ex_isa :: ex_hist) /\ same_width (ex_isa :: ex_hist) /\
  no_multi_range ex_isa /\ built ex_hist ex_isa ex_asm /\
  disassemble ex_asm 3 = Err ValueError /\ exists v, disassemble ex_asm 0 = Ok v.
Proof.
  split; [apply ex_wf|]. split; [apply ex_same_width|]. split; [apply ex_no_multi|].
  split; [apply ex_built|]. split; [vm_compute; reflexivity|]. eexists. vm_compute. reflexivity.
Qed.

Theorem C06_KeyError_refuted :
  exists t a op, wf_ty t /\ built [] t a /\ 0 <= op < 2 ^ a_width a /\ disassemble a op = Err KeyError.
Proof.
  exists multi_enum. eexists. exists 3.
  split; [apply wf_b_spec; vm_compute; reflexivity|].
  split; [eexists; vm_compute; reflexivity|].
  split; [vm_compute; split; [discriminate|reflexivity]|]. vm_compute. reflexivity.
Qed.

(** ** C07 Disassemble, then assemble *)
(** The full property; it is false, see [C07_full_refuted]. *)
Definition C07_full : Prop := forall h t a op v,
  Forall wf_ty (t :: h) -> built h t a -> 0 <= op < 2 ^ a_width a ->
  disassemble a op = Ok v ->
  exists op', assemble a v = Ok op' /\ disassemble a op' = Ok v /\ (canonical t op v -> op' = op).
(** The result encodes the same instruction with zero padding; it is the original
    word when that had zero padding. *)
Theorem C07_reassemble_partial h t a op v :
  Forall wf_ty (t :: h) -> built h t a -> 0 <= op < 2 ^ a_width a ->
  disassemble a op = Ok v -> nonneg_signed t v ->
  exists op', assemble a v = Ok op' /\ canonical t op' v /\ encodes t op v /\
    (canonical t op v -> op' = op).
Proof.
  intros W B Rg D N. assert (wf_ty t) as Wt by (inversion W; auto).
  pose proof (built_rel h t a W B) as A. pose proof (sound_spec _ t Wt a op v A Rg D) as E.
  destruct (assemble_spec _ t a v Wt A (enc_has_ty _ _ _ _ E) N) as (op' & Eo & C & _).
  exists op'. split; auto. split; auto. split; auto. intros C'. eapply canonical_fun; eauto.
Qed.

(** Bit 10 is padding above the short payload: it is cleared. *)
Example C07_case : exists v, disassemble ex_asm (1 * 2 ^ 10) = Ok v /\ nonneg_signed ex_isa v /\
  assemble ex_asm v = Ok 0.
Proof.
  eexists. split; [vm_compute; reflexivity|]. split; [|vm_compute; reflexivity].
  apply nonneg_b_spec. vm_compute. reflexivity.
Qed.

(** ** C08 Sub-assemblers *)
(** [sub[path].idx] of an opcode holds the sub-value: the bits there encode it,
    and the sub-assembler, built through the same caches, disassembles it. *)
Theorem C08_sub_idx h t a op v p t' v' :
  Forall wf_ty (t :: h) -> same_width_zero_hot (t :: h) -> built h t a ->
  encodes t op v -> sub_val t v p t' v' ->
  exists lo a', sub_idx a p = Ok (lo, lo + a_width a') /\
    0 <= lo /\ lo + a_width a' <= a_width a /\ swidth t' (a_width a') /\
    encodes t' (slice op lo (lo + a_width a')) v' /\
    disassemble a' (slice op lo (lo + a_width a')) = Ok v'.
Proof.
  intros W S B E Sv. assert (wf_ty t) as Wt by (inversion W; auto).
  pose proof (built_rel h t a W B) as A.
  destruct (sub_spec _ _ _ _ _ _ _ Sv Wt a op A E 0) as (o & a' & Ep & A' & W' & O & L & E').
  exists o, a'. unfold sub_idx. rewrite Ep. cbn [bind]. split; auto. split; auto. split; auto.
  split; [apply (asm_rel_width _ t' W' a' A')|]. split; auto.
  apply (dis_spec _ (reqs_good _ W) _ (acc_reqs _ S) t' W' a' _ v' A' E').
Qed.

(** Assembling a sub-value with the sub-assembler gives the bits found there. *)
Theorem C08_sub_assemble h t a v op p t' v' :
  Forall wf_ty (t :: h) -> built h t a -> has_ty t v -> nonneg_signed t v -> nonneg_signed t' v' ->
  assemble a v = Ok op -> sub_val t v p t' v' ->
  exists lo a', sub_path a 0 p = Ok (lo, a') /\
    assemble a' v' = Ok (slice op lo (lo + a_width a')).
Proof.
  intros W B H N N' E Sv. assert (wf_ty t) as Wt by (inversion W; auto).
  pose proof (built_rel h t a W B) as A.
  destruct (assemble_spec _ t a v Wt A H N) as (op' & Eo & C & _). rewrite E in Eo. injection Eo as <-.
  destruct (sub_spec _ _ _ _ _ _ _ Sv Wt a op A C 0) as (o & a' & Ep & A' & W' & O & L & E').
  exists o, a'. split; auto.
  destruct (assemble_spec _ t' a' v' W' A' (enc_has_ty _ _ _ _ E') N') as (x & Ex & Cx & _).
  rewrite Ex. f_equal. eapply canonical_fun; eauto.
Qed.

(** [tag_idx] of a Sum found at a path holds the tag that assemble_tag gives. *)
Theorem C08_tag_idx h t a op v p g c fs k v' :
  Forall wf_ty (t :: h) -> built h t a -> encodes t op v ->
  sub_val t v p (TSum g c fs) (VSum k v') ->
  exists lo hi a', sub_tag_idx a p = Ok (lo, hi) /\ sub_path a 0 p = Ok (lo, a') /\
    assemble_tag a' k = Ok (slice op lo hi).
Proof.
  intros W B E Sv. assert (wf_ty t) as Wt by (inversion W; auto).
  pose proof (built_rel h t a W B) as A.
  destruct (sub_spec _ _ _ _ _ _ _ Sv Wt a op A E 0) as (o & a' & Ep & A' & W' & O & L & E').
  inversion E' as [| | | | |? ? ? pre k' t0 post W0 w x junk v0 Hfs SW Sw Ex Hj HJ HW]. subst k' v0.
  destruct (tags_spec _ _ _ _ _ _ _ _ _ (reqs_good _ W) W' A' Hfs) as (T1 & _ & _).
  pose proof (rank_lt _ _ _ _ _ Hfs) as Rl.
  inversion A' as [| | | | |? ? ? sorted tagw pw fs' gs tv E1 E2 Sm G1 G2 Vt]; subst sorted tagw.
  set (tw := bit_length (Z.of_nat (length fs) - 1)) in *.
  assert (bits_for (Z.of_nat (length fs) - 1) = tw) as Eb by (apply bits_for_bit_length; lia).
  assert (rank_at pre k post < 2 ^ tw) as Rt by (rewrite <- Eb; apply lt_pow2_bits_for; lia).
  exists o, (o + tw), a'. unfold sub_tag_idx. rewrite Ep. cbn [bind]. subst a'. rewrite !Z.add_0_l, Z.add_0_r.
  split; auto. split; auto. rewrite T1. f_equal.
  match goal with X : _ = slice op _ _ |- _ => rename X into Hop end.
  rewrite Eb in Hop. cbn [a_width] in *. rewrite !Z.add_0_l in *.
  assert (0 <= tw) as Ptw by apply bit_length_nonneg.
  assert (0 <= tw + pw) as PW by (apply (asm_rel_width _ _ W' _ A')).
  assert (0 <= pw) as Ppw.
  { pose proof (sum_rel_spec _ _ _ _ _ _ _ Sm) as (-> & _). rewrite zmaximum_max by lia. lia. }
  pose proof (slice_low (rank_at pre k post) (x + 2 ^ w * junk) tw Ptw ltac:(lia)) as SL.
  rewrite Hop, slice_slice, Z.add_0_r in SL by lia. auto.
Qed.

Example C08_case : exists v', sub_val ex_isa ex_val [ky "imm"; ky "pair"; ky "x"] (TBV 8) v' /\
  sub_idx ex_asm [ky "imm"; ky "pair"; ky "x"] = Ok (5, 13) /\
  sub_tag_idx ex_asm [ky "imm"] = Ok (3, 5).
Proof.
  eexists. split; [|vm_compute; auto].
  eapply sv_prod with (i := 1%nat); [reflexivity|reflexivity|].
  eapply sv_sum with (t := TProd "P" [(ky "x", TBV 8); (ky "y", TBit)]); [cbn; auto|].
  eapply sv_prod with (i := 0%nat); [reflexivity|reflexivity|]. constructor.
Qed.

(** ** C09 Layout *)
(** The i-th field of a Product starts where the first i fields end; the last
    one ends at the width. *)
Theorem C09_product_layout h c fs a i k u ws wi :
  Forall wf_ty (TProd c fs :: h) -> built h (TProd c fs) a ->
  nth_error fs i = Some (k, u) ->
  Forall2 (fun f w => swidth (snd f) w) (firstn i fs) ws -> swidth u wi ->
  sub_idx a [k] = Ok (zsum ws, zsum ws + wi) /\
  (S i = length fs -> zsum ws + wi = a_width a).
Proof.
  intros W B Ei F Su. assert (wf_ty (TProd c fs)) as Wt by (inversion W; auto).
  pose proof (built_rel h _ a W B) as A. inversion A as [| | | |? ? w fs' T|]; subst.
  assert (Forall (fun f => wf_ty (snd f)) fs) as WF by (inversion Wt; auto).
  assert (NoDup (map fst fs)) as ND by (inversion Wt; auto).
  destruct (tup_find_layout _ _ _ _ _ T ND WF i k u Ei) as (ws' & a & Fw & Etf & Aa & Le & Ps).
  assert (wf_ty u) as Wu by (rewrite Forall_forall in WF; apply (WF _ (nth_error_In _ _ Ei))).
  destruct (asm_rel_width _ u Wu a Aa) as [Sa _].
  assert (forall l wa, Forall (fun f : key * ty => wf_ty (snd f)) l ->
    Forall2 (fun f w => swidth (snd f) w) l wa -> forall wb,
    Forall2 (fun f w => swidth (snd f) w) l wb -> wa = wb) as Funl.
  { clear. induction l as [|f l IH]; intros wa WF Fa wb Fb; inversion Fa; inversion Fb; subst; auto.
    inversion WF; subst. f_equal; [eapply swidth_fun; eauto|eauto]. }
  assert (Forall (fun f : key * ty => wf_ty (snd f)) (firstn i fs)) as WFi.
  { apply Forall_forall. rewrite Forall_forall in WF. intros f I. apply WF.
    rewrite <- (firstn_skipn i fs). apply in_app_iff. auto. }
  assert (ws' = ws) as -> by (eapply Funl; eauto).
  assert (a_width a = wi) as <- by (eapply swidth_fun; eauto).
  split.
  - unfold sub_idx. cbn [sub_path]. rewrite sub_step_tuple, Etf. cbn [bind]. rewrite !Z.add_0_l. auto.
  - intros El. cbn [a_width]. destruct (asm_rel_width _ _ Wt _ A) as [Sw _]. cbn [a_width] in Sw.
    inversion Sw as [| | | |? ? wsa Fa|]; subst.
    assert (fs = (firstn i fs ++ [(k, u)])%list) as Efs.
    { rewrite <- (firstn_skipn i fs) at 1. f_equal. clear - Ei El. revert i Ei El.
      induction fs as [|f fs IH]; intros [|i] Ei El; cbn in *; try discriminate.
      - injection Ei as ->. destruct fs; [auto|discriminate].
      - auto. }
    assert (wsa = (ws ++ [a_width a])%list) as ->.
    { apply (Funl fs wsa WF Fa). rewrite Efs at 1. apply Forall2_app; auto. }
    unfold zsum. rewrite fold_right_app. cbn [fold_right]. clear.
    induction ws as [|x ws IH]; cbn [fold_right]; lia.
Qed.

(** Different fields of a Product occupy disjoint bit ranges. *)
Theorem C09_product_disjoint h c fs a i j k k' u u' :
  Forall wf_ty (TProd c fs :: h) -> built h (TProd c fs) a ->
  nth_error fs i = Some (k, u) -> nth_error fs j = Some (k', u') -> (i < j)%nat ->
  exists lo hi lo' hi', sub_idx a [k] = Ok (lo, hi) /\ sub_idx a [k'] = Ok (lo', hi') /\
    0 <= lo <= hi /\ hi <= lo' /\ lo' <= hi' <= a_width a.
Proof.
  intros W B Ei Ej L. assert (wf_ty (TProd c fs)) as Wt by (inversion W; auto).
  pose proof (built_rel h _ a W B) as A. inversion A as [| | | |? ? w fs' T|]; subst.
  assert (Forall (fun f => wf_ty (snd f)) fs) as WF by (inversion Wt; auto).
  assert (NoDup (map fst fs)) as ND by (inversion Wt; auto).
  destruct (tup_find_layout _ _ _ _ _ T ND WF i k u Ei) as (ws & a & Fw & Etf & Aa & Le & Ps).
  destruct (tup_find_layout _ _ _ _ _ T ND WF j k' u' Ej) as (ws' & a' & Fw' & Etf' & Aa' & Le' & Ps').
  pose proof WF as WFa. rewrite Forall_forall in WFa.
  assert (wf_ty u) as Wu by apply (WFa _ (nth_error_In _ _ Ei)).
  assert (wf_ty u') as Wu' by apply (WFa _ (nth_error_In _ _ Ej)).
  destruct (asm_rel_width _ u Wu a Aa) as [Sa Pa]. destruct (asm_rel_width _ u' Wu' a' Aa') as [Sa' Pa'].
  exists (zsum ws), (zsum ws + a_width a), (zsum ws'), (zsum ws' + a_width a').
  unfold sub_idx. cbn [sub_path]. rewrite !sub_step_tuple, Etf, Etf'. cbn [bind]. rewrite !Z.add_0_l in *.
  split; auto. split; auto. split; [lia|]. split; [|cbn [a_width]; lia].
  clear - WF Fw Fw' L Ei Sa. revert i j ws ws' WF Fw Fw' L Ei.
  induction fs as [|f fs IH]; intros [|i] [|j] ws ws' WF Fw Fw' L Ei; cbn in *; try discriminate; try lia.
  - injection Ei as ->. inversion Fw; subst. inversion Fw' as [|? w1 ? ws1 S1 F1]; subst.
    inversion WF as [|? ? W1 W2]; subst. cbn [snd] in *.
    assert (w1 = a_width a) as -> by (eapply swidth_fun; eauto).
    assert (0 <= zsum ws1); [|unfold zsum in *; cbn [fold_right]; lia].
    eapply zsum_widths_nonneg; [|exact F1]. apply Forall_forall. rewrite Forall_forall in W2.
    intros f I. apply W2. rewrite <- (firstn_skipn j fs). apply in_app_iff. auto.
  - inversion Fw as [|? w0 ? ws0 S0 F0]; inversion Fw' as [|? w1 ? ws1 S1 F1]; subst.
    inversion WF as [|? ? W1 W2]; subst. assert (w1 = w0) as -> by (eapply swidth_fun; eauto).
    specialize (IH i j ws0 ws1 W2 F0 F1 ltac:(lia) Ei). unfold zsum in *. cbn [fold_right]. lia.
Qed.

(** Members of a Sum all start right above the tag. *)
Theorem C09_sum_layout h g c fs a k u w :
  Forall wf_ty (TSum g c fs :: h) -> built h (TSum g c fs) a ->
  In (k, u) fs -> swidth u w ->
  sub_idx a [k] = Ok (bits_for (Z.of_nat (length fs) - 1), bits_for (Z.of_nat (length fs) - 1) + w) /\
  sub_tag_idx a [] = Ok (0, bits_for (Z.of_nat (length fs) - 1)) /\
  bits_for (Z.of_nat (length fs) - 1) + w <= a_width a.
Proof.
  intros W B I Su. assert (wf_ty (TSum g c fs)) as Wt by (inversion W; auto).
  pose proof (built_rel h _ a W B) as A.
  destruct (sub_ty_spec _ _ [k] u (st_sum g c fs k [] u u I (st_here u)) Wt a A 0) as
    (o & a' & Ep & A' & W' & O & L).
  assert (a_width a' = w) as <-.
  { eapply swidth_fun; [|exact Su]. apply (asm_rel_width _ u W' a' A'). }
  unfold sub_idx. rewrite Ep. cbn [bind].
  inversion A as [| | | | |? ? ? sorted tagw pw fs' gs tv E1 E2 Sm G1 G2 Vt]; subst.
  assert (no_dup_keys fs) as ND by (inversion Wt; auto).
  apply (isort_In2 field_leb) in I. apply In_nth_error in I as [i Ri].
  destruct (sum_find_spec _ _ _ _ _ _ _ _ _ _ (sorted_keys_NoDup fs ND) Sm Ri) as (f & Ef & Af).
  cbn [sub_path sub_step] in Ep. rewrite Ef in Ep. injection Ep as Eo <-.
  rewrite bits_for_bit_length.
  - assert (o = bit_length (Z.of_nat (length fs) - 1)) as -> by lia. split; auto.
  - destruct fs; [destruct i; discriminate|cbn [length]; lia].
Qed.

(** Every path of a type stays inside the word. *)
Theorem C09_paths_inside h t a p t' :
  Forall wf_ty (t :: h) -> built h t a -> sub_ty t p t' ->
  exists lo hi, sub_idx a p = Ok (lo, hi) /\ 0 <= lo <= hi /\ hi <= a_width a /\ swidth t' (hi - lo).
Proof.
  intros W B St. assert (wf_ty t) as Wt by (inversion W; auto).
  pose proof (built_rel h _ a W B) as A.
  destruct (sub_ty_spec _ _ _ _ St Wt a A 0) as (o & a' & Ep & A' & W' & O & L).
  destruct (asm_rel_width _ t' W' a' A') as [Sa Pa].
  exists o, (o + a_width a'). unfold sub_idx. rewrite Ep. cbn [bind]. split; auto.
  split; [lia|]. split; [lia|]. replace (o + a_width a' - o) with (a_width a') by lia. auto.
Qed.

Example C09_case : nth_error [(ky "op", ex_op); (ky "imm", ex_imm); (ky "s", TSInt 8)] 2 = Some (ky "s", TSInt 8) /\
  sub_idx ex_asm [ky "s"] = Ok (14, 22) /\ sub_ty ex_isa [ky "imm"; ky "short"] (TBV 4).
Proof.
  split; [reflexivity|]. split; [vm_compute; reflexivity|].
  eapply st_prod with (t := ex_imm); [cbn; auto|]. eapply st_sum with (t := TBV 4); [cbn; auto|]. constructor.
Qed.

(** ** C10 Sum tags *)
(** Tags run from 0 to n-1, each names its member, in every history. *)
Theorem C10_tags h g c fs a pre k u post :
  Forall wf_ty (TSum g c fs :: h) -> built h (TSum g c fs) a -> fs = (pre ++ (k, u) :: post)%list ->
  assemble_tag a k = Ok (rank_at pre k post) /\ 0 <= rank_at pre k post < Z.of_nat (length fs) /\
  is_valid_tag a (rank_at pre k post) = Ok true /\ disassemble_tag a (rank_at pre k post) = Ok k.
Proof.
  intros W B E. assert (wf_ty (TSum g c fs)) as Wt by (inversion W; auto).
  destruct (tags_spec _ g c fs a pre k u post (reqs_good _ W) Wt (built_rel h _ a W B) E) as (A1 & A2 & A3).
  split; auto. split; auto. eapply rank_lt; eauto.
Qed.

(** Different members have different tags. *)
Theorem C10_tags_distinct h g c fs a k k' u u' tag :
  Forall wf_ty (TSum g c fs :: h) -> built h (TSum g c fs) a -> In (k, u) fs -> In (k', u') fs ->
  assemble_tag a k = Ok tag -> assemble_tag a k' = Ok tag -> k = k'.
Proof.
  intros W B I I' E E'. apply in_split in I as (p & q & Ef). apply in_split in I' as (p' & q' & Ef').
  destruct (C10_tags h g c fs a p k u q W B Ef) as (A1 & _ & _ & A3).
  destruct (C10_tags h g c fs a p' k' u' q' W B Ef') as (B1 & _ & _ & B3).
  rewrite E in A1. rewrite E' in B1. injection A1 as A1. injection B1 as B1.
  rewrite <- A1 in A3. rewrite <- B1 in B3. congruence.
Qed.

(** The listing order of the members does not matter when their reprs differ. *)
Theorem C10_tag_order_independent h h' g c fs fs' a a' k u op v :
  Forall wf_ty (TSum g c fs :: h) -> Forall wf_ty (TSum g c fs' :: h') ->
  Permutation fs fs' -> NoDup (map (fun f => krepr (fst f)) fs) ->
  built h (TSum g c fs) a -> built h' (TSum g c fs') a' -> In (k, u) fs ->
  assemble_tag a k = assemble_tag a' k /\
  (encodes (TSum g c fs) op v <-> encodes (TSum g c fs') op v).
Proof.
  intros W W' P ND B B' I. split.
  - pose proof (Permutation_in _ P I) as I'.
    apply in_split in I as (p & q & Ef). apply in_split in I' as (p' & q' & Ef').
    destruct (C10_tags h g c fs a p k u q W B Ef) as (A1 & _).
    destruct (C10_tags h' g c fs' a' p' k u q' W' B' Ef') as (B1 & _).
    rewrite A1, B1. f_equal. eapply rank_perm; eauto.
  - split; apply enc_perm; auto using Permutation_sym.
    eapply Permutation_NoDup; [|exact ND]. apply Permutation_map; auto.
Qed.

Example C10_case : exists a a', built [] ex_imm a /\
  built [] (TSum true "Imm" [(ky "none", TBV 0); (ky "short", TBV 4); (ky "pair", TProd "P" [(ky "x", TBV 8); (ky "y", TBit)])]) a' /\
  assemble_tag a (ky "short") = Ok 2 /\ assemble_tag a' (ky "short") = Ok 2.
Proof. eexists. eexists. split; [|split]; [eexists; vm_compute; reflexivity|eexists; vm_compute; reflexivity|]. vm_compute. auto. Qed.

(** With equal reprs the listing order decides: members a and b of equal repr
    swap tags when listed in the other order. *)
Theorem C10_equal_repr_refuted :
  exists fs fs' a a' k u, Permutation fs fs' /\ wf_ty (TSum false "S" fs) /\ wf_ty (TSum false "S" fs') /\
    built [] (TSum false "S" fs) a /\ built [] (TSum false "S" fs') a' /\ In (k, u) fs /\
    assemble_tag a k <> assemble_tag a' k.
Proof.
  exists [(Key "a" "x", TBV 1); (Key "b" "x", TBV 2)], [(Key "b" "x", TBV 2); (Key "a" "x", TBV 1)].
  eexists. eexists. exists (Key "a" "x"), (TBV 1).
  split; [constructor|]. split; [apply wf_b_spec; reflexivity|]. split; [apply wf_b_spec; reflexivity|].
  split; [eexists; vm_compute; reflexivity|]. split; [eexists; vm_compute; reflexivity|].
  split; [cbn; auto|]. vm_compute. discriminate.
Qed.

(** Words beyond the last tag are invalid; disassemble_tag then raises NameError
    instead of the ValueError it means to raise. *)
Theorem C10_invalid_tag h g c fs a tag :
  Forall wf_ty (TSum g c fs :: h) -> built h (TSum g c fs) a ->
  0 <= tag < 2 ^ bits_for (Z.of_nat (length fs) - 1) ->
  is_valid_tag a tag = Ok (Z.ltb tag (Z.of_nat (length fs))) /\
  (Z.of_nat (length fs) <= tag -> disassemble_tag a tag = Err NameError).
Proof.
  intros W B Rg. assert (wf_ty (TSum g c fs)) as Wt by (inversion W; auto).
  exact (tag_invalid _ g c fs a tag (reqs_good _ W) Wt (built_rel h _ a W B) Rg).
Qed.

Lemma sum_find_none R tagw tag pw l fs pw' k : sum_rel R tagw tag pw l fs pw' -> ~ In k (map fst l) -> sum_find fs k = None.
Proof.
  intros S. induction S as [|tagw tag pw k' t r a rest w A S IH]; intros N; [reflexivity|]. cbn [sum_find map fst] in *.
  destruct (key_eqb k k') eqn:E; [|apply IH; intros I; apply N; now right]. apply key_eqb_eq in E. subst k'. destruct N. now left.
Qed.
(** Assemblers of other types have no tags; a Sum has no tag for a type it does not
    contain. *)
Theorem C10_no_tag h t a :
  Forall wf_ty (t :: h) -> built h t a ->
  match t with
  | TSum _ _ fs => forall k, ~ In k (map fst fs) -> assemble_tag a k = Err KeyError
  | _ => (forall k, assemble_tag a k = Err TypeError) /\ (forall z, is_valid_tag a z = Err TypeError) /\
         (forall z, disassemble_tag a z = Err TypeError)
  end.
Proof.
  intros W B. pose proof (built_rel h t a W B) as A. inversion A; subst; try (repeat split; reflexivity).
  intros k N. cbn [assemble_tag]. rewrite (sum_find_none _ _ _ _ _ _ _ k H1); [reflexivity|]. intros I. apply N.
  apply (Permutation_in _ (Permutation_map fst (isort_perm field_leb fs))). exact I.
Qed.

(** ** C11 Enum codes *)
(** assemble gives explicit members their value, the i-th automatic member the
    i-th natural number that is no explicit value. *)
Theorem C11_enum_codes h c ms a m op :
  Forall wf_ty (TEnum c ms :: h) -> built h (TEnum c ms) a -> In m ms ->
  (assemble a (VEnum m) = Ok op <-> enum_code ms m op).
Proof.
  intros W B I. assert (wf_ty (TEnum c ms)) as Wt by (inversion W; auto).
  destruct (C02_assemble_canonical h _ a (VEnum m) W B (ht_enum c ms m I) (ns_enum c ms m)) as (op' & E & C).
  inversion C as [| | |? ? ? ? C'| |]; subst. split.
  - intros E'. rewrite E in E'. injection E' as <-. auto.
  - intros C2. rewrite E. f_equal. eapply canonical_fun; [exact Wt|exact C|]. constructor. auto.
Qed.

(** Codes of different members differ. *)
Theorem C11_enum_codes_distinct h c ms a m m' op :
  Forall wf_ty (TEnum c ms :: h) -> built h (TEnum c ms) a -> In m ms -> In m' ms ->
  assemble a (VEnum m) = Ok op -> assemble a (VEnum m') = Ok op -> m = m'.
Proof.
  intros W B I I' E E'.
  assert (VEnum m = VEnum m') as X; [|congruence].
  eapply (C03_assemble_injective_partial h _ a); eauto; constructor; auto.
Qed.

Example C11_case : exists a, built [] ex_op a /\
  assemble a (VEnum (EAuto "Add")) = Ok 1 /\ assemble a (VEnum (EAuto "Mul")) = Ok 2 /\ assemble a (VEnum (EInt 4)) = Ok 4.
Proof. eexists. split; [eexists; vm_compute; reflexivity|]. vm_compute. auto. Qed.

(** ** Refutations of the unrestricted statements *)
Theorem C01_full_refuted : ~ C01_full.
Proof.
  intros F. destruct C01_any_history_refuted as (h & t & a & v & op & W & B & H & _ & E & D).
  destruct (F h t a v W B H) as (op' & E' & _ & _ & D'). congruence.
Qed.
Theorem C03_full_refuted : ~ C03_full.
Proof.
  intros F. destruct C03_signed_refuted as (t & a & v & v' & op & W & B & H & H' & N & E & E').
  apply N. eapply (F [] t a); eauto.
Qed.
Theorem C04_full_refuted : ~ C04_full.
Proof.
  intros F. destruct C04_multi_range_refuted as (t & a & op & W & B & R & V & N).
  apply N. destruct (proj1 (F [] t a op ltac:(auto) B R) V) as (v & _ & E). eauto.
Qed.
Theorem C05_full_refuted : ~ C05_full.
Proof.
  intros F. destruct C05_any_history_refuted as (h & h' & t & a & a' & op & W & W' & B & B' & R & V & V').
  pose proof (F h h' t a a' op W W' B B' R). congruence.
Qed.
Theorem C06_full_refuted : ~ C06_full.
Proof.
  intros F. destruct C06_KeyError_refuted as (t & a & op & W & B & R & E).
  destruct (F [] t a op ltac:(auto) B R) as [(v & D & _)|[D _]]; congruence.
Qed.
Theorem C07_full_refuted : ~ C07_full.
Proof.
  intros F. set (t := TProd "P" [(ky "x", TSInt 8); (ky "y", TBit)]).
  destruct (build ps0 t) as [[a st]|] eqn:B; [|vm_compute in B; discriminate].
  assert (built [] t a) as Bt by (exists st; exact B).
  assert (Forall wf_ty [t]) as W by (constructor; [apply wf_b_spec; reflexivity|constructor]).
  vm_compute in B. injection B as <- <-.
  destruct (F [] t _ 255 (VProd [VBV 255; VBit false]) W Bt) as (op' & E & D & _).
  - vm_compute. split; [discriminate|reflexivity].
  - vm_compute. reflexivity.
  - vm_compute in E. injection E as <-. vm_compute in D. discriminate.
Qed.

Print Assumptions C01_roundtrip_partial.
Print Assumptions C01_any_history_refuted.
Print Assumptions C01_signed_refuted.
Print Assumptions C02_assemble_total.
Print Assumptions C02_assemble_canonical.
Print Assumptions C03_assemble_injective_partial.
Print Assumptions C03_signed_refuted.
Print Assumptions C04_is_valid_exact_partial.
Print Assumptions C04_multi_range_refuted.
Print Assumptions C04_multi_range_accepts_all.
Print Assumptions C05_is_valid_history_independent_partial.
Print Assumptions C05_any_history_refuted.
Print Assumptions C06_disassemble_iff_partial.
Print Assumptions C06_only_ValueError_partial.
Print Assumptions C06_any_history.
Print Assumptions C06_KeyError_refuted.
Print Assumptions C07_reassemble_partial.
Print Assumptions C08_sub_idx.
Print Assumptions C08_sub_assemble.
Print Assumptions C08_tag_idx.
Print Assumptions C09_product_layout.
Print Assumptions C09_product_disjoint.
Print Assumptions C09_sum_layout.
Print Assumptions C09_paths_inside.
Print Assumptions C10_tags.
Print Assumptions C10_tags_distinct.
Print Assumptions C10_tag_order_independent.
Print Assumptions C10_equal_repr_refuted.
Print Assumptions C10_invalid_tag.
Print Assumptions C10_no_tag.
Print Assumptions C11_enum_codes.
Print Assumptions C11_enum_codes_distinct.
Print Assumptions C01_full_refuted.
Print Assumptions C03_full_refuted.
Print Assumptions C04_full_refuted.
Print Assumptions C05_full_refuted.
Print Assumptions C06_full_refuted.
Print Assumptions C07_full_refuted.
