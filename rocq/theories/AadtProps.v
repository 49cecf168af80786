(** Property theorems C12-C15: peak/assembler/assembled_adt.py. *)
From Coq Require Import String ZArith List Bool Lia Permutation Sorted.
From Verif Require Import Base BaseLemmas AsmModel AsmSpec AsmValid AsmEnum AsmBuild AsmProofs AsmSub AsmCheck AsmMore AsmProps AadtModel AadtProofs.
Import ListNotations.
Open Scope Z_scope.
Open Scope string_scope.

(** [args_for fs vs args]: each argument is the field's value, or a word holding it
    with zero padding. *)
Definition args_for (fs : list (key * ty)) (vs : list val) (args : list farg) : Prop :=
  length vs = length args /\
  Forall2 (fun f va => arg_for (fun j => j = 0) (snd f) (fst va) (snd va)) fs (combine vs args).

Definition all_wide (fs : list (key * ty)) : Prop := forall k t, In (k, t) fs -> ~ swidth t 0.

Lemma wf_head h t : Forall wf_ty (t :: h) -> wf_ty t.
Proof. inversion 1; auto. Qed.

(** ** C12 from_fields *)
(** The full property; it is false, see [C12_full_refuted]. *)
Definition C12_full : Prop :=
  (forall h c fs a vs args d,
    Forall wf_ty (TProd c fs :: h) -> built h (TProd c fs) a -> args_for fs vs args ->
    exists op, prod_from_fields fs a args d = Ok op /\ aadt_new a (FAdt (VProd vs)) = Ok op) /\
  (forall h g c fs a k t x v,
    Forall wf_ty (TSum g c fs :: h) -> built h (TSum g c fs) a -> In (k, t) fs ->
    arg_for (fun j => j = 0) t v x ->
    exists op, sum_from_fields fs a k x None 0 = Ok op /\ aadt_new a (FAdt (VSum k v)) = Ok op).
Theorem C12_product_partial h c fs a vs args d :
  Forall wf_ty (TProd c fs :: h) -> built h (TProd c fs) a -> args_for fs vs args ->
  fs <> [] -> (length fs = 1%nat \/ all_wide fs) ->
  has_ty (TProd c fs) (VProd vs) -> nonneg_signed (TProd c fs) (VProd vs) ->
  exists op, prod_from_fields fs a args d = Ok op /\ aadt_new a (FAdt (VProd vs)) = Ok op.
Proof.
  intros W B [L F] NE Pos H N. pose proof (wf_head _ _ W) as Wt. pose proof (built_rel h _ a W B) as A.
  destruct (prod_from_fields_ok _ _ c fs a vs args d eq_refl Wt A L F NE Pos) as (op & E & C).
  destruct (assemble_spec _ _ a _ Wt A H N) as (op' & E' & C' & _).
  exists op. split; auto. cbn [aadt_new]. rewrite E'. f_equal. eapply canonical_fun; eauto.
Qed.

(** Negative signed fields included, from_fields gives the encoding with zero
    padding (which assemble does not, see below). *)
Theorem C12_product_canonical h c fs a vs args d :
  Forall wf_ty (TProd c fs :: h) -> built h (TProd c fs) a -> args_for fs vs args ->
  fs <> [] -> (length fs = 1%nat \/ all_wide fs) ->
  exists op, prod_from_fields fs a args d = Ok op /\ canonical (TProd c fs) op (VProd vs).
Proof.
  intros W B [L F] NE Pos.
  exact (prod_from_fields_ok _ _ c fs a vs args d eq_refl (wf_head _ _ W) (built_rel h _ a W B) L F NE Pos).
Qed.

(** The side conditions are exact: otherwise it raises. *)
Theorem C12_product_raises h c fs a vs args d :
  Forall wf_ty (TProd c fs :: h) -> built h (TProd c fs) a -> args_for fs vs args ->
  (fs = [] -> prod_from_fields fs a args d = Err TypeError) /\
  (forall k t, (2 <= length fs)%nat -> In (k, t) fs -> swidth t 0 ->
    prod_from_fields fs a args d = Err ValueError).
Proof.
  intros W B [L F]. split.
  - intros ->. inversion F as [Z|]; subst. destruct vs, args; try discriminate.
    pose proof (built_rel h _ a W B) as A. inversion A as [| | | |? ? w fs' T|]; subst. inversion T; subst. reflexivity.
  - intros k t L2 I S.
    exact (prod_from_fields_zero _ _ c fs a vs args d k t eq_refl (wf_head _ _ W) (built_rel h _ a W B) L F L2 I S).
Qed.

Example C12_product_case : exists fs, ex_isa = TProd "Inst" fs /\ all_wide fs /\
  args_for fs [VEnum (EAuto "Mul"); VSum (ky "pair") (VProd [VBV 171; VBit true]); VBV 5]
    [FWord 3 2; FAdt (VSum (ky "pair") (VProd [VBV 171; VBit true])); FWord 8 5] /\
  prod_from_fields fs ex_asm [FWord 3 2; FAdt (VSum (ky "pair") (VProd [VBV 171; VBit true])); FWord 8 5] 0
  = Ok (2 + 2 ^ 3 * (1 + 2 ^ 2 * (171 + 2 ^ 8)) + 2 ^ 14 * 5).
Proof.
  eexists. split; [reflexivity|].
  assert (swidth ex_op 3 /\ swidth ex_imm 11) as [S1 S2].
  { destruct (C02_assemble_total ex_hist ex_isa ex_val ex_wf ex_has_ty) as (a & op & B & S & _).
    destruct B as [st B]. vm_compute in B. injection B as <- <-. cbn [a_width] in S.
    pose proof ex_wf as W. inversion W as [|? ? W1 _]; subst. inversion W1 as [| | | |? ? ? WF|]; subst.
    inversion WF as [|? ? Wa WF']; subst. inversion WF' as [|? ? Wb _]; subst. cbn [snd] in *.
    assert (forall t w, wf_ty t -> built [] t (match build ps0 t with Ok (a, _) => a | Err _ => AField TBit 0 end) ->
      a_width (match build ps0 t with Ok (a, _) => a | Err _ => AField TBit 0 end) = w -> swidth t w) as X.
    { intros t w Wt Bt <-. apply (asm_rel_width (reqs [t]) t Wt). apply (built_rel [] t); auto. }
    split; apply X; auto; try (eexists; vm_compute; reflexivity); vm_compute; reflexivity. }
  assert (wf_ty ex_op /\ wf_ty ex_imm) as [W1 W2] by (split; apply wf_b_spec; vm_compute; reflexivity).
  split; [|split].
  - intros k t [[= <- <-]|[[= <- <-]|[[= <- <-]|[]]]] S0.
    + assert (3 = 0); [|discriminate]. eapply swidth_fun; eauto.
    + assert (11 = 0); [|discriminate]. eapply swidth_fun; eauto.
    + inversion S0.
  - split; [reflexivity|]. cbn [combine]. constructor; [|constructor; [|constructor; [|constructor]]]; cbn [fst snd].
    + apply af_word; auto. constructor. split; [cbn; auto|].
      destruct (C11_enum_codes [] "Op" [EAuto "Add"; EInt 0; EAuto "Mul"; EInt 4]
        (match build ps0 ex_op with Ok (a, _) => a | Err _ => AField TBit 0 end) (EAuto "Mul") 2) as [X _].
      { constructor; auto. } { eexists; vm_compute; reflexivity. } { cbn; auto. }
      apply X. vm_compute. reflexivity.
    + apply af_val; [apply has_ty_b_spec|apply nonneg_b_spec]; vm_compute; reflexivity.
    + apply af_word; constructor. lia.
  - vm_compute. reflexivity.
Qed.

(** Sum and TaggedUnion: [default] fills the padding. *)
Theorem C12_sum_partial h g c fs a k t x v d :
  Forall wf_ty (TSum g c fs :: h) -> built h (TSum g c fs) a -> In (k, t) fs ->
  arg_for (fun j => j = 0) t v x -> (2 <= length fs)%nat -> ~ swidth t 0 ->
  nonneg_signed t v -> Z.even d = true ->
  exists op, sum_from_fields fs a k x None d = Ok op /\ aadt_new a (FAdt (VSum k v)) = Ok op.
Proof.
  intros W B I AF L NW N Ev. pose proof (wf_head _ _ W) as Wt. pose proof (built_rel h _ a W B) as A.
  assert (wrap 1 d = 0) as Wd.
  { unfold wrap. change (2 ^ 1) with 2. apply Z.even_spec in Ev as [m ->]. rewrite Z.mul_comm. apply Z_mod_mult. }
  destruct (sum_from_fields_ok _ (fun j => j = 0) g c fs a k t x v d eq_refl ltac:(intros; rewrite Wd; lia)
              (reqs_good _ W) Wt A I AF L NW) as (op & E & C).
  destruct (assemble_spec _ _ a (VSum k v) Wt A (enc_has_ty _ _ _ _ C) (ns_sum g c fs k t v I N)) as (op' & E' & C' & _).
  exists op. split; auto. cbn [aadt_new]. rewrite E'. f_equal. eapply canonical_fun; eauto.
Qed.

(** Any default, any padding inside the argument, negative fields included: the
    word holds the value; with default 0 the padding is zero. *)
Theorem C12_sum_encodes h g c fs a k t x v d :
  Forall wf_ty (TSum g c fs :: h) -> built h (TSum g c fs) a -> In (k, t) fs ->
  arg_for (fun _ => True) t v x -> (2 <= length fs)%nat -> ~ swidth t 0 ->
  exists op, sum_from_fields fs a k x None d = Ok op /\ encodes (TSum g c fs) op (VSum k v).
Proof.
  intros W B I AF L NW.
  exact (sum_from_fields_ok _ (fun _ => True) g c fs a k t x v d Logic.I (fun _ _ => Logic.I)
              (reqs_good _ W) (wf_head _ _ W) (built_rel h _ a W B) I AF L NW).
Qed.

(** An explicit [tag_bv] replaces exactly the tag bits. *)
Theorem C12_sum_explicit_tag h g c fs a k t x v d tag :
  Forall wf_ty (TSum g c fs :: h) -> built h (TSum g c fs) a -> In (k, t) fs ->
  arg_for (fun _ => True) t v x -> (2 <= length fs)%nat -> ~ swidth t 0 ->
  let tw := bits_for (Z.of_nat (length fs) - 1) in
  0 <= tag < 2 ^ tw ->
  exists op op', sum_from_fields fs a k x None d = Ok op /\ sum_from_fields fs a k x (Some tag) d = Ok op' /\
    op' mod 2 ^ tw = tag /\ op' / 2 ^ tw = op / 2 ^ tw.
Proof.
  intros W B I AF L NW.
  exact (sum_from_fields_tag _ (fun _ => True) g c fs a k t x v d tag Logic.I
              (reqs_good _ W) (wf_head _ _ W) (built_rel h _ a W B) I AF L NW).
Qed.

(** The side conditions are exact. *)
Theorem C12_sum_raises h g c fs a k t x v d :
  Forall wf_ty (TSum g c fs :: h) -> built h (TSum g c fs) a -> In (k, t) fs ->
  arg_for (fun _ => True) t v x -> (length fs = 1%nat \/ swidth t 0) ->
  sum_from_fields fs a k x None d = Err ValueError.
Proof.
  intros W B I AF H.
  exact (sum_from_fields_bad _ (fun _ => True) g c fs a k t x v d Logic.I
              (reqs_good _ W) (wf_head _ _ W) (built_rel h _ a W B) I AF H).
Qed.

Definition ex_imm_fs := [(ky "short", TBV 4); (ky "pair", TProd "P" [(ky "x", TBV 8); (ky "y", TBit)]); (ky "none", TBV 0)].
Example C12_sum_case : exists a, built [] (TSum true "Imm" ex_imm_fs) a /\
  sum_from_fields ex_imm_fs a (ky "short") (FWord 4 9) None 0 = Ok (2 + 4 * 9) /\
  sum_from_fields ex_imm_fs a (ky "short") (FWord 4 9) None 1 = Ok (2 + 4 * (9 + 16 * 31)) /\
  sum_from_fields ex_imm_fs a (ky "short") (FWord 4 9) (Some 3) 0 = Ok (3 + 4 * 9) /\
  aadt_new a (FAdt (VSum (ky "short") (VBV 9))) = Ok (2 + 4 * 9) /\
  sum_from_fields ex_imm_fs a (ky "none") (FWord 0 0) None 0 = Err ValueError.
Proof. eexists. split; [eexists; vm_compute; reflexivity|]. vm_compute. auto. Qed.

(** Zero-width fields and negative signed fields are counterexamples to the
    unrestricted property. *)
Theorem C12_zero_width_refuted :
  exists fs a vs args op, wf_ty (TProd "P" fs) /\ built [] (TProd "P" fs) a /\ args_for fs vs args /\
    aadt_new a (FAdt (VProd vs)) = Ok op /\ prod_from_fields fs a args 0 = Err ValueError.
Proof.
  exists [(ky "a", TBV 8); (ky "b", TBV 0)]. eexists. exists [VBV 3; VBV 0], [FAdt (VBV 3); FAdt (VBV 0)], 3.
  split; [apply wf_b_spec; reflexivity|]. split; [eexists; vm_compute; reflexivity|].
  split; [|split; vm_compute; reflexivity]. split; [reflexivity|].
  repeat constructor; cbn; try lia.
Qed.

Theorem C12_signed_refuted :
  exists fs a vs args op op', wf_ty (TProd "P" fs) /\ built [] (TProd "P" fs) a /\ args_for fs vs args /\
    all_wide fs /\ prod_from_fields fs a args 0 = Ok op /\ aadt_new a (FAdt (VProd vs)) = Ok op' /\ op <> op'.
Proof.
  exists [(ky "x", TSInt 8); (ky "y", TBit)]. eexists. exists [VBV 255; VBit false], [FAdt (VBV 255); FAdt (VBit false)], 255, 511.
  split; [apply wf_b_spec; reflexivity|]. split; [eexists; vm_compute; reflexivity|].
  split.
  { split; [reflexivity|]. cbn [combine]. constructor; [|constructor; [|constructor]]; cbn [fst snd].
    - apply af_leaf; [constructor; lia|eauto].
    - apply af_val; constructor. }
  split; [intros k t [[= <- <-]|[[= <- <-]|[]]] S; inversion S|].
  split; [vm_compute; reflexivity|]. split; [vm_compute; reflexivity|discriminate].
Qed.

(** ** C13 Field access *)
(** The full property; it is false, see [C13_full_refuted]. *)
Definition C13_full : Prop := forall h t a op v k t' v',
  Forall wf_ty (t :: h) -> built h t a -> has_ty t v ->
  aadt_new a (FAdt v) = Ok op -> sub_val t v [k] t' v' ->
  exists x m lo a', aadt_get a op k = Ok (x, m) /\ sub_path a 0 [k] = Ok (lo, a') /\
    assemble a' v' = Ok x.
(** Reading a field of an assembled value gives the word of the field's value;
    the class of the field reassembles to the same word. *)
Theorem C13_field_access_partial h t a op v k t' v' :
  Forall wf_ty (t :: h) -> built h t a -> has_ty t v -> nonneg_signed t v ->
  aadt_new a (FAdt v) = Ok op -> sub_val t v [k] t' v' -> nonneg_signed t' v' ->
  exists x m lo a', aadt_get a op k = Ok (x, m) /\ sub_path a 0 [k] = Ok (lo, a') /\
    assemble a' v' = Ok x /\ canonical t' x v'.
Proof.
  intros W B H N E Sv N'. cbn [aadt_new] in E. pose proof (wf_head _ _ W) as Wt.
  pose proof (built_rel h t a W B) as A.
  destruct (assemble_spec _ t a v Wt A H N) as (op' & Eo & C & _). rewrite E in Eo. injection Eo as <-.
  destruct (aadt_get_spec _ _ t v k t' v' a op Sv (reqs_good _ W) Wt A C) as (x & m & _ & Eg & Ex & _ & Wt' & _).
  destruct (C08_sub_assemble h t a v op [k] t' v' W B H N N' E Sv) as (lo & a' & Ep & Ea).
  exists x, m, lo, a'. split; auto. split; auto. split; auto.
  rewrite Ea. f_equal.
  destruct (sub_spec _ _ _ _ _ _ _ Sv Wt a op A C 0) as (o & a2 & Ep2 & A2 & W2 & O & L & E2).
  rewrite Ep in Ep2. injection Ep2 as Elo <-. assert (lo = o) as -> by (cbn in Elo; lia). eapply canonical_fun; eauto.
Qed.

(** The same for every word that holds the value, whatever its padding. *)
Theorem C13_field_access_word h t a op v k t' v' :
  Forall wf_ty (t :: h) -> built h t a -> encodes t op v -> sub_val t v [k] t' v' ->
  exists x m, aadt_get a op k = Ok (x, m) /\ encodes t' x v'.
Proof.
  intros W B E Sv.
  destruct (aadt_get_spec _ _ t v k t' v' a op Sv (reqs_good _ W) (wf_head _ _ W) (built_rel h t a W B) E)
    as (x & m & _ & Eg & Ex & _). eauto.
Qed.

Example C13_case : exists op x, aadt_new ex_asm (FAdt ex_val) = Ok op /\
  sub_val ex_isa ex_val [ky "imm"] ex_imm (VSum (ky "pair") (VProd [VBV 171; VBit true])) /\
  aadt_get ex_asm op (ky "imm") = Ok (x, None) /\ x = 1 + 2 ^ 2 * (171 + 2 ^ 8).
Proof.
  do 2 eexists. split; [vm_compute; reflexivity|]. split.
  - eapply sv_prod with (i := 1%nat); [reflexivity|reflexivity|constructor].
  - split; vm_compute; reflexivity.
Qed.

(** ** C14 match *)
Theorem C14_match h g c fs a op k v k' t' :
  Forall wf_ty (TSum g c fs :: h) -> built h (TSum g c fs) a ->
  encodes (TSum g c fs) op (VSum k v) -> In (k', t') fs ->
  exists x b, aadt_get a op k' = Ok (x, Some b) /\ (b = true <-> k' = k).
Proof.
  intros W B E I.
  exact (aadt_match_spec _ _ g c fs k v k' t' a op (reqs_good _ W) (wf_head _ _ W) (built_rel h _ a W B) E I).
Qed.

Example C14_case : exists a op, built [] ex_imm a /\ aadt_new a (FAdt (VSum (ky "short") (VBV 9))) = Ok op /\
  aadt_get a op (ky "short") = Ok (9, Some true) /\ aadt_get a op (ky "pair") = Ok (9, Some false) /\
  aadt_get a op (ky "none") = Ok (0, Some false).
Proof. do 2 eexists. split; [eexists; vm_compute; reflexivity|]. split; [vm_compute; reflexivity|]. vm_compute. auto. Qed.

(** ** C15 Equality *)
(** The full property; it is false, see [C15_full_refuted]. *)
Definition C15_full : Prop := forall h t a v v' op,
  Forall wf_ty (t :: h) -> built h t a -> has_ty t v -> has_ty t v' -> aadt_new a (FAdt v) = Ok op ->
  exists b, aadt_eq a op (FAdt v') = Ok (Some b) /\ (b = true <-> v = v').
(** Proved without negative signed fields. *)
Theorem C15_equality_partial h t a v v' op :
  Forall wf_ty (t :: h) -> built h t a -> has_ty t v -> nonneg_signed t v ->
  has_ty t v' -> nonneg_signed t v' -> aadt_new a (FAdt v) = Ok op ->
  exists op' b, aadt_new a (FAdt v') = Ok op' /\
    aadt_eq a op (FAdt v') = Ok (Some b) /\ aadt_eq a op (FWord (a_width a) op') = Ok (Some b) /\
    (b = true <-> v = v').
Proof.
  intros W B H N H' N' E. cbn [aadt_new] in *.
  destruct (C02_assemble_canonical h t a v' W B H' N') as (op' & E' & _).
  exists op', (op =? op')%Z. cbn [aadt_eq]. rewrite E'. cbn [bind]. rewrite Z.eqb_refl.
  split; auto. split; auto. split; auto. rewrite Z.eqb_eq. split.
  - intros <-. eapply (C03_assemble_injective_partial h t a); eauto.
  - intros <-. congruence.
Qed.

(** A word of another width is not comparable. *)
Theorem C15_other_width a op w x : w <> a_width a -> aadt_eq a op (FWord w x) = Ok None.
Proof. intros N. cbn [aadt_eq]. apply Z.eqb_neq in N. rewrite N. reflexivity. Qed.

Example C15_case : exists op, aadt_new ex_asm (FAdt ex_val) = Ok op /\
  aadt_eq ex_asm op (FAdt ex_val) = Ok (Some true) /\
  aadt_eq ex_asm op (FAdt (VProd [VEnum (EAuto "Mul"); VSum (ky "none") (VBV 0); VBV 5])) = Ok (Some false).
Proof. eexists. split; [vm_compute; reflexivity|]. vm_compute. auto. Qed.

Theorem C15_signed_refuted :
  exists t a v v' op, wf_ty t /\ built [] t a /\ has_ty t v /\ has_ty t v' /\ v <> v' /\
    aadt_new a (FAdt v) = Ok op /\ aadt_eq a op (FAdt v') = Ok (Some true).
Proof.
  destruct C03_signed_refuted as (t & a & v & v' & op & W & B & H & H' & N & E & E').
  exists t, a, v, v', op. repeat (split; [assumption|]). cbn [aadt_eq]. rewrite E'. cbn [bind]. rewrite Z.eqb_refl. auto.
Qed.

(** Words with different padding hold the same value but are unequal. *)
Theorem C15_padding_refuted :
  exists t a op op' v, wf_ty t /\ built [] t a /\ encodes t op v /\ encodes t op' v /\
    aadt_eq a op (FWord (a_width a) op') = Ok (Some false).
Proof.
  set (t := TSum true "U" [(ky "a", TBV 1); (ky "b", TBV 2)]).
  set (a := match build ps0 t with Ok (a, _) => a | Err _ => AField TBit 0 end).
  assert (wf_ty t) as W by (apply wf_b_spec; reflexivity).
  assert (built [] t a) as B by (eexists; vm_compute; reflexivity).
  exists t, a, 0, 4, (VSum (ky "a") (VBV 0)). split; auto. split; auto.
  assert (forall op, 0 <= op < 2 ^ a_width a -> disassemble a op = Ok (VSum (ky "a") (VBV 0)) ->
    encodes t op (VSum (ky "a") (VBV 0))) as X.
  { intros op Rg E. pose proof (C06_any_history [] t a op (Forall_cons _ W (Forall_nil _)) B Rg) as H.
    rewrite E in H. exact H. }
  assert (a_width a = 3) as Ew by reflexivity. rewrite Ew in X.
  split; [apply X; [lia|vm_compute; reflexivity]|]. split; [apply X; [lia|vm_compute; reflexivity]|].
  vm_compute. reflexivity.
Qed.

(** ** Refutations of the unrestricted statements *)
Theorem C12_full_refuted : ~ C12_full.
Proof.
  intros [F _]. destruct C12_zero_width_refuted as (fs & a & vs & args & op & W & B & A & E & D).
  destruct (F [] "P" fs a vs args 0 ltac:(auto) B A) as (op' & E' & _). congruence.
Qed.
Theorem C13_full_refuted : ~ C13_full.
Proof.
  intros F. set (t := TProd "P" [(ky "x", TSInt 8); (ky "y", TBit)]).
  destruct (build ps0 t) as [[a st]|] eqn:B; [|vm_compute in B; discriminate].
  assert (built [] t a) as Bt by (exists st; exact B).
  assert (Forall wf_ty [t]) as W by (constructor; [apply wf_b_spec; reflexivity|constructor]).
  vm_compute in B. injection B as <- <-.
  destruct (F [] t _ 511 (VProd [VBV 255; VBit false]) (ky "y") TBit (VBit false) W Bt) as (x & m & lo & a' & E & P & Ea).
  - apply has_ty_b_spec. reflexivity.
  - vm_compute. reflexivity.
  - eapply sv_prod with (i := 1%nat); [reflexivity|reflexivity|constructor].
  - vm_compute in P. injection P as <- <-. vm_compute in E. injection E as <- <-. vm_compute in Ea. discriminate.
Qed.
Theorem C15_full_refuted : ~ C15_full.
Proof.
  intros F. destruct C15_signed_refuted as (t & a & v & v' & op & W & B & H & H' & N & E & E').
  destruct (F [] t a v v' op ltac:(auto) B H H' E) as (b & Eb & I). apply N. apply I. congruence.
Qed.

Print Assumptions C12_product_partial.
Print Assumptions C12_product_canonical.
Print Assumptions C12_product_raises.
Print Assumptions C12_sum_partial.
Print Assumptions C12_sum_encodes.
Print Assumptions C12_sum_explicit_tag.
Print Assumptions C12_sum_raises.
Print Assumptions C12_zero_width_refuted.
Print Assumptions C12_signed_refuted.
Print Assumptions C13_field_access_partial.
Print Assumptions C13_field_access_word.
Print Assumptions C14_match.
Print Assumptions C15_equality_partial.
Print Assumptions C15_other_width.
Print Assumptions C15_signed_refuted.
Print Assumptions C15_padding_refuted.
Print Assumptions C12_full_refuted.
Print Assumptions C13_full_refuted.
Print Assumptions C15_full_refuted.
