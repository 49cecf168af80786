(** Property theorems C16-C17: peak/assembler2. *)
From Coq Require Import String ZArith List Bool Lia.
From Verif Require Import Base BaseLemmas AsmModel AsmSpec AsmValid AsmEnum AsmBuild AsmProofs AsmSub AsmCheck AsmMore AsmProps
  AadtModel AadtProofs AadtProps Asm2Model Asm2Proofs.
Import ListNotations.
Open Scope Z_scope.
Open Scope string_scope.

(** ** C16 Both assemblers agree *)
(** The full property; it is false, see [C16_full_refuted]. *)
Definition C16_full : Prop := forall h t a v,
  Forall wf_ty (t :: h) -> built h t a -> has_ty t v ->
  a2_width t = a_width a /\ exists op, assemble a v = Ok op /\ a2_asm t v = Ok op.

(** Proved without negative signed fields. *)
Theorem C16_same_opcode_partial h t a v :
  Forall wf_ty (t :: h) -> built h t a -> has_ty t v -> nonneg_signed t v ->
  a2_width t = a_width a /\ exists op, assemble a v = Ok op /\ a2_asm t v = Ok op.
Proof.
  intros W B H N. pose proof (wf_head _ _ W) as Wt. pose proof (built_rel h t a W B) as A.
  split.
  - eapply swidth_fun; [exact (a2_width_spec t Wt)|apply (asm_rel_width _ t Wt a A)].
  - destruct (assemble_spec _ t a v Wt A H N) as (op & E & C & _).
    destruct (a2_asm_spec t Wt v H) as (op' & E' & C'). exists op. split; auto. rewrite E'. f_equal.
    eapply canonical_fun; eauto.
Qed.

Theorem C16_width h t a : Forall wf_ty (t :: h) -> built h t a ->
  a2_width t = a_width a /\ swidth t (a2_width t).
Proof.
  intros W B. pose proof (wf_head _ _ W) as Wt. pose proof (built_rel h t a W B) as A.
  split; [|exact (a2_width_spec t Wt)].
  eapply swidth_fun; [exact (a2_width_spec t Wt)|apply (asm_rel_width _ t Wt a A)].
Qed.

(** The second assembler gives the zero-padded encoding of every value. *)
Theorem C16_canonical t v : wf_ty t -> has_ty t v ->
  exists op, a2_asm t v = Ok op /\ canonical t op v /\ 0 <= op < 2 ^ a2_width t.
Proof.
  intros W H. destruct (a2_asm_spec t W v H) as (op & E & C). exists op. split; auto. split; auto.
  eapply enc_range; eauto using a2_width_spec.
Qed.

Example C16_case : Forall wf_ty (ex_isa :: ex_hist) /\ built ex_hist ex_isa ex_asm /\
  has_ty ex_isa ex_val /\ nonneg_signed ex_isa ex_val /\ a2_width ex_isa = 22 /\
  a2_asm ex_isa ex_val = Ok (2 + 2 ^ 3 * (1 + 2 ^ 2 * (171 + 2 ^ 8)) + 2 ^ 14 * 5).
Proof.
  repeat (split; [auto using ex_wf, ex_built, ex_has_ty, ex_nonneg|]). split; vm_compute; reflexivity.
Qed.

Theorem C16_full_refuted : ~ C16_full.
Proof.
  intros F. set (t := TProd "P" [(ky "x", TSInt 8); (ky "y", TBit)]).
  destruct (build ps0 t) as [[a st]|] eqn:B; [|vm_compute in B; discriminate].
  assert (built [] t a) as Bt by (exists st; exact B).
  assert (Forall wf_ty [t]) as W by (constructor; [apply wf_b_spec; reflexivity|constructor]).
  vm_compute in B. injection B as <- <-.
  destruct (F [] t _ (VProd [VBV 255; VBit false]) W Bt) as (_ & op & E & E').
  - apply has_ty_b_spec. reflexivity.
  - vm_compute in E, E'. congruence.
Qed.

(** ** C17 Reading words *)
Theorem C17_roundtrip t v : wf_ty t -> has_ty t v ->
  exists op, a2_asm t v = Ok op /\ a2_dsm t op = Ok v.
Proof.
  intros W H. destruct (a2_asm_spec t W v H) as (op & E & C). eauto using a2_dsm_spec.
Qed.

Theorem C17_injective t v v' op : wf_ty t -> has_ty t v -> has_ty t v' ->
  a2_asm t v = Ok op -> a2_asm t v' = Ok op -> v = v'.
Proof.
  intros W H H' E E'. destruct (C17_roundtrip t v W H) as (o & Eo & D).
  destruct (C17_roundtrip t v' W H') as (o' & Eo' & D'). congruence.
Qed.

Theorem C17_disassemble_iff t op v : wf_ty t -> 0 <= op < 2 ^ a2_width t ->
  (a2_dsm t op = Ok v <-> encodes t op v).
Proof. intros W R. split; [apply a2_dsm_sound; auto|apply a2_dsm_spec; auto]. Qed.

(** Words that hold no value raise KeyError. *)
Theorem C17_disassemble_error t op : wf_ty t -> 0 <= op < 2 ^ a2_width t ->
  (a2_dsm t op = Err KeyError <-> forall v, ~ encodes t op v).
Proof.
  intros W R. split.
  - intros E v C. apply (C17_disassemble_iff t op v W R) in C. congruence.
  - intros N. destruct (a2_dsm t op) as [v|e] eqn:D.
    + exfalso. apply (N v). apply C17_disassemble_iff; auto.
    + f_equal. eapply a2_dsm_err; eauto.
Qed.

Example C17_disassemble_case : wf_ty ex_isa /\ a2_dsm ex_isa 3 = Err KeyError /\
  a2_dsm ex_isa (2 + 2 ^ 3 * (1 + 2 ^ 2 * (171 + 2 ^ 8)) + 2 ^ 14 * 5) = Ok ex_val.
Proof. split; [apply wf_b_spec; reflexivity|]. split; vm_compute; reflexivity. Qed.

Theorem C17_extract t op v k t' v' : wf_ty t -> encodes t op v -> sub_val t v [k] t' v' ->
  exists x, a2_extract t op k = Ok x /\ encodes t' x v'.
Proof. apply a2_extract_spec. Qed.

Theorem C17_extract_assembled t v k t' v' : wf_ty t -> has_ty t v -> sub_val t v [k] t' v' -> wf_ty t' -> has_ty t' v' ->
  exists op x, a2_asm t v = Ok op /\ a2_extract t op k = Ok x /\ a2_asm t' v' = Ok x.
Proof.
  intros W H S W' H'. destruct (a2_asm_spec t W v H) as (op & E & C).
  destruct (a2_extract_spec _ t op v k t' v' W C S) as (x & Ex & Cx).
  destruct (a2_asm_spec t' W' v' H') as (x' & E' & C'). exists op, x. split; auto. split; auto.
  rewrite E'. f_equal. eapply canonical_fun; eauto.
Qed.

Example C17_extract_case : exists op, a2_asm ex_isa ex_val = Ok op /\
  sub_val ex_isa ex_val [ky "imm"] ex_imm (VSum (ky "pair") (VProd [VBV 171; VBit true])) /\
  a2_extract ex_isa op (ky "imm") = Ok (1 + 2 ^ 2 * (171 + 2 ^ 8)).
Proof.
  eexists. split; [vm_compute; reflexivity|]. split.
  - eapply sv_prod with (i := 1%nat); [reflexivity|reflexivity|constructor].
  - vm_compute. reflexivity.
Qed.

Theorem C17_match_name g c fs op k v k' t' : wf_ty (TSum g c fs) -> encodes (TSum g c fs) op (VSum k v) ->
  In (k', t') fs -> exists b, a2_match (TSum g c fs) op k' = Ok b /\ (b = true <-> k' = k).
Proof. apply a2_match_spec. Qed.

Theorem C17_match_type g c fs op k v u : wf_ty (TSum g c fs) -> encodes (TSum g c fs) op (VSum k v) ->
  exists b, a2_match_type (TSum g c fs) op u = Ok b /\ (b = true <-> In (k, u) fs).
Proof. apply a2_match_type_spec. Qed.

Example C17_match_case : exists op, a2_asm ex_imm (VSum (ky "short") (VBV 9)) = Ok op /\
  a2_match ex_imm op (ky "short") = Ok true /\ a2_match ex_imm op (ky "pair") = Ok false /\
  a2_match_type ex_imm op (TBV 4) = Ok true /\ a2_match_type ex_imm op (TBV 0) = Ok false.
Proof. eexists. split; [vm_compute; reflexivity|]. vm_compute. auto. Qed.

(** ** C17 from_fields *)
(** [words_for J fs vs xs]: each word has the width of its field and holds its value. *)
Definition words_for (J : Z -> Prop) (fs : list (key * ty)) (vs : list val) (xs : list bv) : Prop :=
  length vs = length xs /\
  Forall2 (fun f vx => word_for J (snd f) (fst vx) (snd vx)) fs (combine vs xs).

(** The full property, for zero padding ([pad] is the content of unset bits);
    it is false, see [C17_full_refuted]. *)
Definition C17_from_fields_full : Prop :=
  (forall c fs vs xs, wf_ty (TProd c fs) -> words_for (fun j => j = 0) fs vs xs ->
    exists op, a2_prod_from_fields (TProd c fs) xs (fun _ => false) = Ok op /\ a2_asm (TProd c fs) (VProd vs) = Ok op) /\
  (forall g c fs k t v x, wf_ty (TSum g c fs) -> In (k, t) fs -> word_for (fun j => j = 0) t v x ->
    exists op, a2_sum_from_fields (TSum g c fs) k x (fun _ => false) = Ok op /\ a2_asm (TSum g c fs) (VSum k v) = Ok op).

(** Proved unless a field has width 0 beside others (or there is none). *)
Theorem C17_product_from_fields_partial c fs vs xs pad : wf_ty (TProd c fs) ->
  fs <> [] -> (length fs = 1%nat \/ all_wide fs) ->
  (words_for (fun _ => True) fs vs xs ->
   exists op, a2_prod_from_fields (TProd c fs) xs pad = Ok op /\ encodes (TProd c fs) op (VProd vs)) /\
  (words_for (fun j => j = 0) fs vs xs ->
   exists op, a2_prod_from_fields (TProd c fs) xs pad = Ok op /\ a2_asm (TProd c fs) (VProd vs) = Ok op).
Proof.
  intros W NE Pos. split; intros [L F].
  - exact (a2_prod_from_fields_ok _ c fs vs xs pad W L F NE Pos).
  - destruct (a2_prod_from_fields_ok _ c fs vs xs pad W L F NE Pos) as (op & E & C). exists op. split; auto.
    destruct (a2_asm_spec _ W (VProd vs) (enc_has_ty _ _ _ _ C)) as (op' & E' & C'). rewrite E'. f_equal. eapply canonical_fun; eauto.
Qed.

(** Proved for members of positive width of a Sum with at least two members; any
    content of the unset bits is padding. *)
Theorem C17_sum_from_fields_partial g c fs k t v x pad : wf_ty (TSum g c fs) -> In (k, t) fs ->
  (2 <= length fs)%nat -> ~ swidth t 0 ->
  (word_for (fun _ => True) t v x ->
   exists op, a2_sum_from_fields (TSum g c fs) k x pad = Ok op /\ encodes (TSum g c fs) op (VSum k v)) /\
  (word_for (fun j => j = 0) t v x ->
   exists op, a2_sum_from_fields (TSum g c fs) k x (fun _ => false) = Ok op /\ a2_asm (TSum g c fs) (VSum k v) = Ok op).
Proof.
  intros W I L N. split; intros F.
  - exact (a2_sum_from_fields_ok _ g c fs k t v x pad W I F (fun _ _ => Logic.I) L N).
  - destruct (a2_sum_from_fields_ok _ g c fs k t v x _ W I F pad_zero L N) as (op & E & C). exists op. split; auto.
    destruct (a2_asm_spec _ W (VSum k v) (enc_has_ty _ _ _ _ C)) as (op' & E' & C'). rewrite E'. f_equal. eapply canonical_fun; eauto.
Qed.

Example C17_from_fields_case :
  a2_sum_from_fields ex_imm (ky "short") (4, 9) (fun _ => false) = Ok (2 + 4 * 9) /\
  a2_sum_from_fields ex_imm (ky "short") (4, 9) (fun i => Nat.eqb i 6) = Ok (2 + 4 * (9 + 16)) /\
  word_for (fun j => j = 0) (TBV 4) (VBV 9) (4, 9) /\
  words_for (fun j => j = 0) [(ky "x", TBV 8); (ky "y", TBit)] [VBV 171; VBit true] [(8, 171); (1, 1)] /\
  a2_prod_from_fields (TProd "P" [(ky "x", TBV 8); (ky "y", TBit)]) [(8, 171); (1, 1)] (fun _ => false) = Ok (171 + 256).
Proof.
  split; [vm_compute; reflexivity|]. split; [vm_compute; reflexivity|].
  split; [split; constructor; lia|]. split; [|vm_compute; reflexivity].
  split; [reflexivity|]. cbn [combine]. constructor; [|constructor; [|constructor]]; cbn [fst snd].
  - split; constructor; lia.
  - split; [constructor|]. apply (enc_bit _ true).
Qed.

Theorem C17_full_refuted : ~ C17_from_fields_full.
Proof.
  intros [F _].
  destruct (F "P" [(ky "a", TBV 8); (ky "b", TBV 0)] [VBV 3; VBV 0] [(8, 3); (0, 0)]) as (op & E & _).
  - apply wf_b_spec. reflexivity.
  - split; [reflexivity|]. cbn [combine]. constructor; [|constructor; [|constructor]]; cbn [fst snd]; split; constructor; lia.
  - vm_compute in E. discriminate.
Qed.

(** The class wrapper passes words on, and wants one argument for each field. *)
Theorem C17_wrapper c fs xs pad :
  aadt2_prod_from_fields (TProd c fs) (map (fun x => FWord (fst x) (snd x)) xs) pad = a2_prod_from_fields (TProd c fs) xs pad /\
  (forall args, length args <> length fs -> aadt2_prod_from_fields (TProd c fs) args pad = Err TypeError).
Proof.
  split.
  - unfold aadt2_prod_from_fields. rewrite map_length. cbn [a2_prod_from_fields]. destruct (Nat.eqb_spec (length fs) (length xs)) as [E|E]; cbn [negb].
    + assert (M : mapM (fun p => a2_as_bv (snd (fst p)) (snd p)) (combine fs (map (fun x => FWord (fst x) (snd x)) xs)) = Ok xs).
      { revert xs E. induction fs as [|f fs IH]; intros [|[w z] xs] E; try discriminate; [reflexivity|]. cbn [map combine mapM fst snd a2_as_bv bind].
        rewrite IH by (cbn in E; lia). reflexivity. }
      rewrite M. cbn [bind a2_prod_from_fields]. rewrite E, Nat.eqb_refl. reflexivity.
    + assert (M : forall l, exists bvs, mapM (fun p => a2_as_bv (snd (fst p)) (snd p)) (combine (l : list (key * ty)) (map (fun x => FWord (fst x) (snd x)) xs)) = Ok bvs).
      { clear E. induction xs as [|x xs IH]; intros [|f l]; try (exists []; reflexivity). cbn [map combine mapM fst snd a2_as_bv bind].
        destruct (IH l) as (b & ->). cbn [bind]. eauto. }
      destruct (M fs) as (b & ->). cbn [bind a2_prod_from_fields]. match goal with |- context [Nat.eqb ?a ?b] => replace (Nat.eqb a b) with false by (symmetry; now apply Nat.eqb_neq) end. reflexivity.
  - intros args N. unfold aadt2_prod_from_fields. destruct (mapM _ _) as [b|e] eqn:M; cbn [bind].
    + destruct (Nat.eqb_spec (length fs) (length args)); [congruence|reflexivity].
    + f_equal. clear N. revert args M. induction fs as [|f fs IH]; intros [|x args] M; try discriminate. cbn [combine mapM fst snd] in M.
      destruct (a2_as_bv (snd f) x) as [b|e'] eqn:Eb; cbn [bind] in M.
      * destruct (mapM _ _) eqn:M'; cbn [bind] in M; [discriminate|]. injection M as <-. now apply IH in M'.
      * injection M as <-. unfold a2_as_bv in Eb. destruct x as [v|]; [|discriminate]. destruct (snd f), v; try discriminate; congruence.
Qed.

(** Sizes of the given words are not checked: two words of wrong sizes whose sum
    is right give a word that holds neither. *)
Theorem C17_size_unchecked_refuted :
  exists t xs op v, wf_ty t /\ a2_prod_from_fields t xs (fun _ => false) = Ok op /\
    t = TProd "P" [(ky "a", TBV 4); (ky "b", TBV 8)] /\ xs = [(8, 255); (4, 0)] /\
    a2_dsm t op = Ok v /\ v = VProd [VBV 15; VBV 15].
Proof.
  do 4 eexists. split; [|split; [|split; [reflexivity|split; [reflexivity|split; [|reflexivity]]]]].
  - apply wf_b_spec. reflexivity.
  - vm_compute. reflexivity.
  - vm_compute. reflexivity.
Qed.

(** The class wrapper of the second package rejects an ADT value as argument for a
    compound field, which the first accepts. *)
Theorem C17_adt_argument_refuted :
  exists fs a vs args op, wf_ty (TProd "P" fs) /\ built [] (TProd "P" fs) a /\ args_for fs vs args /\ all_wide fs /\
    prod_from_fields fs a args 0 = Ok op /\
    aadt2_prod_from_fields (TProd "P" fs) args (fun _ => false) = Err TypeError.
Proof.
  exists [(ky "a", TProd "Q" [(ky "x", TBV 2)]); (ky "b", TBV 8)]. eexists.
  exists [VProd [VBV 1]; VBV 5], [FAdt (VProd [VBV 1]); FAdt (VBV 5)], (1 + 4 * 5).
  split; [apply wf_b_spec; reflexivity|]. split; [eexists; vm_compute; reflexivity|].
  split.
  { split; [reflexivity|]. cbn [combine]. constructor; [|constructor; [|constructor]]; cbn [fst snd];
    (apply af_val; [apply has_ty_b_spec; reflexivity|apply nonneg_b_spec; reflexivity]). }
  split.
  { intros k t [[= <- <-]|[[= <- <-]|[]]] S; inversion S as [| | | |? ? ws F E|]; subst.
    inversion F as [|? ? ? ? S1 F1]; subst. inversion F1; subst. inversion S1; subst. discriminate. }
  split; vm_compute; reflexivity.
Qed.

Print Assumptions C16_same_opcode_partial.
Print Assumptions C16_width.
Print Assumptions C16_canonical.
Print Assumptions C16_full_refuted.
Print Assumptions C17_roundtrip.
Print Assumptions C17_injective.
Print Assumptions C17_disassemble_iff.
Print Assumptions C17_disassemble_error.
Print Assumptions C17_extract.
Print Assumptions C17_extract_assembled.
Print Assumptions C17_match_name.
Print Assumptions C17_match_type.
Print Assumptions C17_product_from_fields_partial.
Print Assumptions C17_sum_from_fields_partial.
Print Assumptions C17_full_refuted.
Print Assumptions C17_size_unchecked_refuted.
Print Assumptions C17_wrapper.
Print Assumptions C17_adt_argument_refuted.
