(** What [ArchMapper] sees of the architecture of test_basic_rr. *)
From Coq Require Import String ZArith List Bool Arith Lia.
From Verif Require Import Base BaseLemmas BindModel BindProps MapIdxModel MapIdxProps MultiModel MapModel MapProofs MapMain MapProps MapIff MapIffProps MapDirect MapConst
  BvModel SmallPeModel
  AsmModel AsmSpec AsmValid AsmEnum AsmBuild AsmProofs AsmCheck AsmSub AsmProps AadtModel FormModel FormProofs FormMain AdtArchModel AdtArchMain AdtArchProps
  MultiBasicModel MultiBasicProofs BasicMapModel.
Import ListNotations.
Open Scope string_scope.
Open Scope list_scope.
Open Scope Z_scope.

(** ** The assemblers *)
Definition ishape v1 v2 gs tv : asm :=
  ATuple 40 [(fk "inst", (0, 24), shape v1 v2 gs tv); (fk "r0", (24, 32), AField (TBV 8) 8); (fk "r1", (32, 40), AField (TBV 8) 8)].
Definition oshape : asm := ATuple 16 [(fk "0", (0, 8), AField (TBV 8) 8); (fk "1", (8, 16), AField (TBV 8) 8)].

Lemma ishape_of R a : asm_rel R basic_in_t a -> exists v1 v2 gs tv, a = ishape v1 v2 gs tv.
Proof.
  intros H. inversion H as [| | | |? ? ? ? T|]; subst. clear H. change (strip_fields basic_in) with [(fk "inst", basic_inst); (fk "r0", TBV 8); (fk "r1", TBV 8)] in T.
  inversion T as [|? ? ? ? fa ? ? A T1]; subst. clear T. destruct (shape_of R _ A) as (v1 & v2 & gs & tv & ->). clear A.
  repeat match goal with
  | H : tup_rel _ _ _ _ _ |- _ => inversion H; clear H; subst
  | H : asm_rel _ (TBV _) _ |- _ => inversion H; clear H; subst
  end.
  exists v1, v2, gs, tv. reflexivity.
Qed.
Lemma oshape_of R a : asm_rel R basic_out_t a -> a = oshape.
Proof.
  intros H. inversion H as [| | | |? ? ? ? T|]; subst. clear H. change (strip_fields basic_out) with [(fk "0", TBV 8); (fk "1", TBV 8)] in T.
  repeat match goal with
  | H : tup_rel _ _ _ _ _ |- _ => inversion H; clear H; subst
  | H : asm_rel _ (TBV _) _ |- _ => inversion H; clear H; subst
  end.
  reflexivity.
Qed.

(** ** Paths *)
Definition p_rr (s : string) : path := [fk "inst"; fk "RR"; fk s].
Definition p_ri (s : string) : path := [fk "inst"; fk "RI"; fk s].
Definition p_r0 : path := [fk "r0"].
Definition p_r1 : path := [fk "r1"].
Definition p_imm0 : path := p_ri "imm0".
Definition p_imm1 : path := p_ri "imm1".
Definition p_o0 : path := [fk "0"].
Definition p_o1 : path := [fk "1"].
Definition tw (c : bool) : lty := (if c then ["Const"] else [], TBV 8).
Definition form_rr : list path * list (path * Z) := ([p_rr "OP"; p_rr "rs0"; p_rr "rs1"; p_rr "rd"; p_r0; p_r1], [([fk "inst"], 1)]).
Definition form_ri : list path * list (path * Z) := ([p_ri "OP"; p_ri "rs"; p_ri "rd"; p_imm0; p_imm1; p_r0; p_r1], [([fk "inst"], 0)]).
Definition cst (t : ty) : lty := (["Const"], t).
Definition basic_leaves : list (path * lty) :=
  [(p_rr "OP", cst rr_op); (p_rr "rs0", cst (TBV 2)); (p_rr "rs1", cst (TBV 2)); (p_rr "rd", cst (TBV 2));
   (p_ri "OP", cst ri_op); (p_ri "rs", cst (TBV 2)); (p_ri "rd", cst (TBV 2)); (p_imm0, tw true); (p_imm1, tw true);
   (p_r0, tw false); (p_r1, tw false)].

Section Arch.
  Variables (v1 v2 : validator) (gs : list (ty * validator * (Z * Z) * asm)) (tv : validator).
  Let C := basic_class (ishape v1 v2 gs tv) oshape.

  Lemma basic_builds cs : constraints_ok C cs = Ok tt -> exists A, adt_arch C cs = Ok A.
  Proof.
    intros E. unfold adt_arch.
    assert (match (do x <- in_forms C (fun _ => 0) (fun _ => 0); let '(fo, _, _) := x in one_output_form C fo) with Ok _ => true | Err _ => false end = true) as X by (vm_compute; reflexivity).
    destruct (in_forms C (fun _ => 0) (fun _ => 0)) as [[[fo vm] z]|]; [|discriminate X]. cbn [bind] in *.
    destruct (one_output_form C fo); [|discriminate X]. cbn [bind]. rewrite E. cbn [bind]. eauto.
  Qed.

  Lemma leaves_eq : in_flat C = basic_leaves.
  Proof. vm_compute. reflexivity. Qed.
  Lemma outs_eq : out_flat C = [(p_o0, tw false); (p_o1, tw false)].
  Proof. vm_compute. reflexivity. Qed.

  Variables (cs : list (path * list Z)) (A : arch path lty).
  Hypothesis EA : adt_arch C cs = Ok A.
  Lemma forms_eq : a_forms A = [form_rr; form_ri].
  Proof.
    destruct (arch_inv C cs A EA) as (fo & vm & z & E & _ & -> & _).
    assert (match in_forms C (fun _ => 0) (fun _ => 0) with Ok (fo, _, _) => map (fun f => (map fst (f_vars f), map (fun d => (fst d, tag_at C (fst d) (snd d))) (f_dict f))) fo | Err _ => [] end =
      [form_rr; form_ri]) as X by (vm_compute; reflexivity).
    rewrite E in X. exact X.
  Qed.
  Lemma in_eq : a_in A = basic_leaves.
  Proof. destruct (arch_inv C cs A EA) as (_ & _ & _ & _ & _ & _ & -> & _). apply leaves_eq. Qed.
  Lemma out_eq : a_out A = [(p_o0, tw false); (p_o1, tw false)].
  Proof. destruct (arch_inv C cs A EA) as (_ & _ & _ & _ & _ & _ & _ & -> & _). apply outs_eq. Qed.
  Lemma constr_eq : a_constr A = cs.
  Proof. destruct (arch_inv C cs A EA) as (_ & _ & _ & _ & _ & _ & _ & _ & -> & _). reflexivity. Qed.
  Lemma own_rr : own A 0 [fk "inst"] = 1.
  Proof. unfold own. rewrite forms_eq. reflexivity. Qed.
  Lemma own_ri : own A 1 [fk "inst"] = 0.
  Proof. unfold own. rewrite forms_eq. reflexivity. Qed.

  (** The words of the instruction. *)
  Definition rr_word (l : path -> Z) : Z := 1 + 2 * (l (p_rr "OP") + 4 * (l (p_rr "rs0") + 4 * (l (p_rr "rs1") + 4 * l (p_rr "rd")))).
  Definition ri_word (l : path -> Z) : Z :=
    0 + 2 * (l (p_ri "OP") + 8 * (l (p_ri "rs") + 4 * (l (p_ri "rd") + 4 * (l p_imm0 + 256 * l p_imm1)))).

  Definition bounds (l : path -> Z) : Prop :=
    0 <= l (p_rr "OP") < 4 /\ 0 <= l (p_rr "rs0") < 4 /\ 0 <= l (p_rr "rs1") < 4 /\ 0 <= l (p_rr "rd") < 4 /\
    0 <= l (p_ri "OP") < 8 /\ 0 <= l (p_ri "rs") < 4 /\ 0 <= l (p_ri "rd") < 4 /\ byte (l p_imm0) /\ byte (l p_imm1) /\
    byte (l p_r0) /\ byte (l p_r1).
  Lemma typed_bounds l : typed lty_vals (a_in A) l <-> bounds l.
  Proof.
    rewrite in_eq. assert (typed lty_vals basic_leaves l <-> Forall (fun e => 0 <= l (fst e) < 2 ^ leaf_bits (snd (snd e))) basic_leaves) as ->.
    { unfold typed. rewrite Forall_forall. unfold lty_vals. split.
      - intros H [p t] I. apply BaseLemmas.pyrange_In, (H p t I).
      - intros H p t I. apply BaseLemmas.pyrange_In, (H (p, t) I). }
    unfold basic_leaves. rewrite !Forall_cons_iff. cbn [fst snd]. unfold bounds, byte.
    repeat match goal with |- context [2 ^ leaf_bits ?t] => let x := eval vm_compute in (2 ^ leaf_bits t) in change (2 ^ leaf_bits t) with x end.
    split; [intros (? & ? & ? & ? & ? & ? & ? & ? & ? & ? & ? & _); tauto|intros (? & ? & ? & ? & ? & ? & ? & ? & ? & ? & ?); repeat (split; [assumption|]); constructor].
  Qed.

  Definition cat (w r0 r1 : Z) : Z := w + 16777216 * (r0 + 256 * r1).
  Definition zeros (z : Z) : Z := fold_left (fun z i => Z.lor z (Z.shiftl (wrap 1 0) i)) [9; 10; 11; 12; 13; 14; 15; 16; 17; 18; 19; 20; 21; 22; 23] z.
  Lemma zeros_eq z : zeros z = z.
  Proof. unfold zeros. cbn [fold_left]. change (wrap 1 0) with 0. now rewrite !Z.shiftl_0_l, !Z.lor_0_r. Qed.
  Lemma word_rr l : bounds l -> form_word C 0 (own A 0) l = cat (rr_word l) (l p_r0) (l p_r1).
  Proof.
    intros (B1 & B2 & B3 & B4 & _ & _ & _ & _ & _ & B5 & B6). unfold byte in *.
    assert (form_word C 0 (own A 0) l =
      Z.lor (Z.lor (zeros (Z.lor (wrap 1 (own A 0 [fk "inst"])) (Z.shiftl (Z.lor (Z.lor (Z.lor (wrap 2 (l (p_rr "OP"))) (Z.shiftl (wrap 2 (l (p_rr "rs0"))) 2))
        (Z.shiftl (wrap 2 (l (p_rr "rs1"))) 4)) (Z.shiftl (wrap 2 (l (p_rr "rd"))) 6)) 1))) (Z.shiftl (wrap 8 (l p_r0)) 24)) (Z.shiftl (wrap 8 (l p_r1)) 32)) as ->.
    { cbv -[Z.lor Z.land Z.shiftl slice wrap path_eqb own]. reflexivity. }
    rewrite zeros_eq, own_rr. unfold wrap. rewrite !Z.mod_small by lia.
    unfold cat, rr_word.
    rewrite (lor_shiftl_add _ (l (p_rr "rs0"))) by lia. rewrite (lor_shiftl_add _ (l (p_rr "rs1"))) by lia. rewrite (lor_shiftl_add _ (l (p_rr "rd"))) by lia.
    rewrite (lor_shiftl_add 1) by lia. rewrite (lor_shiftl_add _ (l p_r0)) by lia. rewrite (lor_shiftl_add _ (l p_r1)) by lia. lia.
  Qed.
  Lemma word_ri l : bounds l -> form_word C 1 (own A 1) l = cat (ri_word l) (l p_r0) (l p_r1).
  Proof.
    intros (_ & _ & _ & _ & B1 & B2 & B3 & B4 & B5 & B6 & B7). unfold byte in *.
    assert (form_word C 1 (own A 1) l =
      Z.lor (Z.lor (Z.lor (wrap 1 (own A 1 [fk "inst"])) (Z.shiftl (Z.lor (Z.lor (Z.lor (Z.lor (wrap 3 (l (p_ri "OP"))) (Z.shiftl (wrap 2 (l (p_ri "rs"))) 3))
        (Z.shiftl (wrap 2 (l (p_ri "rd"))) 5)) (Z.shiftl (wrap 8 (l p_imm0)) 7)) (Z.shiftl (wrap 8 (l p_imm1)) 15)) 1)) (Z.shiftl (wrap 8 (l p_r0)) 24)) (Z.shiftl (wrap 8 (l p_r1)) 32)) as ->.
    { cbv -[Z.lor Z.land Z.shiftl slice wrap path_eqb own]. reflexivity. }
    rewrite own_ri. unfold wrap. rewrite !Z.mod_small by lia.
    unfold cat, ri_word.
    rewrite (lor_shiftl_add _ (l (p_ri "rs"))) by lia. rewrite (lor_shiftl_add _ (l (p_ri "rd"))) by lia. rewrite (lor_shiftl_add _ (l p_imm0)) by lia.
    rewrite (lor_shiftl_add _ (l p_imm1)) by lia. rewrite (lor_shiftl_add 0) by lia. rewrite (lor_shiftl_add _ (l p_r0)) by lia. rewrite (lor_shiftl_add _ (l p_r1)) by lia. lia.
  Qed.

  (** The fields of a word. *)
  Lemma words_eq z : in_words C z = Ok [slice z 0 24; slice z 24 32; slice z 32 40].
  Proof. reflexivity. Qed.
  Lemma cat_fields w r0 r1 : 0 <= w < 16777216 -> byte r0 -> byte r1 ->
    slice (cat w r0 r1) 0 24 = w /\ slice (cat w r0 r1) 24 32 = r0 /\ slice (cat w r0 r1) 32 40 = r1.
  Proof.
    unfold byte, cat. intros W B0 B1. rewrite !slice_eq by lia.
    change (2 ^ 0) with 1. change (2 ^ (24 - 0)) with 16777216. change (2 ^ 24) with 16777216. change (2 ^ (32 - 24)) with 256. change (2 ^ 32) with 4294967296. change (2 ^ (40 - 32)) with 256.
    Z.to_euclidean_division_equations. lia.
  Qed.

  (** What the words do. *)
  Definition rr_do (op : Z) : binst := if op =? 2 then BMul else BAdd.
  Definition ri_do (op i : Z) : binst := if op =? 3 then BLd i else BAddi i.
  Lemma rr_range l : bounds l -> 0 <= rr_word l < 16777216.
  Proof. unfold bounds, byte, rr_word. lia. Qed.
  Lemma ri_range l : bounds l -> 0 <= ri_word l < 16777216.
  Proof. unfold bounds, byte, ri_word. lia. Qed.
  Lemma rr_dec l : bounds l -> dec (rr_word l) = rr_do (l (p_rr "OP")).
  Proof.
    intros (B1 & B2 & B3 & B4 & _). unfold dec, rr_do, rr_word.
    set (y := l (p_rr "OP") + 4 * (l (p_rr "rs0") + 4 * (l (p_rr "rs1") + 4 * l (p_rr "rd")))). 
    assert (slice (1 + 2 * y) 0 1 = 1) as ->. { rewrite slice_eq by lia. change (2 ^ 0) with 1. change (2 ^ (1 - 0)) with 2. rewrite Z.div_1_r. Z.to_euclidean_division_equations. lia. }
    assert (slice (slice (1 + 2 * y) 1 9) 0 2 = l (p_rr "OP")) as ->; [|reflexivity].
    assert (slice (1 + 2 * y) 1 9 = y) as ->.
    { rewrite slice_eq by lia. change (2 ^ 1) with 2. change (2 ^ (9 - 1)) with 256. assert (0 <= y < 256) by (unfold y; lia). Z.to_euclidean_division_equations. lia. }
    rewrite slice_eq by lia. change (2 ^ 0) with 1. change (2 ^ (2 - 0)) with 4. rewrite Z.div_1_r. unfold y. Z.to_euclidean_division_equations. lia.
  Qed.
  Lemma ri_dec l : bounds l -> dec (ri_word l) = ri_do (l (p_ri "OP")) (l p_imm1).
  Proof.
    intros (_ & _ & _ & _ & B1 & B2 & B3 & B4 & B5 & _). unfold byte in *. unfold dec, ri_do, ri_word.
    set (y := l (p_ri "OP") + 8 * (l (p_ri "rs") + 4 * (l (p_ri "rd") + 4 * (l p_imm0 + 256 * l p_imm1)))). assert (0 <= y < 8388608) as Y by (unfold y; lia).
    assert (slice (0 + 2 * y) 0 1 = 0) as ->. { rewrite slice_eq by lia. change (2 ^ 0) with 1. change (2 ^ (1 - 0)) with 2. rewrite Z.div_1_r. Z.to_euclidean_division_equations. lia. }
    assert (slice (0 + 2 * y) 1 24 = y) as ->.
    { rewrite slice_eq by lia. change (2 ^ 1) with 2. change (2 ^ (24 - 1)) with 8388608. Z.to_euclidean_division_equations. lia. }
    assert (slice y 0 3 = l (p_ri "OP")) as ->.
    { rewrite slice_eq by lia. change (2 ^ 0) with 1. change (2 ^ (3 - 0)) with 8. rewrite Z.div_1_r. unfold y. Z.to_euclidean_division_equations. lia. }
    assert (slice y 15 23 = l p_imm1) as ->; [|reflexivity].
    rewrite slice_eq by lia. change (2 ^ 15) with 32768. change (2 ^ (23 - 15)) with 256. unfold y. Z.to_euclidean_division_equations. lia.
  Qed.

  (** The outputs. *)
  Lemma out_words z p q : c_call C [slice z 0 24; slice z 24 32; slice z 32 40] = [p; q] -> byte p -> byte q ->
    out_at C z p_o0 = p /\ out_at C z p_o1 = q.
  Proof.
    intros E Bp Bq. unfold byte in *.
    assert (forall r, out_at C z r = match (do fo <- out_forms C [slice z 0 24; slice z 24 32; slice z 32 40]; Ok fo) with
      | Ok (f :: _) => match dget path_eqb (f_vars f) r with Some x => x | None => 0 end | _ => 0 end) as O.
    { intros r. unfold out_at. rewrite words_eq. cbn [bind]. destruct (out_forms C _); reflexivity. }
    rewrite !O. unfold out_forms. rewrite E. clear E O.
    assert (wrap_outputs C [p; q] = Ok (p + 256 * q)) as ->.
    { transitivity (@Ok Z (Z.lor p (Z.shiftl q 8))); [cbv -[Z.lor Z.shiftl]; reflexivity|]. rewrite lor_shiftl_add by lia. reflexivity. }
    cbn [bind].
    assert (slice (p + 256 * q) 0 8 = p /\ slice (p + 256 * q) 8 16 = q) as [S1 S2].
    { rewrite !slice_eq by lia. change (2 ^ 0) with 1. change (2 ^ (8 - 0)) with 256. change (2 ^ 8) with 256. change (2 ^ (16 - 8)) with 256. Z.to_euclidean_division_equations. lia. }
    generalize dependent (p + 256 * q). intros v S1 S2. rewrite <- S1, <- S2. clear. split; cbv -[slice]; reflexivity.
  Qed.

  Lemma bsem_byte' d r0 r1 : bimm d -> byte (bsem d r0 r1).
  Proof. unfold byte. destruct d; cbn [bimm bsem]; auto; intros _; apply Z.mod_pos_bound; reflexivity. Qed.
  Lemma call_eq z r0 r1 : c_call C [z; r0; r1] = [bsem (dec z) r0 r1; r0].
  Proof. unfold C, basic_class. cbn [c_call]. change (member_asm (ishape v1 v2 gs tv) (fk "inst")) with (Ok (shape v1 v2 gs tv)). cbv beta iota. now rewrite call_shape. Qed.
  Lemma basic_call_ok : call_ok C.
  Proof.
    intros ws F. inversion F as [|? z ? ? _ F1]; subst. inversion F1 as [|? r0 ? ? H0 F2]; subst. inversion F2 as [|? r1 ? ? _ F3]; subst. inversion F3; subst.
    rewrite call_eq. constructor; [|constructor; [|constructor]].
    - exists 8. split; [constructor|]. apply bsem_byte', dec_imm.
    - destruct H0 as (n & S & B). exists n. auto.
  Qed.

  Definition does (fi : nat) (l : path -> Z) : binst :=
    match fi with 0%nat => rr_do (l (p_rr "OP")) | _ => ri_do (l (p_ri "OP")) (l p_imm1) end.
  Lemma fs_eq fi l : (fi < 2)%nat -> bounds l ->
    adt_fs C A fi l p_o0 = bsem (does fi l) (l p_r0) (l p_r1) /\ adt_fs C A fi l p_o1 = l p_r0.
  Proof.
    intros L B. assert (exists w, form_word C fi (own A fi) l = cat w (l p_r0) (l p_r1) /\ 0 <= w < 16777216 /\ dec w = does fi l) as (w & Ew & Rw & Dw).
    { destruct fi as [|[|fi]]; [exists (rr_word l)|exists (ri_word l)|lia]; split.
      - now apply word_rr. - split; [now apply rr_range|now apply rr_dec].
      - now apply word_ri. - split; [now apply ri_range|now apply ri_dec]. }
    assert (byte (l p_r0) /\ byte (l p_r1)) as [B0 B1] by (unfold bounds in B; tauto).
    destruct (cat_fields w (l p_r0) (l p_r1) Rw B0 B1) as (E1 & E2 & E3).
    unfold adt_fs. rewrite Ew. apply out_words; auto.
    - rewrite E1, E2, E3, call_eq, Dw. reflexivity.
    - apply bsem_byte'. rewrite <- Dw. apply dec_imm.
  Qed.

  (** Valid operations. *)
  Lemma fv_isv fi l w : form_word C fi (own A fi) l = cat w (l p_r0) (l p_r1) -> 0 <= w < 16777216 -> bounds l ->
    adt_fv C A fi l = a_isv (shape v1 v2 gs tv) w.
  Proof.
    intros E R B. assert (byte (l p_r0) /\ byte (l p_r1)) as [B0 B1] by (unfold bounds in B; tauto).
    destruct (cat_fields w (l p_r0) (l p_r1) R B0 B1) as (E1 & _ & _). unfold adt_fv, valid_word. rewrite E.
    change (const_fields C) with [fk "inst"]. cbn [forallb]. rewrite andb_true_r. unfold field_valid.
    change (member_asm (c_ia C) (fk "inst")) with (Ok (shape v1 v2 gs tv)). cbn [bind].
    change (aadt_get (c_ia C) (cat w (l p_r0) (l p_r1)) (fk "inst")) with (Ok (slice (cat w (l p_r0) (l p_r1)) 0 24, @None bool)). cbn [bind fst].
    now rewrite E1.
  Qed.
  Definition rr_of (l : path -> Z) (m : Z) : AsmModel.val :=
    VSum (fk "RR") (VProd [VEnum (EInt m); VBV (l (p_rr "rs0")); VBV (l (p_rr "rs1")); VBV (l (p_rr "rd"))]).
  Definition ri_of (l : path -> Z) (m : Z) : AsmModel.val :=
    VSum (fk "RI") (VProd [VEnum (EInt m); VBV (l (p_ri "rs")); VBV (l (p_ri "rd")); VBV (l p_imm0); VBV (l p_imm1)]).
  Variable R : list Z -> Z -> Prop.
  Hypothesis GR : good_request R.
  Hypothesis AR : acc_ok R.
  Hypothesis SR : asm_rel R basic_inst (shape v1 v2 gs tv).
  Lemma basic_wf : wf_ty basic_inst.
  Proof. apply wf_b_spec. vm_compute. reflexivity. Qed.
  Lemma isv_of v w : has_ty basic_inst v -> nonneg_signed basic_inst v -> a_asm (shape v1 v2 gs tv) v = Ok w -> a_isv (shape v1 v2 gs tv) w = true.
  Proof.
    intros H N E. destruct (a_asm_spec R basic_inst basic_wf _ v SR H N) as (op & E' & Cn). rewrite E in E'. injection E' as <-.
    apply (dis_spec R GR _ AR basic_inst basic_wf _ w v SR (canonical_encodes _ _ _ Cn)).
  Qed.
  Lemma rr_valid l : bounds l -> l (p_rr "OP") = 1 \/ l (p_rr "OP") = 2 -> adt_fv C A 0 l = true.
  Proof.
    intros B M. rewrite (fv_isv 0 l (rr_word l)); auto using word_rr, rr_range.
    pose proof B as (B1 & B2 & B3 & B4 & _). apply (isv_of (rr_of l (l (p_rr "OP")))).
    - unfold rr_of. apply (ht_sum true "Inst" [(fk "RR", rr_inst); (fk "RI", ri_inst)] (fk "RR") rr_inst); [left; reflexivity|].
      constructor. constructor; [|repeat (constructor; [constructor; assumption|])]; [|constructor]. constructor. destruct M as [-> | ->]; cbn; auto.
    - unfold rr_of. apply (ns_sum true "Inst" [(fk "RR", rr_inst); (fk "RI", ri_inst)] (fk "RR") rr_inst); [left; reflexivity|].
      constructor. repeat (constructor; [constructor|]). constructor.
    - transitivity (@Ok Z (Z.lor (Z.shiftl (Z.lor (Z.lor (Z.lor (Z.lor 0 (Z.shiftl (l (p_rr "OP")) 0)) (Z.shiftl (l (p_rr "rs0")) 2)) (Z.shiftl (l (p_rr "rs1")) 4)) (Z.shiftl (l (p_rr "rd")) 6)) 1) 1)).
      + unfold rr_of. destruct M as [-> | ->]; reflexivity.
      + f_equal. rewrite Z.shiftl_0_r, Z.lor_0_l, Z.lor_comm. unfold rr_word.
        rewrite (lor_shiftl_add _ (l (p_rr "rs0"))) by lia. rewrite (lor_shiftl_add _ (l (p_rr "rs1"))) by lia. rewrite (lor_shiftl_add _ (l (p_rr "rd"))) by lia.
        rewrite (lor_shiftl_add 1) by lia. lia.
  Qed.
  Lemma ri_valid l : bounds l -> l (p_ri "OP") = 3 \/ l (p_ri "OP") = 4 -> adt_fv C A 1 l = true.
  Proof.
    intros B M. rewrite (fv_isv 1 l (ri_word l)); auto using word_ri, ri_range.
    pose proof B as (_ & _ & _ & _ & B1 & B2 & B3 & B4 & B5 & _). unfold byte in *. apply (isv_of (ri_of l (l (p_ri "OP")))).
    - unfold ri_of. apply (ht_sum true "Inst" [(fk "RR", rr_inst); (fk "RI", ri_inst)] (fk "RI") ri_inst); [right; left; reflexivity|].
      constructor. constructor; [|repeat (constructor; [constructor; assumption|])]; [|constructor]. constructor. destruct M as [-> | ->]; cbn; auto.
    - unfold ri_of. apply (ns_sum true "Inst" [(fk "RR", rr_inst); (fk "RI", ri_inst)] (fk "RI") ri_inst); [right; left; reflexivity|].
      constructor. repeat (constructor; [constructor|]). constructor.
    - transitivity (@Ok Z (Z.lor (Z.shiftl (Z.lor (Z.lor (Z.lor (Z.lor (Z.lor 0 (Z.shiftl (l (p_ri "OP")) 0)) (Z.shiftl (l (p_ri "rs")) 3)) (Z.shiftl (l (p_ri "rd")) 5)) (Z.shiftl (l p_imm0) 7)) (Z.shiftl (l p_imm1) 15)) 1) 0)).
      + unfold ri_of. destruct M as [-> | ->]; reflexivity.
      + f_equal. rewrite Z.shiftl_0_r, Z.lor_0_l, Z.lor_comm. unfold ri_word.
        rewrite (lor_shiftl_add _ (l (p_ri "rs"))) by lia. rewrite (lor_shiftl_add _ (l (p_ri "rd"))) by lia. rewrite (lor_shiftl_add _ (l p_imm0)) by lia.
        rewrite (lor_shiftl_add _ (l p_imm1)) by lia. rewrite (lor_shiftl_add 0) by lia. lia.
  Qed.
End Arch.
