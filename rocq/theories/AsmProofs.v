(** Assemble, disassemble, is_valid and sub paths against the specification. *)
From Coq Require Import String ZArith List Bool Lia Permutation Sorted.
From Verif Require Import Base BaseLemmas AsmModel AsmSpec AsmValid AsmEnum AsmBuild.
Import ListNotations.
Open Scope Z_scope.

(** * Unfolding equations *)
Fixpoint tup_asm (fs : list (key * (Z * Z) * asm)) (vs : list val) (opcode : Z) : res Z :=
  match fs, vs with
  | [], _ => Ok opcode
  | (_, (lo, _), f) :: fs', v :: vs' =>
      do x <- a_asm f v; tup_asm fs' vs' (Z.lor opcode (Z.shiftl x lo))
  | _, [] => Err KeyError
  end.

Lemma a_asm_tuple w fs vs : a_asm (ATuple w fs) (VProd vs) = tup_asm fs vs 0.
Proof.
  cbn. generalize 0. revert vs. induction fs as [|[[k [lo hi]] f] fs IH]; intros vs z; [reflexivity|].
  destruct vs as [|v vs]; [reflexivity|]. cbn. destruct (a_asm f v); cbn; auto.
Qed.

Lemma a_asm_sum w tagw fs gs tv k v :
  a_asm (ASum w tagw fs gs tv) (VSum k v) =
  match sum_find fs k with
  | None => Err KeyError
  | Some (tag, _, f) => do payload <- a_asm f v; Ok (Z.lor (Z.shiftl payload tagw) tag)
  end.
Proof.
  cbn. induction fs as [|[[[k' tag] lay] f] fs IH]; [reflexivity|]. cbn.
  destruct (key_eqb k k'); auto.
Qed.

Fixpoint find_tag (fs : list (key * Z * (Z * Z) * asm)) (tag : Z) : option (key * (Z * Z) * asm) :=
  match fs with
  | [] => None
  | (k, tag', lay, f) :: fs' => if tag =? tag' then Some (k, lay, f) else find_tag fs' tag
  end.

Lemma disassemble_sum w tagw fs gs tv op :
  disassemble (ASum w tagw fs gs tv) op =
  if negb (a_isv (ASum w tagw fs gs tv) op) then Err ValueError
  else match find_tag fs (slice op 0 tagw) with
       | None => Err KeyError
       | Some (k, (lo, hi), f) => do v <- disassemble f (slice op lo hi); Ok (VSum k v)
       end.
Proof.
  cbn [disassemble]. destruct (negb _); auto.
  induction fs as [|[[[k tag] [lo hi]] f] fs IH]; [reflexivity|]. cbn [find_tag].
  destruct (slice op 0 tagw =? tag); auto.
Qed.

Lemma find_tag_spec R tagw tag pw l fs w i k t :
  sum_rel R tagw tag pw l fs w -> nth_error l i = Some (k, t) ->
  exists a, find_tag fs (tag + Z.of_nat i) = Some (k, (tagw, tagw + a_width a), a) /\ asm_rel R t a.
Proof.
  intros S. revert i. induction S as [|tagw tag pw k' t' r a rest w Ha Hr IH]; intros i E; [destruct i; discriminate|].
  cbn [find_tag]. destruct i as [|i].
  - cbn in E. injection E as -> ->. rewrite Z.add_0_r, Z.eqb_refl. eauto.
  - destruct (Z.eqb_spec (tag + Z.of_nat (S i)) tag); [lia|].
    destruct (IH i E) as (a' & E' & A'). exists a'. split; auto.
    rewrite <- E'. f_equal. lia.
Qed.

Lemma find_tag_inv R tagw tag pw l fs w x k lay a :
  sum_rel R tagw tag pw l fs w -> find_tag fs x = Some (k, lay, a) ->
  exists i t, x = tag + Z.of_nat i /\ nth_error l i = Some (k, t) /\
              lay = (tagw, tagw + a_width a) /\ asm_rel R t a.
Proof.
  intros S. revert x. induction S as [|tagw tag pw k' t' r a' rest w Ha Hr IH]; intros x E; [discriminate|].
  cbn [find_tag] in E. destruct (Z.eqb_spec x tag) as [Ex|N].
  - injection E as -> <- ->. exists O, t'. rewrite Z.add_0_r. auto.
  - destruct (IH x E) as (i & t & -> & A & B & C). exists (Datatypes.S i), t. split; [lia|auto].
Qed.

Lemma sum_find_spec R tagw tag pw l fs w i k t :
  NoDup (map fst l) ->
  sum_rel R tagw tag pw l fs w -> nth_error l i = Some (k, t) ->
  exists a, sum_find fs k = Some (tag + Z.of_nat i, (tagw, tagw + a_width a), a) /\ asm_rel R t a.
Proof.
  intros ND S. revert i. induction S as [|tagw tag pw k' t' r a rest w Ha Hr IH]; intros i E; [destruct i; discriminate|].
  inversion ND as [|? ? N1 N2]; subst. cbn [sum_find]. destruct i as [|i].
  - cbn in E. injection E as -> ->. rewrite (proj2 (key_eqb_eq k k)) by auto. rewrite Z.add_0_r. eauto.
  - cbn in E. destruct (key_eqb k k') eqn:Ek.
    + apply key_eqb_eq in Ek as ->. destruct N1. apply nth_error_In in E. apply (in_map fst) in E. exact E.
    + destruct (IH N2 i E) as (a' & E' & A'). exists a'. split; auto. rewrite E'. do 3 f_equal. lia.
Qed.

Lemma sum_find_inv R tagw tag pw l fs w k x lay a :
  sum_rel R tagw tag pw l fs w -> sum_find fs k = Some (x, lay, a) ->
  exists i t, x = tag + Z.of_nat i /\ nth_error l i = Some (k, t) /\
              lay = (tagw, tagw + a_width a) /\ asm_rel R t a.
Proof.
  intros S. induction S as [|tagw tag pw k' t' r a' rest w Ha Hr IH]; intros E; [discriminate|].
  cbn [sum_find] in E. destruct (key_eqb k k') eqn:Ek.
  - apply key_eqb_eq in Ek as ->. injection E as <- <- ->. exists O, t'. rewrite Z.add_0_r. auto.
  - destruct (IH E) as (i & t & -> & A & B & C). exists (Datatypes.S i), t. split; [lia|auto].
Qed.

(** * Ranges of encodings *)
Lemma zsum_widths_nonneg fs ws :
  Forall (fun f : key * ty => wf_ty (snd f)) fs ->
  Forall2 (fun f w => swidth (snd f) w) fs ws -> 0 <= zsum ws.
Proof.
  intros W F. revert W. induction F as [|f w fs ws S F IH]; intros W; unfold zsum in *; cbn; [lia|].
  inversion W; subst. pose proof (swidth_nonneg _ H1 _ S). specialize (IH H2). lia.
Qed.

Lemma enc_range J t : wf_ty t -> forall op v w, enc J t op v -> swidth t w -> 0 <= op < 2 ^ w.
Proof.
  induction t as [| | |c ms|c fs IH|g c fs IH] using ty_ind'; intros W op v w0 E S.
  - inversion E; inversion S; subst. destruct b; cbn; lia.
  - inversion E; inversion S; subst; auto.
  - inversion E; inversion S; subst; auto.
  - inversion E as [| | |? ? m k C| |]; inversion S as [| | |? ? mx X M| |]; subst.
    assert (0 <= op) by (eapply enum_code_nonneg; eauto).
    specialize (M _ _ C). split; auto. apply lt_pow2_bits_for. lia.
  - inversion E as [| | | |? ? ? vs F|]; inversion S as [| | | |? ? ws FW|]; subst.
    assert (Forall (fun f => wf_ty (snd f)) fs) as WF by (inversion W; auto).
    clear E S W. revert op vs F IH WF. induction FW as [|[k t] w fs ws Sw FW IHF]; intros op vs F IH WF.
    + inversion F; subst. cbn. lia.
    + inversion F as [|? ? ? w' x y v vs' Sw' Ex Ef]; subst.
      inversion IH as [|? ? I1 I2]; inversion WF as [|? ? W1 W2]; subst. cbn [snd] in *.
      assert (w' = w) as -> by (eapply swidth_fun; eauto).
      pose proof (I1 W1 _ _ _ Ex Sw). specialize (IHF _ _ Ef I2 W2).
      assert (0 <= w) by (eapply swidth_nonneg; eauto).
      assert (0 <= zsum ws) by (eapply zsum_widths_nonneg; eauto).
      change (zsum (w :: ws)) with (w + zsum ws).
      rewrite pow2_split by lia. nia.
  - inversion E as [| | | | |? ? ? pre k t post W0 w x junk v0 Hfs SW Sw Ex Hj HJ HW]; subst.
    assert (w0 = W0) as -> by (eapply swidth_fun; eauto). split; auto.
    assert (In (k, t) (pre ++ (k, t) :: post)) as I by (apply in_app_iff; right; left; auto).
    assert (wf_ty t) as Wt by (eapply wf_members_sum; eauto).
    rewrite Forall_forall in IH. pose proof (IH _ I Wt _ _ _ Ex Sw) as Rx.
    pose proof (rank_nonneg pre k post).
    pose proof (swidth_nonneg _ Wt _ Sw). pose proof (pow2_pos w ltac:(auto)).
    pose proof (pow2_pos _ (bits_for_nonneg (Z.of_nat (length (pre ++ (k, t) :: post)) - 1))).
    nia.
Qed.

(** * Assembling *)
Lemma leaf_sint w z : 1 <= w -> 0 <= z < 2 ^ (w - 1) -> to_signed w z = z.
Proof.
  intros. unfold to_signed.
  assert (Z.testbit z (w - 1) = false) as ->; auto.
  destruct (Z.eq_dec z 0) as [->|]; [apply Z.bits_0|].
  apply Z.bits_above_log2; [lia|]. apply Z.log2_lt_pow2; lia.
Qed.

Lemma in_split_key fs (k : key) (t : ty) : In (k, t) fs -> exists pre post, fs = pre ++ (k, t) :: post.
Proof. apply in_split. Qed.

Lemma nodup_key_fun fs (k : key) (t t' : ty) :
  no_dup_keys fs -> In (k, t) fs -> In (k, t') fs -> t = t'.
Proof.
  unfold no_dup_keys. induction fs as [|[k0 t0] fs IH]; cbn; [tauto|]. intros ND A B.
  inversion ND; subst. destruct A as [[= -> ->]|A], B as [B|B].
  - congruence.
  - destruct H1. apply (in_map fst) in B. exact B.
  - injection B as -> ->. destruct H1. apply (in_map fst) in A. exact A.
  - auto.
Qed.

Lemma sorted_keys_NoDup fs : no_dup_keys fs -> NoDup (map fst (isort field_leb fs)).
Proof.
  intros ND. eapply Permutation_NoDup; [|exact ND]. apply Permutation_map. symmetry. apply isort_perm.
Qed.

Lemma tup_asm_spec R b fs w fs' : tup_rel R b fs w fs' ->
  forall acc vs,
  Forall (fun f => wf_ty (snd f) -> forall a v, asm_rel R (snd f) a -> has_ty (snd f) v ->
            nonneg_signed (snd f) v -> exists op, a_asm a v = Ok op /\ canonical (snd f) op v) fs ->
  Forall (fun f => wf_ty (snd f)) fs ->
  Forall2 (fun f v => has_ty (snd f) v) fs vs ->
  Forall2 (fun f v => nonneg_signed (snd f) v) fs vs ->
  0 <= b -> 0 <= acc < 2 ^ b ->
  exists y, tup_asm fs' vs acc = Ok (acc + 2 ^ b * y) /\ enc_fields (fun j => j = 0) fs y vs.
Proof.
  induction 1 as [b|b k t r w a rest Ha Tr IHT]; intros acc vs IH WF F F' Hb Hacc.
  - inversion F; subst. exists 0. cbn. rewrite Z.mul_0_r, Z.add_0_r. split; auto. constructor.
  - inversion F as [|? v0 ? vs0 Hv Fv]; subst. inversion F' as [|? v1 ? vs1 Nv Fv']; subst.
    inversion IH as [|? ? I1 I2]; inversion WF as [|? ? W1 W2]; subst. cbn [snd] in *.
    destruct (I1 W1 a v0 Ha Hv Nv) as (x & Ex & Cx).
    destruct (asm_rel_width R t W1 a Ha) as [Sw Pw].
    pose proof (enc_range _ _ W1 _ _ _ Cx Sw) as Rx.
    cbn [tup_asm]. rewrite Ex. cbn [bind].
    rewrite lor_shiftl_add by auto.
    destruct (IHT (acc + 2 ^ b * x) vs0) as (y & Ey & Cy); auto; try lia.
    { rewrite pow2_split by lia. pose proof (pow2_pos b Hb). nia. }
    exists (x + 2 ^ a_width a * y). split.
    + rewrite Ey. f_equal. rewrite pow2_split by lia. lia.
    + econstructor; eauto.
Qed.

Lemma a_asm_spec R t : wf_ty t -> forall a v, asm_rel R t a -> has_ty t v -> nonneg_signed t v ->
  exists op, a_asm a v = Ok op /\ canonical t op v.
Proof.
  induction t as [| | |c ms|c fs IH|g c fs IH] using ty_ind'; intros W a v A H N.
  - inversion A; inversion H; subst. eexists. split; [reflexivity|]. constructor.
  - inversion A; inversion H; subst. eexists. split; [reflexivity|]. constructor; auto.
  - inversion A; inversion H; inversion N; inversion W; subst.
    match goal with X : VBV _ = VBV _ |- _ => injection X as -> end.
    exists z. cbn [a_asm leaf_int]. rewrite leaf_sint by lia. split; auto. constructor; auto.
  - inversion A as [| | |? ? tbl ops w vd E1 E2 E3 V| |]; inversion H as [| | |? ? m I| |]; subst.
    destruct (enum_facts c ms tbl W E1) as (_ & ND & _ & Hc & Ht & _).
    destruct (Ht m I) as [x Hx]. exists x. cbn [a_asm]. unfold dgetE.
    rewrite (dget_NoDup emem_eqb emem_eqb_eq tbl m x ND Hx). split; auto.
    constructor. apply Hc; auto.
  - inversion A as [| | | |? ? w fs' T|]; inversion H as [| | | |? ? vs F|];
      inversion N as [| | | |? ? vs' F'|]; subst.
    match goal with X : VProd _ = VProd _ |- _ => injection X as -> end.
    assert (Forall (fun f => wf_ty (snd f)) fs) as WF by (inversion W; auto).
    assert (exists y, tup_asm fs' vs 0 = Ok (0 + 2 ^ 0 * y) /\ enc_fields (fun j => j = 0) fs y vs)
      as (y & E & Ef).
    { apply (tup_asm_spec R 0 fs w fs' T) with (acc := 0); auto; cbn; lia. }
    rewrite a_asm_tuple. exists y. rewrite E. split; [f_equal; lia|]. constructor; auto.
  - inversion A as [| | | | |? ? ? sorted tagw pw fs' gs tv E1 E2 S G1 G2 Vt]; subst.
    inversion H as [| | | | |? ? ? k t v' I Hv]; subst.
    inversion N as [| | | | |? ? ? k' t' v'' I' Nv]; subst.
    assert (no_dup_keys fs) as ND by (inversion W; auto).
    assert (t' = t) as -> by (eapply nodup_key_fun; eauto).
    assert (wf_ty t) as Wt by (eapply wf_members_sum; eauto).
    destruct (in_split_key _ _ _ I) as (pre & post & Efs).
    pose proof (rank_index pre k t post) as Ri. rewrite <- Efs in Ri.
    destruct (sum_find_spec _ _ _ _ _ _ _ _ _ _ (sorted_keys_NoDup fs ND) S Ri) as (a & Ef & Aa).
    rewrite Forall_forall in IH.
    destruct (IH _ I Wt a v' Aa Hv Nv) as (x & Ex & Cx). cbn [snd] in *.
    rewrite a_asm_sum, Ef, Ex. cbn [bind]. eexists. split; [reflexivity|].
    pose proof (rank_lt _ _ _ _ _ Efs) as Rl.
    rewrite Z.add_0_l, Z2Nat.id by lia.
    set (tw := bit_length (Z.of_nat (length fs) - 1)).
    assert (bits_for (Z.of_nat (length fs) - 1) = tw) as Eb by (apply bits_for_bit_length; lia).
    assert (0 <= tw) by apply bit_length_nonneg.
    rewrite Z.lor_comm, lor_shiftl_add; auto.
    2:{ split; [lia|]. rewrite <- Eb. apply lt_pow2_bits_for. lia. }
    destruct (asm_rel_width R t Wt a Aa) as [Sw Pw].
    destruct (asm_rel_width R _ W _ A) as [SW PW].
    pose proof (enc_range _ _ Wt _ _ _ Cx Sw) as Rx.
    replace (rank_at pre k post + 2 ^ tw * x) with
      (rank_at pre k post + 2 ^ bits_for (Z.of_nat (length fs) - 1) * (x + 2 ^ a_width a * 0))
      by (rewrite Eb; lia).
    eapply enc_sum; eauto; [lia|].
    rewrite Eb, Z.mul_0_r, Z.add_0_r. cbn [a_width]. fold tw.
    assert (a_width a <= pw) as Le.
    { pose proof (sum_rel_spec _ _ _ _ _ _ _ S) as (-> & L & Hs). rewrite zmaximum_max by lia.
      apply Hs in Ri as (a' & Ea & _ & Aa').
      assert (a_width a = a_width a') as ->.
      { eapply swidth_fun; [exact Sw|]. apply (asm_rel_width R t); auto. }
      assert (a_width a' <= zmaximum (map (fun e : key * Z * (Z * Z) * asm => a_width (snd e)) fs')); [|lia].
      apply zmaximum_ge. apply in_map_iff. eexists. split; [|eapply nth_error_In; eauto]. reflexivity. }
    rewrite pow2_split by lia.
    assert (rank_at pre k post < 2 ^ tw) by (rewrite <- Eb; apply lt_pow2_bits_for; lia).
    pose proof (pow2_mono (a_width a) pw ltac:(lia)). nia.
Qed.

Lemma assemble_spec R t a v : wf_ty t -> asm_rel R t a -> has_ty t v -> nonneg_signed t v ->
  exists op, assemble a v = Ok op /\ canonical t op v /\ 0 <= op < 2 ^ a_width a.
Proof.
  intros W A H N. destruct (a_asm_spec R t W a v A H N) as (op & E & C).
  destruct (asm_rel_width R t W a A) as [S P].
  pose proof (enc_range _ _ W _ _ _ C S) as Rg.
  exists op. unfold assemble. rewrite E. cbn [bind].
  rewrite (proj2 (Z.leb_le _ _)) by (apply bit_length_le; lia).
  rewrite wrap_small by auto. auto.
Qed.

(** * Recognising and disassembling encodings *)

(** Requests recorded by a process accept their words. *)
Definition acc_ok (R : list Z -> Z -> Prop) : Prop :=
  forall ops w0 W, R ops w0 -> R ops W -> In 0 ops -> sparse_one_hot ops -> w0 = W.

Lemma vrel_accepts R ops w v : good_request R -> acc_ok R -> vrel R ops w v ->
  forall c, In c ops -> run_validator w c v = true.
Proof.
  intros GR AC (HR & w0 & H0 & G) c I. destruct (GR _ _ HR) as (_ & _ & Hw & F).
  destruct (GR _ _ H0) as (_ & _ & Hw0 & _).
  apply (gen_rel_accepts w0 w ops v); auto. intros. eapply AC; eauto.
Qed.

Section Dis.
  Variable R : list Z -> Z -> Prop.
  Hypothesis GR : good_request R.

  Definition dis_ok (J : Z -> Prop) (t : ty) : Prop :=
    wf_ty t -> forall a op v, asm_rel R t a -> enc J t op v ->
    a_isv a op = true /\ disassemble a op = Ok v.

  Lemma tup_dis J b fs w fs' : tup_rel R b fs w fs' -> forall op low y vs,
    Forall (fun f => dis_ok J (snd f)) fs -> Forall (fun f => wf_ty (snd f)) fs ->
    0 <= b -> 0 <= low < 2 ^ b -> op = low + 2 ^ b * y -> enc_fields J fs y vs ->
    (forall e, In e fs' -> a_isv (snd e) (slice op (fst (snd (fst e))) (snd (snd (fst e)))) = true) /\
    mapM (fun e : key * (Z * Z) * asm =>
            disassemble (snd e) (slice op (fst (snd (fst e))) (snd (snd (fst e))))) fs' = Ok vs.
  Proof.
    induction 1 as [b|b k t r w a rest Ha Tr IHT]; intros op low y vs IH WF Hb Hl Hop Ef.
    - inversion Ef; subst. split; [intros ? []|reflexivity].
    - inversion Ef as [|? ? ? w' x y' v vs' Sw Ex Ef']; subst.
      inversion IH as [|? ? I1 I2]; inversion WF as [|? ? W1 W2]; subst. cbn [snd] in *.
      destruct (asm_rel_width R t W1 a Ha) as [Sa Pa].
      assert (w' = a_width a) as -> by (eapply swidth_fun; eauto).
      pose proof (enc_range _ _ W1 _ _ _ Ex Sa) as Rx.
      destruct (I1 W1 _ _ _ Ha Ex) as [V D].
      assert (slice (low + 2 ^ b * (x + 2 ^ a_width a * y')) b (b + a_width a) = x) as Es
        by (apply slice_mid; auto).
      destruct (IHT (low + 2 ^ b * (x + 2 ^ a_width a * y')) (low + 2 ^ b * x) y' vs') as [P Q]; auto; try lia.
      { rewrite pow2_split by lia. pose proof (pow2_pos b Hb). nia. }
      { rewrite pow2_split by lia. lia. }
      split.
      + intros e [<-|I]; [|auto]. cbn. rewrite Es. auto.
      + cbn [mapM fst snd]. rewrite Es, D. cbn [bind]. rewrite Q. reflexivity.
  Qed.

  Lemma dis_spec J : acc_ok R -> forall t, dis_ok J t.
  Proof.
    intros AC. induction t as [| | |c ms|c fs IH|g c fs IH] using ty_ind'; intros W a op v A E.
    - inversion A; inversion E; subst. cbn. split; auto. destruct b; reflexivity.
    - inversion A; inversion E; subst. cbn. split; auto.
    - inversion A; inversion E; subst. cbn. split; auto.
    - inversion A as [| | |? ? tbl ops w vd E1 E2 E3 V| |]; inversion E as [| | |? ? m k C| |]; subst.
      destruct (enum_facts c ms tbl W E1) as (_ & ND & NS & Hc & _).
      assert (a_isv (AEnum tbl (bit_length (zmax (map snd tbl))) vd) op = true) as V'.
      { cbn. eapply vrel_accepts; eauto. apply isort_In2. apply Hc in C.
        apply (in_map snd) in C. exact C. }
      split; auto. cbn [disassemble]. rewrite V'. cbn [negb].
      apply Hc in C. apply (dsm_lookup_Ok tbl op m NS) in C. rewrite C. reflexivity.
    - inversion A as [| | | |? ? w fs' T|]; inversion E as [| | | |? ? ? vs F|]; subst.
      destruct (tup_dis J 0 fs w fs' T op 0 op vs) as [P Q]; auto; try lia.
      { inversion W; auto. }
      assert (a_isv (ATuple w fs') op = true) as V.
      { cbn [a_isv]. apply fold_andb_map. split; auto. }
      split; auto. cbn [disassemble]. rewrite V. cbn [negb]. rewrite Q. reflexivity.
    - inversion A as [| | | | |? ? ? sorted tagw pw fs' gs tv E1 E2 S G1 G2 Vt]; subst.
      inversion E as [| | | | |? ? ? pre k t post W0 w x junk v0 Hfs SW Sw Ex Hj HJ HW].
      match goal with X : _ = op |- _ => rename X into Hop end.
      assert (no_dup_keys fs) as ND by (inversion W; auto).
      assert (In (k, t) fs) as I by (rewrite Hfs; apply in_app_iff; right; left; auto).
      assert (wf_ty t) as Wt by (eapply wf_members_sum; eauto).
      pose proof (rank_index pre k t post) as Ri. rewrite <- Hfs in Ri.
      pose proof (rank_lt _ _ _ _ _ Hfs) as Rl.
      set (tw := bit_length (Z.of_nat (length fs) - 1)) in *.
      assert (bits_for (Z.of_nat (length fs) - 1) = tw) as Eb by (apply bits_for_bit_length; lia).
      assert (0 <= tw) as Ptw by apply bit_length_nonneg.
      rewrite Eb in *.
      assert (rank_at pre k post < 2 ^ tw) as Rt by (rewrite <- Eb; apply lt_pow2_bits_for; lia).
      rewrite Forall_forall in IH.
      assert (slice op 0 tw = rank_at pre k post) as Et.
      { rewrite <- Hop. apply slice_low; auto. lia. }
      assert (Hpay : forall a, asm_rel R t a -> slice op tw (tw + a_width a) = x).
      { intros a Ha. destruct (asm_rel_width R t Wt a Ha) as [Sa Pa].
        assert (w = a_width a) by (eapply swidth_fun; eauto). subst w.
        pose proof (enc_range _ _ Wt _ _ _ Ex Sa) as Rx.
        rewrite <- Hop. apply slice_mid; auto; lia. }
      assert (a_isv (ASum (tw + pw) tw fs' gs tv) op = true) as V.
      { cbn [a_isv]. apply fold_orb_map. right.
        destruct (G2 _ _ _ Ri) as (vd & lay & a & Ig). exists (t, vd, lay, a). split; auto. cbn [fst snd].
        destruct (G1 _ _ _ _ Ig) as (-> & Aa & ops & Vr & Hops). cbn [fst snd].
        rewrite Et, (Hpay a Aa). apply andb_true_iff. split.
        - eapply vrel_accepts; eauto. apply Hops. exists (Z.to_nat (rank_at pre k post)), k. split; auto. lia.
        - apply (IH _ I Wt a x v0 Aa Ex). }
      rewrite Hop. split; auto. rewrite disassemble_sum, V. cbn [negb]. rewrite Et.
      destruct (find_tag_spec _ _ _ _ _ _ _ _ _ _ S Ri) as (a & Ef & Aa).
      rewrite Z.add_0_l, Z2Nat.id in Ef by lia. rewrite Ef.
      rewrite (Hpay a Aa). destruct (IH _ I Wt a x v0 Aa Ex) as [_ D]. rewrite D. cbn. congruence.
  Qed.

  (** Whatever the validators do, a successful disassembly is an encoding. *)
  Definition sound_ok (t : ty) : Prop :=
    wf_ty t -> forall a op v, asm_rel R t a -> 0 <= op < 2 ^ a_width a ->
    disassemble a op = Ok v -> encodes t op v.

  Lemma tup_sound b fs w fs' : tup_rel R b fs w fs' -> forall op vs,
    Forall (fun f => sound_ok (snd f)) fs -> Forall (fun f => wf_ty (snd f)) fs ->
    0 <= b -> 0 <= op < 2 ^ w ->
    mapM (fun e : key * (Z * Z) * asm =>
            disassemble (snd e) (slice op (fst (snd (fst e))) (snd (snd (fst e))))) fs' = Ok vs ->
    enc_fields (fun _ => True) fs (op / 2 ^ b) vs.
  Proof.
    induction 1 as [b|b k t r w a rest Ha Tr IHT]; intros op vs IH WF Hb Hop E.
    - cbn in E. injection E as <-. rewrite Z.div_small by lia. constructor.
    - cbn [mapM fst snd] in E.
      inversion IH as [|? ? I1 I2]; inversion WF as [|? ? W1 W2]; subst. cbn [snd] in *.
      destruct (asm_rel_width R t W1 a Ha) as [Sa Pa].
      destruct (disassemble a (slice op b (b + a_width a))) as [v|] eqn:D; [|discriminate].
      cbn [bind] in E. destruct (mapM _ rest) as [vs'|] eqn:M; [|discriminate].
      cbn [bind] in E. injection E as <-.
      apply (I1 W1 _ _ _ Ha) in D.
      2:{ pose proof (slice_range op b (b + a_width a)). replace (b + a_width a - b) with (a_width a) in H by lia.
          apply H. lia. }
      apply IHT in M; auto; try lia.
      assert (op / 2 ^ b = slice op b (b + a_width a) + 2 ^ a_width a * (op / 2 ^ (b + a_width a))) as ->.
      { rewrite slice_div by lia. replace (b + a_width a - b) with (a_width a) by lia.
        rewrite pow2_split by lia. pose proof (pow2_pos b Hb). pose proof (pow2_pos _ Pa).
        rewrite <- Z.div_div by lia. apply split_low; auto. }
      econstructor; eauto.
  Qed.

  Lemma sound_spec t : sound_ok t.
  Proof.
    induction t as [| | |c ms|c fs IH|g c fs IH] using ty_ind'; intros W a op v A Rg D.
    - inversion A; subst. cbn in *. injection D as <-.
      change (Z.pow_pos 2 1) with 2 in Rg.
      assert (op = 0 \/ op = 1) as [->| ->] by lia; [apply (enc_bit _ false)|apply (enc_bit _ true)].
    - inversion A; subst. cbn in *. injection D as <-. constructor; auto.
    - inversion A; subst. cbn in *. injection D as <-. constructor; auto.
    - inversion A as [| | |? ? tbl ops w vd E1 E2 E3 V| |]; subst.
      destruct (enum_facts c ms tbl W E1) as (_ & ND & NS & Hc & _).
      cbn [disassemble] in D. destruct (negb _); [discriminate|].
      destruct (dsm_lookup tbl op) as [m|] eqn:L; [|discriminate]. cbn in D. injection D as <-.
      constructor. apply Hc. apply (dsm_lookup_Ok tbl op m NS); auto.
    - inversion A as [| | | |? ? w fs' T|]; subst.
      cbn [disassemble] in D. destruct (negb _); [discriminate|].
      destruct (mapM _ fs') as [vs|] eqn:M; [|discriminate]. cbn in D. injection D as <-.
      apply (tup_sound 0 fs w fs' T) in M; auto; try lia.
      2:{ inversion W; auto. }
      rewrite Z.pow_0_r, Z.div_1_r in M. constructor; auto.
    - inversion A as [| | | | |? ? ? sorted tagw pw fs' gs tv E1 E2 S G1 G2 Vt]; subst.
      rewrite disassemble_sum in D. destruct (negb _); [discriminate|].
      set (tw := bit_length (Z.of_nat (length fs) - 1)) in *.
      destruct (find_tag fs' (slice op 0 tw)) as [[[k [lo hi]] f]|] eqn:F; [|discriminate].
      destruct (find_tag_inv _ _ _ _ _ _ _ _ _ _ _ S F) as (i & t & Ei & Hi & [= -> ->] & Af).
      destruct (disassemble f _) as [v'|] eqn:D'; [|discriminate]. cbn in D. injection D as <-.
      assert (no_dup_keys fs) as ND by (inversion W; auto).
      apply rank_iff in Hi as (pre & post & Hfs & Hr); auto.
      assert (In (k, t) fs) as I by (rewrite Hfs; apply in_app_iff; right; left; auto).
      assert (wf_ty t) as Wt by (eapply wf_members_sum; eauto).
      destruct (asm_rel_width R t Wt f Af) as [Sf Pf].
      destruct (asm_rel_width R _ W _ A) as [SW PW].
      pose proof (rank_lt _ _ _ _ _ Hfs) as Rl.
      assert (bits_for (Z.of_nat (length fs) - 1) = tw) as Eb by (apply bits_for_bit_length; lia).
      assert (0 <= tw) as Ptw by apply bit_length_nonneg.
      rewrite Forall_forall in IH.
      apply (IH _ I Wt _ _ _ Af) in D'.
      2:{ pose proof (slice_range op tw (tw + a_width f)). replace (tw + a_width f - tw) with (a_width f) in H by lia.
          apply H. lia. }
      cbn [snd] in D'.
      assert (op = rank_at pre k post +
        2 ^ bits_for (Z.of_nat (length fs) - 1) *
        (slice op tw (tw + a_width f) + 2 ^ a_width f * (op / 2 ^ tw / 2 ^ a_width f))) as Eop.
      { rewrite Eb. rewrite slice_div by lia. replace (tw + a_width f - tw) with (a_width f) by lia.
        rewrite <- split_low by auto. rewrite <- Hr. rewrite Z.add_0_l in Ei. rewrite <- Ei.
        apply split_low; auto. }
      rewrite Eop. eapply enc_sum; eauto.
      + apply Z.div_pos; [apply Z.div_pos; [lia|apply pow2_pos; auto]|apply pow2_pos; auto].
      + rewrite <- Eop. cbn [a_width] in Rg. apply Rg.
  Qed.

  (** * Exactness *)
  Definition exact_ok : Prop :=
    forall ops w0 W, R ops w0 -> R ops W ->
      w0 = W \/ (~ top_run w0 ops /\ ~ sparse_one_hot ops).

  Lemma vrel_exact ops w v : exact_ok -> ~ multi_range ops -> vrel R ops w v ->
    forall c, 0 <= c < 2 ^ w -> (run_validator w c v = true <-> In c ops).
  Proof.
    intros EX M (HR & w0 & H0 & G) c I. destruct (GR _ _ HR) as (_ & _ & Hw & F).
    destruct (GR _ _ H0) as (_ & _ & Hw0 & _).
    apply (gen_rel_exact w0 w ops v); auto.
  Qed.

  Definition isv_ok (t : ty) : Prop :=
    wf_ty t -> no_multi_range t -> forall a op, asm_rel R t a -> 0 <= op < 2 ^ a_width a ->
    a_isv a op = true -> exists v, encodes t op v.

  Lemma tup_isv b fs w fs' : tup_rel R b fs w fs' -> forall op,
    Forall (fun f => isv_ok (snd f)) fs -> Forall (fun f => wf_ty (snd f)) fs ->
    (forall k t, In (k, t) fs -> no_multi_range t) ->
    0 <= b -> 0 <= op < 2 ^ w ->
    (forall e, In e fs' -> a_isv (snd e) (slice op (fst (snd (fst e))) (snd (snd (fst e)))) = true) ->
    exists vs, enc_fields (fun _ => True) fs (op / 2 ^ b) vs.
  Proof.
    induction 1 as [b|b k t r w a rest Ha Tr IHT]; intros op IH WF NM Hb Hop V.
    - rewrite Z.div_small by lia. exists []. constructor.
    - inversion IH as [|? ? I1 I2]; inversion WF as [|? ? W1 W2]; subst. cbn [snd] in *.
      destruct (asm_rel_width R t W1 a Ha) as [Sa Pa].
      destruct (I1 W1 (NM k t (or_introl eq_refl)) a (slice op b (b + a_width a)) Ha) as [v Ev].
      { pose proof (slice_range op b (b + a_width a)). replace (b + a_width a - b) with (a_width a) in H by lia.
        apply H. lia. }
      { apply (V _ (or_introl eq_refl)). }
      destruct (IHT op) as [vs Evs]; auto; try lia.
      { intros; eapply NM; right; eauto. }
      { intros; apply V; right; auto. }
      assert (op / 2 ^ b = slice op b (b + a_width a) + 2 ^ a_width a * (op / 2 ^ (b + a_width a))) as ->.
      { rewrite slice_div by lia. replace (b + a_width a - b) with (a_width a) by lia.
        rewrite pow2_split by lia. pose proof (pow2_pos b Hb). pose proof (pow2_pos _ Pa).
        rewrite <- Z.div_div by lia. apply split_low; auto. }
      exists (v :: vs). econstructor; eauto.
  Qed.

  Lemma isv_spec : exact_ok -> forall t, isv_ok t.
  Proof.
    intros EX. induction t as [| | |c ms|c fs IH|g c fs IH] using ty_ind'; intros W NM a op A Rg V.
    - inversion A; subst. cbn in *. change (Z.pow_pos 2 1) with 2 in Rg.
      assert (op = 0 \/ op = 1) as [->| ->] by lia; eexists; [apply (enc_bit _ false)|apply (enc_bit _ true)].
    - inversion A; subst. cbn in *. eexists. constructor; auto.
    - inversion A; subst. cbn in *. eexists. constructor; auto.
    - inversion A as [| | |? ? tbl ops w vd E1 E2 E3 Vr| |]; subst.
      destruct (enum_facts c ms tbl W E1) as (_ & ND & NS & Hc & _ & Sw & _).
      cbn [a_isv a_width] in *.
      assert (~ multi_range (isort Z.leb (map snd tbl))) as Nm.
      { apply (NM _ (bit_length (zmax (map snd tbl)))). constructor; auto.
        - apply isort_increasing; auto.
        - intros x. rewrite isort_In. split.
          + intros J. apply in_map_iff in J as ([m y] & <- & J). exists m. apply Hc. exact J.
          + intros [m C]. apply Hc in C. apply (in_map snd) in C. exact C. }
      apply (vrel_exact _ _ _ EX Nm Vr _ Rg) in V.
      apply (isort_In1 Z.leb) in V. apply in_map_iff in V as ([m x] & E & I). cbn in E. subst x.
      exists (VEnum m). constructor. apply Hc; auto.
    - inversion A as [| | | |? ? w fs' T|]; subst. cbn [a_isv a_width] in *.
      apply fold_andb_map in V as [_ V].
      destruct (tup_isv 0 fs w fs' T op) as [vs E]; auto; try lia.
      { inversion W; auto. }
      { intros k t I ops w' Rq. apply (NM ops w'). eapply rq_prod; eauto. }
      rewrite Z.pow_0_r, Z.div_1_r in E. exists (VProd vs). constructor; auto.
    - inversion A as [| | | | |? ? ? sorted tagw pw fs' gs tv E1 E2 S G1 G2 Vt]; subst.
      cbn [a_isv a_width] in V.
      set (tw := bit_length (Z.of_nat (length fs) - 1)) in *.
      apply fold_orb_map in V as [|([[[u vd] lay] f] & Ig & V)]; [discriminate|]. cbn [fst snd] in V.
      destruct (G1 _ _ _ _ Ig) as (-> & Af & ops & Vr & Hops). cbn [fst snd] in V.
      apply andb_true_iff in V as [V1 V2].
      assert (no_dup_keys fs) as ND by (inversion W; auto).
      assert (0 <= tw) as Ptw by apply bit_length_nonneg.
      pose proof (slice_range op 0 tw ltac:(lia)) as Rt. rewrite Z.sub_0_r in Rt.
      assert (fs <> []) as NE by (inversion W; auto).
      assert (bits_for (Z.of_nat (length fs) - 1) = tw) as Eb.
      { apply bits_for_bit_length. destruct fs; [congruence|cbn [length]; lia]. }
      assert (forall x, In x ops <-> exists pre k post,
                fs = pre ++ (k, u) :: post /\ x = rank_at pre k post) as Hops'.
      { intros x. rewrite Hops. split.
        - intros (i & k & Ei & ->). apply rank_iff in Ei as (pre & post & ? & ?); auto.
          exists pre, k, post. auto.
        - intros (pre & k & post & E & ->). exists (Z.to_nat (rank_at pre k post)), k.
          pose proof (rank_nonneg pre k post). split; [|lia]. rewrite E. apply rank_index. }
      assert (ops <> [] /\ increasing ops) as [NEo Io].
      { destruct Vr as [HR _]. destruct (GR _ _ HR) as (? & ? & _). auto. }
      assert (~ multi_range ops) as Nm.
      { apply (NM _ tw). rewrite <- Eb. apply rq_group with (u := u); auto. }
      apply (vrel_exact _ _ _ EX Nm Vr _ Rt) in V1.
      apply Hops' in V1 as (pre & k & post & Hfs & Hr).
      assert (In (k, u) fs) as I by (rewrite Hfs; apply in_app_iff; right; left; auto).
      assert (wf_ty u) as Wt by (eapply wf_members_sum; eauto).
      destruct (asm_rel_width R u Wt f Af) as [Sf Pf].
      destruct (asm_rel_width R _ W _ A) as [SW PW].
      rewrite Forall_forall in IH.
      destruct (IH _ I Wt) with (a := f) (op := slice op tw (tw + a_width f)) as [v Ev]; auto.
      { intros ops' w' Rq. apply (NM ops' w'). eapply rq_sum; eauto. }
      { pose proof (slice_range op tw (tw + a_width f)). replace (tw + a_width f - tw) with (a_width f) in H by lia.
          apply H. lia. }
      cbn [snd] in Ev.
      assert (op = rank_at pre k post +
        2 ^ bits_for (Z.of_nat (length fs) - 1) *
        (slice op tw (tw + a_width f) + 2 ^ a_width f * (op / 2 ^ tw / 2 ^ a_width f))) as Eop.
      { rewrite Eb. rewrite slice_div by lia. replace (tw + a_width f - tw) with (a_width f) by lia.
        rewrite <- split_low by auto. rewrite <- Hr. apply split_low; auto. }
      exists (VSum k v). rewrite Eop. eapply enc_sum; eauto.
      + apply Z.div_pos; [apply Z.div_pos; [lia|apply pow2_pos; auto]|apply pow2_pos; auto].
      + rewrite <- Eop. cbn [a_width] in Rg. apply Rg.
  Qed.

  (** * Errors *)
  Definition err_ok (t : ty) : Prop :=
    wf_ty t -> forall a op e, asm_rel R t a -> disassemble a op = Err e ->
    e = ValueError \/ e = KeyError.

  Lemma err_spec t : err_ok t.
  Proof.
    induction t as [| | |c ms|c fs IH|g c fs IH] using ty_ind'; intros W a op e A D.
    - inversion A; subst. discriminate.
    - inversion A; subst. discriminate.
    - inversion A; subst. discriminate.
    - inversion A as [| | |? ? tbl ops w vd E1 E2 E3 V| |]; subst.
      cbn [disassemble] in D. destruct (negb _); [injection D as <-; auto|].
      destruct (dsm_lookup tbl op) as [m|] eqn:L; [discriminate|].
      apply dsm_lookup_err in L. cbn in D. injection D as <-. auto.
    - inversion A as [| | | |? ? w fs' T|]; subst.
      cbn [disassemble] in D. destruct (negb _); [injection D as <-; auto|].
      assert (Forall (fun f => wf_ty (snd f)) fs) as WF by (inversion W; auto).
      destruct (mapM _ fs') as [vs|e'] eqn:M; [discriminate|]. cbn in D. injection D as <-.
      clear W A. revert op e' M IH WF.
      induction T as [b|b k t r w a rest Ha Tr IHT]; intros op e' M IH WF; [discriminate|].
      cbn [mapM fst snd] in M.
      inversion IH as [|? ? I1 I2]; inversion WF as [|? ? W1 W2]; subst. cbn [snd] in *.
      destruct (disassemble a (slice op b (b + a_width a))) as [v|e2] eqn:D; cbn [bind] in M.
      + destruct (mapM _ rest) as [vs|e2] eqn:M2; cbn [bind] in M; [discriminate|].
        injection M as <-. eapply IHT; eauto.
      + injection M as <-. eapply I1; eauto.
    - inversion A as [| | | | |? ? ? sorted tagw pw fs' gs tv E1 E2 S G1 G2 Vt]; subst.
      rewrite disassemble_sum in D. destruct (negb _); [injection D as <-; auto|].
      destruct (find_tag fs' _) as [[[k [lo hi]] f]|] eqn:F; [|injection D as <-; auto].
      destruct (find_tag_inv _ _ _ _ _ _ _ _ _ _ _ S F) as (i & t & Ei & Hi & [= -> ->] & Af).
      destruct (disassemble f _) as [v'|e'] eqn:D'; [discriminate|]. cbn in D. injection D as <-.
      apply nth_error_In, (isort_In1 field_leb) in Hi.
      rewrite Forall_forall in IH. eapply (IH _ Hi); eauto. eapply wf_members_sum; eauto.
  Qed.
End Dis.

(** * Encodings are values of the type, and functional *)
Lemma enc_has_ty J t : forall op v, enc J t op v -> has_ty t v.
Proof.
  induction t as [| | |c ms|c fs IH|g c fs IH] using ty_ind'; intros op v E.
  1-3: inversion E; subst; constructor; auto.
  - inversion E as [| | |? ? m k [I _]| |]; subst. constructor; auto.
  - inversion E as [| | | |? ? ? vs F|]; subst. constructor.
    clear E. revert op vs F. induction fs as [|[k t] fs IHF]; intros op vs F.
    + inversion F; subst. constructor.
    + inversion F; subst. inversion IH; subst. constructor; eauto.
  - inversion E; subst. rewrite Forall_forall in IH.
    assert (In (k, t) (pre ++ (k, t) :: post)) as I by (apply in_app_iff; right; left; auto).
    econstructor; eauto. eapply (IH _ I); eauto.
Qed.

Lemma enc_weaken (J J' : Z -> Prop) : (forall j, J j -> J' j) ->
  forall t op v, enc J t op v -> enc J' t op v.
Proof.
  intros HJ t. induction t as [| | |c ms|c fs IH|g c fs IH] using ty_ind'; intros op v E.
  1-3: inversion E; subst; constructor; auto.
  - inversion E; subst. constructor; auto.
  - inversion E as [| | | |? ? ? vs F|]; subst. constructor.
    clear E. revert op vs F. induction fs as [|[k t] fs IHF]; intros op vs F.
    + inversion F; subst. constructor.
    + inversion F; subst. inversion IH; subst. econstructor; eauto.
  - inversion E; subst. rewrite Forall_forall in IH.
    assert (In (k, t) (pre ++ (k, t) :: post)) as I by (apply in_app_iff; right; left; auto).
    eapply enc_sum; eauto. apply (IH _ I); auto.
Qed.

Lemma canonical_encodes t op v : canonical t op v -> encodes t op v.
Proof. apply enc_weaken; auto. Qed.

Lemma nodup_split_unique (fs pre pre' post post' : list (key * ty)) k t t' :
  no_dup_keys fs -> fs = pre ++ (k, t) :: post -> fs = pre' ++ (k, t') :: post' ->
  pre = pre' /\ t = t' /\ post = post'.
Proof.
  unfold no_dup_keys. revert fs pre'. induction pre as [|[a b] pre IH]; intros fs [|[a' b'] pre'] ND E E';
    subst fs; cbn in *.
  - injection E' as <- <-. auto.
  - injection E' as -> -> E'. inversion ND; subst. destruct H1.
    rewrite map_app. apply in_app_iff. right. left. auto.
  - injection E' as -> -> E'. inversion ND; subst. destruct H1.
    rewrite map_app. apply in_app_iff. right. left. auto.
  - injection E' as -> -> E'. inversion ND; subst.
    destruct (IH _ pre' H2 eq_refl E') as (-> & -> & ->). auto.
Qed.

(** The zero-padded word of a value is unique. *)
Lemma canonical_fun t : wf_ty t -> forall a b v, canonical t a v -> canonical t b v -> a = b.
Proof.
  induction t as [| | |c ms|c fs IH|g c fs IH] using ty_ind'; intros W x y v A B.
  - inversion A; inversion B; subst. congruence.
  - inversion A; inversion B; subst. congruence.
  - inversion A; inversion B; subst. congruence.
  - inversion A; inversion B; subst. match goal with X : VEnum _ = VEnum _ |- _ => injection X as -> end.
    inversion W; subst. eapply enum_code_fun; eauto. apply autos_NoDup; auto.
  - inversion A as [| | | |? ? ? vs F|]; inversion B as [| | | |? ? ? vs' F'|]; subst.
    match goal with X : VProd _ = VProd _ |- _ => injection X as -> end.
    assert (Forall (fun f => wf_ty (snd f)) fs) as WF by (inversion W; auto).
    clear A B W. revert x y vs F F' IH WF. induction fs as [|[k t] fs IHF]; intros x y vs F F' IH WF.
    + inversion F; inversion F'; subst; auto.
    + inversion F as [|? ? ? w1 x1 y1 v1 vs1 S1 E1 R1]; inversion F' as [|? ? ? w2 x2 y2 v2 vs2 S2 E2 R2]; subst.
      match goal with X : _ :: _ = _ :: _ |- _ => injection X as -> -> end.
      inversion IH; inversion WF; subst.
      assert (w1 = w2) as -> by (eapply swidth_fun; eauto).
      assert (x1 = x2) as -> by eauto. assert (y1 = y2) as -> by eauto. auto.
  - inversion A as [| | | | |? ? ? pre k t post W0 w x0 junk v0 Hfs SW Sw Ex Hj HJ HW].
    inversion B as [| | | | |? ? ? pre' k' t' post' W0' w' x0' junk' v0' Hfs' SW' Sw' Ex' Hj' HJ' HW'].
    subst v.
    match goal with X : VSum _ _ = VSum _ _ |- _ => injection X as -> -> end.
    assert (no_dup_keys fs) as ND by (inversion W; auto).
    destruct (nodup_split_unique fs pre pre' post post' k t t' ND Hfs Hfs') as (-> & -> & ->).
    assert (w = w') as -> by (eapply swidth_fun; eauto).
    assert (In (k, t') fs) as I by (rewrite Hfs; apply in_app_iff; right; left; auto).
    rewrite Forall_forall in IH.
    assert (x0 = x0') as ->.
    { eapply (IH _ I); eauto. eapply wf_members_sum; eauto. }
    rewrite HJ, HJ'. auto.
Qed.
