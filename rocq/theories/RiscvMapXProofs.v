(** R32I_mappable of every core is a machine. *)
From Coq Require Import ZArith List Bool Lia Permutation.
From Verif Require Import Base BaseLemmas BvModel BvLemmas RiscvModel BindModel BindProps MapIdxModel MapIdxProps CegisModel CegisProps
  MapModel MapProofs MapMain MapProps MapIff MapIffProps MapDirect RegPeModel RegPeProofs RiscvMapModel RiscvMapProofs RiscvMapXModel.
Import ListNotations.
Open Scope list_scope.
Open Scope Z_scope.

Lemma x_vpath_code_inj p q : x_vpath_code p = x_vpath_code q -> p = q.
Proof.
  assert (G : forall g s, 16 <= 16 * x_group_code g + x_slot_code s < 192) by (intros [] []; cbn; lia).
  assert (I : forall g s g' s', 16 * x_group_code g + x_slot_code s = 16 * x_group_code g' + x_slot_code s' -> g = g' /\ s = s').
  { intros g s g' s' E. assert (S : forall s, 0 <= x_slot_code s < 16) by (intros []; cbn; lia).
    assert (x_group_code g = x_group_code g') by (pose proof (S s); pose proof (S s'); lia).
    assert (x_slot_code s = x_slot_code s') by lia. split; [destruct g, g'; cbn in *; congruence|destruct s, s'; cbn in *; congruence]. }
  destruct p as [g s| | | | | | | | | | | |], q as [g' s'| | | | | | | | | | | |]; cbn [x_vpath_code]; intros E;
    try reflexivity; try discriminate E; try (pose proof (G g s); lia); try (pose proof (G g' s'); lia).
  destruct (I _ _ _ _ E) as [<- <-]. reflexivity.
Qed.
Lemma x_vpath_eqb_eq p q : x_vpath_eqb p q = true <-> p = q.
Proof. unfold x_vpath_eqb. rewrite Z.eqb_eq. split; [apply x_vpath_code_inj|now intros ->]. Qed.
Lemma x_v_eqs : eqs x_vpath_eqb mty_eqb.
Proof. split; [apply x_vpath_eqb_eq|apply mty_eqb_eq]. Qed.

(** Lists without repetition, by evaluation. *)
Fixpoint x_vnodup (l : list x_vpath) : bool := match l with [] => true | p :: l => negb (existsb (x_vpath_eqb p) l) && x_vnodup l end.
Lemma x_vnodup_ok l : x_vnodup l = true -> NoDup l.
Proof.
  induction l as [|p l IH]; cbn; [constructor|]. intros E. apply andb_prop in E as [E1 E2]. constructor; auto.
  intros I. apply negb_true_iff in E1. assert (X : existsb (x_vpath_eqb p) l = true) by (apply existsb_exists; exists p; split; auto; now apply x_vpath_eqb_eq).
  congruence.
Qed.

Lemma muldivs_all t : In t muldivs. Proof. destruct t; cbn; auto 9. Qed.
Lemma bitinsts_all t : In t bitinsts. Proof. destruct t; cbn; auto 8. Qed.
Lemma x_forms_all c f : x_has c f = true -> In f (filter (x_has c) x_all_forms).
Proof. intros H. apply filter_In. split; [|exact H]. destruct f; cbn; auto 14. Qed.

Section Riscv.
  Variables sdiv udiv srem urem : Z -> Z -> Z.
  Variables (c : core) (V : x_vcode) (A : access) (cs : list (x_vpath * list Z)).
  Hypothesis HV : x_vcode_ok c V.
  Hypotheses (Ncs : NoDup (map fst cs)) (Ics : incl (map fst cs) (map fst (x_vconsts c V))).
  Notation arch0 := (x_riscv_arch sdiv udiv srem urem c V A cs).
  Notation sem0 := (x_vsem sdiv udiv srem urem c A).

  (** The form of an instruction and its leaves. *)
  Definition x_iform (i : inst) : x_form :=
    match i with
    | OP _ (aArith _) => XFOpA | OP _ (aShift _) => XFOpS | OP _ (aMulDiv _) => XFOpM | OP_IMM (oArith _ _) => XFImmA | OP_IMM (oShift _ _) => XFImmS
    | LUI _ => XFLui | AUIPC _ => XFAuipc | JAL _ => XFJal | JALR _ => XFJalr | Branch _ _ => XFBr | Load _ _ => XFLd | Store _ _ => XFSt
    | Ext _ _ => XFExt
    end.
  Definition x_vfield (i : inst) (p : x_vpath) : option Z :=
    match i, p with
    | OP d _, XVFld XGOp XSRd => Some (r_rd d) | OP d _, XVFld XGOp XSR1 => Some (r_rs1 d) | OP d _, XVFld XGOp XSR2 => Some (r_rs2 d)
    | OP _ (aArith t), XVFld XGOp XSTag => Some (x_eA V t) | OP _ (aShift t), XVFld XGOp XSTagS => Some (x_eS V t)
    | OP_IMM (oArith d _), XVFld XGIA XSRd => Some (i_rd d) | OP_IMM (oArith d _), XVFld XGIA XSR1 => Some (i_rs1 d)
    | OP_IMM (oArith d _), XVFld XGIA XSImm => Some (i_imm d) | OP_IMM (oArith _ t), XVFld XGIA XSTag => Some (x_eA V t)
    | OP_IMM (oShift d _), XVFld XGIS XSRd => Some (is_rd d) | OP_IMM (oShift d _), XVFld XGIS XSR1 => Some (is_rs1 d)
    | OP_IMM (oShift d _), XVFld XGIS XSImm => Some (is_imm d) | OP_IMM (oShift _ t), XVFld XGIS XSTag => Some (x_eS V t)
    | LUI d, XVFld XGLui XSRd => Some (u_rd d) | LUI d, XVFld XGLui XSImm => Some (u_imm d)
    | AUIPC d, XVFld XGAuipc XSRd => Some (u_rd d) | AUIPC d, XVFld XGAuipc XSImm => Some (u_imm d)
    | JAL d, XVFld XGJal XSRd => Some (j_rd d) | JAL d, XVFld XGJal XSImm => Some (j_imm d)
    | JALR d, XVFld XGJalr XSRd => Some (i_rd d) | JALR d, XVFld XGJalr XSR1 => Some (i_rs1 d) | JALR d, XVFld XGJalr XSImm => Some (i_imm d)
    | Branch d _, XVFld XGBr XSR1 => Some (b_rs1 d) | Branch d _, XVFld XGBr XSR2 => Some (b_rs2 d)
    | Branch d _, XVFld XGBr XSImm => Some (b_imm d) | Branch _ t, XVFld XGBr XSTag => Some (x_eB V t)
    | Load d _, XVFld XGLd XSRd => Some (i_rd d) | Load d _, XVFld XGLd XSR1 => Some (i_rs1 d)
    | Load d _, XVFld XGLd XSImm => Some (i_imm d) | Load _ t, XVFld XGLd XSTag => Some (x_eL V t)
    | Store d _, XVFld XGSt XSR1 => Some (s_rs1 d) | Store d _, XVFld XGSt XSR2 => Some (s_rs2 d)
    | Store d _, XVFld XGSt XSImm => Some (s_imm d) | Store _ t, XVFld XGSt XSTag => Some (x_eL V t)
    | OP _ (aMulDiv t), XVFld XGOp XSTagM => Some (x_eM V t)
    | Ext d _, XVFld XGExt XSRd => Some (e_rd d) | Ext d _, XVFld XGExt XSR1 => Some (e_rs d) | Ext _ t, XVFld XGExt XSTag => Some (x_eE V t)
    | _, _ => None
    end.
  (** An instruction of the ISA whose fields satisfy the constraints. *)
  Definition x_vok (i : inst) : Prop := in_isa c i /\ forall p zs z, In (p, zs) cs -> x_vfield i p = Some z -> In z zs.

  Lemma x_vform_nth fi f : nth_error (a_forms arch0) fi = Some f ->
    exists g, nth_error (x_order V) fi = Some g /\ x_has c g = true /\ f = (map fst (x_leaves V g ++ x_vfree), x_vtags V g).
  Proof.
    cbn [x_riscv_arch a_forms]. rewrite nth_error_map. destruct (nth_error (x_order V) fi) as [g|] eqn:E; [|discriminate].
    intros [= <-]. eexists. split; [reflexivity|]. split; [|reflexivity].
    destruct HV as (_ & _ & _ & _ & _ & _ & _ & _ & _ & _ & _ & O). apply O. eapply nth_error_In; eauto.
  Qed.
  Lemma x_form_of_eq g (tags : x_vpath -> Z) : x_has c g = true -> (forall d, In d (x_vtags V g) -> tags (fst d) = snd d) -> x_form_of c V tags = Some g.
  Proof.
    intros Hg H. destruct HV as (_ & _ & _ & _ & _ & _ & Ti & To & To2 & To3 & Tm & _).
    unfold x_form_of. destruct (find _ _) as [g'|] eqn:F.
    - apply find_some in F as [_ F]. assert (H' : forall d, In d (x_vtags V g') -> tags (fst d) = snd d).
      { intros d I. apply Z.eqb_eq. exact (proj1 (forallb_forall _ _) F d I). }
      assert (M : x_member_of g' = x_member_of g).
      { apply Ti. rewrite <- (H _ (or_introl eq_refl) : tags XVInst = x_tI V (x_member_of g)). symmetry. exact (H' _ (or_introl eq_refl)). }
      f_equal. destruct g, g'; try discriminate M; try reflexivity; exfalso;
        pose proof (H _ (or_intror (or_introl eq_refl))) as X; pose proof (H' _ (or_intror (or_introl eq_refl))) as Y; cbn in X, Y; congruence.
    - exfalso. pose proof (find_none _ _ F g (x_forms_all c g Hg)) as X. cbv beta in X.
      assert (Y : forallb (fun d => tags (fst d) =? snd d) (x_vtags V g) = true) by (apply forallb_forall; intros d I; apply Z.eqb_eq; auto).
      congruence.
  Qed.

  Definition x_at_form {X} (x0 : X) (k : x_form -> X) (fi : nat) : X := match nth_error (x_order V) fi with Some g => k g | None => x0 end.
  Definition x_vfs (fi : nat) (l : x_vpath -> Z) (q : x_vpath) : Z := x_at_form 0 (fun g => sem0 (x_vdec V g l) l q) fi.
  Definition x_vfv (fi : nat) (l : x_vpath -> Z) : bool := x_at_form false (fun g => x_vvalid V g l) fi.
  Definition x_vdecf (fi : nat) (l : x_vpath -> Z) : inst := x_at_form (LUI (mkU 0 0)) (fun g => x_vdec V g l) fi.

  Lemma x_vdec_local g l l' : (forall p, In p (map fst (x_leaves V g)) -> l p = l' p) -> x_vdec V g l = x_vdec V g l'.
  Proof. intros H. destruct g; cbn [x_leaves map fst] in H; unfold x_vdec; rewrite !H by (cbn; auto 8); reflexivity. Qed.
  Lemma x_vvalid_local g l l' : (forall p, In p (map fst (x_leaves V g)) -> l p = l' p) -> x_vvalid V g l = x_vvalid V g l'.
  Proof. intros H. destruct g; cbn [x_leaves map fst] in H; unfold x_vvalid; rewrite ?H by (cbn; auto 8); reflexivity. Qed.
  Lemma x_vsem_local i l l' q : (forall p, In p (map fst x_vfree) -> l p = l' p) -> sem0 i l q = sem0 i l' q.
  Proof. intros H. cbn [x_vfree map fst] in H. unfold x_vsem. rewrite !H by (cbn; auto 8). reflexivity. Qed.
  Lemma x_leaves_const g p t : In (p, t) (x_leaves V g) -> mty_const t = true.
  Proof. destruct g; cbn; intros I; repeat (destruct I as [I|I]; [injection I as <- <-; reflexivity|]); destruct I. Qed.
  Lemma x_leaves_in g e : x_has c g = true -> In e (x_leaves V g) -> In e (x_vconsts c V).
  Proof. clear HV Ics. destruct g, c; try discriminate; intros _; cbn; intros I; repeat (destruct I as [<-|I]; [auto 40|]); destruct I. Qed.
  Lemma x_consts_leaf p t : In (p, t) (x_vconsts c V) -> mty_const t = true.
  Proof. clear HV Ics. destruct c; cbn; intros I; repeat (destruct I as [I|I]; [injection I as <- <-; reflexivity|]); destruct I. Qed.
  Lemma x_v_nodup : NoDup (map fst (x_vconsts c V ++ x_vfree)).
  Proof. clear HV Ics. apply x_vnodup_ok. destruct c; reflexivity. Qed.
  Lemma x_const_in p t : In (p, t) (x_vconsts c V ++ x_vfree) -> mty_const t = true -> In (p, t) (x_vconsts c V).
  Proof.
    intros I Ct. apply in_app_or in I as [I|I]; [exact I|]. exfalso. cbn in I.
    repeat (destruct I as [I|I]; [injection I as <- <-; discriminate|]). destruct I.
  Qed.
  Lemma x_free_in p t : In (p, t) (x_vconsts c V ++ x_vfree) -> mty_const t = false -> In (p, t) x_vfree.
  Proof. intros I Ct. apply in_app_or in I as [I|I]; [|exact I]. apply x_consts_leaf in I. congruence. Qed.

  Lemma x_v_arch_ok : arch_ok mty_const arch0 x_vfs x_vfv.
  Proof.
    constructor.
    - exact x_v_nodup.
    - repeat constructor; cbn; intuition discriminate.
    - exact Ncs.
    - intros p I. apply Ics in I. cbn [x_riscv_arch a_in]. rewrite map_app. apply in_or_app. now left.
    - intros fi f E. apply x_vform_nth in E as (g & _ & Hg & ->). cbn [fst x_riscv_arch a_in]. intros p I. rewrite map_app in I |- *.
      apply in_app_or in I as [I|I]; apply in_or_app; [left|now right]. apply in_map_iff in I as (e & <- & I). apply in_map. exact (x_leaves_in g e Hg I).
    - intros fi f E. apply x_vform_nth in E as (g & _ & Hg & ->). cbn [snd]. apply x_vnodup_ok. destruct g; reflexivity.
    - intros fi f tags l q E H. apply x_vform_nth in E as (g & E & Hg & ->). cbn [snd] in H. cbn [x_riscv_arch a_fsem].
      rewrite (x_form_of_eq g tags Hg H). unfold x_vfs, x_at_form. now rewrite E.
    - intros fi f tags l q E H. apply x_vform_nth in E as (g & E & Hg & ->). cbn [snd] in H. cbn [x_riscv_arch a_sem].
      rewrite (x_form_of_eq g tags Hg H). unfold x_vfs, x_at_form. now rewrite E.
    - intros fi f tags l E H. apply x_vform_nth in E as (g & E & Hg & ->). cbn [snd] in H. cbn [x_riscv_arch a_fvalid].
      rewrite (x_form_of_eq g tags Hg H). unfold x_vfv, x_at_form. now rewrite E.
    - intros fi f tags l E H. apply x_vform_nth in E as (g & E & Hg & ->). cbn [snd] in H. cbn [x_riscv_arch a_valid].
      rewrite (x_form_of_eq g tags Hg H). unfold x_vfv, x_at_form. now rewrite E.
    - intros fi f l l' q E H. apply x_vform_nth in E as (g & E & Hg & ->). cbn [fst] in H. unfold x_vfs, x_at_form. rewrite E.
      rewrite (x_vdec_local g l l') by (intros p I; apply H; rewrite map_app; apply in_or_app; now left).
      apply x_vsem_local. intros p I. apply H. rewrite map_app. apply in_or_app. now right.
    - intros fi f l l' E H. apply x_vform_nth in E as (g & E & Hg & ->). cbn [fst] in H. unfold x_vfv, x_at_form. rewrite E.
      apply x_vvalid_local. intros p I. apply in_map_iff in I as ((p' & t) & <- & I). cbn [fst]. apply (H p' t).
      + rewrite map_app. apply in_or_app. left. now apply (in_map fst) in I.
      + cbn [x_riscv_arch a_in]. apply in_or_app. left. exact (x_leaves_in g _ Hg I).
      + exact (x_leaves_const g p' t I).
  Qed.

  Lemma x_v_arch_ext : arch_ext arch0.
  Proof.
    intros tags tags' l l' Et El. cbn [x_riscv_arch a_fsem a_sem a_fvalid a_valid].
    assert (Tp : forall g p, x_has c g = true -> In p (map fst (x_vtags V g)) -> tags p = tags' p).
    { intros g p Hg I. apply Et. unfold tag_paths. apply in_flat_map. exists (map fst (x_leaves V g ++ x_vfree), x_vtags V g).
      split; [|exact I]. cbn [x_riscv_arch a_forms]. apply in_map_iff. exists g. split; [reflexivity|].
      destruct HV as (_ & _ & _ & _ & _ & _ & _ & _ & _ & _ & _ & O). apply O. exact Hg. }
    assert (Fo : x_form_of c V tags = x_form_of c V tags').
    { unfold x_form_of. assert (Sub : forall g, In g (filter (x_has c) x_all_forms) -> x_has c g = true) by (intros g I; now apply filter_In in I).
      induction (filter (x_has c) x_all_forms) as [|g gs IH]; [reflexivity|]. cbn [find].
      replace (forallb (fun d => tags (fst d) =? snd d) (x_vtags V g)) with (forallb (fun d => tags' (fst d) =? snd d) (x_vtags V g)).
      - rewrite IH; [reflexivity|]. intros g' I. apply Sub. now right.
      - pose proof (fun p => Tp g p (Sub g (or_introl eq_refl))) as T. clear -T. induction (x_vtags V g) as [|d ds IH]; [reflexivity|]. cbn [forallb map] in *. rewrite IH.
        + now rewrite (T (fst d) (or_introl eq_refl)).
        + intros p I. apply T. now right. }
    assert (Lg : forall g p, x_has c g = true -> In p (map fst (x_leaves V g)) -> l p = l' p).
    { intros g p Hg I. apply El. apply in_map_iff in I as (e & <- & I). apply in_map. cbn [x_riscv_arch a_in]. apply in_or_app. left. exact (x_leaves_in g e Hg I). }
    assert (Lf : forall p, In p (map fst x_vfree) -> l p = l' p).
    { intros p I. apply El. cbn [x_riscv_arch a_in]. rewrite map_app. apply in_or_app. now right. }
    assert (Hf : forall g, x_form_of c V tags = Some g -> x_has c g = true).
    { intros g E. unfold x_form_of in E. apply find_some in E as [E _]. now apply filter_In in E. }
    rewrite <- Fo. destruct (x_form_of c V tags) as [g|]; [|repeat split]. pose proof (Hf g eq_refl) as Hg.
    rewrite (x_vvalid_local g l l' (fun p => Lg g p Hg)), (x_vdec_local g l l' (fun p => Lg g p Hg)). repeat split; intros; now apply x_vsem_local.
  Qed.

  (** ** Leaves and fields *)
  Lemma x_field_dec g l p : x_vvalid V g l = true -> In p (map fst (x_leaves V g)) -> x_vfield (x_vdec V g l) p = Some (l p).
  Proof.
    intros Vl I. destruct g; cbn in I; cbn [x_vvalid] in Vl;
      repeat (destruct I as [<-|I]; [cbn [x_vdec x_vfield r_rd r_rs1 r_rs2 i_rd i_rs1 i_imm is_rd is_rs1 is_imm u_rd u_imm j_rd j_imm b_rs1 b_rs2 b_imm s_rs1 s_rs2 s_imm e_rd e_rs];
        rewrite ?enc_unenc by exact Vl; reflexivity|]); destruct I.
  Qed.
  Lemma x_field_leaf g l p z : x_vfield (x_vdec V g l) p = Some z -> In p (map fst (x_leaves V g)).
  Proof.
    destruct p as [gr s| | | | | | | | | | | |]; [|destruct g; discriminate..].
    destruct g, gr; try discriminate; destruct s; try discriminate; intros _; cbn; auto 8.
  Qed.
  Definition x_venc (i : inst) (p : x_vpath) : Z := match x_vfield i p with Some z => z | None => 0 end.
  Lemma x_dec_enc i : in_isa c i -> x_vdec V (x_iform i) (x_venc i) = i.
  Proof.
    destruct HV as (EA & ES & EL & EB & EM & EE & _). intros I.
    destruct i as [[rd r1 r2] [t|t|t]|[[rd r1 im] t|[rd r1 im] t]|[rd im]|[rd im]|[rd im]|[rd r1 im]|[r1 r2 im] t|[rd r1 im] t|[r1 r2 im] t|[rd r1] t];
      cbn [x_iform x_vdec x_venc x_vfield r_rd r_rs1 r_rs2 i_rd i_rs1 i_imm is_rd is_rs1 is_imm u_rd u_imm j_rd j_imm b_rs1 b_rs2 b_imm s_rs1 s_rs2 s_imm e_rd e_rs];
      unfold x_venc; cbn [x_vfield r_rd r_rs1 r_rs2 i_rd i_rs1 i_imm is_rd is_rs1 is_imm u_rd u_imm j_rd j_imm b_rs1 b_rs2 b_imm s_rs1 s_rs2 s_imm e_rd e_rs];
      rewrite ?(unenc_enc _ _ _ _ t EA (ariths_all t)), ?(unenc_enc _ _ _ _ t ES (shifts_all t)), ?(unenc_enc _ _ _ _ t EL (loads_all t)),
        ?(unenc_enc _ _ _ _ t EB (branches_all t)),
        ?(unenc_enc _ _ _ _ t EM (muldivs_all t)), ?(unenc_enc _ _ _ _ t EE (bitinsts_all t)); reflexivity.
  Qed.
  Lemma x_valid_enc i : in_isa c i -> x_vvalid V (x_iform i) (x_venc i) = true.
  Proof.
    intros I. destruct i as [[rd r1 r2] [t|t|t]|[[rd r1 im] t|[rd r1 im] t]|[rd im]|[rd im]|[rd im]|[rd r1 im]|[r1 r2 im] t|[rd r1 im] t|[r1 r2 im] t|[rd r1] t];
      cbn [x_iform x_vvalid]; unfold x_venc; cbn [x_vfield]; try reflexivity;
      apply isenc_enc; auto using ariths_all, shifts_all, loads_all, branches_all, muldivs_all, bitinsts_all.
  Qed.
  Lemma x_widths : 0 <= x_wA V /\ 0 <= x_wS V /\ 0 <= x_wL V /\ 0 <= x_wB V /\ 0 <= x_wM V /\ 0 <= x_wE V.
  Proof.
    assert (K : forall X (e : X -> Z) w, enc_ok e w -> X -> 0 <= w).
    { intros X e w (_ & R) x. destruct (Z.lt_ge_cases w 0) as [L|]; auto. pose proof (R x) as Y. rewrite (Z.pow_neg_r 2 _ L) in Y. lia. }
    destruct HV as (EA & ES & EL & EB & EM & EE & _). repeat split; eauto using ADD, SLL, LB, BEQ, MUL, POPCNT.
  Qed.

  Lemma x_iform_has i : in_isa c i -> x_has c (x_iform i) = true.
  Proof. destruct i as [d [t|t|t]|[d t|d t]|d|d|d|d|d t|d t|d t|d t]; cbn [in_isa x_iform]; try reflexivity; intros H; [destruct H as (_ & _ & _ & ->)|destruct H as (_ & _ & ->)]; reflexivity. Qed.
  Lemma x_isa_dec g l : x_has c g = true -> typed mty_vals (a_in arch0) l -> in_isa c (x_vdec V g l).
  Proof.
    clear HV Ics. intros Hg T. assert (K : forall p w, In (p, MConst w) (x_leaves V g) -> fit w (l p)).
    { intros p w I. unfold fit. apply (proj1 (mty_In (MConst w) (l p))). apply T. cbn [x_riscv_arch a_in]. apply in_or_app. left. exact (x_leaves_in g _ Hg I). }
    destruct g; cbn [x_leaves] in K; cbn [x_vdec in_isa r_rd r_rs1 r_rs2 i_rd i_rs1 i_imm is_rd is_rs1 is_imm u_rd u_imm j_rd j_imm b_rs1 b_rs2 b_imm s_rs1 s_rs2 s_imm e_rd e_rs];
      repeat match goal with |- _ /\ _ => split end; try exact Logic.I; try (destruct c; try discriminate Hg; reflexivity); apply K; cbn [In]; auto 8.
  Qed.
  Lemma x_field_typed i p w z : in_isa c i -> In (p, MConst w) (x_vconsts c V) -> x_vfield i p = Some z -> 0 <= z < 2 ^ w.
  Proof.
    clear Ics. destruct HV as ((_ & EA) & (_ & ES) & (_ & EL) & (_ & EB) & (_ & EM) & (_ & EE) & _). intros Hi I.
    destruct c; cbn in I; repeat (destruct I as [I|I]; [injection I as <- <-;
      destruct i as [[rd r1 r2] [t|t|t]|[[rd r1 im] t|[rd r1 im] t]|[rd im]|[rd im]|[rd im]|[rd r1 im]|[r1 r2 im] t|[rd r1 im] t|[r1 r2 im] t|[rd r1] t];
      cbn [x_vfield]; try discriminate; intros [= <-]; try apply EA; try apply ES; try apply EL; try apply EB; try apply EM; try apply EE; apply Hi|]); destruct I.
  Qed.
  Lemma x_const_ty p t : In (p, t) (x_vconsts c V) -> exists w, t = MConst w /\ 0 <= w.
  Proof.
    clear Ics. pose proof x_widths as (? & ? & ? & ? & ? & ?). destruct c; cbn; intros I;
    repeat (destruct I as [I|I]; [injection I as <- <-; eexists; split; [reflexivity|lia]|]); destruct I.
  Qed.
  Lemma x_enc_typed i : in_isa c i -> typed mty_vals (a_in arch0) (x_venc i).
  Proof.
    intros Hi p t I. cbn [x_riscv_arch a_in] in I. apply mty_In. apply in_app_or in I as [I|I].
    - destruct (x_const_ty p t I) as (w & -> & W). unfold x_venc. destruct (x_vfield i p) as [z|] eqn:E; [exact (x_field_typed i p w z Hi I E)|].
      pose proof (pow2_pos w W). lia.
    - cbn in I. assert (E : x_vfield i p = None).
      { repeat (destruct I as [I|I]; [injection I as <- _; destruct i as [? []|[]| | | | | | | |]; reflexivity|]). destruct I. }
      unfold x_venc. rewrite E. repeat (destruct I as [I|I]; [injection I as <- <-; cbn; lia|]). destruct I.
  Qed.

  Lemma x_v_machine : machine mty_const mty_vals arch0 x_vfs x_vfv x_vok x_vdecf sem0.
  Proof.
    constructor.
    - intros p t I J. apply Ics in I. cbn [x_riscv_arch a_in] in J. apply in_map_iff in I as ((p' & t') & E & I). cbn [fst] in E. subst p'.
      assert (t = t') as ->; [|exact (x_consts_leaf p t' I)].
      pose proof (In_dget x_vpath_eqb x_vpath_eqb_eq _ _ _ x_v_nodup J) as X.
      pose proof (In_dget x_vpath_eqb x_vpath_eqb_eq _ _ _ x_v_nodup (in_or_app _ x_vfree _ (or_introl I))) as Y. congruence.
    - intros fi f p t E I Ct. apply x_vform_nth in E as (g & _ & Hg & ->). cbn [fst]. rewrite map_app. apply in_or_app. right.
      pose proof (x_free_in p t I Ct) as F. now apply (in_map fst) in F.
    - intros fi f l q E T Fv. unfold x_vfs, x_vfv, x_vdecf, x_at_form in *. destruct (nth_error (x_order V) fi); [reflexivity|discriminate].
    - intros fi f l E T Fv Cl. apply x_vform_nth in E as (g & E & Hg & ->). cbn [fst] in Cl. unfold x_vfv, x_vdecf, x_at_form in *. rewrite E in *.
      split; [exact (x_isa_dec g l Hg T)|]. intros p zs z I F. pose proof (x_field_leaf g l p z F) as J.
      rewrite (x_field_dec g l p Fv J) in F. injection F as <-. apply (Cl p zs I). rewrite map_app. apply in_or_app. now left.
    - intros i (Hi & Hc). assert (O : In (x_iform i) (x_order V)).
      { destruct HV as (_ & _ & _ & _ & _ & _ & _ & _ & _ & _ & _ & O). apply O. now apply x_iform_has. }
      destruct (In_nth_error _ _ O) as (fi & E).
      exists fi, (map fst (x_leaves V (x_iform i) ++ x_vfree), x_vtags V (x_iform i)), (x_venc i). split.
      { cbn [x_riscv_arch a_forms]. rewrite nth_error_map, E. reflexivity. }
      split; [exact (x_enc_typed i Hi)|]. unfold x_vfv, x_vdecf, x_at_form. rewrite E. split; [exact (x_valid_enc i Hi)|]. split; [|exact (x_dec_enc i Hi)].
      intros p zs I J. cbn [fst] in J. pose proof (Ics p ltac:(now apply (in_map fst) in I)) as Ip.
      assert (L : In p (map fst (x_leaves V (x_iform i)))).
      { rewrite map_app in J. apply in_app_or in J as [J|J]; [exact J|]. exfalso.
        pose proof x_v_nodup as N. rewrite map_app in N. revert N J Ip. generalize (map fst (x_vconsts c V)) (map fst x_vfree). clear.
        intros xs ys. induction xs as [|x xs IH]; cbn [app In]; [tauto|]. intros N Jy [<-|Jx]; inversion N as [|? ? N1 N2]; subst.
        - apply N1. apply in_or_app. now right.
        - auto. }
      pose proof (x_field_dec (x_iform i) (x_venc i) p (x_valid_enc i Hi) L) as F. rewrite (x_dec_enc i Hi) in F. exact (Hc p zs _ I F).
    - intros fi f l l' E H. apply x_vform_nth in E as (g & E & Hg & ->). cbn [fst] in H. unfold x_vdecf, x_at_form. rewrite E. apply x_vdec_local.
      intros p I. apply in_map_iff in I as ((p' & t) & <- & I). cbn [fst]. apply (H p' t).
      + cbn [x_riscv_arch a_in]. apply in_or_app. left. exact (x_leaves_in g _ Hg I).
      + rewrite map_app. apply in_or_app. left. now apply (in_map fst) in I.
      + exact (x_leaves_const g p' t I).
    - intros i l l' q H. apply x_vsem_local. intros p I. apply in_map_iff in I as ((p' & t) & <- & I). cbn [fst]. apply (H p' t).
      + cbn [x_riscv_arch a_in]. apply in_or_app. now right.
      + cbn in I. repeat (destruct I as [I|I]; [injection I as <- <-; reflexivity|]). destruct I.
  Qed.
End Riscv.
