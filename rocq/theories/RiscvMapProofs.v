(** R32I_mappable is a machine. *)
From Coq Require Import ZArith List Bool Lia Permutation.
From Verif Require Import Base BaseLemmas BvModel BvLemmas RiscvModel BindModel BindProps MapIdxModel MapIdxProps CegisModel CegisProps
  MapModel MapProofs MapMain MapProps MapIff MapIffProps MapDirect RegPeModel RegPeProofs RiscvMapModel.
Import ListNotations.
Open Scope list_scope.
Open Scope Z_scope.

Lemma vpath_code_inj p q : vpath_code p = vpath_code q -> p = q.
Proof.
  assert (G : forall g s, 16 <= 16 * group_code g + slot_code s < 176) by (intros [] []; cbn; lia).
  assert (I : forall g s g' s', 16 * group_code g + slot_code s = 16 * group_code g' + slot_code s' -> g = g' /\ s = s').
  { intros g s g' s' E. assert (S : forall s, 0 <= slot_code s < 16) by (intros []; cbn; lia).
    assert (group_code g = group_code g') by (pose proof (S s); pose proof (S s'); lia).
    assert (slot_code s = slot_code s') by lia. split; [destruct g, g'; cbn in *; congruence|destruct s, s'; cbn in *; congruence]. }
  destruct p as [g s| | | | | | | | | | | |], q as [g' s'| | | | | | | | | | | |]; cbn [vpath_code]; intros E;
    try reflexivity; try discriminate E; try (pose proof (G g s); lia); try (pose proof (G g' s'); lia).
  destruct (I _ _ _ _ E) as [<- <-]. reflexivity.
Qed.
Lemma vpath_eqb_eq p q : vpath_eqb p q = true <-> p = q.
Proof. unfold vpath_eqb. rewrite Z.eqb_eq. split; [apply vpath_code_inj|now intros ->]. Qed.
Lemma v_eqs : eqs vpath_eqb mty_eqb.
Proof. split; [apply vpath_eqb_eq|apply mty_eqb_eq]. Qed.

(** Lists without repetition, by evaluation. *)
Fixpoint vnodup (l : list vpath) : bool := match l with [] => true | p :: l => negb (existsb (vpath_eqb p) l) && vnodup l end.
Lemma vnodup_ok l : vnodup l = true -> NoDup l.
Proof.
  induction l as [|p l IH]; cbn; [constructor|]. intros E. apply andb_prop in E as [E1 E2]. constructor; auto.
  intros I. apply negb_true_iff in E1. assert (X : existsb (vpath_eqb p) l = true) by (apply existsb_exists; exists p; split; auto; now apply vpath_eqb_eq).
  congruence.
Qed.

Lemma unenc_enc {X} (e : X -> Z) w all x0 x : enc_ok e w -> In x all -> unenc e all x0 (e x) = x.
Proof.
  intros (Inj & _) I. unfold unenc. destruct (find _ all) as [y|] eqn:F.
  - apply find_some in F as [_ F]. apply Z.eqb_eq in F. auto.
  - pose proof (find_none _ _ F x I) as Y. cbn in Y. rewrite Z.eqb_refl in Y. discriminate.
Qed.
Lemma enc_unenc {X} (e : X -> Z) all x0 z : isenc e all z = true -> e (unenc e all x0 z) = z.
Proof.
  intros E. unfold unenc. destruct (find _ all) as [y|] eqn:F.
  - apply find_some in F as [_ F]. now apply Z.eqb_eq in F.
  - apply existsb_exists in E as (x & I & E). pose proof (find_none _ _ F x I) as Y. cbn in Y. congruence.
Qed.
Lemma isenc_enc {X} (e : X -> Z) all x : In x all -> isenc e all (e x) = true.
Proof. intros I. apply existsb_exists. exists x. split; auto. apply Z.eqb_refl. Qed.
Lemma ariths_all t : In t ariths. Proof. destruct t; cbn; auto 8. Qed.
Lemma shifts_all t : In t shifts. Proof. destruct t; cbn; auto 8. Qed.
Lemma loads_all t : In t loads. Proof. destruct t; cbn; auto 8. Qed.
Lemma branches_all t : In t branches. Proof. destruct t; cbn; auto 8. Qed.
Lemma forms_all f : In f all_forms. Proof. destruct f; cbn; auto 12. Qed.

Section Riscv.
  Variables sdiv udiv srem urem : Z -> Z -> Z.
  Variables (V : vcode) (A : access) (cs : list (vpath * list Z)).
  Hypothesis HV : vcode_ok V.
  Hypotheses (Ncs : NoDup (map fst cs)) (Ics : incl (map fst cs) (map fst (vconsts V))).
  Notation arch0 := (riscv_arch sdiv udiv srem urem V A cs).
  Notation sem0 := (vsem sdiv udiv srem urem A).

  (** The form of an instruction and its leaves. *)
  Definition iform (i : inst) : form :=
    match i with
    | OP _ (aArith _) => FOpA | OP _ _ => FOpS | OP_IMM (oArith _ _) => FImmA | OP_IMM (oShift _ _) => FImmS
    | LUI _ => FLui | AUIPC _ => FAuipc | JAL _ => FJal | JALR _ => FJalr | Branch _ _ => FBr | Load _ _ => FLd | Store _ _ => FSt
    | Ext _ _ => FSt
    end.
  Definition vfield (i : inst) (p : vpath) : option Z :=
    match i, p with
    | OP d _, VFld GOp SRd => Some (r_rd d) | OP d _, VFld GOp SR1 => Some (r_rs1 d) | OP d _, VFld GOp SR2 => Some (r_rs2 d)
    | OP _ (aArith t), VFld GOp STag => Some (eA V t) | OP _ (aShift t), VFld GOp STagS => Some (eS V t)
    | OP_IMM (oArith d _), VFld GIA SRd => Some (i_rd d) | OP_IMM (oArith d _), VFld GIA SR1 => Some (i_rs1 d)
    | OP_IMM (oArith d _), VFld GIA SImm => Some (i_imm d) | OP_IMM (oArith _ t), VFld GIA STag => Some (eA V t)
    | OP_IMM (oShift d _), VFld GIS SRd => Some (is_rd d) | OP_IMM (oShift d _), VFld GIS SR1 => Some (is_rs1 d)
    | OP_IMM (oShift d _), VFld GIS SImm => Some (is_imm d) | OP_IMM (oShift _ t), VFld GIS STag => Some (eS V t)
    | LUI d, VFld GLui SRd => Some (u_rd d) | LUI d, VFld GLui SImm => Some (u_imm d)
    | AUIPC d, VFld GAuipc SRd => Some (u_rd d) | AUIPC d, VFld GAuipc SImm => Some (u_imm d)
    | JAL d, VFld GJal SRd => Some (j_rd d) | JAL d, VFld GJal SImm => Some (j_imm d)
    | JALR d, VFld GJalr SRd => Some (i_rd d) | JALR d, VFld GJalr SR1 => Some (i_rs1 d) | JALR d, VFld GJalr SImm => Some (i_imm d)
    | Branch d _, VFld GBr SR1 => Some (b_rs1 d) | Branch d _, VFld GBr SR2 => Some (b_rs2 d)
    | Branch d _, VFld GBr SImm => Some (b_imm d) | Branch _ t, VFld GBr STag => Some (eB V t)
    | Load d _, VFld GLd SRd => Some (i_rd d) | Load d _, VFld GLd SR1 => Some (i_rs1 d)
    | Load d _, VFld GLd SImm => Some (i_imm d) | Load _ t, VFld GLd STag => Some (eL V t)
    | Store d _, VFld GSt SR1 => Some (s_rs1 d) | Store d _, VFld GSt SR2 => Some (s_rs2 d)
    | Store d _, VFld GSt SImm => Some (s_imm d) | Store _ t, VFld GSt STag => Some (eL V t)
    | _, _ => None
    end.
  (** An instruction of the ISA whose fields satisfy the constraints. *)
  Definition vok (i : inst) : Prop := in_isa Base32 i /\ forall p zs z, In (p, zs) cs -> vfield i p = Some z -> In z zs.

  Lemma vform_nth fi f : nth_error (a_forms arch0) fi = Some f ->
    exists g, nth_error (order V) fi = Some g /\ f = (map fst (leaves V g ++ vfree), vtags V g).
  Proof.
    cbn [riscv_arch a_forms]. rewrite nth_error_map. destruct (nth_error (order V) fi) as [g|]; [|discriminate].
    intros [= <-]. eauto.
  Qed.
  Lemma form_of_eq g (tags : vpath -> Z) : (forall d, In d (vtags V g) -> tags (fst d) = snd d) -> form_of V tags = Some g.
  Proof.
    intros H. destruct HV as (_ & _ & _ & _ & Ti & To & Tm & _).
    unfold form_of. destruct (find _ all_forms) as [g'|] eqn:F.
    - apply find_some in F as [_ F]. assert (H' : forall d, In d (vtags V g') -> tags (fst d) = snd d).
      { intros d I. apply Z.eqb_eq. exact (proj1 (forallb_forall _ _) F d I). }
      assert (M : member_of g' = member_of g).
      { apply Ti. rewrite <- (H _ (or_introl eq_refl) : tags VInst = tI V (member_of g)). symmetry. exact (H' _ (or_introl eq_refl)). }
      f_equal. destruct g, g'; try discriminate M; try reflexivity; exfalso;
        pose proof (H _ (or_intror (or_introl eq_refl))) as X; pose proof (H' _ (or_intror (or_introl eq_refl))) as Y; cbn in X, Y; congruence.
    - exfalso. pose proof (find_none _ _ F g (forms_all g)) as X. cbv beta in X.
      assert (Y : forallb (fun d => tags (fst d) =? snd d) (vtags V g) = true) by (apply forallb_forall; intros d I; apply Z.eqb_eq; auto).
      congruence.
  Qed.

  Definition at_form {X} (x0 : X) (k : form -> X) (fi : nat) : X := match nth_error (order V) fi with Some g => k g | None => x0 end.
  Definition vfs (fi : nat) (l : vpath -> Z) (q : vpath) : Z := at_form 0 (fun g => sem0 (vdec V g l) l q) fi.
  Definition vfv (fi : nat) (l : vpath -> Z) : bool := at_form false (fun g => vvalid V g l) fi.
  Definition vdecf (fi : nat) (l : vpath -> Z) : inst := at_form (LUI (mkU 0 0)) (fun g => vdec V g l) fi.

  Lemma vdec_local g l l' : (forall p, In p (map fst (leaves V g)) -> l p = l' p) -> vdec V g l = vdec V g l'.
  Proof. intros H. destruct g; cbn [leaves map fst] in H; unfold vdec; rewrite !H by (cbn; auto 8); reflexivity. Qed.
  Lemma vvalid_local g l l' : (forall p, In p (map fst (leaves V g)) -> l p = l' p) -> vvalid V g l = vvalid V g l'.
  Proof. intros H. destruct g; cbn [leaves map fst] in H; unfold vvalid; rewrite ?H by (cbn; auto 8); reflexivity. Qed.
  Lemma vsem_local i l l' q : (forall p, In p (map fst vfree) -> l p = l' p) -> sem0 i l q = sem0 i l' q.
  Proof. intros H. cbn [vfree map fst] in H. unfold vsem. rewrite !H by (cbn; auto 8). reflexivity. Qed.
  Lemma leaves_const g p t : In (p, t) (leaves V g) -> mty_const t = true.
  Proof. destruct g; cbn; intros I; repeat (destruct I as [I|I]; [injection I as <- <-; reflexivity|]); destruct I. Qed.
  Lemma leaves_in g e : In e (leaves V g) -> In e (vconsts V).
  Proof. destruct g; cbn; intros I; repeat (destruct I as [<-|I]; [auto 40|]); destruct I. Qed.
  Lemma consts_leaf p t : In (p, t) (vconsts V) -> mty_const t = true.
  Proof. cbn. intros I; repeat (destruct I as [I|I]; [injection I as <- <-; reflexivity|]); destruct I. Qed.
  Lemma v_nodup : NoDup (map fst (vconsts V ++ vfree)).
  Proof. apply vnodup_ok. reflexivity. Qed.
  Lemma const_in p t : In (p, t) (vconsts V ++ vfree) -> mty_const t = true -> In (p, t) (vconsts V).
  Proof.
    intros I Ct. apply in_app_or in I as [I|I]; [exact I|]. exfalso. cbn in I.
    repeat (destruct I as [I|I]; [injection I as <- <-; discriminate|]). destruct I.
  Qed.
  Lemma free_in p t : In (p, t) (vconsts V ++ vfree) -> mty_const t = false -> In (p, t) vfree.
  Proof. intros I Ct. apply in_app_or in I as [I|I]; [|exact I]. apply consts_leaf in I. congruence. Qed.

  Lemma v_arch_ok : arch_ok mty_const arch0 vfs vfv.
  Proof.
    constructor.
    - exact v_nodup.
    - repeat constructor; cbn; intuition discriminate.
    - exact Ncs.
    - intros p I. apply Ics in I. cbn [riscv_arch a_in]. rewrite map_app. apply in_or_app. now left.
    - intros fi f E. apply vform_nth in E as (g & _ & ->). cbn [fst riscv_arch a_in]. intros p I. rewrite map_app in I |- *.
      apply in_app_or in I as [I|I]; apply in_or_app; [left|now right]. apply in_map_iff in I as (e & <- & I). apply in_map. exact (leaves_in g e I).
    - intros fi f E. apply vform_nth in E as (g & _ & ->). cbn [snd]. apply vnodup_ok. destruct g; reflexivity.
    - intros fi f tags l q E H. apply vform_nth in E as (g & E & ->). cbn [snd] in H. cbn [riscv_arch a_fsem].
      rewrite (form_of_eq g tags H). unfold vfs, at_form. now rewrite E.
    - intros fi f tags l q E H. apply vform_nth in E as (g & E & ->). cbn [snd] in H. cbn [riscv_arch a_sem].
      rewrite (form_of_eq g tags H). unfold vfs, at_form. now rewrite E.
    - intros fi f tags l E H. apply vform_nth in E as (g & E & ->). cbn [snd] in H. cbn [riscv_arch a_fvalid].
      rewrite (form_of_eq g tags H). unfold vfv, at_form. now rewrite E.
    - intros fi f tags l E H. apply vform_nth in E as (g & E & ->). cbn [snd] in H. cbn [riscv_arch a_valid].
      rewrite (form_of_eq g tags H). unfold vfv, at_form. now rewrite E.
    - intros fi f l l' q E H. apply vform_nth in E as (g & E & ->). cbn [fst] in H. unfold vfs, at_form. rewrite E.
      rewrite (vdec_local g l l') by (intros p I; apply H; rewrite map_app; apply in_or_app; now left).
      apply vsem_local. intros p I. apply H. rewrite map_app. apply in_or_app. now right.
    - intros fi f l l' E H. apply vform_nth in E as (g & E & ->). cbn [fst] in H. unfold vfv, at_form. rewrite E.
      apply vvalid_local. intros p I. apply in_map_iff in I as ((p' & t) & <- & I). cbn [fst]. apply (H p' t).
      + rewrite map_app. apply in_or_app. left. now apply (in_map fst) in I.
      + cbn [riscv_arch a_in]. apply in_or_app. left. exact (leaves_in g _ I).
      + exact (leaves_const g p' t I).
  Qed.

  Lemma v_arch_ext : arch_ext arch0.
  Proof.
    intros tags tags' l l' Et El. cbn [riscv_arch a_fsem a_sem a_fvalid a_valid].
    assert (Tp : forall g p, In p (map fst (vtags V g)) -> tags p = tags' p).
    { intros g p I. apply Et. unfold tag_paths. apply in_flat_map. exists (map fst (leaves V g ++ vfree), vtags V g).
      split; [|exact I]. cbn [riscv_arch a_forms]. apply in_map_iff. exists g. split; [reflexivity|]. apply HV. }
    assert (Fo : form_of V tags = form_of V tags').
    { unfold form_of. induction all_forms as [|g gs IH]; [reflexivity|]. cbn [find].
      replace (forallb (fun d => tags (fst d) =? snd d) (vtags V g)) with (forallb (fun d => tags' (fst d) =? snd d) (vtags V g)).
      - now rewrite IH.
      - pose proof (Tp g) as T. clear -T. induction (vtags V g) as [|d ds IH]; [reflexivity|]. cbn [forallb map] in *. rewrite IH.
        + now rewrite (T (fst d) (or_introl eq_refl)).
        + intros p I. apply T. now right. }
    assert (Lg : forall g p, In p (map fst (leaves V g)) -> l p = l' p).
    { intros g p I. apply El. apply in_map_iff in I as (e & <- & I). apply in_map. cbn [riscv_arch a_in]. apply in_or_app. left. exact (leaves_in g e I). }
    assert (Lf : forall p, In p (map fst vfree) -> l p = l' p).
    { intros p I. apply El. cbn [riscv_arch a_in]. rewrite map_app. apply in_or_app. now right. }
    rewrite <- Fo. destruct (form_of V tags) as [g|]; [|repeat split].
    rewrite (vvalid_local g l l' (Lg g)), (vdec_local g l l' (Lg g)). repeat split; intros; now apply vsem_local.
  Qed.

  (** ** Leaves and fields *)
  Lemma field_dec g l p : vvalid V g l = true -> In p (map fst (leaves V g)) -> vfield (vdec V g l) p = Some (l p).
  Proof.
    intros Vl I. destruct g; cbn in I; cbn [vvalid] in Vl;
      repeat (destruct I as [<-|I]; [cbn [vdec vfield r_rd r_rs1 r_rs2 i_rd i_rs1 i_imm is_rd is_rs1 is_imm u_rd u_imm j_rd j_imm b_rs1 b_rs2 b_imm s_rs1 s_rs2 s_imm];
        rewrite ?enc_unenc by exact Vl; reflexivity|]); destruct I.
  Qed.
  Lemma field_leaf g l p z : vfield (vdec V g l) p = Some z -> In p (map fst (leaves V g)).
  Proof.
    destruct p as [gr s| | | | | | | | | | | |]; [|destruct g; discriminate..].
    destruct g, gr; try discriminate; destruct s; try discriminate; intros _; cbn; auto 8.
  Qed.
  Definition venc (i : inst) (p : vpath) : Z := match vfield i p with Some z => z | None => 0 end.
  Lemma dec_enc i : in_isa Base32 i -> vdec V (iform i) (venc i) = i.
  Proof.
    destruct HV as (EA & ES & EL & EB & _). intros I.
    destruct i as [[rd r1 r2] [t|t|t]|[[rd r1 im] t|[rd r1 im] t]|[rd im]|[rd im]|[rd im]|[rd r1 im]|[r1 r2 im] t|[rd r1 im] t|[r1 r2 im] t|[rd r1] t];
      cbn [iform vdec venc vfield r_rd r_rs1 r_rs2 i_rd i_rs1 i_imm is_rd is_rs1 is_imm u_rd u_imm j_rd j_imm b_rs1 b_rs2 b_imm s_rs1 s_rs2 s_imm];
      unfold venc; cbn [vfield r_rd r_rs1 r_rs2 i_rd i_rs1 i_imm is_rd is_rs1 is_imm u_rd u_imm j_rd j_imm b_rs1 b_rs2 b_imm s_rs1 s_rs2 s_imm];
      rewrite ?(unenc_enc _ _ _ _ t EA (ariths_all t)), ?(unenc_enc _ _ _ _ t ES (shifts_all t)), ?(unenc_enc _ _ _ _ t EL (loads_all t)),
        ?(unenc_enc _ _ _ _ t EB (branches_all t)); try reflexivity; cbn in I; intuition discriminate.
  Qed.
  Lemma valid_enc i : in_isa Base32 i -> vvalid V (iform i) (venc i) = true.
  Proof.
    intros I. destruct i as [[rd r1 r2] [t|t|t]|[[rd r1 im] t|[rd r1 im] t]|[rd im]|[rd im]|[rd im]|[rd r1 im]|[r1 r2 im] t|[rd r1 im] t|[r1 r2 im] t|[rd r1] t];
      cbn [iform vvalid]; unfold venc; cbn [vfield]; try reflexivity;
      try apply isenc_enc; auto using ariths_all, shifts_all, loads_all, branches_all; cbn in I; intuition discriminate.
  Qed.
  Lemma widths : 0 <= wA V /\ 0 <= wS V /\ 0 <= wL V /\ 0 <= wB V.
  Proof.
    assert (K : forall X (e : X -> Z) w, enc_ok e w -> X -> 0 <= w).
    { intros X e w (_ & R) x. destruct (Z.lt_ge_cases w 0) as [L|]; auto. pose proof (R x) as Y. rewrite (Z.pow_neg_r 2 _ L) in Y. lia. }
    destruct HV as (EA & ES & EL & EB & _). repeat split; eauto using ADD, SLL, LB, BEQ.
  Qed.

  Lemma isa_dec g l : typed mty_vals (a_in arch0) l -> in_isa Base32 (vdec V g l).
  Proof.
    intros T. assert (K : forall p w, In (p, MConst w) (leaves V g) -> fit w (l p)).
    { intros p w I. unfold fit. apply (proj1 (mty_In (MConst w) (l p))). apply T. cbn [riscv_arch a_in]. apply in_or_app. left. exact (leaves_in g _ I). }
    destruct g; cbn [leaves] in K; cbn [vdec in_isa r_rd r_rs1 r_rs2 i_rd i_rs1 i_imm is_rd is_rs1 is_imm u_rd u_imm j_rd j_imm b_rs1 b_rs2 b_imm s_rs1 s_rs2 s_imm];
      repeat match goal with |- _ /\ _ => split end; try exact Logic.I; apply K; cbn [In]; auto 8.
  Qed.
  Lemma field_typed i p w z : in_isa Base32 i -> In (p, MConst w) (vconsts V) -> vfield i p = Some z -> 0 <= z < 2 ^ w.
  Proof.
    destruct HV as ((_ & EA) & (_ & ES) & (_ & EL) & (_ & EB) & _). intros Hi I.
    cbn in I. repeat (destruct I as [I|I]; [injection I as <- <-;
      destruct i as [[rd r1 r2] [t|t|t]|[[rd r1 im] t|[rd r1 im] t]|[rd im]|[rd im]|[rd im]|[rd r1 im]|[r1 r2 im] t|[rd r1 im] t|[r1 r2 im] t|[rd r1] t];
      cbn [vfield]; try discriminate; intros [= <-]; try apply EA; try apply ES; try apply EL; try apply EB; apply Hi|]). destruct I.
  Qed.
  Lemma const_ty p t : In (p, t) (vconsts V) -> exists w, t = MConst w /\ 0 <= w.
  Proof.
    pose proof widths as (? & ? & ? & ?). cbn. intros I.
    repeat (destruct I as [I|I]; [injection I as <- <-; eexists; split; [reflexivity|lia]|]). destruct I.
  Qed.
  Lemma enc_typed i : in_isa Base32 i -> typed mty_vals (a_in arch0) (venc i).
  Proof.
    intros Hi p t I. cbn [riscv_arch a_in] in I. apply mty_In. apply in_app_or in I as [I|I].
    - destruct (const_ty p t I) as (w & -> & W). unfold venc. destruct (vfield i p) as [z|] eqn:E; [exact (field_typed i p w z Hi I E)|].
      pose proof (pow2_pos w W). lia.
    - cbn in I. assert (E : vfield i p = None).
      { repeat (destruct I as [I|I]; [injection I as <- _; destruct i as [? []|[]| | | | | | | |]; reflexivity|]). destruct I. }
      unfold venc. rewrite E. repeat (destruct I as [I|I]; [injection I as <- <-; cbn; lia|]). destruct I.
  Qed.

  Lemma v_machine : machine mty_const mty_vals arch0 vfs vfv vok vdecf sem0.
  Proof.
    constructor.
    - intros p t I J. apply Ics in I. cbn [riscv_arch a_in] in J. apply in_map_iff in I as ((p' & t') & E & I). cbn [fst] in E. subst p'.
      assert (t = t') as ->; [|exact (consts_leaf p t' I)].
      pose proof (In_dget vpath_eqb vpath_eqb_eq _ _ _ v_nodup J) as X.
      pose proof (In_dget vpath_eqb vpath_eqb_eq _ _ _ v_nodup (in_or_app _ vfree _ (or_introl I))) as Y. congruence.
    - intros fi f p t E I Ct. apply vform_nth in E as (g & _ & ->). cbn [fst]. rewrite map_app. apply in_or_app. right.
      pose proof (free_in p t I Ct) as F. now apply (in_map fst) in F.
    - intros fi f l q E T Fv. unfold vfs, vfv, vdecf, at_form in *. destruct (nth_error (order V) fi); [reflexivity|discriminate].
    - intros fi f l E T Fv Cl. apply vform_nth in E as (g & E & ->). cbn [fst] in Cl. unfold vfv, vdecf, at_form in *. rewrite E in *.
      split; [exact (isa_dec g l T)|]. intros p zs z I F. pose proof (field_leaf g l p z F) as J.
      rewrite (field_dec g l p Fv J) in F. injection F as <-. apply (Cl p zs I). rewrite map_app. apply in_or_app. now left.
    - intros i (Hi & Hc). destruct (In_nth_error _ _ (proj2 (proj2 (proj2 (proj2 (proj2 (proj2 (proj2 HV)))))) (iform i))) as (fi & E).
      exists fi, (map fst (leaves V (iform i) ++ vfree), vtags V (iform i)), (venc i). split.
      { cbn [riscv_arch a_forms]. rewrite nth_error_map, E. reflexivity. }
      split; [exact (enc_typed i Hi)|]. unfold vfv, vdecf, at_form. rewrite E. split; [exact (valid_enc i Hi)|]. split; [|exact (dec_enc i Hi)].
      intros p zs I J. cbn [fst] in J. pose proof (Ics p ltac:(now apply (in_map fst) in I)) as Ip.
      assert (L : In p (map fst (leaves V (iform i)))).
      { rewrite map_app in J. apply in_app_or in J as [J|J]; [exact J|]. exfalso.
        pose proof v_nodup as N. rewrite map_app in N. revert N J Ip. generalize (map fst (vconsts V)) (map fst vfree). clear.
        intros xs ys. induction xs as [|x xs IH]; cbn [app In]; [tauto|]. intros N Jy [<-|Jx]; inversion N as [|? ? N1 N2]; subst.
        - apply N1. apply in_or_app. now right.
        - auto. }
      pose proof (field_dec (iform i) (venc i) p (valid_enc i Hi) L) as F. rewrite (dec_enc i Hi) in F. exact (Hc p zs _ I F).
    - intros fi f l l' E H. apply vform_nth in E as (g & E & ->). cbn [fst] in H. unfold vdecf, at_form. rewrite E. apply vdec_local.
      intros p I. apply in_map_iff in I as ((p' & t) & <- & I). cbn [fst]. apply (H p' t).
      + cbn [riscv_arch a_in]. apply in_or_app. left. exact (leaves_in g _ I).
      + rewrite map_app. apply in_or_app. left. now apply (in_map fst) in I.
      + exact (leaves_const g p' t I).
    - intros i l l' q H. apply vsem_local. intros p I. apply in_map_iff in I as ((p' & t) & <- & I). cbn [fst]. apply (H p' t).
      + cbn [riscv_arch a_in]. apply in_or_app. now right.
      + cbn in I. repeat (destruct I as [I|I]; [injection I as <- <-; reflexivity|]). destruct I.
  Qed.
End Riscv.
