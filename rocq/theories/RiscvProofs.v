(** Lemmas for the RISC-V properties. *)
From Coq Require Import ZArith List Bool Lia.
From Verif Require Import Base BaseLemmas BvModel BvLemmas RiscvModel RiscvSpec.
Import ListNotations.
Open Scope Z_scope.

Lemma W_pow : 2 ^ 32 = W. Proof. reflexivity. Qed.
Lemma wrapW x : wrap 32 x = x mod W. Proof. reflexivity. Qed.
Lemma fitW x : fit 32 x <-> 0 <= x < W. Proof. reflexivity. Qed.

Lemma sg_eq w x : 0 < w -> fit w x -> to_signed w x = sg w x.
Proof. intros. apply to_signed_eq; auto. Qed.

Lemma sg_range w x : 0 < w -> fit w x -> - 2 ^ (w - 1) <= sg w x < 2 ^ (w - 1).
Proof. intros. rewrite <- sg_eq by auto. apply to_signed_range; auto. Qed.

Lemma fit_wrap x : fit 32 (wrap 32 x).
Proof. apply wrap_range. lia. Qed.

(** ** Register file *)
Lemma rf_load_store rf i v r :
  rf_load (rf_store rf i v) r = if (r =? i) && negb (r =? 0) then Ok v else rf_load rf r.
Proof.
  unfold rf_store, rf_load, dgetE. destruct (Z.eqb_spec i 0) as [->|N].
  - destruct (Z.eqb_spec r 0); cbn [andb negb]; auto.
  - rewrite (dget_dset Z.eqb Z.eqb_eq). destruct (Z.eqb_spec r i) as [->|]; cbn [andb]; auto.
    destruct (Z.eqb_spec i 0); [contradiction|auto].
Qed.

Lemma rf_load_cases rf r : (exists v, rf_load rf r = Ok v) \/ rf_load rf r = Err KeyError.
Proof. unfold rf_load, dgetE. destruct (dget Z.eqb rf r); eauto. Qed.

(** Words in the file fit, x0 is there. *)
Definition rf_wf (rf : rfile) : Prop :=
  rf_load rf 0 = Ok 0 /\ forall r v, rf_load rf r = Ok v -> fit 32 v.

Lemma rf_wf_init : rf_wf rf_init.
Proof.
  split; [reflexivity|]. intros r v. unfold rf_load, dgetE, rf_init. cbn [dget].
  destruct (r =? 0); intros E; inversion E. unfold fit. lia.
Qed.

Lemma rf_wf_store rf i v : rf_wf rf -> fit 32 v -> rf_wf (rf_store rf i v).
Proof.
  intros [Z0 F] V. split.
  - rewrite rf_load_store. rewrite andb_false_r. auto.
  - intros r u. rewrite rf_load_store. destruct (_ && _); [intros [= <-]; auto|apply F].
Qed.

(** ** Arithmetic *)
Lemma exec_arith_spec t x y : fit 32 x -> fit 32 y -> exec_arith t x y = sp_arith t x y.
Proof.
  intros X Y. destruct t; cbn [exec_arith sp_arith]; try reflexivity.
  - unfold bvslt. rewrite !sg_eq by (auto; lia). destruct (_ <? _); reflexivity.
  - unfold bvult. destruct (_ <? _); reflexivity.
Qed.

Lemma exec_arith_fit t x y : fit 32 x -> fit 32 y -> fit 32 (exec_arith t x y).
Proof.
  intros X Y. destruct t; cbn [exec_arith]; try apply fit_wrap.
  - apply land_range; auto; lia.
  - apply lor_range; auto; lia.
  - apply lxor_range; auto; lia.
Qed.

Lemma exec_shift_spec t x y : fit 32 x -> 0 <= y < 32 -> exec_shift t x y = sp_shift t x y.
Proof.
  intros X Y. destruct t; cbn [exec_shift sp_shift]; rewrite (Z.mod_small y) by lia.
  - rewrite bvshl_eq by lia. reflexivity.
  - apply bvlshr_eq; auto; lia.
  - rewrite bvashr_eq, sg_eq by (auto; lia). reflexivity.
Qed.

Lemma exec_shift_fit t x y : fit 32 (exec_shift t x y).
Proof. destruct t; apply fit_wrap. Qed.

(** Amounts of 32 and more. *)
Lemma exec_shift_big t x y : fit 32 x -> 32 <= y ->
  exec_shift t x y = match t with SRA => if sg 32 x <? 0 then W - 1 else 0 | _ => 0 end.
Proof.
  intros X Y. assert (P : 2 ^ 32 <= 2 ^ y) by (apply Z.pow_le_mono_r; lia).
  rewrite W_pow in P. pose proof (proj1 (fitW x) X) as X'.
  destruct t; cbn [exec_shift].
  - rewrite bvshl_eq by lia. replace y with (32 + (y - 32)) by lia.
    rewrite Z.pow_add_r by lia. rewrite W_pow, wrapW.
    replace (x * (W * 2 ^ (y - 32))) with (x * 2 ^ (y - 32) * W) by ring.
    apply Z.mod_mul. discriminate.
  - rewrite bvlshr_eq by (auto; lia). apply Z.div_small. lia.
  - rewrite bvashr_eq, sg_eq by (auto; lia).
    pose proof (sg_range 32 x ltac:(lia) X) as R. change (2 ^ (32 - 1)) with 2147483648 in R.
    unfold W in *. destruct (Z.ltb_spec (sg 32 x) 0).
    + replace (sg 32 x / 2 ^ y) with (-1); [reflexivity|].
      apply Z.div_unique with (sg 32 x + 2 ^ y); lia.
    + rewrite Z.div_small by lia. reflexivity.
Qed.

Lemma bvsext_W w k x : w + k = 32 -> 0 < w -> 0 <= k -> fit w x -> bvsext w k x = sg w x mod W.
Proof. intros E P K F. rewrite bvsext_eq by auto. rewrite sg_eq by auto. rewrite E. reflexivity. Qed.

Lemma off_spec w k x : w + k = 32 -> 0 < w -> 0 <= k -> fit w x ->
  bvshl 32 (bvsext w k x) 1 = (2 * sg w x) mod W.
Proof.
  intros E P K F. rewrite bvshl_eq by lia. rewrite bvsext_W by auto.
  rewrite wrapW. rewrite Z.mul_mod_idemp_l by discriminate.
  change (2 ^ 1) with 2. f_equal. ring.
Qed.

Lemma lui_spec x : fit 20 x -> bvshl 32 (bvsext 20 12 x) 12 = x * 4096.
Proof.
  intros F. rewrite bvshl_eq by lia. rewrite bvsext_W by (auto; lia).
  rewrite wrapW. rewrite Z.mul_mod_idemp_l by discriminate.
  unfold fit in F. change (2 ^ 20) with 1048576 in F. change (2 ^ 12) with 4096.
  unfold sg. change (2 ^ (20 - 1)) with 524288. change (2 ^ 20) with 1048576. unfold W.
  destruct (x <? 524288); [apply Z.mod_small; lia|].
  replace ((x - 1048576) * 4096) with (x * 4096 + (-1) * 4294967296) by ring.
  rewrite Z.mod_add by discriminate. apply Z.mod_small. lia.
Qed.

Lemma fit_mod x : fit 32 (x mod W).
Proof. apply Z.mod_pos_bound. reflexivity. Qed.

(** ** One step *)
Definition big_shift (x : Z -> Z) (i : inst) : bool :=
  match i with OP d (aShift _) => 32 <=? x (r_rs2 d) | _ => false end.

Section Step.
  Variables sdiv udiv srem urem : Z -> Z -> Z.
  Notation step := (step sdiv udiv srem urem).
  Notation execute := (execute sdiv udiv srem urem).

  Lemma plain_x a b x rd : d_exec (plain a b x rd) = x. Proof. reflexivity. Qed.
  Lemma plain_a a b x rd : d_a (plain a b x rd) = a. Proof. reflexivity. Qed.
  Lemma plain_b a b x rd : d_b (plain a b x rd) = b. Proof. reflexivity. Qed.

  Lemma commit_plain a b x rd pc c0 : fit 32 c0 ->
    commit (plain a b x rd) pc c0 = (c0, (pc + 4) mod W).
  Proof.
    intros F. unfold commit, plain. cbn [d_br d_jmp d_lsb]. rewrite land_all by (auto; lia).
    reflexivity.
  Qed.

  Lemma commit_jump a b x rd pc c0 : fit 32 c0 ->
    commit (mkD a b x rd (wrap 32 (-1)) false true 0 false false) pc c0 = ((pc + 4) mod W, c0).
  Proof.
    intros F. unfold commit. cbn [d_br d_jmp d_lsb]. rewrite land_all by (auto; lia). reflexivity.
  Qed.

  Lemma commit_jalr a b x rd pc c0 : fit 32 c0 ->
    commit (mkD a b x rd (bvnot 32 1) false true 0 false false) pc c0
    = ((pc + 4) mod W, 2 * (c0 / 2)).
  Proof.
    intros F. unfold commit. cbn [d_br d_jmp d_lsb]. rewrite land_not1 by (auto; lia). reflexivity.
  Qed.

  (** The branch condition. *)
  Lemma branch_cond t a b off pc : fit 32 a -> fit 32 b ->
    let '(x, cz, inv) := branch_dec t in
    exists c0, (forall c, execute c x a b = Ok c0)
      /\ commit (mkD a b x 0 (wrap 32 (-1)) true false off cz inv) pc c0
         = (0, if sp_cond t a b then bvadd 32 pc off else (pc + 4) mod W).
  Proof.
    intros A B.
    assert (E : forall t', exec_arith t' a b = sp_arith t' a b) by (intros; apply exec_arith_spec; auto).
    destruct t; cbn [branch_dec orb];
      (eexists; split; [intros; reflexivity|]); unfold commit; cbn [d_br d_cz d_inv d_lsb d_off];
      rewrite land_all by (try lia; apply exec_arith_fit; auto); rewrite E;
      cbn [sp_arith sp_cond].
    - rewrite xorb_false_r. f_equal.
      replace (Z.lxor a b =? 0) with (a =? b); [reflexivity|].
      destruct (Z.eqb_spec a b), (Z.eqb_spec (Z.lxor a b) 0) as [L|L]; auto.
      + subst. rewrite Z.lxor_nilpotent in L. contradiction.
      + apply Z.lxor_eq in L. contradiction.
    - rewrite xorb_true_r. f_equal.
      replace (Z.lxor a b =? 0) with (a =? b); [reflexivity|].
      destruct (Z.eqb_spec a b), (Z.eqb_spec (Z.lxor a b) 0) as [L|L]; auto.
      + subst. rewrite Z.lxor_nilpotent in L. contradiction.
      + apply Z.lxor_eq in L. contradiction.
    - rewrite xorb_false_r. destruct (sg 32 a <? sg 32 b); reflexivity.
    - rewrite xorb_false_r. destruct (a <? b); reflexivity.
    - rewrite xorb_true_r. rewrite Z.leb_antisym. destruct (sg 32 a <? sg 32 b); reflexivity.
    - rewrite xorb_true_r. rewrite Z.leb_antisym. destruct (a <? b); reflexivity.
  Qed.

  (** The value of rd in the model: the specification, except for shifts by a
      register holding 32 or more. *)
  Definition model_val (x : Z -> Z) (pc : Z) (i : inst) : Z :=
    match i with
    | OP d (aShift t) => exec_shift t (x (r_rs1 d)) (x (r_rs2 d))
    | _ => let '(_, v, _) := sp_step x pc i in v
    end.

  Lemma sp_val_fit x pc i c : in_isa c i -> rv32i i = true ->
    (forall r, In r (reads i) -> fit 32 (x r)) ->
    fit 32 (model_val x pc i).
  Proof.
    intros I R F. destruct i as [d t|o|d|d|d|d|d t|d t|d t|d t]; try discriminate R;
      cbn [model_val sp_step].
    - destruct t; try discriminate R.
      + rewrite <- exec_arith_spec by (apply F; cbn; auto).
        apply exec_arith_fit; apply F; cbn; auto.
      + apply exec_shift_fit.
    - destruct o as [d t|d t].
      + rewrite <- exec_arith_spec by (try apply fit_mod; apply F; cbn; auto).
        apply exec_arith_fit; [apply F; cbn; auto|apply fit_mod].
      + destruct I as (_ & _ & I). unfold fit in I. change (2 ^ 5) with 32 in I.
        rewrite <- exec_shift_spec by (auto; apply F; cbn; auto). apply exec_shift_fit.
    - destruct I as (_ & I). unfold fit in *. change (2 ^ 20) with 1048576 in I.
      change (2 ^ 32) with 4294967296. lia.
    - apply fit_mod.
    - apply fit_mod.
    - apply fit_mod.
    - unfold fit. split; [lia|reflexivity].
  Qed.

  Lemma step_ok c rf x i pc :
    rf_wf rf -> in_isa c i -> rv32i i = true -> fit 32 pc ->
    (forall r, In r (reads i) -> rf_load rf r = Ok (x r)) ->
    let '(rd, _, next) := sp_step x pc i in
    step c rf i pc = (Ok next, rf_store rf rd (model_val x pc i)).
  Proof.
    intros [Z0 RF] I R P L.
    assert (F : forall r, In r (reads i) -> fit 32 (x r)) by (intros; eapply RF, L; auto).
    destruct i as [d t|o|d|d|d|d|d t|d t|d t|d t]; try discriminate R.
    - cbn [reads] in L, F. pose proof (L (r_rs1 d) ltac:(cbn; auto)) as L1.
      pose proof (L (r_rs2 d) ltac:(cbn; auto)) as L2.
      pose proof (F (r_rs1 d) ltac:(cbn; auto)) as F1.
      pose proof (F (r_rs2 d) ltac:(cbn; auto)) as F2.
      destruct t; try discriminate R; cbn [sp_step]; unfold RiscvModel.step; cbn [decode];
        rewrite L1, L2; cbn [bind]; rewrite plain_x, plain_a, plain_b;
        cbn [RiscvModel.execute bind];
        (rewrite commit_plain; [|apply exec_arith_fit || apply exec_shift_fit; auto]);
        cbn [plain d_jmp d_br andb d_rd model_val sp_step].
      + rewrite exec_arith_spec by auto. reflexivity.
      + reflexivity.
    - destruct o as [d t|d t]; cbn [reads] in L, F; destruct I as (_ & _ & I).
      + pose proof (L (i_rs1 d) ltac:(cbn; auto)) as L1.
        pose proof (F (i_rs1 d) ltac:(cbn; auto)) as F1.
        assert (S : is_SUB t = false) by (destruct t; [reflexivity|discriminate R|..]; reflexivity).
        cbn [sp_step model_val]. unfold RiscvModel.step. cbn [decode]. rewrite S.
        rewrite L1. cbn [bind]. rewrite plain_x, plain_a, plain_b.
        rewrite bvsext_W by (auto; lia).
        cbn [RiscvModel.execute bind].
        rewrite commit_plain by (apply exec_arith_fit; auto using fit_mod).
        rewrite exec_arith_spec by auto using fit_mod. reflexivity.
      + pose proof (L (is_rs1 d) ltac:(cbn; auto)) as L1.
        pose proof (F (is_rs1 d) ltac:(cbn; auto)) as F1.
        unfold fit in I. change (2 ^ 5) with 32 in I.
        cbn [sp_step model_val]. unfold RiscvModel.step. cbn [decode].
        rewrite L1. cbn [bind]. rewrite plain_x, plain_a, plain_b.
        rewrite bvzext_eq. cbn [RiscvModel.execute bind].
        rewrite commit_plain by apply exec_shift_fit.
        rewrite exec_shift_spec by auto. reflexivity.
    - destruct I as (_ & I). cbn [sp_step model_val]. unfold RiscvModel.step. cbn [decode bind].
      rewrite lui_spec by auto. rewrite plain_x, plain_a, plain_b.
      assert (Fv : fit 32 (u_imm d * 4096)).
      { unfold fit in *. change (2 ^ 20) with 1048576 in I. change (2 ^ 32) with 4294967296. lia. }
      cbn [RiscvModel.execute exec_arith bind].
      replace (bvadd 32 0 (u_imm d * 4096)) with (u_imm d * 4096)
        by (symmetry; apply wrap_small; exact Fv).
      rewrite commit_plain by auto. reflexivity.
    - destruct I as (_ & I). cbn [sp_step model_val]. unfold RiscvModel.step. cbn [decode bind].
      rewrite lui_spec by auto. rewrite plain_x, plain_a, plain_b.
      cbn [RiscvModel.execute exec_arith bind]. rewrite commit_plain by apply fit_wrap. reflexivity.
    - destruct I as (_ & I). cbn [sp_step model_val]. unfold RiscvModel.step. cbn [decode bind].
      rewrite off_spec by (auto; lia). cbn [d_exec d_a d_b].
      cbn [RiscvModel.execute exec_arith bind d_jmp d_br andb d_rd].
      rewrite commit_jump by apply fit_wrap.
      unfold bvadd. rewrite wrapW. rewrite Z.add_mod_idemp_r by discriminate. reflexivity.
    - destruct I as (_ & _ & I). cbn [reads] in L, F.
      pose proof (L (i_rs1 d) ltac:(cbn; auto)) as L1.
      cbn [sp_step model_val]. unfold RiscvModel.step. cbn [decode]. rewrite L1. cbn [bind].
      rewrite bvsext_W by (auto; lia). cbn [d_exec d_a d_b].
      cbn [RiscvModel.execute exec_arith bind d_jmp d_br andb d_rd].
      rewrite commit_jalr by apply fit_wrap.
      unfold bvadd. rewrite wrapW. rewrite Z.add_mod_idemp_r by discriminate. reflexivity.
    - destruct I as (_ & _ & I). cbn [reads] in L, F.
      pose proof (L (b_rs1 d) ltac:(cbn; auto)) as L1.
      pose proof (L (b_rs2 d) ltac:(cbn; auto)) as L2.
      pose proof (F (b_rs1 d) ltac:(cbn; auto)) as F1.
      pose proof (F (b_rs2 d) ltac:(cbn; auto)) as F2.
      cbn [sp_step model_val]. unfold RiscvModel.step. cbn [decode]. rewrite L1, L2. cbn [bind].
      rewrite off_spec by (auto; lia).
      pose proof (branch_cond t (x (b_rs1 d)) (x (b_rs2 d)) ((2 * sg 12 (b_imm d)) mod W) pc F1 F2) as B.
      destruct (branch_dec t) as [[a cz] inv]. destruct B as (c0 & B1 & B2).
      cbn [bind d_exec d_a d_b]. rewrite B1. cbn [bind d_jmp d_br andb d_rd]. rewrite B2.
      unfold bvadd. rewrite wrapW. rewrite Z.add_mod_idemp_r by discriminate. reflexivity.
  Qed.

  Lemma model_val_spec x pc i : (forall r, In r (reads i) -> fit 32 (x r)) ->
    big_shift x i = false ->
    model_val x pc i = let '(_, v, _) := sp_step x pc i in v.
  Proof.
    intros F B. destruct i as [d t|o|d|d|d|d|d t|d t|d t|d t]; try reflexivity.
    destruct t; try reflexivity. cbn [model_val sp_step].
    unfold big_shift in B. apply Z.leb_gt in B.
    pose proof (F (r_rs1 d) ltac:(cbn; auto)) as F1. pose proof (F (r_rs2 d) ltac:(cbn; auto)) as F2.
    apply exec_shift_spec; auto. unfold fit in F2. lia.
  Qed.

  (** A register that was never written stops the simulator. *)
  Lemma step_unwritten c rf i pc r : rv32i i = true -> In r (reads i) ->
    rf_load rf r = Err KeyError -> step c rf i pc = (Err KeyError, rf).
  Proof.
    intros R I L.
    destruct i as [d t|o|d|d|d|d|d t|d t|d t|d t]; try discriminate R; cbn [reads] in I;
      try (destruct I as []; fail).
    - destruct I as [E|[E|[]]]; rewrite <- E in L; unfold RiscvModel.step; cbn [decode].
      + rewrite L. reflexivity.
      + destruct (rf_load_cases rf (r_rs1 d)) as [[v V]|V]; rewrite V; cbn [bind]; [|reflexivity].
        rewrite L. reflexivity.
    - destruct o as [d t|d t]; cbn [reads] in I; destruct I as [E|[]]; rewrite <- E in L;
        unfold RiscvModel.step; cbn [decode].
      + assert (S : is_SUB t = false) by (destruct t; [reflexivity|discriminate R|..]; reflexivity).
        rewrite S, L. reflexivity.
      + rewrite L. reflexivity.
    - destruct I as [E|[]]; rewrite <- E in L; unfold RiscvModel.step; cbn [decode].
      rewrite L. reflexivity.
    - destruct I as [E|[E|[]]]; rewrite <- E in L; unfold RiscvModel.step; cbn [decode].
      + rewrite L. reflexivity.
      + destruct (rf_load_cases rf (b_rs1 d)) as [[v V]|V]; rewrite V; cbn [bind]; [|reflexivity].
        rewrite L. reflexivity.
  Qed.
End Step.
