(** C77: which functions of words the mapper finds for R32I_mappable, and what
    the instruction of a rule does on the simulator. *)
From Coq Require Import ZArith List Bool Lia Permutation.
From Verif Require Import Base BaseLemmas BvModel BvLemmas RiscvModel RiscvSpec RiscvProofs RiscvProps BindModel BindProps MapIdxModel MapIdxProps
  CegisModel CegisProps MapModel MapProofs MapMain MapProps MapIff MapIffProps MapDirect RegPeModel RegPeProofs RiscvMapModel RiscvMapProofs.
From Verif Require SmallPeModel.
Import ListNotations.
Open Scope list_scope.
Open Scope Z_scope.

(** ** Specification *)
Definition rv_dst (i : inst) : Z := match rd_of i with Some r => r | None => 0 end.
(** The operands [a] and [b] are in the registers; register 0 holds 0. *)
Definition rv_loaded (rf : rfile) (i : inst) (a b : Z) : Prop :=
  rf_load rf 0 = Ok 0 /\ (forall r, rs1_of i = Some r -> r <> 0 -> rf_load rf r = Ok a) /\
  forall r, rs2_of i = Some r -> r <> 0 -> rf_load rf r = Ok b.
Definition rv_apart (i : inst) : Prop := forall r, rs1_of i = Some r -> rs2_of i = Some r -> r = 0.
Definition rv_flip (f : Z -> Z -> Z) (x y : Z) : Z := f y x.

(** What the ten operations compute; a shift by 32 or more shifts everything out. *)
Definition ten : list (Z -> Z -> Z) :=
  [(fun x y => (x + y) mod W); (fun x y => (x - y) mod W); (fun x y => if sg 32 x <? sg 32 y then 1 else 0);
   (fun x y => if x <? y then 1 else 0); Z.land; Z.lor; Z.lxor;
   (fun x y => (x * 2 ^ y) mod W); (fun x y => x / 2 ^ y); (fun x y => (sg 32 x / 2 ^ y) mod W)].
(** Functions of one word computed by one instruction. *)
Inductive one_in : (Z -> Z) -> Prop :=
| one_add s : -2048 <= s <= 2048 -> one_in (fun x => (x + s) mod W)
| one_slt s : -2048 <= s < 2048 -> one_in (fun x => if sg 32 x <? s then 1 else 0)
| one_sltu s : -2048 <= s < 2048 -> one_in (fun x => if x <? s mod W then 1 else 0)
| one_and s : -2048 <= s < 2048 -> one_in (fun x => Z.land x (s mod W))
| one_or s : -2048 <= s < 2048 -> one_in (fun x => Z.lor x (s mod W))
| one_xor s : -2048 <= s < 2048 -> one_in (fun x => Z.lxor x (s mod W))
| one_sll k : 0 <= k < 32 -> one_in (fun x => (x * 2 ^ k) mod W)
| one_srl k : 0 <= k < 32 -> one_in (fun x => x / 2 ^ k)
| one_sra k : 0 <= k < 32 -> one_in (fun x => (sg 32 x / 2 ^ k) mod W)
| one_neg : one_in (fun x => (- x) mod W)
| one_pos : one_in (fun x => if 0 <? sg 32 x then 1 else 0)
| one_nz : one_in (fun x => if 0 <? x then 1 else 0)
| one_low s : -2048 <= s <= 2048 -> one_in (fun _ => s mod W)
| one_high k : 0 <= k < 1048576 -> one_in (fun _ => k * 4096).

(** Constraints on instruction fields, each with at least one value of its type. *)
Definition on_vfields (V : vcode) (cs : list (vpath * list Z)) : Prop :=
  NoDup (map fst cs) /\
  forall p zs, In (p, zs) cs -> In p (map fst (vconsts V)) /\ zs <> [] /\
    forall w z, In (p, MConst w) (vconsts V) -> In z zs -> 0 <= z < 2 ^ w.
Definition vtags_ok (V : vcode) (tagd : vpath -> list Z) : Prop :=
  (forall p, tagd p <> []) /\ forall f d, In d (vtags V f) -> In (snd d) (tagd (fst d)).
Notation vword2 f := (word2 VIn0 VIn1 VRes MWord f).
Notation vword1 f := (word1 VIn0 VRes MWord f).
Definition v_in_order (ru : rule vpath) : Prop := In (SPath VIn0, VR1) (r_in ru) /\ In (SPath VIn1, VR2) (r_in ru).
Definition v_swapped (ru : rule vpath) : Prop := In (SPath VIn0, VR2) (r_in ru) /\ In (SPath VIn1, VR1) (r_in ru).
(** The rule is for this instruction. *)
Definition vrule_inst (V : vcode) (ru : rule vpath) (m : inst) : Prop :=
  nth_error (order V) (r_form ru) = Some (iform m) /\ forall p z, vfield V m p = Some z -> In (SVal z, p) (r_in ru).

(** ** Values *)
Definition rpick (r v : Z) : Z := if r =? 0 then 0 else v.
Definition full_shift (t : shift) (x y : Z) : Z :=
  match t with SLL => (x * 2 ^ y) mod W | SRL => x / 2 ^ y | SRA => (sg 32 x / 2 ^ y) mod W end.
Definition rv_val (i : inst) (a b : Z) : option Z :=
  match i with
  | OP d (aArith t) => Some (sp_arith t (rpick (r_rs1 d) a) (rpick (r_rs2 d) b))
  | OP d (aShift t) => Some (full_shift t (rpick (r_rs1 d) a) (rpick (r_rs2 d) b))
  | OP_IMM (oArith d t) => Some (sp_arith t (rpick (i_rs1 d) a) (sg 12 (i_imm d) mod W))
  | OP_IMM (oShift d t) => Some (full_shift t (rpick (is_rs1 d) a) (is_imm d))
  | LUI d => Some (u_imm d * 4096)
  | _ => None
  end.

Lemma word_fit x : word32 x <-> fit 32 x.
Proof. reflexivity. Qed.
Lemma word_W x : word32 x <-> 0 <= x < W.
Proof. reflexivity. Qed.
Lemma pick_word r v : word32 v -> word32 (rpick r v).
Proof. unfold rpick, word32. destruct (r =? 0); lia. Qed.
Lemma shift_full t x y : fit 32 x -> 0 <= y -> exec_shift t x y = full_shift t x y.
Proof.
  intros X Y. destruct (Z_lt_ge_dec y 32) as [L|G].
  - rewrite exec_shift_spec by (auto; lia). unfold sp_shift, full_shift. rewrite (Z.mod_small y) by lia. reflexivity.
  - assert (P : 0 <= x < 2 ^ y).
    { unfold fit in X. assert (2 ^ 32 <= 2 ^ y) by (apply Z.pow_le_mono_r; lia). lia. }
    destruct t; cbn [exec_shift full_shift].
    + rewrite bvshl_eq by lia. reflexivity.
    + apply bvlshr_eq; auto; lia.
    + rewrite bvashr_eq, sg_eq by (auto; lia). reflexivity.
Qed.
Lemma val_word i a b v : in_isa Base32 i -> word32 a -> word32 b -> rv_val i a b = Some v -> word32 v.
Proof.
  intros Hi Wa Wb. destruct i as [d [t|t|t]|[d t|d t]|d|d|d|d|d t|d t|d t|d t]; cbn [rv_val]; try discriminate; intros [= <-].
  - rewrite <- exec_arith_spec by (apply word_fit, pick_word; assumption). apply exec_arith_fit; apply word_fit, pick_word; assumption.
  - rewrite <- shift_full; [apply exec_shift_fit|apply pick_word; assumption|]. pose proof (pick_word (r_rs2 d) b Wb) as X. unfold word32 in X. lia.
  - rewrite <- exec_arith_spec by (try apply fit_mod; apply word_fit, pick_word; assumption). apply exec_arith_fit; [apply word_fit, pick_word; assumption|apply fit_mod].
  - destruct Hi as (_ & _ & Hi). unfold fit in Hi. rewrite <- shift_full; [apply exec_shift_fit|apply pick_word; assumption|lia].
  - destruct Hi as (_ & Hi). unfold fit in Hi. change (2 ^ 20) with 1048576 in Hi. unfold word32. lia.
Qed.

Section Cores.
  Variables sdiv udiv srem urem : Z -> Z -> Z.
  Notation step := (step sdiv udiv srem urem).
  Notation mappable := (mappable sdiv udiv srem urem).

  (** The wrapper computes [f], whatever pc and the destination held. *)
  Definition vgives (A : access) (m : inst) (f : Z -> Z -> Z) : Prop :=
    forall pc a b d, word32 pc -> word32 a -> word32 b -> word32 d -> snd (mappable A Base32 m pc a b d) = f a b.
  (** The simulator leaves [f a b] in the destination, changes no other register
      and goes on with the next instruction. *)
  Definition vruns (m : inst) (f : Z -> Z -> Z) : Prop :=
    forall pc a b rf, word32 a -> word32 b -> rv_loaded rf m a b ->
      exists rf', step Base32 rf m pc = (Ok ((pc + 4) mod W), rf') /\ rf_load rf' (rv_dst m) = Ok (f a b) /\
        forall r, r <> rv_dst m -> rf_load rf' r = rf_load rf r.

  Lemma load1_pick a b d r : s_load1 (mkSrf a b d) r = rpick r a.
  Proof. unfold s_load1, rpick. cbn [sr_rs1]. destruct (r =? 0); reflexivity. Qed.
  Lemma load2_pick a b d r : s_load2 (mkSrf a b d) r = rpick r b.
  Proof. unfold s_load2, rpick. cbn [sr_rs2]. destruct (r =? 0); reflexivity. Qed.
  Lemma store_pick a b d r v : sr_rd (s_store (mkSrf a b d) r v) = if r =? 0 then d else v.
  Proof. unfold s_store. cbn [sr_rd]. destruct (r =? 0); reflexivity. Qed.

  (** What the wrapper returns in rd. *)
  Definition rv_pc (i : inst) (pc : Z) : Z := match i with AUIPC d => (pc + u_imm d * 4096) mod W | _ => (pc + 4) mod W end.
  Definition rv_keeps (i : inst) : bool := match i with Branch _ _ | Load _ _ | Store _ _ => true | _ => rv_dst i =? 0 end.
  Lemma map_plain A pc a b d x y t rd v : acc_ok A -> execute sdiv udiv srem urem Base32 t x y = Ok v -> word32 v ->
    (let dc := plain x y t rd in let c0 := execute_smt sdiv udiv srem urem A Base32 (d_exec dc) (d_a dc) (d_b dc) in
     let (out, next) := commit dc pc c0 in (next, sr_rd (s_store (mkSrf a b d) (d_rd dc) out))) = ((pc + 4) mod W, if rd =? 0 then d else v).
  Proof.
    intros HA E F. cbv zeta. rewrite plain_x, plain_a, plain_b. rewrite (execute_smt_eq _ _ _ _ A Base32 t x y v HA E).
    rewrite commit_plain by exact F. cbn [plain d_rd]. now rewrite store_pick.
  Qed.
  Lemma map_val A i pc a b d v : acc_ok A -> in_isa Base32 i -> word32 a -> word32 b -> rv_val i a b = Some v ->
    mappable A Base32 i pc a b d = ((pc + 4) mod W, if rv_dst i =? 0 then d else v).
  Proof.
    intros HA Hi Wa Wb E. pose proof (val_word i a b v Hi Wa Wb E) as Wv. unfold RiscvModel.mappable. rewrite decode_smt_eq by auto.
    destruct i as [x [t|t|t]|[x t|x t]|x|x|x|x|x t|x t|x t|x t]; cbn [rv_val] in E; try discriminate E; injection E as E; unfold rv_dst; cbn [rd_of];
      apply map_plain; auto; cbn [execute]; f_equal; rewrite ?load1_pick, ?load2_pick.
    - now rewrite exec_arith_spec by (apply word_fit, pick_word; assumption).
    - rewrite shift_full; auto; [apply word_fit, pick_word; assumption|]. pose proof (pick_word (r_rs2 x) b Wb) as X. unfold word32 in X. lia.
    - destruct Hi as (_ & _ & Hi). rewrite bvsext_W by (auto; lia). now rewrite exec_arith_spec by (try apply fit_mod; apply word_fit, pick_word; assumption).
    - destruct Hi as (_ & _ & Hi). rewrite bvzext_eq. rewrite shift_full; auto; [apply pick_word; assumption|]. unfold fit in Hi. lia.
    - destruct Hi as (_ & Hi). rewrite lui_spec by exact Hi. cbn [exec_arith]. unfold bvadd. rewrite Z.add_0_l, E. apply wrap_small. exact Wv.
  Qed.
  Lemma map_other A i pc a b d : acc_ok A -> in_isa Base32 i -> word32 a -> word32 b -> word32 pc -> rv_val i a b = None ->
    snd (mappable A Base32 i pc a b d) = if rv_keeps i then d else rv_pc i pc.
  Proof.
    intros HA Hi Wa Wb Wp E. unfold RiscvModel.mappable. rewrite decode_smt_eq by auto.
    destruct i as [x [t|t|t]|[x t|x t]|x|x|x|x|x t|x t|x t|x t]; cbn [rv_val] in E; try discriminate E; unfold rv_keeps, rv_dst; cbn [rd_of rv_pc].
    - exfalso. destruct Hi as (_ & _ & _ & Hi). discriminate Hi.
    - rewrite (map_plain A pc a b d _ _ (aArith ADD) (u_rd x) ((pc + u_imm x * 4096) mod W) HA).
      + cbn [snd]. reflexivity.
      + destruct Hi as (_ & Hi). cbn [execute exec_arith]. now rewrite lui_spec by exact Hi.
      + apply fit_mod.
    - cbn [d_exec d_a d_b d_rd]. rewrite (execute_smt_eq _ _ _ _ A Base32 (aArith ADD) _ _ _ HA eq_refl).
      rewrite commit_jump by apply fit_wrap. cbn [snd]. rewrite store_pick. reflexivity.
    - cbn [d_exec d_a d_b d_rd]. rewrite (execute_smt_eq _ _ _ _ A Base32 (aArith ADD) _ _ _ HA eq_refl).
      rewrite commit_jalr by apply fit_wrap. cbn [snd]. rewrite store_pick. reflexivity.
    - destruct (branch_dec t) as [[e cz] inv]. cbn [d_rd]. destruct (commit _ _ _) as [out next]. reflexivity.
    - cbn [plain d_rd]. destruct (commit _ _ _) as [out next]. reflexivity.
    - cbn [plain d_rd]. destruct (commit _ _ _) as [out next]. reflexivity.
    - exfalso. destruct Hi as (_ & _ & Hi). discriminate Hi.
  Qed.
  Lemma val_none i a b a' b' : rv_val i a b = None -> rv_val i a' b' = None.
  Proof. destruct i as [x [t|t|t]|[x t|x t]|x|x|x|x|x t|x t|x t|x t]; cbn; auto; discriminate. Qed.

  Lemma pc_moves i : rv_pc i 0 = rv_pc i 1 -> False.
  Proof.
    assert (K : forall x, (0 + x) mod W = (1 + x) mod W -> False).
    { intros x E. pose proof (Z.mod_pos_bound x W eq_refl) as B. rewrite (Z.add_mod 0 x W), (Z.add_mod 1 x W) in E by discriminate.
      change (0 mod W) with 0 in E. change (1 mod W) with 1 in E. rewrite (Z.mod_small (0 + x mod W)) in E by lia.
      destruct (Z.eq_dec (x mod W) (W - 1)) as [Q|Q].
      - rewrite Q in E. discriminate E.
      - rewrite (Z.mod_small (1 + x mod W)) in E by lia. lia. }
    unfold rv_pc. destruct i; apply K.
  Qed.
  Lemma gives_iff A m f : acc_ok A -> in_isa Base32 m ->
    vgives A m f <-> rv_dst m <> 0 /\ forall a b, word32 a -> word32 b -> rv_val m a b = Some (f a b).
  Proof.
    intros HA Hi. assert (W0 : word32 0) by (unfold word32; lia). assert (W1 : word32 1) by (unfold word32; lia). split.
    - intros G. assert (S : forall a b, word32 a -> word32 b -> rv_dst m <> 0 /\ rv_val m a b = Some (f a b)).
      { intros a b Wa Wb. destruct (rv_val m a b) as [v|] eqn:E.
        - pose proof (G 0 a b 0 W0 Wa Wb W0) as X. pose proof (G 0 a b 1 W0 Wa Wb W1) as Y. rewrite (map_val A m 0 a b 0 v HA Hi Wa Wb E) in X. rewrite (map_val A m 0 a b 1 v HA Hi Wa Wb E) in Y.
          cbn [snd] in X, Y. destruct (Z.eqb_spec (rv_dst m) 0) as [Z|Z]; [lia|]. split; [exact Z|congruence].
        - exfalso. assert (K : forall pc d, word32 pc -> word32 d -> f a b = if rv_keeps m then d else rv_pc m pc).
          { intros pc d Wp Wd. rewrite <- (G pc a b d Wp Wa Wb Wd). now apply map_other. }
          pose proof (K 0 0 W0 W0) as X. pose proof (K 0 1 W0 W1) as Y. pose proof (K 1 0 W1 W0) as Z. destruct (rv_keeps m); [congruence|].
          rewrite X in Z. exact (pc_moves m Z). }
      split; [exact (proj1 (S 0 0 W0 W0))|]. intros a b Wa Wb. exact (proj2 (S a b Wa Wb)).
    - intros (N & E) pc a b d Wp Wa Wb Wd. rewrite (map_val A m pc a b d _ HA Hi Wa Wb (E a b Wa Wb)). cbn [snd].
      now rewrite (proj2 (Z.eqb_neq _ _) N).
  Qed.

  (** ** The simulator *)
  Lemma step_val i pc a b rf v : in_isa Base32 i -> is_subi i = false -> word32 a -> word32 b -> rv_loaded rf i a b -> rv_val i a b = Some v ->
    step Base32 rf i pc = (Ok ((pc + 4) mod W), rf_store rf (rv_dst i) v).
  Proof.
    intros Hi Ns Wa Wb (Z0 & L1 & L2) E. pose proof (val_word i a b v Hi Wa Wb E) as Wv.
    assert (P1 : forall r, rs1_of i = Some r -> rf_load rf r = Ok (rpick r a)).
    { intros r Q. unfold rpick. destruct (Z.eqb_spec r 0) as [->|N]; auto. }
    assert (P2 : forall r, rs2_of i = Some r -> rf_load rf r = Ok (rpick r b)).
    { intros r Q. unfold rpick. destruct (Z.eqb_spec r 0) as [->|N]; auto. }
    assert (St : forall x y t rd, execute sdiv udiv srem urem Base32 t x y = Ok v ->
      match (do d <- Ok (plain x y t rd);
             do c0 <- execute sdiv udiv srem urem Base32 (d_exec d) (d_a d) (d_b d);
             if d_jmp d && d_br d then Err AssertionError else Ok (d_rd d, commit d pc c0)) with
      | Err e => (Err e, rf)
      | Ok (rd, (out, next)) => (Ok next, rf_store rf rd out)
      end = (Ok ((pc + 4) mod W), rf_store rf rd v)).
    { intros x y t rd Q. cbn [bind]. rewrite plain_x, plain_a, plain_b, Q. cbn [bind]. cbn [plain d_jmp d_br andb d_rd].
      change (mkD x y t rd (wrap 32 (-1)) false false 0 false false) with (plain x y t rd). rewrite commit_plain by exact Wv. reflexivity. }
    unfold RiscvModel.step. unfold rv_dst.
    destruct i as [x [t|t|t]|[x t|x t]|x|x|x|x|x t|x t|x t|x t]; cbn [rv_val] in E; try discriminate E; injection E as E; cbn [RiscvModel.decode rd_of rs1_of rs2_of is_subi] in *.
    - rewrite (P1 _ eq_refl), (P2 _ eq_refl). cbn [bind]. apply St. cbn [execute]. rewrite exec_arith_spec by (apply pick_word; assumption). now rewrite E.
    - rewrite (P1 _ eq_refl), (P2 _ eq_refl). cbn [bind]. apply St. cbn [execute]. rewrite shift_full; [now rewrite E|apply pick_word; assumption|].
      pose proof (pick_word (r_rs2 x) b Wb) as X. unfold word32 in X. lia.
    - replace (is_SUB t) with false by (destruct t; reflexivity || discriminate Ns). rewrite (P1 _ eq_refl). cbn [bind]. apply St. cbn [execute].
      destruct Hi as (_ & _ & Hi). rewrite bvsext_W by (auto; lia). rewrite exec_arith_spec by (try apply fit_mod; apply pick_word; assumption). now rewrite E.
    - rewrite (P1 _ eq_refl). cbn [bind]. apply St. cbn [execute].
      destruct Hi as (_ & _ & Hi). rewrite bvzext_eq, shift_full; [now rewrite E|apply pick_word; assumption|unfold fit in Hi; lia].
    - apply St. cbn [execute exec_arith]. destruct Hi as (_ & Hi). rewrite lui_spec by exact Hi. unfold bvadd. rewrite Z.add_0_l, E. f_equal. apply wrap_small. exact Wv.
  Qed.
  Lemma rv_runs m f : in_isa Base32 m -> is_subi m = false -> rv_dst m <> 0 -> (forall a b, word32 a -> word32 b -> rv_val m a b = Some (f a b)) -> vruns m f.
  Proof.
    intros Hi Ns N E pc a b rf Wa Wb L. rewrite (step_val m pc a b rf _ Hi Ns Wa Wb L (E a b Wa Wb)). eexists. split; [reflexivity|]. split.
    - rewrite rf_load_store, Z.eqb_refl, (proj2 (Z.eqb_neq _ _) N). reflexivity.
    - intros r Nr. rewrite rf_load_store, (proj2 (Z.eqb_neq _ _) Nr). reflexivity.
  Qed.
  (** Registers for any two operands. *)
  Definition rv_file (i : inst) (a b : Z) : rfile :=
    rf_store (rf_store rf_init (match rs2_of i with Some r => r | None => 0 end) b) (match rs1_of i with Some r => r | None => 0 end) a.
  Lemma rv_load_ok i a b : rv_apart i -> rv_loaded (rv_file i a b) i a b.
  Proof.
    intros Ap. unfold rv_file. split; [|split].
    - rewrite !rf_load_store. rewrite !andb_false_r. reflexivity.
    - intros r E N. rewrite E, rf_load_store, Z.eqb_refl, (proj2 (Z.eqb_neq _ _) N). reflexivity.
    - intros r E N. rewrite rf_load_store, E. destruct (Z.eqb_spec r (match rs1_of i with Some r => r | None => 0 end)) as [Q|Q].
      + exfalso. destruct (rs1_of i) as [r1|] eqn:E1; [|congruence]. apply N, Ap; congruence.
      + cbn [andb]. rewrite rf_load_store, Z.eqb_refl, (proj2 (Z.eqb_neq _ _) N). reflexivity.
  Qed.

  (** ** Rules *)
  Section Rules.
  Variables (V : vcode) (A : access) (cs : list (vpath * list Z)).
  Hypotheses (HV : vcode_ok V) (HA : acc_ok A) (Hf : on_vfields V cs).
  Notation arch0 := (riscv_arch sdiv udiv srem urem V A cs).
  Notation sem0 := (vsem sdiv udiv srem urem A).
  Notation fs0 := (vfs sdiv udiv srem urem V A).
  Definition vmappable (i : instr vpath mty) : Prop := implementable vpath_eqb mty_const mty_vals arch0 i fs0 (vfv V).
  Definition vresult tagd k simple (i : instr vpath mty) (o : outcome (var vpath)) : Prop :=
    answer vpath_eqb mty_eqb mty_const mty_vals arch0 i k tagd simple o.

  Lemma v_nd : NoDup (map fst cs).
  Proof. exact (proj1 Hf). Qed.
  Lemma v_incl : incl (map fst cs) (map fst (vconsts V)).
  Proof. intros p I. apply in_map_iff in I as ((p' & zs) & <- & I). exact (proj1 (proj2 Hf _ _ I)). Qed.
  Lemma v_constr : constr_ok mty_vals arch0.
  Proof.
    intros p zs I. destruct (proj2 Hf _ _ I) as (X & N & B). split; [exact N|]. intros t z It Iz. cbn [riscv_arch a_in] in It.
    assert (Ic : In (p, t) (vconsts V)).
    { apply in_map_iff in X as ((p' & t') & E & X). cbn [fst] in E. subst p'.
      pose proof (In_dget vpath_eqb vpath_eqb_eq _ _ _ (v_nodup V) It) as Y.
      pose proof (In_dget vpath_eqb vpath_eqb_eq _ _ _ (v_nodup V) (in_or_app _ vfree _ (or_introl X))) as Z. congruence. }
    destruct (const_ty V HV p t Ic) as (w & -> & _). apply mty_In. exact (B w z Ic Iz).
  Qed.
  Let Hok := v_arch_ok sdiv udiv srem urem V A cs HV v_nd v_incl.
  Let Hma := v_machine sdiv udiv srem urem V A cs HV v_incl.

  Definition v_words (pc a b d : Z) (p : vpath) : Z := match p with VPc => pc | VR1 => a | VR2 => b | VRd => d | _ => 0 end.
  Lemma v_words_typed pc a b d : word32 pc -> word32 a -> word32 b -> word32 d -> typed mty_vals (a_in arch0) (v_words pc a b d).
  Proof.
    intros Wp Wa Wb Wd p t I. apply mty_In. cbn [riscv_arch a_in] in I. apply in_app_or in I as [I|I].
    - destruct (const_ty V HV p t I) as (w & -> & B). pose proof (pow2_pos w B).
      assert (E : v_words pc a b d p = 0).
      { cbn in I. repeat (destruct I as [I|I]; [injection I as <- _; reflexivity|]). destruct I. }
      rewrite E. lia.
    - cbn in I. repeat (destruct I as [I|I]; [injection I as <- <-; assumption|]). destruct I.
  Qed.
  Lemma v_word_paths p : In (p, MWord) (a_in arch0) <-> p = VR1 \/ p = VR2.
  Proof.
    cbn [riscv_arch a_in]. split.
    - intros I. apply in_app_or in I as [I|I].
      + destruct (const_ty V HV p MWord I) as (w & E & _). discriminate E.
      + cbn in I. repeat (destruct I as [I|I]; [first [discriminate I | injection I as <-; auto]|]). destruct I.
    - intros [->| ->]; apply in_or_app; right; cbn; auto.
  Qed.
  Lemma v_typed_words l : typed mty_vals (a_in arch0) l -> word32 (l VPc) /\ word32 (l VR1) /\ word32 (l VR2) /\ word32 (l VRd).
  Proof.
    intros T. assert (I : forall e, In e vfree -> In e (a_in arch0)) by (intros e I; cbn [riscv_arch a_in]; apply in_or_app; now right).
    split; [|split; [|split]].
    - exact (proj1 (word_In MPc _ eq_refl) (T VPc MPc (I _ (or_introl eq_refl)))).
    - exact (proj1 (word_In MWord _ eq_refl) (T VR1 MWord (I _ (or_intror (or_introl eq_refl))))).
    - exact (proj1 (word_In MWord _ eq_refl) (T VR2 MWord (I _ (or_intror (or_intror (or_introl eq_refl)))))).
    - exact (proj1 (word_In MInit _ eq_refl) (T VRd MInit (I _ (or_intror (or_intror (or_intror (or_introl eq_refl))))))).
  Qed.
  Lemma v_out po : In (po, MWord) (a_out arch0) <-> po = VOut.
  Proof. cbn [riscv_arch a_out]. split; [intros [I|[I|[]]]; congruence|]. intros ->. right. now left. Qed.

  Lemma v_does2 f m p0 p1 po : does2 mty_vals arch0 sem0 MWord f m p0 p1 po <->
    po = VOut /\ (p0 = VR1 /\ p1 = VR2 /\ vgives A m f \/ p0 = VR2 /\ p1 = VR1 /\ vgives A m (rv_flip f)).
  Proof.
    unfold does2. rewrite !v_word_paths, v_out. split.
    - intros (I0 & I1 & N & -> & E). split; [reflexivity|].
      assert (G : forall pc a b d, word32 pc -> word32 a -> word32 b -> word32 d -> f (v_words pc a b d p0) (v_words pc a b d p1) = snd (mappable A Base32 m pc a b d)).
      { intros pc a b d Wp Wa Wb Wd. exact (E _ (v_words_typed pc a b d Wp Wa Wb Wd)). }
      destruct I0 as [->| ->], I1 as [->| ->]; try congruence; [left|right]; (split; [reflexivity|split; [reflexivity|]]);
        intros pc a b d Wp Wa Wb Wd; symmetry; exact (G pc a b d Wp Wa Wb Wd).
    - intros (-> & [(-> & -> & G)|(-> & -> & G)]); (split; [auto|split; [auto|split; [discriminate|split; [reflexivity|]]]]);
        intros l T; destruct (v_typed_words l T) as (W0 & W1 & W2 & W3); symmetry; exact (G _ _ _ _ W0 W1 W2 W3).
  Qed.
  Lemma v_does1 f m p0 po : does1 mty_vals arch0 sem0 MWord f m p0 po <->
    po = VOut /\ (p0 = VR1 /\ vgives A m (fun a _ => f a) \/ p0 = VR2 /\ vgives A m (fun _ b => f b)).
  Proof.
    unfold does1. rewrite !v_word_paths, v_out. split.
    - intros (I0 & -> & E). split; [reflexivity|].
      destruct I0 as [->| ->]; [left|right]; (split; [reflexivity|]);
        intros pc a b d Wp Wa Wb Wd; symmetry; exact (E _ (v_words_typed pc a b d Wp Wa Wb Wd)).
    - intros (-> & [(-> & G)|(-> & G)]); (split; [auto|split; [reflexivity|]]);
        intros l T; destruct (v_typed_words l T) as (W0 & W1 & W2 & W3); symmetry; exact (G _ _ _ _ W0 W1 W2 W3).
  Qed.

  Lemma v_n01 : VIn0 <> VIn1. Proof. discriminate. Qed.
  Lemma v_nc2 f q t : In (q, t) (i_in (vword2 f)) -> mty_const t = false.
  Proof. cbn. intros [I|[I|[]]]; injection I as <- <-; reflexivity. Qed.
  Lemma v_nc1 f q t : In (q, t) (i_in (vword1 f)) -> mty_const t = false.
  Proof. cbn. intros [I|[]]; injection I as <- <-; reflexivity. Qed.

  (** A rule exists if and only if an allowed instruction computes the function
      from its operands in one order or the other. *)
  Theorem C77_rule f : vmappable (vword2 f) <-> exists m, vok V cs m /\ (vgives A m f \/ vgives A m (rv_flip f)).
  Proof.
    unfold vmappable. rewrite (machine_iff vpath_eqb mty_eqb mty_const v_eqs mty_vals arch0 _ _ _ Hok (word2_ok _ _ _ _ f v_n01) _ _ _ Hma (v_nc2 f)).
    split.
    - intros (m & bnd & obnd & Vm & Pl & Co). exists m. split; [exact Vm|].
      pose proof (does2_from mty_vals arch0 sem0 VIn0 VIn1 VRes MWord v_n01 f m bnd obnd Pl Co) as D. apply v_does2 in D.
      destruct D as (_ & [(_ & _ & G)|(_ & _ & G)]); auto.
    - intros (m & Vm & [G|G]).
      + destruct (does2_to vpath_eqb mty_vals vpath_eqb_eq arch0 sem0 VIn0 VIn1 VRes MWord v_n01 f m VR1 VR2 VOut) as (bnd & obnd & Pl & Co); [|eauto 6].
        apply v_does2. auto 8.
      + destruct (does2_to vpath_eqb mty_vals vpath_eqb_eq arch0 sem0 VIn0 VIn1 VRes MWord v_n01 f m VR2 VR1 VOut) as (bnd & obnd & Pl & Co); [|eauto 6].
        apply v_does2. auto 8.
  Qed.
  Theorem C77_rule1 f : vmappable (vword1 f) <-> exists m, vok V cs m /\ (vgives A m (fun a _ => f a) \/ vgives A m (fun _ b => f b)).
  Proof.
    unfold vmappable. rewrite (machine_iff vpath_eqb mty_eqb mty_const v_eqs mty_vals arch0 _ _ _ Hok (word1_ok _ _ _ f) _ _ _ Hma (v_nc1 f)).
    split.
    - intros (m & bnd & obnd & Vm & Pl & Co). exists m. split; [exact Vm|].
      pose proof (does1_from mty_vals arch0 sem0 VIn0 VRes MWord f m bnd obnd Pl Co) as D. apply v_does1 in D.
      destruct D as (_ & [(_ & G)|(_ & G)]); auto.
    - intros (m & Vm & [G|G]).
      + destruct (does1_to mty_vals arch0 sem0 VIn0 VRes MWord f m VR1 VOut) as (bnd & obnd & Pl & Co); [|eauto 6].
        apply v_does1. auto 8.
      + destruct (does1_to mty_vals arch0 sem0 VIn0 VRes MWord f m VR2 VOut) as (bnd & obnd & Pl & Co); [|eauto 6].
        apply v_does1. auto 8.
  Qed.

  (** ** The mapper *)
  Variable tagd : vpath -> list Z.
  Hypothesis Ht : vtags_ok V tagd.
  Lemma v_vals_ne t : mty_const t = false -> mty_vals t <> [].
  Proof. intros Ct E. pose proof (proj2 (word_In t 0 Ct) ltac:(unfold word32; lia)) as I. rewrite E in I. destruct I. Qed.
  Lemma v_inhabited i : (forall q t, In (q, t) (i_in i) -> mty_const t = false) -> inhabited_types mty_vals tagd arch0 i.
  Proof.
    intros N. destruct Ht as (T0 & Tt). split; [intros p t I; exact (v_vals_ne t (N p t I))|]. split; [exact T0|].
    intros fi f p z E I. apply vform_nth in E as (g & _ & ->). exact (Tt g (p, z) I).
  Qed.
  Lemma v_rule_inst i ru m bnd obnd : rule_of mty_const mty_vals arch0 i (vfv V) (vdecf V) ru m bnd obnd -> vrule_inst V ru m.
  Proof.
    intros ((f & l & Ef & T & Vl & K & E) & _). apply vform_nth in Ef as (g & Eg & ->). cbn [fst] in K.
    unfold vfv, vdecf, at_form in *. rewrite Eg in *. subst m.
    assert (Ig : iform (vdec V g l) = g) by (destruct g; reflexivity).
    split; [now rewrite Ig|]. intros p z F. pose proof (field_leaf V g l p z F) as L. rewrite (field_dec V g l p Vl L) in F. injection F as <-.
    apply in_map_iff in L as ((p' & t) & <- & L). cbn [fst]. apply (K p' t).
    - cbn [riscv_arch a_in]. apply in_or_app. left. exact (leaves_in V g _ L).
    - rewrite map_app. apply in_or_app. left. now apply (in_map fst) in L.
    - exact (leaves_const V g p' t L).
  Qed.
  Lemma v_gives_runs m f : vok V cs m -> vgives A m f -> rv_dst m <> 0 /\ (is_subi m = false -> vruns m f).
  Proof. intros (Hi & _) G. apply gives_iff in G as (N & E); auto. split; [exact N|]. intros Ns. now apply rv_runs. Qed.

  (** Missing for C77: the immediate subtraction, which the simulator rejects,
      and that the operands can be loaded ([C77_full], refuted below). A rule
      found names an allowed instruction and the order of the operands; on the
      simulator this instruction leaves the result in its destination and
      continues at pc + 4. None is answered only if no allowed instruction
      computes the function. *)
  Theorem C77_solve_partial k simple f o : vresult tagd k simple (vword2 f) o ->
    match o with
    | ODone r => exists ru m, rr_from_solver vpath_eqb mty_eqb mty_const k arch0 (vword2 f) r = Ok ru /\ vok V cs m /\ vrule_inst V ru m /\
        rv_dst m <> 0 /\ In (Some VRes, VOut) (r_out ru) /\
        (v_in_order ru /\ vgives A m f /\ (is_subi m = false -> vruns m f) \/
         v_swapped ru /\ vgives A m (rv_flip f) /\ (is_subi m = false -> vruns m (rv_flip f)))
    | ONone => forall m, vok V cs m -> ~ vgives A m f /\ ~ vgives A m (rv_flip f)
    | _ => True
    end.
  Proof.
    intros R. pose proof (machine_solve vpath_eqb mty_eqb mty_const v_eqs mty_vals arch0 _ _ _ Hok (word2_ok _ _ _ _ f v_n01) _ _ _ Hma (v_nc2 f)
      k tagd (v_arch_ext sdiv udiv srem urem V A cs HV) (v_inhabited _ (v_nc2 f)) v_constr eq_refl ltac:(discriminate) simple o R) as H.
    destruct o as [r| | |]; auto.
    - destruct H as (ru & m & bnd & obnd & E & Vm & Pl & Co & Ro). exists ru, m. split; [exact E|]. split; [exact Vm|].
      split; [exact (v_rule_inst _ _ _ _ _ Ro)|].
      pose proof (does2_from mty_vals arch0 sem0 VIn0 VIn1 VRes MWord v_n01 f m bnd obnd Pl Co) as D. apply v_does2 in D.
      destruct Ro as (_ & Ri & Rout). pose proof (Ri VIn0 MWord (or_introl eq_refl)) as R0.
      pose proof (Ri VIn1 MWord (or_intror (or_introl eq_refl))) as R1. pose proof (Rout VRes MWord (or_introl eq_refl)) as R2.
      destruct D as (Do & [(D0 & D1 & G)|(D0 & D1 & G)]); rewrite D0 in R0; rewrite D1 in R1; rewrite Do in R2;
        destruct (v_gives_runs m _ Vm G) as (N & Ru); (split; [exact N|]); (split; [exact R2|]); [left|right];
        (split; [split; assumption|]); split; assumption.
    - intros m Vm. split; intros G.
      + destruct (does2_to vpath_eqb mty_vals vpath_eqb_eq arch0 sem0 VIn0 VIn1 VRes MWord v_n01 f m VR1 VR2 VOut) as (bnd & obnd & Pl & Co).
        { apply v_does2. auto 8. } exact (H m bnd obnd Vm Pl Co).
      + destruct (does2_to vpath_eqb mty_vals vpath_eqb_eq arch0 sem0 VIn0 VIn1 VRes MWord v_n01 f m VR2 VR1 VOut) as (bnd & obnd & Pl & Co).
        { apply v_does2. auto 8. } exact (H m bnd obnd Vm Pl Co).
  Qed.
  Theorem C77_solve1_partial k simple f o : vresult tagd k simple (vword1 f) o ->
    match o with
    | ODone r => exists ru m, rr_from_solver vpath_eqb mty_eqb mty_const k arch0 (vword1 f) r = Ok ru /\ vok V cs m /\ vrule_inst V ru m /\
        rv_dst m <> 0 /\ In (Some VRes, VOut) (r_out ru) /\
        (In (SPath VIn0, VR1) (r_in ru) /\ vgives A m (fun a _ => f a) /\ (is_subi m = false -> vruns m (fun a _ => f a)) \/
         In (SPath VIn0, VR2) (r_in ru) /\ vgives A m (fun _ b => f b) /\ (is_subi m = false -> vruns m (fun _ b => f b)))
    | ONone => forall m, vok V cs m -> ~ vgives A m (fun a _ => f a) /\ ~ vgives A m (fun _ b => f b)
    | _ => True
    end.
  Proof.
    intros R. pose proof (machine_solve vpath_eqb mty_eqb mty_const v_eqs mty_vals arch0 _ _ _ Hok (word1_ok _ _ _ f) _ _ _ Hma (v_nc1 f)
      k tagd (v_arch_ext sdiv udiv srem urem V A cs HV) (v_inhabited _ (v_nc1 f)) v_constr eq_refl ltac:(discriminate) simple o R) as H.
    destruct o as [r| | |]; auto.
    - destruct H as (ru & m & bnd & obnd & E & Vm & Pl & Co & Ro). exists ru, m. split; [exact E|]. split; [exact Vm|].
      split; [exact (v_rule_inst _ _ _ _ _ Ro)|].
      pose proof (does1_from mty_vals arch0 sem0 VIn0 VRes MWord f m bnd obnd Pl Co) as D. apply v_does1 in D.
      destruct Ro as (_ & Ri & Rout). pose proof (Ri VIn0 MWord (or_introl eq_refl)) as R0. pose proof (Rout VRes MWord (or_introl eq_refl)) as R2.
      destruct D as (Do & [(D0 & G)|(D0 & G)]); rewrite D0 in R0; rewrite Do in R2;
        destruct (v_gives_runs m _ Vm G) as (N & Ru); (split; [exact N|]); (split; [exact R2|]); [left|right]; (split; [assumption|]); split; assumption.
    - intros m Vm. split; intros G.
      + destruct (does1_to mty_vals arch0 sem0 VIn0 VRes MWord f m VR1 VOut) as (bnd & obnd & Pl & Co).
        { apply v_does1. auto 8. } exact (H m bnd obnd Vm Pl Co).
      + destruct (does1_to mty_vals arch0 sem0 VIn0 VRes MWord f m VR2 VOut) as (bnd & obnd & Pl & Co).
        { apply v_does1. auto 8. } exact (H m bnd obnd Vm Pl Co).
  Qed.
  Theorem C77_found k simple f : vmappable (vword2 f) ->
    exists y phi, built_with vpath_eqb mty_eqb mty_const arch0 (vword2 f) k simple = Ok (BForm y phi) /\
      forall fo, forall_ok (dom vpath_eqb mty_eqb mty_vals tagd k arch0 (vword2 f)) fo ->
        exists r, direct_solve fo y (mkform (vars_of arch0 (vword2 f)) phi) = ODone r.
  Proof.
    intros M. apply (machine_iff vpath_eqb mty_eqb mty_const v_eqs mty_vals arch0 _ _ _ Hok (word2_ok _ _ _ _ f v_n01) _ _ _ Hma (v_nc2 f)) in M.
    destruct M as (m & bnd & obnd & Vm & Pl & Co).
    exact (machine_found vpath_eqb mty_eqb mty_const v_eqs mty_vals arch0 _ _ _ Hok (word2_ok _ _ _ _ f v_n01) _ _ _ Hma (v_nc2 f)
      k tagd (v_arch_ext sdiv udiv srem urem V A cs HV) (v_inhabited _ (v_nc2 f)) v_constr eq_refl ltac:(discriminate) simple m bnd obnd Vm Pl Co).
  Qed.
  End Rules.
End Cores.

(** ** Functions of one word *)
Definition is_one (f : Z -> Z) : Prop := exists g, one_in g /\ forall a, word32 a -> f a = g a.
Lemma sg12_range x : fit 12 x -> -2048 <= sg 12 x < 2048.
Proof. intros F. exact (sg_range 12 x ltac:(lia) F). Qed.
Lemma sg32_mod s : -2048 <= s < 2048 -> sg 32 (s mod W) = s.
Proof.
  intros R. unfold sg. change (2 ^ (32 - 1)) with 2147483648. change (2 ^ 32) with W. destruct (Z_lt_ge_dec s 0) as [L|G].
  - replace (s mod W) with (s + W) by (apply Z.mod_unique with (-1); unfold W; lia). unfold W. destruct (Z.ltb_spec (s + 4294967296) 2147483648); lia.
  - rewrite Z.mod_small by (unfold W; lia). destruct (Z.ltb_spec s 2147483648); lia.
Qed.
Lemma low_one c s : -2048 <= s <= 2048 -> c = s mod W -> is_one (fun _ => c).
Proof. intros R ->. exists (fun _ => s mod W). split; [now constructor|reflexivity]. Qed.
Lemma bit_one (b : bool) : is_one (fun _ => if b then 1 else 0).
Proof. destruct b; [apply (low_one 1 1)|apply (low_one 0 0)]; try lia; reflexivity. Qed.
Lemma imm_const t s : -2048 <= s < 2048 -> is_one (fun _ => sp_arith t 0 (s mod W)).
Proof.
  intros R. destruct t; cbn [sp_arith].
  - apply (low_one _ s); [lia|]. rewrite Z.add_0_l. apply Z.mod_mod. discriminate.
  - apply (low_one _ (- s)); [lia|]. rewrite Zminus_mod_idemp_r. reflexivity.
  - apply bit_one.
  - apply bit_one.
  - apply (low_one _ 0); [lia|reflexivity].
  - apply (low_one _ s); [lia|reflexivity].
  - apply (low_one _ s); [lia|reflexivity].
Qed.
Lemma shift_0 t y : 0 <= y -> full_shift t 0 y = 0.
Proof.
  intros Y. destruct t; cbn [full_shift].
  - rewrite Z.mul_0_l. reflexivity.
  - apply Z.div_0_l. apply Z.pow_nonzero; lia.
  - change (sg 32 0) with 0. rewrite Z.div_0_l; [reflexivity|]. apply Z.pow_nonzero; lia.
Qed.
Lemma is_one_ext f g : is_one g -> (forall a, word32 a -> f a = g a) -> is_one f.
Proof. intros (h & H & E) Q. exists h. split; [exact H|]. intros a Wa. now rewrite Q, E. Qed.
Lemma zero_one : is_one (fun _ => 0).
Proof. apply (low_one 0 0); [lia|reflexivity]. Qed.
Lemma one_is g : one_in g -> is_one g.
Proof. intros O. exists g. split; [exact O|reflexivity]. Qed.

Lemma val_left m f : in_isa Base32 m -> (forall a, word32 a -> rv_val m a 0 = Some (f a)) -> is_one f.
Proof.
  intros Hi E. assert (P0 : forall r, rpick r 0 = 0) by (intros r; unfold rpick; destruct (r =? 0); reflexivity).
  destruct m as [x [t|t|t]|[x t|x t]|x|x|x|x|x t|x t|x t|x t]; cbn [rv_val] in E; try (pose proof (E 0 ltac:(unfold word32; lia)); discriminate).
  - unfold rpick at 1 in E. destruct (r_rs1 x =? 0).
    + apply (is_one_ext _ (fun _ => 0) zero_one). intros a Wa. specialize (E a Wa). rewrite P0 in E. injection E as <-. destruct t; reflexivity.
    + assert (G : is_one (fun a => sp_arith t a 0)).
      { destruct t; cbn [sp_arith].
        - apply (one_is _ (one_add 0 ltac:(lia))).
        - apply (is_one_ext _ _ (one_is _ (one_add 0 ltac:(lia)))). intros a _. f_equal; lia.
        - apply (one_is _ (one_slt 0 ltac:(lia))).
        - apply (one_is _ (one_sltu 0 ltac:(lia))).
        - apply (one_is _ (one_and 0 ltac:(lia))).
        - apply (one_is _ (one_or 0 ltac:(lia))).
        - apply (one_is _ (one_xor 0 ltac:(lia))). }
      apply (is_one_ext _ _ G). intros a Wa. specialize (E a Wa). rewrite P0 in E. congruence.
  - unfold rpick at 1 in E. destruct (r_rs1 x =? 0).
    + apply (is_one_ext _ (fun _ => 0) zero_one). intros a Wa. specialize (E a Wa). rewrite P0, shift_0 in E by lia. congruence.
    + assert (G : is_one (fun a => full_shift t a 0)).
      { destruct t; cbn [full_shift].
        - apply (one_is _ (one_sll 0 ltac:(lia))).
        - apply (one_is _ (one_srl 0 ltac:(lia))).
        - apply (one_is _ (one_sra 0 ltac:(lia))). }
      apply (is_one_ext _ _ G). intros a Wa. specialize (E a Wa). rewrite P0 in E. congruence.
  - destruct Hi as (_ & _ & Hi). pose proof (sg12_range _ Hi) as R. unfold rpick in E. destruct (i_rs1 x =? 0).
    + apply (is_one_ext _ _ (imm_const t _ R)). intros a Wa. specialize (E a Wa). congruence.
    + assert (G : is_one (fun a => sp_arith t a (sg 12 (i_imm x) mod W))).
      { destruct t; cbn [sp_arith].
        - apply (is_one_ext _ _ (one_is _ (one_add (sg 12 (i_imm x)) ltac:(lia)))). intros a _. apply Z.add_mod_idemp_r. discriminate.
        - apply (is_one_ext _ _ (one_is _ (one_add (- sg 12 (i_imm x)) ltac:(lia)))). intros a _. rewrite Zminus_mod_idemp_r. f_equal.
        - apply (is_one_ext _ _ (one_is _ (one_slt (sg 12 (i_imm x)) ltac:(lia)))). intros a _. now rewrite sg32_mod by exact R.
        - apply (one_is _ (one_sltu _ R)).
        - apply (one_is _ (one_and _ R)).
        - apply (one_is _ (one_or _ R)).
        - apply (one_is _ (one_xor _ R)). }
      apply (is_one_ext _ _ G). intros a Wa. specialize (E a Wa). congruence.
  - destruct Hi as (_ & _ & Hi). unfold fit in Hi. change (2 ^ 5) with 32 in Hi. unfold rpick in E. destruct (is_rs1 x =? 0).
    + apply (is_one_ext _ (fun _ => 0) zero_one). intros a Wa. specialize (E a Wa). rewrite shift_0 in E by lia. congruence.
    + assert (G : is_one (fun a => full_shift t a (is_imm x))).
      { destruct t; cbn [full_shift].
        - apply (one_is _ (one_sll _ Hi)).
        - apply (one_is _ (one_srl _ Hi)).
        - apply (one_is _ (one_sra _ Hi)). }
      apply (is_one_ext _ _ G). intros a Wa. specialize (E a Wa). congruence.
  - destruct Hi as (_ & Hi). unfold fit in Hi. change (2 ^ 20) with 1048576 in Hi.
    apply (is_one_ext _ _ (one_is _ (one_high _ Hi))). intros a Wa. specialize (E a Wa). congruence.
Qed.
Lemma val_right m f : in_isa Base32 m -> (forall b, word32 b -> rv_val m 0 b = Some (f b)) -> is_one f.
Proof.
  intros Hi E. assert (P0 : forall r, rpick r 0 = 0) by (intros r; unfold rpick; destruct (r =? 0); reflexivity).
  assert (W0 : word32 0) by (unfold word32; lia).
  assert (K : (forall b, rv_val m 0 b = rv_val m 0 0) -> is_one f).
  { intros K. assert (G : is_one (fun _ => f 0)).
    { destruct (val_left m (fun a => match rv_val m a 0 with Some v => v | None => 0 end) Hi) as (g & O & Eg).
      - intros a Wa. destruct (rv_val m a 0) eqn:N; [reflexivity|]. rewrite (val_none m a 0 0 0 N) in K. pose proof (E 0 W0) as X. rewrite (val_none m a 0 0 0 N) in X. discriminate.
      - clear Eg g O. pose proof (E 0 W0) as X.
        destruct m as [x [t|t|t]|[x t|x t]|x|x|x|x|x t|x t|x t|x t]; cbn [rv_val] in X; try discriminate X; injection X as X; rewrite ?P0 in X.
        + apply (is_one_ext _ (fun _ => 0) zero_one). intros _ _. rewrite <- X. destruct t; reflexivity.
        + apply (is_one_ext _ (fun _ => 0) zero_one). intros _ _. rewrite <- X. apply shift_0. lia.
        + destruct Hi as (_ & _ & Hi). apply (is_one_ext _ _ (imm_const t _ (sg12_range _ Hi))). intros _ _. congruence.
        + destruct Hi as (_ & _ & Hi). unfold fit in Hi. apply (is_one_ext _ (fun _ => 0) zero_one). intros _ _. rewrite <- X. apply shift_0. lia.
        + destruct Hi as (_ & Hi). apply (is_one_ext _ _ (one_is _ (one_high _ Hi))). intros _ _. congruence. }
    apply (is_one_ext _ _ G). intros b Wb. pose proof (E b Wb) as X. rewrite K in X. pose proof (E 0 W0). congruence. }
  destruct m as [x [t|t|t]|[x t|x t]|x|x|x|x|x t|x t|x t|x t]; try (apply K; reflexivity); cbn [rv_val] in *.
  - destruct (Z.eqb_spec (r_rs2 x) 0) as [Q|Q]; [apply K; intros b; rewrite Q; reflexivity|].
    assert (G : is_one (fun b => sp_arith t 0 b)).
    { destruct t; cbn [sp_arith].
      - apply (is_one_ext _ _ (one_is _ (one_add 0 ltac:(lia)))). intros b _. f_equal; lia.
      - apply (one_is _ one_neg).
      - apply (one_is _ one_pos).
      - apply (one_is _ one_nz).
      - apply (is_one_ext _ _ zero_one). intros b _. reflexivity.
      - apply (is_one_ext _ _ (one_is _ (one_or 0 ltac:(lia)))). intros b _. apply Z.lor_comm.
      - apply (is_one_ext _ _ (one_is _ (one_xor 0 ltac:(lia)))). intros b _. apply Z.lxor_comm. }
    apply (is_one_ext _ _ G). intros b Wb. specialize (E b Wb). rewrite P0 in E. unfold rpick in E. rewrite (proj2 (Z.eqb_neq _ _) Q) in E. congruence.
  - apply (is_one_ext _ (fun _ => 0) zero_one). intros b Wb. specialize (E b Wb). rewrite P0, shift_0 in E; [congruence|].
    pose proof (pick_word (r_rs2 x) b Wb) as X. unfold word32 in X. lia.
Qed.

Lemma enc12 s : -2048 <= s < 2048 -> fit 12 (s mod 4096) /\ sg 12 (s mod 4096) = s.
Proof.
  intros R. split; [apply Z.mod_pos_bound; reflexivity|]. unfold sg. change (2 ^ (12 - 1)) with 2048. change (2 ^ 12) with 4096.
  destruct (Z_lt_ge_dec s 0) as [L|G].
  - replace (s mod 4096) with (s + 4096) by (apply Z.mod_unique with (-1); lia). destruct (Z.ltb_spec (s + 4096) 2048); lia.
  - rewrite Z.mod_small by lia. destruct (Z.ltb_spec s 2048); lia.
Qed.
(** An instruction for each of the functions of one word. *)
Lemma one_inst g : one_in g -> exists m, in_isa Base32 m /\ rv_dst m <> 0 /\
  ((forall a b, word32 a -> word32 b -> rv_val m a b = Some (g a)) \/ (forall a b, word32 a -> word32 b -> rv_val m a b = Some (g b))).
Proof.
  assert (Im : forall t s, -2048 <= s < 2048 -> exists m, in_isa Base32 m /\ rv_dst m <> 0 /\
            forall a b, rv_val m a b = Some (sp_arith t a (s mod W))).
  { intros t s R. destruct (enc12 s R) as (F & S). exists (OP_IMM (oArith (mkI 3 1 (s mod 4096)) t)). split.
    - split; [unfold fit; cbn; lia|]. split; [unfold fit; cbn; lia|exact F].
    - split; [discriminate|]. intros a b. cbn [rv_val i_rs1 i_imm]. now rewrite S. }
  assert (Is : forall t k, 0 <= k < 32 -> exists m, in_isa Base32 m /\ rv_dst m <> 0 /\ forall a b, rv_val m a b = Some (full_shift t a k)).
  { intros t k R. exists (OP_IMM (oShift (mkIs 3 1 k) t)). split.
    - split; [unfold fit; cbn; lia|]. split; [unfold fit; cbn; lia|exact R].
    - split; [discriminate|]. reflexivity. }
  assert (Rg : forall t, in_isa Base32 (OP (mkR 3 0 2) (aArith t)) /\ rv_dst (OP (mkR 3 0 2) (aArith t)) <> 0).
  { intros t. split; [|discriminate]. split; [unfold fit; cbn; lia|]. split; [unfold fit; cbn; lia|]. split; [unfold fit; cbn; lia|exact I]. }
  intros [s R|s R|s R|s R|s R|s R|k R|k R|k R| | | |s R|k R].
  - destruct (Z.eq_dec s 2048) as [->|N].
    + exists (OP_IMM (oArith (mkI 3 1 2048) SUB)). split; [split; [unfold fit; cbn; lia|]; split; unfold fit; cbn; lia|]. split; [discriminate|].
      left. intros a b _ _. cbn [rv_val i_rs1 i_imm rpick Z.eqb sp_arith]. f_equal. change (sg 12 2048 mod W) with (-2048 mod W). rewrite Zminus_mod_idemp_r. f_equal.
    + destruct (Im ADD s ltac:(lia)) as (m & Hi & D & E). exists m. split; [exact Hi|]. split; [exact D|]. left. intros a b _ _. rewrite E. cbn [sp_arith].
      rewrite Z.add_mod_idemp_r by discriminate. reflexivity.
  - destruct (Im SLT s R) as (m & Hi & D & E). exists m. split; [exact Hi|]. split; [exact D|]. left. intros a b _ _. rewrite E. cbn [sp_arith]. now rewrite sg32_mod by exact R.
  - destruct (Im SLTU s R) as (m & Hi & D & E). exists m. split; [exact Hi|]. split; [exact D|]. left. intros a b _ _. apply E.
  - destruct (Im AND s R) as (m & Hi & D & E). exists m. split; [exact Hi|]. split; [exact D|]. left. intros a b _ _. apply E.
  - destruct (Im OR s R) as (m & Hi & D & E). exists m. split; [exact Hi|]. split; [exact D|]. left. intros a b _ _. apply E.
  - destruct (Im XOR s R) as (m & Hi & D & E). exists m. split; [exact Hi|]. split; [exact D|]. left. intros a b _ _. apply E.
  - destruct (Is SLL k R) as (m & Hi & D & E). exists m. split; [exact Hi|]. split; [exact D|]. left. intros a b _ _. apply E.
  - destruct (Is SRL k R) as (m & Hi & D & E). exists m. split; [exact Hi|]. split; [exact D|]. left. intros a b _ _. apply E.
  - destruct (Is SRA k R) as (m & Hi & D & E). exists m. split; [exact Hi|]. split; [exact D|]. left. intros a b _ _. apply E.
  - destruct (Rg SUB). eexists. split; [eassumption|]. split; [eassumption|]. right. reflexivity.
  - destruct (Rg SLT). eexists. split; [eassumption|]. split; [eassumption|]. right. reflexivity.
  - destruct (Rg SLTU). eexists. split; [eassumption|]. split; [eassumption|]. right. reflexivity.
  - destruct (Z.eq_dec s 2048) as [->|N].
    + exists (OP_IMM (oArith (mkI 3 0 2048) SUB)). split; [split; [unfold fit; cbn; lia|]; split; unfold fit; cbn; lia|]. split; [discriminate|]. left. reflexivity.
    + destruct (enc12 s ltac:(lia)) as (F & S). exists (OP_IMM (oArith (mkI 3 0 (s mod 4096)) ADD)). split.
      * split; [unfold fit; cbn; lia|]. split; [unfold fit; cbn; lia|exact F].
      * split; [discriminate|]. left. intros a b _ _. cbn [rv_val i_rs1 i_imm rpick Z.eqb sp_arith]. rewrite S. rewrite Z.add_0_l, Z.mod_mod by discriminate. reflexivity.
  - exists (LUI (mkU 3 k)). split; [split; [unfold fit; cbn; lia|exact R]|]. split; [discriminate|]. left. reflexivity.
Qed.

(** ** Functions of two words *)
Definition two_in (f : Z -> Z -> Z) : Prop :=
  (exists g, In g ten /\ ((forall a b, word32 a -> word32 b -> f a b = g a b) \/ (forall a b, word32 a -> word32 b -> f a b = g b a))) \/
  exists h, one_in h /\ ((forall a b, word32 a -> word32 b -> f a b = h a) \/ (forall a b, word32 a -> word32 b -> f a b = h b)).
Definition ten_arith (t : arith) : nat := match t with ADD => 0 | SUB => 1 | SLT => 2 | SLTU => 3 | AND => 4 | OR => 5 | XOR => 6 end.
Definition ten_shift (t : shift) : nat := match t with SLL => 7 | SRL => 8 | SRA => 9 end.
Lemma arith_ten t : nth_error ten (ten_arith t) = Some (sp_arith t).
Proof. destruct t; reflexivity. Qed.
Lemma shift_ten t : nth_error ten (ten_shift t) = Some (full_shift t).
Proof. destruct t; reflexivity. Qed.
Lemma two_flip f : two_in (rv_flip f) -> two_in f.
Proof.
  intros [(g & Ig & [E|E])|(h & Ih & [E|E])].
  - left. exists g. split; [exact Ig|]. right. intros a b Wa Wb. exact (E b a Wb Wa).
  - left. exists g. split; [exact Ig|]. left. intros a b Wa Wb. exact (E b a Wb Wa).
  - right. exists h. split; [exact Ih|]. right. intros a b Wa Wb. exact (E b a Wb Wa).
  - right. exists h. split; [exact Ih|]. left. intros a b Wa Wb. exact (E b a Wb Wa).
Qed.
Lemma val_two m f : in_isa Base32 m -> (forall a b, word32 a -> word32 b -> rv_val m a b = Some (f a b)) -> two_in f.
Proof.
  intros Hi E. assert (W0 : word32 0) by (unfold word32; lia).
  assert (L : (forall a b, rv_val m a b = rv_val m a 0) -> two_in f).
  { intros K. destruct (val_left m (fun a => f a 0) Hi (fun a Wa => E a 0 Wa W0)) as (h & Ih & Eh). right. exists h. split; [exact Ih|]. left.
    intros a b Wa Wb. rewrite <- Eh by exact Wa. pose proof (E a b Wa Wb) as X. rewrite K in X. pose proof (E a 0 Wa W0). congruence. }
  assert (R : (forall a b, rv_val m a b = rv_val m 0 b) -> two_in f).
  { intros K. destruct (val_right m (fun b => f 0 b) Hi (fun b Wb => E 0 b W0 Wb)) as (h & Ih & Eh). right. exists h. split; [exact Ih|]. right.
    intros a b Wa Wb. rewrite <- Eh by exact Wb. pose proof (E a b Wa Wb) as X. rewrite K in X. pose proof (E 0 b W0 Wb). congruence. }
  destruct m as [x [t|t|t]|[x t|x t]|x|x|x|x|x t|x t|x t|x t]; try (apply L; reflexivity); cbn [rv_val] in *.
  - destruct (Z.eqb_spec (r_rs1 x) 0) as [Q1|Q1]; [apply R; intros a b; rewrite Q1; reflexivity|].
    destruct (Z.eqb_spec (r_rs2 x) 0) as [Q2|Q2]; [apply L; intros a b; rewrite Q2; reflexivity|].
    left. exists (sp_arith t). split; [exact (nth_error_In _ _ (arith_ten t))|]. left. intros a b Wa Wb. specialize (E a b Wa Wb).
    unfold rpick in E. rewrite (proj2 (Z.eqb_neq _ _) Q1), (proj2 (Z.eqb_neq _ _) Q2) in E. congruence.
  - destruct (Z.eqb_spec (r_rs1 x) 0) as [Q1|Q1]; [apply R; intros a b; rewrite Q1; reflexivity|].
    destruct (Z.eqb_spec (r_rs2 x) 0) as [Q2|Q2]; [apply L; intros a b; rewrite Q2; reflexivity|].
    left. exists (full_shift t). split; [exact (nth_error_In _ _ (shift_ten t))|]. left. intros a b Wa Wb. specialize (E a b Wa Wb).
    unfold rpick in E. rewrite (proj2 (Z.eqb_neq _ _) Q1), (proj2 (Z.eqb_neq _ _) Q2) in E. congruence.
Qed.
Lemma ten_inst g : In g ten -> exists m, in_isa Base32 m /\ rv_dst m <> 0 /\ forall a b, rv_val m a b = Some (g a b).
Proof.
  assert (H : forall t, match t with aMulDiv _ => False | _ => True end -> in_isa Base32 (OP (mkR 3 1 2) t)).
  { intros t Ht. split; [unfold fit; cbn; lia|]. split; [unfold fit; cbn; lia|]. split; [unfold fit; cbn; lia|]. destruct t; [exact I|exact I|destruct Ht]. }
  assert (Ka : forall t, exists m, in_isa Base32 m /\ rv_dst m <> 0 /\ forall a b, rv_val m a b = Some (sp_arith t a b)).
  { intros t. exists (OP (mkR 3 1 2) (aArith t)). split; [exact (H (aArith t) I)|]. split; [discriminate|reflexivity]. }
  assert (Ks : forall t, exists m, in_isa Base32 m /\ rv_dst m <> 0 /\ forall a b, rv_val m a b = Some (full_shift t a b)).
  { intros t. exists (OP (mkR 3 1 2) (aShift t)). split; [exact (H (aShift t) I)|]. split; [discriminate|reflexivity]. }
  unfold ten. intros Ig. repeat (destruct Ig as [<-|Ig]); [.. |destruct Ig].
  - exact (Ka ADD). - exact (Ka SUB). - exact (Ka SLT). - exact (Ka SLTU). - exact (Ka AND). - exact (Ka OR). - exact (Ka XOR).
  - exact (Ks SLL). - exact (Ks SRL). - exact (Ks SRA).
Qed.

(** ** Which functions have rules *)
Section Which.
  Variables sdiv udiv srem urem : Z -> Z -> Z.
  Notation vmappable := (vmappable sdiv udiv srem urem).
  Notation vgives := (vgives sdiv udiv srem urem).
  Notation vruns := (vruns sdiv udiv srem urem).
  Notation step := (step sdiv udiv srem urem).
  Notation arch0 := (riscv_arch sdiv udiv srem urem).
  Variables (V : vcode) (A : access).
  Hypotheses (HV : vcode_ok V) (HA : acc_ok A).

  Lemma v_no_constr : on_vfields V [].
  Proof. split; [constructor|]. intros p zs []. Qed.
  Lemma vok_free m : vok V [] m <-> in_isa Base32 m.
  Proof. split; [now intros []|]. intros Hi. split; [exact Hi|]. intros p zs z []. Qed.

  (** Whatever the constraints, a function that has a rule is one of the ten, in
      either order, or one of the functions of one word. *)
  Theorem C77_binary_only cs f : on_vfields V cs -> vmappable V A cs (vword2 f) -> two_in f.
  Proof.
    intros Hf M. apply C77_rule in M as (m & (Hi & _) & [G|G]); auto; apply gives_iff in G as (_ & E); auto.
    - exact (val_two m f Hi E).
    - apply two_flip. exact (val_two m _ Hi E).
  Qed.
  Theorem C77_unary_only cs f : on_vfields V cs -> vmappable V A cs (vword1 f) -> is_one f.
  Proof.
    intros Hf M. assert (W0 : word32 0) by (unfold word32; lia). apply C77_rule1 in M as (m & (Hi & _) & [G|G]); auto; apply gives_iff in G as (_ & E); auto.
    - exact (val_left m f Hi (fun a Wa => E a 0 Wa W0)).
    - exact (val_right m f Hi (fun b Wb => E 0 b W0 Wb)).
  Qed.
  (** Without constraints they all have rules. *)
  Theorem C77_binary f : vmappable V A [] (vword2 f) <-> two_in f.
  Proof.
    split; [exact (C77_binary_only [] f v_no_constr)|]. intros T. apply C77_rule; auto using v_no_constr. destruct T as [(g & Ig & E)|(h & Ih & E)].
    - destruct (ten_inst g Ig) as (m & Hi & D & Em). exists m. split; [now apply vok_free|].
      destruct E as [E|E]; [left|right]; apply gives_iff; auto; (split; [exact D|]); intros a b Wa Wb; rewrite Em; f_equal; symmetry; [exact (E a b Wa Wb)|exact (E b a Wb Wa)].
    - destruct (one_inst h Ih) as (m & Hi & D & Em). exists m. split; [now apply vok_free|].
      destruct Em as [Em|Em], E as [E|E]; [left|right|right|left]; apply gives_iff; auto; (split; [exact D|]); intros a b Wa Wb; rewrite Em by assumption; f_equal; symmetry;
        unfold rv_flip; first [exact (E a b Wa Wb)|exact (E b a Wb Wa)].
  Qed.
  Theorem C77_unary f : vmappable V A [] (vword1 f) <-> is_one f.
  Proof.
    split; [exact (C77_unary_only [] f v_no_constr)|]. intros (h & Ih & E). apply C77_rule1; auto using v_no_constr.
    destruct (one_inst h Ih) as (m & Hi & D & Em). exists m. split; [now apply vok_free|].
    destruct Em as [Em|Em]; [left|right]; apply gives_iff; auto; (split; [exact D|]); intros a b Wa Wb; rewrite Em by assumption; f_equal; symmetry; auto.
  Qed.

  (** ** The IR of the mapping tests, with words of 32 bits *)
  Definition v_ir32 (o : SmallPeModel.irop) : instr vpath mty :=
    if SmallPeModel.unary o then vword1 (fun x => SmallPeModel.ir_call 32 o x 0) else vword2 (SmallPeModel.ir_call 32 o).
  Definition v_missing : list SmallPeModel.irop := [SmallPeModel.Nand; SmallPeModel.Nor; SmallPeModel.Mul].
  Definition v_points : list Z := [0; 1; 2; 3].
  Definition v_differ (f g : Z -> Z -> Z) : bool := existsb (fun a => existsb (fun b => negb (f a b =? g a b)) v_points) v_points.
  Lemma v_point_word z : In z v_points -> word32 z.
  Proof. intros Ip. unfold word32. cbn in Ip. lia. Qed.
  Lemma v_differ_no f g : (forall a b, word32 a -> word32 b -> f a b = g a b) -> v_differ f g = false.
  Proof.
    intros E. apply not_true_is_false. unfold v_differ. intros X. apply existsb_exists in X as (a & Ia & X). apply existsb_exists in X as (b & Ib & X).
    rewrite E, Z.eqb_refl in X by (apply v_point_word; assumption). discriminate.
  Qed.
  Lemma v_table : forallb (fun o => forallb (fun g => v_differ (SmallPeModel.ir_call 32 o) g && v_differ (SmallPeModel.ir_call 32 o) (rv_flip g)) ten) v_missing = true.
  Proof. vm_compute. reflexivity. Qed.
  Lemma v_missing_dep o : In o v_missing -> exists a b b', word32 a /\ word32 b /\ word32 b' /\
    SmallPeModel.ir_call 32 o a b <> SmallPeModel.ir_call 32 o a b' /\ SmallPeModel.ir_call 32 o b a <> SmallPeModel.ir_call 32 o b' a.
  Proof.
    assert (W0 : word32 0) by (unfold word32; lia). assert (W1 : word32 1) by (unfold word32; lia).
    intros [<-|[<-|[<-|[]]]]; [exists 1, 0, 1|exists 0, 0, 1|exists 1, 0, 1]; (split; [assumption|]); (split; [assumption|]); (split; [assumption|]);
      split; vm_compute; discriminate.
  Qed.
  Lemma not_xor x : word32 x -> bvnot 32 x = Z.lxor x (-1 mod W).
  Proof.
    intros Wx. unfold bvnot, wrap. change (-1 mod W) with (Z.ones 32). rewrite <- Z.land_ones by lia. apply Z.bits_inj'. intros n Hn.
    rewrite Z.land_spec, Z.lnot_spec, Z.lxor_spec by lia. destruct (Z.ltb_spec n 32) as [L|L].
    - rewrite Z.ones_spec_low by lia. rewrite xorb_true_r. apply andb_true_r.
    - rewrite Z.ones_spec_high by lia. rewrite xorb_false_r, andb_false_r. symmetry. exact (testbit_high 32 x n Wx L).
  Qed.
  (** Addition (test_riscv_rr) and these seven have rules; Nand, Nor and Mul have
      none, whatever the constraints. *)
  Theorem C77_small_ir o : vmappable V A [] (v_ir32 o) <-> ~ In o v_missing.
  Proof.
    split.
    - intros M J. assert (U : SmallPeModel.unary o = false) by (destruct J as [<-|[<-|[<-|[]]]]; reflexivity).
      unfold v_ir32 in M. rewrite U in M. apply C77_binary in M as [(g & Ig & E)|(h & Ih & E)].
      + pose proof (proj1 (forallb_forall _ _) (proj1 (forallb_forall _ _) v_table o J) g Ig) as X. cbn beta in X. apply andb_prop in X as (X & Y).
        destruct E as [E|E]; [rewrite (v_differ_no _ _ E) in X; discriminate|]. rewrite (v_differ_no _ (rv_flip g) E) in Y. discriminate.
      + destruct (v_missing_dep o J) as (a & b & b' & Wa & Wb & Wb' & D & D'). destruct E as [E|E].
        * apply D. rewrite !E by assumption. reflexivity.
        * apply D'. rewrite !E by assumption. reflexivity.
    - intros N. assert (K2 : forall g n, nth_error ten n = Some g -> SmallPeModel.unary o = false ->
        (forall a b, word32 a -> word32 b -> SmallPeModel.ir_call 32 o a b = g a b) -> vmappable V A [] (v_ir32 o)).
      { intros g n En U E. unfold v_ir32. rewrite U. apply C77_binary. left. exists g. split; [exact (nth_error_In _ _ En)|]. left. exact E. }
      destruct o; try (exfalso; apply N; cbn; tauto).
      + apply (K2 _ 0%nat eq_refl eq_refl). reflexivity.
      + apply (K2 _ 1%nat eq_refl eq_refl). reflexivity.
      + apply (K2 _ 4%nat eq_refl eq_refl). reflexivity.
      + apply (K2 _ 5%nat eq_refl eq_refl). reflexivity.
      + apply (K2 _ 8%nat eq_refl eq_refl). intros a b Wa Wb. unfold word32 in *. apply bvlshr_eq; lia.
      + apply (K2 _ 7%nat eq_refl eq_refl). intros a b Wa Wb. unfold word32 in *. apply bvshl_eq; lia.
      + unfold v_ir32. cbn [SmallPeModel.unary]. apply C77_unary. exists (fun x => Z.lxor x (-1 mod W)). split; [apply one_xor; lia|]. intros a Wa. exact (not_xor a Wa).
      + unfold v_ir32. cbn [SmallPeModel.unary]. apply C77_unary. exists (fun x => (- x) mod W). split; [exact one_neg|]. reflexivity.
  Qed.

  (** ** The immediate subtraction *)
  (** If a constraint keeps SUB out of the tag of the immediate instructions, no
      rule is one. *)
  Theorem C77_no_subi cs zs m : In (VFld GIA STag, zs) cs -> ~ In (eA V SUB) zs -> vok V cs m -> is_subi m = false.
  Proof.
    intros Ic N (_ & Hc). destruct m as [x t|[x t|x t]|x|x|x|x|x t|x t|x t|x t]; try reflexivity. destruct t; try reflexivity.
    exfalso. exact (N (Hc (VFld GIA STag) zs _ Ic eq_refl)).
  Qed.
  (** Adding 2048 has a rule, and the simulator rejects the instruction of every
      rule for it. *)
  Definition add2048 (x : Z) : Z := (x + 2048) mod W.
  Lemma only_subi m : in_isa Base32 m -> rv_val m 0 0 = Some 2048 -> is_subi m = true.
  Proof.
    intros Hi E. assert (P0 : forall r, rpick r 0 = 0) by (intros r; unfold rpick; destruct (r =? 0); reflexivity).
    assert (EE : forall x y : Z, Some x = Some y -> x = y) by congruence.
    destruct m as [x [t|t|t]|[x t|x t]|x|x|x|x|x t|x t|x t|x t]; cbn [rv_val] in E; try discriminate E; rewrite ?P0 in E.
    - exfalso. destruct t; discriminate E.
    - exfalso. rewrite shift_0 in E by lia. discriminate E.
    - destruct Hi as (_ & _ & Hi). pose proof (sg12_range _ Hi) as R. cbn [is_subi].
      assert (K : sg 12 (i_imm x) mod W = 2048 -> False).
      { intros Q. rewrite <- (sg32_mod _ R), Q in R. change (sg 32 2048) with 2048 in R. lia. }
      destruct t; cbn [sp_arith] in E; try reflexivity; exfalso; apply EE in E.
      + rewrite Z.add_0_l, Z.mod_mod in E by discriminate. exact (K E).
      + destruct (_ <? _); discriminate E.
      + destruct (_ <? _); discriminate E.
      + discriminate E.
      + exact (K E).
      + exact (K E).
    - exfalso. destruct Hi as (_ & _ & Hi). unfold fit in Hi. rewrite shift_0 in E by lia. discriminate E.
    - exfalso. apply EE in E. lia.
  Qed.
  Lemma subi_raises m rf pc : is_subi m = true -> step Base32 rf m pc = (Err AssertionError, rf).
  Proof. destruct m as [x t|[x t|x t]|x|x|x|x|x t|x t|x t|x t]; try discriminate. destruct t; try discriminate. reflexivity. Qed.
  Theorem C77_subi : vmappable V A [] (vword1 add2048) /\
    forall cs m, vok V cs m -> vgives A m (fun a _ => add2048 a) \/ vgives A m (fun _ b => add2048 b) ->
      forall rf pc, step Base32 rf m pc = (Err AssertionError, rf).
  Proof.
    split.
    - apply C77_unary. exists (fun x => (x + 2048) mod W). split; [apply one_add; lia|]. reflexivity.
    - intros cs m (Hi & _) G rf pc. apply subi_raises. assert (W0 : word32 0) by (unfold word32; lia).
      destruct G as [G|G]; apply gives_iff in G as (_ & E); auto; exact (only_subi m Hi (E 0 0 W0 W0)).
  Qed.

  (** ** Registers may be renamed *)
  Definition rv_renamed (m m' : inst) : Prop :=
    let same r r' := r = 0 <-> r' = 0 in
    match m, m' with
    | OP d t, OP d' t' => t = t' /\ same (r_rd d) (r_rd d') /\ same (r_rs1 d) (r_rs1 d') /\ same (r_rs2 d) (r_rs2 d')
    | OP_IMM (oArith d t), OP_IMM (oArith d' t') => t = t' /\ same (i_rd d) (i_rd d') /\ same (i_rs1 d) (i_rs1 d') /\ i_imm d = i_imm d'
    | OP_IMM (oShift d t), OP_IMM (oShift d' t') => t = t' /\ same (is_rd d) (is_rd d') /\ same (is_rs1 d) (is_rs1 d') /\ is_imm d = is_imm d'
    | LUI d, LUI d' => same (u_rd d) (u_rd d') /\ u_imm d = u_imm d'
    | _, _ => False
    end.
  Lemma rpick_iff x x' v : (x = 0 <-> x' = 0) -> rpick x v = rpick x' v.
  Proof. intros E. unfold rpick. destruct (Z.eqb_spec x 0), (Z.eqb_spec x' 0); tauto. Qed.
  (** What a rule says holds for the instruction with other registers, register 0
      apart; in particular with operands in different ones. *)
  Theorem C77_rename m m' f : in_isa Base32 m -> in_isa Base32 m' -> rv_renamed m m' -> vgives A m f ->
    vgives A m' f /\ rv_dst m' <> 0 /\ (is_subi m = false -> vruns m' f).
  Proof.
    intros Hi Hi' R G. apply gives_iff in G as (N & E); auto.
    assert (K : rv_dst m' <> 0 /\ (forall a b, rv_val m' a b = rv_val m a b) /\ is_subi m' = is_subi m).
    { destruct m as [x t|[x t|x t]|x|x|x|x|x t|x t|x t|x t], m' as [x' t'|[x' t'|x' t']|x'|x'|x'|x'|x' t'|x' t'|x' t'|x' t']; cbn [rv_renamed] in R; try (exfalso; exact R);
        unfold rv_dst in *; cbn [rd_of rv_val is_subi] in *.
      - destruct R as (<- & D & R1 & R2). split; [tauto|]. split; [|reflexivity]. intros a b.
        rewrite (rpick_iff (r_rs1 x) (r_rs1 x') a R1), (rpick_iff (r_rs2 x) (r_rs2 x') b R2). reflexivity.
      - destruct R as (<- & D & R1 & R2). split; [tauto|]. split; [|reflexivity]. intros a b. rewrite (rpick_iff (i_rs1 x) (i_rs1 x') a R1), R2. reflexivity.
      - destruct R as (<- & D & R1 & R2). split; [tauto|]. split; [|reflexivity]. intros a b. rewrite (rpick_iff (is_rs1 x) (is_rs1 x') a R1), R2. reflexivity.
      - destruct R as (D & R2). split; [tauto|]. split; [|reflexivity]. intros a b. now rewrite R2. }
    destruct K as (N' & E' & S). assert (E'' : forall a b, word32 a -> word32 b -> rv_val m' a b = Some (f a b)) by (intros a b Wa Wb; rewrite E'; auto).
    split; [apply gives_iff; auto|]. split; [exact N'|]. intros Ns. apply rv_runs; auto. congruence.
  Qed.
End Which.

(** ** The full statement: the instruction of a rule runs on the simulator, and
    its operands can be loaded *)
Definition zdiv (a b : Z) : Z := 0.
Notation arch1 := (riscv_arch zdiv zdiv zdiv zdiv).
Notation vmappable1 := (vmappable zdiv zdiv zdiv zdiv).
Definition a_rule (V : vcode) (A : access) (cs : list (vpath * list Z)) (f : Z -> Z -> Z) (ru : rule vpath) (m : inst) : Prop :=
  let a := arch1 V A cs in
  well_formed vpath_eqb mty_const a (vword2 f) ru /\ valid_consts mty_vals a (vfv V) ru /\ allowed_consts a ru /\
  correct_any mty_const mty_vals a (vword2 f) (vfs zdiv zdiv zdiv zdiv V A) ru /\
  exists bnd obnd, rule_of mty_const mty_vals a (vword2 f) (vfv V) (vdecf V) ru m bnd obnd.
Definition C77_full : Prop := forall V A cs f ru m, vcode_ok V -> acc_ok A -> on_vfields V cs -> a_rule V A cs f ru m ->
  (vruns zdiv zdiv zdiv zdiv m f \/ vruns zdiv zdiv zdiv zdiv m (rv_flip f)) /\
  forall a b, word32 a -> word32 b -> exists rf, rv_loaded rf m a b.

(** Every instruction that computes the function is the one of a rule. *)
Lemma has_rule V A f m : vcode_ok V -> acc_ok A -> in_isa Base32 m -> vgives zdiv zdiv zdiv zdiv A m f -> exists ru, a_rule V A [] f ru m.
Proof.
  intros HV HA Hi G. pose proof (v_no_constr V) as Hf.
  destruct (does2_to vpath_eqb mty_vals vpath_eqb_eq (arch1 V A []) (vsem zdiv zdiv zdiv zdiv A) VIn0 VIn1 VRes MWord v_n01 f m VR1 VR2 VOut) as (bnd & obnd & Pl & Co).
  { apply (v_does2 zdiv zdiv zdiv zdiv V A [] HV). auto 8. }
  destruct (machine_rule vpath_eqb mty_eqb mty_const v_eqs mty_vals (arch1 V A []) _ _ _
    (v_arch_ok zdiv zdiv zdiv zdiv V A [] HV (v_nd V [] Hf) (v_incl V [] Hf)) (word2_ok _ _ _ _ f v_n01) _ _ _
    (v_machine zdiv zdiv zdiv zdiv V A [] HV (v_incl V [] Hf)) (v_nc2 f) m bnd obnd (proj2 (vok_free V m) Hi) Pl Co) as (ru & R1 & R2 & R3 & R4 & R5).
  exists ru. split; [exact R1|]. split; [exact R2|]. split; [exact R3|]. split; [exact R4|]. exists bnd, obnd. exact R5.
Qed.

(** Instances: the encodings count from 0; the accessors of C50. *)
Definition vcode0 : vcode :=
  mkV (fun t => match t with ADD => 0 | SUB => 1 | SLT => 2 | SLTU => 3 | AND => 4 | OR => 5 | XOR => 6 end) 3
      (fun t => match t with SLL => 0 | SRL => 1 | SRA => 2 end) 2
      (fun t => match t with LB => 0 | LBU => 1 | LH => 2 | LHU => 3 | LW => 4 | LWU => 5 | LD => 6 end) 3
      (fun t => match t with BEQ => 0 | BNE => 1 | BLT => 2 | BLTU => 3 | BGE => 4 | BGEU => 5 end) 3
      (fun m => match m with MOp => 0 | MImm => 1 | MLui => 2 | MAuipc => 3 | MJal => 4 | MJalr => 5 | MBr => 6 | MLd => 7 | MSt => 8 end) 0 1 0 1 all_forms.
Lemma vcode0_ok : vcode_ok vcode0.
Proof.
  split; [split; [intros [] []; cbn; congruence || discriminate|intros []; cbn; lia]|].
  split; [split; [intros [] []; cbn; congruence || discriminate|intros []; cbn; lia]|].
  split; [split; [intros [] []; cbn; congruence || discriminate|intros []; cbn; lia]|].
  split; [split; [intros [] []; cbn; congruence || discriminate|intros []; cbn; lia]|].
  split; [intros [] []; cbn; congruence || discriminate|]. split; [discriminate|]. split; [discriminate|exact forms_all].
Qed.

(** A rule for the sum that reads both operands from register 1. *)
Theorem C77_alias_refuted : exists ru, a_rule vcode0 acc0 [] (fun x y => (x + y) mod W) ru (OP (mkR 3 1 1) (aArith ADD)) /\
  ~ exists rf, rv_loaded rf (OP (mkR 3 1 1) (aArith ADD)) 1 2.
Proof.
  assert (Hi : in_isa Base32 (OP (mkR 3 1 1) (aArith ADD))).
  { split; [unfold fit; cbn; lia|]. split; [unfold fit; cbn; lia|]. split; [unfold fit; cbn; lia|exact I]. }
  destruct (has_rule vcode0 acc0 (fun x y => (x + y) mod W) (OP (mkR 3 1 1) (aArith ADD)) vcode0_ok acc0_ok Hi) as (ru & R).
  - apply gives_iff; auto using acc0_ok. split; [discriminate|]. reflexivity.
  - exists ru. split; [exact R|]. intros (rf & _ & L1 & L2). specialize (L1 1 eq_refl ltac:(lia)). specialize (L2 1 eq_refl ltac:(lia)). congruence.
Qed.
(** A rule for x - 5 that the simulator does not run, although x + (-5) would do. *)
Theorem C77_full_refuted : ~ C77_full.
Proof.
  intros F. assert (Hi : in_isa Base32 (OP_IMM (oArith (mkI 3 1 5) SUB))).
  { split; [unfold fit; cbn; lia|]. split; unfold fit; cbn; lia. }
  assert (G : vgives zdiv zdiv zdiv zdiv acc0 (OP_IMM (oArith (mkI 3 1 5) SUB)) (fun x _ => (x - 5) mod W)).
  { apply gives_iff; auto using acc0_ok. split; [discriminate|]. reflexivity. }
  destruct (has_rule vcode0 acc0 _ _ vcode0_ok acc0_ok Hi G) as (ru & R).
  destruct (F vcode0 acc0 [] _ ru _ vcode0_ok acc0_ok (v_no_constr vcode0) R) as (Ru & _).
  assert (L : rv_loaded (rv_file (OP_IMM (oArith (mkI 3 1 5) SUB)) 7 0) (OP_IMM (oArith (mkI 3 1 5) SUB)) 7 0) by (apply rv_load_ok; discriminate).
  destruct Ru as [Ru|Ru]; destruct (Ru 0 7 0 _ ltac:(unfold word32; lia) ltac:(unfold word32; lia) L) as (rf' & S & _); discriminate S.
Qed.

(** ** A case: the sum with the destination constrained to register 7 and
    without immediate subtraction, run on the simulator. *)
Definition case_cs : list (vpath * list Z) := [(VFld GOp SRd, [7]); (VFld GIA STag, [0; 2; 3; 4; 5; 6])].
Example C77_case : on_vfields vcode0 case_cs /\ vmappable1 vcode0 acc0 case_cs (vword2 (bvadd 32)) /\
  RiscvModel.step zdiv zdiv zdiv zdiv Base32 [(0, 0); (4, 10); (5, 4294967295)] (OP (mkR 7 4 5) (aArith ADD)) 100
    = (Ok 104, [(0, 0); (4, 10); (5, 4294967295); (7, 9)]).
Proof.
  assert (O : on_vfields vcode0 case_cs).
  { split; [repeat constructor; cbn; intuition discriminate|]. intros p zs [Ic|[Ic|[]]]; injection Ic as <- <-;
      (split; [cbn; auto 14|]); (split; [discriminate|]); intros w z Iw Iz; cbn in Iw;
      repeat (destruct Iw as [Iw|Iw]; [first [discriminate Iw | injection Iw as <-; cbn in Iz; cbn; lia]|]); destruct Iw. }
  split; [exact O|]. split; [|reflexivity].
  apply C77_rule; auto using vcode0_ok, acc0_ok. exists (OP (mkR 7 4 5) (aArith ADD)).
  assert (Hi : in_isa Base32 (OP (mkR 7 4 5) (aArith ADD))).
  { split; [unfold fit; cbn; lia|]. split; [unfold fit; cbn; lia|]. split; [unfold fit; cbn; lia|exact I]. }
  split.
  - split; [exact Hi|]. intros p zs z [Ic|[Ic|[]]] E; injection Ic as <- <-; [|discriminate E]. injection E as <-. now left.
  - left. apply gives_iff; auto using acc0_ok. split; [discriminate|]. reflexivity.
Qed.

Print Assumptions C77_rule.
Print Assumptions C77_rule1.
Print Assumptions C77_solve_partial.
Print Assumptions C77_solve1_partial.
Print Assumptions C77_found.
Print Assumptions C77_binary_only.
Print Assumptions C77_unary_only.
Print Assumptions C77_binary.
Print Assumptions C77_unary.
Print Assumptions C77_small_ir.
Print Assumptions C77_no_subi.
Print Assumptions C77_subi.
Print Assumptions C77_rename.
Print Assumptions C77_alias_refuted.
Print Assumptions C77_full_refuted.
Print Assumptions C77_case.
