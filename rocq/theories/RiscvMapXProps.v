(** C100: which functions of words the mapper finds for R32I_mappable of examples/riscv_m and examples/riscv_ext, and what
    the instruction of a rule does on the simulator. *)
From Coq Require Import ZArith List Bool Lia Permutation.
From Verif Require Import Base BaseLemmas BvModel BvLemmas RiscvModel RiscvSpec RiscvBits RiscvProofs RiscvProps BindModel BindProps MapIdxModel MapIdxProps
  CegisModel CegisProps MapModel MapProofs MapMain MapProps MapIff MapIffProps MapDirect RegPeModel RegPeProofs RiscvMapModel RiscvMapProofs RiscvMapProps
  RiscvMapXModel RiscvMapXProofs.
From Verif Require SmallPeModel.
Import ListNotations.
Open Scope list_scope.
Open Scope Z_scope.

(** ** Specification *)
(** Constraints on instruction fields, each with at least one value of its type. *)
Definition x_on_vfields (c : core) (V : x_vcode) (cs : list (x_vpath * list Z)) : Prop :=
  NoDup (map fst cs) /\
  forall p zs, In (p, zs) cs -> In p (map fst (x_vconsts c V)) /\ zs <> [] /\
    forall w z, In (p, MConst w) (x_vconsts c V) -> In z zs -> 0 <= z < 2 ^ w.
Definition x_vtags_ok (c : core) (V : x_vcode) (tagd : x_vpath -> list Z) : Prop :=
  (forall p, tagd p <> []) /\ forall f d, x_has c f = true -> In d (x_vtags V f) -> In (snd d) (tagd (fst d)).
Notation x_vword2 f := (word2 XVIn0 XVIn1 XVRes MWord f).
Notation x_vword1 f := (word1 XVIn0 XVRes MWord f).
(** Words may be bound to the pc and the two registers, the result to the next
    pc and the destination. *)
Definition x_word_in (p : x_vpath) : Prop := p = XVPc \/ p = XVR1 \/ p = XVR2.
Definition x_word_out (p : x_vpath) : Prop := p = XVNext \/ p = XVOut.
Definition x_sel (p : x_vpath) (pc a b : Z) : Z := match p with XVPc => pc | XVR1 => a | _ => b end.
Definition x_res (p : x_vpath) (r : Z * Z) : Z := match p with XVNext => fst r | _ => snd r end.
(** The rule is for this instruction. *)
Definition x_vrule_inst (V : x_vcode) (ru : rule x_vpath) (m : inst) : Prop :=
  nth_error (x_order V) (r_form ru) = Some (x_iform m) /\ forall p z, x_vfield V m p = Some z -> In (SVal z, p) (r_in ru).

(** ** Values *)
Section Cores.
  Variables sdiv udiv srem urem : Z -> Z -> Z.
  Hypothesis div_words : forall a b, fit 32 (sdiv a b) /\ fit 32 (udiv a b) /\ fit 32 (srem a b) /\ fit 32 (urem a b).
  Variable c : core.
  Notation step := (step sdiv udiv srem urem).
  Notation mappable := (mappable sdiv udiv srem urem).

  Definition x_mul (t : muldiv) (x y : Z) : Z :=
    match t with
    | MUL => (x * y) mod W | MULH => ((sg 32 x * sg 32 y) / W) mod W | MULHU => (x * y) / W | MULHSU => ((sg 32 x * y) / W) mod W
    | DIV => sdiv x y | DIVU => udiv x y | REM => srem x y | REMU => urem x y
    end.
  Definition x_rv_val (i : inst) (a b : Z) : option Z :=
    match i with
    | OP d (aMulDiv t) => Some (x_mul t (rpick (r_rs1 d) a) (rpick (r_rs2 d) b))
    | Ext d t => Some (sp_bits t (rpick (e_rs d) a))
    | _ => rv_val i a b
    end.
  Lemma x_mul_exec t x y : word32 x -> word32 y -> exec_muldiv sdiv udiv srem urem t x y = x_mul t x y.
  Proof. intros X Y. destruct t; try reflexivity; apply (mul_spec sdiv udiv srem urem); auto. Qed.
  Lemma x_bits_word t x : word32 (sp_bits t x).
  Proof. pose proof (sp_bits_range t x). unfold word32. lia. Qed.
  Lemma x_val_word i a b v : in_isa c i -> word32 a -> word32 b -> x_rv_val i a b = Some v -> word32 v.
  Proof.
    intros Hi Wa Wb. destruct i as [d [t|t|t]|[d t|d t]|d|d|d|d|d t|d t|d t|d t]; cbn [x_rv_val rv_val]; try discriminate; intros [= <-].
    - rewrite <- exec_arith_spec by (apply word_fit, pick_word; assumption). apply exec_arith_fit; apply word_fit, pick_word; assumption.
    - rewrite <- shift_full; [apply exec_shift_fit|apply pick_word; assumption|]. pose proof (pick_word (r_rs2 d) b Wb) as X. unfold word32 in X. lia.
    - rewrite <- x_mul_exec by (apply pick_word; assumption). apply (muldiv_fit sdiv udiv srem urem div_words).
    - rewrite <- exec_arith_spec by (try apply fit_mod; apply word_fit, pick_word; assumption). apply exec_arith_fit; [apply word_fit, pick_word; assumption|apply fit_mod].
    - destruct Hi as (_ & _ & Hi). unfold fit in Hi. rewrite <- shift_full; [apply exec_shift_fit|apply pick_word; assumption|lia].
    - destruct Hi as (_ & Hi). unfold fit in Hi. change (2 ^ 20) with 1048576 in Hi. unfold word32. lia.
    - apply x_bits_word.
  Qed.

  (** This output of the wrapper is [F], whatever the destination held. *)
  Definition x_vgives (A : access) (m : inst) (po : x_vpath) (F : Z -> Z -> Z -> Z) : Prop :=
    forall pc a b d, word32 pc -> word32 a -> word32 b -> word32 d -> x_res po (mappable A c m pc a b d) = F pc a b.
  (** The simulator, called with this pc and the operands in the registers, leaves
      the result in the destination, or continues there; it changes no other
      register. *)
  Definition x_vruns (m : inst) (po : x_vpath) (F : Z -> Z -> Z -> Z) : Prop :=
    forall pc a b rf, word32 pc -> word32 a -> word32 b -> rv_loaded rf m a b ->
      exists next rf', step c rf m pc = (Ok next, rf') /\ (forall r, r <> rv_dst m -> rf_load rf' r = rf_load rf r) /\
        match po with XVNext => next = F pc a b | _ => rf_load rf' (rv_dst m) = Ok (F pc a b) end.

  (** The value for the destination and the next pc. *)
  Definition x_rd (i : inst) (pc a b : Z) : option Z :=
    match i with AUIPC d => Some ((pc + u_imm d * 4096) mod W) | JAL _ | JALR _ => Some ((pc + 4) mod W) | _ => x_rv_val i a b end.
  Definition x_next (i : inst) (pc a b : Z) : Z :=
    match i with
    | JAL d => (pc + 2 * sg 20 (j_imm d)) mod W
    | JALR d => 2 * (((rpick (i_rs1 d) a + sg 12 (i_imm d)) mod W) / 2)
    | Branch d t => if sp_cond t (rpick (b_rs1 d) a) (rpick (b_rs2 d) b) then (pc + 2 * sg 12 (b_imm d)) mod W else (pc + 4) mod W
    | _ => (pc + 4) mod W
    end.
  Lemma x_map_plain A pc a b d x y t rd v : acc_ok A -> execute sdiv udiv srem urem c t x y = Ok v -> word32 v ->
    (let dc := plain x y t rd in let c0 := execute_smt sdiv udiv srem urem A c (d_exec dc) (d_a dc) (d_b dc) in
     let (out, next) := commit dc pc c0 in (next, sr_rd (s_store (mkSrf a b d) (d_rd dc) out))) = ((pc + 4) mod W, if rd =? 0 then d else v).
  Proof.
    intros HA E F. cbv zeta. rewrite plain_x, plain_a, plain_b. rewrite (execute_smt_eq _ _ _ _ A c t x y v HA E).
    rewrite commit_plain by exact F. cbn [plain d_rd]. now rewrite store_pick.
  Qed.
  Lemma x_map_val A i pc a b d v : acc_ok A -> in_isa c i -> word32 a -> word32 b -> x_rv_val i a b = Some v ->
    mappable A c i pc a b d = ((pc + 4) mod W, if rv_dst i =? 0 then d else v).
  Proof.
    intros HA Hi Wa Wb E. pose proof (x_val_word i a b v Hi Wa Wb E) as Wv. unfold RiscvModel.mappable. rewrite decode_smt_eq by auto.
    destruct i as [x [t|t|t]|[x t|x t]|x|x|x|x|x t|x t|x t|x t]; cbn [x_rv_val rv_val] in E; try discriminate E; injection E as E; unfold rv_dst; cbn [rd_of];
      apply x_map_plain; auto; cbn [execute]; f_equal; rewrite ?load1_pick, ?load2_pick.
    - now rewrite exec_arith_spec by (apply word_fit, pick_word; assumption).
    - rewrite shift_full; auto; [apply word_fit, pick_word; assumption|]. pose proof (pick_word (r_rs2 x) b Wb) as X. unfold word32 in X. lia.
    - destruct Hi as (_ & _ & _ & Hi). rewrite Hi. f_equal. rewrite x_mul_exec by (apply pick_word; assumption). exact E.
    - destruct Hi as (_ & _ & Hi). rewrite bvsext_W by (auto; lia). now rewrite exec_arith_spec by (try apply fit_mod; apply word_fit, pick_word; assumption).
    - destruct Hi as (_ & _ & Hi). rewrite bvzext_eq. rewrite shift_full; auto; [apply pick_word; assumption|]. unfold fit in Hi. lia.
    - destruct Hi as (_ & Hi). rewrite lui_spec by exact Hi. cbn [exec_arith]. unfold bvadd. rewrite Z.add_0_l, E. apply wrap_small. exact Wv.
    - rewrite bitcounter_smt_spec by (apply pick_word; assumption). cbn [exec_arith]. unfold bvadd. rewrite Z.add_0_r, E. apply wrap_small. exact Wv.
  Qed.
  Lemma x_map_all A i pc a b d : acc_ok A -> in_isa c i -> word32 a -> word32 b ->
    mappable A c i pc a b d = (x_next i pc a b, match x_rd i pc a b with Some v => if rv_dst i =? 0 then d else v | None => d end).
  Proof.
    intros HA Hi Wa Wb. destruct (x_rv_val i a b) as [v|] eqn:E.
    - rewrite (x_map_val A i pc a b d v HA Hi Wa Wb E).
      destruct i as [x [t|t|t]|[x t|x t]|x|x|x|x|x t|x t|x t|x t]; cbn [x_rv_val rv_val] in E; try discriminate E; cbn [x_next x_rd x_rv_val rv_val]; injection E as E; rewrite E; reflexivity.
    - unfold RiscvModel.mappable. rewrite decode_smt_eq by auto.
      destruct i as [x [t|t|t]|[x t|x t]|x|x|x|x|x t|x t|x t|x t]; cbn [x_rv_val rv_val] in E; try discriminate E; unfold rv_dst; cbn [rd_of x_next x_rd x_rv_val rv_val].
      + apply (x_map_plain A pc a b d _ _ (aArith ADD) (u_rd x) ((pc + u_imm x * 4096) mod W) HA).
        * destruct Hi as (_ & Hi). cbn [execute exec_arith]. now rewrite lui_spec by exact Hi.
        * apply fit_mod.
      + destruct Hi as (_ & Hi). cbn [d_exec d_a d_b d_rd]. rewrite (execute_smt_eq _ _ _ _ A c (aArith ADD) _ _ _ HA eq_refl).
        rewrite commit_jump by apply fit_wrap. rewrite store_pick. f_equal. cbn [exec_arith]. rewrite off_spec by (auto; lia).
        unfold bvadd. rewrite wrapW. now rewrite Z.add_mod_idemp_r by discriminate.
      + destruct Hi as (_ & _ & Hi). cbn [d_exec d_a d_b d_rd]. rewrite (execute_smt_eq _ _ _ _ A c (aArith ADD) _ _ _ HA eq_refl).
        rewrite commit_jalr by apply fit_wrap. rewrite store_pick, load1_pick. f_equal. cbn [exec_arith]. rewrite bvsext_W by (auto; lia).
        unfold bvadd. rewrite wrapW. now rewrite Z.add_mod_idemp_r by discriminate.
      + destruct Hi as (_ & _ & Hi). rewrite load1_pick, load2_pick, off_spec by (auto; lia).
        pose proof (branch_cond sdiv udiv srem urem t (rpick (b_rs1 x) a) (rpick (b_rs2 x) b) ((2 * sg 12 (b_imm x)) mod W) pc
          (pick_word _ _ Wa) (pick_word _ _ Wb)) as B.
        destruct (branch_dec t) as [[e cz] inv]. destruct B as (c0 & B1 & B2). cbn [d_exec d_a d_b d_rd].
        rewrite (execute_smt_eq _ _ _ _ A c e _ _ c0 HA (B1 c)), B2. rewrite store_pick. f_equal.
        unfold bvadd. rewrite wrapW. now rewrite Z.add_mod_idemp_r by discriminate.
      + refine (eq_trans (x_map_plain A pc a b d 0 0 (aArith ADD) 0 0 HA eq_refl _) _); [unfold word32; lia|reflexivity].
      + refine (eq_trans (x_map_plain A pc a b d 0 0 (aArith ADD) 0 0 HA eq_refl _) _); [unfold word32; lia|reflexivity].
  Qed.
  Lemma x_gives_next A m F : acc_ok A -> in_isa c m ->
    x_vgives A m XVNext F <-> forall pc a b, word32 pc -> word32 a -> word32 b -> x_next m pc a b = F pc a b.
  Proof.
    intros HA Hi. assert (W0 : word32 0) by (unfold word32; lia). split.
    - intros G pc a b Wp Wa Wb. pose proof (G pc a b 0 Wp Wa Wb W0) as X. rewrite x_map_all in X by assumption. exact X.
    - intros E pc a b d Wp Wa Wb Wd. rewrite x_map_all by assumption. exact (E pc a b Wp Wa Wb).
  Qed.
  Lemma x_gives_out A m F : acc_ok A -> in_isa c m ->
    x_vgives A m XVOut F <-> rv_dst m <> 0 /\ forall pc a b, word32 pc -> word32 a -> word32 b -> x_rd m pc a b = Some (F pc a b).
  Proof.
    intros HA Hi. assert (W0 : word32 0) by (unfold word32; lia). assert (W1 : word32 1) by (unfold word32; lia). split.
    - intros G. assert (S : forall pc a b, word32 pc -> word32 a -> word32 b -> rv_dst m <> 0 /\ x_rd m pc a b = Some (F pc a b)).
      { intros pc a b Wp Wa Wb. pose proof (G pc a b 0 Wp Wa Wb W0) as X. pose proof (G pc a b 1 Wp Wa Wb W1) as Y.
        rewrite x_map_all in X, Y by assumption. cbn [x_res snd] in X, Y. destruct (x_rd m pc a b) as [v|]; [|congruence].
        destruct (Z.eqb_spec (rv_dst m) 0) as [Z|Z]; [congruence|]. split; [exact Z|]. now rewrite X. }
      split; [exact (proj1 (S 0 0 0 W0 W0 W0))|]. intros pc a b Wp Wa Wb. exact (proj2 (S pc a b Wp Wa Wb)).
    - intros (N & E) pc a b d Wp Wa Wb Wd. rewrite x_map_all by assumption. cbn [x_res snd]. rewrite (E pc a b Wp Wa Wb). now rewrite (proj2 (Z.eqb_neq _ _) N).
  Qed.

  (** ** The simulator *)
  Lemma x_step_map A i pc a b d rf : acc_ok A -> in_isa c i -> is_subi i = false -> word32 a -> word32 b -> rv_loaded rf i a b ->
    exists rf', step c rf i pc = (Ok (fst (mappable A c i pc a b d)), rf') /\ (forall r, r <> rv_dst i -> rf_load rf' r = rf_load rf r) /\
      (x_rd i pc a b <> None -> rv_dst i <> 0 -> rf_load rf' (rv_dst i) = Ok (snd (mappable A c i pc a b d))).
  Proof.
    intros Ac I Ns Wa Wb (Z0 & L1 & L2).
    assert (S1 : forall r, rs1_of i = Some r -> rf_load rf r = Ok (s_load1 (mkSrf a b d) r)).
    { intros r E. rewrite load1_pick. unfold rpick. destruct (Z.eqb_spec r 0) as [->|N]; auto. }
    assert (S2 : forall r, rs2_of i = Some r -> rf_load rf r = Ok (s_load2 (mkSrf a b d) r)).
    { intros r E. rewrite load2_pick. unfold rpick. destruct (Z.eqb_spec r 0) as [->|N]; auto. }
    set (r := mkSrf a b d) in *. set (dc := decode_smt A c r i pc).
    assert (D : RiscvModel.decode c (rf_load rf) i pc = Ok dc).
    { unfold dc. rewrite decode_smt_eq by auto.
      destruct i as [dt t|o|dt|dt|dt|dt|dt t|dt t|dt t|dt t]; cbn [RiscvModel.decode rs1_of rs2_of] in *.
      2: destruct o as [dt t|dt t]; cbn [rs1_of rs2_of] in *.
      all: try (rewrite (S1 _ eq_refl); cbn [bind]); try (rewrite (S2 _ eq_refl); cbn [bind]);
        try reflexivity.
      - assert (E : is_SUB t = false) by (destruct t; [reflexivity|discriminate Ns|..]; reflexivity).
        rewrite E. reflexivity.
      - destruct (branch_dec t) as [[? ?] ?]. reflexivity.
      - destruct I as (_ & _ & Ec). rewrite Ec. assert (F : fit 32 (s_load1 r (e_rs dt))) by (unfold r; rewrite load1_pick; apply pick_word; assumption).
        rewrite bitcounter_smt_spec, bitcounter_spec by exact F. reflexivity. }
    assert (X : exists v, execute sdiv udiv srem urem c (d_exec dc) (d_a dc) (d_b dc) = Ok v).
    { assert (M : forall t, d_exec dc = aMulDiv t -> c = CoreM).
      { intros t. unfold dc. rewrite decode_smt_eq by auto.
        destruct i as [dt u|o|dt|dt|dt|dt|dt u|dt u|dt u|dt u]; cbn [plain d_exec]; try discriminate.
        - intros ->. apply I.
        - destruct o; discriminate.
        - destruct u; discriminate. }
      destruct (d_exec dc) as [t|t|t]; cbn [execute]; eauto. rewrite (M t eq_refl). eauto. }
    destruct X as [v X].
    assert (J : d_jmp dc && d_br dc = false).
    { unfold dc. rewrite decode_smt_eq by auto.
      destruct i as [dt t|o|dt|dt|dt|dt|dt t|dt t|dt t|dt t]; try reflexivity.
      - destruct o; reflexivity.
      - destruct (branch_dec t) as [[? ?] ?]. reflexivity. }
    assert (Rd : d_rd dc = rv_dst i \/ d_rd dc = 0 /\ x_rd i pc a b = None).
    { unfold dc, rv_dst. rewrite decode_smt_eq by auto.
      destruct i as [dt t|o|dt|dt|dt|dt|dt t|dt t|dt t|dt t]; cbn [rd_of]; try (left; reflexivity).
      - left. destruct o; reflexivity.
      - left. destruct (branch_dec t) as [[? ?] ?]. reflexivity.
      - right. split; reflexivity. }
    unfold RiscvModel.step, RiscvModel.mappable. rewrite D. cbn [bind]. rewrite X. cbn [bind].
    rewrite J. fold r. fold dc. rewrite (execute_smt_eq sdiv udiv srem urem A c _ _ _ v Ac X).
    destruct (commit dc pc v) as [out next]. cbn [fst snd].
    eexists. split; [reflexivity|]. destruct Rd as [Rd|(Rd & Rn)]; rewrite Rd; split.
    - intros k N. rewrite rf_load_store, (proj2 (Z.eqb_neq _ _) N). reflexivity.
    - intros _ N. rewrite rf_load_store, Z.eqb_refl, (proj2 (Z.eqb_neq _ _) N). unfold r. rewrite store_pick, (proj2 (Z.eqb_neq _ _) N). reflexivity.
    - intros k _. rewrite rf_load_store. destruct (k =? 0); reflexivity.
    - intros X' _. contradiction.
  Qed.
  Lemma x_gives_runs A m po F : acc_ok A -> in_isa c m -> is_subi m = false -> x_word_out po -> x_vgives A m po F -> x_vruns m po F.
  Proof.
    intros HA Hi Ns Po G pc a b rf Wp Wa Wb L. assert (W0 : word32 0) by (unfold word32; lia).
    destruct (x_step_map A m pc a b 0 rf HA Hi Ns Wa Wb L) as (rf' & S & K & D). exists (fst (mappable A c m pc a b 0)), rf'.
    split; [exact S|]. split; [exact K|]. pose proof (G pc a b 0 Wp Wa Wb W0) as X. destruct Po as [->| ->]; [exact X|].
    apply x_gives_out in G as (N & E); auto. rewrite (D ltac:(rewrite (E pc a b Wp Wa Wb); discriminate) N). f_equal. exact X.
  Qed.

  (** ** Rules *)
  Section Rules.
  Variables (V : x_vcode) (A : access) (cs : list (x_vpath * list Z)).
  Hypotheses (HV : x_vcode_ok c V) (HA : acc_ok A) (Hf : x_on_vfields c V cs).
  Notation arch0 := (x_riscv_arch sdiv udiv srem urem c V A cs).
  Notation sem0 := (x_vsem sdiv udiv srem urem c A).
  Notation fs0 := (x_vfs sdiv udiv srem urem c V A).
  Definition x_vmappable (i : instr x_vpath mty) : Prop := implementable x_vpath_eqb mty_const mty_vals arch0 i fs0 (x_vfv V).
  Definition x_vresult tagd k simple (i : instr x_vpath mty) (o : outcome (var x_vpath)) : Prop :=
    answer x_vpath_eqb mty_eqb mty_const mty_vals arch0 i k tagd simple o.

  Lemma x_v_nd : NoDup (map fst cs).
  Proof. exact (proj1 Hf). Qed.
  Lemma x_v_incl : incl (map fst cs) (map fst (x_vconsts c V)).
  Proof. intros p I. apply in_map_iff in I as ((p' & zs) & <- & I). exact (proj1 (proj2 Hf _ _ I)). Qed.
  Lemma x_v_constr : constr_ok mty_vals arch0.
  Proof.
    intros p zs I. destruct (proj2 Hf _ _ I) as (X & N & B). split; [exact N|]. intros t z It Iz. cbn [x_riscv_arch a_in] in It.
    assert (Ic : In (p, t) (x_vconsts c V)).
    { apply in_map_iff in X as ((p' & t') & E & X). cbn [fst] in E. subst p'.
      pose proof (In_dget x_vpath_eqb x_vpath_eqb_eq _ _ _ (x_v_nodup c V) It) as Y.
      pose proof (In_dget x_vpath_eqb x_vpath_eqb_eq _ _ _ (x_v_nodup c V) (in_or_app _ x_vfree _ (or_introl X))) as Z. congruence. }
    destruct (x_const_ty c V HV p t Ic) as (w & -> & _). apply mty_In. exact (B w z Ic Iz).
  Qed.
  Let Hok := x_v_arch_ok sdiv udiv srem urem c V A cs HV x_v_nd x_v_incl.
  Let Hma := x_v_machine sdiv udiv srem urem c V A cs HV x_v_incl.

  Definition x_v_words (pc a b d : Z) (p : x_vpath) : Z := match p with XVPc => pc | XVR1 => a | XVR2 => b | XVRd => d | _ => 0 end.
  Lemma x_v_words_typed pc a b d : word32 pc -> word32 a -> word32 b -> word32 d -> typed mty_vals (a_in arch0) (x_v_words pc a b d).
  Proof.
    intros Wp Wa Wb Wd p t I. apply mty_In. cbn [x_riscv_arch a_in] in I. apply in_app_or in I as [I|I].
    - destruct (x_const_ty c V HV p t I) as (w & -> & B). pose proof (pow2_pos w B).
      assert (E : x_v_words pc a b d p = 0).
      { clear -I. destruct c; cbn in I; repeat (destruct I as [I|I]; [injection I as <- _; reflexivity|]); destruct I. }
      rewrite E. lia.
    - cbn in I. repeat (destruct I as [I|I]; [injection I as <- <-; assumption|]). destruct I.
  Qed.
  Lemma x_v_word_paths p : In (p, MWord) (a_in arch0) <-> x_word_in p.
  Proof.
    unfold x_word_in. cbn [x_riscv_arch a_in]. split.
    - intros I. apply in_app_or in I as [I|I].
      + destruct (x_const_ty c V HV p MWord I) as (w & E & _). discriminate E.
      + cbn in I. repeat (destruct I as [I|I]; [first [discriminate I | injection I as <-; auto]|]). destruct I.
    - intros [->|[->| ->]]; apply in_or_app; right; cbn; auto.
  Qed.
  Lemma x_v_typed_words l : typed mty_vals (a_in arch0) l -> word32 (l XVPc) /\ word32 (l XVR1) /\ word32 (l XVR2) /\ word32 (l XVRd).
  Proof.
    intros T. assert (I : forall e, In e x_vfree -> In e (a_in arch0)) by (intros e I; cbn [x_riscv_arch a_in]; apply in_or_app; now right).
    split; [|split; [|split]].
    - exact (proj1 (word_In MWord _ eq_refl) (T XVPc MWord (I _ (or_introl eq_refl)))).
    - exact (proj1 (word_In MWord _ eq_refl) (T XVR1 MWord (I _ (or_intror (or_introl eq_refl))))).
    - exact (proj1 (word_In MWord _ eq_refl) (T XVR2 MWord (I _ (or_intror (or_intror (or_introl eq_refl)))))).
    - exact (proj1 (word_In MInit _ eq_refl) (T XVRd MInit (I _ (or_intror (or_intror (or_intror (or_introl eq_refl))))))).
  Qed.
  Lemma x_v_out po : In (po, MWord) (a_out arch0) <-> x_word_out po.
  Proof.
    unfold x_word_out. cbn [x_riscv_arch a_out]. split.
    - intros [I|[I|[]]]; injection I as <-; auto.
    - intros [->| ->]; [now left|right; now left].
  Qed.
  Lemma x_v_sel pc a b d p : x_word_in p -> x_v_words pc a b d p = x_sel p pc a b.
  Proof. intros [->|[->| ->]]; reflexivity. Qed.
  Lemma x_v_sel_of (l : x_vpath -> Z) p : x_word_in p -> l p = x_sel p (l XVPc) (l XVR1) (l XVR2).
  Proof. intros [->|[->| ->]]; reflexivity. Qed.
  Lemma x_v_sem m (l : x_vpath -> Z) po : x_word_out po -> sem0 m l po = x_res po (mappable A c m (l XVPc) (l XVR1) (l XVR2) (l XVRd)).
  Proof. intros [->| ->]; reflexivity. Qed.

  (** The function of the two inputs, as a function of the pc and the registers. *)
  Definition x_bin (f : Z -> Z -> Z) (p0 p1 : x_vpath) (pc a b : Z) : Z := f (x_sel p0 pc a b) (x_sel p1 pc a b).
  Definition x_una (f : Z -> Z) (p0 : x_vpath) (pc a b : Z) : Z := f (x_sel p0 pc a b).
  Lemma x_v_does2 f m p0 p1 po : does2 mty_vals arch0 sem0 MWord f m p0 p1 po <->
    x_word_in p0 /\ x_word_in p1 /\ p0 <> p1 /\ x_word_out po /\ x_vgives A m po (x_bin f p0 p1).
  Proof.
    unfold does2. rewrite !x_v_word_paths, x_v_out. split.
    - intros (I0 & I1 & N & Io & E). split; [exact I0|]. split; [exact I1|]. split; [exact N|]. split; [exact Io|].
      intros pc a b d Wp Wa Wb Wd. pose proof (E _ (x_v_words_typed pc a b d Wp Wa Wb Wd)) as X.
      rewrite (x_v_sem m _ po Io), !x_v_sel in X by assumption. symmetry. exact X.
    - intros (I0 & I1 & N & Io & G). split; [exact I0|]. split; [exact I1|]. split; [exact N|]. split; [exact Io|].
      intros l T. destruct (x_v_typed_words l T) as (W0 & W1 & W2 & W3). rewrite (x_v_sem m l po Io), (G _ _ _ _ W0 W1 W2 W3).
      rewrite (x_v_sel_of l p0 I0), (x_v_sel_of l p1 I1). reflexivity.
  Qed.
  Lemma x_v_does1 f m p0 po : does1 mty_vals arch0 sem0 MWord f m p0 po <->
    x_word_in p0 /\ x_word_out po /\ x_vgives A m po (x_una f p0).
  Proof.
    unfold does1. rewrite !x_v_word_paths, x_v_out. split.
    - intros (I0 & Io & E). split; [exact I0|]. split; [exact Io|].
      intros pc a b d Wp Wa Wb Wd. pose proof (E _ (x_v_words_typed pc a b d Wp Wa Wb Wd)) as X.
      rewrite (x_v_sem m _ po Io), !x_v_sel in X by assumption. symmetry. exact X.
    - intros (I0 & Io & G). split; [exact I0|]. split; [exact Io|].
      intros l T. destruct (x_v_typed_words l T) as (W0 & W1 & W2 & W3). rewrite (x_v_sem m l po Io), (G _ _ _ _ W0 W1 W2 W3).
      rewrite (x_v_sel_of l p0 I0). reflexivity.
  Qed.

  Lemma x_v_n01 : XVIn0 <> XVIn1. Proof. discriminate. Qed.
  Lemma x_v_nc2 f q t : In (q, t) (i_in (x_vword2 f)) -> mty_const t = false.
  Proof. cbn. intros [I|[I|[]]]; injection I as <- <-; reflexivity. Qed.
  Lemma x_v_nc1 f q t : In (q, t) (i_in (x_vword1 f)) -> mty_const t = false.
  Proof. cbn. intros [I|[]]; injection I as <- <-; reflexivity. Qed.

  (** A rule exists if and only if some output of an allowed instruction is the
      function of two of the pc and the registers. *)
  Theorem C100_rule f : x_vmappable (x_vword2 f) <-> exists m p0 p1 po, x_vok c V cs m /\
    x_word_in p0 /\ x_word_in p1 /\ p0 <> p1 /\ x_word_out po /\ x_vgives A m po (x_bin f p0 p1).
  Proof.
    unfold x_vmappable. rewrite (machine_iff x_vpath_eqb mty_eqb mty_const x_v_eqs mty_vals arch0 _ _ _ Hok (word2_ok _ _ _ _ f x_v_n01) _ _ _ Hma (x_v_nc2 f)).
    split.
    - intros (m & bnd & obnd & Vm & Pl & Co).
      pose proof (does2_from mty_vals arch0 sem0 XVIn0 XVIn1 XVRes MWord x_v_n01 f m bnd obnd Pl Co) as D. apply x_v_does2 in D. eauto 12.
    - intros (m & p0 & p1 & po & Vm & D).
      destruct (does2_to x_vpath_eqb mty_vals x_vpath_eqb_eq arch0 sem0 XVIn0 XVIn1 XVRes MWord x_v_n01 f m p0 p1 po) as (bnd & obnd & Pl & Co); [now apply x_v_does2|eauto 6].
  Qed.
  Theorem C100_rule1 f : x_vmappable (x_vword1 f) <-> exists m p0 po, x_vok c V cs m /\ x_word_in p0 /\ x_word_out po /\ x_vgives A m po (x_una f p0).
  Proof.
    unfold x_vmappable. rewrite (machine_iff x_vpath_eqb mty_eqb mty_const x_v_eqs mty_vals arch0 _ _ _ Hok (word1_ok _ _ _ f) _ _ _ Hma (x_v_nc1 f)).
    split.
    - intros (m & bnd & obnd & Vm & Pl & Co).
      pose proof (does1_from mty_vals arch0 sem0 XVIn0 XVRes MWord f m bnd obnd Pl Co) as D. apply x_v_does1 in D. eauto 8.
    - intros (m & p0 & po & Vm & D).
      destruct (does1_to mty_vals arch0 sem0 XVIn0 XVRes MWord f m p0 po) as (bnd & obnd & Pl & Co); [now apply x_v_does1|eauto 6].
  Qed.

  (** ** The mapper *)
  Variable tagd : x_vpath -> list Z.
  Hypothesis Ht : x_vtags_ok c V tagd.
  Lemma x_v_vals_ne t : mty_const t = false -> mty_vals t <> [].
  Proof. intros Ct E. pose proof (proj2 (word_In t 0 Ct) ltac:(unfold word32; lia)) as I. rewrite E in I. destruct I. Qed.
  Lemma x_v_inhabited i : (forall q t, In (q, t) (i_in i) -> mty_const t = false) -> inhabited_types mty_vals tagd arch0 i.
  Proof.
    intros N. destruct Ht as (T0 & Tt). split; [intros p t I; exact (x_v_vals_ne t (N p t I))|]. split; [exact T0|].
    intros fi f p z E I. apply x_vform_nth in E as (g & _ & Hg & ->); [|exact HV]. exact (Tt g (p, z) Hg I).
  Qed.
  Lemma x_v_rule_inst i ru m bnd obnd : rule_of mty_const mty_vals arch0 i (x_vfv V) (x_vdecf V) ru m bnd obnd -> x_vrule_inst V ru m.
  Proof.
    intros ((f & l & Ef & T & Vl & K & E) & _). apply x_vform_nth in Ef as (g & Eg & Hg & ->); [|exact HV]. cbn [fst] in K.
    unfold x_vfv, x_vdecf, x_at_form in *. rewrite Eg in *. subst m.
    assert (Ig : x_iform (x_vdec V g l) = g) by (destruct g; reflexivity).
    split; [now rewrite Ig|]. intros p z F. pose proof (x_field_leaf V g l p z F) as L. rewrite (x_field_dec V g l p Vl L) in F. injection F as <-.
    apply in_map_iff in L as ((p' & t) & <- & L). cbn [fst]. apply (K p' t).
    - cbn [x_riscv_arch a_in]. apply in_or_app. left. exact (x_leaves_in c V g _ Hg L).
    - rewrite map_app. apply in_or_app. left. now apply (in_map fst) in L.
    - exact (x_leaves_const V g p' t L).
  Qed.
  (** Missing for C100: the immediate subtraction, which the simulator rejects,
      that both operands are in registers and can be loaded ([C100_full], refuted
      below). A rule found names an allowed instruction, the places of the
      operands and the output; the simulator, with this pc and these registers,
      leaves the result in the destination or continues there. None is answered
      only if no output of an allowed instruction is the function. *)
  Theorem C100_solve_partial k simple f o : x_vresult tagd k simple (x_vword2 f) o ->
    match o with
    | ODone r => exists ru m p0 p1 po, rr_from_solver x_vpath_eqb mty_eqb mty_const k arch0 (x_vword2 f) r = Ok ru /\ x_vok c V cs m /\ x_vrule_inst V ru m /\
        (x_word_in p0 /\ x_word_in p1 /\ p0 <> p1 /\ x_word_out po) /\
        (In (SPath XVIn0, p0) (r_in ru) /\ In (SPath XVIn1, p1) (r_in ru) /\ In (Some XVRes, po) (r_out ru)) /\
        x_vgives A m po (x_bin f p0 p1) /\ (is_subi m = false -> x_vruns m po (x_bin f p0 p1))
    | ONone => forall m p0 p1 po, x_vok c V cs m -> x_word_in p0 -> x_word_in p1 -> p0 <> p1 -> x_word_out po -> ~ x_vgives A m po (x_bin f p0 p1)
    | _ => True
    end.
  Proof.
    intros R. pose proof (machine_solve x_vpath_eqb mty_eqb mty_const x_v_eqs mty_vals arch0 _ _ _ Hok (word2_ok _ _ _ _ f x_v_n01) _ _ _ Hma (x_v_nc2 f)
      k tagd (x_v_arch_ext sdiv udiv srem urem c V A cs HV) (x_v_inhabited _ (x_v_nc2 f)) x_v_constr eq_refl ltac:(discriminate) simple o R) as H.
    destruct o as [r| | |]; auto.
    - destruct H as (ru & m & bnd & obnd & E & Vm & Pl & Co & Ro).
      pose proof (does2_from mty_vals arch0 sem0 XVIn0 XVIn1 XVRes MWord x_v_n01 f m bnd obnd Pl Co) as D. apply x_v_does2 in D.
      exists ru, m, (bnd XVIn0), (bnd XVIn1), (obnd XVRes). split; [exact E|]. split; [exact Vm|]. split; [exact (x_v_rule_inst _ _ _ _ _ Ro)|].
      destruct Ro as (_ & Ri & Rout). destruct D as (I0 & I1 & N & Io & G). split; [repeat (split; [assumption|]); assumption|].
      split; [split; [exact (Ri XVIn0 MWord (or_introl eq_refl))|split; [exact (Ri XVIn1 MWord (or_intror (or_introl eq_refl)))|exact (Rout XVRes MWord (or_introl eq_refl))]]|].
      split; [exact G|]. intros Ns. exact (x_gives_runs A m _ _ HA (proj1 Vm) Ns Io G).
    - intros m p0 p1 po Vm I0 I1 N Io G.
      destruct (does2_to x_vpath_eqb mty_vals x_vpath_eqb_eq arch0 sem0 XVIn0 XVIn1 XVRes MWord x_v_n01 f m p0 p1 po) as (bnd & obnd & Pl & Co).
      { apply x_v_does2. auto. } exact (H m bnd obnd Vm Pl Co).
  Qed.
  Theorem C100_solve1_partial k simple f o : x_vresult tagd k simple (x_vword1 f) o ->
    match o with
    | ODone r => exists ru m p0 po, rr_from_solver x_vpath_eqb mty_eqb mty_const k arch0 (x_vword1 f) r = Ok ru /\ x_vok c V cs m /\ x_vrule_inst V ru m /\
        (x_word_in p0 /\ x_word_out po) /\ (In (SPath XVIn0, p0) (r_in ru) /\ In (Some XVRes, po) (r_out ru)) /\
        x_vgives A m po (x_una f p0) /\ (is_subi m = false -> x_vruns m po (x_una f p0))
    | ONone => forall m p0 po, x_vok c V cs m -> x_word_in p0 -> x_word_out po -> ~ x_vgives A m po (x_una f p0)
    | _ => True
    end.
  Proof.
    intros R. pose proof (machine_solve x_vpath_eqb mty_eqb mty_const x_v_eqs mty_vals arch0 _ _ _ Hok (word1_ok _ _ _ f) _ _ _ Hma (x_v_nc1 f)
      k tagd (x_v_arch_ext sdiv udiv srem urem c V A cs HV) (x_v_inhabited _ (x_v_nc1 f)) x_v_constr eq_refl ltac:(discriminate) simple o R) as H.
    destruct o as [r| | |]; auto.
    - destruct H as (ru & m & bnd & obnd & E & Vm & Pl & Co & Ro).
      pose proof (does1_from mty_vals arch0 sem0 XVIn0 XVRes MWord f m bnd obnd Pl Co) as D. apply x_v_does1 in D.
      exists ru, m, (bnd XVIn0), (obnd XVRes). split; [exact E|]. split; [exact Vm|]. split; [exact (x_v_rule_inst _ _ _ _ _ Ro)|].
      destruct Ro as (_ & Ri & Rout). destruct D as (I0 & Io & G). split; [split; assumption|].
      split; [split; [exact (Ri XVIn0 MWord (or_introl eq_refl))|exact (Rout XVRes MWord (or_introl eq_refl))]|].
      split; [exact G|]. intros Ns. exact (x_gives_runs A m _ _ HA (proj1 Vm) Ns Io G).
    - intros m p0 po Vm I0 Io G.
      destruct (does1_to mty_vals arch0 sem0 XVIn0 XVRes MWord f m p0 po) as (bnd & obnd & Pl & Co).
      { apply x_v_does1. auto. } exact (H m bnd obnd Vm Pl Co).
  Qed.
  Theorem C100_found k simple f : x_vmappable (x_vword2 f) ->
    exists y phi, built_with x_vpath_eqb mty_eqb mty_const arch0 (x_vword2 f) k simple = Ok (BForm y phi) /\
      forall fo, forall_ok (dom x_vpath_eqb mty_eqb mty_vals tagd k arch0 (x_vword2 f)) fo ->
        exists r, direct_solve fo y (mkform (vars_of arch0 (x_vword2 f)) phi) = ODone r.
  Proof.
    intros M. apply (machine_iff x_vpath_eqb mty_eqb mty_const x_v_eqs mty_vals arch0 _ _ _ Hok (word2_ok _ _ _ _ f x_v_n01) _ _ _ Hma (x_v_nc2 f)) in M.
    destruct M as (m & bnd & obnd & Vm & Pl & Co).
    exact (machine_found x_vpath_eqb mty_eqb mty_const x_v_eqs mty_vals arch0 _ _ _ Hok (word2_ok _ _ _ _ f x_v_n01) _ _ _ Hma (x_v_nc2 f)
      k tagd (x_v_arch_ext sdiv udiv srem urem c V A cs HV) (x_v_inhabited _ (x_v_nc2 f)) x_v_constr eq_refl ltac:(discriminate) simple m bnd obnd Vm Pl Co).
  Qed.
  End Rules.
End Cores.
(** ** Functions of one word and of two words *)
Definition x_new (i : inst) : bool := match i with OP _ (aMulDiv _) | Ext _ _ => true | _ => false end.
Lemma x_isa_base c i : in_isa c i -> x_new i = false -> in_isa Base32 i.
Proof. destruct i as [d [t|t|t]|[d t|d t]|d|d|d|d|d t|d t|d t|d t]; cbn [in_isa x_new]; try discriminate; auto. Qed.
Lemma x_isa_any c i : in_isa Base32 i -> in_isa c i.
Proof.
  destruct i as [d [t|t|t]|[d t|d t]|d|d|d|d|d t|d t|d t|d t]; cbn [in_isa]; auto.
  - intros (_ & _ & _ & E). discriminate E.
  - intros (_ & _ & E). discriminate E.
Qed.

Lemma some_inj (x y : Z) : Some x = Some y -> x = y.
Proof. congruence. Qed.

Section Which.
  Variables sdiv udiv srem urem : Z -> Z -> Z.
  Hypothesis div_words : forall a b, fit 32 (sdiv a b) /\ fit 32 (udiv a b) /\ fit 32 (srem a b) /\ fit 32 (urem a b).
  Notation x_rv_val := (x_rv_val sdiv udiv srem urem).
  Notation x_mul := (x_mul sdiv udiv srem urem).

  (** What the eight operations of riscv_m compute: the low word of the product,
      the high words of the signed, unsigned and mixed products, and the division
      operations of hwtypes. *)
  Definition eight : list (Z -> Z -> Z) :=
    [(fun x y => (x * y) mod W); (fun x y => ((sg 32 x * sg 32 y) / W) mod W); (fun x y => (x * y) / W); (fun x y => ((sg 32 x * y) / W) mod W);
     sdiv; udiv; srem; urem].
  (** What the three operations of riscv_ext compute: ones, leading
      zeros and trailing zeros of the 32 bits (RiscvSpec). *)
  Definition counts : list (Z -> Z) := map sp_bits [POPCNT; CNTLZ; CNTTZ].
  Definition same1 (f g : Z -> Z) : Prop := forall a, word32 a -> f a = g a.
  Definition same2 (f g : Z -> Z -> Z) : Prop := forall a b, word32 a -> word32 b -> f a b = g a b.
  (** Functions of one word computed by one instruction of the core: those of the
      base core, one of the eight with register 0 for an operand, or a count. *)
  Definition x_one_in (c : core) (f : Z -> Z) : Prop :=
    is_one f \/
    c = CoreM /\ (exists g, In g eight /\ (same1 f (fun a => g a 0) \/ same1 f (fun b => g 0 b) \/ same1 f (fun _ => g 0 0))) \/
    c = CoreExt /\ exists g, In g counts /\ same1 f g.
  Definition x_two_in (c : core) (f : Z -> Z -> Z) : Prop :=
    two_in f \/
    c = CoreM /\ (exists g, In g eight /\ (same2 f g \/ same2 f (rv_flip g))) \/
    exists h, x_one_in c h /\ (same2 f (fun a _ => h a) \/ same2 f (fun _ b => h b)).

  Lemma eight_mul t : In (x_mul t) eight.
  Proof. destruct t; cbn [eight RiscvMapXProps.x_mul In]; tauto. Qed.
  Lemma mul_eight g : In g eight -> exists t, g = x_mul t.
  Proof.
    unfold eight. intros Ig. repeat (destruct Ig as [<-|Ig]); [.. |destruct Ig]; [exists MUL|exists MULH|exists MULHU|exists MULHSU|exists DIV|exists DIVU|exists REM|exists REMU]; reflexivity.
  Qed.
  Lemma counts_bits t : In (sp_bits t) counts.
  Proof. unfold counts. apply in_map. destruct t; cbn [In]; tauto. Qed.
  Lemma bits_counts g : In g counts -> exists t, g = sp_bits t.
  Proof. unfold counts. intros Ig. apply in_map_iff in Ig as (t & E & _). exists t. now symmetry. Qed.
  Lemma x_val_base i a b : x_new i = false -> x_rv_val i a b = rv_val i a b.
  Proof. destruct i as [d [t|t|t]|[d t|d t]|d|d|d|d|d t|d t|d t|d t]; try discriminate; reflexivity. Qed.
  Lemma bits0_one t : is_one (fun _ => sp_bits t 0).
  Proof. destruct t; [apply (low_one _ 0)|apply (low_one _ 32)|apply (low_one _ 32)]; try lia; vm_compute; reflexivity. Qed.

  Lemma x_val_left c m f : in_isa c m -> (forall a, word32 a -> x_rv_val m a 0 = Some (f a)) -> x_one_in c f.
  Proof.
    intros Hi E. destruct (x_new m) eqn:N.
    - destruct m as [x [t|t|t]|[x t|x t]|x|x|x|x|x t|x t|x t|x t]; try discriminate N; cbn [RiscvMapXProps.x_rv_val] in E.
      + right. left. split; [apply Hi|]. exists (x_mul t). split; [apply eight_mul|].
        assert (P0 : rpick (r_rs2 x) 0 = 0) by (unfold rpick; destruct (_ =? 0); reflexivity). rewrite P0 in E. unfold rpick in E. destruct (r_rs1 x =? 0).
        * right. right. intros a Wa. exact (eq_sym (some_inj _ _ (E a Wa))).
        * left. intros a Wa. exact (eq_sym (some_inj _ _ (E a Wa))).
      + unfold rpick in E. destruct (e_rs x =? 0).
        * left. apply (is_one_ext _ _ (bits0_one t)). intros a Wa. exact (eq_sym (some_inj _ _ (E a Wa))).
        * right. right. split; [apply Hi|]. exists (sp_bits t). split; [apply counts_bits|]. intros a Wa. exact (eq_sym (some_inj _ _ (E a Wa))).
    - left. apply (val_left m f (x_isa_base c m Hi N)). intros a Wa. rewrite <- (E a Wa). symmetry. now apply x_val_base.
  Qed.
  Lemma x_val_right c m f : in_isa c m -> (forall b, word32 b -> x_rv_val m 0 b = Some (f b)) -> x_one_in c f.
  Proof.
    intros Hi E. destruct (x_new m) eqn:N.
    - destruct m as [x [t|t|t]|[x t|x t]|x|x|x|x|x t|x t|x t|x t]; try discriminate N; cbn [RiscvMapXProps.x_rv_val] in E.
      + right. left. split; [apply Hi|]. exists (x_mul t). split; [apply eight_mul|].
        assert (P0 : rpick (r_rs1 x) 0 = 0) by (unfold rpick; destruct (_ =? 0); reflexivity). rewrite P0 in E. unfold rpick in E. destruct (r_rs2 x =? 0).
        * right. right. intros a Wa. exact (eq_sym (some_inj _ _ (E a Wa))).
        * right. left. intros a Wa. exact (eq_sym (some_inj _ _ (E a Wa))).
      + assert (P0 : rpick (e_rs x) 0 = 0) by (unfold rpick; destruct (_ =? 0); reflexivity). rewrite P0 in E.
        left. apply (is_one_ext _ _ (bits0_one t)). intros a Wa. exact (eq_sym (some_inj _ _ (E a Wa))).
    - left. apply (val_right m f (x_isa_base c m Hi N)). intros a Wa. rewrite <- (E a Wa). symmetry. now apply x_val_base.
  Qed.
  Lemma x_val_two c m f : in_isa c m -> (forall a b, word32 a -> word32 b -> x_rv_val m a b = Some (f a b)) -> x_two_in c f.
  Proof.
    intros Hi E. assert (W0 : word32 0) by (unfold word32; lia).
    assert (L : (forall a b, x_rv_val m a b = x_rv_val m a 0) -> x_two_in c f).
    { intros K. right. right. exists (fun a => f a 0). split; [exact (x_val_left c m _ Hi (fun a Wa => E a 0 Wa W0))|]. left.
      intros a b Wa Wb. pose proof (E a b Wa Wb) as X. rewrite K in X. pose proof (E a 0 Wa W0). congruence. }
    assert (R : (forall a b, x_rv_val m a b = x_rv_val m 0 b) -> x_two_in c f).
    { intros K. right. right. exists (fun b => f 0 b). split; [exact (x_val_right c m _ Hi (fun b Wb => E 0 b W0 Wb))|]. right.
      intros a b Wa Wb. pose proof (E a b Wa Wb) as X. rewrite K in X. pose proof (E 0 b W0 Wb). congruence. }
    destruct (x_new m) eqn:N.
    - destruct m as [x [t|t|t]|[x t|x t]|x|x|x|x|x t|x t|x t|x t]; try discriminate N; cbn [RiscvMapXProps.x_rv_val] in *; [|apply L; reflexivity].
      destruct (Z.eqb_spec (r_rs1 x) 0) as [Q1|Q1]; [apply R; intros a b; rewrite Q1; reflexivity|].
      destruct (Z.eqb_spec (r_rs2 x) 0) as [Q2|Q2]; [apply L; intros a b; rewrite Q2; reflexivity|].
      right. left. split; [apply Hi|]. exists (x_mul t). split; [apply eight_mul|]. left. intros a b Wa Wb. specialize (E a b Wa Wb).
      unfold rpick in E. rewrite (proj2 (Z.eqb_neq _ _) Q1), (proj2 (Z.eqb_neq _ _) Q2) in E. congruence.
    - left. apply (val_two m f (x_isa_base c m Hi N)). intros a b Wa Wb. rewrite <- (E a b Wa Wb). symmetry. now apply x_val_base.
  Qed.
  Lemma x_two_flip c f : x_two_in c (rv_flip f) -> x_two_in c f.
  Proof.
    intros [T|[(Ec & g & Ig & [E|E])|(h & Ih & [E|E])]].
    - left. now apply two_flip.
    - right. left. split; [exact Ec|]. exists g. split; [exact Ig|]. right. intros a b Wa Wb. exact (E b a Wb Wa).
    - right. left. split; [exact Ec|]. exists g. split; [exact Ig|]. left. intros a b Wa Wb. exact (E b a Wb Wa).
    - right. right. exists h. split; [exact Ih|]. right. intros a b Wa Wb. exact (E b a Wb Wa).
    - right. right. exists h. split; [exact Ih|]. left. intros a b Wa Wb. exact (E b a Wb Wa).
  Qed.

  (** An instruction for each of them. *)
  Lemma base_inst c m (f : Z -> Z -> Z) : in_isa Base32 m -> (forall a b, word32 a -> word32 b -> rv_val m a b = Some (f a b)) ->
    in_isa c m /\ forall a b, word32 a -> word32 b -> x_rv_val m a b = Some (f a b).
  Proof.
    intros Hi E. split; [now apply x_isa_any|]. intros a b Wa Wb. rewrite x_val_base; [auto|].
    destruct m as [x [t|t|t]|[x t|x t]|x|x|x|x|x t|x t|x t|x t]; try reflexivity; exfalso; [destruct Hi as (_ & _ & _ & Hi)|destruct Hi as (_ & _ & Hi)]; discriminate Hi.
  Qed.
  Lemma mul_isa r1 r2 t : fit 5 r1 -> fit 5 r2 -> in_isa CoreM (OP (mkR 3 r1 r2) (aMulDiv t)).
  Proof. intros F1 F2. split; [unfold fit; cbn; lia|]. split; [exact F1|]. split; [exact F2|reflexivity]. Qed.
  Lemma x_one_inst c f : x_one_in c f -> exists m, in_isa c m /\ rv_dst m <> 0 /\
    ((forall a b, word32 a -> word32 b -> x_rv_val m a b = Some (f a)) \/ (forall a b, word32 a -> word32 b -> x_rv_val m a b = Some (f b))).
  Proof.
    assert (F0 : fit 5 0) by (unfold fit; cbn; lia). assert (F1 : fit 5 1) by (unfold fit; cbn; lia). assert (F2 : fit 5 2) by (unfold fit; cbn; lia).
    intros [(h & Ih & E)|[(-> & g & Ig & E)|(-> & g & Ig & E)]].
    - destruct (one_inst h Ih) as (m & Hi & D & [Em|Em]); exists m.
      + destruct (base_inst c m (fun a _ => h a) Hi Em) as (Hc & Ec). split; [exact Hc|]. split; [exact D|]. left. intros a b Wa Wb. rewrite (Ec a b Wa Wb), E by exact Wa. reflexivity.
      + destruct (base_inst c m (fun _ b => h b) Hi Em) as (Hc & Ec). split; [exact Hc|]. split; [exact D|]. right. intros a b Wa Wb. rewrite (Ec a b Wa Wb), E by exact Wb. reflexivity.
    - destruct (mul_eight g Ig) as (t & ->). destruct E as [E|[E|E]].
      + exists (OP (mkR 3 1 0) (aMulDiv t)). split; [now apply mul_isa|]. split; [discriminate|]. left. intros a b Wa Wb. rewrite E by exact Wa. reflexivity.
      + exists (OP (mkR 3 0 2) (aMulDiv t)). split; [now apply mul_isa|]. split; [discriminate|]. right. intros a b Wa Wb. rewrite E by exact Wb. reflexivity.
      + exists (OP (mkR 3 0 0) (aMulDiv t)). split; [now apply mul_isa|]. split; [discriminate|]. left. intros a b Wa Wb. rewrite E by exact Wa. reflexivity.
    - destruct (bits_counts g Ig) as (t & ->). exists (Ext (mkE 3 1) t). split; [split; [unfold fit; cbn; lia|]; split; [exact F1|reflexivity]|]. split; [discriminate|].
      left. intros a b Wa Wb. rewrite E by exact Wa. reflexivity.
  Qed.
  Lemma x_two_inst c f : x_two_in c f -> exists m, in_isa c m /\ rv_dst m <> 0 /\
    ((forall a b, word32 a -> word32 b -> x_rv_val m a b = Some (f a b)) \/ (forall a b, word32 a -> word32 b -> x_rv_val m a b = Some (f b a))).
  Proof.
    assert (K : forall h, x_one_in c h -> (same2 f (fun a _ => h a) \/ same2 f (fun _ b => h b)) -> exists m, in_isa c m /\ rv_dst m <> 0 /\
      ((forall a b, word32 a -> word32 b -> x_rv_val m a b = Some (f a b)) \/ (forall a b, word32 a -> word32 b -> x_rv_val m a b = Some (f b a)))).
    { intros h Ih E. destruct (x_one_inst c h Ih) as (m & Hi & D & Em). exists m. split; [exact Hi|]. split; [exact D|].
      destruct Em as [Em|Em], E as [E|E]; [left|right|right|left]; intros a b Wa Wb; rewrite Em by assumption; f_equal; symmetry; first [exact (E a b Wa Wb)|exact (E b a Wb Wa)]. }
    assert (F1 : fit 5 1) by (unfold fit; cbn; lia). assert (F2 : fit 5 2) by (unfold fit; cbn; lia).
    intros [[(g & Ig & E)|(h & Ih & E)]|[(-> & g & Ig & E)|(h & Ih & E)]].
    - destruct (ten_inst g Ig) as (m & Hi & D & Em). destruct (base_inst c m g Hi (fun a b _ _ => Em a b)) as (Hc & Ec). exists m. split; [exact Hc|]. split; [exact D|].
      destruct E as [E|E]; [left|right]; intros a b Wa Wb; rewrite Ec by assumption; f_equal; symmetry; [exact (E a b Wa Wb)|exact (E b a Wb Wa)].
    - apply (K h); [left; exists h; split; [exact Ih|reflexivity]|exact E].
    - destruct (mul_eight g Ig) as (t & ->). exists (OP (mkR 3 1 2) (aMulDiv t)). split; [now apply mul_isa|]. split; [discriminate|].
      destruct E as [E|E]; [left|right]; intros a b Wa Wb; cbn [RiscvMapXProps.x_rv_val rpick r_rs1 r_rs2 Z.eqb]; f_equal; symmetry; [exact (E a b Wa Wb)|exact (E b a Wb Wa)].
    - exact (K h Ih E).
  Qed.

  (** ** Which functions have rules *)
  Variables (c : core) (V : x_vcode) (A : access).
  Hypotheses (HV : x_vcode_ok c V) (HA : acc_ok A).
  Notation x_vmappable := (x_vmappable sdiv udiv srem urem c).
  Notation x_vgives := (x_vgives sdiv udiv srem urem c).
  Notation x_vruns := (x_vruns sdiv udiv srem urem c).
  Lemma x_v_no_constr : x_on_vfields c V [].
  Proof. split; [constructor|]. intros p zs []. Qed.
  Lemma x_vok_free m : x_vok c V [] m <-> in_isa c m.
  Proof. split; [now intros []|]. intros Hi. split; [exact Hi|]. intros p zs z []. Qed.

  (** The pc is a word here, so a rule may also bind an operand to it, or the
      result to the next pc: x plus a multiple of 4096 (AUIPC), x plus an even
      number (JAL, and pc + 4), x plus an offset with the last bit cleared (JALR),
      and a branch on the other operand. *)
  Definition x_off (s : Z) : Prop := (exists k, 0 <= k < 1048576 /\ s = k * 4096) \/ (exists j, -524288 <= j < 524288 /\ s = 2 * j).
  Definition x_jump (h : Z -> Z) : Prop :=
    (exists s, x_off s /\ same1 h (fun x => (x + s) mod W)) \/
    (exists s, -2048 <= s < 2048 /\ same1 h (fun x => 2 * (((x + s) mod W) / 2))).
  Definition x_branch (f : Z -> Z -> Z) : Prop := exists t s, -2048 <= s < 2048 /\
    (same2 f (fun p x => if sp_cond t x 0 then (p + 2 * s) mod W else (p + 4) mod W) \/
     same2 f (fun p x => if sp_cond t 0 x then (p + 2 * s) mod W else (p + 4) mod W)).
  Definition x_one_all (f : Z -> Z) : Prop := x_one_in c f \/ x_jump f.
  Definition x_two_all (f : Z -> Z -> Z) : Prop :=
    x_two_in c f \/ (exists h, x_jump h /\ (same2 f (fun a _ => h a) \/ same2 f (fun _ b => h b))) \/ x_branch f \/ x_branch (rv_flip f).

  Lemma x_off_4 : x_off 4.
  Proof. right. exists 2. lia. Qed.
  Lemma x_off_ne s : (0 + s) mod W <> (1 + s) mod W.
  Proof.
    intros E. assert (X : ((1 + s) - (0 + s)) mod W = 0).
    { rewrite Zminus_mod, E, Z.sub_diag. reflexivity. }
    replace ((1 + s) - (0 + s)) with 1 in X by lia. discriminate X.
  Qed.
  Lemma x_even_ne s : 2 * (((0 + s) mod W) / 2) <> 2 * (((2 + s) mod W) / 2).
  Proof. unfold W. intros E. Z.to_euclidean_division_equations. lia. Qed.
  Lemma x_even_low s : -2048 <= s < 2048 -> is_one (fun _ => 2 * (((0 + s) mod W) / 2)).
  Proof. intros R. apply (low_one _ (2 * (s / 2))); unfold W; Z.to_euclidean_division_equations; lia. Qed.
  Lemma x_pick0 r : rpick r 0 = 0.
  Proof. unfold rpick. destruct (r =? 0); reflexivity. Qed.

  (** The four shapes of an output of the wrapper. *)
  Lemma x_shape m po F : in_isa c m -> x_word_out po -> x_vgives A m po F ->
    (exists s, x_off s /\ forall pc a b, word32 pc -> word32 a -> word32 b -> F pc a b = (pc + s) mod W) \/
    (forall pc a b, word32 pc -> word32 a -> word32 b -> x_rv_val m a b = Some (F pc a b)) \/
    (exists r s, -2048 <= s < 2048 /\ forall pc a b, word32 pc -> word32 a -> word32 b -> F pc a b = 2 * (((rpick r a + s) mod W) / 2)) \/
    (exists t r1 r2 s, -2048 <= s < 2048 /\ forall pc a b, word32 pc -> word32 a -> word32 b ->
       F pc a b = if sp_cond t (rpick r1 a) (rpick r2 b) then (pc + 2 * s) mod W else (pc + 4) mod W).
  Proof.
    intros Hi Io G. assert (W0 : word32 0) by (unfold word32; lia). destruct Io as [->| ->].
    - pose proof (proj1 (x_gives_next sdiv udiv srem urem div_words c A m F HA Hi) G) as G'. clear G. rename G' into G.
      assert (P : (forall pc a b, x_next m pc a b = (pc + 4) mod W) -> exists s, x_off s /\ forall pc a b, word32 pc -> word32 a -> word32 b -> F pc a b = (pc + s) mod W).
      { intros K. exists 4. split; [exact x_off_4|]. intros pc a b Wp Wa Wb. rewrite <- (G pc a b Wp Wa Wb). apply K. }
      destruct m as [x t|x|x|x|x|x|x t|x t|x t|x t]; try (left; apply P; reflexivity).
      + left. exists (2 * sg 20 (j_imm x)). split; [|intros pc a b Wp Wa Wb; symmetry; exact (G pc a b Wp Wa Wb)].
        right. exists (sg 20 (j_imm x)). split; [|reflexivity]. destruct Hi as (_ & Hi). exact (sg_range 20 _ ltac:(lia) Hi).
      + right. right. left. exists (i_rs1 x), (sg 12 (i_imm x)). destruct Hi as (_ & _ & Hi). split; [exact (sg12_range _ Hi)|].
        intros pc a b Wp Wa Wb. symmetry. exact (G pc a b Wp Wa Wb).
      + right. right. right. exists t, (b_rs1 x), (b_rs2 x), (sg 12 (b_imm x)). destruct Hi as (_ & _ & Hi). split; [exact (sg12_range _ Hi)|].
        intros pc a b Wp Wa Wb. symmetry. exact (G pc a b Wp Wa Wb).
    - apply x_gives_out in G as (_ & E); auto.
      destruct m as [x t|x|x|x|x|x|x t|x t|x t|x t]; try (right; left; exact E); left.
      + exists (u_imm x * 4096). split; [|intros pc a b Wp Wa Wb; exact (eq_sym (some_inj _ _ (E pc a b Wp Wa Wb)))].
        left. exists (u_imm x). split; [|reflexivity]. destruct Hi as (_ & Hi). exact Hi.
      + exists 4. split; [exact x_off_4|]. intros pc a b Wp Wa Wb. exact (eq_sym (some_inj _ _ (E pc a b Wp Wa Wb))).
      + exists 4. split; [exact x_off_4|]. intros pc a b Wp Wa Wb. exact (eq_sym (some_inj _ _ (E pc a b Wp Wa Wb))).
  Qed.
  Lemma x_cond_const (f : Z -> Z -> Z) (k : bool) s : -2048 <= s < 2048 -> same2 f (fun p _ => if k then (p + 2 * s) mod W else (p + 4) mod W) ->
    exists h, x_jump h /\ same2 f (fun a _ => h a).
  Proof.
    intros R E. exists (fun p => if k then (p + 2 * s) mod W else (p + 4) mod W). split; [|exact E]. left. destruct k.
    - exists (2 * s). split; [right; exists s; lia|]. intros a _. reflexivity.
    - exists 4. split; [exact x_off_4|]. intros a _. reflexivity.
  Qed.
  Lemma x_branch_1 f t r s : -2048 <= s < 2048 -> same2 f (fun p x => if sp_cond t (rpick r x) 0 then (p + 2 * s) mod W else (p + 4) mod W) ->
    x_branch f \/ exists h, x_jump h /\ same2 f (fun a _ => h a).
  Proof.
    intros R E. unfold rpick in E. destruct (r =? 0).
    - right. exact (x_cond_const f (sp_cond t 0 0) s R E).
    - left. exists t, s. split; [exact R|]. left. exact E.
  Qed.
  Lemma x_branch_2 f t r s : -2048 <= s < 2048 -> same2 f (fun p x => if sp_cond t 0 (rpick r x) then (p + 2 * s) mod W else (p + 4) mod W) ->
    x_branch f \/ exists h, x_jump h /\ same2 f (fun a _ => h a).
  Proof.
    intros R E. unfold rpick in E. destruct (r =? 0).
    - right. exact (x_cond_const f (sp_cond t 0 0) s R E).
    - left. exists t, s. split; [exact R|]. right. exact E.
  Qed.

  (** Whatever the constraints, a function that has a rule is one of these. *)
  Theorem C100_binary_only cs f : x_on_vfields c V cs -> x_vmappable V A cs (x_vword2 f) -> x_two_all f.
  Proof.
    intros Hf M. assert (W0 : word32 0) by (unfold word32; lia). assert (W1 : word32 1) by (unfold word32; lia). assert (W2 : word32 2) by (unfold word32; lia).
    apply C100_rule in M as (m & p0 & p1 & po & (Hi & _) & I0 & I1 & N & Io & G); auto.
    destruct (x_shape m po _ Hi Io G) as [(s & Os & E)|[E|[(r & s & R & E)|(t & r1 & r2 & s & R & E)]]]; clear G.
    - assert (J : x_jump (fun x => (x + s) mod W)) by (left; exists s; split; [exact Os|intros a _; reflexivity]).
      destruct I0 as [->|[->| ->]], I1 as [->|[->| ->]]; try congruence.
      + right. left. eexists. split; [exact J|]. left. intros x y Wx Wy. exact (E x y 0 Wx Wy W0).
      + right. left. eexists. split; [exact J|]. left. intros x y Wx Wy. exact (E x 0 y Wx W0 Wy).
      + right. left. eexists. split; [exact J|]. right. intros x y Wx Wy. exact (E y x 0 Wy Wx W0).
      + exfalso. apply (x_off_ne s). rewrite <- (E 0 0 0 W0 W0 W0), <- (E 1 0 0 W1 W0 W0). reflexivity.
      + right. left. eexists. split; [exact J|]. right. intros x y Wx Wy. exact (E y 0 x Wy W0 Wx).
      + exfalso. apply (x_off_ne s). rewrite <- (E 0 0 0 W0 W0 W0), <- (E 1 0 0 W1 W0 W0). reflexivity.
    - left. destruct I0 as [->|[->| ->]], I1 as [->|[->| ->]]; try congruence.
      + right. right. exists (fun y => f 0 y). split; [exact (x_val_left c m _ Hi (fun y Wy => E 0 y 0 W0 Wy W0))|]. right.
        intros x y Wx Wy. apply some_inj. exact (eq_trans (eq_sym (E x y 0 Wx Wy W0)) (E 0 y 0 W0 Wy W0)).
      + right. right. exists (fun y => f 0 y). split; [exact (x_val_right c m _ Hi (fun y Wy => E 0 0 y W0 W0 Wy))|]. right.
        intros x y Wx Wy. apply some_inj. exact (eq_trans (eq_sym (E x 0 y Wx W0 Wy)) (E 0 0 y W0 W0 Wy)).
      + right. right. exists (fun x => f x 0). split; [exact (x_val_left c m _ Hi (fun y Wy => E 0 y 0 W0 Wy W0))|]. left.
        intros x y Wx Wy. apply some_inj. exact (eq_trans (eq_sym (E y x 0 Wy Wx W0)) (E 0 x 0 W0 Wx W0)).
      + exact (x_val_two c m f Hi (fun x y Wx Wy => E 0 x y W0 Wx Wy)).
      + right. right. exists (fun x => f x 0). split; [exact (x_val_right c m _ Hi (fun y Wy => E 0 0 y W0 W0 Wy))|]. left.
        intros x y Wx Wy. apply some_inj. exact (eq_trans (eq_sym (E y 0 x Wy W0 Wx)) (E 0 0 x W0 W0 Wx)).
      + apply x_two_flip. exact (x_val_two c m (rv_flip f) Hi (fun x y Wx Wy => E 0 x y W0 Wx Wy)).
    - unfold rpick in E. destruct (r =? 0).
      + left. right. right. exists (fun _ => 2 * (((0 + s) mod W) / 2)). split; [left; exact (x_even_low s R)|]. left. intros x y Wx Wy.
        destruct I0 as [->|[->| ->]], I1 as [->|[->| ->]]; try congruence;
          [exact (E x y 0 Wx Wy W0)|exact (E x 0 y Wx W0 Wy)|exact (E y x 0 Wy Wx W0)|exact (E 0 x y W0 Wx Wy)|exact (E y 0 x Wy W0 Wx)|exact (E 0 y x W0 Wy Wx)].
      + assert (J : x_jump (fun x => 2 * (((x + s) mod W) / 2))) by (right; exists s; split; [exact R|intros a _; reflexivity]).
        destruct I0 as [->|[->| ->]], I1 as [->|[->| ->]]; try congruence.
        * right. left. eexists. split; [exact J|]. right. intros x y Wx Wy. exact (E x y 0 Wx Wy W0).
        * exfalso. apply (x_even_ne s). rewrite <- (E 0 0 0 W0 W0 W0), <- (E 0 2 0 W0 W2 W0). reflexivity.
        * right. left. eexists. split; [exact J|]. left. intros x y Wx Wy. exact (E y x 0 Wy Wx W0).
        * right. left. eexists. split; [exact J|]. left. intros x y Wx Wy. exact (E 0 x y W0 Wx Wy).
        * exfalso. apply (x_even_ne s). rewrite <- (E 0 0 0 W0 W0 W0), <- (E 0 2 0 W0 W2 W0). reflexivity.
        * right. left. eexists. split; [exact J|]. right. intros x y Wx Wy. exact (E 0 y x W0 Wy Wx).
    - right.
      assert (X : p0 <> XVPc -> p1 <> XVPc -> False).
      { intros N0 N1. pose proof (E 0 0 0 W0 W0 W0) as X. pose proof (E 1 0 0 W1 W0 W0) as Y.
        assert (Q : x_bin f p0 p1 0 0 0 = x_bin f p0 p1 1 0 0) by (destruct I0 as [->|[->| ->]], I1 as [->|[->| ->]]; congruence || reflexivity).
        rewrite X, Y in Q. destruct (sp_cond _ _ _); [exact (x_off_ne _ Q)|exact (x_off_ne _ Q)]. }
      assert (L : x_branch f \/ (exists h, x_jump h /\ same2 f (fun a _ => h a)) ->
        (exists h, x_jump h /\ (same2 f (fun a _ => h a) \/ same2 f (fun _ b => h b))) \/ x_branch f \/ x_branch (rv_flip f)).
      { intros [B|(h & J & B)]; [auto|]. left. exists h. auto. }
      assert (Q : x_branch (rv_flip f) \/ (exists h, x_jump h /\ same2 (rv_flip f) (fun a _ => h a)) ->
        (exists h, x_jump h /\ (same2 f (fun a _ => h a) \/ same2 f (fun _ b => h b))) \/ x_branch f \/ x_branch (rv_flip f)).
      { intros [B|(h & J & B)]; [auto|]. left. exists h. split; [exact J|]. right. intros x y Wx Wy. exact (B y x Wy Wx). }
      destruct I0 as [->|[->| ->]], I1 as [->|[->| ->]]; try congruence; try (exfalso; apply X; discriminate).
      + apply L. apply (x_branch_1 f t r1 s R). intros x y Wx Wy. pose proof (E x y 0 Wx Wy W0) as Z. rewrite (x_pick0 r2) in Z. exact Z.
      + apply L. apply (x_branch_2 f t r2 s R). intros x y Wx Wy. pose proof (E x 0 y Wx W0 Wy) as Z. rewrite (x_pick0 r1) in Z. exact Z.
      + apply Q. apply (x_branch_1 _ t r1 s R). intros x y Wx Wy. pose proof (E x y 0 Wx Wy W0) as Z. rewrite (x_pick0 r2) in Z. exact Z.
      + apply Q. apply (x_branch_2 _ t r2 s R). intros x y Wx Wy. pose proof (E x 0 y Wx W0 Wy) as Z. rewrite (x_pick0 r1) in Z. exact Z.
  Qed.
  Theorem C100_unary_only cs f : x_on_vfields c V cs -> x_vmappable V A cs (x_vword1 f) -> x_one_all f.
  Proof.
    intros Hf M. assert (W0 : word32 0) by (unfold word32; lia). assert (W1 : word32 1) by (unfold word32; lia). assert (W2 : word32 2) by (unfold word32; lia).
    apply C100_rule1 in M as (m & p0 & po & (Hi & _) & I0 & Io & G); auto.
    destruct (x_shape m po _ Hi Io G) as [(s & Os & E)|[E|[(r & s & R & E)|(t & r1 & r2 & s & R & E)]]]; clear G.
    - destruct I0 as [->|[->| ->]].
      + right. left. exists s. split; [exact Os|]. intros x Wx. exact (E x 0 0 Wx W0 W0).
      + exfalso. apply (x_off_ne s). rewrite <- (E 0 0 0 W0 W0 W0), <- (E 1 0 0 W1 W0 W0). reflexivity.
      + exfalso. apply (x_off_ne s). rewrite <- (E 0 0 0 W0 W0 W0), <- (E 1 0 0 W1 W0 W0). reflexivity.
    - left. destruct I0 as [->|[->| ->]].
      + exact (x_val_left c m f Hi (fun x Wx => E x x 0 Wx Wx W0)).
      + exact (x_val_left c m f Hi (fun x Wx => E 0 x 0 W0 Wx W0)).
      + exact (x_val_right c m f Hi (fun x Wx => E 0 0 x W0 W0 Wx)).
    - unfold rpick in E. destruct (r =? 0).
      + left. left. apply (is_one_ext _ _ (x_even_low s R)). intros x Wx.
        destruct I0 as [->|[->| ->]]; [exact (E x 0 0 Wx W0 W0)|exact (E 0 x 0 W0 Wx W0)|exact (E 0 0 x W0 W0 Wx)].
      + destruct I0 as [->|[->| ->]].
        * exfalso. apply (x_even_ne s). rewrite <- (E 0 0 0 W0 W0 W0), <- (E 0 2 0 W0 W2 W0). reflexivity.
        * right. right. exists s. split; [exact R|]. intros x Wx. exact (E 0 x 0 W0 Wx W0).
        * exfalso. apply (x_even_ne s). rewrite <- (E 0 0 0 W0 W0 W0), <- (E 0 2 0 W0 W2 W0). reflexivity.
    - destruct I0 as [->|[->| ->]].
      + assert (S : same2 (fun p _ => f p) (fun p _ => if sp_cond t 0 0 then (p + 2 * s) mod W else (p + 4) mod W)).
        { intros x y Wx _. pose proof (E x 0 0 Wx W0 W0) as Z. rewrite !x_pick0 in Z. exact Z. }
        destruct (x_cond_const _ _ s R S) as (h & J & B). right.
        destruct J as [(s' & Os & J)|(s' & R' & J)]; [left|right]; exists s'; (split; [assumption|]); intros x Wx; rewrite <- (J x Wx); exact (B x 0 Wx W0).
      + exfalso. pose proof (E 0 0 0 W0 W0 W0) as X. pose proof (E 1 0 0 W1 W0 W0) as Y. assert (Q : x_una f XVR1 0 0 0 = x_una f XVR1 1 0 0) by reflexivity.
        rewrite X, Y in Q. destruct (sp_cond _ _ _); exact (x_off_ne _ Q).
      + exfalso. pose proof (E 0 0 0 W0 W0 W0) as X. pose proof (E 1 0 0 W1 W0 W0) as Y. assert (Q : x_una f XVR2 0 0 0 = x_una f XVR2 1 0 0) by reflexivity.
        rewrite X, Y in Q. destruct (sp_cond _ _ _); exact (x_off_ne _ Q).
  Qed.
  Lemma enc20 s : -524288 <= s < 524288 -> fit 20 (s mod 1048576) /\ sg 20 (s mod 1048576) = s.
  Proof.
    intros R. split; [apply Z.mod_pos_bound; reflexivity|]. unfold sg. change (2 ^ (20 - 1)) with 524288. change (2 ^ 20) with 1048576.
    destruct (Z.ltb_spec (s mod 1048576) 524288); Z.to_euclidean_division_equations; lia.
  Qed.
  Lemma x_jump_inst h : x_jump h -> exists m p po, in_isa c m /\ x_word_in p /\ p <> XVR2 /\ x_word_out po /\ x_vgives A m po (x_una h p).
  Proof.
    assert (F1 : fit 5 1) by (unfold fit; cbn; lia). assert (F3 : fit 5 3) by (unfold fit; cbn; lia).
    intros [(s & [(k & R & ->)|(j & R & ->)] & E)|(s & R & E)].
    - exists (AUIPC (mkU 3 k)), XVPc, XVOut. assert (Hi : in_isa c (AUIPC (mkU 3 k))) by (split; [exact F3|exact R]).
      split; [exact Hi|]. split; [now left|]. split; [discriminate|]. split; [now right|]. apply x_gives_out; auto. split; [discriminate|].
      intros pc a b Wp Wa Wb. unfold x_una. cbn [x_sel]. rewrite (E pc Wp). reflexivity.
    - destruct (enc20 j R) as (Fj & Ej). exists (JAL (mkJ 3 (j mod 1048576))), XVPc, XVNext.
      assert (Hi : in_isa c (JAL (mkJ 3 (j mod 1048576)))) by (split; [exact F3|exact Fj]).
      split; [exact Hi|]. split; [now left|]. split; [discriminate|]. split; [now left|]. apply (x_gives_next sdiv udiv srem urem div_words c A); [exact HA|exact Hi|].
      intros pc a b Wp Wa Wb. unfold x_una. cbn [x_sel x_next j_imm]. rewrite (E pc Wp), Ej. reflexivity.
    - destruct (enc12 s R) as (Fs & Es). exists (JALR (mkI 3 1 (s mod 4096))), XVR1, XVNext.
      assert (Hi : in_isa c (JALR (mkI 3 1 (s mod 4096)))) by (split; [exact F3|split; [exact F1|exact Fs]]).
      split; [exact Hi|]. split; [right; now left|]. split; [discriminate|]. split; [now left|]. apply (x_gives_next sdiv udiv srem urem div_words c A); [exact HA|exact Hi|].
      intros pc a b Wp Wa Wb. unfold x_una. cbn [x_sel x_next i_imm i_rs1]. rewrite (E a Wa), Es. reflexivity.
  Qed.
  Lemma x_branch_inst f : x_branch f -> exists m p1, in_isa c m /\ (p1 = XVR1 \/ p1 = XVR2) /\ x_vgives A m XVNext (x_bin f XVPc p1).
  Proof.
    assert (F0 : fit 5 0) by (unfold fit; cbn; lia). assert (F1 : fit 5 1) by (unfold fit; cbn; lia). assert (F2 : fit 5 2) by (unfold fit; cbn; lia).
    intros (t & s & R & E). destruct (enc12 s R) as (Fs & Es). destruct E as [E|E].
    - exists (Branch (mkB 1 0 (s mod 4096)) t), XVR1. assert (Hi : in_isa c (Branch (mkB 1 0 (s mod 4096)) t)) by (split; [exact F1|split; [exact F0|exact Fs]]).
      split; [exact Hi|]. split; [now left|]. apply (x_gives_next sdiv udiv srem urem div_words c A); [exact HA|exact Hi|]. intros pc a b Wp Wa Wb. unfold x_bin. cbn [x_sel x_next b_imm b_rs1 b_rs2]. rewrite (E pc a Wp Wa), Es. reflexivity.
    - exists (Branch (mkB 0 2 (s mod 4096)) t), XVR2. assert (Hi : in_isa c (Branch (mkB 0 2 (s mod 4096)) t)) by (split; [exact F0|split; [exact F2|exact Fs]]).
      split; [exact Hi|]. split; [now right|]. apply (x_gives_next sdiv udiv srem urem div_words c A); [exact HA|exact Hi|]. intros pc a b Wp Wa Wb. unfold x_bin. cbn [x_sel x_next b_imm b_rs1 b_rs2]. rewrite (E pc b Wp Wb), Es. reflexivity.
  Qed.
  (** Without constraints they all have rules. *)
  Theorem C100_binary f : x_vmappable V A [] (x_vword2 f) <-> x_two_all f.
  Proof.
    split; [exact (C100_binary_only [] f x_v_no_constr)|]. intros T. apply C100_rule; auto using x_v_no_constr.
    assert (Sel : forall p pc a b, word32 pc -> word32 a -> word32 b -> word32 (x_sel p pc a b)) by (intros []; intros; assumption).
    destruct T as [T|[(h & J & E)|[B|B]]].
    - destruct (x_two_inst c f T) as (m & Hi & D & Em). destruct Em as [Em|Em]; [exists m, XVR1, XVR2, XVOut|exists m, XVR2, XVR1, XVOut];
        (split; [now apply x_vok_free|]); (split; [unfold x_word_in; tauto|]); (split; [unfold x_word_in; tauto|]); (split; [discriminate|]); (split; [now right|]);
        apply x_gives_out; auto; (split; [exact D|]); intros pc a b Wp Wa Wb; pose proof (Em a b Wa Wb) as X;
        (destruct m as [x t|x|x|x|x|x|x t|x t|x t|x t]; first [exact X|discriminate X]).
    - destruct (x_jump_inst h J) as (m & p & po & Hi & Ip & Np & Io & G). destruct E as [E|E]; [exists m, p, XVR2, po|exists m, XVR2, p, po];
        (split; [now apply x_vok_free|]); (split; [unfold x_word_in in *; tauto|]); (split; [unfold x_word_in in *; tauto|]); (split; [congruence|]); (split; [exact Io|]);
        intros pc a b d Wp Wa Wb Wd; rewrite (G pc a b d Wp Wa Wb Wd); symmetry; [exact (E _ _ (Sel p _ _ _ Wp Wa Wb) Wb)|exact (E _ _ Wb (Sel p _ _ _ Wp Wa Wb))].
    - destruct (x_branch_inst f B) as (m & p1 & Hi & Ip & G). exists m, XVPc, p1, XVNext. split; [now apply x_vok_free|]. split; [now left|].
      split; [unfold x_word_in; tauto|]. split; [destruct Ip as [->| ->]; discriminate|]. split; [now left|exact G].
    - destruct (x_branch_inst _ B) as (m & p1 & Hi & Ip & G). exists m, p1, XVPc, XVNext. split; [now apply x_vok_free|]. split; [unfold x_word_in; tauto|].
      split; [now left|]. split; [destruct Ip as [->| ->]; discriminate|]. split; [now left|exact G].
  Qed.
  Theorem C100_unary f : x_vmappable V A [] (x_vword1 f) <-> x_one_all f.
  Proof.
    split; [exact (C100_unary_only [] f x_v_no_constr)|]. intros T. apply C100_rule1; auto using x_v_no_constr. destruct T as [T|J].
    - destruct (x_one_inst c f T) as (m & Hi & D & Em). destruct Em as [Em|Em]; [exists m, XVR1, XVOut|exists m, XVR2, XVOut];
        (split; [now apply x_vok_free|]); (split; [unfold x_word_in; tauto|]); (split; [now right|]);
        apply x_gives_out; auto; (split; [exact D|]); intros pc a b Wp Wa Wb; pose proof (Em a b Wa Wb) as X;
        (destruct m as [x t|x|x|x|x|x|x t|x t|x t|x t]; first [exact X|discriminate X]).
    - destruct (x_jump_inst f J) as (m & p & po & Hi & Ip & _ & Io & G). exists m, p, po. split; [now apply x_vok_free|]. auto.
  Qed.

  (** ** The IR of the mapping tests, with words of 32 bits *)
  Definition x_v_ir32 (o : SmallPeModel.irop) : instr x_vpath mty :=
    if SmallPeModel.unary o then x_vword1 (fun x => SmallPeModel.ir_call 32 o x 0) else x_vword2 (SmallPeModel.ir_call 32 o).
  Definition x_missing : list SmallPeModel.irop :=
    match c with CoreM => [SmallPeModel.Nand; SmallPeModel.Nor] | _ => [SmallPeModel.Nand; SmallPeModel.Nor; SmallPeModel.Mul] end.
  Definition four : list (Z -> Z -> Z) :=
    [(fun x y => (x * y) mod W); (fun x y => ((sg 32 x * sg 32 y) / W) mod W); (fun x y => (x * y) / W); (fun x y => ((sg 32 x * y) / W) mod W)].
  Lemma irop_dec (o o' : SmallPeModel.irop) : {o = o'} + {o <> o'}.
  Proof. decide equality. Qed.
  Lemma x_table : forallb (fun o => forallb (fun g => v_differ (SmallPeModel.ir_call 32 o) g && v_differ (SmallPeModel.ir_call 32 o) (rv_flip g)) four)
    [SmallPeModel.Nand; SmallPeModel.Nor] = true.
  Proof. vm_compute. reflexivity. Qed.
  Lemma x_branch_next f : x_branch f -> f 1 0 = (f 0 0 + 1) mod W.
  Proof.
    assert (W0 : word32 0) by (unfold word32; lia). assert (W1 : word32 1) by (unfold word32; lia).
    assert (K : forall s, (1 + s) mod W = ((0 + s) mod W + 1) mod W) by (intros s; rewrite Z.add_mod_idemp_l by discriminate; f_equal; lia).
    intros (t & s & R & [E|E]); rewrite !E by assumption; destruct (sp_cond t 0 0); apply K.
  Qed.
  (** All of them have rules on riscv_m but Nand and Nor, if 2 / 1 and its
      remainder are right; on riscv_ext Mul has none either. *)
  Theorem C100_small_ir o : sdiv 2 1 = 2 -> udiv 2 1 = 2 -> srem 2 1 = 0 -> urem 2 1 = 0 -> x_vmappable V A [] (x_v_ir32 o) <-> ~ In o x_missing.
  Proof.
    intros D1 D2 D3 D4. assert (W1 : word32 1) by (unfold word32; lia). assert (W2 : word32 2) by (unfold word32; lia).
    assert (Sub : forall o, In o x_missing -> In o v_missing).
    { intros o' J. unfold x_missing in J. unfold v_missing. destruct c; cbn [In] in *; tauto. }
    split.
    - intros M J. pose proof (Sub o J) as J'. assert (U : SmallPeModel.unary o = false) by (destruct J' as [<-|[<-|[<-|[]]]]; reflexivity).
      assert (Dep : forall h, same2 (SmallPeModel.ir_call 32 o) (fun a _ => h a) \/ same2 (SmallPeModel.ir_call 32 o) (fun _ b => h b) -> False).
      { intros h E. destruct (v_missing_dep o J') as (a & b & b' & Wa & Wb & Wb' & N & N'). destruct E as [E|E].
        - apply N. rewrite !E by assumption. reflexivity.
        - apply N'. rewrite !E by assumption. reflexivity. }
      assert (Br : SmallPeModel.ir_call 32 o 1 0 <> (SmallPeModel.ir_call 32 o 0 0 + 1) mod W /\ SmallPeModel.ir_call 32 o 0 1 <> (SmallPeModel.ir_call 32 o 0 0 + 1) mod W).
      { destruct J' as [<-|[<-|[<-|[]]]]; split; vm_compute; discriminate. }
      unfold x_v_ir32 in M. rewrite U in M. apply C100_binary in M as [M|[(h & _ & E)|[B|B]]];
        [|exact (Dep h E)|exact (proj1 Br (x_branch_next _ B))|exact (proj2 Br (x_branch_next _ B))].
      destruct M as [[(g & Ig & E)|(h & Ih & E)]|[(Ec & g & Ig & E)|(h & Ih & E)]].
      + pose proof (proj1 (forallb_forall _ _) (proj1 (forallb_forall _ _) v_table o J') g Ig) as X. cbn beta in X. apply andb_prop in X as (X & Y).
        destruct E as [E|E]; [rewrite (v_differ_no _ _ E) in X; discriminate|]. rewrite (v_differ_no _ (rv_flip g) E) in Y. discriminate.
      + exact (Dep h E).
      + unfold x_missing in J. rewrite Ec in J.
        assert (Df : forall z, In z [0; 2] -> SmallPeModel.ir_call 32 o 2 1 <> z /\ SmallPeModel.ir_call 32 o 1 2 <> z).
        { intros z [<-|[<-|[]]]; destruct J as [<-|[<-|[]]]; split; vm_compute; discriminate. }
        assert (Q : In g four \/ In (g 2 1) [0; 2]).
        { unfold eight in Ig. cbn [four In] in *. destruct Ig as [<-|[<-|[<-|[<-|[<-|[<-|[<-|[<-|[]]]]]]]]]; try tauto; right; rewrite ?D1, ?D2, ?D3, ?D4; tauto. }
        destruct Q as [Q|Q].
        * pose proof (proj1 (forallb_forall _ _) (proj1 (forallb_forall _ _) x_table o J) g Q) as X. cbn beta in X. apply andb_prop in X as (X & Y).
          destruct E as [E|E]; [rewrite (v_differ_no _ _ E) in X; discriminate|]. rewrite (v_differ_no _ (rv_flip g) E) in Y. discriminate.
        * destruct (Df _ Q) as (N & N'). destruct E as [E|E]; [apply N; exact (E 2 1 W2 W1)|apply N'; exact (E 1 2 W1 W2)].
      + exact (Dep h E).
    - intros N. destruct (In_dec irop_dec o v_missing) as [J|J].
      + unfold x_missing in N. assert (Ec : c = CoreM) by (clear -N J; destruct c; try reflexivity; exfalso; apply N; exact J). rewrite Ec in N.
        assert (o = SmallPeModel.Mul) as -> by (destruct J as [<-|[<-|[<-|[]]]]; [exfalso; apply N; cbn; tauto|exfalso; apply N; cbn; tauto|reflexivity]).
        apply C100_binary. left. right. left. split; [exact Ec|]. exists (fun x y => (x * y) mod W). split; [now left|]. left. intros a b _ _. reflexivity.
      + unfold x_v_ir32. assert (B : two_in (SmallPeModel.ir_call 32 o) /\ SmallPeModel.unary o = false \/ is_one (fun x => SmallPeModel.ir_call 32 o x 0) /\ SmallPeModel.unary o = true).
        { assert (K2 : forall g n, nth_error ten n = Some g -> SmallPeModel.unary o = false ->
            (forall a b, word32 a -> word32 b -> SmallPeModel.ir_call 32 o a b = g a b) ->
            two_in (SmallPeModel.ir_call 32 o) /\ SmallPeModel.unary o = false \/ is_one (fun x => SmallPeModel.ir_call 32 o x 0) /\ SmallPeModel.unary o = true).
          { intros g n En U E. left. split; [|exact U]. left. exists g. split; [exact (nth_error_In _ _ En)|]. left. exact E. }
          destruct o; try (exfalso; apply J; cbn; tauto).
          - apply (K2 _ 0%nat eq_refl eq_refl). reflexivity.
          - apply (K2 _ 1%nat eq_refl eq_refl). reflexivity.
          - apply (K2 _ 4%nat eq_refl eq_refl). reflexivity.
          - apply (K2 _ 5%nat eq_refl eq_refl). reflexivity.
          - apply (K2 _ 8%nat eq_refl eq_refl). intros a b Wa Wb. unfold word32 in *. apply bvlshr_eq; lia.
          - apply (K2 _ 7%nat eq_refl eq_refl). intros a b Wa Wb. unfold word32 in *. apply bvshl_eq; lia.
          - right. split; [|reflexivity]. exists (fun x => Z.lxor x (-1 mod W)). split; [apply one_xor; lia|]. intros a Wa. exact (not_xor a Wa).
          - right. split; [|reflexivity]. exists (fun x => (- x) mod W). split; [exact one_neg|]. reflexivity. }
        destruct B as [(B & ->)|(B & ->)]; [apply C100_binary|apply C100_unary]; left; now left.
  Qed.
End Which.

(** ** The immediate subtraction and other registers *)
Lemma x_rpick_iff x x' v : (x = 0 <-> x' = 0) -> rpick x v = rpick x' v.
Proof. intros E. unfold rpick. destruct (Z.eqb_spec x 0), (Z.eqb_spec x' 0); tauto. Qed.
Section Uses.
  Variables sdiv udiv srem urem : Z -> Z -> Z.
  Hypothesis div_words : forall a b, fit 32 (sdiv a b) /\ fit 32 (udiv a b) /\ fit 32 (srem a b) /\ fit 32 (urem a b).
  Variables (c : core) (V : x_vcode) (A : access).
  Hypothesis HA : acc_ok A.
  Notation x_rv_val := (x_rv_val sdiv udiv srem urem).
  Notation x_vgives := (x_vgives sdiv udiv srem urem c).
  Notation x_vruns := (x_vruns sdiv udiv srem urem c).

  (** If a constraint keeps SUB out of the tag of the immediate instructions, no
      rule is one. *)
  Theorem C100_no_subi cs zs m : In (XVFld XGIA XSTag, zs) cs -> ~ In (x_eA V SUB) zs -> x_vok c V cs m -> is_subi m = false.
  Proof.
    intros Ic N (_ & Hc). destruct m as [x t|[x t|x t]|x|x|x|x|x t|x t|x t|x t]; try reflexivity. destruct t; try reflexivity.
    exfalso. exact (N (Hc (XVFld XGIA XSTag) zs _ Ic eq_refl)).
  Qed.
  Definition x_renamed (m m' : inst) : Prop :=
    match m, m' with
    | Ext d t, Ext d' t' => t = t' /\ (e_rd d = 0 <-> e_rd d' = 0) /\ (e_rs d = 0 <-> e_rs d' = 0)
    | AUIPC d, AUIPC d' => (u_rd d = 0 <-> u_rd d' = 0) /\ u_imm d = u_imm d'
    | JAL d, JAL d' => (j_rd d = 0 <-> j_rd d' = 0) /\ j_imm d = j_imm d'
    | JALR d, JALR d' => (i_rd d = 0 <-> i_rd d' = 0) /\ (i_rs1 d = 0 <-> i_rs1 d' = 0) /\ i_imm d = i_imm d'
    | Branch d t, Branch d' t' => t = t' /\ (b_rs1 d = 0 <-> b_rs1 d' = 0) /\ (b_rs2 d = 0 <-> b_rs2 d' = 0) /\ b_imm d = b_imm d'
    | _, _ => rv_renamed m m'
    end.
  (** What a rule says holds for the instruction with other registers, register 0
      apart; in particular with operands in different ones. *)
  Theorem C100_rename m m' po F : in_isa c m -> in_isa c m' -> x_renamed m m' -> x_word_out po -> x_vgives A m po F ->
    x_vgives A m' po F /\ (is_subi m = false -> x_vruns m' po F).
  Proof.
    intros Hi Hi' R Io G.
    assert (K : (rv_dst m = 0 <-> rv_dst m' = 0) /\ (forall pc a b, x_rd sdiv udiv srem urem m' pc a b = x_rd sdiv udiv srem urem m pc a b) /\
      (forall pc a b, x_next m' pc a b = x_next m pc a b) /\ is_subi m' = is_subi m).
    { clear -R. destruct m as [x t|[x t|x t]|x|x|x|x|x t|x t|x t|x t], m' as [x' t'|[x' t'|x' t']|x'|x'|x'|x'|x' t'|x' t'|x' t'|x' t']; cbn [x_renamed rv_renamed] in R; try (exfalso; exact R);
        unfold rv_dst in *; cbn [rd_of x_rd x_next RiscvMapXProps.x_rv_val rv_val is_subi] in *.
      - destruct R as (<- & D & R1 & R2). split; [exact D|]. split; [|split; reflexivity]. intros _ a b.
        rewrite (x_rpick_iff (r_rs1 x) (r_rs1 x') a R1), (x_rpick_iff (r_rs2 x) (r_rs2 x') b R2). reflexivity.
      - destruct R as (<- & D & R1 & R2). split; [exact D|]. split; [|split; reflexivity]. intros _ a b. rewrite (x_rpick_iff (i_rs1 x) (i_rs1 x') a R1), R2. reflexivity.
      - destruct R as (<- & D & R1 & R2). split; [exact D|]. split; [|split; reflexivity]. intros _ a b. rewrite (x_rpick_iff (is_rs1 x) (is_rs1 x') a R1), R2. reflexivity.
      - destruct R as (D & R2). split; [exact D|]. split; [|split; reflexivity]. intros _ a b. now rewrite R2.
      - destruct R as (D & R2). split; [exact D|]. split; [|split; reflexivity]. intros pc a b. now rewrite R2.
      - destruct R as (D & R2). split; [exact D|]. split; [reflexivity|]. split; [|reflexivity]. intros pc a b. now rewrite R2.
      - destruct R as (D & R1 & R2). split; [exact D|]. split; [reflexivity|]. split; [|reflexivity]. intros pc a b. now rewrite (x_rpick_iff (i_rs1 x) (i_rs1 x') a R1), R2.
      - destruct R as (<- & R1 & R2 & R3). split; [reflexivity|]. split; [reflexivity|]. split; [|reflexivity]. intros pc a b.
        now rewrite (x_rpick_iff (b_rs1 x) (b_rs1 x') a R1), (x_rpick_iff (b_rs2 x) (b_rs2 x') b R2), R3.
      - destruct R as (<- & D & R1). split; [exact D|]. split; [|split; reflexivity]. intros _ a b. rewrite (x_rpick_iff (e_rs x) (e_rs x') a R1). reflexivity. }
    destruct K as (Kd & Kv & Kn & Ks).
    assert (G' : x_vgives A m' po F).
    { intros pc a b d Wp Wa Wb Wd. rewrite <- (G pc a b d Wp Wa Wb Wd). rewrite !x_map_all by assumption. rewrite Kv, Kn.
      assert (E : (rv_dst m' =? 0) = (rv_dst m =? 0)) by (destruct (Z.eqb_spec (rv_dst m') 0), (Z.eqb_spec (rv_dst m) 0); tauto). now rewrite E. }
    split; [exact G'|]. intros Ns. apply (x_gives_runs sdiv udiv srem urem div_words c A); auto. congruence.
  Qed.
End Uses.

(** ** The full statement: the instruction of a rule runs on the simulator, and
    its operands can be loaded *)
(** Division as in SMT-LIB, on words. *)
Definition smt_udiv (a b : Z) : Z := if b mod W =? 0 then W - 1 else (a mod W) / (b mod W).
Definition smt_urem (a b : Z) : Z := if b mod W =? 0 then a mod W else (a mod W) mod (b mod W).
Definition smt_sdiv (a b : Z) : Z := if b mod W =? 0 then (if sg 32 (a mod W) <? 0 then 1 else W - 1) else Z.quot (sg 32 (a mod W)) (sg 32 (b mod W)) mod W.
Definition smt_srem (a b : Z) : Z := if b mod W =? 0 then a mod W else Z.rem (sg 32 (a mod W)) (sg 32 (b mod W)) mod W.
Lemma smt_div_words a b : fit 32 (smt_sdiv a b) /\ fit 32 (smt_udiv a b) /\ fit 32 (smt_srem a b) /\ fit 32 (smt_urem a b).
Proof.
  assert (M : forall x, fit 32 (x mod W)) by (intros x; apply Z.mod_pos_bound; reflexivity).
  pose proof (Z.mod_pos_bound a W eq_refl) as Ba. pose proof (Z.mod_pos_bound b W eq_refl) as Bb.
  assert (F1 : fit 32 (W - 1)) by (split; [discriminate|reflexivity]). assert (F2 : fit 32 1) by (split; [discriminate|reflexivity]).
  split; [|split; [|split]].
  - unfold smt_sdiv. destruct (b mod W =? 0); [destruct (_ <? 0); assumption|apply M].
  - unfold smt_udiv. destruct (Z.eqb_spec (b mod W) 0) as [Q|Q]; [exact F1|]. unfold fit. change (2 ^ 32) with W. split.
    + apply Z.div_pos; lia.
    + apply Z.div_lt_upper_bound; [lia|]. nia.
  - unfold smt_srem. destruct (b mod W =? 0); apply M.
  - unfold smt_urem. destruct (Z.eqb_spec (b mod W) 0) as [Q|Q]; [apply M|]. pose proof (Z.mod_pos_bound (a mod W) (b mod W) ltac:(lia)). unfold fit. change (2 ^ 32) with W. lia.
Qed.
Notation x_arch1 := (x_riscv_arch smt_sdiv smt_udiv smt_srem smt_urem).
Notation x_vmappable1 := (x_vmappable smt_sdiv smt_udiv smt_srem smt_urem).
Notation x_vgives1 := (x_vgives smt_sdiv smt_udiv smt_srem smt_urem).
Notation x_vruns1 := (x_vruns smt_sdiv smt_udiv smt_srem smt_urem).
Definition x_a_rule (c : core) (V : x_vcode) (A : access) (cs : list (x_vpath * list Z)) (f : Z -> Z -> Z) (ru : rule x_vpath) (m : inst) : Prop :=
  let a := x_arch1 c V A cs in
  well_formed x_vpath_eqb mty_const a (x_vword2 f) ru /\ valid_consts mty_vals a (x_vfv V) ru /\ allowed_consts a ru /\
  correct_any mty_const mty_vals a (x_vword2 f) (x_vfs smt_sdiv smt_udiv smt_srem smt_urem c V A) ru /\
  exists bnd obnd, rule_of mty_const mty_vals a (x_vword2 f) (x_vfv V) (x_vdecf V) ru m bnd obnd.
(** The simulator runs the instruction of a rule, with both operands in registers
    that can be loaded. *)
Definition C100_full (c : core) : Prop := forall V A cs f ru m, x_vcode_ok c V -> acc_ok A -> x_on_vfields c V cs -> x_a_rule c V A cs f ru m ->
  exists p0 p1 po, In (SPath XVIn0, p0) (r_in ru) /\ In (SPath XVIn1, p1) (r_in ru) /\ In (Some XVRes, po) (r_out ru) /\
    x_vruns1 c m po (x_bin f p0 p1) /\ (p0 <> XVPc /\ p1 <> XVPc) /\
    forall a b, word32 a -> word32 b -> exists rf, rv_loaded rf m a b.

(** Every instruction with an output that is the function is the one of a rule. *)
Lemma x_has_rule c V A f m p0 p1 po : x_vcode_ok c V -> acc_ok A -> in_isa c m ->
  x_word_in p0 -> x_word_in p1 -> p0 <> p1 -> x_word_out po -> x_vgives1 c A m po (x_bin f p0 p1) ->
  exists ru, x_a_rule c V A [] f ru m /\ exists q0 q1 qo, x_word_in q0 /\ x_word_in q1 /\ x_word_out qo /\
    In (SPath XVIn0, q0) (r_in ru) /\ In (SPath XVIn1, q1) (r_in ru) /\ In (Some XVRes, qo) (r_out ru) /\ x_vgives1 c A m qo (x_bin f q0 q1).
Proof.
  intros HV HA Hi I0 I1 N Io G. pose proof (x_v_no_constr c V) as Hf.
  destruct (does2_to x_vpath_eqb mty_vals x_vpath_eqb_eq (x_arch1 c V A []) (x_vsem smt_sdiv smt_udiv smt_srem smt_urem c A) XVIn0 XVIn1 XVRes MWord x_v_n01 f m p0 p1 po) as (bnd & obnd & Pl & Co).
  { apply (x_v_does2 smt_sdiv smt_udiv smt_srem smt_urem c V A [] HV). auto 8. }
  destruct (machine_rule x_vpath_eqb mty_eqb mty_const x_v_eqs mty_vals (x_arch1 c V A []) _ _ _
    (x_v_arch_ok smt_sdiv smt_udiv smt_srem smt_urem c V A [] HV (x_v_nd c V [] Hf) (x_v_incl c V [] Hf)) (word2_ok _ _ _ _ f x_v_n01) _ _ _
    (x_v_machine smt_sdiv smt_udiv smt_srem smt_urem c V A [] HV (x_v_incl c V [] Hf)) (x_v_nc2 f) m bnd obnd (proj2 (x_vok_free c V m) Hi) Pl Co) as (ru & R1 & R2 & R3 & R4 & R5).
  exists ru. split; [split; [exact R1|]; split; [exact R2|]; split; [exact R3|]; split; [exact R4|]; exists bnd, obnd; exact R5|].
  pose proof (does2_from mty_vals _ _ XVIn0 XVIn1 XVRes MWord x_v_n01 f m bnd obnd Pl Co) as D.
  apply (x_v_does2 smt_sdiv smt_udiv smt_srem smt_urem c V A [] HV) in D as (Q0 & Q1 & _ & Qo & Q). destruct R5 as (_ & Ri & Rout).
  exists (bnd XVIn0), (bnd XVIn1), (obnd XVRes). split; [exact Q0|]. split; [exact Q1|]. split; [exact Qo|].
  split; [exact (Ri XVIn0 MWord (or_introl eq_refl))|]. split; [exact (Ri XVIn1 MWord (or_intror (or_introl eq_refl)))|].
  split; [exact (Rout XVRes MWord (or_introl eq_refl))|exact Q].
Qed.

(** Instances: the encodings count from 0; the accessors of C50. *)
Definition x_vcode0 (c : core) : x_vcode :=
  x_mkV (fun t => match t with ADD => 0 | SUB => 1 | SLT => 2 | SLTU => 3 | AND => 4 | OR => 5 | XOR => 6 end) 3
        (fun t => match t with SLL => 0 | SRL => 1 | SRA => 2 end) 2
        (fun t => match t with LB => 0 | LBU => 1 | LH => 2 | LHU => 3 | LW => 4 | LWU => 5 | LD => 6 end) 3
        (fun t => match t with BEQ => 0 | BNE => 1 | BLT => 2 | BLTU => 3 | BGE => 4 | BGEU => 5 end) 3
        (fun t => match t with MUL => 0 | MULH => 1 | MULHU => 2 | MULHSU => 3 | DIV => 4 | DIVU => 5 | REM => 6 | REMU => 7 end) 3
        (fun t => match t with POPCNT => 0 | CNTLZ => 1 | CNTTZ => 2 end) 2
        (fun m => match m with XMOp => 0 | XMImm => 1 | XMLui => 2 | XMAuipc => 3 | XMJal => 4 | XMJalr => 5 | XMBr => 6 | XMLd => 7 | XMSt => 8 | XMExt => 9 end)
        0 1 2 0 1 (filter (x_has c) x_all_forms).
Lemma x_vcode0_ok c : x_vcode_ok c (x_vcode0 c).
Proof.
  split; [split; [intros [] []; cbn; congruence || discriminate|intros []; cbn; lia]|].
  split; [split; [intros [] []; cbn; congruence || discriminate|intros []; cbn; lia]|].
  split; [split; [intros [] []; cbn; congruence || discriminate|intros []; cbn; lia]|].
  split; [split; [intros [] []; cbn; congruence || discriminate|intros []; cbn; lia]|].
  split; [split; [intros [] []; cbn; congruence || discriminate|intros []; cbn; lia]|].
  split; [split; [intros [] []; cbn; congruence || discriminate|intros []; cbn; lia]|].
  split; [intros [] []; cbn; congruence || discriminate|]. split; [discriminate|]. split; [discriminate|]. split; [discriminate|]. split; [discriminate|].
  intros f. split; [|apply x_forms_all]. intros I. cbn [x_vcode0 x_order] in I. now apply filter_In in I.
Qed.

(** A rule for the high word of the product that reads both operands from register 1. *)
Theorem C100_alias_refuted : exists ru, x_a_rule CoreM (x_vcode0 CoreM) acc0 [] (fun x y => (x * y) / W) ru (OP (mkR 3 1 1) (aMulDiv MULHU)) /\
  ~ exists rf, rv_loaded rf (OP (mkR 3 1 1) (aMulDiv MULHU)) 1 2.
Proof.
  assert (Hi : in_isa CoreM (OP (mkR 3 1 1) (aMulDiv MULHU))).
  { split; [unfold fit; cbn; lia|]. split; [unfold fit; cbn; lia|]. split; [unfold fit; cbn; lia|reflexivity]. }
  destruct (x_has_rule CoreM (x_vcode0 CoreM) acc0 (fun x y => (x * y) / W) (OP (mkR 3 1 1) (aMulDiv MULHU)) XVR1 XVR2 XVOut (x_vcode0_ok CoreM) acc0_ok Hi) as (ru & R & _).
  - unfold x_word_in; tauto.
  - unfold x_word_in; tauto.
  - discriminate.
  - now right.
  - apply x_gives_out; auto using acc0_ok, smt_div_words. split; [discriminate|]. reflexivity.
  - exists ru. split; [exact R|]. intros (rf & _ & L1 & L2). specialize (L1 1 eq_refl ltac:(lia)). specialize (L2 1 eq_refl ltac:(lia)). congruence.
Qed.
(** On every core there is a rule for x - 5 that the simulator does not run. *)
Theorem C100_full_refuted c : ~ C100_full c.
Proof.
  intros F. assert (Hi : in_isa c (OP_IMM (oArith (mkI 3 1 5) SUB))).
  { split; [unfold fit; cbn; lia|]. split; unfold fit; cbn; lia. }
  assert (G : x_vgives1 c acc0 (OP_IMM (oArith (mkI 3 1 5) SUB)) XVOut (x_bin (fun x _ => (x - 5) mod W) XVR1 XVR2)).
  { apply x_gives_out; auto using acc0_ok, smt_div_words. split; [discriminate|]. reflexivity. }
  destruct (x_has_rule c (x_vcode0 c) acc0 _ _ XVR1 XVR2 XVOut (x_vcode0_ok c) acc0_ok Hi ltac:(unfold x_word_in; tauto) ltac:(unfold x_word_in; tauto) ltac:(discriminate) (or_intror eq_refl) G) as (ru & R & _).
  destruct (F (x_vcode0 c) acc0 [] _ ru _ (x_vcode0_ok c) acc0_ok (x_v_no_constr c (x_vcode0 c)) R) as (p0 & p1 & po & _ & _ & _ & Ru & _).
  assert (L : rv_loaded (rv_file (OP_IMM (oArith (mkI 3 1 5) SUB)) 7 0) (OP_IMM (oArith (mkI 3 1 5) SUB)) 7 0) by (apply rv_load_ok; discriminate).
  destruct (Ru 0 7 0 _ ltac:(unfold word32; lia) ltac:(unfold word32; lia) ltac:(unfold word32; lia) L) as (next & rf' & S & _). discriminate S.
Qed.
(** On every core there is a rule for x + 4096 that takes x from the pc. *)
Theorem C100_pc_refuted c : exists ru, x_a_rule c (x_vcode0 c) acc0 [] (fun x _ => (x + 4096) mod W) ru (AUIPC (mkU 3 1)) /\ In (SPath XVIn0, XVPc) (r_in ru).
Proof.
  assert (Hi : in_isa c (AUIPC (mkU 3 1))) by (split; unfold fit; cbn; lia).
  assert (G : x_vgives1 c acc0 (AUIPC (mkU 3 1)) XVOut (x_bin (fun x _ => (x + 4096) mod W) XVPc XVR2)).
  { apply x_gives_out; auto using acc0_ok, smt_div_words. split; [discriminate|]. reflexivity. }
  destruct (x_has_rule c (x_vcode0 c) acc0 _ _ XVPc XVR2 XVOut (x_vcode0_ok c) acc0_ok Hi ltac:(unfold x_word_in; tauto) ltac:(unfold x_word_in; tauto) ltac:(discriminate) (or_intror eq_refl) G) as (ru & R & q0 & q1 & qo & Q0 & Q1 & Qo & R0 & _ & _ & Q).
  exists ru. split; [exact R|]. clear R G.
  assert (W0 : word32 0) by (unfold word32; lia). assert (W1 : word32 1) by (unfold word32; lia).
  pose proof (Q 0 0 0 0 W0 W0 W0 W0) as X. pose proof (Q 1 0 0 0 W1 W0 W0 W0) as Y.
  rewrite x_map_all in X, Y by auto using acc0_ok, smt_div_words.
  destruct Q0 as [->|[->| ->]]; [exact R0|exfalso|exfalso]; destruct Qo as [->| ->]; vm_compute in X, Y; congruence.
Qed.

(** ** Cases: the high word of the product with the destination constrained to
    register 7 on riscv_m, and trailing zeros on riscv_ext; run on the simulators. *)
Definition x_case_cs : list (x_vpath * list Z) := [(XVFld XGOp XSRd, [7]); (XVFld XGIA XSTag, [0; 2; 3; 4; 5; 6])].
Example C100_case : x_on_vfields CoreM (x_vcode0 CoreM) x_case_cs /\ x_vmappable1 CoreM (x_vcode0 CoreM) acc0 x_case_cs (x_vword2 (fun x y => (x * y) / W)) /\
  RiscvModel.step smt_sdiv smt_udiv smt_srem smt_urem CoreM [(0, 0); (4, 10); (5, 4294967295)] (OP (mkR 7 4 5) (aMulDiv MULHU)) 100
    = (Ok 104, [(0, 0); (4, 10); (5, 4294967295); (7, 9)]).
Proof.
  assert (O : x_on_vfields CoreM (x_vcode0 CoreM) x_case_cs).
  { split; [repeat constructor; cbn; intuition discriminate|]. intros p zs [Ic|[Ic|[]]]; injection Ic as <- <-;
      (split; [cbn; auto 14|]); (split; [discriminate|]); intros w z Iw Iz; cbn in Iw;
      repeat (destruct Iw as [Iw|Iw]; [first [discriminate Iw | injection Iw as <-; cbn in Iz; cbn; lia]|]); destruct Iw. }
  split; [exact O|]. split; [|vm_compute; reflexivity].
  apply C100_rule; auto using x_vcode0_ok, acc0_ok, smt_div_words. exists (OP (mkR 7 4 5) (aMulDiv MULHU)), XVR1, XVR2, XVOut.
  assert (Hi : in_isa CoreM (OP (mkR 7 4 5) (aMulDiv MULHU))).
  { split; [unfold fit; cbn; lia|]. split; [unfold fit; cbn; lia|]. split; [unfold fit; cbn; lia|reflexivity]. }
  split.
  - split; [exact Hi|]. intros p zs z [Ic|[Ic|[]]] E; injection Ic as <- <-; [|discriminate E]. injection E as <-. now left.
  - split; [unfold x_word_in; tauto|]. split; [unfold x_word_in; tauto|]. split; [discriminate|]. split; [now right|].
    apply x_gives_out; auto using acc0_ok, smt_div_words. split; [discriminate|]. reflexivity.
Qed.
Example C100_case_ext : x_vmappable1 CoreExt (x_vcode0 CoreExt) acc0 [] (x_vword1 (sp_bits CNTTZ)) /\
  RiscvModel.step smt_sdiv smt_udiv smt_srem smt_urem CoreExt [(0, 0); (4, 40)] (Ext (mkE 7 4) CNTTZ) 100 = (Ok 104, [(0, 0); (4, 40); (7, 3)]).
Proof.
  split; [|vm_compute; reflexivity]. apply C100_unary; auto using x_vcode0_ok, acc0_ok, smt_div_words. left. right. right. split; [reflexivity|].
  exists (sp_bits CNTTZ). split; [apply counts_bits|]. intros a _. reflexivity.
Qed.
(** A branch as a rule: one operand is the pc, the result the next pc. *)
Example C100_case_pc : x_vmappable1 CoreM (x_vcode0 CoreM) acc0 [] (x_vword2 (fun p x => if x =? 0 then (p + 16) mod W else (p + 4) mod W)) /\
  RiscvModel.step smt_sdiv smt_udiv smt_srem smt_urem CoreM [(0, 0); (1, 0)] (Branch (mkB 1 0 8) BEQ) 100 = (Ok 116, [(0, 0); (1, 0)]) /\
  RiscvModel.step smt_sdiv smt_udiv smt_srem smt_urem CoreM [(0, 0); (1, 9)] (Branch (mkB 1 0 8) BEQ) 100 = (Ok 104, [(0, 0); (1, 9)]).
Proof.
  split; [|split; vm_compute; reflexivity]. apply C100_binary; auto using x_vcode0_ok, acc0_ok, smt_div_words. right. right. left.
  exists BEQ, 8. split; [lia|]. left. intros p x _ _. reflexivity.
Qed.
(** The mapping IR on riscv_m, with this division. *)
Example C100_case_ir : x_vmappable1 CoreM (x_vcode0 CoreM) acc0 [] (x_v_ir32 SmallPeModel.Mul) /\
  ~ x_vmappable1 CoreM (x_vcode0 CoreM) acc0 [] (x_v_ir32 SmallPeModel.Nand) /\ ~ x_vmappable1 CoreExt (x_vcode0 CoreExt) acc0 [] (x_v_ir32 SmallPeModel.Mul).
Proof.
  assert (D : smt_sdiv 2 1 = 2 /\ smt_udiv 2 1 = 2 /\ smt_srem 2 1 = 0 /\ smt_urem 2 1 = 0) by (repeat split). destruct D as (D1 & D2 & D3 & D4).
  split; [|split].
  - apply C100_small_ir; auto using x_vcode0_ok, acc0_ok, smt_div_words. intros [J|[J|[]]]; discriminate J.
  - intros M. apply C100_small_ir in M; auto using x_vcode0_ok, acc0_ok, smt_div_words. apply M. now left.
  - intros M. apply C100_small_ir in M; auto using x_vcode0_ok, acc0_ok, smt_div_words. apply M. right. right. now left.
Qed.

Print Assumptions C100_rule.
Print Assumptions C100_rule1.
Print Assumptions C100_solve_partial.
Print Assumptions C100_solve1_partial.
Print Assumptions C100_found.
Print Assumptions C100_binary_only.
Print Assumptions C100_unary_only.
Print Assumptions C100_binary.
Print Assumptions C100_unary.
Print Assumptions C100_small_ir.
Print Assumptions C100_no_subi.
Print Assumptions C100_rename.
Print Assumptions C100_alias_refuted.
Print Assumptions C100_full_refuted.
Print Assumptions C100_pc_refuted.
Print Assumptions C100_case.
Print Assumptions C100_case_ext.
Print Assumptions C100_case_ir.
Print Assumptions C100_case_pc.
