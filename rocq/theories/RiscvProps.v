(** Properties C48, C49, C50, C52, C53: the RISC-V examples. *)
From Coq Require Import ZArith List Bool Lia.
From Verif Require Import Base BaseLemmas BvModel BvLemmas RiscvModel RiscvSpec RiscvProofs RiscvBits.
Import ListNotations.
Open Scope Z_scope.

Section Cores.
  (** Division of hwtypes is not modelled: any four functions returning words. *)
  Variables sdiv udiv srem urem : Z -> Z -> Z.
  Hypothesis div_words : forall a b,
    fit 32 (sdiv a b) /\ fit 32 (udiv a b) /\ fit 32 (srem a b) /\ fit 32 (urem a b).

  Notation step := (step sdiv udiv srem urem).
  Notation steps := (steps sdiv udiv srem urem).
  Notation mappable := (mappable sdiv udiv srem urem).
  Notation exec_muldiv := (exec_muldiv sdiv udiv srem urem).

  (** Register files a simulator object can have: a new one, after writing a
      register from outside, after executing an instruction. *)
  Inductive reach (c : core) : rfile -> Prop :=
  | reach_init : reach c rf_init
  | reach_store rf i v : reach c rf -> fit 5 i -> fit 32 v -> reach c (rf_store rf i v)
  | reach_step rf i pc : reach c rf -> in_isa c i -> fit 32 pc -> reach c (snd (step c rf i pc)).

  (** Instructions outside [rv32i]. *)
  Lemma step_nop c rf i pc : (exists d t, i = Load d t) \/ (exists d t, i = Store d t) ->
    step c rf i pc = (Ok ((pc + 4) mod W), rf).
  Proof. intros [(d & t & ->)|(d & t & ->)]; reflexivity. Qed.

  Lemma step_subi c rf d pc : step c rf (OP_IMM (oArith d SUB)) pc = (Err AssertionError, rf).
  Proof. reflexivity. Qed.

  Lemma muldiv_fit t a b : fit 32 (exec_muldiv t a b).
  Proof.
    pose proof (div_words a b) as (D1 & D2 & D3 & D4).
    assert (S : forall x, fit 32 (slice x 32 64)) by (intros; apply slice_range; lia).
    destruct t; cbn [RiscvModel.exec_muldiv]; auto. apply fit_wrap.
  Qed.

  Lemma step_mul rf d t pc a b : rf_load rf (r_rs1 d) = Ok a -> rf_load rf (r_rs2 d) = Ok b ->
    step CoreM rf (OP d (aMulDiv t)) pc
    = (Ok ((pc + 4) mod W), rf_store rf (r_rd d) (exec_muldiv t a b)).
  Proof.
    intros A B. unfold RiscvModel.step. cbn [decode]. rewrite A, B. cbn [bind].
    rewrite plain_x, plain_a, plain_b. cbn [execute bind].
    rewrite commit_plain by apply muldiv_fit. reflexivity.
  Qed.

  Lemma step_ext rf d t pc v : rf_wf rf -> rf_load rf (e_rs d) = Ok v ->
    step CoreExt rf (Ext d t) pc = (Ok ((pc + 4) mod W), rf_store rf (e_rd d) (sp_bits t v)).
  Proof.
    intros [_ F] V. unfold RiscvModel.step. cbn [decode]. rewrite V. cbn [bind].
    rewrite bitcounter_spec by (eapply F; eauto). cbn [bind].
    rewrite plain_x, plain_a, plain_b. cbn [execute exec_arith bind].
    pose proof (sp_bits_range t v) as R.
    assert (E : bvadd 32 (sp_bits t v) 0 = sp_bits t v).
    { unfold bvadd. rewrite Z.add_0_r. apply wrap_small. change (2 ^ 32) with 4294967296. lia. }
    rewrite E. rewrite commit_plain; [reflexivity|].
    unfold fit. change (2 ^ 32) with 4294967296. lia.
  Qed.

  Lemma all_loaded rf l : (forall r, In r l -> exists v, rf_load rf r = Ok v)
    \/ exists r, In r l /\ rf_load rf r = Err KeyError.
  Proof.
    induction l as [|r l IH]; [left; intros r []|].
    destruct (rf_load_cases rf r) as [V|V].
    - destruct IH as [A|(q & Q & E)].
      + left. intros q [<-|I]; auto.
      + right. exists q. split; [right|]; auto.
    - right. exists r. split; [left|]; auto.
  Qed.

  Definition content (rf : rfile) (r : Z) : Z := match rf_load rf r with Ok v => v | Err _ => 0 end.
  Lemma content_ok rf r v : rf_load rf r = Ok v -> rf_load rf r = Ok (content rf r).
  Proof. intros E. unfold content. rewrite E. reflexivity. Qed.

  Lemma step_wf c rf i pc : rf_wf rf -> in_isa c i -> fit 32 pc -> rf_wf (snd (step c rf i pc)).
  Proof.
    intros Wf I P. destruct (rv32i i) eqn:R.
    - destruct (all_loaded rf (reads i)) as [A|(r & Ir & E)].
      + assert (L : forall r, In r (reads i) -> rf_load rf r = Ok (content rf r)).
        { intros r Ir. destruct (A r Ir) as [v V]. eapply content_ok; eauto. }
        pose proof (step_ok sdiv udiv srem urem c rf (content rf) i pc Wf I R P L) as S.
        destruct (sp_step (content rf) pc i) as [[rd v] next]. rewrite S. cbn [snd].
        apply rf_wf_store; auto. eapply sp_val_fit; eauto. intros r Ir. eapply (proj2 Wf), L; auto.
      + rewrite (step_unwritten sdiv udiv srem urem c rf i pc r R Ir E). exact Wf.
    - destruct i as [d t|o|d|d|d|d|d t|d t|d t|d t]; try discriminate R.
      + destruct t as [t|t|t]; try discriminate R. destruct I as (_ & _ & _ & ->).
        destruct (rf_load_cases rf (r_rs1 d)) as [[a A]|A],
          (rf_load_cases rf (r_rs2 d)) as [[b B]|B];
          try (unfold RiscvModel.step; cbn [decode]; rewrite ?A, ?B; exact Wf).
        rewrite (step_mul rf d t pc a b A B). cbn [snd]. apply rf_wf_store; auto using muldiv_fit.
      + destruct o as [d t|d t]; [|discriminate R]. destruct t; try discriminate R.
        rewrite step_subi. exact Wf.
      + rewrite step_nop by eauto. exact Wf.
      + rewrite step_nop by eauto. exact Wf.
      + destruct I as (_ & _ & ->).
        destruct (rf_load_cases rf (e_rs d)) as [[v V]|V].
        * rewrite (step_ext rf d t pc v Wf V). cbn [snd]. apply rf_wf_store; auto.
          pose proof (sp_bits_range t v). unfold fit. change (2 ^ 32) with 4294967296. lia.
        * unfold RiscvModel.step. cbn [decode]. rewrite V. exact Wf.
  Qed.

  Lemma reach_wf c rf : reach c rf -> rf_wf rf.
  Proof.
    induction 1; auto using rf_wf_init, rf_wf_store, step_wf.
  Qed.

  (** ** C48 *)

  (** Full statement: from every reachable state, for every RV32I instruction of
      the claim, there are register contents agreeing with the written registers
      such that the step is the one of the manual. *)
  Definition C48_full : Prop :=
    forall c rf i pc, reach c rf -> in_isa c i -> rv32i i = true -> fit 32 pc ->
    exists x, (forall r v, rf_load rf r = Ok v -> x r = v) /\
    let '(rd, v, next) := sp_step x pc i in
    exists rf', step c rf i pc = (Ok next, rf')
      /\ forall r, rf_load rf' r = if (r =? rd) && negb (r =? 0) then Ok v else rf_load rf r.

  (** Missing for C48: reads of a register that was never written, and SLL, SRL,
      SRA whose rs2 holds 32 or more. *)
  Theorem C48_step_partial c rf i pc x :
    reach c rf -> in_isa c i -> rv32i i = true -> fit 32 pc ->
    (forall r, In r (reads i) -> rf_load rf r = Ok (x r)) ->
    big_shift x i = false ->
    let '(rd, v, next) := sp_step x pc i in
    exists rf', step c rf i pc = (Ok next, rf')
      /\ forall r, rf_load rf' r = if (r =? rd) && negb (r =? 0) then Ok v else rf_load rf r.
  Proof.
    intros Re I R P L B. pose proof (reach_wf c rf Re) as Wf.
    pose proof (step_ok sdiv udiv srem urem c rf x i pc Wf I R P L) as S.
    assert (F : forall r, In r (reads i) -> fit 32 (x r)) by (intros; eapply (proj2 Wf), L; auto).
    pose proof (model_val_spec x pc i F B) as M.
    destruct (sp_step x pc i) as [[rd v] next]. rewrite M in S.
    eexists. split; [exact S|]. intros r. apply rf_load_store.
  Qed.

  (** The excluded cases, exactly. A read of an unwritten register raises
      KeyError and changes nothing. *)
  Theorem C48_unwritten c rf i pc r :
    rv32i i = true -> In r (reads i) -> rf_load rf r = Err KeyError ->
    step c rf i pc = (Err KeyError, rf).
  Proof. apply step_unwritten. Qed.

  (** A register shift by 32 or more gives 0 or the sign; the pc is right. *)
  Theorem C48_big_shift c rf d t pc x y :
    reach c rf -> in_isa c (OP d (aShift t)) -> fit 32 pc ->
    rf_load rf (r_rs1 d) = Ok x -> rf_load rf (r_rs2 d) = Ok y -> 32 <= y ->
    step c rf (OP d (aShift t)) pc
    = (Ok ((pc + 4) mod W),
       rf_store rf (r_rd d)
         match t with SRA => if sg 32 x <? 0 then W - 1 else 0 | _ => 0 end).
  Proof.
    intros Re I P L1 L2 Y. pose proof (reach_wf c rf Re) as Wf.
    assert (L : forall r, In r (reads (OP d (aShift t))) -> rf_load rf r = Ok (content rf r)).
    { intros r [<-|[<-|[]]]; eapply content_ok; eauto. }
    pose proof (step_ok sdiv udiv srem urem c rf (content rf) _ pc Wf I eq_refl P L) as S.
    cbn [sp_step model_val] in S. rewrite S. f_equal. f_equal.
    unfold content. rewrite L1, L2. apply exec_shift_big; auto. eapply (proj2 Wf); eauto.
  Qed.

  (** Programs of any length: from a state with all registers written, as long
      as the manual's execution meets no shift by 32 or more. *)
  Definition full_file (rf : rfile) (x : Z -> Z) : Prop :=
    forall r, 0 <= r < 32 -> rf_load rf r = Ok (x r).

  Fixpoint no_big_shift (n : nat) (fetch : Z -> inst) (x : Z -> Z) (pc : Z) : Prop :=
    match n with
    | O => True
    | S n' =>
        big_shift x (fetch pc) = false /\
        let '(rd, v, next) := sp_step x pc (fetch pc) in
        no_big_shift n' fetch (sp_write x rd v) next
    end.

  Lemma reads_fit c i r : in_isa c i -> In r (reads i) -> 0 <= r < 32.
  Proof.
    intros I H. change 32 with (2 ^ 5).
    destruct i as [d t|o|d|d|d|d|d t|d t|d t|d t]; cbn [reads in_isa] in *.
    2: destruct o as [d t|d t].
    all: cbn [In] in H; unfold fit in I; intuition (subst; auto).
  Qed.

  Lemma next_fit x pc i c : in_isa c i -> fit 32 (let '(_, _, next) := sp_step x pc i in next).
  Proof.
    intros I. assert (J : forall z, fit 32 (2 * ((z mod W) / 2))).
    { intros z. pose proof (fit_mod z) as Z. unfold fit in *.
      pose proof (Z.mul_div_le (z mod W) 2 ltac:(lia)).
      assert (0 <= z mod W / 2) by (apply Z.div_pos; lia). lia. }
    destruct i as [d t|o|d|d|d|d|d t|d t|d t|d t]; cbn [sp_step]; try apply fit_mod.
    - destruct t; apply fit_mod.
    - destruct o; apply fit_mod.
    - apply J.
    - destruct (sp_cond _ _ _); apply fit_mod.
  Qed.

  Theorem C48_program_partial c fetch n : forall rf x pc,
    reach c rf -> full_file rf x -> fit 32 pc ->
    (forall a, in_isa c (fetch a) /\ rv32i (fetch a) = true) ->
    no_big_shift n fetch x pc ->
    exists rf', steps n c fetch rf pc = (Ok (snd (sp_steps n fetch x pc)), rf')
      /\ full_file rf' (fst (sp_steps n fetch x pc)).
  Proof.
    induction n as [|n IH]; intros rf x pc Re F P Fe B.
    - exists rf. split; [reflexivity|exact F].
    - cbn [no_big_shift] in B. destruct B as [B0 B].
      cbn [RiscvModel.steps sp_steps].
      destruct (Fe pc) as [I R].
      assert (L : forall r, In r (reads (fetch pc)) -> rf_load rf r = Ok (x r)).
      { intros r Ir. apply F. eapply reads_fit; eauto. }
      pose proof (C48_step_partial c rf (fetch pc) pc x Re I R P L B0) as S.
      pose proof (next_fit x pc (fetch pc) c I) as N.
      pose proof (reach_step c rf (fetch pc) pc Re I P) as Re'.
      destruct (sp_step x pc (fetch pc)) as [[rd v] next].
      destruct S as (rf' & S & Q). rewrite S in Re'. cbn [snd] in Re'.
      rewrite S. apply IH; auto.
      intros r Hr. rewrite Q. unfold sp_write. destruct (_ && _); auto.
  Qed.

  (** ** C49 *)

  (** x0 reads zero in the simulator's register file, whatever happened. *)
  Theorem C49_simulator c rf : reach c rf -> rf_load rf 0 = Ok 0.
  Proof. intros Re. apply (reach_wf c rf Re). Qed.

  (** The register file as a map: register 0 is constant, the others hold the
      last value stored. *)
  Theorem C49_file (h : list (Z * Z)) r :
    rf_load (fold_left (fun rf e => rf_store rf (fst e) (snd e)) h rf_init) r
    = if r =? 0 then Ok 0
      else match find (fun e => fst e =? r) (rev h) with Some e => Ok (snd e) | None => Err KeyError end.
  Proof.
    rewrite <- fold_left_rev_right. induction (rev h) as [|e l IH].
    - cbn [fold_right find]. unfold rf_load, dgetE, rf_init. cbn [dget]. destruct (r =? 0); reflexivity.
    - cbn [fold_right find]. rewrite rf_load_store, IH. rewrite (Z.eqb_sym (fst e) r).
      destruct (Z.eqb_spec r (fst e)), (Z.eqb_spec r 0); reflexivity.
  Qed.

  (** The mappable core: an operand whose index is 0 is read as 0, and a
      destination 0 leaves rd alone. *)
  Definition rs1_of (i : inst) : option Z :=
    match i with
    | OP d _ => Some (r_rs1 d) | OP_IMM (oArith d _) | JALR d | Load d _ => Some (i_rs1 d)
    | OP_IMM (oShift d _) => Some (is_rs1 d) | Branch d _ => Some (b_rs1 d)
    | Store d _ => Some (s_rs1 d) | Ext d _ => Some (e_rs d) | _ => None
    end.
  Definition rs2_of (i : inst) : option Z :=
    match i with
    | OP d _ => Some (r_rs2 d) | Branch d _ => Some (b_rs2 d) | Store d _ => Some (s_rs2 d)
    | _ => None
    end.
  Definition rd_of (i : inst) : option Z :=
    match i with
    | OP d _ => Some (r_rd d) | OP_IMM (oArith d _) | JALR d | Load d _ => Some (i_rd d)
    | OP_IMM (oShift d _) => Some (is_rd d) | LUI d | AUIPC d => Some (u_rd d)
    | JAL d => Some (j_rd d) | Ext d _ => Some (e_rd d) | _ => None
    end.

  (** The decoder of the mappable core, one instruction at a time. *)
  Lemma decode_smt_eq A c r i pc : acc_ok A -> in_isa c i ->
    decode_smt A c r i pc =
    match i with
    | OP d t => plain (s_load1 r (r_rs1 d)) (s_load2 r (r_rs2 d)) t (r_rd d)
    | OP_IMM (oArith d t) =>
        plain (s_load1 r (i_rs1 d)) (bvsext 12 20 (i_imm d)) (aArith t) (i_rd d)
    | OP_IMM (oShift d t) =>
        plain (s_load1 r (is_rs1 d)) (bvzext 5 27 (is_imm d)) (aShift t) (is_rd d)
    | LUI d => plain 0 (bvshl 32 (bvsext 20 12 (u_imm d)) 12) (aArith ADD) (u_rd d)
    | AUIPC d => plain pc (bvshl 32 (bvsext 20 12 (u_imm d)) 12) (aArith ADD) (u_rd d)
    | JAL d => mkD pc (bvshl 32 (bvsext 20 12 (j_imm d)) 1) (aArith ADD) (j_rd d)
                   (wrap 32 (-1)) false true 0 false false
    | JALR d => mkD (s_load1 r (i_rs1 d)) (bvsext 12 20 (i_imm d)) (aArith ADD) (i_rd d)
                    (bvnot 32 1) false true 0 false false
    | Branch d t =>
        let '(x, cz, inv) := branch_dec t in
        mkD (s_load1 r (b_rs1 d)) (s_load2 r (b_rs2 d)) x 0 (wrap 32 (-1)) true false
            (bvshl 32 (bvsext 12 20 (b_imm d)) 1) cz inv
    | Load _ _ | Store _ _ => plain 0 0 (aArith ADD) 0
    | Ext d t => plain (bitcounter_smt t (s_load1 r (e_rs d))) 0 (aArith ADD) (e_rd d)
    end.
  Proof.
    intros (A1 & A2 & A3 & A4 & A5 & A6 & A7 & A8 & A9 & A10 & _) I. unfold decode_smt.
    destruct i as [d t|o|d|d|d|d|d t|d t|d t|d t];
      cbn [m_op m_opimm m_lui m_auipc m_jal m_jalr m_branch m_load m_store]; unfold ite; cbv zeta.
    - rewrite A1. reflexivity.
    - rewrite A2. destruct o as [d t|d t]; cbn [m_arith].
      + rewrite A3. reflexivity.
      + rewrite A4. reflexivity.
    - rewrite A5. reflexivity.
    - rewrite A6. reflexivity.
    - rewrite A7. reflexivity.
    - rewrite A8. reflexivity.
    - rewrite A9. reflexivity.
    - reflexivity.
    - destruct c; reflexivity.
    - destruct I as (_ & _ & ->). rewrite A10. reflexivity.
  Qed.

  Lemma execute_smt_eq A c x a b v : acc_ok A ->
    execute sdiv udiv srem urem c x a b = Ok v ->
    execute_smt sdiv udiv srem urem A c x a b = v.
  Proof.
    intros (_ & _ & _ & _ & _ & _ & _ & _ & _ & _ & X1 & X2 & X3) E.
    unfold execute_smt. destruct x as [t|t|t]; cbn [execute m_xarith m_xshift] in *; unfold ite.
    - rewrite X1. congruence.
    - destruct c; rewrite X2; congruence.
    - destruct c; try discriminate. rewrite X3. congruence.
  Qed.

  Theorem C49_mappable A c i pc a b d : acc_ok A -> in_isa c i ->
    (rs1_of i = Some 0 -> mappable A c i pc a b d = mappable A c i pc 0 b d)
    /\ (rs2_of i = Some 0 -> mappable A c i pc a b d = mappable A c i pc a 0 d)
    /\ (rd_of i = Some 0 -> snd (mappable A c i pc a b d) = d).
  Proof.
    intros Ac I. unfold RiscvModel.mappable. rewrite !decode_smt_eq by auto.
    assert (S1 : forall r, s_load1 r 0 = 0) by reflexivity.
    assert (S2 : forall r, s_load2 r 0 = 0) by reflexivity.
    assert (St : forall r v, sr_rd (s_store r 0 v) = sr_rd r) by reflexivity.
    assert (L1 : forall a b d a' b' d' k, k = 0 -> s_load1 (mkSrf a b d) k = s_load1 (mkSrf a' b' d') k)
      by (intros; subst; reflexivity).
    assert (L2 : forall a b d a' b' d' k, k = 0 -> s_load2 (mkSrf a b d) k = s_load2 (mkSrf a' b' d') k)
      by (intros; subst; reflexivity).
    assert (M1 : forall a b d a' d' k, s_load2 (mkSrf a b d) k = s_load2 (mkSrf a' b d') k) by reflexivity.
    assert (M2 : forall a b d b' d' k, s_load1 (mkSrf a b d) k = s_load1 (mkSrf a b' d') k) by reflexivity.
    assert (St2 : forall a b a' b' d k v,
      sr_rd (s_store (mkSrf a b d) k v) = sr_rd (s_store (mkSrf a' b' d) k v)) by reflexivity.
    split; [|split].
    - intros E. destruct i as [dt t|o|dt|dt|dt|dt|dt t|dt t|dt t|dt t]; cbn [rs1_of] in E; try discriminate E.
      2: destruct o as [dt t|dt t].
      all: injection E as E; rewrite ?E; cbn [s_load1 sr_rs1]; try reflexivity.
    - intros E. destruct i as [dt t|o|dt|dt|dt|dt|dt t|dt t|dt t|dt t]; cbn [rs2_of] in E; try discriminate E.
      all: injection E as E; rewrite ?E; try reflexivity.
    - intros E. destruct i as [dt t|o|dt|dt|dt|dt|dt t|dt t|dt t|dt t]; cbn [rd_of] in E; try discriminate E.
      2: destruct o as [dt t|dt t].
      all: injection E as E; cbn [plain d_rd]; rewrite ?E;
        destruct (commit _ _ _) as [out next]; reflexivity.
  Qed.

  (** ** C50 *)

  (** The registers named by an instruction. *)
  Definition named (i : inst) : list Z :=
    match rs1_of i with Some r => [r] | None => [] end
    ++ match rs2_of i with Some r => [r] | None => [] end
    ++ match rd_of i with Some r => [r] | None => [] end.

  (** What is fed for a register operand: its content; anything when the
      instruction has no such operand. *)
  Definition fed (x : Z -> Z) (o : option Z) (v : Z) : Prop :=
    match o with Some r => v = x r | None => True end.

  (** Same next pc, and the returned rd is the content of the destination (or
      what was fed, for instructions without one). *)
  Definition agrees (c : core) (rf : rfile) (x : Z -> Z) (i : inst) (pc a b d : Z)
      (A : access) : Prop :=
    exists next rf', step c rf i pc = (Ok next, rf')
      /\ fst (mappable A c i pc a b d) = next
      /\ match rd_of i with
         | Some r => rf_load rf' r = Ok (snd (mappable A c i pc a b d))
         | None => snd (mappable A c i pc a b d) = d
         end.

  Definition C50_full : Prop :=
    forall A c rf x i pc a b d,
    acc_ok A -> reach c rf -> in_isa c i -> fit 32 pc ->
    (forall r, In r (named i) -> rf_load rf r = Ok (x r)) ->
    fed x (rs1_of i) a -> fed x (rs2_of i) b -> fed x (rd_of i) d ->
    agrees c rf x i pc a b d A.

  Definition is_subi (i : inst) : bool :=
    match i with OP_IMM (oArith _ SUB) => true | _ => false end.

  (** Missing for C50: the immediate subtraction, which the simulator rejects. *)
  Theorem C50_agree_partial A c rf x i pc a b d :
    acc_ok A -> reach c rf -> in_isa c i -> fit 32 pc ->
    (forall r, In r (named i) -> rf_load rf r = Ok (x r)) ->
    fed x (rs1_of i) a -> fed x (rs2_of i) b -> fed x (rd_of i) d ->
    is_subi i = false ->
    agrees c rf x i pc a b d A.
  Proof.
    intros Ac Re I P L Fa Fb Fd Ns. pose proof (reach_wf c rf Re) as Wf.
    destruct Wf as [Z0 Ft].
    assert (S1 : forall r, rs1_of i = Some r -> rf_load rf r = Ok (s_load1 (mkSrf a b d) r)).
    { intros r E. unfold fed in Fa. rewrite E in Fa. assert (N : rf_load rf r = Ok (x r)).
      { apply L. unfold named. rewrite E. left. reflexivity. }
      unfold s_load1. destruct (Z.eqb_spec r 0) as [->|]; cbn [negb sr_rs1]; congruence. }
    assert (S2 : forall r, rs2_of i = Some r -> rf_load rf r = Ok (s_load2 (mkSrf a b d) r)).
    { intros r E. unfold fed in Fb. rewrite E in Fb. assert (N : rf_load rf r = Ok (x r)).
      { apply L. unfold named. rewrite E. apply in_or_app. right. left. reflexivity. }
      unfold s_load2. destruct (Z.eqb_spec r 0) as [->|]; cbn [negb sr_rs2]; congruence. }
    assert (S3 : forall r, rd_of i = Some r -> rf_load rf r = Ok d).
    { intros r E. unfold fed in Fd. rewrite E in Fd. assert (N : rf_load rf r = Ok (x r)).
      { apply L. unfold named. rewrite E. apply in_or_app. right. apply in_or_app. right. left. reflexivity. }
      congruence. }
    set (r := mkSrf a b d) in *. set (dc := decode_smt A c r i pc).
    assert (D : decode c (rf_load rf) i pc = Ok dc).
    { unfold dc. rewrite decode_smt_eq by auto.
      destruct i as [dt t|o|dt|dt|dt|dt|dt t|dt t|dt t|dt t]; cbn [decode rs1_of rs2_of] in *.
      2: destruct o as [dt t|dt t]; cbn [rs1_of rs2_of] in *.
      all: try (rewrite (S1 _ eq_refl); cbn [bind]); try (rewrite (S2 _ eq_refl); cbn [bind]);
        try reflexivity.
      - assert (E : is_SUB t = false) by (destruct t; [reflexivity|discriminate Ns|..]; reflexivity).
        rewrite E. reflexivity.
      - destruct (branch_dec t) as [[? ?] ?]. reflexivity.
      - destruct I as (_ & _ & ->). rewrite bitcounter_smt_spec by (eapply Ft, (S1 _ eq_refl)).
        rewrite bitcounter_spec by (eapply Ft, (S1 _ eq_refl)). reflexivity. }
    assert (X : exists v, execute sdiv udiv srem urem c (d_exec dc) (d_a dc) (d_b dc) = Ok v).
    { assert (M : forall t, d_exec dc = aMulDiv t -> c = CoreM).
      { intros t. unfold dc. rewrite decode_smt_eq by auto.
        destruct i as [dt u|o|dt|dt|dt|dt|dt u|dt u|dt u|dt u]; cbn [plain d_exec]; try discriminate.
        - intros ->. apply I.
        - destruct o; discriminate.
        - destruct u; discriminate. }
      destruct (d_exec dc) as [t|t|t]; cbn [execute]; eauto. rewrite (M t eq_refl). eauto. }
    destruct X as [v X].
    assert (J : d_jmp dc && d_br dc = false).
    { unfold dc. rewrite decode_smt_eq by auto.
      destruct i as [dt t|o|dt|dt|dt|dt|dt t|dt t|dt t|dt t]; try reflexivity.
      - destruct o; reflexivity.
      - destruct (branch_dec t) as [[? ?] ?]. reflexivity. }
    unfold agrees, RiscvModel.step, RiscvModel.mappable. rewrite D. cbn [bind]. rewrite X. cbn [bind].
    rewrite J. fold r. fold dc. rewrite (execute_smt_eq A c _ _ _ v Ac X).
    destruct (commit dc pc v) as [out next]. cbn [fst snd].
    eexists. eexists. split; [reflexivity|]. split; [reflexivity|].
    unfold s_store. cbn [sr_rd].
    assert (Rd : match rd_of i with
                 | Some k => d_rd dc = k \/ (d_rd dc = 0)
                 | None => d_rd dc = 0
                 end).
    { unfold dc. rewrite decode_smt_eq by auto.
      destruct i as [dt t|o|dt|dt|dt|dt|dt t|dt t|dt t|dt t]; cbn [rd_of]; auto.
      - destruct o; left; reflexivity.
      - destruct (branch_dec t) as [[? ?] ?]. reflexivity. }
    destruct (rd_of i) as [k|] eqn:Ek.
    - rewrite rf_load_store. destruct Rd as [E|E]; rewrite E.
      + rewrite Z.eqb_refl. destruct (Z.eqb_spec k 0) as [->|N]; cbn [negb andb]; auto.
      + change (0 =? 0) with true. cbn [negb]. destruct (Z.eqb_spec k 0); cbn [negb andb]; auto.
    - rewrite Rd. reflexivity.
  Qed.

  (** The excluded case: the simulator raises, the mappable core computes rs1 - imm. *)
  Theorem C50_subi A c rf dt pc a b d : acc_ok A -> in_isa c (OP_IMM (oArith dt SUB)) ->
    fit 32 a ->
    step c rf (OP_IMM (oArith dt SUB)) pc = (Err AssertionError, rf)
    /\ mappable A c (OP_IMM (oArith dt SUB)) pc a b d
       = ((pc + 4) mod W,
          if i_rd dt =? 0 then d
          else ((if i_rs1 dt =? 0 then 0 else a) - sg 12 (i_imm dt)) mod W).
  Proof.
    intros Ac I Fa. split; [reflexivity|].
    unfold RiscvModel.mappable. rewrite decode_smt_eq by auto.
    rewrite plain_x, plain_a, plain_b.
    rewrite (execute_smt_eq A c (aArith SUB) (s_load1 (mkSrf a b d) (i_rs1 dt)) (bvsext 12 20 (i_imm dt))
               (exec_arith SUB (s_load1 (mkSrf a b d) (i_rs1 dt)) (bvsext 12 20 (i_imm dt))) Ac eq_refl).
    cbn [exec_arith]. rewrite commit_plain by apply fit_wrap.
    cbn [plain d_rd]. unfold s_store. cbn [sr_rd sr_rs1 sr_rs2].
    destruct I as (_ & _ & I). rewrite bvsext_W by (auto; lia).
    unfold bvsub. rewrite wrapW. rewrite Zminus_mod_idemp_r.
    unfold s_load1. cbn [sr_rs1]. destruct (i_rd dt =? 0), (i_rs1 dt =? 0); reflexivity.
  Qed.

  (** ** C52 *)
  Theorem C52_counts t x : 0 <= x < 2 ^ 32 -> bitcounter t x = Ok (sp_bits t x).
  Proof. apply bitcounter_spec. Qed.

  Theorem C52_counts_smt t x : 0 <= x < 2 ^ 32 -> bitcounter_smt t x = sp_bits t x.
  Proof. apply bitcounter_smt_spec. Qed.

  (** The instruction: rd gets the count. *)
  Theorem C52_step rf d t pc x :
    reach CoreExt rf -> rf_load rf (e_rs d) = Ok x ->
    exists rf', step CoreExt rf (Ext d t) pc = (Ok ((pc + 4) mod W), rf')
      /\ forall r, rf_load rf' r
                   = if (r =? e_rd d) && negb (r =? 0) then Ok (sp_bits t x) else rf_load rf r.
  Proof.
    intros Re L. rewrite (step_ext rf d t pc x (reach_wf _ _ Re) L).
    eexists. split; [reflexivity|]. intros r. apply rf_load_store.
  Qed.

  (** The counts as numbers: position of the highest and lowest set bit. *)
  Theorem C52_meaning x n : 0 <= n < 32 ->
    (2 ^ (31 - n) <= x < 2 ^ (32 - n) -> bitcounter CNTLZ x = Ok n)
    /\ (forall y, 0 <= y -> x = (2 * y + 1) * 2 ^ n -> x < 2 ^ 32 -> bitcounter CNTTZ x = Ok n).
  Proof.
    intros N. split.
    - intros X. rewrite C52_counts; [rewrite (clz_spec x n) by auto; reflexivity|].
      pose proof (pow2_pos (31 - n) ltac:(lia)).
      assert (2 ^ (32 - n) <= 2 ^ 32) by (apply Z.pow_le_mono_r; lia). lia.
    - intros y Y -> X. pose proof (pow2_pos n ltac:(lia)).
      rewrite C52_counts by (split; [nia|exact X]). f_equal. apply ctz_spec; try lia.
      rewrite Z.bit0_odd. rewrite Z.odd_add, Z.odd_mul. reflexivity.
  Qed.

  (** ** C53 *)
  Theorem C53_step rf d t pc x y v :
    reach CoreM rf -> rf_load rf (r_rs1 d) = Ok x -> rf_load rf (r_rs2 d) = Ok y ->
    sp_mul t x y = Some v ->
    exists rf', step CoreM rf (OP d (aMulDiv t)) pc = (Ok ((pc + 4) mod W), rf')
      /\ forall r, rf_load rf' r
                   = if (r =? r_rd d) && negb (r =? 0) then Ok v else rf_load rf r.
  Proof.
    intros Re X Y E. destruct (reach_wf _ _ Re) as [_ Ft].
    rewrite (step_mul rf d t pc x y X Y).
    rewrite (mul_spec sdiv udiv srem urem t x y v) by (eauto using Ft).
    eexists. split; [reflexivity|]. intros r. apply rf_load_store.
  Qed.

  (** The two halves make up the whole product. *)
  Theorem C53_halves x y lo hi : 0 <= x < W -> 0 <= y < W ->
    exec_muldiv MUL x y = lo ->
    (exec_muldiv MULHU x y = hi -> hi * W + lo = x * y)
    /\ (exec_muldiv MULH x y = hi -> sg 32 hi * W + lo = sg 32 x * sg 32 y)
    /\ (exec_muldiv MULHSU x y = hi -> sg 32 hi * W + lo = sg 32 x * y).
  Proof.
    intros X Y L.
    assert (Fx : fit 32 x) by exact X. assert (Fy : fit 32 y) by exact Y.
    rewrite (mul_spec sdiv udiv srem urem MUL x y _ Fx Fy eq_refl) in L. subst lo.
    rewrite (mul_spec sdiv udiv srem urem MULHU x y _ Fx Fy eq_refl).
    rewrite (mul_spec sdiv udiv srem urem MULH x y _ Fx Fy eq_refl).
    rewrite (mul_spec sdiv udiv srem urem MULHSU x y _ Fx Fy eq_refl).
    assert (Sg : forall z, sg 32 z = z \/ sg 32 z = z - W) by (intros z; unfold sg; destruct (_ <? _); auto).
    assert (Mod : forall p, (p = x * y \/ p = x * y - W * y \/ p = x * y - x * W \/ p = (x - W) * (y - W)) ->
       (x * y) mod W = p mod W).
    { intros p Hp. destruct Hp as [->|[->|[->| ->]]]; auto.
      - replace (x * y - W * y) with (x * y + (- y) * W) by ring. rewrite Z.mod_add by discriminate. auto.
      - replace (x * y - x * W) with (x * y + (- x) * W) by ring. rewrite Z.mod_add by discriminate. auto.
      - replace ((x - W) * (y - W)) with (x * y + (W - x - y) * W) by ring.
        rewrite Z.mod_add by discriminate. auto. }
    assert (Q : forall p, - (W / 2) <= p / W < W / 2 -> (x * y) mod W = p mod W ->
       sg 32 ((p / W) mod W) * W + (x * y) mod W = p).
    { intros p R M. rewrite M. pose proof (Z.div_mod p W ltac:(discriminate)) as D.
      assert (E : sg 32 ((p / W) mod W) = p / W); [|rewrite E; lia].
      change (W / 2) with 2147483648 in R. unfold sg. change (2 ^ (32 - 1)) with 2147483648.
      change (2 ^ 32) with W.
      destruct (Z_lt_ge_dec (p / W) 0) as [Ng|Nn].
      - replace ((p / W) mod W) with (p / W + W).
        + unfold W in *. destruct (Z.ltb_spec (p / 4294967296 + 4294967296) 2147483648); lia.
        + apply Z.mod_unique with (-1); unfold W in *; lia.
      - rewrite Z.mod_small by (unfold W in *; lia).
        destruct (Z.ltb_spec (p / W) 2147483648); lia. }
    pose proof (sg_range 32 x ltac:(lia) Fx) as Rx. pose proof (sg_range 32 y ltac:(lia) Fy) as Ry.
    change (2 ^ (32 - 1)) with 2147483648 in Rx, Ry.
    split; [|split]; intros <-.
    - pose proof (Z.div_mod (x * y) W ltac:(discriminate)). lia.
    - apply Q.
      + unfold W. change (4294967296 / 2) with 2147483648. split.
        * apply Z.div_le_lower_bound; nia.
        * apply Z.div_lt_upper_bound; nia.
      + apply Mod. destruct (Sg x) as [->| ->], (Sg y) as [->| ->]; auto.
        * right. right. left. ring.
        * right. left. ring.
    - apply Q.
      + unfold W in *. change (4294967296 / 2) with 2147483648. split.
        * apply Z.div_le_lower_bound; nia.
        * apply Z.div_lt_upper_bound; nia.
      + apply Mod. destruct (Sg x) as [->| ->]; auto. right. left. ring.
  Qed.
End Cores.

(** ** Concrete cases and refutations *)

(** Some division: the results do not matter below. *)
Definition zero_div (a b : Z) : Z := 0.
Lemma zero_div_words : forall a b : Z,
  fit 32 (zero_div a b) /\ fit 32 (zero_div a b) /\ fit 32 (zero_div a b) /\ fit 32 (zero_div a b).
Proof. intros. assert (F : fit 32 0) by (unfold fit; split; [lia|reflexivity]). repeat split; apply F. Qed.

Notation step0 := (step zero_div zero_div zero_div zero_div).
Notation reach0 := (reach zero_div zero_div zero_div zero_div).
Notation mappable0 := (mappable zero_div zero_div zero_div zero_div).

Ltac isa := vm_compute; intuition discriminate.
Ltac fitz := unfold fit; split; [lia|reflexivity].

(** x1 = 5, x2 = 32, x3 = -3 *)
Definition rf_ex : rfile := [(0, 0); (1, 5); (2, 32); (3, 4294967293)].
Lemma rf_ex_reach c : reach0 c rf_ex.
Proof.
  change rf_ex with (rf_store (rf_store (rf_store rf_init 1 5) 2 32) 3 4294967293).
  repeat apply reach_store; try apply reach_init; fitz.
Qed.

(** SLL x4, x1, x2 with x2 = 32. *)
Theorem C48_full_refuted : ~ C48_full zero_div zero_div zero_div zero_div.
Proof.
  intros H. specialize (H Base32 rf_ex (OP (mkR 4 1 2) (aShift SLL)) 0 (rf_ex_reach Base32)).
  destruct H as (x & Ag & H); [isa|reflexivity|fitz|].
  cbn [sp_step sp_shift r_rd r_rs1 r_rs2] in H.
  rewrite (Ag 1 5 eq_refl), (Ag 2 32 eq_refl) in H. destruct H as (rf' & S & Q).
  assert (E : rf' = snd (step0 Base32 rf_ex (OP (mkR 4 1 2) (aShift SLL)) 0)) by (rewrite S; reflexivity).
  specialize (Q 4). rewrite E in Q. vm_compute in Q. discriminate Q.
Qed.

(** The same step stops with KeyError on a fresh simulator. *)
Example C48_unwritten_case :
  step0 Base32 rf_init (OP (mkR 4 1 2) (aArith ADD)) 0 = (Err KeyError, rf_init).
Proof. apply (C48_unwritten zero_div zero_div zero_div zero_div Base32 rf_init _ 0 1); [reflexivity|cbn; auto|reflexivity]. Qed.

(** A program with a loop: x1 is decremented until it is 0, then the branch
    falls through; -3 < 5 is a signed comparison. *)
Definition prog (pc : Z) : inst :=
  if pc =? 0 then OP_IMM (oArith (mkI 1 1 4095) ADD)            (* addi x1, x1, -1 *)
  else if pc =? 4 then Branch (mkB 1 0 4094) BNE                 (* bne x1, x0, -4 *)
  else if pc =? 8 then OP (mkR 5 3 2) (aArith SLT)               (* slt x5, x3, x2 *)
  else if pc =? 12 then JALR (mkI 6 5 0)                         (* jalr x6, x5, 0 *)
  else LUI (mkU 7 1048575).

Definition full_rf : rfile := fold_left (fun rf i => rf_store rf (Z.of_nat i) 0) (seq 4 28) rf_ex.
Definition full_x (r : Z) : Z := if r =? 1 then 5 else if r =? 2 then 32 else if r =? 3 then 4294967293 else 0.

Lemma full_rf_reach c : reach0 c full_rf.
Proof.
  unfold full_rf. assert (H : forall l rf, reach0 c rf -> (forall i, In i l -> (i < 32)%nat) ->
    reach0 c (fold_left (fun rf i => rf_store rf (Z.of_nat i) 0) l rf)).
  { induction l as [|i l IH]; intros rf R L; [exact R|]. cbn [fold_left]. apply IH.
    - apply reach_store; auto; [|fitz]. specialize (L i ltac:(cbn; auto)).
      unfold fit. change (2 ^ 5) with 32. lia.
    - intros j J. apply L. right. exact J. }
  apply H; [apply rf_ex_reach|]. intros i I. apply in_seq in I. lia.
Qed.

Lemma full_rf_x : full_file full_rf full_x.
Proof.
  intros r R. assert (I : In r (pyrange 0 32)) by (apply pyrange_In; lia).
  clear R. revert r I. apply Forall_forall. vm_compute. repeat constructor.
Qed.

Lemma prog_ok pc : in_isa Base32 (prog pc) /\ rv32i (prog pc) = true.
Proof.
  unfold prog. repeat destruct (_ =? _); (split; [|reflexivity]); isa.
Qed.

Example C48_program_case :
  exists rf', steps zero_div zero_div zero_div zero_div 13 Base32 prog full_rf 0 = (Ok 4, rf')
    /\ rf_load rf' 1 = Ok 4294967295 /\ rf_load rf' 5 = Ok 1 /\ rf_load rf' 6 = Ok 16.
Proof.
  destruct (C48_program_partial zero_div zero_div zero_div zero_div zero_div_words Base32 prog 13
              full_rf full_x 0 (full_rf_reach Base32) full_rf_x) as (rf' & S & F).
  - fitz.
  - apply prog_ok.
  - vm_compute. repeat split.
  - exists rf'. split; [|split; [|split]].
    + rewrite S. vm_compute. reflexivity.
    + rewrite (F 1) by lia. vm_compute. reflexivity.
    + rewrite (F 5) by lia. vm_compute. reflexivity.
    + rewrite (F 6) by lia. vm_compute. reflexivity.
Qed.

Example C48_big_shift_case :
  step0 Base32 rf_ex (OP (mkR 4 3 2) (aShift SRA)) 8 = (Ok 12, rf_store rf_ex 4 4294967295).
Proof.
  apply (C48_big_shift zero_div zero_div zero_div zero_div zero_div_words Base32 rf_ex
           (mkR 4 3 2) SRA 8 4294967293 32 (rf_ex_reach Base32));
    try reflexivity; try lia; try fitz. isa.
Qed.

Example C49_case : rf_load (snd (step0 Base32 rf_ex (LUI (mkU 0 1)) 0)) 0 = Ok 0.
Proof.
  apply (C49_simulator zero_div zero_div zero_div zero_div zero_div_words Base32).
  apply reach_step; [apply rf_ex_reach|isa|fitz].
Qed.

(** Accessors returning constants where the member does not match. *)
Definition acc0 : access := mkAcc
  (fun i => match i with OP d t => (d, t) | _ => (mkR 1 1 1, aShift SRA) end)
  (fun i => match i with OP_IMM o => o | _ => oArith (mkI 1 1 1) SUB end)
  (fun o => match o with oArith d t => (d, t) | _ => (mkI 2 2 2, OR) end)
  (fun o => match o with oShift d t => (d, t) | _ => (mkIs 2 2 2, SLL) end)
  (fun i => match i with LUI d => d | _ => mkU 1 1 end)
  (fun i => match i with AUIPC d => d | _ => mkU 1 1 end)
  (fun i => match i with JAL d => d | _ => mkJ 1 1 end)
  (fun i => match i with JALR d => d | _ => mkI 1 1 1 end)
  (fun i => match i with Branch d t => (d, t) | _ => (mkB 1 1 1, BEQ) end)
  (fun i => match i with Ext d t => (d, t) | _ => (mkE 1 1, POPCNT) end)
  (fun x => match x with aArith t => t | _ => XOR end)
  (fun x => match x with aShift t => t | _ => SRL end)
  (fun x => match x with aMulDiv t => t | _ => REMU end).
Lemma acc0_ok : acc_ok acc0.
Proof. repeat split. Qed.

Theorem C50_full_refuted : ~ C50_full zero_div zero_div zero_div zero_div.
Proof.
  intros H.
  destruct (H acc0 Base32 rf_ex (fun r => if r =? 1 then 5 else 32) (OP_IMM (oArith (mkI 2 1 3) SUB)) 0 5 0 32
              acc0_ok (rf_ex_reach Base32)) as (next & rf' & S & _).
  - isa.
  - fitz.
  - intros r [<-|[<-|[]]]; reflexivity.
  - reflexivity.
  - exact Logic.I.
  - reflexivity.
  - discriminate S.
Qed.

Example C50_case : mappable0 acc0 Base32 (Branch (mkB 3 1 4090) BLT) 100 4294967293 5 7 = (88, 7).
Proof.
  destruct (C50_agree_partial zero_div zero_div zero_div zero_div zero_div_words acc0 Base32 rf_ex
              (fun r => if r =? 3 then 4294967293 else 5) (Branch (mkB 3 1 4090) BLT) 100 4294967293 5 7
              acc0_ok (rf_ex_reach Base32)) as (next & rf' & S & N & D);
    [isa|fitz|intros r [<-|[<-|[]]]; reflexivity|reflexivity|reflexivity|exact Logic.I|reflexivity|].
  vm_compute in S. injection S as <- <-.
  rewrite (surjective_pairing (mappable0 _ _ _ _ _ _ _)). rewrite N.
  cbn [rd_of] in D. rewrite D. reflexivity.
Qed.

(** The mappable core keeps rs1 and rs2 apart even when they are the same
    register: this result belongs to no register file. *)
Theorem C50_alias_refuted :
  ~ (forall A c i pc a b d, acc_ok A -> in_isa c i -> fit 32 pc -> fit 32 a -> fit 32 b -> fit 32 d ->
     is_subi i = false ->
     exists rf, reach0 c rf /\ fst (step0 c rf i pc) = Ok (fst (mappable0 A c i pc a b d))).
Proof.
  intros H. destruct (H acc0 Base32 (Branch (mkB 1 1 8) BNE) 0 1 2 0 acc0_ok) as (rf & R & E);
    try fitz; try reflexivity.
  - isa.
  - vm_compute (mappable0 _ _ _ _ _ _ _) in E. cbn [fst] in E.
    destruct (rf_load_cases rf 1) as [[v V]|V].
    + pose proof (reach_wf zero_div zero_div zero_div zero_div zero_div_words Base32 rf R) as [_ Wf].
      pose proof (C48_step_partial zero_div zero_div zero_div zero_div zero_div_words Base32 rf
                    (Branch (mkB 1 1 8) BNE) 0 (fun _ => v) R) as S.
      cbn [sp_step sp_cond] in S. rewrite Z.eqb_refl in S. cbn [negb] in S.
      destruct S as (rf' & S & _).
      * isa.
      * reflexivity.
      * fitz.
      * intros r [<-|[<-|[]]]; exact V.
      * reflexivity.
      * rewrite S in E. vm_compute in E. discriminate E.
    + rewrite (C48_unwritten zero_div zero_div zero_div zero_div Base32 rf (Branch (mkB 1 1 8) BNE) 0 1
                 eq_refl ltac:(cbn; auto) V) in E. discriminate E.
Qed.

Example C52_case : bitcounter CNTLZ 4096 = Ok 19 /\ bitcounter CNTTZ 4096 = Ok 12
  /\ bitcounter POPCNT 4294967293 = Ok 31 /\ bitcounter CNTLZ 0 = Ok 32.
Proof.
  refine (conj _ (conj _ (conj _ _))).
  - apply (C52_meaning 4096 19); [lia|]. vm_compute. split; [discriminate|reflexivity].
  - apply (proj2 (C52_meaning 4096 12 ltac:(lia)) 0); [lia|reflexivity|reflexivity].
  - rewrite C52_counts by (split; [lia|reflexivity]). reflexivity.
  - rewrite C52_counts by (split; [lia|reflexivity]). reflexivity.
Qed.

Example C52_step_case :
  exists rf', step0 CoreExt rf_ex (Ext (mkE 4 3) POPCNT) 4294967292 = (Ok 0, rf')
    /\ rf_load rf' 4 = Ok 31.
Proof.
  destruct (C52_step zero_div zero_div zero_div zero_div zero_div_words rf_ex (mkE 4 3) POPCNT
              4294967292 4294967293 (rf_ex_reach CoreExt) eq_refl) as (rf' & S & Q).
  exists rf'. split; [rewrite S; reflexivity|]. rewrite Q. reflexivity.
Qed.

Example C53_case :
  exists rf', step0 CoreM rf_ex (OP (mkR 4 3 1) (aMulDiv MULHSU)) 0 = (Ok 4, rf')
    /\ rf_load rf' 4 = Ok 4294967295.
Proof.
  destruct (C53_step zero_div zero_div zero_div zero_div zero_div_words rf_ex (mkR 4 3 1) MULHSU 0
              4294967293 5 4294967295 (rf_ex_reach CoreM) eq_refl eq_refl eq_refl) as (rf' & S & Q).
  exists rf'. split; [rewrite S; reflexivity|]. rewrite Q. reflexivity.
Qed.

Print Assumptions C48_step_partial.
Print Assumptions C48_unwritten.
Print Assumptions C48_big_shift.
Print Assumptions C48_program_partial.
Print Assumptions C48_full_refuted.
Print Assumptions C49_simulator.
Print Assumptions C49_file.
Print Assumptions C49_mappable.
Print Assumptions C50_agree_partial.
Print Assumptions C50_subi.
Print Assumptions C50_full_refuted.
Print Assumptions C50_alias_refuted.
Print Assumptions C52_counts.
Print Assumptions C52_counts_smt.
Print Assumptions C52_step.
Print Assumptions C52_meaning.
Print Assumptions C53_step.
Print Assumptions C53_halves.
