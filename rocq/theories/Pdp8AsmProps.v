(** C67, C68: PDP-8 programs and the mnemonics of the PDP-8 assembler. *)
From Coq Require Import ZArith List Bool Lia Permutation.
From Verif Require Import Base BaseLemmas BvModel BvLemmas Pdp8Model Pdp8Props.
Import ListNotations.
Open Scope Z_scope.

(** ** C68: the mnemonics *)

(** The mnemonics without operands and what the comments of the assembler say
    about them: new accumulator and link, whether the next instruction is
    skipped, whether the machine goes on. *)
Inductive mnem :=
| mCLA | mCMA | mSTA | mCLL | mCML | mSTL | mGLK | mIAC | mRAR | mRTR | mLSR | mRAL | mRTL
| mLSL | mNOP | mCIA | mSZA | mSNA | mSMA | mSPA | mSZL | mSNL | mSKP | mHLT.

Definition assemble (x : mnem) : res inst8 :=
  match x with
  | mCLA => asm_cla [] | mCMA => asm_cma [] | mSTA => asm_sta | mCLL => asm_cll []
  | mCML => asm_cml [] | mSTL => asm_stl | mGLK => asm_glk | mIAC => asm_iac []
  | mRAR => asm_rar [] | mRTR => asm_rtr [] | mLSR => asm_lsr | mRAL => asm_ral []
  | mRTL => asm_rtl [] | mLSL => asm_lsl | mNOP => asm_nop | mCIA => asm_cia []
  | mSZA => Ok asm_sza | mSNA => Ok asm_sna | mSMA => Ok asm_sma | mSPA => Ok asm_spa
  | mSZL => Ok asm_szl | mSNL => Ok asm_snl | mSKP => Ok asm_skp | mHLT => Ok asm_hlt
  end.

Definition meaning (x : mnem) (a : Z) (l : bool) : Z * bool * bool * bool :=
  match x with
  | mCLA => (0, l, false, true)
  | mCMA => (4095 - a, l, false, true)
  | mSTA => (4095, l, false, true)
  | mCLL => (a, false, false, true)
  | mCML => (a, negb l, false, true)
  | mSTL => (a, true, false, true)
  | mGLK => ((if l then 1 else 0), false, false, true)
  | mIAC => ((a + 1) mod 4096, l, false, true)
  | mRAR => (fst (right1 (a, l)), snd (right1 (a, l)), false, true)
  | mRTR => (fst (right1 (right1 (a, l))), snd (right1 (right1 (a, l))), false, true)
  | mLSR => (a / 2, Z.odd a, false, true)
  | mRAL => (fst (left1 (a, l)), snd (left1 (a, l)), false, true)
  | mRTL => (fst (left1 (left1 (a, l))), snd (left1 (left1 (a, l))), false, true)
  | mLSL => (2 * a mod 4096, 2048 <=? a, false, true)
  | mNOP => (a, l, false, true)
  | mCIA => (- a mod 4096, l, false, true)
  | mSZA => (a, l, a =? 0, true)
  | mSNA => (a, l, negb (a =? 0), true)
  | mSMA => (a, l, 2048 <=? a, true)
  | mSPA => (a, l, a <? 2048, true)
  | mSZL => (a, l, negb l, true)
  | mSNL => (a, l, l, true)
  | mSKP => (a, l, true, true)
  | mHLT => (a, l, false, false)
  end.

(** The machine is running and at [p], where [i] is stored. *)
Definition at_inst (m : pdp8) (p : Z) (i : inst8) : Prop :=
  running m = true /\ pc m = VB 12 p /\ in12 p /\ mem m p = VInst i /\ in12 (acc m).

Definition does (p_is_zero : mp -> bool) (x : mnem) (i : inst8) : Prop :=
  forall m p, at_inst m p i ->
  let '(a, l, sk, go) := meaning x (acc m) (lnk m) in
  step p_is_zero m =
    Ok (Pdp8 (VB 12 (if (sk : bool) then (p + 2) mod 4096 else (p + 1) mod 4096)) a l go (mem m)).

Definition C68_full : Prop := forall p_is_zero x,
  exists i, assemble x = Ok i /\ does p_is_zero x i.

Lemma step_opr1 pz m p x : at_inst m p (IOpr1 x) ->
  step pz m = Ok (Pdp8 (VB 12 ((p + 1) mod 4096)) (fst (do_opr1 x (acc m) (lnk m)))
                    (snd (do_opr1 x (acc m) (lnk m))) true (mem m)).
Proof.
  intros (Run & Pc & P & M & A). unfold step. rewrite Run, Pc. cbn [negb]. unfold load.
  rewrite index_ok by exact P. cbn [bind add1]. rewrite M.
  destruct (do_opr1 x (acc m) (lnk m)) as [a l]. reflexivity.
Qed.

Lemma step_opr2 pz m p x : at_inst m p (IOpr2 x) ->
  step pz m = Ok (Pdp8 (VB 12 (if skips x (acc m) (lnk m) then (p + 2) mod 4096 else (p + 1) mod 4096))
                    (if cla2 x then 0 else acc m) (lnk m) (if hlt x then false else true) (mem m)).
Proof.
  intros (Run & Pc & P & M & A). unfold step. rewrite Run, Pc. cbn [negb]. unfold load.
  rewrite index_ok by exact P. cbn [bind add1]. rewrite M.
  destruct (skips x (acc m) (lnk m)); [|reflexivity]. cbn [bind add1].
  assert (E : wrap 12 (wrap 12 (p + 1) + 1) = (p + 2) mod 4096).
  { unfold wrap. rewrite P12, Z.add_mod_idemp_l by discriminate. rewrite <- Z.add_assoc. reflexivity. }
  rewrite E. reflexivity.
Qed.

(** Missing for C68: GLK, SZL and SNL. *)
Theorem C68_mnemonics_partial : forall p_is_zero x,
  x <> mGLK -> x <> mSZL -> x <> mSNL ->
  exists i, assemble x = Ok i /\ does p_is_zero x i.
Proof.
  intros pz x G Z N.
  destruct x; try (exfalso; auto; fail); (eexists; split; [reflexivity|]); unfold does; intros m p At;
    pose proof At as (_ & _ & _ & _ & A);
    cbn [meaning];
    first [rewrite (step_opr1 pz m p _ At) | rewrite (step_opr2 pz m p _ At)];
    unfold do_opr1; cbn [cla1 cll cma cml rar ral twice iac given1 existsb kw1_eqb orb negb];
    try reflexivity.
  - (* CMA *) cbn [fst snd]. rewrite bvnot12 by exact A. reflexivity.
  - (* RAR *) pose proof (ror1 (acc m) (lnk m) A) as H. cbv zeta in H. rewrite H. reflexivity.
  - (* RTR *) pose proof (ror2 (acc m) (lnk m) A) as H. cbv zeta in H. rewrite H. reflexivity.
  - (* LSR *) pose proof (ror1 (acc m) false A) as H. cbv zeta in H. rewrite H.
    unfold right1. cbn [fst snd]. rewrite Z.add_0_r. reflexivity.
  - (* RAL *) pose proof (rol1 (acc m) (lnk m) A) as H. cbv zeta in H. rewrite H.
    destruct (left1 (acc m, lnk m)). reflexivity.
  - (* RTL *) pose proof (rol2 (acc m) (lnk m) A) as H. cbv zeta in H. rewrite H.
    destruct (left1 (left1 (acc m, lnk m))). reflexivity.
  - (* LSL *) pose proof (rol1 (acc m) false A) as H. cbv zeta in H. rewrite H.
    unfold left1. cbn [fst snd]. rewrite Z.add_0_r. reflexivity.
  - (* CIA *) cbn [fst snd]. rewrite bvnot12 by exact A. unfold bvadd, wrap. rewrite P12.
    replace (4095 - acc m + 1) with (- acc m + 1 * 4096) by ring.
    rewrite Z.mod_add by discriminate. reflexivity.
  - (* SMA *) unfold skips. cbn [sma sza snl skip orb negb]. rewrite bit11 by exact A.
    destruct (2048 <=? acc m); reflexivity.
  - (* SPA *) unfold skips. cbn [sma sza snl skip orb negb andb]. rewrite bit11 by exact A.
    rewrite Z.ltb_antisym. destruct (2048 <=? acc m); reflexivity.
Qed.

(** A program of one mnemonic, from its file to the result. *)
Example C68_mnemonics_case : exists i,
  assemble mRTL = Ok i /\ at_inst (poke_lnk (poke_acc (pdp8_init [VInst i]) 3000) true) 0 i /\
  meaning mRTL 3000 true = (3811, false, false, true).
Proof.
  eexists. split; [reflexivity|]. split; [|reflexivity].
  unfold at_inst. repeat split; vm_compute; intuition discriminate.
Qed.

(** No mnemonic asks for the switch register (osr), which the simulator does not
    have and ignores; only HLT halts. *)
Theorem C68_bits : forall x i, assemble x = Ok (IOpr2 i) -> osr i = false /\ (hlt i = true <-> x = mHLT).
Proof. intros x i E. destruct x; try discriminate E; injection E as <-; split; try reflexivity; split; intros X; (reflexivity || discriminate X). Qed.

(** GLK cannot be assembled (it passes a keyword opr1 does not have), SZL and SNL
    skip exactly when they should not. *)
Theorem C68_glk_refuted : assemble mGLK = Err TypeError.
Proof. reflexivity. Qed.

Theorem C68_link_refuted : forall p_is_zero x i m p,
  x = mSZL \/ x = mSNL -> assemble x = Ok i -> at_inst m p i ->
  let '(a, l, sk, go) := meaning x (acc m) (lnk m) in
  step p_is_zero m =
    Ok (Pdp8 (VB 12 (if negb sk then (p + 2) mod 4096 else (p + 1) mod 4096)) a l go (mem m)).
Proof.
  intros pz x i m p [->| ->] E At; inversion E; subst i; cbn [meaning];
    rewrite (step_opr2 pz m p _ At); unfold skips;
    cbn [sma sza snl skip orb negb andb cla2 hlt];
    destruct (lnk m); reflexivity.
Qed.

Theorem C68_full_refuted : ~ C68_full.
Proof.
  intros F. destruct (F no_match mGLK) as (i & E & _). discriminate E.
Qed.

(** Conditions of one group together: SMA and SZA skip if one holds, SPA and SNA if
    both hold; CLA and HLT can be added. *)
Theorem C68_conditions : forall p_is_zero m p c1 c2 cla hlt,
  (let k := Kw2 cla c1 c2 false false false false false false hlt in
   at_inst m p (asm_opr2 k) ->
   let sk := (c1 && (2048 <=? acc m)) || (c2 && (acc m =? 0)) in
   step p_is_zero m =
     Ok (Pdp8 (VB 12 (if sk then (p + 2) mod 4096 else (p + 1) mod 4096))
           (if cla then 0 else acc m) (lnk m) (negb hlt) (mem m))) /\
  (let k := Kw2 cla false false false c1 c2 false false false hlt in
   at_inst m p (asm_opr2 k) -> c1 || c2 = true ->
   let sk := (negb c1 || (acc m <? 2048)) && (negb c2 || negb (acc m =? 0)) in
   step p_is_zero m =
     Ok (Pdp8 (VB 12 (if sk then (p + 2) mod 4096 else (p + 1) mod 4096))
           (if cla then 0 else acc m) (lnk m) (negb hlt) (mem m))).
Proof.
  intros pz m p c1 c2 cla hl. split.
  - intros k At sk. pose proof At as (_ & _ & _ & _ & A). rewrite (step_opr2 pz m p _ At).
    unfold skips, sk, k. cbn [sma sza snl skip cla2 hlt q_cla q_sma q_sza q_snl q_spa q_sna q_szl q_skip q_osr q_hlt].
    rewrite bit11 by exact A.
    destruct c1, c2; cbn [orb andb negb]; destruct (2048 <=? acc m), (acc m =? 0), hl; reflexivity.
  - intros k At C sk. pose proof At as (_ & _ & _ & _ & A). rewrite (step_opr2 pz m p _ At).
    unfold skips, sk, k. cbn [sma sza snl skip cla2 hlt q_cla q_sma q_sza q_snl q_spa q_sna q_szl q_skip q_osr q_hlt].
    rewrite bit11 by exact A. rewrite Z.ltb_antisym.
    destruct c1, c2; try discriminate C; cbn [orb andb negb]; destruct (2048 <=? acc m), (acc m =? 0), hl; reflexivity.
Qed.
Example C68_conditions_case :
  let k := Kw2 true true true false false false false false false false in
  at_inst (poke_acc (pdp8_init [VInst (asm_opr2 k)]) 0) 0 (asm_opr2 k).
Proof. unfold at_inst. repeat split; vm_compute; intuition discriminate. Qed.

(** Mixing the groups only prints a message: the result is the instruction for
    the second group with all the conditions, so [sma=1, sna=1] is [spa=1, sna=1]. *)
Theorem C68_mixed : forall k, q_spa k || q_sna k || q_szl k = true ->
  asm_opr2 k = asm_opr2 (Kw2 (q_cla k) false false false (q_sma k || q_spa k)
                           (q_sza k || q_sna k) (q_snl k || q_szl k) false (q_osr k) (q_hlt k)).
Proof.
  intros [c a b d e f g h i j]. cbn. intros H. unfold asm_opr2. cbn.
  destruct a, b, d, e, f, g; try discriminate H; reflexivity.
Qed.

(** The order of the keywords does not matter, and a mnemonic with further
    keywords is the call of opr1 with all of them. *)
Lemma given1_perm k l l' : Permutation l l' -> given1 k l = given1 k l'.
Proof.
  unfold given1. induction 1 as [|x l l' _ IH|x y l|l1 l2 l3 _ IH1 _ IH2]; cbn; auto.
  - rewrite IH. reflexivity.
  - rewrite !orb_assoc, (orb_comm (kw1_eqb k y)). reflexivity.
  - congruence.
Qed.
Lemma kw1_eqb_sym x y : kw1_eqb x y = kw1_eqb y x.
Proof. destruct x, y; reflexivity. Qed.
Lemma dup1_perm l l' : Permutation l l' -> dup1 l = dup1 l'.
Proof.
  induction 1 as [|x l l' P IH|x y l|l1 l2 l3 _ IH1 _ IH2]; cbn [dup1]; auto.
  - rewrite IH, (given1_perm x l l' P). reflexivity.
  - cbn [given1 existsb]. unfold given1. cbn [existsb]. rewrite (kw1_eqb_sym y x).
    destruct (kw1_eqb x y), (existsb (kw1_eqb x) l), (existsb (kw1_eqb y) l); reflexivity.
  - congruence.
Qed.
Theorem C68_keywords : forall l l',
  Permutation l l' -> asm_opr1 l = asm_opr1 l' /\
  asm_cla l = asm_opr1 (Kcla :: l') /\ asm_cia l = asm_opr1 (Kiac :: Kcma :: l').
Proof.
  assert (G : forall l l', Permutation l l' -> asm_opr1 l = asm_opr1 l').
  { intros l l' P. unfold asm_opr1. rewrite (dup1_perm l l' P).
    rewrite !(fun k => given1_perm k l l' P). reflexivity. }
  intros l l' P. split; [apply G, P|]. split; apply G.
  - apply perm_skip, P.
  - apply perm_trans with (Kiac :: Kcma :: l); [apply perm_swap|]. apply perm_skip, perm_skip, P.
Qed.
Example C68_keywords_case :
  asm_cla [Kcll; Kiac] = asm_opr1 [Kiac; Kcla; Kcll] /\ is_ok (asm_cla [Kcll; Kiac]) = true /\
  asm_cla [Kcla] = Err TypeError.
Proof. repeat split. Qed.

(** ** C67: the programs of the test-suite, for every operand *)

Lemma step_mri_addr pz (mm : Z -> dv) k p : 0 <= k < 128 -> 0 <= p < 128 ->
  addr pz mm (Mri DIRECT PAGE_ZERO (wrap 7 k)) (VB 12 (wrap 12 (p + 1))) = Ok (VB 17 k).
Proof.
  intros K P. rewrite (wrap_small 7 k) by exact K. unfold addr. cbn [m_p m_i m_addr].
  assert (S : slice (wrap 12 (wrap 12 (p + 1) - 1)) 7 12 = 0).
  { rewrite (wrap_small 12 (p + 1)) by (rewrite P12; lia). replace (p + 1 - 1) with p by lia.
    rewrite (wrap_small 12 p) by (rewrite P12; lia). rewrite slice_eq by lia.
    change (2 ^ 7) with 128. rewrite Z.div_small by lia. reflexivity. }
  destruct (pz PAGE_ZERO); cbn [bind]; [|rewrite S]; rewrite concat12 by lia;
    rewrite Z.mul_0_r, Z.add_0_r; reflexivity.
Qed.

Lemma step_tad pz m p k z : at_inst m p (asm_tad k) -> p < 128 -> 0 <= k < 128 ->
  mem m k = VB 12 z -> in12 z ->
  step pz m = Ok (Pdp8 (VB 12 ((p + 1) mod 4096)) ((acc m + z) mod 4096)
                    (xorb (lnk m) (4096 <=? acc m + z)) true (mem m)).
Proof.
  intros (Run & Pc & P & M & A) P' K D Hz. unfold step. rewrite Run, Pc. cbn [negb]. unfold load.
  rewrite index_ok by exact P. cbn [bind add1]. rewrite M. unfold asm_tad, asm_mri.
  rewrite step_mri_addr by (unfold in12 in P; lia). cbn [bind].
  rewrite index_ok by (unfold in12; lia). cbn [bind]. rewrite D, tad_spec by auto. reflexivity.
Qed.

Lemma step_and pz m p k z : at_inst m p (asm_and k) -> p < 128 -> 0 <= k < 128 ->
  mem m k = VB 12 z ->
  step pz m = Ok (Pdp8 (VB 12 ((p + 1) mod 4096)) (Z.land (acc m) z) (lnk m) true (mem m)).
Proof.
  intros (Run & Pc & P & M & A) P' K D. unfold step. rewrite Run, Pc. cbn [negb]. unfold load.
  rewrite index_ok by exact P. cbn [bind add1]. rewrite M. unfold asm_and, asm_mri.
  rewrite step_mri_addr by (unfold in12 in P; lia). cbn [bind].
  rewrite index_ok by (unfold in12; lia). cbn [bind]. rewrite D. reflexivity.
Qed.

Lemma step_dca pz m p k : at_inst m p (asm_dca k) -> p < 128 -> 0 <= k < 128 ->
  step pz m = Ok (Pdp8 (VB 12 ((p + 1) mod 4096)) 0 (lnk m) true
                    (fun j => if j =? k then VB 12 (acc m) else mem m j)).
Proof.
  intros (Run & Pc & P & M & A) P' K. unfold step. rewrite Run, Pc. cbn [negb]. unfold load, store.
  rewrite index_ok by exact P. cbn [bind add1]. rewrite M. unfold asm_dca, asm_mri.
  rewrite step_mri_addr by (unfold in12 in P; lia). cbn [bind].
  rewrite index_ok by (unfold in12; lia). reflexivity.
Qed.

(** [pdp8 = PDP8(code); pdp8.poke_mem(…)…; pdp8.poke_acc(a0); pdp8.poke_lnk(l0);
    pdp8.run()]. *)
Fixpoint pokes (s : pdp8) (data : list (Z * Z)) : res pdp8 :=
  match data with [] => Ok s | (a, z) :: d => do s' <- poke_mem s a z; pokes s' d end.
Definition test_run (p_is_zero : mp -> bool) (code : list (res inst8)) (data : list (Z * Z))
    (a0 : Z) (l0 : bool) (fuel : nat) : res pdp8 :=
  do c <- mapM (fun x => x) code;
  do s <- pokes (pdp8_init (map VInst c)) data;
  run p_is_zero fuel (poke_lnk (poke_acc s a0) l0).

(** examples/pdp8/test_pdp8.py:259-269, 285-301, 321-342, 354-369, 381-393. *)
Definition prog_add : list (res inst8) :=
  [asm_cla []; Ok (asm_tad 4); Ok (asm_tad 5); Ok asm_hlt].
Definition prog_or : list (res inst8) :=
  [asm_cla []; Ok (asm_tad 10); asm_cma []; Ok (asm_dca 12); Ok (asm_tad 11); asm_cma [];
   Ok (asm_and 12); asm_cma []; Ok asm_hlt].
Definition prog_xor1 : list (res inst8) :=
  [asm_cla []; Ok (asm_tad 14); asm_cma []; Ok (asm_dca 16); Ok (asm_tad 15); asm_cma [];
   Ok (asm_and 16); asm_cma []; Ok (asm_dca 16); Ok (asm_tad 14); Ok (asm_and 15); asm_cma [];
   Ok (asm_and 16); Ok asm_hlt].
Definition prog_xor2 : list (res inst8) :=
  [asm_cla []; Ok (asm_tad 14); Ok (asm_and 15); asm_opr1 [Kcll; Kral]; asm_opr1 [Kcma; Kiac];
   Ok (asm_tad 14); Ok (asm_tad 15); Ok asm_hlt].
Definition prog_cmp : list (res inst8) :=
  [asm_cla [Kcll]; Ok (asm_tad 14); asm_cia []; Ok (asm_tad 15); Ok asm_hlt].

(** The run ends, whatever the fuel above a bound, in a halted state with the
    given accumulator and link. *)
Definition halts_with (r : nat -> res pdp8) (good : Z -> bool -> Prop) : Prop :=
  exists n m, good (acc m) (lnk m) /\ running m = false /\
    forall fuel, (n <= fuel)%nat -> r fuel = Ok m.

Lemma run_step pz n m m' : running m = true -> step pz m = Ok m' -> run pz (S n) m = run pz n m'.
Proof. intros R S. cbn [run]. rewrite R, S. reflexivity. Qed.

Lemma p_next p : 0 <= p < 127 -> (p + 1) mod 4096 = p + 1.
Proof. intros H. apply Z.mod_small. lia. Qed.

Lemma at_ok mm p i a l : 0 <= p < 127 -> mm p = VInst i -> in12 a ->
  at_inst (Pdp8 (VB 12 p) a l true mm) p i.
Proof. intros P M A. unfold at_inst. repeat split; auto; cbn [acc]; unfold in12 in *; lia. Qed.

Lemma run_tad pz n p k z a l mm : mm p = VInst (asm_tad k) -> 0 <= p < 127 -> 0 <= k < 128 ->
  mm k = VB 12 z -> in12 z -> in12 a ->
  run pz (S n) (Pdp8 (VB 12 p) a l true mm) =
  run pz n (Pdp8 (VB 12 (p + 1)) ((a + z) mod 4096) (xorb l (4096 <=? a + z)) true mm).
Proof.
  intros M P K D Hz A. apply run_step; [reflexivity|].
  rewrite (step_tad pz _ p k z (at_ok mm p _ a l P M A)) by (auto; lia).
  cbn [acc lnk mem]. rewrite p_next by lia. reflexivity.
Qed.

(** Adding to 0 is loading. *)
Lemma run_load pz n p k z l mm : mm p = VInst (asm_tad k) -> 0 <= p < 127 -> 0 <= k < 128 ->
  mm k = VB 12 z -> in12 z ->
  run pz (S n) (Pdp8 (VB 12 p) 0 l true mm) = run pz n (Pdp8 (VB 12 (p + 1)) z l true mm).
Proof.
  intros M P K D Hz. rewrite (run_tad pz n p k z); auto; [|unfold in12; lia].
  unfold in12 in Hz. rewrite Z.add_0_l, (Z.mod_small z) by lia.
  destruct (Z.leb_spec 4096 z); [lia|]. rewrite xorb_false_r. reflexivity.
Qed.

Lemma run_and pz n p k z a l mm : mm p = VInst (asm_and k) -> 0 <= p < 127 -> 0 <= k < 128 ->
  mm k = VB 12 z -> in12 a ->
  run pz (S n) (Pdp8 (VB 12 p) a l true mm) =
  run pz n (Pdp8 (VB 12 (p + 1)) (Z.land a z) l true mm).
Proof.
  intros M P K D A. apply run_step; [reflexivity|].
  rewrite (step_and pz _ p k z (at_ok mm p _ a l P M A)) by (auto; lia).
  cbn [acc lnk mem]. rewrite p_next by lia. reflexivity.
Qed.

Lemma run_dca pz n p k a l mm : mm p = VInst (asm_dca k) -> 0 <= p < 127 -> 0 <= k < 128 ->
  in12 a ->
  run pz (S n) (Pdp8 (VB 12 p) a l true mm) =
  run pz n (Pdp8 (VB 12 (p + 1)) 0 l true (fun j => if j =? k then VB 12 a else mm j)).
Proof.
  intros M P K A. apply run_step; [reflexivity|].
  rewrite (step_dca pz _ p k (at_ok mm p _ a l P M A)) by (auto; lia).
  cbn [acc lnk mem]. rewrite p_next by lia. reflexivity.
Qed.

Lemma run_mnem pz n p x i a l mm : x <> mGLK -> x <> mSZL -> x <> mSNL ->
  assemble x = Ok i -> mm p = VInst i -> 0 <= p < 127 -> in12 a ->
  run pz (S n) (Pdp8 (VB 12 p) a l true mm) =
  let '(a', l', sk, go) := meaning x a l in
  run pz n (Pdp8 (VB 12 (if sk then (p + 2) mod 4096 else p + 1)) a' l' go mm).
Proof.
  intros X1 X2 X3 E M P A. destruct (C68_mnemonics_partial pz x X1 X2 X3) as (i' & E' & D).
  assert (i' = i) by congruence. subst i'.
  specialize (D (Pdp8 (VB 12 p) a l true mm) p). cbn [acc lnk mem] in D.
  destruct (meaning x a l) as [[[a' l'] sk] go]. apply run_step; [reflexivity|].
  rewrite (D (at_ok mm p i a l P M A)).
  rewrite p_next by lia. reflexivity.
Qed.

Lemma run_cla_cll pz n p a l mm i : asm_cla [Kcll] = Ok i -> mm p = VInst i -> 0 <= p < 127 -> in12 a ->
  run pz (S n) (Pdp8 (VB 12 p) a l true mm) = run pz n (Pdp8 (VB 12 (p + 1)) 0 false true mm).
Proof.
  intros E M P A. inversion E; subst i. apply run_step; [reflexivity|].
  rewrite (step_opr1 pz _ p _ (at_ok mm p _ a l P M A)).
  rewrite p_next by lia. reflexivity.
Qed.

Lemma run_halted pz n p a l mm : run pz (S n) (Pdp8 p a l false mm) = Ok (Pdp8 p a l false mm).
Proof. reflexivity. Qed.

Ltac in12 := first [assumption | unfold in12 in *; lia].
Ltac mn x := erewrite (run_mnem _ _ _ x);
  [|discriminate|discriminate|discriminate|reflexivity|reflexivity|lia|in12]; cbv beta iota delta [meaning].

Ltac dat := match goal with |- _ = VB 12 ?z =>
  first [reflexivity | change (VB 12 (wrap 12 z) = VB 12 z); rewrite (wrap_small 12 z) by assumption; reflexivity] end.
Ltac ld k z := rewrite (run_load _ _ _ k z); [|reflexivity|lia|lia|dat|in12].
Ltac tad k z := rewrite (run_tad _ _ _ k z); [|reflexivity|lia|lia|dat|in12|in12].
Ltac land k z := rewrite (run_and _ _ _ k z); [|reflexivity|lia|lia|dat|in12].
Ltac dca k := rewrite (run_dca _ _ _ k); [|reflexivity|lia|lia|in12].

(** The memory after loading a program and poking two cells. *)
Definition loaded (code : list inst8) (x a y b : Z) : Z -> dv :=
  fun j => if j =? y then VB 12 (wrap 12 b) else if j =? x then VB 12 (wrap 12 a) else
    mem (pdp8_init (map VInst code)) j.

Lemma wrap12_in z : in12 (wrap 12 z).
Proof. apply Z.mod_pos_bound. reflexivity. Qed.

Theorem C67_add : forall p_is_zero a b a0 l0,
  in12 a -> in12 b ->
  halts_with (test_run p_is_zero prog_add [(4, a); (5, b)] a0 l0)
    (fun r _ => r = (a + b) mod 4096).
Proof.
  intros pz a b a0 l0 A B. pose proof (wrap12_in a0) as A0.
  assert (R : in12 ((a + b) mod 4096)) by (apply Z.mod_pos_bound; reflexivity).
  eexists 5%nat, (Pdp8 (VB 12 4) ((a + b) mod 4096) _ false _).
  split; [reflexivity|]. split; [reflexivity|]. intros fuel F.
  destruct fuel as [|[|[|[|[|k]]]]]; try lia. clear F.
  change (test_run pz prog_add [(4, a); (5, b)] a0 l0 (S (S (S (S (S k))))))
    with (run pz (S (S (S (S (S k))))) (Pdp8 (VB 12 0) (wrap 12 a0) l0 true
           (loaded [IOpr1 (Opr1 true false false false false false false false);
                    asm_tad 4; asm_tad 5; asm_hlt] 4 a 5 b))).
  mn mCLA. ld 4 a. tad 5 b. mn mHLT. apply run_halted.
Qed.

(** Complements. *)
Lemma cma_bits z : in12 z -> 4095 - z = Z.ldiff 4095 z.
Proof.
  intros H. apply Z.sub_nocarry_ldiff. apply Z.bits_inj'. intros n N.
  rewrite Z.ldiff_spec, Z.bits_0. change 4095 with (Z.ones 12).
  destruct (Z.lt_ge_cases n 12).
  - rewrite Z.ones_spec_low by lia. apply andb_false_r.
  - rewrite (testbit_high 12 z) by (auto; lia). reflexivity.
Qed.

Lemma cma_in z : in12 z -> in12 (4095 - z).
Proof. unfold in12. lia. Qed.
Lemma land_in a b : in12 a -> in12 b -> in12 (Z.land a b).
Proof. intros A B. apply (land_range 12); auto; lia. Qed.
Lemma lor_in a b : in12 a -> in12 b -> in12 (Z.lor a b).
Proof. intros A B. apply (lor_range 12); auto; lia. Qed.

Lemma not_and_not a b : in12 a -> in12 b ->
  4095 - Z.land (4095 - b) (4095 - a) = Z.lor a b.
Proof.
  intros A B. rewrite (cma_bits (Z.land _ _)) by (apply land_in; apply cma_in; assumption).
  rewrite (cma_bits a A), (cma_bits b B). apply Z.bits_inj'. intros n N.
  rewrite Z.lor_spec, Z.ldiff_spec, Z.land_spec, !Z.ldiff_spec. change 4095 with (Z.ones 12).
  destruct (Z.lt_ge_cases n 12).
  - rewrite Z.ones_spec_low by lia. destruct (Z.testbit a n), (Z.testbit b n); reflexivity.
  - rewrite (testbit_high 12 a), (testbit_high 12 b), Z.ones_spec_high by (auto; lia). reflexivity.
Qed.
Lemma nand_or a b : in12 a -> in12 b ->
  Z.land (4095 - Z.land a b) (Z.lor a b) = Z.lxor a b.
Proof.
  intros A B. rewrite (cma_bits (Z.land _ _)) by (apply land_in; assumption).
  apply Z.bits_inj'. intros n N.
  rewrite Z.lxor_spec, Z.land_spec, Z.lor_spec, Z.ldiff_spec, Z.land_spec. change 4095 with (Z.ones 12).
  destruct (Z.lt_ge_cases n 12).
  - rewrite Z.ones_spec_low by lia. destruct (Z.testbit a n), (Z.testbit b n); reflexivity.
  - rewrite (testbit_high 12 a), (testbit_high 12 b), Z.ones_spec_high by (auto; lia). reflexivity.
Qed.

Theorem C67_or : forall p_is_zero a b a0 l0,
  in12 a -> in12 b ->
  halts_with (test_run p_is_zero prog_or [(10, a); (11, b)] a0 l0)
    (fun r l => r = Z.lor a b /\ l = l0).
Proof.
  intros pz a b a0 l0 A B. pose proof (wrap12_in a0) as A0.
  pose proof (cma_in a A). pose proof (cma_in b B).
  pose proof (land_in (4095 - b) (4095 - a) ltac:(assumption) ltac:(assumption)).
  pose proof (lor_in a b A B).
  eexists 10%nat, (Pdp8 (VB 12 9) (Z.lor a b) l0 false _).
  split; [split; reflexivity|]. split; [reflexivity|]. intros fuel F.
  destruct fuel as [|[|[|[|[|[|[|[|[|[|k]]]]]]]]]]; try lia. clear F.
  set (n := S (S (S (S (S (S (S (S (S (S k)))))))))).
  change (test_run pz prog_or [(10, a); (11, b)] a0 l0 n)
    with (run pz n (Pdp8 (VB 12 0) (wrap 12 a0) l0 true
           (loaded [IOpr1 (Opr1 true false false false false false false false); asm_tad 10;
                    IOpr1 (Opr1 false false true false false false false false); asm_dca 12; asm_tad 11;
                    IOpr1 (Opr1 false false true false false false false false); asm_and 12;
                    IOpr1 (Opr1 false false true false false false false false); asm_hlt] 10 a 11 b))).
  subst n.
  mn mCLA. ld 10 a. mn mCMA. dca 12. ld 11 b. mn mCMA. land 12 (4095 - a). mn mCMA.
  rewrite not_and_not by assumption. mn mHLT. apply run_halted.
Qed.

Theorem C67_xor1 : forall p_is_zero a b a0 l0,
  in12 a -> in12 b ->
  halts_with (test_run p_is_zero prog_xor1 [(14, a); (15, b)] a0 l0)
    (fun r l => r = Z.lxor a b /\ l = l0).
Proof.
  intros pz a b a0 l0 A B. pose proof (wrap12_in a0) as A0.
  pose proof (cma_in a A). pose proof (cma_in b B).
  pose proof (land_in (4095 - b) (4095 - a) ltac:(assumption) ltac:(assumption)).
  pose proof (lor_in a b A B). pose proof (land_in a b A B).
  pose proof (cma_in (Z.land a b) ltac:(assumption)).
  assert (in12 (Z.lxor a b)) by (rewrite <- nand_or by assumption; apply land_in; assumption).
  eexists 15%nat, (Pdp8 (VB 12 14) (Z.lxor a b) l0 false _).
  split; [split; reflexivity|]. split; [reflexivity|]. intros fuel F.
  destruct fuel as [|[|[|[|[|[|[|[|[|[|[|[|[|[|[|k]]]]]]]]]]]]]]]; try lia. clear F.
  set (n := S (S (S (S (S (S (S (S (S (S (S (S (S (S (S k))))))))))))))).
  change (test_run pz prog_xor1 [(14, a); (15, b)] a0 l0 n)
    with (run pz n (Pdp8 (VB 12 0) (wrap 12 a0) l0 true
           (loaded [IOpr1 (Opr1 true false false false false false false false); asm_tad 14;
                    IOpr1 (Opr1 false false true false false false false false); asm_dca 16; asm_tad 15;
                    IOpr1 (Opr1 false false true false false false false false); asm_and 16;
                    IOpr1 (Opr1 false false true false false false false false); asm_dca 16;
                    asm_tad 14; asm_and 15;
                    IOpr1 (Opr1 false false true false false false false false);
                    asm_and 16; asm_hlt] 14 a 15 b))).
  subst n.
  mn mCLA. ld 14 a. mn mCMA. dca 16. ld 15 b. mn mCMA. land 16 (4095 - a). mn mCMA.
  rewrite not_and_not by assumption. dca 16. ld 14 a. land 15 b. mn mCMA. land 16 (Z.lor a b).
  rewrite nand_or by assumption. mn mHLT. apply run_halted.
Qed.

(** [a + b] is the exclusive or plus twice the carries. *)
Lemma xor_carry a b : a + b = Z.lxor a b + 2 * Z.land a b.
Proof.
  assert (E1 : a = Z.ldiff a b + Z.land a b).
  { rewrite Z.add_nocarry_lxor.
    - apply Z.bits_inj'. intros n N. rewrite Z.lxor_spec, Z.ldiff_spec, Z.land_spec.
      destruct (Z.testbit a n), (Z.testbit b n); reflexivity.
    - apply Z.bits_inj'. intros n N. rewrite Z.bits_0, Z.land_spec, Z.ldiff_spec, Z.land_spec.
      destruct (Z.testbit a n), (Z.testbit b n); reflexivity. }
  assert (E2 : b = Z.ldiff b a + Z.land a b).
  { rewrite Z.add_nocarry_lxor.
    - apply Z.bits_inj'. intros n N. rewrite Z.lxor_spec, Z.ldiff_spec, Z.land_spec.
      destruct (Z.testbit a n), (Z.testbit b n); reflexivity.
    - apply Z.bits_inj'. intros n N. rewrite Z.bits_0, Z.land_spec, Z.ldiff_spec, Z.land_spec.
      destruct (Z.testbit a n), (Z.testbit b n); reflexivity. }
  assert (E3 : Z.lxor a b = Z.ldiff a b + Z.ldiff b a).
  { rewrite Z.add_nocarry_lxor.
    - apply Z.bits_inj'. intros n N. rewrite !Z.lxor_spec, !Z.ldiff_spec.
      destruct (Z.testbit a n), (Z.testbit b n); reflexivity.
    - apply Z.bits_inj'. intros n N. rewrite Z.bits_0, Z.land_spec, !Z.ldiff_spec.
      destruct (Z.testbit a n), (Z.testbit b n); reflexivity. }
  lia.
Qed.

Theorem C67_xor2 : forall p_is_zero a b a0 l0,
  in12 a -> in12 b ->
  halts_with (test_run p_is_zero prog_xor2 [(14, a); (15, b)] a0 l0)
    (fun r _ => r = Z.lxor a b).
Proof.
  intros pz a b a0 l0 A B. pose proof (wrap12_in a0) as A0.
  pose proof (land_in a b A B).
  assert (X : in12 (Z.lxor a b)) by (rewrite <- nand_or by assumption; apply land_in; [apply cma_in|apply lor_in]; assumption).
  set (c := 2 * Z.land a b mod 4096).
  assert (C : in12 c) by (apply Z.mod_pos_bound; reflexivity).
  set (d := - c mod 4096).
  assert (D : in12 d) by (apply Z.mod_pos_bound; reflexivity).
  set (e := (d + a) mod 4096).
  assert (E : in12 e) by (apply Z.mod_pos_bound; reflexivity).
  assert (Res : (e + b) mod 4096 = Z.lxor a b).
  { subst e d. rewrite Z.add_mod_idemp_l by discriminate.
    rewrite <- Z.add_assoc, Z.add_mod_idemp_l by discriminate.
    rewrite (xor_carry a b). subst c.
    replace (- (2 * Z.land a b mod 4096) + (Z.lxor a b + 2 * Z.land a b))
      with (Z.lxor a b + (2 * Z.land a b / 4096) * 4096)
      by (pose proof (Z.div_mod (2 * Z.land a b) 4096 ltac:(discriminate)); lia).
    rewrite Z.mod_add by discriminate. apply Z.mod_small. exact X. }
  eexists 9%nat, (Pdp8 (VB 12 8) (Z.lxor a b) _ false _).
  split; [reflexivity|]. split; [reflexivity|]. intros fuel F.
  destruct fuel as [|[|[|[|[|[|[|[|[|k]]]]]]]]]; try lia. clear F.
  set (n := S (S (S (S (S (S (S (S (S k))))))))).
  change (test_run pz prog_xor2 [(14, a); (15, b)] a0 l0 n)
    with (run pz n (Pdp8 (VB 12 0) (wrap 12 a0) l0 true
           (loaded [IOpr1 (Opr1 true false false false false false false false); asm_tad 14; asm_and 15;
                    IOpr1 (Opr1 false true false false false true false false);
                    IOpr1 (Opr1 false false true false false false false true);
                    asm_tad 14; asm_tad 15; asm_hlt] 14 a 15 b))).
  subst n.
  mn mCLA. ld 14 a. land 15 b. mn mLSL. fold c. mn mCIA. fold d. tad 14 a. fold e. tad 15 b.
  rewrite Res. mn mHLT. apply run_halted.
Qed.

(** The comparison: the link says whether [a <= b], if [a] is not 0. *)
Definition C67_cmp_full : Prop := forall p_is_zero a b a0 l0,
  in12 a -> in12 b ->
  halts_with (test_run p_is_zero prog_cmp [(14, a); (15, b)] a0 l0)
    (fun _ l => l = (a <=? b)).

Lemma cmp_run pz a b a0 l0 : in12 a -> in12 b ->
  halts_with (test_run pz prog_cmp [(14, a); (15, b)] a0 l0)
    (fun r l => r = (b - a) mod 4096 /\ l = negb (a =? 0) && (a <=? b)).
Proof.
  intros A B. pose proof (wrap12_in a0) as A0.
  assert (C : in12 (- a mod 4096)) by (apply Z.mod_pos_bound; reflexivity).
  assert (R : in12 ((- a mod 4096 + b) mod 4096)) by (apply Z.mod_pos_bound; reflexivity).
  eexists 6%nat, (Pdp8 (VB 12 5) ((- a mod 4096 + b) mod 4096) _ false _).
  split; [|split; [reflexivity|intros fuel F]].
  2:{ destruct fuel as [|[|[|[|[|[|k]]]]]]; try lia. clear F.
      set (n := S (S (S (S (S (S k)))))).
      change (test_run pz prog_cmp [(14, a); (15, b)] a0 l0 n)
        with (run pz n (Pdp8 (VB 12 0) (wrap 12 a0) l0 true
               (loaded [IOpr1 (Opr1 true true false false false false false false); asm_tad 14;
                        IOpr1 (Opr1 false false true false false false false true);
                        asm_tad 15; asm_hlt] 14 a 15 b))).
      subst n. erewrite run_cla_cll; [|reflexivity|reflexivity|lia|in12].
      ld 14 a. mn mCIA. tad 15 b. mn mHLT. apply run_halted. }
  cbn [acc lnk]. split.
  - rewrite Z.add_mod_idemp_l by discriminate. f_equal. lia.
  - rewrite xorb_false_l. unfold in12 in *. destruct (Z.eqb_spec a 0) as [->|N]; cbn [negb andb].
    + change (- 0 mod 4096) with 0. apply Z.leb_gt. lia.
    + rewrite <- (Z.mod_add (- a) 1) by discriminate. rewrite Z.mod_small by lia.
      destruct (Z.leb_spec a b); [apply Z.leb_le|apply Z.leb_gt]; lia.
Qed.

Lemma halts_imp r (P Q : Z -> bool -> Prop) : halts_with r P -> (forall a l, P a l -> Q a l) -> halts_with r Q.
Proof. intros (n & m & H & R & F) I. exists n, m. auto. Qed.

(** Missing for the comparison: [a = 0]. *)
Theorem C67_cmp_partial : forall p_is_zero a b a0 l0,
  in12 a -> in12 b -> a <> 0 ->
  halts_with (test_run p_is_zero prog_cmp [(14, a); (15, b)] a0 l0)
    (fun r l => r = (b - a) mod 4096 /\ l = (a <=? b)).
Proof.
  intros pz a b a0 l0 A B N. apply (halts_imp _ _ _ (cmp_run pz a b a0 l0 A B)).
  intros r l [-> ->]. split; [reflexivity|]. apply Z.eqb_neq in N. rewrite N. reflexivity.
Qed.

Theorem C67_cmp_refuted : forall p_is_zero b a0 l0,
  in12 b ->
  halts_with (test_run p_is_zero prog_cmp [(14, 0); (15, b)] a0 l0)
    (fun r l => r = b /\ l = false).
Proof.
  intros pz b a0 l0 B. apply (halts_imp _ _ _ (cmp_run pz 0 b a0 l0 ltac:(unfold in12; lia) B)).
  intros r l [-> ->]. split; [|reflexivity]. rewrite Z.sub_0_r. apply Z.mod_small. exact B.
Qed.
Theorem C67_cmp_full_refuted : ~ C67_cmp_full.
Proof.
  intros F. destruct (F no_match 0 5 0 false) as (n & m & G & _ & R); [unfold in12; lia|unfold in12; lia|].
  destruct (C67_cmp_refuted no_match 5 0 false) as (n' & m' & G' & _ & R'); [unfold in12; lia|].
  specialize (R (n + n')%nat ltac:(lia)). specialize (R' (n + n')%nat ltac:(lia)).
  rewrite R in R'. inversion R'; subst m'. destruct G' as [_ G']. rewrite G in G'. discriminate G'.
Qed.

Example C67_case : in12 3000 /\ in12 2222 /\
  Z.lor 3000 2222 = 3006 /\ Z.lxor 3000 2222 = 790 /\
  match test_run no_match prog_xor1 [(14, 3000); (15, 2222)] 99 true 15 with
  | Ok m => acc m = 790 /\ lnk m = true
  | Err _ => False
  end.
Proof.
  split; [unfold in12; lia|]. split; [unfold in12; lia|].
  split; [vm_compute; reflexivity|]. split; [vm_compute; reflexivity|].
  vm_compute. auto.
Qed.

Print Assumptions C67_add.
Print Assumptions C67_or.
Print Assumptions C67_xor1.
Print Assumptions C67_xor2.
Print Assumptions C67_cmp_partial.
Print Assumptions C67_cmp_refuted.
Print Assumptions C67_cmp_full_refuted.
Print Assumptions C68_mnemonics_partial.
Print Assumptions C68_bits.
Print Assumptions C68_glk_refuted.
Print Assumptions C68_link_refuted.
Print Assumptions C68_full_refuted.
Print Assumptions C68_conditions.
Print Assumptions C68_mixed.
Print Assumptions C68_keywords.
