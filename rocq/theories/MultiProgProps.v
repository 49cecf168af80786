(** C91: programs of several instructions found by [Multi] on Peak classes.

    [Multi(arch, ir, N)] (multi.py) chooses joins and the words of the Const field of [N]
    instructions. Here its answers are stated as calls of the two classes. *)
From Coq Require Import String ZArith List Bool Lia.
From Verif Require Import Base BaseLemmas BindModel MapIdxModel MapIdxProps BindProps MultiModel MultiProps MapModel MapProofs MapMain MapProps MapIff MapIffProps MapDirect
  AsmModel AsmSpec AsmValid AsmEnum AsmBuild AsmProofs AsmSub AsmCheck AsmMore AsmProps Asm2Model Asm2Proofs AadtModel AadtProofs FormModel FormProofs FormMain FormSimp FormProps
  AdtArchModel AdtArchProofs AdtArchMain AdtArchProps RuleAppModel RuleAppProofs RuleAppMain MultiClassModel MultiClassProofs MultiClassMain MultiClassAgree MultiClassProps MultiProgProofs.
Import ListNotations.
Open Scope string_scope.
Open Scope list_scope.
Open Scope Z_scope.

(** [Multi] with [N = n] finds a rewrite rule. *)
Definition multi_finds_n (k : ivar) (real : bool) (n : nat) (C D : pclass) : Prop :=
  exists m sol prog, multi_build lty_eqb k (multi_arch C) (multi_ir D) real n false = Ok m /\
    solution lty_width k (multi_arch C) (multi_ir D) n m sol /\ multi_rr k (multi_arch C) n m sol = Ok prog.
(** The instructions of a program are the words of instructions assembled. *)
Definition assembled (m0 : mty) (prog : list (MultiModel.binding * list Z)) : Prop :=
  forall b ws, In (b, ws) prog -> exists w v, ws = [w] /\ has_ty (strip m0) v /\ canonical (strip m0) w v.
(** The call does not depend on unused bits of the instruction word. *)
Definition inst_blind (C : pclass) (k0 : key) (m0 : mty) : Prop :=
  forall i ws ws' w w' v, nth_error (c_in C) i = Some (k0, m0) -> Forall2 word_of (c_in C) ws -> Forall2 word_of (c_in C) ws' ->
    nth_error ws i = Some w -> nth_error ws' i = Some w' -> encodes (strip m0) w v -> encodes (strip m0) w' v ->
    (forall j, j <> i -> nth_error ws j = nth_error ws' j) -> c_call C ws = c_call C ws'.

Definition put (i : nat) (z : Z) (l : list Z) : list Z := firstn i l ++ z :: skipn (S i) l.
Lemma put_nth i z : forall l j, (i < length l)%nat -> nth_error (put i z l) j = if Nat.eqb j i then Some z else nth_error l j.
Proof.
  unfold put. induction i as [|i IH]; intros l j L; destruct l as [|y l]; cbn [length] in L; try lia.
  - destruct j; reflexivity.
  - destruct j as [|j]; [reflexivity|]. cbn [firstn app nth_error Nat.eqb]. apply (IH l j). lia.
Qed.

Section C91.
  Variables (C D : pclass) (k0 : key) (m0 : mty).
  Hypothesis HC : prog_arch C k0 m0.
  Hypothesis HD : prog_ir D.
  Variable h : list ty.
  Hypothesis Wh : Forall wf_ty (in_ty C :: h).
  Hypothesis Bh : built h (in_ty C) (c_ia C).
  Hypothesis SW : same_width (in_ty C :: h).
  Hypothesis NM : no_multi_range (strip m0).

  (** The programs shown for solutions are exactly the programs of [n] instructions whose
      words encode instructions and that implement the IR instruction. *)
  Theorem C91_exact k real n m prog : multi_build lty_eqb k (multi_arch C) (multi_ir D) real n false = Ok m ->
    ((exists sol, solution lty_width k (multi_arch C) (multi_ir D) n m sol /\ multi_rr k (multi_arch C) n m sol = Ok prog) <->
     length prog = n /\ wiring C D prog /\ coded m0 prog /\ exists ob, chooses C D ob /\ implements C D prog ob).
  Proof.
    intros E. pose proof (p_regular C D k0 m0 HC HD) as R. rewrite (C60_exact lty lty_width lty_eqb (proj2 eqs_lty) k _ _ real n false m prog R E).
    assert (0 < n)%nat as L.
    { pose proof (MultiProps.r_in _ _ _ R) as N. rewrite map_app in N. apply NoDup_app_iff in N.
      assert (exists m, multi_build lty_eqb k (multi_arch C) (multi_ir D) real n false = Ok m) as X by eauto.
      apply (C46_build lty lty_eqb (proj2 eqs_lty)) in X; [|apply N|apply R|apply R]. tauto. }
    rewrite (program_iff C D k0 m0 HC HD h Wh Bh SW NM n prog). split.
    - intros [P (ob & box & Sel & Cm)]. pose proof (proj2 (program_iff C D k0 m0 HC HD h Wh Bh SW NM n prog) P) as PR. destruct P as (P1 & P2 & P3). split; auto. split; auto. split; auto.
      exists ob. apply (selects_iff C D) in Sel. split; auto. eapply (computes_iff C D k0 m0 HC HD n prog PR L ob box); auto.
    - intros (P1 & P2 & P3 & ob & Sel & Im). assert (program lty_width (multi_arch C) (multi_ir D) n prog) as PR by (apply (program_iff C D k0 m0 HC HD h Wh Bh SW NM n prog); auto).
      split; [auto|]. exists ob, (fun _ => 0). split; [now apply (selects_iff C D)|]. apply (computes_iff C D k0 m0 HC HD n prog PR L ob); auto.
  Qed.

  (** Programs can be executed: with any words for the inputs of the IR instruction and any
      words for the fields that are not joined. *)
  Theorem C91_executions prog xs (free : nat -> string -> Z) : wiring C D prog -> coded m0 prog -> Forall2 word_of (c_in D) xs ->
    (forall i k m, In (k, m) (c_in C) -> word_of (k, m) (free i (kname k))) ->
    exists ins outs, executes C D prog xs ins outs /\
      forall i b ws is p k m, nth_error prog i = Some (b, ws) -> nth_error ins i = Some is -> nth_error (c_in C) p = Some (k, m) ->
        In (None, Ain i (kname k)) b -> nth_error is p = Some (free i (kname k)).
  Proof.
    intros Hw Hc Hx Hf. assert (program lty_width (multi_arch C) (multi_ir D) (length prog) prog) as PR by (apply (program_iff C D k0 m0 HC HD h Wh Bh SW NM); auto).
    set (n := length prog) in *. set (x := look (c_in D) xs).
    assert (forall p k m, nth_error (c_in D) p = Some (k, m) -> nth_error xs p = Some (x (kname k))) as Ex.
    { intros p k m Ep. destruct (F2_has _ _ _ p _ Hx Ep) as (z & Ez & _). unfold x. now rewrite (look_nth _ _ p k m z (e_ni _ HD) Ep Ez). }
    assert (forall f t, In (f, t) (MultiModel.i_in (multi_ir D)) -> word lty_width t (x f)) as Tx by (intros f t J; apply (exec_x D HD xs Hx f t J)).
    assert (forall i f t, (i < n)%nat -> In (f, t) (MultiModel.a_in (multi_arch C)) -> word lty_width t (free i f)) as Tu.
    { intros i f t _ J. cbn [multi_arch MultiModel.a_in] in J. apply non_const_In in J as (k & m & J & _ & -> & ->). apply (proj2 (in_word C k0 m0 HC k m _ J)). auto. }
    pose proof (run_executes C D k0 m0 HC HD n prog PR x free xs Tx Tu Ex) as Ee. eexists. eexists. split; [exact Ee|].
    intros i b ws is p k m Ei Es Ep Ib. assert (i < n)%nat as L by (unfold n; apply nth_error_Some; congruence).
    rewrite nth_error_map in Es. rewrite (nth_error_nth' _ 0%nat) in Es by (rewrite seq_length; auto). rewrite seq_nth in Es by auto. cbn [option_map Nat.add] in Es. injection Es as <-.
    rewrite (args_nth C prog x free i p k m Ep). f_equal.
    exact (at_wire lty_width _ _ (p_regular C D k0 m0 HC HD) n prog x free PR i b ws None (kname k) Ei Ib).
  Qed.

  (** Replacing instruction words by words of the same instructions. *)
  Section Blind.
    Hypothesis Bl : inst_blind C k0 m0.
    Definition same_code (prog prog' : list (MultiModel.binding * list Z)) : Prop :=
      Forall2 (fun e e' => fst e = fst e' /\ exists w w' v, snd e = [w] /\ snd e' = [w'] /\ encodes (strip m0) w v /\ encodes (strip m0) w' v) prog prog'.

    Lemma same_wiring prog prog' : same_code prog prog' -> wiring C D prog -> wiring C D prog'.
    Proof.
      intros S [H1 H2]. split.
      - intros i b ws Ei. destruct (F2_nth' _ _ _ S i _ Ei) as ([b0 ws0] & E0 & Eb & _). cbn [fst] in Eb. subst b0. eauto.
      - assert (map fst prog' = map fst prog) as ->; auto. clear - S. induction S as [|e e' l l' [E _] S IH]; cbn [map]; auto. now rewrite IH, E.
    Qed.
    Lemma same_implements prog prog' ob : same_code prog prog' -> wiring C D prog -> implements C D prog ob -> implements C D prog' ob.
    Proof.
      intros S Hw Im xs ins' outs Hx Ee. destruct (p0_in C k0 m0 HC) as [J0 E0]. apply In_nth_error in J0 as [i0 Ei0].
      pose proof (F2_length _ _ _ S) as Ls. pose proof Ee as (Li & Eo & He).
      set (ins := map (fun e => put i0 (hd 0 (snd (fst e))) (snd e)) (combine prog ins')).
      assert (forall i b w is', nth_error prog i = Some (b, [w]) -> nth_error ins' i = Some is' -> nth_error ins i = Some (put i0 w is')) as Ni.
      { intros i b w is' E1 E2. unfold ins. rewrite nth_error_map. assert (nth_error (combine prog ins') i = Some ((b, [w]), is')) as -> by (apply nth_combine; auto). reflexivity. }
      assert (length ins = length prog) as Lins by (unfold ins; rewrite map_length, combine_length; lia).
      assert (forall i is, nth_error ins i = Some is -> exists b w w' v is', nth_error prog i = Some (b, [w]) /\ nth_error prog' i = Some (b, [w']) /\ nth_error ins' i = Some is' /\
        is = put i0 w is' /\ encodes (strip m0) w v /\ encodes (strip m0) w' v) as Inv.
      { intros i is Es. assert (i < length prog)%nat as L by (rewrite <- Lins; apply nth_error_Some; congruence).
        destruct (nth_error prog i) as [[b ws]|] eqn:Ep; [|apply nth_error_None in Ep; lia]. destruct (F2_nth _ _ _ S i _ Ep) as ([b' ws'] & Ep' & Eb & w & w' & v & Ew & Ew' & X1 & X2).
        cbn [fst snd] in *. subst b' ws ws'. destruct (nth_error ins' i) as [is'|] eqn:Ei; [|apply nth_error_None in Ei; lia].
        exists b, w, w', v, is'. split; auto. split; auto. split; auto. split; auto. rewrite (Ni i b w is' Ep Ei) in Es. congruence. }
      assert (forall i b w w' v is', nth_error prog' i = Some (b, [w']) -> nth_error ins' i = Some is' -> encodes (strip m0) w v -> encodes (strip m0) w' v ->
        Forall2 word_of (c_in C) (put i0 w is') /\ c_call C (put i0 w is') = c_call C is') as Key.
      { intros i b w w' v is' E1 E2 X1 X2. destruct (He i b [w'] is' E1 E2) as [Fw Hp]. pose proof (F2_length _ _ _ Fw) as Lw.
        assert (i0 < length is')%nat as L0 by (rewrite <- Lw; apply nth_error_Some; congruence).
        destruct (F2_has _ _ _ i0 _ Fw Ei0) as (z & Ez & Wz). destruct (Hp i0 k0 m0 z Ei0 Ez) as (Hz & _). injection (Hz E0) as ->.
        assert (Forall2 word_of (c_in C) (put i0 w is')) as Fp.
        { apply F2_intro.
          - unfold put. rewrite app_length, firstn_length. cbn [length]. rewrite skipn_length. lia.
          - intros j [k m] y Ej Ey. rewrite put_nth in Ey by auto. destruct (Nat.eqb_spec j i0) as [->|Nj].
            + injection Ey as <-. rewrite Ei0 in Ej. injection Ej as <- <-. destruct Wz as (nn & S0 & _). exists nn. split; auto. cbn [snd] in *.
              destruct (swidth_in C k0 m0 (g_ok _ _ _ HC) (nth_error_In _ _ Ei0)) as [W _]. eapply enc_range; eauto.
            + destruct (F2_has _ _ _ j _ Fw Ej) as (z' & Ez' & Wz'). rewrite Ey in Ez'. injection Ez' as ->. exact Wz'. }
        split; auto. apply (Bl i0 _ _ w z v Ei0 Fp Fw); auto.
        - rewrite put_nth by auto. now rewrite Nat.eqb_refl.
        - intros j Nj. rewrite put_nth by auto. destruct (Nat.eqb_spec j i0); congruence. }
      apply (Im xs ins outs Hx). split; auto. split.
      - rewrite Eo. apply nth_error_ext. intros i. rewrite !nth_error_map. destruct (nth_error ins i) as [is|] eqn:Ei.
        + destruct (Inv i is Ei) as (b & w & w' & v & is' & E1 & E2 & E3 & -> & X1 & X2). rewrite E3. cbn [option_map]. f_equal. symmetry. eapply Key; eauto.
        + apply nth_error_None in Ei. assert (nth_error ins' i = None) as -> by (apply nth_error_None; lia). reflexivity.
      - intros i b ws is Ep Ei. destruct (Inv i is Ei) as (b1 & w & w' & v & is' & E1 & E2 & E3 & -> & X1 & X2). rewrite Ep in E1. injection E1 as <- ->.
        destruct (He i b [w'] is' E2 E3) as [Fw Hp]. destruct (Key i b w w' v is' E2 E3 X1 X2) as [Fp _]. split; auto.
        assert (i0 < length is')%nat as L0 by (rewrite <- (F2_length _ _ _ Fw); apply nth_error_Some; congruence).
        intros p k m z Epk Ez. rewrite put_nth in Ez by auto. destruct (Nat.eqb_spec p i0) as [->|Np].
        + injection Ez as <-. rewrite Ei0 in Epk. injection Epk as <- <-. split; auto.
          assert (forall s, ~ In (s, Ain i (kname k0)) b) as No.
          { intros s Is. destruct Hw as [Hb _]. specialize (Hb i b [w] Ep). clear - Hb Is HC E0 Ei0. apply In_nth_error in Is as [q Eq].
            destruct (F2_nth _ _ _ Hb q _ Eq) as ([k m] & Ej & En & _). cbn [snd fst] in En. injection En as En. apply nth_error_In, filter_In in Ej as [J Ec]. cbn [snd] in Ec.
            destruct (named_inj _ _ _ _ _ (g_ni _ _ _ HC) J (nth_error_In _ _ Ei0) (eq_sym En)) as [_ ->]. rewrite E0 in Ec. discriminate Ec. }
          split; [intros hh Ih; destruct (No _ Ih)|intros j hh Ih; destruct (No _ Ih)].
        + destruct (Hp p k m z Epk Ez) as (H1 & H2 & H3). split; [|auto]. intros Ec. exfalso. apply Np.
          destruct (p0_only C k0 m0 HC k m (nth_error_In _ _ Epk) Ec) as [-> ->]. apply (in_key_fun C (g_ok _ _ _ HC) p i0 k0 m0 m0 Epk Ei0).
    Qed.

    (** [Multi] finds a program of [n] instructions exactly when there are [n] instructions
        which, assembled and joined, implement the IR instruction.
        Missing for C91: architectures that look at unused bits of the instruction word, see
        [C91_full_refuted]. *)
    Theorem C91_found_partial k real n : (0 < n)%nat -> c_out D <> [] ->
      (multi_finds_n k real n C D <->
       exists prog ob, length prog = n /\ wiring C D prog /\ assembled m0 prog /\ chooses C D ob /\ implements C D prog ob).
    Proof.
      intros Ln No. pose proof (p_regular C D k0 m0 HC HD) as R. split.
      - intros (m & sol & prog & E & Sol & Er). destruct (proj1 (C91_exact k real n m prog E) (ex_intro _ sol (conj Sol Er))) as (L & Hw & Hc & ob & Ch & Im).
        assert (exists prog', same_code prog prog' /\ assembled m0 prog') as (prog' & Sc & As).
        { clear - Hc HC. induction prog as [|[b ws] prog IH]; [exists []; split; [constructor|intros b ws []]|].
          destruct IH as (prog' & Sc & As); [intros b' ws' J; apply (Hc b' ws'); now right|]. destruct (Hc b ws (or_introl eq_refl)) as (w & v & -> & Hv & En).
          destruct (swidth_in C k0 m0 (g_ok _ _ _ HC) (proj1 (p0_in C k0 m0 HC))) as [W _]. destruct (a2_asm_spec (strip m0) W v Hv) as (w' & _ & Cn).
          exists ((b, [w']) :: prog'). split; [constructor; auto; split; auto; exists w, w', v; repeat (split; [auto|]); now apply canonical_encodes|].
          intros b1 ws1 [[= <- <-]|J]; [exists w', v; auto|eauto]. }
        exists prog', ob. split; [rewrite <- (F2_length _ _ _ Sc); auto|]. split; [eapply same_wiring; eauto|]. split; auto. split; auto. eapply same_implements; eauto.
      - intros (prog & ob & L & Hw & As & Ch & Im).
        assert (coded m0 prog) as Hc by (intros b ws J; destruct (As b ws J) as (w & v & E & Hv & Cn); exists w, v; split; auto; split; auto; now apply canonical_encodes).
        assert (exists m, multi_build lty_eqb k (multi_arch C) (multi_ir D) real n false = Ok m) as [m E].
        { apply (C46_build lty lty_eqb (proj2 eqs_lty)); [|apply R|apply R|].
          - pose proof (MultiProps.r_in _ _ _ R) as N. rewrite map_app in N. apply NoDup_app_iff in N. apply N.
          - split; [apply (p_ir_consts D HD)|]. split; [cbn [multi_arch MultiModel.a_const]; rewrite (p_consts C k0 m0 HC); reflexivity|]. split; [exact Ln|]. split; [reflexivity|].
            split; [exists (map fst prog); apply (wiring_iff C D HD n prog); auto|]. apply (selects_iff C D) in Ch. split; [|split; [|reflexivity]].
            + right. right. intros Ez. unfold selects in Ch. rewrite Ez in Ch. destruct (c_out D) as [|f l] eqn:Ed; [congruence|]. cbn [multi_ir MultiModel.i_out] in Ch. rewrite Ed in Ch. inversion Ch as [|? ? ? ? X]. destruct X.
            + intros f t J. clear - Ch J. unfold selects in Ch. induction Ch as [|g e obs es Hg F IH]; [destruct J|]. destruct J as [->|J]; eauto. }
        destruct (proj2 (C91_exact k real n m prog E)) as (sol & Sol & Er); [split; auto; split; auto; split; auto; exists ob; auto|]. exists m, sol, prog. auto.
    Qed.
  End Blind.
End C91.

Lemma inst_blind_free C k0 m0 : prog_arch C k0 m0 -> sum_free (strip m0) -> inst_blind C k0 m0.
Proof.
  intros HC S i ws ws' w w' v Ei _ _ E1 E2 X1 X2 H. destruct (swidth_in C k0 m0 (g_ok _ _ _ HC) (nth_error_In _ _ Ei)) as [W _].
  assert (w = w') as -> by (apply (canonical_fun (strip m0) W w w' v); apply free_enc; auto).
  f_equal. apply nth_error_ext. intros j. destruct (Nat.eq_dec j i) as [->|N]; [congruence|auto].
Qed.
(** Without tagged unions in the instruction there are no unused bits. *)
Theorem C91_found_free_partial C D k0 m0 h k real n : prog_arch C k0 m0 -> prog_ir D -> sum_free (strip m0) ->
  Forall wf_ty (in_ty C :: h) -> built h (in_ty C) (c_ia C) -> same_width (in_ty C :: h) -> no_multi_range (strip m0) -> (0 < n)%nat -> c_out D <> [] ->
  (multi_finds_n k real n C D <->
   exists prog ob, length prog = n /\ wiring C D prog /\ assembled m0 prog /\ chooses C D ob /\ implements C D prog ob).
Proof. intros HC HD S Wh Bh SW NM L N. eapply C91_found_partial; eauto. now apply inst_blind_free. Qed.

(** The full claim: without the condition on unused bits. *)
Definition C91_full : Prop := forall C D k0 m0 h k real n, prog_arch C k0 m0 -> prog_ir D ->
  Forall wf_ty (in_ty C :: h) -> built h (in_ty C) (c_ia C) -> same_width (in_ty C :: h) -> no_multi_range (strip m0) -> (0 < n)%nat -> c_out D <> [] ->
  (multi_finds_n k real n C D <->
   exists prog ob, length prog = n /\ wiring C D prog /\ assembled m0 prog /\ chooses C D ob /\ implements C D prog ob).

Lemma word_prog_arch C k0 m0 : word_arch C k0 m0 -> prog_arch C k0 m0.
Proof. intros []; constructor; auto. Qed.
Lemma word_prog_ir D : word_ir D -> prog_ir D.
Proof. intros []; constructor; auto. Qed.

(** The word of an assembled instruction is unique. *)
Lemma canon_is t w v w' : wf_ty t -> has_ty t v -> canonical t w v -> a2_asm t v = Ok w' -> w = w'.
Proof. intros W H Cn E. destruct (a2_asm_spec t W v H) as (y & Ey & Cy). rewrite E in Ey. injection Ey as ->. eapply canonical_fun; eauto. Qed.
Lemma canon_of t v w : wf_ty t -> has_ty t v -> a2_asm t v = Ok w -> canonical t w v.
Proof. intros W H E. destruct (a2_asm_spec t W v H) as (y & Ey & Cy). rewrite E in Ey. injection Ey as ->. exact Cy. Qed.

(** The class of [C90_blind_needed]: the program found uses a bit that no assembled
    instruction sets. *)
Lemma pad_word w v : has_ty (strip Pad.inst_t) v -> canonical (strip Pad.inst_t) w v -> Z.testbit w 2 && Z.testbit w 0 = false.
Proof.
  intros Hv Cn. assert (wf_ty (strip Pad.inst_t)) as W by (apply wf_b_spec; vm_compute; reflexivity). pose proof Hv as Hv0.
  inversion Hv as [| | | | |g c fs k t u J Hu]; subst. destruct J as [[= <- <-]|[[= <- <-]|[]]]; inversion Hu; subst.
  - assert (z = 0 \/ z = 1 \/ z = 2 \/ z = 3) as [->|[->|[->| ->]]] by (change (2 ^ 2) with 4 in *; lia); rewrite (canon_is _ w _ _ W Hv0 Cn eq_refl); reflexivity.
  - destruct b; rewrite (canon_is _ w _ _ W Hv0 Cn eq_refl); reflexivity.
Qed.

Theorem C91_full_refuted : ~ C91_full.
Proof.
  intros F. assert (Forall wf_ty [in_ty Pad.pad]) as W by (apply wf_all_b; vm_compute; reflexivity).
  assert (built [] (in_ty Pad.pad) (c_ia Pad.pad)) as Bt by (eexists; vm_compute; reflexivity).
  assert (same_width [in_ty Pad.pad]) as SW by (apply same_width_ok_spec; [exact W|vm_compute; reflexivity]).
  assert (no_multi_range (strip Pad.inst_t)) as NM by (apply no_multi_ok_spec; [apply wf_b_spec|]; vm_compute; reflexivity).
  pose proof (word_prog_arch _ _ _ Pad.pad_arch) as HC. pose proof (word_prog_ir _ (Pad.una_ir (fun z => z))) as HD.
  destruct (proj1 (F Pad.pad Pad.copy (ky "inst") Pad.inst_t [] OneHot true 1%nat HC HD W Bt SW NM (Nat.lt_0_succ 0) ltac:(discriminate)) (Pad.found OneHot true))
    as (prog & ob & Lp & Hw & As & Ch & Im). clear F.
  destruct prog as [|[b ws] [|]]; try discriminate Lp. destruct (As b ws (or_introl eq_refl)) as (w & v & -> & Hv & Cn).
  assert (coded Pad.inst_t [(b, [w])]) as Hc by (intros b' ws' [[= <- <-]|[]]; exists w, v; split; auto; split; auto; now apply canonical_encodes).
  assert (Forall2 word_of (c_in Pad.copy) [1]) as Hx by (constructor; [exists 2; split; [constructor|lia]|constructor]).
  destruct (C91_executions Pad.pad Pad.copy _ _ HC HD [] W Bt SW NM [(b, [w])] [1] (fun _ _ => 0) Hw Hc Hx) as (ins & outs & Ee & _).
  { intros _ k m J. destruct (swidth_in _ _ _ (g_ok _ _ _ HC) J) as [Wm [n S]]. exists n. split; auto. split; [lia|]. apply Z.pow_pos_nonneg; [lia|]. apply (swidth_nonneg _ Wm _ S). }
  assert (exists g, ob = [g]) as (g & ->) by (pose proof (F2_length _ _ _ Ch) as Lo; destruct ob as [|g [|]]; try discriminate Lo; eauto).
  pose proof (Im [1] ins outs Hx Ee 0%nat g 1 eq_refl eq_refl) as (p & k & m & E1 & _ & E2).
  destruct Ee as (Li & Eo & He). destruct ins as [|is [|]]; try discriminate Li. destruct (He 0%nat b [w] is eq_refl eq_refl) as [Fw Hp].
  inversion Fw as [|? wi ? ? _ F1]; subst. inversion F1 as [|? z ? ? _ F2]; subst. inversion F2; subst.
  destruct (Hp 0%nat (ky "inst") Pad.inst_t wi eq_refl eq_refl) as (Hi & _). injection (Hi eq_refl) as <-.
  destruct p as [|p]; [|destruct p; discriminate E1]. cbn [map last nth_error] in E2.
  assert (Pad.call [w; z] = 1) as E3 by (change (Some (Pad.call [w; z]) = Some 1) in E2; congruence). unfold Pad.call in E3. rewrite (pad_word w v Hv Cn) in E3. discriminate E3.
Qed.

(** ** The ALU of C90: two additions *)
Definition plus1 : pclass := Case.bin (fun p q => p + q + 1).
Definition plus1_prog : list (MultiModel.binding * list Z) :=
  [([(Some (IRin "p"), Ain 0 "a"); (Some (IRin "q"), Ain 0 "b")], [1]);
   ([(Some (Aout 0 "out"), Ain 1 "a"); (None, Ain 1 "b")], [6])].
Lemma plus1_wiring : wiring Alu.alu plus1 plus1_prog.
Proof.
  split.
  - intros i b ws. destruct i as [|[|[|]]]; intros [= <- <-]; repeat constructor; cbn; try (exists (ky "p"), (MLeaf (TBV 2)); now auto); try (exists (ky "q"), (MLeaf (TBV 2)); now auto).
    exists (ky "out"), (MLeaf (TBV 2)). auto.
  - intros k m [[= <- <-]|[[= <- <-]|[]]]; [exists 0%nat, "a"|exists 0%nat, "b"]; (split; [cbn; auto|]); intros j f H; cbn in H; intuition congruence.
Qed.
Lemma plus1_assembled : assembled Alu.inst_t plus1_prog.
Proof.
  assert (wf_ty (strip Alu.inst_t)) as W by (apply wf_b_spec; vm_compute; reflexivity).
  intros b ws [[= <- <-]|[[= <- <-]|[]]].
  - exists 1, (VProd [VEnum (EInt 1); VBV 0]). assert (has_ty (strip Alu.inst_t) (VProd [VEnum (EInt 1); VBV 0])) as H by (apply has_ty_b_spec; reflexivity).
    split; auto. split; auto. apply canon_of; auto.
  - exists 6, (VProd [VEnum (EInt 2); VBV 1]). assert (has_ty (strip Alu.inst_t) (VProd [VEnum (EInt 2); VBV 1])) as H by (apply has_ty_b_spec; reflexivity).
    split; auto. split; auto. apply canon_of; auto.
Qed.
Lemma plus1_implements : implements Alu.alu plus1 plus1_prog ["out"].
Proof.
  intros xs ins outs Hx (Li & Eo & He) q g z Eg Ez. destruct q as [|q]; [|destruct q; discriminate Eg]. injection Eg as <-.
  inversion Hx as [|? p ? ? (n1 & S1 & R1) F1]; subst. inversion F1 as [|? r ? ? (n2 & S2 & R2) F2]; subst. inversion F2; subst. injection Ez as <-.
  assert (n1 = 2) as -> by (inversion S1; auto). assert (n2 = 2) as -> by (inversion S2; auto).
  destruct ins as [|is0 [|is1 [|]]]; try discriminate Li. cbn [map last].
  destruct (He 0%nat _ _ is0 eq_refl eq_refl) as [W0 H0]. destruct (He 1%nat _ _ is1 eq_refl eq_refl) as [W1 H1]. clear He Li.
  inversion W0 as [|? i0 ? ? _ G1]; subst. inversion G1 as [|? a0 ? ? _ G2]; subst. inversion G2 as [|? b0 ? ? _ G3]; subst. inversion G3; subst.
  inversion W1 as [|? i1 ? ? _ G1']; subst. inversion G1' as [|? a1 ? ? _ G2']; subst. inversion G2' as [|? b1 ? ? _ G3']; subst. inversion G3'; subst.
  destruct (H0 0%nat _ _ i0 eq_refl eq_refl) as (X & _). injection (X eq_refl) as <-. clear X.
  destruct (H1 0%nat _ _ i1 eq_refl eq_refl) as (X & _). injection (X eq_refl) as <-. clear X.
  assert (a0 = p) as ->.
  { destruct (H0 1%nat _ _ a0 eq_refl eq_refl) as (_ & X & _). destruct (X "p" ltac:(cbn; auto)) as (q & k & m & E1 & E2 & E3). destruct q as [|[|[|]]]; try discriminate E1; injection E1 as <- <-; [injection E3; auto|discriminate E2]. }
  assert (b0 = r) as ->.
  { destruct (H0 2%nat _ _ b0 eq_refl eq_refl) as (_ & X & _). destruct (X "q" ltac:(cbn; auto)) as (q & k & m & E1 & E2 & E3). destruct q as [|[|[|]]]; try discriminate E1; injection E1 as <- <-; [discriminate E2|injection E3; auto]. }
  assert (a1 = Alu.call [1; p; r]) as ->.
  { destruct (H1 1%nat _ _ a1 eq_refl eq_refl) as (_ & _ & X). destruct (X 0%nat "out" ltac:(cbn; auto)) as (os & Eos & q & k & m & E1 & E2 & E3). injection Eos as <-. destruct q as [|[|]]; try discriminate E1. injection E3; auto. }
  exists 0%nat, (ky "out"), (MLeaf (TBV 2)). split; [reflexivity|]. split; [reflexivity|]. cbn [nth_error Alu.alu Case.mk c_call]. f_equal. unfold Alu.call.
  change (1 mod 4 =? 1) with true. change (6 mod 4 =? 1) with false. change (6 mod 4 =? 2) with true. change ((6 / 4) mod 4) with 1. cbn iota. now rewrite Zplus_mod_idemp_l.
Qed.

(** [p + q + 1] takes two instructions of the ALU, and [Multi] finds them; with [N = 1] it
    finds nothing. *)
Example C91_case_two k real : multi_finds_n k real 2 Alu.alu plus1 /\ ~ multi_finds_n k real 1 Alu.alu plus1.
Proof.
  destruct Alu.alu_built as (W & Bt & SW & NM & S). pose proof (word_prog_arch _ _ _ Alu.alu_arch) as HC. pose proof (word_prog_ir _ (Alu.bin_ir (fun p q => p + q + 1))) as HD. split.
  - apply (C91_found_free_partial Alu.alu plus1 (ky "inst") Alu.inst_t [] k real 2 HC HD S W Bt SW NM ltac:(lia) ltac:(discriminate)).
    exists plus1_prog, ["out"]. split; [reflexivity|]. split; [exact plus1_wiring|]. split; [exact plus1_assembled|]. split; [|exact plus1_implements].
    constructor; [|constructor]. exists (ky "out"), (MLeaf (TBV 2)). cbn. auto.
  - intros F. apply (C91_found_free_partial Alu.alu plus1 (ky "inst") Alu.inst_t [] k real 1 HC HD S W Bt SW NM ltac:(lia) ltac:(discriminate)) in F as (prog & ob & Lp & Hw & As & Ch & Im).
    destruct prog as [|[b ws] [|]]; try discriminate Lp. destruct (As b ws (or_introl eq_refl)) as (w & v & -> & Hv & Cn).
    assert (coded Alu.inst_t [(b, [w])]) as Hc by (intros b' ws' [[= <- <-]|[]]; exists w, v; split; auto; split; auto; now apply canonical_encodes).
    assert (exists g, ob = [g]) as (g & ->) by (pose proof (F2_length _ _ _ Ch) as Lo; destruct ob as [|g [|]]; try discriminate Lo; eauto).
    assert (forall p q, 0 <= p < 4 -> 0 <= q < 4 -> exists za zb, Alu.call [w; za; zb] = (p + q + 1) mod 4 /\
      (forall h, In (Some (IRin h), Ain 0 "a") b -> h = "p" /\ za = p \/ h = "q" /\ za = q) /\ (forall h, In (Some (IRin h), Ain 0 "b") b -> h = "p" /\ zb = p \/ h = "q" /\ zb = q)) as Run.
    { intros p q Rp Rq. assert (Forall2 word_of (c_in plus1) [p; q]) as Hx by (repeat constructor; (exists 2; split; [constructor|assumption])).
      destruct (C91_executions Alu.alu plus1 _ _ HC HD [] W Bt SW NM [(b, [w])] [p; q] (fun _ _ => 0) Hw Hc Hx) as (ins & outs & Ee & _).
      { intros _ k' m J. destruct (swidth_in _ _ _ (g_ok _ _ _ HC) J) as [Wm [n Sn]]. exists n. split; auto. split; [lia|]. apply Z.pow_pos_nonneg; [lia|]. apply (swidth_nonneg _ Wm _ Sn). }
      pose proof (Im [p; q] ins outs Hx Ee 0%nat g _ eq_refl eq_refl) as (po & ko & mo & E1 & _ & E2).
      destruct Ee as (Li & Eo & He). destruct ins as [|is [|]]; try discriminate Li. destruct (He 0%nat b [w] is eq_refl eq_refl) as [Fw Hp].
      inversion Fw as [|? wi ? ? _ F1]; subst. inversion F1 as [|? za ? ? _ F2]; subst. inversion F2 as [|? zb ? ? _ F3]; subst. inversion F3; subst.
      destruct (Hp 0%nat _ _ wi eq_refl eq_refl) as (Hi & _). injection (Hi eq_refl) as <-.
      destruct po as [|po]; [|destruct po; discriminate E1]. cbn [map last nth_error] in E2. injection E2 as E2.
      assert (forall hh z, word_for (c_in plus1) [p; q] hh z -> hh = "p" /\ z = p \/ hh = "q" /\ z = q) as Rd.
      { intros hh z (i & kk & mm & X1 & X2 & X3). destruct i as [|[|[|]]]; try discriminate X1; injection X1 as <- <-; [left|right]; (split; [symmetry; exact X2|]); injection X3; auto. }
      exists za, zb. split; [exact E2|]. split; intros hh Ih; apply Rd; [apply (proj1 (proj2 (Hp 1%nat _ _ za eq_refl eq_refl)) hh Ih)|apply (proj1 (proj2 (Hp 2%nat _ _ zb eq_refl eq_refl)) hh Ih)]. }
    destruct Hw as [Hb Hu]. specialize (Hb 0%nat b [w] eq_refl).
    inversion Hb as [|[s1 o1] ? b1 ? [Eo1 _] Hb1]; subst. inversion Hb1 as [|[s2 o2] ? b2 ? [Eo2 _] Hb2]; subst. inversion Hb2; subst. cbn [fst snd] in Eo1, Eo2. subst o1 o2. clear Hb Hb1 Hb2.
    destruct (Hu (ky "p") (MLeaf (TBV 2)) ltac:(cbn; auto)) as (j1 & f1 & U1 & _). destruct (Hu (ky "q") (MLeaf (TBV 2)) ltac:(cbn; auto)) as (j2 & f2 & U2 & _).
    assert ((s1 = Some (IRin "p") /\ s2 = Some (IRin "q")) \/ (s1 = Some (IRin "q") /\ s2 = Some (IRin "p"))) as Sh.
    { clear - U1 U2. cbn in U1, U2. destruct U1 as [U1|[U1|[]]]; destruct U2 as [U2|[U2|[]]]; injection U1; injection U2; intros; subst; try discriminate; auto. }
    assert (exists i, 0 <= i < 4 /\ ((forall a b, Alu.call [w; a; b] = (a + b) mod 4) \/ (forall a b, Alu.call [w; a; b] = (a + i) mod 4) \/ (forall a b, Alu.call [w; a; b] = 0 mod 4))) as (i & Ri & Fn).
    { exists ((w / 4) mod 4). split; [apply Z.mod_pos_bound; lia|]. unfold Alu.call. destruct (w mod 4 =? 1); auto. destruct (w mod 4 =? 2); auto. }
    assert (forall p q, 0 <= p < 4 -> 0 <= q < 4 -> exists za zb, Alu.call [w; za; zb] = (p + q + 1) mod 4 /\ (za = p /\ zb = q /\ s1 = Some (IRin "p") \/ za = q /\ zb = p /\ s1 = Some (IRin "q"))) as Run'.
    { intros p q Rp Rq. destruct (Run p q Rp Rq) as (za & zb & E & Ha & Hb). exists za, zb. split; auto. clear - Sh Ha Hb.
      destruct Sh as [[-> ->]|[-> ->]]; [left|right]; (split; [|split; [|reflexivity]]).
      - destruct (Ha "p") as [[_ X]|[X _]]; [cbn; auto|exact X|discriminate X].
      - destruct (Hb "q") as [[X _]|[_ X]]; [cbn; auto|discriminate X|exact X].
      - destruct (Ha "q") as [[X _]|[_ X]]; [cbn; auto|discriminate X|exact X].
      - destruct (Hb "p") as [[_ X]|[X _]]; [cbn; auto|exact X|discriminate X]. }
    clear - Run' Ri Fn Sh.
    destruct (Run' 0 0) as (a1 & b1 & E1 & H1); [lia|lia|]. destruct (Run' 0 1) as (a2 & b2 & E2 & H2); [lia|lia|]. destruct (Run' 1 0) as (a3 & b3 & E3 & H3); [lia|lia|].
    assert (i = 0 \/ i = 1 \/ i = 2 \/ i = 3) as Hi by lia. clear Run' Ri.
    destruct Sh as [[-> _]|[-> _]];
      (destruct H1 as [(-> & -> & X)|(-> & -> & X)]; try discriminate X; clear X; destruct H2 as [(-> & -> & X)|(-> & -> & X)]; try discriminate X; clear X; destruct H3 as [(-> & -> & X)|(-> & -> & X)]; try discriminate X; clear X);
      destruct Fn as [Fn|[Fn|Fn]]; rewrite Fn in E1, E2, E3; destruct Hi as [->|[->|[->| ->]]]; try discriminate E1; try discriminate E2; discriminate E3.
Qed.

Print Assumptions C91_exact.
Print Assumptions C91_executions.
Print Assumptions C91_found_partial.
Print Assumptions C91_found_free_partial.
Print Assumptions C91_full_refuted.
Print Assumptions C91_case_two.
