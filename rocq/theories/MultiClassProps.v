(** C90: the two mappers agree on single instructions.

    [ArchMapper]/[IRMapper] (mapper.py) look for one instruction of the architecture that
    implements an IR instruction; [Multi] (multi.py) looks for a program of [N] instructions.
    With [N = 1] both ask for the same thing, by different formulas: one with a form and a
    leaf variable for every leaf of the Peak class and one with the packed word of the Const
    field and its [is_valid]. *)
From Coq Require Import String ZArith List Bool Lia.
From Verif Require Import Base BaseLemmas BindModel MapIdxModel MapIdxProps BindProps MultiModel MultiProps MapModel MapProofs MapMain MapProps MapIff MapIffProps MapDirect
  AsmModel AsmSpec AsmValid AsmEnum AsmBuild AsmProofs AsmSub AsmCheck AsmMore AsmProps Asm2Model Asm2Proofs AadtModel AadtProofs FormModel FormProofs FormMain FormSimp FormProps
  AdtArchModel AdtArchProofs AdtArchMain AdtArchProps RuleAppModel RuleAppProofs RuleAppMain MultiClassModel MultiClassProofs MultiClassMain MultiClassAgree.
Import ListNotations.
Open Scope string_scope.
Open Scope list_scope.
Open Scope Z_scope.

(** [ArchMapper] finds a rewrite rule: the formula it builds can be satisfied. *)
Definition arch_finds (k : ivar) (C : pclass) (A : arch path lty) (I : instr path lty) : Prop :=
  satisfiable path_eqb lty_eqb lty_vals (tag_vals C) k A I (build_expanded path_eqb lty_eqb lty_const k A I).
(** [Multi] with [N = 1] finds a rewrite rule: the formula is built and has a solution, for
    which a program is shown. *)
Definition multi_finds (k : ivar) (real : bool) (C D : pclass) : Prop :=
  exists m sol prog, multi_build lty_eqb k (multi_arch C) (multi_ir D) real 1 false = Ok m /\
    solution lty_width k (multi_arch C) (multi_ir D) 1 m sol /\ multi_rr k (multi_arch C) 1 m sol = Ok prog.

(** The call depends on the values of the fields only, not on unused bits of their words. *)
Definition blind (C : pclass) : Prop :=
  forall ws ws' vs, words encodes (c_in C) ws vs -> words encodes (c_in C) ws' vs -> c_call C ws = c_call C ws'.

(** Words without tagged unions have no unused bits. *)
Lemma free_enc t : sum_free t -> forall w v, encodes t w v -> canonical t w v.
Proof.
  induction t as [| | |c ms|c fs IH|g c fs IH] using ty_ind'; intros S z u E; inversion E; subst; try (now constructor).
  - constructor. assert (forall k t, In (k, t) fs -> forall w v, encodes t w v -> canonical t w v) as H.
    { rewrite Forall_forall in IH. intros k t J. apply (IH (k, t) J). cbn [snd]. intros r g' c' fs' Sb. apply (S (k :: r) g' c' fs'). econstructor; eauto. }
    match goal with F : enc_fields _ _ _ _ |- _ => rename F into HF end. clear - H HF. induction HF as [|k t r n x y u us Sw En F IHF]; constructor; auto; [apply (H k t); [left; auto|exact En]|apply IHF; intros k' t' J; apply (H k' t'); right; auto].
  - exfalso. eapply (S []). constructor.
Qed.
Lemma blind_free C k0 m0 : word_arch C k0 m0 -> sum_free (strip m0) -> blind C.
Proof.
  intros HC S ws ws' vs (L1 & L2 & H) (L1' & _ & H'). f_equal. apply nth_error_ext. intros i.
  destruct (nth_error ws i) as [w|] eqn:E; [|apply nth_error_None in E; symmetry; apply nth_error_None; lia].
  assert (i < length ws)%nat as Li by (apply nth_error_Some; congruence).
  destruct (nth_error ws' i) as [w'|] eqn:E'; [|apply nth_error_None in E'; lia].
  destruct (nth_error vs i) as [v|] eqn:Ev; [|apply nth_error_None in Ev; lia].
  destruct (nth_error (c_in C) i) as [[k m]|] eqn:Ei; [|apply nth_error_None in Ei; lia]. f_equal.
  pose proof (nth_error_In _ _ Ei) as J. destruct (swidth_in C k m (w_ok _ _ _ HC) J) as [W _].
  assert (sum_free (strip m)) as Sm.
  { destruct (const_field m) eqn:Ec; [destruct (c0_only C k0 m0 HC k m J Ec) as [-> ->]; exact S|].
    pose proof (word_field_strip m (w_in _ _ _ HC k m J Ec)) as T. intros r g c fs Sb. apply leaf_sub_ty in Sb as [_ X]; [rewrite <- X in T; destruct T|now apply word_type_leaf]. }
  apply (canonical_fun (strip m) W w w' v); apply free_enc; auto; [apply (H i k m)|apply (H' i k m)]; auto.
Qed.

Section C90.
  Variables (C D : pclass) (k0 : key) (m0 : mty) (A : arch path lty) (I : instr path lty).
  Hypothesis HC : word_arch C k0 m0.
  Hypothesis HD : word_ir D.
  Hypothesis EA : adt_arch C [] = Ok A.
  Hypothesis ED : adt_instr D = Ok I.

  Lemma arch_direct k : arch_finds k C A I <-> direct path_eqb lty_const lty_vals A I (adt_fs C A) (adt_fv C A).
  Proof.
    apply (C86_found k C [] A D I); auto; [apply HC|apply HD|constructor| |].
    - destruct (arch_inv C [] A EA) as (_ & _ & _ & _ & _ & _ & _ & _ & Ecs & _). intros p zs. rewrite Ecs. intros [].
    - destruct (c0_in C k0 m0 HC). eauto.
  Qed.

  Lemma multi_iff k real : multi_finds k real C D <-> exists prog ob box, program lty_width (multi_arch C) (multi_ir D) 1 prog /\
    selects (multi_arch C) (multi_ir D) ob /\ MultiProps.computes lty_width (multi_arch C) (multi_ir D) 1 prog ob box.
  Proof.
    pose proof (regular_cd C D k0 m0 HC HD) as R. split.
    - intros (m & sol & prog & E & Sol & Er). destruct (proj1 (C60_exact lty lty_width lty_eqb (proj2 eqs_lty) k _ _ real 1 false m prog R E) (ex_intro _ sol (conj Sol Er))) as (P & ob & box & Sel & Cm).
      exists prog, ob, box. auto.
    - intros (prog & ob & box & P & Sel & Cm).
      assert (exists m, multi_build lty_eqb k (multi_arch C) (multi_ir D) real 1 false = Ok m) as [m E].
      { apply (C46_build lty lty_eqb (proj2 eqs_lty)); [|apply R|apply R|].
        - pose proof (MultiProps.r_in _ _ _ R) as N. rewrite map_app in N. apply NoDup_app_iff in N. apply N.
        - split; [apply (ir_consts D HD)|]. split; [cbn [multi_arch MultiModel.a_const]; rewrite (consts_eq C k0 m0 HC); reflexivity|]. split; [lia|]. split; [reflexivity|].
          split; [exists (map fst prog); apply P|]. split; [auto|]. split; [|reflexivity]. intros f t J. clear - Sel J. unfold selects in Sel.
          induction Sel as [|g e obs es Hg F IH]; [destruct J|]. destruct J as [->|J]; eauto. }
      destruct (proj2 (C60_exact lty lty_width lty_eqb (proj2 eqs_lty) k _ _ real 1 false m prog R E)) as (sol & Sol & Er); [split; [exact P|exists ob, box; auto]|].
      exists m, sol, prog. auto.
  Qed.

  (** A rewrite rule found by [ArchMapper] is a program of [Multi]: [Multi] builds its
      formula, and for some solution shows a program of one instruction whose outputs are
      those of the IR instruction, distinct outputs being taken from distinct ones. *)
  Theorem C90_arch_multi k k' real : arch_finds k C A I ->
    exists m sol prog ob, multi_build lty_eqb k' (multi_arch C) (multi_ir D) real 1 false = Ok m /\
      solution lty_width k' (multi_arch C) (multi_ir D) 1 m sol /\ multi_rr k' (multi_arch C) 1 m sol = Ok prog /\
      program lty_width (multi_arch C) (multi_ir D) 1 prog /\ selects (multi_arch C) (multi_ir D) ob /\ NoDup ob /\
      forall box, MultiProps.computes lty_width (multi_arch C) (multi_ir D) 1 prog ob box.
  Proof.
    intros F. apply arch_direct in F as (fi & f & l0 & bnd & obnd & Ef & Tl & Fv & _ & Hb & Hi & Ho & Hoi & Hs).
    destruct (arch_inv C [] A EA) as (_ & _ & _ & _ & _ & _ & Ein & Eout & Ecs & _). destruct (adt_instr_inv D I ED) as (EinD & EoutD & _).
    rewrite Ein, Eout, Ecs, EinD, EoutD in *.
    destruct (forward C D k0 m0 A I HC HD EA ED fi f l0 bnd obnd Ef Tl Fv) as (w & ob & P & Sel & N & Cm); auto.
    - intros q t J. apply (Hb q t J).
    - intros q t J l Ty Con. apply (Hs q t J l Ty); [|intros p zs []]. intros p t' J' Jf Ec _. eauto.
    - assert (multi_finds k' real C D) as (m & _ & _ & E & _) by (apply multi_iff; do 2 eexists; exists (fun _ => 0); eauto).
      destruct (proj2 (C60_exact lty lty_width lty_eqb (proj2 eqs_lty) k' _ _ real 1 false m [(fbind C D bnd, [w])] (regular_cd C D k0 m0 HC HD) E)) as (sol & Sol & Er); [split; [exact P|exists ob, (fun _ => 0); auto]|].
      do 4 eexists. repeat (split; [eassumption|]). exact Cm.
  Qed.

  Section Back.
    Hypothesis Bl : blind C.
    Variable h : list ty.
    Hypothesis Wh : Forall wf_ty (in_ty C :: h).
    Hypothesis Bh : built h (in_ty C) (c_ia C).
    Hypothesis SW : same_width (in_ty C :: h).
    Hypothesis NM : no_multi_range (strip m0).

    (** [ArchMapper] finds a rule exactly when there is a program of one instruction that
        computes the IR instruction, its outputs being distinct outputs of the program. *)
    Theorem C90_program k : arch_finds k C A I <->
      exists prog ob box, program lty_width (multi_arch C) (multi_ir D) 1 prog /\ selects (multi_arch C) (multi_ir D) ob /\ NoDup ob /\
        MultiProps.computes lty_width (multi_arch C) (multi_ir D) 1 prog ob box.
    Proof.
      split.
      - intros F. destruct (C90_arch_multi k OneHot false F) as (m & sol & prog & ob & _ & _ & _ & P & Sel & N & Cm). exists prog, ob, (fun _ => 0). auto.
      - intros (prog & ob & box & P & Sel & N & Cm). apply arch_direct.
        assert (exists b w, prog = [(b, [w])]) as (b & w & ->).
        { destruct P as [[L _] V]. rewrite map_length in L. destruct prog as [|[b ws] [|]]; try discriminate. specialize (V b ws (or_introl eq_refl)).
          cbn [multi_arch MultiModel.a_const] in V. rewrite (consts_eq C k0 m0 HC) in V. inversion V as [|w ? ? ? _ V']; subst. inversion V'; subst. eauto. }
        exact (backward C D k0 m0 A I HC HD EA ED Bl h Wh Bh SW NM b w ob box P Sel N Cm).
    Qed.

    (** The two mappers find a rule for the same IR instructions, provided these have one
        output.
        Missing for C90: IR instructions with several outputs, see [C90_full_refuted], and
        classes that look at unused bits of a word, see [C90_blind_needed]. *)
    Theorem C90_agree_partial k k' real : length (c_out D) = 1%nat -> (arch_finds k C A I <-> multi_finds k' real C D).
    Proof.
      intros L. rewrite multi_iff, C90_program. split; intros (prog & ob & box & P & Sel & X).
      - exists prog, ob, box. split; auto. split; auto. apply X.
      - exists prog, ob, box. split; auto. split; auto. split; auto. unfold selects in Sel. cbn [multi_arch multi_ir MultiModel.a_out MultiModel.i_out] in Sel. unfold typed_fields in Sel.
        apply F2_length in Sel. rewrite map_length, L in Sel. destruct ob as [|g [|]]; try discriminate. repeat constructor. intros [].
    Qed.
  End Back.
End C90.

(** Without tagged unions in the instruction the call cannot see unused bits. *)
Theorem C90_agree_free_partial C D k0 m0 A I h k k' real : word_arch C k0 m0 -> word_ir D -> adt_arch C [] = Ok A -> adt_instr D = Ok I ->
  sum_free (strip m0) -> Forall wf_ty (in_ty C :: h) -> built h (in_ty C) (c_ia C) -> same_width (in_ty C :: h) -> no_multi_range (strip m0) ->
  length (c_out D) = 1%nat -> (arch_finds k C A I <-> multi_finds k' real C D).
Proof. intros HC HD EA ED S Wh Bh SW NM L. eapply C90_agree_partial; eauto. eapply blind_free; eauto. Qed.

Definition C90_full : Prop := forall C D k0 m0 A I h k k' real, word_arch C k0 m0 -> word_ir D -> adt_arch C [] = Ok A -> adt_instr D = Ok I ->
  blind C -> Forall wf_ty (in_ty C :: h) -> built h (in_ty C) (c_ia C) -> same_width (in_ty C :: h) -> no_multi_range (strip m0) ->
  (arch_finds k C A I <-> multi_finds k' real C D).

(** * Cases *)
(** An ALU: opcode 1 adds its operands, opcode 2 adds an immediate to the first. *)
Module Alu.
Definition inst_t : mty := MMod "Const" (MProd "Inst" [(ky "op", MLeaf (TEnum "Op" [EInt 1; EInt 2])); (ky "imm", MLeaf (TBV 2))]).
Definition call (ws : list Z) : Z :=
  match ws with [i; a; b] => (if Z.modulo i 4 =? 1 then a + b else if Z.modulo i 4 =? 2 then a + Z.modulo (Z.div i 4) 4 else 0) mod 4 | _ => 0 end.
Definition alu : pclass := Case.mk [(ky "inst", inst_t); (ky "a", MLeaf (TBV 2)); (ky "b", MLeaf (TBV 2))] [(ky "out", MLeaf (TBV 2))] (fun ws => [call ws]).
Lemma call_range ws : 0 <= call ws < 4.
Proof. unfold call. destruct ws as [|i [|a [|b [|]]]]; try lia. apply Z.mod_pos_bound. lia. Qed.
Ltac nodup := unfold named; cbn; repeat constructor; cbn; intuition discriminate.
Lemma alu_arch : word_arch alu (ky "inst") inst_t.
Proof.
  constructor.
  - Case.class.
  - intros ws _. constructor; [|constructor]. exists 2. split; [constructor|apply call_range].
  - apply build_b_spec; vm_compute; reflexivity.
  - intros k m [[= <- <-]|[]]. repeat constructor.
  - nodup.
  - nodup.
  - reflexivity.
  - intros k m [[= <- <-]|[[= <- <-]|[[= <- <-]|[]]]] E; [discriminate|repeat constructor|repeat constructor].
Qed.
Lemma out_words (C : pclass) (o : key) x ws w : class_ok C -> call_ok C -> buildable (out_ty C) -> word_fields (c_out C) -> named (c_out C) ->
  call_args C x = ws -> Forall2 word_of (c_in C) ws -> forall i m, nth_error (c_out C) i = Some (o, m) -> nth_error (c_call C ws) i = Some w -> run_peak C x (kname o) = w.
Proof. intros K Ck Bo Wo No <- Fw i m Ei Ew. eapply run_word; eauto. Qed.
Lemma alu_run x : (forall g, In g ["inst"] -> 0 <= x g < 16) -> (forall g, In g ["a"; "b"] -> 0 <= x g < 4) -> run_peak alu x "out" = call [x "inst"; x "a"; x "b"].
Proof.
  intros Hi Hx. pose proof alu_arch as [K Ck Bo Wo _ No _ _].
  apply (out_words alu (ky "out") x [x "inst"; x "a"; x "b"] _ K Ck Bo Wo No eq_refl) with (i := 0%nat) (m := MLeaf (TBV 2)); [|reflexivity|reflexivity].
  repeat constructor.
  - exists 4. split; [exact (a2_width_spec (strip inst_t) (wf_b_spec (strip inst_t) eq_refl))|].
    apply (Hi "inst"). left; auto.
  - exists 2. split; [constructor|]. apply (Hx "a"). cbn; auto.
  - exists 2. split; [constructor|]. apply (Hx "b"). cbn; auto.
Qed.
Lemma alu_A : adt_arch alu [] = Ok (Case.A_of alu []).
Proof. apply Case.A_of_ok. vm_compute. reflexivity. Qed.
Lemma alu_built : Forall wf_ty [in_ty alu] /\ built [] (in_ty alu) (c_ia alu) /\ same_width [in_ty alu] /\ no_multi_range (strip inst_t) /\ sum_free (strip inst_t).
Proof.
  assert (Forall wf_ty [in_ty alu]) as W by (apply wf_all_b; vm_compute; reflexivity).
  split; auto. split; [eexists; vm_compute; reflexivity|]. split; [apply same_width_ok_spec; [exact W|vm_compute; reflexivity]|].
  split; [apply no_multi_ok_spec; [apply wf_b_spec|]; vm_compute; reflexivity|]. apply free_b_spec. vm_compute. reflexivity.
Qed.

(** The sum of two words, and the copy of a word to two outputs. *)
Lemma bin_ir f : word_ir (Case.bin f).
Proof.
  constructor; [apply Case.bin_class|apply Case.bin_call|apply build_b_spec; vm_compute; reflexivity| | | | |].
  - intros k m [[= <- <-]|[]]. constructor.
  - nodup.
  - nodup.
  - intros k m [[= <- <-]|[[= <- <-]|[]]]; constructor.
  - intros k m [[= <- <-]|[[= <- <-]|[]]]; reflexivity.
Qed.
Definition two : pclass := Case.mk [(ky "p", MLeaf (TBV 2))] [(ky "r", MLeaf (TBV 2)); (ky "s", MLeaf (TBV 2))]
  (fun ws => match ws with [p] => [p mod 4; p mod 4] | _ => [0; 0] end).
Lemma two_ir : word_ir two.
Proof.
  constructor; [Case.class| |apply build_b_spec; vm_compute; reflexivity| | | | |].
  - intros ws _. cbn [two Case.mk c_out c_call]. assert (forall z, word_of (ky "r", MLeaf (TBV 2)) (z mod 4) /\ word_of (ky "s", MLeaf (TBV 2)) (z mod 4)) as H.
    { intros z. split; (exists 2; split; [constructor|apply Z.mod_pos_bound; reflexivity]). }
    destruct ws as [|p [|]]; [destruct (H 0)|destruct (H p)|destruct (H 0)]; repeat constructor; auto.
  - intros k m [[= <- <-]|[[= <- <-]|[]]]; constructor.
  - nodup.
  - nodup.
  - intros k m [[= <- <-]|[]]. constructor.
  - intros k m [[= <- <-]|[]]. reflexivity.
Qed.
Lemma two_I : adt_instr two = Ok (Case.I_of two).
Proof. apply Case.I_of_ok. vm_compute. reflexivity. Qed.
Definition add_prog : list (MultiModel.binding * list Z) := [([(Some (IRin "p"), Ain 0 "a"); (Some (IRin "q"), Ain 0 "b")], [1])].
Definition copy_prog : list (MultiModel.binding * list Z) := [([(Some (IRin "p"), Ain 0 "a"); (None, Ain 0 "b")], [2])].
Lemma word2 z : word lty_width ([], TBV 2) z <-> 0 <= z < 4.
Proof. unfold word. change (2 ^ Z.of_nat (lty_width ([], TBV 2))) with 4. tauto. Qed.
Lemma add_program : program lty_width (multi_arch alu) (multi_ir (Case.bin Z.add)) 1 add_prog.
Proof.
  split; [split; [reflexivity|split]|].
  - intros i b. destruct i as [|[|]]; intros [= <-]. constructor; [|constructor; [|constructor]]; (split; [reflexivity|]); left; eexists; (split; [reflexivity|]); vm_compute; auto.
  - intros g t [[= <- <-]|[[= <- <-]|[]]]; [exists 0%nat, "a"|exists 0%nat, "b"]; (split; [cbn; auto|]); intros j f H; cbn in H; intuition congruence.
  - intros b ws [[= <- <-]|[]]. constructor; [|constructor]. split; [vm_compute; intuition discriminate|vm_compute; reflexivity].
Qed.
End Alu.

(** Both mappers find the sum of two words on the ALU. *)
Example C90_case_add k k' real : arch_finds k Alu.alu (Case.A_of Alu.alu []) (Case.I_of (Case.bin Z.add)) /\ multi_finds k' real Alu.alu (Case.bin Z.add).
Proof.
  assert (multi_finds k' real Alu.alu (Case.bin Z.add)) as M.
  { apply (multi_iff _ _ _ _ Alu.alu_arch (Alu.bin_ir Z.add)). exists Alu.add_prog, ["out"], (fun _ => 0). split; [exact Alu.add_program|]. split; [repeat constructor|].
    intros x u Hx _. constructor; [|constructor].
    assert (0 <= x "p" < 4) as Rp by (apply (proj1 (Alu.word2 _)), (Hx "p" ([], TBV 2)); vm_compute; auto). assert (0 <= x "q" < 4) as Rq by (apply (proj1 (Alu.word2 _)), (Hx "q" ([], TBV 2)); vm_compute; auto).
    pose proof (Alu.bin_ir Z.add) as [K Ck Bo Wo _ No _ _].
    transitivity ((x "p" + x "q") mod 4).
    - change (run_peak Alu.alu (arg (multi_arch Alu.alu) 0 (fst (hd ([], []) Alu.add_prog)) [1] x u []) "out" = (x "p" + x "q") mod 4). rewrite Alu.alu_run; [reflexivity| |].
      + intros g [<-|[]]. cbn. lia.
      + intros g [<-|[<-|[]]]; [exact Rp|exact Rq].
    - symmetry. apply (Alu.out_words (Case.bin Z.add) (ky "r") x [x "p"; x "q"] _ K Ck Bo Wo No eq_refl) with (i := 0%nat) (m := MLeaf (TBV 2)); [|reflexivity|reflexivity].
      repeat constructor; (exists 2; split; [constructor|assumption]). }
  split; auto. destruct Alu.alu_built as (W & Bt & SW & NM & S).
  apply (C90_agree_free_partial Alu.alu (Case.bin Z.add) _ _ _ _ [] k k' real Alu.alu_arch (Alu.bin_ir Z.add) Alu.alu_A (Case.bin_instr Z.add) S W Bt SW NM eq_refl). exact M.
Qed.

Lemma two_found k real : multi_finds k real Alu.alu Alu.two.
Proof.
  apply (multi_iff _ _ _ _ Alu.alu_arch Alu.two_ir). exists Alu.copy_prog, ["out"; "out"], (fun _ => 0). split; [|split; [repeat constructor|]].
  - split; [split; [reflexivity|split]|].
    + intros i b. destruct i as [|[|]]; intros [= <-]. constructor; [|constructor; [|constructor]]; (split; [reflexivity|]); [left; eexists; (split; [reflexivity|]); vm_compute; auto|exact Logic.I].
    + intros g t [[= <- <-]|[]]. exists 0%nat, "a". split; [cbn; auto|]. intros j f H; cbn in H; intuition congruence.
    + intros b ws [[= <- <-]|[]]. constructor; [|constructor]. split; [vm_compute; intuition discriminate|vm_compute; reflexivity].
  - intros x u Hx Hu. assert (0 <= x "p" < 4) as Rp by (apply (proj1 (Alu.word2 _)), (Hx "p" ([], TBV 2)); vm_compute; auto).
    assert (0 <= u 0%nat "b" < 4) as Rb by (apply (proj1 (Alu.word2 _)), (Hu 0%nat "b" ([], TBV 2)); [lia|vm_compute; auto]).
    pose proof Alu.two_ir as [K Ck Bo Wo _ No _ _].
    assert (nth 0 (run (multi_arch Alu.alu) Alu.copy_prog x u []) (fun _ => 0) "out" = x "p" mod 4) as E.
    { change (run_peak Alu.alu (arg (multi_arch Alu.alu) 0 (fst (hd ([], []) Alu.copy_prog)) [2] x u []) "out" = x "p" mod 4). rewrite Alu.alu_run.
      + change ((x "p" + 0) mod 4 = x "p" mod 4). now rewrite Z.add_0_r.
      + intros g [<-|[]]. cbn. lia.
      + intros g [<-|[<-|[]]]; [exact Rp|exact Rb]. }
    assert (Forall2 word_of (c_in Alu.two) [x "p"]) as Fw by (repeat constructor; exists 2; split; [constructor|assumption]).
    constructor; [|constructor; [|constructor]]; cbn [fst Nat.sub]; rewrite E; symmetry.
    + apply (Alu.out_words Alu.two (ky "r") x [x "p"] _ K Ck Bo Wo No eq_refl Fw) with (i := 0%nat) (m := MLeaf (TBV 2)); reflexivity.
    + apply (Alu.out_words Alu.two (ky "s") x [x "p"] _ K Ck Bo Wo No eq_refl Fw) with (i := 1%nat) (m := MLeaf (TBV 2)); reflexivity.
Qed.

(** For two equal outputs [Multi] takes the same output twice; [ArchMapper] wants distinct
    ones. *)
Theorem C90_full_refuted : ~ C90_full.
Proof.
  intros H. destruct Alu.alu_built as (W & Bt & SW & NM & S). pose proof (blind_free _ _ _ Alu.alu_arch S) as Bl.
  pose proof (proj2 (H Alu.alu Alu.two _ _ _ _ [] OneHot OneHot false Alu.alu_arch Alu.two_ir Alu.alu_A Alu.two_I Bl W Bt SW NM) (two_found OneHot false)) as F.
  apply (arch_direct _ _ _ _ _ _ Alu.alu_arch Alu.two_ir Alu.alu_A Alu.two_I) in F as (fi & f & l0 & bnd & obnd & _ & _ & _ & _ & _ & _ & Ho & Hoi & _).
  assert (forall p t, In (p, t) (a_out (Case.A_of Alu.alu [])) -> p = [ky "out"]) as Eo by (intros p t J; vm_compute in J; destruct J as [J|[]]; injection J as <- _; reflexivity).
  assert (In ([ky "r"], ([], TBV 2)) (i_out (Case.I_of Alu.two))) as J1 by (vm_compute; auto).
  assert (In ([ky "s"], ([], TBV 2)) (i_out (Case.I_of Alu.two))) as J2 by (vm_compute; auto).
  pose proof (Eo _ _ (Ho _ _ J1)) as E1. pose proof (Eo _ _ (Ho _ _ J2)) as E2. specialize (Hoi _ _ _ _ J1 J2 ltac:(congruence)). discriminate.
Qed.

(** A class that looks at an unused bit of its instruction: the instruction is a bit vector
    or a bit, and the operand is copied when the instruction is a bit and the bit above it,
    which holds nothing, is set. *)
Module Pad.
Definition inst_t : mty := MMod "Const" (MSum false "Inst" [(ky "v", MLeaf (TBV 2)); (ky "w", MLeaf TBit)]).
Definition call (ws : list Z) : Z := match ws with [i; x] => if Z.testbit i 2 && Z.testbit i 0 then x mod 4 else 0 | _ => 0 end.
Definition pad : pclass := Case.mk [(ky "inst", inst_t); (ky "x", MLeaf (TBV 2))] [(ky "out", MLeaf (TBV 2))] (fun ws => [call ws]).
Definition p_v : path := [ky "inst"; ky "v"].
Definition p_w : path := [ky "inst"; ky "w"].
Lemma call_range ws : 0 <= call ws < 4.
Proof. unfold call. destruct ws as [|i [|x [|]]]; try lia. destruct (Z.testbit i 2 && Z.testbit i 0); [apply Z.mod_pos_bound; lia|lia]. Qed.
Lemma pad_arch : word_arch pad (ky "inst") inst_t.
Proof.
  constructor.
  - Case.class.
  - intros ws _. constructor; [|constructor]. exists 2. split; [constructor|apply call_range].
  - apply build_b_spec; vm_compute; reflexivity.
  - intros k m [[= <- <-]|[]]. repeat constructor.
  - Alu.nodup.
  - Alu.nodup.
  - reflexivity.
  - intros k m [[= <- <-]|[[= <- <-]|[]]] E; [discriminate|repeat constructor].
Qed.
Lemma una_ir f : word_ir (Case.una f).
Proof.
  constructor; [apply Case.una_class|apply Case.una_call|apply build_b_spec; vm_compute; reflexivity| | | | |].
  - intros k m [[= <- <-]|[]]. constructor.
  - Alu.nodup.
  - Alu.nodup.
  - intros k m [[= <- <-]|[]]; constructor.
  - intros k m [[= <- <-]|[]]; reflexivity.
Qed.
Lemma pad_A : adt_arch pad [] = Ok (Case.A_of pad []).
Proof. apply Case.A_of_ok. vm_compute. reflexivity. Qed.
Lemma pad_forms : a_forms (Case.A_of pad []) = [([p_v; [ky "x"]], [([ky "inst"], 0)]); ([p_w; [ky "x"]], [([ky "inst"], 1)])].
Proof. vm_compute. reflexivity. Qed.
Lemma pad_in : a_in (Case.A_of pad []) = [(p_v, (["Const"], TBV 2)); (p_w, (["Const"], TBit)); ([ky "x"], ([], TBV 2))].
Proof. vm_compute. reflexivity. Qed.
Definition prog : list (MultiModel.binding * list Z) := [([(Some (IRin "p"), Ain 0 "x")], [5])].
Definition copy : pclass := Case.una (fun z => z).

Lemma found k real : multi_finds k real pad copy.
Proof.
  apply (multi_iff _ _ _ _ pad_arch (una_ir _)). exists prog, ["out"], (fun _ => 0). split; [|split; [repeat constructor|]].
  - split; [split; [reflexivity|split]|].
    + intros i b. destruct i as [|[|]]; intros [= <-]. constructor; [|constructor]. split; [reflexivity|]. left; eexists; (split; [reflexivity|]); vm_compute; auto.
    + intros g t [[= <- <-]|[]]. exists 0%nat, "x". split; [cbn; auto|]. intros j f H; cbn in H; intuition congruence.
    + intros b ws [[= <- <-]|[]]. constructor; [|constructor]. split; [vm_compute; intuition discriminate|vm_compute; reflexivity].
  - intros x u Hx _. constructor; [|constructor].
    assert (0 <= x "p" < 4) as Rp by (apply (proj1 (Alu.word2 _)), (Hx "p" ([], TBV 2)); vm_compute; auto).
    pose proof (una_ir (fun z => z)) as [K Ck Bo Wo _ No _ _]. pose proof pad_arch as [K' Ck' Bo' Wo' _ No' _ _].
    transitivity (x "p" mod 4).
    + apply (Alu.out_words pad (ky "out") (arg (multi_arch pad) 0 (fst (hd ([], []) prog)) [5] x u []) [5; x "p"] _ K' Ck' Bo' Wo' No' eq_refl) with (i := 0%nat) (m := MLeaf (TBV 2)); [|reflexivity|reflexivity].
      repeat constructor.
      * exists 3. split; [exact (a2_width_spec (strip inst_t) (wf_b_spec (strip inst_t) eq_refl))|lia].
      * exists 2. split; [constructor|exact Rp].
    + symmetry. apply (Alu.out_words copy (ky "r") x [x "p"] _ K Ck Bo Wo No eq_refl) with (i := 0%nat) (m := MLeaf (TBV 2)); [|reflexivity|reflexivity].
      repeat constructor. exists 2. split; [constructor|exact Rp].
Qed.
Lemma not_found k : ~ arch_finds k pad (Case.A_of pad []) (Case.I_of copy).
Proof.
  intros F. apply (arch_direct _ _ _ _ _ _ pad_arch (una_ir _) pad_A (Case.una_instr _)) in F as (fi & f & l0 & bnd & obnd & Ef & Tl & _ & _ & Hb & _ & Ho & _ & Hs).
  assert (In ([ky "p"], ([], TBV 2)) (i_in (Case.I_of copy))) as J1 by (vm_compute; auto).
  assert (In ([ky "r"], ([], TBV 2)) (i_out (Case.I_of copy))) as J2 by (vm_compute; auto).
  assert (bnd [ky "p"] = [ky "x"]) as Eb.
  { destruct (Hb _ _ J1) as [J _]. rewrite pad_in in J. destruct J as [J|[J|[J|[]]]]; [discriminate J|discriminate J|]. injection J as J. symmetry. exact J. }
  assert (obnd [ky "r"] = [ky "out"]) as Eo by (pose proof (Ho _ _ J2) as J; vm_compute in J; destruct J as [J|[]]; injection J as J; symmetry; exact J).
  rewrite pad_in in Tl. pose proof (Tl p_v _ (or_introl eq_refl)) as Tv. pose proof (Tl p_w _ (or_intror (or_introl eq_refl))) as Tw.
  assert (forall v w, l0 p_v = v -> l0 p_w = w -> typed lty_vals (a_in (Case.A_of pad [])) (Case.at_ [(p_v, v); (p_w, w); ([ky "x"], 1)]) -> 
    1 = adt_fs pad (Case.A_of pad []) fi (Case.at_ [(p_v, v); (p_w, w); ([ky "x"], 1)]) [ky "out"]) as H.
  { intros v w Ev Ew Ty. rewrite <- Eo. rewrite <- (Hs _ _ J2 _ Ty).
    - transitivity (MapModel.i_sem (Case.I_of copy) (fun _ => 1) [ky "r"]); [vm_compute; reflexivity|].
      apply (C86_instr copy _ (Case.una_class _) (Case.una_instr _)). intros q t J. vm_compute in J. destruct J as [J|[]]. injection J as <- _.
      change (1 = Case.at_ [(p_v, v); (p_w, w); ([ky "x"], 1)] (bnd [ky "p"])). rewrite Eb. reflexivity.
    - intros p t J _ Ec _. rewrite pad_in in J. destruct J as [J|[J|[J|[]]]]; injection J as <- <-; [symmetry; exact Ev|symmetry; exact Ew|discriminate Ec].
    - intros p zs J. vm_compute in J. destruct J. }
  assert (fi = 0%nat \/ fi = 1%nat) as Hf by (rewrite pad_forms in Ef; clear - Ef; destruct fi as [|[|[|]]]; [left; reflexivity|right; reflexivity|discriminate|discriminate]).
  assert (forall v w, l0 p_v = v -> l0 p_w = w -> (forall q t, In (q, t) (a_in (Case.A_of pad [])) -> In (Case.at_ [(p_v, v); (p_w, w); ([ky "x"], 1)] q) (lty_vals t)) -> False) as G.
  { intros v w Ev Ew Ty. specialize (H v w Ev Ew Ty). clear - H Tv Tw Ev Ew Hf. vm_compute in Tv, Tw. unfold p_v, p_w in *. 
    destruct Tv as [Tv|[Tv|[Tv|[Tv|[]]]]]; destruct Tw as [Tw|[Tw|[]]]; vm_compute in Ev, Ew; rewrite Ev in Tv; rewrite Ew in Tw; subst v w; destruct Hf as [-> | ->]; vm_compute in H; discriminate H. }
  apply (G _ _ eq_refl eq_refl). intros q t J. rewrite pad_in in J. destruct J as [J|[J|[J|[]]]]; injection J as <- <-; [exact Tv|exact Tw|vm_compute; auto].
Qed.
End Pad.

(** Without [blind] the two mappers disagree even on one output: [Multi] chooses the whole
    word, [ArchMapper] the values in it. *)
Theorem C90_blind_needed : exists C D k0 m0 A I, word_arch C k0 m0 /\ word_ir D /\ adt_arch C [] = Ok A /\ adt_instr D = Ok I /\
  Forall wf_ty [in_ty C] /\ built [] (in_ty C) (c_ia C) /\ same_width [in_ty C] /\ no_multi_range (strip m0) /\ length (c_out D) = 1%nat /\
  forall k k' real, multi_finds k real C D /\ ~ arch_finds k' C A I.
Proof.
  exists Pad.pad, Pad.copy, (ky "inst"), Pad.inst_t, (Case.A_of Pad.pad []), (Case.I_of Pad.copy).
  split; [exact Pad.pad_arch|]. split; [apply Pad.una_ir|]. split; [exact Pad.pad_A|]. split; [apply Case.una_instr|].
  assert (Forall wf_ty [in_ty Pad.pad]) as W by (apply wf_all_b; vm_compute; reflexivity).
  split; auto. split; [eexists; vm_compute; reflexivity|]. split; [apply same_width_ok_spec; [exact W|vm_compute; reflexivity]|].
  split; [apply no_multi_ok_spec; [apply wf_b_spec|]; vm_compute; reflexivity|]. split; [reflexivity|].
  intros k k' real. split; [apply Pad.found|apply Pad.not_found].
Qed.

Print Assumptions C90_arch_multi.
Print Assumptions C90_program.
Print Assumptions C90_agree_partial.
Print Assumptions C90_agree_free_partial.
Print Assumptions C90_full_refuted.
Print Assumptions C90_blind_needed.
Print Assumptions C90_case_add.
