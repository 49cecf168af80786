(** Programs of several instructions of a Peak class, as calls of the class. *)
From Coq Require Import String ZArith List Bool Lia.
From Verif Require Import Base BaseLemmas BindModel MapIdxModel MapIdxProps BindProps MultiModel MultiProps MapModel MapProofs MapMain MapProps MapIff MapIffProps MapDirect
  AsmModel AsmSpec AsmValid AsmEnum AsmBuild AsmProofs AsmSub AsmCheck AsmMore AsmProps Asm2Model Asm2Proofs AadtModel AadtProofs FormModel FormProofs FormMain FormSimp FormProps
  AdtArchModel AdtArchProofs AdtArchMain AdtArchProps RuleAppModel RuleAppProofs RuleAppMain MultiClassModel MultiClassProofs MultiClassMain MultiClassAgree.
Import ListNotations.
Open Scope string_scope.
Open Scope list_scope.
Open Scope Z_scope.

(** The architecture: one Const field; the outputs are Bits and bit vectors. The other
    fields may have any types. *)
Record prog_arch (C : pclass) (k0 : key) (m0 : mty) : Prop := {
  g_ok : class_ok C; g_call : call_ok C; g_bo : buildable (out_ty C);
  g_out : word_fields (c_out C); g_ni : named (c_in C); g_no : named (c_out C);
  g_const : filter (fun f => const_field (snd f)) (c_in C) = [(k0, m0)] }.
(** The IR instruction: no Const fields. *)
Record prog_ir (D : pclass) : Prop := {
  e_ok : class_ok D; e_call : call_ok D; e_bo : buildable (out_ty D);
  e_out : word_fields (c_out D); e_ni : named (c_in D); e_no : named (c_out D);
  e_const : forall k m, In (k, m) (c_in D) -> const_field m = false }.

(** [z] is the word of the field with name [g] in the list of words [ws]. *)
Definition word_for (fs : list (key * mty)) (ws : list Z) (g : string) (z : Z) : Prop :=
  exists p k m, nth_error fs p = Some (k, m) /\ kname k = g /\ nth_error ws p = Some z.

(** What input of type [t] of instruction [i] may be joined to: an input of the IR
    instruction, or an output of an earlier instruction, of the same type; or nothing. *)
Definition may_read (C D : pclass) (i : nat) (s : option mpath) (t : lty) : Prop :=
  match s with
  | None => True
  | Some (IRin g) => exists k m, In (k, m) (c_in D) /\ kname k = g /\ field_ty m = t
  | Some (Aout j g) => (j < i)%nat /\ exists k m, In (k, m) (c_out C) /\ kname k = g /\ field_ty m = t
  | Some _ => False
  end.
(** Every field that is not Const is joined once, in order, and every input of the IR
    instruction is used exactly once. *)
Definition wiring (C D : pclass) (prog : list (MultiModel.binding * list Z)) : Prop :=
  (forall i b ws, nth_error prog i = Some (b, ws) ->
     Forall2 (fun e f => snd e = Ain i (kname (fst f)) /\ may_read C D i (fst e) (field_ty (snd f))) b (filter (fun f => negb (const_field (snd f))) (c_in C))) /\
  forall k m, In (k, m) (c_in D) -> used_once (map fst prog) (kname k).

(** One after the other the instructions are called with the words [ins] and give the words
    [outs]: the Const field gets the word of the instruction, the fields joined to an input
    [xs] or to an output of an earlier instruction get that, and the others get any word. *)
Definition executes (C D : pclass) (prog : list (MultiModel.binding * list Z)) (xs : list Z) (ins outs : list (list Z)) : Prop :=
  length ins = length prog /\ outs = map (c_call C) ins /\
  forall i b ws is, nth_error prog i = Some (b, ws) -> nth_error ins i = Some is ->
    Forall2 word_of (c_in C) is /\
    forall p k m z, nth_error (c_in C) p = Some (k, m) -> nth_error is p = Some z ->
      (const_field m = true -> ws = [z]) /\
      (forall h, In (Some (IRin h), Ain i (kname k)) b -> word_for (c_in D) xs h z) /\
      (forall j h, In (Some (Aout j h), Ain i (kname k)) b -> exists os, nth_error outs j = Some os /\ word_for (c_out C) os h z).
(** In every execution the outputs [ob] of the last instruction are those of the IR
    instruction. *)
Definition implements (C D : pclass) (prog : list (MultiModel.binding * list Z)) (ob : list string) : Prop :=
  forall xs ins outs, Forall2 word_of (c_in D) xs -> executes C D prog xs ins outs ->
    forall q g z, nth_error ob q = Some g -> nth_error (c_call D xs) q = Some z -> word_for (c_out C) (last outs []) g z.
(** The outputs [ob] have the types of those of the IR instruction. *)
Definition chooses (C D : pclass) (ob : list string) : Prop :=
  Forall2 (fun g f => exists k m, In (k, m) (c_out C) /\ kname k = g /\ field_ty m = field_ty (snd f)) ob (c_out D).

Definition look (fs : list (key * mty)) (ws : list Z) (g : string) : Z :=
  match find (fun e => String.eqb (kname (fst (fst e))) g) (combine fs ws) with Some e => snd e | None => 0 end.
Lemma look_nth fs ws p k m z : named fs -> nth_error fs p = Some (k, m) -> nth_error ws p = Some z -> look fs ws (kname k) = z.
Proof.
  unfold look. revert ws p. induction fs as [|[k' m'] fs IH]; intros ws p N E1 E2; [destruct p; discriminate|]. unfold named in N. cbn [map] in N. inversion N as [|? ? N1 N2]; subst.
  destruct p as [|p]; destruct ws as [|z' ws]; try discriminate; cbn [nth_error combine find fst] in *.
  - injection E1 as -> ->. injection E2 as ->. now rewrite String.eqb_refl.
  - destruct (String.eqb_spec (kname k') (kname k)) as [E|_]; [|eapply IH; eauto]. exfalso. apply N1. cbn [fst]. rewrite E.
    apply (in_map (fun f : key * mty => kname (fst f)) fs (k, m)). eapply nth_error_In; eauto.
Qed.
Lemma look_for fs ws g z : named fs -> word_for fs ws g z -> look fs ws g = z.
Proof. intros N (p & k & m & E1 & <- & E2). eapply look_nth; eauto. Qed.
Lemma F2_has {X Y} (R : X -> Y -> Prop) l r i x : Forall2 R l r -> nth_error l i = Some x -> exists y, nth_error r i = Some y /\ R x y.
Proof. intros F E. exact (F2_nth _ _ _ F i x E). Qed.
Lemma last_nth {X} (l : list X) d : last l d = nth (length l - 1) l d.
Proof.
  induction l as [|x [|y l] IH]; auto. change (last (x :: y :: l) d) with (last (y :: l) d). rewrite IH. cbn [length]. replace (S (S (length l)) - 1)%nat with (S (S (length l) - 1)) by lia. reflexivity.
Qed.

Section Prog.
  Variables (C D : pclass) (k0 : key) (m0 : mty).
  Hypothesis HC : prog_arch C k0 m0.
  Hypothesis HD : prog_ir D.
  Let K := g_ok _ _ _ HC.
  Let KD := e_ok _ HD.
  Let a := multi_arch C.
  Let ir := multi_ir D.

  Lemma p0_in : In (k0, m0) (c_in C) /\ const_field m0 = true.
  Proof.
    assert (In (k0, m0) (filter (fun f => const_field (snd f)) (c_in C))) as X by (rewrite (g_const _ _ _ HC); left; auto). apply filter_In in X. exact X.
  Qed.
  Lemma p0_only k m : In (k, m) (c_in C) -> const_field m = true -> k = k0 /\ m = m0.
  Proof.
    intros J E. assert (In (k, m) (filter (fun f => const_field (snd f)) (c_in C))) as X by (apply filter_In; auto). rewrite (g_const _ _ _ HC) in X.
    destruct X as [[= <- <-]|[]]. auto.
  Qed.
  Lemma p_consts : const_dict (c_in C) = [(kname k0, field_ty m0)].
  Proof. unfold const_dict. rewrite (g_const _ _ _ HC). reflexivity. Qed.
  Lemma p_ir_consts : const_dict (c_in D) = [].
  Proof. unfold const_dict. rewrite filter_none; auto. intros [k m] J. cbn. eapply e_const; eauto. Qed.
  Lemma p_regular : regular lty_width a ir.
  Proof. apply multi_regular; [apply HC|apply HC|apply HC|apply HC|apply HC|apply HC|apply HD|apply HD|apply p_ir_consts]. Qed.
  Lemma ir_in g t : In (g, t) (MultiModel.i_in ir) <-> exists k m, In (k, m) (c_in D) /\ kname k = g /\ field_ty m = t.
  Proof.
    unfold ir. cbn [multi_ir MultiModel.i_in]. rewrite non_const_In. split; intros (k & m & J & X).
    - destruct X as (_ & -> & ->). eauto.
    - destruct X as [<- <-]. exists k, m. split; auto. split; [eapply e_const; eauto|auto].
  Qed.

  (** Wirings. *)
  Lemma wires_iff i b : wires a ir i b <->
    Forall2 (fun e f => snd e = Ain i (kname (fst f)) /\ may_read C D i (fst e) (field_ty (snd f))) b (filter (fun f => negb (const_field (snd f))) (c_in C)).
  Proof.
    unfold wires. unfold a at 2. cbn [multi_arch MultiModel.a_in]. unfold non_const_dict, typed_fields.
    assert (forall s t, match s with None => True | Some p => source a ir i p t end <-> may_read C D i s t) as H.
    { intros s t. destruct s as [p|]; cbn [may_read]; [|tauto]. unfold source. split.
      - intros [(g & -> & J)|(j & g & L & -> & J)]; [now apply ir_in|]. split; auto. unfold a in J. cbn [multi_arch MultiModel.a_out] in J. apply typed_In in J as (k & m & J & -> & ->). eauto.
      - destruct p as [g|g|j g|j g]; [|intros []|intros []|].
        + intros X. left. exists g. split; auto. now apply ir_in.
        + intros (L & k & m & J & <- & <-). right. exists j, (kname k). split; auto. split; auto. unfold a. cbn [multi_arch MultiModel.a_out]. apply typed_In. eauto. }
    revert b. induction (filter (fun f => negb (const_field (snd f))) (c_in C)) as [|f l IH]; intros b; cbn [map]; (split; intros F; inversion F as [|e ? b' ? E12 F']; subst; constructor).
    - destruct E12. split; auto. now apply H.
    - now apply IH.
    - destruct E12. split; auto. now apply H.
    - now apply IH.
  Qed.
  Lemma wiring_iff n prog : length prog = n /\ wiring C D prog <-> wired a ir n (map fst prog).
  Proof.
    unfold wiring, wired. rewrite map_length. split.
    - intros (L & H1 & H2). split; auto. split.
      + intros i b E. rewrite nth_error_map in E. destruct (nth_error prog i) as [[b' ws]|] eqn:Ei; [|discriminate]. injection E as <-. apply wires_iff. eauto.
      + intros g t J. apply ir_in in J as (k & m & J & <- & _). eauto.
    - intros (L & H1 & H2). split; auto. split.
      + intros i b ws Ei. apply wires_iff. apply H1. rewrite nth_error_map, Ei. reflexivity.
      + intros k m J. apply (H2 (kname k) (field_ty m)). apply ir_in. eauto.
  Qed.

  (** Words. *)
  Lemma in_word k m z : In (k, m) (c_in C) -> (word lty_width (field_ty m) z <-> word_of (k, m) z).
  Proof. intros J. destruct (swidth_in C k m K J) as [W S]. now apply (word_word_of (k, m)). Qed.
  Lemma ir_word k m z : In (k, m) (c_in D) -> (word lty_width (field_ty m) z <-> word_of (k, m) z).
  Proof. intros J. destruct (swidth_in D k m KD J) as [W S]. now apply (word_word_of (k, m)). Qed.
  Lemma word_in k m : In (k, m) (c_in C) -> In (kname k, field_ty m) (MultiModel.a_const a ++ MultiModel.a_in a).
  Proof. intros J. unfold a. cbn [multi_arch MultiModel.a_const MultiModel.a_in]. apply dicts_In. eauto. Qed.

  Section Run.
    Variables (n : nat) (prog : list (MultiModel.binding * list Z)).
    Hypothesis PR : program lty_width a ir n prog.
    Lemma one_word b ws : In (b, ws) prog -> exists w, ws = [w] /\ word_of (k0, m0) w /\ const_valid C (kname k0) w = true.
    Proof.
      intros J. destruct PR as [_ H]. specialize (H b ws J). unfold a in H. cbn [multi_arch MultiModel.a_const MultiModel.a_valid] in H. rewrite p_consts in H.
      inversion H as [|w ? ? ? [H1 H2] H']; subst. inversion H'; subst. exists w. split; auto. cbn [fst snd] in *. split; auto. apply in_word; auto. apply p0_in.
    Qed.

    (** The calls of a run. *)
    Section Calls.
      Variables (x : string -> Z) (u : nat -> string -> Z) (xs : list Z).
      Hypothesis Tx : forall f t, In (f, t) (MultiModel.i_in ir) -> word lty_width t (x f).
      Hypothesis Tu : forall i f t, (i < n)%nat -> In (f, t) (MultiModel.a_in a) -> word lty_width t (u i f).
      Let args i := call_args C (at_instr a prog x u i).

      Lemma args_word i : (i < n)%nat -> Forall2 word_of (c_in C) (args i).
      Proof.
        intros L. apply args_words; auto. intros k m J. apply (at_typed lty_width a ir p_regular n prog x u PR Tx Tu i L). now apply word_in.
      Qed.
      Lemma args_nth i p k m : nth_error (c_in C) p = Some (k, m) -> nth_error (args i) p = Some (at_instr a prog x u i (kname k)).
      Proof. intros E. unfold args, call_args. rewrite nth_error_map, E. reflexivity. Qed.
      Lemma sem_call i p k m z : (i < n)%nat -> nth_error (c_out C) p = Some (k, m) -> nth_error (c_call C (args i)) p = Some z ->
        MultiModel.a_sem a (at_instr a prog x u i) (kname k) = z.
      Proof.
        intros L E1 E2. unfold a. cbn [multi_arch MultiModel.a_sem]. eapply (run_word C K (g_call _ _ _ HC) (g_bo _ _ _ HC) (g_out _ _ _ HC)); eauto; [apply HC|now apply args_word].
      Qed.
      Lemma sem_for i k m : (i < n)%nat -> In (k, m) (c_out C) -> word_for (c_out C) (c_call C (args i)) (kname k) (MultiModel.a_sem a (at_instr a prog x u i) (kname k)).
      Proof.
        intros L J. apply In_nth_error in J as [p Ep]. destruct (F2_has _ _ _ p _ (g_call _ _ _ HC _ (args_word i L)) Ep) as (z & Ez & _).
        rewrite (sem_call i p k m z L Ep Ez). exists p, k, m. auto.
      Qed.

      Hypothesis Ex : forall p k m, nth_error (c_in D) p = Some (k, m) -> nth_error xs p = Some (x (kname k)).

      Lemma run_executes : executes C D prog xs (map args (seq 0 n)) (map (c_call C) (map args (seq 0 n))).
      Proof.
        pose proof (prog_length lty_width a ir n prog PR) as Ln.
        split; [rewrite map_length, seq_length; auto|]. split; auto. intros i b ws is Ei Es.
        assert (i < n)%nat as L by (rewrite <- Ln; apply nth_error_Some; congruence).
        assert (forall j, (j < n)%nat -> nth_error (map args (seq 0 n)) j = Some (args j)) as Nj.
        { intros j Lj. rewrite nth_error_map. rewrite (nth_error_nth' _ 0%nat) by (rewrite seq_length; auto). rewrite seq_nth by auto. reflexivity. }
        rewrite (Nj i L) in Es. injection Es as <-. split; [now apply args_word|]. intros p k m z Ep Ez. rewrite (args_nth i p k m Ep) in Ez. injection Ez as <-.
        pose proof (nth_error_In _ _ Ep) as J. pose proof (prog_wires lty_width a ir n prog PR i b ws Ei) as Wb. split; [|split].
        - intros Ec. destruct (p0_only k m J Ec) as [-> ->]. destruct (one_word b ws (nth_error_In _ _ Ei)) as (w & -> & _).
          f_equal. symmetry. apply (at_const lty_width a ir p_regular prog x u i b [w] 0%nat (kname k0) (field_ty m0) w); auto. unfold a. cbn [multi_arch MultiModel.a_const]. rewrite p_consts. reflexivity.
        - intros h Ih. rewrite (at_wire lty_width a ir p_regular n prog x u PR i b ws _ _ Ei Ih). cbn iota.
          destruct (wires_target_in a ir i b _ _ Wb Ih) as (f & t & _ & _ & [(g & [= <-] & Ig)|(? & ? & _ & [=] & _)]).
          apply ir_in in Ig as (kd & md & Ig & <- & _). apply In_nth_error in Ig as [q Eq]. exists q, kd, md. split; auto. split; auto. apply (Ex q kd md Eq).
        - intros j h Ih. rewrite (at_wire lty_width a ir p_regular n prog x u PR i b ws _ _ Ei Ih). cbn iota.
          destruct (wires_target_in a ir i b _ _ Wb Ih) as (f & t & _ & _ & [(g & [=] & _)|(j' & g & Lj & [= <- <-] & Ig)]).
          assert (j < n)%nat as Ljn by lia. exists (c_call C (args j)). split; [rewrite nth_error_map, (Nj j Ljn); reflexivity|].
          unfold a in Ig. cbn [multi_arch MultiModel.a_out] in Ig. apply typed_In in Ig as (ko & mo & Ig & -> & _). now apply (sem_for j ko mo).
      Qed.
    End Calls.

    (** Every execution is a run. *)
    Section Exec.
      Variables (xs : list Z) (ins outs : list (list Z)).
      Hypothesis Hx : Forall2 word_of (c_in D) xs.
      Hypothesis Ee : executes C D prog xs ins outs.
      Let x := look (c_in D) xs.
      Let u (i : nat) := look (c_in C) (nth i ins []).

      Lemma exec_x f t : In (f, t) (MultiModel.i_in ir) -> word lty_width t (x f).
      Proof.
        intros J. apply ir_in in J as (k & m & J & <- & <-). apply (proj2 (ir_word k m _ J)). apply In_nth_error in J as [p Ep]. destruct (F2_has _ _ _ p _ Hx Ep) as (z & Ez & Wz).
        unfold x. rewrite (look_nth _ _ p k m z (e_ni _ HD) Ep Ez). exact Wz.
      Qed.
      Lemma exec_ins i : (i < n)%nat -> exists b w is, nth_error prog i = Some (b, [w]) /\ nth_error ins i = Some is /\ nth i ins [] = is /\ nth_error outs i = Some (c_call C is).
      Proof.
        intros L. destruct (prog_at lty_width a ir n prog PR i L) as (b & ws & Ei). destruct (one_word b ws (nth_error_In _ _ Ei)) as (w & -> & _).
        destruct Ee as (Li & -> & _). destruct (nth_error ins i) as [is|] eqn:Es.
        - exists b, w, is. split; auto. split; auto. split; [now apply nth_error_nth|]. rewrite nth_error_map, Es. reflexivity.
        - apply nth_error_None in Es. rewrite Li, (prog_length lty_width a ir n prog PR) in Es. lia.
      Qed.
      Lemma exec_u i f t : (i < n)%nat -> In (f, t) (MultiModel.a_in a) -> word lty_width t (u i f).
      Proof.
        intros L J. destruct (exec_ins i L) as (b & w & is & Ei & Es & En & _). unfold a in J. cbn [multi_arch MultiModel.a_in] in J. apply non_const_In in J as (k & m & J & _ & -> & ->).
        apply (proj2 (in_word k m _ J)). apply In_nth_error in J as [p Ep]. destruct Ee as (_ & _ & H). destruct (H i b [w] is Ei Es) as [Fw _]. destruct (F2_has _ _ _ p _ Fw Ep) as (z & Ez & Wz).
        unfold u. rewrite En, (look_nth _ _ p k m z (g_ni _ _ _ HC) Ep Ez). exact Wz.
      Qed.
      Lemma exec_args i : (i < n)%nat -> nth_error ins i = Some (call_args C (at_instr a prog x u i)).
      Proof.
        induction i as [i IH] using lt_wf_ind. intros L. destruct (exec_ins i L) as (b & w & is & Ei & Es & En & Eo). rewrite Es. f_equal.
        pose proof Ee as (_ & _ & H). destruct (H i b [w] is Ei Es) as [Fw Hp]. pose proof (F2_length _ _ _ Fw) as Lw. unfold call_args. apply nth_error_ext. intros p. rewrite nth_error_map.
        destruct (nth_error (c_in C) p) as [[k m]|] eqn:Ep; cbn [option_map fst]; [|apply nth_error_None; apply nth_error_None in Ep; lia].
        destruct (F2_has _ _ _ p _ Fw Ep) as (z & Ez & Wz). rewrite Ez. f_equal. destruct (Hp p k m z Ep Ez) as (H1 & H2 & H3). pose proof (nth_error_In _ _ Ep) as J.
        destruct (const_field m) eqn:Ec.
        - injection (H1 eq_refl) as ->. destruct (p0_only k m J Ec) as [-> ->]. symmetry. apply (at_const lty_width a ir p_regular prog x u i b [z] 0%nat (kname k0) (field_ty m0) z); auto. unfold a. cbn [multi_arch MultiModel.a_const]. rewrite p_consts. reflexivity.
        - assert (In (kname k, field_ty m) (MultiModel.a_in a)) as Ja by (unfold a; cbn [multi_arch MultiModel.a_in]; apply non_const_In; exists k, m; auto).
          destruct (wires_target_onto a ir i b _ _ (prog_wires lty_width a ir n prog PR i b [w] Ei) Ja) as (s & Is & Ss).
          rewrite (at_wire lty_width a ir p_regular n prog x u PR i b [w] s _ Ei Is). destruct s as [[g|g|j g|j g]|]; cbn iota.
          + symmetry. apply look_for; [apply HD|]. apply (H2 g Is).
          + destruct Ss as [(? & [=] & _)|(? & ? & _ & [=] & _)].
          + destruct Ss as [(? & [=] & _)|(? & ? & _ & [=] & _)].
          + destruct Ss as [(? & [=] & _)|(j' & g' & Lj & [= <- <-] & _)]. destruct (H3 j g Is) as (os & Ej & po & ko & mo & Eo1 & <- & Eo2).
            assert (j < n)%nat as Ljn by lia. specialize (IH j Lj Ljn). destruct Ee as (_ & Eos & _). rewrite Eos, nth_error_map, IH in Ej. injection Ej as <-.
            symmetry. eapply (sem_call x u exec_x exec_u j po ko mo z Ljn); eauto.
          + unfold u. rewrite En. symmetry. eapply look_nth; eauto. apply HC.
      Qed.
    End Exec.

    Lemma ir_words xs x q k m : Forall2 word_of (c_in D) xs -> (forall p k m, nth_error (c_in D) p = Some (k, m) -> nth_error xs p = Some (x (kname k))) ->
      nth_error (c_out D) q = Some (k, m) -> nth_error (c_call D xs) q = Some (run_peak D x (kname k)).
    Proof.
      intros Hx Ex Eq. assert (call_args D x = xs) as Ea.
      { pose proof (F2_length _ _ _ Hx) as L. unfold call_args. apply nth_error_ext. intros p. rewrite nth_error_map.
        destruct (nth_error (c_in D) p) as [[k' m']|] eqn:Ep; cbn [option_map fst]; [now rewrite (Ex p k' m' Ep)|]. symmetry. apply nth_error_None. apply nth_error_None in Ep. lia. }
      rewrite <- Ea in Hx |- *. destruct (F2_has _ _ _ q _ (e_call _ HD _ Hx) Eq) as (z & Ez & _). rewrite Ez. f_equal. symmetry.
      eapply (run_word D KD (e_call _ HD) (e_bo _ HD) (e_out _ HD)); eauto. apply HD.
    Qed.

    Hypothesis n_pos : (0 < n)%nat.
    Lemma selects_iff ob : selects a ir ob <-> chooses C D ob.
    Proof.
      unfold selects, chooses, ir. cbn [multi_ir MultiModel.i_out]. unfold typed_fields.
      assert (forall g t, In (g, t) (MultiModel.a_out a) <-> exists k m, In (k, m) (c_out C) /\ kname k = g /\ field_ty m = t) as H.
      { intros g t. unfold a. cbn [multi_arch MultiModel.a_out]. rewrite typed_In. split; intros (k & m & J & E1 & E2); exists k, m; auto. }
      revert ob. induction (c_out D) as [|f l IH]; intros ob; cbn [map]; (split; intros F; inversion F as [|g ? ob' ? E1 F']; subst; constructor).
      - now apply H.
      - now apply IH.
      - now apply H.
      - now apply IH.
    Qed.

    Lemma computes_iff ob box : chooses C D ob -> (MultiProps.computes lty_width a ir n prog ob box <-> implements C D prog ob).
    Proof.
      intros Sel. pose proof (F2_length _ _ _ Sel) as Lo. split.
      - intros Cm xs ins outs Hx Ee q g z Eg Ez.
        pose proof (exec_x xs Hx) as Tx. pose proof (exec_u xs ins outs Ee) as Tu.
        set (x := look (c_in D) xs) in *. set (u := fun i => look (c_in C) (nth i ins [])) in *.
        assert (n - 1 < n)%nat as L by lia. pose proof (exec_args xs ins outs Hx Ee (n - 1)%nat L) as Ea. fold x in Ea. fold u in Ea.
        specialize (Cm x u Tx Tu).
        destruct (nth_error (c_out D) q) as [[kd md]|] eqn:Eq.
        2:{ apply nth_error_None in Eq. assert (q < length ob)%nat by (apply nth_error_Some; congruence). lia. }
        assert (nth_error (MultiModel.i_out ir) q = Some (kname kd, field_ty md)) as Eq' by (unfold ir; cbn [multi_ir MultiModel.i_out]; unfold typed_fields; rewrite nth_error_map, Eq; reflexivity).
        destruct (F2_nth _ _ _ Cm q g Eg) as (y & Ey & X). rewrite Eq' in Ey. injection Ey as <-. cbn [fst] in X. rewrite (outs_at lty_width a ir p_regular n prog x u PR _ g L) in X.
        assert (forall p k m, nth_error (c_in D) p = Some (k, m) -> nth_error xs p = Some (x (kname k))) as Ex.
        { intros p k m Ep. destruct (F2_has _ _ _ p _ Hx Ep) as (z' & Ez' & _). unfold x. now rewrite (look_nth _ _ p k m z' (e_ni _ HD) Ep Ez'). }
        rewrite (ir_words xs x q kd md Hx Ex Eq) in Ez. injection Ez as <-.
        destruct (F2_nth _ _ _ Sel q g Eg) as (y & Ey & k & m & J & <- & _).
        assert (last outs [] = c_call C (call_args C (at_instr a prog x u (n - 1)))) as ->.
        { destruct Ee as (Li & -> & _). rewrite last_nth, map_length, Li, (prog_length lty_width a ir n prog PR). apply nth_error_nth. rewrite nth_error_map, Ea. reflexivity. }
        unfold ir in X. cbn [multi_ir MultiModel.i_sem] in X. rewrite <- X. eapply sem_for; eauto.
      - intros Im x u Tx Tu. set (xs := call_args D x).
        assert (Forall2 word_of (c_in D) xs) as Hx by (apply args_words; auto; intros k m J; apply Tx, ir_in; eauto).
        assert (forall p k m, nth_error (c_in D) p = Some (k, m) -> nth_error xs p = Some (x (kname k))) as Ex by (intros p k m Ep; unfold xs, call_args; rewrite nth_error_map, Ep; reflexivity).
        pose proof (run_executes x u xs Tx Tu Ex) as Ee. specialize (Im xs _ _ Hx Ee).
        assert (n - 1 < n)%nat as L by lia.
        assert (last (map (c_call C) (map (fun i => call_args C (at_instr a prog x u i)) (seq 0 n))) [] = c_call C (call_args C (at_instr a prog x u (n - 1)))) as El.
        { rewrite last_nth, !map_length, seq_length. apply nth_error_nth. rewrite !nth_error_map, (nth_error_nth' _ 0%nat) by (rewrite seq_length; auto). rewrite seq_nth by auto. reflexivity. }
        rewrite El in Im. apply F2_intro; [unfold ir; cbn [multi_ir MultiModel.i_out]; unfold typed_fields; rewrite map_length; auto|].
        intros q g [g' t'] Eg Eq. unfold ir in Eq. cbn [multi_ir MultiModel.i_out] in Eq. unfold typed_fields in Eq. rewrite nth_error_map in Eq. destruct (nth_error (c_out D) q) as [[kd md]|] eqn:Eqd; [|discriminate].
        cbn [option_map fst snd] in Eq. injection Eq as <- <-. cbn [fst]. rewrite (outs_at lty_width a ir p_regular n prog x u PR _ g L). unfold ir. cbn [multi_ir MultiModel.i_sem].
        destruct (Im q g _ Eg (ir_words xs x q kd md Hx Ex Eqd)) as (p & k & m & E1 & <- & E2). apply (sem_call x u Tx Tu (n - 1) p k m _ L E1 E2).
    Qed.
  End Run.

  (** ** Instruction words *)
  Variable h : list ty.
  Hypothesis Wh : Forall wf_ty (in_ty C :: h).
  Hypothesis Bh : built h (in_ty C) (c_ia C).
  Hypothesis SW : same_width (in_ty C :: h).
  Hypothesis NM : no_multi_range (strip m0).

  Lemma valid_iff w : (word lty_width (field_ty m0) w /\ const_valid C (kname k0) w = true) <-> exists v, has_ty (strip m0) v /\ encodes (strip m0) w v.
  Proof.
    destruct p0_in as [J0 _]. assert (wf_ty (in_ty C)) as W by (inversion Wh; auto). pose proof (built_rel h _ _ Wh Bh) as Rl.
    assert (In (k0, strip m0) (strip_fields (c_in C))) as Ik by (unfold strip_fields; apply in_map_iff; exists (k0, m0); auto).
    pose proof (wf_members_prod "Input" _ _ _ W Ik) as Wm.
    destruct (prod_member _ "Input" _ (c_ia C) k0 (strip m0) W Rl Ik) as (fa & lo & Em & Af & _).
    pose proof (asm_rel_width _ (strip m0) Wm fa Af) as [Sf _].
    unfold const_valid. rewrite (named_find _ k0 m0 (g_ni _ _ _ HC) J0), Em, (in_word k0 m0 w J0). split.
    - intros ((nn & S & Rn) & V). assert (nn = a_width fa) as -> by (apply (swidth_fun (strip m0)); auto).
      destruct (isv_spec _ (reqs_good _ Wh) (exact_reqs _ SW) (strip m0) Wm NM fa w Af Rn V) as [v En]. exists v. split; auto. eapply enc_has_ty; eauto.
    - intros (v & _ & En). split; [exists (a_width fa); split; auto; eapply enc_range; eauto|].
      apply (dis_spec _ (reqs_good _ Wh) _ (acc_reqs _ (same_width_zero _ SW)) (strip m0) Wm fa w v Af En).
  Qed.

  (** The words of the program are those of instructions. *)
  Definition coded (prog : list (MultiModel.binding * list Z)) : Prop :=
    forall b ws, In (b, ws) prog -> exists w v, ws = [w] /\ has_ty (strip m0) v /\ encodes (strip m0) w v.
  Lemma program_iff n prog : program lty_width a ir n prog <-> length prog = n /\ wiring C D prog /\ coded prog.
  Proof.
    unfold program. rewrite <- (wiring_iff n prog).
    assert ((forall b ws, In (b, ws) prog -> Forall2 (fun w c => word lty_width (snd c) w /\ MultiModel.a_valid a (fst c) w = true) ws (MultiModel.a_const a)) <-> coded prog) as ->; [|tauto].
    unfold a. cbn [multi_arch MultiModel.a_const MultiModel.a_valid]. rewrite p_consts. split; intros H b ws J; specialize (H b ws J).
    - inversion H as [|w ? ? ? H1 H2]; subst. inversion H2; subst. apply valid_iff in H1 as (v & H1 & H3). eauto.
    - destruct H as (w & v & -> & H1 & H2). constructor; [|constructor]. apply valid_iff. eauto.
  Qed.
End Prog.
