(** The PEs with floating point boxes are machines. *)
From Coq Require Import ZArith List Bool Lia Permutation.
From Verif Require Import Base BaseLemmas BvModel BvLemmas BindModel BindProps MapIdxModel MapIdxProps CegisModel CegisProps
  MapModel MapProofs MapMain MapProps MapIff MapIffProps MapDirect BBFormModel BBFormProps MapBBModel MapBBProofs MapBBMachine MapBBProps SmallPeModel FpPeModel.
Import ListNotations.
Open Scope list_scope.
Open Scope Z_scope.

Lemma fpath_eqb_eq p q : fpath_eqb p q = true <-> p = q.
Proof. unfold fpath_eqb. rewrite Z.eqb_eq. split; [|now intros ->]. destruct p, q; cbn; congruence. Qed.
Lemma fty_eqb_eq s t : fty_eqb s t = true <-> s = t.
Proof. destruct s, t; cbn [fty_eqb]; try (split; congruence). rewrite Z.eqb_eq. split; congruence. Qed.
Lemma fp_eqs : eqs fpath_eqb fty_eqb.
Proof. split; [apply fpath_eqb_eq|apply fty_eqb_eq]. Qed.
Lemma fcls_eqb_eq c d : fcls_eqb c d = true <-> c = d.
Proof.
  destruct c, d; cbn [fcls_eqb]; try (split; congruence). rewrite andb_true_iff, Bool.eqb_true_iff, Z.eqb_eq. split; [intros (-> & ->)|intros [= -> ->]]; auto.
Qed.
Lemma fty_In w t z : In z (fty_vals w t) <-> 0 <= z < 2 ^ match t with TConst v => v | TWd => w end.
Proof. apply pyrange_In. Qed.
Global Opaque fty_vals.

(** ** Runs *)
Section Runs.
  Context {D C A B : Type} (cls : nat -> C) (g : A -> B).
  Lemma to_out_run F (c : comp D A) : fun_run cls F (to_out g c) = g (fun_run cls F c).
  Proof. induction c as [a|o ins k IH]; cbn [to_out fun_run]; auto. Qed.
  Lemma to_out_sym outs (c : comp D A) : sym_run outs (to_out g c) = (g (fst (sym_run outs c)), snd (sym_run outs c)).
  Proof.
    induction c as [a|o ins k IH]; cbn [to_out sym_run]; [reflexivity|]. rewrite IH. now destruct (sym_run outs (k (outs o))).
  Qed.
  Lemma to_out_straight nin os (c : comp D A) : straight cls nin os c -> straight cls nin os (to_out g c).
  Proof. induction 1 as [a|o ins k os L _ IH]; cbn [to_out]; constructor; auto. Qed.
  Lemma straight_cls cls' nin os (c : comp D A) : (forall o, In o os -> cls o = cls' o) -> straight cls nin os c -> straight cls' nin os c.
  Proof.
    intros H S. induction S as [a|o ins k os L _ IH]; constructor.
    - rewrite <- (H o) by now left. exact L.
    - intros out. apply IH. intros o' I. apply H. now right.
  Qed.
  Lemma run_cls cls' F nin os (c : comp D A) : (forall o, In o os -> cls o = cls' o) -> straight cls nin os c -> fun_run cls F c = fun_run cls' F c.
  Proof.
    intros H S. induction S as [a|o ins k os L _ IH]; cbn [fun_run]; [reflexivity|]. rewrite (H o) by now left. apply IH. intros o' I. apply H. now right.
  Qed.
End Runs.

(** ** The machine semantics *)

(** An IR instruction: its boxes are numbered from 3, each is called once, in a fixed
    order. *)
Definition fir_ok (i : fir) : Prop :=
  (forall o, In o (ir_objs i) -> (3 <= o)%nat) /\ NoDup (ir_objs i) /\
  exists ios, Permutation ios (ir_objs i) /\ forall x y, straight (ir_cls i) fcls_nin ios (ir_prog i x y).

Definition words (w : Z) (c : fcls) : list (list Z) := [pyrange 0 (2 ^ w)].

(** What the PEs compute when the boxes compute [F]. *)
Definition fp_call (w : Z) (F : fcls -> list Z -> list Z) (m : finst) (a b : Z) : Z :=
  let b := if f_use m then f_imm m else b in
  match f_op m with
  | OAlu o => alu w o a b
  | OFpu FAdd => hd 0 (F CAdd [a; b])
  | OFpu FMul => hd 0 (F CMul [a; b])
  | OFpu FSqrt => hd 0 (F CSqrt [a])
  end.
Definition simple_call (w : Z) (F : fcls -> list Z -> list Z) (o : sop) (a b : Z) : Z :=
  match o with SAdd => bvadd w a b | SFp => hd 0 (F CAdd [a; b]) end.

Lemma box_cls_ir i o : (3 <= o)%nat -> box_cls i o = ir_cls i o.
Proof. destruct o as [|[|[|o]]]; try lia. reflexivity. Qed.

Section Fp.
  Variables (A : faccess) (w ta tf : Z) (first : bool) (i : fir).
  Hypotheses (HA : facc_ok A) (Hw : 0 < w) (Ht : ta <> tf) (Hi : fir_ok i).

  Lemma words_pos : 0 < 2 ^ w.
  Proof. apply Z.pow_pos_nonneg; lia. Qed.

  Lemma fp_instr_ok F : instr_ok {| i_in := i_in (fp_instr i); i_out := i_out (fp_instr i); i_sem := fun x => fun_run (box_cls i) F (fir_prog i x) |}.
  Proof.
    constructor.
    - cbn [fp_instr i_in]. destruct (ir_two i); repeat constructor; cbn; intuition discriminate.
    - repeat constructor; cbn; auto.
    - intros x x' q H. cbn [fp_instr i_in i_sem] in *. unfold fir_prog.
      rewrite (H FQ0 TWd) by (destruct (ir_two i); cbn; auto). destruct (ir_two i); [|reflexivity]. now rewrite (H FQ1 TWd) by (cbn; auto).
  Qed.

  Lemma fir_prog_ext (x x' : fpath -> Z) : (forall p, In p (map fst (i_in (fp_instr i))) -> x p = x' p) -> fir_prog i x = fir_prog i x'.
  Proof.
    intros H. unfold fir_prog. cbn [fp_instr i_in] in H. rewrite (H FQ0) by (destruct (ir_two i); cbn; auto). destruct (ir_two i); [|reflexivity].
    now rewrite (H FQ1) by (cbn; auto).
  Qed.

  Lemma fir_ios : exists ios, NoDup ios /\ (forall o, In o ios <-> In o (ir_objs i)) /\ forall x, straight (box_cls i) fcls_nin ios (fir_prog i x).
  Proof.
    destruct Hi as (H3 & Nd & ios & Pm & St). exists ios. split; [now apply (Permutation_NoDup (Permutation_sym Pm))|]. split.
    - intros o. split; apply Permutation_in; [exact Pm|now apply Permutation_sym].
    - intros x. apply to_out_straight. eapply straight_cls; [|apply St]. intros o I. symmetry. apply box_cls_ir, H3.
      eapply Permutation_in; eauto.
  Qed.

  Definition ffs (F : fcls -> list Z -> list Z) (fi : nat) (l : fpath -> Z) (q : fpath) : Z := fp_call w F (fdec (f_alu first fi) l) (l FA) (l FB).
  Definition ffv (fi : nat) (l : fpath -> Z) : bool := fvalid (f_alu first fi) l.

  Lemma fp_prog_run F m a b : fun_run (box_cls i) F (fp_prog A w m a b) = fp_call w F m a b.
  Proof.
    unfold fp_prog, fp_call. destruct HA as (H1 & H2). cbn [fun_run box_cls]. destruct (f_op m) as [o|o]; cbn [m_alu].
    - now rewrite H1.
    - rewrite H2. now destruct o.
  Qed.

  Lemma fform_nth fi f : nth_error (a_forms (fp_arch w ta tf first)) fi = Some f -> f = fform ta tf (f_alu first fi).
  Proof. destruct fi as [|[|fi]]; cbn; intros E; [now injection E|now injection E|destruct fi; discriminate]. Qed.

  Lemma ftag_is fi f (tags : fpath -> Z) : nth_error (a_forms (fp_arch w ta tf first)) fi = Some f ->
    (forall d, In d (snd f) -> tags (fst d) = snd d) ->
    (tags FInst =? ta) = f_alu first fi /\ (tags FInst =? ta) || (tags FInst =? tf) = true.
  Proof.
    intros E H. apply fform_nth in E. subst f. destruct (f_alu first fi); cbn [fform snd] in H;
      pose proof (H _ (or_introl eq_refl)) as X; cbn [fst snd] in X; rewrite X.
    - rewrite Z.eqb_refl. auto.
    - rewrite Z.eqb_refl, orb_true_r. split; auto. apply Z.eqb_neq. congruence.
  Qed.

  Lemma fdec_local al l l' : (forall p, In p (fst (fform ta tf al)) -> l p = l' p) -> fdec al l = fdec al l' /\ l FA = l' FA /\ l FB = l' FB.
  Proof. intros H. unfold fdec. destruct al; cbn [fform fst] in H; rewrite !H by (cbn; auto 8); auto. Qed.

  Lemma fp_arch_ok F : arch_ok fty_const (arch_of (fp_boxed A w ta tf first i) F) (ffs F) ffv.
  Proof.
    constructor.
    - repeat constructor; cbn; intuition discriminate.
    - repeat constructor; cbn; intuition discriminate.
    - constructor.
    - intros p [].
    - intros fi f E. apply fform_nth in E. subst f. destruct (f_alu first fi); intros p; cbn; intuition (subst; auto).
    - intros fi f E. apply fform_nth in E. subst f. destruct (f_alu first fi); repeat constructor; cbn; auto.
    - intros fi f tags l q E H. destruct (ftag_is fi f tags E H) as [X _]. cbn [arch_of fp_boxed b_prog b_cls a_fsem]. rewrite X.
      unfold outp. rewrite to_out_run, fp_prog_run. reflexivity.
    - intros fi f tags l q E H. destruct (ftag_is fi f tags E H) as [X _]. cbn [arch_of fp_boxed b_prog b_cls a_sem]. rewrite X.
      unfold outp. rewrite to_out_run, fp_prog_run. reflexivity.
    - intros fi f tags l E H. destruct (ftag_is fi f tags E H) as [X Y]. cbn [arch_of fp_boxed b_arch fp_arch a_fvalid]. now rewrite Y, X.
    - intros fi f tags l E H. destruct (ftag_is fi f tags E H) as [X Y]. cbn [arch_of fp_boxed b_arch fp_arch a_valid]. now rewrite Y, X.
    - intros fi f l l' q E H. apply fform_nth in E. subst f. unfold ffs. destruct (fdec_local _ l l' H) as (-> & -> & ->). reflexivity.
    - intros fi f l l' E H. apply fform_nth in E. subst f. unfold ffv, fvalid. destruct (f_alu first fi).
      + rewrite (H FAluP (TConst 3)); cbn; auto.
      + rewrite (H FFpuP (TConst 2)); cbn; auto.
  Qed.

  Lemma fp_boxed_ok : exists ios, NoDup ios /\
    boxed_ok fty_const (fp_boxed A w ta tf first i) fcls_nin (words w) [0; 1; 2]%nat ios ffs ffv.
  Proof.
    destruct fir_ios as (ios & Nd & Io & St). exists ios. split; [exact Nd|]. constructor.
    - intros F _. apply fp_arch_ok.
    - intros F _. exact (fp_instr_ok F).
    - intros tags tags' l l' Et El. cbn [fp_boxed b_arch b_prog fp_arch a_valid a_fvalid].
      rewrite (Et FInst) by (destruct first; cbn; auto).
      assert (E : forall al, fdec al l = fdec al l' /\ l FA = l' FA /\ l FB = l' FB).
      { intros al. apply fdec_local. intros p I. apply El. destruct al; cbn in *; intuition (subst; auto). }
      assert (V : forall al, fvalid al l = fvalid al l').
      { intros al. unfold fvalid. destruct al; rewrite El; auto; cbn; auto. }
      split; [|split; intros; now rewrite V]. intros outs. destruct (E (tags' FInst =? ta)) as (-> & -> & ->). auto.
    - intros x x' H outs. cbn [fp_boxed b_iprog]. now rewrite (fir_prog_ext x x' H).
    - reflexivity.
    - intros [| | |[] n]; cbn; lia.
    - discriminate.
    - intros c d [<-|[]] X. pose proof words_pos. assert (I : In 0 (pyrange 0 (2 ^ w))) by (apply pyrange_In; lia). rewrite X in I. destruct I.
    - intros tags l. apply to_out_straight. unfold fp_prog. repeat (constructor; [reflexivity|intros ?]). constructor.
    - exact St.
    - repeat constructor; cbn; intuition lia.
    - apply Hi.
    - intros o I J. apply Hi in J. cbn in I. intuition lia.
    - intros o. reflexivity.
    - exact Io.
  Qed.

  (** Instructions of the PE. *)
  Definition fp_valid (m : finst) : Prop := 0 <= f_imm m < 2 ^ w.
  Definition fp_sem (F : fcls -> list Z -> list Z) (m : finst) (l : fpath -> Z) (q : fpath) : Z := fp_call w F m (l FA) (l FB).

  Definition fenc (m : finst) (p : fpath) : Z :=
    match p, f_op m with
    | FAluP, OAlu o => aluop_val o
    | FFpuP, OFpu o => fpuop_val o
    | FImmP, _ => f_imm m
    | FUseP, _ => if f_use m then 1 else 0
    | _, _ => 0
    end.

  Lemma fp_machine F : machine fty_const (fty_vals w) (arch_of (fp_boxed A w ta tf first i) F) (ffs F) ffv fp_valid
    (fun fi => fdec (f_alu first fi)) (fp_sem F).
  Proof.
    pose proof words_pos as Pw. constructor.
    - intros p t [].
    - intros fi f p t E I Ct. apply fform_nth in E. subst f. cbn in I.
      destruct (f_alu first fi); repeat (destruct I as [I|I]; [injection I as <- <-; try discriminate; cbn; auto 8|]); destruct I.
    - intros fi f l q _ _ _. reflexivity.
    - intros fi f l E T V _. unfold fp_valid, fdec. cbn [f_imm]. exact (proj1 (fty_In w _ _) (T FImmP (TConst w) ltac:(cbn; auto))).
    - intros m Hm. pose (al := m_alu (f_op m)).
      exists (if Bool.eqb al first then 0%nat else 1%nat), (fform ta tf al), (fenc m).
      assert (Eb : f_alu first (if Bool.eqb al first then 0%nat else 1%nat) = al) by (destruct al, first; reflexivity).
      split; [destruct al, first; reflexivity|]. split; [|split; [|split]].
      + intros p t I. apply fty_In. destruct m as [op im us]. unfold fp_valid in Hm. cbn [f_imm] in Hm. unfold fenc. cbn [f_op f_imm f_use].
        cbn in I. repeat (destruct I as [I|I]; [injection I as <- <-; try (destruct op as [[]|[]]; cbn; lia); try lia; try (destruct us; cbn; lia); try (destruct op; lia)|]).
        destruct I.
      + unfold ffv, fvalid. rewrite Eb. unfold al, fenc. destruct (f_op m) as [[]|[]]; reflexivity.
      + intros p zs [].
      + rewrite Eb. unfold al, fdec, fenc. destruct m as [[[]|[]] im []]; reflexivity.
    - intros fi f l l' E H. apply fform_nth in E. subst f. unfold fdec. destruct (f_alu first fi).
      + rewrite (H FAluP (TConst 3)), (H FImmP (TConst w)), (H FUseP (TConst 1)); cbn; auto 10.
      + rewrite (H FFpuP (TConst 2)), (H FImmP (TConst w)), (H FUseP (TConst 1)); cbn; auto 10.
    - intros m l l' q H. unfold fp_sem. rewrite (H FA TWd), (H FB TWd); cbn; auto 12.
  Qed.

  Lemma fp_inhabited : inhabited_types (fty_vals w) (fun _ => [ta; tf]) (fp_arch w ta tf first) (fp_instr i).
  Proof.
    pose proof words_pos as Pw. split; [|split].
    - intros p t I X. assert (t = TWd) as -> by (cbn [fp_instr i_in] in I; destruct (ir_two i); cbn in I; intuition congruence).
      assert (J : In 0 (fty_vals w TWd)) by (apply fty_In; lia). rewrite X in J. destruct J.
    - discriminate.
    - intros fi f p z E I. apply fform_nth in E. subst f. destruct (f_alu first fi); cbn in I; destruct I as [I|[]]; injection I as <- <-; cbn; auto.
  Qed.
  Lemma fp_nc p t : In (p, t) (i_in (fp_instr i)) -> fty_const t = false.
  Proof. cbn [fp_instr i_in]. destruct (ir_two i); cbn [In]; intros I; repeat (destruct I as [I|I]; [injection I as <- <-; reflexivity|]); destruct I. Qed.

  (** ** The simple architecture *)
  Definition sfs (F : fcls -> list Z -> list Z) (fi : nat) (l : fpath -> Z) (q : fpath) : Z := simple_call w F (sop_of (l FSop)) (l FA) (l FB).
  Definition sfv (fi : nat) (l : fpath -> Z) : bool := sop_valid (l FSop).
  Definition simple_sem (F : fcls -> list Z -> list Z) (m : sop) (l : fpath -> Z) (q : fpath) : Z := simple_call w F m (l FA) (l FB).

  Lemma simple_prog_run F m a b : fun_run (box_cls i) F (simple_prog w m a b) = simple_call w F m a b.
  Proof. reflexivity. Qed.
  Lemma sform_nth fi f : nth_error (a_forms simple_arch) fi = Some f -> f = ([FSop; FA; FB], []).
  Proof. destruct fi as [|fi]; cbn; intros E; [now injection E|destruct fi; discriminate]. Qed.

  Lemma simple_arch_ok F : arch_ok fty_const (arch_of (simple_boxed w i) F) (sfs F) sfv.
  Proof.
    constructor.
    - repeat constructor; cbn; intuition discriminate.
    - repeat constructor; cbn; intuition discriminate.
    - constructor.
    - intros p [].
    - intros fi f E. apply sform_nth in E. subst f. intros p; cbn; intuition (subst; auto).
    - intros fi f E. apply sform_nth in E. subst f. constructor.
    - intros fi f tags l q E H. cbn [arch_of simple_boxed b_prog b_cls a_fsem]. unfold outp. rewrite to_out_run, simple_prog_run. reflexivity.
    - intros fi f tags l q E H. cbn [arch_of simple_boxed b_prog b_cls a_sem]. unfold outp. rewrite to_out_run, simple_prog_run. reflexivity.
    - reflexivity.
    - reflexivity.
    - intros fi f l l' q E H. apply sform_nth in E. subst f. unfold sfs. now rewrite !H by (cbn; auto).
    - intros fi f l l' E H. apply sform_nth in E. subst f. unfold sfv. rewrite (H FSop (TConst 2)); cbn; auto.
  Qed.

  Lemma simple_boxed_ok : exists ios, NoDup ios /\
    boxed_ok fty_const (simple_boxed w i) fcls_nin (words w) [0]%nat ios sfs sfv.
  Proof.
    destruct fir_ios as (ios & Nd & Io & St). exists ios. split; [exact Nd|]. constructor.
    - intros F _. apply simple_arch_ok.
    - intros F _. exact (fp_instr_ok F).
    - intros tags tags' l l' Et El. cbn [simple_boxed b_arch b_prog simple_arch a_valid a_fvalid].
      rewrite !El by (cbn; auto). auto.
    - intros x x' H outs. cbn [simple_boxed b_iprog]. now rewrite (fir_prog_ext x x' H).
    - reflexivity.
    - intros [| | |[] n]; cbn; lia.
    - discriminate.
    - intros c d [<-|[]] X. pose proof words_pos. assert (I : In 0 (pyrange 0 (2 ^ w))) by (apply pyrange_In; lia). rewrite X in I. destruct I.
    - intros tags l. apply to_out_straight. unfold simple_prog. repeat (constructor; [reflexivity|intros ?]). constructor.
    - exact St.
    - repeat constructor; cbn; intuition lia.
    - apply Hi.
    - intros o I J. apply Hi in J. cbn in I. intuition lia.
    - intros o. reflexivity.
    - exact Io.
  Qed.

  Lemma simple_machine F : machine fty_const (fty_vals w) (arch_of (simple_boxed w i) F) (sfs F) sfv (fun _ => True)
    (fun _ l => sop_of (l FSop)) (simple_sem F).
  Proof.
    pose proof words_pos as Pw. constructor.
    - intros p t [].
    - intros fi f p t E I Ct. apply sform_nth in E. subst f. cbn in I.
      repeat (destruct I as [I|I]; [injection I as <- <-; try discriminate; cbn; auto 8|]); destruct I.
    - intros fi f l q _ _ _. reflexivity.
    - auto.
    - intros m _. exists 0%nat, ([FSop; FA; FB], []), (fun p => match p with FSop => sop_val m | _ => 0 end).
      split; [reflexivity|]. split; [|split; [|split]].
      + intros p t I. apply fty_In. cbn in I. repeat (destruct I as [I|I]; [injection I as <- <-; try lia; destruct m; cbn; lia|]). destruct I.
      + destruct m; reflexivity.
      + intros p zs [].
      + destruct m; reflexivity.
    - intros fi f l l' E H. apply sform_nth in E. subst f. rewrite (H FSop (TConst 2)); cbn; auto 10.
    - intros m l l' q H. unfold simple_sem. rewrite (H FA TWd), (H FB TWd); cbn; auto 12.
  Qed.

  Lemma simple_inhabited : inhabited_types (fty_vals w) (fun _ => [0]) simple_arch (fp_instr i).
  Proof.
    pose proof words_pos as Pw. split; [|split].
    - intros p t I X. assert (t = TWd) as -> by (cbn [fp_instr i_in] in I; destruct (ir_two i); cbn in I; intuition congruence).
      assert (J : In 0 (fty_vals w TWd)) by (apply fty_In; lia). rewrite X in J. destruct J.
    - discriminate.
    - intros fi f p z E I. apply sform_nth in E. subst f. destruct I.
  Qed.

  (** ** What it means that an instruction computes the IR instruction *)

  (** The IR instruction with its first input at [a] or (swapped) at [b]. *)
  Definition ir_call_at (F : fcls -> list Z -> list Z) (swap : bool) (a b : Z) : Z :=
    fun_run (ir_cls i) F (if swap then ir_prog i b a else ir_prog i a b).
  Definition ir_call1_at (F : fcls -> list Z -> list Z) (swap : bool) (a b : Z) : Z :=
    fun_run (ir_cls i) F (ir_prog i (if swap then b else a) 0).
  Definition ir_at (F : fcls -> list Z -> list Z) (swap : bool) (a b : Z) : Z :=
    if ir_two i then ir_call_at F swap a b else ir_call1_at F swap a b.

  Lemma fir_run F x : fun_run (box_cls i) F (fir_prog i x) FQo = fun_run (ir_cls i) F (ir_prog i (x FQ0) (if ir_two i then x FQ1 else 0)).
  Proof.
    unfold fir_prog, outp. rewrite to_out_run. symmetry. destruct Hi as (H3 & _ & ios & Pm & St).
    eapply run_cls; [|apply St]. intros o I. symmetry. apply box_cls_ir, H3. eapply Permutation_in; eauto.
  Qed.

  Definition does {M} (call : (fcls -> list Z -> list Z) -> M -> Z -> Z -> Z) (m : M) (swap : bool) : Prop :=
    forall F, respects (words w) F -> forall a b, 0 <= a < 2 ^ w -> 0 <= b < 2 ^ w -> ir_at F swap a b = call F m a b.

  Section Does.
    Context {M : Type} (bx : boxed fpath fty fcls) (call : (fcls -> list Z -> list Z) -> M -> Z -> Z -> Z).
    Hypotheses (Ei : b_instr bx = fp_instr i) (Ep : b_iprog bx = fir_prog i) (Ec : b_cls bx = box_cls i).
    Hypothesis Ain : forall p, In (p, TWd) (a_in (b_arch bx)) <-> p = FA \/ p = FB.
    Hypothesis Aco : forall p t, In (p, t) (a_in (b_arch bx)) -> t <> TWd -> p <> FA /\ p <> FB.
    Hypothesis Aout : a_out (b_arch bx) = [(FOut, TWd)].
    Hypothesis Anz : forall p t, In (p, t) (a_in (b_arch bx)) -> In 0 (fty_vals w t).
    Notation sem := (fun F m (l : fpath -> Z) (q : fpath) => call F m (l FA) (l FB)).

    Lemma does_from m bnd obnd : placed (b_arch bx) (b_instr bx) bnd obnd -> computes_bb (fty_vals w) bx (words w) sem m bnd obnd ->
      exists swap, does call m swap /\ bnd FQ0 = (if swap then FB else FA) /\ (ir_two i = true -> bnd FQ1 = if swap then FA else FB).
    Proof.
      intros (B1 & B2 & _) Co. rewrite Ei in B1, B2.
      assert (X0 : In (FQ0, TWd) (i_in (fp_instr i))) by (cbn [fp_instr i_in]; destruct (ir_two i); cbn; auto).
      pose proof (proj1 (Ain _) (B1 _ _ X0)) as E0.
      assert (E1 : ir_two i = true -> bnd FQ1 = (if fpath_eqb (bnd FQ0) FB then FA else FB)).
      { intros E. assert (X1 : In (FQ1, TWd) (i_in (fp_instr i))) by (cbn [fp_instr i_in]; rewrite E; cbn; auto).
        destruct (proj1 (Ain _) (B1 _ _ X1)) as [Y|Y], E0 as [Z|Z]; rewrite Z, ?Y; cbn; auto;
          exfalso; (enough (FQ0 = FQ1) by discriminate); apply (B2 FQ0 TWd FQ1 TWd X0 X1); congruence. }
      exists (fpath_eqb (bnd FQ0) FB). split; [|split; [|exact E1]].
      - intros F HF a b Wa Wb.
        set (l := fun p => match p with FA => a | FB => b | _ => 0 end).
        assert (Tl : MapProofs.typed (fty_vals w) (a_in (b_arch bx)) l).
        { intros p t I. pose proof (Anz p t I) as Z0. destruct t as [|v].
          - destruct (proj1 (Ain p) I) as [->| ->]; apply fty_In; assumption.
          - destruct (Aco p _ I ltac:(discriminate)). destruct p; cbn; congruence. }
        assert (Io : In (FQo, TWd) (i_out (b_instr bx))) by (rewrite Ei; cbn; auto).
        pose proof (Co F HF FQo TWd Io l Tl) as E.
        cbn [instr_of i_sem] in E. rewrite Ep, Ec, fir_run in E. change (call F m a b) with (call F m (l FA) (l FB)). rewrite <- E.
        unfold ir_at, ir_call_at, ir_call1_at. destruct (ir_two i).
        + rewrite (E1 eq_refl). destruct E0 as [-> | ->]; reflexivity.
        + destruct E0 as [-> | ->]; reflexivity.
      - destruct E0 as [-> | ->]; reflexivity.
    Qed.

    Lemma does_to m swap : does call m swap -> exists bnd obnd, placed (b_arch bx) (b_instr bx) bnd obnd /\ computes_bb (fty_vals w) bx (words w) sem m bnd obnd.
    Proof.
      intros D. exists (fun p => match p with FQ0 => if swap then FB else FA | _ => if swap then FA else FB end), (fun _ => FOut). split.
      - rewrite Ei. unfold placed. rewrite Aout. split; [|split; [|split]].
        + intros q t I. assert (t = TWd /\ (q = FQ0 \/ q = FQ1)) as [-> Hq] by (cbn [fp_instr i_in] in I; destruct (ir_two i); cbn in I; intuition congruence).
          apply Ain. destruct Hq as [-> | ->], swap; auto.
        + intros q t q' t' I I'. cbn [fp_instr i_in] in I, I'. destruct (ir_two i); cbn in I, I'.
          * destruct I as [I|[I|[]]], I' as [I'|[I'|[]]]; injection I as <- <-; injection I' as <- <-; auto; destruct swap; discriminate.
          * destruct I as [I|[]], I' as [I'|[]]. congruence.
        + intros q t [I|[]]. injection I as <- <-. cbn; auto.
        + intros q t q' t' [I|[]] [I'|[]]. congruence.
      - intros F HF q t I l Tl. cbn [instr_of i_out] in I. rewrite Ei in I. destruct I as [I|[]]. injection I as <- <-.
        cbn [instr_of i_sem]. rewrite Ep, Ec, fir_run.
        assert (Wa : 0 <= l FA < 2 ^ w) by (apply (proj1 (fty_In w TWd (l FA))), Tl, Ain; auto).
        assert (Wb : 0 <= l FB < 2 ^ w) by (apply (proj1 (fty_In w TWd (l FB))), Tl, Ain; auto).
        pose proof (D F HF (l FA) (l FB) Wa Wb) as E. unfold ir_at, ir_call_at, ir_call1_at in E. destruct (ir_two i), swap; exact E.
    Qed.
  End Does.
End Fp.
