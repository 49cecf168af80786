(** C83: the PEs with floating point boxes, and what is mapped to them. *)
From Coq Require Import ZArith List Bool Lia Permutation.
From Verif Require Import Base BaseLemmas BvModel BvLemmas BindModel BindProps MapIdxModel MapIdxProps CegisModel CegisProps
  MapModel MapProofs MapMain MapProps MapIff MapIffProps MapDirect BBFormModel BBFormProps MapBBModel MapBBProofs MapBBMachine MapBBProps SmallPeModel FpPeModel FpPeProofs.
Import ListNotations.
Open Scope list_scope.
Open Scope Z_scope.

(** * Specification *)

(** [solve] of a mapping problem: some solver that decides the formula finds a rule; no
    strategy finds one. *)
Section Solve.
  Variables (w : Z) (tagd : fpath -> list Z) (k : ivar) (bx : boxed fpath fty fcls).
  Definition solved (o : outcome (bvar fpath)) : Prop :=
    answer_bb fpath_eqb fty_eqb fcls_eqb fty_const (fty_vals w) tagd k bx (words w) o.
  Definition found : Prop :=
    exists y phi, build_bb fpath_eqb fty_eqb fcls_eqb fty_const k bx = Ok (BBForm y phi) /\
      forall fo, forall_ok (dom_bb fpath_eqb fty_eqb (fty_vals w) tagd (words w) k bx) fo -> exists r, direct_solve fo y (bform bx phi) = ODone r.
  Definition never : Prop := forall r, ~ solved (ODone r).
End Solve.
Definition pe_tags (ta tf : Z) (_ : fpath) : list Z := [ta; tf].
Definition no_tags (_ : fpath) : list Z := [0].

(** The rule holds the fields of the instruction [m] and sends the inputs to [a] and
    [b], or to [b] and [a]. *)
Definition sends (two : bool) (ru : rule fpath) (swap : bool) : Prop :=
  In (SPath FQ0, if swap then FB else FA) (r_in ru) /\
  (two = true -> In (SPath FQ1, if swap then FA else FB) (r_in ru)) /\ In (Some FQo, FOut) (r_out ru).
Definition fp_rule (two : bool) (ru : rule fpath) (m : finst) (swap : bool) : Prop :=
  match f_op m with OAlu o => In (SVal (aluop_val o), FAluP) (r_in ru) | OFpu o => In (SVal (fpuop_val o), FFpuP) (r_in ru) end /\
  In (SVal (f_imm m), FImmP) (r_in ru) /\ In (SVal (if f_use m then 1 else 0), FUseP) (r_in ru) /\ sends two ru swap.

(** [m] computes the IR instruction, whatever the boxes compute. *)
Definition pe_does (w : Z) (i : fir) : finst -> bool -> Prop := does w i (fp_call w).
Definition simple_does (w : Z) (i : fir) : sop -> bool -> Prop := does w i (simple_call w).

(** * The rules *)

Lemma aluop_code z : aluop_valid z = true -> aluop_val (aluop_of z) = z.
Proof.
  unfold aluop_valid. rewrite andb_true_iff, !Z.leb_le. intros H. assert (z = 1 \/ z = 2 \/ z = 3 \/ z = 4 \/ z = 5) as [->|[->|[->|[->| ->]]]] by lia; reflexivity.
Qed.
Lemma fpuop_code z : fpuop_valid z = true -> fpuop_val (fpuop_of z) = z.
Proof.
  unfold fpuop_valid. rewrite !orb_true_iff, !Z.eqb_eq. intros [[->| ->]| ->]; reflexivity.
Qed.

Section Pe.
  Variables (A : faccess) (w ta tf : Z) (first : bool) (i : fir).
  Hypotheses (HA : facc_ok A) (Hw : 0 < w) (Ht : ta <> tf) (Hi : fir_ok i).
  Notation bx := (fp_boxed A w ta tf first i).

  Lemma pe_ain p : In (p, TWd) (a_in (fp_arch w ta tf first)) <-> p = FA \/ p = FB.
  Proof. cbn. intuition (try discriminate); try congruence; subst; auto 10. Qed.
  Lemma pe_aco p t : In (p, t) (a_in (fp_arch w ta tf first)) -> t <> TWd -> p <> FA /\ p <> FB.
  Proof. cbn. intros I N. repeat (destruct I as [I|I]; [injection I as <- <-; try congruence; split; discriminate|]). destruct I. Qed.
  Lemma pe_anz p t : In (p, t) (a_in (fp_arch w ta tf first)) -> In 0 (fty_vals w t).
  Proof.
    pose proof (words_pos w Hw). intros I. apply fty_In. cbn in I. repeat (destruct I as [I|I]; [injection I as <- <-; lia|]). destruct I.
  Qed.

  Lemma pe_main k :
    (forall o, solved w (pe_tags ta tf) k bx o ->
      match o with
      | ODone r => exists ru m swap, rr_from_bb fpath_eqb fty_eqb fty_const k bx r = Ok ru /\ fp_valid w m /\
          pe_does w i m swap /\ fp_rule (ir_two i) ru m swap
      | ONone => forall m swap, fp_valid w m -> ~ pe_does w i m swap
      | _ => True
      end) /\
    (forall m swap, fp_valid w m -> pe_does w i m swap -> found w (pe_tags ta tf) k bx).
  Proof.
    destruct (fp_boxed_ok A w ta tf first i HA Hw Ht Hi) as (ios & Nd & Hb).
    destruct (C82_machine_partial _ _ _ _ fpath_eqb fty_eqb fcls_eqb fty_const fp_eqs fcls_eqb_eq (fty_vals w) (pe_tags ta tf) k bx _ _ _ _ _ _ Hb
      (fp_inhabited w ta tf first i Hw) ltac:(intros p zs []) ltac:(repeat constructor; cbn; intuition lia) Nd eq_refl ltac:(discriminate) (fp_nc i)
      (fp_valid w) (fun fi => fdec (f_alu first fi)) (fp_sem w) (fun F _ => fp_machine A w ta tf first i Hw F)) as (S & Fd).
    split.
    - intros o Ho. specialize (S o Ho). destruct o as [r| | |]; auto.
      + destruct S as (ru & m & bnd & obnd & R & Vm & Pl & Co & ((f & l & Ef & Tl & Fl & C & Em) & R1 & R2)).
        destruct (does_from w i Hi bx (fp_call w) eq_refl eq_refl eq_refl pe_ain pe_aco pe_anz m bnd obnd Pl Co) as (swap & D & B0 & B1).
        exists ru, m, swap. split; [exact R|]. split; [exact Vm|]. split; [exact D|].
        apply fform_nth in Ef. subst f. cbn [bx b_arch] in Tl.
        assert (U : l FUseP = 0 \/ l FUseP = 1).
        { pose proof (proj1 (fty_In w (TConst 1) (l FUseP)) (Tl FUseP (TConst 1) ltac:(cbn; auto))) as X. cbn in X. lia. }
        assert (In0 : In (FQ0, TWd) (i_in (fp_instr i))) by (cbn [fp_instr i_in]; destruct (ir_two i); cbn; auto).
        assert (Out : obnd FQo = FOut).
        { destruct Pl as (_ & _ & P3 & _). specialize (P3 FQo TWd ltac:(cbn; auto)). destruct P3 as [P3|[]]. congruence. }
        subst m. unfold fp_rule, fdec. cbn [f_op f_imm f_use]. unfold ffv, fvalid in Fl.
        split; [|split; [|split; [|split; [|split]]]].
        * destruct (f_alu first (r_form ru)).
          -- rewrite (aluop_code _ Fl). apply (C FAluP (TConst 3)); cbn; auto.
          -- rewrite (fpuop_code _ Fl). apply (C FFpuP (TConst 2)); cbn; auto.
        * apply (C FImmP (TConst w)); [cbn; auto|destruct (f_alu first (r_form ru)); cbn; auto|reflexivity].
        * assert (X : In (SVal (l FUseP), FUseP) (r_in ru)) by (apply (C FUseP (TConst 1)); [cbn; auto|destruct (f_alu first (r_form ru)); cbn; auto|reflexivity]).
          destruct U as [U|U]; rewrite U in X |- *; exact X.
        * rewrite <- B0. exact (R1 _ _ In0).
        * intros E. rewrite <- (B1 E). apply (R1 FQ1 TWd). cbn [bx b_instr fp_boxed fp_instr i_in]. rewrite E. cbn; auto.
        * rewrite <- Out. apply (R2 FQo TWd). cbn; auto.
      + intros m swap Vm D. destruct (does_to w i Hi bx (fp_call w) eq_refl eq_refl eq_refl pe_ain eq_refl m swap D) as (bnd & obnd & Pl & Co).
        exact (S m bnd obnd Vm Pl Co).
    - intros m swap Vm D. destruct (does_to w i Hi bx (fp_call w) eq_refl eq_refl eq_refl pe_ain eq_refl m swap D) as (bnd & obnd & Pl & Co).
      exact (Fd m bnd obnd Vm Pl Co).
  Qed.

  Lemma s_ain p : In (p, TWd) (a_in simple_arch) <-> p = FA \/ p = FB.
  Proof. cbn. intuition (try discriminate); try congruence; subst; auto 10. Qed.
  Lemma s_aco p t : In (p, t) (a_in simple_arch) -> t <> TWd -> p <> FA /\ p <> FB.
  Proof. cbn. intros I N. repeat (destruct I as [I|I]; [injection I as <- <-; try congruence; split; discriminate|]). destruct I. Qed.
  Lemma s_anz p t : In (p, t) (a_in simple_arch) -> In 0 (fty_vals w t).
  Proof.
    pose proof (words_pos w Hw). intros I. apply fty_In. cbn in I. repeat (destruct I as [I|I]; [injection I as <- <-; lia|]). destruct I.
  Qed.

  Lemma simple_main k :
    (forall o, solved w no_tags k (simple_boxed w i) o ->
      match o with
      | ODone r => exists ru m swap, rr_from_bb fpath_eqb fty_eqb fty_const k (simple_boxed w i) r = Ok ru /\
          simple_does w i m swap /\ In (SVal (sop_val m), FSop) (r_in ru) /\ sends (ir_two i) ru swap
      | ONone => forall m swap, ~ simple_does w i m swap
      | _ => True
      end) /\
    (forall m swap, simple_does w i m swap -> found w no_tags k (simple_boxed w i)).
  Proof.
    destruct (simple_boxed_ok w i Hw Hi) as (ios & Nd & Hb).
    destruct (C82_machine_partial _ _ _ _ fpath_eqb fty_eqb fcls_eqb fty_const fp_eqs fcls_eqb_eq (fty_vals w) no_tags k (simple_boxed w i) _ _ _ _ _ _ Hb
      (simple_inhabited w i Hw) ltac:(intros p zs []) ltac:(repeat constructor; cbn; intuition lia) Nd eq_refl ltac:(discriminate) (fp_nc i)
      (fun _ => True) (fun _ l => sop_of (l FSop)) (simple_sem w) (fun F _ => simple_machine w i Hw F)) as (S & Fd).
    split.
    - intros o Ho. specialize (S o Ho). destruct o as [r| | |]; auto.
      + destruct S as (ru & m & bnd & obnd & R & Vm & Pl & Co & ((f & l & Ef & Tl & Fl & C & Em) & R1 & R2)).
        destruct (does_from w i Hi (simple_boxed w i) (simple_call w) eq_refl eq_refl eq_refl s_ain s_aco s_anz m bnd obnd Pl Co) as (swap & D & B0 & B1).
        exists ru, m, swap. split; [exact R|]. split; [exact D|].
        apply sform_nth in Ef. subst f.
        assert (In0 : In (FQ0, TWd) (i_in (fp_instr i))) by (cbn [fp_instr i_in]; destruct (ir_two i); cbn; auto).
        assert (Out : obnd FQo = FOut).
        { destruct Pl as (_ & _ & P3 & _). specialize (P3 FQo TWd ltac:(cbn; auto)). destruct P3 as [P3|[]]. congruence. }
        subst m. unfold sfv, sop_valid in Fl. split; [|split; [|split]].
        * assert (X : sop_val (sop_of (l FSop)) = l FSop) by (apply orb_true_iff in Fl as [X|X]; apply Z.eqb_eq in X; rewrite X; reflexivity).
          rewrite X. apply (C FSop (TConst 2)); cbn; auto.
        * rewrite <- B0. exact (R1 _ _ In0).
        * intros E. rewrite <- (B1 E). apply (R1 FQ1 TWd). cbn [b_instr simple_boxed fp_instr i_in]. rewrite E. cbn; auto.
        * rewrite <- Out. apply (R2 FQo TWd). cbn; auto.
      + intros m swap D. destruct (does_to w i Hi (simple_boxed w i) (simple_call w) eq_refl eq_refl eq_refl s_ain eq_refl m swap D) as (bnd & obnd & Pl & Co).
        exact (S m bnd obnd Logic.I Pl Co).
    - intros m swap D. destruct (does_to w i Hi (simple_boxed w i) (simple_call w) eq_refl eq_refl eq_refl s_ain eq_refl m swap D) as (bnd & obnd & Pl & Co).
      exact (Fd m bnd obnd Logic.I Pl Co).
  Qed.
End Pe.

(** Whatever strategy answers: the rule found is an instruction of the PE that computes
    the IR instruction for every function of the boxes; None is answered only if there is
    no such instruction; and if there is one, a rule is found. *)
Theorem C83_pe : forall A w ta tf first i k, facc_ok A -> 0 < w -> ta <> tf -> fir_ok i ->
  let bx := fp_boxed A w ta tf first i in
  (forall o, solved w (pe_tags ta tf) k bx o ->
    match o with
    | ODone r => exists ru m swap, rr_from_bb fpath_eqb fty_eqb fty_const k bx r = Ok ru /\ fp_valid w m /\
        pe_does w i m swap /\ fp_rule (ir_two i) ru m swap
    | ONone => forall m swap, fp_valid w m -> ~ pe_does w i m swap
    | _ => True
    end) /\
  (forall m swap, fp_valid w m -> pe_does w i m swap -> found w (pe_tags ta tf) k bx).
Proof. intros A w ta tf first i k HA Hw Ht Hi bx. now apply pe_main. Qed.

Theorem C83_simple : forall w i k, 0 < w -> fir_ok i ->
  let bx := simple_boxed w i in
  (forall o, solved w no_tags k bx o ->
    match o with
    | ODone r => exists ru m swap, rr_from_bb fpath_eqb fty_eqb fty_const k bx r = Ok ru /\
        simple_does w i m swap /\ In (SVal (sop_val m), FSop) (r_in ru) /\ sends (ir_two i) ru swap
    | ONone => forall m swap, ~ simple_does w i m swap
    | _ => True
    end) /\
  (forall m swap, simple_does w i m swap -> found w no_tags k bx).
Proof. intros w i k Hw Hi bx. now apply simple_main. Qed.

(** * What is found *)

Lemma pe_exact A w ta tf first i k (Q : Prop) : facc_ok A -> 0 < w -> ta <> tf -> fir_ok i ->
  ((exists m swap, fp_valid w m /\ pe_does w i m swap) <-> Q) ->
  (Q -> found w (pe_tags ta tf) k (fp_boxed A w ta tf first i)) /\ (~ Q -> never w (pe_tags ta tf) k (fp_boxed A w ta tf first i)).
Proof.
  intros HA Hw Ht Hi E. destruct (C83_pe A w ta tf first i k HA Hw Ht Hi) as (S & Fd). split.
  - intros H. apply E in H as (m & swap & V & D). eauto.
  - intros N r H. specialize (S _ H). cbn in S. destruct S as (ru & m & swap & _ & V & D & _). apply N, E. eauto.
Qed.
Lemma simple_exact w i k (Q : Prop) : 0 < w -> fir_ok i ->
  ((exists m swap, simple_does w i m swap) <-> Q) ->
  (Q -> found w no_tags k (simple_boxed w i)) /\ (~ Q -> never w no_tags k (simple_boxed w i)).
Proof.
  intros Hw Hi E. destruct (C83_simple w i k Hw Hi) as (S & Fd). split.
  - intros H. apply E in H as (m & swap & D). eauto.
  - intros N r H. specialize (S _ H). cbn in S. destruct S as (ru & m & swap & _ & D & _). apply N, E. eauto.
Qed.

Definition isword (w z : Z) : Prop := 0 <= z < 2 ^ w.
Lemma two_words w : 0 < w -> isword w 0 /\ isword w 1.
Proof. intros H. unfold isword. pose proof (Z.pow_gt_1 2 w ltac:(lia)). lia. Qed.

Lemma pure1_ok f : fir_ok (ir_pure1 f).
Proof. split; [intros o []|]. split; [constructor|]. exists []. split; [constructor|]. intros x y. constructor. Qed.
Lemma pure2_ok f : fir_ok (ir_pure2 f).
Proof. split; [intros o []|]. split; [constructor|]. exists []. split; [constructor|]. intros x y. constructor. Qed.
Lemma box_ok c : fir_ok (ir_box c).
Proof.
  split; [intros o [<-|[]]; lia|]. split; [repeat constructor; intros []|]. exists [3%nat]. split; [constructor; constructor|].
  intros x y. cbn [ir_box ir_prog]. constructor; [|intros out; constructor]. cbn [ir_box ir_cls]. destruct c as [| | |[] n]; reflexivity.
Qed.

(** Functions of the boxes. *)
Definition constF (z : Z) (_ : fcls) (_ : list Z) : list Z := [z].
Definition onF (c : fcls) (p : list Z -> bool) (d : fcls) (ins : list Z) : list Z := [if fcls_eqb d c && p ins then 1 else 0].
Lemma constF_ok w z : isword w z -> respects (words w) (constF z).
Proof. intros H c ins. repeat constructor. now apply pyrange_In. Qed.
Lemma onF_ok w c p : 0 < w -> respects (words w) (onF c p).
Proof. intros H d ins. destruct (two_words w H). repeat constructor. apply pyrange_In. destruct (_ && _); assumption. Qed.
Lemma fcls_refl c : fcls_eqb c c = true.
Proof. now apply fcls_eqb_eq. Qed.

Definition class_of (o : fpuop) : fcls := match o with FAdd => CAdd | FMul => CMul | FSqrt => CSqrt end.
Lemma fpu_const w z o im us a b : fp_call w (constF z) (mkFinst (OFpu o) im us) a b = z.
Proof. destruct o; reflexivity. Qed.

(** Functions without boxes are computed by the ALU only. *)
Lemma pe_pure w i m swap : 0 < w -> (forall F F' a b, ir_at i F swap a b = ir_at i F' swap a b) -> pe_does w i m swap ->
  exists o, f_op m = OAlu o.
Proof.
  intros Hw P D. destruct m as [[o|o] im us]; [now exists o|]. exfalso. destruct (two_words w Hw) as (W0 & W1).
  pose proof (D _ (constF_ok w 0 W0) 0 0 W0 W0) as E0. pose proof (D _ (constF_ok w 1 W1) 0 0 W0 W0) as E1.
  rewrite fpu_const in E0, E1. rewrite (P _ (constF 1)) in E0. congruence.
Qed.

Definition alu_does2 (w : Z) (f : Z -> Z -> Z) : Prop :=
  exists o, (forall a b, isword w a -> isword w b -> f a b = alu w o a b) \/ (forall a b, isword w a -> isword w b -> f b a = alu w o a b) \/
    exists k, isword w k /\ ((forall a b, isword w a -> isword w b -> f a b = alu w o a k) \/ (forall a b, isword w a -> isword w b -> f a b = alu w o b k)).
Definition alu_does1 (w : Z) (f : Z -> Z) : Prop := exists o k, isword w k /\ forall a, isword w a -> f a = alu w o a k.

(** An operation on two words is found exactly if it is an operation of the ALU, with
    the inputs in either order or with a constant as second operand. *)
Theorem C83_pure2 : forall A w ta tf first k f, facc_ok A -> 0 < w -> ta <> tf ->
  let bx := fp_boxed A w ta tf first (ir_pure2 f) in
  (alu_does2 w f -> found w (pe_tags ta tf) k bx) /\ (~ alu_does2 w f -> never w (pe_tags ta tf) k bx).
Proof.
  intros A w ta tf first k f HA Hw Ht bx. apply pe_exact; auto using pure2_ok. destruct (two_words w Hw) as (W0 & W1). split.
  - intros (m & swap & V & D). destruct (pe_pure w (ir_pure2 f) m swap Hw ltac:(intros; destruct swap; reflexivity) D) as (o & Eo). destruct m as [op im us]. cbn [f_op] in Eo. subst op.
    specialize (D _ (constF_ok w 0 W0)). unfold ir_at, ir_call_at in D. cbn [ir_pure2 ir_two ir_prog ir_cls] in D.
    unfold fp_call in D. cbn [f_op f_use f_imm] in D. unfold fp_valid in V. cbn [f_imm] in V.
    exists o. destruct us, swap; cbn [fun_run] in D.
    + right; right. exists im. split; [exact V|]. right. intros a b Wa Wb. exact (D b a Wb Wa).
    + right; right. exists im. split; [exact V|]. left. exact D.
    + right; left. exact D.
    + left. exact D.
  - intros (o & [H|[H|(c & Wc & [H|H])]]).
    + exists (mkFinst (OAlu o) 0 false), false. split; [exact W0|]. intros F _ a b Wa Wb. exact (H a b Wa Wb).
    + exists (mkFinst (OAlu o) 0 false), true. split; [exact W0|]. intros F _ a b Wa Wb. exact (H a b Wa Wb).
    + exists (mkFinst (OAlu o) c true), false. split; [exact Wc|]. intros F _ a b Wa Wb. exact (H a b Wa Wb).
    + exists (mkFinst (OAlu o) c true), true. split; [exact Wc|]. intros F _ a b Wa Wb. exact (H b a Wb Wa).
Qed.

Lemma alu_dep w o : 0 < w -> exists b, isword w b /\ alu w o 0 b <> alu w o 1 b.
Proof.
  intros Hw. destruct (two_words w Hw) as (W0 & W1). unfold isword in *.
  destruct o; [exists 0|exists 0|exists 0|exists 1|exists 0]; (split; [assumption|]); cbn [alu]; unfold bvadd, bvsub, wrap; try discriminate.
  - rewrite !Z.mod_small; lia.
  - rewrite !Z.mod_small; lia.
Qed.

(** An operation on one word is found exactly if the ALU computes it with some constant
    as second operand. *)
Theorem C83_pure1 : forall A w ta tf first k f, facc_ok A -> 0 < w -> ta <> tf ->
  let bx := fp_boxed A w ta tf first (ir_pure1 f) in
  (alu_does1 w f -> found w (pe_tags ta tf) k bx) /\ (~ alu_does1 w f -> never w (pe_tags ta tf) k bx).
Proof.
  intros A w ta tf first k f HA Hw Ht bx. apply pe_exact; auto using pure1_ok. destruct (two_words w Hw) as (W0 & W1). split.
  - intros (m & swap & V & D). destruct (pe_pure w (ir_pure1 f) m swap Hw ltac:(intros; destruct swap; reflexivity) D) as (o & Eo). destruct m as [op im us]. cbn [f_op] in Eo. subst op.
    specialize (D _ (constF_ok w 0 W0)). unfold ir_at, ir_call1_at in D. cbn [ir_pure1 ir_two ir_prog ir_cls] in D.
    unfold fp_call in D. cbn [f_op f_use f_imm] in D. unfold fp_valid in V. cbn [f_imm] in V.
    exists o. destruct us, swap; cbn [fun_run] in D.
    + exists im. split; [exact V|]. intros a Wa. rewrite <- (D a a Wa Wa). reflexivity.
    + exists im. split; [exact V|]. intros a Wa. exact (D a 0 Wa W0).
    + exfalso. destruct (alu_dep w o Hw) as (b & Wb & N). apply N. rewrite <- (D 0 b W0 Wb), <- (D 1 b W1 Wb). reflexivity.
    + exists 0. split; [exact W0|]. intros a Wa. exact (D a 0 Wa W0).
  - intros (o & c & Wc & H). exists (mkFinst (OAlu o) c true), false. split; [exact Wc|]. intros F _ a b Wa Wb. exact (H a Wa).
Qed.

(** A box as the instruction is found exactly if the PE has a box of its class. *)
Lemma box_at c F swap a b : ir_at (ir_box c) F swap a b = hd 0 (F c (if Nat.eqb (fcls_nin c) 2 then (if swap then [b; a] else [a; b]) else [if swap then b else a])).
Proof. unfold ir_at, ir_call_at, ir_call1_at. cbn [ir_box ir_two ir_prog ir_cls]. destruct (Nat.eqb (fcls_nin c) 2), swap; reflexivity. Qed.

Lemma box_op w c m swap : 0 < w -> pe_does w (ir_box c) m swap -> exists o, f_op m = OFpu o /\ class_of o = c.
Proof.
  intros Hw D. destruct (two_words w Hw) as (W0 & W1). destruct m as [[o|o] im us].
  - exfalso. pose proof (D _ (constF_ok w 0 W0) 0 0 W0 W0) as E0. pose proof (D _ (constF_ok w 1 W1) 0 0 W0 W0) as E1. rewrite box_at in E0, E1.
    cbn in E0, E1. congruence.
  - exists o. split; [reflexivity|]. pose proof (D _ (onF_ok w c (fun _ => true) Hw) 0 0 W0 W0) as E. rewrite box_at in E.
    unfold onF in E. rewrite fcls_refl in E. cbn [andb hd] in E.
    apply fcls_eqb_eq. destruct (fcls_eqb (class_of o) c) eqn:X; [reflexivity|]. exfalso.
    unfold fp_call in E. destruct o; cbn [f_op class_of hd] in E, X; rewrite X in E; discriminate.
Qed.

Theorem C83_box : forall A w ta tf first k c, facc_ok A -> 0 < w -> ta <> tf ->
  let bx := fp_boxed A w ta tf first (ir_box c) in
  (c = CAdd \/ c = CMul \/ c = CSqrt -> found w (pe_tags ta tf) k bx) /\
  (~ (c = CAdd \/ c = CMul \/ c = CSqrt) -> never w (pe_tags ta tf) k bx).
Proof.
  intros A w ta tf first k c HA Hw Ht bx. apply pe_exact; auto using box_ok. destruct (two_words w Hw) as (W0 & W1). split.
  - intros (m & swap & V & D). destruct (box_op w c m swap Hw D) as ([] & _ & <-); cbn; auto.
  - intros H. exists (mkFinst (OFpu (match c with CAdd => FAdd | CMul => FMul | _ => FSqrt end)) 0 false), false. split; [exact W0|].
    intros F _ a b _ _. rewrite box_at. destruct H as [->|[->| ->]]; reflexivity.
Qed.

(** The rule for a box is its operation; with two inputs they are in order and the
    immediate is not used. *)
Theorem C83_box_rule : forall A w ta tf first k c r, facc_ok A -> 0 < w -> ta <> tf ->
  let bx := fp_boxed A w ta tf first (ir_box c) in
  solved w (pe_tags ta tf) k bx (ODone r) ->
  exists ru o, rr_from_bb fpath_eqb fty_eqb fty_const k bx r = Ok ru /\ class_of o = c /\
    In (SVal (fpuop_val o), FFpuP) (r_in ru) /\ In (SPath FQ0, FA) (r_in ru) /\
    (o <> FSqrt -> In (SVal 0, FUseP) (r_in ru) /\ In (SPath FQ1, FB) (r_in ru)).
Proof.
  intros A w ta tf first k c r HA Hw Ht bx S. destruct (two_words w Hw) as (W0 & W1).
  destruct (C83_pe A w ta tf first (ir_box c) k HA Hw Ht (box_ok c)) as (C & _). specialize (C _ S). cbn in C.
  destruct C as (ru & m & swap & R & V & D & (R0 & R1 & R2 & R3 & R4 & R5)). destruct (box_op w c m swap Hw D) as (o & Eo & Ec).
  exists ru, o. split; [exact R|]. split; [exact Ec|]. rewrite Eo in R0. split; [exact R0|].
  destruct m as [op im us]. cbn [f_op f_imm f_use] in *. subst op. subst c.
  assert (swap = false) as ->.
  { destruct swap; [exfalso|reflexivity].
    pose proof (D _ (onF_ok w (class_of o) (fun ins => match ins with x :: _ => x =? 0 | _ => false end) Hw) 1 0 W1 W0) as E. rewrite box_at in E.
    unfold fp_call in E. cbn [f_op f_use f_imm] in E. destruct o; cbn in E; discriminate. }
  split; [exact R3|]. intros No.
  assert (us = false) as ->.
  { destruct us; [exfalso|reflexivity]. pose (p := fun ins : list Z => match ins with [_; y] => y =? 0 | _ => false end).
    pose proof (D _ (onF_ok w (class_of o) p Hw) 0 0 W0 W0) as E. pose proof (D _ (onF_ok w (class_of o) p Hw) 0 1 W0 W1) as E'. rewrite box_at in E, E'.
    unfold fp_call in E, E'. cbn [f_op f_use f_imm] in E, E'.
    destruct o; try congruence; rewrite <- E in E'; cbn in E'; discriminate. }
  split; [exact R2|]. apply R4. destruct o; try reflexivity. congruence.
Qed.

(** A box with a constant second input is found through the immediate, one with a
    constant first input is not found. *)
Definition ir_box_const (c : fcls) (z : Z) (snd_ : bool) : fir :=
  mkFir false [3%nat] (fun _ => c) (fun x _ => Call 3 (if snd_ then [x; z] else [z; x]) (fun out => Ret (hd 0 out))).

Theorem C83_box_const : forall A w ta tf first k z c, facc_ok A -> 0 < w -> ta <> tf -> isword w z -> c = CAdd \/ c = CMul ->
  found w (pe_tags ta tf) k (fp_boxed A w ta tf first (ir_box_const c z true)) /\
  never w (pe_tags ta tf) k (fp_boxed A w ta tf first (ir_box_const c z false)).
Proof.
  intros A w ta tf first k z c HA Hw Ht Wz Hc. destruct (two_words w Hw) as (W0 & W1).
  assert (Ok : forall s, fir_ok (ir_box_const c z s)).
  { intros s. split; [intros o [<-|[]]; lia|]. split; [repeat constructor; intros []|]. exists [3%nat]. split; [constructor; constructor|].
    intros x y. constructor; [|intros out; constructor]. cbn. destruct Hc as [-> | ->], s; reflexivity. }
  split.
  - apply (proj2 (C83_pe A w ta tf first _ k HA Hw Ht (Ok true)) (mkFinst (OFpu (match c with CAdd => FAdd | _ => FMul end)) z true) false Wz).
    intros F _ a b _ _. destruct Hc as [-> | ->]; reflexivity.
  - intros r S. pose proof (proj1 (C83_pe A w ta tf first _ k HA Hw Ht (Ok false)) _ S) as C. cbn in C.
    destruct C as (ru & m & swap & _ & V & D & _).
    pose (p := fun ins : list Z => match ins with x :: _ => x =? z | _ => false end).
    assert (X : forall a b, ir_at (ir_box_const c z false) (onF c p) swap a b = 1).
    { intros a b. unfold ir_at, ir_call1_at, onF, p. cbn. rewrite fcls_refl, Z.eqb_refl. reflexivity. }
    assert (Y : exists a, isword w a /\ a <> z).
    { destruct (Z.eq_dec z 0) as [->|N]; [exists 1|exists 0]; split; auto; lia. }
    destruct Y as (a & Wa & Na).
    pose proof (D _ (onF_ok w c p Hw) a 0 Wa W0) as E. rewrite X in E.
    pose proof (D _ (constF_ok w 0 W0) a 0 Wa W0) as E0. unfold ir_at, ir_call1_at in E0. cbn in E0.
    unfold fp_call in E, E0. destruct m as [[o|o] im us]; cbn [f_op f_use f_imm] in E, E0.
    + congruence.
    + apply Z.eqb_neq in Na. unfold onF, p in E. destruct o; cbn [hd] in E; rewrite ?Na, andb_false_r in E; discriminate.
Qed.

(** * The tests *)

Lemma alu2_point w f a b a' b' : isword w a -> isword w b -> isword w a' -> isword w b' ->
  (forall o, f a b <> alu w o a b /\ f a b <> alu w o b a) -> f a b <> f a b' -> f a b <> f a' b -> ~ alu_does2 w f.
Proof.
  intros Wa Wb Wa' Wb' N Nb Na (o & [H|[H|(k & _ & [H|H])]]).
  - exact (proj1 (N o) (H a b Wa Wb)).
  - exact (proj2 (N o) (H b a Wb Wa)).
  - apply Nb. rewrite (H a b Wa Wb), (H a b' Wa Wb'). reflexivity.
  - apply Na. rewrite (H a b Wa Wb), (H a' b Wa' Wb). reflexivity.
Qed.

Lemma not_xor a : isword 16 a -> bvnot 16 a = Z.lxor a 65535.
Proof.
  intros W. unfold bvnot, wrap. rewrite <- Z.land_ones by lia. change 65535 with (Z.ones 16). apply Z.bits_inj'. intros n Hn.
  rewrite Z.land_spec, Z.lxor_spec, Z.lnot_spec, Z.testbit_ones_nonneg by lia. destruct (Z.ltb_spec n 16) as [L|L].
  - now rewrite andb_true_r, xorb_true_r.
  - rewrite andb_false_r, xorb_false_r. destruct (Z.eq_dec a 0) as [->|N]; [now rewrite Z.bits_0|]. symmetry. apply Z.bits_above_log2; [apply W|].
    apply Z.log2_lt_pow2; unfold isword in W; [lia|]. apply (Z.lt_le_trans _ (2 ^ 16)); [apply W|]. apply Z.pow_le_mono_r; lia.
Qed.

Definition fp_found (o : irop) : bool := match o with Add | Sub | And | Or | Not => true | _ => false end.

Lemma neg_not : ~ alu_does1 16 (fun x => ir_call 16 Neg x 0).
Proof.
  intros (o & k & Wk & H). unfold isword in *. change (2 ^ 16) with 65536 in *.
  pose proof (H 0 ltac:(lia)) as H0. pose proof (H 1 ltac:(lia)) as H1. cbn [ir_call] in H0, H1.
  change (bvneg 16 0) with 0 in H0. change (bvneg 16 1) with 65535 in H1.
  destruct o; cbn [alu] in H0, H1.
  - unfold bvadd, wrap in H0, H1. change (2 ^ 16) with 65536 in *. rewrite Z.mod_small in H0 by lia. assert (k = 0) as -> by lia. discriminate.
  - unfold bvsub, wrap in H0, H1. change (2 ^ 16) with 65536 in *.
    assert (k = 0) as ->; [|discriminate].
    destruct (Z.eq_dec k 0) as [|N]; [assumption|]. exfalso. rewrite <- (Z.mod_unique (0 - k) 65536 (-1) (65536 - k)) in H0; lia.
  - rewrite Z.lor_0_l in H0. subst k. discriminate.
  - rewrite Z.land_comm in H1. change (Z.land k 1) with (Z.land k (Z.ones 1)) in H1. rewrite Z.land_ones in H1 by lia. change (2 ^ 1) with 2 in H1.
    pose proof (Z.mod_pos_bound k 2 ltac:(lia)). lia.
  - rewrite Z.lxor_0_l in H0. subst k. discriminate.
Qed.

(** tests/test_black_box_rr.py:65-88: of the IR instructions with 16 bits exactly these
    are found. *)
Theorem C83_small : forall A ta tf first k o, facc_ok A -> ta <> tf ->
  let bx := fp_boxed A 16 ta tf first (small_fir 16 o) in
  if fp_found o then found 16 (pe_tags ta tf) k bx else never 16 (pe_tags ta tf) k bx.
Proof.
  intros A ta tf first k o HA Ht bx. unfold bx. assert (W : forall z, 0 <= z < 65536 -> isword 16 z) by (intros z H; exact H).
  destruct o; cbn [fp_found]; unfold small_fir; cbn [unary].
  1,2,3,5: apply C83_pure2; auto; try lia.
  - exists AAdd. left. reflexivity.
  - exists ASub. left. reflexivity.
  - exists AAnd. left. reflexivity.
  - exists AOr. left. reflexivity.
  - apply C83_pure2; auto; try lia. apply (alu2_point 16 _ 1 1 0 0); try (apply W; lia); try discriminate. intros []; split; discriminate.
  - apply C83_pure2; auto; try lia. apply (alu2_point 16 _ 0 0 1 1); try (apply W; lia); try discriminate. intros []; split; discriminate.
  - apply C83_pure2; auto; try lia. apply (alu2_point 16 _ 2 3 1 1); try (apply W; lia); try discriminate. intros []; split; discriminate.
  - apply C83_pure2; auto; try lia. apply (alu2_point 16 _ 4 1 0 0); try (apply W; lia); try discriminate. intros []; split; discriminate.
  - apply C83_pure2; auto; try lia. apply (alu2_point 16 _ 3 1 0 0); try (apply W; lia); try discriminate. intros []; split; discriminate.
  - apply C83_pure1; auto; try lia. exists AXor, 65535. split; [apply W; lia|]. intros a Wa. cbn [ir_call alu]. now apply not_xor.
  - apply C83_pure1; auto; try lia. exact neg_not.
Qed.

(** The three floating point operations of the PE are found. *)
Theorem C83_float : forall A ta tf first k o, facc_ok A -> ta <> tf ->
  found 16 (pe_tags ta tf) k (fp_boxed A 16 ta tf first (ir_box (class_of o))).
Proof. intros A ta tf first k o HA Ht. apply C83_box; auto; [lia|]. destruct o; cbn; auto. Qed.

(** * The architecture of test_simple *)

(** Operations without boxes: exactly addition is found; boxes: exactly its own. *)
Theorem C83_simple_pure2 : forall w k f, 0 < w ->
  let Q := forall a b, isword w a -> isword w b -> f a b = bvadd w a b in
  (Q -> found w no_tags k (simple_boxed w (ir_pure2 f))) /\ (~ Q -> never w no_tags k (simple_boxed w (ir_pure2 f))).
Proof.
  intros w k f Hw Q. apply simple_exact; auto using pure2_ok. destruct (two_words w Hw) as (W0 & W1). split.
  - intros ([|] & swap & D).
    + intros a b Wa Wb. specialize (D _ (constF_ok w 0 W0)). unfold ir_at, ir_call_at in D. cbn in D.
      destruct swap; [|exact (D a b Wa Wb)]. unfold bvadd in *. rewrite Z.add_comm. exact (D b a Wb Wa).
    + exfalso. pose proof (D _ (constF_ok w 0 W0) 0 0 W0 W0) as E0. pose proof (D _ (constF_ok w 1 W1) 0 0 W0 W0) as E1.
      destruct swap; cbn in E0, E1; congruence.
  - intros H. exists SAdd, false. intros F _ a b Wa Wb. exact (H a b Wa Wb).
Qed.

Theorem C83_simple_pure1 : forall w k f, 0 < w -> never w no_tags k (simple_boxed w (ir_pure1 f)).
Proof.
  intros w k f Hw. apply (proj2 (simple_exact w (ir_pure1 f) k False Hw (pure1_ok f) ltac:(split; [|intros []]; intros ([|] & swap & D);
    destruct (two_words w Hw) as (W0 & W1);
    pose proof (D _ (constF_ok w 0 W0) 0 0 W0 W0) as E0; pose proof (D _ (constF_ok w 0 W0) 0 1 W0 W1) as E1; pose proof (D _ (constF_ok w 0 W0) 1 0 W1 W0) as E2;
    pose proof (D _ (constF_ok w 1 W1) 0 0 W0 W0) as E3; unfold isword in *;
    unfold simple_call, bvadd, wrap in *; rewrite ?Z.mod_small in E0, E1, E2, E3 by lia; destruct swap; cbn in E0, E1, E2, E3; congruence))). auto.
Qed.

Theorem C83_simple_box : forall w k c, 0 < w ->
  (c = CAdd -> found w no_tags k (simple_boxed w (ir_box c))) /\ (c <> CAdd -> never w no_tags k (simple_boxed w (ir_box c))).
Proof.
  intros w k c Hw. apply simple_exact; auto using box_ok. destruct (two_words w Hw) as (W0 & W1). split.
  - intros ([|] & swap & D).
    + exfalso. pose proof (D _ (constF_ok w 0 W0) 0 0 W0 W0) as E0. pose proof (D _ (constF_ok w 1 W1) 0 0 W0 W0) as E1. rewrite box_at in E0, E1.
      cbn in E0, E1. congruence.
    + pose proof (D _ (onF_ok w c (fun _ => true) Hw) 0 0 W0 W0) as E. rewrite box_at in E.
      unfold onF in E. rewrite fcls_refl in E. cbn in E. destruct c; try discriminate. reflexivity.
  - intros ->. exists SFp, false. intros F _ a b _ _. rewrite box_at. reflexivity.
Qed.

(** * Cases *)

Definition acc0 : faccess := mkFacc (fun o => match o with OAlu o => o | OFpu _ => AXor end) (fun o => match o with OFpu o => o | OAlu _ => FSqrt end).
(** An instruction with two boxes and arithmetic. *)
Definition ir_mix : fir :=
  mkFir true [4; 3]%nat (fun o => if Nat.eqb o 3 then CSqrt else COther true 7)
    (fun x y => Call 3 [x] (fun s => Call 4 [hd 0 s; y] (fun o => Ret (bvadd 16 (hd 0 o) x)))).

Example C83_case :
  facc_ok acc0 /\ fir_ok ir_mix /\ fir_ok (ir_box CMul) /\ fir_ok (small_fir 16 Mul) /\
  fp_call 16 (onF CMul (fun _ => true)) (mkFinst (OFpu FMul) 7 true) 3 4 = 1 /\
  fp_call 16 (onF CMul (fun _ => true)) (mkFinst (OAlu ASub) 7 true) 3 4 = 65532 /\
  (forall o, In o irops -> fp_found o = true -> found 16 (pe_tags 1 2) OneHot (fp_boxed acc0 16 1 2 true (small_fir 16 o))) /\
  found 16 (pe_tags 1 2) OneHot (fp_boxed acc0 16 1 2 true (ir_box CSqrt)) /\
  never 16 (pe_tags 1 2) OneHot (fp_boxed acc0 16 1 2 true (ir_box (COther false 1))) /\
  found 8 no_tags OneHot (simple_boxed 8 (small_fir 8 Add)) /\ found 8 no_tags OneHot (simple_boxed 8 (ir_box CAdd)) /\
  never 8 no_tags OneHot (simple_boxed 8 (ir_box CMul)).
Proof.
  assert (Ha : facc_ok acc0) by (split; reflexivity).
  split; [exact Ha|]. split.
  { split; [intros o [<-|[<-|[]]]; lia|]. split; [repeat constructor; cbn; intuition lia|]. exists [3; 4]%nat. split; [apply perm_swap|].
    intros x y. constructor; [reflexivity|]. intros s. constructor; [reflexivity|]. intros o. constructor. }
  split; [apply box_ok|]. split; [apply pure2_ok|]. split; [reflexivity|]. split; [reflexivity|]. split; [|split; [|split; [|split; [|split]]]].
  - intros o _ E. pose proof (C83_small acc0 1 2 true OneHot o Ha ltac:(lia)) as H. cbn zeta in H. rewrite E in H. exact H.
  - exact (C83_float acc0 1 2 true OneHot FSqrt Ha ltac:(lia)).
  - apply C83_box; auto; [lia..|]. intuition discriminate.
  - apply C83_simple_pure2; [lia|]. reflexivity.
  - apply C83_simple_box; [lia|reflexivity].
  - apply C83_simple_box; [lia|discriminate].
Qed.

Print Assumptions C83_pe.
Print Assumptions C83_simple.
Print Assumptions C83_pure2.
Print Assumptions C83_pure1.
Print Assumptions C83_box.
Print Assumptions C83_box_rule.
Print Assumptions C83_box_const.
Print Assumptions C83_small.
Print Assumptions C83_float.
Print Assumptions C83_simple_pure2.
Print Assumptions C83_simple_pure1.
Print Assumptions C83_simple_box.
