(** Machines with black boxes: a rule that is correct for all functions of the boxes
    is an instruction that computes the IR instruction for all of them. *)
From Coq Require Import ZArith List Bool Lia Permutation.
From Verif Require Import Base BaseLemmas BindModel BindProps MapIdxModel MapIdxProps CegisModel CegisProps
  MapModel MapProofs MapMain MapProps MapIff MapIffProps MapDirect BBFormModel BBFormProps MapBBModel MapBBProofs.
Import ListNotations.
Open Scope list_scope.
Open Scope Z_scope.

(** The instruction and the placement of a rule are unique, and decide what it computes. *)
Section Unique.
  Context {P T I : Type} (peqb : P -> P -> bool) (teqb : T -> T -> bool) (isconst : T -> bool).
  Hypothesis Heq : eqs peqb teqb.
  Variable td : T -> list Z.
  Variables (a : arch P T) (i : instr P T).
  Variables (fs : nat -> (P -> Z) -> P -> Z) (fv : nat -> (P -> Z) -> bool).
  Hypothesis Ha : arch_ok isconst a fs fv.
  Hypothesis Hi : instr_ok i.
  Variables (valid : I -> Prop) (dec : nat -> (P -> Z) -> I) (sem : I -> (P -> Z) -> P -> Z).
  Hypothesis Hm : machine isconst td a fs fv valid dec sem.

  Lemma uses_unique (b : list (option P * P)) q p p' : uses peqb b q = 1%nat -> In (Some q, p) b -> In (Some q, p') b -> p = p'.
  Proof.
    intros U X Y. destruct (bound_In peqb (proj1 Heq) b q U) as [_ H]. rewrite (H p X), (H p' Y). reflexivity.
  Qed.
  Lemma shape_In (r : list (src P * P)) q p : In (SPath q, p) r -> In (Some q, p) (shape r).
  Proof. intros X. apply in_map_iff. exists (SPath q, p). auto. Qed.
  Lemma snd_unique (r : list (src P * P)) s s' p : NoDup (map snd r) -> In (s, p) r -> In (s', p) r -> s = s'.
  Proof.
    induction r as [|[u x] r IH]; intros N X Y; [destruct X|]. cbn [map snd] in N. inversion N as [|? ? N1 N2]; subst.
    destruct X as [X|X], Y as [Y|Y].
    - congruence.
    - injection X as -> ->. destruct N1. exact (in_map snd _ _ Y).
    - injection Y as -> ->. destruct N1. exact (in_map snd _ _ X).
    - auto.
  Qed.
  Lemma rin_NoDup ru : well_formed peqb isconst a i ru -> NoDup (map snd (r_in ru)).
  Proof.
    intros (f & _ & (Pm & _) & _). unfold shape in Pm. rewrite map_map in Pm. cbn [snd] in Pm.
    apply (Permutation_NoDup (Permutation_sym Pm)). apply (filter_fst_NoDup (a_in a)). exact (ok_in _ _ _ _ Ha).
  Qed.

  Lemma rule_unique ru m bnd obnd m' bnd' obnd' : well_formed peqb isconst a i ru ->
    rule_of isconst td a i fv dec ru m bnd obnd -> rule_of isconst td a i fv dec ru m' bnd' obnd' ->
    m = m' /\ (forall q t, In (q, t) (i_in i) -> bnd q = bnd' q) /\ (forall q t, In (q, t) (i_out i) -> obnd q = obnd' q).
  Proof.
    intros W ((f & l & Ef & _ & _ & C & <-) & R1 & R2) ((f' & l' & Ef' & _ & _ & C' & <-) & R1' & R2').
    rewrite Ef in Ef'. injection Ef' as <-. split; [|split].
    - apply (mc_dec _ _ _ _ _ _ _ _ Hm _ _ _ _ Ef). intros p t Ip If Ct.
      pose proof (snd_unique _ _ _ p (rin_NoDup ru W) (C p t Ip If Ct) (C' p t Ip If Ct)) as E. now injection E.
    - intros q t Iq. destruct W as (f' & _ & (_ & _ & U) & _). eapply uses_unique; [exact (U q t Iq)|apply shape_In; eauto..].
    - intros q t Iq. destruct W as (f' & _ & _ & (_ & _ & U) & _). eapply uses_unique; eauto.
  Qed.

  Lemma rule_computes ru m bnd obnd : well_formed peqb isconst a i ru -> rule_of isconst td a i fv dec ru m bnd obnd ->
    placed a i bnd obnd -> computes td a i sem m bnd obnd -> correct_any isconst td a i fs ru.
  Proof.
    intros W ((f & l0 & Ef & Tl0 & Fl0 & C & Em) & R1 & R2) (B1 & _) Co x l Tx Tl F q ap Io.
    destruct W as (f' & Ef' & _ & (_ & Tb & U) & _). rewrite Ef in Ef'. injection Ef' as <-.
    destruct (Tb q ap Io) as (t & Iq & _). rewrite <- (uses_unique _ q _ _ (U q t Iq) (R2 q t Iq) Io).
    assert (K : forall p u, In (p, u) (a_in a) -> In p (fst f) -> isconst u = true -> l p = l0 p).
    { intros p u Ip If Cu. exact (proj1 (F _ p u (C p u Ip If Cu) Ip) Cu). }
    rewrite (ok_ilocal i Hi x (fun q => l (bnd q)) q).
    - rewrite (Co q t Iq l Tl). rewrite (mc_fs _ _ _ _ _ _ _ _ Hm _ _ _ _ Ef Tl).
      + f_equal. rewrite <- Em. symmetry. exact (mc_dec _ _ _ _ _ _ _ _ Hm _ _ _ _ Ef K).
      + rewrite (ok_vlocal _ _ _ _ Ha _ f l l0 Ef); [exact Fl0|]. intros p u If Ip Cu. exact (K p u Ip If Cu).
    - intros p u Ip. symmetry. exact (F _ _ u (R1 p u Ip) (B1 p u Ip)).
  Qed.
End Unique.

Section BBMachine.
  Context {P T C I : Type} (peqb : P -> P -> bool) (teqb : T -> T -> bool) (ceqb : C -> C -> bool) (isconst : T -> bool).
  Hypothesis Heq : eqs peqb teqb.
  Hypothesis Hc : forall a b, ceqb a b = true <-> a = b.
  Variable td : T -> list Z.
  Variables (k : ivar) (b : boxed P T C) (nin : C -> nat) (odom : C -> list (list Z)) (aos ios : list nat).
  Variables (fs : (C -> list Z -> list Z) -> nat -> (P -> Z) -> P -> Z) (fv : nat -> (P -> Z) -> bool).
  Hypothesis Hb : boxed_ok isconst b nin odom aos ios fs fv.
  Variables (valid : I -> Prop) (dec : nat -> (P -> Z) -> I) (sem : (C -> list Z -> list Z) -> I -> (P -> Z) -> P -> Z).
  Hypothesis Hm : forall F, respects odom F -> machine isconst td (arch_of b F) (fs F) fv valid dec (sem F).
  Hypothesis Nc : forall q t, In (q, t) (i_in (b_instr b)) -> isconst t = false.

  (** The instruction [m] computes the IR instruction whatever the boxes compute. *)
  Definition computes_bb (m : I) (bnd obnd : P -> P) : Prop :=
    forall F, respects odom F -> computes td (arch_of b F) (instr_of b F) (sem F) m bnd obnd.

  Lemma bb_rule_machine ru : well_formed peqb isconst (b_arch b) (b_instr b) ru -> valid_consts td (b_arch b) fv ru ->
    allowed_consts (b_arch b) ru -> (forall F, respects odom F -> correct_any isconst td (arch_of b F) (instr_of b F) (fs F) ru) ->
    exists m bnd obnd, valid m /\ placed (b_arch b) (b_instr b) bnd obnd /\ computes_bb m bnd obnd /\
      rule_of isconst td (b_arch b) (b_instr b) fv dec ru m bnd obnd.
  Proof.
    intros W V Al Co.
    assert (X : forall F, respects odom F -> exists m bnd obnd, valid m /\ placed (b_arch b) (b_instr b) bnd obnd /\
      computes td (arch_of b F) (instr_of b F) (sem F) m bnd obnd /\ rule_of isconst td (b_arch b) (b_instr b) fv dec ru m bnd obnd).
    { intros F HF. exact (rule_machine peqb teqb isconst Heq td (arch_of b F) (instr_of b F) (fs F) fv
        (bo_arch _ _ _ _ _ _ _ _ Hb F HF) (bo_instr _ _ _ _ _ _ _ _ Hb F HF) valid dec (sem F) (Hm F HF) Nc ru W V Al (Co F HF)). }
    pose proof (F0_ok isconst b nin odom aos ios fs fv Hb) as H0.
    destruct (X _ H0) as (m & bnd & obnd & Vm & Pl & _ & R). exists m, bnd, obnd. split; [exact Vm|]. split; [exact Pl|]. split; [|exact R].
    intros F HF. destruct (X F HF) as (m' & bnd' & obnd' & _ & _ & Co' & R').
    destruct (rule_unique peqb teqb isconst Heq td (arch_of b F) (instr_of b F) (fs F) fv (bo_arch _ _ _ _ _ _ _ _ Hb F HF)
      valid dec (sem F) (Hm F HF) ru _ _ _ _ _ _ W R R') as (-> & E1 & E2).
    intros q t Iq l Tl. rewrite (E2 q t Iq). rewrite <- (Co' q t Iq l Tl).
    apply (ok_ilocal _ (bo_instr _ _ _ _ _ _ _ _ Hb F HF)). intros p u Ip. f_equal. exact (E1 p u Ip).
  Qed.

  Theorem bb_machine_iff : implementable_bb peqb isconst td b odom fs fv <->
    exists m bnd obnd, valid m /\ placed (b_arch b) (b_instr b) bnd obnd /\ computes_bb m bnd obnd.
  Proof.
    split.
    - intros (ru & W & V & Al & Co). destruct (bb_rule_machine ru W V Al Co) as (m & bnd & obnd & Vm & Pl & Cm & _). eauto 6.
    - intros (m & bnd & obnd & Vm & Pl & Cm).
      pose proof (F0_ok isconst b nin odom aos ios fs fv Hb) as H0.
      destruct (machine_rule peqb teqb isconst Heq td (arch_of b _) (instr_of b _) (fs _) fv
        (bo_arch _ _ _ _ _ _ _ _ Hb _ H0) (bo_instr _ _ _ _ _ _ _ _ Hb _ H0) valid dec (sem _) (Hm _ H0) Nc m bnd obnd Vm Pl (Cm _ H0))
        as (ru & W & V & Al & _ & R).
      exists ru. split; [exact W|]. split; [exact V|]. split; [exact Al|]. intros F HF.
      exact (rule_computes peqb teqb isconst Heq td (arch_of b F) (instr_of b F) (fs F) fv (bo_arch _ _ _ _ _ _ _ _ Hb F HF)
        (bo_instr _ _ _ _ _ _ _ _ Hb F HF) valid dec (sem F) (Hm F HF) ru m bnd obnd W R Pl (Cm F HF)).
  Qed.
End BBMachine.
