(** The register PE is a machine. *)
From Coq Require Import ZArith List Bool Lia Permutation.
From Verif Require Import Base BaseLemmas BvModel BvLemmas RiscvModel BindModel BindProps MapIdxModel MapIdxProps CegisModel CegisProps
  MapModel MapProofs MapMain MapProps MapIff MapIffProps MapDirect RegPeModel.
Import ListNotations.
Open Scope list_scope.
Open Scope Z_scope.

Lemma rpath_eqb_eq p q : rpath_eqb p q = true <-> p = q.
Proof. unfold rpath_eqb. rewrite Z.eqb_eq. split; [|now intros ->]. destruct p, q; cbn; congruence. Qed.
Lemma mty_eqb_eq s t : mty_eqb s t = true <-> s = t.
Proof. destruct s, t; cbn [mty_eqb]; try (split; congruence). rewrite Z.eqb_eq. split; congruence. Qed.
Lemma reg_eqs : eqs rpath_eqb mty_eqb.
Proof. split; [apply rpath_eqb_eq|apply mty_eqb_eq]. Qed.
Lemma mty_In t z : In z (mty_vals t) <-> 0 <= z < 2 ^ match t with MConst w => w | _ => 32 end.
Proof. apply pyrange_In. Qed.

Global Opaque mty_vals.

(** A 32 bit word. *)
Definition word32 (z : Z) : Prop := 0 <= z < 4294967296.
Lemma word_In t z : mty_const t = false -> In z (mty_vals t) <-> word32 z.
Proof. intros H. rewrite mty_In. unfold word32. destruct t; try discriminate; change (2 ^ 32) with 4294967296; reflexivity. Qed.

Section Reg.
  Variables (C : rcode) (A : raccess) (cs : list (rpath * list Z)).
  Hypothesis HC : rcode_ok C.
  (** The fields of an instruction. *)
  Definition rfield (i : rinst) (p : rpath) : option Z :=
    match i, p with
    | IB o _ _ _, RBOp => Some (c_b C o) | IB _ x _ _, RB1 => Some x | IB _ _ x _, RB2 => Some x | IB _ _ _ x, RBd => Some x
    | IU o _ _, RUOp => Some (c_u C o) | IU _ x _, RU1 => Some x | IU _ _ x, RUd => Some x
    | _, _ => None
    end.
  Definition const_paths : list rpath := [RBOp; RB1; RB2; RBd; RUOp; RU1; RUd].
  Hypotheses (Ncs : NoDup (map fst cs)) (Ics : incl (map fst cs) const_paths).

  (** Indices are 5 bits, fields satisfy the constraints. *)
  Definition in_reg_isa (i : rinst) : Prop :=
    match i with IB _ x y z => fit 5 x /\ fit 5 y /\ fit 5 z | IU _ x z => fit 5 x /\ fit 5 z end.
  Definition reg_ok (i : rinst) : Prop :=
    in_reg_isa i /\ forall p zs z, In (p, zs) cs -> rfield i p = Some z -> In z zs.

  Notation arch0 := (reg_arch C A cs).
  Definition rfs (fi : nat) (l : rpath -> Z) (q : rpath) : Z := rsem A (rdec C (is_b C fi) l) l q.
  Definition rfv (fi : nat) (l : rpath -> Z) : bool := rvalid C (is_b C fi) l.

  Lemma rform_nth fi f : nth_error (a_forms arch0) fi = Some f -> f = rform C (is_b C fi).
  Proof. destruct fi as [|[|fi]]; cbn; intros E; [now injection E|now injection E|destruct fi; discriminate]. Qed.

  Lemma rtag_is fi f (tags : rpath -> Z) : nth_error (a_forms arch0) fi = Some f ->
    (forall d, In d (snd f) -> tags (fst d) = snd d) ->
    (tags RInst =? c_tb C) = is_b C fi /\ (tags RInst =? c_tb C) || (tags RInst =? c_tu C) = true.
  Proof.
    intros E H. apply rform_nth in E. subst f. destruct HC as (_ & _ & _ & _ & Nt). destruct (is_b C fi); cbn [rform snd] in H;
      pose proof (H _ (or_introl eq_refl)) as X; cbn [fst snd] in X; rewrite X.
    - rewrite Z.eqb_refl. auto.
    - rewrite Z.eqb_refl, orb_true_r. split; auto. apply Z.eqb_neq. congruence.
  Qed.

  Lemma rsem_local b l l' q : (forall p, In p (fst (rform C b)) -> l p = l' p) -> rsem A (rdec C b l) l q = rsem A (rdec C b l') l' q.
  Proof. intros H. unfold rsem, rdec. destruct b; cbn [rform fst] in H; rewrite !H by (cbn; auto 8); reflexivity. Qed.

  Lemma reg_arch_ok : arch_ok mty_const arch0 rfs rfv.
  Proof.
    constructor.
    - repeat constructor; cbn; intuition discriminate.
    - repeat constructor; cbn; intuition discriminate.
    - exact Ncs.
    - intros p I. apply Ics in I. cbn in I |- *. intuition.
    - intros fi f E. apply rform_nth in E. subst f. destruct (is_b C fi); intros p; cbn; intuition (subst; auto).
    - intros fi f E. apply rform_nth in E. subst f. destruct (is_b C fi); repeat constructor; cbn; auto.
    - intros fi f tags l q E H. destruct (rtag_is fi f tags E H) as [X _]. cbn [reg_arch a_fsem]. now rewrite X.
    - intros fi f tags l q E H. destruct (rtag_is fi f tags E H) as [X _]. cbn [reg_arch a_sem]. now rewrite X.
    - intros fi f tags l E H. destruct (rtag_is fi f tags E H) as [X Y]. cbn [reg_arch a_fvalid]. now rewrite Y, X.
    - intros fi f tags l E H. destruct (rtag_is fi f tags E H) as [X Y]. cbn [reg_arch a_valid]. now rewrite Y, X.
    - intros fi f l l' q E H. apply rform_nth in E. subst f. now apply rsem_local.
    - intros fi f l l' E H. apply rform_nth in E. subst f. unfold rfv, rvalid. destruct (is_b C fi).
      + rewrite (H RBOp (MConst (c_bw C))); cbn; auto.
      + rewrite (H RUOp (MConst (c_uw C))); cbn; auto 10.
  Qed.

  Lemma reg_arch_ext : arch_ext arch0.
  Proof.
    intros tags tags' l l' Et El. cbn [reg_arch a_fsem a_sem a_fvalid a_valid].
    rewrite (Et RInst) by (destruct (c_first C) eqn:F; cbn; rewrite F; cbn; auto).
    assert (E : forall b q, rsem A (rdec C b l) l q = rsem A (rdec C b l') l' q).
    { intros b q. apply rsem_local. intros p I. apply El. destruct b; cbn in *; intuition (subst; auto). }
    assert (V : forall b, rvalid C b l = rvalid C b l').
    { intros b. unfold rvalid. destruct b; rewrite El; auto; cbn; auto 10. }
    repeat split; intros; auto. now rewrite V. now rewrite V.
  Qed.

  Lemma bop_of_code o : bop_of C (c_b C o) = o.
  Proof. unfold bop_of. destruct HC as (N & _). destruct o; [now rewrite Z.eqb_refl|]. destruct (Z.eqb_spec (c_b C BNor) (c_b C BAdd)); congruence. Qed.
  Lemma uop_of_code o : uop_of C (c_u C o) = o.
  Proof. unfold uop_of. destruct HC as (_ & _ & N & _). destruct o; [now rewrite Z.eqb_refl|]. destruct (Z.eqb_spec (c_u C UMov) (c_u C UInv)); congruence. Qed.
  Lemma bop_code z : bop_valid C z = true -> c_b C (bop_of C z) = z.
  Proof. unfold bop_valid, bop_of. destruct (Z.eqb_spec z (c_b C BAdd)); [congruence|]. cbn [orb]. intros X. apply Z.eqb_eq in X. congruence. Qed.
  Lemma uop_code z : uop_valid C z = true -> c_u C (uop_of C z) = z.
  Proof. unfold uop_valid, uop_of. destruct (Z.eqb_spec z (c_u C UInv)); [congruence|]. cbn [orb]. intros X. apply Z.eqb_eq in X. congruence. Qed.

  Definition renc (i : rinst) (p : rpath) : Z :=
    match i, p with
    | IB o _ _ _, RBOp => c_b C o | IB _ x _ _, RB1 => x | IB _ _ x _, RB2 => x | IB _ _ _ x, RBd => x
    | IU o _ _, RUOp => c_u C o | IU _ x _, RU1 => x | IU _ _ x, RUd => x
    | _, _ => 0
    end.

  Lemma reg_machine : machine mty_const mty_vals arch0 rfs rfv reg_ok (fun fi => rdec C (is_b C fi)) (rsem A).
  Proof.
    constructor.
    - intros p t I J. apply Ics in I. cbn in I, J.
      destruct I as [<-|[<-|[<-|[<-|[<-|[<-|[<-|[]]]]]]]];
        repeat (destruct J as [J|J]; [first [discriminate J | injection J as <-; reflexivity]|]); destruct J.
    - intros fi f p t E I Ct. apply rform_nth in E. subst f. cbn in I.
      destruct (is_b C fi); repeat (destruct I as [I|I]; [injection I as <- <-; try discriminate; cbn; auto 8|]); destruct I.
    - intros fi f l q _ _ _. reflexivity.
    - intros fi f l E T V Cl. apply rform_nth in E. subst f. unfold rfv, rvalid in V. split.
      + unfold rdec. destruct (is_b C fi); cbn [in_reg_isa]; repeat split; unfold fit;
          match goal with |- context [l ?p] => pose proof (proj1 (mty_In _ _) (T p (MConst 5) ltac:(cbn; auto 10))); cbn [Z.pow] in *; lia end.
      + intros p zs z I F. pose proof (Ics p ltac:(now apply (in_map fst) in I)) as K. specialize (Cl p zs I).
        unfold rdec in F. destruct (is_b C fi); cbn in K; destruct K as [<-|[<-|[<-|[<-|[<-|[<-|[<-|[]]]]]]]]; cbn [rfield] in F; try discriminate;
          injection F as <-; try (rewrite bop_code by exact V); try (rewrite uop_code by exact V); apply Cl; cbn; auto 8.
    - intros i (Hi & Hc). destruct HC as (_ & Rb & _ & Ru & _).
      assert (Z0 : forall w, 0 <= w -> 0 <= 0 < 2 ^ w) by (intros w Hw; split; [lia|]; now apply pow2_pos).
      pose (b := m_b i).
      exists (if Bool.eqb b (c_first C) then 0%nat else 1%nat), (rform C b), (renc i).
      assert (Eb : is_b C (if Bool.eqb b (c_first C) then 0%nat else 1%nat) = b) by (destruct b, (c_first C) eqn:F; cbn; rewrite F; reflexivity).
      split; [destruct b, (c_first C) eqn:F; cbn; rewrite F; reflexivity|].
      assert (Wb : 0 <= c_bw C) by (destruct (Z.lt_ge_cases (c_bw C) 0) as [L|]; auto; pose proof (Rb BAdd) as X; rewrite (Z.pow_neg_r 2 _ L) in X; lia).
      assert (Wu : 0 <= c_uw C) by (destruct (Z.lt_ge_cases (c_uw C) 0) as [L|]; auto; pose proof (Ru UInv) as X; rewrite (Z.pow_neg_r 2 _ L) in X; lia).
      split; [|split; [|split]].
      + intros p t I. apply mty_In. cbn in I. unfold in_reg_isa, fit in Hi.
        destruct i as [o x y z|o x z]; repeat (destruct I as [I|I]; [injection I as <- <-; cbn [renc]; auto; try apply Z0; try lia; try apply Hi|]); destruct I.
      + unfold rfv, rvalid. rewrite Eb. unfold b, bop_valid, uop_valid. destruct i as [[]|[]]; cbn [m_b renc]; rewrite Z.eqb_refl; auto using orb_true_r.
      + intros p zs I J. apply (Hc p zs _ I). unfold b in J. pose proof (Ics p ltac:(now apply (in_map fst) in I)) as K. cbn in K.
        destruct i as [o x y z|o x z]; cbn [m_b rform fst] in J; destruct K as [<-|[<-|[<-|[<-|[<-|[<-|[<-|[]]]]]]]]; cbn [rfield renc]; auto;
          exfalso; cbn in J; intuition discriminate.
      + rewrite Eb. unfold b, rdec. destruct i as [o x y z|o x z]; cbn [m_b renc]; [now rewrite bop_of_code|now rewrite uop_of_code].
    - intros fi f l l' E H. apply rform_nth in E. subst f. unfold rdec. destruct (is_b C fi).
      + rewrite (H RBOp (MConst (c_bw C))), (H RB1 (MConst 5)), (H RB2 (MConst 5)), (H RBd (MConst 5)); cbn; auto 10.
      + rewrite (H RUOp (MConst (c_uw C))), (H RU1 (MConst 5)), (H RUd (MConst 5)); cbn; auto 10.
    - intros i l l' q H. unfold rsem. rewrite (H RRs1 MWord), (H RRs2 MWord), (H RRd MInit); cbn; auto 12.
  Qed.
End Reg.
