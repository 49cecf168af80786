(** C76: which functions of words the mapper finds for the PE with a register
    file, and what the instruction of a rule does on the PE itself. *)
From Coq Require Import ZArith List Bool Lia Permutation.
From Verif Require Import Base BaseLemmas BvModel BvLemmas RiscvModel RiscvProofs BindModel BindProps MapIdxModel MapIdxProps CegisModel CegisProps
  MapModel MapProofs MapMain MapProps MapIff MapIffProps MapDirect RegPeModel RegPeProofs.
From Verif Require SmallPeModel.
Import ListNotations.
Open Scope list_scope.
Open Scope Z_scope.

(** ** Specification *)

(** Registers an instruction reads and writes. *)
Definition r_one (i : rinst) : Z := match i with IB _ x _ _ => x | IU _ x _ => x end.
Definition r_two (i : rinst) : option Z := match i with IB _ _ y _ => Some y | IU _ _ _ => None end.
Definition r_dst (i : rinst) : Z := match i with IB _ _ _ z => z | IU _ _ z => z end.

(** The operands [a] and [b] are in the registers; register 0 holds 0. *)
Definition loaded (rf : rfile) (i : rinst) (a b : Z) : Prop :=
  rf_load rf 0 = Ok 0 /\ (r_one i <> 0 -> rf_load rf (r_one i) = Ok a) /\
  forall y, r_two i = Some y -> y <> 0 -> rf_load rf y = Ok b.
(** RegPE leaves [f a b] in the destination and changes nothing else. *)
Definition runs (i : rinst) (f : Z -> Z -> Z) : Prop :=
  forall a b rf, word32 a -> word32 b -> loaded rf i a b ->
    exists rf', reg_call rf i = Ok rf' /\ rf_load rf' (r_dst i) = Ok (f a b) /\
      forall r, r <> r_dst i -> rf_load rf' r = rf_load rf r.
(** Any two operands can be loaded. *)
Definition apart (i : rinst) : Prop := forall y, r_two i = Some y -> r_one i = y -> y = 0.

(** What two words can be mapped to. *)
Definition top : Z := 4294967295.
Definition eight : list (Z -> Z -> Z) :=
  [(fun x y => (x + y) mod 4294967296); (fun x y => top - Z.lor x y); (fun x _ => x); (fun _ y => y); (fun _ _ => 0);
   (fun x _ => top - x); (fun _ y => top - y); (fun _ _ => top)].
Definition four : list (Z -> Z) := [(fun x => x); (fun _ => 0); (fun x => top - x); (fun _ => top)].

Definition rwidth (C : rcode) (p : rpath) : Z := match p with RBOp => c_bw C | RUOp => c_uw C | _ => 5 end.
(** Constraints on instruction fields, each with at least one value of its type. *)
Definition on_rfields (C : rcode) (cs : list (rpath * list Z)) : Prop :=
  NoDup (map fst cs) /\
  forall p zs, In (p, zs) cs -> In p const_paths /\ zs <> [] /\ forall z, In z zs -> 0 <= z < 2 ^ rwidth C p.
Definition rtags_ok (C : rcode) (tagd : rpath -> list Z) : Prop :=
  (forall p, tagd p <> []) /\ In (c_tb C) (tagd RInst) /\ In (c_tu C) (tagd RInst).

Notation rword2 f := (word2 QIn0 QIn1 QOut MWord f).
Notation rword1 f := (word1 QIn0 QOut MWord f).
Definition rmappable C A cs (i : instr rpath mty) : Prop :=
  implementable rpath_eqb mty_const mty_vals (reg_arch C A cs) i (rfs C A) (rfv C).
Definition rresult C A cs tagd k simple (i : instr rpath mty) (o : outcome (var rpath)) : Prop :=
  answer rpath_eqb mty_eqb mty_const mty_vals (reg_arch C A cs) i k tagd simple o.

(** The rule is for this instruction. *)
Definition rule_inst (C : rcode) (ru : rule rpath) (m : rinst) : Prop :=
  is_b C (r_form ru) = m_b m /\ forall p z, rfield C m p = Some z -> In (SVal z, p) (r_in ru).
(** Where the rule puts the operands. *)
Definition in_order (ru : rule rpath) : Prop := In (SPath QIn0, RRs1) (r_in ru) /\ In (SPath QIn1, RRs2) (r_in ru).
Definition swapped (ru : rule rpath) : Prop := In (SPath QIn0, RRs2) (r_in ru) /\ In (SPath QIn1, RRs1) (r_in ru).
Definition flip (f : Z -> Z -> Z) (x y : Z) : Z := f y x.

(** The wrapper computes [f], whatever the destination held. *)
Definition gives (A : raccess) (m : rinst) (f : Z -> Z -> Z) : Prop :=
  forall a b d, word32 a -> word32 b -> word32 d -> reg_mappable A m a b d = f a b.

(** ** The wrapper *)
Definition pick (r v : Z) : Z := if r =? 0 then 0 else v.
Definition val_of (i : rinst) (a b : Z) : Z :=
  match i with IB o x y _ => b_alu o (pick x a) (pick y b) | IU o x _ => u_alu o (pick x a) end.

Lemma mappable_eq A i a b d : racc_ok A -> reg_mappable A i a b d = if r_dst i =? 0 then d else val_of i a b.
Proof.
  intros (Hb & Hu). unfold reg_mappable, reg_smt, pick. destruct i as [o x y z|o x z].
  - rewrite Hb. destruct (v_u A (IB o x y z)) as ((uo & u1) & ud). cbn [m_b ite r_dst val_of s_store sr_rd]. unfold s_load1, s_load2, pick. cbn [sr_rs1 sr_rs2 sr_rd].
    destruct (z =? 0), (x =? 0), (y =? 0); reflexivity.
  - rewrite Hu. destruct (v_b A (IU o x z)) as (((bo & b1) & b2) & bd). cbn [m_b ite r_dst val_of s_store sr_rd]. unfold s_load1, s_load2, pick. cbn [sr_rs1 sr_rs2 sr_rd].
    destruct (z =? 0), (x =? 0); reflexivity.
Qed.

Lemma gives_dst A m f : racc_ok A -> gives A m f -> r_dst m <> 0.
Proof.
  intros HA G E. pose proof (G 0 0 0) as X. pose proof (G 0 0 1) as Y. rewrite mappable_eq in X, Y by exact HA.
  rewrite E in X, Y. cbn in X, Y. unfold word32 in *. rewrite X in Y by lia. specialize (Y ltac:(lia) ltac:(lia) ltac:(lia)).
  rewrite <- X in Y by lia. lia.
Qed.
Lemma gives_val A m f : racc_ok A -> gives A m f <-> r_dst m <> 0 /\ forall a b, word32 a -> word32 b -> val_of m a b = f a b.
Proof.
  intros HA. split.
  - intros G. pose proof (gives_dst A m f HA G) as N. split; [exact N|]. intros a b Wa Wb.
    rewrite <- (G a b 0 Wa Wb ltac:(unfold word32; lia)). rewrite mappable_eq by exact HA. now rewrite (proj2 (Z.eqb_neq _ _) N).
  - intros (N & E) a b d Wa Wb _. rewrite mappable_eq by exact HA. rewrite (proj2 (Z.eqb_neq _ _) N). auto.
Qed.

(** ** The PE *)
Lemma call_eq rf i a b : loaded rf i a b -> reg_call rf i = Ok (rf_store rf (r_dst i) (val_of i a b)).
Proof.
  intros (Z0 & H1 & H2). assert (L1 : rf_load rf (r_one i) = Ok (pick (r_one i) a)).
  { unfold pick. destruct (Z.eqb_spec (r_one i) 0) as [->|N]; auto. }
  destruct i as [o x y z|o x z]; cbn [r_one r_two r_dst] in *; unfold reg_call; rewrite L1; cbn [bind val_of]; [|reflexivity].
  assert (L2 : rf_load rf y = Ok (pick y b)).
  { unfold pick. destruct (Z.eqb_spec y 0) as [->|N]; auto. }
  rewrite L2. reflexivity.
Qed.
Lemma val_runs i f : r_dst i <> 0 -> (forall a b, word32 a -> word32 b -> val_of i a b = f a b) -> runs i f.
Proof.
  intros N E a b rf Wa Wb L. rewrite (call_eq rf i a b L). eexists. split; [reflexivity|]. split.
  - rewrite rf_load_store, Z.eqb_refl, (proj2 (Z.eqb_neq _ _) N). cbn. now rewrite E.
  - intros r Nr. rewrite rf_load_store, (proj2 (Z.eqb_neq _ _) Nr). reflexivity.
Qed.
(** Registers for any two operands. *)
Definition load_file (i : rinst) (a b : Z) : rfile :=
  rf_store (rf_store rf_init (match r_two i with Some y => y | None => 0 end) b) (r_one i) a.
Lemma load_ok i a b : apart i -> loaded (load_file i a b) i a b.
Proof.
  intros Ap. unfold load_file. split; [|split].
  - rewrite !rf_load_store. cbn [Z.eqb negb]. rewrite !andb_false_r. reflexivity.
  - intros N. rewrite rf_load_store, Z.eqb_refl, (proj2 (Z.eqb_neq _ _) N). reflexivity.
  - intros y E N. rewrite rf_load_store. destruct (Z.eqb_spec y (r_one i)) as [Q|Q].
    + exfalso. apply N. apply (Ap y E). congruence.
    + cbn [andb]. rewrite E, rf_load_store, Z.eqb_refl, (proj2 (Z.eqb_neq _ _) N). reflexivity.
Qed.
(** What an instruction does on the PE, if its operands are apart, is what the
    wrapper says. *)
Lemma runs_gives A i f : racc_ok A -> apart i -> runs i f -> r_dst i <> 0 -> gives A i f.
Proof.
  intros HA Ap R N. apply gives_val; [exact HA|]. split; [exact N|]. intros a b Wa Wb.
  destruct (R a b _ Wa Wb (load_ok i a b Ap)) as (rf' & C & L & _). rewrite (call_eq _ i a b (load_ok i a b Ap)) in C.
  injection C as <-. rewrite rf_load_store, Z.eqb_refl, (proj2 (Z.eqb_neq _ _) N) in L. cbn in L. congruence.
Qed.

Lemma runs_zero i f a b : apart i -> runs i f -> r_dst i = 0 -> word32 a -> word32 b -> f a b = 0.
Proof.
  intros Ap R E Wa Wb. destruct (R a b _ Wa Wb (load_ok i a b Ap)) as (rf' & C & L & _).
  rewrite (call_eq _ i a b (load_ok i a b Ap)), E in C. injection C as <-. rewrite E in L. rewrite rf_load_store in L. cbn in L.
  rewrite (proj1 (load_ok i a b Ap)) in L. congruence.
Qed.

(** ** The functions *)
Lemma not32 x : word32 x -> bvnot 32 x = top - x.
Proof. intros W. rewrite bvnot_eq by (unfold word32 in W; lia). reflexivity. Qed.
Lemma lor32 x y : word32 x -> word32 y -> word32 (Z.lor x y).
Proof. intros X Y. exact (lor_range 32 x y ltac:(lia) X Y). Qed.
Lemma word32_0 : word32 0.
Proof. unfold word32. lia. Qed.
Lemma val_eight i : exists g, In g eight /\ forall a b, word32 a -> word32 b -> val_of i a b = g a b.
Proof.
  destruct i as [[|] x y z|[|] x z]; cbn [val_of b_alu u_alu]; unfold pick.
  - destruct (x =? 0), (y =? 0).
    + exists (fun _ _ => 0). split; [exact (nth_error_In eight 4 eq_refl)|reflexivity].
    + exists (fun _ y => y). split; [exact (nth_error_In eight 3 eq_refl)|]. intros a b Wa Wb. unfold bvadd. rewrite Z.add_0_l. now apply wrap_small.
    + exists (fun x _ => x). split; [exact (nth_error_In eight 2 eq_refl)|]. intros a b Wa Wb. unfold bvadd. rewrite Z.add_0_r. now apply wrap_small.
    + exists (fun x y => (x + y) mod 4294967296). split; [exact (nth_error_In eight 0 eq_refl)|reflexivity].
  - destruct (x =? 0), (y =? 0).
    + exists (fun _ _ => top). split; [exact (nth_error_In eight 7 eq_refl)|reflexivity].
    + exists (fun _ y => top - y). split; [exact (nth_error_In eight 6 eq_refl)|]. intros a b Wa Wb. rewrite Z.lor_0_l. now apply not32.
    + exists (fun x _ => top - x). split; [exact (nth_error_In eight 5 eq_refl)|]. intros a b Wa Wb. rewrite Z.lor_0_r. now apply not32.
    + exists (fun x y => top - Z.lor x y). split; [exact (nth_error_In eight 1 eq_refl)|]. intros a b Wa Wb. now apply not32, lor32.
  - destruct (x =? 0).
    + exists (fun _ _ => top). split; [exact (nth_error_In eight 7 eq_refl)|reflexivity].
    + exists (fun x _ => top - x). split; [exact (nth_error_In eight 5 eq_refl)|]. intros a b Wa Wb. now apply not32.
  - destruct (x =? 0).
    + exists (fun _ _ => 0). split; [exact (nth_error_In eight 4 eq_refl)|reflexivity].
    + exists (fun x _ => x). split; [exact (nth_error_In eight 2 eq_refl)|reflexivity].
Qed.
(** Each of them has an instruction whose operands are apart. *)
Lemma inst_for_ok g : In g eight -> exists m, in_reg_isa m /\ apart m /\ r_dst m <> 0 /\ forall a b, word32 a -> word32 b -> val_of m a b = g a b.
Proof.
  unfold eight. intros I. repeat (destruct I as [<-|I]); [.. |destruct I].
  - exists (IB BAdd 1 2 3). split; [repeat split; unfold fit; lia|]. split; [intros ? [= <-]; discriminate|]. split; [discriminate|]. reflexivity.
  - exists (IB BNor 1 2 3). split; [repeat split; unfold fit; lia|]. split; [intros ? [= <-]; discriminate|]. split; [discriminate|].
    intros a b Wa Wb. exact (not32 _ (lor32 a b Wa Wb)).
  - exists (IU UMov 1 3). split; [repeat split; unfold fit; lia|]. split; [intros ? [=]|]. split; [discriminate|]. reflexivity.
  - exists (IB BAdd 0 2 3). split; [repeat split; unfold fit; lia|]. split; [intros ? [= <-]; discriminate|]. split; [discriminate|].
    intros a b Wa Wb. exact (wrap_small 32 b Wb).
  - exists (IU UMov 0 3). split; [repeat split; unfold fit; lia|]. split; [intros ? [=]|]. split; [discriminate|]. reflexivity.
  - exists (IU UInv 1 3). split; [repeat split; unfold fit; lia|]. split; [intros ? [=]|]. split; [discriminate|].
    intros a b Wa Wb. exact (not32 a Wa).
  - exists (IB BNor 0 2 3). split; [repeat split; unfold fit; lia|]. split; [intros ? [= <-]; discriminate|]. split; [discriminate|].
    intros a b Wa Wb. exact (not32 b Wb).
  - exists (IU UInv 0 3). split; [repeat split; unfold fit; lia|]. split; [intros ? [=]|]. split; [discriminate|]. reflexivity.
Qed.

(** ** Rules *)
Section Rules.
  Variables (C : rcode) (A : raccess) (cs : list (rpath * list Z)).
  Hypotheses (HC : rcode_ok C) (HA : racc_ok A) (Hf : on_rfields C cs).
  Notation arch0 := (reg_arch C A cs).

  Lemma rf_nodup : NoDup (map fst cs).
  Proof. exact (proj1 Hf). Qed.
  Lemma rf_incl : incl (map fst cs) const_paths.
  Proof. intros p I. apply in_map_iff in I as ((p' & zs) & <- & I). exact (proj1 (proj2 Hf _ _ I)). Qed.
  Lemma rf_constr : constr_ok mty_vals arch0.
  Proof.
    intros p zs I. destruct (proj2 Hf _ _ I) as (X & N & W). split; [exact N|]. intros t z It Iz. specialize (W z Iz).
    apply mty_In. cbn in X, It.
    destruct X as [<-|[<-|[<-|[<-|[<-|[<-|[<-|[]]]]]]]]; cbn [rwidth] in W;
      repeat (destruct It as [It|It]; [first [discriminate It | injection It as <-; exact W]|]); destruct It.
  Qed.
  Let Hok := reg_arch_ok C A cs HC rf_nodup rf_incl.
  Let Hma := reg_machine C A cs HC rf_incl.

  Definition at_words (a b d : Z) (p : rpath) : Z := match p with RRs1 => a | RRs2 => b | RRd => d | RBOp => c_b C BAdd | RUOp => c_u C UInv | _ => 0 end.
  Lemma at_typed a b d : word32 a -> word32 b -> word32 d -> typed mty_vals (a_in arch0) (at_words a b d).
  Proof.
    intros Wa Wb Wd p t I. apply mty_In. pose proof HC as (_ & Rb & _ & Ru & _). cbn in I. unfold word32 in *.
    repeat (destruct I as [I|I]; [injection I as <- <-; cbn [at_words]; try apply Rb; try apply Ru; try lia|]); destruct I.
  Qed.
  Lemma word_paths p : In (p, MWord) (a_in arch0) <-> p = RRs1 \/ p = RRs2.
  Proof.
    cbn. split; [|intuition (subst; auto 12)]. intros I.
    repeat (destruct I as [I|I]; [first [discriminate I | injection I as <-; auto]|]); destruct I.
  Qed.
  Lemma typed_words l : typed mty_vals (a_in arch0) l -> word32 (l RRs1) /\ word32 (l RRs2) /\ word32 (l RRd).
  Proof.
    intros T. split; [|split].
    - exact (proj1 (word_In MWord _ eq_refl) (T RRs1 MWord (proj2 (word_paths RRs1) (or_introl eq_refl)))).
    - exact (proj1 (word_In MWord _ eq_refl) (T RRs2 MWord (proj2 (word_paths RRs2) (or_intror eq_refl)))).
    - refine (proj1 (word_In MInit _ eq_refl) (T RRd MInit _)). cbn. auto 12.
  Qed.

  Lemma does2_iff f m p0 p1 po : does2 mty_vals arch0 (rsem A) MWord f m p0 p1 po <->
    po = ROut /\ (p0 = RRs1 /\ p1 = RRs2 /\ gives A m f \/ p0 = RRs2 /\ p1 = RRs1 /\ gives A m (flip f)).
  Proof.
    unfold does2. rewrite !word_paths. split.
    - intros (I0 & I1 & N & Io & E). split; [cbn in Io; destruct Io as [Io|[]]; congruence|].
      assert (G : forall a b d, word32 a -> word32 b -> word32 d -> f (at_words a b d p0) (at_words a b d p1) = reg_mappable A m a b d).
      { intros a b d Wa Wb Wd. exact (E _ (at_typed a b d Wa Wb Wd)). }
      destruct I0 as [->| ->], I1 as [->| ->]; try congruence; [left|right]; (split; [reflexivity|split; [reflexivity|]]);
        intros a b d Wa Wb Wd; symmetry; exact (G a b d Wa Wb Wd).
    - intros (-> & [(-> & -> & G)|(-> & -> & G)]); (split; [auto|split; [auto|split; [discriminate|split; [cbn; auto|]]]]);
        intros l T; destruct (typed_words l T) as (W1 & W2 & W3); symmetry; exact (G _ _ _ W1 W2 W3).
  Qed.
  Lemma does1_iff f m p0 po : does1 mty_vals arch0 (rsem A) MWord f m p0 po <->
    po = ROut /\ (p0 = RRs1 /\ gives A m (fun a _ => f a) \/ p0 = RRs2 /\ gives A m (fun _ b => f b)).
  Proof.
    unfold does1. rewrite !word_paths. split.
    - intros (I0 & Io & E). split; [cbn in Io; destruct Io as [Io|[]]; congruence|].
      destruct I0 as [->| ->]; [left|right]; (split; [reflexivity|]);
        intros a b d Wa Wb Wd; symmetry; exact (E _ (at_typed a b d Wa Wb Wd)).
    - intros (-> & [(-> & G)|(-> & G)]); (split; [auto|split; [cbn; auto|]]);
        intros l T; destruct (typed_words l T) as (W1 & W2 & W3); symmetry; exact (G _ _ _ W1 W2 W3).
  Qed.

  Lemma n01 : QIn0 <> QIn1. Proof. discriminate. Qed.
  Lemma nc2 f q t : In (q, t) (i_in (rword2 f)) -> mty_const t = false.
  Proof. cbn. intros [I|[I|[]]]; injection I as <- <-; reflexivity. Qed.
  Lemma nc1 f q t : In (q, t) (i_in (rword1 f)) -> mty_const t = false.
  Proof. cbn. intros [I|[]]; injection I as <- <-; reflexivity. Qed.

  (** A rule exists if and only if an allowed instruction computes the function
      from its operands in one order or the other. *)
  Theorem C76_rule f : rmappable C A cs (rword2 f) <-> exists m, reg_ok C cs m /\ (gives A m f \/ gives A m (flip f)).
  Proof.
    unfold rmappable. rewrite (machine_iff rpath_eqb mty_eqb mty_const reg_eqs mty_vals arch0 _ _ _ Hok (word2_ok _ _ _ _ f n01) _ _ _ Hma (nc2 f)).
    split.
    - intros (m & bnd & obnd & V & Pl & Co). exists m. split; [exact V|].
      pose proof (does2_from mty_vals arch0 (rsem A) QIn0 QIn1 QOut MWord n01 f m bnd obnd Pl Co) as D. apply does2_iff in D.
      destruct D as (_ & [(_ & _ & G)|(_ & _ & G)]); auto.
    - intros (m & V & [G|G]).
      + destruct (does2_to rpath_eqb mty_vals rpath_eqb_eq arch0 (rsem A) QIn0 QIn1 QOut MWord n01 f m RRs1 RRs2 ROut) as (bnd & obnd & Pl & Co); [|eauto 6].
        apply does2_iff. auto 8.
      + destruct (does2_to rpath_eqb mty_vals rpath_eqb_eq arch0 (rsem A) QIn0 QIn1 QOut MWord n01 f m RRs2 RRs1 ROut) as (bnd & obnd & Pl & Co); [|eauto 6].
        apply does2_iff. auto 8.
  Qed.
  Theorem C76_rule1 f : rmappable C A cs (rword1 f) <-> exists m, reg_ok C cs m /\ (gives A m (fun a _ => f a) \/ gives A m (fun _ b => f b)).
  Proof.
    unfold rmappable. rewrite (machine_iff rpath_eqb mty_eqb mty_const reg_eqs mty_vals arch0 _ _ _ Hok (word1_ok _ _ _ f) _ _ _ Hma (nc1 f)).
    split.
    - intros (m & bnd & obnd & V & Pl & Co). exists m. split; [exact V|].
      pose proof (does1_from mty_vals arch0 (rsem A) QIn0 QOut MWord f m bnd obnd Pl Co) as D. apply does1_iff in D.
      destruct D as (_ & [(_ & G)|(_ & G)]); auto.
    - intros (m & V & [G|G]).
      + destruct (does1_to mty_vals arch0 (rsem A) QIn0 QOut MWord f m RRs1 ROut) as (bnd & obnd & Pl & Co); [|eauto 6].
        apply does1_iff. auto 8.
      + destruct (does1_to mty_vals arch0 (rsem A) QIn0 QOut MWord f m RRs2 ROut) as (bnd & obnd & Pl & Co); [|eauto 6].
        apply does1_iff. auto 8.
  Qed.

  (** ** The mapper *)
  Variable tagd : rpath -> list Z.
  Hypothesis Ht : rtags_ok C tagd.
  Lemma vals_ne t : mty_const t = false -> mty_vals t <> [].
  Proof. intros Ct E. pose proof (proj2 (word_In t 0 Ct) word32_0) as I. rewrite E in I. destruct I. Qed.
  Lemma reg_inhabited i : (forall q t, In (q, t) (i_in i) -> mty_const t = false) -> inhabited_types mty_vals tagd arch0 i.
  Proof.
    intros N. destruct Ht as (T0 & Tb & Tu). split; [intros p t I; exact (vals_ne t (N p t I))|]. split; [exact T0|].
    intros fi f p z E I. apply rform_nth in E. subst f. destruct (is_b C fi); cbn in I; destruct I as [I|[]]; injection I as <- <-; assumption.
  Qed.
  Lemma reg_rule_inst i ru m bnd obnd : rule_of mty_const mty_vals arch0 i (rfv C) (fun fi => rdec C (is_b C fi)) ru m bnd obnd -> rule_inst C ru m.
  Proof.
    intros ((f & l & Ef & T & V & K & E) & _). apply rform_nth in Ef. subst f m. unfold rfv, rvalid in V.
    unfold rule_inst, rdec. destruct (is_b C (r_form ru)) eqn:B; cbn [rform fst] in K; (split; [reflexivity|]); intros p z F;
      destruct p; cbn [rfield] in F; try discriminate; injection F as <-; try (rewrite bop_code by exact V); try (rewrite uop_code by exact V);
      eapply K; try reflexivity; cbn; auto 12.
  Qed.

  Lemma gives_runs m f : gives A m f -> r_dst m <> 0 /\ runs m f.
  Proof. intros G. apply gives_val in G as (N & E); [|exact HA]. split; [exact N|]. now apply val_runs. Qed.

  (** Missing for C76: that the operands can be loaded ([C76_full], refuted
      below). A rule found names an allowed instruction and the order of the operands;
      on RegPE this instruction leaves the result in its destination, if the
      operands are in its registers. None is answered only if no allowed
      instruction computes the function from its operands in either order. *)
  Theorem C76_solve_partial k simple f o : rresult C A cs tagd k simple (rword2 f) o ->
    match o with
    | ODone r => exists ru m, rr_from_solver rpath_eqb mty_eqb mty_const k arch0 (rword2 f) r = Ok ru /\ reg_ok C cs m /\ rule_inst C ru m /\
        r_dst m <> 0 /\ (in_order ru /\ runs m f \/ swapped ru /\ runs m (flip f)) /\ In (Some QOut, ROut) (r_out ru)
    | ONone => forall m, reg_ok C cs m -> ~ gives A m f /\ ~ gives A m (flip f)
    | _ => True
    end.
  Proof.
    intros R. pose proof (machine_solve rpath_eqb mty_eqb mty_const reg_eqs mty_vals arch0 _ _ _ Hok (word2_ok _ _ _ _ f n01) _ _ _ Hma (nc2 f)
      k tagd (reg_arch_ext C A cs) (reg_inhabited _ (nc2 f)) rf_constr eq_refl ltac:(discriminate) simple o R) as H.
    destruct o as [r| | |]; auto.
    - destruct H as (ru & m & bnd & obnd & E & V & Pl & Co & Ro). exists ru, m. split; [exact E|]. split; [exact V|].
      split; [exact (reg_rule_inst _ _ _ _ _ Ro)|].
      pose proof (does2_from mty_vals arch0 (rsem A) QIn0 QIn1 QOut MWord n01 f m bnd obnd Pl Co) as D. apply does2_iff in D.
      destruct Ro as (_ & Ri & Rout). pose proof (Ri QIn0 MWord (or_introl eq_refl)) as R0.
      pose proof (Ri QIn1 MWord (or_intror (or_introl eq_refl))) as R1. pose proof (Rout QOut MWord (or_introl eq_refl)) as R2.
      destruct D as (Do & [(D0 & D1 & G)|(D0 & D1 & G)]); rewrite D0 in R0; rewrite D1 in R1; rewrite Do in R2;
        destruct (gives_runs _ _ G) as (N & Ru); (split; [exact N|]); (split; [|exact R2]); [left|right]; repeat split; assumption.
    - intros m V. split; intros G.
      + destruct (does2_to rpath_eqb mty_vals rpath_eqb_eq arch0 (rsem A) QIn0 QIn1 QOut MWord n01 f m RRs1 RRs2 ROut) as (bnd & obnd & Pl & Co).
        { apply does2_iff. auto 8. } exact (H m bnd obnd V Pl Co).
      + destruct (does2_to rpath_eqb mty_vals rpath_eqb_eq arch0 (rsem A) QIn0 QIn1 QOut MWord n01 f m RRs2 RRs1 ROut) as (bnd & obnd & Pl & Co).
        { apply does2_iff. auto 8. } exact (H m bnd obnd V Pl Co).
  Qed.
  Theorem C76_found k simple f : rmappable C A cs (rword2 f) ->
    exists y phi, built_with rpath_eqb mty_eqb mty_const arch0 (rword2 f) k simple = Ok (BForm y phi) /\
      forall fo, forall_ok (dom rpath_eqb mty_eqb mty_vals tagd k arch0 (rword2 f)) fo ->
        exists r, direct_solve fo y (mkform (vars_of arch0 (rword2 f)) phi) = ODone r.
  Proof.
    intros M. apply (machine_iff rpath_eqb mty_eqb mty_const reg_eqs mty_vals arch0 _ _ _ Hok (word2_ok _ _ _ _ f n01) _ _ _ Hma (nc2 f)) in M.
    destruct M as (m & bnd & obnd & V & Pl & Co).
    exact (machine_found rpath_eqb mty_eqb mty_const reg_eqs mty_vals arch0 _ _ _ Hok (word2_ok _ _ _ _ f n01) _ _ _ Hma (nc2 f)
      k tagd (reg_arch_ext C A cs) (reg_inhabited _ (nc2 f)) rf_constr eq_refl ltac:(discriminate) simple m bnd obnd V Pl Co).
  Qed.
  Theorem C76_solve1 k simple f o : rresult C A cs tagd k simple (rword1 f) o ->
    match o with
    | ODone r => exists ru m, rr_from_solver rpath_eqb mty_eqb mty_const k arch0 (rword1 f) r = Ok ru /\ reg_ok C cs m /\ rule_inst C ru m /\
        r_dst m <> 0 /\ (In (SPath QIn0, RRs1) (r_in ru) /\ runs m (fun a _ => f a) \/ In (SPath QIn0, RRs2) (r_in ru) /\ runs m (fun _ b => f b))
    | ONone => forall m, reg_ok C cs m -> ~ gives A m (fun a _ => f a) /\ ~ gives A m (fun _ b => f b)
    | _ => True
    end.
  Proof.
    intros R. pose proof (machine_solve rpath_eqb mty_eqb mty_const reg_eqs mty_vals arch0 _ _ _ Hok (word1_ok _ _ _ f) _ _ _ Hma (nc1 f)
      k tagd (reg_arch_ext C A cs) (reg_inhabited _ (nc1 f)) rf_constr eq_refl ltac:(discriminate) simple o R) as H.
    destruct o as [r| | |]; auto.
    - destruct H as (ru & m & bnd & obnd & E & V & Pl & Co & Ro). exists ru, m. split; [exact E|]. split; [exact V|].
      split; [exact (reg_rule_inst _ _ _ _ _ Ro)|].
      pose proof (does1_from mty_vals arch0 (rsem A) QIn0 QOut MWord f m bnd obnd Pl Co) as D. apply does1_iff in D.
      destruct Ro as (_ & Ri & _). pose proof (Ri QIn0 MWord (or_introl eq_refl)) as R0.
      destruct D as (Do & [(D0 & G)|(D0 & G)]); rewrite D0 in R0;
        destruct (gives_runs _ _ G) as (N & Ru); (split; [exact N|]); [left|right]; split; assumption.
    - intros m V. split; intros G.
      + destruct (does1_to mty_vals arch0 (rsem A) QIn0 QOut MWord f m RRs1 ROut) as (bnd & obnd & Pl & Co).
        { apply does1_iff. auto 8. } exact (H m bnd obnd V Pl Co).
      + destruct (does1_to mty_vals arch0 (rsem A) QIn0 QOut MWord f m RRs2 ROut) as (bnd & obnd & Pl & Co).
        { apply does1_iff. auto 8. } exact (H m bnd obnd V Pl Co).
  Qed.
End Rules.

(** ** Which functions have rules *)
Lemma no_constr C : on_rfields C [].
Proof. split; [constructor|]. intros p zs []. Qed.
Lemma reg_ok_free C m : reg_ok C [] m <-> in_reg_isa m.
Proof. split; [now intros []|]. intros I. split; [exact I|]. intros p zs z []. Qed.
Lemma flip_eight g : In g eight -> exists h, In h eight /\ forall a b, h a b = g b a.
Proof.
  unfold eight at 1. intros I. repeat (destruct I as [<-|I]); [.. |destruct I].
  - exists (fun x y => (x + y) mod 4294967296). split; [exact (nth_error_In eight 0 eq_refl)|]. intros a b. now rewrite Z.add_comm.
  - exists (fun x y => top - Z.lor x y). split; [exact (nth_error_In eight 1 eq_refl)|]. intros a b. now rewrite Z.lor_comm.
  - exists (fun _ y => y). split; [exact (nth_error_In eight 3 eq_refl)|reflexivity].
  - exists (fun x _ => x). split; [exact (nth_error_In eight 2 eq_refl)|reflexivity].
  - exists (fun _ _ => 0). split; [exact (nth_error_In eight 4 eq_refl)|reflexivity].
  - exists (fun _ y => top - y). split; [exact (nth_error_In eight 6 eq_refl)|reflexivity].
  - exists (fun x _ => top - x). split; [exact (nth_error_In eight 5 eq_refl)|reflexivity].
  - exists (fun _ _ => top). split; [exact (nth_error_In eight 7 eq_refl)|reflexivity].
Qed.

(** Whatever the constraints, a function of two words that has a rule is one of
    eight. *)
Theorem C76_binary_only C A cs f : rcode_ok C -> racc_ok A -> on_rfields C cs -> rmappable C A cs (rword2 f) ->
  exists g, In g eight /\ forall a b, word32 a -> word32 b -> f a b = g a b.
Proof.
  intros HC HA Hf M. apply C76_rule in M as (m & _ & G); auto. destruct (val_eight m) as (g & Ig & Eg). destruct G as [G|G]; apply gives_val in G as (_ & E); auto.
  - exists g. split; [exact Ig|]. intros a b Wa Wb. now rewrite <- Eg, E.
  - destruct (flip_eight g Ig) as (h & Ih & Eh). exists h. split; [exact Ih|]. intros a b Wa Wb. now rewrite Eh, <- Eg, E.
Qed.
(** Without constraints the eight are mapped. *)
Theorem C76_binary C A f : rcode_ok C -> racc_ok A ->
  rmappable C A [] (rword2 f) <-> exists g, In g eight /\ forall a b, word32 a -> word32 b -> f a b = g a b.
Proof.
  intros HC HA. split; [apply C76_binary_only; auto using no_constr|]. intros (g & Ig & E).
  destruct (inst_for_ok g Ig) as (m & I & _ & N & V). apply C76_rule; auto using no_constr. exists m. split; [now apply reg_ok_free|]. left.
  apply gives_val; [exact HA|]. split; [exact N|]. intros a b Wa Wb. now rewrite V, E.
Qed.
(** They are the functions that RegPE computes with one instruction from two
    operands in registers, in either order. *)
Theorem C76_runs C A f : rcode_ok C -> racc_ok A ->
  rmappable C A [] (rword2 f) <-> exists m, in_reg_isa m /\ apart m /\ (runs m f \/ runs m (flip f)).
Proof.
  intros HC HA. rewrite (C76_binary C A f HC HA). split.
  - intros (g & Ig & E). destruct (inst_for_ok g Ig) as (m & I & Ap & N & V). exists m. split; [exact I|]. split; [exact Ap|]. left.
    apply val_runs; [exact N|]. intros a b Wa Wb. now rewrite V, E.
  - intros (m & I & Ap & R). destruct (Z.eq_dec (r_dst m) 0) as [D|D].
    + exists (fun _ _ => 0). split; [exact (nth_error_In eight 4 eq_refl)|]. intros a b Wa Wb.
      destruct R as [R|R]; [exact (runs_zero m f a b Ap R D Wa Wb)|exact (runs_zero m (flip f) b a Ap R D Wb Wa)].
    + apply (C76_binary C A f HC HA). apply C76_rule; auto using no_constr. exists m. split; [now apply reg_ok_free|].
      destruct R as [R|R]; [left|right]; now apply runs_gives.
Qed.

Theorem C76_unary C A f : rcode_ok C -> racc_ok A ->
  rmappable C A [] (rword1 f) <-> exists g, In g four /\ forall a, word32 a -> f a = g a.
Proof.
  intros HC HA. split.
  - intros M. apply C76_rule1 in M as (m & _ & G); auto using no_constr.
    destruct (val_eight m) as (g & Ig & Eg).
    assert (K : (forall a b, word32 a -> word32 b -> g a b = f a) \/ (forall a b, word32 a -> word32 b -> g a b = f b)).
    { destruct G as [G|G]; apply gives_val in G as (_ & E); auto; [left|right]; intros a b Wa Wb; now rewrite <- Eg, E. }
    clear G Eg. assert (W1 : word32 1) by (unfold word32; lia). assert (W0 := word32_0).
    unfold eight in Ig. repeat (destruct Ig as [<-|Ig]); [.. |destruct Ig].
    + exfalso. destruct K as [K|K]; [pose proof (K 0 0 W0 W0) as X; pose proof (K 0 1 W0 W1) as Y|pose proof (K 0 0 W0 W0) as X; pose proof (K 1 0 W1 W0) as Y];
        rewrite <- Y in X; discriminate X.
    + exfalso. destruct K as [K|K]; [pose proof (K 0 0 W0 W0) as X; pose proof (K 0 1 W0 W1) as Y|pose proof (K 0 0 W0 W0) as X; pose proof (K 1 0 W1 W0) as Y];
        rewrite <- Y in X; discriminate X.
    + destruct K as [K|K]; [|exfalso; pose proof (K 0 0 W0 W0) as X; pose proof (K 1 0 W1 W0) as Y; rewrite <- Y in X; discriminate X].
      exists (fun x => x). split; [exact (nth_error_In four 0 eq_refl)|]. intros a Wa. symmetry. exact (K a 0 Wa W0).
    + destruct K as [K|K]; [exfalso; pose proof (K 0 0 W0 W0) as X; pose proof (K 0 1 W0 W1) as Y; rewrite <- Y in X; discriminate X|].
      exists (fun x => x). split; [exact (nth_error_In four 0 eq_refl)|]. intros a Wa. symmetry. exact (K 0 a W0 Wa).
    + exists (fun _ => 0). split; [exact (nth_error_In four 1 eq_refl)|]. intros a Wa. destruct K as [K|K]; symmetry; [exact (K a 0 Wa W0)|exact (K 0 a W0 Wa)].
    + destruct K as [K|K]; [|exfalso; pose proof (K 0 0 W0 W0) as X; pose proof (K 1 0 W1 W0) as Y; rewrite <- Y in X; discriminate X].
      exists (fun x => top - x). split; [exact (nth_error_In four 2 eq_refl)|]. intros a Wa. symmetry. exact (K a 0 Wa W0).
    + destruct K as [K|K]; [exfalso; pose proof (K 0 0 W0 W0) as X; pose proof (K 0 1 W0 W1) as Y; rewrite <- Y in X; discriminate X|].
      exists (fun x => top - x). split; [exact (nth_error_In four 2 eq_refl)|]. intros a Wa. symmetry. exact (K 0 a W0 Wa).
    + exists (fun _ => top). split; [exact (nth_error_In four 3 eq_refl)|]. intros a Wa. destruct K as [K|K]; symmetry; [exact (K a 0 Wa W0)|exact (K 0 a W0 Wa)].
  - intros (g & Ig & E). apply C76_rule1; auto using no_constr.
    assert (J : exists h, In h eight /\ forall a b, h a b = g a).
    { unfold four in Ig. repeat (destruct Ig as [<-|Ig]); [.. |destruct Ig].
      - exists (fun x _ => x). split; [exact (nth_error_In eight 2 eq_refl)|reflexivity].
      - exists (fun _ _ => 0). split; [exact (nth_error_In eight 4 eq_refl)|reflexivity].
      - exists (fun x _ => top - x). split; [exact (nth_error_In eight 5 eq_refl)|reflexivity].
      - exists (fun _ _ => top). split; [exact (nth_error_In eight 7 eq_refl)|reflexivity]. }
    destruct J as (h & Ih & Eh). destruct (inst_for_ok h Ih) as (m & I & _ & N & V). exists m. split; [now apply reg_ok_free|]. left.
    apply gives_val; [exact HA|]. split; [exact N|]. intros a b Wa Wb. now rewrite V, Eh, E.
Qed.

(** ** The IR of the mapping tests, with words of 32 bits *)
Definition ir32 (o : SmallPeModel.irop) : instr rpath mty :=
  if SmallPeModel.unary o then rword1 (fun x => SmallPeModel.ir_call 32 o x 0) else rword2 (SmallPeModel.ir_call 32 o).
Definition rpoints : list Z := [0; 1; 2; 3].
Definition differ2 (f g : Z -> Z -> Z) : bool := existsb (fun a => existsb (fun b => negb (f a b =? g a b)) rpoints) rpoints.
Definition differ1 (f g : Z -> Z) : bool := existsb (fun a => negb (f a =? g a)) rpoints.
Lemma rpoints_word z : In z rpoints -> word32 z.
Proof. intros I. unfold word32. cbn in I. lia. Qed.
Lemma differ2_no f g : (forall a b, word32 a -> word32 b -> f a b = g a b) -> differ2 f g = false.
Proof.
  intros E. apply not_true_is_false. unfold differ2. intros X. apply existsb_exists in X as (a & Ia & X). apply existsb_exists in X as (b & Ib & X).
  rewrite E, Z.eqb_refl in X by (apply rpoints_word; assumption). discriminate.
Qed.
Lemma differ1_no f g : (forall a, word32 a -> f a = g a) -> differ1 f g = false.
Proof.
  intros E. apply not_true_is_false. unfold differ1. intros X. apply existsb_exists in X as (a & Ia & X).
  rewrite E, Z.eqb_refl in X by (apply rpoints_word; assumption). discriminate.
Qed.
Lemma table2 : forallb (fun o => forallb (differ2 (SmallPeModel.ir_call 32 o)) eight)
  [SmallPeModel.Sub; SmallPeModel.And; SmallPeModel.Nand; SmallPeModel.Or; SmallPeModel.Mul; SmallPeModel.Shftr; SmallPeModel.Shftl] = true.
Proof. vm_compute. reflexivity. Qed.
Lemma table1 : forallb (differ1 (fun x => SmallPeModel.ir_call 32 SmallPeModel.Neg x 0)) four = true.
Proof. vm_compute. reflexivity. Qed.

(** [expect_found] of tests/test_aadt_mapping.py, test_reg. *)
Theorem C76_small_ir C A o : rcode_ok C -> racc_ok A ->
  rmappable C A [] (ir32 o) <-> In o [SmallPeModel.Add; SmallPeModel.Nor; SmallPeModel.Not].
Proof.
  intros HC HA. split.
  - intros M. destruct (SmallPeModel.unary o) eqn:U; unfold ir32 in M; rewrite U in M.
    + apply C76_unary in M as (g & Ig & E); auto. destruct o; try discriminate U; [cbn; auto|]. exfalso.
      pose proof (proj1 (forallb_forall _ _) table1 g Ig) as X. cbn beta in X. rewrite (differ1_no _ _ E) in X. discriminate.
    + apply C76_binary in M as (g & Ig & E); auto.
      destruct (in_dec (fun x y : SmallPeModel.irop => ltac:(decide equality)) o [SmallPeModel.Add; SmallPeModel.Nor; SmallPeModel.Not]) as [I|N]; [exact I|].
      exfalso. assert (J : In o [SmallPeModel.Sub; SmallPeModel.And; SmallPeModel.Nand; SmallPeModel.Or; SmallPeModel.Mul; SmallPeModel.Shftr; SmallPeModel.Shftl]).
      { destruct o; try discriminate U; cbn; auto 10; exfalso; apply N; cbn; auto. }
      pose proof (proj1 (forallb_forall _ _) (proj1 (forallb_forall _ _) table2 o J) g Ig) as X. cbn beta in X. rewrite (differ2_no _ _ E) in X. discriminate.
  - intros [<-|[<-|[<-|[]]]]; unfold ir32; cbn [SmallPeModel.unary SmallPeModel.ir_call].
    + apply C76_binary; auto. exists (fun x y => (x + y) mod 4294967296). split; [exact (nth_error_In eight 0 eq_refl)|reflexivity].
    + apply C76_binary; auto. exists (fun x y => top - Z.lor x y). split; [exact (nth_error_In eight 1 eq_refl)|].
      intros a b Wa Wb. exact (not32 _ (lor32 a b Wa Wb)).
    + apply C76_unary; auto. exists (fun x => top - x). split; [exact (nth_error_In four 2 eq_refl)|]. intros a Wa. exact (not32 a Wa).
Qed.

(** ** Registers may be renamed *)
Definition renamed (m m' : rinst) : Prop :=
  match m, m' with
  | IB o x y z, IB o' x' y' z' => o = o' /\ (x = 0 <-> x' = 0) /\ (y = 0 <-> y' = 0) /\ (z = 0 <-> z' = 0)
  | IU o x z, IU o' x' z' => o = o' /\ (x = 0 <-> x' = 0) /\ (z = 0 <-> z' = 0)
  | _, _ => False
  end.
Lemma pick_iff x x' v : (x = 0 <-> x' = 0) -> pick x v = pick x' v.
Proof. intros E. unfold pick. destruct (Z.eqb_spec x 0), (Z.eqb_spec x' 0); tauto. Qed.
(** What a rule says holds for the instruction with other registers, register 0
    apart; in particular with operands in different ones. *)
Theorem C76_rename A m m' f : racc_ok A -> renamed m m' -> gives A m f -> gives A m' f /\ r_dst m' <> 0 /\ runs m' f.
Proof.
  intros HA R G. apply gives_val in G as (N & E); [|exact HA].
  assert (K : r_dst m' <> 0 /\ forall a b, word32 a -> word32 b -> val_of m' a b = f a b).
  { destruct m as [o x y z|o x z], m' as [o' x' y' z'|o' x' z']; cbn [renamed] in R; try tauto; cbn [r_dst val_of] in *.
    - destruct R as (<- & X & Y & Z). split; [tauto|]. intros a b Wa Wb. rewrite <- (pick_iff x x' a X), <- (pick_iff y y' b Y). auto.
    - destruct R as (<- & X & Z). split; [tauto|]. intros a b Wa Wb. rewrite <- (pick_iff x x' a X). auto. }
  split; [now apply gives_val|]. destruct K as (N' & E'). split; [exact N'|]. now apply val_runs.
Qed.

(** ** The full statement: operands can be loaded for the instruction of a rule *)
Definition C76_full : Prop := forall C A cs f ru m bnd obnd, rcode_ok C -> racc_ok A -> on_rfields C cs ->
  well_formed rpath_eqb mty_const (reg_arch C A cs) (rword2 f) ru -> valid_consts mty_vals (reg_arch C A cs) (rfv C) ru ->
  allowed_consts (reg_arch C A cs) ru -> correct_any mty_const mty_vals (reg_arch C A cs) (rword2 f) (rfs C A) ru ->
  rule_of mty_const mty_vals (reg_arch C A cs) (rword2 f) (rfv C) (fun fi => rdec C (is_b C fi)) ru m bnd obnd ->
  forall a b, word32 a -> word32 b -> exists rf, loaded rf m a b.

(** Instances: the encodings count from 0; a member read under another one gives
    its first bits. *)
Definition code0 : rcode :=
  mkRcode (fun o => match o with BAdd => 0 | BNor => 1 end) 1 (fun o => match o with UInv => 0 | UMov => 1 end) 1 0 1 true.
Definition racc0 : raccess :=
  mkRacc (fun i => match i with IB o x y z => (o, x, y, z) | IU o x z => (match o with UInv => BAdd | UMov => BNor end, x, z, 0) end)
         (fun i => match i with IU o x z => (o, x, z) | IB o x y z => (match o with BAdd => UInv | BNor => UMov end, x, y) end).
Lemma code0_ok : rcode_ok code0.
Proof. split; [discriminate|]. split; [intros []; cbn; lia|]. split; [discriminate|]. split; [intros []; cbn; lia|discriminate]. Qed.
Lemma racc0_ok : racc_ok racc0.
Proof. split; reflexivity. Qed.

(** The fields of both operands constrained to register 1. *)
Definition same_reg : list (rpath * list Z) := [(RB1, [1]); (RB2, [1])].
Lemma same_ok : on_rfields code0 same_reg.
Proof.
  split; [repeat constructor; cbn; intuition discriminate|]. intros p zs [I|[I|[]]]; injection I as <- <-;
    (split; [cbn; auto 8|]); (split; [discriminate|]); intros z [<-|[]]; cbn; lia.
Qed.
Theorem C76_full_refuted : ~ C76_full.
Proof.
  intros F. pose (f := fun x y => (x + y) mod 4294967296).
  assert (M : rmappable code0 racc0 same_reg (rword2 f)).
  { apply C76_rule; auto using code0_ok, racc0_ok, same_ok. exists (IB BAdd 1 1 3). split.
    - split; [repeat split; unfold fit; lia|]. intros p zs z [I|[I|[]]] E; injection I as <- <-; injection E as <-; now left.
    - left. apply gives_val; [exact racc0_ok|]. split; [discriminate|]. reflexivity. }
  destruct M as (ru & W & V & Al & Co).
  destruct (rule_machine rpath_eqb mty_eqb mty_const reg_eqs mty_vals _ _ _ _
    (reg_arch_ok code0 racc0 same_reg code0_ok (rf_nodup _ _ same_ok) (rf_incl _ _ same_ok)) (word2_ok _ _ _ _ f n01) _ _ _
    (reg_machine code0 racc0 same_reg code0_ok (rf_incl _ _ same_ok)) (nc2 f) ru W V Al Co) as (m & bnd & obnd & Vm & Pl & Cm & Ro).
  pose proof (F code0 racc0 same_reg f ru m bnd obnd code0_ok racc0_ok same_ok W V Al Co Ro 1 2 ltac:(unfold word32; lia) ltac:(unfold word32; lia)) as (rf & _ & L1 & L2).
  pose proof (does2_from mty_vals _ (rsem racc0) QIn0 QIn1 QOut MWord n01 f m bnd obnd Pl Cm) as D.
  apply (does2_iff code0 racc0 same_reg code0_ok) in D. destruct Vm as (_ & Vc).
  assert (E : m_b m = true).
  { destruct m as [o x y z|o x z]; [reflexivity|]. exfalso.
    assert (G : forall a b, word32 a -> word32 b -> val_of (IU o x z) a b = f a b).
    { destruct D as (_ & [(_ & _ & G)|(_ & _ & G)]); apply gives_val in G as (_ & G); auto using racc0_ok.
      intros a b Wa Wb. rewrite G by assumption. unfold flip, f. now rewrite Z.add_comm. }
    pose proof (G 0 0 word32_0 word32_0) as X. pose proof (G 0 1 word32_0 ltac:(unfold word32; lia)) as Y.
    cbn [val_of] in X, Y. rewrite Y in X. discriminate X. }
  destruct m as [o x y z|o x z]; [|discriminate E].
  destruct (Vc RB1 [1] x (or_introl eq_refl) eq_refl) as [<-|[]]. destruct (Vc RB2 [1] y (or_intror (or_introl eq_refl)) eq_refl) as [<-|[]].
  cbn [r_one r_two] in L1, L2. specialize (L1 ltac:(lia)). specialize (L2 1 eq_refl ltac:(lia)). congruence.
Qed.

(** ** A case: the rule for the sum, with the destination constrained to
    register 7, run on RegPE. *)
Example C76_case : on_rfields code0 [(RBd, [7]); (RUd, [7])] /\ rmappable code0 racc0 [(RBd, [7]); (RUd, [7])] (rword2 (bvadd 32)) /\
  reg_call [(0, 0); (4, 10); (5, 4294967295)] (IB BAdd 4 5 7) = Ok [(0, 0); (4, 10); (5, 4294967295); (7, 9)] /\
  reg_call [(0, 0); (4, 10)] (IU UInv 4 0) = Ok [(0, 0); (4, 10)] /\ reg_call [(0, 0)] (IU UMov 4 7) = Err KeyError.
Proof.
  assert (O : on_rfields code0 [(RBd, [7]); (RUd, [7])]).
  { split; [repeat constructor; cbn; intuition discriminate|]. intros p zs [I|[I|[]]]; injection I as <- <-;
      (split; [cbn; auto 8|]); (split; [discriminate|]); intros z [<-|[]]; cbn; lia. }
  split; [exact O|]. split; [|repeat split; reflexivity].
  apply C76_rule; auto using code0_ok, racc0_ok. exists (IB BAdd 4 5 7). split.
  - split; [repeat split; unfold fit; lia|]. intros p zs z [I|[I|[]]] E; injection I as <- <-; [|discriminate E]. injection E as <-. now left.
  - left. apply gives_val; [exact racc0_ok|]. split; [discriminate|]. reflexivity.
Qed.

Print Assumptions C76_rule.
Print Assumptions C76_rule1.
Print Assumptions C76_solve_partial.
Print Assumptions C76_solve1.
Print Assumptions C76_found.
Print Assumptions C76_binary_only.
Print Assumptions C76_binary.
Print Assumptions C76_runs.
Print Assumptions C76_unary.
Print Assumptions C76_small_ir.
Print Assumptions C76_rename.
Print Assumptions C76_full_refuted.
Print Assumptions C76_case.
