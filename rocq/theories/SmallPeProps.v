(** C70: which IR instructions the mapper finds for the PEs of the mapping
    tests. C71: the same with path constraints. *)
From Coq Require Import ZArith List Bool Lia Permutation.
From Verif Require Import Base BaseLemmas BvModel BvLemmas BindModel BindProps MapIdxModel MapIdxProps CegisModel CegisProps
  MapModel MapProofs MapMain MapProps MapIff MapIffProps SmallPeModel SmallPeProofs.
Import ListNotations.
Open Scope list_scope.
Open Scope Z_scope.

(** ** Specification *)

(** The only PE instruction for an IR instruction, on the inputs in order. *)
Definition pe_inst (o : irop) : option inst :=
  match o with
  | Add => Some (IAlu A 0) | Sub => Some (IAlu B 0)
  | And => Some (IBit A 0) | Nand => Some (IBit A 1)
  | Or => Some (IBit B 0) | Nor => Some (IBit B 1)
  | Mul | Shftr | Shftl | Not | Neg => None
  end.

Definition allowed (cs : list (path * list Z)) (p : path) (z : Z) : Prop := forall zs, In (p, zs) cs -> In z zs.
Definition inst_allowed (cs : list (path * list Z)) (i : inst) : Prop :=
  match i with
  | IAlu o m => allowed cs PAlu0 (op_val o) /\ allowed cs PAlu1 m
  | IBit o m => allowed cs PBit0 (op_val o) /\ allowed cs PBit1 m
  end.

(** Constraints of instruction fields, each with at least one value of its type. *)
Definition field_width (p : path) : Z := match p with PAlu1 => 256 | PAlu0 | PBit0 => 4 | _ => 2 end.
Definition on_fields (cs : list (path * list Z)) : Prop :=
  NoDup (map fst cs) /\
  forall p zs, In (p, zs) cs -> In p [PBit0; PBit1; PAlu0; PAlu1] /\ zs <> [] /\ forall z, In z zs -> 0 <= z < field_width p.

(** The rule sets the fields of the instruction and no other ones. *)
Definition rule_inst (first : bool) (ru : rule path) (i : inst) : Prop :=
  match i with
  | IAlu o m => is_alu first (r_form ru) = true /\ In (SVal (op_val o), PAlu0) (r_in ru) /\ In (SVal m, PAlu1) (r_in ru)
  | IBit o m => is_alu first (r_form ru) = false /\ In (SVal (op_val o), PBit0) (r_in ru) /\ In (SVal m, PBit1) (r_in ru)
  end.

(** The tags of the two members are values of the tag. *)
Definition tags_ok (ta tb : Z) (tagd : path -> list Z) : Prop :=
  ta <> tb /\ (forall p, tagd p <> []) /\ In ta (tagd PInst) /\ In tb (tagd PInst).

Definition built_for (simple : bool) k ta tb first cs (i : instr path lty) : res (built path) :=
  (if simple then build_simple else build_expanded) path_eqb lty_eqb lty_const k (small_arch ta tb first cs) i.

(** The result of [solve], with any of the strategies. *)
Definition result tagd simple k ta tb first cs i (o : outcome (var path)) : Prop :=
  let a := small_arch ta tb first cs in
  match built_for simple k ta tb first cs i with
  | Ok BNone => o = ONone
  | Ok (BForm y phi) => answers path_eqb (dom path_eqb lty_eqb lty_vals tagd k a i) y (mkform (vars_of a i) phi) o
  | Err _ => False
  end.

(** ** What the fields must be *)
Definition op_cases : list Z := [1; 2].
Lemma valid_cases o : valid_op o = true -> In o op_cases.
Proof. unfold valid_op. destruct (Z.eqb_spec o 1), (Z.eqb_spec o 2); cbn; auto; discriminate. Qed.

Definition points : list Z := [0; 1; 255].
(** [existsb], stopping at the first. *)
Fixpoint some {X} (f : X -> bool) (l : list X) : bool := match l with [] => false | x :: l => if f x then true else some f l end.
Lemma some_exists {X} (f : X -> bool) l : some f l = true -> exists x, In x l /\ f x = true.
Proof.
  induction l as [|x l IH]; cbn; [discriminate|]. destruct (f x) eqn:E; [eauto|]. intros H. destruct (IH H) as (y & I & Y). eauto.
Qed.
Lemma points_word z : In z points -> word z.
Proof. intros I. unfold word. cbn in I. intuition lia. Qed.

Definition ins : list path := [PIn0; PIn1; PIn2].
Definition modes (alu : bool) : list Z := pyrange 0 (if alu then 256 else 2).
Definition mk_inst (alu : bool) (o m : Z) : inst := if alu then IAlu (op_of o) m else IBit (op_of o) m.

Definition op_eqb (a b : op) : bool := match a, b with A, A | B, B => true | _, _ => false end.
Definition inst_eqb (a b : inst) : bool :=
  match a, b with IAlu o m, IAlu o' m' | IBit o m, IBit o' m' => op_eqb o o' && (m =? m') | _, _ => false end.
Lemma inst_eqb_eq a b : inst_eqb a b = true -> a = b.
Proof.
  destruct a as [o m|o m], b as [o' m'|o' m']; cbn; try discriminate; intros E; apply andb_prop in E as [E1 E2];
    apply Z.eqb_eq in E2; subst; destruct o, o'; try discriminate; reflexivity.
Qed.

(** Some point where the instruction is not the operation. *)
Definition differs2 (f : Z -> Z -> Z) (alu : bool) (o m : Z) (p0 p1 : path) : bool :=
  some (fun a => some (fun b => some (fun c => negb (f (sel a b c p0) (sel a b c p1) =? pe_word alu o m a b)) points) points) points.
Lemma differs2_no cs f alu o m p0 p1 :
  (forall p, In p ins -> ~ In p (map fst cs)) -> does2 cs f alu o m p0 p1 -> differs2 f alu o m p0 p1 = false.
Proof.
  intros N D. unfold differs2. apply not_true_is_false. intros E.
  apply some_exists in E as (a & Ia & E). apply some_exists in E as (b & Ib & E). apply some_exists in E as (c & Ic & E).
  rewrite D in E; [rewrite Z.eqb_refl in E; discriminate|apply points_word; assumption..| | |];
    intros zs I; exfalso; apply (in_map fst) in I; revert I; apply N; cbn; auto.
Qed.

Definition check2 (o : irop) : bool :=
  forallb (fun alu => forallb (fun oc => forallb (fun m => forallb (fun p0 => forallb (fun p1 =>
    path_eqb p0 p1 || differs2 (ir_call 8 o) alu oc m p0 p1 ||
    match pe_inst o with Some i => inst_eqb (mk_inst alu oc m) i | None => false end) ins) ins) (modes alu)) op_cases) [true; false].
Lemma check2_ok : forallb (fun o => unary o || check2 o) irops = true.
Proof. vm_compute. reflexivity. Qed.

Definition differs1 (f : Z -> Z) (alu : bool) (o m : Z) (p0 : path) : bool :=
  some (fun a => some (fun b => some (fun c => negb (f (sel a b c p0) =? pe_word alu o m a b)) points) points) points.
Lemma differs1_no cs f alu o m p0 :
  (forall p, In p ins -> ~ In p (map fst cs)) -> does1 cs f alu o m p0 -> differs1 f alu o m p0 = false.
Proof.
  intros N D. unfold differs1. apply not_true_is_false. intros E.
  apply some_exists in E as (a & Ia & E). apply some_exists in E as (b & Ib & E). apply some_exists in E as (c & Ic & E).
  rewrite D in E; [rewrite Z.eqb_refl in E; discriminate|apply points_word; assumption..| | |];
    intros zs I; exfalso; apply (in_map fst) in I; revert I; apply N; cbn; auto.
Qed.
Definition check1 (o : irop) : bool :=
  forallb (fun alu => forallb (fun oc => forallb (fun m => forallb (fun p0 =>
    differs1 (fun x => ir_call 8 o x 0) alu oc m p0) ins) (modes alu)) op_cases) [true; false].
Lemma check1_ok : forallb check1 [Not; Neg] = true.
Proof. vm_compute. reflexivity. Qed.

Lemma irops_all o : In o irops.
Proof. destruct o; cbn; auto 12. Qed.
Lemma bools_all (b : bool) : In b [true; false].
Proof. destruct b; cbn; auto. Qed.

Section Fields.
  Variables (ta tb : Z) (first : bool) (cs : list (path * list Z)).
  Hypotheses (Htags : ta <> tb) (Hf : on_fields cs).
  Notation arch0 := (small_arch ta tb first cs).

  Lemma fields_incl : incl (map fst cs) leaves.
  Proof.
    intros p I. apply in_map_iff in I as ((p' & zs) & <- & I). destruct Hf as [_ H]. destruct (H _ _ I) as (X & _).
    cbn in X |- *. intuition.
  Qed.
  Lemma fields_free p : In p ins -> ~ In p (map fst cs).
  Proof.
    intros J I. apply in_map_iff in I as ((p' & zs) & E & I). cbn [fst] in E. subst p'. destruct Hf as [_ H]. destruct (H _ _ I) as (X & _).
    cbn in X, J. intuition congruence.
  Qed.
  Lemma fields_constr : constr_ok lty_vals arch0.
  Proof.
    intros p zs I. destruct Hf as [_ H]. destruct (H _ _ I) as (X & N & W). split; [exact N|]. intros t z It Iz.
    specialize (W z Iz). cbn in X, It.
    destruct X as [<-|[<-|[<-|[<-|[]]]]]; cbn [field_width] in W;
      repeat (destruct It as [It|It]; [injection It; intros; subst; try discriminate; apply pyrange_In; lia|]); destruct It.
  Qed.
  Lemma fields_const ru : const_allowed path_eqb lty_const arch0 ru -> allowed_consts arch0 ru.
  Proof.
    intros H z p zs I J. apply (H p zs z J); auto. destruct Hf as [_ X]. destruct (X p zs J) as (Y & _).
    cbn in Y. destruct Y as [<-|[<-|[<-|[<-|[]]]]]; reflexivity.
  Qed.
  Lemma fields_all : in_all_forms path_eqb lty_const arch0.
  Proof.
    intros p fi f I. apply in_map_iff in I as ((p' & zs) & E & I). cbn [fst] in E. subst p'. destruct Hf as [_ H].
    destruct (H _ _ I) as (X & _). cbn in X. destruct X as [<-|[<-|[<-|[<-|[]]]]]; discriminate.
  Qed.

  Lemma small_instr_ok o : instr_ok (small_instr o).
  Proof. unfold small_instr. destruct (unary o); [apply instr1_ok|apply instr2_ok]. Qed.
  Lemma small_instr_out o : i_out (small_instr o) = [(QOut, TWord false)].
  Proof. unfold small_instr. destruct (unary o); reflexivity. Qed.
  Lemma small_instr_in o q t : In (q, t) (i_in (small_instr o)) -> t = TWord false.
  Proof. unfold small_instr. destruct (unary o); cbn; intros H; intuition congruence. Qed.

  Lemma op_val_of oc : valid_op oc = true -> op_val (op_of oc) = oc.
  Proof. intros V. apply valid_cases in V. cbn in V. destruct V as [<-|[<-|[]]]; reflexivity. Qed.

  (** A correct rule has the fields of the table. *)
  Lemma rule_is o ru : well_formed path_eqb lty_const arch0 (small_instr o) ru -> valid_consts lty_vals arch0 (fvv first) ru ->
    allowed_consts arch0 ru -> correct_any lty_const lty_vals arch0 (small_instr o) (fs first) ru ->
    exists i, pe_inst o = Some i /\ inst_allowed cs i /\ rule_inst first ru i.
  Proof.
    intros W V Al C.
    destruct (rule_inv ta tb first Htags cs (proj1 Hf) fields_incl (small_instr o) ru (small_instr_ok o) (small_instr_out o)
                (small_instr_in o) W V Al C) as (alu & oc & m & bnd & (R0 & R1 & Ra) & (Vo & Mo & F0 & F1) & Wb & Inj & E).
    assert (Im : In m (modes alu)) by (apply pyrange_In; destruct alu; lia).
    pose proof (valid_cases oc Vo) as Io. pose proof (irops_all o) as Iop.
    assert (X : pe_inst o = Some (mk_inst alu oc m)).
    { unfold small_instr in E, Wb, Inj. destruct (unary o) eqn:U.
      - exfalso. assert (K : In o [Not; Neg]) by (destruct o; cbn; auto; discriminate).
        pose proof check1_ok as H. rewrite forallb_forall in H. specialize (H o K). unfold check1 in H.
        rewrite forallb_forall in H. specialize (H alu (bools_all alu)). rewrite forallb_forall in H. specialize (H oc Io).
        rewrite forallb_forall in H. specialize (H m Im).
        destruct (Wb QIn0 (TWord false) (or_introl eq_refl)) as [Wp Np].
        rewrite forallb_forall in H. specialize (H (bnd QIn0) Wp). rewrite (differs1_no cs) in H; [discriminate|exact fields_free|].
        intros a b c Wa Wb' Wc Fa Fb Fc. destruct (E a b c Wa Wb' Wc Fa Fb Fc) as (d & Y). cbn [small_instr1 i_sem] in Y.
        rewrite (leaf_sel cs) in Y by (split; auto). exact Y.
      - pose proof check2_ok as H. rewrite forallb_forall in H. specialize (H o Iop). rewrite U in H. cbn [orb] in H. unfold check2 in H.
        rewrite forallb_forall in H. specialize (H alu (bools_all alu)). rewrite forallb_forall in H. specialize (H oc Io).
        rewrite forallb_forall in H. specialize (H m Im).
        destruct (Wb QIn0 (TWord false) (or_introl eq_refl)) as [Wp Np].
        destruct (Wb QIn1 (TWord false) (or_intror (or_introl eq_refl))) as [Wq Nq].
        rewrite forallb_forall in H. specialize (H (bnd QIn0) Wp). rewrite forallb_forall in H. specialize (H (bnd QIn1) Wq).
        rewrite (differs2_no cs) in H; [|exact fields_free|].
        + rewrite orb_false_r in H. apply orb_prop in H as [H|H].
          * apply path_eqb_eq in H. assert (QIn0 = QIn1) by (eapply Inj; [now left|right; now left|exact H]). discriminate.
          * destruct (pe_inst o) as [i|]; [|discriminate]. apply inst_eqb_eq in H. now subst i.
        + intros a b c Wa Wb' Wc Fa Fb Fc. destruct (E a b c Wa Wb' Wc Fa Fb Fc) as (d & Y). cbn [small_instr2 i_sem] in Y.
          rewrite !(leaf_sel cs) in Y by (split; auto). exact Y. }
    exists (mk_inst alu oc m). split; [exact X|]. unfold mk_inst. destruct alu; cbn [inst_allowed rule_inst]; rewrite (op_val_of oc Vo);
      (split; [split; [exact F0|exact F1]|split; [symmetry; exact Ra|split; [exact R0|exact R1]]]).
  Qed.

  Lemma pe_inst_does o i : pe_inst o = Some i -> unary o = false /\ exists alu oc m, i = mk_inst alu oc m /\ valid_op oc = true /\
    0 <= m < (if alu then 256 else 2) /\ does2 cs (ir_call 8 o) alu oc m PIn0 PIn1.
  Proof.
    assert (S : forall x, wrap 8 x = wrap 8 (wrap 8 x + 0)).
    { intros x. rewrite Z.add_0_r. unfold wrap. now rewrite Zmod_mod. }
    destruct o; cbn [pe_inst]; intros E; try discriminate; injection E as <-; (split; [reflexivity|]).
    - exists true, 1, 0. split; [reflexivity|]. split; [reflexivity|]. split; [lia|]. intros a b c Wa Wb Wc _ _ _.
      cbn [sel pe_word op_of ir_call alu8]. unfold alu8, bvadd. cbn. apply S.
    - exists true, 2, 0. split; [reflexivity|]. split; [reflexivity|]. split; [lia|]. intros a b c Wa Wb Wc _ _ _.
      cbn [sel pe_word op_of ir_call alu8]. unfold alu8, bvadd, bvsub. cbn. apply S.
    - exists false, 1, 0. split; [reflexivity|]. split; [reflexivity|]. split; [lia|]. intros a b c Wa Wb Wc _ _ _. reflexivity.
    - exists false, 1, 1. split; [reflexivity|]. split; [reflexivity|]. split; [lia|]. intros a b c Wa Wb Wc _ _ _. reflexivity.
    - exists false, 2, 0. split; [reflexivity|]. split; [reflexivity|]. split; [lia|]. intros a b c Wa Wb Wc _ _ _. reflexivity.
    - exists false, 2, 1. split; [reflexivity|]. split; [reflexivity|]. split; [lia|]. intros a b c Wa Wb Wc _ _ _. reflexivity.
  Qed.

  Lemma rules_iff o : implementable path_eqb lty_const lty_vals arch0 (small_instr o) (fs first) (fvv first) <->
    exists i, pe_inst o = Some i /\ inst_allowed cs i.
  Proof.
    split.
    - intros (ru & W & V & Al & C). destruct (rule_is o ru W V Al C) as (i & E & A & _). eauto.
    - intros (i & E & A). destruct (pe_inst_does o i E) as (U & alu & oc & m & -> & Vo & Mo & D).
      unfold small_instr. rewrite U.
      apply (rule2_iff ta tb first Htags cs (proj1 Hf) fields_incl fields_constr). exists alu, oc, m, PIn0, PIn1.
      split; [|split; [split; [cbn; auto|apply fields_free; cbn; auto]|split; [split; [cbn; auto|apply fields_free; cbn; auto]|split; [discriminate|exact D]]]].
      split; [exact Vo|]. split; [exact Mo|]. unfold mk_inst in A. destruct alu; cbn [inst_allowed] in A; rewrite (op_val_of oc Vo) in A; exact A.
  Qed.
End Fields.

(** ** From rules to the mapper *)
Section Solve.
  Variables (ta tb : Z) (first : bool) (cs : list (path * list Z)) (tagd : path -> list Z).
  Hypotheses (Htags : tags_ok ta tb tagd) (Ncs : NoDup (map fst cs)) (Ics : incl (map fst cs) leaves).
  Notation arch0 := (small_arch ta tb first cs).
  Hypothesis Hcs : constr_ok lty_vals arch0.
  Variable i : instr path lty.
  Hypotheses (Hi : instr_ok i) (Eo : i_out i = [(QOut, TWord false)]) (Et : forall q t, In (q, t) (i_in i) -> t = TWord false).

  Lemma small_all : in_all_forms path_eqb lty_const arch0.
  Proof.
    intros p fi f I N E. apply form_nth in E. subst f. apply Ics in I. cbn in I.
    destruct I as [<-|[<-|[<-|[<-|[<-|[<-|[<-|[<-|[]]]]]]]]]; try discriminate; destruct (is_alu first fi); cbn; auto 10.
  Qed.
  Lemma small_inhabited : inhabited_types lty_vals tagd arch0 i.
  Proof.
    destruct Htags as (_ & N & Ia & Ib). split; [|split; [exact N|]].
    - intros p t I. rewrite (Et p t I). discriminate.
    - intros fi f p z E I. apply form_nth in E. subst f. destruct (is_alu first fi); destruct I as [I|[]]; injection I as <- <-; assumption.
  Qed.

  Lemma built_wf simple k y phi : built_for simple k ta tb first cs i = Ok (BForm y phi) -> wf (mkform (vars_of arch0 i) phi).
  Proof.
    pose proof (small_ok ta tb first (proj1 Htags) cs Ncs Ics) as Ao. pose proof (small_ext ta tb first cs) as Ae.
    unfold built_for. destruct simple; intros E.
    - exact (simple_wf path_eqb lty_eqb lty_const path_eqb_eq lty_eqb_eq k arch0 i _ _ Ao Hi Ae y phi E).
    - exact (expanded_wf path_eqb lty_eqb lty_const path_eqb_eq lty_eqb_eq k arch0 i _ _ Ao Hi Ae y phi E).
  Qed.

  Lemma built_ok simple k : built_for simple k ta tb first cs i = build_expanded path_eqb lty_eqb lty_const k arch0 i \/
    built_for simple k ta tb first cs i = build_simple path_eqb lty_eqb lty_const k arch0 i /\
      i_out i <> [] /\ (forall p t, In (p, t) (i_in i) -> lty_const t = false) /\ in_all_forms path_eqb lty_const arch0.
  Proof.
    unfold built_for. destruct simple; [right|now left]. split; [reflexivity|]. split; [rewrite Eo; discriminate|]. split; [|exact small_all].
    intros p t I. now rewrite (Et p t I).
  Qed.

  Lemma result_ok simple k o : result tagd simple k ta tb first cs i o ->
    match o with
    | ODone r => implementable path_eqb lty_const lty_vals arch0 i (fs first) (fvv first) /\
        exists ru, rr_from_solver path_eqb lty_eqb lty_const k arch0 i r = Ok ru /\ well_formed path_eqb lty_const arch0 i ru /\
          valid_consts lty_vals arch0 (fvv first) ru /\ const_allowed path_eqb lty_const arch0 ru /\
          correct_any lty_const lty_vals arch0 i (fs first) ru
    | ONone => ~ implementable path_eqb lty_const lty_vals arch0 i (fs first) (fvv first)
    | _ => True
    end.
  Proof.
    pose proof (C69_solve_partial _ _ path_eqb lty_eqb lty_const small_eqs lty_vals tagd k arch0 i (fs first) (fvv first)
                  (small_ok ta tb first (proj1 Htags) cs Ncs Ics) (small_ext ta tb first cs) Hi small_inhabited Hcs eq_refl
                  _ (built_ok simple k)) as H.
    unfold result. destruct (built_for simple k ta tb first cs i) as [[|y phi]|e] eqn:E; [intros ->; exact H| |intros []].
    intros A. exact (H _ (built_wf simple k y phi E) o A).
  Qed.

  (** If there is a rule, the formula is built and has a solution. *)
  Lemma found simple k : implementable path_eqb lty_const lty_vals arch0 i (fs first) (fvv first) ->
    satisfiable path_eqb lty_eqb lty_vals tagd k arch0 i (built_for simple k ta tb first cs i).
  Proof.
    pose proof (small_ok ta tb first (proj1 Htags) cs Ncs Ics) as Ao. pose proof (small_ext ta tb first cs) as Ae.
    intros M. destruct (built_ok simple k) as [->|(-> & X1 & X2 & X3)].
    - now apply (C69_expanded_partial _ _ path_eqb lty_eqb lty_const small_eqs lty_vals tagd k arch0 i _ _ Ao Ae Hi small_inhabited Hcs eq_refl).
    - now apply (C69_simple_partial _ _ path_eqb lty_eqb lty_const small_eqs lty_vals tagd k arch0 i _ _ Ao Ae Hi small_inhabited Hcs eq_refl X1 X2 X3).
  Qed.
End Solve.

(** * C70 *)

(** There is a rule exactly for Add, Sub, And, Nand, Or and Nor, if the fields of
    their PE instruction are allowed. *)
Theorem C70_table : forall ta tb first cs o, ta <> tb -> on_fields cs ->
  implementable path_eqb lty_const lty_vals (small_arch ta tb first cs) (small_instr o) (fs first) (fvv first) <->
  exists i, pe_inst o = Some i /\ inst_allowed cs i.
Proof. intros ta tb first cs o T F. exact (rules_iff ta tb first cs T F o). Qed.

Lemma opts_None {X} (o : option X) (P : X -> Prop) : ~ (exists i, o = Some i /\ P i) -> forall i, o = Some i -> ~ P i.
Proof. intros H i E Pi. apply H. eauto. Qed.

(** The mapper finds exactly these, with either formula, either encoding of the
    indices and any solving strategy; the rule found has the fields of the table
    and computes the instruction for all inputs. *)
Theorem C70_solve : forall ta tb first cs tagd o simple k out, tags_ok ta tb tagd -> on_fields cs ->
  result tagd simple k ta tb first cs (small_instr o) out ->
  match out with
  | ODone r => exists ru i, rr_from_solver path_eqb lty_eqb lty_const k (small_arch ta tb first cs) (small_instr o) r = Ok ru /\
      pe_inst o = Some i /\ inst_allowed cs i /\ rule_inst first ru i /\
      well_formed path_eqb lty_const (small_arch ta tb first cs) (small_instr o) ru /\
      correct_any lty_const lty_vals (small_arch ta tb first cs) (small_instr o) (fs first) ru
  | ONone => forall i, pe_inst o = Some i -> ~ inst_allowed cs i
  | _ => True
  end.
Proof.
  intros ta tb first cs tagd o simple k out T F R. pose proof (proj1 T) as T'.
  pose proof (result_ok ta tb first cs tagd T (proj1 F) (fields_incl cs F) (fields_constr ta tb first cs F) (small_instr o)
                (small_instr_ok o) (small_instr_out o) (small_instr_in o) simple k out R) as H.
  destruct out as [r| | |]; auto.
  - destruct H as (_ & ru & E & W & V & A & C).
    destruct (rule_is ta tb first cs T' F o ru W V (fields_const ta tb first cs F ru A) C) as (i & Ei & Ia & Ri).
    exists ru, i. auto 8.
  - rewrite (rules_iff ta tb first cs T' F o) in H. now apply opts_None.
Qed.

(** A solver that decides the formula finds the rule. *)
Theorem C70_found : forall ta tb first cs tagd o simple k, tags_ok ta tb tagd -> on_fields cs ->
  (exists i, pe_inst o = Some i /\ inst_allowed cs i) ->
  exists y phi, built_for simple k ta tb first cs (small_instr o) = Ok (BForm y phi) /\
    forall fo, let d := dom path_eqb lty_eqb lty_vals tagd k (small_arch ta tb first cs) (small_instr o) in forall_ok d fo ->
    exists r, direct_solve fo y (mkform (vars_of (small_arch ta tb first cs) (small_instr o)) phi) = ODone r.
Proof.
  intros ta tb first cs tagd o simple k T F M. pose proof (proj1 T) as T'. apply (rules_iff ta tb first cs T' F o) in M.
  pose proof (found ta tb first cs tagd T (proj1 F) (fields_incl cs F) (fields_constr ta tb first cs F) (small_instr o)
                (small_instr_ok o) (small_instr_out o) (small_instr_in o) simple k M) as (y & phi & r & E & S & Sol).
  exists y, phi. split; [exact E|]. intros fo d Hf. unfold direct_solve. destruct (fo y _) as [r'|] eqn:Fo; [eauto|]. exfalso.
  pose proof (result_ok ta tb first cs tagd T (proj1 F) (fields_incl cs F) (fields_constr ta tb first cs F) (small_instr o)
                (small_instr_ok o) (small_instr_out o) (small_instr_in o) simple k ONone) as H.
  unfold result in H. rewrite E in H. apply H; [|exact M]. eapply by_direct; [exact Hf|]. unfold direct_solve. now rewrite Fo.
Qed.

(** The instruction of the table computes the IR instruction on both PEs; the
    other inputs do not matter. *)
Theorem C70_inst : forall o i, pe_inst o = Some i ->
  forall x y z b, 0 <= x < 256 -> 0 <= y < 256 ->
    tagged_call i x y z b = (ir_call 8 o x y, b) /\ sum_call negb i x y z b = Ok (ir_call 8 o x y, b).
Proof.
  assert (S : forall x, wrap 8 (wrap 8 x + 0) = wrap 8 x).
  { intros x. rewrite Z.add_0_r. unfold wrap. now rewrite Zmod_mod. }
  intros o i E x y z b _ _. destruct o; cbn [pe_inst] in E; try discriminate; injection E as <-; cbn [tagged_call sum_call negb ir_call];
    unfold alu8, bit8, bvadd, bvsub; cbn [Z.eqb]; rewrite ?S; auto.
Qed.

(** The sum PE is the tagged PE if and only if [~] negates the result of
    [match] (as it does for Bit; [~] of a Python bool is always true). *)
Theorem C70_sum : forall inv : bool -> bool,
  (forall i x y z b, sum_call inv i x y z b = Ok (tagged_call i x y z b)) <-> (forall m, inv m = negb m).
Proof.
  intros inv. split.
  - intros H m. destruct m.
    + specialize (H (IAlu A 0) 0 0 0 0). unfold sum_call in H. destruct (inv true); [discriminate|reflexivity].
    + specialize (H (IBit A 0) 0 0 0 0). unfold sum_call in H. destruct (inv false); [reflexivity|discriminate].
  - intros H i x y z b. unfold sum_call, tagged_call. rewrite H. destruct i; reflexivity.
Qed.
Example C70_sum_case : sum_call negb (IAlu B 7) 5 3 0 1 = Ok (9, 1) /\ sum_call (fun _ => true) (IAlu B 7) 5 3 0 1 = Err TypeError.
Proof. split; reflexivity. Qed.

(** The rules of test_automapper: no constraints; and with offset 4 or 5. *)
Definition tags2 (p : path) : list Z := [0; 1].
Lemma tags2_ok : tags_ok 0 1 tags2.
Proof. split; [discriminate|]. split; [discriminate|]. cbn. auto. Qed.
Lemma on_none : on_fields [].
Proof. split; [constructor|]. intros p zs []. Qed.
Lemma on_offset : on_fields [(PAlu1, [4; 5])].
Proof.
  split; [repeat constructor; cbn; intuition|]. intros p zs [I|[]]. injection I as <- <-. split; [cbn; auto|]. split; [discriminate|].
  intros z Iz. cbn in Iz |- *. lia.
Qed.
Definition rule_for (cs : list (path * list Z)) (o : irop) : Prop :=
  satisfiable path_eqb lty_eqb lty_vals tags2 OneHot (small_arch 0 1 false cs) (small_instr o) (built_for true OneHot 0 1 false cs (small_instr o)).
Lemma rule_for_iff cs o : on_fields cs -> rule_for cs o <-> exists i, pe_inst o = Some i /\ inst_allowed cs i.
Proof.
  intros F. rewrite <- (C70_table 0 1 false cs o ltac:(discriminate) F). split.
  - apply (C69_simple_partial _ _ path_eqb lty_eqb lty_const small_eqs lty_vals tags2 OneHot (small_arch 0 1 false cs) (small_instr o)).
    + apply small_ok; [discriminate|exact (proj1 F)|exact (fields_incl cs F)].
    + apply small_ext.
    + apply small_instr_ok.
    + apply (small_inhabited 0 1 false cs tags2 tags2_ok). apply small_instr_in.
    + now apply fields_constr.
    + reflexivity.
    + rewrite small_instr_out. discriminate.
    + intros p t I. now rewrite (small_instr_in o p t I).
    + now apply fields_all.
  - apply (found 0 1 false cs tags2 tags2_ok (proj1 F) (fields_incl cs F) (fields_constr 0 1 false cs F) (small_instr o)
             (small_instr_ok o) (small_instr_out o) (small_instr_in o) true OneHot).
Qed.
Example C70_case : on_fields [] /\ on_fields [(PAlu1, [4; 5])] /\ tags_ok 0 1 tags2 /\
  rule_for [] Nor /\ rule_for [] Add /\ ~ rule_for [] Mul /\ ~ rule_for [] Not /\
  rule_for [(PAlu1, [4; 5])] Nor /\ ~ rule_for [(PAlu1, [4; 5])] Add /\
  tagged_call (IBit B 1) 12 10 0 1 = (ir_call 8 Nor 12 10, 1) /\ ir_call 8 Nor 12 10 = 241.
Proof.
  split; [exact on_none|]. split; [exact on_offset|]. split; [exact tags2_ok|].
  rewrite !(rule_for_iff _ _ on_none), !(rule_for_iff _ _ on_offset).
  split; [exists (IBit B 1); split; [reflexivity|split; intros zs []]|].
  split; [exists (IAlu A 0); split; [reflexivity|split; intros zs []]|].
  split; [intros (i & E & _); discriminate|]. split; [intros (i & E & _); discriminate|].
  split; [exists (IBit B 1); split; [reflexivity|split; intros zs [I|[]]; discriminate]|].
  split; [|split; reflexivity].
  intros (i & E & A). injection E as <-. destruct A as [_ A]. specialize (A [4; 5] (or_introl eq_refl)). cbn in A. lia.
Qed.

(** * C71 *)

(** In sums with an offset, an offset and an operation are needed. *)
Definition sum_off (o : op) (c x y : Z) : Z := match o with A => (x + y + c) mod 256 | B => (x - y + c) mod 256 end.

Definition check_off (o : op) (c : Z) : bool :=
  forallb (fun alu => forallb (fun oc => forallb (fun m => forallb (fun p0 => forallb (fun p1 =>
    path_eqb p0 p1 || differs2 (sum_off o c) alu oc m p0 p1 || inst_eqb (mk_inst alu oc m) (IAlu o c)) ins) ins)
    (if alu then [c] else modes false)) op_cases) [true; false].
Lemma check_off_ok : forallb (fun o => forallb (check_off o) (pyrange 0 256)) [A; B] = true.
Proof. vm_compute. reflexivity. Qed.

Lemma sum_off_does cs (o : op) c : 0 <= c < 256 -> does2 cs (sum_off o c) true (op_val o) c PIn0 PIn1.
Proof.
  intros Hc a b c' _ _ _ _ _ _. cbn [sel]. unfold pe_word, alu8. destruct o; cbn [op_of op_val sum_off Z.eqb Pos.eqb];
    unfold bvadd, bvsub, wrap; change (2 ^ 8) with 256; now rewrite Zplus_mod_idemp_l.
Qed.

(** Sums and differences with an offset, as in test_const_constraint: the field
    values must be allowed, and nothing else will do. *)
Theorem C71_offset : forall ta tb first cs o c, ta <> tb -> on_fields cs -> 0 <= c < 256 ->
  implementable path_eqb lty_const lty_vals (small_arch ta tb first cs) (small_instr2 (sum_off o c)) (fs first) (fvv first) <->
  allowed cs PAlu0 (op_val o) /\ allowed cs PAlu1 c.
Proof.
  intros ta tb first cs o c T F Hc.
  rewrite (rule2_iff ta tb first T cs (proj1 F) (fields_incl cs F) (fields_constr ta tb first cs F)). split.
  - intros (alu & oc & m & p0 & p1 & (Vo & Mo & F0 & F1) & [W0 _] & [W1 _] & N & D).
    pose proof (differs2_no cs _ alu oc m p0 p1 (fields_free cs F) D) as Nd.
    assert (Im : In m (if alu then [c] else modes false)).
    { destruct alu; [|apply pyrange_In; lia]. left.
      specialize (D 0 0 0). unfold word in D. assert (X : sum_off o c 0 0 = pe_word true oc m 0 0).
      { rewrite <- D; try lia; [|intros zs I; exfalso; apply (in_map fst) in I; revert I; apply (fields_free cs F); cbn; auto..].
        cbn in W0, W1. destruct W0 as [<-|[<-|[<-|[]]]], W1 as [<-|[<-|[<-|[]]]]; reflexivity. }
      revert X. unfold sum_off, pe_word, alu8, bvadd, bvsub, wrap. change (2 ^ 8) with 256.
      destruct o, (op_of oc); rewrite ?Z.add_0_l, ?Z.sub_0_r, ?Zmod_0_l, ?Z.add_0_l, !Z.mod_small; auto. }
    pose proof check_off_ok as H. rewrite forallb_forall in H. specialize (H o). rewrite forallb_forall in H.
    specialize (H ltac:(destruct o; cbn; auto) c ltac:(apply pyrange_In; lia)). unfold check_off in H.
    rewrite forallb_forall in H. specialize (H alu (bools_all alu)). rewrite forallb_forall in H. specialize (H oc (valid_cases oc Vo)).
    rewrite forallb_forall in H. specialize (H m Im). rewrite forallb_forall in H. specialize (H p0 W0).
    rewrite forallb_forall in H. specialize (H p1 W1). rewrite Nd, orb_false_r in H. apply orb_prop in H as [H|H].
    { apply path_eqb_eq in H. contradiction. }
    apply inst_eqb_eq in H. unfold mk_inst in H. destruct alu; [|discriminate]. injection H as Eo Ec. subst m.
    rewrite <- Eo, (op_val_of oc Vo). split; [exact F0|exact F1].
  - intros [A0 A1]. exists true, (op_val o), c, PIn0, PIn1. split.
    + split; [destruct o; reflexivity|]. split; [lia|]. split; [exact A0|exact A1].
    + split; [split; [cbn; auto|apply (fields_free cs F); cbn; auto]|]. split; [split; [cbn; auto|apply (fields_free cs F); cbn; auto]|].
      split; [discriminate|]. now apply sum_off_does.
Qed.

(** ** A constrained input that is not Const *)
Inductive unop := Id | Inv | Minus.
Definition unop_call (u : unop) (x : Z) : Z := match u with Id => x | Inv => 255 - x | Minus => (- x) mod 256 end.

(** The PE instructions that compute it on [in1] with this value of [in0]. *)
Definition un_insts (u : unop) (s : Z) : list inst :=
  match u with
  | Id => IAlu A ((- s) mod 256) :: (if s =? 255 then [IBit A 0] else []) ++ (if s =? 0 then [IBit B 0] else [])
  | Inv => IAlu B ((255 - s) mod 256) :: (if s =? 255 then [IBit A 1] else []) ++ (if s =? 0 then [IBit B 1] else [])
  | Minus => [IAlu B ((- s) mod 256)]
  end.

Definition differs_un (u : unop) (alu : bool) (o m s : Z) (p0 : path) : bool :=
  some (fun b => some (fun c => negb (unop_call u (sel s b c p0) =? pe_word alu o m s b)) points) points.
Definition check_un (u : unop) : bool :=
  forallb (fun s => forallb (fun alu => forallb (fun oc => forallb (fun m => forallb (fun p0 =>
    if differs_un u alu oc m s p0 then true else some (inst_eqb (mk_inst alu oc m)) (un_insts u s)) [PIn1; PIn2]) (modes alu)) op_cases) [true; false]) (pyrange 0 256).
Lemma check_un_ok : forallb check_un [Id; Inv; Minus] = true.
Proof. vm_compute. reflexivity. Qed.

Lemma land_255 b : 0 <= b < 256 -> Z.land 255 b = b.
Proof. intros H. rewrite Z.land_comm. change 255 with (Z.ones 8). rewrite Z.land_ones by lia. apply Z.mod_small. exact H. Qed.

(** They do compute it. *)
Lemma un_insts_ok u s i : 0 <= s < 256 -> In i (un_insts u s) ->
  exists alu o m, i = mk_inst alu o m /\ valid_op o = true /\ 0 <= m < (if alu then 256 else 2) /\
    forall b, 0 <= b < 256 -> unop_call u b = pe_word alu o m s b.
Proof.
  intros Hs I.
  assert (Ms : forall x, 0 <= x mod 256 < 256) by (intros x; apply Z.mod_pos_bound; lia).
  assert (Alu : forall o m, (i = IAlu (op_of o) m /\ valid_op o = true /\ 0 <= m < 256 /\
             (forall b, 0 <= b < 256 -> unop_call u b = pe_word true o m s b)) ->
           exists alu o m, i = mk_inst alu o m /\ valid_op o = true /\ 0 <= m < (if alu then 256 else 2) /\
             forall b, 0 <= b < 256 -> unop_call u b = pe_word alu o m s b) by (intros o m H; exists true, o, m; exact H).
  assert (Bit : forall o m, (i = IBit (op_of o) m /\ valid_op o = true /\ 0 <= m < 2 /\
             (forall b, 0 <= b < 256 -> unop_call u b = pe_word false o m s b)) ->
           exists alu o m, i = mk_inst alu o m /\ valid_op o = true /\ 0 <= m < (if alu then 256 else 2) /\
             forall b, 0 <= b < 256 -> unop_call u b = pe_word alu o m s b) by (intros o m H; exists false, o, m; exact H).
  destruct u; cbn [un_insts In] in I; rewrite ?in_app_iff in I.
  - destruct I as [<-|[I|I]].
    + apply (Alu 1 ((- s) mod 256)). split; [reflexivity|]. split; [reflexivity|]. split; [apply Ms|]. intros b Hb.
      cbn [unop_call pe_word]. unfold alu8, bvadd, wrap. change (2 ^ 8) with 256. cbn [op_of Z.eqb Pos.eqb].
      rewrite <- Zplus_mod. replace (s + b + - s) with b by lia. symmetry. now apply Z.mod_small.
    + destruct (Z.eqb_spec s 255) as [->|]; [|destruct I]. destruct I as [<-|[]].
      apply (Bit 1 0). split; [reflexivity|]. split; [reflexivity|]. split; [lia|]. intros b Hb. symmetry. exact (land_255 b Hb).
    + destruct (Z.eqb_spec s 0) as [->|]; [|destruct I]. destruct I as [<-|[]].
      apply (Bit 2 0). split; [reflexivity|]. split; [reflexivity|]. split; [lia|]. intros b Hb. reflexivity.
  - destruct I as [<-|[I|I]].
    + apply (Alu 2 ((255 - s) mod 256)). split; [reflexivity|]. split; [reflexivity|]. split; [apply Ms|]. intros b Hb.
      cbn [unop_call pe_word]. unfold alu8, bvadd, bvsub, wrap. change (2 ^ 8) with 256. cbn [op_of Z.eqb Pos.eqb].
      rewrite <- Zplus_mod. replace (s - b + (255 - s)) with (255 - b) by lia. symmetry. apply Z.mod_small. lia.
    + destruct (Z.eqb_spec s 255) as [->|]; [|destruct I]. destruct I as [<-|[]].
      apply (Bit 1 1). split; [reflexivity|]. split; [reflexivity|]. split; [lia|]. intros b Hb. cbn [unop_call pe_word].
      unfold bit8. cbn [op_of Z.eqb Pos.eqb]. rewrite (land_255 b Hb), bvnot_eq by lia. reflexivity.
    + destruct (Z.eqb_spec s 0) as [->|]; [|destruct I]. destruct I as [<-|[]].
      apply (Bit 2 1). split; [reflexivity|]. split; [reflexivity|]. split; [lia|]. intros b Hb. cbn [unop_call pe_word].
      unfold bit8. cbn [op_of Z.eqb Pos.eqb]. rewrite Z.lor_0_l, bvnot_eq by lia. reflexivity.
  - destruct I as [<-|[]].
    apply (Alu 2 ((- s) mod 256)). split; [reflexivity|]. split; [reflexivity|]. split; [apply Ms|]. intros b Hb.
    cbn [unop_call pe_word]. unfold alu8, bvadd, bvsub, wrap. change (2 ^ 8) with 256. cbn [op_of Z.eqb Pos.eqb].
    rewrite <- Zplus_mod. f_equal. lia.
Qed.

Section In0.
  Variables (cs : list (path * list Z)) (S : list Z).
  Hypotheses (Hf : on_fields cs) (HS : S <> []) (WS : forall s, In s S -> 0 <= s < 256).
  Notation cs0 := ((PIn0, S) :: cs).
  Lemma in0_nodup : NoDup (map fst cs0).
  Proof. cbn [map fst]. constructor; [apply (fields_free cs Hf); cbn; auto|exact (proj1 Hf)]. Qed.
  Lemma in0_incl : incl (map fst cs0) leaves.
  Proof. cbn [map fst]. intros p [<-|I]; [cbn; auto 8|now apply (fields_incl cs Hf)]. Qed.
  Lemma in0_constr ta tb first : constr_ok lty_vals (small_arch ta tb first cs0).
  Proof.
    intros p zs [I|I].
    - injection I as <- <-. split; [exact HS|]. intros t z It Iz. specialize (WS z Iz). cbn in It.
      repeat (destruct It as [It|It]; [injection It; intros; subst; try discriminate; apply pyrange_In; lia|]). destruct It.
    - exact (fields_constr ta tb first cs Hf p zs I).
  Qed.
  Lemma in0_fits s : In s S -> fits_cs cs0 PIn0 s.
  Proof.
    intros I zs [J|J]; [injection J as <-; exact I|]. exfalso. apply (in_map fst) in J. revert J. apply (fields_free cs Hf). cbn. auto.
  Qed.
  Lemma in0_free p z : In p [PIn1; PIn2] -> fits_cs cs0 p z.
  Proof.
    intros I zs [J|J].
    - injection J as <- _. cbn in I. intuition discriminate.
    - exfalso. apply (in_map fst) in J. revert J. apply (fields_free cs Hf). cbn in I |- *. intuition.
  Qed.
  Lemma in0_allowed p z : p <> PIn0 -> fits_cs cs0 p z <-> allowed cs p z.
  Proof.
    intros N. split; intros H zs I; apply H; [now right|]. destruct I as [I|I]; [injection I; congruence|exact I].
  Qed.

  Lemma in0_iff ta tb first u : ta <> tb ->
    implementable path_eqb lty_const lty_vals (small_arch ta tb first cs0) (small_instr1 (unop_call u)) (fs first) (fvv first) <->
    exists i, inst_allowed cs i /\ forall s, In s S -> In i (un_insts u s).
  Proof.
    intros T. rewrite (rule1_iff ta tb first T cs0 in0_nodup in0_incl (in0_constr ta tb first)). split.
    - intros (alu & oc & m & p0 & (Vo & Mo & F0 & F1) & [W0 N0] & D). exists (mk_inst alu oc m). split.
      + unfold mk_inst. destruct alu; cbn [inst_allowed]; rewrite (op_val_of oc Vo); split;
          (apply in0_allowed; [discriminate|]); assumption.
      + intros s Is.
        assert (Wp : In p0 [PIn1; PIn2]).
        { cbn in W0, N0 |- *. destruct W0 as [<-|[<-|[<-|[]]]]; auto. }
        assert (Nd : differs_un u alu oc m s p0 = false).
        { unfold differs_un. apply not_true_is_false. intros E.
          apply some_exists in E as (b & Ib & E). apply some_exists in E as (c & Ic & E).
          rewrite D in E; [rewrite Z.eqb_refl in E; discriminate|exact (WS s Is)|now apply points_word|now apply points_word|
                           now apply in0_fits|apply in0_free; cbn; auto|apply in0_free; cbn; auto]. }
        pose proof check_un_ok as H. rewrite forallb_forall in H. specialize (H u ltac:(destruct u; cbn; auto)). unfold check_un in H.
        rewrite forallb_forall in H. specialize (H s ltac:(apply pyrange_In; exact (WS s Is))).
        rewrite forallb_forall in H. specialize (H alu (bools_all alu)). rewrite forallb_forall in H. specialize (H oc (valid_cases oc Vo)).
        rewrite forallb_forall in H. specialize (H m ltac:(apply pyrange_In; destruct alu; lia)).
        rewrite forallb_forall in H. specialize (H p0 Wp). rewrite Nd in H. apply some_exists in H as (i & Ii & E).
        apply inst_eqb_eq in E. now subst i.
    - intros (i & A & H). assert (X : exists s0, In s0 S) by (revert HS; clear; destruct S as [|s0 S']; [congruence|]; intros _; exists s0; now left).
      destruct X as (s0 & I0).
      destruct (un_insts_ok u s0 i (WS s0 I0) (H s0 I0)) as (alu & o & m & -> & Vo & Mo & _).
      exists alu, o, m, PIn1. split; [|split].
      + split; [exact Vo|]. split; [exact Mo|]. unfold mk_inst in A. destruct alu; cbn [inst_allowed] in A; rewrite (op_val_of o Vo) in A;
          destruct A; split; (apply in0_allowed; [discriminate|]); assumption.
      + split; [cbn; auto|]. cbn [map fst]. intros [X|X]; [discriminate|]. revert X. apply (fields_free cs Hf). cbn. auto.
      + intros a b c Wa Wb Wc Fa Fb Fc. cbn [sel].
        assert (Ia : In a S) by (apply Fa; now left).
        destruct (un_insts_ok u a _ Wa (H a Ia)) as (alu' & o' & m' & E & Vo' & _ & X). rewrite (X b Wb).
        unfold mk_inst in E. destruct alu, alu'; try discriminate; injection E as E1 E2; unfold pe_word; now rewrite E1, E2.
  Qed.
End In0.

(** Rules for unary instructions with [in0] restricted to [S], as in
    test_non_const_constraint: one PE instruction must do for all of [S]. *)
Theorem C71_in0 : forall ta tb first cs S u, ta <> tb -> on_fields cs -> S <> [] -> (forall s, In s S -> 0 <= s < 256) ->
  implementable path_eqb lty_const lty_vals (small_arch ta tb first ((PIn0, S) :: cs)) (small_instr1 (unop_call u)) (fs first) (fvv first) <->
  exists i, inst_allowed cs i /\ forall s, In s S -> In i (un_insts u s).
Proof. intros ta tb first cs S u T F N W. now apply in0_iff. Qed.

(** What the mapper answers for both. *)
Theorem C71_solve_offset : forall ta tb first cs tagd o c simple k out, tags_ok ta tb tagd -> on_fields cs -> 0 <= c < 256 ->
  result tagd simple k ta tb first cs (small_instr2 (sum_off o c)) out ->
  match out with
  | ODone r => allowed cs PAlu0 (op_val o) /\ allowed cs PAlu1 c /\
      exists ru, rr_from_solver path_eqb lty_eqb lty_const k (small_arch ta tb first cs) (small_instr2 (sum_off o c)) r = Ok ru /\
        well_formed path_eqb lty_const (small_arch ta tb first cs) (small_instr2 (sum_off o c)) ru /\
        correct_any lty_const lty_vals (small_arch ta tb first cs) (small_instr2 (sum_off o c)) (fs first) ru
  | ONone => ~ (allowed cs PAlu0 (op_val o) /\ allowed cs PAlu1 c)
  | _ => True
  end.
Proof.
  intros ta tb first cs tagd o c simple k out T F Hc R. pose proof (proj1 T) as T'.
  pose proof (result_ok ta tb first cs tagd T (proj1 F) (fields_incl cs F) (fields_constr ta tb first cs F) (small_instr2 (sum_off o c))
                (instr2_ok _) eq_refl ltac:(cbn; intuition congruence) simple k out R) as H.
  destruct out as [r| | |]; auto.
  - destruct H as (M & ru & E & W & V & A & C). apply (C71_offset ta tb first cs o c T' F Hc) in M as [M0 M1].
    split; [exact M0|]. split; [exact M1|]. exists ru. auto.
  - now rewrite (C71_offset ta tb first cs o c T' F Hc) in H.
Qed.

Theorem C71_solve_in0 : forall ta tb first cs S tagd u simple k out, tags_ok ta tb tagd -> on_fields cs ->
  S <> [] -> (forall s, In s S -> 0 <= s < 256) ->
  result tagd simple k ta tb first ((PIn0, S) :: cs) (small_instr1 (unop_call u)) out ->
  match out with
  | ODone r => (exists i, inst_allowed cs i /\ forall s, In s S -> In i (un_insts u s)) /\
      exists ru, rr_from_solver path_eqb lty_eqb lty_const k (small_arch ta tb first ((PIn0, S) :: cs)) (small_instr1 (unop_call u)) r = Ok ru /\
        well_formed path_eqb lty_const (small_arch ta tb first ((PIn0, S) :: cs)) (small_instr1 (unop_call u)) ru /\
        correct_any lty_const lty_vals (small_arch ta tb first ((PIn0, S) :: cs)) (small_instr1 (unop_call u)) (fs first) ru
  | ONone => forall i, inst_allowed cs i -> exists s, In s S /\ ~ In i (un_insts u s)
  | _ => True
  end.
Proof.
  intros ta tb first cs S tagd u simple k out T F N W0 R. pose proof (proj1 T) as T'.
  pose proof (result_ok ta tb first ((PIn0, S) :: cs) tagd T (in0_nodup cs S F) (in0_incl cs S F) (in0_constr cs S F N W0 ta tb first)
                (small_instr1 (unop_call u)) (instr1_ok _) eq_refl ltac:(cbn; intuition congruence) simple k out R) as H.
  destruct out as [r| | |]; auto.
  - destruct H as (M & ru & E & W & V & A & C). apply (C71_in0 ta tb first cs S u T' F N W0) in M.
    split; [exact M|]. exists ru. auto.
  - rewrite (C71_in0 ta tb first cs S u T' F N W0) in H. intros i A.
    destruct (existsb (fun s => negb (existsb (inst_eqb i) (un_insts u s))) S) eqn:E.
    + apply existsb_exists in E as (s & Is & E). exists s. split; [exact Is|]. intros I. apply negb_true_iff in E.
      assert (X : existsb (inst_eqb i) (un_insts u s) = true).
      { apply existsb_exists. exists i. split; [exact I|]. destruct i as [o m|o m]; cbn; rewrite Z.eqb_refl; destruct o; reflexivity. }
      congruence.
    + exfalso. apply H. exists i. split; [exact A|]. intros s Is.
      assert (X : existsb (inst_eqb i) (un_insts u s) = true).
      { destruct (existsb (inst_eqb i) (un_insts u s)) eqn:Y; auto. exfalso.
        assert (Z : existsb (fun s => negb (existsb (inst_eqb i) (un_insts u s))) S = true) by (apply existsb_exists; exists s; now rewrite Y).
        congruence. }
      apply existsb_exists in X as (j & Ij & X). apply inst_eqb_eq in X. now subst j.
Qed.

(** The constraints of the two tests. *)
Definition impl (cs : list (path * list Z)) (i : instr path lty) : Prop :=
  implementable path_eqb lty_const lty_vals (small_arch 0 1 false cs) i (fs false) (fvv false).
Example C71_case :
  let add4 := small_instr2 (sum_off A 4) in let copy := small_instr1 (unop_call Id) in
  let fixed := [(PAlu0, [1]); (PAlu1, [5])] in
  impl [(PAlu1, [4])] add4 /\ impl [(PAlu1, [4; 5])] add4 /\ ~ impl [(PAlu1, [5])] add4 /\ ~ impl [(PAlu1, [3; 5])] add4 /\
  impl [(PAlu0, [1])] add4 /\ impl [(PAlu0, [1; 2])] add4 /\ ~ impl [(PAlu0, [2])] add4 /\
  impl ((PIn0, [251]) :: fixed) copy /\ ~ impl ((PIn0, [252]) :: fixed) copy /\ ~ impl ((PIn0, [251; 252]) :: fixed) copy /\
  impl ((PIn0, [255]) :: fixed) copy /\ impl [(PIn0, [7])] (small_instr1 (unop_call Minus)).
Proof.
  assert (F1 : forall p zs, In p [PBit0; PBit1; PAlu0; PAlu1] -> zs <> [] -> forallb (fun z => (0 <=? z) && (z <? field_width p)) zs = true ->
            on_fields [(p, zs)]).
  { intros p zs Ip N H. split; [repeat constructor; cbn; intuition|]. intros q ys [I|[]]. injection I as <- <-. split; [exact Ip|].
    split; [exact N|]. intros z Iz. rewrite forallb_forall in H. specialize (H z Iz). lia. }
  assert (Fx : on_fields [(PAlu0, [1]); (PAlu1, [5])]).
  { split; [repeat constructor; cbn; intuition discriminate|]. intros q ys [I|[I|[]]]; injection I as <- <-; (split; [cbn; auto|]);
      (split; [discriminate|]); intros z [<-|[]]; cbn; lia. }
  assert (One : forall p zs q z, allowed [(p, zs)] q z <-> (p = q -> In z zs)).
  { intros p zs q z. split.
    - intros H <-. apply H. now left.
    - intros H ys [I|[]]. injection I as <- <-. now apply H. }
  intros add4 copy fixed. unfold impl, add4, copy.
  assert (Off : forall p zs, In p [PAlu0; PAlu1] -> zs <> [] -> forallb (fun z => (0 <=? z) && (z <? field_width p)) zs = true ->
            implementable path_eqb lty_const lty_vals (small_arch 0 1 false [(p, zs)]) (small_instr2 (sum_off A 4)) (fs false) (fvv false) <->
            (p = PAlu0 -> In 1 zs) /\ (p = PAlu1 -> In 4 zs)).
  { intros p zs Ip N H. rewrite C71_offset; [now rewrite !One|discriminate|apply F1; auto; cbn in *; intuition|lia]. }
  assert (In0 : forall S, S <> [] -> forallb (fun s => (0 <=? s) && (s <? 256)) S = true ->
            implementable path_eqb lty_const lty_vals (small_arch 0 1 false ((PIn0, S) :: fixed)) (small_instr1 (unop_call Id)) (fs false) (fvv false) <->
            exists i, inst_allowed fixed i /\ forall s, In s S -> In i (un_insts Id s)).
  { intros S N H. apply C71_in0; auto; [discriminate|]. intros s Is. rewrite forallb_forall in H. specialize (H s Is). lia. }
  rewrite !Off by (try discriminate; try reflexivity; cbn; auto). rewrite !In0 by (try discriminate; reflexivity).
  assert (No : forall s, s <> 251 -> s <> 255 -> s <> 0 -> 0 <= s < 256 -> forall i, inst_allowed fixed i -> ~ In i (un_insts Id s)).
  { intros s N1 N2 N3 Hs i A. cbn [un_insts In]. rewrite (proj2 (Z.eqb_neq s 255) N2), (proj2 (Z.eqb_neq s 0) N3). cbn [app In].
    intros [<-|[]]. destruct A as [_ A]. specialize (A [5] (or_intror (or_introl eq_refl))). cbn in A. destruct A as [A|[]].
    rewrite Z.mod_opp_l_nz in A by (try rewrite Z.mod_small; lia). rewrite Z.mod_small in A by lia. lia. }
  split; [cbn; intuition discriminate|]. split; [cbn; intuition discriminate|].
  split; [intros [_ H]; specialize (H eq_refl); cbn in H; lia|]. split; [intros [_ H]; specialize (H eq_refl); cbn in H; lia|].
  split; [cbn; intuition discriminate|]. split; [cbn; intuition discriminate|].
  split; [intros [H _]; specialize (H eq_refl); cbn in H; lia|].
  split.
  { exists (IAlu A 5). split.
    - split; intros zs [I|[I|[]]]; try discriminate; injection I as <-; cbn; auto.
    - intros s [<-|[]]. now left. }
  split; [intros (i & A & H); apply (No 252 ltac:(lia) ltac:(lia) ltac:(lia) ltac:(lia) i A); apply H; cbn; auto|].
  split; [intros (i & A & H); apply (No 252 ltac:(lia) ltac:(lia) ltac:(lia) ltac:(lia) i A); apply H; cbn; auto|].
  split.
  { exists (IBit A 0). split.
    - split; intros zs [I|[I|[]]]; discriminate.
    - intros s [<-|[]]. right. now left. }
  apply C71_in0; [discriminate|apply on_none|discriminate|intros s [<-|[]]; lia|].
  exists (IAlu B 249). split; [split; intros zs []|]. intros s [<-|[]]. now left.
Qed.

Print Assumptions C70_table.
Print Assumptions C70_solve.
Print Assumptions C70_found.
Print Assumptions C70_inst.
Print Assumptions C70_sum.
Print Assumptions C70_sum_case.
Print Assumptions C70_case.
Print Assumptions C71_offset.
Print Assumptions C71_in0.
Print Assumptions C71_solve_offset.
Print Assumptions C71_solve_in0.
Print Assumptions C71_case.
