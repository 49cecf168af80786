(** C82: the mapper on architectures and IR instructions with black boxes. *)
From Coq Require Import ZArith List Bool Lia Permutation.
From Verif Require Import Base BaseLemmas BindModel BindProps MapIdxModel MapIdxProps CegisModel CegisProps
  MapModel MapProofs MapMain MapProps MapIff MapIffProps MapDirect BBFormModel BBFormProps MapBBModel MapBBProofs MapBBMachine.
Import ListNotations.
Open Scope list_scope.
Open Scope Z_scope.

(** Full property: there is a solution exactly if some rule is well formed, has valid
    and allowed constants, and is correct for all inputs and for all functions the black
    boxes may compute. *)
Definition C82_full : Prop :=
  forall (P T C : Type) (peqb : P -> P -> bool) (teqb : T -> T -> bool) (ceqb : C -> C -> bool) (isconst : T -> bool), eqs peqb teqb ->
    (forall a b, ceqb a b = true <-> a = b) ->
  forall td tagd k (b : boxed P T C) nin odom aos ios fs fv, boxed_ok isconst b nin odom aos ios fs fv ->
    inhabited_types td tagd (b_arch b) (b_instr b) -> constr_ok td (b_arch b) ->
    (satisfiable_bb peqb teqb ceqb isconst td tagd k b odom <-> implementable_bb peqb isconst td b odom fs fv).

(** What is assumed of the mapping problem besides: every black box object is called
    once, and the conditions of C69 for the simple formula. *)
Definition mappable_bb {P T C} (peqb : P -> P -> bool) (isconst : T -> bool) (b : boxed P T C) (aos ios : list nat) : Prop :=
  NoDup aos /\ NoDup ios /\ a_has_const (b_arch b) = true /\ i_out (b_instr b) <> [] /\
  (forall p t, In (p, t) (i_in (b_instr b)) -> isconst t = false) /\ in_all_forms peqb isconst (b_arch b).

(** Missing for C82: objects called more than once; architectures without a Const
    input; instructions without outputs or with Const inputs; constrained inputs that
    are leaves of some forms only. *)
Theorem C82_iff_partial :
  forall (P T C : Type) (peqb : P -> P -> bool) (teqb : T -> T -> bool) (ceqb : C -> C -> bool) (isconst : T -> bool), eqs peqb teqb ->
    (forall a b, ceqb a b = true <-> a = b) ->
  forall td tagd k (b : boxed P T C) nin odom aos ios fs fv, boxed_ok isconst b nin odom aos ios fs fv ->
    inhabited_types td tagd (b_arch b) (b_instr b) -> constr_ok td (b_arch b) -> mappable_bb peqb isconst b aos ios ->
    (satisfiable_bb peqb teqb ceqb isconst td tagd k b odom <-> implementable_bb peqb isconst td b odom fs fv).
Proof.
  intros P T C peqb teqb ceqb isconst E Hc td tagd k b nin odom aos ios fs fv Hb Hn Hcs (Na & Ni & Hh & Ho & Nc & Al). split.
  - eapply found_implementable; eauto.
  - eapply implementable_found; eauto.
Qed.

(** The answers of the solving strategies. *)
Inductive answers_bb {P} (peqb : P -> P -> bool) (d : bvar P -> list Z) (y : list (bvar P)) (f : form (bvar P)) (o : outcome (bvar P)) : Prop :=
| bb_by_loop so mo fuel m init c : solver_ok d so -> model_ok d mo -> Forall (sorted d) init ->
    external_loop_solve (bvar_eqb peqb) so mo fuel y f m init = (o, c) -> answers_bb peqb d y f o
| bb_by_direct fo : forall_ok d fo -> direct_solve fo y f = o -> answers_bb peqb d y f o.

Lemma answers_bb_ok {P} (peqb : P -> P -> bool) : (forall a b, peqb a b = true <-> a = b) ->
  forall d y f o, wf f -> answers_bb peqb d y f o ->
  match o with
  | ODone r => sorted d r /\ solves d y f r
  | ONone => forall r, sorted d r -> ~ solves d y f r
  | _ => True
  end.
Proof.
  intros Hp d y f o W A. destruct o as [r| | |]; auto.
  - destruct A as [so mo fuel m init c Hs Hm Fi H|fo Hf H].
    + eapply C35_cegis_sound; eauto. now apply bvar_eqb_eq.
    + eapply C35_direct_sound; eauto.
  - intros r S Sol. destruct A as [so mo fuel m init c Hs Hm Fi H|fo Hf H].
    + exact (C36_cegis_none _ _ d (bvar_eqb_eq peqb Hp) so mo Hs Hm y _ W fuel m init c Fi H r S Sol).
    + exact (C36_direct_none _ d fo Hf y _ W H r S Sol).
Qed.

(** What [solve] may return, with any of the strategies. *)
Definition answer_bb {P T C} (peqb : P -> P -> bool) (teqb : T -> T -> bool) (ceqb : C -> C -> bool) (isconst : T -> bool)
    td tagd k (b : boxed P T C) odom (o : outcome (bvar P)) : Prop :=
  match build_bb peqb teqb ceqb isconst k b with
  | Ok BBNone => o = ONone
  | Ok (BBForm y phi) => answers_bb peqb (dom_bb peqb teqb td tagd odom k b) y (bform b phi) o
  | Err _ => False
  end.

(** The rule found is correct whatever the black boxes compute; None is answered only
    if no rule is. *)
Theorem C82_solve_partial :
  forall (P T C : Type) (peqb : P -> P -> bool) (teqb : T -> T -> bool) (ceqb : C -> C -> bool) (isconst : T -> bool), eqs peqb teqb ->
    (forall a b, ceqb a b = true <-> a = b) ->
  forall td tagd k (b : boxed P T C) nin odom aos ios fs fv, boxed_ok isconst b nin odom aos ios fs fv ->
    inhabited_types td tagd (b_arch b) (b_instr b) -> constr_ok td (b_arch b) -> mappable_bb peqb isconst b aos ios ->
  forall o, answer_bb peqb teqb ceqb isconst td tagd k b odom o ->
  match o with
  | ODone r => exists ru, rr_from_bb peqb teqb isconst k b r = Ok ru /\ well_formed peqb isconst (b_arch b) (b_instr b) ru /\
      valid_consts td (b_arch b) fv ru /\ const_allowed peqb isconst (b_arch b) ru /\
      forall F, respects odom F -> correct_any isconst td (arch_of b F) (instr_of b F) (fs F) ru
  | ONone => ~ implementable_bb peqb isconst td b odom fs fv
  | _ => True
  end.
Proof.
  intros P T C peqb teqb ceqb isconst E Hc td tagd k b nin odom aos ios fs fv Hb Hn Hcs M o A.
  pose proof (C82_iff_partial P T C peqb teqb ceqb isconst E Hc td tagd k b nin odom aos ios fs fv Hb Hn Hcs M) as Sat.
  destruct M as (Na & Ni & Hh & Ho & Nc & Al). unfold answer_bb in A.
  destruct (build_bb peqb teqb ceqb isconst k b) as [[|y phi]|e] eqn:B; [|  |destruct A].
  - subst o. rewrite <- Sat. intros (y & phi & r & X & _). rewrite B in X. discriminate.
  - assert (W : wf (bform b phi)) by (eapply bb_wf; eauto).
    pose proof (answers_bb_ok peqb (proj1 E) _ y _ o W A) as H. destruct o as [r| | |]; auto.
    + destruct H as [S Sol]. eapply rule_bb; eauto.
    + rewrite <- Sat. intros (y' & phi' & r & X & S & Sol). rewrite B in X. injection X as <- <-. exact (H r S (Sol _)).
Qed.

(** If there is a rule, the formula is built and a solver that decides it finds one. *)
Theorem C82_found_partial :
  forall (P T C : Type) (peqb : P -> P -> bool) (teqb : T -> T -> bool) (ceqb : C -> C -> bool) (isconst : T -> bool), eqs peqb teqb ->
    (forall a b, ceqb a b = true <-> a = b) ->
  forall td tagd k (b : boxed P T C) nin odom aos ios fs fv, boxed_ok isconst b nin odom aos ios fs fv ->
    inhabited_types td tagd (b_arch b) (b_instr b) -> constr_ok td (b_arch b) -> mappable_bb peqb isconst b aos ios ->
    implementable_bb peqb isconst td b odom fs fv ->
    exists y phi, build_bb peqb teqb ceqb isconst k b = Ok (BBForm y phi) /\
      forall fo, forall_ok (dom_bb peqb teqb td tagd odom k b) fo -> exists r, direct_solve fo y (bform b phi) = ODone r.
Proof.
  intros P T C peqb teqb ceqb isconst E Hc td tagd k b nin odom aos ios fs fv Hb Hn Hcs M Im.
  pose proof Im as S. apply (C82_iff_partial P T C peqb teqb ceqb isconst E Hc td tagd k b nin odom aos ios fs fv Hb Hn Hcs M) in S.
  destruct S as (y & phi & r & B & S & Sol). exists y, phi. split; [exact B|]. intros fo Hf. unfold direct_solve.
  destruct (fo y _) as [r'|] eqn:Fo; [eauto|]. exfalso.
  assert (A : answer_bb peqb teqb ceqb isconst td tagd k b odom ONone).
  { unfold answer_bb. rewrite B. apply (bb_by_direct peqb _ _ _ _ fo Hf). unfold direct_solve. now rewrite Fo. }
  pose proof (C82_solve_partial P T C peqb teqb ceqb isconst E Hc td tagd k b nin odom aos ios fs fv Hb Hn Hcs M ONone A) as K.
  exact (K Im).
Qed.

(** The same for architectures whose Const leaves are one instruction: the mapper
    finds an instruction that computes the IR instruction for all functions of the boxes,
    and answers None only if there is none. *)
Theorem C82_machine_partial :
  forall (P T C I : Type) (peqb : P -> P -> bool) (teqb : T -> T -> bool) (ceqb : C -> C -> bool) (isconst : T -> bool), eqs peqb teqb ->
    (forall a b, ceqb a b = true <-> a = b) ->
  forall td tagd k (b : boxed P T C) nin odom aos ios fs fv, boxed_ok isconst b nin odom aos ios fs fv ->
    inhabited_types td tagd (b_arch b) (b_instr b) -> constr_ok td (b_arch b) ->
    NoDup aos -> NoDup ios -> a_has_const (b_arch b) = true -> i_out (b_instr b) <> [] ->
    (forall p t, In (p, t) (i_in (b_instr b)) -> isconst t = false) ->
  forall (valid : I -> Prop) dec sem, (forall F, respects odom F -> machine isconst td (arch_of b F) (fs F) fv valid dec (sem F)) ->
  (forall o, answer_bb peqb teqb ceqb isconst td tagd k b odom o ->
    match o with
    | ODone r => exists ru m bnd obnd, rr_from_bb peqb teqb isconst k b r = Ok ru /\ valid m /\
        placed (b_arch b) (b_instr b) bnd obnd /\ computes_bb td b odom sem m bnd obnd /\
        rule_of isconst td (b_arch b) (b_instr b) fv dec ru m bnd obnd
    | ONone => forall m bnd obnd, valid m -> placed (b_arch b) (b_instr b) bnd obnd -> ~ computes_bb td b odom sem m bnd obnd
    | _ => True
    end) /\
  (forall m bnd obnd, valid m -> placed (b_arch b) (b_instr b) bnd obnd -> computes_bb td b odom sem m bnd obnd ->
    exists y phi, build_bb peqb teqb ceqb isconst k b = Ok (BBForm y phi) /\
      forall fo, forall_ok (dom_bb peqb teqb td tagd odom k b) fo -> exists r, direct_solve fo y (bform b phi) = ODone r).
Proof.
  intros P T C I peqb teqb ceqb isconst E Hc td tagd k b nin odom aos ios fs fv Hb Hn Hcs Na Ni Hh Ho Nc valid dec sem Hm.
  pose proof (F0_ok isconst b nin odom aos ios fs fv Hb) as H0.
  pose proof (machine_all_forms peqb teqb isconst E td (arch_of b _) (fs _) fv (bo_arch _ _ _ _ _ _ _ _ Hb _ H0) valid dec (sem _) (Hm _ H0)) as Al.
  assert (M : mappable_bb peqb isconst b aos ios) by (repeat split; auto).
  pose proof (bb_machine_iff peqb teqb isconst E td b nin odom aos ios fs fv Hb valid dec sem Hm Nc) as Iff. split.
  - intros o A. pose proof (C82_solve_partial P T C peqb teqb ceqb isconst E Hc td tagd k b nin odom aos ios fs fv Hb Hn Hcs M o A) as K.
    destruct o as [r| | |]; auto.
    + destruct K as (ru & R & W & V & Ca & Co).
      pose proof (machine_const_allowed peqb teqb isconst E td (arch_of b _) (fs _) fv (bo_arch _ _ _ _ _ _ _ _ Hb _ H0) valid dec (sem _) (Hm _ H0) ru Ca) as Ac.
      destruct (bb_rule_machine peqb teqb isconst E td b nin odom aos ios fs fv Hb valid dec sem Hm Nc ru W V Ac Co) as (m & bnd & obnd & X).
      exists ru, m, bnd, obnd. split; [exact R|exact X].
    + rewrite Iff in K. intros m bnd obnd Vm Pl Cm. apply K. eauto 6.
  - intros m bnd obnd Vm Pl Cm.
    apply (C82_found_partial P T C peqb teqb ceqb isconst E Hc td tagd k b nin odom aos ios fs fv Hb Hn Hcs M). apply Iff. eauto 6.
Qed.

(** Without [simple_formula] a problem with black boxes is a ValueError. *)
Theorem C82_mode : forall (P T C : Type) (b : boxed P T C) simple,
  mode_check b simple = (if negb simple && negb (Nat.eqb (length (b_aobjs b) + length (b_iobjs b)) 0) then Err ValueError else Ok tt).
Proof.
  intros P T C b simple. unfold mode_check. rewrite <- app_length. destruct (b_aobjs b ++ b_iobjs b), simple; reflexivity.
Qed.

(** A black box that a run does not call is a ValueError. *)
Lemma last_none {D} (tr : list (nat * list D)) o : last_input tr o = None <-> ~ In o (map fst tr).
Proof.
  induction tr as [|[o' ins] tr IH]; cbn [last_input map fst In]; [tauto|].
  destruct (last_input tr o) as [i|] eqn:E.
  - split; [discriminate|]. intros N. exfalso. assert (X : ~ In o (map fst tr)) by tauto. apply IH in X. discriminate.
  - destruct (Nat.eqb_spec o o') as [->|N]; [split; [discriminate|tauto]|]. split; auto. intros _ [X|X]; [congruence|]. now apply (proj1 IH).
Qed.
Lemma inputs_uncalled {D} (tr : list (nat * list D)) objs o : In o objs -> ~ In o (map fst tr) -> get_bb_inputs tr objs = Err ValueError.
Proof.
  intros I N. unfold get_bb_inputs. induction objs as [|o' objs IH]; [destruct I|]. cbn [mapM].
  destruct (last_input tr o') as [i|] eqn:E; [|reflexivity]. cbn [bind]. destruct I as [->|I].
  - apply last_none in N. congruence.
  - now rewrite (IH I).
Qed.

Lemma inputs_error {D} (tr : list (nat * list D)) objs e : get_bb_inputs tr objs = Err e -> e = ValueError.
Proof.
  unfold get_bb_inputs. induction objs as [|o objs IH]; cbn [mapM]; [discriminate|].
  destruct (last_input tr o); cbn [bind]; [|congruence]. destruct (mapM _ objs); cbn [bind]; [discriminate|]. intros [= ->]. auto.
Qed.

Theorem C82_uncalled :
  forall (P T C : Type) (peqb : P -> P -> bool) (teqb : T -> T -> bool) (ceqb : C -> C -> bool) (isconst : T -> bool) k (b : boxed P T C) o,
  (In o (b_aobjs b) /\ forall tags l outs, ~ In o (map fst (snd (sym_run outs (b_prog b tags l))))) \/
  (In o (b_iobjs b) /\ forall x outs, ~ In o (map fst (snd (sym_run outs (b_iprog b x))))) ->
  build_bb peqb teqb ceqb isconst k b =
  match build_simple peqb teqb isconst k (returned b (fun _ => 0)) (ireturned b (fun _ => 0)) with
  | Ok BNone => Ok BBNone
  | Ok (BForm _ _) => Err ValueError
  | Err e => Err e
  end.
Proof.
  intros P T C peqb teqb ceqb isconst k b o H. unfold build_bb.
  destruct (build_simple _ _ _ _ _ _) as [[|y phi]|e]; cbn [bind]; [reflexivity| |reflexivity].
  unfold value_at, bb_formula. set (outs := fun o => repeat 0 (b_nout b (b_cls b o))).
  assert (H' : (In o (b_aobjs b) /\ ~ In o (map fst (snd (sym_run outs (b_prog b (tags_of (fun _ => 0)) (leaves_of (fun _ => 0))))))) \/
               (In o (b_iobjs b) /\ ~ In o (map fst (snd (sym_run outs (b_iprog b (ir_of (fun _ => 0)))))))).
  { destruct H as [[I N]|[I N]]; [left|right]; auto. }
  destruct (sym_run _ (b_prog b _ _)) as [oa atr]. destruct (sym_run _ (b_iprog b _)) as [oi itr]. cbn [snd] in H'.
  destruct H' as [[I N]|[I N]].
  - rewrite (inputs_uncalled atr (b_aobjs b) o I N). reflexivity.
  - destruct (get_bb_inputs atr (b_aobjs b)) as [ai|e] eqn:E; cbn [bind].
    + rewrite (inputs_uncalled itr (b_iobjs b) o I N). reflexivity.
    + now rewrite (inputs_error _ _ _ E).
Qed.

(** * Refutation *)
Import Inst.

(** One black box called on the data input and on 0; the architecture says whether the
    two outputs are equal. Both calls return the same variable, so the architecture is
    found to compute the constant 1. *)
Definition twice_prog (_ l : Z -> Z) : comp Z (Z -> Z) :=
  Call 0 [l 1] (fun x => Call 0 [0] (fun y => Ret (fun _ => if list_eqb Z.eqb x y then 1 else 0))).
Definition one1 : instr Z T :=
  {| i_in := [(11, (1, false))]; i_out := [(21, (1, false))]; i_sem := fun _ _ => 1 |}.
Definition twice_arch : arch Z T :=
  {| a_forms := [([1; 5], [])]; a_in := [(1, (1, false)); (5, (1, true))]; a_out := [(20, (1, false))];
     a_constr := []; a_has_const := true; a_fsem := fun _ _ _ _ => 0; a_sem := fun _ _ _ => 0;
     a_fvalid := fun _ _ _ => true; a_valid := fun _ _ => true |}.
Definition twice_bb : boxed Z T unit :=
  {| b_arch := twice_arch; b_instr := one1; b_aobjs := [0%nat]; b_iobjs := []; b_prog := twice_prog; b_iprog := fun _ => Ret (fun _ => 1);
     b_cls := fun _ => tt; b_nout := fun _ => 1%nat |}.
Definition twice_fs (F : unit -> list Z -> list Z) (_ : nat) (l : Z -> Z) (_ : Z) : Z :=
  if list_eqb Z.eqb (F tt [l 1]) (F tt [0]) then 1 else 0.
Definition bits1 (_ : unit) : list (list Z) := [[0; 1]].

Lemma twice_ok : boxed_ok snd twice_bb (fun _ => 1%nat) bits1 [0; 0]%nat [] twice_fs (fun _ _ => true).
Proof.
  constructor.
  - intros F _. constructor; cbn [arch_of twice_bb twice_arch b_arch b_prog b_cls a_forms a_in a_out a_constr a_fsem a_sem a_fvalid a_valid]; auto.
    + repeat constructor; cbn; intuition lia.
    + repeat constructor; cbn; intuition lia.
    + constructor.
    + intros p [].
    + intros [|fi] f E; [|destruct fi; discriminate]; injection E as <-; intros x; cbn; intuition lia.
    + intros [|fi] f E; [|destruct fi; discriminate]; injection E as <-; constructor.
    + intros [|fi] f l l' q E H; [|destruct fi; discriminate]; injection E as <-. unfold twice_fs. now rewrite (H 1) by (cbn; auto).
  - intros F _. constructor; [repeat constructor; cbn; intuition lia..|]. intros x x' q _. reflexivity.
  - intros tags tags' l l' _ El. split; [|split; reflexivity]. intros outs. cbn [twice_bb b_prog twice_prog sym_run fst snd].
    rewrite (El 1) by (cbn; auto). auto.
  - intros x x' _ outs. split; reflexivity.
  - reflexivity.
  - intros _. lia.
  - discriminate.
  - intros c d [<-|[]]. discriminate.
  - intros tags l. constructor; [reflexivity|]. intros out. constructor; [reflexivity|]. intros out'. constructor.
  - intros x. constructor.
  - repeat constructor; intros [].
  - constructor.
  - intros o _ [].
  - intros o. cbn. tauto.
  - intros o. cbn. tauto.
Qed.

Lemma twice_wrong : ~ implementable_bb Z.eqb snd td twice_bb bits1 twice_fs (fun _ _ => true).
Proof.
  intros (ru & W & (l0 & Tl0 & Vl0 & _) & Al & C).
  set (F := fun (_ : unit) (ins : list Z) => [if list_eqb Z.eqb ins [0] then 0 else 1]).
  assert (HF : respects bits1 F).
  { intros c ins. unfold F, out_ok, bits1. constructor; [|constructor]. destruct (list_eqb Z.eqb ins [0]); cbn; auto. }
  destruct (rule_eq Z.eqb snd (proj1 eqs_ok) td (arch_of twice_bb F) (instr_of twice_bb F) (twice_fs F) _
    (bo_arch _ _ _ _ _ _ _ _ twice_ok F HF) (bo_instr _ _ _ _ _ _ _ _ twice_ok F HF) ru l0 W Tl0 Vl0 Al (C F HF)) as (f & bnd & Ef & _ & _ & _ & O).
  destruct (O 21 (1, false) ltac:(cbn; auto)) as (ap & _ & E).
  assert (X : 1 = twice_fs F (r_form ru) (fun p => if p =? 1 then 1 else l0 p) ap).
  { apply (E (fun p => if p =? 1 then 1 else l0 p)).
    - intros p t I. destruct (Z.eqb_spec p 1) as [->|N]; [|now apply Tl0]. cbn in I. destruct I as [I|[I|[]]]; injection I; intros; subst; try discriminate.
      apply pyrange_In. cbn. lia.
    - intros p t I _ Ct _. destruct (Z.eqb_spec p 1) as [->|N]; auto. cbn in I. destruct I as [I|[I|[]]]; injection I; intros; subst; discriminate.
    - intros p zs []. }
  vm_compute in X. discriminate.
Qed.

(** A model: the form, the bindings, and zeros. *)
Definition twice_r (v : bvar Z) : Z := match v with BV VFi | BV VBi | BV VBo => 1 | _ => 0 end.


(** The architecture and the instruction that return 1. *)
Definition ret1 : arch Z T := returned twice_bb (fun _ => 1).
Lemma ret1_ok : arch_ok snd ret1 (fun _ _ _ => 1) (fun _ _ => true).
Proof.
  constructor; cbn [ret1 returned twice_bb twice_arch b_arch a_forms a_in a_out a_constr a_fsem a_sem a_fvalid a_valid]; auto.
  - repeat constructor; cbn; intuition lia.
  - repeat constructor; cbn; intuition lia.
  - constructor.
  - intros p [].
  - intros [|fi] f E; [|destruct fi; discriminate]; injection E as <-; intros x; cbn; intuition lia.
  - intros [|fi] f E; [|destruct fi; discriminate]; injection E as <-; constructor.
Qed.
Lemma ret1_ext : arch_ext ret1.
Proof. intros tags tags' l l' _ _. repeat split. Qed.
Lemma one1_ok : instr_ok one1.
Proof. constructor; [repeat constructor; cbn; intuition lia..|]. intros x x' q _. reflexivity. Qed.

Lemma twice_phi s : phi_bb Z.eqb teqb (fun _ _ => true) snd OneHot twice_bb s =
  formula_simple Z.eqb teqb snd OneHot ret1 one1 (overlap_sub Z.eqb teqb snd OneHot ret1 one1 (plain s)).
Proof.
  transitivity (formula_simple Z.eqb teqb snd OneHot
    (returned twice_bb (fun _ => if list_eqb Z.eqb [s (BOut 0 0)] [s (BOut 0 0)] then 1 else 0)) one1
    (overlap_sub Z.eqb teqb snd OneHot ret1 one1 (plain s))); [reflexivity|].
  cbn [list_eqb]. rewrite Z.eqb_refl. reflexivity.
Qed.

Lemma twice_sat : satisfiable_bb Z.eqb teqb (fun _ _ => true) snd td tagd OneHot twice_bb bits1.
Proof.
  assert (B : build_bb Z.eqb teqb (fun _ _ => true) snd OneHot twice_bb =
    Ok (BBForm (forall_bb Z.eqb teqb snd twice_bb) (phi_bb Z.eqb teqb (fun _ _ => true) snd OneHot twice_bb))) by (vm_compute; reflexivity).
  eexists _, _, twice_r. split; [exact B|]. split.
  - assert (L : forall p, dget Z.eqb (a_in twice_arch) p = if p =? 1 then Some (1, false) else if p =? 5 then Some (1, true) else None)
      by (intros p; cbn [twice_arch a_in dget]; rewrite (Z.eqb_sym p 1), (Z.eqb_sym p 5); reflexivity).
    assert (Z0 : forall p, In 0 (path_dom Z.eqb td (a_in twice_arch) p)).
    { intros p. unfold path_dom. rewrite L. destruct (p =? 1), (p =? 5); vm_compute; auto. }
    intros [v|o j]; cbn [dom_bb].
    + destruct v as [p|p|p| | | |p|p]; cbn [dom twice_r]; try (vm_compute; auto; fail); try apply Z0.
      unfold path_dom. cbn [twice_bb b_instr one1 i_in dget]. destruct (Z.eqb _ _); vm_compute; auto.
    + destruct j as [|[|j]]; vm_compute; auto.
  - intros vs s S A. cbn [sem]. rewrite twice_phi.
    destruct (solved0 ret1 one1 _ _ (simple0 ret1 one1) (plain twice_r) ret1_ok one1_ok ret1_ext (or_intror eq_refl)) as (y & phi & B1 & Sol);
      [vm_compute; reflexivity..|].
    pose proof (Sol [] (plain s) (fun v => S (BV v))) as X.
    assert (Ey : y = forall_simple Z.eqb teqb snd ret1 one1 /\ phi = fun r => formula_simple Z.eqb teqb snd OneHot ret1 one1 (overlap_sub Z.eqb teqb snd OneHot ret1 one1 r)).
    { unfold simple0, build_simple in B1. repeat match type of B1 with (if ?c then _ else _) = _ => destruct c; [discriminate|] end.
      injection B1 as <- <-. auto. }
    destruct Ey as [-> ->]. apply X. intros v N. apply A. intros I. apply in_app_iff in I as [I|I].
    + apply in_map_iff in I as (w & E & I). injection E as ->. exact (N I).
    + cbn in I. intuition discriminate.
Qed.

Lemma twice_inhabited : inhabited_types td tagd twice_arch one1.
Proof. apply inhabited0; [flat_tac|]. intros [|fi] f p z E; [|destruct fi; discriminate]. injection E as <-. intros []. Qed.

(** All conditions of C82_iff_partial but the one on calls hold. *)
Theorem C82_twice_refuted :
  boxed_ok snd twice_bb (fun _ => 1%nat) bits1 [0; 0]%nat [] twice_fs (fun _ _ => true) /\
  inhabited_types td tagd twice_arch one1 /\ constr_ok td twice_arch /\ a_has_const twice_arch = true /\ i_out one1 <> [] /\
  (forall p t, In (p, t) (i_in one1) -> snd t = false) /\ in_all_forms Z.eqb snd twice_arch /\
  satisfiable_bb Z.eqb teqb (fun _ _ => true) snd td tagd OneHot twice_bb bits1 /\
  ~ implementable_bb Z.eqb snd td twice_bb bits1 twice_fs (fun _ _ => true).
Proof.
  split; [exact twice_ok|]. split; [exact twice_inhabited|]. split; [intros p zs []|]. split; [reflexivity|]. split; [discriminate|].
  split; [flat_tac|]. split; [intros p fi f []|]. split; [exact twice_sat|exact twice_wrong].
Qed.

Theorem C82_full_refuted : ~ C82_full.
Proof.
  intros H. apply twice_wrong.
  apply (H Z T unit Z.eqb teqb (fun _ _ => true) snd eqs_ok ltac:(intros [] []; easy) td tagd OneHot twice_bb _ _ _ _ _ _ twice_ok twice_inhabited).
  - intros p zs [].
  - exact twice_sat.
Qed.

(** A box called once: the constant 5 says whether its output is returned or its input.
    The IR instruction is a box of the same class. *)
Definition once_prog (_ l : Z -> Z) : comp Z (Z -> Z) := Call 0 [l 1] (fun x => Ret (fun _ => if l 5 =? 0 then l 1 else hd 0 x)).
Definition once_bb : boxed Z T unit :=
  {| b_arch := twice_arch; b_instr := one1; b_aobjs := [0%nat]; b_iobjs := [1%nat]; b_prog := once_prog;
     b_iprog := fun x => Call 1 [x 11] (fun y => Ret (fun _ => hd 0 y)); b_cls := fun _ => tt; b_nout := fun _ => 1%nat |}.
Definition once_fs (F : unit -> list Z -> list Z) (_ : nat) (l : Z -> Z) (_ : Z) : Z := if l 5 =? 0 then l 1 else hd 0 (F tt [l 1]).

Lemma once_ok : boxed_ok snd once_bb (fun _ => 1%nat) bits1 [0%nat] [1%nat] once_fs (fun _ _ => true).
Proof.
  constructor.
  - intros F _. constructor; cbn [arch_of once_bb twice_arch b_arch b_prog b_cls a_forms a_in a_out a_constr a_fsem a_sem a_fvalid a_valid]; auto.
    + repeat constructor; cbn; intuition lia.
    + repeat constructor; cbn; intuition lia.
    + constructor.
    + intros p [].
    + intros [|fi] f E; [|destruct fi; discriminate]; injection E as <-; intros x; cbn; intuition lia.
    + intros [|fi] f E; [|destruct fi; discriminate]; injection E as <-; constructor.
    + intros [|fi] f l l' q E H; [|destruct fi; discriminate]; injection E as <-. unfold once_fs. now rewrite (H 1), (H 5) by (cbn; auto).
  - intros F _. constructor; [repeat constructor; cbn; intuition lia..|]. intros x x' q H. cbn [instr_of once_bb b_iprog i_sem fun_run].
    now rewrite (H 11 (1, false)) by (cbn; auto).
  - intros tags tags' l l' _ El. split; [|split; reflexivity]. intros outs. cbn [once_bb b_prog once_prog sym_run fst snd].
    rewrite (El 1), (El 5) by (cbn; auto). auto.
  - intros x x' H outs. cbn [once_bb b_iprog sym_run fst snd]. rewrite (H 11) by (cbn; auto). auto.
  - reflexivity.
  - intros _. lia.
  - discriminate.
  - intros c d [<-|[]]. discriminate.
  - intros tags l. constructor; [reflexivity|]. intros out. constructor.
  - intros x. constructor; [reflexivity|]. intros out. constructor.
  - repeat constructor; intros [].
  - repeat constructor; intros [].
  - intros o [<-|[]] [E|[]]. discriminate.
  - intros o. cbn. tauto.
  - intros o. cbn. tauto.
Qed.

Definition once_rule : rule Z := {| r_form := 0; r_in := [(SPath 11, 1); (SVal 1, 5)]; r_out := [(Some 21, 20)] |}.

Example C82_case :
  boxed_ok snd once_bb (fun _ => 1%nat) bits1 [0%nat] [1%nat] once_fs (fun _ _ => true) /\
  inhabited_types td tagd twice_arch one1 /\ constr_ok td twice_arch /\ mappable_bb Z.eqb snd once_bb [0%nat] [1%nat] /\
  implementable_bb Z.eqb snd td once_bb bits1 once_fs (fun _ _ => true) /\
  satisfiable_bb Z.eqb teqb (fun _ _ => true) snd td tagd OneHot once_bb bits1 /\
  mode_check once_bb true = Ok tt /\ mode_check once_bb false = Err ValueError.
Proof.
  assert (M : mappable_bb Z.eqb snd once_bb [0%nat] [1%nat]).
  { split; [repeat constructor; intros []|]. split; [repeat constructor; intros []|]. split; [reflexivity|]. split; [discriminate|].
    split; [flat_tac|]. intros p fi f []. }
  assert (Im : implementable_bb Z.eqb snd td once_bb bits1 once_fs (fun _ _ => true)).
  { exists once_rule. split; [|split; [|split]].
    - exists ([1; 5], []). split; [reflexivity|]. split; [|split; [|split]].
      + split; [apply Permutation_refl|]. split.
        * intros p a [E|[E|[]]]; [|discriminate]. injection E as <- <-. exists (1, false). cbn; auto.
        * intros p t [E|[]]. injection E as <- <-. reflexivity.
      + split; [apply Permutation_refl|]. split.
        * intros p a [E|[]]. injection E as <- <-. exists (1, false). cbn; auto.
        * intros p t [E|[]]. injection E as <- <-. reflexivity.
      + intros s p _ [].
      + intros s p t [E|[E|[]]] I; injection E as <- <-; discriminate.
    - exists (fun p => if p =? 5 then 1 else 0). split; [|split; [|reflexivity]].
      + apply typed_bits; [intros p; destruct (p =? 5); auto|flat_tac].
      + intros z p [E|[E|[]]]; [discriminate|]. injection E as <- <-. reflexivity.
    - intros z p zs _ [].
    - intros F HF x l Tx Tl Fo q ap [E|[]]. injection E as <- <-.
      pose proof (Fo (SPath 11) 1 (1, false) ltac:(cbn; auto) ltac:(cbn; auto)) as X1. cbn in X1.
      pose proof (Fo (SVal 1) 5 (1, true) ltac:(cbn; auto) ltac:(cbn; auto)) as X2. cbn in X2. destruct X2 as [X2 _]. specialize (X2 eq_refl).
      unfold once_fs. rewrite X2, X1. reflexivity. }
  split; [exact once_ok|]. split; [exact twice_inhabited|]. split; [intros p zs []|]. split; [exact M|]. split; [exact Im|].
  split; [|split; reflexivity].
  apply (C82_iff_partial Z T unit Z.eqb teqb (fun _ _ => true) snd eqs_ok ltac:(intros [] []; easy) td tagd OneHot once_bb _ _ _ _ _ _ once_ok twice_inhabited);
    [intros p zs []|exact M|exact Im].
Qed.

Print Assumptions C82_iff_partial.
Print Assumptions C82_solve_partial.
Print Assumptions C82_found_partial.
Print Assumptions C82_machine_partial.
Print Assumptions C82_mode.
Print Assumptions C82_uncalled.
Print Assumptions C82_twice_refuted.
Print Assumptions C82_full_refuted.
