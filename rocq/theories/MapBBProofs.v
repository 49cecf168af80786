(** The formula with black boxes holds for all outputs of the boxes iff the formula
    without them holds for every function the boxes may stand for. *)
From Coq Require Import ZArith List Bool Lia Permutation.
From Verif Require Import Base BaseLemmas BindModel BindProps MapIdxModel MapIdxProps CegisModel CegisProps
  MapModel MapProofs MapMain MapProps MapIff MapIffProps BBFormModel BBFormProps MapBBModel.
Import ListNotations.
Open Scope list_scope.
Open Scope Z_scope.

(** * Specification *)
Section Spec.
  Context {P T C : Type} (isconst : T -> bool).
  Variable b : boxed P T C.

  (** What the classes of black boxes compute. The values of each output of a class
      are [odom]. *)
  Definition out_ok (odom : C -> list (list Z)) (c : C) (l : list Z) : Prop := Forall2 (fun z d => In z d) l (odom c).
  Definition respects (odom : C -> list (list Z)) (F : C -> list Z -> list Z) : Prop := forall c ins, out_ok odom c (F c ins).

  (** The architecture and the instruction when the boxes compute [F]. *)
  Definition arch_of (F : C -> list Z -> list Z) : arch P T :=
    {| a_forms := a_forms (b_arch b); a_in := a_in (b_arch b); a_out := a_out (b_arch b); a_constr := a_constr (b_arch b);
       a_has_const := a_has_const (b_arch b);
       a_fsem := fun _ tags l => fun_run (b_cls b) F (b_prog b tags l);
       a_sem := fun tags l => fun_run (b_cls b) F (b_prog b tags l);
       a_fvalid := a_fvalid (b_arch b); a_valid := a_valid (b_arch b) |}.
  Definition instr_of (F : C -> list Z -> list Z) : instr P T :=
    {| i_in := i_in (b_instr b); i_out := i_out (b_instr b); i_sem := fun x => fun_run (b_cls b) F (b_iprog b x) |}.

  (** The objects: whatever the boxes compute, the architecture computes [fs] in its
      forms (as in [arch_ok]); runs look at the variables only; they call the boxes found
      by [get_black_boxes], at least once each, in a fixed order ([aos], [ios]) with the
      number of inputs of the class. *)
  Record boxed_ok (nin : C -> nat) (odom : C -> list (list Z)) (aos ios : list nat)
      (fs : (C -> list Z -> list Z) -> nat -> (P -> Z) -> P -> Z) (fv : nat -> (P -> Z) -> bool) : Prop := {
    bo_arch : forall F, respects odom F -> arch_ok isconst (arch_of F) (fs F) fv;
    bo_instr : forall F, respects odom F -> instr_ok (instr_of F);
    bo_run : forall tags tags' l l', (forall p, In p (tag_paths (b_arch b)) -> tags p = tags' p) ->
      (forall p, In p (map fst (a_in (b_arch b))) -> l p = l' p) ->
      (forall outs, snd (sym_run outs (b_prog b tags l)) = snd (sym_run outs (b_prog b tags' l')) /\
         forall q, fst (sym_run outs (b_prog b tags l)) q = fst (sym_run outs (b_prog b tags' l')) q) /\
      a_valid (b_arch b) tags l = a_valid (b_arch b) tags' l' /\
      forall fi, a_fvalid (b_arch b) fi tags l = a_fvalid (b_arch b) fi tags' l';
    bo_irun : forall x x', (forall p, In p (map fst (i_in (b_instr b))) -> x p = x' p) ->
      forall outs, snd (sym_run outs (b_iprog b x)) = snd (sym_run outs (b_iprog b x')) /\
        forall q, fst (sym_run outs (b_iprog b x)) q = fst (sym_run outs (b_iprog b x')) q;
    bo_nout : forall c, b_nout b c = length (odom c);
    bo_nin : forall c, (0 < nin c)%nat;
    bo_out : forall c, odom c <> [];
    bo_dom : forall c d, In d (odom c) -> d <> [];
    bo_straight : forall tags l, straight (b_cls b) nin aos (b_prog b tags l);
    bo_istraight : forall x, straight (b_cls b) nin ios (b_iprog b x);
    bo_aobjs : NoDup (b_aobjs b);
    bo_iobjs : NoDup (b_iobjs b);
    bo_disj : forall o, In o (b_aobjs b) -> ~ In o (b_iobjs b);
    bo_calls : forall o, In o aos <-> In o (b_aobjs b);
    bo_icalls : forall o, In o ios <-> In o (b_iobjs b) }.
End Spec.

Section Dom.
  Context {P T C : Type} (peqb : P -> P -> bool) (teqb : T -> T -> bool).
  Variables (td : T -> list Z) (tagd : P -> list Z) (odom : C -> list (list Z)) (k : ivar) (b : boxed P T C).
  (** Sorts of the variables. *)
  Definition dom_bb (v : bvar P) : list Z :=
    match v with
    | BV v => dom peqb teqb td tagd k (b_arch b) (b_instr b) v
    | BOut o j => nth j (odom (b_cls b o)) [0]
    end.
  (** The variables of the formula. *)
  Definition vars_bb : list (bvar P) :=
    map BV (vars_of (b_arch b) (b_instr b)) ++
    flat_map (fun o => map (BOut o) (seq 0 (b_nout b (b_cls b o)))) (b_aobjs b ++ b_iobjs b).
  Definition bform (phi : (bvar P -> Z) -> bool) : form (bvar P) := {| CegisModel.fv := vars_bb; sem := phi |}.
End Dom.

Lemma bvar_eqb_eq {P} (peqb : P -> P -> bool) : (forall a b, peqb a b = true <-> a = b) ->
  forall v w, bvar_eqb peqb v w = true <-> v = w.
Proof.
  intros Hp [v|o j] [w|o' j']; cbn [bvar_eqb]; try (split; discriminate).
  - rewrite (var_eqb_eq peqb Hp). split; congruence.
  - rewrite andb_true_iff, !Nat.eqb_eq. split; [intros [-> ->]; auto|]. intros [= -> ->]. auto.
Qed.

Section Runs.
  Context {A : Type}.
  Lemma sym_run_ext (outs outs' : nat -> list Z) (c : comp Z A) :
    (forall o, In o (map fst (snd (sym_run outs c))) -> outs o = outs' o) -> sym_run outs c = sym_run outs' c.
  Proof.
    induction c as [a|o ins kk IH]; cbn [sym_run]; auto. intros H.
    assert (E : outs o = outs' o).
    { apply H. destruct (sym_run outs (kk (outs o))). now left. }
    rewrite <- E. rewrite <- (IH (outs o)); [reflexivity|]. intros o' I. apply H.
    destruct (sym_run outs (kk (outs o))). now right.
  Qed.
End Runs.

Lemma Forall2_nth {X Y} (R : X -> Y -> Prop) l m j x y : Forall2 R l m -> (j < length m)%nat -> R (nth j l x) (nth j m y).
Proof.
  intros F. revert j. induction F as [|a c l m H F IH]; intros [|j] L; cbn [length] in L; try lia; cbn [nth]; auto. apply IH. lia.
Qed.
Lemma Forall2_map_seq {Y} (R : Z -> Y -> Prop) (g : nat -> Z) m d :
  (forall j, (j < length m)%nat -> R (g j) (nth j m d)) -> Forall2 R (map g (seq 0 (length m))) m.
Proof.
  assert (X : forall m n, (forall j, (j < length m)%nat -> R (g (n + j)%nat) (nth j m d)) -> Forall2 R (map g (seq n (length m))) m).
  { clear m. induction m as [|y m IH]; intros n H; cbn [length seq map]; constructor.
    - specialize (H O ltac:(cbn; lia)). now rewrite Nat.add_0_r in H.
    - apply IH. intros j L. specialize (H (S j) ltac:(cbn; lia)). now rewrite Nat.add_succ_r in H. }
  intros H. apply (X m O). exact H.
Qed.
Lemma nth_all (l : list Z) n : length l = n -> map (fun j => nth j l 0) (seq 0 n) = l.
Proof.
  intros <-. induction l as [|z l IH]; auto. cbn [length seq map nth]. f_equal. rewrite <- seq_shift, map_map. exact IH.
Qed.

Section BB.
  Context {P T C : Type} (peqb : P -> P -> bool) (teqb : T -> T -> bool) (ceqb : C -> C -> bool) (isconst : T -> bool).
  Hypothesis Heq : eqs peqb teqb.
  Hypothesis Hc : forall x y, ceqb x y = true <-> x = y.
  Variables (td : T -> list Z) (tagd : P -> list Z) (k : ivar) (b : boxed P T C).
  Variables (nin : C -> nat) (odom : C -> list (list Z)) (aos ios : list nat).
  Variables (fs : (C -> list Z -> list Z) -> nat -> (P -> Z) -> P -> Z) (fv : nat -> (P -> Z) -> bool).
  Hypothesis Hb : boxed_ok isconst b nin odom aos ios fs fv.
  Hypotheses (Na : NoDup aos) (Ni : NoDup ios).
  Notation D := (dom peqb teqb td tagd k (b_arch b) (b_instr b)).
  Notation DB := (dom_bb peqb teqb td tagd odom k b).
  Notation y0 := (forall_simple peqb teqb isconst (b_arch b) (b_instr b)).
  Notation sub := (overlap_sub peqb teqb isconst k (b_arch b) (b_instr b)).

  Lemma setting_len tags l x :
    setting (b_cls b) (fun c (o : list Z) => length o = b_nout b c) (fun c => repeat 0 (b_nout b c)) nin (b_nout b)
      (b_aobjs b) (b_iobjs b) aos ios (b_prog b tags l) (b_iprog b x).
  Proof.
    repeat split; try apply Hb; auto.
    - intros c. apply repeat_length.
    - intros c. rewrite (bo_nout _ _ _ _ _ _ _ _ Hb). pose proof (bo_out _ _ _ _ _ _ _ _ Hb c). destruct (odom c); [congruence|cbn; lia].
  Qed.
  Lemma setting_ok tags l x :
    setting (b_cls b) (out_ok odom) (fun c => map (hd 0) (odom c)) nin (b_nout b)
      (b_aobjs b) (b_iobjs b) aos ios (b_prog b tags l) (b_iprog b x).
  Proof.
    repeat split; try apply Hb; auto.
    - intros c. unfold out_ok. pose proof (bo_dom _ _ _ _ _ _ _ _ Hb c) as N. induction (odom c) as [|d m IH]; constructor.
      + destruct d; [exfalso; eapply N; [now left|reflexivity]|now left].
      + apply IH. intros d' I. apply N. now right.
    - intros c o F. rewrite (bo_nout _ _ _ _ _ _ _ _ Hb). unfold out_ok in F. induction F; cbn; auto.
    - intros c. rewrite (bo_nout _ _ _ _ _ _ _ _ Hb). pose proof (bo_out _ _ _ _ _ _ _ _ Hb c). destruct (odom c); [congruence|cbn; lia].
  Qed.

  (** The value of the formula at one valuation. *)
  Definition consistent_at (r : val P) (outs : nat -> list Z) : Prop :=
    consistent (b_cls b) (b_prog b (tags_of r) (leaves_of r)) (b_iprog b (ir_of r)) outs.
  Definition holds_at (r : val P) (outs : nat -> list Z) : bool :=
    formula_simple peqb teqb isconst k (returned b (fst (sym_run outs (b_prog b (tags_of r) (leaves_of r)))))
      (ireturned b (fst (sym_run outs (b_iprog b (ir_of r))))) r.

  Lemma value_iff r outs : (forall o, length (outs o) = b_nout b (b_cls b o)) ->
    exists v, value_at peqb teqb ceqb isconst k b r outs = Ok v /\ (v = true <-> (consistent_at r outs -> holds_at r outs = true)).
  Proof.
    intros L. unfold value_at.
    destruct (bb_value Z.eqb ceqb Z.eqb_eq Hc (b_cls b) _ _ nin (b_nout b) (b_aobjs b) (b_iobjs b) aos ios
      (b_prog b (tags_of r) (leaves_of r)) (b_iprog b (ir_of r)) (setting_len _ _ _) Na Ni
      (fun oa oi => FLeaf (formula_simple peqb teqb isconst k (returned b oa) (ireturned b oi) r)) outs L) as (g & fa & E & Pg & G).
    rewrite E. cbn [bind fst]. destruct (C30_meaning _ g) as (M1 & M2 & _).
    destruct M2 as (s & Es); [apply Pg; constructor|]. rewrite Es. cbn [bind]. eexists. split; [reflexivity|].
    destruct (M1 s Es) as (_ & M). rewrite (M tt_ev), G. reflexivity.
  Qed.

  Lemma outs_len r o : length (outs_of b r o) = b_nout b (b_cls b o).
  Proof. unfold outs_of. now rewrite map_length, seq_length. Qed.
  Lemma phi_iff r : phi_bb peqb teqb ceqb isconst k b r = true <->
    (consistent_at (sub (plain r)) (outs_of b r) -> holds_at (sub (plain r)) (outs_of b r) = true).
  Proof.
    unfold phi_bb. destruct (value_iff (sub (plain r)) (outs_of b r) (outs_len r)) as (v & -> & H). exact H.
  Qed.

  Lemma outs_sorted r : sorted DB r -> forall o, out_ok odom (b_cls b o) (outs_of b r o).
  Proof.
    intros S o. unfold out_ok, outs_of. rewrite (bo_nout _ _ _ _ _ _ _ _ Hb).
    apply (Forall2_map_seq _ (fun j => r (BOut o j)) (odom (b_cls b o)) [0]). intros j _. exact (S (BOut o j)).
  Qed.

  (** The formula for one interpretation of the boxes. *)
  Definition phi_of (F : C -> list Z -> list Z) (r : val P) : bool :=
    formula_simple peqb teqb isconst k (arch_of b F) (instr_of b F) (sub r).

  Lemma called r outs o : In o (map fst (snd (sym_run outs (b_prog b (tags_of r) (leaves_of r))))) -> In o (b_aobjs b).
  Proof.
    rewrite (proj1 (sym_trace (b_cls b) nin outs aos _ (bo_straight _ _ _ _ _ _ _ _ Hb _ _))). apply Hb.
  Qed.
  Lemma icalled r outs o : In o (map fst (snd (sym_run outs (b_iprog b (ir_of r))))) -> In o (b_iobjs b).
  Proof.
    rewrite (proj1 (sym_trace (b_cls b) nin outs ios _ (bo_istraight _ _ _ _ _ _ _ _ Hb _))). apply Hb.
  Qed.

  Theorem solves_iff r vs vs' : sorted DB r ->
    (solves DB (forall_bb peqb teqb isconst b) {| CegisModel.fv := vs; sem := phi_bb peqb teqb ceqb isconst k b |} r <->
     forall F, respects odom F -> solves D y0 {| CegisModel.fv := vs'; sem := phi_of F |} (plain r)).
  Proof.
    intros S. split.
    - intros Sol F HF s Ss Es. cbn [sem]. unfold phi_of. set (t := sub s).
      destruct (outs_of_fun (b_cls b) (out_ok odom) _ nin (b_nout b) (b_aobjs b) (b_iobjs b) aos ios
        (b_prog b (tags_of t) (leaves_of t)) (b_iprog b (ir_of t)) (setting_ok _ _ _) Na Ni F HF) as (outs & Hok & Co & Ea & Ei).
      pose (objs := b_aobjs b ++ b_iobjs b).
      pose (s' := fun v => match v with
                           | BV v => s v
                           | BOut o j => if existsb (Nat.eqb o) objs && Nat.ltb j (b_nout b (b_cls b o)) then nth j (outs o) 0 else r (BOut o j)
                           end).
      assert (Len : forall o, length (outs o) = b_nout b (b_cls b o)).
      { intros o. destruct (setting_ok (tags_of t) (leaves_of t) (ir_of t)) as (_ & X & _). apply X, Hok. }
      assert (Eo : forall o, In o objs -> outs_of b s' o = outs o).
      { intros o I. unfold outs_of. rewrite <- (nth_all (outs o) _ (Len o)) at 1. apply map_ext_in. intros j J. cbn [s'].
        apply in_seq in J. assert (existsb (Nat.eqb o) objs = true) as -> by (apply existsb_exists; exists o; split; [exact I|apply Nat.eqb_refl]).
        destruct (Nat.ltb_spec j (b_nout b (b_cls b o))); [reflexivity|lia]. }
      assert (S' : sorted DB s').
      { intros [v|o j]; cbn [s' dom_bb]; [apply Ss|]. destruct (existsb _ _ && _) eqn:E; [|exact (S (BOut o j))].
        apply andb_true_iff in E as [_ E]. apply Nat.ltb_lt in E.
        apply (Forall2_nth (fun z d => In z d) (outs o) (odom (b_cls b o)) j 0 [0]); [apply Hok|].
        now rewrite <- (bo_nout _ _ _ _ _ _ _ _ Hb). }
      assert (H : phi_bb peqb teqb ceqb isconst k b s' = true).
      { apply (Sol s' S'). intros [v|o j] N; cbn [s'].
        - apply Es. intros I. apply N. apply in_app_iff. left. now apply in_map.
        - destruct (existsb _ _ && _) eqn:E; [|reflexivity]. exfalso. apply N. apply andb_true_iff in E as [E1 E2].
          apply existsb_exists in E1 as (o' & I & E1). apply Nat.eqb_eq in E1. subst o'. apply Nat.ltb_lt in E2.
          apply in_app_iff. right. apply in_flat_map. exists o. split; [exact I|]. apply in_map. apply in_seq. lia. }
      apply phi_iff in H.
      + unfold holds_at in H. change (sub (plain s')) with t in H.
        rewrite <- (sym_run_ext outs (outs_of b s')) in H.
        2: { intros o I. symmetry. apply Eo. apply in_app_iff. left. eapply called, I. }
        rewrite <- (sym_run_ext outs (outs_of b s')) in H.
        2: { intros o I. symmetry. apply Eo. apply in_app_iff. right. eapply icalled, I. }
        rewrite Ea, Ei in H. exact H.
      + unfold consistent_at. change (sub (plain s')) with t. unfold consistent, calls_of.
        rewrite <- (sym_run_ext outs (outs_of b s')).
        2: { intros o I. symmetry. apply Eo. apply in_app_iff. left. eapply called, I. }
        rewrite <- (sym_run_ext outs (outs_of b s')).
        2: { intros o I. symmetry. apply Eo. apply in_app_iff. right. eapply icalled, I. }
        assert (Q : forall o ins, In (o, ins) (snd (sym_run outs (b_prog b (tags_of t) (leaves_of t))) ++ snd (sym_run outs (b_iprog b (ir_of t)))) -> In o objs).
        { intros o ins I. apply in_app_iff in I as [I|I]; apply (in_map fst) in I; apply in_app_iff; [left; eapply called, I|right; eapply icalled, I]. }
        intros o ins o' ins' I I' Ec Eins. rewrite !Eo by eauto. exact (Co o ins o' ins' I I' Ec Eins).
    - intros H s Ss Es. cbn [sem]. apply phi_iff. intros Co. unfold consistent_at in Co. set (t := sub (plain s)) in *.
      destruct (fun_of_outs Z.eqb ceqb Z.eqb_eq Hc (b_cls b) (out_ok odom) _ nin (b_nout b) (b_aobjs b) (b_iobjs b) aos ios
        (b_prog b (tags_of t) (leaves_of t)) (b_iprog b (ir_of t)) (setting_ok _ _ _) (outs_of b s) (outs_sorted s Ss) Co)
        as (F & HF & Ea & Ei).
      assert (X : phi_of F (plain s) = true).
      { apply (H F HF (plain s)).
        - intros v. exact (Ss (BV v)).
        - intros v N. apply Es. intros I. apply in_app_iff in I as [I|I].
          + apply in_map_iff in I as (v' & [= ->] & I). auto.
          + apply in_flat_map in I as (o & _ & I). apply in_map_iff in I as (j & E & _). discriminate. }
      unfold phi_of in X. fold t in X. unfold holds_at. rewrite <- Ea, <- Ei. exact X.
  Qed.

  (** ** Construction *)
  Lemma build_same (a a' : arch P T) (i i' : instr P T) :
    a_forms a = a_forms a' -> a_in a = a_in a' -> a_out a = a_out a' -> a_constr a = a_constr a' -> a_has_const a = a_has_const a' ->
    i_in i = i_in i' -> i_out i = i_out i' ->
    build_simple peqb teqb isconst k a i =
    match build_simple peqb teqb isconst k a' i' with
    | Ok (BForm y _) => Ok (BForm y (fun r => formula_simple peqb teqb isconst k a i (overlap_sub peqb teqb isconst k a i r)))
    | x => x
    end.
  Proof.
    destruct a as [f1 f2 f3 f4 f5 f6 f7 f8 f9], a' as [g1 g2 g3 g4 g5 g6 g7 g8 g9], i as [h1 h2 h3], i' as [j1 j2 j3].
    cbn [a_forms a_in a_out a_constr a_has_const i_in i_out]. intros -> -> -> -> -> -> ->.
    unfold build_simple. set (a := mkArch _ _ _ _ _ f6 f7 f8 f9). set (a' := mkArch _ _ _ _ _ g6 g7 g8 g9).
    set (i := mkInstr _ _ h3). set (i' := mkInstr _ _ j3).
    change (has_bindings peqb teqb a' i') with (has_bindings peqb teqb a i). destruct (negb (has_bindings peqb teqb a i)); [reflexivity|].
    change (a_has_const a') with (a_has_const a). destruct (negb (a_has_const a)); [reflexivity|].
    change (output_bindings peqb teqb a' i') with (output_bindings peqb teqb a i).
    match goal with |- (if ?c then _ else _) = _ => destruct c; [reflexivity|] end.
    change (empty_constraint a') with (empty_constraint a). destruct (empty_constraint a); reflexivity.
  Qed.

  Lemma built_F F : build_simple peqb teqb isconst k (arch_of b F) (instr_of b F) =
    match build_bb peqb teqb ceqb isconst k b with
    | Ok BBNone => Ok BNone
    | Ok (BBForm _ _) => Ok (BForm y0 (phi_of F))
    | Err e => Err e
    end.
  Proof.
    rewrite (build_same (arch_of b F) (returned b (fun _ => 0)) (instr_of b F) (ireturned b (fun _ => 0))) by reflexivity.
    unfold build_bb. unfold build_simple.
    match goal with |- match (if ?c then _ else _) with _ => _ end = _ => destruct c; [reflexivity|] end.
    match goal with |- match (if ?c then _ else _) with _ => _ end = _ => destruct c; [reflexivity|] end.
    match goal with |- match (if ?c then _ else _) with _ => _ end = _ => destruct c; [reflexivity|] end.
    match goal with |- match (if ?c then _ else _) with _ => _ end = _ => destruct c; [reflexivity|] end.
    cbn [bind]. destruct (value_iff (fun _ => 0) (fun o => repeat 0 (b_nout b (b_cls b o)))) as (v & -> & _).
    { intros o. apply repeat_length. }
    reflexivity.
  Qed.

  Lemma built_form y phi : build_bb peqb teqb ceqb isconst k b = Ok (BBForm y phi) ->
    y = forall_bb peqb teqb isconst b /\ phi = phi_bb peqb teqb ceqb isconst k b.
  Proof.
    unfold build_bb. destruct (build_simple _ _ _ _ _ _) as [[|y' phi']|]; try discriminate. cbn [bind].
    destruct (value_at _ _ _ _ _ _ _ _); [|discriminate]. cbn [bind]. intros [= <- <-]. auto.
  Qed.

  Definition F0 (c : C) (_ : list Z) : list Z := map (hd 0) (odom c).
  Lemma F0_ok : respects odom F0.
  Proof.
    intros c ins. destruct (setting_ok (fun _ => 0) (fun _ => 0) (fun _ => 0)) as (X & _). exact (X c).
  Qed.

  (** ** The formula depends on its variables only. *)
  Lemma returned_ok oa : arch_ok isconst (returned b oa) (fun _ _ => oa) fv.
  Proof.
    pose proof (bo_arch _ _ _ _ _ _ _ _ Hb F0 F0_ok) as A. destruct A. constructor; auto.
  Qed.
  Lemma ireturned_ok oi : instr_ok (ireturned b oi).
  Proof. pose proof (bo_instr _ _ _ _ _ _ _ _ Hb F0 F0_ok) as A. destruct A. constructor; auto. Qed.
  Lemma returned_ext oa : arch_ext (returned b oa).
  Proof.
    intros tags tags' l l' H1 H2. destruct (bo_run _ _ _ _ _ _ _ _ Hb tags tags' l l' H1 H2) as (_ & V & W). auto.
  Qed.

  Lemma formula_out oa oa' oi oi' t : (forall q, oa q = oa' q) -> (forall q, oi q = oi' q) ->
    formula_simple peqb teqb isconst k (returned b oa) (ireturned b oi) t = formula_simple peqb teqb isconst k (returned b oa') (ireturned b oi') t.
  Proof.
    intros Ea Ei. unfold formula_simple.
    change (preconditions peqb teqb isconst k (returned b oa) (ireturned b oi) t) with (preconditions peqb teqb isconst k (returned b oa') (ireturned b oi') t).
    f_equal. f_equal. unfold F_simple. apply forallb_ext_In. intros [bo o] _. cbn [fst snd].
    change (ob_match peqb teqb k (returned b oa) (ireturned b oi)) with (ob_match peqb teqb k (returned b oa') (ireturned b oi')).
    f_equal. apply forallb_ext_In. intros [[q|] ap] _; [|reflexivity]. cbn [fst snd returned ireturned a_sem i_sem]. now rewrite Ea, Ei.
  Qed.

  Lemma bb_wf y phi : build_bb peqb teqb ceqb isconst k b = Ok (BBForm y phi) -> wf (bform b phi).
  Proof.
    intros B. destruct (built_form y phi B) as [-> ->].
    intros r s A. cbn [bform CegisModel.fv sem] in *.
    assert (Ap : forall v, In v (vars_of (b_arch b) (b_instr b)) -> plain r v = plain s v).
    { intros v I. apply A. apply in_app_iff. left. now apply in_map. }
    assert (Ao : forall o, In o (b_aobjs b ++ b_iobjs b) -> outs_of b r o = outs_of b s o).
    { intros o I. unfold outs_of. apply map_ext_in. intros j J. apply A. apply in_app_iff. right. apply in_flat_map. exists o. split; [exact I|now apply in_map]. }
    set (t := sub (plain r)). set (t' := sub (plain s)).
    assert (Wf : forall oa oi, formula_simple peqb teqb isconst k (returned b oa) (ireturned b oi) t = formula_simple peqb teqb isconst k (returned b oa) (ireturned b oi) t').
    { intros oa oi. pose proof (built_F F0) as X. rewrite B in X.
      pose proof (build_same (returned b oa) (arch_of b F0) (ireturned b oi) (instr_of b F0) eq_refl eq_refl eq_refl eq_refl eq_refl eq_refl eq_refl) as Y.
      rewrite X in Y.
      exact (simple_wf peqb teqb isconst (proj1 Heq) (proj2 Heq) k (returned b oa) (ireturned b oi) _ _ (returned_ok oa) (ireturned_ok oi) (returned_ext oa) _ _ Y (plain r) (plain s) Ap). }
    (* the values of the variables after the substitution *)
    assert (At : agree (b_arch b) (b_instr b) t t').
    { pose proof (agree_vars (b_arch b) (b_instr b) (plain r) (plain s) Ap) as (A1 & A2 & A3 & A4 & A5 & A6).
      intros v I. pose proof (Ap v I) as Ev. unfold t, t'. destruct v as [p|p|p| | | |p|p]; cbn [overlap_sub]; auto.
      assert (In p (map fst (a_in (b_arch b)))) as Ip.
      { unfold vars_of in I. rewrite !in_app_iff in I. destruct I as [I|[I|[I|I]]].
        - cbn [In] in I. repeat (destruct I as [I|I]; [discriminate|]). destruct I.
        - apply in_map_iff in I as (? & E & _). discriminate.
        - apply in_map_iff in I as (? & E & _). discriminate.
        - apply in_flat_map in I as (q & I & [E|[E|[E|[]]]]); try discriminate. now injection E as ->. }
      destruct (A6 p Ip) as (B1 & B2 & B3).
      assert (e_conds peqb teqb isconst k (b_arch b) (b_instr b) p (plain r) = e_conds peqb teqb isconst k (b_arch b) (b_instr b) p (plain s)) as ->.
      { unfold e_conds. apply existsb_ext_In. intros fb _. unfold form_match, ib_match, matches. now rewrite A1, A2. }
      destruct (overlap peqb teqb isconst (b_arch b) (b_instr b) p); auto. destruct (e_conds peqb teqb isconst k (b_arch b) (b_instr b) p (plain s)); auto. }
    destruct (agree_vars (b_arch b) (b_instr b) t t' At) as (A1 & A2 & A3 & A4 & A5 & A6).
    destruct (bo_run _ _ _ _ _ _ _ _ Hb (tags_of t) (tags_of t') (leaves_of t) (leaves_of t') A4 (fun p I => proj1 (A6 p I))) as (Ra & _).
    pose proof (bo_irun _ _ _ _ _ _ _ _ Hb (ir_of t) (ir_of t') A5) as Ri.
    assert (Sa : sym_run (outs_of b r) (b_prog b (tags_of t) (leaves_of t)) = sym_run (outs_of b s) (b_prog b (tags_of t) (leaves_of t))).
    { apply sym_run_ext. intros o I. apply Ao. apply in_app_iff. left. eapply called, I. }
    assert (Si : sym_run (outs_of b r) (b_iprog b (ir_of t)) = sym_run (outs_of b s) (b_iprog b (ir_of t))).
    { apply sym_run_ext. intros o I. apply Ao. apply in_app_iff. right. eapply icalled, I. }
    destruct (Ra (outs_of b s)) as [Ra1 Ra2]. destruct (Ri (outs_of b s)) as [Ri1 Ri2].
    assert (Hh : holds_at t (outs_of b r) = holds_at t' (outs_of b s)).
    { unfold holds_at. rewrite Sa, Si, Wf. apply formula_out; auto. }
    assert (Q : forall o ins, In (o, ins) (calls_of (b_prog b (tags_of t) (leaves_of t)) (b_iprog b (ir_of t)) (outs_of b s)) -> In o (b_aobjs b ++ b_iobjs b)).
    { intros o ins I. unfold calls_of in I. apply in_app_iff in I as [I|I]; apply (in_map fst) in I; apply in_app_iff; [left; eapply called, I|right; eapply icalled, I]. }
    assert (Hco : consistent_at t (outs_of b r) <-> consistent_at t' (outs_of b s)).
    { unfold consistent_at, consistent.
      assert (Ec : calls_of (b_prog b (tags_of t) (leaves_of t)) (b_iprog b (ir_of t)) (outs_of b r) =
                   calls_of (b_prog b (tags_of t) (leaves_of t)) (b_iprog b (ir_of t)) (outs_of b s)).
      { unfold calls_of. now rewrite Sa, Si. }
      assert (Ec' : calls_of (b_prog b (tags_of t') (leaves_of t')) (b_iprog b (ir_of t')) (outs_of b s) =
                   calls_of (b_prog b (tags_of t) (leaves_of t)) (b_iprog b (ir_of t)) (outs_of b s)).
      { unfold calls_of. now rewrite Ra1, Ri1. }
      rewrite Ec, Ec'. split; intros H o ins o' ins' I I' E1 E2; specialize (H o ins o' ins' I I' E1 E2);
        rewrite (Ao o), (Ao o') in * by eauto; exact H. }
    apply eq_true_iff_eq. rewrite !phi_iff. fold t t'. rewrite Hh, Hco. reflexivity.
  Qed.

  (** ** Rules *)
  Definition implementable_bb : Prop :=
    exists ru, well_formed peqb isconst (b_arch b) (b_instr b) ru /\ valid_consts td (b_arch b) fv ru /\ allowed_consts (b_arch b) ru /\
      forall F, respects odom F -> correct_any isconst td (arch_of b F) (instr_of b F) (fs F) ru.

  Hypotheses (Hn : inhabited_types td tagd (b_arch b) (b_instr b)) (Hcs : constr_ok td (b_arch b)).
  Hypotheses (Nc : forall p t, In (p, t) (i_in (b_instr b)) -> isconst t = false) (Al : in_all_forms peqb isconst (b_arch b)).

  Lemma rule_bb r vs y phi : build_bb peqb teqb ceqb isconst k b = Ok (BBForm y phi) -> sorted DB r ->
    solves DB y {| CegisModel.fv := vs; sem := phi |} r ->
    exists ru, rr_from_bb peqb teqb isconst k b r = Ok ru /\ well_formed peqb isconst (b_arch b) (b_instr b) ru /\
      valid_consts td (b_arch b) fv ru /\ const_allowed peqb isconst (b_arch b) ru /\
      forall F, respects odom F -> correct_any isconst td (arch_of b F) (instr_of b F) (fs F) ru.
  Proof.
    intros B S Sol. destruct (built_form y phi B) as [-> ->].
    pose proof (proj1 (solves_iff r vs (vars_of (b_arch b) (b_instr b)) S) Sol) as Sols.
    assert (X : forall F, respects odom F -> exists ru, rr_from_bb peqb teqb isconst k b r = Ok ru /\ well_formed peqb isconst (b_arch b) (b_instr b) ru /\
      valid_consts td (b_arch b) fv ru /\ const_allowed peqb isconst (b_arch b) ru /\ correct_any isconst td (arch_of b F) (instr_of b F) (fs F) ru).
    { intros F HF. pose proof (built_F F) as BF. rewrite B in BF.
      pose proof (bo_arch _ _ _ _ _ _ _ _ Hb F HF) as Ha. pose proof (bo_instr _ _ _ _ _ _ _ _ Hb F HF) as Hi.
      assert (Se : seen peqb teqb isconst (arch_of b F) (instr_of b F)).
      { apply (seen_all peqb teqb isconst (proj1 Heq) (proj2 Heq) (arch_of b F) (instr_of b F) (fs F) fv Ha Hi Al). eapply built_has_bindings; eauto. }
      assert (Sp : sorted D (plain r)) by (intros v; exact (S (BV v))).
      destruct (simple_any peqb teqb isconst (proj1 Heq) (proj2 Heq) td k (arch_of b F) (instr_of b F) (fs F) fv Ha Hi Hcs tagd y0 (phi_of F)
        (vars_of (b_arch b) (b_instr b)) (plain r) Nc Se BF Sp (Sols F HF)) as (ru & R & W & V & Co).
      destruct (simple_sound peqb teqb isconst (proj1 Heq) (proj2 Heq) td k (arch_of b F) (instr_of b F) (fs F) fv Ha Hi tagd y0 (phi_of F)
        (vars_of (b_arch b) (b_instr b)) (plain r) BF Sp (Sols F HF)) as (ru' & R' & _ & _ & A & _).
      assert (Y : rr_from_bb peqb teqb isconst k b r = Ok ru').
      { rewrite <- R'. symmetry. apply (rr_ext peqb teqb isconst k (arch_of b F) (instr_of b F)).
        intros v. apply (overlap_sub_id peqb teqb isconst k (arch_of b F) (instr_of b F)).
        exact (no_overlap peqb teqb isconst (proj1 Heq) (proj2 Heq) (arch_of b F) (instr_of b F) (fs F) fv Ha Hi Nc). }
      change (rr_from_bb peqb teqb isconst k b r = Ok ru) in R. rewrite R in Y. injection Y as <-.
      exists ru. split; [exact R|]. split; [exact W|]. split; [exact V|]. split; [exact A|exact Co]. }
    destruct (X F0 F0_ok) as (ru & R & W & V & A & _). exists ru. split; [exact R|]. split; [exact W|]. split; [exact V|]. split; [exact A|].
    intros F HF. destruct (X F HF) as (ru' & R' & _ & _ & _ & Co). rewrite R in R'. injection R' as <-. exact Co.
  Qed.

  Definition satisfiable_bb : Prop :=
    exists y phi r, build_bb peqb teqb ceqb isconst k b = Ok (BBForm y phi) /\ sorted DB r /\
      forall vs, solves DB y {| CegisModel.fv := vs; sem := phi |} r.

  Lemma implementable_found : a_has_const (b_arch b) = true -> i_out (b_instr b) <> [] -> implementable_bb -> satisfiable_bb.
  Proof.
    intros Hh Ho (ru & W & (l0 & Tl0 & Vl0 & Fl0) & Ac & Co).
    destruct (rule_entries peqb teqb isconst (proj1 Heq) (proj2 Heq) (arch_of b F0) (instr_of b F0) (fs F0) fv
      (bo_arch _ _ _ _ _ _ _ _ Hb F0 F0_ok) (bo_instr _ _ _ _ _ _ _ _ Hb F0 F0_ok) ru W) as (f & ibs & bi & bd & bo & o & E1 & E2 & E3 & E4 & P1 & P2).
    destruct Hn as (I1 & I2 & I3).
    assert (X : forall F, respects odom F -> exists y phi, build_simple peqb teqb isconst k (arch_of b F) (instr_of b F) = Ok (BForm y phi) /\
      sorted D (witness peqb isconst td k (b_arch b) (b_instr b) tagd (r_form ru) f bi bo l0) /\
      solves D y {| CegisModel.fv := []; sem := phi |} (witness peqb isconst td k (b_arch b) (b_instr b) tagd (r_form ru) f bi bo l0)).
    { intros F HF. exact (simple_witness peqb teqb isconst (proj1 Heq) (proj2 Heq) td k (arch_of b F) (instr_of b F) (fs F) fv
        (bo_arch _ _ _ _ _ _ _ _ Hb F HF) (bo_instr _ _ _ _ _ _ _ _ Hb F HF) tagd I1 I2 I3 Hcs ru f ibs bi bd bo o l0 []
        Hh Ho Nc W Tl0 Vl0 Fl0 Ac (Co F HF) E1 E2 E3 E4 P1 P2). }
    destruct (X F0 F0_ok) as (y' & phi' & B & Sw & _). pose proof (built_F F0) as BF. rewrite B in BF.
    destruct (build_bb peqb teqb ceqb isconst k b) as [[|y phi]|] eqn:Bb; try discriminate.
    pose (w := witness peqb isconst td k (b_arch b) (b_instr b) tagd (r_form ru) f bi bo l0).
    pose (r := fun v => match v with BV v => w v | BOut o j => hd 0 (nth j (odom (b_cls b o)) [0]) end).
    assert (S : sorted DB r).
    { intros [v|n j]; cbn [r dom_bb]; [apply Sw|]. destruct (nth_in_or_default j (odom (b_cls b n)) [0]) as [I|E]; [|rewrite E; now left].
      apply (bo_dom _ _ _ _ _ _ _ _ Hb) in I. destruct (nth j (odom (b_cls b n)) [0]); [congruence|now left]. }
    exists y, phi, r. split; [exact Bb|]. split; [exact S|]. intros vs. destruct (built_form y phi Bb) as [-> ->].
    apply (solves_iff r vs [] S). intros F HF. destruct (X F HF) as (yF & phiF & BF' & _ & Sol). pose proof (built_F F) as Y. rewrite Bb, BF' in Y.
    injection Y as -> ->. exact Sol.
  Qed.

  Lemma found_implementable : satisfiable_bb -> implementable_bb.
  Proof.
    intros (y & phi & r & B & S & Sol). destruct (built_form y phi B) as [-> ->].
    pose proof (built_F F0) as B0. rewrite B in B0.
    pose proof (bo_arch _ _ _ _ _ _ _ _ Hb F0 F0_ok) as Ha0. pose proof (bo_instr _ _ _ _ _ _ _ _ Hb F0 F0_ok) as Hi0.
    pose (c := near peqb (b_arch b) (fun _ => 0)).
    assert (Ca : allows peqb isconst (b_arch b) c) by exact (near_allows peqb isconst (proj1 Heq) td (arch_of b F0) (fs F0) fv Ha0 Hcs (fun _ => 0)).
    assert (Se : seen peqb teqb isconst (b_arch b) (b_instr b)).
    { apply (seen_all peqb teqb isconst (proj1 Heq) (proj2 Heq) (arch_of b F0) (instr_of b F0) (fs F0) fv Ha0 Hi0 Al).
      eapply built_has_bindings; eauto. }
    pose (r' := fun v => match v with BV v => repair peqb isconst (b_arch b) c (plain r) v | BOut o j => r (BOut o j) end).
    assert (Sp : sorted D (plain r)) by (intros v; exact (S (BV v))).
    assert (Sp' : sorted D (repair peqb isconst (b_arch b) c (plain r))) by exact (repair_sorted peqb teqb isconst (proj1 Heq) td k (arch_of b F0) (instr_of b F0) (fs F0) fv Ha0 Hcs tagd c (plain r) Ca Sp).
    assert (S' : sorted DB r') by (intros [v|o j]; [apply Sp'|exact (S (BOut o j))]).
    assert (Sol' : solves DB (forall_bb peqb teqb isconst b) {| CegisModel.fv := []; sem := phi_bb peqb teqb ceqb isconst k b |} r').
    { apply (solves_iff r' [] [] S'). intros F HF. pose proof (proj1 (solves_iff r [] [] S) (Sol [])) as Sols.
      pose proof (built_F F) as BF. rewrite B in BF.
      exact (repair_simple peqb teqb isconst (proj1 Heq) td k (arch_of b F) (instr_of b F) tagd y0 (phi_of F) [] (plain r) c Se BF (Sols F HF)). }
    destruct (rule_bb r' [] _ _ B S' Sol') as (ru & R & W & V & A & Co). exists ru. split; [exact W|]. split; [exact V|]. split; [|exact Co].
    intros z p zs I Iz. destruct (is_const peqb isconst (b_arch b) p) eqn:E; [eapply A; eauto|].
    destruct (rr_form peqb teqb isconst k (b_arch b) (b_instr b) (plain r') ru R) as (bd & Eru & _). rewrite Eru in I. cbn [r_in] in I.
    apply rin_In in I as ([ip|] & _ & X); [discriminate|]. destruct (_ || _); [|discriminate]. injection X as ->.
    exact (repair_lucky peqb isconst (proj1 Heq) (b_arch b) c (plain r) Ca p zs Iz E).
  Qed.
End BB.
