(** Soundness and completeness of the two synthesis formulas (lemmas for C38-C42). *)
From Coq Require Import ZArith List Bool Lia Permutation.
From Verif Require Import Base BaseLemmas BindModel BindProps MapIdxModel MapIdxProps CegisModel CegisProps MapModel MapProofs.
Import ListNotations.
Open Scope list_scope.
Open Scope Z_scope.

Section Main.
  Context {P T : Type} (peqb : P -> P -> bool) (teqb : T -> T -> bool) (isconst : T -> bool).
  Hypothesis Hp : forall a b, peqb a b = true <-> a = b.
  Hypothesis Ht : forall a b, teqb a b = true <-> a = b.
  Variable td : T -> list Z.
  Variables (k : ivar) (a : arch P T) (i : instr P T).
  Variables (fs : nat -> (P -> Z) -> P -> Z) (fv : nat -> (P -> Z) -> bool).
  Hypothesis Ha : arch_ok isconst a fs fv.
  Hypothesis Hi : instr_ok i.
  Variable tagd : P -> list Z.

  Let ib := input_bindings peqb teqb a i.
  Let ob := output_bindings peqb teqb a i.
  Let mib := max_input_bindings peqb teqb a i.
  Let D := dom peqb teqb td tagd k a i.

  Definition rin (b : list (option P * P)) (r : val P) : list (src P * P) :=
    map (fun e => (match fst e with
                   | Some p => SPath p
                   | None => if is_const peqb isconst a (snd e) || is_constrained peqb a (snd e)
                             then SVal (r (VLeaf (snd e))) else SUnbound
                   end, snd e)) b.

  Lemma shape_rin b r : shape (rin b r) = b.
  Proof.
    unfold shape, rin. rewrite map_map. rewrite <- (map_id b) at 2. apply map_ext. intros [[p|] ap]; cbn [fst snd]; auto.
    destruct (_ || _); reflexivity.
  Qed.

  Lemma rr_ok fi f ibs bi b bo o r :
    nth_error (a_forms a) fi = Some f -> nth_error ib fi = Some ibs -> nth_error ibs bi = Some b -> nth_error ob bo = Some o ->
    form_match k a fi r = true -> ib_match peqb teqb k a i bi r = true -> ob_match peqb teqb k a i bo r = true ->
    rr_from_solver peqb teqb isconst k a i r = Ok {| r_form := fi; r_in := rin b r; r_out := o |} /\
    well_formed peqb isconst a i {| r_form := fi; r_in := rin b r; r_out := o |}.
  Proof.
    intros E1 E2 E3 E4 M1 M2 M3. split.
    - unfold rr_from_solver. unfold form_match, ib_match, ob_match in *.
      pose proof (nth_error_lt _ _ _ E1) as L1. pose proof (nth_error_lt _ _ _ E3) as L2. pose proof (nth_error_lt _ _ _ E4) as L3.
      pose proof (mib_ge peqb teqb a i fi ibs E2) as L4.
      rewrite (matches_decode k (nforms a) _ fi r L1 M1). cbn [bind].
      rewrite (matches_decode k (max_input_bindings peqb teqb a i) _ bi r (Nat.lt_le_trans _ _ _ L2 L4) M2). cbn [bind].
      rewrite (matches_decode k (length (output_bindings peqb teqb a i)) _ bo r L3 M3). cbn [bind].
      unfold nthE. rewrite !Nat2Z.id. fold ib ob. rewrite E2. cbn [bind]. rewrite E3. cbn [bind]. rewrite E4. reflexivity.
    - destruct (ib_typed peqb teqb isconst Hp Ht a i fs fv Ha Hi fi ibs bi b E2 E3) as (f' & Ef & Tb & Cb).
      rewrite E1 in Ef. injection Ef as <-.
      exists f. cbn [r_form r_in r_out]. split; [exact E1|]. rewrite shape_rin. split; [exact Tb|].
      split; [eapply ob_typed; eauto|]. split.
      + intros s p I N. apply in_map_iff in I as ([[q|] ap] & E & I); cbn [fst snd] in E; injection E as <- <-.
        * exfalso. eapply Cb; eauto.
        * apply (is_constrained_In peqb Hp) in N. rewrite N, orb_true_r. eauto.
      + intros s p t I J C. apply in_map_iff in I as ([[q|] ap] & E & I); cbn [fst snd] in E; injection E as <- <-; [discriminate|].
        rewrite (is_const_eq peqb isconst Hp a fs fv Ha _ _ J), C. discriminate.
  Qed.

  Lemma sub_leaves_eq f b r p : type_correct peqb (form_in peqb a f) (i_in i) b ->
    sub_leaves peqb b r p = match find (fun e => peqb p (snd e)) b with
                            | Some (Some ip, _) => r (VIr ip) | _ => r (VLeaf p) end.
  Proof.
    intros (Pm & _ & _). assert (N : NoDup (map snd b)).
    { apply (Permutation_NoDup (Permutation_sym Pm)). apply filter_NoDup_fst, (ok_in _ _ _ _ Ha). }
    clear Pm. induction b as [|[[q|] ap] b IH]; cbn [sub_leaves find snd]; auto.
    - destruct (peqb p ap); auto. inversion N; auto.
    - inversion N; subst. rewrite IH by auto. destruct (peqb p ap) eqn:E; auto. apply Hp in E. subst ap.
      destruct (find _ b) as [[[q|] ap']|] eqn:Ef; auto. apply find_some in Ef as [I E]. apply Hp in E. cbn in E. subst ap'.
      exfalso. apply H1. now apply (in_map snd) in I.
  Qed.

  Lemma sub_leaves_bound f b r p ip : type_correct peqb (form_in peqb a f) (i_in i) b -> In (Some ip, p) b ->
    sub_leaves peqb b r p = r (VIr ip).
  Proof.
    intros Tb I. rewrite (sub_leaves_eq f) by auto.
    destruct (find _ b) as [[s q]|] eqn:E.
    - apply find_some in E as [J E]. apply Hp in E. cbn in E. subst q.
      now rewrite (bound_once peqb isconst a i fs fv Ha f b p s (Some ip)) by auto.
    - exfalso. apply (find_none _ _ E) in I. cbn [snd] in I. rewrite (proj2 (Hp p p) eq_refl) in I. discriminate.
  Qed.

  Lemma sub_leaves_unbound f b r p : type_correct peqb (form_in peqb a f) (i_in i) b -> In (None, p) b ->
    sub_leaves peqb b r p = r (VLeaf p).
  Proof.
    intros Tb I. rewrite (sub_leaves_eq f) by auto.
    destruct (find _ b) as [[s q]|] eqn:E; auto.
    apply find_some in E as [J E]. apply Hp in E. cbn in E. subst q.
    now rewrite (bound_once peqb isconst a i fs fv Ha f b p s None) by auto.
  Qed.

  (** What the universal variables are. *)
  Lemma forall_expanded_In v : In v (forall_expanded peqb teqb isconst a i) <->
    exists ibs b s p, In ibs ib /\ In b ibs /\ In (s, p) b /\ ~ In p (map fst (a_constr a)) /\
      match s with None => is_const peqb isconst a p = false /\ v = VLeaf p | Some ip => v = VIr ip end.
  Proof.
    unfold forall_expanded. fold ib. rewrite in_flat_map. split.
    - intros (ibs & I1 & I). apply in_flat_map in I as (b & I2 & I). apply in_flat_map in I as ((s & p) & I3 & I).
      cbn [fst snd] in I. exists ibs, b, s, p.
      destruct (is_constrained peqb a p) eqn:C.
      { destruct s; destruct I. }
      assert (N : ~ In p (map fst (a_constr a))) by (rewrite <- (is_constrained_In peqb Hp); congruence).
      destruct s as [ip|].
      + destruct I as [<-|[]]. auto.
      + destruct (is_const peqb isconst a p) eqn:Cc; [destruct I|]. destruct I as [<-|[]]. auto 6.
    - intros (ibs & b & s & p & I1 & I2 & I3 & N & E). exists ibs. split; auto. apply in_flat_map. exists b. split; auto.
      apply in_flat_map. exists (s, p). split; auto. cbn [fst snd].
      assert (is_constrained peqb a p = false) as ->.
      { destruct (is_constrained peqb a p) eqn:C; auto. apply (is_constrained_In peqb Hp) in C. contradiction. }
      destruct s as [ip|]; [subst; now left|]. destruct E as [-> ->]. now left.
  Qed.

  Definition in_y (y : list (var P)) (v : var P) : bool := existsb (var_eqb peqb v) y.
  Lemma in_y_In y v : in_y y v = true <-> In v y.
  Proof.
    unfold in_y. rewrite existsb_exists. split.
    - intros (u & I & E). apply (var_eqb_eq peqb Hp) in E. now subst.
    - intros I. exists v. split; auto. now apply (var_eqb_eq peqb Hp).
  Qed.

  (** The model changed to chosen inputs on the universal variables. *)
  Definition choose (y : list (var P)) (r : val P) (x l : P -> Z) : val P :=
    fun v => if in_y y v then match v with VIr p => x p | VLeaf p => l p | VAll p => l p | _ => r v end else r v.

  Lemma binding_path fi ibs bi b s p : nth_error ib fi = Some ibs -> nth_error ibs bi = Some b -> In (s, p) b ->
    In p (map fst (a_in a)).
  Proof.
    intros E1 E2 I. destruct (ib_typed peqb teqb isconst Hp Ht a i fs fv Ha Hi fi ibs bi b E1 E2) as (f & Ef & (Pm & _ & _) & _).
    apply (in_map snd) in I. cbn [snd] in I. apply (Permutation_in _ Pm) in I. unfold form_in in I.
    apply in_map_iff in I as (e & E & J). apply filter_In in J as [J _]. apply in_map_iff. eauto.
  Qed.

  Lemma choose_sorted_expanded r x l : sorted D r -> typed td (i_in i) x -> typed td (a_in a) l ->
    sorted D (choose (forall_expanded peqb teqb isconst a i) r x l).
  Proof.
    intros S Tx Tl v. unfold choose. destruct (in_y _ v) eqn:Ey; [|apply S].
    apply in_y_In in Ey. pose proof Ey as Ey'. apply forall_expanded_In in Ey as (ibs & b & s & p & I1 & I2 & I3 & _ & E).
    apply In_nth_error in I1 as (fi & E1). apply In_nth_error in I2 as (bi & E2).
    destruct s as [ip|].
    - subst v. unfold D. cbn [dom].
      destruct (ib_typed peqb teqb isconst Hp Ht a i fs fv Ha Hi fi ibs bi b E1 E2) as (f & Ef & (_ & Tb & _) & _).
      destruct (Tb ip p I3) as (t & It & _). apply (path_dom_typed peqb Hp); auto. now apply (in_map fst) in It.
    - destruct E as [_ ->]. unfold D. cbn [dom]. apply (path_dom_typed peqb Hp); auto.
      eapply binding_path; eauto.
  Qed.

  (** ** The expanded formula: soundness *)
  Theorem expanded_sound y phi vs r :
    build_expanded peqb teqb isconst k a i = Ok (BForm y phi) -> sorted D r ->
    solves D y {| CegisModel.fv := vs; sem := phi |} r ->
    exists ru, rr_from_solver peqb teqb isconst k a i r = Ok ru /\ well_formed peqb isconst a i ru /\
      (forall p zs z, In (p, zs) (a_constr a) -> is_const peqb isconst a p = true -> In (SVal z, p) (r_in ru) -> In z zs) /\
      ((forall p zs, In (p, zs) (a_constr a) -> is_const peqb isconst a p = false -> In (r (VLeaf p)) zs) ->
       valid_consts td a fv ru /\ correct td a i fs ru).
  Proof.
    unfold build_expanded. destruct (negb (has_bindings peqb teqb a i)); [discriminate|].
    destruct (negb (a_has_const a)); [discriminate|]. destruct (empty_constraint a) eqn:Ec; [discriminate|].
    intros [= <- <-] S Sol.
    (* first the indices, choosing allowed values for the constrained inputs *)
    assert (Pick : forall cs f r0, (forall p zs, In (p, zs) cs -> zs <> []) ->
      constrain_all peqb isconst a cs f r0 = true ->
      exists r', (forall v, (forall p, v <> VLeaf p) -> r' v = r0 v) /\
        (forall p, is_const peqb isconst a p = true -> r' (VLeaf p) = r0 (VLeaf p)) /\ f r' = true).
    { induction cs as [|[p zs] cs IH]; intros f r0 Ne H; cbn [constrain_all] in H; [eauto|].
      apply IH in H; [|intros; eapply Ne; right; eauto]. destruct H as (r' & E & E' & H).
      destruct (is_const peqb isconst a p) eqn:C; [eauto|].
      rewrite forallb_forall in H. destruct zs as [|z zs]; [exfalso; eapply Ne; [now left|reflexivity]|].
      specialize (H z (or_introl eq_refl)). eexists. split; [|split; [|exact H]].
      - intros v Nv. unfold upd. destruct (var_eqb peqb v (VLeaf p)) eqn:Ev; auto.
        apply (var_eqb_eq peqb Hp) in Ev. exfalso. eapply Nv; eauto.
      - intros q Cq. unfold upd. cbn [var_eqb]. destruct (peqb q p) eqn:Eq; auto. apply Hp in Eq. congruence. }
    assert (Ne : forall p zs, In (p, zs) (a_constr a) -> zs <> []).
    { intros p zs I ->. unfold empty_constraint in Ec. apply (f_equal negb) in Ec. cbn in Ec. apply negb_true_iff in Ec.
      assert (existsb (fun pc : P * list Z => match snd pc with [] => true | _ => false end) (a_constr a) = true); [|congruence].
      apply existsb_exists. exists (p, []). auto. }
    pose proof (Sol r S (fun v _ => eq_refl)) as H0. cbn [sem] in H0.
    apply constrain_ex_iff in H0 as [H0 Cex].
    apply Pick in H0 as (r0 & Er0 & Ec0 & H0); [|exact Ne].
    apply disjuncts_iff in H0 as (fi & f & ibs & bi & b & bo & o & E1 & E2 & E3 & E4 & G).
    unfold conj_expanded in G. rewrite !andb_true_iff in G. destruct G as [[[[[M1 G1] G2] M2] M3] G3].
    assert (N1 : form_match k a fi r = true).
    { unfold form_match, matches in *. now rewrite Er0 in M1 by discriminate. }
    assert (N2 : ib_match peqb teqb k a i bi r = true).
    { unfold ib_match, matches in *. now rewrite Er0 in M2 by discriminate. }
    assert (N3 : ob_match peqb teqb k a i bo r = true).
    { unfold ob_match, matches in *. now rewrite Er0 in M3 by discriminate. }
    assert (Tg : forall d, In d (snd f) -> r (VTag (fst d)) = snd d).
    { intros d I. rewrite tag_conds_iff in G2. rewrite <- (Er0 (VTag (fst d))) by discriminate. now apply G2. }
    destruct (rr_ok fi f ibs bi b bo o r E1 E2 E3 E4 N1 N2 N3) as [RR WF].
    exists {| r_form := fi; r_in := rin b r; r_out := o |}. split; [exact RR|]. split; [exact WF|]. cbn [r_in r_out r_form].
    split.
    { intros p zs z I Cp J. apply in_map_iff in J as ([[q|] ap] & E & J); cbn [fst snd] in E; [discriminate|].
      destruct (_ || _); [|discriminate]. injection E as <- <-. eapply Cex; eauto. }
    intros Cn.
    destruct (ib_typed peqb teqb isconst Hp Ht a i fs fv Ha Hi fi ibs bi b E2 E3) as (f' & Ef & Tb & Cb).
    rewrite E1 in Ef. injection Ef as <-.
    split.
    { exists (leaves_of r). split; [|split].
      - intros p t I. specialize (S (VLeaf p)). unfold D in S. cbn [dom] in S.
        now rewrite (path_dom_In peqb Hp td _ p t (ok_in _ _ _ _ Ha) I) in S.
      - intros z p I. apply in_map_iff in I as ([[q|] ap] & E & I); cbn [fst snd] in E; [discriminate|].
        destruct (_ || _); [|discriminate]. now injection E as <- <-.
      - cbn [r_form]. rewrite <- G1. symmetry.
        rewrite (ok_fvalid _ _ _ _ Ha fi f _ _ E1) by (rewrite tag_conds_iff in G2; exact G2).
        apply (ok_vlocal _ _ _ _ Ha fi f _ _ E1). intros p t I J C. unfold leaves_of. apply Ec0.
        now rewrite (is_const_eq peqb isconst Hp a fs fv Ha _ _ J). }
    intros x l Tx Tl Fl q ap Io. cbn [r_in r_out r_form] in *.
    set (y := forall_expanded peqb teqb isconst a i) in *.
    assert (Ch : forall v, ~ In v y -> choose y r x l v = r v).
    { intros v N. unfold choose. destruct (in_y y v) eqn:E; auto. apply in_y_In in E. contradiction. }
    assert (Yl : forall p, In (VLeaf p) y -> is_const peqb isconst a p = false /\ ~ In p (map fst (a_constr a))).
    { intros p I. apply forall_expanded_In in I as (? & ? & s & p' & _ & _ & _ & N & E).
      destruct s; [discriminate|]. destruct E as [E [= ->]]. auto. }
    pose proof (Sol (choose y r x l) ltac:(now apply choose_sorted_expanded) Ch) as H1. cbn [sem] in H1.
    apply constrain_ex_iff in H1 as [H1 _].
    apply (constrain_all_elim peqb isconst Hp) in H1.
    2:{ intros p zs I C. rewrite Ch; [now apply Cn|]. intros J. apply Yl in J as [_ J]. apply J. now apply (in_map fst) in I. }
    destruct H1 as (r1 & Er1 & H1).
    apply disjuncts_iff in H1 as (fi1 & f1 & ibs1 & bi1 & b1 & bo1 & o1 & F1 & F2 & F3 & F4 & G').
    unfold conj_expanded in G'. rewrite !andb_true_iff in G'. destruct G' as [[[[[L1 K1] K2] L2] L3] K3].
    assert (NY : forall v, (forall p, v <> VLeaf p) -> (forall p, v <> VIr p) -> r1 v = r v).
    { intros v A B. rewrite Er1. apply Ch. intros I. apply forall_expanded_In in I as (? & ? & s & ? & _ & _ & _ & _ & E).
      destruct s as [ip|]; [exact (B _ E)|]. destruct E as [_ E]. exact (A _ E). }
    assert (fi1 = fi) as ->.
    { unfold form_match in *. eapply (matches_same k) with (r := r); [eapply nth_error_lt, F1|eapply nth_error_lt, E1| |exact N1].
      unfold matches in *. rewrite NY in L1 by discriminate. exact L1. }
    rewrite E1 in F1. injection F1 as <-. rewrite E2 in F2. injection F2 as <-.
    assert (LE : (length ibs <= mib)%nat) by (eapply mib_ge; exact E2).
    assert (bi1 = bi) as ->.
    { unfold ib_match in *. eapply (matches_same k) with (r := r); [| | |exact N2].
      - eapply Nat.lt_le_trans; [eapply nth_error_lt, F3|exact LE].
      - eapply Nat.lt_le_trans; [eapply nth_error_lt, E3|exact LE].
      - unfold matches in *. rewrite NY in L2 by discriminate. exact L2. }
    assert (bo1 = bo) as ->.
    { unfold ob_match in *. eapply (matches_same k) with (r := r); [eapply nth_error_lt, F4|eapply nth_error_lt, E4| |exact N3].
      unfold matches in *. rewrite NY in L3 by discriminate. exact L3. }
    rewrite E3 in F3. injection F3 as <-. rewrite E4 in F4. injection F4 as <-.
    rewrite forallb_forall in K3. specialize (K3 _ Io). cbn [fst snd] in K3. apply Z.eqb_eq in K3.
    rewrite (ok_fsem _ _ _ _ Ha fi f _ _ _ E1) in K3 by (rewrite tag_conds_iff in K2; exact K2).
    assert (Xin : forall ip ap', In (Some ip, ap') b -> r1 (VIr ip) = x ip).
    { intros ip ap' J. rewrite Er1. unfold choose.
      assert (in_y y (VIr ip) = true) as ->; auto. apply in_y_In, forall_expanded_In.
      exists ibs, b, (Some ip), ap'. split; [eapply nth_error_In, E2|]. split; [eapply nth_error_In, E3|]. eauto. }
    rewrite (ok_ilocal _ Hi _ x) in K3.
    2:{ intros p t I. destruct (ir_bound peqb Hp a i f b p t Tb I) as (ap' & J). unfold ir_of. eauto. }
    rewrite K3. apply (ok_local _ _ _ _ Ha fi f _ _ _ E1). intros p I.
    apply (leaf_bound peqb Hp a i f b p Tb (ok_leaves _ _ _ _ Ha _ _ E1)) in I as (s & J).
    pose proof (Fl _ _ (in_map (fun e => (match fst e with
                   | Some p => SPath p
                   | None => if is_const peqb isconst a (snd e) || is_constrained peqb a (snd e)
                             then SVal (r (VLeaf (snd e))) else SUnbound
                   end, snd e)) b (s, p) J)) as Fp. cbn [fst snd] in Fp.
    destruct s as [ip|].
    - rewrite (sub_leaves_bound f b r1 p ip Tb J). rewrite Fp. eauto.
    - rewrite (sub_leaves_unbound f b r1 p Tb J). rewrite Er1. unfold choose.
      destruct (is_const peqb isconst a p || is_constrained peqb a p) eqn:Ecc.
      + rewrite Fp. destruct (in_y y (VLeaf p)); reflexivity.
      + apply orb_false_iff in Ecc as [Z1 Z2].
        assert (in_y y (VLeaf p) = true) as ->; auto. apply in_y_In, forall_expanded_In.
        exists ibs, b, None, p. split; [eapply nth_error_In, E2|]. split; [eapply nth_error_In, E3|].
        split; [exact J|]. split; [|auto]. rewrite <- (is_constrained_In peqb Hp). congruence.
  Qed.

  (** ** The simple formula *)
  Lemma fbs_In fi bi b : In ((fi, bi), b) (fbs peqb teqb a i) <->
    exists ibs, nth_error ib fi = Some ibs /\ nth_error ibs bi = Some b.
  Proof.
    unfold fbs. fold ib. rewrite in_flat_map. split.
    - intros ((fi' & ibs) & I & J). apply in_map_iff in J as ((bi' & b') & E & J). cbn [fst snd] in *.
      injection E as -> -> ->. apply enumerate_In in I. apply enumerate_In in J. eauto.
    - intros (ibs & E1 & E2). exists (fi, ibs). split; [now apply enumerate_In|]. apply in_map_iff.
      exists (bi, b). split; auto. now apply enumerate_In.
  Qed.

  Lemma forall_arch_In p : In p (forall_arch peqb teqb isconst a i) <->
    exists fb s, In fb (fbs peqb teqb a i) /\ In (s, p) (snd fb) /\ (s = None -> is_const peqb isconst a p = false).
  Proof.
    unfold forall_arch. rewrite in_flat_map. split.
    - intros (fb & I & J). apply in_flat_map in J as ((s & p') & J & K). cbn [fst snd] in K. exists fb, s.
      destruct s as [ip|].
      + destruct K as [<-|[]]. split; auto. split; auto. discriminate.
      + destruct (is_const peqb isconst a p') eqn:C; [destruct K|]. destruct K as [<-|[]]. auto.
    - intros (fb & s & I & J & C). exists fb. split; auto. apply in_flat_map. exists (s, p). split; auto. cbn [fst snd].
      destruct s; [now left|]. rewrite C by reflexivity. now left.
  Qed.

  Lemma forall_ir_In p : In p (forall_ir peqb teqb a i) <->
    exists fb ap, In fb (fbs peqb teqb a i) /\ In (Some p, ap) (snd fb).
  Proof.
    unfold forall_ir. rewrite in_flat_map. split.
    - intros (fb & I & J). apply in_flat_map in J as ((s & p') & J & K). cbn [fst snd] in K.
      destruct s as [ip|]; [destruct K as [<-|[]]|destruct K]. eauto.
    - intros (fb & ap & I & J). exists fb. split; auto. apply in_flat_map. exists (Some p, ap). split; auto. now left.
  Qed.

  Lemma exists_role_iff p b : exists_role peqb isconst a p b = true <-> In (None, p) b /\ is_const peqb isconst a p = true.
  Proof.
    unfold exists_role. rewrite existsb_exists. split.
    - intros ([[q|] ap] & I & E); cbn [fst snd] in E; [discriminate|]. apply andb_true_iff in E as [C E].
      apply Hp in E. subst ap. auto.
    - intros [I C]. exists (None, p). split; auto. cbn [fst snd]. rewrite C. cbn [andb]. now apply Hp.
  Qed.

  Lemma exists_fbs_In p fb : In fb (exists_fbs peqb teqb isconst a i p) <->
    exists b, In (fb, b) (fbs peqb teqb a i) /\ In (None, p) b /\ is_const peqb isconst a p = true.
  Proof.
    unfold exists_fbs. rewrite in_map_iff. split.
    - intros ((fb' & b) & E & I). cbn in E. subst fb'. apply filter_In in I as [I J]. cbn [snd] in J.
      apply exists_role_iff in J. eauto.
    - intros (b & I & J). exists (fb, b). split; auto. apply filter_In. split; auto. cbn [snd]. now apply exists_role_iff.
  Qed.

  Lemma overlap_iff p : overlap peqb teqb isconst a i p = true <->
    In p (forall_arch peqb teqb isconst a i) /\ exists fb, In fb (exists_fbs peqb teqb isconst a i p).
  Proof.
    unfold overlap. rewrite andb_true_iff, (pmem_In peqb Hp), negb_true_iff, Nat.eqb_neq.
    destruct (exists_fbs peqb teqb isconst a i p) as [|fb l]; cbn [length].
    - split; [intros [_ H]; now destruct H|intros [_ (fb & [])]].
    - split; intros [H _]; (split; [auto|]); [exists fb; now left|discriminate].
  Qed.

  Lemma overlap_const p : overlap peqb teqb isconst a i p = true -> is_const peqb isconst a p = true.
  Proof. intros O. apply overlap_iff in O as [_ (fb & I)]. apply exists_fbs_In in I as (b & _ & _ & C). auto. Qed.

  Lemma forall_simple_In v : In v (forall_simple peqb teqb isconst a i) <->
    (exists p, v = VAll p /\ overlap peqb teqb isconst a i p = true /\ In p (forall_arch peqb teqb isconst a i)) \/
    (exists p, v = VLeaf p /\ overlap peqb teqb isconst a i p = false /\ In p (forall_arch peqb teqb isconst a i)) \/
    (exists p, v = VIr p /\ In p (forall_ir peqb teqb a i)).
  Proof.
    unfold forall_simple. rewrite in_app_iff, !in_map_iff. split.
    - intros [(p & E & I)|(p & E & I)].
      + destruct (overlap peqb teqb isconst a i p) eqn:O; [left|right; left]; exists p; auto.
      + right. right. exists p. auto.
    - intros [(p & E & O & I)|[(p & E & O & I)|(p & E & I)]].
      + left. exists p. rewrite O. auto.
      + left. exists p. rewrite O. auto.
      + right. exists p. auto.
  Qed.

  Lemma fb_index r fi ibs bi b fi' ibs' bi' b' :
    nth_error ib fi = Some ibs -> nth_error ibs bi = Some b ->
    nth_error ib fi' = Some ibs' -> nth_error ibs' bi' = Some b' ->
    form_match k a fi r = true -> ib_match peqb teqb k a i bi r = true ->
    form_match k a fi' r = true -> ib_match peqb teqb k a i bi' r = true -> fi' = fi /\ bi' = bi /\ b' = b.
  Proof.
    intros E1 E2 F1 F2 M1 M2 N1 N2.
    assert (fi' = fi) as ->.
    { apply (matches_same k (nforms a) VFi fi' fi r); auto.
      - apply ib_nth in F1 as (f & Ef & _). now apply nth_error_lt in Ef.
      - apply ib_nth in E1 as (f & Ef & _). now apply nth_error_lt in Ef. }
    rewrite E1 in F1. injection F1 as <-.
    pose proof (mib_ge peqb teqb a i fi ibs E1) as LE.
    assert (bi' = bi) as ->.
    { apply (matches_same k (max_input_bindings peqb teqb a i) VBi bi' bi r); auto.
      - eapply Nat.lt_le_trans; [eapply nth_error_lt, F2|exact LE].
      - eapply Nat.lt_le_trans; [eapply nth_error_lt, E2|exact LE]. }
    rewrite E2 in F2. injection F2 as <-. auto.
  Qed.

  Lemma overlap_sub_other r v : (forall p, v <> VLeaf p) -> overlap_sub peqb teqb isconst k a i r v = r v.
  Proof. intros H. destruct v; try reflexivity. now destruct (H p). Qed.

  Lemma overlap_sub_sorted r : sorted D r -> forall p, In (overlap_sub peqb teqb isconst k a i r (VLeaf p)) (path_dom peqb td (a_in a) p).
  Proof.
    intros S p. cbn [overlap_sub]. destruct (overlap _ _ _ _ _ p); [|apply (S (VLeaf p))].
    destruct (e_conds _ _ _ _ _ _ p r); [apply (S (VEx p))|apply (S (VAll p))].
  Qed.

  (** The rule read with the values that the formula constrains: [var_e] for an
      overlapping variable. *)
  Theorem simple_sound y phi vs r :
    build_simple peqb teqb isconst k a i = Ok (BForm y phi) -> sorted D r ->
    solves D y {| CegisModel.fv := vs; sem := phi |} r ->
    let r1 := overlap_sub peqb teqb isconst k a i r in
    exists ru, rr_from_solver peqb teqb isconst k a i r1 = Ok ru /\ well_formed peqb isconst a i ru /\
      valid_consts td a fv ru /\
      (forall p zs z, In (p, zs) (a_constr a) -> is_const peqb isconst a p = true -> In (SVal z, p) (r_in ru) -> In z zs) /\
      ((forall p zs, In (p, zs) (a_constr a) -> is_const peqb isconst a p = false -> In (r (VLeaf p)) zs) ->
       correct td a i fs ru).
  Proof.
    unfold build_simple. destruct (negb (has_bindings peqb teqb a i)); [discriminate|].
    destruct (negb (a_has_const a)); [discriminate|].
    match goal with |- (if ?c then _ else _) = _ -> _ => destruct c; [discriminate|] end.
    destruct (empty_constraint a); [discriminate|].
    intros E. injection E as <- <-. intros S Sol.
    set (r1 := overlap_sub peqb teqb isconst k a i r).
    pose proof (Sol r S (fun v _ => eq_refl)) as H0. cbn [sem] in H0. fold r1 in H0.
    unfold formula_simple, preconditions in H0. rewrite !andb_true_iff in H0.
    destruct H0 as [[[[[Hv Hf] Ho] Hk] Hfb] _].
    apply existsb_exists in Hf as ((fi & f) & If & Hf). apply enumerate_In in If. cbn [fst snd] in Hf.
    apply andb_true_iff in Hf as [M1 G2].
    apply existsb_exists in Ho as ((bo & o) & E4 & M3). apply enumerate_In in E4. cbn [fst] in M3.
    apply existsb_exists in Hfb as (((fi2 & bi) & b) & Ib & Hfb). cbn [fst snd] in Hfb. apply andb_true_iff in Hfb as [M1' M2].
    apply fbs_In in Ib as (ibs & E2 & E3).
    assert (fi2 = fi) as ->.
    { apply (matches_same k (nforms a) VFi fi2 fi r1); auto; [|eapply nth_error_lt, If].
      apply ib_nth in E2 as (f2 & Ef & _). now apply nth_error_lt in Ef. }
    destruct (rr_ok fi f ibs bi b bo o r1 If E2 E3 E4 M1 M2 M3) as [RR WF].
    destruct (ib_typed peqb teqb isconst Hp Ht a i fs fv Ha Hi fi ibs bi b E2 E3) as (f' & Ef & Tb & Cb).
    rewrite If in Ef. injection Ef as <-.
    exists {| r_form := fi; r_in := rin b r1; r_out := o |}. split; [exact RR|]. split; [exact WF|].
    assert (SV : forall z p, In (SVal z, p) (rin b r1) -> z = r1 (VLeaf p) /\ In (None, p) b).
    { intros z p I. apply in_map_iff in I as ([[q|] ap] & E & I); cbn [fst snd] in E; [discriminate|].
      destruct (_ || _); [|discriminate]. injection E as <- <-. auto. }
    assert (Tr : typed td (a_in a) (leaves_of r1)).
    { intros p t I. pose proof (overlap_sub_sorted r S p) as J. now rewrite (path_dom_In peqb Hp td _ p t (ok_in _ _ _ _ Ha) I) in J. }
    rewrite tag_conds_iff in G2.
    split.
    { exists (leaves_of r1). split; [exact Tr|]. split.
      - intros z p I. symmetry. now apply SV.
      - cbn [r_form]. now rewrite <- (ok_valid _ _ _ _ Ha fi f (tags_of r1) _ If G2). }
    split.
    { intros p zs z I C J. cbn [r_in] in J. apply SV in J as [-> _]. unfold constr_conds in Hk. rewrite forallb_forall in Hk.
      specialize (Hk _ I). cbn [fst snd] in Hk. rewrite C in Hk. cbn [Bool.eqb] in Hk. apply existsb_exists in Hk as (z & Iz & E).
      apply Z.eqb_eq in E. now rewrite E. }
    intros Cn x l Tx Tl Fl q ap Io. cbn [r_in r_out r_form] in *.
    set (y := forall_simple peqb teqb isconst a i) in *.
    set (l' := fun p => if pmem peqb p (fst f) then l p else r (VLeaf p)).
    set (s := choose y r x l').
    assert (Lf : forall p, In p (fst f) -> l' p = l p).
    { intros p I. unfold l'. now rewrite (proj2 (pmem_In peqb Hp p (fst f)) I). }
    assert (NY : forall v, ~ In v y -> s v = r v).
    { intros v N. unfold s, choose. destruct (in_y y v) eqn:E; auto. apply in_y_In in E. contradiction. }
    assert (NY' : forall v, (forall p, v <> VAll p) -> (forall p, v <> VLeaf p) -> (forall p, v <> VIr p) -> s v = r v).
    { intros v A B C. apply NY. intros I. apply forall_simple_In in I as [(p & E & _)|[(p & E & _)|(p & E & _)]];
        [exact (A p E)|exact (B p E)|exact (C p E)]. }
    assert (YA : forall p, In (VAll p) y -> s (VAll p) = l' p).
    { intros p I. unfold s, choose. apply in_y_In in I. now rewrite I. }
    assert (YL : forall p, In (VLeaf p) y -> s (VLeaf p) = l' p).
    { intros p I. unfold s, choose. apply in_y_In in I. now rewrite I. }
    assert (YI : forall p, In (VIr p) y -> s (VIr p) = x p).
    { intros p I. unfold s, choose. apply in_y_In in I. now rewrite I. }
    assert (Dl : forall p, In p (map fst (a_in a)) -> In (l' p) (path_dom peqb td (a_in a) p)).
    { intros p I. unfold l'. destruct (pmem peqb p (fst f)); [now apply (path_dom_typed peqb Hp)|apply (S (VLeaf p))]. }
    assert (FA : forall p, In p (forall_arch peqb teqb isconst a i) -> In p (map fst (a_in a))).
    { intros p I. apply forall_arch_In in I as (((fi' & bi') & b') & s' & I & J & _). apply fbs_In in I as (ibs' & J1 & J2).
      eapply binding_path; eauto. }
    assert (Ss : sorted D s).
    { intros v. destruct (in_y y v) eqn:Ey; [|unfold s, choose; rewrite Ey; apply S]. apply in_y_In in Ey.
      pose proof Ey as Ey'. apply forall_simple_In in Ey as [(p & -> & _ & I)|[(p & -> & _ & I)|(p & -> & I)]].
      - rewrite (YA p Ey'). apply Dl; auto.
      - rewrite (YL p Ey'). apply Dl; auto.
      - rewrite (YI p Ey'). unfold D. cbn [dom]. apply forall_ir_In in I as (((fi' & bi') & b') & ap' & I & J). cbn [snd] in J.
        apply fbs_In in I as (ibs' & J1 & J2).
        destruct (ib_typed peqb teqb isconst Hp Ht a i fs fv Ha Hi fi' ibs' bi' b' J1 J2) as (f2 & _ & (_ & Tb2 & _) & _).
        destruct (Tb2 p ap' J) as (t & It & _). apply (path_dom_typed peqb Hp); auto. now apply (in_map fst) in It. }
    pose proof (Sol s Ss NY) as H1. cbn [sem] in H1.
    set (s1 := overlap_sub peqb teqb isconst k a i s) in *.
    assert (N1 : form_match k a fi s1 = true).
    { unfold form_match, matches in *. unfold s1, r1 in *. rewrite overlap_sub_other in * by discriminate.
      rewrite NY' by discriminate. exact M1. }
    assert (N2 : ib_match peqb teqb k a i bi s1 = true).
    { unfold ib_match, matches in *. unfold s1, r1 in *. rewrite overlap_sub_other in * by discriminate.
      rewrite NY' by discriminate. exact M2. }
    assert (N3 : ob_match peqb teqb k a i bo s1 = true).
    { unfold ob_match, matches in *. unfold s1, r1 in *. rewrite overlap_sub_other in * by discriminate.
      rewrite NY' by discriminate. exact M3. }
    assert (Tg : forall d, In d (snd f) -> tags_of s1 (fst d) = snd d).
    { intros d I. unfold tags_of, s1. rewrite overlap_sub_other, NY' by discriminate. rewrite <- (G2 d I).
      unfold r1. now rewrite overlap_sub_other by discriminate. }
    (* the index part of a valuation decides e_conds *)
    assert (EC : forall r2 p, form_match k a fi r2 = true -> ib_match peqb teqb k a i bi r2 = true ->
      forall s0, In (s0, p) b -> e_conds peqb teqb isconst k a i p r2 = true <-> s0 = None /\ is_const peqb isconst a p = true).
    { intros r2 p K1 K2 s0 I. unfold e_conds. rewrite existsb_exists. split.
      - intros ((fi' & bi') & J & M). cbn [fst snd] in M. apply andb_true_iff in M as [Ma Mb].
        apply exists_fbs_In in J as (b' & J & J1 & J2). apply fbs_In in J as (ibs' & F1 & F2).
        destruct (fb_index r2 fi ibs bi b fi' ibs' bi' b') as (-> & -> & ->); auto.
        split; auto. eapply (bound_once peqb isconst a i fs fv Ha f b p); eauto.
      - intros [-> C]. exists (fi, bi). cbn [fst snd]. rewrite K1, K2. split; auto.
        apply exists_fbs_In. exists b. split; auto. apply fbs_In. eauto. }
    assert (N1r : form_match k a fi s = true).
    { unfold form_match, matches in *. unfold s1 in N1. now rewrite overlap_sub_other in N1 by discriminate. }
    assert (N2r : ib_match peqb teqb k a i bi s = true).
    { unfold ib_match, matches in *. unfold s1 in N2. now rewrite overlap_sub_other in N2 by discriminate. }
    assert (M1r : form_match k a fi r = true).
    { unfold form_match, matches in *. unfold r1 in M1. now rewrite overlap_sub_other in M1 by discriminate. }
    assert (M2r : ib_match peqb teqb k a i bi r = true).
    { unfold ib_match, matches in *. unfold r1 in M2. now rewrite overlap_sub_other in M2 by discriminate. }
    assert (FBI : In ((fi, bi), b) (fbs peqb teqb a i)) by (apply fbs_In; eauto).
    (* the leaves of the form in s1 are those of l *)
    assert (LV : forall p, In p (fst f) -> s1 (VLeaf p) = l p).
    { intros p I. pose proof I as If'. apply (leaf_bound peqb Hp a i f b p Tb (ok_leaves _ _ _ _ Ha _ _ If)) in I as (s0 & J).
      pose proof (Fl _ _ (in_map (fun e => (match fst e with
                   | Some p => SPath p
                   | None => if is_const peqb isconst a (snd e) || is_constrained peqb a (snd e)
                             then SVal (r1 (VLeaf (snd e))) else SUnbound
                   end, snd e)) b (s0, p) J)) as Fp. cbn [fst snd] in Fp.
      unfold s1. cbn [overlap_sub]. destruct (overlap peqb teqb isconst a i p) eqn:O.
      - pose proof (overlap_const p O) as C. pose proof O as O'. apply overlap_iff in O as [Oa Oe].
        destruct (e_conds peqb teqb isconst k a i p s) eqn:Ee.
        + apply (EC s p N1r N2r s0 J) in Ee as [-> _]. rewrite C in Fp. cbn [orb] in Fp. rewrite Fp.
          unfold r1. cbn [overlap_sub]. rewrite O'. rewrite (proj2 (EC r p M1r M2r None J)) by auto.
          rewrite NY' by discriminate. reflexivity.
        + rewrite YA; [now apply Lf|]. apply forall_simple_In. left. exists p. auto.
      - destruct s0 as [ip|].
        + rewrite YL; [now apply Lf|]. apply forall_simple_In. right. left. exists p. split; auto. split; auto.
          apply forall_arch_In. exists ((fi, bi), b), (Some ip). split; auto. split; auto. discriminate.
        + destruct (is_const peqb isconst a p) eqn:C.
          * cbn [orb] in Fp. rewrite Fp. unfold r1. cbn [overlap_sub]. rewrite O. apply NY.
            intros Y. apply forall_simple_In in Y as [(p' & E & _)|[(p' & E & _ & Y)|(p' & E & _)]]; try discriminate.
            injection E as <-. assert (overlap peqb teqb isconst a i p = true); [|congruence].
            apply overlap_iff. split; auto. exists (fi, bi). apply exists_fbs_In. exists b. auto.
          * rewrite YL; [now apply Lf|]. apply forall_simple_In. right. left. exists p. split; auto. split; auto.
            apply forall_arch_In. exists ((fi, bi), b), None. auto. }
    assert (IV : forall ip ap', In (Some ip, ap') b -> s1 (VIr ip) = x ip).
    { intros ip ap' J. unfold s1. rewrite overlap_sub_other by discriminate. apply YI.
      apply forall_simple_In. right. right. exists ip. split; auto. apply forall_ir_In. exists ((fi, bi), b), ap'. auto. }
    unfold formula_simple in H1. apply andb_true_iff in H1 as [_ H1].
    assert (KC : constr_conds peqb isconst a false s1 = true).
    { apply forallb_forall. intros (p & zs) I. cbn [fst snd]. destruct (is_const peqb isconst a p) eqn:C; cbn [Bool.eqb]; auto.
      apply existsb_exists. exists (s1 (VLeaf p)). rewrite Z.eqb_refl. split; auto.
      pose proof (Cn p zs I C) as Cp.
      assert (O : overlap peqb teqb isconst a i p = false).
      { destruct (overlap peqb teqb isconst a i p) eqn:O; auto. apply overlap_const in O. congruence. }
      destruct (pmem peqb p (fst f)) eqn:Em.
      - apply (pmem_In peqb Hp) in Em. rewrite (LV p Em).
        apply (leaf_bound peqb Hp a i f b p Tb (ok_leaves _ _ _ _ Ha _ _ If)) in Em as (s0 & J).
        assert (Kp : In p (map fst (a_constr a))) by now apply (in_map fst) in I.
        destruct s0 as [ip|]; [exfalso; eapply Cb; eauto|].
        pose proof (Fl _ _ (in_map (fun e => (match fst e with
                   | Some p => SPath p
                   | None => if is_const peqb isconst a (snd e) || is_constrained peqb a (snd e)
                             then SVal (r1 (VLeaf (snd e))) else SUnbound
                   end, snd e)) b (None, p) J)) as Fp. cbn [fst snd] in Fp.
        apply (is_constrained_In peqb Hp) in Kp. rewrite Kp, orb_true_r in Fp. rewrite Fp.
        unfold r1. cbn [overlap_sub]. now rewrite O.
      - unfold s1. cbn [overlap_sub]. rewrite O. destruct (in_y y (VLeaf p)) eqn:Ey.
        + apply in_y_In in Ey. rewrite (YL p Ey). unfold l'. now rewrite Em.
        + rewrite NY; auto. rewrite <- in_y_In. congruence. }
    assert (FB : existsb (fun fb => fb_cond peqb teqb k a i fb s1) (fbs peqb teqb a i) = true).
    { apply existsb_exists. exists ((fi, bi), b). split; auto. unfold fb_cond. cbn [fst snd]. rewrite N1, N2. cbn [andb].
      apply forallb_forall. intros ([ip|] & ap') J; auto. cbn [fst snd]. apply Z.eqb_eq.
      rewrite (IV ip ap' J). rewrite LV.
      - exact (Fl _ _ (in_map (fun e => (match fst e with
                   | Some p => SPath p
                   | None => if is_const peqb isconst a (snd e) || is_constrained peqb a (snd e)
                             then SVal (r1 (VLeaf (snd e))) else SUnbound
                   end, snd e)) b (Some ip, ap') J)).
      - apply (leaf_bound peqb Hp a i f b ap' Tb (ok_leaves _ _ _ _ Ha _ _ If)). eauto. }
    rewrite KC, FB in H1. cbn [andb negb orb] in H1.
    unfold F_simple in H1. fold ob in H1. rewrite forallb_forall in H1.
    specialize (H1 (bo, o) ltac:(now apply enumerate_In)). cbn [fst snd] in H1. rewrite N3 in H1. cbn [negb orb] in H1.
    rewrite forallb_forall in H1. specialize (H1 _ Io). cbn [fst snd] in H1. apply Z.eqb_eq in H1.
    rewrite (ok_sem _ _ _ _ Ha fi f _ _ _ If Tg) in H1.
    rewrite (ok_ilocal _ Hi _ x) in H1.
    2:{ intros p t I. destruct (ir_bound peqb Hp a i f b p t Tb I) as (ap' & J). unfold ir_of. eauto. }
    rewrite H1. apply (ok_local _ _ _ _ Ha fi f _ _ _ If). exact LV.
  Qed.

  (** ** The expanded formula: completeness *)
  Definition tag_of (f : list P * list (P * Z)) (p : P) : Z :=
    match dget peqb (snd f) p with Some z => z | None => hd 0 (tagd p) end.

  (** A model for a rule: indices, tags of the form, leaves. *)
  Definition witness (fi : nat) (f : list P * list (P * Z)) (bi bo : nat) (l0 : P -> Z) : val P :=
    fun v => match v with
             | VFi => translate_index k (Z.of_nat fi)
             | VBi => translate_index k (Z.of_nat bi)
             | VBo => translate_index k (Z.of_nat bo)
             | VTag p => tag_of f p
             | VIr p => hd 0 (path_dom peqb td (i_in i) p)
             | VLeaf p | VAll p | VEx p =>
                 if pmem peqb p (map fst (a_in a)) then
                   match dget peqb (a_constr a) p with
                   | Some zs => if pmem peqb p (fst f) && is_const peqb isconst a p then l0 p else hd 0 zs
                   | None => l0 p
                   end
                 else 0
             end.

  Hypothesis Htd : forall p t, In (p, t) (i_in i) -> td t <> [].
  Hypothesis Htag : forall p, tagd p <> [].
  Hypothesis Htagf : forall fi f p z, nth_error (a_forms a) fi = Some f -> In (p, z) (snd f) -> In z (tagd p).
  Hypothesis Hc : constr_ok td a.

  Lemma hd_In (l : list Z) : l <> [] -> In (hd 0 l) l.
  Proof. destruct l; [congruence|]. intros _. now left. Qed.

  Lemma translate_dom n j : (j < n)%nat -> In (translate_index k (Z.of_nat j)) (pyrange 0 (2 ^ var_len k (Z.of_nat n))).
  Proof. intros L. apply pyrange_In. apply translate_range. lia. Qed.

  Lemma witness_sorted fi f ibs bi b bo o l0 :
    nth_error (a_forms a) fi = Some f -> nth_error ib fi = Some ibs -> nth_error ibs bi = Some b -> nth_error ob bo = Some o ->
    typed td (a_in a) l0 -> sorted D (witness fi f bi bo l0).
  Proof.
    intros E1 E2 E3 E4 Tl.
    assert (LF : forall p, In (witness fi f bi bo l0 (VLeaf p)) (path_dom peqb td (a_in a) p)).
    { intros p. cbn [witness]. destruct (pmem peqb p (map fst (a_in a))) eqn:Em.
      - apply (pmem_In peqb Hp) in Em. pose proof (path_dom_typed peqb Hp td _ p l0 Tl Em) as J.
        destruct (dget peqb (a_constr a) p) as [zs|] eqn:Ez; auto.
        destruct (_ && _); auto. apply (dget_In peqb Hp) in Ez.
        apply in_map_iff in Em as ((q & t) & Eq & It). cbn in Eq. subst q.
        rewrite (path_dom_In peqb Hp td _ p t (ok_in _ _ _ _ Ha) It).
        destruct (Hc p zs Ez) as [Ne Hz]. apply (Hz t); auto. now apply hd_In.
      - unfold path_dom. destruct (dget peqb (a_in a) p) as [t|] eqn:Et; [|now left].
        apply (dget_In peqb Hp) in Et. apply (in_map fst) in Et. apply (pmem_In peqb Hp) in Et. cbn [fst] in Et. congruence. }
    intros [p|p|p| | | |p|p]; unfold D; cbn [dom]; auto.
    - cbn [witness]. unfold tag_of. destruct (dget peqb (snd f) p) as [z|] eqn:E; [|apply hd_In, Htag].
      apply (dget_In peqb Hp) in E. eapply Htagf; eauto.
    - cbn [witness]. apply hd_In. unfold path_dom. destruct (dget peqb (i_in i) p) as [t|] eqn:E; [|discriminate].
      apply (dget_In peqb Hp) in E. eauto.
    - cbn [witness]. apply translate_dom. eapply nth_error_lt, E1.
    - cbn [witness]. apply translate_dom. eapply Nat.lt_le_trans; [eapply nth_error_lt, E3|]. eapply mib_ge, E2.
    - cbn [witness]. apply translate_dom. eapply nth_error_lt, E4.
    - exact (LF p).
    - exact (LF p).
  Qed.

  (** A well-formed rule picks out entries of the binding lists. *)
  Lemma rule_entries ru : well_formed peqb isconst a i ru ->
    exists f ibs bi b bo o, nth_error (a_forms a) (r_form ru) = Some f /\ nth_error ib (r_form ru) = Some ibs /\
      nth_error ibs bi = Some b /\ nth_error ob bo = Some o /\
      Permutation (shape (r_in ru)) b /\ Permutation (r_out ru) o.
  Proof.
    intros (f & Ef & Tb & To & Wc & _).
    destruct (C31_bindings P T peqb teqb Hp Ht (form_in peqb a f) (i_in i)) as (_ & C1 & _).
    { apply filter_NoDup_fst, (ok_in _ _ _ _ Ha). } { apply (ok_iin _ Hi). }
    destruct (C31_bindings P T peqb teqb Hp Ht (a_out a) (i_out i) (ok_out _ _ _ _ Ha) (ok_iout _ Hi)) as (_ & C2 & _).
    destruct (C1 _ Tb) as (b & P1 & I1). destruct (C2 _ To) as (o & P2 & I2).
    assert (I3 : In b (filter (constraint_filter peqb a) (create_bindings peqb teqb (form_in peqb a f) (i_in i)))).
    { apply filter_In. split; auto. apply forallb_forall. intros [[q|] ap] J; auto. cbn [fst snd].
      apply negb_true_iff. destruct (is_constrained peqb a ap) eqn:C; auto. exfalso.
      apply (is_constrained_In peqb Hp) in C. apply (Permutation_in _ (Permutation_sym P1)) in J.
      apply in_map_iff in J as ((s & ap') & E & J). cbn [fst snd] in E. injection E as E ->.
      destruct (Wc s ap J C) as (z & ->). discriminate. }
    apply In_nth_error in I3 as (bi & E3). apply In_nth_error in I2 as (bo & E4).
    exists f. eexists. exists bi, b, bo, o. split; [exact Ef|]. split; [apply (ib_nth_conv peqb teqb a i _ f Ef)|]. auto.
  Qed.

  Lemma has_bindings_true fi ibs bi b bo o :
    nth_error ib fi = Some ibs -> nth_error ibs bi = Some b -> nth_error ob bo = Some o -> has_bindings peqb teqb a i = true.
  Proof.
    intros E2 E3 E4. unfold has_bindings. apply andb_true_iff. split.
    - apply negb_true_iff, Nat.eqb_neq. pose proof (mib_ge peqb teqb a i fi ibs E2). apply nth_error_lt in E3.
      lia.
    - fold ob. destruct ob; [destruct bo; discriminate|reflexivity].
  Qed.

  Lemma empty_constraint_false : empty_constraint a = false.
  Proof.
    unfold empty_constraint. destruct (existsb _ _) eqn:E; auto. apply existsb_exists in E as ((p & zs) & I & E).
    destruct (Hc p zs I) as [N _]. destruct zs; [congruence|discriminate].
  Qed.

  Theorem expanded_complete ru vs :
    a_has_const a = true ->
    well_formed peqb isconst a i ru -> valid_consts td a fv ru -> allowed_consts a ru -> correct_any isconst td a i fs ru ->
    exists y phi r, build_expanded peqb teqb isconst k a i = Ok (BForm y phi) /\ sorted D r /\
      solves D y {| CegisModel.fv := vs; sem := phi |} r.
  Proof.
    intros Hh WF (l0 & Tl0 & Vl0 & Fl0) Al Cor.
    destruct (rule_entries ru WF) as (f & ibs & bi & b & bo & o & E1 & E2 & E3 & E4 & P1 & P2).
    set (fi := r_form ru) in *.
    eexists _, _, (witness fi f bi bo l0).
    split; [unfold build_expanded; erewrite has_bindings_true by eauto; rewrite Hh, empty_constraint_false; reflexivity|].
    split; [eapply witness_sorted; eauto|].
    set (y := forall_expanded peqb teqb isconst a i).
    intros s Ss Sy. cbn [sem].
    assert (Yl : forall p, In (VLeaf p) y -> is_const peqb isconst a p = false /\ ~ In p (map fst (a_constr a))).
    { intros p I. apply forall_expanded_In in I as (? & ? & s' & p' & _ & _ & _ & N & E).
      destruct s'; [discriminate|]. destruct E as [E [= ->]]. auto. }
    assert (NY : forall v, (forall p, v <> VLeaf p) -> (forall p, v <> VIr p) -> s v = witness fi f bi bo l0 v).
    { intros v A B. apply Sy. intros I. apply forall_expanded_In in I as (? & ? & s' & ? & _ & _ & _ & _ & E).
      destruct s' as [ip|]; [exact (B _ E)|]. destruct E as [_ E]. exact (A _ E). }
    destruct (ib_typed peqb teqb isconst Hp Ht a i fs fv Ha Hi fi ibs bi b E2 E3) as (f' & Ef & Tb & Cb).
    rewrite E1 in Ef. injection Ef as <-.
    (* the value of a constant leaf of the form *)
    assert (CL : forall p t, In p (fst f) -> In (p, t) (a_in a) -> isconst t = true -> s (VLeaf p) = l0 p).
    { intros p t I J C. assert (Cp : is_const peqb isconst a p = true) by now rewrite (is_const_eq peqb isconst Hp a fs fv Ha _ _ J).
      rewrite Sy by (intros Y; apply Yl in Y as [Y _]; congruence).
      cbn [witness]. assert (pmem peqb p (map fst (a_in a)) = true) as -> by (apply (pmem_In peqb Hp); now apply (in_map fst) in J).
      destruct (dget peqb (a_constr a) p); auto. rewrite Cp. assert (pmem peqb p (fst f) = true) as -> by now apply (pmem_In peqb Hp).
      reflexivity. }
    apply constrain_ex_iff. split.
    2:{ intros p zs I C. rewrite Sy by (intros Y; apply Yl in Y as [Y _]; congruence).
        cbn [witness]. pose proof (ok_constr_in _ _ _ _ Ha p ltac:(now apply (in_map fst) in I)) as Jp.
        assert (pmem peqb p (map fst (a_in a)) = true) as -> by now apply (pmem_In peqb Hp).
        rewrite (In_dget peqb Hp _ _ _ (ok_constr _ _ _ _ Ha) I), C, andb_true_r.
        destruct (pmem peqb p (fst f)) eqn:Em; [|apply hd_In; now apply (Hc p)].
        apply (pmem_In peqb Hp) in Em.
        apply (leaf_bound peqb Hp a i f b p Tb (ok_leaves _ _ _ _ Ha _ _ E1)) in Em as (s' & J).
        apply (Permutation_in _ (Permutation_sym P1)) in J. apply in_map_iff in J as ((s'' & ap) & E & J). cbn [fst snd] in E. injection E as E ->.
        destruct WF as (_ & _ & _ & _ & Wc & _). destruct (Wc s'' p J ltac:(now apply (in_map fst) in I)) as (z & ->).
        rewrite (Vl0 z p J). eapply Al; eauto. }
    apply (constrain_all_intro peqb isconst Hp); [apply (ok_constr _ _ _ _ Ha)|].
    intros r' Er' Cr'. apply disjuncts_iff. exists fi, f, ibs, bi, b, bo, o. split; auto. split; auto. split; auto. split; auto.
    assert (NL : forall v, (forall p, v <> VLeaf p) -> r' v = s v).
    { intros v A. apply Er'. intros p ->. now destruct (A p). }
    assert (CL' : forall p t, In p (fst f) -> In (p, t) (a_in a) -> isconst t = true -> r' (VLeaf p) = l0 p).
    { intros p t I J C. rewrite Er'; [eapply CL; eauto|]. intros q [= ->] _.
      now rewrite (is_const_eq peqb isconst Hp a fs fv Ha _ _ J). }
    assert (Tg : forall d, In d (snd f) -> r' (VTag (fst d)) = snd d).
    { intros [p z] I. rewrite NL, NY by discriminate. cbn [witness fst snd]. unfold tag_of.
      now rewrite (In_dget peqb Hp _ _ _ (ok_tags _ _ _ _ Ha fi f E1) I). }
    unfold conj_expanded. rewrite !andb_true_iff. repeat split.
    - unfold form_match. apply matches_iff; [eapply nth_error_lt, E1|]. rewrite NL, NY by discriminate. reflexivity.
    - rewrite (ok_fvalid _ _ _ _ Ha fi f _ _ E1 Tg). rewrite <- Fl0. apply (ok_vlocal _ _ _ _ Ha fi f _ _ E1). exact CL'.
    - apply tag_conds_iff. exact Tg.
    - unfold ib_match. apply matches_iff; [eapply Nat.lt_le_trans; [eapply nth_error_lt, E3|eapply mib_ge, E2]|].
      rewrite NL, NY by discriminate. reflexivity.
    - unfold ob_match. apply matches_iff; [eapply nth_error_lt, E4|]. rewrite NL, NY by discriminate. reflexivity.
    - apply forallb_forall. intros [[q|] ap] Io; auto. cbn [fst snd]. apply Z.eqb_eq.
      rewrite (ok_fsem _ _ _ _ Ha fi f _ _ _ E1 Tg).
      set (l := fun p => if pmem peqb p (fst f) then sub_leaves peqb b r' p else l0 p).
      assert (Lf : forall p, In p (fst f) -> l p = sub_leaves peqb b r' p).
      { intros p I. unfold l. now rewrite (proj2 (pmem_In peqb Hp p (fst f)) I). }
      rewrite (ok_local _ _ _ _ Ha fi f _ l _ E1) by (intros; now rewrite Lf).
      assert (UB : forall p t, In (None, p) b -> In (p, t) (a_in a) -> In (r' (VLeaf p)) (td t)).
      { intros p t I J.
        destruct (is_constrained peqb a p) eqn:K;
          [apply (is_constrained_In peqb Hp) in K|assert (~ In p (map fst (a_constr a))) by (rewrite <- (is_constrained_In peqb Hp); congruence)].
        - destruct (is_const peqb isconst a p) eqn:C.
          + rewrite Er' by (intros q0 [= ->]; auto). specialize (Ss (VLeaf p)). unfold D in Ss. cbn [dom] in Ss.
            now rewrite (path_dom_In peqb Hp td _ p t (ok_in _ _ _ _ Ha) J) in Ss.
          + apply in_map_iff in K as ((p' & zs) & E & K). cbn in E. subst p'.
            eapply (proj2 (Hc p zs K)); eauto.
        - rewrite Er' by (intros q0 [= ->]; contradiction). specialize (Ss (VLeaf p)). unfold D in Ss. cbn [dom] in Ss.
          now rewrite (path_dom_In peqb Hp td _ p t (ok_in _ _ _ _ Ha) J) in Ss. }
      apply (Cor (ir_of r') l).
      + intros p t I. unfold ir_of. rewrite NL by discriminate. specialize (Ss (VIr p)). unfold D in Ss. cbn [dom] in Ss.
        now rewrite (path_dom_In peqb Hp td _ p t (ok_iin _ Hi) I) in Ss.
      + intros p t I. unfold l. destruct (pmem peqb p (fst f)) eqn:Em; [|now apply Tl0].
        apply (pmem_In peqb Hp) in Em. apply (leaf_bound peqb Hp a i f b p Tb (ok_leaves _ _ _ _ Ha _ _ E1)) in Em as ([ip|] & J).
        * rewrite (sub_leaves_bound f b r' p ip Tb J). destruct Tb as (_ & Tb & _). destruct (Tb ip p J) as (t' & J1 & J2).
          apply filter_In in J2 as [J2 _]. assert (t' = t) as ->.
          { pose proof (In_dget peqb Hp _ _ _ (ok_in _ _ _ _ Ha) I). pose proof (In_dget peqb Hp _ _ _ (ok_in _ _ _ _ Ha) J2). congruence. }
          rewrite NL by discriminate. specialize (Ss (VIr ip)). unfold D in Ss. cbn [dom] in Ss.
          now rewrite (path_dom_In peqb Hp td _ ip t (ok_iin _ Hi) J1) in Ss.
        * rewrite (sub_leaves_unbound f b r' p Tb J). eauto.
      + intros s' p t I J.
        assert (K : In (match s' with SPath p0 => Some p0 | _ => None end, p) b).
        { apply (Permutation_in _ P1). apply in_map_iff. exists (s', p). auto. }
        assert (Kf : In p (fst f)) by (apply (leaf_bound peqb Hp a i f b p Tb (ok_leaves _ _ _ _ Ha _ _ E1)); eauto).
        rewrite (Lf p Kf). destruct s' as [ip|z|]; auto.
        * now rewrite (sub_leaves_bound f b r' p ip Tb K).
        * rewrite (sub_leaves_unbound f b r' p Tb K). split.
          { intros C. rewrite <- (Vl0 z p I). eapply CL'; eauto. }
          intros zs Kz. destruct (is_const peqb isconst a p) eqn:C; [|now apply Cr'].
          assert (isconst t = true) by now rewrite <- (is_const_eq peqb isconst Hp a fs fv Ha _ _ J).
          rewrite (CL' p t) by auto. rewrite (Vl0 z p I). eapply Al; eauto.
      + apply (Permutation_in _ (Permutation_sym P2)). exact Io.
  Qed.

  (** Without Const inputs of the IR instruction no variable overlaps. *)
  Lemma no_overlap : (forall p t, In (p, t) (i_in i) -> isconst t = false) ->
    forall p, overlap peqb teqb isconst a i p = false.
  Proof.
    intros Nc p. destruct (overlap peqb teqb isconst a i p) eqn:O; auto. exfalso.
    pose proof (overlap_const p O) as C. apply overlap_iff in O as [I _].
    apply forall_arch_In in I as (((fi & bi) & b) & [ip|] & I & J & N); [|rewrite N in C by reflexivity; discriminate].
    cbn [snd] in J. apply fbs_In in I as (ibs & E1 & E2).
    destruct (ib_typed peqb teqb isconst Hp Ht a i fs fv Ha Hi fi ibs bi b E1 E2) as (f & _ & (_ & Tb & _) & _).
    destruct (Tb ip p J) as (t & I1 & I2). apply filter_In in I2 as [I2 _].
    rewrite (is_const_eq peqb isconst Hp a fs fv Ha _ _ I2) in C. rewrite (Nc _ _ I1) in C. discriminate.
  Qed.

  Lemma overlap_sub_id : (forall p, overlap peqb teqb isconst a i p = false) ->
    forall r v, overlap_sub peqb teqb isconst k a i r v = r v.
  Proof. intros N r [p| | | | | | |]; cbn [overlap_sub]; auto. now rewrite N. Qed.

  Lemma rr_ext r r' : (forall v, r v = r' v) ->
    rr_from_solver peqb teqb isconst k a i r = rr_from_solver peqb teqb isconst k a i r'.
  Proof.
    intros E. unfold rr_from_solver. rewrite !E.
    destruct (decode k _ (r' VFi)) as [fi|]; cbn [bind]; auto.
    destruct (decode k _ (r' VBi)) as [bi|]; cbn [bind]; auto.
    destruct (decode k _ (r' VBo)) as [bo|]; cbn [bind]; auto.
    destruct (nthE _ fi) as [ibs|]; cbn [bind]; auto.
    destruct (nthE _ bi) as [b|]; cbn [bind]; auto.
    destruct (nthE _ bo) as [o|]; cbn [bind]; auto.
    do 2 f_equal. apply map_ext. intros [[q|] ap]; cbn [fst snd]; auto. now rewrite E.
  Qed.

  (** The model does not depend on what is computed. *)
  Lemma simple_witness ru f ibs bi b bo o l0 vs :
    a_has_const a = true -> i_out i <> [] -> (forall p t, In (p, t) (i_in i) -> isconst t = false) ->
    well_formed peqb isconst a i ru ->
    typed td (a_in a) l0 -> (forall z p, In (SVal z, p) (r_in ru) -> l0 p = z) -> fv (r_form ru) l0 = true ->
    allowed_consts a ru -> correct_any isconst td a i fs ru ->
    nth_error (a_forms a) (r_form ru) = Some f -> nth_error ib (r_form ru) = Some ibs ->
    nth_error ibs bi = Some b -> nth_error ob bo = Some o -> Permutation (shape (r_in ru)) b -> Permutation (r_out ru) o ->
    exists y phi, build_simple peqb teqb isconst k a i = Ok (BForm y phi) /\ sorted D (witness (r_form ru) f bi bo l0) /\
      solves D y {| CegisModel.fv := vs; sem := phi |} (witness (r_form ru) f bi bo l0).
  Proof.
    intros Hh Ho Nc WF Tl0 Vl0 Fl0 Al Cor E1 E2 E3 E4 P1 P2.
    set (fi := r_form ru) in *.
    eexists _, _. split.
    { unfold build_simple. erewrite has_bindings_true by eauto. rewrite Hh, empty_constraint_false. cbn [negb].
      match goal with |- (if ?c then _ else _) = _ => assert (c = false) as -> end; [|reflexivity].
      match goal with |- ?c = false => destruct c eqn:Ec end; auto. exfalso.
      apply existsb_exists in Ec as (o1 & Io & Ec). rewrite forallb_forall in Ec.
      apply In_nth_error in Io as (bo1 & Io). apply (ob_typed peqb teqb isconst Hp Ht a i fs fv Ha Hi) in Io.
      destruct (i_out i) as [|[q t] io] eqn:Eo; [congruence|]. destruct Io as (_ & _ & U).
      specialize (U q t (or_introl eq_refl)). unfold uses in U.
      destruct (filter _ o1) as [|e l] eqn:Ef; [discriminate|].
      assert (I : In e (e :: l)) by now left. rewrite <- Ef in I. apply filter_In in I as [I J].
      specialize (Ec e I). destruct (fst e); discriminate. }
    split; [eapply witness_sorted; eauto|].
    set (y := forall_simple peqb teqb isconst a i).
    pose proof (no_overlap Nc) as NO.
    intros s Ss Sy. cbn [sem]. set (s1 := overlap_sub peqb teqb isconst k a i s).
    assert (Es : forall v, s1 v = s v) by (intros v; now apply overlap_sub_id). clearbody s1.
    destruct (ib_typed peqb teqb isconst Hp Ht a i fs fv Ha Hi fi ibs bi b E2 E3) as (f' & Ef & Tb & Cb).
    rewrite E1 in Ef. injection Ef as <-.
    assert (CY : forall p, is_const peqb isconst a p = true -> ~ In (VLeaf p) y).
    { intros p C Y. apply forall_simple_In in Y as [(p' & E & _)|[(p' & E & _ & Y)|(p' & E & _)]]; try discriminate.
      injection E as <-. apply forall_arch_In in Y as (((fi1 & bi1) & b1) & [ip|] & I & J & N); [|rewrite N in C by reflexivity; discriminate].
      cbn [snd] in J. apply fbs_In in I as (ibs1 & F1 & F2).
      destruct (ib_typed peqb teqb isconst Hp Ht a i fs fv Ha Hi fi1 ibs1 bi1 b1 F1 F2) as (f1 & _ & (_ & Tb1 & _) & _).
      destruct (Tb1 ip p J) as (t & I1 & I2). apply filter_In in I2 as [I2 _].
      rewrite (is_const_eq peqb isconst Hp a fs fv Ha _ _ I2) in C. rewrite (Nc _ _ I1) in C. discriminate. }
    assert (NY : forall v, (forall p, v <> VLeaf p) -> (forall p, v <> VIr p) -> (forall p, v <> VAll p) -> s1 v = witness fi f bi bo l0 v).
    { intros v A B C. rewrite Es. apply Sy. intros I.
      apply forall_simple_In in I as [(p & E & _)|[(p & E & _)|(p & E & _)]]; [exact (C p E)|exact (A p E)|exact (B p E)]. }
    assert (CL : forall p t, In p (fst f) -> In (p, t) (a_in a) -> isconst t = true -> s1 (VLeaf p) = l0 p).
    { intros p t I J C. assert (Cp : is_const peqb isconst a p = true) by now rewrite (is_const_eq peqb isconst Hp a fs fv Ha _ _ J).
      rewrite Es, Sy by now apply CY.
      cbn [witness]. assert (pmem peqb p (map fst (a_in a)) = true) as -> by (apply (pmem_In peqb Hp); now apply (in_map fst) in J).
      destruct (dget peqb (a_constr a) p); auto. rewrite Cp. assert (pmem peqb p (fst f) = true) as -> by now apply (pmem_In peqb Hp).
      reflexivity. }
    assert (Tg : forall d, In d (snd f) -> tags_of s1 (fst d) = snd d).
    { intros [p z] I. unfold tags_of. rewrite NY by discriminate. cbn [witness fst snd]. unfold tag_of.
      now rewrite (In_dget peqb Hp _ _ _ (ok_tags _ _ _ _ Ha fi f E1) I). }
    assert (N1 : form_match k a fi s1 = true).
    { apply matches_iff; [eapply nth_error_lt, E1|]. rewrite NY by discriminate. reflexivity. }
    assert (N2 : ib_match peqb teqb k a i bi s1 = true).
    { apply matches_iff; [eapply Nat.lt_le_trans; [eapply nth_error_lt, E3|eapply mib_ge, E2]|]. rewrite NY by discriminate. reflexivity. }
    assert (N3 : ob_match peqb teqb k a i bo s1 = true).
    { apply matches_iff; [eapply nth_error_lt, E4|]. rewrite NY by discriminate. reflexivity. }
    unfold formula_simple, preconditions. rewrite !andb_true_iff. repeat split.
    - rewrite (ok_valid _ _ _ _ Ha fi f _ _ E1 Tg), <- Fl0. apply (ok_vlocal _ _ _ _ Ha fi f _ _ E1). exact CL.
    - apply existsb_exists. exists (fi, f). split; [now apply enumerate_In|]. cbn [fst snd]. rewrite N1. cbn [andb].
      apply tag_conds_iff. exact Tg.
    - apply existsb_exists. exists (bo, o). split; [now apply enumerate_In|]. exact N3.
    - apply forallb_forall. intros (p & zs) I. cbn [fst snd]. destruct (is_const peqb isconst a p) eqn:C; cbn [Bool.eqb]; auto.
      apply existsb_exists. exists (s1 (VLeaf p)). rewrite Z.eqb_refl. split; auto.
      rewrite Es, Sy by now apply CY.
      cbn [witness]. pose proof (ok_constr_in _ _ _ _ Ha p ltac:(now apply (in_map fst) in I)) as Jp.
      assert (pmem peqb p (map fst (a_in a)) = true) as -> by now apply (pmem_In peqb Hp).
      rewrite (In_dget peqb Hp _ _ _ (ok_constr _ _ _ _ Ha) I), C, andb_true_r.
      destruct (pmem peqb p (fst f)) eqn:Em; [|apply hd_In; now apply (Hc p)].
      apply (pmem_In peqb Hp) in Em.
      apply (leaf_bound peqb Hp a i f b p Tb (ok_leaves _ _ _ _ Ha _ _ E1)) in Em as (s' & J).
      apply (Permutation_in _ (Permutation_sym P1)) in J. apply in_map_iff in J as ((s'' & ap) & E & J). cbn [fst snd] in E. injection E as E ->.
      destruct WF as (_ & _ & _ & _ & Wc & _). destruct (Wc s'' p J ltac:(now apply (in_map fst) in I)) as (z & ->).
      rewrite (Vl0 z p J). eapply Al; eauto.
    - apply existsb_exists. exists ((fi, bi), b). split; [apply fbs_In; eauto|]. cbn [fst snd]. now rewrite N1, N2.
    - destruct (constr_conds peqb isconst a false s1 && existsb (fun fb => fb_cond peqb teqb k a i fb s1) (fbs peqb teqb a i)) eqn:Fc; auto.
      cbn [negb orb]. apply andb_true_iff in Fc as [KC FB].
      apply existsb_exists in FB as (((fi1 & bi1) & b1) & Ib & FB). unfold fb_cond in FB. cbn [fst snd] in FB.
      rewrite !andb_true_iff in FB. destruct FB as [[K1 K2] FB]. apply fbs_In in Ib as (ibs1 & F1 & F2).
      destruct (fb_index s1 fi ibs bi b fi1 ibs1 bi1 b1) as (-> & -> & ->); auto. clear F1 F2 K1 K2.
      rewrite forallb_forall in FB.
      unfold F_simple. fold ob. apply forallb_forall. intros (bo1 & o1) Io. apply enumerate_In in Io. cbn [fst snd].
      destruct (ob_match peqb teqb k a i bo1 s1) eqn:K3; auto. cbn [negb orb].
      assert (bo1 = bo) as ->.
      { apply (matches_same k (length ob) VBo bo1 bo s1); auto; eapply nth_error_lt; eauto. }
      rewrite E4 in Io. injection Io as <-.
      apply forallb_forall. intros [[q|] ap] Io; auto. cbn [fst snd]. apply Z.eqb_eq.
      rewrite (ok_sem _ _ _ _ Ha fi f _ _ _ E1 Tg).
      assert (Ts : forall p t, In (p, t) (a_in a) -> In (s1 (VLeaf p)) (td t)).
      { intros p t I. rewrite Es. specialize (Ss (VLeaf p)). unfold D in Ss. cbn [dom] in Ss.
        now rewrite (path_dom_In peqb Hp td _ p t (ok_in _ _ _ _ Ha) I) in Ss. }
      apply (Cor (ir_of s1) (leaves_of s1)).
      + intros p t I. unfold ir_of. rewrite Es. specialize (Ss (VIr p)). unfold D in Ss. cbn [dom] in Ss.
        now rewrite (path_dom_In peqb Hp td _ p t (ok_iin _ Hi) I) in Ss.
      + intros p t I. unfold leaves_of. now apply Ts.
      + intros s' p t I J. unfold leaves_of, ir_of.
        assert (K : In (match s' with SPath p0 => Some p0 | _ => None end, p) b).
        { apply (Permutation_in _ P1). apply in_map_iff. exists (s', p). auto. }
        assert (Kf : In p (fst f)) by (apply (leaf_bound peqb Hp a i f b p Tb (ok_leaves _ _ _ _ Ha _ _ E1)); eauto).
        destruct s' as [ip|z|]; auto.
        * specialize (FB _ K). cbn [fst snd] in FB. now apply Z.eqb_eq.
        * split.
          { intros C. rewrite <- (Vl0 z p I). eapply CL; eauto. }
          intros zs Kz. destruct (is_const peqb isconst a p) eqn:C.
          { assert (isconst t = true) by now rewrite <- (is_const_eq peqb isconst Hp a fs fv Ha _ _ J).
            rewrite (CL p t) by auto. rewrite (Vl0 z p I). eapply Al; eauto. }
          unfold constr_conds in KC. rewrite forallb_forall in KC. specialize (KC _ Kz). cbn [fst snd] in KC. rewrite C in KC.
          cbn [Bool.eqb] in KC. apply existsb_exists in KC as (z' & Iz & E). apply Z.eqb_eq in E. now rewrite E.
      + apply (Permutation_in _ (Permutation_sym P2)). exact Io.
  Qed.

  Theorem simple_complete ru vs :
    a_has_const a = true -> i_out i <> [] -> (forall p t, In (p, t) (i_in i) -> isconst t = false) ->
    well_formed peqb isconst a i ru -> valid_consts td a fv ru -> allowed_consts a ru -> correct_any isconst td a i fs ru ->
    exists y phi r, build_simple peqb teqb isconst k a i = Ok (BForm y phi) /\ sorted D r /\
      solves D y {| CegisModel.fv := vs; sem := phi |} r.
  Proof.
    intros Hh Ho Nc WF (l0 & Tl0 & Vl0 & Fl0) Al Cor.
    destruct (rule_entries ru WF) as (f & ibs & bi & b & bo & o & E1 & E2 & E3 & E4 & P1 & P2).
    destruct (simple_witness ru f ibs bi b bo o l0 vs Hh Ho Nc WF Tl0 Vl0 Fl0 Al Cor E1 E2 E3 E4 P1 P2) as (y & phi & H). eauto.
  Qed.

  (** ** Free variables *)
  Definition tag_paths : list P := flat_map (fun f => map fst (snd f)) (a_forms a).
  Definition vars_of : list (var P) :=
    [VFi; VBi; VBo] ++ map VTag tag_paths ++ map VIr (map fst (i_in i)) ++
    flat_map (fun p => [VLeaf p; VAll p; VEx p]) (map fst (a_in a)).

  (** The functions of the architecture look at its variables only. *)
  Definition arch_ext : Prop :=
    forall tags tags' l l', (forall p, In p tag_paths -> tags p = tags' p) -> (forall p, In p (map fst (a_in a)) -> l p = l' p) ->
      (forall fi q, a_fsem a fi tags l q = a_fsem a fi tags' l' q) /\ (forall q, a_sem a tags l q = a_sem a tags' l' q) /\
      (forall fi, a_fvalid a fi tags l = a_fvalid a fi tags' l') /\ a_valid a tags l = a_valid a tags' l'.

  Definition agree (s s' : val P) : Prop := forall v, In v vars_of -> s v = s' v.

  Lemma agree_vars s s' : agree s s' ->
    s VFi = s' VFi /\ s VBi = s' VBi /\ s VBo = s' VBo /\ (forall p, In p tag_paths -> s (VTag p) = s' (VTag p)) /\
    (forall p, In p (map fst (i_in i)) -> s (VIr p) = s' (VIr p)) /\
    (forall p, In p (map fst (a_in a)) -> s (VLeaf p) = s' (VLeaf p) /\ s (VAll p) = s' (VAll p) /\ s (VEx p) = s' (VEx p)).
  Proof.
    intros A. unfold agree, vars_of in A. repeat split; intros; apply A; rewrite !in_app_iff, ?in_map_iff, ?in_flat_map; cbn [In]; eauto 10.
  Qed.

  Lemma form_match_ext s s' j : s VFi = s' VFi -> form_match k a j s = form_match k a j s'.
  Proof. intros E. unfold form_match, matches. now rewrite E. Qed.
  Lemma ib_match_ext s s' j : s VBi = s' VBi -> ib_match peqb teqb k a i j s = ib_match peqb teqb k a i j s'.
  Proof. intros E. unfold ib_match, matches. now rewrite E. Qed.
  Lemma ob_match_ext s s' j : s VBo = s' VBo -> ob_match peqb teqb k a i j s = ob_match peqb teqb k a i j s'.
  Proof. intros E. unfold ob_match, matches. now rewrite E. Qed.

  Lemma tag_conds_ext s s' fi f : nth_error (a_forms a) fi = Some f -> (forall p, In p tag_paths -> s (VTag p) = s' (VTag p)) ->
    tag_conds f s = tag_conds f s'.
  Proof.
    intros E A. unfold tag_conds. apply nth_error_In in E.
    assert (X : forall d, In d (snd f) -> s (VTag (fst d)) = s' (VTag (fst d))).
    { intros d I. apply A. apply in_flat_map. exists f. split; auto. now apply in_map. }
    clear E. induction (snd f) as [|d l IH]; auto. cbn [forallb]. rewrite (X d) by now left. rewrite IH; auto.
    intros e I. apply X. now right.
  Qed.

  Lemma forallb_ext_In {X} (g h : X -> bool) l : (forall x, In x l -> g x = h x) -> forallb g l = forallb h l.
  Proof. intros H. induction l as [|x l IH]; auto. cbn [forallb]. rewrite H by now left. rewrite IH; auto. intros y I. apply H. now right. Qed.
  Lemma existsb_ext_In {X} (g h : X -> bool) l : (forall x, In x l -> g x = h x) -> existsb g l = existsb h l.
  Proof. intros H. induction l as [|x l IH]; auto. cbn [existsb]. rewrite H by now left. rewrite IH; auto. intros y I. apply H. now right. Qed.

  Lemma disjuncts_agree : arch_ext -> forall t t', agree t t' ->
    existsb (fun f : val P -> bool => f t) (disjuncts_expanded peqb teqb k a i) =
    existsb (fun f : val P -> bool => f t') (disjuncts_expanded peqb teqb k a i).
  Proof.
    intros Ext t t' A. set (base := fun r => existsb (fun f : val P -> bool => f r) (disjuncts_expanded peqb teqb k a i)).
    change (base t = base t').
    destruct (agree_vars t t' A) as (A1 & A2 & A3 & A4 & A5 & A6).
      assert (Im : forall u u', agree u u' -> base u = true -> base u' = true).
      { clear t t' A A1 A2 A3 A4 A5 A6. intros t t' A. destruct (agree_vars t t' A) as (A1 & A2 & A3 & A4 & A5 & A6).
        unfold base. rewrite !disjuncts_iff.
        intros (fi & f & ibs & bi & b & bo & o & E1 & E2 & E3 & E4 & G).
        exists fi, f, ibs, bi, b, bo, o. split; auto. split; auto. split; auto. split; auto. rewrite <- G. symmetry.
        destruct (ib_typed peqb teqb isconst Hp Ht a i fs fv Ha Hi fi ibs bi b E2 E3) as (f' & _ & (_ & Tb & _) & _).
        unfold conj_expanded.
        assert (Lv : forall p, In p (map fst (a_in a)) -> sub_leaves peqb b t p = sub_leaves peqb b t' p).
        { intros p I. assert (Tb' : forall ip ap, In (Some ip, ap) b -> In ip (map fst (i_in i))).
          { intros ip ap J. destruct (Tb ip ap J) as (tt & J1 & _). now apply (in_map fst) in J1. }
          clear - A5 A6 I Tb'. induction b as [|[[ip|] ap] b IH]; cbn [sub_leaves]; [now apply A6| |].
          - destruct (peqb p ap); [|apply IH; intros; eapply Tb'; right; eauto]. apply A5. eapply Tb'. now left.
          - apply IH. intros. eapply Tb'. right. eauto. }
        destruct (Ext (tags_of t) (tags_of t') (leaves_of t) (leaves_of t') A4 (fun p I => proj1 (A6 p I))) as (_ & _ & X3 & _).
        destruct (Ext (tags_of t) (tags_of t') (sub_leaves peqb b t) (sub_leaves peqb b t') A4 Lv) as (X1 & _ & _ & _).
        rewrite (form_match_ext t t' fi A1), (X3 fi), (tag_conds_ext t t' fi f E1 A4), (ib_match_ext t t' bi A2), (ob_match_ext t t' bo A3).
        f_equal. apply forallb_ext_In. intros [[q|] ap] _; auto. cbn [fst snd]. rewrite (X1 fi ap).
        rewrite (ok_ilocal _ Hi (ir_of t) (ir_of t') q); auto. intros p tt I. apply A5. now apply (in_map fst) in I. }
      destruct (base t) eqn:B1, (base t') eqn:B2; auto.
      - rewrite (Im t t' A B1) in B2. discriminate.
      - assert (base t = true) by (apply (Im t' t); auto; intros v I; symmetry; now apply A). congruence.
  Qed.

  Lemma expanded_wf : arch_ext -> forall y phi, build_expanded peqb teqb isconst k a i = Ok (BForm y phi) ->
    wf {| CegisModel.fv := vars_of; sem := phi |}.
  Proof.
    intros Ext y phi. unfold build_expanded. destruct (negb (has_bindings peqb teqb a i)); [discriminate|].
    destruct (negb (a_has_const a)); [discriminate|]. destruct (empty_constraint a); [discriminate|].
    intros E. injection E as <- <-. intros s s'. cbn [CegisModel.fv sem]. fold (agree s s').
    pose proof (disjuncts_agree Ext) as HB.
    assert (HA : forall cs f, (forall t t', agree t t' -> f t = f t') ->
      forall t t', agree t t' -> constrain_all peqb isconst a cs f t = constrain_all peqb isconst a cs f t').
    { induction cs as [|[p zs] cs IH]; intros f Hf t t' A; cbn [constrain_all]; [now apply Hf|].
      apply IH; auto. intros u u' A'. destruct (is_const peqb isconst a p); [now apply Hf|].
      apply forallb_ext_In. intros z _. apply Hf. intros v I. unfold upd. destruct (var_eqb peqb v (VLeaf p)); auto. }
    assert (HE : forall cs, incl (map fst cs) (map fst (a_in a)) -> forall f, (forall t t', agree t t' -> f t = f t') ->
      forall t t', agree t t' -> constrain_ex peqb isconst a cs f t = constrain_ex peqb isconst a cs f t').
    { induction cs as [|[p zs] cs IH]; intros Ic f Hf t t' A; cbn [constrain_ex]; [now apply Hf|].
      apply IH; auto; [intros x I; apply Ic; now right|].
      intros u u' A'. destruct (is_const peqb isconst a p); [|now apply Hf].
      rewrite (Hf u u' A'). f_equal. apply existsb_ext_In. intros z _.
      destruct (agree_vars u u' A') as (_ & _ & _ & _ & _ & A6). now rewrite (proj1 (A6 p (Ic p (or_introl eq_refl)))). }
    intros A. apply HE; auto. apply (ok_constr_in _ _ _ _ Ha).
  Qed.

  Lemma simple_wf : arch_ext -> forall y phi, build_simple peqb teqb isconst k a i = Ok (BForm y phi) ->
    wf {| CegisModel.fv := vars_of; sem := phi |}.
  Proof.
    intros Ext y phi. unfold build_simple. destruct (negb (has_bindings peqb teqb a i)); [discriminate|].
    destruct (negb (a_has_const a)); [discriminate|].
    match goal with |- (if ?c then _ else _) = _ -> _ => destruct c; [discriminate|] end.
    destruct (empty_constraint a); [discriminate|].
    intros E. injection E as <- <-. intros s s'. cbn [CegisModel.fv sem]. fold (agree s s'). intros A0.
    assert (A : agree (overlap_sub peqb teqb isconst k a i s) (overlap_sub peqb teqb isconst k a i s')).
    { destruct (agree_vars s s' A0) as (A1 & A2 & A3 & A4 & A5 & A6).
      intros v I. pose proof (A0 v I) as Ev. destruct v as [p|p|p| | | |p|p]; cbn [overlap_sub]; auto.
      assert (In p (map fst (a_in a))) as Ip.
      { unfold vars_of in I. rewrite !in_app_iff in I. destruct I as [I|[I|[I|I]]].
        - cbn [In] in I. repeat (destruct I as [I|I]; [discriminate|]). destruct I.
        - apply in_map_iff in I as (? & E & _). discriminate.
        - apply in_map_iff in I as (? & E & _). discriminate.
        - apply in_flat_map in I as (q & I & [E|[E|[E|[]]]]); try discriminate. now injection E as ->. }
      destruct (A6 p Ip) as (B1 & B2 & B3).
      assert (e_conds peqb teqb isconst k a i p s = e_conds peqb teqb isconst k a i p s') as ->.
      { unfold e_conds. apply existsb_ext_In. intros fb _. now rewrite (form_match_ext s s'), (ib_match_ext s s'). }
      destruct (overlap peqb teqb isconst a i p); auto. destruct (e_conds peqb teqb isconst k a i p s'); auto. }
    clear A0. set (t := overlap_sub peqb teqb isconst k a i s) in *. set (t' := overlap_sub peqb teqb isconst k a i s') in *. clearbody t t'.
    destruct (agree_vars t t' A) as (A1 & A2 & A3 & A4 & A5 & A6).
    destruct (Ext (tags_of t) (tags_of t') (leaves_of t) (leaves_of t') A4 (fun p I => proj1 (A6 p I))) as (_ & X2 & _ & X4).
    assert (CC : forall c, constr_conds peqb isconst a c t = constr_conds peqb isconst a c t').
    { intros c. apply forallb_ext_In. intros (p & zs) I. cbn [fst snd]. destruct (Bool.eqb _ c); auto.
      apply existsb_ext_In. intros z _. apply (in_map fst) in I. now rewrite (proj1 (A6 p (ok_constr_in _ _ _ _ Ha p I))). }
    unfold formula_simple. f_equal; [unfold preconditions; f_equal; [f_equal; [f_equal; [f_equal|]|]|]|f_equal; [f_equal; f_equal|]].
    - exact X4.
    - apply existsb_ext_In. intros (fi & f) I. apply enumerate_In in I. cbn [fst snd].
      now rewrite (form_match_ext t t'), (tag_conds_ext t t' fi f).
    - apply existsb_ext_In. intros (bo & o) _. now apply ob_match_ext.
    - apply CC.
    - apply existsb_ext_In. intros ((fi & bi) & b) _. cbn [fst snd]. now rewrite (form_match_ext t t'), (ib_match_ext t t').
    - apply CC.
    - apply existsb_ext_In. intros ((fi & bi) & b) I. apply fbs_In in I as (ibs & E1 & E2). unfold fb_cond. cbn [fst snd].
      rewrite (form_match_ext t t'), (ib_match_ext t t') by auto. f_equal. apply forallb_ext_In. intros [[ip|] ap] J; auto. cbn [fst snd].
      pose proof (binding_path fi ibs bi b _ ap E1 E2 J) as Jp. rewrite (proj1 (A6 ap Jp)).
      destruct (ib_typed peqb teqb isconst Hp Ht a i fs fv Ha Hi fi ibs bi b E1 E2) as (f' & _ & (_ & Tb & _) & _).
      destruct (Tb ip ap J) as (tt & J1 & _). rewrite (A5 ip); auto. now apply (in_map fst) in J1.
    - apply forallb_ext_In. intros (bo & o) _. cbn [fst snd]. rewrite (ob_match_ext t t') by auto. f_equal.
      apply forallb_ext_In. intros [[q|] ap] _; auto. cbn [fst snd]. rewrite X2.
      rewrite (ok_ilocal _ Hi (ir_of t) (ir_of t') q); auto. intros p tt I. apply A5. now apply (in_map fst) in I.
  Qed.
End Main.
