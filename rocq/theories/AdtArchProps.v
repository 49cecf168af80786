(** C86: the mapper's view of a Peak class with assembled types. *)
From Coq Require Import String ZArith List Bool Lia Permutation.
From Verif Require Import Base BaseLemmas BindModel MapIdxModel MapIdxProps BindProps MapModel MapProofs MapMain MapProps MapIff MapIffProps MapDirect
  RegPeModel RegPeProofs RegPeProps MapDirectProps MapConst MapConstProps
  AsmModel AsmSpec AsmValid AsmEnum AsmBuild AsmProofs AsmSub AsmCheck AsmMore AsmProps Asm2Model Asm2Proofs AadtModel AadtProofs FormModel FormProofs FormMain FormProps
  AdtArchModel AdtArchProofs AdtArchMain.
Import ListNotations.
Open Scope string_scope.
Open Scope list_scope.
Open Scope Z_scope.

(** A class whose types are well formed, with assemblers built for them in any
    history. *)
Record class_ok (C : pclass) : Prop := {
  k_hi : exists h, Forall wf_ty (in_ty C :: h) /\ built h (in_ty C) (c_ia C);
  k_ho : exists h, Forall wf_ty (out_ty C :: h) /\ built h (out_ty C) (c_oa C);
  k_mi : Forall (fun f => wf_mty (snd f)) (c_in C);
  k_mo : Forall (fun f => wf_mty (snd f)) (c_out C) }.

Lemma k_in C : class_ok C -> exists R, good_request R /\ wf_ty (in_ty C) /\ asm_rel R (in_ty C) (c_ia C).
Proof. intros K. destruct (k_hi C K) as (h & W & B). exists (reqs (in_ty C :: h)). split; [apply reqs_good; auto|]. split; [inversion W; auto|apply built_rel; auto]. Qed.
Lemma k_out C : class_ok C -> exists R, good_request R /\ wf_ty (out_ty C) /\ asm_rel R (out_ty C) (c_oa C).
Proof. intros K. destruct (k_ho C K) as (h & W & B). exists (reqs (out_ty C :: h)). split; [apply reqs_good; auto|]. split; [inversion W; auto|apply built_rel; auto]. Qed.

Lemma arch_buildable C cs A : class_ok C -> adt_arch C cs = Ok A -> buildable (in_ty C).
Proof.
  intros K E. destruct (k_in C K) as (R & GR & W & Rl). unfold adt_arch in E.
  destruct (in_forms C (fun _ => 0) (fun _ => 0)) as [r|] eqn:Ef; [|discriminate]. exact (forms_buildable _ _ R _ GR W _ _ _ Rl Ef).
Qed.

(** ** It is an architecture in the sense of C38-C40 and C69. *)
Theorem C86_arch C cs A : class_ok C -> adt_arch C cs = Ok A -> NoDup (map fst cs) ->
  arch_ok lty_const A (adt_fs C A) (adt_fv C A) /\ arch_ext A.
Proof.
  intros K E N. destruct (k_in C K) as (R & GR & W & Rl). destruct (k_out C K) as (R' & GR' & W' & Rl'). pose proof (arch_buildable C cs A K E) as B.
  split; [eapply (adt_arch_ok R); eauto; apply K|eapply (adt_arch_ext R); eauto; apply K].
Qed.
Theorem C86_instr C I : class_ok C -> adt_instr C = Ok I -> instr_ok I.
Proof.
  intros K E. destruct (k_in C K) as (R & GR & W & Rl). destruct (k_out C K) as (R' & GR' & W' & Rl').
  apply (adt_instr_ok C I); auto; apply K.
Qed.

Lemma inhabited_adt C cs A D I : class_ok C -> adt_arch C cs = Ok A -> class_ok D -> adt_instr D = Ok I ->
  inhabited_types lty_vals (tag_vals C) A I.
Proof.
  intros K E KD ED. destruct (k_in C K) as (R & GR & W & Rl). pose proof (arch_buildable C cs A K E) as B.
  destruct (k_in D KD) as (R' & GR' & W' & Rl'). split; [|split].
  - intros p [ms t] In_. apply adt_instr_inv in ED as (Ei & _). rewrite Ei in In_.
    destruct (in_flat_spec D W' (k_mi D KD)) as [_ S]. apply S in In_ as [S1 S2]. apply lty_vals_some; auto. eapply sub_ty_wf; eauto.
  - apply tag_vals_some.
  - intros fi f p z. eapply (tags_in R); eauto; apply K.
Qed.

Lemma has_const_iff C cs A : adt_arch C cs = Ok A -> (a_has_const A = true <-> exists k m, In (k, m) (c_in C) /\ const_field m = true).
Proof.
  intros E. destruct (arch_inv C cs A E) as (_ & _ & _ & _ & _ & _ & _ & _ & _ & -> & _). unfold const_fields. split.
  - destruct (filter _ (c_in C)) as [|[k m] r] eqn:F; [discriminate|]. intros _. exists k, m.
    assert (In (k, m) (filter (fun f => const_field (snd f)) (c_in C))) as I by (rewrite F; left; auto). apply filter_In in I. exact I.
  - intros (k & m & I & Ec). destruct (filter (fun f => const_field (snd f)) (c_in C)) eqn:F; [|reflexivity].
    assert (In (k, m) (filter (fun f => const_field (snd f)) (c_in C))) as I' by (apply filter_In; auto). rewrite F in I'. destruct I'.
Qed.

(** The expanded formula made of two classes is satisfiable exactly when some form
    of the architecture, some valid constants and some placement of inputs and
    outputs compute the instruction. *)
Theorem C86_found k C cs A D I : class_ok C -> class_ok D -> adt_arch C cs = Ok A -> adt_instr D = Ok I ->
  NoDup (map fst cs) -> constr_ok lty_vals A -> (exists k m, In (k, m) (c_in C) /\ const_field m = true) ->
  satisfiable path_eqb lty_eqb lty_vals (tag_vals C) k A I (build_expanded path_eqb lty_eqb lty_const k A I) <->
  direct path_eqb lty_const lty_vals A I (adt_fs C A) (adt_fv C A).
Proof.
  intros K KD E ED N Hc Hk. destruct (C86_arch C cs A K E N) as [Ok_ Ext].
  apply C69_expanded_direct; auto using eqs_lty. eapply C86_instr; eauto. eapply inhabited_adt; eauto. eapply has_const_iff; eauto.
Qed.

(** The simple formula, if no outputs of the two are nested. *)
Definition flat_outputs (fs : list (key * mty)) : Prop := forall k m, In (k, m) fs -> forall p mods q u, In (q, u) (flat m p mods) -> q = p.

Lemma flat_not_nested C : class_ok C -> flat_outputs (c_out C) -> forall q u, In (q, u) (out_flat C) -> nested q = false.
Proof.
  intros K F q u I. destruct (k_out C K) as (R & GR & W & Rl). unfold out_flat in I. rewrite flat_prod in I.
  assert (Forall (fun f => wf_ty (snd f)) (strip_fields (c_out C)) /\ no_dup_keys (strip_fields (c_out C))) as [WF ND] by (split; inversion W; auto).
  assert (Forall (fun f => flat_good (snd f)) (c_out C)) as FG by (apply Forall_forall; intros f _; apply flat_all).
  destruct (flat_members (c_out C) [] [] FG (k_mo C K) WF) as [FF _].
  destruct (keyed_prod lty [] "Output" (strip_fields (c_out C)) is_leaf (flats [] [] (c_out C)) ND (fun x => x) FF) as [_ Eq]. rewrite Eq in I.
  apply in_concat in I as (l & Il & I). unfold flats in Il. apply in_map_iff in Il as ([k m] & <- & Im). cbn [fst snd] in I.
  rewrite (F k m Im _ _ _ _ I). reflexivity.
Qed.

Lemma bindings_out C cs A D I b : class_ok C -> class_ok D -> adt_arch C cs = Ok A -> adt_instr D = Ok I ->
  In b (output_bindings path_eqb lty_eqb A I) -> type_correct path_eqb (out_flat C) (out_flat D) b.
Proof.
  intros K KD E ED Ib. destruct (k_out C K) as (R & GR & W & Rl). destruct (k_out D KD) as (R' & GR' & W' & Rl').
  destruct (arch_inv C cs A E) as (_ & _ & _ & _ & _ & _ & _ & Eo & _). apply adt_instr_inv in ED as (_ & Eo' & _).
  unfold output_bindings in Ib. rewrite Eo, Eo' in Ib. destruct eqs_lty as [E1 E2].
  destruct (out_flat_spec C W (k_mo C K)) as [[N1 _] _]. destruct (out_flat_spec D W' (k_mo D KD)) as [[N2 _] _].
  apply (C31_bindings _ _ path_eqb lty_eqb E1 E2 (out_flat C) (out_flat D) N1 N2). exact Ib.
Qed.

Lemma simple_flat k C cs A D I : class_ok C -> class_ok D -> adt_arch C cs = Ok A -> adt_instr D = Ok I ->
  flat_outputs (c_out C) -> flat_outputs (c_out D) -> build_simple_adt k A I = build_simple path_eqb lty_eqb lty_const k A I.
Proof.
  intros K KD E ED F F'. unfold build_simple_adt. assert (nested_output (output_bindings path_eqb lty_eqb A I) = false) as ->.
  2: { unfold build_simple. destruct (negb (has_bindings path_eqb lty_eqb A I)); [reflexivity|]. destruct (negb (a_has_const A)); reflexivity. }
  unfold nested_output. apply not_true_is_false. intros X. apply existsb_exists in X as (b & Ib & X). apply existsb_exists in X as ([x a] & Ie & X).
  cbn [fst snd] in X. destruct x as [q|]; [|discriminate].
  destruct (bindings_out C cs A D I b K KD E ED Ib) as (_ & T & _). destruct (T q a Ie) as (t & I1 & I2).
  rewrite (flat_not_nested D KD F' q t I1), (flat_not_nested C K F a t I2) in X. discriminate.
Qed.

Theorem C86_found_simple k C cs A D I : class_ok C -> class_ok D -> adt_arch C cs = Ok A -> adt_instr D = Ok I ->
  NoDup (map fst cs) -> constr_ok lty_vals A -> (exists k m, In (k, m) (c_in C) /\ const_field m = true) ->
  flat_outputs (c_out C) -> flat_outputs (c_out D) -> i_out I <> [] ->
  (forall p t, In (p, t) (i_in I) -> lty_const t = false) -> in_all_forms path_eqb lty_const A ->
  satisfiable path_eqb lty_eqb lty_vals (tag_vals C) k A I (build_simple_adt k A I) <->
  direct path_eqb lty_const lty_vals A I (adt_fs C A) (adt_fv C A).
Proof.
  intros K KD E ED N Hc Hk F F' No Nc Al. destruct (C86_arch C cs A K E N) as [Ok_ Ext].
  rewrite (simple_flat k C cs A D I K KD E ED F F').
  rewrite (C69_simple_partial _ _ path_eqb lty_eqb lty_const eqs_lty lty_vals (tag_vals C) k A I (adt_fs C A) (adt_fv C A)); auto.
  - apply (C69_direct path_eqb lty_eqb); auto using eqs_lty. eapply C86_instr; eauto.
  - eapply C86_instr; eauto.
  - eapply inhabited_adt; eauto.
  - eapply has_const_iff; eauto.
Qed.

(** With Const inputs: the constants of the rule must be valid with all values of the
    Const leaves taking inputs. *)
Theorem C86_found_simple_const k C cs A D I : class_ok C -> class_ok D -> adt_arch C cs = Ok A -> adt_instr D = Ok I ->
  NoDup (map fst cs) -> constr_ok lty_vals A -> (exists k m, In (k, m) (c_in C) /\ const_field m = true) ->
  flat_outputs (c_out C) -> flat_outputs (c_out D) -> i_out I <> [] -> in_all_forms path_eqb lty_const A ->
  satisfiable path_eqb lty_eqb lty_vals (tag_vals C) k A I (build_simple_adt k A I) <->
  direct_simple path_eqb lty_const lty_vals A I (adt_fs C A) (adt_fv C A).
Proof.
  intros K KD E ED N Hc Hk F F' No Al. destruct (C86_arch C cs A K E N) as [Ok_ Ext]. rewrite (simple_flat k C cs A D I K KD E ED F F').
  apply C69_simple_exact_partial; auto using eqs_lty.
  - eapply C86_instr; eauto.
  - eapply inhabited_adt; eauto.
  - eapply has_const_iff; eauto.
Qed.

(** ** The simple formula has no use for nested outputs: if an output of the
    architecture below a field has the type of an output of the instruction, or the
    instruction has such an output, building it fails. *)
Lemma filter_perm {X} (h : X -> bool) l l' : Permutation l l' -> length (filter h l) = length (filter h l').
Proof.
  induction 1 as [|x l l' H IH|x y l|l l' l'' H1 IH1 H2 IH2]; cbn [filter]; auto.
  - destruct (h x); cbn [length]; congruence.
  - destruct (h x), (h y); cbn [length]; auto.
  - congruence.
Qed.

Lemma pair_fun {X Y} (l : list (X * Y)) x y y' : NoDup (map fst l) -> In (x, y) l -> In (x, y') l -> y = y'.
Proof.
  induction l as [|[a b] l IH]; intros N I I'; [destruct I|]. cbn [map fst] in N. inversion N as [|? ? N1 N2]; subst.
  destruct I as [I|I], I' as [I'|I'].
  - congruence.
  - exfalso. injection I as -> _. apply N1. apply (in_map fst) in I'. exact I'.
  - exfalso. injection I' as -> _. apply N1. apply (in_map fst) in I. exact I.
  - auto.
Qed.

(** A binding can be changed to use any given output of the right type. *)
Lemma rebind (arch ir : list (path * lty)) b o q u : NoDup (map fst arch) -> NoDup (map fst ir) -> type_correct path_eqb arch ir b ->
  In (o, u) ir -> In (q, u) arch -> exists b', type_correct path_eqb arch ir b' /\ In (Some o, q) b'.
Proof.
  intros Na Ni (P & T & U) Io Iq.
  assert (exists q0, In (Some o, q0) b) as [q0 I0].
  { specialize (U o u Io). unfold uses in U. destruct (filter _ b) as [|[[p|] a] r] eqn:F; [discriminate| |].
    - assert (In (Some p, a) (filter (fun e : option path * path => match fst e with Some q => path_eqb o q | None => false end) b)) as X by (rewrite F; left; auto).
      apply filter_In in X as [X Ep]. cbn [fst] in Ep. apply path_eqb_eq in Ep. subst p. eauto.
    - assert (In (None, a) (filter (fun e : option path * path => match fst e with Some q => path_eqb o q | None => false end) b)) as X by (rewrite F; left; auto).
      apply filter_In in X as [_ Ep]. discriminate. }
  assert (In q (map snd b)) as Ib by (eapply Permutation_in; [apply Permutation_sym; exact P|]; apply (in_map fst) in Iq; exact Iq).
  apply in_map_iff in Ib as ([x q'] & Eq & Ib). cbn [snd] in Eq. subst q'.
  destruct (path_eqb q0 q) eqn:Eq. { apply path_eqb_eq in Eq. subst q0. exists b. repeat split; auto. }
  assert (q0 <> q) as Nq by (intros ->; rewrite (proj2 (path_eqb_eq q q) eq_refl) in Eq; discriminate).
  destruct (T o q0 I0) as (t & It & It'). assert (t = u) by (eapply (pair_fun ir); eauto). subst t.
  apply in_split in I0 as (b1 & b2 & ->).
  assert (In (x, q) (b1 ++ b2)) as Ib'.
  { apply in_app_iff in Ib as [Ib|[Ib|Ib]]; [apply in_app_iff; auto|injection Ib as <- ->; congruence|apply in_app_iff; auto]. }
  apply in_split in Ib' as (c1 & c2 & Ec).
  assert (Permutation (b1 ++ (Some o, q0) :: b2) ((Some o, q0) :: (x, q) :: (c1 ++ c2))) as Pm.
  { eapply Permutation_trans; [apply Permutation_sym, Permutation_middle|]. rewrite Ec. constructor. apply Permutation_sym, Permutation_middle. }
  set (rest := c1 ++ c2) in *. exists ((Some o, q) :: (x, q0) :: rest). split; [|left; auto]. split; [|split].
  - eapply Permutation_trans; [|exact P]. eapply Permutation_trans; [|apply Permutation_map, Permutation_sym, Pm]. cbn [map snd]. constructor.
  - intros p a [[= <- <-]|[[= -> <-]|I]].
    + exists u. auto.
    + destruct (T p q) as (t & I1 & I2). { eapply Permutation_in; [apply Permutation_sym, Pm|]. right. left. auto. }
      assert (t = u) by (eapply (pair_fun arch); eauto). subst t. exists u. auto.
    + apply T. eapply Permutation_in; [apply Permutation_sym, Pm|]. right. right. auto.
  - intros p t I. rewrite <- (U p t I). unfold uses. rewrite (filter_perm _ _ _ Pm). cbn [filter fst].
    destruct (path_eqb p o), x as [y|]; try destruct (path_eqb p y); reflexivity.
Qed.

Theorem C86_nested_outputs k C cs A D I : class_ok C -> class_ok D -> adt_arch C cs = Ok A -> adt_instr D = Ok I ->
  has_bindings path_eqb lty_eqb A I = true -> a_has_const A = true ->
  (build_simple_adt k A I = Err KeyError <->
   exists q p u, In (q, u) (out_flat C) /\ In (p, u) (out_flat D) /\ (length q <> 1%nat \/ length p <> 1%nat)).
Proof.
  intros K KD E ED Hb Hc. destruct (k_out C K) as (R & GR & W & Rl). destruct (k_out D KD) as (R' & GR' & W' & Rl').
  destruct (out_flat_spec C W (k_mo C K)) as [[N1 _] _]. destruct (out_flat_spec D W' (k_mo D KD)) as [[N2 _] _].
  assert (forall p, nested p = true <-> length p <> 1%nat) as Hn.
  { intros [|x [|y p]]; cbn; split; auto; try discriminate; try congruence. }
  assert (build_simple_adt k A I = Err KeyError <-> nested_output (output_bindings path_eqb lty_eqb A I) = true) as ->.
  { unfold build_simple_adt. rewrite Hb, Hc. cbn [negb]. destruct (nested_output _) eqn:F; [split; auto|]. split; [|discriminate].
    unfold build_simple. rewrite Hb, Hc. cbn [negb]. destruct (existsb _ _); [discriminate|]. destruct (empty_constraint A); discriminate. }
  unfold nested_output. rewrite existsb_exists. split.
  - intros (b & Ib & X). apply existsb_exists in X as ([x a] & Ie & X). cbn [fst snd] in X. destruct x as [p|]; [|discriminate].
    destruct (bindings_out C cs A D I b K KD E ED Ib) as (_ & T & _). destruct (T p a Ie) as (t & I1 & I2).
    exists a, p, t. split; auto. split; auto. apply orb_true_iff in X as [X|X]; apply Hn in X; auto.
  - intros (q & p & u & I1 & I2 & X).
    assert (exists b, In b (output_bindings path_eqb lty_eqb A I)) as [b0 Ib0].
    { unfold has_bindings in Hb. apply andb_true_iff in Hb as [_ Hb]. destruct (output_bindings path_eqb lty_eqb A I) as [|b r]; [discriminate|]. exists b. left. auto. }
    pose proof (bindings_out C cs A D I b0 K KD E ED Ib0) as T0.
    destruct (rebind _ _ b0 p q u N1 N2 T0 I2 I1) as (b' & T' & I').
    destruct (arch_inv C cs A E) as (_ & _ & _ & _ & _ & _ & _ & Eo & _). apply adt_instr_inv in ED as (_ & Eo' & _). destruct eqs_lty as [E1 E2].
    destruct (C31_bindings _ _ path_eqb lty_eqb E1 E2 (out_flat C) (out_flat D) N1 N2) as (_ & Cm & _).
    destruct (Cm b' T') as (b & Pb & Ib). exists b. split; [unfold output_bindings; rewrite Eo, Eo'; exact Ib|].
    apply existsb_exists. exists (Some p, q). split; [eapply Permutation_in; eauto|]. cbn [fst snd]. apply orb_true_iff.
    destruct X as [X|X]; apply Hn in X; auto.
Qed.

(** ** Forms and values *)
(** Form [fi] is that of the value [v]: its leaves are the leaves of [v] and its
    tags those of the members chosen in [v]. *)
Definition form_of (C : pclass) (A : arch path lty) (fi : nat) (v : AsmModel.val) : Prop :=
  exists f, nth_error (a_forms A) fi = Some f /\
    (forall q, In q (fst f) <-> leaf_path (in_ty C) v q) /\
    (forall q z, In (q, z) (snd f) <-> exists g c fs k w, sub_val (in_ty C) v q (TSum g c fs) (VSum k w) /\ rank_of fs k z).

Lemma rank_fun fs k z z' : NoDup (map fst fs) -> rank_of fs k z -> rank_of fs k z' -> z = z'.
Proof.
  intros ND (pre & u & post & E & ->) (pre' & u' & post' & E' & ->).
  destruct (nodup_split_unique fs pre pre' post post' k u u' ND E E') as (<- & _ & <-). auto.
Qed.
Lemma rank_key fs k k' z : rank_of fs k z -> rank_of fs k' z -> k = k'.
Proof. intros (pre & u & post & E & ->) (pre' & u' & post' & E' & Eq). exact (rank_inj fs pre pre' post post' k u k' u' E E' Eq). Qed.

Lemma form_matches C cs A fi f v tags l fo vm z g : class_ok C -> adt_arch C cs = Ok A -> has_ty (in_ty C) v ->
  nth_error (a_forms A) fi = Some f -> in_forms C tags l = Ok (fo, vm, z) -> nth_error fo fi = Some g ->
  (form_of C A fi v <-> matches [] (in_ty C) v g).
Proof.
  intros K E Hv Ef Ew Eg. destruct (k_in C K) as (R & GR & W & Rl). pose proof (arch_buildable C cs A K E) as B.
  destruct (form_at R GR C W Rl B cs A E fi f tags l Ef) as (fo' & vm' & z' & g' & Ew' & Eg' & V & D & _).
  rewrite Ew in Ew'. injection Ew' as <- <- <-. assert (g' = g) by congruence. subst g'.
  assert (forall q k, In (q, k) (f_dict g) -> exists gg c fs u, sub_ty (in_ty C) q (TSum gg c fs) /\ In (k, u) fs /\ NoDup (map fst fs) /\ rank_of fs k (tag_at C q k)) as Dk.
  { intros q k I. destruct (dict_path R GR C W Rl B _ _ _ _ _ _ _ _ Ew (nth_error_In _ _ Eg) I) as (gg & c & fs & S).
    destruct (dict_sum R GR C W Rl B _ _ _ _ _ _ _ _ _ _ _ Ew (nth_error_In _ _ Eg) I S) as [u Iu]. exists gg, c, fs, u.
    split; auto. split; auto. split; [apply sub_ty_wf in S; auto; inversion S; auto|apply (tag_at_rank R GR C W Rl q gg c fs k u S Iu)]. }
  destruct (i_cov _ _ _ _ _ _ _ _ _ _ (forms_inv R GR C W Rl B _ _ _ _ _ Ew) g (nth_error_In _ _ Eg)) as (v0 & _ & M0).
  split.
  - intros (f' & Ef' & Hl & Ht). assert (f' = f) by congruence. subst f'. constructor; [| |apply M0|apply M0].
    + intros q k. split.
      * intros I. destruct (Dk q k I) as (gg & c & fs & u & S & Iu & ND & Rk).
        assert (In (q, tag_at C q k) (snd f)) as I' by (rewrite D; apply in_map_iff; exists (q, k); auto).
        apply Ht in I' as (g' & c' & fs' & k' & w & Sv & Rk').
        pose proof (sub_ty_fun _ _ _ S W _ (sub_val_ty _ _ _ _ _ Sv)) as Eq. injection Eq as <- <- <-.
        rewrite (rank_key _ _ _ _ Rk Rk'). exists q. split; auto. exists gg, c, fs, w. exact Sv.
      * intros (r & -> & gg & c & fs & w & Sv). cbn [List.app].
        pose proof (sub_val_has _ _ _ _ _ Sv W Hv) as H. inversion H as [| | | | |? ? ? ? u ? Iu Hu]; subst.
        destruct (tag_at_rank R GR C W Rl r gg c fs k u (sub_val_ty _ _ _ _ _ Sv) Iu) as [Rk _].
        assert (In (r, tag_at C r k) (snd f)) as I' by (apply Ht; exists gg, c, fs, k, w; auto).
        rewrite D in I'. apply in_map_iff in I' as ([r' k'] & Eq & I'). cbn [fst snd] in Eq. injection Eq as -> Eq.
        destruct (Dk r k' I') as (gg' & c' & fs' & u' & S' & _ & _ & Rk').
        pose proof (sub_ty_fun _ _ _ S' W _ (sub_val_ty _ _ _ _ _ Sv)) as Eq'. injection Eq' as -> -> ->.
        rewrite Eq in Rk'. now rewrite (rank_key _ _ _ _ Rk Rk').
    + intros q. rewrite <- V, Hl. split; [intros H; exists q; auto|intros (r & -> & H); exact H].
  - intros M. exists f. split; auto. split.
    + intros q. rewrite V, (mt_vars _ _ _ _ M). split; [intros (r & -> & H); exact H|intros H; exists q; auto].
    + intros q z0. rewrite D, in_map_iff. split.
      * intros ([q' k] & Eq & I). cbn [fst snd] in Eq. injection Eq as -> <-. destruct (Dk q k I) as (gg & c & fs & u & S & Iu & ND & Rk).
        apply (mt_dict _ _ _ _ M) in I. destruct I as (r & -> & gg' & c' & fs' & w & Sv). cbn [List.app] in *.
        pose proof (sub_ty_fun _ _ _ S W _ (sub_val_ty _ _ _ _ _ Sv)) as Eq'. injection Eq' as <- <- <-. exists gg, c, fs, k, w. auto.
      * intros (gg & c & fs & k & w & Sv & Rk). exists (q, k). cbn [fst snd].
        assert (In (q, k) (f_dict g)) as I by (apply (mt_dict _ _ _ _ M); exists q; split; auto; exists gg, c, fs, w; auto).
        split; auto. f_equal. destruct (Dk q k I) as (gg' & c' & fs' & u' & S' & _ & ND & Rk').
        pose proof (sub_ty_fun _ _ _ S' W _ (sub_val_ty _ _ _ _ _ Sv)) as Eq'. injection Eq' as -> -> ->. eapply rank_fun; eauto.
Qed.

(** Every value has exactly one form, every form is that of some value. *)
Theorem C86_forms C cs A : class_ok C -> adt_arch C cs = Ok A ->
  (forall v, has_ty (in_ty C) v -> exists fi, form_of C A fi v /\ forall fj, form_of C A fj v -> fj = fi) /\
  (forall fi f, nth_error (a_forms A) fi = Some f -> exists v, has_ty (in_ty C) v /\ form_of C A fi v).
Proof.
  intros K E. destruct (k_in C K) as (R & GR & W & Rl). pose proof (arch_buildable C cs A K E) as B.
  destruct (arch_inv C cs A E) as (fo & vm & z & E0 & _ & Ef & _).
  pose proof (forms_inv R GR C W Rl B _ _ _ _ _ E0) as IV.
  assert (forall i g, nth_error fo i = Some g -> exists f, nth_error (a_forms A) i = Some f) as N1 by (intros i g Eg; eexists; rewrite Ef, nth_error_map, Eg; reflexivity).
  assert (forall i f, nth_error (a_forms A) i = Some f -> exists g, nth_error fo i = Some g) as N2.
  { intros i f Ei. rewrite Ef, nth_error_map in Ei. destruct (nth_error fo i) as [g|]; [eauto|discriminate]. }
  destruct (inv_partition _ _ _ _ _ _ _ _ _ _ IV) as (P1 & P2 & _). split.
  - intros v Hv. destruct (P1 v Hv) as (i & g & Eg & M & U). destruct (N1 i g Eg) as [f Ei]. exists i. split.
    + eapply form_matches; eauto.
    + intros j Hj. assert (exists f', nth_error (a_forms A) j = Some f') as [f' Ej] by (destruct Hj as (f' & Ej & _); eauto).
      destruct (N2 j f' Ej) as [g' Eg']. apply (U j g' Eg'). eapply form_matches; eauto.
  - intros i f Ei. destruct (N2 i f Ei) as [g Eg]. destruct (P2 g (nth_error_In _ _ Eg)) as (v & Hv & M). exists v. split; auto.
    eapply form_matches; eauto.
Qed.

(** ** What the class is called with and what is read of its outputs *)
(** The leaves of a value. *)
Definition holds (t : ty) (v : AsmModel.val) (l : path -> Z) : Prop :=
  forall r t' v', sub_val t v r t' v' -> is_leaf t' -> canonical t' (l r) v'.
Definition sum_free (t : ty) : Prop := forall r g c fs, ~ sub_ty t r (TSum g c fs).
(** [w] is a word of the width of a field. *)
Definition word_of (f : key * mty) (w : Z) : Prop := exists n, swidth (strip (snd f)) n /\ 0 <= w < 2 ^ n.
(** The words [ws] are those of the values [vs] of the fields. *)
Definition words (enc : ty -> Z -> AsmModel.val -> Prop) (fs : list (key * mty)) (ws : list Z) (vs : list AsmModel.val) : Prop :=
  length ws = length fs /\ length vs = length fs /\
  forall i k m w v, nth_error fs i = Some (k, m) -> nth_error ws i = Some w -> nth_error vs i = Some v -> enc (strip m) w v.

Lemma sum_free_untagged t : sum_free t -> untagged t.
Proof.
  induction t as [| | |c ms|c fs IH|g c fs IH] using ty_ind'; intros S; try (apply ut_leaf; exact Logic.I).
  - apply ut_prod. intros k t I. rewrite Forall_forall in IH. apply (IH (k, t) I). intros r g c' fs' St. apply (S (k :: r) g c' fs'). econstructor; eauto.
  - destruct (S [] g c fs). constructor.
Qed.

Lemma strip_nth fs i k t : nth_error (strip_fields fs) i = Some (k, t) -> exists m, nth_error fs i = Some (k, m) /\ t = strip m.
Proof. unfold strip_fields. rewrite nth_error_map. destruct (nth_error fs i) as [[k' m]|]; [|discriminate]. cbn. intros [= <- <-]. eauto. Qed.
Lemma strip_length fs : length (strip_fields fs) = length fs.
Proof. apply map_length. Qed.

Lemma words_of_ok a fs op (P : key * mty -> Z -> Prop) :
  (forall i k m, nth_error fs i = Some (k, m) -> exists x mm, aadt_get a op k = Ok (x, mm) /\ P (k, m) x) ->
  exists ws, words_of a (map fst fs) op = Ok ws /\ Forall2 P fs ws.
Proof.
  unfold words_of. induction fs as [|[k m] fs IH]; intros H; cbn [map fst mapM]; [exists []; split; constructor|].
  destruct (H 0%nat k m eq_refl) as (x & mm & E & Px). rewrite E. cbn [bind fst].
  destruct IH as (ws & E' & F); [intros i; apply (H (S i))|]. rewrite E'. cbn [bind]. exists (x :: ws). split; auto.
Qed.

(** All the words of the fields are of their widths. *)
Lemma in_words_ok C z : class_ok C -> exists ws, in_words C z = Ok ws /\ Forall2 word_of (c_in C) ws.
Proof.
  intros K. destruct (k_in C K) as (R & GR & W & Rl). apply words_of_ok. intros i k m Ei.
  assert (In (k, strip m) (strip_fields (c_in C))) as I.
  { apply nth_error_In in Ei. unfold strip_fields. apply in_map_iff. exists (k, m). auto. }
  destruct (prod_member R "Input" _ (c_ia C) k (strip m) W Rl I) as (fa & lo & Em & Af & L0 & L1 & L2 & G). rewrite G. do 2 eexists. split; [reflexivity|].
  exists (a_width fa). split; [apply (asm_rel_width R (strip m)); auto; eapply wf_members_prod; eauto|].
  replace (2 ^ a_width fa) with (2 ^ (lo + a_width fa - lo)) by (f_equal; lia). apply slice_range. lia.
Qed.

Lemma out_args_ok C R fs os : wf_ty (out_ty C) -> asm_rel R (out_ty C) (c_oa C) -> incl fs (c_out C) -> Forall2 word_of fs os ->
  exists wxs, out_args C fs os = Ok (map fw wxs) /\ map snd wxs = os /\
    Forall2 (fun f wx => swidth (snd f) (fst wx) /\ 0 <= snd wx < 2 ^ fst wx) (strip_fields fs) wxs.
Proof.
  intros W Rl Inc F. induction F as [|[k m] o fs os (n & Sn & Ro) F IH].
  - exists []. repeat split; constructor.
  - destruct IH as (wxs & E & Es & F2). { intros x I. apply Inc. right; auto. }
    assert (In (k, strip m) (strip_fields (c_out C))) as I.
    { unfold strip_fields. apply in_map_iff. exists (k, m). split; auto. apply Inc. left; auto. }
    destruct (prod_member R "Output" _ (c_oa C) k (strip m) W Rl I) as (fa & lo & Em & Af & _).
    assert (n = a_width fa) as ->. { apply (swidth_fun (strip m)); auto. apply (asm_rel_width R (strip m)); auto. eapply wf_members_prod; eauto. }
    exists ((a_width fa, o) :: wxs). cbn [out_args]. rewrite Em. cbn [bind]. rewrite E. cbn [bind map fw fst snd strip_fields]. split; auto. split; [congruence|].
    constructor; auto.
Qed.

Lemma forall2_combine {X Y Z0} (P : X -> Y -> Z0 -> Prop) l m n : length m = length l -> length n = length l ->
  (forall i x y z, nth_error l i = Some x -> nth_error m i = Some y -> nth_error n i = Some z -> P x y z) ->
  Forall2 (fun x yz => P x (fst yz) (snd yz)) l (combine m n).
Proof.
  revert m n. induction l as [|x l IH]; intros [|y m] [|z n] L1 L2 H; try discriminate; cbn [combine]; constructor.
  - apply (H 0%nat); auto.
  - apply IH; [now injection L1|now injection L2|]. intros i. apply (H (S i)).
Qed.

(** Outputs in range make a word of the output type. *)
Lemma wrap_ok C os : class_ok C -> buildable (out_ty C) -> Forall2 word_of (c_out C) os ->
  exists op, wrap_outputs C os = Ok op /\ 0 <= op < 2 ^ a_width (c_oa C) /\
    forall (J : Z -> Prop) vs, J 0 -> words (enc J) (c_out C) os vs -> enc J (out_ty C) op (VProd vs).
Proof.
  intros K B F. destruct (k_out C K) as (R & GR & W & Rl).
  destruct (out_args_ok C R (c_out C) os W Rl (incl_refl _) F) as (wxs & E & Es & F2).
  unfold wrap_outputs. rewrite E. cbn [bind].
  destruct (prod_words R "Output" (strip_fields (c_out C)) (c_oa C) wxs W Rl) as (op & Eop & Rg & En); auto.
  { inversion B as [? Lf|? ? NE _ _|]; subst; [destruct Lf|auto]. }
  { inversion B as [? Lf|? ? _ NZ _|]; subst; [destruct Lf|auto]. }
  exists op. split; auto. split; auto. intros J vs J0 (L1 & L2 & H). apply En; auto.
  - rewrite Es. apply forall2_combine with (P := fun f w v => enc J (snd f) w v); [now rewrite strip_length|now rewrite strip_length|].
    intros i [k t] w v Ei Ew Ev. apply strip_nth in Ei as (m & Ei & ->). cbn [snd]. eapply H; eauto.
  - rewrite L2, <- L1, <- Es. now rewrite map_length.
Qed.

(** One form of the outputs. *)
Lemma out_one C (J : Z -> Prop) op : class_ok C -> buildable (out_ty C) -> sum_free (out_ty C) -> J 0 -> 0 <= op < 2 ^ a_width (c_oa C) ->
  exists f vm z, smt_forms (fun _ => 0) (fun _ => 0) (out_ty C) (c_oa C) [] (Some op) = Ok ([f], vm, z) /\
    Inv (fun _ => 0) (fun _ => 0) J [] (out_ty C) (c_oa C) (Some op) [f] vm z.
Proof.
  intros K B S J0 Rg. destruct (k_out C K) as (R & GR & W & Rl).
  destruct (all_work (fun _ => 0) (fun _ => 0) J J0 R GR (out_ty C) (c_oa C) [] (Some op) W B Rl) as (out & vm & z & E & IV).
  { intros op' [= <-]. split; auto. apply sum_free_untagged; auto. }
  assert (forall f, In f out -> f_dict f = []) as D.
  { intros f I. destruct (i_cov _ _ _ _ _ _ _ _ _ _ IV f I) as (v & _ & M). destruct (f_dict f) as [|[q k] d] eqn:Ed; auto. exfalso.
    assert (In (q, k) (f_dict f)) as X by (rewrite Ed; left; auto). apply (mt_dict _ _ _ _ M) in X. destruct X as (r & -> & g & c & fs & w & Sv).
    apply (S r g c fs). eapply sub_val_ty; eauto. }
  destruct out as [|f [|f' out]].
  - destruct (inhabited _ W) as (v & Hv & _). destruct (i_ex _ _ _ _ _ _ _ _ _ _ IV v Hv) as (f & [] & _).
  - exists f, vm, z. auto.
  - exfalso. destruct (i_dis _ _ _ _ _ _ _ _ _ _ IV) as [X _]. apply (X f'); [left; auto|].
    intros q k. rewrite (D f), (D f'); [tauto|right; left; auto|left; auto].
Qed.

Lemma dget_in {V} (d : list (path * V)) q x : NoDup (map fst d) -> In (q, x) d -> dget path_eqb d q = Some x.
Proof.
  induction d as [|[q' x'] d IH]; intros N I; [destruct I|]. cbn [map fst] in N. inversion N as [|? ? N1 N2]; subst. cbn [dget].
  destruct I as [[= -> ->]|I]; [now rewrite (proj2 (path_eqb_eq q q) eq_refl)|].
  destruct (path_eqb q q') eqn:Eq; auto. apply path_eqb_eq in Eq. subst q'. exfalso. apply N1. apply (in_map fst) in I. exact I.
Qed.

(** The outputs at the leaves. *)
Lemma out_read C z ws : class_ok C -> buildable (out_ty C) -> sum_free (out_ty C) -> in_words C z = Ok ws -> Forall2 word_of (c_out C) (c_call C ws) ->
  forall os, words encodes (c_out C) (c_call C ws) os -> has_ty (out_ty C) (VProd os) ->
  forall q t o, sub_val (out_ty C) (VProd os) q t o -> is_leaf t -> encodes t (out_at C z q) o.
Proof.
  intros K B S Ew F os Wd Ho q t o Sv L. destruct (wrap_ok C (c_call C ws) K B F) as (op & Eop & Rg & En).
  destruct (out_one C (fun _ => True) op K B S Logic.I Rg) as (f & vm & z0 & Ef & IV).
  unfold out_at, out_forms. rewrite Ew. cbn [bind]. rewrite Eop. cbn [bind]. rewrite Ef. cbn [bind].
  destruct (i_ex _ _ _ _ _ _ _ _ _ _ IV (VProd os) Ho) as (f' & [<-|[]] & M).
  assert (In q (map fst (f_vars f))) as Iq by (apply (mt_vars _ _ _ _ M); exists q; split; auto; exists t, o; auto).
  apply in_map_iff in Iq as ([q' x] & Eq & Iq). cbn [fst] in Eq. subst q'. rewrite (dget_in _ q x (mt_nv _ _ _ _ M) Iq).
  destruct (i_sem _ _ _ _ _ _ _ _ _ _ IV (VProd os) Ho) as (_ & _ & H3 & _). { apply En; auto. }
  apply (H3 q t o x Sv L). eapply (i_vars _ _ _ _ _ _ _ _ _ _ IV); [left; reflexivity|exact Iq].
Qed.

(** ** When the view exists *)
(** [__call__] gives a word for every output field. *)
Definition call_ok (C : pclass) : Prop := forall ws, Forall2 word_of (c_in C) ws -> Forall2 word_of (c_out C) (c_call C ws).

Lemma one_form_ok C fo : class_ok C -> buildable (out_ty C) -> sum_free (out_ty C) -> call_ok C -> fo <> [] -> one_output_form C fo = Ok tt.
Proof.
  intros K B S Ck NE. unfold one_output_form.
  assert (mapM (fun f => do ws <- in_words C (f_val f); do oo <- out_forms C ws; Ok (length oo)) fo = Ok (map (fun _ => 1%nat) fo)) as ->.
  { apply mapM_Ok. clear NE. induction fo as [|f fo IH]; cbn [map]; constructor; auto.
    destruct (in_words_ok C (f_val f) K) as (ws & Ew & Fw). rewrite Ew. cbn [bind].
    destruct (wrap_ok C (c_call C ws) K B (Ck ws Fw)) as (op & Eop & Rg & _).
    destruct (out_one C (fun _ => True) op K B S Logic.I Rg) as (g & vm & z0 & Ef & _).
    unfold out_forms. rewrite Eop. cbn [bind]. rewrite Ef. reflexivity. }
  cbn [bind]. destruct fo as [|f fo]; [congruence|]. cbn [map].
  assert (forallb (Nat.eqb 1) (1%nat :: map (fun _ => 1%nat) fo) = true) as -> by (clear; cbn [forallb]; rewrite Nat.eqb_refl; induction fo; auto). reflexivity.
Qed.

Theorem C86_builds C cs : class_ok C -> call_ok C -> buildable (in_ty C) -> buildable (out_ty C) -> sum_free (out_ty C) ->
  (forall p zs, In (p, zs) cs -> exists t, sub_ty (in_ty C) p t /\ is_leaf t) ->
  exists A, adt_arch C cs = Ok A.
Proof.
  intros K Ck Bi Bo S Hc. destruct (k_in C K) as (R & GR & W & Rl).
  destruct (forms_work R GR C W Rl Bi (fun _ => 0) (fun _ => 0)) as (fo & vm & z & E & IV). unfold adt_arch. rewrite E. cbn [bind].
  assert (fo <> []) as NE. { intros ->. destruct (inhabited _ W) as (v & Hv & _). destruct (i_ex _ _ _ _ _ _ _ _ _ _ IV v Hv) as (f & [] & _). }
  rewrite (one_form_ok C fo K Bo S Ck NE). cbn [bind]. unfold constraints_ok.
  assert (forallb (fun c => existsb (path_eqb (fst c)) (map fst (in_flat C))) cs = true) as ->; [|eexists; reflexivity].
  apply forallb_forall. intros [p zs] I. cbn [fst]. destruct (Hc p zs I) as (t & St & L). apply existsb_exists. exists p.
  split; [|now apply path_eqb_eq]. destruct (in_flat_spec C W (k_mi C K)) as [[_ Kd] _]. apply Kd. exists p, t. auto.
Qed.

Theorem C86_builds_instr D : class_ok D -> call_ok D -> buildable (in_ty D) -> buildable (out_ty D) -> sum_free (out_ty D) -> sum_free (in_ty D) ->
  exists I, adt_instr D = Ok I.
Proof.
  intros K Ck Bi Bo S Si. destruct (k_in D K) as (R & GR & W & Rl).
  destruct (forms_work R GR D W Rl Bi (fun _ => 0) (fun _ => 0)) as (fo & vm & z & E & IV). unfold adt_instr. rewrite E. cbn [bind].
  assert (fo <> []) as NE. { intros ->. destruct (inhabited _ W) as (v & Hv & _). destruct (i_ex _ _ _ _ _ _ _ _ _ _ IV v Hv) as (f & [] & _). }
  rewrite (one_form_ok D fo K Bo S Ck NE). cbn [bind].
  assert (forall f, In f fo -> f_dict f = []) as Dd.
  { intros f I. destruct (i_cov _ _ _ _ _ _ _ _ _ _ IV f I) as (v & _ & M). destruct (f_dict f) as [|[q k] d] eqn:Ed; auto. exfalso.
    assert (In (q, k) (f_dict f)) as X by (rewrite Ed; left; auto). apply (mt_dict _ _ _ _ M) in X. destruct X as (r & -> & g & c & fs & w & Sv).
    apply (Si r g c fs). eapply sub_val_ty; eauto. }
  destruct fo as [|f [|f' fo]]; [congruence|eexists; reflexivity|exfalso].
  destruct (i_dis _ _ _ _ _ _ _ _ _ _ IV) as [X _]. apply (X f'); [left; auto|].
  intros q k. rewrite (Dd f), (Dd f'); [tauto|right; left; auto|left; auto].
Qed.

(** ** Sums among the outputs: neither mapper takes such a class *)
Lemma distinct_le {X} (E : X -> X -> Prop) l l' : (forall x y, E x y -> E y x) -> (forall x y z, E x y -> E y z -> E x z) -> distinct E l ->
  (forall x, In x l -> exists y, In y l' /\ E x y) -> (length l <= length l')%nat.
Proof.
  intros Sy Tr D H.
  assert (exists js, Forall2 (fun x j => exists y, nth_error l' j = Some y /\ E x y) l js) as (js & F).
  { clear D. induction l as [|x l IH]; [exists []; constructor|]. destruct IH as (js & F); [intros y I; apply H; right; auto|].
    destruct (H x (or_introl eq_refl)) as (y & Iy & Exy). apply In_nth_error in Iy as [j Ej]. exists (j :: js). constructor; eauto. }
  assert (NoDup js) as ND.
  { clear H. induction F as [|x j l js (y & Ej & Exy) F IH]; constructor; [|apply IH; apply D]. destruct D as [D _]. intros I.
    assert (exists x', In x' l /\ E x' y) as (x' & I' & Ex').
    { clear - F I Ej. induction F as [|a i l js (z & Ei & Ez) F IH]; [destruct I|]. destruct I as [<-|I]; [exists a; split; [left; auto|congruence]|]. destruct (IH I) as (x' & ? & ?). exists x'. split; auto. right; auto. }
    apply (D x' I'). eauto. }
  replace (length l) with (length js) by (symmetry; clear - F; induction F; cbn; auto). rewrite <- (seq_length (length l') 0). apply NoDup_incl_length; auto.
  intros j I. clear - F I. apply in_seq. split; [lia|]. cbn. induction F as [|a i l js (z & Ei & Ez) F IH]; [destruct I|]. destruct I as [<-|I]; auto. apply nth_error_Some. congruence.
Qed.
Lemma same_dict_trans f g h : same_dict f g -> same_dict g h -> same_dict f h.
Proof. intros A B q k. rewrite (A q k). apply B. Qed.
Lemma out_some C op : class_ok C -> buildable (out_ty C) -> untagged (out_ty C) -> 0 <= op < 2 ^ a_width (c_oa C) ->
  exists fo vm z, smt_forms (fun _ => 0) (fun _ => 0) (out_ty C) (c_oa C) [] (Some op) = Ok (fo, vm, z) /\
    Inv (fun _ => 0) (fun _ => 0) (fun _ => True) [] (out_ty C) (c_oa C) (Some op) fo vm z.
Proof.
  intros K B U Rg. destruct (k_out C K) as (R & GR & W & Rl). apply (all_work (fun _ => 0) (fun _ => 0) (fun _ => True) Logic.I R GR (out_ty C) (c_oa C) [] (Some op) W B Rl).
  intros op' [= <-]. auto.
Qed.
Lemma out_count C r g c fs : class_ok C -> buildable (out_ty C) -> untagged (out_ty C) -> sub_ty (out_ty C) r (TSum g c fs) ->
  exists n, (1 < n)%nat /\ forall op, 0 <= op < 2 ^ a_width (c_oa C) ->
    exists fo vm z, smt_forms (fun _ => 0) (fun _ => 0) (out_ty C) (c_oa C) [] (Some op) = Ok (fo, vm, z) /\ length fo = n.
Proof.
  intros K B U St. destruct (k_out C K) as (R & GR & W & Rl). destruct (asm_rel_width R _ W _ Rl) as [_ Pw].
  destruct (out_some C 0 K B U) as (fo & vm & z & E & IV); [pose proof (pow2_pos _ Pw); lia|]. exists (length fo). split.
  - assert (buildable (TSum g c fs)) as Bs.
    { clear - B St. remember (TSum g c fs) as u eqn:Eu. induction St as [t|c' fs' k p t u I S IH|g' c' fs' k p t u I S IH]; auto; apply IH; auto; inversion B as [? L| |]; subst; try destruct L; eauto. }
    inversion Bs as [? L| |? ? ? L2 _ _]; subst; [destruct L|]. destruct fs as [|[k1 t1] [|[k2 t2] fs]]; cbn [length] in L2; try lia.
    pose proof (sub_ty_wf _ _ _ St W) as Ws.
    assert (k1 <> k2) as Nk by (assert (NoDup (map fst ((k1, t1) :: (k2, t2) :: fs))) as N by (inversion Ws; auto); intros ->; inversion N as [|? ? X _]; apply X; left; reflexivity).
    assert (forall k t, In (k, t) ((k1, t1) :: (k2, t2) :: fs) -> exists f, In f fo /\ In (r, k) (f_dict f)) as Ch.
    { intros k t I. destruct (inhabited t (wf_members_sum _ _ _ _ _ Ws I)) as (w & Hw & _).
      destruct (sum_reached _ _ _ St W (VSum k w)) as (v & Hv & Sv); [econstructor; eauto|].
      destruct (i_ex _ _ _ _ _ _ _ _ _ _ IV v Hv) as (f & If & M). exists f. split; auto. apply (mt_dict _ _ _ _ M). exists r. split; auto. exists g, c, ((k1, t1) :: (k2, t2) :: fs), w. exact Sv. }
    destruct (Ch k1 t1 (or_introl eq_refl)) as (f1 & I1 & D1). destruct (Ch k2 t2 (or_intror (or_introl eq_refl))) as (f2 & I2 & D2).
    destruct fo as [|f [|f' fo]]; [destruct I1| |cbn; lia]. exfalso. destruct I1 as [<-|[]], I2 as [<-|[]].
    destruct (i_cov _ _ _ _ _ _ _ _ _ _ IV f (or_introl eq_refl)) as (v & _ & M). pose proof (mt_nd _ _ _ _ M) as ND.
    pose proof (dget_in _ _ _ ND D1) as G1. pose proof (dget_in _ _ _ ND D2) as G2. congruence.
  - intros op Rg. destruct (out_some C op K B U Rg) as (fo' & vm' & z' & E' & IV'). exists fo', vm', z'. split; auto.
    assert (forall o1 v1 z1 p1 o2 v2 z2 p2, Inv (fun _ => 0) (fun _ => 0) (fun _ => True) [] (out_ty C) (c_oa C) p1 o1 v1 z1 ->
      Inv (fun _ => 0) (fun _ => 0) (fun _ => True) [] (out_ty C) (c_oa C) p2 o2 v2 z2 -> (length o1 <= length o2)%nat) as Le.
    { intros o1 v1 z1 p1 o2 v2 z2 p2 A1 A2. apply (distinct_le same_dict); [apply same_dict_sym|apply same_dict_trans|apply A1|].
      intros f I. destruct (i_cov _ _ _ _ _ _ _ _ _ _ A1 f I) as (v & Hv & M). destruct (i_ex _ _ _ _ _ _ _ _ _ _ A2 v Hv) as (f' & I' & M'). exists f'. split; auto.
      intros q k. rewrite (mt_dict _ _ _ _ M q k), (mt_dict _ _ _ _ M' q k). tauto. }
    apply Nat.le_antisymm; eapply Le; eauto.
Qed.
Theorem C86_sum_outputs C cs r g c fs : class_ok C -> call_ok C -> buildable (in_ty C) -> buildable (out_ty C) -> untagged (out_ty C) ->
  sub_ty (out_ty C) r (TSum g c fs) -> adt_arch C cs = Err NotImplementedError /\ adt_instr C = Err NotImplementedError.
Proof.
  intros K Ck Bi Bo U St. destruct (out_count C r g c fs K Bo U St) as (n & Ln & Hn). destruct (k_in C K) as (R & GR & W & Rl).
  destruct (forms_work R GR C W Rl Bi (fun _ => 0) (fun _ => 0)) as (fo & vm & z & E & IV).
  assert (one_output_form C fo = Err NotImplementedError) as X.
  { unfold one_output_form.
    assert (mapM (fun f => do ws <- in_words C (f_val f); do oo <- out_forms C ws; Ok (length oo)) fo = Ok (map (fun _ => n) fo)) as ->.
    { apply mapM_Ok. clear IV E. induction fo as [|f fo IH]; cbn [map]; constructor; auto.
      destruct (in_words_ok C (f_val f) K) as (ws & Ew & Fw). rewrite Ew. cbn [bind].
      destruct (wrap_ok C (c_call C ws) K Bo (Ck ws Fw)) as (op & Eop & Rg & _). destruct (Hn op Rg) as (oo & vm' & z' & Ef & <-).
      unfold out_forms. rewrite Eop. cbn [bind]. rewrite Ef. reflexivity. }
    cbn [bind]. destruct fo as [|f fo]; [destruct (inhabited _ W) as (v & Hv & _); destruct (i_ex _ _ _ _ _ _ _ _ _ _ IV v Hv) as (x & [] & _)|]. cbn [map].
    assert (forallb (Nat.eqb n) (n :: map (fun _ => n) fo) = true) as -> by (clear; cbn [forallb]; rewrite Nat.eqb_refl; induction fo; cbn [map forallb]; rewrite ?Nat.eqb_refl; auto).
    cbn [negb]. rewrite (proj2 (Nat.ltb_lt _ _) Ln). reflexivity. }
  unfold adt_arch, adt_instr. rewrite E. cbn [bind]. rewrite X. auto.
Qed.

(** ** The function of a form *)
Lemma call_words C tags l fo vm z g vs : class_ok C -> buildable (in_ty C) -> in_forms C tags l = Ok (fo, vm, z) -> In g fo ->
  has_ty (in_ty C) (VProd vs) -> matches [] (in_ty C) (VProd vs) g -> holds (in_ty C) (VProd vs) l ->
  (forall r gg c fs k w, sub_val (in_ty C) (VProd vs) r (TSum gg c fs) (VSum k w) -> rank_of fs k (tags r)) ->
  exists ws, in_words C (f_val g) = Ok ws /\ words canonical (c_in C) ws vs.
Proof.
  intros K B Ew Ig Hv M Hl Hr. destruct (k_in C K) as (R & GR & W & Rl).
  assert (canonical (in_ty C) (f_val g) (VProd vs)) as Cn.
  { destruct (i_sem _ _ _ _ _ _ _ _ _ _ (forms_inv R GR C W Rl B _ _ _ _ _ Ew) (VProd vs) Hv) as (_ & H2 & _); [|apply H2; auto].
    split; [|exact Hr]. intros r t' v' Sv L. exact (Hl r t' v' Sv L). }
  assert (length vs = length (c_in C)) as Lv by (inversion Hv as [| | | |? ? ? F|]; subst; rewrite <- (F2_length _ _ _ F); apply strip_length).
  destruct (words_of_ok (c_ia C) (c_in C) (f_val g) (fun f w => forall i v, nth_error (c_in C) i = Some f -> nth_error vs i = Some v -> canonical (strip (snd f)) w v)) as (ws & Ews & F).
  { intros i k m Ei. assert (exists v, nth_error vs i = Some v) as [v Ev].
    { destruct (nth_error vs i) eqn:X; eauto. apply nth_error_None in X. assert (i < length (c_in C))%nat by (apply nth_error_Some; congruence). lia. }
    assert (sub_val (in_ty C) (VProd vs) [k] (strip m) v) as Sv.
    { econstructor; [|exact Ev|constructor]. unfold strip_fields. rewrite nth_error_map, Ei. reflexivity. }
    destruct (aadt_get_spec R _ _ _ _ _ _ (c_ia C) (f_val g) Sv GR W Rl Cn) as (x & mm & a' & G & En & _).
    exists x, mm. split; auto. intros j v' Ej Ev'. cbn [snd].
    assert (j = i).
    { assert (no_dup_keys (strip_fields (c_in C))) as ND by (inversion W; auto).
      eapply (nth_key_unique (strip_fields (c_in C)) j i k); eauto; unfold strip_fields; rewrite nth_error_map; [rewrite Ej|rewrite Ei]; reflexivity. }
    subst j. assert (v' = v) by congruence. subst v'. exact En. }
  exists ws. split; auto. split; [symmetry; eapply F2_length; eauto|]. split; auto. intros i k m w v Ei Ewi Ev.
  destruct (F2_nth _ _ _ F i _ Ei) as (w' & Ew' & H). assert (w' = w) by congruence. subst w'. exact (H i v Ei Ev).
Qed.

(** [reads C ws out]: called with the words [ws] the class returns words of values
    whose leaves are encoded by [out]. *)
Definition reads (C : pclass) (ws : list Z) (out : path -> Z) : Prop :=
  forall os, words encodes (c_out C) (c_call C ws) os -> has_ty (out_ty C) (VProd os) ->
  forall q t o, sub_val (out_ty C) (VProd os) q t o -> is_leaf t -> encodes t (out q) o.

Theorem C86_function C cs A : class_ok C -> call_ok C -> adt_arch C cs = Ok A -> buildable (out_ty C) -> sum_free (out_ty C) ->
  forall fi vs l, has_ty (in_ty C) (VProd vs) -> form_of C A fi (VProd vs) -> holds (in_ty C) (VProd vs) l ->
  exists ws, words canonical (c_in C) ws vs /\ reads C ws (adt_fs C A fi l).
Proof.
  intros K Ck E Bo S fi vs l Hv Fo Hl. destruct (k_in C K) as (R & GR & W & Rl). pose proof (arch_buildable C cs A K E) as B.
  pose proof Fo as (f & Ef & Hq & Ht).
  destruct (form_at R GR C W Rl B cs A E fi f (own A fi) l Ef) as (fo & vm & z & g & Ew & Eg & V & D & Efw & _).
  assert (matches [] (in_ty C) (VProd vs) g) as M by (apply (form_matches C cs A fi f (VProd vs) (own A fi) l fo vm z g K E Hv Ef Ew Eg); auto).
  destruct (call_words C (own A fi) l fo vm z g vs K B Ew (nth_error_In _ _ Eg) Hv M Hl) as (ws & Ews & Wd).
  { intros r gg c fs k w Sv. pose proof (sub_val_has _ _ _ _ _ Sv W Hv) as H. inversion H as [| | | | |? ? ? ? u ? Iu Hu]; subst.
    apply in_split in Iu as (pre & post & Hfs). assert (rank_of fs k (rank_at pre k post)) as Rk by (exists pre, u, post; auto).
    assert (In (r, rank_at pre k post) (snd f)) as I by (apply Ht; exists gg, c, fs, k, w; auto).
    rewrite (own_dict R GR C W Rl B cs A E fi f r _ Ef I). exact Rk. }
  exists ws. split; auto. intros os Wo Ho q t o Sv L. unfold adt_fs. rewrite Efw.
  destruct (in_words_ok C (f_val g) K) as (ws' & Ews' & Fw). rewrite Ews in Ews'. injection Ews' as <-.
  apply (out_read C (f_val g) ws K Bo S Ews (Ck ws Fw) os Wo Ho q t o Sv L).
Qed.

(** An instruction has one form and no Sum. *)
Lemma instr_forms D I : class_ok D -> adt_instr D = Ok I -> buildable (in_ty D) /\ sum_free (in_ty D).
Proof.
  intros K E. destruct (k_in D K) as (R & GR & W & Rl).
  assert (buildable (in_ty D)) as B.
  { unfold adt_instr in E. destruct (in_forms D (fun _ => 0) (fun _ => 0)) as [r|] eqn:Ef; [|discriminate]. exact (forms_buildable _ _ R _ GR W _ _ _ Rl Ef). }
  split; auto. intros r g c fs S. unfold adt_instr in E. destruct (in_forms D (fun _ => 0) (fun _ => 0)) as [[[fo vm] z]|] eqn:Ef; [|discriminate].
  pose proof (forms_inv R GR D W Rl B _ _ _ _ _ Ef) as IV. cbn [bind] in E. destruct (one_output_form D fo); [|discriminate]. cbn [bind] in E.
  destruct (Nat.ltb 1 (length fo)) eqn:Ln; [discriminate|]. clear E. apply Nat.ltb_ge in Ln.
  pose proof (sub_ty_wf _ _ _ S W) as Ws. assert (NoDup (map fst fs)) as ND by (inversion Ws; auto).
  assert (exists k1 t1 k2 t2, k1 <> k2 /\ In (k1, t1) fs /\ In (k2, t2) fs) as (k1 & t1 & k2 & t2 & Ne & I1 & I2).
  { assert (buildable (TSum g c fs)) as Bs.
    { clear - S B. remember (TSum g c fs) as u eqn:Eu. induction S as [|c' fs' k p t u' I' S' IH|g' c' fs' k p t u' I' S' IH]; auto.
      - apply IH; auto. inversion B as [? Lf|? ? _ _ BF|]; subst; [destruct Lf|eapply BF; eauto].
      - apply IH; auto. inversion B as [? Lf| |? ? ? _ _ BF]; subst; [destruct Lf|eapply BF; eauto]. }
    inversion Bs as [? Lf| |? ? ? L2 _ _]; subst; [destruct Lf|]. destruct fs as [|[k1 t1] [|[k2 t2] fs]]; cbn [length] in L2; try lia.
    exists k1, t1, k2, t2. split; [|split; [left; auto|right; left; auto]]. intros ->. inversion ND as [|? ? N1 _]. apply N1. left; auto. }
  assert (forall k t, In (k, t) fs -> forall f, In f fo -> In (r, k) (f_dict f)) as X.
  { intros k t It f If. destruct (inhabited t (wf_members_sum _ _ _ _ _ Ws It)) as (v & Hv & _).
    destruct (sum_reached _ _ _ S W (VSum k v) ltac:(econstructor; eauto)) as (v0 & H0 & Sv).
    destruct (i_ex _ _ _ _ _ _ _ _ _ _ IV v0 H0) as (f' & If' & M). assert (f' = f) as ->.
    { destruct fo as [|f1 [|f2 fo]]; [destruct If|destruct If as [<-|[]], If' as [<-|[]]; auto|cbn [length] in Ln; lia]. }
    apply (mt_dict _ _ _ _ M). exists r. split; auto. exists g, c, fs, v. exact Sv. }
  destruct (inhabited _ W) as (v & Hv & _). destruct (i_ex _ _ _ _ _ _ _ _ _ _ IV v Hv) as (f & If & M).
  apply Ne. pose proof (mt_nd _ _ _ _ M) as Nd. eapply pair_fun; [exact Nd|eapply X; eauto|eapply X; eauto].
Qed.

Theorem C86_instr_function D I : class_ok D -> call_ok D -> adt_instr D = Ok I -> buildable (out_ty D) -> sum_free (out_ty D) ->
  forall us x, has_ty (in_ty D) (VProd us) -> holds (in_ty D) (VProd us) x ->
  exists ws, words canonical (c_in D) ws us /\ reads D ws (MapModel.i_sem I x).
Proof.
  intros K Ck E Bo S us x Hv Hl. destruct (instr_forms D I K E) as [_ Si]. destruct (k_in D K) as (R & GR & W & Rl).
  assert (buildable (in_ty D)) as B.
  { unfold adt_instr in E. destruct (in_forms D (fun _ => 0) (fun _ => 0)) as [r|] eqn:Ef; [|discriminate]. exact (forms_buildable _ _ R _ GR W _ _ _ Rl Ef). }
  destruct (adt_instr_inv D I E) as (_ & _ & Es).
  destruct (forms_work R GR D W Rl B (fun _ => 0) x) as (fo & vm & z & Ew & IV).
  assert (forall f, In f fo -> f_dict f = []) as Dd.
  { intros f If. destruct (i_cov _ _ _ _ _ _ _ _ _ _ IV f If) as (v & _ & M). destruct (f_dict f) as [|[q k] d] eqn:Ed; auto. exfalso.
    assert (In (q, k) (f_dict f)) as X by (rewrite Ed; left; auto). apply (mt_dict _ _ _ _ M) in X. destruct X as (r & -> & g & c & fs & w & Sv).
    apply (Si r g c fs). eapply sub_val_ty; eauto. }
  destruct (i_ex _ _ _ _ _ _ _ _ _ _ IV (VProd us) Hv) as (g & Ig & M).
  assert (form_word D 0 (fun _ => 0) x = f_val g) as Efw.
  { unfold form_word. rewrite Ew. destruct fo as [|f [|f' fo]]; [destruct Ig|destruct Ig as [<-|[]]; reflexivity|exfalso].
    destruct (i_dis _ _ _ _ _ _ _ _ _ _ IV) as [X _]. apply (X f'); [left; auto|].
    intros q k. rewrite (Dd f), (Dd f'); [tauto|right; left; auto|left; auto]. }
  destruct (call_words D (fun _ => 0) x fo vm z g us K B Ew Ig Hv M Hl) as (ws & Ews & Wd).
  { intros r gg c fs k w Sv. destruct (Si r gg c fs). eapply sub_val_ty; eauto. }
  exists ws. split; auto. intros os Wo Ho q t o Sv L. rewrite Es, Efw.
  destruct (in_words_ok D (f_val g) K) as (ws' & Ews' & Fw). rewrite Ews in Ews'. injection Ews' as <-.
  apply (out_read D (f_val g) ws K Bo S Ews (Ck ws Fw) os Wo Ho q t o Sv L).
Qed.

(** ** A found rule is right about values: there is a form, a place for every input
    and output of the instruction and values of the constants such that whenever the
    architecture is called on a value of this form with these constants and the inputs
    of the instruction in their places, the words at the places of the outputs are
    those of the instruction. *)
Theorem C86_correct k C cs A D I : class_ok C -> call_ok C -> class_ok D -> call_ok D -> adt_arch C cs = Ok A -> adt_instr D = Ok I ->
  buildable (out_ty C) -> sum_free (out_ty C) -> buildable (out_ty D) -> sum_free (out_ty D) ->
  NoDup (map fst cs) -> constr_ok lty_vals A -> (exists k m, In (k, m) (c_in C) /\ const_field m = true) ->
  satisfiable path_eqb lty_eqb lty_vals (tag_vals C) k A I (build_expanded path_eqb lty_eqb lty_const k A I) ->
  exists fi f l0 (bnd obnd : path -> path),
    nth_error (a_forms A) fi = Some f /\ typed lty_vals (in_flat C) l0 /\ adt_fv C A fi l0 = true /\
    (forall p zs, In (p, zs) cs -> In p (fst f) -> In (l0 p) zs) /\
    (forall q t, In (q, t) (in_flat D) -> In (bnd q, t) (in_flat C) /\ In (bnd q) (fst f) /\ ~ In (bnd q) (map fst cs)) /\
    (forall q t q' t', In (q, t) (in_flat D) -> In (q', t') (in_flat D) -> bnd q = bnd q' -> q = q') /\
    (forall q t, In (q, t) (out_flat D) -> In (obnd q, t) (out_flat C)) /\
    (forall q t q' t', In (q, t) (out_flat D) -> In (q', t') (out_flat D) -> obnd q = obnd q' -> q = q') /\
    forall vs us l x, has_ty (in_ty C) (VProd vs) -> form_of C A fi (VProd vs) -> holds (in_ty C) (VProd vs) l -> typed lty_vals (in_flat C) l ->
      has_ty (in_ty D) (VProd us) -> holds (in_ty D) (VProd us) x ->
      (forall q t, In (q, t) (in_flat D) -> l (bnd q) = x q) ->
      (forall p t, In (p, t) (in_flat C) -> lty_const t = true -> (forall q t', In (q, t') (in_flat D) -> bnd q <> p) -> l p = l0 p) ->
      (forall p zs, In (p, zs) cs -> In (l p) zs) ->
      exists ws zs out out', words canonical (c_in C) ws vs /\ words canonical (c_in D) zs us /\
        reads C ws out /\ reads D zs out' /\ forall q t, In (q, t) (out_flat D) -> out' q = out (obnd q).
Proof.
  intros K Ck KD CkD E ED Bo S BoD SD N Hc Hk Sat.
  apply (C86_found k C cs A D I K KD E ED N Hc Hk) in Sat as (fi & f & l0 & bnd & obnd & Ef & Tl & Fv & Cs & Hb & Hi & Ho & Hoi & H).
  destruct (arch_inv C cs A E) as (_ & _ & _ & _ & _ & _ & Ein & Eout & Ecs & _). destruct (adt_instr_inv D I ED) as (EinD & EoutD & _).
  exists fi, f, l0, bnd, obnd. rewrite Ein, Eout, Ecs, EinD, EoutD in *. do 8 (split; [assumption|]).
  intros vs us l x Hv Fo Hl Ty Hu Hx Eq Con Csl.
  destruct (C86_function C cs A K Ck E Bo S fi vs l Hv Fo Hl) as (ws & Ws & Rd).
  destruct (C86_instr_function D I KD CkD ED BoD SD us x Hu Hx) as (zs & Zs & Rd').
  exists ws, zs, (adt_fs C A fi l), (MapModel.i_sem I x). repeat (split; [assumption|]). intros q t Iq.
  rewrite <- (H q t Iq l Ty).
  - apply (ok_ilocal I (C86_instr D I KD ED)). intros p t' Ip. rewrite EinD in Ip. symmetry. eapply Eq; eauto.
  - intros p t' Ip _ Ec Nb. apply (Con p t'); auto.
  - intros p zs' Ip _ _. eauto.
Qed.

(** ** Validity of the constants *)
Theorem C86_valid C cs A h : class_ok C -> Forall wf_ty (in_ty C :: h) -> built h (in_ty C) (c_ia C) -> same_width (in_ty C :: h) ->
  (forall k m, In (k, m) (c_in C) -> const_field m = true -> no_multi_range (strip m)) ->
  adt_arch C cs = Ok A -> forall fi l, exists ws,
    in_words C (form_word C fi (own A fi) l) = Ok ws /\
    (adt_fv C A fi l = true <->
     forall i k m w, nth_error (c_in C) i = Some (k, m) -> const_field m = true -> nth_error ws i = Some w -> exists v, has_ty (strip m) v /\ encodes (strip m) w v).
Proof.
  intros K Wh Bh SW NM E fi l. pose proof (built_rel h _ _ Wh Bh) as Rl. assert (wf_ty (in_ty C)) as W by (inversion Wh; auto).
  destruct (in_words_ok C (form_word C fi (own A fi) l) K) as (ws & Ew & Fw). exists ws. split; auto.
  set (z := form_word C fi (own A fi) l) in *. unfold adt_fv, valid_word. fold z. rewrite forallb_forall.
  assert (forall i k m w, nth_error (c_in C) i = Some (k, m) -> const_field m = true -> nth_error ws i = Some w ->
    (field_valid C z k = true <-> exists v, has_ty (strip m) v /\ encodes (strip m) w v)) as X.
  { intros i k m w Ei Ec Ewi.
    assert (In (k, strip m) (strip_fields (c_in C))) as I.
    { apply nth_error_In in Ei. unfold strip_fields. apply in_map_iff. exists (k, m). auto. }
    pose proof (wf_members_prod "Input" _ _ _ W I) as Wm.
    destruct (prod_member _ "Input" _ (c_ia C) k (strip m) W Rl I) as (fa & lo & Em & Af & L0 & L1 & L2 & G).
    assert (aadt_get (c_ia C) z k = Ok (w, None)) as Gk.
    { unfold in_words, words_of in Ew. apply mapM_F2 in Ew. destruct (F2_nth _ _ _ Ew i k) as (w' & Ew' & Eg); [rewrite nth_error_map, Ei; reflexivity|].
      assert (w' = w) by congruence. subst w'. rewrite G in Eg |- *. cbn [bind fst] in Eg. congruence. }
    unfold field_valid. rewrite Em. cbn [bind]. rewrite Gk. cbn [bind fst].
    assert (0 <= w < 2 ^ a_width fa) as Rg.
    { destruct (F2_nth _ _ _ Fw i _ Ei) as (w' & Ew' & n & Sn & Rn). assert (w' = w) by congruence. subst w'. cbn [snd] in Sn.
      assert (n = a_width fa) as <-; auto. apply (swidth_fun (strip m)); auto. apply (asm_rel_width _ (strip m) Wm fa Af). }
    split.
    - intros Vd. destruct (isv_spec _ (reqs_good _ Wh) (exact_reqs _ SW) (strip m) Wm (NM k m (nth_error_In _ _ Ei) Ec) fa w Af Rg Vd) as [v En].
      exists v. split; auto. eapply enc_has_ty; eauto.
    - intros (v & _ & En). apply (dis_spec _ (reqs_good _ Wh) _ (acc_reqs _ (same_width_zero _ SW)) (strip m) Wm fa w v Af En). }
  pose proof (F2_length _ _ _ Fw) as Lw. split.
  - intros H i k m w Ei Ec Ewi. apply (X i k m w Ei Ec Ewi). apply H. unfold const_fields. apply in_map_iff. exists (k, m). split; auto.
    apply filter_In. split; [eapply nth_error_In; eauto|auto].
  - intros H k I. unfold const_fields in I. apply in_map_iff in I as ([k0 m] & <- & I). apply filter_In in I as [I Ec]. cbn [fst snd] in *.
    apply In_nth_error in I as [i Ei]. destruct (nth_error ws i) as [w|] eqn:Ewi.
    + apply (X i k0 m w Ei Ec Ewi). eapply H; eauto.
    + exfalso. apply nth_error_None in Ewi. assert (i < length (c_in C))%nat by (apply nth_error_Some; congruence). lia.
Qed.

(** * A case: a PE with a Const instruction (an opcode 1 or 2 and an immediate) and an
    operand that is one word or a pair of words. It adds the words of the operand, and
    the immediate if the opcode is 2. [pe true] returns the sum below a field, next to
    its low bit. *)
Module Case.
Definition inst_t : mty := MMod "Const" (MProd "Inst" [(ky "op", MLeaf (TEnum "Op" [EInt 1; EInt 2])); (ky "imm", MLeaf (TBV 2))]).
Definition data_t : mty := MSum false "Data" [(ky "a", MLeaf (TBV 2)); (ky "b", MProd "Pair" [(ky "x", MLeaf (TBV 2)); (ky "y", MLeaf (TBV 2))])].
Definition asm_of (t : ty) : asm := match build ps0 t with Ok (a, _) => a | Err _ => AField TBit 0 end.
Definition pe_in : list (key * mty) := [(ky "inst", inst_t); (ky "data", data_t)].
Definition flat_out : list (key * mty) := [(ky "out", MLeaf (TBV 2))].
Definition nest_out : list (key * mty) := [(ky "res", MProd "Res" [(ky "sum", MLeaf (TBV 2)); (ky "low", MLeaf TBit)])].
Definition mk (i o : list (key * mty)) (f : list Z -> list Z) : pclass :=
  PClass i (asm_of (TProd "Input" (strip_fields i))) o (asm_of (TProd "Output" (strip_fields o))) f.
Definition sum_of (ws : list Z) : Z :=
  match ws with
  | [i; d] => (Z.modulo (Z.div d 2) 4 + (if Z.odd d then Z.modulo (Z.div d 8) 4 else 0) + (if Z.modulo i 4 =? 2 then Z.modulo (Z.div i 4) 4 else 0)) mod 4
  | _ => 0
  end.
Definition pe (nest : bool) : pclass :=
  mk pe_in (if nest then nest_out else flat_out) (fun ws => [if nest then sum_of ws + 4 * (sum_of ws mod 2) else sum_of ws]).
(** The instructions: the sum of two words, the increment of one, the product. *)
Definition bin_in : list (key * mty) := [(ky "p", MLeaf (TBV 2)); (ky "q", MLeaf (TBV 2))].
Definition bin (f : Z -> Z -> Z) : pclass := mk bin_in [(ky "r", MLeaf (TBV 2))] (fun ws => [match ws with [p; q] => f p q mod 4 | _ => 0 end]).
Definition una (f : Z -> Z) : pclass := mk [(ky "p", MLeaf (TBV 2))] [(ky "r", MLeaf (TBV 2))] (fun ws => [match ws with [p] => f p mod 4 | _ => 0 end]).

Lemma class_ok_b C : wf_ty (in_ty C) -> wf_ty (out_ty C) -> c_ia C = asm_of (in_ty C) -> c_oa C = asm_of (out_ty C) ->
  (exists a st, build ps0 (in_ty C) = Ok (a, st)) -> (exists a st, build ps0 (out_ty C) = Ok (a, st)) ->
  Forall (fun f => wf_mty (snd f)) (c_in C) -> Forall (fun f => wf_mty (snd f)) (c_out C) -> class_ok C.
Proof.
  intros Wi Wo Ei Eo (a & st & Bi) (a' & st' & Bo) Mi Mo. constructor; auto.
  - exists []. split; [constructor; [exact Wi|constructor]|]. exists st. cbn [run_history]. unfold asm_of in Ei. rewrite Bi in Ei. now rewrite Ei.
  - exists []. split; [constructor; [exact Wo|constructor]|]. exists st'. cbn [run_history]. unfold asm_of in Eo. rewrite Bo in Eo. now rewrite Eo.
Qed.
Ltac class := apply class_ok_b; [apply wf_b_spec; vm_compute; reflexivity|apply wf_b_spec; vm_compute; reflexivity|reflexivity|reflexivity|
  do 2 eexists; vm_compute; reflexivity|do 2 eexists; vm_compute; reflexivity|repeat constructor|repeat constructor].
Lemma pe_class nest : class_ok (pe nest).
Proof. destruct nest; class. Qed.
Lemma bin_class f : class_ok (bin f).
Proof. class. Qed.
Lemma una_class f : class_ok (una f).
Proof. class. Qed.

Lemma sum_range ws : 0 <= sum_of ws < 4.
Proof. unfold sum_of. destruct ws as [|i [|d [|]]]; try lia. apply Z.mod_pos_bound. lia. Qed.
Lemma pe_call nest : call_ok (pe nest).
Proof.
  intros ws _. pose proof (sum_range ws) as H. destruct nest; (constructor; [|constructor]); cbn [snd].
  - exists 3. split; [apply (sw_prod "Res" [(ky "sum", TBV 2); (ky "low", TBit)] [2; 1]); repeat constructor|].
    pose proof (Z.mod_pos_bound (sum_of ws) 2). change (2 ^ 3) with 8. lia.
  - exists 2. split; [constructor|exact H].
Qed.
Lemma bin_call f : call_ok (bin f).
Proof. intros ws _. constructor; [|constructor]. exists 2. split; [constructor|]. destruct ws as [|p [|q [|]]]; try (change (2 ^ 2) with 4; lia). apply Z.mod_pos_bound. reflexivity. Qed.
Lemma una_call f : call_ok (una f).
Proof. intros ws _. constructor; [|constructor]. exists 2. split; [constructor|]. destruct ws as [|p [|]]; try (change (2 ^ 2) with 4; lia). apply Z.mod_pos_bound. reflexivity. Qed.

Definition A_of (C : pclass) (cs : list (path * list Z)) : arch path lty :=
  match adt_arch C cs with Ok A => A | Err _ => mkArch [] [] [] [] false (fun _ _ _ _ => 0) (fun _ _ _ => 0) (fun _ _ _ => false) (fun _ _ => false) end.
Definition I_of (C : pclass) : instr path lty := match adt_instr C with Ok i => i | Err _ => mkInstr [] [] (fun _ _ => 0) end.
Lemma A_of_ok C cs : match adt_arch C cs with Ok _ => true | Err _ => false end = true -> adt_arch C cs = Ok (A_of C cs).
Proof. unfold A_of. destruct (adt_arch C cs); [reflexivity|discriminate]. Qed.
Lemma I_of_ok C : match adt_instr C with Ok _ => true | Err _ => false end = true -> adt_instr C = Ok (I_of C).
Proof. unfold I_of. destruct (adt_instr C); [reflexivity|discriminate]. Qed.
Lemma pe_arch nest : adt_arch (pe nest) [] = Ok (A_of (pe nest) []).
Proof. apply A_of_ok. destruct nest; vm_compute; reflexivity. Qed.
Lemma bin_instr f : adt_instr (bin f) = Ok (I_of (bin f)).
Proof. apply I_of_ok. vm_compute. reflexivity. Qed.
Lemma una_instr f : adt_instr (una f) = Ok (I_of (una f)).
Proof. apply I_of_ok. vm_compute. reflexivity. Qed.

Definition p_op : path := [ky "inst"; ky "op"].
Definition p_imm : path := [ky "inst"; ky "imm"].
Definition p_a : path := [ky "data"; ky "a"].
Definition p_x : path := [ky "data"; ky "b"; ky "x"].
Definition p_y : path := [ky "data"; ky "b"; ky "y"].
Definition p_out (nest : bool) : path := if nest then [ky "res"; ky "sum"] else [ky "out"].
Lemma pe_a_in nest : a_in (A_of (pe nest) []) =
  [(p_op, (["Const"], TEnum "Op" [EInt 1; EInt 2])); (p_imm, (["Const"], TBV 2)); (p_a, ([], TBV 2)); (p_x, ([], TBV 2)); (p_y, ([], TBV 2))].
Proof. destruct nest; vm_compute; reflexivity. Qed.
Lemma pe_forms nest : a_forms (A_of (pe nest) []) =
  [([p_op; p_imm; p_a], [([ky "data"], 0)]); ([p_op; p_imm; p_x; p_y], [([ky "data"], 1)])].
Proof. destruct nest; vm_compute; reflexivity. Qed.
Lemma pe_a_out nest : a_out (A_of (pe nest) []) =
  if nest then [(p_out nest, ([], TBV 2)); ([ky "res"; ky "low"], ([], TBit))] else [(p_out nest, ([], TBV 2))].
Proof. destruct nest; vm_compute; reflexivity. Qed.
Lemma pe_a_constr nest : a_constr (A_of (pe nest) []) = [].
Proof. destruct nest; vm_compute; reflexivity. Qed.
Lemma pe_has_const nest : a_has_const (A_of (pe nest) []) = true.
Proof. destruct nest; vm_compute; reflexivity. Qed.
(** Leaves given by a list. *)
Definition at_ (es : list (path * Z)) (p : path) : Z := match dget path_eqb es p with Some z => z | None => 0 end.
Lemma four z : In z (lty_vals ([], TBV 2)) -> z = 0 \/ z = 1 \/ z = 2 \/ z = 3.
Proof. intros H. vm_compute in H. intuition. Qed.

(** The sum of two words is found in the second form, with opcode 1. *)
Lemma add_direct nest : direct path_eqb lty_const lty_vals (A_of (pe nest) []) (I_of (bin Z.add)) (adt_fs (pe nest) (A_of (pe nest) [])) (adt_fv (pe nest) (A_of (pe nest) [])).
Proof.
  destruct (C86_arch _ _ _ (pe_class nest) (pe_arch nest) (NoDup_nil _)) as [Ok_ _]. pose proof (C86_instr _ _ (bin_class Z.add) (bin_instr Z.add)) as OkI.
  exists 1%nat, ([p_op; p_imm; p_x; p_y], [([ky "data"], 1)]), (at_ [(p_op, 1)]),
    (fun q => if path_eqb q [ky "p"] then p_x else p_y), (fun _ => p_out nest).
  split; [rewrite pe_forms; reflexivity|].
  split. { intros p t. rewrite pe_a_in. intros H. repeat (destruct H as [H|H]; [injection H as <- <-; vm_compute; auto|]). destruct H. }
  split; [destruct nest; vm_compute; reflexivity|].
  split; [rewrite pe_a_constr; intros p zs []|].
  assert (i_in (I_of (bin Z.add)) = [([ky "p"], ([], TBV 2)); ([ky "q"], ([], TBV 2))]) as Ei by (vm_compute; reflexivity).
  assert (i_out (I_of (bin Z.add)) = [([ky "r"], ([], TBV 2))]) as Eo by (vm_compute; reflexivity).
  split. { intros q t. rewrite Ei, pe_a_in, pe_a_constr. intros [H|[H|[]]]; injection H as <- <-; (split; [|split; [|intros []]]); vm_compute; tauto. }
  split. { intros q t q' t'. rewrite Ei. intros [H|[H|[]]] [H'|[H'|[]]]; injection H as <- <-; injection H' as <- <-; try reflexivity; discriminate. }
  split. { intros q t. rewrite Eo, pe_a_out. intros [H|[]]; injection H as <- <-. destruct nest; left; reflexivity. }
  split. { intros q t q' t'. rewrite Eo. intros [H|[]] [H'|[]]; injection H as <- <-; injection H' as <- <-; reflexivity. }
  intros q t. rewrite Eo. intros [H|[]] l Ty Cn _; injection H as <- <-.
  assert (l p_op = 1) as E1.
  { rewrite (Cn p_op (["Const"], TEnum "Op" [EInt 1; EInt 2])); [reflexivity|rewrite pe_a_in; left; reflexivity|left; reflexivity|reflexivity|].
    intros q' t''. rewrite Ei. intros [H|[H|[]]]; injection H as <- <-; discriminate. }
  assert (l p_imm = 0) as E2.
  { rewrite (Cn p_imm (["Const"], TBV 2)); [reflexivity|rewrite pe_a_in; right; left; reflexivity|right; left; reflexivity|reflexivity|].
    intros q' t''. rewrite Ei. intros [H|[H|[]]]; injection H as <- <-; discriminate. }
  rewrite (ok_local _ _ _ _ Ok_ 1%nat ([p_op; p_imm; p_x; p_y], [([ky "data"], 1)]) l (at_ [(p_op, 1); (p_imm, 0); (p_x, l p_x); (p_y, l p_y)])).
  2: rewrite pe_forms; reflexivity.
  2: { intros p [<-|[<-|[<-|[<-|[]]]]]; cbn [at_]; auto. }
  rewrite (ok_ilocal _ OkI (fun q => l (if path_eqb q [ky "p"] then p_x else p_y)) (at_ [([ky "p"], l p_x); ([ky "q"], l p_y)])).
  2: { intros p t'. rewrite Ei. intros [H|[H|[]]]; injection H as <- <-; reflexivity. }
  assert (In (l p_x) (lty_vals ([], TBV 2))) as Hx by (apply Ty; rewrite pe_a_in; cbn [In]; tauto).
  assert (In (l p_y) (lty_vals ([], TBV 2))) as Hy by (apply Ty; rewrite pe_a_in; cbn [In]; tauto).
  apply four in Hx. apply four in Hy. generalize dependent (l p_x). generalize dependent (l p_y). clear. intros y Hy x Hx.
  destruct nest; destruct Hx as [->|[->|[->| ->]]], Hy as [->|[->|[->| ->]]]; vm_compute; reflexivity.
Qed.

Lemma pe_out_word nest q : In (q, ([], TBV 2)) (a_out (A_of (pe nest) [])) -> q = p_out nest.
Proof. rewrite pe_a_out. destruct nest; intros H; repeat (destruct H as [H|H]; [congruence|]); destruct H. Qed.

(** The product is not found. *)
Lemma mul_direct nest : ~ direct path_eqb lty_const lty_vals (A_of (pe nest) []) (I_of (bin Z.mul)) (adt_fs (pe nest) (A_of (pe nest) [])) (adt_fv (pe nest) (A_of (pe nest) [])).
Proof.
  destruct (C86_arch _ _ _ (pe_class nest) (pe_arch nest) (NoDup_nil _)) as [Ok_ _]. pose proof (C86_instr _ _ (bin_class Z.mul) (bin_instr Z.mul)) as OkI.
  intros (fi & f & l0 & bnd & obnd & Ef & Ty & _ & _ & Hb & Hi & Ho & _ & H).
  assert (i_in (I_of (bin Z.mul)) = [([ky "p"], ([], TBV 2)); ([ky "q"], ([], TBV 2))]) as Ei by (vm_compute; reflexivity).
  assert (i_out (I_of (bin Z.mul)) = [([ky "r"], ([], TBV 2))]) as Eo by (vm_compute; reflexivity).
  rewrite Ei in Hb, Hi, H. rewrite Eo in Ho, H. pose proof (pe_out_word nest _ (Ho _ _ (or_introl eq_refl))) as Eob.
  destruct (Hb _ _ (or_introl eq_refl)) as (Ip & Fp & _). destruct (Hb _ _ (or_intror (or_introl eq_refl))) as (Iq & Fq & _).
  assert (bnd [ky "p"] <> bnd [ky "q"]) as Ne.
  { intros Eq. specialize (Hi _ _ _ _ (or_introl eq_refl) (or_intror (or_introl eq_refl)) Eq). discriminate Hi. }
  rewrite pe_a_in in Ip, Iq. rewrite pe_forms in Ef.
  assert (forall p, In (p, ([], TBV 2)) [(p_op, (["Const"], TEnum "Op" [EInt 1; EInt 2])); (p_imm, (["Const"], TBV 2)); (p_a, ([], TBV 2)); (p_x, ([], TBV 2)); (p_y, ([], TBV 2))] ->
    p = p_a \/ p = p_x \/ p = p_y) as Dt by (intros p [X|[X|[X|[X|[X|[]]]]]]; try discriminate X; injection X as <-; auto).
  apply Dt in Ip. apply Dt in Iq. clear Dt.
  destruct fi as [|[|fi]]; [| |destruct fi; discriminate Ef].
  { injection Ef as <-. assert (forall p, In p [p_op; p_imm; p_a] -> p = p_a \/ p = p_x \/ p = p_y -> p = p_a) as Dt.
    { intros p [<-|[<-|[<-|[]]]] X; auto; destruct X as [X|[X|X]]; discriminate X. }
    apply Ne. transitivity p_a; [|symmetry]; apply Dt; auto. }
  injection Ef as <-.
  assert (forall p, In p [p_op; p_imm; p_x; p_y] -> p = p_a \/ p = p_x \/ p = p_y -> p = p_x \/ p = p_y) as Dt.
  { intros p [<-|[<-|[<-|[<-|[]]]]] X; auto; destruct X as [X|[X|X]]; discriminate X. }
  apply Dt in Ip; auto. apply Dt in Iq; auto. clear Dt.
  assert (forall x y, In x (lty_vals ([], TBV 2)) -> In y (lty_vals ([], TBV 2)) ->
    (x * y) mod 4 = adt_fs (pe nest) (A_of (pe nest) []) 1 (at_ [(p_op, l0 p_op); (p_imm, l0 p_imm); (p_x, x); (p_y, y)]) (p_out nest)) as Eq.
  { intros x y Hx Hy. specialize (H _ _ (or_introl eq_refl) (at_ [(p_op, l0 p_op); (p_imm, l0 p_imm); (p_a, 0); (p_x, x); (p_y, y)])).
    rewrite Eob in H.
    rewrite (ok_local _ _ _ _ Ok_ 1%nat ([p_op; p_imm; p_x; p_y], [([ky "data"], 1)])
      (at_ [(p_op, l0 p_op); (p_imm, l0 p_imm); (p_x, x); (p_y, y)]) (at_ [(p_op, l0 p_op); (p_imm, l0 p_imm); (p_a, 0); (p_x, x); (p_y, y)])).
    2: rewrite pe_forms; reflexivity.
    2: { intros p [<-|[<-|[<-|[<-|[]]]]]; reflexivity. }
    rewrite <- H.
    - rewrite (ok_ilocal _ OkI _ (at_ (if path_eqb (bnd [ky "p"]) p_x then [([ky "p"], x); ([ky "q"], y)] else [([ky "p"], y); ([ky "q"], x)]))).
      2: { intros p t'. rewrite Ei. intros [X|[X|[]]]; injection X as <- <-; destruct Ip as [Ip|Ip], Iq as [Iq|Iq]; try congruence; rewrite Ip, ?Iq; reflexivity. }
      apply four in Hx. apply four in Hy. destruct (path_eqb _ _); destruct Hx as [->|[->|[->| ->]]], Hy as [->|[->|[->| ->]]]; vm_compute; reflexivity.
    - intros p t. rewrite pe_a_in. intros X.
      pose proof (Ty p t) as Tp. rewrite pe_a_in in Tp. specialize (Tp X).
      destruct X as [X|[X|[X|[X|[X|[]]]]]]; injection X as <- <-; try assumption. vm_compute. auto.
    - intros p t'. rewrite pe_a_in. intros X _ Ct _. destruct X as [X|[X|[X|[X|[X|[]]]]]]; injection X as <- <-; try reflexivity; discriminate Ct.
    - rewrite pe_a_constr. intros p zs []. }
  assert (In (l0 p_op) (lty_vals (["Const"], TEnum "Op" [EInt 1; EInt 2]))) as H1 by (apply Ty; rewrite pe_a_in; left; reflexivity).
  assert (In (l0 p_imm) (lty_vals (["Const"], TBV 2))) as H2 by (apply Ty; rewrite pe_a_in; right; left; reflexivity).
  assert (In (l0 p_op) (lty_vals ([], TBV 2))) as H1' by exact H1. assert (In (l0 p_imm) (lty_vals ([], TBV 2))) as H2' by exact H2.
  apply four in H1'. apply four in H2'.
  assert (In 0 (lty_vals ([], TBV 2))) as Z0 by (vm_compute; auto). assert (In 1 (lty_vals ([], TBV 2))) as Z1 by (vm_compute; auto).
  pose proof (Eq 0 0 Z0 Z0) as E0. pose proof (Eq 1 0 Z1 Z0) as E1. clear - E0 E1 H1' H2'.
  destruct nest; destruct H1' as [E|[E|[E|E]]], H2' as [E'|[E'|[E'|E']]]; rewrite E, E' in E0, E1; clear E E'; vm_compute in E0, E1; congruence.
Qed.
End Case.

(** Checkers. *)
Definition nz_b (t : ty) : bool := wf_b t && negb (a2_width t =? 0).
Fixpoint build_b (t : ty) : bool :=
  match t with
  | TProd _ fs => negb (Nat.eqb (length fs) 0) && (Nat.eqb (length fs) 1 || forallb (fun f => nz_b (snd f)) fs) && forallb (fun f => build_b (snd f)) fs
  | TSum _ _ fs => Nat.leb 2 (length fs) && forallb (fun f => nz_b (snd f)) fs && forallb (fun f => build_b (snd f)) fs
  | _ => true
  end.
Fixpoint free_b (t : ty) : bool :=
  match t with TProd _ fs => forallb (fun f => free_b (snd f)) fs | TSum _ _ _ => false | _ => true end.
Lemma nz_b_spec t : nz_b t = true -> ~ swidth t 0.
Proof.
  intros H S. apply andb_true_iff in H as [W N]. pose proof (a2_width_spec t (wf_b_spec t W)) as S'.
  rewrite (swidth_fun t _ _ S' S) in N. discriminate.
Qed.
Lemma build_b_spec t : build_b t = true -> buildable t.
Proof.
  induction t as [| | |c ms|c fs IH|g c fs IH] using ty_ind'; intros H; try (apply bd_leaf; exact Logic.I); cbn [build_b] in H;
    apply andb_true_iff in H as [H H3]; apply andb_true_iff in H as [H1 H2]; rewrite Forall_forall in IH; rewrite forallb_forall in H3.
  - apply bd_prod.
    + intros ->. discriminate.
    + apply orb_true_iff in H2 as [H2|H2]; [left; now apply Nat.eqb_eq|right]. rewrite forallb_forall in H2. intros k t I. apply nz_b_spec, (H2 (k, t) I).
    + intros k t I. apply (IH (k, t) I), (H3 (k, t) I).
  - apply bd_sum.
    + now apply Nat.leb_le.
    + rewrite forallb_forall in H2. intros k t I. apply nz_b_spec, (H2 (k, t) I).
    + intros k t I. apply (IH (k, t) I), (H3 (k, t) I).
Qed.
Lemma free_b_spec t : free_b t = true -> sum_free t.
Proof.
  induction t as [| | |c ms|c fs IH|g c fs IH] using ty_ind'; intros H r g' c' fs' S; try (inversion S; fail); cbn [free_b] in H; try discriminate H.
  rewrite Forall_forall in IH. rewrite forallb_forall in H. inversion S; subst.
  match goal with I : In _ fs, S' : sub_ty _ _ _ |- _ => exact (IH _ I (H _ I) _ _ _ _ S') end.
Qed.

(** The hypotheses of the theorems hold of the case. *)
Example C86_case_classes nest f g : class_ok (Case.pe nest) /\ call_ok (Case.pe nest) /\ class_ok (Case.bin f) /\ call_ok (Case.bin f) /\
  class_ok (Case.una g) /\ call_ok (Case.una g).
Proof. split; [apply Case.pe_class|]. split; [apply Case.pe_call|]. split; [apply Case.bin_class|]. split; [apply Case.bin_call|]. split; [apply Case.una_class|apply Case.una_call]. Qed.
Example C86_case_types nest f : buildable (in_ty (Case.pe nest)) /\ buildable (out_ty (Case.pe nest)) /\ sum_free (out_ty (Case.pe nest)) /\
  buildable (in_ty (Case.bin f)) /\ buildable (out_ty (Case.bin f)) /\ sum_free (out_ty (Case.bin f)) /\ sum_free (in_ty (Case.bin f)).
Proof. destruct nest; repeat (split; [first [apply build_b_spec|apply free_b_spec]; vm_compute; reflexivity|]); apply free_b_spec; vm_compute; reflexivity. Qed.
Example C86_case_const nest : exists k m, In (k, m) (c_in (Case.pe nest)) /\ const_field m = true.
Proof. exists (ky "inst"), Case.inst_t. split; [left; reflexivity|reflexivity]. Qed.

(** The sum of two words is found, flat or nested; their product is not. *)
Example C86_case_found nest k A Add Mul : adt_arch (Case.pe nest) [] = Ok A -> adt_instr (Case.bin Z.add) = Ok Add -> adt_instr (Case.bin Z.mul) = Ok Mul ->
  satisfiable path_eqb lty_eqb lty_vals (tag_vals (Case.pe nest)) k A Add (build_expanded path_eqb lty_eqb lty_const k A Add) /\
  ~ satisfiable path_eqb lty_eqb lty_vals (tag_vals (Case.pe nest)) k A Mul (build_expanded path_eqb lty_eqb lty_const k A Mul).
Proof.
  intros EA Ea Em. assert (A = Case.A_of (Case.pe nest) []) as -> by (pose proof (Case.pe_arch nest); congruence).
  assert (Add = Case.I_of (Case.bin Z.add)) as -> by (pose proof (Case.bin_instr Z.add); congruence).
  assert (Mul = Case.I_of (Case.bin Z.mul)) as -> by (pose proof (Case.bin_instr Z.mul); congruence).
  assert (constr_ok lty_vals (Case.A_of (Case.pe nest) [])) as Hc by (intros p zs; rewrite Case.pe_a_constr; intros []).
  rewrite (C86_found k _ _ _ _ _ (Case.pe_class nest) (Case.bin_class Z.add) EA Ea (NoDup_nil _) Hc (C86_case_const nest)).
  rewrite (C86_found k _ _ _ _ _ (Case.pe_class nest) (Case.bin_class Z.mul) EA Em (NoDup_nil _) Hc (C86_case_const nest)).
  split; [apply Case.add_direct|apply Case.mul_direct].
Qed.

(** The simple formula finds the sum if the output is flat and raises KeyError if it
    is not. *)
Example C86_case_simple k : 
  satisfiable path_eqb lty_eqb lty_vals (tag_vals (Case.pe false)) k (Case.A_of (Case.pe false) []) (Case.I_of (Case.bin Z.add))
    (build_simple_adt k (Case.A_of (Case.pe false) []) (Case.I_of (Case.bin Z.add))) /\
  build_simple_adt k (Case.A_of (Case.pe true) []) (Case.I_of (Case.bin Z.add)) = Err KeyError.
Proof.
  split.
  - apply (C86_found_simple k _ _ _ _ _ (Case.pe_class false) (Case.bin_class Z.add) (Case.pe_arch false) (Case.bin_instr Z.add) (NoDup_nil _)).
    + intros p zs. rewrite Case.pe_a_constr. intros [].
    + apply (C86_case_const false).
    + intros k0 m [[= <- <-]|[]] p mods q u [[= <- <-]|[]]. reflexivity.
    + intros k0 m [[= <- <-]|[]] p mods q u [[= <- <-]|[]]. reflexivity.
    + vm_compute. discriminate.
    + assert (i_in (Case.I_of (Case.bin Z.add)) = [([ky "p"], ([], TBV 2)); ([ky "q"], ([], TBV 2))]) as -> by (vm_compute; reflexivity).
      intros p t [[= <- <-]|[[= <- <-]|[]]]; reflexivity.
    + intros p fi f. rewrite Case.pe_a_constr. intros [].
    + apply Case.add_direct.
  - apply (C86_nested_outputs k _ _ _ _ _ (Case.pe_class true) (Case.bin_class Z.add) (Case.pe_arch true) (Case.bin_instr Z.add)).
    + vm_compute. reflexivity.
    + apply Case.pe_has_const.
    + exists [ky "res"; ky "sum"], [ky "r"], ([], TBV 2). split; [vm_compute; auto|]. split; [vm_compute; auto|left; discriminate].
Qed.

(** The two forms are those of the one-word and of the two-word values. *)
Definition case_val (d : AsmModel.val) : AsmModel.val := VProd [VProd [VEnum (EInt 2); VBV 3]; d].
Example C86_case_forms nest :
  has_ty (in_ty (Case.pe nest)) (case_val (VSum (ky "a") (VBV 1))) /\ has_ty (in_ty (Case.pe nest)) (case_val (VSum (ky "b") (VProd [VBV 1; VBV 2]))) /\
  length (a_forms (Case.A_of (Case.pe nest) [])) = 2%nat.
Proof. split; [|split]; [apply has_ty_b_spec; destruct nest; vm_compute; reflexivity|apply has_ty_b_spec; destruct nest; vm_compute; reflexivity|]. rewrite Case.pe_forms. reflexivity. Qed.

(** The opcodes 1 and 2 are valid, 0 and 3 are not. *)
Example C86_case_valid nest : Forall wf_ty [in_ty (Case.pe nest)] /\ built [] (in_ty (Case.pe nest)) (c_ia (Case.pe nest)) /\ same_width [in_ty (Case.pe nest)] /\
  (forall k m, In (k, m) (c_in (Case.pe nest)) -> const_field m = true -> no_multi_range (strip m)) /\
  map (fun o => adt_fv (Case.pe nest) (Case.A_of (Case.pe nest) []) 1 (Case.at_ [(Case.p_op, o); (Case.p_imm, 3)])) [0; 1; 2; 3] = [false; true; true; false].
Proof.
  assert (Forall wf_ty [in_ty (Case.pe nest)]) as W by (apply wf_all_b; destruct nest; vm_compute; reflexivity).
  split; auto. split; [destruct nest; eexists; vm_compute; reflexivity|].
  split; [apply same_width_ok_spec; [exact W|destruct nest; vm_compute; reflexivity]|]. split; [|destruct nest; vm_compute; reflexivity].
  intros k m [[= <- <-]|[[= <- <-]|[]]] Ec; [|discriminate Ec]. apply no_multi_ok_spec; [apply wf_b_spec|]; vm_compute; reflexivity.
Qed.

(** A class with a sum among its outputs has no such view. *)
Definition sum_out : pclass := Case.mk Case.pe_in [(ky "out", Case.data_t)] (fun _ => [0]).
Example C86_case_sum : adt_arch sum_out [] = Err NotImplementedError.
Proof. vm_compute. reflexivity. Qed.
Example C86_case_sum_meets : class_ok sum_out /\ call_ok sum_out /\ buildable (in_ty sum_out) /\ buildable (out_ty sum_out) /\ untagged (out_ty sum_out) /\
  exists fs, sub_ty (out_ty sum_out) [ky "out"] (TSum false "Data" fs).
Proof.
  split; [Case.class|]. split; [intros ws _; constructor; [|constructor]; eexists; split; [apply a2_width_spec; apply wf_b_spec; vm_compute; reflexivity|vm_compute; split; [discriminate|reflexivity]]|].
  split; [apply build_b_spec; vm_compute; reflexivity|]. split; [apply build_b_spec; vm_compute; reflexivity|]. split.
  - apply ut_prod. intros k t [[= <- <-]|[]]. apply ut_sum. intros k t [[= <- <-]|[[= <- <-]|[]]]; [apply ut_leaf; exact Logic.I|].
    apply ut_prod. intros k t [[= <- <-]|[[= <- <-]|[]]]; apply ut_leaf; exact Logic.I.
  - eexists. eapply st_prod; [left; reflexivity|apply st_here].
Qed.

Print Assumptions C86_arch.
Print Assumptions C86_instr.
Print Assumptions C86_found.
Print Assumptions C86_found_simple.
Print Assumptions C86_found_simple_const.
Print Assumptions C86_nested_outputs.
Print Assumptions C86_forms.
Print Assumptions C86_builds.
Print Assumptions C86_builds_instr.
Print Assumptions C86_sum_outputs.
Print Assumptions C86_function.
Print Assumptions C86_instr_function.
Print Assumptions C86_correct.
Print Assumptions C86_valid.
