(** Lemmas about the synthesis formulas, and the specification of correct rules. *)
From Coq Require Import ZArith List Bool Lia Permutation.
From Verif Require Import Base BaseLemmas BindModel BindProps MapIdxModel MapIdxProps CegisModel CegisProps MapModel.
Import ListNotations.
Open Scope list_scope.
Open Scope Z_scope.

Lemma enumerate_from {X} (l : list X) s n x :
  In (n, x) (combine (seq s (length l)) l) <-> (s <= n)%nat /\ nth_error l (n - s) = Some x.
Proof.
  revert s. induction l as [|y l IH]; intros s; cbn [length seq combine].
  - split; [intros []|intros [_ H]]. destruct (n - s)%nat; discriminate.
  - cbn [In]. rewrite IH. split.
    + intros [E|[L E]]; [injection E as -> ->; rewrite Nat.sub_diag; auto|].
      split; [lia|]. replace (n - s)%nat with (S (n - S s)) by lia. exact E.
    + intros [L E]. destruct (Nat.eq_dec n s) as [->|N].
      * rewrite Nat.sub_diag in E. injection E as ->. now left.
      * right. split; [lia|]. replace (n - s)%nat with (S (n - S s)) in E by lia. exact E.
Qed.

Lemma enumerate_In {X} (l : list X) n x : In (n, x) (enumerate l) <-> nth_error l n = Some x.
Proof. unfold enumerate. rewrite enumerate_from, Nat.sub_0_r. split; [intros [_ H]; auto|split; auto; lia]. Qed.

Lemma nth_combine {X Y} (l : list X) (m : list Y) n x y :
  nth_error (combine l m) n = Some (x, y) <-> nth_error l n = Some x /\ nth_error m n = Some y.
Proof.
  revert m n. induction l as [|a l IH]; intros [|b m] [|n]; cbn; try (split; [discriminate|intros [? ?]; discriminate]).
  - split; [intros [= -> ->]; auto|intros [[= ->] [= ->]]; auto].
  - apply IH.
Qed.

Lemma nth_error_lt {X} (l : list X) n x : nth_error l n = Some x -> (n < length l)%nat.
Proof. intros E. apply nth_error_Some. congruence. Qed.

(** * Specification *)
Section Spec.
  Context {P T : Type} (peqb : P -> P -> bool) (teqb : T -> T -> bool) (isconst : T -> bool).
  (** The values of a leaf type. *)
  Variable td : T -> list Z.

  (** Assignments that respect the types of the paths. *)
  Definition typed (flat : list (P * T)) (l : P -> Z) : Prop := forall p t, In (p, t) flat -> In (l p) (td t).

  (** [fs fi l q]: output [q] of the architecture on the input value of form
      [fi] with leaves [l]; [fv fi l]: the Const fields of this value are
      valid. The architecture of the model is one computing these: *)
  Record arch_ok (a : arch P T) (fs : nat -> (P -> Z) -> P -> Z) (fv : nat -> (P -> Z) -> bool) : Prop := {
    ok_in : NoDup (map fst (a_in a));
    ok_out : NoDup (map fst (a_out a));
    ok_constr : NoDup (map fst (a_constr a));
    ok_constr_in : incl (map fst (a_constr a)) (map fst (a_in a));
    ok_leaves : forall fi f, nth_error (a_forms a) fi = Some f -> incl (fst f) (map fst (a_in a));
    ok_tags : forall fi f, nth_error (a_forms a) fi = Some f -> NoDup (map fst (snd f));
    (* on matching tags the object computes the function of the form *)
    ok_fsem : forall fi f tags l q, nth_error (a_forms a) fi = Some f ->
      (forall d, In d (snd f) -> tags (fst d) = snd d) -> a_fsem a fi tags l q = fs fi l q;
    ok_sem : forall fi f tags l q, nth_error (a_forms a) fi = Some f ->
      (forall d, In d (snd f) -> tags (fst d) = snd d) -> a_sem a tags l q = fs fi l q;
    ok_fvalid : forall fi f tags l, nth_error (a_forms a) fi = Some f ->
      (forall d, In d (snd f) -> tags (fst d) = snd d) -> a_fvalid a fi tags l = fv fi l;
    ok_valid : forall fi f tags l, nth_error (a_forms a) fi = Some f ->
      (forall d, In d (snd f) -> tags (fst d) = snd d) -> a_valid a tags l = fv fi l;
    (* which looks at the leaves of the form, validity at the constant ones *)
    ok_local : forall fi f l l' q, nth_error (a_forms a) fi = Some f ->
      (forall p, In p (fst f) -> l p = l' p) -> fs fi l q = fs fi l' q;
    ok_vlocal : forall fi f l l', nth_error (a_forms a) fi = Some f ->
      (forall p t, In p (fst f) -> In (p, t) (a_in a) -> isconst t = true -> l p = l' p) -> fv fi l = fv fi l' }.

  Record instr_ok (i : instr P T) : Prop := {
    ok_iin : NoDup (map fst (i_in i));
    ok_iout : NoDup (map fst (i_out i));
    ok_ilocal : forall x x' q, (forall p t, In (p, t) (i_in i) -> x p = x' p) -> i_sem i x q = i_sem i x' q }.

  (** The arch inputs [l] are what the rule makes of the IR inputs [x]. Nothing
      is said about unbound inputs. *)
  Definition follows (rin : list (src P * P)) (x l : P -> Z) : Prop :=
    forall s p, In (s, p) rin ->
      match s with SPath ip => l p = x ip | SVal z => l p = z | SUnbound => True end.

  (** The rule is correct: on all IR inputs and whatever is given to unbound
      arch inputs, the bound outputs agree. *)
  Definition correct (a : arch P T) (i : instr P T) (fs : nat -> (P -> Z) -> P -> Z) (ru : rule P) : Prop :=
    forall x l, typed (i_in i) x -> typed (a_in a) l -> follows (r_in ru) x l ->
    forall q ap, In (Some q, ap) (r_out ru) -> i_sem i x q = fs (r_form ru) l ap.

  (** Forgetting constants. *)
  Definition shape (rin : list (src P * P)) : list (option P * P) :=
    map (fun e => (match fst e with SPath p => Some p | _ => None end, snd e)) rin.

  (** The rule is well formed: its input binding is type-correct for the leaves
      of one form, its output binding is type-correct, constrained inputs and
      unbound constants get values. *)
  Definition well_formed (a : arch P T) (i : instr P T) (ru : rule P) : Prop :=
    exists f, nth_error (a_forms a) (r_form ru) = Some f /\
      type_correct peqb (filter (fun e => pmem peqb (fst e) (fst f)) (a_in a)) (i_in i) (shape (r_in ru)) /\
      type_correct peqb (a_out a) (i_out i) (r_out ru) /\
      (forall s p, In (s, p) (r_in ru) -> In p (map fst (a_constr a)) -> exists z, s = SVal z) /\
      (forall s p t, In (s, p) (r_in ru) -> In (p, t) (a_in a) -> isconst t = true -> s <> SUnbound).

  (** The constants of the rule can be completed to valid values. *)
  Definition valid_consts (a : arch P T) (fv : nat -> (P -> Z) -> bool) (ru : rule P) : Prop :=
    exists l, typed (a_in a) l /\ (forall z p, In (SVal z, p) (r_in ru) -> l p = z) /\ fv (r_form ru) l = true.

  (** A value of the rule for an input that is not Const but constrained stands
      for all allowed values: the mapper looks for rules that work with each. *)
  Definition follows_any (a : arch P T) (rin : list (src P * P)) (x l : P -> Z) : Prop :=
    forall s p t, In (s, p) rin -> In (p, t) (a_in a) ->
      match s with
      | SPath ip => l p = x ip
      | SVal z => (isconst t = true -> l p = z) /\ forall zs, In (p, zs) (a_constr a) -> In (l p) zs
      | SUnbound => True
      end.
  Definition correct_any (a : arch P T) (i : instr P T) (fs : nat -> (P -> Z) -> P -> Z) (ru : rule P) : Prop :=
    forall x l, typed (i_in i) x -> typed (a_in a) l -> follows_any a (r_in ru) x l ->
    forall q ap, In (Some q, ap) (r_out ru) -> i_sem i x q = fs (r_form ru) l ap.

  (** The constraints list at least one value, all of the type of the path. *)
  Definition constr_ok (a : arch P T) : Prop :=
    forall p zs, In (p, zs) (a_constr a) -> zs <> [] /\ forall t z, In (p, t) (a_in a) -> In z zs -> In z (td t).

  (** Constants of constrained paths are allowed. *)
  Definition allowed_consts (a : arch P T) (ru : rule P) : Prop :=
    forall z p zs, In (SVal z, p) (r_in ru) -> In (p, zs) (a_constr a) -> In z zs.

  (** Sorts of the variables. Tags range over [tagd]. *)
  Definition path_dom (flat : list (P * T)) (p : P) : list Z :=
    match dget peqb flat p with Some t => td t | None => [0] end.
  Definition dom (tagd : P -> list Z) (k : ivar) (a : arch P T) (i : instr P T) (v : var P) : list Z :=
    match v with
    | VLeaf p | VAll p | VEx p => path_dom (a_in a) p
    | VTag p => tagd p
    | VIr p => path_dom (i_in i) p
    | VFi => pyrange 0 (2 ^ var_len k (Z.of_nat (nforms a)))
    | VBi => pyrange 0 (2 ^ var_len k (Z.of_nat (max_input_bindings peqb teqb a i)))
    | VBo => pyrange 0 (2 ^ var_len k (Z.of_nat (length (output_bindings peqb teqb a i))))
    end.
End Spec.

(** Index variables. *)
Lemma matches_iff {P} k n (v : var P) j r : (j < n)%nat -> matches k n v j r = true <-> r v = translate_index k (Z.of_nat j).
Proof. intros L. unfold matches. rewrite match_index_eq by lia. apply Z.eqb_eq. Qed.

Lemma matches_same {P} k n (v : var P) j j' r : (j < n)%nat -> (j' < n)%nat ->
  matches k n v j r = true -> matches k n v j' r = true -> j = j'.
Proof.
  intros L L'. rewrite !matches_iff by auto. intros E E'.
  apply Nat2Z.inj, (translate_inj k); (lia || congruence).
Qed.

Lemma matches_decode {P} k n (v : var P) j r : (j < n)%nat -> matches k n v j r = true ->
  decode k (Z.of_nat n) (r v) = Ok (Z.of_nat j).
Proof.
  intros L M. apply matches_iff in M; auto. unfold decode. apply (decode_spec k).
  - intros x I. apply pyrange_In in I. lia.
  - split; auto. apply pyrange_In. lia.
Qed.

(** * Lemmas *)
Section Lemmas.
  Context {P T : Type} (peqb : P -> P -> bool) (teqb : T -> T -> bool) (isconst : T -> bool).
  Hypothesis Hp : forall a b, peqb a b = true <-> a = b.
  Hypothesis Ht : forall a b, teqb a b = true <-> a = b.
  Variable td : T -> list Z.

  Lemma var_eqb_eq (u v : var P) : var_eqb peqb u v = true <-> u = v.
  Proof.
    destruct u, v; cbn [var_eqb]; try (split; [discriminate|congruence]);
      try (rewrite Hp; split; congruence); split; auto.
  Qed.

  Lemma pmem_In p l : pmem peqb p l = true <-> In p l.
  Proof.
    unfold pmem. rewrite existsb_exists. split.
    - intros (q & I & E). apply Hp in E. now subst.
    - intros I. exists p. split; auto. now apply Hp.
  Qed.

  Lemma In_dget {V} (d : list (P * V)) p v : NoDup (map fst d) -> In (p, v) d -> dget peqb d p = Some v.
  Proof.
    intros N I. destruct (dget peqb d p) as [w|] eqn:E.
    - apply (dget_In peqb Hp) in E. f_equal. clear - N I E.
      induction d as [|[q u] d IH]; [destruct I|]. inversion N; subst.
      destruct I as [I|I], E as [E|E].
      + congruence.
      + injection I as -> ->. exfalso. apply H1. now apply (in_map fst) in E.
      + injection E as -> ->. exfalso. apply H1. now apply (in_map fst) in I.
      + auto.
    - apply (dget_None peqb Hp) in E. exfalso. apply E. now apply (in_map fst) in I.
  Qed.

  Variables (k : ivar) (a : arch P T) (i : instr P T).
  Variables (fs : nat -> (P -> Z) -> P -> Z) (fv : nat -> (P -> Z) -> bool).
  Hypothesis Ha : arch_ok isconst a fs fv.
  Hypothesis Hi : instr_ok i.

  Let ib := input_bindings peqb teqb a i.
  Let ob := output_bindings peqb teqb a i.
  Let mib := max_input_bindings peqb teqb a i.

  Lemma is_const_eq p t : In (p, t) (a_in a) -> is_const peqb isconst a p = isconst t.
  Proof. intros I. unfold is_const. now rewrite (In_dget _ _ _ (ok_in _ _ _ _ Ha) I). Qed.

  Lemma is_constrained_In p : is_constrained peqb a p = true <-> In p (map fst (a_constr a)).
  Proof.
    unfold is_constrained. destruct (dget peqb (a_constr a) p) as [z|] eqn:E.
    - split; auto. intros _. apply (dget_In peqb Hp) in E. now apply (in_map fst) in E.
    - apply (dget_None peqb Hp) in E. split; [discriminate|contradiction].
  Qed.

  Lemma path_dom_In flat p t : NoDup (map fst flat) -> In (p, t) flat -> path_dom peqb td flat p = td t.
  Proof. intros N I. unfold path_dom. now rewrite (In_dget _ _ _ N I). Qed.

  Lemma path_dom_typed flat p (l : P -> Z) : typed td flat l -> In p (map fst flat) -> In (l p) (path_dom peqb td flat p).
  Proof.
    intros Tl I. unfold path_dom. destruct (dget peqb flat p) as [t|] eqn:E.
    - apply (dget_In peqb Hp) in E. eapply Tl; eauto.
    - apply (dget_None peqb Hp) in E. contradiction.
  Qed.

  (** Bindings. *)
  Definition form_in (f : list P * list (P * Z)) := filter (fun e : P * T => pmem peqb (fst e) (fst f)) (a_in a).

  Lemma filter_NoDup_fst {V} g (l : list (P * V)) : NoDup (map fst l) -> NoDup (map fst (filter g l)).
  Proof.
    induction l as [|x l IH]; intros N; [constructor|]. inversion N; subst. cbn [filter].
    destruct (g x); [|auto]. cbn [map]. constructor; [|auto].
    intros I. apply H1. apply in_map_iff in I as (y & E & I). apply filter_In in I as [I _].
    apply in_map_iff. eauto.
  Qed.

  Lemma ib_nth fi ibs : nth_error ib fi = Some ibs ->
    exists f, nth_error (a_forms a) fi = Some f /\
      ibs = filter (constraint_filter peqb a) (create_bindings peqb teqb (form_in f) (i_in i)).
  Proof.
    unfold ib, input_bindings. rewrite nth_error_map. destruct (nth_error (a_forms a) fi) as [f|]; [|discriminate].
    cbn [option_map]. intros [= <-]. eauto.
  Qed.

  Lemma ib_nth_conv fi f : nth_error (a_forms a) fi = Some f ->
    nth_error ib fi = Some (filter (constraint_filter peqb a) (create_bindings peqb teqb (form_in f) (i_in i))).
  Proof. intros E. unfold ib, input_bindings. rewrite nth_error_map, E. reflexivity. Qed.

  Lemma ib_typed fi ibs bi b : nth_error ib fi = Some ibs -> nth_error ibs bi = Some b ->
    exists f, nth_error (a_forms a) fi = Some f /\ type_correct peqb (form_in f) (i_in i) b /\
      (forall p ap, In (Some p, ap) b -> ~ In ap (map fst (a_constr a))).
  Proof.
    intros E1 E2. apply ib_nth in E1 as (f & Ef & ->). exists f. split; auto.
    apply nth_error_In in E2. apply filter_In in E2 as [I C]. split.
    - apply (C31_bindings P T peqb teqb Hp Ht) in I; auto.
      + apply filter_NoDup_fst. apply (ok_in _ _ _ _ Ha).
      + apply (ok_iin _ Hi).
    - intros p ap J N. unfold constraint_filter in C. rewrite forallb_forall in C. specialize (C _ J).
      cbn [fst snd] in C. apply is_constrained_In in N. rewrite N in C. discriminate.
  Qed.

  Lemma ob_typed bo b : nth_error ob bo = Some b -> type_correct peqb (a_out a) (i_out i) b.
  Proof.
    intros E. apply nth_error_In in E. apply (C31_bindings P T peqb teqb Hp Ht) in E; auto.
    - apply (ok_out _ _ _ _ Ha).
    - apply (ok_iout _ Hi).
  Qed.

  Lemma mib_ge fi ibs : nth_error ib fi = Some ibs -> (length ibs <= mib)%nat.
  Proof.
    intros E. apply nth_error_In in E. unfold mib, max_input_bindings. fold ib.
    induction ib as [|x l IH]; [destruct E|]. cbn [map fold_right]. destruct E as [->|E]; [lia|]. specialize (IH E). lia.
  Qed.

  (** A leaf of the form occurs in every binding for it, and only these. *)
  Lemma leaf_bound f b p : type_correct peqb (form_in f) (i_in i) b -> incl (fst f) (map fst (a_in a)) ->
    (In p (fst f) <-> exists s, In (s, p) b).
  Proof.
    intros (Pm & _ & _) Inc. split.
    - intros I. assert (In p (map snd b)).
      { apply (Permutation_in p (Permutation_sym Pm)). pose proof (Inc p I) as J. apply in_map_iff in J as ((q & t) & E & J).
        cbn in E. subst q. apply in_map_iff. exists (p, t). split; auto. apply filter_In. split; auto.
        cbn [fst]. now apply pmem_In. }
      apply in_map_iff in H as ((s & q) & E & J). cbn in E. subst q. eauto.
    - intros (s & I). apply (in_map snd) in I. cbn [snd] in I. apply (Permutation_in p Pm) in I.
      apply in_map_iff in I as ((q & t) & E & J). cbn in E. subst q. apply filter_In in J as [_ J].
      cbn [fst] in J. now apply pmem_In in J.
  Qed.

  Lemma ir_bound f b p t : type_correct peqb (form_in f) (i_in i) b -> In (p, t) (i_in i) -> exists ap, In (Some p, ap) b.
  Proof.
    intros (_ & _ & U) I. specialize (U p t I). unfold uses in U.
    destruct (filter _ b) as [|[[q|] ap] l] eqn:E; [discriminate| |].
    - assert (J : In (Some q, ap) ((Some q, ap) :: l)) by now left. rewrite <- E in J. apply filter_In in J as [J K].
      cbn [fst] in K. apply Hp in K. subst q. eauto.
    - assert (J : In (None, ap) ((None, ap) :: l)) by now left. rewrite <- E in J. apply filter_In in J as [_ K]. discriminate.
  Qed.

  Lemma bound_once f b p s s' : type_correct peqb (form_in f) (i_in i) b ->
    In (s, p) b -> In (s', p) b -> s = s'.
  Proof.
    intros (Pm & _ & _). assert (N : NoDup (map snd b)).
    { apply (Permutation_NoDup (Permutation_sym Pm)). apply filter_NoDup_fst, (ok_in _ _ _ _ Ha). }
    clear - N. induction b as [|[u q] b IH]; [intros []|]. inversion N; subst. intros [E|I] [E'|I'].
    - congruence.
    - injection E as -> ->. exfalso. apply H1. now apply (in_map snd) in I'.
    - injection E' as -> ->. exfalso. apply H1. now apply (in_map snd) in I.
    - auto.
  Qed.

  Lemma tag_conds_iff f (r : val P) : tag_conds f r = true <-> forall d, In d (snd f) -> r (VTag (fst d)) = snd d.
  Proof.
    unfold tag_conds. rewrite forallb_forall. split; intros H d I; specialize (H d I); now apply Z.eqb_eq.
  Qed.

  (** Constraints. *)
  Lemma constrain_ex_iff cs f r : constrain_ex peqb isconst a cs f r = true <->
    f r = true /\ forall p zs, In (p, zs) cs -> is_const peqb isconst a p = true -> In (r (VLeaf p)) zs.
  Proof.
    revert f. induction cs as [|[p zs] cs IH]; intros f; cbn [constrain_ex].
    - split; [intros H; split; auto; intros ? ? []|intros [H _]; auto].
    - rewrite IH. destruct (is_const peqb isconst a p) eqn:C.
      + rewrite andb_true_iff, existsb_exists. split.
        * intros [[H (z & I & E)] H']. split; auto. intros q zs' [[= -> ->]|J] Cq; [|eauto].
          apply Z.eqb_eq in E. now rewrite E.
        * intros [H H']. split; [split; auto|]; [|intros; eapply H'; [right|]; eauto].
          exists (r (VLeaf p)). rewrite Z.eqb_refl. split; auto. apply (H' p); auto. now left.
      + split; intros [H H']; (split; [auto|]); intros q zs'.
        * intros [[= -> ->]|J] Cq; [congruence|eauto].
        * intros J Cq. apply (H' q); auto. now right.
  Qed.

  Lemma constrain_all_elim cs f r : constrain_all peqb isconst a cs f r = true ->
    (forall p zs, In (p, zs) cs -> is_const peqb isconst a p = false -> In (r (VLeaf p)) zs) ->
    exists r', (forall v, r' v = r v) /\ f r' = true.
  Proof.
    revert f. induction cs as [|[p zs] cs IH]; intros f H Hc; cbn [constrain_all] in H; [eauto|].
    apply IH in H; [|intros; eapply Hc; [right|]; eauto]. destruct H as (r' & E & H).
    destruct (is_const peqb isconst a p) eqn:C; [eauto|].
    rewrite forallb_forall in H. specialize (H (r (VLeaf p)) (Hc p zs (or_introl eq_refl) C)).
    eexists. split; [|exact H]. intros v. unfold upd. destruct (var_eqb peqb v (VLeaf p)) eqn:Ev; auto.
    apply var_eqb_eq in Ev. now subst v.
  Qed.

  Lemma constrain_all_intro cs f r : NoDup (map fst cs) ->
    (forall r', (forall v, (forall p, v = VLeaf p -> In p (map fst cs) -> is_const peqb isconst a p = true) -> r' v = r v) ->
       (forall p zs, In (p, zs) cs -> is_const peqb isconst a p = false -> In (r' (VLeaf p)) zs) -> f r' = true) ->
    constrain_all peqb isconst a cs f r = true.
  Proof.
    revert f. induction cs as [|[p zs] cs IH]; intros f N H; cbn [constrain_all].
    - apply H; [|intros ? ? []]. intros v _. reflexivity.
    - inversion N; subst. apply IH; auto. intros r' E I. destruct (is_const peqb isconst a p) eqn:C.
      + apply H; auto.
        * intros v Hv. apply E. intros q -> J. apply (Hv q); auto. now right.
        * intros q zs' [[= -> ->]|J] Cq; [congruence|eauto].
      + apply forallb_forall. intros z Iz. apply H.
        * intros v Hv. unfold upd. destruct (var_eqb peqb v (VLeaf p)) eqn:Ev.
          { apply var_eqb_eq in Ev. rewrite (Hv p Ev ltac:(now left)) in C. discriminate. }
          apply E. intros q -> J. apply (Hv q); auto. now right.
        * intros q zs' [[= -> ->]|J] Cq; unfold upd; cbn [var_eqb].
          { now rewrite (proj2 (Hp q q) eq_refl). }
          destruct (peqb q p) eqn:Eq; [|eauto]. apply Hp in Eq. subst q. exfalso. apply H2.
          now apply (in_map fst) in J.
  Qed.

  (** The disjuncts of the expanded formula. *)
  Lemma disjuncts_iff r :
    existsb (fun f => f r) (disjuncts_expanded peqb teqb k a i) = true <->
    exists fi f ibs bi b bo o,
      nth_error (a_forms a) fi = Some f /\ nth_error ib fi = Some ibs /\ nth_error ibs bi = Some b /\
      nth_error ob bo = Some o /\ conj_expanded peqb teqb k a i fi f bi b bo o r = true.
  Proof.
    unfold disjuncts_expanded. fold ib ob. rewrite existsb_exists. split.
    - intros (g & I & G). apply in_flat_map in I as ((fi & f & ibs) & I1 & I). cbn [fst snd] in I.
      apply in_flat_map in I as ((bi & b) & I2 & I). cbn [fst snd] in I.
      apply in_map_iff in I as ((bo & o) & <- & I3). cbn [fst snd] in G.
      apply enumerate_In in I1, I2, I3. apply nth_combine in I1 as [I0 I1].
      exists fi, f, ibs, bi, b, bo, o. auto.
    - intros (fi & f & ibs & bi & b & bo & o & E1 & E2 & E3 & E4 & G).
      eexists. split; [|exact G]. apply in_flat_map. exists (fi, (f, ibs)). split.
      { apply enumerate_In, nth_combine. auto. }
      apply in_flat_map. exists (bi, b). split; [now apply enumerate_In|].
      apply in_map_iff. exists (bo, o). split; auto. now apply enumerate_In.
  Qed.
End Lemmas.
