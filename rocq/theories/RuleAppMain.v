(** Applying a rule of the mapper to two Peak classes. *)
From Coq Require Import String ZArith List Bool Lia Permutation.
From Verif Require Import Base BaseLemmas BindModel MapIdxModel MapIdxProps BindProps MapModel MapProofs MapMain MapProps
  AsmModel AsmSpec AsmValid AsmEnum AsmBuild AsmProofs AsmSub AsmCheck AsmMore AsmProps Asm2Model Asm2Proofs AadtModel AadtProofs FormModel FormProofs FormMain FormSimp FormProps
  AdtArchModel AdtArchProofs AdtArchMain AdtArchProps RuleAppModel RuleAppProofs.
Import ListNotations.
Open Scope string_scope.
Open Scope list_scope.
Open Scope Z_scope.

(** * Leaves *)
Lemma leaf_width R t a : asm_rel R t a -> is_leaf t -> a_width a = leaf_bits t.
Proof. intros A L. inversion A as [| | |? ? ? ? ? ? Et| |]; subst; try destruct L; cbn [a_width leaf_bits]; auto. now rewrite Et. Qed.

Lemma leaf_word C q ms t w z : class_ok C -> In (q, (ms, t)) (in_flat C) -> swidth t w -> In z (lty_vals (ms, t)) -> wrap w z = z.
Proof.
  intros K I Sw Iz. destruct (k_in C K) as (R & GR & W & Rl). destruct (in_flat_spec C W (k_mi C K)) as [_ S]. apply S in I as [St L].
  destruct (asm_at_spec R _ _ _ _ St W Rl) as (a & _ & Aa & Wt). destruct (asm_rel_width R t Wt a Aa) as [Sa _].
  rewrite (swidth_fun t _ _ Sw Sa), (leaf_width R t a Aa L). apply wrap_small. unfold lty_vals in Iz. cbn [snd] in Iz. apply BaseLemmas.pyrange_In in Iz. lia.
Qed.

Lemma flat_nonempty C q t : class_ok C -> In (q, t) (in_flat C) -> q <> [].
Proof.
  intros K I ->. destruct (k_in C K) as (R & GR & W & Rl). destruct t as [ms t]. destruct (in_flat_spec C W (k_mi C K)) as [_ S]. apply S in I as [St L].
  inversion St; subst. destruct L.
Qed.

Lemma zero_val C q t : class_ok C -> In (q, t) (in_flat C) -> In 0 (lty_vals t).
Proof.
  intros K I. destruct (k_in C K) as (R & GR & W & Rl). destruct t as [ms t]. destruct (in_flat_spec C W (k_mi C K)) as [_ S]. apply S in I as [St L].
  destruct (asm_at_spec R _ _ _ _ St W Rl) as (a & _ & Aa & Wt). destruct (asm_rel_width R t Wt a Aa) as [_ P]. rewrite (leaf_width R t a Aa L) in P.
  unfold lty_vals. cbn [snd]. apply BaseLemmas.pyrange_In. pose proof (Z.pow_pos_nonneg 2 (leaf_bits t)). lia.
Qed.

Lemma flat_fun C q t t' : class_ok C -> In (q, t) (in_flat C) -> In (q, t') (in_flat C) -> t = t'.
Proof.
  intros K. destruct (k_in C K) as (R & GR & W & Rl). destruct (in_flat_spec C W (k_mi C K)) as [[N _] _]. apply pair_fun. exact N.
Qed.

(** * The word of a form *)
Lemma word_built C tags l fo vm z g b : class_ok C -> buildable (in_ty C) -> in_forms C tags l = Ok (fo, vm, z) -> In g fo ->
  tags_fit tags [] (in_ty C) g -> NoDup (map snd b) -> (forall s q, In (s, q) b <-> In q (map fst (f_vars g)) /\ s = SVal (l q)) ->
  (forall q t, In q (map fst (f_vars g)) -> In (q, t) (in_flat C) -> In (l q) (lty_vals t)) ->
  simplify (in_ty C) (c_ia C) b = Ok [(SVal (f_val g), [])].
Proof.
  intros K B E Ig T Nb Hb Rg. destruct (k_in C K) as (R & GR & W & Rl).
  eapply (simplify_form R l tags (in_ty C) GR); eauto. split; auto. cbn [List.app].
  pose proof (forms_inv R GR C W Rl B _ _ _ _ _ E) as IV.
  assert (forall q x, In (q, x) (f_vars g) -> x = l q) as X.
  { intros q x I. pose proof (i_vars _ _ _ _ _ _ _ _ _ _ IV g (q, x) Ig I) as Iv.
    destruct (i_fresh _ _ _ _ _ _ _ _ _ _ IV eq_refl q x Iv) as (r & t & w & -> & St & Sw & ->). cbn [List.app] in *.
    assert (In r (map fst (m_leaf vm))) as Ir by (apply (in_map fst) in Iv; exact Iv).
    apply (proj2 (i_leafs _ _ _ _ _ _ _ _ _ _ IV)) in Ir as (r' & t' & Er & St' & L'). cbn [List.app] in Er. subst r'.
    rewrite <- (sub_ty_fun _ _ _ St W _ St') in L'.
    destruct (in_flat_spec C W (k_mi C K)) as [[_ Kd] Sp]. assert (In r (map fst (in_flat C))) as If by (apply Kd; exists r, t; auto).
    apply in_map_iff in If as ([r' [ms u]] & Eq & If). cbn [fst] in Eq. subst r'. destruct (Sp _ _ _ If) as [Su _].
    pose proof (sub_ty_fun _ _ _ St W _ Su). subst u. eapply leaf_word; eauto. apply (Rg r (ms, t)); auto. apply (in_map fst) in I. exact I. }
  intros s q. rewrite Hb. split.
  - intros [I ->]. apply in_map_iff in I as ([q' x] & Eq & I). cbn [fst] in Eq. subst q'. exists x. split; [f_equal; symmetry; auto|exact I].
  - intros (x & -> & I). split; [apply (in_map fst) in I; exact I|f_equal; auto].
Qed.

(** * The binding of a rule *)
Lemma map_snd_shape rin : map snd (shape rin) = map (@snd (src path) path) rin.
Proof. unfold shape. rewrite map_map. reflexivity. Qed.
Lemma shape_In q p (rin : list entry) : In (Some q, p) (shape rin) <-> In (SPath q, p) rin.
Proof.
  unfold shape. rewrite in_map_iff. split.
  - intros ([s p'] & E & I). cbn [fst snd] in E. destruct s; try discriminate. injection E as -> ->. exact I.
  - intros I. exists (SPath q, p). auto.
Qed.
Lemma ir_paths_In q rin : In q (ir_paths rin) <-> exists p, In (SPath q, p) rin.
Proof.
  unfold ir_paths. rewrite in_flat_map. split.
  - intros ([s p] & I & H). cbn [fst] in H. destruct s; [destruct H as [->|[]]; eauto|destruct H|destruct H].
  - intros [p I]. exists (SPath q, p). split; auto. left; auto.
Qed.
Lemma arch_paths_In p rin : In p (arch_paths rin) <-> In (SUnbound, p) rin.
Proof.
  unfold arch_paths. rewrite in_flat_map. split.
  - intros ([s p'] & I & H). cbn [fst snd] in H. destruct s; [destruct H|destruct H|destruct H as [->|[]]; auto].
  - intros I. exists (SUnbound, p). split; auto. left; auto.
Qed.
Lemma uses_paths rin : (forall q, In q (ir_paths rin) -> (uses path_eqb (shape rin) q <= 1)%nat) -> NoDup (ir_paths rin).
Proof.
  assert (forall r q, (uses path_eqb (shape r) q = 0)%nat -> ~ In q (ir_paths r)) as Z0.
  { intros r q U I. apply ir_paths_In in I as [p I]. apply shape_In in I. unfold uses in U.
    assert (In (Some q, p) (filter (fun e : option path * path => match fst e with Some q0 => path_eqb q q0 | None => false end) (shape r))) as X
      by (apply filter_In; split; auto; cbn; now apply path_eqb_eq).
    destruct (filter _ (shape r)); [destruct X|discriminate]. }
  induction rin as [|[s p] rin IH]; intros U; [constructor|]. destruct s as [q|z|]; cbn [ir_paths flat_map fst List.app] in *; fold (ir_paths rin) in *.
  - constructor.
    + apply Z0. specialize (U q (or_introl eq_refl)). cbn [shape map fst] in U. unfold uses in *. cbn [filter fst] in U. rewrite (proj2 (path_eqb_eq q q) eq_refl) in U. cbn [length] in U.
      fold (shape rin) in U. lia.
    + apply IH. intros q' I. specialize (U q' (or_intror I)). cbn [shape map fst] in U. fold (shape rin) in U. unfold uses in *. cbn [filter fst] in U.
      destruct (path_eqb q' q); cbn [length] in U; lia.
  - apply IH. intros q' I. exact (U q' I).
  - apply IH. intros q' I. exact (U q' I).
Qed.

Lemma same_set_spec l m : same_set l m = true <-> forall p, In p l <-> In p m.
Proof.
  assert (forall p l, path_in p l = true <-> In p l) as X.
  { intros p l0. unfold path_in. rewrite existsb_exists. split; [intros (q & I & E); apply path_eqb_eq in E; now subst|intros I; exists p; split; auto; now apply path_eqb_eq]. }
  unfold same_set. rewrite andb_true_iff, !forallb_forall. split.
  - intros [H1 H2] p. split; intros I; [apply X, H1|apply X, H2]; auto.
  - intros H. split; intros p I; apply X, H; auto.
Qed.
Lemma dget_some {V} (d : list (path * V)) p : In p (map fst d) -> exists z, dget path_eqb d p = Some z.
Proof.
  induction d as [|[q z] d IH]; intros I; [destruct I|]. cbn [dget]. destruct (path_eqb p q) eqn:E; [eauto|]. apply IH. destruct I as [<-|I]; auto.
  cbn [fst] in E. now rewrite (proj2 (path_eqb_eq q q) eq_refl) in E.
Qed.

Lemma nodup_filter_fst {V} (h : path * V -> bool) l : NoDup (map fst l) -> NoDup (map fst (filter h l)).
Proof.
  induction l as [|e l IH]; intros N; auto. cbn [map] in N. inversion N as [|? ? N1 N2]; subst. cbn [filter]. destruct (h e); auto. cbn [map]. constructor; auto.
  intros X. apply N1. apply in_map_iff in X as (e' & <- & X). apply filter_In in X as [X _]. now apply in_map.
Qed.

(** * The outputs *)
Lemma parse_ok K z ws : class_ok K -> call_ok K -> buildable (out_ty K) -> sum_free (out_ty K) -> in_words K z = Ok ws ->
  exists ov, parse_output K (c_call K ws) = Ok ov /\ NoDup (map fst ov) /\
    (forall q, In q (map fst ov) <-> In q (map fst (out_flat K))) /\
    forall q, In q (map fst (out_flat K)) -> dget path_eqb ov q = Some (out_at K z q).
Proof.
  intros KO Ck B S Ew. destruct (k_out K KO) as (R & GR & W & Rl). destruct (in_words_ok K z KO) as (ws' & Ew' & Fw). rewrite Ew in Ew'. injection Ew' as <-.
  destruct (wrap_ok K (c_call K ws) KO B (Ck ws Fw)) as (op & Eop & Rg & _).
  destruct (out_one K (fun _ => True) op KO B S Logic.I Rg) as (f & vm & z0 & Ef & IV).
  unfold parse_output, out_at, out_forms. rewrite Ew. cbn [bind]. rewrite Eop. cbn [bind]. rewrite Ef. cbn [bind].
  exists (m_leaf vm). split; auto. destruct (i_leafs _ _ _ _ _ _ _ _ _ _ IV) as [N1 K1]. destruct (out_flat_spec K W (k_mo K KO)) as [[_ K2] _].
  assert (forall q, In q (map fst (m_leaf vm)) <-> In q (map fst (out_flat K))) as Eq by (intros q; rewrite K1, K2; reflexivity).
  split; auto. split; auto. intros q I. apply K2 in I as (r & t & -> & St & L). cbn [List.app].
  destruct (inhabited t (sub_ty_wf _ _ _ St W)) as (w & Hw & _). destruct (sum_reached _ _ _ St W w Hw) as (v & Hv & Sv).
  destruct (i_ex _ _ _ _ _ _ _ _ _ _ IV v Hv) as (f' & [<-|[]] & M).
  assert (In r (map fst (f_vars f))) as Ir by (apply (mt_vars _ _ _ _ M); exists r; split; auto; exists t, w; auto).
  apply in_map_iff in Ir as ([r' x] & Er & Ir). cbn [fst] in Er. subst r'. rewrite (dget_in _ r x (mt_nv _ _ _ _ M) Ir).
  apply dget_in; auto. eapply (i_vars _ _ _ _ _ _ _ _ _ _ IV); eauto. left; auto.
Qed.

(** * Values for a rule *)
Definition at_d (d : list (path * Z)) (p : path) : Z := match dget path_eqb d p with Some z => z | None => 0 end.
(** The leaves of the architecture for inputs [x] of the instruction and values [u]
    of the unbound leaves. *)
Definition place (rin : list entry) (x u : path -> Z) (p : path) : Z :=
  match find (fun e => path_eqb p (snd e)) rin with
  | Some (SPath q, _) => x q
  | Some (SVal z, _) => z
  | Some (SUnbound, _) => u p
  | None => 0
  end.
Lemma place_In rin x u s p : NoDup (map snd rin) -> In (s, p) rin ->
  place rin x u p = match s with SPath q => x q | SVal z => z | SUnbound => u p end.
Proof.
  unfold place. induction rin as [|[s' p'] rin IH]; intros N I; [destruct I|]. cbn [map snd] in N. inversion N as [|? ? N1 N2]; subst. cbn [find snd].
  destruct (path_eqb p p') eqn:E.
  - apply path_eqb_eq in E. subst p'. destruct I as [[= -> ]|I]; auto. exfalso. apply N1. apply (in_map snd) in I. exact I.
  - destruct I as [[= -> ->]|I]; auto. now rewrite (proj2 (path_eqb_eq p p) eq_refl) in E.
Qed.

(** The two dictionaries: a value for every input of the instruction and for every
    unbound leaf, and no other; the values are words of the leaves. *)
Record args_ok (C D : pclass) (rin : list entry) (xs us : list (path * Z)) : Prop := {
  g_ir : forall p, In p (map fst xs) <-> In p (map fst (in_flat D));
  g_arch : forall p, In p (map fst us) <-> In (SUnbound, p) rin;
  g_irv : forall p t z, In (p, t) (in_flat D) -> dget path_eqb xs p = Some z -> In z (lty_vals t);
  g_archv : forall p t z, In (p, t) (in_flat C) -> dget path_eqb us p = Some z -> In z (lty_vals t) }.
Definition consts_ok (C : pclass) (rin : list entry) : Prop :=
  forall z p t, In (SVal z, p) rin -> In (p, t) (in_flat C) -> In z (lty_vals t).

Section Rule.
  Variables (C D : pclass) (cs : list (path * list Z)) (A : arch path lty) (I : MapModel.instr path lty) (ru : rule path).
  Hypothesis K : class_ok C.
  Hypothesis KD : class_ok D.
  Hypothesis EA : adt_arch C cs = Ok A.
  Hypothesis EI : adt_instr D = Ok I.
  Hypothesis WF : well_formed path_eqb lty_const A I ru.
  Hypothesis Cc : consts_ok C (r_in ru).

  Lemma ru_paths : exists f, nth_error (a_forms A) (r_form ru) = Some f /\ NoDup (map snd (r_in ru)) /\
    (forall q, In q (map snd (r_in ru)) <-> In q (fst f)) /\
    (forall q p, In (SPath q, p) (r_in ru) -> exists t, In (q, t) (in_flat D) /\ In (p, t) (in_flat C)) /\
    (forall p, In p (map snd (r_in ru)) -> exists t, In (p, t) (in_flat C)) /\
    (forall q, In q (map fst (in_flat D)) <-> In q (ir_paths (r_in ru))) /\ NoDup (ir_paths (r_in ru)).
  Proof.
    destruct (k_in C K) as (R & GR & W & Rl). pose proof (arch_buildable C cs A K EA) as B.
    destruct WF as (f & Ef & (P & T & U) & _). destruct (arch_inv C cs A EA) as (_ & _ & _ & _ & _ & _ & Ein & _).
    destruct (adt_instr_inv D I EI) as (Eii & _). rewrite Ein in P, T. rewrite Eii in T, U. rewrite map_snd_shape in P.
    destruct (in_flat_spec C W (k_mi C K)) as [[N _] _]. exists f. split; auto.
    assert (forall q, In q (map snd (r_in ru)) <-> In q (fst f)) as Hq.
    { intros q. rewrite (Permutation_in' (eq_refl q) P), in_map_iff. split.
      - intros ([q' t] & <- & X). apply filter_In in X as [_ X]. cbn [fst] in *. apply existsb_exists in X as (y & Iy & Ey). apply path_eqb_eq in Ey. now subst.
      - intros X. pose proof (leaves_in R GR C W (k_mi C K) Rl B cs A EA (r_form ru) f Ef q X) as Y. rewrite Ein in Y. apply in_map_iff in Y as (e & <- & Y).
        exists e. split; auto. apply filter_In. split; auto. apply existsb_exists. exists (fst e). split; auto. now apply path_eqb_eq. }
    split. { eapply Permutation_NoDup; [apply Permutation_sym; exact P|]. apply nodup_filter_fst. exact N. }
    split; auto.
    assert (forall q p, In (SPath q, p) (r_in ru) -> exists t, In (q, t) (in_flat D) /\ In (p, t) (in_flat C)) as Hs.
    { intros q p X. apply shape_In in X. destruct (T q p X) as (t & I1 & I2). exists t. split; auto. apply filter_In in I2. apply I2. }
    split; auto. split.
    { intros p X. apply (Permutation_in' (eq_refl p) P) in X. apply in_map_iff in X as ([p' t] & <- & X). apply filter_In in X as [X _]. exists t. exact X. }
    split.
    - intros q. rewrite ir_paths_In. split.
      + intros X. apply in_map_iff in X as ([q' t] & Eq & X). cbn [fst] in Eq. subst q'. specialize (U q t X). unfold uses in U.
        destruct (filter _ (shape (r_in ru))) as [|[s p] l] eqn:F; [discriminate|].
        assert (In (s, p) (filter (fun e : option path * path => match fst e with Some q0 => path_eqb q q0 | None => false end) (shape (r_in ru)))) as Y by (rewrite F; left; auto).
        apply filter_In in Y as [Y E]. cbn [fst] in E. destruct s as [q0|]; [|discriminate]. apply path_eqb_eq in E. subst q0. apply shape_In in Y. eauto.
      + intros [p X]. destruct (Hs q p X) as (t & I1 & _). apply (in_map fst) in I1. exact I1.
    - apply uses_paths. intros q X. apply ir_paths_In in X as [p X]. destruct (Hs q p X) as (t & I1 & _). rewrite (U q t I1). lia.
  Qed.

  Variables xs us : list (path * Z).
  Hypothesis G : args_ok C D (r_in ru) xs us.

  Lemma ir_look q t : In (q, t) (in_flat D) -> dget path_eqb xs q = Some (at_d xs q) /\ In (at_d xs q) (lty_vals t).
  Proof.
    intros X. destruct (dget_some xs q) as [z E]. { apply (g_ir _ _ _ _ _ G). apply (in_map fst) in X. exact X. }
    unfold at_d. rewrite E. split; auto. eapply (g_irv _ _ _ _ _ G); eauto.
  Qed.
  Lemma arch_look p : In (SUnbound, p) (r_in ru) -> dget path_eqb us p = Some (at_d us p) /\ forall t, In (p, t) (in_flat C) -> In (at_d us p) (lty_vals t).
  Proof.
    intros X. destruct (dget_some us p) as [z E]. { apply (g_arch _ _ _ _ _ G). exact X. }
    unfold at_d. rewrite E. split; auto. intros t It. eapply (g_archv _ _ _ _ _ G); eauto.
  Qed.
  Lemma ir_typed : typed lty_vals (in_flat D) (at_d xs).
  Proof. intros q t X. apply (ir_look q t X). Qed.
  Lemma place_typed : typed lty_vals (in_flat C) (place (r_in ru) (at_d xs) (at_d us)).
  Proof.
    destruct ru_paths as (f & Ef & N & Hq & Hs & Hp & Hi & Ni). intros p t X.
    destruct (in_dec (list_eq_dec (fun a b => Bool.reflect_dec _ _ (Bool.iff_reflect _ _ (iff_sym (key_eqb_eq a b))))) p (map snd (r_in ru))) as [Y|Y].
    - apply in_map_iff in Y as ([s p'] & Eq & Y). cbn [snd] in Eq. subst p'. rewrite (place_In _ _ _ s p N Y). destruct s as [q|z|].
      + destruct (Hs q p Y) as (t' & I1 & I2). rewrite (flat_fun C p t t' K X I2). apply (ir_look q t' I1).
      + eapply Cc; eauto.
      + apply (arch_look p Y). exact X.
    - assert (place (r_in ru) (at_d xs) (at_d us) p = 0) as ->; [|eapply (zero_val C); eauto].
      unfold place. destruct (find _ (r_in ru)) as [[s p']|] eqn:F; auto. exfalso. apply find_some in F as [F1 F2]. cbn [snd] in F2.
      apply path_eqb_eq in F2. subst p'. apply Y. apply (in_map snd) in F1. exact F1.
  Qed.
  Lemma place_follows : follows (r_in ru) (at_d xs) (place (r_in ru) (at_d xs) (at_d us)).
  Proof.
    destruct ru_paths as (f & Ef & N & _). intros s p X. rewrite (place_In _ _ _ s p N X). destruct s; auto.
  Qed.

  Lemma build_ok : exists wi wa, build_inputs C D (r_in ru) xs us = Ok (wi, wa) /\
    in_words D (form_word D 0 (fun _ => 0) (at_d xs)) = Ok wi /\
    in_words C (form_word C (r_form ru) (own A (r_form ru)) (place (r_in ru) (at_d xs) (at_d us))) = Ok wa.
  Proof.
    destruct ru_paths as (f & Ef & N & Hq & Hs & Hp & Hi & Ni).
    destruct (k_in C K) as (R & GR & W & Rl). pose proof (arch_buildable C cs A K EA) as B.
    destruct (k_in D KD) as (R' & GR' & W' & Rl'). destruct (instr_forms D I KD EI) as [BD SD].
    set (x := at_d xs) in *. set (l := place (r_in ru) x (at_d us)) in *.
    unfold build_inputs.
    assert (same_set (map fst xs) (ir_paths (r_in ru)) = true) as ->.
    { apply same_set_spec. intros p. rewrite <- Hi. apply (g_ir _ _ _ _ _ G). }
    assert (same_set (map fst us) (arch_paths (r_in ru)) = true) as ->.
    { apply same_set_spec. intros p. rewrite arch_paths_In. apply (g_arch _ _ _ _ _ G). }
    cbn [negb].
    match goal with |- context [existsb ?h ?l0] => assert (existsb h l0 = false) as -> end.
    { apply not_true_is_false. intros X. apply existsb_exists in X as ([s p] & Ie & X). cbn [snd] in X. destruct p; [|discriminate].
      destruct (Hp []) as [t It]; [apply (in_map snd) in Ie; exact Ie|]. exact (flat_nonempty C [] t K It eq_refl). }
    match goal with |- context [mapM (arch_entry xs us) ?r0] => assert (mapM (arch_entry xs us) r0 = Ok (map (fun e : entry => (SVal (l (snd e)), snd e)) r0)) as -> end.
    { apply mapM_Ok. assert (incl (r_in ru) (r_in ru)) as Inc by apply incl_refl. revert Inc. generalize (r_in ru) at 1 3 4 as r.
      induction r as [|[s p] r IH]; intros Inc; cbn [map]; constructor; [|apply IH; intros e Ie; apply Inc; right; auto].
      pose proof (Inc _ (or_introl eq_refl)) as Ie. unfold arch_entry. cbn [fst snd]. unfold l. rewrite (place_In _ _ _ s p N Ie). destruct s as [q|z|]; cbn [bind]; auto.
      - destruct (Hs q p Ie) as (t & I1 & _). unfold look. destruct (ir_look q t I1) as [-> _]. reflexivity.
      - unfold look. destruct (arch_look p Ie) as [-> _]. reflexivity. }
    cbn [bind].
    destruct (form_at R GR C W Rl B cs A EA (r_form ru) f (own A (r_form ru)) l Ef) as (fo & vm & z & g & Ew & Eg & V & Dd & Efw & _).
    rewrite (word_built C (own A (r_form ru)) l fo vm z g _ K B Ew (nth_error_In _ _ Eg)).
    - cbn [bind whole_value].
      destruct (forms_work R' GR' D W' Rl' BD (fun _ => 0) x) as (fo' & vm' & z' & Ew' & IV').
      assert (exists g', fo' = [g'] /\ f_dict g' = []) as (g' & -> & Dg).
      { assert (forall f, In f fo' -> f_dict f = []) as Dn.
        { intros f0 If. destruct (i_cov _ _ _ _ _ _ _ _ _ _ IV' f0 If) as (v & _ & M). destruct (f_dict f0) as [|[q k] d] eqn:Ed; auto. exfalso.
          assert (In (q, k) (f_dict f0)) as X by (rewrite Ed; left; auto). apply (mt_dict _ _ _ _ M) in X. destruct X as (r & -> & gg & c & fs & w & Sv).
          apply (SD r gg c fs). eapply sub_val_ty; eauto. }
        destruct fo' as [|f1 [|f2 fo']].
        - destruct (inhabited _ W') as (v & Hv & _). destruct (i_ex _ _ _ _ _ _ _ _ _ _ IV' v Hv) as (f0 & [] & _).
        - exists f1. split; auto. apply Dn. left; auto.
        - exfalso. destruct (i_dis _ _ _ _ _ _ _ _ _ _ IV') as [X _]. apply (X f2); [left; auto|].
          intros q k. rewrite (Dn f1), (Dn f2); [tauto|right; left; auto|left; auto]. }
      assert (forall q, In q (map fst (f_vars g')) <-> In q (map fst (in_flat D))) as Vg.
      { intros q. destruct (in_flat_spec D W' (k_mi D KD)) as [[_ Kd] _]. rewrite Kd. split.
        - intros X. destruct (i_cov _ _ _ _ _ _ _ _ _ _ IV' g' (or_introl eq_refl)) as (v & _ & M). apply (proj1 (mt_vars _ _ _ _ M _)) in X. destruct X as (r & -> & t & w & Sv & L).
          exists r, t. split; auto. split; auto. eapply sub_val_ty; eauto.
        - intros (r & t & -> & St & L). destruct (inhabited t (sub_ty_wf _ _ _ St W')) as (w & Hw & _).
          destruct (sum_reached _ _ _ St W' w Hw) as (v & Hv & Sv). destruct (i_ex _ _ _ _ _ _ _ _ _ _ IV' v Hv) as (f0 & [<-|[]] & M).
          apply (mt_vars _ _ _ _ M). exists r. split; auto. exists t, w. auto. }
      assert (map snd (flat_map (ir_entry xs) (r_in ru)) = ir_paths (r_in ru) /\ forall s q, In (s, q) (flat_map (ir_entry xs) (r_in ru)) -> s = SVal (x q)) as [Mi Vi].
      { assert (incl (r_in ru) (r_in ru)) as Inc by apply incl_refl. revert Inc. generalize (r_in ru) at 1 3 4 5 as r.
        induction r as [|[s p] r IH]; intros Inc; cbn [flat_map ir_paths map]; [split; auto; intros ? ? []|].
        destruct IH as [IH1 IH2]; [intros e Ie; apply Inc; right; auto|]. pose proof (Inc _ (or_introl eq_refl)) as Ie. unfold ir_entry at 1 3. cbn [fst snd].
        fold (ir_paths r). destruct s as [q|z0|]; cbn [List.app]; auto. destruct (Hs q p Ie) as (t & I1 & _). destruct (ir_look q t I1) as [-> _].
        cbn [List.app map snd]. split; [now f_equal|]. intros s0 q0 [[= <- <-]|X]; auto. }
      rewrite (word_built D (fun _ => 0) x [g'] vm' z' g' _ KD BD Ew' (or_introl eq_refl)).
      + cbn [bind whole_value]. rewrite Efw. unfold form_word. rewrite Ew'. cbn [nth_error].
        destruct (in_words_ok D (f_val g') KD) as (wi & Ewi & _). destruct (in_words_ok C (f_val g) K) as (wa & Ewa & _).
        rewrite Ewi. cbn [bind]. rewrite Ewa. cbn [bind]. exists wi, wa. auto.
      + intros r k gg c fs X. rewrite Dg in X. destruct X.
      + rewrite Mi. exact Ni.
      + intros s q. split.
        * intros X. split; [|eapply Vi; eauto]. apply Vg, Hi. rewrite <- Mi. apply (in_map snd) in X. exact X.
        * intros [X ->]. apply Vg, Hi in X. rewrite <- Mi in X. apply in_map_iff in X as ([s q'] & Eq & X). cbn [snd] in Eq. subst q'.
          rewrite <- (Vi s q X). exact X.
      + intros q t _ It. apply ir_typed. exact It.
    - intros r k gg c fs X S. cbn [List.app] in *. destruct (dict_sum R GR C W Rl B _ _ _ _ _ _ _ _ _ _ _ Ew (nth_error_In _ _ Eg) X S) as [u Iu].
      rewrite (own_dict R GR C W Rl B cs A EA (r_form ru) f r (tag_at C r k) Ef).
      + apply (tag_at_rank R GR C W Rl r gg c fs k u S Iu).
      + rewrite Dd. apply in_map_iff. exists (r, k). auto.
    - rewrite map_map. cbn [snd]. exact N.
    - intros s q. rewrite in_map_iff, <- V, <- Hq. split.
      + intros ([s' q'] & Eq & X). cbn [snd] in Eq. injection Eq as <- <-. split; auto. apply (in_map snd) in X. exact X.
      + intros [X ->]. apply in_map_iff in X as ([s' q'] & Eq & X). cbn [snd] in Eq. subst q'. exists (s', q). auto.
    - intros q t _ It. apply place_typed. exact It.
  Qed.
End Rule.

(** * The form of a value *)
Lemma value_form C v l : class_ok C -> buildable (in_ty C) -> has_ty (in_ty C) v ->
  exists tags fo vm z g, in_forms C tags l = Ok (fo, vm, z) /\ In g fo /\ matches [] (in_ty C) v g /\ tags_fit tags [] (in_ty C) g.
Proof.
  intros K B Hv. destruct (k_in C K) as (R & GR & W & Rl).
  destruct (forms_work R GR C W Rl B (fun _ => 0) l) as (fo0 & vm0 & z0 & E0 & IV0).
  destruct (i_ex _ _ _ _ _ _ _ _ _ _ IV0 v Hv) as (g0 & I0 & M0).
  set (tags := fun q => match dget path_eqb (f_dict g0) q with Some k => tag_at C q k | None => 0 end).
  destruct (forms_work R GR C W Rl B tags l) as (fo & vm & z & E & IV).
  apply In_nth_error in I0 as [i Ei]. destruct (F2_nth _ _ _ (forms_lock _ _ _ _ _ _ _ _ _ _ _ _ _ E0 E) i g0 Ei) as (g & Eg & Lk).
  exists tags, fo, vm, z, g. split; auto. pose proof (nth_error_In _ _ Eg) as Ig. split; auto.
  pose proof (lk_vars _ _ _ _ _ _ Lk) as LV. pose proof (lk_dict _ _ _ _ _ _ Lk) as LD.
  split.
  - constructor; rewrite <- ?LV, <- ?LD; apply M0.
  - intros r k gg c fs X S. cbn [List.app] in *. destruct (dict_sum R GR C W Rl B _ _ _ _ _ _ _ _ _ _ _ E Ig X S) as [u Iu].
    unfold tags. rewrite (dget_in (f_dict g0) r k); [|apply M0|rewrite LD; exact X]. apply (tag_at_rank R GR C W Rl r gg c fs k u S Iu).
Qed.

(** A binding of exactly the leaves of a value to words. *)
Lemma value_word C v b : class_ok C -> buildable (in_ty C) -> has_ty (in_ty C) v ->
  NoDup (map snd b) -> (forall q, In q (map snd b) <-> leaf_path (in_ty C) v q) ->
  (forall s q t, In (s, q) b -> In (q, t) (in_flat C) -> exists z, s = SVal z /\ In z (lty_vals t)) ->
  exists z, simplify (in_ty C) (c_ia C) b = Ok [(SVal z, [])] /\
    ((forall z' q t' v', In (SVal z', q) b -> sub_val (in_ty C) v q t' v' -> canonical t' z' v') -> canonical (in_ty C) z v).
Proof.
  intros K B Hv N Hq Rg. destruct (k_in C K) as (R & GR & W & Rl).
  set (l := fun q => match find (fun e : entry => path_eqb q (snd e)) b with Some (SVal z, _) => z | _ => 0 end).
  assert (forall q, In q (map snd b) -> exists t, In (q, t) (in_flat C)) as Fl.
  { intros q I. apply Hq in I as (t & w & Sv & L). destruct (in_flat_spec C W (k_mi C K)) as [[_ Kd] _].
    assert (In q (map fst (in_flat C))) as X by (apply Kd; exists q, t; split; auto; split; auto; eapply sub_val_ty; eauto).
    apply in_map_iff in X as ([q' t'] & <- & X). eauto. }
  assert (forall s q, In (s, q) b -> s = SVal (l q)) as Hl.
  { intros s q I. destruct (Fl q) as [t It]; [apply (in_map snd) in I; exact I|]. destruct (Rg s q t I It) as (z & -> & _). f_equal. unfold l. clear - N I.
    induction b as [|[s' q'] b IH]; [destruct I|]. cbn [map snd] in N. inversion N as [|? ? N1 N2]; subst. cbn [find snd]. destruct (path_eqb q q') eqn:E.
    - apply path_eqb_eq in E. subst q'. destruct I as [[= -> ]|I]; auto. exfalso. apply N1. apply (in_map snd) in I. exact I.
    - destruct I as [[= -> ->]|I]; auto. now rewrite (proj2 (path_eqb_eq q q) eq_refl) in E. }
  destruct (value_form C v l K B Hv) as (tags & fo & vm & z & g & E & Ig & M & T).
  assert (forall q, In q (map fst (f_vars g)) <-> In q (map snd b)) as Vb.
  { intros q. rewrite (mt_vars _ _ _ _ M), Hq. split; [intros (r & -> & X); exact X|intros X; exists q; auto]. }
  exists (f_val g). split.
  - eapply (word_built C tags l); eauto.
    + intros s q. rewrite Vb. split.
      * intros I. split; [apply (in_map snd) in I; exact I|auto].
      * intros [I ->]. apply in_map_iff in I as ([s q'] & Eq & I). cbn [snd] in Eq. subst q'. rewrite <- (Hl s q I). exact I.
    + intros q t I It. apply Vb in I. apply in_map_iff in I as ([s q'] & Eq & I). cbn [snd] in Eq. subst q'.
      destruct (Rg s q t I It) as (z0 & Es & Iz). rewrite (Hl s q I) in Es. injection Es as ->. exact Iz.
  - intros Hc. destruct (i_sem _ _ _ _ _ _ _ _ _ _ (forms_inv R GR C W Rl B _ _ _ _ _ E) v Hv) as (_ & H2 & _); [|apply H2; auto]. split.
    + intros r t' v' Sv L. cbn [List.app]. assert (In r (map snd b)) as I by (apply Hq; exists t', v'; auto).
      apply in_map_iff in I as ([s q'] & Eq & I). cbn [snd] in Eq. subst q'. rewrite (Hl s r I) in I. apply (Hc _ r t' v' I Sv).
    + intros r gg c fs k w Sv. apply (T r k gg c fs); [|eapply sub_val_ty; eauto]. apply (mt_dict _ _ _ _ M). exists r. split; auto. exists gg, c, fs, w. exact Sv.
Qed.

Lemma canonical_words C z vs ws : class_ok C -> has_ty (in_ty C) (VProd vs) -> canonical (in_ty C) z (VProd vs) -> in_words C z = Ok ws -> words canonical (c_in C) ws vs.
Proof.
  intros K Hv Cn Ew. destruct (k_in C K) as (R & GR & W & Rl).
  assert (length vs = length (c_in C)) as Lv by (inversion Hv as [| | | |? ? ? F|]; subst; rewrite <- (F2_length _ _ _ F); apply strip_length).
  unfold in_words, words_of in Ew. apply mapM_F2 in Ew. pose proof (F2_length _ _ _ Ew) as Lw. rewrite map_length in Lw.
  split; auto. split; auto. intros i k m w v Ei Ewi Ev.
  assert (sub_val (in_ty C) (VProd vs) [k] (strip m) v) as Sv.
  { econstructor; [|exact Ev|constructor]. unfold strip_fields. rewrite nth_error_map, Ei. reflexivity. }
  destruct (aadt_get_spec R _ _ _ _ _ _ (c_ia C) z Sv GR W Rl Cn) as (x & mm & a' & Gt & En & _).
  destruct (F2_nth _ _ _ Ew i k) as (w' & Ew' & Eg); [rewrite nth_error_map, Ei; reflexivity|].
  assert (w' = w) by congruence. subst w'. rewrite Gt in Eg. cbn [bind fst] in Eg. injection Eg as <-. exact En.
Qed.
