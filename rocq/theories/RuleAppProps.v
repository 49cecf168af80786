(** C88: making, applying and verifying a rewrite rule between two Peak classes. *)
From Coq Require Import String ZArith List Bool Lia Permutation.
From Verif Require Import Base BaseLemmas CegisModel CegisProps BindModel MapIdxModel MapIdxProps BindProps MapModel MapProofs MapMain MapProps MapIff MapIffProps MapDirect
  AsmModel AsmSpec AsmValid AsmEnum AsmBuild AsmProofs AsmSub AsmCheck AsmMore AsmProps Asm2Model Asm2Proofs AadtModel AadtProofs FormModel FormProofs FormMain FormSimp FormProps
  AdtArchModel AdtArchProofs AdtArchMain AdtArchProps RuleAppModel RuleAppProofs RuleAppEnc RuleAppMain.
Import ListNotations.
Open Scope string_scope.
Open Scope list_scope.
Open Scope Z_scope.

(** * When a rule can be applied *)
(** The paths of the rule are leaves; a leaf of the architecture taking an input of
    the instruction has words of the same width. *)
Definition leaf_rule (C D : pclass) (rin : list entry) : Prop :=
  (forall s p, In (s, p) rin -> exists t, In (p, t) (in_flat C)) /\
  (forall q p, In (SPath q, p) rin -> exists t t', In (q, t) (in_flat D) /\ In (p, t') (in_flat C) /\ leaf_bits (snd t) = leaf_bits (snd t')).
(** A dictionary of words of the leaves. *)
Definition in_range (leaves : list (path * lty)) (d : list (path * Z)) : Prop :=
  forall p t z, In (p, t) leaves -> dget path_eqb d p = Some z -> In z (lty_vals t).
(** The dictionaries have a value for every input taken and for every unbound leaf, and
    for nothing else. *)
Definition keys_ok (rin : list entry) (xs us : list (path * Z)) : Prop :=
  (forall q, In q (map fst xs) <-> exists p, In (SPath q, p) rin) /\ (forall p, In p (map fst us) <-> In (SUnbound, p) rin).

Lemma look_some xs q : In q (map fst xs) -> exists z, dget path_eqb xs q = Some z /\ look xs q = Ok z.
Proof. intros X. destruct (dget_some xs q X) as [z E]. exists z. unfold look. now rewrite E. Qed.

Definition got (xs us : list (path * Z)) (e : entry) (z : Z) : Prop :=
  match fst e with SPath q => dget path_eqb xs q = Some z | SVal y => z = y | SUnbound => dget path_eqb us (snd e) = Some z end.

Lemma entries rin xs us : keys_ok rin xs us -> exists ab, mapM (arch_entry xs us) rin = Ok ab /\ map snd ab = map snd rin /\
  forall s' p, In (s', p) ab <-> exists s z, In (s, p) rin /\ s' = SVal z /\ got xs us (s, p) z.
Proof.
  intros [H1 H2].
  assert (forall e, In e rin -> exists z, got xs us e z /\ arch_entry xs us e = Ok (SVal z, snd e)) as X.
  { intros [s p] I. unfold arch_entry, got. cbn [fst snd]. destruct s as [q|z|].
    - destruct (look_some xs q) as (z & E1 & E2); [apply H1; eauto|]. exists z. rewrite E2. auto.
    - exists z. auto.
    - destruct (look_some us p) as (z & E1 & E2); [apply H2; auto|]. exists z. rewrite E2. auto. }
  clear H1 H2. induction rin as [|[s p] rin IH]; cbn [mapM].
  - exists []. split; auto. split; auto. intros s' p. split; [intros []|intros (? & ? & [] & _)].
  - destruct IH as (ab & E & Em & Hi); [intros e I; apply X; right; auto|]. destruct (X (s, p) (or_introl eq_refl)) as (z & Gz & Ez).
    rewrite Ez. cbn [bind]. rewrite E. cbn [bind]. eexists. split; [reflexivity|]. cbn [map snd]. split; [now f_equal|].
    intros s' p'. cbn [In]. rewrite Hi. split.
    + intros [[= <- <-]|(s0 & z0 & I0 & -> & G0)]; [exists s, z; auto|exists s0, z0; auto].
    + intros (s0 & z0 & [[= <- <-]|I0] & -> & G0); [left|right; exists s0, z0; auto]. repeat f_equal. unfold got in *. cbn [fst snd] in *. destruct s; congruence.
Qed.

Lemma ir_entries rin xs us : keys_ok rin xs us -> map snd (flat_map (ir_entry xs) rin) = ir_paths rin /\
  forall s q, In (s, q) (flat_map (ir_entry xs) rin) <-> exists z, s = SVal z /\ dget path_eqb xs q = Some z /\ In q (ir_paths rin).
Proof.
  intros [H1 _]. assert (forall q p, In (SPath q, p) rin -> exists z, dget path_eqb xs q = Some z) as X by (intros q p I; apply dget_some, H1; eauto).
  clear H1. induction rin as [|[s p] rin IH]; cbn [flat_map ir_paths map].
  - split; auto. intros s q. split; [intros []|intros (? & _ & _ & [])].
  - destruct IH as [E Hi]; [intros q p' I; eapply X; right; eauto|]. fold (ir_paths rin) in *. unfold ir_entry at 1 3. cbn [fst snd]. destruct s as [q|z|]; cbn [List.app]; auto.
    destruct (X q p (or_introl eq_refl)) as [z Ez]. rewrite Ez. cbn [List.app map snd]. split; [now f_equal|]. intros s q'. cbn [In]. rewrite Hi. split.
    + intros [[= <- <-]|(z0 & -> & E0 & I0)]; [exists z; auto|exists z0; auto].
    + intros (z0 & -> & E0 & [<-|I0]); [left; congruence|right; exists z0; auto].
Qed.

Lemma keys_set rin xs us : keys_ok rin xs us <-> same_set (map fst xs) (ir_paths rin) = true /\ same_set (map fst us) (arch_paths rin) = true.
Proof.
  rewrite !same_set_spec. unfold keys_ok. split; intros [H1 H2]; (split; [intros p; rewrite H1; [|..]|intros p; rewrite H2]); rewrite ?ir_paths_In, ?arch_paths_In; reflexivity.
Qed.

(** Other keys are a ValueError. *)
Theorem C88_keys C D rin xs us : ~ keys_ok rin xs us -> build_inputs C D rin xs us = Err ValueError.
Proof.
  rewrite keys_set. unfold build_inputs. intros H. destruct (same_set (map fst xs) (ir_paths rin)); [|reflexivity]. cbn [negb].
  destruct (same_set (map fst us) (arch_paths rin)); [|reflexivity]. destruct H; auto.
Qed.

(** [build_inputs] succeeds exactly if the bound leaves of the architecture are those
    of one value, each bound once, and the inputs taken are all the leaves of one value
    of the instruction, each taken once. *)
Theorem C88_build C D rin xs us : class_ok C -> class_ok D -> buildable (in_ty C) -> buildable (in_ty D) ->
  leaf_rule C D rin -> consts_ok C rin -> keys_ok rin xs us -> in_range (in_flat D) xs -> in_range (in_flat C) us ->
  (exists wi wa, build_inputs C D rin xs us = Ok (wi, wa)) <->
  NoDup (map snd rin) /\ (exists v, has_ty (in_ty C) v /\ forall p, In p (map snd rin) <-> leaf_path (in_ty C) v p) /\
  (forall q p p', In (SPath q, p) rin -> In (SPath q, p') rin -> p = p') /\
  (exists w, has_ty (in_ty D) w /\ forall q, (exists p, In (SPath q, p) rin) <-> leaf_path (in_ty D) w q).
Proof.
  intros K KD B BD [L1 L2] Cc Ks Rx Ru. pose proof (proj1 (keys_set rin xs us) Ks) as [S1 S2].
  destruct (k_in C K) as (R & GR & W & Rl). destruct (k_in D KD) as (R' & GR' & W' & Rl').
  destruct (in_flat_spec C W (k_mi C K)) as [[NC _] SC]. destruct (in_flat_spec D W' (k_mi D KD)) as [[ND _] SD].
  assert (existsb (fun e : entry => match snd e with [] => true | _ => false end) rin = false) as Ne.
  { apply not_true_is_false. intros X. apply existsb_exists in X as ([s p] & Ie & X). cbn [snd] in X. destruct p; [|discriminate].
    destruct (L1 s [] Ie) as [t It]. exact (flat_nonempty C [] t K It eq_refl). }
  destruct (entries rin xs us Ks) as (ab & Eab & Mab & Hab). destruct (ir_entries rin xs us Ks) as [Mib Hib].
  unfold build_inputs. rewrite S1, S2. cbn [negb].
  match goal with |- context [existsb ?h ?l0] => replace (existsb h l0) with false by (symmetry; exact Ne) end.
  match goal with |- context [mapM (arch_entry xs us) ?l0] => replace (mapM (arch_entry xs us) l0) with (Ok ab) by (symmetry; exact Eab) end. cbn [bind].
  assert (forall s q t, In (s, q) ab -> In (q, t) (in_flat C) -> exists z, s = SVal z /\ In z (lty_vals t)) as Ra.
  { intros s' q t I It. apply Hab in I as (s & z & I & -> & Gz). exists z. split; auto. unfold got in Gz. cbn [fst snd] in Gz. destruct s as [q0|y|].
    - destruct (L2 q0 q I) as (t0 & t1 & I0 & I1 & Eb). pose proof (Rx q0 t0 z I0 Gz) as Y. rewrite (flat_fun C q t t1 K It I1). unfold lty_vals in *. rewrite <- Eb. exact Y.
    - subst z. eapply Cc; eauto.
    - eapply Ru; eauto. }
  assert (forall s q t, In (s, q) (flat_map (ir_entry xs) rin) -> In (q, t) (in_flat D) -> exists z, s = SVal z /\ In z (lty_vals t)) as Ri.
  { intros s q t I It. apply Hib in I as (z & -> & Ez & _). exists z. split; auto. eapply Rx; eauto. }
  split.
  - intros (wi & wa & E). destruct (simplify (in_ty C) (c_ia C) ab) as [ab'|] eqn:Sa; [|discriminate]. cbn [bind] in E.
    destruct (whole_value ab') as [z|]; [|discriminate]. cbn [bind] in E.
    destruct (simplify (in_ty D) (c_ia D) (flat_map (ir_entry xs) rin)) as [ib'|] eqn:Si; [|discriminate]. clear E.
    destruct (C33_no_conflicts _ _ _ _ Sa) as [Na _]. rewrite Mab in Na. split; auto.
    destruct (C33_no_conflicts _ _ _ _ Si) as [Ni _]. rewrite Mib in Ni.
    split; [|split].
    + destruct (simplify_leaves _ _ _ _ Sa W) as (v & Hv & Hq).
      * intros q I. rewrite Mab in I. apply in_map_iff in I as ([s q'] & Eq & I). cbn [snd] in Eq. subst q'. destruct (L1 s q I) as [[ms t] It]. exists t. eapply SC; eauto.
      * exists v. split; auto. intros p. rewrite <- Mab. apply Hq.
    + intros q p p' I I'. clear - Ni I I'. induction rin as [|[s a] rin IH]; [destruct I|]. cbn [ir_paths flat_map fst] in Ni. fold (ir_paths rin) in Ni.
      assert (forall r, In (SPath q, r) rin -> In q (ir_paths rin)) as X by (intros r Ir; apply ir_paths_In; eauto).
      destruct s as [q0|z|]; cbn [List.app] in Ni.
      * inversion Ni as [|? ? N1 N2]; subst. destruct I as [[= -> ->]|I], I' as [I'|I'].
        -- congruence.
        -- exfalso. eauto.
        -- injection I' as -> ->. exfalso. eauto.
        -- apply IH; auto.
      * destruct I as [I|I], I' as [I'|I']; try discriminate. apply IH; auto.
      * destruct I as [I|I], I' as [I'|I']; try discriminate. apply IH; auto.
    + destruct (simplify_leaves _ _ _ _ Si W') as (v & Hv & Hq).
      * intros q I. rewrite Mib in I. apply ir_paths_In in I as [p I]. destruct (L2 q p I) as ([ms t] & _ & It & _). exists t. eapply SD; eauto.
      * exists v. split; auto. intros q. rewrite <- Hq, Mib, ir_paths_In. reflexivity.
  - intros (N & (v & Hv & Hq) & Inj & (w & Hw & Hi)).
    destruct (value_word C v ab K B Hv) as (z & Ez & _); auto; [now rewrite Mab|intros q; rewrite Mab; apply Hq|]. rewrite Ez. cbn [bind whole_value].
    assert (NoDup (ir_paths rin)) as Ni.
    { clear - N Inj. induction rin as [|[s a] rin IH]; [constructor|]. cbn [map snd] in N. inversion N as [|? ? N1 N2]; subst.
      assert (NoDup (ir_paths rin)) as X by (apply IH; auto; intros q p p' I I'; apply (Inj q); right; auto).
      cbn [ir_paths flat_map fst]. fold (ir_paths rin). destruct s as [q|y|]; cbn [List.app]; auto. constructor; auto.
      intros I. apply ir_paths_In in I as [p I]. assert (p = a) as -> by (apply (Inj q); [right; auto|left; auto]). apply N1. apply (in_map snd) in I. exact I. }
    destruct (value_word D w (flat_map (ir_entry xs) rin) KD BD Hw) as (y & Ey & _); auto; [now rewrite Mib|intros q; rewrite Mib, ir_paths_In; apply Hi|].
    rewrite Ey. cbn [bind whole_value]. destruct (in_words_ok D y KD) as (wi & Ewi & _). destruct (in_words_ok C z K) as (wa & Ewa & _).
    rewrite Ewi. cbn [bind]. rewrite Ewa. cbn [bind]. eauto.
Qed.

(** * The words are those of the values *)
Lemma canonical_vals C q ms t z v : class_ok C -> In (q, (ms, t)) (in_flat C) -> canonical t z v -> In z (lty_vals (ms, t)).
Proof.
  intros K I Cn. destruct (k_in C K) as (R & GR & W & Rl). destruct (in_flat_spec C W (k_mi C K)) as [_ S]. apply S in I as [St L].
  destruct (asm_at_spec R _ _ _ _ St W Rl) as (a & _ & Aa & Wt). destruct (asm_rel_width R t Wt a Aa) as [Sa _].
  pose proof (AsmProofs.enc_range _ t Wt z v _ Cn Sa) as Rg. rewrite (leaf_width R t a Aa L) in Rg. unfold lty_vals. cbn [snd]. apply BaseLemmas.pyrange_In. lia.
Qed.

Theorem C88_values C D rin xs us wi wa : class_ok C -> class_ok D -> buildable (in_ty C) -> buildable (in_ty D) ->
  build_inputs C D rin xs us = Ok (wi, wa) ->
  (forall vs l, has_ty (in_ty C) (VProd vs) -> (forall p, In p (map snd rin) <-> leaf_path (in_ty C) (VProd vs) p) ->
     (forall s p, In (s, p) rin -> match s with SPath q => dget path_eqb xs q = Some (l p) | SVal z => l p = z | SUnbound => dget path_eqb us p = Some (l p) end) ->
     holds (in_ty C) (VProd vs) l -> words canonical (c_in C) wa vs) /\
  (forall ws x, has_ty (in_ty D) (VProd ws) -> (forall q, (exists p, In (SPath q, p) rin) <-> leaf_path (in_ty D) (VProd ws) q) ->
     (forall q z, dget path_eqb xs q = Some z -> z = x q) ->
     holds (in_ty D) (VProd ws) x -> words canonical (c_in D) wi ws).
Proof.
  intros K KD B BD E. unfold build_inputs in E.
  destruct (same_set (map fst xs) (ir_paths rin)) eqn:S1; [|discriminate]. destruct (same_set (map fst us) (arch_paths rin)) eqn:S2; [|discriminate]. cbn [negb] in E.
  match type of E with context [existsb ?h ?l0] => destruct (existsb h l0); [discriminate|] end. pose proof (proj2 (keys_set rin xs us) (conj S1 S2)) as Ks.
  destruct (entries rin xs us Ks) as (ab & Eab & Mab & Hab). destruct (ir_entries rin xs us Ks) as [Mib Hib].
  match type of E with context [mapM (arch_entry xs us) ?l0] => replace (mapM (arch_entry xs us) l0) with (Ok ab) in E by (symmetry; exact Eab) end. cbn [bind] in E.
  destruct (simplify (in_ty C) (c_ia C) ab) as [ab'|] eqn:Sa; [|discriminate]. cbn [bind] in E. destruct (whole_value ab') as [z|] eqn:Wz; [|discriminate]. cbn [bind] in E.
  destruct (simplify (in_ty D) (c_ia D) (flat_map (ir_entry xs) rin)) as [ib'|] eqn:Si; [|discriminate]. cbn [bind] in E. destruct (whole_value ib') as [y|] eqn:Wy; [|discriminate]. cbn [bind] in E.
  destruct (in_words D y) as [wi'|] eqn:Ewi; [|discriminate]. cbn [bind] in E. destruct (in_words C z) as [wa'|] eqn:Ewa; [|discriminate]. cbn [bind] in E. injection E as -> ->.
  destruct (C33_no_conflicts _ _ _ _ Sa) as [Na _]. destruct (C33_no_conflicts _ _ _ _ Si) as [Ni _].
  assert (forall t a b b' v, simplify t a b = Ok b' -> (exists z0, simplify t a b = Ok [(SVal z0, [])] /\ canonical t z0 v) -> forall y0, whole_value b' = Ok y0 -> canonical t y0 v) as Fin.
  { intros t a b b' v E1 (z0 & E2 & Cn) y0 Ey. rewrite E1 in E2. injection E2 as ->. cbn in Ey. injection Ey as <-. exact Cn. }
  destruct (k_in C K) as (R & GR & W & Rl). destruct (k_in D KD) as (R' & GR' & W' & Rl').
  destruct (in_flat_spec C W (k_mi C K)) as [_ SC]. destruct (in_flat_spec D W' (k_mi D KD)) as [_ SD].
  split.
  - intros vs l Hv Hq Hl Hh.
    assert (forall s q, In (s, q) ab -> s = SVal (l q)) as Vl.
    { intros s' q I. apply Hab in I as (s & z0 & I & -> & Gz). f_equal. specialize (Hl s q I). unfold got in Gz. cbn [fst snd] in Gz. destruct s; congruence. }
    apply (canonical_words C z vs wa K Hv); auto. apply (Fin _ _ _ _ _ Sa); auto.
    destruct (value_word C (VProd vs) ab K B Hv) as (z0 & Ez & Cn); auto.
    + intros q. rewrite Mab. apply Hq.
    + intros s q [ms t] I It. exists (l q). split; auto. destruct (SC q ms t It) as [St L].
      assert (leaf_path (in_ty C) (VProd vs) q) as (t' & v' & Sv & L') by (apply Hq; rewrite <- Mab; apply (in_map snd) in I; exact I).
      pose proof (sub_ty_fun _ _ _ St W _ (sub_val_ty _ _ _ _ _ Sv)). subst t'. apply (canonical_vals C q ms t (l q) v' K It). apply (Hh q t v' Sv L').
    + exists z0. split; auto. apply Cn. intros z' q t' v' I Sv. assert (is_leaf t') as L.
      { assert (leaf_path (in_ty C) (VProd vs) q) as (t2 & v2 & Sv2 & L2) by (apply Hq; rewrite <- Mab; apply (in_map snd) in I; exact I).
        now rewrite (sub_ty_fun _ _ _ (sub_val_ty _ _ _ _ _ Sv) W _ (sub_val_ty _ _ _ _ _ Sv2)). }
      apply Vl in I. injection I as ->. apply (Hh q t' v' Sv L).
  - intros ws x Hv Hq Hl Hh.
    assert (forall s q, In (s, q) (flat_map (ir_entry xs) rin) -> s = SVal (x q)) as Vl.
    { intros s q I. apply Hib in I as (z0 & -> & Ez & _). f_equal. auto. }
    assert (forall q, In q (map snd (flat_map (ir_entry xs) rin)) <-> leaf_path (in_ty D) (VProd ws) q) as Hq' by (intros q; rewrite Mib, ir_paths_In; apply Hq).
    apply (canonical_words D y ws wi KD Hv); auto. apply (Fin _ _ _ _ _ Si); auto.
    destruct (value_word D (VProd ws) (flat_map (ir_entry xs) rin) KD BD Hv) as (z0 & Ez & Cn); auto.
    + intros s q [ms t] I It. exists (x q). split; auto. destruct (SD q ms t It) as [St L].
      assert (leaf_path (in_ty D) (VProd ws) q) as (t' & v' & Sv & L') by (apply Hq'; apply (in_map snd) in I; exact I).
      pose proof (sub_ty_fun _ _ _ St W' _ (sub_val_ty _ _ _ _ _ Sv)). subst t'. apply (canonical_vals D q ms t (x q) v' KD It). apply (Hh q t v' Sv L').
    + exists z0. split; auto. apply Cn. intros z' q t' v' I Sv. assert (is_leaf t') as L.
      { assert (leaf_path (in_ty D) (VProd ws) q) as (t2 & v2 & Sv2 & L2) by (apply Hq'; apply (in_map snd) in I; exact I).
        now rewrite (sub_ty_fun _ _ _ (sub_val_ty _ _ _ _ _ Sv) W' _ (sub_val_ty _ _ _ _ _ Sv2)). }
      apply Vl in I. injection I as ->. apply (Hh q t' v' Sv L).
Qed.

(** * The outputs *)
(** The dictionary of outputs has the leaves of the output type, and the words at the
    leaves of the values returned. *)
Theorem C88_outputs K os : class_ok K -> buildable (out_ty K) -> sum_free (out_ty K) -> Forall2 word_of (c_out K) os ->
  exists ov, parse_output K os = Ok ov /\ NoDup (map fst ov) /\
    (forall q, In q (map fst ov) <-> exists t, sub_ty (out_ty K) q t /\ is_leaf t) /\
    forall vs, words encodes (c_out K) os vs -> has_ty (out_ty K) (VProd vs) ->
    forall q t o, sub_val (out_ty K) (VProd vs) q t o -> is_leaf t -> exists z, dget path_eqb ov q = Some z /\ encodes t z o.
Proof.
  intros KO B S F. destruct (k_out K KO) as (R & GR & W & Rl). destruct (wrap_ok K os KO B F) as (op & Eop & Rg & En).
  destruct (out_one K (fun _ => True) op KO B S Logic.I Rg) as (f & vm & z0 & Ef & IV).
  unfold parse_output. rewrite Eop. cbn [bind]. rewrite Ef. cbn [bind]. exists (m_leaf vm). split; auto.
  destruct (i_leafs _ _ _ _ _ _ _ _ _ _ IV) as [N1 K1]. split; auto. split.
  - intros q. rewrite K1. split; [intros (r & t & -> & X); eauto|intros (t & X); exists q, t; auto].
  - intros vs Wd Hv q t o Sv L. destruct (i_sem _ _ _ _ _ _ _ _ _ _ IV (VProd vs) Hv) as (_ & _ & H3 & _); [apply En; auto|].
    assert (In q (map fst (m_leaf vm))) as I by (apply K1; exists q, t; split; auto; split; auto; eapply sub_val_ty; eauto).
    apply in_map_iff in I as ([q' x] & Eq & I). cbn [fst] in Eq. subst q'. exists x. split; [apply dget_in; auto|]. apply (H3 q t o x Sv L). exact I.
Qed.

(** * Applying a rule *)
(** Both classes are called on the inputs built for the two dictionaries. *)
Definition runs (C D : pclass) (rin : list entry) (xs us ov av : list (path * Z)) : Prop :=
  exists wi wa, build_inputs C D rin xs us = Ok (wi, wa) /\ parse_output D (c_call D wi) = Ok ov /\ parse_output C (c_call C wa) = Ok av.
(** Bound outputs have the same word. *)
Definition agree (ob : list (option path * path)) (ov av : list (path * Z)) : Prop :=
  forall q p, In (Some q, p) ob -> exists z, dget path_eqb ov q = Some z /\ dget path_eqb av p = Some z.

Section Apply.
  Variables (C D : pclass) (cs : list (path * list Z)) (A : arch path lty) (I : MapModel.instr path lty) (ru : rule path).
  Hypothesis K : class_ok C.
  Hypothesis Ck : call_ok C.
  Hypothesis KD : class_ok D.
  Hypothesis CkD : call_ok D.
  Hypothesis EA : adt_arch C cs = Ok A.
  Hypothesis EI : adt_instr D = Ok I.
  Hypothesis B : buildable (out_ty C).
  Hypothesis S : sum_free (out_ty C).
  Hypothesis BD : buildable (out_ty D).
  Hypothesis SD : sum_free (out_ty D).
  Hypothesis WF : well_formed path_eqb lty_const A I ru.
  Hypothesis Cc : consts_ok C (r_in ru).

  Lemma run_ok xs us : args_ok C D (r_in ru) xs us -> exists ov av, runs C D (r_in ru) xs us ov av /\
    (forall q, In q (map fst (out_flat D)) -> dget path_eqb ov q = Some (MapModel.i_sem I (at_d xs) q)) /\
    (forall p, In p (map fst (out_flat C)) -> dget path_eqb av p = Some (adt_fs C A (r_form ru) (place (r_in ru) (at_d xs) (at_d us)) p)).
  Proof.
    intros G. destruct (build_ok C D cs A I ru K KD EA EI WF Cc xs us G) as (wi & wa & Eb & Ei & Ea).
    destruct (parse_ok D _ wi KD CkD BD SD Ei) as (ov & Eov & _ & _ & Hov). destruct (parse_ok C _ wa K Ck B S Ea) as (av & Eav & _ & _ & Hav).
    destruct (adt_instr_inv D I EI) as (_ & _ & Es).
    exists ov, av. split; [exists wi, wa; auto|]. split; [intros q X; rewrite Es; auto|exact Hav].
  Qed.
  Lemma bound_out q p : In (Some q, p) (r_out ru) -> exists t, In (q, t) (out_flat D) /\ In (p, t) (out_flat C).
  Proof.
    destruct WF as (f & _ & _ & (_ & T & _) & _). destruct (arch_inv C cs A EA) as (_ & _ & _ & _ & _ & _ & _ & Eo & _).
    destruct (adt_instr_inv D I EI) as (_ & Eoi & _). rewrite Eo, Eoi in T. apply T.
  Qed.
  Lemma runs_fun xs us ov av ov' av' : runs C D (r_in ru) xs us ov av -> runs C D (r_in ru) xs us ov' av' -> ov = ov' /\ av = av'.
  Proof. intros (wi & wa & E1 & E2 & E3) (wi' & wa' & E1' & E2' & E3'). rewrite E1 in E1'. injection E1' as <- <-. split; congruence. Qed.

  (** ** A rule with the guarantee of the mapper: the two classes agree on the bound
      outputs, for all values of the inputs of the instruction and of the unbound
      leaves; and only such a rule. *)
  Lemma apply_agree xs us : correct lty_vals A I (adt_fs C A) ru -> args_ok C D (r_in ru) xs us ->
    exists ov av, runs C D (r_in ru) xs us ov av /\ agree (r_out ru) ov av.
  Proof.
    intros Co G. destruct (run_ok xs us G) as (ov & av & Rn & Ho & Ha). exists ov, av. split; auto. intros q p X.
    destruct (bound_out q p X) as (t & I1 & I2). apply (in_map fst) in I1. apply (in_map fst) in I2. exists (MapModel.i_sem I (at_d xs) q). split; auto.
    rewrite (Ha p I2). f_equal. symmetry. destruct (arch_inv C cs A EA) as (_ & _ & _ & _ & _ & _ & Ein & _). destruct (adt_instr_inv D I EI) as (Eii & _).
    apply Co; auto.
    - rewrite Eii. exact (ir_typed C D ru xs us G).
    - rewrite Ein. exact (place_typed C D cs A I ru K EA EI WF Cc xs us G).
    - exact (place_follows C D cs A I ru K EA EI WF xs us).
  Qed.

  Lemma dget_keys X (d : list (path * X)) p z : dget path_eqb d p = Some z -> In p (map fst d).
  Proof. induction d as [|[q y] d IH]; [discriminate|]. cbn [dget map fst]. destruct (path_eqb p q) eqn:E; [apply path_eqb_eq in E; left; auto|right; auto]. Qed.
  Lemma dict_get ps x p : In p ps -> dget path_eqb (dict_of ps x) p = Some (x p).
  Proof.
    induction ps as [|p' ps IH]; intros X; [destruct X|]. cbn [dict_of map dget]. destruct (path_eqb p p') eqn:E; [apply path_eqb_eq in E; now subst|].
    apply IH. destruct X as [->|X]; auto. now rewrite (proj2 (path_eqb_eq p p) eq_refl) in E.
  Qed.
  Lemma dict_keys ps x : map fst (dict_of ps x) = ps.
  Proof. unfold dict_of. rewrite map_map. apply map_id. Qed.

  (** Values of variables. *)
  Definition vars_ok (x u : path -> Z) : Prop :=
    (forall q t, In q (ir_paths (r_in ru)) -> In (q, t) (in_flat D) -> In (x q) (lty_vals t)) /\
    (forall p t, In p (arch_paths (r_in ru)) -> In (p, t) (in_flat C) -> In (u p) (lty_vals t)).
  Lemma vars_args x u : vars_ok x u -> args_ok C D (r_in ru) (dict_of (ir_paths (r_in ru)) x) (dict_of (arch_paths (r_in ru)) u).
  Proof.
    intros [V1 V2]. destruct (ru_paths C D cs A I ru K EA EI WF) as (f & _ & _ & _ & _ & _ & Hi & _).
    constructor.
    - intros p. rewrite dict_keys. symmetry. apply Hi.
    - intros p. rewrite dict_keys. apply arch_paths_In.
    - intros p t z It E. assert (In p (ir_paths (r_in ru))) as X by (apply Hi; apply (in_map fst) in It; exact It). rewrite (dict_get _ x p X) in E. injection E as <-. auto.
    - intros p t z It E. pose proof (dget_keys _ _ _ _ E) as Y. rewrite dict_keys in Y.
      rewrite (dict_get _ u p Y) in E. injection E as <-. auto.
  Qed.

  Lemma agree_correct : (forall x u, vars_ok x u -> exists ov av, runs C D (r_in ru) (dict_of (ir_paths (r_in ru)) x) (dict_of (arch_paths (r_in ru)) u) ov av /\ agree (r_out ru) ov av) ->
    correct lty_vals A I (adt_fs C A) ru.
  Proof.
    intros H x l Tx Tl Fo q p X. destruct (arch_inv C cs A EA) as (_ & _ & _ & _ & _ & _ & Ein & _). destruct (adt_instr_inv D I EI) as (Eii & _).
    rewrite Eii in Tx. rewrite Ein in Tl. assert (vars_ok x l) as V by (split; intros; auto). destruct (H x l V) as (ov & av & Rn & Ag).
    destruct (run_ok _ _ (vars_args x l V)) as (ov' & av' & Rn' & Ho & Ha). destruct (runs_fun _ _ _ _ _ _ Rn Rn') as [-> ->].
    destruct (bound_out q p X) as (t & I1 & I2). apply (in_map fst) in I1. apply (in_map fst) in I2. destruct (Ag q p X) as (z & Z1 & Z2).
    rewrite (Ho q I1) in Z1. rewrite (Ha p I2) in Z2. injection Z1 as Z1. injection Z2 as Z2.
    destruct (ru_paths C D cs A I ru K EA EI WF) as (f & Ef & N & Hq & Hs & Hp & Hi & _).
    transitivity z.
    - rewrite <- Z1. apply (ok_ilocal I (C86_instr D I KD EI)). intros r t' Ir. rewrite Eii in Ir. apply (in_map fst) in Ir. apply Hi in Ir. unfold at_d. now rewrite (dict_get _ x r Ir).
    - rewrite <- Z2. unfold adt_fs. f_equal. destruct (k_in C K) as (R & GR & W & Rl). pose proof (arch_buildable C cs A K EA) as Bi.
      apply (same_word R GR C W Rl Bi cs A EA (r_form ru) f); auto. intros r Ir. apply Hq in Ir. apply in_map_iff in Ir as ([s r'] & Er & Ir). cbn [snd] in Er. subst r'.
      rewrite (place_In _ _ _ s r N Ir). specialize (Fo s r Ir). destruct s as [q0|y|].
      + rewrite Fo. assert (In q0 (ir_paths (r_in ru))) as Y by (apply ir_paths_In; eauto). unfold at_d. now rewrite (dict_get _ x q0 Y).
      + exact (eq_sym Fo).
      + assert (In r (arch_paths (r_in ru))) as Y by (apply arch_paths_In; auto). unfold at_d. now rewrite (dict_get _ l r Y).
  Qed.

  (** ** The formula of [verify]. *)
  Lemma compare_ok x ov av : (forall q, In q (map fst (out_flat D)) -> dget path_eqb ov q = Some (x q)) ->
    (forall p, In p (map fst (out_flat C)) -> exists z, dget path_eqb av p = Some z) ->
    forall ob, incl ob (r_out ru) -> exists bs, mapM (compare_out C D ov av) ob = Ok bs /\
      (forallb (fun b => b) (List.concat bs) = true <-> agree ob ov av) /\ (List.concat bs = [] <-> forall q p, ~ In (Some q, p) ob).
  Proof.
    intros Ho Ha. destruct (k_out C K) as (R & GR & W & Rl). destruct (k_out D KD) as (R' & GR' & W' & Rl').
    destruct (out_flat_spec C W (k_mo C K)) as [[N _] _]. destruct (out_flat_spec D W' (k_mo D KD)) as [[N' _] _].
    induction ob as [|[s p] ob IH]; intros Inc.
    - exists []. split; auto. split; [split; auto; intros _ q p []|split; auto].
    - destruct IH as (bs & E & F & Em); [intros e Ie; apply Inc; right; auto|]. destruct s as [q|].
      + destruct (bound_out q p (Inc _ (or_introl eq_refl))) as (t & I1 & I2).
        destruct (Ha p (in_map fst _ _ I2)) as [z Ez]. pose proof (Ho q (in_map fst _ _ I1)) as Eq.
        assert (compare_out C D ov av (Some q, p) = Ok [x q =? z]) as Ec.
        { unfold compare_out. cbn [fst snd]. rewrite Eq, Ez.
          assert (same_sort C D q p = true) as ->; auto.
          unfold same_sort, out_sort. rewrite (dget_in (out_flat D) q t N' I1), (dget_in (out_flat C) p t N I2).
          destruct (sort_of (snd t)); cbn [sort_eqb]; auto. apply Z.eqb_refl. }
        exists ([x q =? z] :: bs). cbn [mapM]. rewrite Ec.
        cbn [bind]. rewrite E. cbn [bind]. split; auto. cbn [List.concat List.app forallb]. rewrite andb_true_iff, F, Z.eqb_eq. split.
        * split.
          -- intros [X1 X2] q' p' [[= <- <-]|X]; [|apply X2; auto]. exists z. split; congruence.
          -- intros X. split; [|intros q' p' Y; apply X; right; auto]. destruct (X q p (or_introl eq_refl)) as (z' & Z1 & Z2). congruence.
        * split; [discriminate|]. intros X. destruct (X q p (or_introl eq_refl)).
      + exists ([] :: bs). cbn [mapM]. replace (compare_out C D ov av (None, p)) with (@Ok (list bool) []) by reflexivity. cbn [bind]. rewrite E. cbn [bind]. split; auto. cbn [List.concat List.app]. split.
        * rewrite F. split; intros X q' p' Y; [destruct Y as [Y|Y]; [discriminate|auto]|apply X; right; auto].
        * rewrite Em. split; intros X q' p' Y; [destruct Y as [Y|Y]; [discriminate|eapply X; eauto]|apply (X q' p'); right; auto].
  Qed.

  Lemma verify_at_ok x u : vars_ok x u -> exists ov av,
    runs C D (r_in ru) (dict_of (ir_paths (r_in ru)) x) (dict_of (arch_paths (r_in ru)) u) ov av /\
    ((forall q p, ~ In (Some q, p) (r_out ru)) -> verify_at C D (r_in ru) (r_out ru) x u = Err AssertionError) /\
    ((exists q p, In (Some q, p) (r_out ru)) -> exists b, verify_at C D (r_in ru) (r_out ru) x u = Ok b /\ (b = true <-> agree (r_out ru) ov av)).
  Proof.
    intros V. destruct (run_ok _ _ (vars_args x u V)) as (ov & av & Rn & Ho & Ha). exists ov, av. split; auto.
    destruct (compare_ok _ ov av Ho (fun p X => ex_intro _ _ (Ha p X)) (r_out ru) (incl_refl _)) as (bs & E & F & Em).
    destruct Rn as (wi & wa & E1 & E2 & E3). unfold verify_at. rewrite E1. cbn [bind]. rewrite E2. cbn [bind]. rewrite E3. cbn [bind]. rewrite E. cbn [bind].
    split.
    - intros X. apply Em in X. now rewrite X.
    - intros (q & p & X). destruct (List.concat bs) as [|b l] eqn:Ec; [exfalso; exact (proj1 Em eq_refl q p X)|]. eexists. split; [reflexivity|exact F].
  Qed.

  (** What the solver is relied on for: it decides whether the formula holds for some
      values of the variables. *)
  Definition decides (f : (path -> Z) -> (path -> Z) -> bool) (r : option ((path -> Z) * (path -> Z))) : Prop :=
    match r with
    | Some (x, u) => vars_ok x u /\ f x u = true
    | None => forall x u, vars_ok x u -> f x u = false
    end.

  (** Some output is bound. *)
  Lemma some_out : exists q p, In (Some q, p) (r_out ru).
  Proof.
    destruct (k_out D KD) as (R & GR & W & Rl). destruct (inhabited _ W) as (v & Hv & _). destruct (leaf_exists _ W BD v Hv) as (q & t & w & Sv & L).
    destruct (out_flat_spec D W (k_mo D KD)) as [[_ Kd] _].
    assert (In q (map fst (out_flat D))) as X by (apply Kd; exists q, t; split; auto; split; auto; eapply sub_val_ty; eauto).
    apply in_map_iff in X as ([q' t'] & Eq & X). cbn [fst] in Eq. subst q'. destruct WF as (f & _ & _ & (_ & _ & U) & _).
    destruct (adt_instr_inv D I EI) as (_ & Eoi & _). rewrite Eoi in U. specialize (U q t' X). unfold uses in U.
    destruct (filter _ (r_out ru)) as [|[s p] l] eqn:F; [discriminate|].
    assert (In (s, p) (filter (fun e : option path * path => match fst e with Some q0 => path_eqb q q0 | None => false end) (r_out ru))) as Y by (rewrite F; left; auto).
    apply filter_In in Y as [Y E]. cbn [fst] in E. destruct s as [q0|]; [|discriminate]. eauto.
  Qed.

  Lemma verify_inv solver : decides (formula C D (r_in ru) (r_out ru)) (solver (formula C D (r_in ru) (r_out ru))) ->
    (verify C D solver (r_in ru) (r_out ru) = Ok None /\
     forall x u, vars_ok x u -> exists ov av, runs C D (r_in ru) (dict_of (ir_paths (r_in ru)) x) (dict_of (arch_paths (r_in ru)) u) ov av /\ agree (r_out ru) ov av) \/
    (exists x u ov av, vars_ok x u /\ verify C D solver (r_in ru) (r_out ru) = Ok (Some (dict_of (ir_paths (r_in ru)) x, dict_of (arch_paths (r_in ru)) u)) /\
      runs C D (r_in ru) (dict_of (ir_paths (r_in ru)) x) (dict_of (arch_paths (r_in ru)) u) ov av /\ ~ agree (r_out ru) ov av).
  Proof.
    intros So. pose proof some_out as Ho. destruct (ru_paths C D cs A I ru K EA EI WF) as (f & Ef & N & Hq & Hs & Hp & Hi & _).
    unfold verify.
    assert (known (in_flat D) (ir_paths (r_in ru)) = Ok tt) as ->.
    { unfold known. match goal with |- (if ?b then _ else _) = _ => assert (b = true) as -> end; auto. apply forallb_forall. intros q X. apply Hi in X.
      unfold path_in. apply existsb_exists. exists q. split; auto. now apply path_eqb_eq. }
    assert (known (in_flat C) (arch_paths (r_in ru)) = Ok tt) as ->.
    { unfold known. match goal with |- (if ?b then _ else _) = _ => assert (b = true) as -> end; auto. apply forallb_forall. intros p X. apply arch_paths_In in X.
      destruct (Hp p) as [t It]; [apply (in_map snd) in X; exact X|]. apply (in_map fst) in It. unfold path_in. apply existsb_exists. exists p. split; auto. now apply path_eqb_eq. }
    cbn [bind].
    assert (vars_ok (fun _ => 0) (fun _ => 0)) as V0 by (split; intros p t _ It; [exact (zero_val D p t KD It)|exact (zero_val C p t K It)]).
    destruct (verify_at_ok _ _ V0) as (ov0 & av0 & _ & _ & Hb). destruct (Hb Ho) as (b & Eb & _). rewrite Eb. cbn [bind].
    destruct (solver _) as [[x u]|]; cbn [decides] in So; unfold formula in So.
    - right. destruct So as [V Ff]. destruct (verify_at_ok _ _ V) as (ov & av & Rn & _ & Hv). destruct (Hv Ho) as (b' & Eb' & Hb').
      rewrite Eb' in Ff. exists x, u, ov, av. split; auto. split; auto. split; auto. intros X. apply Hb' in X. subst b'. discriminate.
    - left. split; auto. intros x u V. destruct (verify_at_ok _ _ V) as (ov & av & Rn & _ & Hv). destruct (Hv Ho) as (b' & Eb' & Hb').
      specialize (So x u V). rewrite Eb' in So. exists ov, av. split; auto. apply Hb'. destruct b'; auto; discriminate.
  Qed.
  Lemma not_agree ov av : (forall q p, In (Some q, p) (r_out ru) -> exists a b, dget path_eqb ov q = Some a /\ dget path_eqb av p = Some b) ->
    ~ agree (r_out ru) ov av -> exists q p, In (Some q, p) (r_out ru) /\ dget path_eqb ov q <> dget path_eqb av p.
  Proof.
    unfold agree. induction (r_out ru) as [|[s p] ob IH]; intros H N; [destruct N; intros ? ? []|].
    assert ((exists q, s = Some q /\ dget path_eqb ov q <> dget path_eqb av p) \/ (forall q, s = Some q -> exists z, dget path_eqb ov q = Some z /\ dget path_eqb av p = Some z)) as [(q & -> & X)|X].
    { destruct s as [q|]; [|right; discriminate]. destruct (H q p (or_introl eq_refl)) as (a & b & Ea & Eb). destruct (Z.eq_dec a b) as [->|Ne].
      - right. intros q' [= <-]. eauto.
      - left. exists q. split; auto. rewrite Ea, Eb. congruence. }
    - exists q, p. split; auto. left; auto.
    - destruct IH as (q & p' & I0 & X'); [intros q p' I0; apply H; right; auto| |exists q, p'; split; auto; right; auto].
      intros Y. apply N. intros q p' [[= -> ->]|I0]; [apply X; auto|apply Y; auto].
  Qed.
End Apply.

(** * C88: a rule with the guarantee of the mapper, applied with [build_inputs], makes the
    two classes agree on the bound outputs for all values, and no other rule does. *)
Theorem C88_apply C D cs A I ru : class_ok C -> call_ok C -> class_ok D -> call_ok D -> adt_arch C cs = Ok A -> adt_instr D = Ok I ->
  buildable (out_ty C) -> sum_free (out_ty C) -> buildable (out_ty D) -> sum_free (out_ty D) ->
  well_formed path_eqb lty_const A I ru -> consts_ok C (r_in ru) ->
  correct lty_vals A I (adt_fs C A) ru <->
  forall xs us, args_ok C D (r_in ru) xs us -> exists ov av, runs C D (r_in ru) xs us ov av /\ agree (r_out ru) ov av.
Proof.
  intros K Ck KD CkD EA EI B S BD SD WF Cc. split.
  - intros Co xs us G. eapply apply_agree; eauto.
  - intros H. eapply (agree_correct C D cs A I ru K Ck KD CkD EA EI B S BD SD WF Cc). intros x u V. apply H. eapply vars_args; eauto.
Qed.

(** * C88: [verify]. *)
Theorem C88_verify C D cs A I ru solver : class_ok C -> call_ok C -> class_ok D -> call_ok D -> adt_arch C cs = Ok A -> adt_instr D = Ok I ->
  buildable (out_ty C) -> sum_free (out_ty C) -> buildable (out_ty D) -> sum_free (out_ty D) ->
  well_formed path_eqb lty_const A I ru -> consts_ok C (r_in ru) ->
  decides C D ru (formula C D (r_in ru) (r_out ru)) (solver (formula C D (r_in ru) (r_out ru))) ->
  (verify C D solver (r_in ru) (r_out ru) = Ok None <->
   forall xs us, args_ok C D (r_in ru) xs us -> exists ov av, runs C D (r_in ru) xs us ov av /\ agree (r_out ru) ov av) /\
  (verify C D solver (r_in ru) (r_out ru) <> Ok None -> exists xs us ov av, verify C D solver (r_in ru) (r_out ru) = Ok (Some (xs, us)) /\
    args_ok C D (r_in ru) xs us /\ runs C D (r_in ru) xs us ov av /\
    exists q p, In (Some q, p) (r_out ru) /\ dget path_eqb ov q <> dget path_eqb av p).
Proof.
  intros K Ck KD CkD EA EI B S BD SD WF Cc So.
  destruct (verify_inv C D cs A I ru K Ck KD CkD EA EI B S BD SD WF Cc solver So) as [[E H]|(x & u & ov & av & V & E & Rn & Na)].
  - split; [|congruence]. rewrite E. split; auto. intros _ xs us G.
    eapply (C88_apply C D cs A I ru); eauto. eapply (agree_correct C D cs A I ru); eauto.
  - pose proof (vars_args C D cs A I ru K EA EI WF x u V) as G. rewrite E. split.
    + split; [discriminate|]. intros H. exfalso. destruct (H _ _ G) as (ov' & av' & Rn' & Ag). destruct (runs_fun C D ru _ _ _ _ _ _ Rn Rn') as [<- <-]. auto.
    + intros _. exists (dict_of (ir_paths (r_in ru)) x), (dict_of (arch_paths (r_in ru)) u), ov, av. split; auto. split; auto. split; auto.
      apply not_agree; auto. intros q p X. destruct (run_ok C D cs A I ru K Ck KD CkD EA EI B S BD SD WF Cc _ _ G) as (ov' & av' & Rn' & Hov & Hav).
      destruct (runs_fun C D ru _ _ _ _ _ _ Rn Rn') as [<- <-]. destruct (bound_out C D cs A I ru EA EI WF q p X) as (t & I1 & I2).
      apply (in_map fst) in I1. apply (in_map fst) in I2. eexists _, _. split; [apply Hov; auto|apply Hav; auto].
Qed.

(** A rule that binds no output is never verified. *)
Theorem C88_verify_none C D solver rin ob : (forall q p, ~ In (Some q, p) ob) -> exists e, verify C D solver rin ob = Err e.
Proof.
  intros H. assert (forall x u, exists e, verify_at C D rin ob x u = Err e) as X.
  { intros x u. unfold verify_at. destruct (build_inputs _ _ _ _ _) as [[wi wa]|e]; [|exists e; reflexivity]. cbn [bind].
    destruct (parse_output D _) as [ov|e]; [|exists e; reflexivity]. cbn [bind]. destruct (parse_output C _) as [av|e]; [|exists e; reflexivity]. cbn [bind].
    assert (exists bs, mapM (compare_out C D ov av) ob = Ok bs /\ List.concat bs = []) as (bs & -> & E).
    { clear - H. induction ob as [|[[q|] p] ob IH]; [exists []; auto|destruct (H q p (or_introl eq_refl))|].
      destruct IH as (bs & E & Eb); [intros q p' X; apply (H q p'); right; auto|]. exists ([] :: bs). cbn [mapM].
      replace (compare_out C D ov av (None, p)) with (@Ok (list bool) []) by reflexivity. cbn [bind]. rewrite E. auto. }
    cbn [bind]. rewrite E. eauto. }
  unfold verify. destruct (known _ (ir_paths rin)) as [[]|e]; [|exists e; reflexivity]. cbn [bind]. destruct (known _ (arch_paths rin)) as [[]|e]; [|exists e; reflexivity]. cbn [bind].
  destruct (X (fun _ => 0) (fun _ => 0)) as [e ->]. exists e. reflexivity.
Qed.

(** A rule that binds an output to one of another sort (a Bit and a vector, or
    vectors of different widths) is never verified, whatever the solver answers. *)
Theorem C88_verify_sorts C D solver rin ob q p ms t ms' t' : class_ok C -> class_ok D -> In (Some q, p) ob ->
  In (q, (ms, t)) (out_flat D) -> In (p, (ms', t')) (out_flat C) ->
  (t = TBit /\ t' <> TBit) \/ (t <> TBit /\ t' = TBit) \/ (t <> TBit /\ t' <> TBit /\ leaf_bits t <> leaf_bits t') ->
  exists e, verify C D solver rin ob = Err e.
Proof.
  intros K KD Io I1 I2 Hs. destruct (k_out C K) as (R & GR & W & Rl). destruct (k_out D KD) as (R' & GR' & W' & Rl').
  destruct (out_flat_spec C W (k_mo C K)) as [[N _] _]. destruct (out_flat_spec D W' (k_mo D KD)) as [[N' _] _].
  assert (same_sort C D q p = false) as Ss.
  { unfold same_sort, out_sort. rewrite (dget_in (out_flat D) q _ N' I1), (dget_in (out_flat C) p _ N I2). cbn [snd].
    destruct Hs as [[-> H]|[[H ->]|(H & H' & L)]].
    - destruct t'; try reflexivity. congruence.
    - destruct t; try reflexivity. congruence.
    - assert (forall u, u <> TBit -> sort_of u = Some (leaf_bits u)) as X by (intros [] Hu; try reflexivity; congruence).
      rewrite (X t H), (X t' H'). cbn [sort_eqb]. now apply Z.eqb_neq. }
  unfold verify. destruct (known _ (ir_paths rin)) as [[]|e]; [|exists e; reflexivity]. cbn [bind]. destruct (known _ (arch_paths rin)) as [[]|e]; [|exists e; reflexivity]. cbn [bind].
  unfold verify_at. destruct (build_inputs _ _ _ _ _) as [[wi wa]|e]; [|exists e; reflexivity]. cbn [bind].
  destruct (parse_output D _) as [ov|e]; [|exists e; reflexivity]. cbn [bind]. destruct (parse_output C _) as [av|e]; [|exists e; reflexivity]. cbn [bind].
  destruct (mapM (compare_out C D ov av) ob) as [bs|e] eqn:E; [|exists e; reflexivity]. exfalso.
  destruct (mapM_each _ _ _ E _ Io) as (y & Ey). unfold compare_out in Ey. cbn [fst snd] in Ey. rewrite Ss in Ey.
  destruct (dget path_eqb ov q), (dget path_eqb av p); discriminate.
Qed.

(** A solver: all values of the variables in turn. *)
Fixpoint assigns (vs : list (path * list Z)) : list (path -> Z) :=
  match vs with
  | [] => [fun _ => 0]
  | (p, zs) :: r => flat_map (fun g => map (fun z q => if path_eqb q p then z else g q) zs) (assigns r)
  end.
Definition dom_of (flat : list (path * lty)) (p : path) : path * list Z :=
  (p, match dget path_eqb flat p with Some t => lty_vals t | None => [0] end).
Definition brute (C D : pclass) (rin : list entry) (f : (path -> Z) -> (path -> Z) -> bool) : option ((path -> Z) * (path -> Z)) :=
  find (fun a => f (fst a) (snd a)) (list_prod (assigns (map (dom_of (in_flat D)) (ir_paths rin))) (assigns (map (dom_of (in_flat C)) (arch_paths rin)))).

Lemma assigns_spec vs : (forall g, In g (assigns vs) -> forall p, In p (map fst vs) -> exists zs, In (p, zs) vs /\ In (g p) zs) /\
  forall x, (forall p zs, In (p, zs) vs -> In (x p) zs) -> exists g, In g (assigns vs) /\ forall p, In p (map fst vs) -> g p = x p.
Proof.
  induction vs as [|[p zs] vs [IH1 IH2]]; cbn [assigns map fst].
  - split; [intros g _ p []|]. intros x _. exists (fun _ => 0). split; [left; auto|intros p []].
  - split.
    + intros g I q Iq. apply in_flat_map in I as (g0 & I0 & I). apply in_map_iff in I as (z & <- & Iz). destruct (path_eqb q p) eqn:E.
      * apply path_eqb_eq in E. subst q. exists zs. split; auto. left; auto.
      * destruct Iq as [->|Iq]; [now rewrite (proj2 (path_eqb_eq q q) eq_refl) in E|]. destruct (IH1 g0 I0 q Iq) as (zs' & I1 & I2). exists zs'. split; auto. right; auto.
    + intros x H. destruct (IH2 x) as (g0 & I0 & E0); [intros q zs' I; apply H; right; auto|].
      exists (fun q => if path_eqb q p then x p else g0 q). split.
      * apply in_flat_map. exists g0. split; auto. apply in_map_iff. exists (x p). split; auto. apply H. left; auto.
      * intros q Iq. destruct (path_eqb q p) eqn:E; [apply path_eqb_eq in E; now subst|]. apply E0. destruct Iq as [->|Iq]; auto.
        now rewrite (proj2 (path_eqb_eq q q) eq_refl) in E.
Qed.

(** The hypothesis of [C88_verify] about the solver can be met, for every rule. *)
Theorem C88_solver C D cs A I ru : class_ok C -> class_ok D -> adt_arch C cs = Ok A -> adt_instr D = Ok I -> well_formed path_eqb lty_const A I ru ->
  decides C D ru (formula C D (r_in ru) (r_out ru)) (brute C D (r_in ru) (formula C D (r_in ru) (r_out ru))).
Proof.
  intros K KD EA EI WF. destruct (ru_paths C D cs A I ru K EA EI WF) as (f & Ef & N & Hq & Hs & Hp & Hi & _).
  destruct (k_in C K) as (R & GR & W & Rl). destruct (k_in D KD) as (R' & GR' & W' & Rl').
  destruct (in_flat_spec C W (k_mi C K)) as [[NC _] _]. destruct (in_flat_spec D W' (k_mi D KD)) as [[ND _] _].
  assert (forall flat ps, map fst (map (dom_of flat) ps) = ps) as Mf by (intros flat ps; rewrite map_map; apply map_id).
  destruct (assigns_spec (map (dom_of (in_flat D)) (ir_paths (r_in ru)))) as [X1 X2]. destruct (assigns_spec (map (dom_of (in_flat C)) (arch_paths (r_in ru)))) as [U1 U2].
  rewrite !Mf in *. unfold decides, brute. destruct (find _ _) as [[x u]|] eqn:F.
  - apply find_some in F as [Ia Fa]. apply in_prod_iff in Ia as [Ix Iu]. cbn [fst snd] in Fa. split; auto. split.
    + intros q t Iq It. destruct (X1 x Ix q Iq) as (zs & Iz & Ixz). apply in_map_iff in Iz as (q' & Eq & _). unfold dom_of in Eq. injection Eq as -> <-.
      now rewrite (dget_in (in_flat D) q t ND It) in Ixz.
    + intros p t Iq It. destruct (U1 u Iu p Iq) as (zs & Iz & Ixz). apply in_map_iff in Iz as (q' & Eq & _). unfold dom_of in Eq. injection Eq as -> <-.
      now rewrite (dget_in (in_flat C) p t NC It) in Ixz.
  - intros x u [Vx Vu].
    destruct (X2 x) as (x' & Ix & Ex).
    { intros q zs Iz. apply in_map_iff in Iz as (q' & Eq & Iq). unfold dom_of in Eq. injection Eq as -> <-.
      pose proof Iq as Iq2. apply Hi in Iq2. apply in_map_iff in Iq2 as ([q' t] & Eq & It). cbn [fst] in Eq. subst q'. rewrite (dget_in (in_flat D) q t ND It). auto. }
    destruct (U2 u) as (u' & Iu & Eu).
    { intros p zs Iz. apply in_map_iff in Iz as (p' & Eq & Ip). unfold dom_of in Eq. injection Eq as -> <-.
      destruct (Hp p) as [t It]; [apply arch_paths_In in Ip; apply (in_map snd) in Ip; exact Ip|]. rewrite (dget_in (in_flat C) p t NC It). auto. }
    assert (formula C D (r_in ru) (r_out ru) x u = formula C D (r_in ru) (r_out ru) x' u') as ->.
    { unfold formula, verify_at, dict_of.
      rewrite (map_ext_in (fun p => (p, x p)) (fun p => (p, x' p))) by (intros q Iq; now rewrite (Ex q Iq)).
      rewrite (map_ext_in (fun p => (p, u p)) (fun p => (p, u' p))) by (intros q Iq; now rewrite (Eu q Iq)). reflexivity. }
    exact (find_none _ _ F (x', u') (proj2 (in_prod_iff _ _ x' u') (conj Ix Iu))).
Qed.

(** * Making the rule found *)
Lemma form_var C tags l fo vm z g q x : class_ok C -> buildable (in_ty C) -> in_forms C tags l = Ok (fo, vm, z) -> In g fo -> In (q, x) (f_vars g) ->
  (forall t, In (q, t) (in_flat C) -> In (l q) (lty_vals t)) -> x = l q.
Proof.
  intros K B E Ig I Rg. destruct (k_in C K) as (R & GR & W & Rl). pose proof (forms_inv R GR C W Rl B _ _ _ _ _ E) as IV.
  pose proof (i_vars _ _ _ _ _ _ _ _ _ _ IV g (q, x) Ig I) as Iv.
  destruct (i_fresh _ _ _ _ _ _ _ _ _ _ IV eq_refl q x Iv) as (r & t & w & -> & St & Sw & ->). cbn [List.app] in *.
  assert (In r (map fst (m_leaf vm))) as Ir by (apply (in_map fst) in Iv; exact Iv).
  apply (proj2 (i_leafs _ _ _ _ _ _ _ _ _ _ IV)) in Ir as (r' & t' & Er & St' & L'). cbn [List.app] in Er. subst r'.
  rewrite <- (sub_ty_fun _ _ _ St W _ St') in L'.
  destruct (in_flat_spec C W (k_mi C K)) as [[_ Kd] Sp]. assert (In r (map fst (in_flat C))) as If by (apply Kd; exists r, t; auto).
  apply in_map_iff in If as ([r' [ms u]] & Eq & If). cbn [fst] in Eq. subst r'. destruct (Sp _ _ _ If) as [Su _].
  pose proof (sub_ty_fun _ _ _ St W _ Su). subst u. eapply leaf_word; eauto.
Qed.

(** The leaf words in valid Const fields are valid. *)
Lemma const_leaf_valid C cs A h fi f l : class_ok C -> Forall wf_ty (in_ty C :: h) -> built h (in_ty C) (c_ia C) -> same_width (in_ty C :: h) ->
  (forall k m, In (k, m) (c_in C) -> const_field m = true -> no_multi_range (strip m)) ->
  adt_arch C cs = Ok A -> nth_error (a_forms A) fi = Some f -> typed lty_vals (in_flat C) l -> adt_fv C A fi l = true ->
  forall k m r t, In (k, m) (c_in C) -> const_field m = true -> In (k :: r) (fst f) -> In (k :: r, t) (in_flat C) ->
  exists a, asm_at (c_ia C) (k :: r) = Some a /\ a_isv a (l (k :: r)) = true.
Proof.
  intros K Wh Bh SW NM EA Ef Ty Fv k m r [ms t] Ik Ec Ir It. pose proof (built_rel h _ _ Wh Bh) as Rl. pose proof (reqs_good _ Wh) as GR.
  assert (wf_ty (in_ty C)) as W by (inversion Wh; auto). pose proof (arch_buildable C cs A K EA) as B.
  destruct (C86_valid C cs A h K Wh Bh SW NM EA fi l) as (ws & Ews & Hv). pose proof (proj1 Hv Fv) as Fw. clear Hv Fv.
  destruct (form_at _ GR C W Rl B cs A EA fi f (own A fi) l Ef) as (fo & vm & z & g & Ew & Eg & V & Dd & Efw & _). rewrite Efw in Ews.
  destruct (in_fields _ GR C W Rl B (own A fi) l fo vm z fi g Ew Eg) as (rs & gs & Lp & _ & Fl & G & Ed & Ev & Get).
  apply In_nth_error in Ik as [i Ei]. assert (nth_error (strip_fields (c_in C)) i = Some (k, strip m)) as Es by (unfold strip_fields; rewrite nth_error_map, Ei; reflexivity).
  destruct (F2_nth _ _ _ Lp i _ Es) as (q & Eq & fa & Em & Wd & Rn). cbn [fst snd] in *. destruct (F2_nth' _ _ _ Fl i q Eq) as (gk & Egk & Igk).
  assert (nth_error ws i = Some (f_val gk)) as Ewi.
  { unfold in_words, words_of in Ews. apply mapM_F2 in Ews. destruct (F2_nth _ _ _ Ews i k) as (w & Ewi & Gw); [rewrite nth_error_map, Ei; reflexivity|].
    rewrite (Get i k _ gk Es Egk) in Gw. cbn [bind fst] in Gw. congruence. }
  destruct (Fw i k m (f_val gk) Ei Ec Ewi) as (v & Hv & En).
  pose proof (nth_error_In _ _ Es) as Ist. destruct (prod_member _ "Input" _ (c_ia C) k (strip m) W Rl Ist) as (fa' & lo & Em' & Af & _). assert (fa' = fa) by congruence. subst fa'.
  assert (wf_ty (strip m)) as Wt by (eapply wf_members_prod; eauto).
  assert (buildable (strip m)) as Bt by (inversion B as [? Lf|? ? _ _ BF|]; subst; [destruct Lf|eapply BF; eauto]).
  assert (NoDup (map fst (strip_fields (c_in C)))) as ND by (inversion W; auto).
  rewrite V in Ir. apply in_map_iff in Ir as ([r0 x] & Er & Ir). cbn [fst] in Er. subst r0.
  assert (x = l (k :: r)) as -> by (apply (form_var C (own A fi) l fo vm z g (k :: r) x K B Ew (nth_error_In _ _ Eg) Ir); intros t0 It0; apply Ty; exact It0).
  apply (part_vars [] (strip_fields (c_in C)) ND gs g G Ev i k (strip m) gk Es Egk r) in Ir.
  unfold encodes in En. cbn [List.app] in Ir, Rn. destruct (enc_form _ (fun _ => True) l (own A fi) (strip m) GR fa [k] _ _ _ gk v Wt Bt Af Rn Igk) with (r := r) (x := l (k :: r)) as (t' & v' & Sv & L & E'); auto.
  { intros r0 k0 gg c fs Id S. cbn [List.app] in *. apply (part_dict [] (strip_fields (c_in C)) ND gs g G Ed i k (strip m) gk Es Egk r0 k0) in Id. cbn [List.app] in Id.
    assert (sub_ty (in_ty C) (k :: r0) (TSum gg c fs)) as St by (unfold in_ty; econstructor; eauto).
    destruct (dict_sum _ GR C W Rl B _ _ _ _ _ _ _ _ _ _ _ Ew (nth_error_In _ _ Eg) Id St) as [u Iu].
    rewrite (own_dict _ GR C W Rl B cs A EA fi f (k :: r0) (tag_at C (k :: r0) k0) Ef).
    + apply (tag_at_rank _ GR C W Rl (k :: r0) gg c fs k0 u St Iu).
    + rewrite Dd. apply in_map_iff. exists (k :: r0, k0). auto. }
  destruct (in_flat_spec C W (k_mi C K)) as [_ Sp]. destruct (Sp _ _ _ It) as [St _].
  assert (sub_ty (in_ty C) (k :: r) t') as St' by (unfold in_ty; econstructor; [exact Ist|eapply sub_val_ty; eauto]).
  pose proof (sub_ty_fun _ _ _ St W _ St'). subst t'. destruct (asm_at_spec _ _ _ _ _ St W Rl) as (a & Ea & Aa & Wl).
  exists a. split; auto. apply (dis_spec _ GR _ (acc_reqs _ (same_width_zero _ SW)) t Wl a _ v' Aa E').
Qed.

(** Every constant at an Enum leaf is in a Const field. *)
Definition enums_in_const (C : pclass) (rin : list entry) : Prop :=
  forall z p ms c es, In (SVal z, p) rin -> In (p, (ms, TEnum c es)) (in_flat C) ->
    exists k m r, p = k :: r /\ In (k, m) (c_in C) /\ const_field m = true.

(** [RewriteRule] accepts a rule with valid constants and keeps its binding. *)
Theorem C88_rule C D cs A I ru h : class_ok C -> Forall wf_ty (in_ty C :: h) -> built h (in_ty C) (c_ia C) -> same_width (in_ty C :: h) ->
  (forall k m, In (k, m) (c_in C) -> const_field m = true -> no_multi_range (strip m)) ->
  adt_arch C cs = Ok A -> adt_instr D = Ok I -> well_formed path_eqb lty_const A I ru -> valid_consts lty_vals A (adt_fv C A) ru ->
  enums_in_const C (r_in ru) -> new_rule C (r_in ru) = Ok (r_in ru).
Proof.
  intros K Wh Bh SW NM EA EI WF (l & Ty & Hl & Fv) En. destruct (ru_paths C D cs A I ru K EA EI WF) as (f & Ef & N & Hq & Hs & Hp & Hi & _).
  destruct (k_in C K) as (R & GR & W & Rl). destruct (in_flat_spec C W (k_mi C K)) as [[NC _] _].
  destruct (arch_inv C cs A EA) as (_ & _ & _ & _ & _ & _ & Ein & _). rewrite Ein in Ty.
  assert (forall e, In e (r_in ru) -> new_entry C e = Ok e) as X.
  { intros [s p] Ie. unfold new_entry. cbn [fst snd]. destruct s as [q|z|]; [reflexivity| |].
    - destruct (Hp p) as [[ms t] It]; [apply (in_map snd) in Ie; exact Ie|]. unfold dgetE. rewrite (dget_in (in_flat C) p (ms, t) NC It). cbn [bind snd].
      destruct t as [| | |c es| |]; try reflexivity. destruct (En z p ms c es Ie It) as (k & m & r & -> & Ik & Ec).
      destruct (const_leaf_valid C cs A h (r_form ru) f l K Wh Bh SW NM EA Ef Ty Fv k m r (ms, TEnum c es) Ik Ec) as (a & Ea & Va); auto.
      { apply Hq. apply (in_map snd) in Ie. exact Ie. }
      rewrite Ea, <- (Hl z (k :: r) Ie), Va. reflexivity.
    - destruct (Hp p) as [t It]; [apply (in_map snd) in Ie; exact Ie|]. unfold dgetE. rewrite (dget_in (in_flat C) p t NC It). reflexivity. }
  unfold new_rule. clear - X. induction (r_in ru) as [|e l IH]; cbn [mapM]; [reflexivity|].
  rewrite (X e (or_introl eq_refl)). cbn [bind]. rewrite IH by (intros e' I'; apply X; right; auto). reflexivity.
Qed.

Lemma valid_ok C cs A ru fv : adt_arch C cs = Ok A -> valid_consts lty_vals A fv ru -> consts_ok C (r_in ru).
Proof.
  intros EA (l & Ty & Hl & _) z p t Ie It. destruct (arch_inv C cs A EA) as (_ & _ & _ & _ & _ & _ & Ein & _). rewrite Ein in Ty.
  rewrite <- (Hl z p Ie). apply Ty. exact It.
Qed.

(** [ru] is made of a model of the formula that the solver is given. *)
Definition mapped (k : ivar) (C : pclass) (A : arch path lty) (I : MapModel.instr path lty) (ru : rule path) : Prop :=
  exists y phi vs r, build_expanded path_eqb lty_eqb lty_const k A I = Ok (BForm y phi) /\
    sorted (dom path_eqb lty_eqb lty_vals (tag_vals C) k A I) r /\ solves (dom path_eqb lty_eqb lty_vals (tag_vals C) k A I) y (mkform vs phi) r /\
    lucky path_eqb lty_const A r /\ rr_from_solver path_eqb lty_eqb lty_const k A I r = Ok ru.

Definition C88_full : Prop :=
  forall k C D cs A I ru h, class_ok C -> call_ok C -> class_ok D -> call_ok D -> adt_arch C cs = Ok A -> adt_instr D = Ok I -> NoDup (map fst cs) ->
  buildable (out_ty C) -> sum_free (out_ty C) -> buildable (out_ty D) -> sum_free (out_ty D) ->
  Forall wf_ty (in_ty C :: h) -> built h (in_ty C) (c_ia C) -> same_width (in_ty C :: h) ->
  (forall k m, In (k, m) (c_in C) -> const_field m = true -> no_multi_range (strip m)) ->
  mapped k C A I ru ->
  new_rule C (r_in ru) = Ok (r_in ru) /\
  forall solver, decides C D ru (formula C D (r_in ru) (r_out ru)) (solver (formula C D (r_in ru) (r_out ru))) ->
    verify C D solver (r_in ru) (r_out ru) = Ok None.

Lemma mapped_ok k C D cs A I ru : class_ok C -> class_ok D -> adt_arch C cs = Ok A -> adt_instr D = Ok I -> NoDup (map fst cs) -> mapped k C A I ru ->
  well_formed path_eqb lty_const A I ru /\ valid_consts lty_vals A (adt_fv C A) ru /\ correct lty_vals A I (adt_fs C A) ru.
Proof.
  intros K KD EA EI N (y & phi & vs & r & E & S & So & L & Er). destruct (C86_arch C cs A K EA N) as [Ok_ _].
  destruct (C38_expanded_partial _ _ path_eqb lty_eqb lty_const eqs_lty lty_vals (tag_vals C) k A I (adt_fs C A) (adt_fv C A) Ok_ (C86_instr D I KD EI) y phi vs r E S So L)
    as (ru' & Er' & WF & V & Co).
  assert (ru' = ru) by congruence. subst ru'. auto.
Qed.
Lemma mapped_vals k C A I ru z p : mapped k C A I ru -> In (SVal z, p) (r_in ru) -> is_const path_eqb lty_const A p = true \/ In p (map fst (a_constr A)).
Proof.
  intros (y & phi & vs & r & _ & _ & _ & _ & E) Ie. unfold rr_from_solver in E.
  repeat (match type of E with bind ?x _ = _ => destruct x; [cbn [bind] in E|discriminate E] end). injection E as <-. cbn [r_in] in Ie.
  apply in_map_iff in Ie as ([s q] & Eq & _). cbn [fst snd] in Eq. injection Eq as Es ->. destruct s as [q|]; [discriminate|].
  destruct (is_const _ _ A p); [left; reflexivity|]. cbn [orb] in Es. destruct (is_constrained path_eqb A p) eqn:Ec; [|discriminate]. right.
  unfold is_constrained in Ec. destruct (dget path_eqb (a_constr A) p) as [zs|] eqn:Eg; [|discriminate]. apply dget_keys in Eg. exact Eg.
Qed.

(** A rule found by the mapper is accepted, applies to all values of the inputs and is
    verified. Missing for C88: Enum leaves that are Const or constrained outside the
    fields that are Const as a whole. *)
Theorem C88_found_partial k C D cs A I ru h : class_ok C -> call_ok C -> class_ok D -> call_ok D -> adt_arch C cs = Ok A -> adt_instr D = Ok I -> NoDup (map fst cs) ->
  buildable (out_ty C) -> sum_free (out_ty C) -> buildable (out_ty D) -> sum_free (out_ty D) ->
  Forall wf_ty (in_ty C :: h) -> built h (in_ty C) (c_ia C) -> same_width (in_ty C :: h) ->
  (forall k m, In (k, m) (c_in C) -> const_field m = true -> no_multi_range (strip m)) ->
  (forall p ms c es, In (p, (ms, TEnum c es)) (in_flat C) -> lty_const (ms, TEnum c es) = true \/ In p (map fst cs) ->
     exists k m r, p = k :: r /\ In (k, m) (c_in C) /\ const_field m = true) ->
  mapped k C A I ru ->
  new_rule C (r_in ru) = Ok (r_in ru) /\
  (forall solver, decides C D ru (formula C D (r_in ru) (r_out ru)) (solver (formula C D (r_in ru) (r_out ru))) ->
     verify C D solver (r_in ru) (r_out ru) = Ok None) /\
  forall xs us, args_ok C D (r_in ru) xs us -> exists ov av, runs C D (r_in ru) xs us ov av /\ agree (r_out ru) ov av.
Proof.
  intros K Ck KD CkD EA EI N B S BD SD Wh Bh SW NM Hc M. destruct (mapped_ok k C D cs A I ru K KD EA EI N M) as (WF & V & Co).
  pose proof (valid_ok C cs A ru _ EA V) as Cc. pose proof (proj1 (C88_apply C D cs A I ru K Ck KD CkD EA EI B S BD SD WF Cc) Co) as Ap.
  split; [|split; [|exact Ap]].
  - apply (C88_rule C D cs A I ru h); auto. intros z p ms c es Ie It. apply (Hc p ms c es It).
    destruct (mapped_vals k C A I ru z p M Ie) as [X|X].
    + left. unfold is_const in X. destruct (arch_inv C cs A EA) as (_ & _ & _ & _ & _ & _ & Ein & _). rewrite Ein in X.
      destruct (k_in C K) as (R & GR & W & Rl). destruct (in_flat_spec C W (k_mi C K)) as [[NC _] _]. rewrite (dget_in (in_flat C) p _ NC It) in X. exact X.
    + right. destruct (arch_inv C cs A EA) as (_ & _ & _ & _ & _ & _ & _ & _ & Ecs & _). now rewrite Ecs in X.
  - intros solver So. apply (C88_verify C D cs A I ru solver K Ck KD CkD EA EI B S BD SD WF Cc So). exact Ap.
Qed.

(** * Cases *)
(** The sum of two words on the PE of [AdtArchProps.Case], as a rule. *)
Definition add_rule (nest : bool) : rule path :=
  {| r_form := 1%nat; r_in := [(SVal 1, Case.p_op); (SVal 0, Case.p_imm); (SPath [ky "p"], Case.p_x); (SPath [ky "q"], Case.p_y)];
     r_out := if nest then [(Some [ky "r"], Case.p_out nest); (None, [ky "res"; ky "low"])] else [(Some [ky "r"], Case.p_out nest)] |}.
Lemma bin_in_of f : i_in (Case.I_of (Case.bin f)) = [([ky "p"], ([], TBV 2)); ([ky "q"], ([], TBV 2))].
Proof. vm_compute. reflexivity. Qed.
Lemma bin_out_of f : i_out (Case.I_of (Case.bin f)) = [([ky "r"], ([], TBV 2))].
Proof. vm_compute. reflexivity. Qed.

(** It meets the hypotheses of [C88_apply], [C88_verify] and [C88_rule], whatever the
    instruction computes. *)
Example C88_case_rule nest f : well_formed path_eqb lty_const (Case.A_of (Case.pe nest) []) (Case.I_of (Case.bin f)) (add_rule nest) /\
  consts_ok (Case.pe nest) (r_in (add_rule nest)) /\
  valid_consts lty_vals (Case.A_of (Case.pe nest) []) (adt_fv (Case.pe nest) (Case.A_of (Case.pe nest) [])) (add_rule nest) /\
  enums_in_const (Case.pe nest) (r_in (add_rule nest)) /\ leaf_rule (Case.pe nest) (Case.bin f) (r_in (add_rule nest)).
Proof.
  destruct (arch_inv _ _ _ (Case.pe_arch nest)) as (_ & _ & _ & _ & _ & _ & Ein & _). pose proof (Case.pe_a_in nest) as Pin. rewrite Ein in Pin.
  assert (in_flat (Case.bin f) = [([ky "p"], ([], TBV 2)); ([ky "q"], ([], TBV 2))]) as Bin by (vm_compute; reflexivity).
  split; [|split; [|split; [|split]]].
  - exists ([Case.p_op; Case.p_imm; Case.p_x; Case.p_y], [([ky "data"], 1)]). split; [rewrite Case.pe_forms; reflexivity|]. rewrite bin_in_of, bin_out_of, Case.pe_a_in, Case.pe_a_out, Case.pe_a_constr.
    split; [|split; [|split]].
    + split; [vm_compute; apply Permutation_refl|]. split.
      * intros p a [X|[X|[X|[X|[]]]]]; try discriminate X; injection X as <- <-; (eexists; split; [vm_compute; eauto|vm_compute; tauto]).
      * intros p t [X|[X|[]]]; injection X as <- <-; vm_compute; reflexivity.
    + split; [destruct nest; vm_compute; apply Permutation_refl|]. split.
      * intros p a X. exists ([], TBV 2). destruct nest; cbn [add_rule r_out In] in X; repeat (destruct X as [X|X]; [try discriminate X; injection X as <- <-; vm_compute; auto|]); destruct X.
      * intros p t [X|[]]. injection X as <- <-. destruct nest; vm_compute; reflexivity.
    + intros s p _ [].
    + intros s p t [X|[X|[X|[X|[]]]]] _ _; injection X as <- <-; discriminate.
  - intros z p t X. rewrite Pin. intros It. destruct X as [X|[X|[X|[X|[]]]]]; try discriminate X; injection X as <- <-;
      repeat (destruct It as [It|It]; [try discriminate It; injection It as <-; vm_compute; auto|]); destruct It.
  - exists (Case.at_ [(Case.p_op, 1)]). split.
    + intros p t. rewrite Case.pe_a_in. intros H. repeat (destruct H as [H|H]; [injection H as <- <-; vm_compute; auto|]). destruct H.
    + split; [|destruct nest; vm_compute; reflexivity]. intros z p [X|[X|[X|[X|[]]]]]; try discriminate X; injection X as <- <-; reflexivity.
  - intros z p ms c es X It. exists (ky "inst"), Case.inst_t. destruct X as [X|[X|[X|[X|[]]]]]; try discriminate X; injection X as <- <-;
      eexists; (split; [reflexivity|split; [left; reflexivity|reflexivity]]).
  - split.
    + intros s p X. rewrite Pin. destruct X as [X|[X|[X|[X|[]]]]]; injection X as <- <-; eexists; cbn [In]; tauto.
    + intros q p X. rewrite Pin, Bin. exists ([], TBV 2), ([], TBV 2). destruct X as [X|[X|[X|[X|[]]]]]; try discriminate X; injection X as <- <-; cbn [In]; tauto.
Qed.

(** It is accepted; with words 3 and 2 it builds the words of the two classes; it is
    verified for the sum, and for the product there is a counterexample. *)
Example C88_case_run nest :
  new_rule (Case.pe nest) (r_in (add_rule nest)) = Ok (r_in (add_rule nest)) /\
  build_inputs (Case.pe nest) (Case.bin Z.add) (r_in (add_rule nest)) [([ky "p"], 3); ([ky "q"], 2)] [] = Ok ([3; 2], [1; 1 + 2 * 3 + 8 * 2]) /\
  verify (Case.pe nest) (Case.bin Z.add) (brute (Case.pe nest) (Case.bin Z.add) (r_in (add_rule nest))) (r_in (add_rule nest)) (r_out (add_rule nest)) = Ok None /\
  verify (Case.pe nest) (Case.bin Z.mul) (brute (Case.pe nest) (Case.bin Z.mul) (r_in (add_rule nest))) (r_in (add_rule nest)) (r_out (add_rule nest)) =
    Ok (Some ([([ky "p"], 1); ([ky "q"], 0)], [])).
Proof. destruct nest; repeat split; vm_compute; reflexivity. Qed.

(** The opcode 3 is rejected; an input taken twice does not build; neither does a
    rule with a leaf left out; a wrong key is a ValueError. *)
Definition twice : list entry := [(SVal 1, Case.p_op); (SVal 0, Case.p_imm); (SPath [ky "p"], Case.p_x); (SPath [ky "p"], Case.p_y)].
Definition short : list entry := [(SVal 1, Case.p_op); (SVal 0, Case.p_imm); (SPath [ky "p"], Case.p_x)].
Example C88_case_errors nest :
  new_rule (Case.pe nest) [(SVal 3, Case.p_op)] = Err ValueError /\
  build_inputs (Case.pe nest) (Case.una Z.abs) twice [([ky "p"], 3)] [] = Err AssertionError /\
  build_inputs (Case.pe nest) (Case.una Z.abs) short [([ky "p"], 3)] [] = Err AssertionError /\
  build_inputs (Case.pe nest) (Case.bin Z.add) (r_in (add_rule nest)) [([ky "p"], 3)] [] = Err ValueError.
Proof. destruct nest; repeat split; vm_compute; reflexivity. Qed.

(** The mapper finds rules for the sum; those meet the hypotheses of
    [C88_found_partial]. *)
Example C88_case_found nest k : exists ru, mapped k (Case.pe nest) (Case.A_of (Case.pe nest) []) (Case.I_of (Case.bin Z.add)) ru.
Proof.
  destruct (C86_case_found nest k _ _ _ (Case.pe_arch nest) (Case.bin_instr Z.add) (Case.bin_instr Z.mul)) as [(y & phi & r & E & S & So) _].
  destruct (C86_arch _ _ _ (Case.pe_class nest) (Case.pe_arch nest) (NoDup_nil _)) as [Ok_ _].
  assert (lucky path_eqb lty_const (Case.A_of (Case.pe nest) []) r) as L by (intros p zs; rewrite Case.pe_a_constr; intros []).
  destruct (C38_expanded_partial _ _ path_eqb lty_eqb lty_const eqs_lty lty_vals (tag_vals (Case.pe nest)) k _ _ _ _ Ok_ (C86_instr _ _ (Case.bin_class Z.add) (Case.bin_instr Z.add)) y phi [] r E S (So []) L)
    as (ru & Er & _). exists ru, y, phi, [], r. auto.
Qed.
Example C88_case_enums nest p ms c es : In (p, (ms, TEnum c es)) (in_flat (Case.pe nest)) -> lty_const (ms, TEnum c es) = true \/ In p (map fst (@nil (path * list Z))) ->
  exists k m r, p = k :: r /\ In (k, m) (c_in (Case.pe nest)) /\ const_field m = true.
Proof.
  destruct (arch_inv _ _ _ (Case.pe_arch nest)) as (_ & _ & _ & _ & _ & _ & Ein & _). pose proof (Case.pe_a_in nest) as Pin. rewrite Ein in Pin. rewrite Pin.
  intros X _. exists (ky "inst"), Case.inst_t. destruct X as [X|[X|[X|[X|[X|[]]]]]]; try discriminate X. injection X as <- _ _ _.
  eexists. split; [reflexivity|]. split; [left; reflexivity|reflexivity].
Qed.

(** ** The full statement is false *)
(** A Const opcode, whose only value is 1, next to a word in a field that is not
    Const. The word is returned if the opcode is 0. *)
Module Bad.
Definition b_in : list (key * mty) :=
  [(ky "c", MMod "Const" (MLeaf (TBV 1))); (ky "d", MProd "Data" [(ky "op", MMod "Const" (MLeaf (TEnum "Op" [EInt 1]))); (ky "x", MLeaf (TBV 1))])].
Definition b_out : list (key * mty) := [(ky "out", MLeaf (TBV 1))].
Definition mach : pclass := Case.mk b_in b_out (fun ws => [match ws with [_; d] => if Z.odd d then 0 else (d / 2) mod 2 | _ => 0 end]).
Definition wire : pclass := Case.mk [(ky "p", MLeaf (TBV 1))] [(ky "r", MLeaf (TBV 1))] (fun ws => [match ws with [p] => p mod 2 | _ => 0 end]).
Ltac class := apply Case.class_ok_b; [apply wf_b_spec; vm_compute; reflexivity|apply wf_b_spec; vm_compute; reflexivity|reflexivity|reflexivity|
  do 2 eexists; vm_compute; reflexivity|do 2 eexists; vm_compute; reflexivity|repeat constructor|repeat constructor].
Lemma mach_class : class_ok mach. Proof. class. Qed.
Lemma wire_class : class_ok wire. Proof. class. Qed.
Lemma bit_ok z : 0 <= z mod 2 < 2 ^ 1. Proof. change (2 ^ 1) with 2. apply Z.mod_pos_bound. reflexivity. Qed.
Lemma mach_call : call_ok mach.
Proof.
  intros ws _. constructor; [|constructor]. exists 1. split; [constructor|].
  destruct ws as [|c [|d [|]]]; try (change (2 ^ 1) with 2; lia). destruct (Z.odd d); [change (2 ^ 1) with 2; lia|apply bit_ok].
Qed.
Lemma wire_call : call_ok wire.
Proof. intros ws _. constructor; [|constructor]. exists 1. split; [constructor|]. destruct ws as [|p [|]]; try (change (2 ^ 1) with 2; lia). apply bit_ok. Qed.
Definition p_c : path := [ky "c"].
Definition p_op : path := [ky "d"; ky "op"].
Definition p_x : path := [ky "d"; ky "x"].
Definition A := Case.A_of mach [].
Definition I := Case.I_of wire.
Lemma EA : adt_arch mach [] = Ok A. Proof. apply Case.A_of_ok. vm_compute. reflexivity. Qed.
Lemma EI : adt_instr wire = Ok I. Proof. apply Case.I_of_ok. vm_compute. reflexivity. Qed.
Lemma a_in_ : a_in A = [(p_c, (["Const"], TBV 1)); (p_op, (["Const"], TEnum "Op" [EInt 1])); (p_x, ([], TBV 1))]. Proof. vm_compute. reflexivity. Qed.
Lemma a_out_ : a_out A = [([ky "out"], ([], TBV 1))]. Proof. vm_compute. reflexivity. Qed.
Lemma a_constr_ : a_constr A = []. Proof. vm_compute. reflexivity. Qed.
Lemma a_forms_ : a_forms A = [([p_c; p_op; p_x], [])]. Proof. vm_compute. reflexivity. Qed.
Lemma i_in_ : i_in I = [([ky "p"], ([], TBV 1))]. Proof. vm_compute. reflexivity. Qed.
Lemma i_out_ : i_out I = [([ky "r"], ([], TBV 1))]. Proof. vm_compute. reflexivity. Qed.
Lemma two ms z : In z (lty_vals (ms, TBV 1)) -> z = 0 \/ z = 1.
Proof. intros H. vm_compute in H. intuition. Qed.

Lemma found : direct path_eqb lty_const lty_vals A I (adt_fs mach A) (adt_fv mach A).
Proof.
  destruct (C86_arch _ _ _ mach_class EA (NoDup_nil _)) as [Ok_ _]. pose proof (C86_instr _ _ wire_class EI) as OkI.
  exists 0%nat, ([p_c; p_op; p_x], []), (fun _ => 0), (fun _ => p_x), (fun _ => [ky "out"]).
  split; [rewrite a_forms_; reflexivity|].
  split. { intros p t. rewrite a_in_. intros H. repeat (destruct H as [H|H]; [injection H as <- <-; vm_compute; auto|]). destruct H. }
  split; [vm_compute; reflexivity|]. split; [rewrite a_constr_; intros p zs []|].
  split. { intros q t. rewrite i_in_, a_in_, a_constr_. intros [H|[]]; injection H as <- <-; (split; [|split; [|intros []]]); vm_compute; tauto. }
  split. { intros q t q' t'. rewrite i_in_. intros [H|[]] [H'|[]]; injection H as <- <-; injection H' as <- <-; reflexivity. }
  split. { intros q t. rewrite i_out_, a_out_. intros [H|[]]; injection H as <- <-. left; reflexivity. }
  split. { intros q t q' t'. rewrite i_out_. intros [H|[]] [H'|[]]; injection H as <- <-; injection H' as <- <-; reflexivity. }
  intros q t. rewrite i_out_. intros [H|[]] l Ty Cn _; injection H as <- <-.
  assert (forall p t, In (p, t) (a_in A) -> In p [p_c; p_op; p_x] -> lty_const t = true -> l p = 0) as Cz.
  { intros p t It Ip Ec. apply (Cn p t It Ip Ec). intros q' t''. rewrite i_in_. intros [H|[]]; injection H as <- <-. intros <-.
    rewrite a_in_ in It. destruct It as [X|[X|[X|[]]]]; injection X as <-; discriminate. }
  assert (l p_c = 0) as E1 by (apply (Cz p_c (["Const"], TBV 1)); [rewrite a_in_; left; reflexivity|left; reflexivity|reflexivity]).
  assert (l p_op = 0) as E2 by (apply (Cz p_op (["Const"], TEnum "Op" [EInt 1])); [rewrite a_in_; right; left; reflexivity|right; left; reflexivity|reflexivity]).
  rewrite (ok_local _ _ _ _ Ok_ 0%nat ([p_c; p_op; p_x], []) l (Case.at_ [(p_c, 0); (p_op, 0); (p_x, l p_x)])).
  2: rewrite a_forms_; reflexivity.
  2: { intros p [<-|[<-|[<-|[]]]]; auto. }
  rewrite (ok_ilocal _ OkI (fun _ => l p_x) (Case.at_ [([ky "p"], l p_x)])).
  2: { intros p t'. rewrite i_in_. intros [H|[]]; injection H as <- <-; reflexivity. }
  assert (In (l p_x) (lty_vals ([], TBV 1))) as Hx by (apply Ty; rewrite a_in_; cbn [In]; tauto).
  apply two in Hx. destruct Hx as [->| ->]; vm_compute; reflexivity.
Qed.

Lemma some_rule k : exists ru, mapped k mach A I ru.
Proof.
  assert (satisfiable path_eqb lty_eqb lty_vals (tag_vals mach) k A I (build_expanded path_eqb lty_eqb lty_const k A I)) as (y & phi & r & E & S & So).
  { apply (C86_found k mach [] A wire I mach_class wire_class EA EI (NoDup_nil _)); [intros p zs; rewrite a_constr_; intros []| |exact found].
    exists (ky "c"), (MMod "Const" (MLeaf (TBV 1))). split; [left; reflexivity|reflexivity]. }
  destruct (C86_arch _ _ _ mach_class EA (NoDup_nil _)) as [Ok_ _].
  assert (lucky path_eqb lty_const A r) as L by (intros p zs; rewrite a_constr_; intros []).
  destruct (C38_expanded_partial _ _ path_eqb lty_eqb lty_const eqs_lty lty_vals (tag_vals mach) k _ _ _ _ Ok_ (C86_instr _ _ wire_class EI) y phi [] r E S (So []) L)
    as (ru & Er & _). exists ru, y, phi, [], r. auto.
Qed.

(** Every rule of the mapper has the opcode 0. *)
Lemma opcode k ru : mapped k mach A I ru -> In (SVal 0, p_op) (r_in ru).
Proof.
  intros M. destruct (mapped_ok k mach wire [] A I ru mach_class wire_class EA EI (NoDup_nil _) M) as (WF & V & Co). pose proof (valid_ok _ _ _ _ _ EA V) as Cc.
  destruct (ru_paths mach wire [] A I ru mach_class EA EI WF) as (f & Ef & N & Hq & Hs & Hp & Hi & _). destruct WF as (f' & _ & _ & (_ & To & Uo) & _ & Hc).
  rewrite a_forms_ in Ef. destruct (r_form ru) as [|[|n]] eqn:Efi; try discriminate Ef. injection Ef as <-. cbn [fst] in Hq.
  assert (in_flat mach = a_in A) as Fm by (vm_compute; reflexivity). assert (in_flat wire = i_in I) as Fw by (vm_compute; reflexivity).
  rewrite Fm, Fw in *. rewrite a_in_, i_in_ in *.
  assert (forall q p, In (SPath q, p) (r_in ru) -> q = [ky "p"] /\ p = p_x) as Sp.
  { intros q p X. destruct (Hs q p X) as (t & [Y|[]] & Z). injection Y as <- <-. destruct Z as [Z|[Z|[Z|[]]]]; try discriminate Z. injection Z as <-. auto. }
  assert (forall p t, In p [p_c; p_op; p_x] -> In (p, t) [(p_c, (["Const"], TBV 1)); (p_op, (["Const"], TEnum "Op" [EInt 1])); (p_x, ([], TBV 1))] -> lty_const t = true -> exists z, In (SVal z, p) (r_in ru)) as Cv.
  { intros p t Ip It Ec. apply Hq in Ip. apply in_map_iff in Ip as ([s p'] & Ep & Ie). cbn [snd] in Ep. subst p'. destruct s as [q|z|].
    - destruct (Sp q p Ie) as [_ ->]. destruct It as [X|[X|[X|[]]]]; try discriminate X. injection X as <-. discriminate Ec.
    - eauto.
    - destruct (Hc _ _ _ Ie It Ec eq_refl). }
  destruct (Cv p_op _ (or_intror (or_introl eq_refl)) (or_intror (or_introl eq_refl)) eq_refl) as [z Iz].
  destruct (Cv p_c _ (or_introl eq_refl) (or_introl eq_refl) eq_refl) as [c Ic].
  assert (In (SPath [ky "p"], p_x) (r_in ru)) as Ix.
  { assert (In [ky "p"] (ir_paths (r_in ru))) as X by (apply Hi; left; reflexivity). unfold ir_paths in X. apply in_flat_map in X as ([s p] & Ie & X). cbn [fst] in X.
    destruct s as [q|z0|]; [|destruct X|destruct X]. destruct X as [->|[]]. destruct (Sp _ _ Ie) as [_ ->]. exact Ie. }
  assert (In z (lty_vals (["Const"], TEnum "Op" [EInt 1]))) as Rz by (apply (Cc z p_op); [exact Iz|rewrite Fm; cbn [In]; tauto]).
  assert (In c (lty_vals (["Const"], TBV 1))) as Rc by (apply (Cc c p_c); [exact Ic|rewrite Fm; cbn [In]; tauto]).
  assert (z = 0 \/ z = 1) as [->| ->] by (vm_compute in Rz; intuition); auto. exfalso.
  assert (exists p, In (Some [ky "r"], p) (r_out ru)) as [po Io].
  { assert (uses path_eqb (r_out ru) [ky "r"] = 1%nat) as U by (apply (Uo _ ([], TBV 1)); rewrite i_out_; left; reflexivity). unfold uses in U.
    match type of U with length ?l = _ => destruct l as [|[s p] l0] eqn:F; [discriminate U|] end.
    match type of F with ?l = _ => assert (In (s, p) l) as Y by (rewrite F; left; reflexivity) end. apply filter_In in Y as [Y E]. cbn [fst] in E.
    destruct s as [q|]; [|discriminate E]. apply path_eqb_eq in E. subst q. eauto. }
  destruct (To _ _ Io) as (t & _ & Z). rewrite a_out_ in Z. destruct Z as [Z|[]]. injection Z as <- _.
  assert (MapModel.i_sem I (fun _ => 1) [ky "r"] = adt_fs mach A (r_form ru) (Case.at_ [(p_c, c); (p_op, 1); (p_x, 1)]) [ky "out"]) as Eq.
  { apply Co; [| | |exact Io].
    - intros p t0. rewrite i_in_. intros [X|[]]. injection X as <- <-. vm_compute. auto.
    - intros p t0. rewrite a_in_. intros [X|[X|[X|[]]]]; injection X as <- <-; [exact Rc|vm_compute; auto|vm_compute; auto].
    - intros s p Ie. assert (forall s', In (s', p) (r_in ru) -> s' = s) as Un.
      { intros s' I'. clear - N Ie I'. induction (r_in ru) as [|[s0 p0] rin IH]; [destruct Ie|]. cbn [map snd] in N. inversion N as [|? ? Nn N']; subst.
        destruct Ie as [Ie|Ie], I' as [I'|I']; auto; try congruence; exfalso; apply Nn.
        - injection Ie as -> ->. apply (in_map snd) in I'. exact I'.
        - injection I' as -> ->. apply (in_map snd) in Ie. exact Ie. }
      assert (In p [p_c; p_op; p_x]) as Ip by (apply Hq; apply (in_map snd) in Ie; exact Ie).
      destruct Ip as [<-|[<-|[<-|[]]]]; [rewrite <- (Un _ Ic)|rewrite <- (Un _ Iz)|rewrite <- (Un _ Ix)]; reflexivity. }
  rewrite Efi in Eq. apply (two ["Const"]) in Rc. destruct Rc as [->| ->]; vm_compute in Eq; discriminate Eq.
Qed.
Lemma refused ru b : In (SVal 0, p_op) (r_in ru) -> new_rule mach (r_in ru) <> Ok b.
Proof.
  intros Ie E. unfold new_rule in E. destruct (mapM_each _ _ _ E _ Ie) as [y Ey].
  assert (new_entry mach (SVal 0, p_op) = Err ValueError) as X by (vm_compute; reflexivity). rewrite X in Ey. discriminate Ey.
Qed.
End Bad.

(** The mapper finds rules for it, and [RewriteRule] refuses each of them. *)
Theorem C88_refused k : (exists ru, mapped k Bad.mach Bad.A Bad.I ru) /\
  forall ru b, mapped k Bad.mach Bad.A Bad.I ru -> new_rule Bad.mach (r_in ru) <> Ok b.
Proof. split; [apply Bad.some_rule|]. intros ru b M. apply Bad.refused. eapply Bad.opcode; eauto. Qed.

Theorem C88_full_refuted : ~ C88_full.
Proof.
  intros H. destruct (Bad.some_rule OneHot) as [ru M].
  assert (Forall wf_ty [in_ty Bad.mach]) as W by (apply wf_all_b; vm_compute; reflexivity).
  destruct (H OneHot Bad.mach Bad.wire [] Bad.A Bad.I ru []) as [Er _]; auto using Bad.mach_class, Bad.mach_call, Bad.wire_class, Bad.wire_call, Bad.EA, Bad.EI.
  - constructor.
  - apply build_b_spec. vm_compute. reflexivity.
  - apply free_b_spec. vm_compute. reflexivity.
  - apply build_b_spec. vm_compute. reflexivity.
  - apply free_b_spec. vm_compute. reflexivity.
  - eexists. vm_compute. reflexivity.
  - apply same_width_ok_spec; [exact W|vm_compute; reflexivity].
  - intros k m [[= <- <-]|[[= <- <-]|[]]] Ec; [|discriminate Ec]. apply no_multi_ok_spec; [apply wf_b_spec|]; vm_compute; reflexivity.
  - exact (Bad.refused ru _ (Bad.opcode OneHot ru M) Er).
Qed.

(** A wire whose output is a Bit: its rule onto a wire of one-bit vectors raises, the
    rule between two wires of vectors does not. *)
Definition bit_wire : pclass := Case.mk [(ky "p", MLeaf (TBV 1))] [(ky "r", MLeaf TBit)] (fun ws => [match ws with [p] => p mod 2 | _ => 0 end]).
Definition wire_in : list entry := [(SPath [ky "p"], [ky "p"])].
Definition wire_out : list (option path * path) := [(Some [ky "r"], [ky "r"])].
Example C88_case_sorts : class_ok Bad.wire /\ class_ok bit_wire /\
  In ([ky "r"], ([], TBit)) (out_flat bit_wire) /\ In ([ky "r"], ([], TBV 1)) (out_flat Bad.wire) /\
  verify Bad.wire bit_wire (fun _ => None) wire_in wire_out = Err TypeError /\
  verify Bad.wire Bad.wire (fun _ => None) wire_in wire_out = Ok None.
Proof.
  split; [exact Bad.wire_class|]. split; [unfold bit_wire; Bad.class|]. split; [left; reflexivity|]. split; [left; reflexivity|].
  split; vm_compute; reflexivity.
Qed.

Print Assumptions C88_keys.
Print Assumptions C88_build.
Print Assumptions C88_values.
Print Assumptions C88_outputs.
Print Assumptions C88_apply.
Print Assumptions C88_verify.
Print Assumptions C88_verify_none.
Print Assumptions C88_verify_sorts.
Print Assumptions C88_case_sorts.
Print Assumptions C88_solver.
Print Assumptions C88_rule.
Print Assumptions C88_found_partial.
Print Assumptions C88_refused.
Print Assumptions C88_full_refuted.
