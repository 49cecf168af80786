(** Words of forms and fields: what [ArchMapper] and [Multi] read off the same class. *)
From Coq Require Import String ZArith List Bool Lia.
From Verif Require Import Base BaseLemmas BindModel MapIdxModel MapIdxProps BindProps MultiModel MultiProps MapModel MapProofs MapMain MapProps
  AsmModel AsmSpec AsmValid AsmEnum AsmBuild AsmProofs AsmSub AsmCheck AsmMore AsmProps Asm2Model Asm2Proofs AadtModel AadtProofs FormModel FormProofs FormMain FormSimp FormProps
  AdtArchModel AdtArchProofs AdtArchMain AdtArchProps RuleAppModel RuleAppProofs RuleAppMain MultiClassModel.
Import ListNotations.
Open Scope string_scope.
Open Scope list_scope.
Open Scope Z_scope.

(** A field holding a Bit or a bit vector, possibly below modifiers. *)
Fixpoint word_field (m : mty) : Prop :=
  match m with
  | MMod _ t => word_field t
  | MLeaf TBit | MLeaf (TBV _) | MLeaf (TSInt _) => True
  | _ => False
  end.
Definition word_type (t : ty) : Prop := match t with TBit | TBV _ | TSInt _ => True | _ => False end.

Lemma word_field_strip m : word_field m -> word_type (strip m).
Proof. induction m; cbn; auto. Qed.
Lemma word_type_leaf t : word_type t -> is_leaf t.
Proof. destruct t; cbn; tauto. Qed.
Lemma word_field_flat m : word_field m -> forall p mods, flat m p mods = [(p, outer mods m)].
Proof. induction m; cbn [word_field]; intros H p mods; try tauto; cbn [flat outer strip]; auto. Qed.
Lemma outer_strip m : forall mods, snd (outer mods m) = strip m.
Proof. induction m; intros mods; cbn [outer strip]; auto. Qed.
Lemma outer_const m : forall mods, lty_const (outer mods m) = const_field m || existsb (String.eqb "Const") mods.
Proof.
  induction m; intros mods; try reflexivity. cbn [outer]. rewrite IHm. cbn [existsb].
  change (const_field (MMod m m0)) with (String.eqb "Const" m || const_field m0).
  destruct (String.eqb "Const" m), (const_field m0), (existsb (String.eqb "Const") mods); reflexivity.
Qed.
Lemma field_const m : lty_const (field_ty m) = const_field m.
Proof. unfold field_ty. rewrite outer_const. cbn. now rewrite orb_false_r. Qed.

(** * The leaves of a class, by field *)
Lemma flat_fields c fs : Forall (fun f => wf_mty (snd f)) fs -> wf_ty (TProd c (strip_fields fs)) ->
  forall q u, In (q, u) (flat (MProd c fs) [] []) <-> exists k m, In (k, m) fs /\ In (q, u) (flat m [k] []).
Proof.
  intros M W q u. rewrite flat_prod.
  assert (Forall (fun f => wf_ty (snd f)) (strip_fields fs) /\ no_dup_keys (strip_fields fs)) as [WF ND] by (split; inversion W; auto).
  assert (Forall (fun f => flat_good (snd f)) fs) as FG by (apply Forall_forall; intros f _; apply flat_all).
  destruct (flat_members fs [] [] FG M WF) as [FF _].
  destruct (keyed_prod lty [] c (strip_fields fs) is_leaf (flats [] [] fs) ND (fun x => x) FF) as [_ ->].
  rewrite in_concat. unfold flats. split.
  - intros (l & Il & I). apply in_map_iff in Il as ([k m] & <- & Im). exists k, m. auto.
  - intros (k & m & Im & I). exists (flat m [k] []). split; auto. apply in_map_iff. exists (k, m). auto.
Qed.

Section Class.
  Variable C : pclass.
  Hypothesis K : class_ok C.

  Lemma in_flat_fields q u : In (q, u) (in_flat C) <-> exists k m, In (k, m) (c_in C) /\ In (q, u) (flat m [k] []).
  Proof. destruct (k_in C K) as (R & _ & W & _). apply flat_fields; auto. apply K. Qed.
  Lemma out_flat_fields q u : In (q, u) (out_flat C) <-> exists k m, In (k, m) (c_out C) /\ In (q, u) (flat m [k] []).
  Proof. destruct (k_out C K) as (R & _ & W & _). apply flat_fields; auto. apply K. Qed.

  Lemma in_keys : NoDup (map fst (c_in C)).
  Proof.
    destruct (k_in C K) as (R & _ & W & _). assert (no_dup_keys (strip_fields (c_in C))) as N by (inversion W; auto).
    unfold no_dup_keys, strip_fields in N. rewrite map_map in N. exact N.
  Qed.
  Lemma out_keys : NoDup (map fst (c_out C)).
  Proof.
    destruct (k_out C K) as (R & _ & W & _). assert (no_dup_keys (strip_fields (c_out C))) as N by (inversion W; auto).
    unfold no_dup_keys, strip_fields in N. rewrite map_map in N. exact N.
  Qed.
  Lemma in_key_fun i j k m m' : nth_error (c_in C) i = Some (k, m) -> nth_error (c_in C) j = Some (k, m') -> i = j.
  Proof.
    intros E E'. apply (proj1 (NoDup_nth_error (map fst (c_in C))) in_keys); [apply nth_error_Some|]; rewrite ?nth_error_map, ?E, ?E'; cbn; congruence.
  Qed.
  Lemma out_key_fun i j k m m' : nth_error (c_out C) i = Some (k, m) -> nth_error (c_out C) j = Some (k, m') -> i = j.
  Proof.
    intros E E'. apply (proj1 (NoDup_nth_error (map fst (c_out C))) out_keys); [apply nth_error_Some|]; rewrite ?nth_error_map, ?E, ?E'; cbn; congruence.
  Qed.

  (** ** The words of a form *)
  Hypothesis B : buildable (in_ty C).
  Variables (cs : list (path * list Z)) (A : arch path lty).
  Hypothesis EA : adt_arch C cs = Ok A.

  Lemma form_parts fi f l : nth_error (a_forms A) fi = Some f ->
    exists ws, in_words C (form_word C fi (own A fi) l) = Ok ws /\ Forall2 word_of (c_in C) ws /\
      (forall i k m n, nth_error (c_in C) i = Some (k, m) -> word_field m -> swidth (strip m) n ->
         In [k] (fst f) /\ nth_error ws i = Some (wrap n (l [k]))).
  Proof.
    intros Ef. destruct (k_in C K) as (R & GR & W & Rl).
    destruct (in_words_ok C (form_word C fi (own A fi) l) K) as (ws & Ew & Fw). exists ws. split; auto. split; auto.
    intros i k m n Ei Wm Sn.
    destruct (form_at R GR C W Rl B cs A EA fi f (own A fi) l Ef) as (fo & vm & z & g & E & Eg & V & D & Efw & _).
    destruct (in_fields R GR C W Rl B _ _ _ _ _ _ _ E Eg) as (rs & gs & L & N & P & G & Dc & Vc & Get).
    assert (nth_error (strip_fields (c_in C)) i = Some (k, strip m)) as Ei' by (unfold strip_fields; rewrite nth_error_map, Ei; auto).
    destruct (F2_nth _ _ _ L i _ Ei') as (r & Er & fa & Em & Wd & Rn). cbn [fst snd] in Em, Rn.
    destruct (F2_nth _ _ _ G i _ Ei') as (gi & Egi & _).
    destruct (F2_nth _ _ _ P i _ Egi) as (r' & Er' & Ig). assert (r' = r) by congruence. subst r'.
    assert (In (k, strip m) (strip_fields (c_in C))) as Ik by (eapply nth_error_In; eauto).
    destruct (prod_member R "Input" (strip_fields (c_in C)) (c_ia C) k (strip m) W Rl Ik) as (fa' & lo & Em' & Af & _).
    assert (fa' = fa) by congruence. subst fa'. pose proof (wf_members_prod "Input" _ _ _ W Ik) as Wt.
    destruct (asm_rel_width R _ Wt fa Af) as [Sa _]. assert (n = a_width fa) as -> by (eapply swidth_fun; eauto).
    assert (smt_forms l (own A fi) (strip m) fa [k] None = leaf_form l fa [k] None) as El.
    { pose proof (word_field_strip m Wm) as X. destruct (strip m); try destruct X; reflexivity. }
    cbn [List.app] in Rn. rewrite El in Rn. unfold leaf_form in Rn. injection Rn as Q1 Q2 Q3. rewrite <- Q1 in Ig. destruct Ig as [Ig|[]].
    split.
    - rewrite V, Vc. apply in_map_iff. exists ([k], wrap (a_width fa) (l [k])). split; auto. apply in_concat. exists (f_vars gi). split.
      + apply in_map. eapply nth_error_In; eauto.
      + rewrite <- Ig. left; auto.
    - unfold in_words, words_of in Ew. apply mapM_F2 in Ew.
      destruct (F2_nth _ _ _ Ew i k) as (w & Eww & Gw); [rewrite nth_error_map, Ei; reflexivity|].
      rewrite Efw, (Get i k _ gi Ei' Egi) in Gw. cbn [bind fst] in Gw. injection Gw as <-. rewrite <- Ig in Eww. exact Eww.
  Qed.

  (** A field depends on the leaves below it. *)
  Lemma field_local fi f l l' ws ws' i k m : nth_error (a_forms A) fi = Some f ->
    in_words C (form_word C fi (own A fi) l) = Ok ws -> in_words C (form_word C fi (own A fi) l') = Ok ws' ->
    nth_error (c_in C) i = Some (k, m) -> (forall r, In (k :: r) (fst f) -> l (k :: r) = l' (k :: r)) -> nth_error ws i = nth_error ws' i.
  Proof.
    intros Ef Ew Ew' Ei H. destruct (k_in C K) as (R & GR & W & Rl).
    destruct (form_at R GR C W Rl B cs A EA fi f (own A fi) l Ef) as (fo1 & vm1 & z1 & f1 & E1 & F1 & V1 & D1 & X1 & _).
    destruct (form_at R GR C W Rl B cs A EA fi f (own A fi) l' Ef) as (fo2 & vm2 & z2 & f2 & E2 & F2 & V2 & D2 & X2 & _).
    destruct (in_fields R GR C W Rl B _ _ _ _ _ _ _ E1 F1) as (rs1 & gs1 & L1 & N1 & P1 & G1 & Dc1 & Vc1 & Get1).
    destruct (in_fields R GR C W Rl B _ _ _ _ _ _ _ E2 F2) as (rs2 & gs2 & L2 & N2 & P2 & G2 & Dc2 & Vc2 & Get2).
    assert (Forall2 (Forall2 (locked l (own A fi) l' (own A fi))) (map q_forms rs1) (map q_forms rs2)) as Lk.
    { apply F2_map. apply (F2_join _ _ _ _ _ _ L1 L2). intros [k0 t] r1 r2 I (fa & Em & _ & R1) (fa' & Em' & _ & R2). cbn [fst snd] in *.
      assert (fa' = fa) by congruence. subst fa'. eapply forms_lock; eauto. }
    apply F2_iprod in Lk. destruct (F2_nth _ _ _ Lk fi gs1 N1) as (gs & N & Lg). assert (gs = gs2) by congruence. subst gs.
    assert (nth_error (strip_fields (c_in C)) i = Some (k, strip m)) as Ei' by (unfold strip_fields; rewrite nth_error_map, Ei; auto).
    destruct (F2_nth _ _ _ G1 i _ Ei') as (g1 & Eg1 & (v1 & Hv1 & Mt1)). cbn [fst snd] in Mt1.
    destruct (F2_nth _ _ _ G2 i _ Ei') as (g2 & Eg2 & _).
    destruct (F2_nth _ _ _ Lg i g1 Eg1) as (g & Eg & Lk1). assert (g = g2) by congruence. subst g.
    unfold in_words, words_of in Ew, Ew'. apply mapM_F2 in Ew. apply mapM_F2 in Ew'.
    destruct (F2_nth _ _ _ Ew i k) as (w & Eww & Gw); [rewrite nth_error_map, Ei; reflexivity|].
    destruct (F2_nth _ _ _ Ew' i k) as (w' & Eww' & Gw'); [rewrite nth_error_map, Ei; reflexivity|].
    rewrite X1, (Get1 i k _ g1 Ei' Eg1) in Gw. rewrite X2, (Get2 i k _ g2 Ei' Eg2) in Gw'. cbn [bind fst] in Gw, Gw'.
    injection Gw as <-. injection Gw' as <-. rewrite Eww, Eww'. f_equal. apply Lk1; [|reflexivity].
    intros q Iq. assert (In q (fst f)) as Iqf.
    { rewrite V1, Vc1. apply in_map_iff in Iq as (e & <- & Ie). apply in_map. apply in_concat. exists (f_vars g1). split; auto.
      apply in_map. eapply nth_error_In; eauto. }
    apply (mt_vars _ _ _ _ Mt1) in Iq as (r & -> & _). cbn [List.app] in *. auto.
  Qed.
End Class.
