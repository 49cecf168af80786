(** The view the mapper has of a class is an architecture of [MapModel]. *)
From Coq Require Import String ZArith List Bool Lia Permutation.
From Verif Require Import Base BaseLemmas BindModel MapIdxModel MapIdxProps BindProps MapModel MapProofs MapMain MapProps
  AsmModel AsmSpec AsmValid AsmEnum AsmBuild AsmProofs AsmSub AsmMore AadtModel AadtProofs FormModel FormProofs FormMain FormProps
  AdtArchModel AdtArchProofs.
Import ListNotations.
Open Scope list_scope.
Open Scope Z_scope.

(** * Types with modifiers *)
Inductive wf_mty : mty -> Prop :=
| wm_mod n t : wf_mty t -> wf_mty (MMod n t)
| wm_leaf t : is_leaf t -> wf_mty (MLeaf t)
| wm_prod c fs : Forall (fun f => wf_mty (snd f)) fs -> wf_mty (MProd c fs)
| wm_sum g c fs : Forall (fun f => wf_mty (snd f)) fs -> wf_mty (MSum g c fs).

Section MtyInd.
  Variable P : mty -> Prop.
  Hypothesis Hm : forall n t, P t -> P (MMod n t).
  Hypothesis Hl : forall t, P (MLeaf t).
  Hypothesis Hp : forall c fs, Forall (fun f => P (snd f)) fs -> P (MProd c fs).
  Hypothesis Hs : forall g c fs, Forall (fun f => P (snd f)) fs -> P (MSum g c fs).
  Fixpoint mty_ind' (m : mty) : P m :=
    let go := fix go (fs : list (key * mty)) : Forall (fun f => P (snd f)) fs :=
      match fs with [] => Forall_nil _ | f :: r => Forall_cons f (mty_ind' (snd f)) (go r) end in
    match m with
    | MMod n t => Hm n t (mty_ind' t)
    | MLeaf t => Hl t
    | MProd c fs => Hp c fs (go fs)
    | MSum g c fs => Hs g c fs (go fs)
    end.
End MtyInd.

Lemma strip_go fs : (fix go (fs : list (key * mty)) := match fs with [] => [] | (k, t) :: r => (k, strip t) :: go r end) fs = strip_fields fs.
Proof. induction fs as [|[k t] fs IH]; cbn [strip_fields map fst snd]; auto. f_equal. exact IH. Qed.
Lemma strip_prod c fs : strip (MProd c fs) = TProd c (strip_fields fs).
Proof. cbn [strip]. now rewrite strip_go. Qed.
Lemma strip_sum g c fs : strip (MSum g c fs) = TSum g c (strip_fields fs).
Proof. cbn [strip]. now rewrite strip_go. Qed.

Definition flats (p : path) (mods : list string) (fs : list (key * mty)) : list (list (path * lty)) :=
  map (fun f => flat (snd f) (p ++ [fst f]) mods) fs.
Lemma flat_go p mods fs d : (fix go (fs : list (key * mty)) (d : list (path * lty)) :=
         match fs with [] => d | (k, t) :: r => go r (dupd d (flat t (p ++ [k]) mods)) end) fs d =
  fold_left dupd (flats p mods fs) d.
Proof. revert d. induction fs as [|[k t] fs IH]; intros d; cbn [flats map fold_left fst snd]; auto. Qed.
Lemma flat_prod c fs p mods : flat (MProd c fs) p mods = fold_left dupd (flats p mods fs) [].
Proof. cbn [flat]. apply flat_go. Qed.
Lemma flat_sum g c fs p mods : flat (MSum g c fs) p mods = fold_left dupd (flats p mods fs) [].
Proof. cbn [flat]. apply flat_go. Qed.

Definition flat_good (m : mty) : Prop := wf_mty m -> wf_ty (strip m) -> forall p mods,
  keyed p (strip m) is_leaf (flat m p mods) /\
  forall q ms t, In (q, (ms, t)) (flat m p mods) -> exists r pre, q = p ++ r /\ sub_ty (strip m) r t /\ is_leaf t /\ ms = pre ++ mods.

Lemma flat_members fs p mods : Forall (fun f => flat_good (snd f)) fs -> Forall (fun f => wf_mty (snd f)) fs ->
  Forall (fun f => wf_ty (snd f)) (strip_fields fs) ->
  Forall2 (fun f l => keyed (p ++ [fst f]) (snd f) is_leaf l) (strip_fields fs) (flats p mods fs) /\
  forall q ms t, In (q, (ms, t)) (List.concat (flats p mods fs)) ->
    exists k u r pre, In (k, u) (strip_fields fs) /\ q = p ++ k :: r /\ sub_ty u r t /\ is_leaf t /\ ms = pre ++ mods.
Proof.
  induction 1 as [|[k m] fs G H IH]; intros WM WT; cbn [strip_fields flats map fst snd List.concat] in *.
  - split; [constructor|]. intros q ms t [].
  - inversion WM as [|? ? W1 W2]; subst. inversion WT as [|? ? T1 T2]; subst. cbn [snd] in *.
    destruct (G W1 T1 (p ++ [k]) mods) as [G1 G2]. destruct (IH W2 T2) as [IH1 IH2]. split; [constructor; auto|].
    intros q ms t I. apply in_app_iff in I as [I|I].
    + apply G2 in I as (r & pre & -> & S & L & ->). exists k, (strip m), r, pre. rewrite snoc_app. split; [left; auto|auto].
    + apply IH2 in I as (k' & u & r & pre & I & E). exists k', u, r, pre. split; [right; exact I|exact E].
Qed.

Lemma flat_all m : flat_good m.
Proof.
  induction m as [n m IH|t|c fs IH|g c fs IH] using mty_ind'; intros WM W p mods.
  - inversion WM; subst. cbn [flat strip] in *. destruct (IH H0 W p (n :: mods)) as [K G]. split; auto.
    intros q ms t I. apply G in I as (r & pre & -> & S & L & ->). exists r, (pre ++ [n]). rewrite <- app_assoc. auto.
  - inversion WM; subst. cbn [flat strip] in *. split.
    + split; [cbn; constructor; [intros []|constructor]|]. intros q. cbn. split.
      * intros [<-|[]]. exists [], t. rewrite app_nil_r. repeat split; auto. constructor.
      * intros (r & t' & -> & S & L). apply leaf_sub_ty in S as (-> & _); auto. rewrite app_nil_r. auto.
    + intros q ms t' [[= <- <- <-]|[]]. exists [], []. rewrite app_nil_r. repeat split; auto. constructor.
  - rewrite strip_prod in *. rewrite flat_prod. inversion WM; subst. inversion W as [| | | |? ? ND WF|]; subst.
    destruct (flat_members fs p mods IH H0 WF) as [F G].
    destruct (keyed_prod lty p c (strip_fields fs) is_leaf (flats p mods fs) ND (fun x => x) F) as [K E]. rewrite E. split; auto.
    intros q ms t I. apply G in I as (k & u & r & pre & I & -> & S & L & ->). exists (k :: r), pre. repeat split; auto. econstructor; eauto.
  - rewrite strip_sum in *. rewrite flat_sum. inversion WM; subst. inversion W as [| | | | |? ? ? NE ND WF]; subst.
    destruct (flat_members fs p mods IH H0 WF) as [F G].
    destruct (keyed_sum_no lty p g c (strip_fields fs) is_leaf (flats p mods fs) ND (fun x => x) F) as [K E]. rewrite E. split; auto.
    intros q ms t I. apply G in I as (k & u & r & pre & I & -> & S & L & ->). exists (k :: r), pre. repeat split; auto. econstructor; eauto.
Qed.

(** Modifiers at a field reach the leaves below it. *)
Lemma const_mods m : const_field m = true -> forall p mods q ms t, In (q, (ms, t)) (flat m p mods) -> wf_mty m -> wf_ty (strip m) ->
  lty_const (ms, t) = true.
Proof.
  induction m as [n m IH|t|c fs IH|g c fs IH] using mty_ind'; intros Ec p mods q ms u I WM W; try discriminate.
  cbn [const_field] in Ec. cbn [flat] in I. inversion WM; subst. apply orb_true_iff in Ec as [Ec|Ec].
  - apply String.eqb_eq in Ec. subst n. destruct (flat_all m H0 W p ("Const"%string :: mods)) as [_ G].
    apply G in I as (r & pre & _ & _ & _ & ->). unfold lty_const. cbn [fst]. rewrite existsb_app. cbn [existsb]. rewrite String.eqb_refl. apply orb_true_iff. auto.
  - exact (IH Ec _ _ _ _ _ I H0 W).
Qed.

(** * Assemblers at paths *)
Lemma sub_path_at a : forall p off o a', sub_path a off p = Ok (o, a') -> asm_at a p = Some a'.
Proof.
  intros p. revert a. induction p as [|k p IH]; intros a off o a' E; cbn [sub_path asm_at] in *; [congruence|].
  destruct (sub_step a k) as [[[lo hi] f]|]; [|discriminate]. eapply IH; eauto.
Qed.
Lemma asm_at_spec R t p u a : sub_ty t p u -> wf_ty t -> asm_rel R t a ->
  exists a', asm_at a p = Some a' /\ asm_rel R u a' /\ wf_ty u.
Proof.
  intros S W A. destruct (sub_ty_spec R t p u S W a A 0) as (o & a' & E & A' & W' & _). exists a'.
  split; [eapply sub_path_at; eauto|auto].
Qed.

Lemma sub_ty_fun t p u : sub_ty t p u -> wf_ty t -> forall u', sub_ty t p u' -> u = u'.
Proof.
  induction 1 as [t|c fs k p t u I S IH|g c fs k p t u I S IH]; intros W u' S'; inversion S'; subst; auto;
  assert (NoDup (map fst fs)) as ND by (inversion W; auto);
  match goal with J : In (k, ?t0) fs |- _ => assert (t0 = t) as -> by (eapply nodup_key_fun; eauto) end; apply IH; auto.
  - eapply wf_members_prod; eauto.
  - eapply wf_members_sum; eauto.
Qed.

(** Some value goes through every sum of the type. *)
Lemma sum_reached t r u : sub_ty t r u -> wf_ty t -> forall w, has_ty u w -> exists v, has_ty t v /\ sub_val t v r u w.
Proof.
  induction 1 as [t|c fs k p t u I S IH|g c fs k p t u I S IH]; intros W w Hw.
  - exists w. split; auto. constructor.
  - destruct (IH (wf_members_prod c fs k t W I) w Hw) as (v & Hv & Sv).
    assert (Forall (fun f => wf_ty (snd f)) fs) as WF by (inversion W; auto).
    apply In_nth_error in I as [i Ei].
    enough (exists vs, Forall2 (fun f v => has_ty (snd f) v) fs vs /\ nth_error vs i = Some v) as (vs & F & Ev).
    { exists (VProd vs). split; [constructor; auto|econstructor; eauto]. }
    clear - Ei Hv WF. revert i Ei. induction WF as [|f fs W1 WF IH]; intros [|i] Ei; try discriminate; cbn [nth_error] in Ei.
    + injection Ei as ->.
      assert (exists vs, Forall2 (fun (f : key * ty) v => has_ty (snd f) v) fs vs) as (vs & F).
      { clear - WF. induction WF as [|f fs W1 WF (vs & F)]; [exists []; constructor|]. destruct (inhabited (snd f) W1) as (v0 & H0 & _). exists (v0 :: vs). constructor; auto. }
      exists (v :: vs). split; [constructor; auto|reflexivity].
    + destruct (IH i Ei) as (vs & F & Ev). destruct (inhabited (snd f) W1) as (v0 & H0 & _). exists (v0 :: vs). split; [constructor; auto|exact Ev].
  - destruct (IH (wf_members_sum g c fs k t W I) w Hw) as (v & Hv & Sv). exists (VSum k v). split; econstructor; eauto.
Qed.

Lemma sub_val_has t v r u w : sub_val t v r u w -> wf_ty t -> has_ty t v -> has_ty u w.
Proof.
  induction 1 as [|c fs vs k p i t v u w Ef Ev S IH|g c fs k p t v u w I S IH]; intros W H; auto.
  - inversion H as [| | | |? ? ? F|]; subst. destruct (F2_nth _ _ _ F i _ Ef) as (v' & Ev' & Hv). assert (v' = v) by congruence. subst v'.
    apply IH; auto. eapply wf_members_prod; eauto. eapply nth_error_In; eauto.
  - inversion H as [| | | | |? ? ? ? t' ? I' Hv]; subst. assert (NoDup (map fst fs)) as ND by (inversion W; auto).
    assert (t' = t) as -> by (eapply nodup_key_fun; eauto). apply IH; auto. eapply wf_members_sum; eauto.
Qed.

(** * The class *)
Section Class.
  Variable R : list Z -> Z -> Prop.
  Hypothesis GR : good_request R.
  Variable C : pclass.
  Hypothesis Wi : wf_ty (in_ty C).
  Hypothesis Mi : Forall (fun f => wf_mty (snd f)) (c_in C).
  Hypothesis Ai : asm_rel R (in_ty C) (c_ia C).
  Hypothesis Wo : wf_ty (out_ty C).
  Hypothesis Mo : Forall (fun f => wf_mty (snd f)) (c_out C).

  Lemma in_flat_spec : keyed [] (in_ty C) is_leaf (in_flat C) /\
    forall q ms t, In (q, (ms, t)) (in_flat C) -> sub_ty (in_ty C) q t /\ is_leaf t.
  Proof.
    unfold in_flat. destruct (flat_all (MProd "Input" (c_in C)) (wm_prod _ _ Mi) ltac:(rewrite strip_prod; exact Wi) [] []) as [K G].
    rewrite strip_prod in *. split; [exact K|]. intros q ms t I. apply G in I as (r & pre & -> & S & L & _). auto.
  Qed.
  Lemma out_flat_spec : keyed [] (out_ty C) is_leaf (out_flat C) /\
    forall q ms t, In (q, (ms, t)) (out_flat C) -> sub_ty (out_ty C) q t /\ is_leaf t.
  Proof.
    unfold out_flat. destruct (flat_all (MProd "Output" (c_out C)) (wm_prod _ _ Mo) ltac:(rewrite strip_prod; exact Wo) [] []) as [K G].
    rewrite strip_prod in *. split; [exact K|]. intros q ms t I. apply G in I as (r & pre & -> & S & L & _). auto.
  Qed.

  Lemma const_leaf k m r u : In (k, m) (c_in C) -> const_field m = true -> In (k :: r, u) (in_flat C) -> lty_const u = true.
  Proof.
    intros I Ec If. unfold in_flat in If. rewrite flat_prod in If.
    assert (no_dup_keys (strip_fields (c_in C)) /\ Forall (fun f => wf_ty (snd f)) (strip_fields (c_in C))) as [ND WF] by (split; inversion Wi; auto).
    assert (Forall (fun f => flat_good (snd f)) (c_in C)) as FG by (apply Forall_forall; intros f _; apply flat_all).
    destruct (flat_members (c_in C) [] [] FG Mi WF) as [F _].
    destruct (keyed_prod lty [] "Input" (strip_fields (c_in C)) is_leaf (flats [] [] (c_in C)) ND (fun x => x) F) as [_ E]. rewrite E in If.
    apply In_nth_error in I as [i Ei].
    destruct (keyed_members lty [] (strip_fields (c_in C)) is_leaf (flats [] [] (c_in C)) ND F) as (_ & _ & K).
    pose proof Ei as Im. apply nth_error_In in Im.
    assert (nth_error (strip_fields (c_in C)) i = Some (k, strip m)) as Ei' by (unfold strip_fields; rewrite nth_error_map, Ei; auto).
    assert (nth_error (flats [] [] (c_in C)) i = Some (flat m [k] [])) as El by (unfold flats; rewrite nth_error_map, Ei; auto).
    apply (K i k (strip m) _ Ei' El r u) in If. cbn [List.app] in If. destruct u as [ms t].
    rewrite Forall_forall in Mi, WF. apply nth_error_In in Ei'.
    eapply const_mods; [exact Ec|exact If|apply (Mi _ Im)|apply (WF _ Ei')].
  Qed.

  (** ** Forms *)
  Hypothesis Bi : buildable (in_ty C).

  Lemma forms_work tags l : exists fo vm z, in_forms C tags l = Ok (fo, vm, z) /\ Inv l tags (fun j => j = 0) [] (in_ty C) (c_ia C) None fo vm z.
  Proof.
    unfold in_forms. destruct (all_work l tags (fun j => j = 0) eq_refl R GR (in_ty C) (c_ia C) [] None Wi Bi Ai) as (o & v & x & E & IV); [discriminate|].
    eauto.
  Qed.
  Lemma forms_inv tags l fo vm z : in_forms C tags l = Ok (fo, vm, z) -> Inv l tags (fun j => j = 0) [] (in_ty C) (c_ia C) None fo vm z.
  Proof. intros E. eapply inv_of; eauto. Qed.

  (** The member chosen by a form is one of the sum, its tag the rank. *)
  Lemma dict_sum tags l fo vm z f q k g c fs : in_forms C tags l = Ok (fo, vm, z) -> In f fo -> In (q, k) (f_dict f) ->
    sub_ty (in_ty C) q (TSum g c fs) -> exists u, In (k, u) fs.
  Proof.
    intros E I Id S. destruct (i_cov _ _ _ _ _ _ _ _ _ _ (forms_inv _ _ _ _ _ E) f I) as (v & Hv & M).
    apply (proj1 (mt_dict _ _ _ _ M _ _)) in Id. destruct Id as (r & -> & g' & c' & fs' & w & Sv). cbn [List.app] in S.
    pose proof (sub_ty_fun _ _ _ S Wi _ (sub_val_ty _ _ _ _ _ Sv)) as Eq. injection Eq as <- <- <-.
    pose proof (sub_val_has _ _ _ _ _ Sv Wi Hv) as H. inversion H; subst. eauto.
  Qed.
  Lemma dict_path tags l fo vm z f q k : in_forms C tags l = Ok (fo, vm, z) -> In f fo -> In (q, k) (f_dict f) ->
    exists g c fs, sub_ty (in_ty C) q (TSum g c fs).
  Proof.
    intros E I Id. destruct (i_cov _ _ _ _ _ _ _ _ _ _ (forms_inv _ _ _ _ _ E) f I) as (v & Hv & M).
    apply (proj1 (mt_dict _ _ _ _ M _ _)) in Id. destruct Id as (r & -> & g' & c' & fs' & w & Sv). cbn [List.app]. eauto using sub_val_ty.
  Qed.
  Lemma tag_at_rank q g c fs k u : sub_ty (in_ty C) q (TSum g c fs) -> In (k, u) fs ->
    rank_of fs k (tag_at C q k) /\ In (tag_at C q k) (tag_vals C q).
  Proof.
    intros S I. destruct (asm_at_spec R _ _ _ _ S Wi Ai) as (a & Ea & Aa & Wa). unfold tag_at, tag_vals. rewrite Ea.
    apply in_split in I as (pre & post & Hfs). destruct (tags_spec R g c fs a pre k u post GR Wa Aa Hfs) as (E & _). rewrite E.
    split; [exists pre, u, post; auto|].
    destruct (sum_words R g c fs a k u GR Wa Aa ltac:(rewrite Hfs; apply in_elt))
      as (w1 & tagw' & as' & gs' & tv' & fa' & pre' & post' & -> & Etw & Hfs' & _ & _ & Rr & _).
    assert (NoDup (map fst fs)) as ND by (inversion Wa; auto).
    destruct (nodup_split_unique fs pre pre' post post' k u u ND Hfs Hfs') as (<- & _ & <-). apply pyrange_In. lia.
  Qed.

  (** ** The architecture *)
  Variables (cs : list (path * list Z)) (A : arch path lty).
  Hypothesis EA : adt_arch C cs = Ok A.

  Lemma arch_inv : exists fo vm z, in_forms C (fun _ => 0) (fun _ => 0) = Ok (fo, vm, z) /\ constraints_ok C cs = Ok tt /\
    a_forms A = map (fun f => (map fst (f_vars f), map (fun d => (fst d, tag_at C (fst d) (snd d))) (f_dict f))) fo /\
    a_in A = in_flat C /\ a_out A = out_flat C /\ a_constr A = cs /\
    (a_has_const A = match const_fields C with [] => false | _ => true end) /\
    (forall fi tags l q, a_fsem A fi tags l q = out_at C (form_word C fi tags l) q) /\
    (forall tags l q, a_sem A tags l q = out_at C (full_word C tags l) q) /\
    (forall fi tags l, a_fvalid A fi tags l = valid_word C (form_word C fi tags l)) /\
    (forall tags l, a_valid A tags l = valid_word C (full_word C tags l)).
  Proof.
    unfold adt_arch in EA. destruct (in_forms C (fun _ => 0) (fun _ => 0)) as [[[fo vm] z]|]; [|discriminate]. cbn [bind] in EA.
    destruct (one_output_form C fo) as [[]|]; [|discriminate]. cbn [bind] in EA.
    destruct (constraints_ok C cs) as [[]|]; [|discriminate]. cbn [bind] in EA. injection EA as <-.
    exists fo, vm, z. cbn. repeat (split; [reflexivity|]). auto.
  Qed.

  (** The tags of a form of [A]. *)
  Definition own (fi : nat) (q : path) : Z :=
    match nth_error (a_forms A) fi with
    | Some f => match dget path_eqb (snd f) q with Some z => z | None => 0 end
    | None => 0
    end.
  Definition adt_fs (fi : nat) (l : path -> Z) (q : path) : Z := out_at C (form_word C fi (own fi) l) q.
  Definition adt_fv (fi : nat) (l : path -> Z) : bool := valid_word C (form_word C fi (own fi) l).

  (** A form of [A] and the same form under a valuation. *)
  Lemma form_at fi f tags l : nth_error (a_forms A) fi = Some f ->
    exists fo vm z g, in_forms C tags l = Ok (fo, vm, z) /\ nth_error fo fi = Some g /\
      fst f = map fst (f_vars g) /\ snd f = map (fun d => (fst d, tag_at C (fst d) (snd d))) (f_dict g) /\
      form_word C fi tags l = f_val g /\ full_word C tags l = z.
  Proof.
    intros E. destruct arch_inv as (fo0 & vm0 & z0 & E0 & _ & Ef & _). rewrite Ef, nth_error_map in E.
    destruct (nth_error fo0 fi) as [f0|] eqn:E1; [|discriminate]. injection E as <-.
    destruct (forms_work tags l) as (fo & vm & z & Ew & IV).
    pose proof (forms_lock _ _ _ _ _ _ _ _ _ _ _ _ _ E0 Ew) as L. destruct (F2_nth _ _ _ L fi f0 E1) as (g & Eg & Lk).
    exists fo, vm, z, g. unfold form_word, full_word. rewrite Ew, Eg. cbn [fst snd].
    rewrite (lk_vars _ _ _ _ _ _ Lk), (lk_dict _ _ _ _ _ _ Lk). auto 8.
  Qed.

  Lemma own_dict fi f q z : nth_error (a_forms A) fi = Some f -> In (q, z) (snd f) -> own fi q = z.
  Proof.
    intros E I. unfold own. rewrite E.
    destruct (form_at fi f (fun _ => 0) (fun _ => 0) E) as (fo & vm & z0 & g & Ew & Eg & _ & Es & _).
    assert (NoDup (map fst (snd f))) as ND.
    { rewrite Es, map_map. cbn [fst]. destruct (i_cov _ _ _ _ _ _ _ _ _ _ (forms_inv _ _ _ _ _ Ew) g (nth_error_In _ _ Eg)) as (v & _ & M). apply M. }
    clear - I ND. induction (snd f) as [|[q' z'] d IH]; [destruct I|]. cbn [map fst] in ND. inversion ND as [|? ? N1 N2]; subst.
    cbn [dget]. destruct I as [[= -> ->]|I].
    - now rewrite (proj2 (path_eqb_eq q q) eq_refl).
    - destruct (path_eqb q q') eqn:Eq; auto. apply path_eqb_eq in Eq. subst q'. exfalso. apply N1. apply (in_map fst) in I. exact I.
  Qed.

  Lemma same_word fi f tags l tags' l' : nth_error (a_forms A) fi = Some f ->
    (forall p, In p (fst f) -> l p = l' p) -> (forall d, In d (snd f) -> tags (fst d) = tags' (fst d)) ->
    form_word C fi tags l = form_word C fi tags' l'.
  Proof.
    intros E HL HT.
    destruct (form_at fi f tags l E) as (fo1 & vm1 & z1 & g1 & E1 & G1 & V1 & D1 & -> & _).
    destruct (form_at fi f tags' l' E) as (fo2 & vm2 & z2 & g2 & E2 & G2 & V2 & D2 & -> & _).
    pose proof (forms_lock _ _ _ _ _ _ _ _ _ _ _ _ _ E1 E2) as L. destruct (F2_nth _ _ _ L fi g1 G1) as (g & Eg & Lk).
    assert (g = g2) by congruence. subst g. apply Lk.
    - intros q I. apply HL. now rewrite V1.
    - intros q I. apply in_map_iff in I as ([q' k] & <- & I). cbn [fst].
      apply (HT (q', tag_at C q' k)). rewrite D1. apply in_map_iff. exists (q', k). auto.
  Qed.

  Lemma own_word fi f tags l : nth_error (a_forms A) fi = Some f -> (forall d, In d (snd f) -> tags (fst d) = snd d) ->
    form_word C fi tags l = form_word C fi (own fi) l.
  Proof.
    intros E H. apply (same_word fi f); auto. intros [q z] I. rewrite (H _ I). symmetry. cbn [fst snd]. eapply own_dict; eauto.
  Qed.

  Lemma full_form fi f tags l : nth_error (a_forms A) fi = Some f -> (forall d, In d (snd f) -> tags (fst d) = snd d) ->
    full_word C tags l = form_word C fi tags l.
  Proof.
    intros E H. destruct (form_at fi f tags l E) as (fo & vm & z & g & Ew & Eg & V & D & -> & ->).
    apply (forms_select R l tags (in_ty C) GR (c_ia C) [] fo vm z Wi Bi Ai Ew g (nth_error_In _ _ Eg)).
    intros r k gg c fs I S. cbn [List.app] in *. destruct (dict_sum _ _ _ _ _ _ _ _ _ _ _ Ew (nth_error_In _ _ Eg) I S) as [u Iu].
    assert (tags r = tag_at C r k) as ->.
    { apply (H (r, tag_at C r k)). rewrite D. apply in_map_iff. exists (r, k). auto. }
    apply (tag_at_rank r gg c fs k u S Iu).
  Qed.

  (** ** The words passed to [__call__] *)
  Lemma in_fields tags l fo vm z fi f : in_forms C tags l = Ok (fo, vm, z) -> nth_error fo fi = Some f ->
    exists rs gs, Forall2 (prun (smt_forms l tags) (c_ia C) []) (strip_fields (c_in C)) rs /\
      nth_error (iprod (map q_forms rs)) fi = Some gs /\ Forall2 (fun g r => In g (q_forms r)) gs rs /\
      good_parts [] (strip_fields (c_in C)) gs /\
      f_dict f = List.concat (map f_dict gs) /\ f_vars f = List.concat (map f_vars gs) /\
      forall i k t g, nth_error (strip_fields (c_in C)) i = Some (k, t) -> nth_error gs i = Some g ->
        aadt_get (c_ia C) (f_val f) k = Ok (f_val g, None).
  Proof.
    intros E Ef. destruct (prod_parts R l tags "Input" (strip_fields (c_in C)) (c_ia C) [] fo vm z GR Wi Bi Ai E) as (rs & L & _ & O).
    destruct (F2_nth' _ _ _ O fi f Ef) as (gs & Egs & Fl & G & Ew & Ed & Ev). exists rs, gs. repeat (split; [assumption|]).
    intros i k t g Ei Eg. pose proof (F2_length _ _ _ Fl) as L1. pose proof (F2_length _ _ _ L) as L2.
    assert (Forall2 (fun f wx => swidth (snd f) (fst wx) /\ 0 <= snd wx < 2 ^ fst wx) (strip_fields (c_in C)) (combine (map q_width rs) (map f_val gs))) as F.
    { apply F2_intro; [rewrite combine_length, !map_length; lia|]. intros j [k' t'] [w x] Ej Ec.
      apply nth_combine in Ec as [Ea Eb]. rewrite nth_error_map in Ea, Eb.
      destruct (nth_error rs j) as [r|] eqn:Er; [|discriminate]. destruct (nth_error gs j) as [g'|] eqn:Eg'; [|discriminate].
      cbn in Ea, Eb. injection Ea as <-. injection Eb as <-. cbn [fst snd].
      destruct (F2_nth _ _ _ L j _ Ej) as (r' & Er' & fa & Em & Wd & Rn). assert (r' = r) by congruence. subst r'. cbn [fst snd] in *.
      destruct (F2_nth _ _ _ Fl j g' Eg') as (r' & Er2 & Ig). assert (r' = r) by congruence. subst r'.
      pose proof (nth_error_In _ _ Ej) as Ik.
      destruct (prod_member R "Input" (strip_fields (c_in C)) (c_ia C) k' t' Wi Ai Ik) as (fa' & lo & Em' & Af & _). assert (fa' = fa) by congruence. subst fa'.
      pose proof (wf_members_prod "Input" _ k' t' Wi Ik) as Wt.
      assert (buildable t') as Bt by (inversion Bi as [? Lf|? ? _ _ BF|]; subst; [destruct Lf|eapply BF; eauto]).
      rewrite Wd. split; [apply (asm_rel_width R t' Wt fa Af)|].
      apply (i_frng _ _ _ _ _ _ _ _ _ _ (inv_of R l tags t' fa _ _ _ _ GR Wt Bt Af Rn) g' Ig). }
    assert (exists r, nth_error rs i = Some r) as [r Er].
    { destruct (nth_error rs i) eqn:X; eauto. apply nth_error_None in X. assert (i < length (strip_fields (c_in C)))%nat by (apply nth_error_Some; congruence). lia. }
    eapply (prod_get R "Input" (strip_fields (c_in C)) (c_ia C) _ (f_val f) GR Wi Ai); [| |exact F|exact Ew|exact Ei|].
    - inversion Bi as [? Lf|? ? NE _ _|]; subst; [destruct Lf|auto].
    - inversion Bi as [? Lf|? ? _ NZ _|]; subst; [destruct Lf|auto].
    - apply nth_combine. rewrite !nth_error_map, Er, Eg. split; reflexivity.
  Qed.

  Lemma leaves_in fi f : nth_error (a_forms A) fi = Some f -> incl (fst f) (map fst (a_in A)).
  Proof.
    intros E q I. destruct arch_inv as (_ & _ & _ & _ & _ & _ & -> & _).
    destruct (form_at fi f (fun _ => 0) (fun _ => 0) E) as (fo & vm & z & g & Ew & Eg & V & _). rewrite V in I.
    apply in_map_iff in I as ([q' x] & <- & I). cbn [fst]. pose proof (forms_inv _ _ _ _ _ Ew) as IV.
    apply (i_vars _ _ _ _ _ _ _ _ _ _ IV g _ (nth_error_In _ _ Eg)) in I. apply (in_map fst) in I. cbn [fst] in I.
    destruct (i_leafs _ _ _ _ _ _ _ _ _ _ IV) as [_ K1]. apply K1 in I. destruct in_flat_spec as [[_ K2] _]. apply K2. exact I.
  Qed.

  Lemma valid_local fi f l l' : nth_error (a_forms A) fi = Some f ->
    (forall p t, In p (fst f) -> In (p, t) (a_in A) -> lty_const t = true -> l p = l' p) -> adt_fv fi l = adt_fv fi l'.
  Proof.
    intros E H. unfold adt_fv.
    destruct (form_at fi f (own fi) l E) as (fo1 & vm1 & z1 & f1 & E1 & F1 & V1 & D1 & -> & _).
    destruct (form_at fi f (own fi) l' E) as (fo2 & vm2 & z2 & f2 & E2 & F2 & V2 & D2 & -> & _).
    destruct (in_fields _ _ _ _ _ _ _ E1 F1) as (rs1 & gs1 & L1 & N1 & P1 & G1 & Dc1 & Vc1 & Get1).
    destruct (in_fields _ _ _ _ _ _ _ E2 F2) as (rs2 & gs2 & L2 & N2 & P2 & G2 & Dc2 & Vc2 & Get2).
    assert (Forall2 (Forall2 (locked l (own fi) l' (own fi))) (map q_forms rs1) (map q_forms rs2)) as Lk.
    { apply F2_map. apply (F2_join _ _ _ _ _ _ L1 L2). intros [k t] r1 r2 I (fa & Em & _ & R1) (fa' & Em' & _ & R2). cbn [fst snd] in *.
      assert (fa' = fa) by congruence. subst fa'. eapply forms_lock; eauto. }
    apply F2_iprod in Lk. destruct (F2_nth _ _ _ Lk fi gs1 N1) as (gs & N & Lg). assert (gs = gs2) by congruence. subst gs.
    unfold valid_word. assert (forall k, In k (const_fields C) -> field_valid C (f_val f1) k = field_valid C (f_val f2) k) as Hk.
    2: { clear - Hk. induction (const_fields C) as [|k ks IH]; auto. cbn [forallb]. rewrite (Hk k) by now left. rewrite IH; auto. intros k' I. apply Hk. now right. }
    intros k I. unfold const_fields in I. apply in_map_iff in I as ([k0 m] & <- & I). apply filter_In in I as [I Ec]. cbn [fst snd] in *.
    apply In_nth_error in I as [i Ei].
    assert (nth_error (strip_fields (c_in C)) i = Some (k0, strip m)) as Ei' by (unfold strip_fields; rewrite nth_error_map, Ei; auto).
    destruct (F2_nth _ _ _ G1 i _ Ei') as (g1 & Eg1 & (v1 & Hv1 & Mt1)). cbn [fst snd] in Mt1.
    destruct (F2_nth _ _ _ G2 i _ Ei') as (g2 & Eg2 & _).
    destruct (F2_nth _ _ _ Lg i g1 Eg1) as (g & Eg & Lk1). assert (g = g2) by congruence. subst g.
    unfold field_valid. rewrite (Get1 i k0 _ g1 Ei' Eg1), (Get2 i k0 _ g2 Ei' Eg2).
    assert (f_val g1 = f_val g2) as ->; [|reflexivity]. apply Lk1; [|reflexivity].
    intros q Iq. assert (In q (fst f)) as Iqf.
    { rewrite V1, Vc1. apply in_map_iff in Iq as (e & <- & Ie). apply in_map. apply in_concat. exists (f_vars g1). split; auto.
      apply in_map. eapply nth_error_In; eauto. }
    pose proof (leaves_in fi f E q Iqf) as Ii. apply in_map_iff in Ii as ([q' u] & Eq & Ii). cbn [fst] in Eq. subst q'.
    apply (H q u Iqf Ii). destruct arch_inv as (_ & _ & _ & _ & _ & _ & Ein & _). rewrite Ein in Ii.
    apply (mt_vars _ _ _ _ Mt1) in Iq as (r & -> & _). cbn [List.app] in Ii.
    apply (const_leaf k0 m r u (nth_error_In _ _ Ei) Ec Ii).
  Qed.

  Hypothesis Nc : NoDup (map fst cs).

  Theorem adt_arch_ok : arch_ok lty_const A adt_fs adt_fv.
  Proof.
    destruct arch_inv as (fo0 & vm0 & z0 & E0 & Ecs & Ef & Ein & Eout & Ec & Eh & S1 & S2 & V1 & V2). constructor.
    - rewrite Ein. apply in_flat_spec.
    - rewrite Eout. apply out_flat_spec.
    - rewrite Ec. exact Nc.
    - rewrite Ec, Ein. unfold constraints_ok in Ecs. destruct (forallb _ cs) eqn:Fb; [|discriminate]. rewrite forallb_forall in Fb.
      intros q I. apply in_map_iff in I as (e & <- & I). apply Fb in I. apply existsb_exists in I as (q' & I & Eq). apply path_eqb_eq in Eq. now subst q'.
    - exact leaves_in.
    - intros fi f E. destruct (form_at fi f (fun _ => 0) (fun _ => 0) E) as (fo & vm & z & g & Ew & Eg & _ & D & _). rewrite D, map_map. cbn [fst].
      destruct (i_cov _ _ _ _ _ _ _ _ _ _ (forms_inv _ _ _ _ _ Ew) g (nth_error_In _ _ Eg)) as (v & _ & M). apply M.
    - intros fi f tags l q E H. rewrite S1. unfold adt_fs. now rewrite (own_word fi f tags l E H).
    - intros fi f tags l q E H. rewrite S2. unfold adt_fs. now rewrite (full_form fi f tags l E H), (own_word fi f tags l E H).
    - intros fi f tags l E H. rewrite V1. unfold adt_fv. now rewrite (own_word fi f tags l E H).
    - intros fi f tags l E H. rewrite V2. unfold adt_fv. now rewrite (full_form fi f tags l E H), (own_word fi f tags l E H).
    - intros fi f l l' q E H. unfold adt_fs. now rewrite (same_word fi f (own fi) l (own fi) l' E H).
    - exact valid_local.
  Qed.

  Lemma sum_in_tags q g c fs : sub_ty (in_ty C) q (TSum g c fs) -> In q (tag_paths A).
  Proof.
    intros S. destruct arch_inv as (fo0 & vm0 & z0 & E0 & _ & Ef & _). pose proof (forms_inv _ _ _ _ _ E0) as IV.
    destruct (asm_at_spec R _ _ _ _ S Wi Ai) as (_ & _ & _ & Ws). destruct (inhabited _ Ws) as (w & Hw & _).
    destruct (sum_reached _ _ _ S Wi w Hw) as (v & Hv & Sv). destruct (i_ex _ _ _ _ _ _ _ _ _ _ IV v Hv) as (f & If & M).
    inversion Hw as [| | | | |? ? ? k t w' Ik Hw']; subst.
    assert (In (q, k) (f_dict f)) as Id by (apply (mt_dict _ _ _ _ M); exists q; split; auto; exists g, c, fs, w'; auto).
    unfold tag_paths. rewrite Ef. apply in_flat_map. eexists. split; [apply in_map; exact If|]. cbn [snd]. rewrite map_map. cbn [fst].
    apply (in_map fst) in Id. exact Id.
  Qed.

  Theorem adt_arch_ext : arch_ext A.
  Proof.
    intros tags tags' l l' HT HL.
    destruct arch_inv as (fo0 & vm0 & z0 & E0 & Ecs & Ef & Ein & Eout & Ec & Eh & S1 & S2 & V1 & V2).
    assert (in_forms C tags l = in_forms C tags' l') as Eq.
    { unfold in_forms. apply forms_ext.
      - intros r u S L. apply HL. rewrite Ein. destruct in_flat_spec as [[_ K] _]. apply K. exists r, u. auto.
      - intros r g c fs S. apply HT. eapply sum_in_tags; eauto. }
    repeat split; intros; rewrite ?S1, ?S2, ?V1, ?V2; unfold form_word, full_word; now rewrite Eq.
  Qed.

  Lemma tags_in fi f p z : nth_error (a_forms A) fi = Some f -> In (p, z) (snd f) -> In z (tag_vals C p).
  Proof.
    intros E I. destruct (form_at fi f (fun _ => 0) (fun _ => 0) E) as (fo & vm & z0 & g & Ew & Eg & _ & D & _). rewrite D in I.
    apply in_map_iff in I as ([q k] & Eq & I). injection Eq as <- <-. cbn [fst snd].
    destruct (dict_path _ _ _ _ _ _ _ _ Ew (nth_error_In _ _ Eg) I) as (gg & c & fs & S).
    destruct (dict_sum _ _ _ _ _ _ _ _ _ _ _ Ew (nth_error_In _ _ Eg) I S) as [u Iu].
    apply (tag_at_rank q gg c fs k u S Iu).
  Qed.
End Class.

Lemma tag_vals_some C p : tag_vals C p <> [].
Proof.
  unfold tag_vals. destruct (asm_at (c_ia C) p) as [[| | |w0 tagw as_ gs tv]|]; try discriminate.
  intros E. assert (In 0 (pyrange 0 (Z.max 1 (2 ^ tagw)))) as I by (apply pyrange_In; lia). rewrite E in I. destruct I.
Qed.

Lemma lty_vals_some ms t : wf_ty t -> is_leaf t -> lty_vals (ms, t) <> [].
Proof.
  intros W L E. unfold lty_vals in E. cbn [snd] in E. assert (0 <= leaf_bits t) as P.
  { destruct t; try destruct L; cbn [leaf_bits]; try (inversion W; lia). destruct (enum_table ms0); [apply bit_length_nonneg|lia]. }
  assert (In 0 (pyrange 0 (2 ^ leaf_bits t))) as I by (apply pyrange_In; pose proof (Z.pow_pos_nonneg 2 (leaf_bits t)); lia). rewrite E in I. destruct I.
Qed.

Lemma sub_ty_wf t p u : sub_ty t p u -> wf_ty t -> wf_ty u.
Proof. induction 1 as [|c fs k p t u I S IH|g c fs k p t u I S IH]; auto; intros W; apply IH; [eapply wf_members_prod|eapply wf_members_sum]; eauto. Qed.

(** * Instructions *)
Lemma adt_instr_inv C I : adt_instr C = Ok I ->
  i_in I = in_flat C /\ i_out I = out_flat C /\ forall x q, MapModel.i_sem I x q = out_at C (form_word C 0 (fun _ => 0) x) q.
Proof.
  unfold adt_instr. destruct (in_forms C (fun _ => 0) (fun _ => 0)) as [[[fo vm] z]|]; [|discriminate]. cbn [bind].
  destruct (one_output_form C fo) as [[]|]; [|discriminate]. cbn [bind]. destruct (Nat.ltb 1 (length fo)); [discriminate|].
  intros E. injection E as <-. cbn. auto.
Qed.

Lemma adt_instr_ok C I : wf_ty (in_ty C) -> Forall (fun f => wf_mty (snd f)) (c_in C) -> wf_ty (out_ty C) -> Forall (fun f => wf_mty (snd f)) (c_out C) ->
  adt_instr C = Ok I -> instr_ok I.
Proof.
  intros Wi Mi Wo Mo E. apply adt_instr_inv in E as (Ein & Eout & Es). constructor.
  - rewrite Ein. apply in_flat_spec; auto.
  - rewrite Eout. apply out_flat_spec; auto.
  - intros x x' q H. rewrite !Es. unfold form_word, in_forms. rewrite (forms_ext x (fun _ => 0) x' (fun _ => 0)); auto.
    intros r u S L. cbn [List.app]. destruct (in_flat_spec C Wi Mi) as [[_ K] _].
    assert (In r (map fst (in_flat C))) as I' by (apply K; exists r, u; auto). apply in_map_iff in I' as ([r' t] & Eq & I'). cbn [fst] in Eq. subst r'.
    apply (H r t). now rewrite Ein.
Qed.

Lemma eqs_lty : eqs path_eqb lty_eqb.
Proof.
  split; [exact path_eqb_eq|]. intros [m s] [n t]. unfold lty_eqb. cbn [fst snd]. rewrite andb_true_iff, ty_eqb_eq.
  assert (list_eqb String.eqb m n = true <-> m = n) as ->; [|split; [intros [-> ->]; auto|intros [= -> ->]; auto]].
  revert n. induction m as [|x m IH]; intros [|y n]; cbn [list_eqb]; try (split; congruence).
  rewrite andb_true_iff, IH, String.eqb_eq. split; [intros [-> ->]; auto|intros [= -> ->]; auto].
Qed.
