(** Lemmas about the view the mapper has of a class. *)
From Coq Require Import String ZArith List Bool Lia Permutation.
From Verif Require Import Base BaseLemmas BindModel MapIdxModel MapIdxProps BindProps MapModel MapProofs
  AsmModel AsmSpec AsmValid AsmEnum AsmBuild AsmProofs AsmSub AsmMore AadtModel AadtProofs FormModel FormProofs FormMain AdtArchModel.
Import ListNotations.
Open Scope list_scope.
Open Scope Z_scope.

(** * What a run of the loops did *)
Lemma mapM_F2 {A B} (f : A -> res B) l : forall ys, mapM f l = Ok ys -> Forall2 (fun x y => f x = Ok y) l ys.
Proof.
  induction l as [|x l IH]; intros ys E; cbn [mapM] in E; [injection E as <-; constructor|].
  destruct (f x) as [y|] eqn:Ex; [|discriminate]. cbn [bind] in E.
  destruct (mapM f l) as [ys'|] eqn:El; [|discriminate]. cbn [bind] in E. injection E as <-. constructor; auto.
Qed.

Section Runs.
  Variable F : ty -> asm -> path -> option Z -> res (list form * vmap * Z).
  Definition prun (a : asm) (p : path) (f : key * ty) (r : pres) : Prop :=
    exists fa, member_asm a (fst f) = Ok fa /\ q_width r = a_width fa /\
      F (snd f) fa (p ++ [fst f]) None = Ok (q_forms r, q_vm r, q_word r).
  Lemma prod_loop_inv a p : forall fs rs, prod_loop F a p None fs = Ok rs -> Forall2 (prun a p) fs rs.
  Proof.
    induction fs as [|[k t] fs IH]; intros rs E; cbn [prod_loop] in E; [injection E as <-; constructor|].
    destruct (member_asm a k) as [fa|] eqn:Em; [|discriminate]. cbn [bind] in E.
    destruct (F t fa (p ++ [k]) None) as [[[sf svm] x]|] eqn:Er; [|discriminate]. cbn [bind] in E.
    change ((fix go (fs0 : list (key * ty)) : res (list pres) := _) fs) with (prod_loop F a p None fs) in E.
    destruct (prod_loop F a p None fs) as [rest|] eqn:El; [|discriminate]. cbn [bind] in E. injection E as <-.
    constructor; auto. exists fa. auto.
  Qed.

  Definition srun (all : list (key * ty)) (a : asm) (p : path) (tag : Z) (f : key * ty) (r : mres) : Prop :=
    exists fa sf x m, member_asm a (fst f) = Ok fa /\ r_key r = fst f /\
      F (snd f) fa (p ++ [fst f]) None = Ok (sf, r_vm r, x) /\
      sum_from_fields all a (fst f) (FWord (a_width fa) x) (Some tag) 0 = Ok (r_word r) /\
      Forall2 (fun s s' => sum_form all a fa p None tag (fst f) s = Ok s') sf (r_forms r) /\
      aadt_get a (r_word r) (fst f) = Ok m /\ r_match r = match snd m with Some b => b | None => false end.
  Lemma sum_loop_inv g all a p tag : forall fs rs, sum_loop F g all a p None tag fs = Ok rs -> Forall2 (srun all a p tag) fs rs.
  Proof.
    induction fs as [|[k t] fs IH]; intros rs E; cbn [sum_loop] in E; [injection E as <-; constructor|].
    destruct (member_asm a k) as [fa|] eqn:Em; [|discriminate]. cbn [bind] in E.
    destruct (F t fa (p ++ [k]) None) as [[[sf svm] x]|] eqn:Er; [|discriminate]. cbn [bind] in E.
    destruct (sum_from_fields all a k (FWord (a_width fa) x) (Some tag) 0) as [w|] eqn:Ew; [|discriminate]. cbn [bind] in E.
    destruct (mapM (sum_form all a fa p None tag k) sf) as [fs'|] eqn:Ef; [|discriminate]. cbn [bind] in E.
    destruct (aadt_get a w k) as [m|] eqn:Eg; [|discriminate]. cbn [bind] in E.
    change ((fix go (fs0 : list (key * ty)) : res (list mres) := _) fs) with (sum_loop F g all a p None tag fs) in E.
    destruct (sum_loop F g all a p None tag fs) as [rest|] eqn:El; [|discriminate]. cbn [bind] in E. injection E as <-.
    constructor; auto. exists fa, sf, x, m. cbn [fst snd r_key r_vm r_word r_forms r_match]. repeat (split; auto). now apply mapM_F2.
  Qed.
End Runs.

(** * Two valuations *)
Lemma prod_loop_ext F G a p : forall fs, (forall k t fa, In (k, t) fs -> F t fa (p ++ [k]) None = G t fa (p ++ [k]) None) ->
  prod_loop F a p None fs = prod_loop G a p None fs.
Proof.
  induction fs as [|[k t] fs IH]; intros H; cbn [prod_loop]; auto.
  destruct (member_asm a k) as [fa|]; cbn [bind]; auto. rewrite (H k t fa) by (left; auto).
  destruct (G t fa (p ++ [k]) None) as [[[sf svm] x]|]; cbn [bind]; auto.
  change ((fix go (fs0 : list (key * ty)) : res (list pres) := _) fs) with (prod_loop F a p None fs).
  rewrite IH; auto. intros k' t' fa' I. apply H. right; auto.
Qed.
Lemma sum_loop_ext F G g all a p tag : forall fs, (forall k t fa, In (k, t) fs -> F t fa (p ++ [k]) None = G t fa (p ++ [k]) None) ->
  sum_loop F g all a p None tag fs = sum_loop G g all a p None tag fs.
Proof.
  induction fs as [|[k t] fs IH]; intros H; cbn [sum_loop]; auto.
  destruct (member_asm a k) as [fa|]; cbn [bind]; auto. rewrite (H k t fa) by (left; auto).
  destruct (G t fa (p ++ [k]) None) as [[[sf svm] x]|]; cbn [bind]; auto.
  destruct (sum_from_fields all a k (FWord (a_width fa) x) (Some tag) 0); cbn [bind]; auto.
  destruct (mapM (sum_form all a fa p None tag k) sf); cbn [bind]; auto. destruct (aadt_get a a0 k); cbn [bind]; auto.
  change ((fix go (fs0 : list (key * ty)) : res (list mres) := _) fs) with (sum_loop F g all a p None tag fs).
  rewrite IH; auto. intros k' t' fa' I. apply H. right; auto.
Qed.

(** Only the variables at the paths of the type are looked at. *)
Lemma forms_ext l1 t1 l2 t2 t : forall a p,
  (forall r u, sub_ty t r u -> is_leaf u -> l1 (p ++ r) = l2 (p ++ r)) ->
  (forall r g c fs, sub_ty t r (TSum g c fs) -> t1 (p ++ r) = t2 (p ++ r)) ->
  smt_forms l1 t1 t a p None = smt_forms l2 t2 t a p None.
Proof.
  induction t as [|w|w|c ms|c fs IH|g c fs IH] using ty_ind'; intros a p HL HT.
  1-4: cbn [smt_forms]; unfold leaf_form; specialize (HL [] _ (st_here _) Logic.I); rewrite app_nil_r in HL; rewrite HL; reflexivity.
  - cbn [smt_forms]. rewrite (prod_loop_ext (smt_forms l1 t1) (smt_forms l2 t2)); auto.
    intros k t fa I. rewrite Forall_forall in IH. apply (IH (k, t) I).
    + intros r u S L. rewrite snoc_app. apply (HL (k :: r) u); auto. econstructor; eauto.
    + intros r g c' fs' S. rewrite snoc_app. apply (HT (k :: r) g c' fs'). econstructor; eauto.
  - cbn [smt_forms]. destruct a; auto.
    assert (t1 p = t2 p) as Et by (specialize (HT [] _ _ _ (st_here _)); rewrite app_nil_r in HT; exact HT). rewrite Et.
    rewrite (sum_loop_ext (smt_forms l1 t1) (smt_forms l2 t2)); auto.
    intros k t fa I. rewrite Forall_forall in IH. apply (IH (k, t) I).
    + intros r u S L. rewrite snoc_app. apply (HL (k :: r) u); auto. econstructor; eauto.
    + intros r g' c' fs' S. rewrite snoc_app. apply (HT (k :: r) g' c' fs'). econstructor; eauto.
Qed.

(** Dictionaries: keys. *)
Lemma dset_keys {V W} (d : list (path * V)) (e : list (path * W)) q x y : map fst d = map fst e ->
  map fst (dset path_eqb d q x) = map fst (dset path_eqb e q y).
Proof.
  revert e. induction d as [|[q1 x1] d IH]; intros [|[q2 y2] e] E; try discriminate; cbn [dset map fst]; auto.
  cbn [map fst] in E. injection E as -> E. destruct (path_eqb q q2); cbn [map fst]; f_equal; auto.
Qed.
Lemma dupd_keys {V} (l m : list (path * V)) : map fst l = map fst m -> forall d e : list (path * V), map fst d = map fst e ->
  map fst (dupd d l) = map fst (dupd e m).
Proof.
  revert m. induction l as [|[q x] l IH]; intros [|[q' y] m] E d e D; try discriminate; unfold dupd in *; cbn [fold_left fst snd]; auto.
  cbn [map fst] in E. injection E as -> E. apply IH; auto. now apply dset_keys.
Qed.
Lemma folds_keys {V} (ls ms : list (list (path * V))) : Forall2 (fun l m => map fst l = map fst m) ls ms ->
  forall d e, map fst d = map fst e -> map fst (fold_left dupd ls d) = map fst (fold_left dupd ms e).
Proof. induction 1; intros d e D; cbn [fold_left]; auto. apply IHForall2. apply dupd_keys; auto. Qed.
Lemma dset_has {V} (d : list (path * V)) q x r : In r (map fst (dset path_eqb d q x)) <-> r = q \/ In r (map fst d).
Proof.
  induction d as [|[q1 x1] d IH]; cbn [dset map fst In]; [intuition|]. destruct (path_eqb q q1) eqn:E; cbn [map fst In].
  - apply path_eqb_eq in E. subst q1. intuition.
  - rewrite IH. intuition.
Qed.
Lemma dupd_has {V} (l : list (path * V)) : forall d r, In r (map fst (dupd d l)) <-> In r (map fst d) \/ In r (map fst l).
Proof.
  induction l as [|[q x] l IH]; intros d r; unfold dupd in *; cbn [fold_left fst snd map In]; [intuition|].
  rewrite IH, dset_has. intuition.
Qed.
Lemma folds_has {V} (ls : list (list (path * V))) : forall d r,
  In r (map fst (fold_left dupd ls d)) <-> In r (map fst d) \/ exists l, In l ls /\ In r (map fst l).
Proof.
  induction ls as [|l ls IH]; intros d r; cbn [fold_left]; [split; [auto|intros [|(l & [] & _)]; auto]|].
  rewrite IH, dupd_has. split.
  - intros [[H|H]|(m & I & H)]; auto; right; [exists l|exists m]; split; auto; [left|right]; auto.
  - intros [H|(m & [->|I] & H)]; auto. right. eauto.
Qed.

(** The same form under two valuations. *)
Record locked (l1 t1 l2 t2 : path -> Z) (f1 f2 : form) : Prop := {
  lk_dict : f_dict f1 = f_dict f2;
  lk_vars : map fst (f_vars f1) = map fst (f_vars f2);
  lk_val : (forall q, In q (map fst (f_vars f1)) -> l1 q = l2 q) -> (forall q, In q (map fst (f_dict f1)) -> t1 q = t2 q) ->
    f_val f1 = f_val f2 }.

Lemma F2_iprod {A B} (P : A -> B -> Prop) ls ms : Forall2 (Forall2 P) ls ms -> Forall2 (Forall2 P) (iprod ls) (iprod ms).
Proof.
  induction 1 as [|l m ls ms H F IH]; cbn [iprod]; [constructor; constructor|].
  induction H as [|x y l m Hx H IHl]; cbn [flat_map]; [constructor|]. apply Forall2_app; auto.
  clear - Hx IH. induction IH; cbn [map]; constructor; auto.
Qed.
Lemma F2_map {A B C D} (P : C -> D -> Prop) (f : A -> C) (g : B -> D) l m : Forall2 (fun x y => P (f x) (g y)) l m -> Forall2 P (map f l) (map g m).
Proof. induction 1; cbn [map]; constructor; auto. Qed.
Lemma F2_flat {A B C D} (P : C -> D -> Prop) (f : A -> list C) (g : B -> list D) l m :
  Forall2 (fun x y => Forall2 P (f x) (g y)) l m -> Forall2 P (flat_map f l) (flat_map g m).
Proof. induction 1; cbn [flat_map]; [constructor|]. apply Forall2_app; auto. Qed.
Lemma F2_join {A B C} (P : A -> B -> Prop) (Q : A -> C -> Prop) (R : B -> C -> Prop) l m n :
  Forall2 P l m -> Forall2 Q l n -> (forall x y z, In x l -> P x y -> Q x z -> R y z) -> Forall2 R m n.
Proof.
  intros F. revert n. induction F as [|x y l m H F IH]; intros n G K; inversion G as [|? z ? n' Hz G']; subst; constructor.
  - apply (K x); auto. left; auto.
  - apply IH; auto. intros x' y' z' I. apply K. right; auto.
Qed.

Lemma forms_lock l1 t1 l2 t2 t : forall a p o1 v1 z1 o2 v2 z2,
  smt_forms l1 t1 t a p None = Ok (o1, v1, z1) -> smt_forms l2 t2 t a p None = Ok (o2, v2, z2) ->
  Forall2 (locked l1 t1 l2 t2) o1 o2.
Proof.
  induction t as [|w|w|c ms|c fs IH|g c fs IH] using ty_ind'; intros a p o1 v1 z1 o2 v2 z2 E1 E2.
  1-4: cbn [smt_forms] in *; unfold leaf_form in *; injection E1 as <- _ _; injection E2 as <- _ _;
    constructor; [|constructor]; constructor; cbn [f_dict f_vars f_val map fst]; auto; intros H _; rewrite (H p); auto; left; auto.
  - cbn [smt_forms] in *.
    destruct (prod_loop (smt_forms l1 t1) a p None fs) as [rs1|] eqn:L1; [|discriminate]. cbn [bind] in E1.
    destruct (prod_loop (smt_forms l2 t2) a p None fs) as [rs2|] eqn:L2; [|discriminate]. cbn [bind] in E2.
    destruct (prod_from_fields _ _ _ _) in E1; [|discriminate]. cbn [bind] in E1.
    destruct (prod_from_fields _ _ _ _) in E2; [|discriminate]. cbn [bind] in E2.
    destruct (mapM (prod_form fs a (map q_width rs1)) (iprod (map q_forms rs1))) as [out1|] eqn:M1; [|discriminate]. cbn [bind] in E1.
    destruct (mapM (prod_form fs a (map q_width rs2)) (iprod (map q_forms rs2))) as [out2|] eqn:M2; [|discriminate]. cbn [bind] in E2.
    injection E1 as <- _ _. injection E2 as <- _ _. apply prod_loop_inv in L1, L2. apply mapM_F2 in M1, M2.
    assert (Forall2 (fun r1 r2 => q_width r1 = q_width r2 /\ Forall2 (locked l1 t1 l2 t2) (q_forms r1) (q_forms r2)) rs1 rs2) as J.
    { apply (F2_join _ _ _ _ _ _ L1 L2). intros [k t] r1 r2 I (fa & Em & Ew & Er) (fa' & Em' & Ew' & Er'). cbn [fst snd] in *.
      assert (fa' = fa) by congruence. subst fa'. split; [congruence|]. rewrite Forall_forall in IH. eapply (IH (k, t) I); eauto. }
    assert (map q_width rs1 = map q_width rs2) as Ew by (clear - J; induction J as [|? ? ? ? [E _]]; cbn [map]; congruence).
    assert (Forall2 (Forall2 (locked l1 t1 l2 t2)) (iprod (map q_forms rs1)) (iprod (map q_forms rs2))) as P.
    { apply F2_iprod, F2_map. clear - J. induction J as [|? ? ? ? [_ H]]; constructor; auto. }
    rewrite <- Ew in M2. assert (Forall2 (fun l m => exists f, prod_form fs a (map q_width rs1) l = Ok f /\ Forall2 (locked l1 t1 l2 t2) l m) (iprod (map q_forms rs1)) (iprod (map q_forms rs2))) as P'.
    { clear - P M1. revert out1 M1. induction P; intros out1 M1; inversion M1; subst; constructor; eauto. }
    clear P. revert out1 M1 out2 M2. induction P' as [|l m ls ms (f & Ef & H) P' IHP]; intros out1 M1 out2 M2;
      inversion M1 as [|? f1 ? o1 F1 M1']; inversion M2 as [|? f2 ? o2 F2 M2']; subst; constructor; auto.
    clear - H F1 F2. unfold prod_form in *.
    destruct (prod_from_fields fs a (map _ (combine _ (map f_val l))) 0) as [x1|] eqn:X1; [|discriminate].
    destruct (prod_from_fields fs a (map _ (combine _ (map f_val m))) 0) as [x2|] eqn:X2; [|discriminate].
    cbn [bind] in *. injection F1 as <-. injection F2 as <-.
    constructor; cbn [f_dict f_vars f_val].
    + f_equal. clear - H. induction H as [|? ? ? ? L]; cbn [map]; f_equal; auto. apply L.
    + apply folds_keys; auto. apply F2_map. clear - H. induction H as [|? ? ? ? L]; constructor; auto. apply L.
    + intros HL HT. assert (map f_val l = map f_val m) as Ev.
      { assert (forall f, In f l -> (forall q, In q (map fst (f_vars f)) -> l1 q = l2 q) /\ (forall q, In q (map fst (f_dict f)) -> t1 q = t2 q)) as Each.
        { intros f I. split; intros q Iq; [apply HL|apply HT]; apply folds_has; right; eexists; (split; [apply in_map; exact I|exact Iq]). }
        clear - H Each. induction H as [|x y l m L H IH]; cbn [map]; auto. f_equal.
        - destruct (Each x (or_introl eq_refl)). apply L; auto.
        - apply IH. intros f I. apply Each. right; auto. }
      rewrite Ev in X1. congruence.
  - cbn [smt_forms] in *. destruct a as [| | |w0 tagw as_ gs tv]; try discriminate. set (a := ASum w0 tagw as_ gs tv) in *.
    destruct (sum_loop (smt_forms l1 t1) g fs a p None (wrap tagw (t1 p)) fs) as [rs1|] eqn:L1; [|discriminate]. cbn [bind] in E1.
    destruct (sum_loop (smt_forms l2 t2) g fs a p None (wrap tagw (t2 p)) fs) as [rs2|] eqn:L2; [|discriminate]. cbn [bind] in E2.
    destruct (ite_chain rs1) in E1; [|discriminate]. destruct (ite_chain rs2) in E2; [|discriminate]. cbn [bind] in *.
    injection E1 as <- _ _. injection E2 as <- _ _. apply sum_loop_inv in L1, L2.
    apply F2_flat. apply (F2_join _ _ _ _ _ _ L1 L2).
    intros [k t] r1 r2 I (fa & sf & x & m & Em & _ & Er & _ & Fs & _) (fa' & sf' & x' & m' & Em' & _ & Er' & _ & Fs' & _). cbn [fst snd] in *.
    assert (fa' = fa) by congruence. subst fa'. rewrite Forall_forall in IH. pose proof (IH (k, t) I _ _ _ _ _ _ _ _ Er Er') as L.
    clear - L Fs Fs'. revert Fs Fs'. generalize (r_forms r1) (r_forms r2). intros o1 o2 Fs. revert o1 Fs o2.
    induction L as [|f f' sf sf' Lf L IH]; intros o1 Fs o2 Fs'; inversion Fs as [|? g1 ? o1' G1 Fs1]; inversion Fs' as [|? g2 ? o2' G2 Fs2]; subst; constructor; auto.
    clear - Lf G1 G2. unfold sum_form in *. destruct (existsb _ (f_dict f)) in G1; [discriminate|]. destruct (existsb _ (f_dict f')) in G2; [discriminate|].
    destruct (sum_from_fields fs a k (FWord (a_width fa) (f_val f)) (Some (wrap tagw (t1 p))) 0) as [y1|] eqn:Y1; [|discriminate].
    destruct (sum_from_fields fs a k (FWord (a_width fa) (f_val f')) (Some (wrap tagw (t2 p))) 0) as [y2|] eqn:Y2; [|discriminate].
    cbn [bind] in *. injection G1 as <-. injection G2 as <-. constructor; cbn [f_dict f_vars f_val map fst].
    + f_equal. apply Lf.
    + apply Lf.
    + intros HL HT. assert (t1 p = t2 p) as Et by (apply HT; left; auto).
      assert (f_val f = f_val f') as Ev by (apply Lf; auto; intros q Iq; apply HT; right; auto).
      rewrite Et, Ev in Y1. congruence.
Qed.

(** * The word of a form is the word of the value when the tags are those of the form *)
Lemma inv_of R leafv tagv t a p out vm z : good_request R -> wf_ty t -> buildable t -> asm_rel R t a ->
  smt_forms leafv tagv t a p None = Ok (out, vm, z) -> Inv leafv tagv (fun j => j = 0) p t a None out vm z.
Proof.
  intros GR W B A E. destruct (all_work leafv tagv (fun j => j = 0) eq_refl R GR t a p None W B A) as (o & v & x & E' & IV).
  { intros op X. discriminate. }
  rewrite E in E'. injection E' as <- <- <-. exact IV.
Qed.

(** The parts of a form of a product. *)
Lemma prod_parts R leafv tagv c fs a p out vm z : good_request R -> wf_ty (TProd c fs) -> buildable (TProd c fs) -> asm_rel R (TProd c fs) a ->
  smt_forms leafv tagv (TProd c fs) a p None = Ok (out, vm, z) ->
  exists rs, Forall2 (prun (smt_forms leafv tagv) a p) fs rs /\
    prod_from_fields fs a (map fw (combine (map q_width rs) (map q_word rs))) 0 = Ok z /\
    Forall2 (fun l f => Forall2 (fun g r => In g (q_forms r)) l rs /\ good_parts p fs l /\
      prod_from_fields fs a (map fw (combine (map q_width rs) (map f_val l))) 0 = Ok (f_val f) /\
      f_dict f = List.concat (map f_dict l) /\ f_vars f = List.concat (map f_vars l)) (iprod (map q_forms rs)) out.
Proof.
  intros GR W B A E. cbn [smt_forms] in E.
  destruct (prod_loop (smt_forms leafv tagv) a p None fs) as [rs|] eqn:L; [|discriminate]. cbn [bind] in E.
  destruct (prod_from_fields fs a (map (fun e => FWord (q_width e) (q_word e)) rs) 0) as [x|] eqn:X; [|discriminate]. cbn [bind] in E.
  destruct (mapM (prod_form fs a (map q_width rs)) (iprod (map q_forms rs))) as [o|] eqn:M; [|discriminate]. cbn [bind] in E.
  injection E as <- _ <-. exists rs. apply prod_loop_inv in L. split; [exact L|]. split.
  { rewrite <- X. f_equal. clear. induction rs as [|r rs IH]; cbn [map combine fw fst snd]; auto. f_equal. auto. }
  assert (NoDup (map fst fs)) as ND by (inversion W; auto).
  assert (forall k t, In (k, t) fs -> wf_ty t) as WF by (intros k t I; eapply wf_members_prod; eauto).
  assert (forall k t, In (k, t) fs -> buildable t) as BF by (inversion B as [? Lf| |]; subst; [destruct Lf|auto]).
  apply mapM_F2 in M.
  assert (forall l, In l (iprod (map q_forms rs)) -> Forall2 (fun g r => In g (q_forms r)) l rs) as Parts.
  { intros l I. apply iprod_In in I. clear - I. revert l I. induction rs as [|r rs IH]; intros l I; inversion I; subst; constructor; auto. }
  assert (forall l, Forall2 (fun g r => In g (q_forms r)) l rs -> good_parts p fs l) as Good.
  { intros l Fl. pose proof (F2_length _ _ _ Fl) as L1. pose proof (F2_length _ _ _ L) as L2. apply F2_intro; [lia|].
    intros i [k t] g Ei Eg. destruct (F2_nth _ _ _ L i _ Ei) as (r & Er & fa & Em & Ew & Rn). cbn [fst snd] in *.
    destruct (F2_nth _ _ _ Fl i _ Eg) as (r' & Er' & Ig). assert (r' = r) by congruence. subst r'.
    pose proof (nth_error_In _ _ Ei) as I.
    destruct (prod_member R c fs a k t W A I) as (fa' & lo & Em' & Af & _). assert (fa' = fa) by congruence. subst fa'.
    apply (i_cov _ _ _ _ _ _ _ _ _ _ (inv_of R leafv tagv t fa (p ++ [k]) _ _ _ GR (WF k t I) (BF k t I) Af Rn) g Ig). }
  clear X. induction M as [|l f ls o Ef M IH]; constructor.
  - pose proof (Parts l (or_introl eq_refl)) as Fl. pose proof (Good l Fl) as G.
    split; auto. split; auto. unfold prod_form in Ef. change (fun e : Z * Z => FWord (fst e) (snd e)) with fw in Ef.
    destruct (prod_from_fields fs a (map fw (combine (map q_width rs) (map f_val l))) 0) as [y|]; [|discriminate]. cbn [bind] in Ef.
    injection Ef as <-. cbn [f_val f_dict f_vars]. split; auto. destruct (good_under p fs l G) as [U1 U2].
    destruct (parts_concat key p (map fst fs) (map f_dict l) ND U1) as (N1 & _).
    destruct (parts_concat Z p (map fst fs) (map f_vars l) ND U2) as (N2 & _).
    split; [apply (fold_dupd key (map f_dict l) []); auto|apply (fold_dupd Z (map f_vars l) []); auto].
  - apply IH. intros l' I. apply Parts. right; auto.
Qed.

Definition tags_fit (tagv : path -> Z) (p : path) (t : ty) (f : form) : Prop :=
  forall r k g c fs, In (p ++ r, k) (f_dict f) -> sub_ty t r (TSum g c fs) -> rank_of fs k (tagv (p ++ r)).

Lemma forms_select R leafv tagv t : good_request R -> forall a p out vm z, wf_ty t -> buildable t -> asm_rel R t a ->
  smt_forms leafv tagv t a p None = Ok (out, vm, z) -> forall f, In f out -> tags_fit tagv p t f -> z = f_val f.
Proof.
  intros GR. induction t as [|w|w|c ms|c fs IH|g c fs IH] using ty_ind'; intros a p out vm z W B A E f I T.
  1-4: cbn [smt_forms] in E; unfold leaf_form in E; injection E as <- _ <-; destruct I as [<-|[]]; reflexivity.
  - destruct (prod_parts R leafv tagv c fs a p out vm z GR W B A E) as (rs & L & Ez & O).
    apply In_nth_error in I as [j Ej]. destruct (F2_nth' _ _ _ O j f Ej) as (l & _ & Fl & G & Ef & Ed & _).
    assert (map q_word rs = map f_val l) as Ev; [|rewrite Ev in Ez; congruence].
    assert (NoDup (map fst fs)) as ND by (inversion W; auto).
    pose proof (F2_length _ _ _ Fl) as L1. pose proof (F2_length _ _ _ L) as L2.
    assert (Forall2 (fun g r => q_word r = f_val g) l rs) as H; [|clear - H; induction H; cbn [map]; f_equal; auto].
    apply F2_intro; [auto|]. intros i g r Eg Er. destruct (F2_nth' _ _ _ L i r Er) as ([k t] & Ei & fa & Em & Ew & Rn). cbn [fst snd] in *.
    destruct (F2_nth _ _ _ Fl i g Eg) as (r' & Er' & Ig). assert (r' = r) by congruence. subst r'.
    pose proof (nth_error_In _ _ Ei) as I.
    destruct (prod_member R c fs a k t W A I) as (fa' & lo & Em' & Af & _). assert (fa' = fa) by congruence. subst fa'.
    rewrite Forall_forall in IH. eapply (IH (k, t) I); [eapply wf_members_prod; eauto| |exact Af|exact Rn|exact Ig|].
    { inversion B as [? Lf|? ? _ _ BF|]; subst; [destruct Lf|]. eapply BF; eauto. }
    intros r' k' g' c' fs' Id S. cbn [snd] in S. rewrite snoc_app in *. apply (T (k :: r') k' g' c' fs'); [|econstructor; eauto].
    apply (part_dict p fs ND l f G Ed i k t g Ei Eg). exact Id.
  - inversion B as [? Lf| |? ? ? L2 NW BF]; subst; [destruct Lf|]. assert (NoDup (map fst fs)) as ND by (inversion W; auto).
    assert (forall k t, In (k, t) fs -> wf_ty t) as WF by (intros k t Ik; eapply wf_members_sum; eauto).
    cbn [smt_forms] in E. destruct a as [| | |w0 tagw as_ gs tv]; try discriminate. set (a := ASum w0 tagw as_ gs tv) in *.
    destruct (sum_loop (smt_forms leafv tagv) g fs a p None (wrap tagw (tagv p)) fs) as [rs|] eqn:L; [|discriminate]. cbn [bind] in E.
    destruct (ite_chain rs) as [y|] eqn:Ey; [|discriminate]. cbn [bind] in E. injection E as <- _ <-. apply sum_loop_inv in L.
    pose proof (F2_length _ _ _ L) as Ll. assert (rs <> []) as NE by (intros ->; cbn in Ll; lia).
    destruct (ite_chain_spec rs NE) as (y' & Ey' & _ & Uy). rewrite Ey in Ey'. injection Ey' as <-.
    apply in_flat_map in I as (r & Ir & I). apply In_nth_error in Ir as [i Er]. apply In_nth_error in I as [j Ej].
    assert (forall i k t r, nth_error fs i = Some (k, t) -> nth_error rs i = Some r ->
       srun (smt_forms leafv tagv) fs a p (wrap tagw (tagv p)) (k, t) r ->
       exists pre post, fs = pre ++ (k, t) :: post /\ r_match r = (wrap tagw (tagv p) =? rank_at pre k post) /\ 0 <= rank_at pre k post < 2 ^ tagw) as Match.
    { intros i0 k t r0 Ei0 Er0 (fa & sf & x & m & Em & Ek & Rn & Ew & Fs & Eg & Mr). cbn [fst snd] in *. pose proof (nth_error_In _ _ Ei0) as Ik.
      destruct (sum_words R g c fs a k t GR W A Ik)
        as (w1 & tagw' & as' & gs' & tv' & fa' & pre & post & Ea & Etw & Hfs & Em' & Af & Rr & Lw & Pt & Pfa & _ & SW).
      unfold a in Ea. injection Ea as <- <- <- <- <-. assert (fa' = fa) by congruence. subst fa'.
      pose proof (inv_of R leafv tagv t fa (p ++ [k]) _ _ _ GR (WF k t Ik) (BF k t Ik) Af Rn) as IV.
      destruct (proj2 (SW (wrap tagw (tagv p)) x (wrap_range _ _ Pt) (i_rng _ _ _ _ _ _ _ _ _ _ IV)) L2 (NW k t Ik)) as (op & Eop & _ & Egop & _).
      assert (op = r_word r0) by congruence. subst op. rewrite Egop in Eg. injection Eg as <-. cbn [snd] in Mr. exists pre, post. auto. }
    destruct (F2_nth' _ _ _ L i r Er) as ([k t] & Ei & Sr). destruct (Match i k t r Ei Er Sr) as (pre & post & Hfs & Mr & Rr).
    destruct Sr as (fa & sf & x & m & Em & Ek & Rn & Ew & Fs & Eg & Mr'). cbn [fst snd] in *.
    destruct (F2_nth' _ _ _ Fs j f Ej) as (f0 & Ef0 & Sf). pose proof (nth_error_In _ _ Ef0) as If0. pose proof (nth_error_In _ _ Ei) as Ik.
    unfold sum_form in Sf. destruct (existsb _ (f_dict f0)); [discriminate|].
    destruct (sum_from_fields fs a k (FWord (a_width fa) (f_val f0)) (Some (wrap tagw (tagv p))) 0) as [y0|] eqn:Y0; [|discriminate].
    cbn [bind] in Sf. injection Sf as <-. cbn [f_val]. unfold tags_fit in T. cbn [f_dict] in T.
    assert (wrap tagw (tagv p) = rank_at pre k post) as Et.
    { destruct (T [] k g c fs) as (pre' & u & post' & Hfs' & Eq); [rewrite app_nil_r; left; auto|constructor|]. rewrite app_nil_r in Eq.
      destruct (nodup_split_unique fs pre pre' post post' k t u ND Hfs Hfs') as (<- & _ & <-). rewrite Eq. apply wrap_small. exact Rr. }
    assert (y = r_word r) as ->.
    { apply Uy; [eapply nth_error_In; eauto|rewrite Mr, Et; apply Z.eqb_refl|]. intros r' Ir' M'.
      apply In_nth_error in Ir' as [i' Er']. destruct (F2_nth' _ _ _ L i' r' Er') as ([k' t'] & Ei' & Sr').
      destruct (Match i' k' t' r' Ei' Er' Sr') as (pre' & post' & Hfs' & Mr2 & _). rewrite Mr2, Et in M'. apply Z.eqb_eq in M'.
      assert (k = k') as <- by exact (rank_inj fs pre pre' post post' k t k' t' Hfs Hfs' M').
      assert (i = i') by exact (nth_key_unique fs i i' k t t' ND Ei Ei'). subst i'. congruence. }
    assert (x = f_val f0) as Ex; [|rewrite Ex in Ew; congruence].
    destruct (sum_words R g c fs a k t GR W A Ik)
      as (w1 & tagw' & as' & gs' & tv' & fa' & pre0 & post0 & _ & _ & _ & Em' & Af & _). assert (fa' = fa) by congruence. subst fa'.
    rewrite Forall_forall in IH. eapply (IH (k, t) Ik); [eauto|eauto|exact Af|exact Rn|exact If0|].
    intros r' k' g' c' fs' Id S. cbn [snd] in S. rewrite snoc_app in *. apply (T (k :: r') k' g' c' fs'); [right; exact Id|econstructor; eauto].
Qed.

(** * Fields of a word built from words *)
Lemma shadow_step w fs' k : sub_step (ATuple w (map shadow_asm fs')) k =
  match sub_step (ATuple w fs') k with Some (lay, f) => Some (lay, AField (TBV (a_width f)) (a_width f)) | None => None end.
Proof.
  induction fs' as [|[[k' lay] f] fs' IH]; [reflexivity|]. cbn [map]. unfold shadow_asm at 1. cbn [fst snd]. cbn [sub_step].
  destruct (key_eqb k k'); [reflexivity|]. exact IH.
Qed.

Lemma prod_get R c fs a wxs op : good_request R -> wf_ty (TProd c fs) -> asm_rel R (TProd c fs) a -> fs <> [] ->
  (length fs = 1%nat \/ forall k t, In (k, t) fs -> ~ swidth t 0) ->
  Forall2 (fun f wx => swidth (snd f) (fst wx) /\ 0 <= snd wx < 2 ^ fst wx) fs wxs ->
  prod_from_fields fs a (map fw wxs) 0 = Ok op ->
  forall i k t w x, nth_error fs i = Some (k, t) -> nth_error wxs i = Some (w, x) -> aadt_get a op k = Ok (x, None).
Proof.
  intros GR W A NE Pos F2 Eop i k t w0 x Ei Ex. inversion A as [| | | |? ? w fs' T|]; subst.
  assert (Forall (fun f => wf_ty (snd f)) fs) as WF by (inversion W; auto).
  assert (NoDup (map fst fs)) as ND by (inversion W; auto).
  set (ws := map (fun e : key * (Z * Z) * asm => a_width (snd e)) fs').
  assert (length ws = length fs) as Lw by (unfold ws; rewrite map_length; eapply tup_rel_length; eauto).
  assert (Forall (fun w => 0 <= w) ws) as Pw by (unfold ws; eapply tup_rel_widths; eauto).
  assert (map fst wxs = ws) as Ews.
  { assert (Forall2 (fun (f : key * ty) (wx : Z * Z) => swidth (snd f) (fst wx)) fs wxs) as Fw.
    { clear - F2. induction F2 as [|? ? ? ? [S _]]; constructor; auto. }
    unfold ws. clear - T Fw WF. revert wxs Fw.
    induction T as [b|b k t r w a rest Ha Tr IH]; intros wxs Fw; inversion Fw as [|? wx ? wxs' Sw Fw']; subst; [reflexivity|].
    inversion WF as [|? ? W1 W2]; subst. cbn [map snd]. f_equal; [|apply IH; auto].
    cbn [snd] in *. apply (swidth_fun t); [exact Sw|]. apply (asm_rel_width R t W1 a Ha). }
  pose proof (F2_length _ _ _ F2) as Lx.
  pose proof (shadow_rel R 0 fs w fs' T) as T'. fold ws in T'.
  assert (prod_from_fields fs (ATuple w fs') (map fw wxs) 0 =
          prod_from_fields (shadow fs ws) (ATuple w (map shadow_asm fs')) (map fw wxs) 0) as Es.
  { cbn [prod_from_fields]. rewrite (shadow_new R 0 fs w fs' T). fold ws.
    destruct (new_fields (shadow fs ws) (map shadow_asm fs') (map fw wxs)); cbn [bind]; auto. f_equal.
    rewrite map_map. apply map_ext. auto. }
  assert (nth_error (shadow fs ws) i = Some (k, TBV w0)) as Esh.
  { unfold shadow. apply nth_combine. rewrite !nth_error_map, Ei, <- Ews, nth_error_map, Ex. auto. }
  assert (Forall2 (fun f wx => swidth (snd f) (fst wx) /\ 0 <= snd wx < 2 ^ fst wx) (shadow fs ws) wxs) as F2'.
  { rewrite <- Ews. clear - F2. induction F2 as [|f wx fs wxs [S Rg] F IH]; cbn [map shadow combine]; constructor; auto.
    cbn [fst snd]. split; auto. constructor. }
  destruct (prod_words R c (shadow fs ws) (ATuple w (map shadow_asm fs')) wxs) as (op' & Eop' & _ & En); auto.
  - apply shadow_wf; auto.
  - constructor. auto.
  - intros Z0. rewrite Z0 in Esh. destruct i; discriminate.
  - destruct Pos as [L1|Pos].
    + left. unfold shadow. rewrite combine_length, !map_length. lia.
    + right. intros k' t' I S0. apply In_nth_error in I as [j Ej].
      unfold shadow in Ej. apply nth_combine in Ej as [Ek' Et']. rewrite nth_error_map in Et'.
      destruct (nth_error ws j) as [wj|] eqn:Ewj; [|discriminate]. injection Et' as <-. inversion S0; subst.
      rewrite <- Ews, nth_error_map in Ewj. destruct (nth_error wxs j) as [[w2 x2]|] eqn:Exj; [|discriminate]. cbn in Ewj. injection Ewj as ->.
      destruct (F2_nth' _ _ _ F2 j _ Exj) as ([k2 t2] & Ej2 & S2 & _). apply (Pos k2 t2); [eapply nth_error_In; eauto|exact S2].
  - rewrite Es in Eop. rewrite Eop in Eop'. injection Eop' as <-.
    assert (enc (fun j => j = 0) (TProd c (shadow fs ws)) op (VProd (map (fun wx => VBV (snd wx)) wxs))) as E.
    { apply En; [reflexivity| |rewrite map_length; auto].
      rewrite <- Ews. clear - F2. induction F2 as [|f wx fs1 wxs [S Rg] F IH]; cbn [map shadow combine]; constructor; auto.
      cbn [fst snd]. constructor. exact Rg. }
    destruct (aadt_get_spec R (fun j => j = 0) (TProd c (shadow fs ws)) (VProd (map (fun wx => VBV (snd wx)) wxs)) k (TBV w0) (VBV x)
       (ATuple w (map shadow_asm fs')) op) as (x' & m & a' & Eg & E' & _); auto.
    { econstructor; [exact Esh|rewrite nth_error_map, Ex; reflexivity|constructor]. }
    { apply shadow_wf; auto. }
    { constructor; auto. }
    assert (x' = x) as -> by (inversion E'; auto).
    unfold aadt_get in *. rewrite shadow_step in Eg. destruct (sub_step (ATuple w fs') k) as [[[lo hi] f]|]; [|discriminate].
    cbn [a_width] in Eg. injection Eg as <- _. reflexivity.
Qed.
