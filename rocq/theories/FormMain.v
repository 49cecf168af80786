(** The main induction about [smt_forms]. *)
From Coq Require Import String ZArith List Bool Lia Permutation.
From Verif Require Import Base BaseLemmas BindModel MapIdxProps BindProps MapModel
  AsmModel AsmSpec AsmValid AsmEnum AsmBuild AsmProofs AsmSub AadtModel AadtProofs FormModel FormProofs.
Import ListNotations.
Open Scope list_scope.
Open Scope Z_scope.

Lemma snoc_app {A} (p : list A) k r : (p ++ [k]) ++ r = p ++ k :: r.
Proof. rewrite <- app_assoc. auto. Qed.

Lemma F2_nth {A B} (P : A -> B -> Prop) l m : Forall2 P l m -> forall i x, nth_error l i = Some x ->
  exists y, nth_error m i = Some y /\ P x y.
Proof. induction 1 as [|a b l m H F IH]; intros [|i] x E; try discriminate; cbn in *; [injection E as <-; eauto|eauto]. Qed.
Lemma F2_nth' {A B} (P : A -> B -> Prop) l m : Forall2 P l m -> forall i y, nth_error m i = Some y ->
  exists x, nth_error l i = Some x /\ P x y.
Proof. induction 1 as [|a b l m H F IH]; intros [|i] x E; try discriminate; cbn in *; [injection E as <-; eauto|eauto]. Qed.
Lemma F2_intro {A B} (P : A -> B -> Prop) l m : length l = length m ->
  (forall i x y, nth_error l i = Some x -> nth_error m i = Some y -> P x y) -> Forall2 P l m.
Proof.
  revert m. induction l as [|a l IH]; intros [|b m] L H; try discriminate; constructor; [apply (H 0%nat); auto|].
  apply IH; [cbn in L; lia|]. intros i x y Ei Ej. apply (H (S i)); auto.
Qed.
Lemma nth_same_length {A B} (l : list A) (m : list B) i x : length l = length m -> nth_error l i = Some x ->
  exists y, nth_error m i = Some y.
Proof.
  intros L E. destruct (nth_error m i) eqn:N; eauto. apply nth_error_None in N.
  assert (nth_error l i <> None) by congruence. apply nth_error_Some in H. lia.
Qed.

(** ** Keys of varmaps *)
Definition is_sum (t : ty) : Prop := match t with TSum _ _ _ => True | _ => False end.
Definition keyed {V} (p : path) (t : ty) (Q : ty -> Prop) (l : list (path * V)) : Prop :=
  NoDup (map fst l) /\ forall q, In q (map fst l) <-> exists r t', q = p ++ r /\ sub_ty t r t' /\ Q t'.

Lemma keyed_under V p k t Q (l : list (path * V)) : keyed (p ++ [k]) t Q l -> under p k l.
Proof.
  intros [N H]. split; auto. intros q I. apply H in I as (r & t' & -> & _). exists r. apply snoc_app.
Qed.

Lemma F2_under V (p : path) (fs : list (key * ty)) Q (ls : list (list (path * V))) :
  Forall2 (fun f l => keyed (p ++ [fst f]) (snd f) Q l) fs ls -> Forall2 (under p) (map fst fs) ls.
Proof. induction 1; cbn [map]; constructor; auto. eapply keyed_under; eauto. Qed.

Lemma keyed_members V p (fs : list (key * ty)) Q (ls : list (list (path * V))) : NoDup (map fst fs) ->
  Forall2 (fun f l => keyed (p ++ [fst f]) (snd f) Q l) fs ls ->
  NoDup (map fst (List.concat ls)) /\
  (forall q, In q (map fst (List.concat ls)) <->
     exists k r t t', q = p ++ k :: r /\ In (k, t) fs /\ sub_ty t r t' /\ Q t') /\
  forall i k t l, nth_error fs i = Some (k, t) -> nth_error ls i = Some l ->
    forall r x, In (p ++ k :: r, x) (List.concat ls) <-> In ((p ++ [k]) ++ r, x) l.
Proof.
  intros ND F. destruct (parts_concat V p (map fst fs) ls ND (F2_under V p fs Q ls F)) as (A1 & A2 & A3).
  split; auto. split.
  - intros q. split.
    + clear - F. induction F as [|[k t] l fs ls [N H] F IH]; cbn [List.concat map]; [intros []|].
      rewrite map_app. intros I. apply in_app_iff in I as [I|I].
      * apply H in I as (r & t' & -> & St & Qt). exists k, r, t, t'. cbn [fst snd] in *. rewrite snoc_app. split; auto. split; [left|]; auto.
      * destruct (IH I) as (k' & r & t0 & t' & -> & It & St & Qt). exists k', r, t0, t'. split; auto. split; [right|]; auto.
    + intros (k & r & t & t' & -> & It & St & Qt). apply In_nth_error in It as [i Ei].
      destruct (F2_nth _ _ _ F i _ Ei) as (l & El & N & H). cbn [fst snd] in H.
      assert (In (p ++ k :: r) (map fst l)) as I by (apply H; exists r, t'; rewrite snoc_app; auto).
      apply in_map_iff in I as ([q x] & Eq & I). cbn in Eq. subst q. apply in_map_iff. exists (p ++ k :: r, x). split; auto.
      apply in_concat. exists l. split; auto. eapply nth_error_In; eauto.
  - intros i k t l Ef El r x. rewrite snoc_app. apply (A3 i k l); auto. rewrite nth_error_map, Ef. auto.
Qed.

Lemma keyed_prod V p c (fs : list (key * ty)) Q (ls : list (list (path * V))) : NoDup (map fst fs) -> ~ Q (TProd c fs) ->
  Forall2 (fun f l => keyed (p ++ [fst f]) (snd f) Q l) fs ls ->
  keyed p (TProd c fs) Q (List.concat ls) /\ fold_left dupd ls [] = List.concat ls.
Proof.
  intros ND NQ F. destruct (keyed_members V p fs Q ls ND F) as (A1 & A2 & A3). split; [split|]; auto.
  - intros q. rewrite A2. split.
    + intros (k & r & t & t' & -> & It & St & Qt). exists (k :: r), t'. split; auto. split; auto. econstructor; eauto.
    + intros (r & t' & -> & St & Qt). inversion St as [|? ? k r' t ? It St'|]; subst; [contradiction|].
      exists k, r', t, t'. auto.
  - apply fold_dupd. auto.
Qed.

Lemma keyed_sum_no V p g c (fs : list (key * ty)) Q (ls : list (list (path * V))) : NoDup (map fst fs) -> ~ Q (TSum g c fs) ->
  Forall2 (fun f l => keyed (p ++ [fst f]) (snd f) Q l) fs ls ->
  keyed p (TSum g c fs) Q (List.concat ls) /\ fold_left dupd ls [] = List.concat ls.
Proof.
  intros ND NQ F. destruct (keyed_members V p fs Q ls ND F) as (A1 & A2 & A3). split; [split|]; auto.
  - intros q. rewrite A2. split.
    + intros (k & r & t & t' & -> & It & St & Qt). exists (k :: r), t'. split; auto. split; auto. econstructor; eauto.
    + intros (r & t' & -> & St & Qt). inversion St as [| |? ? ? k r' t ? It St']; subst; [contradiction|].
      exists k, r', t, t'. auto.
  - apply fold_dupd. auto.
Qed.

Lemma keyed_sum_yes V p g c (fs : list (key * ty)) (Q : ty -> Prop) (h : V) (ls : list (list (path * V))) : NoDup (map fst fs) -> Q (TSum g c fs) ->
  Forall2 (fun f l => keyed (p ++ [fst f]) (snd f) Q l) fs ls ->
  keyed p (TSum g c fs) Q ((p, h) :: List.concat ls) /\ fold_left dupd ls [(p, h)] = (p, h) :: List.concat ls.
Proof.
  intros ND NQ F. destruct (keyed_members V p fs Q ls ND F) as (A1 & A2 & A3).
  assert (NoDup (map fst ((p, h) :: List.concat ls))) as N.
  { cbn [map fst]. constructor; auto. intros I. apply A2 in I as (k & r & _ & _ & E & _).
    rewrite <- (app_nil_r p) in E at 1. apply app_inv_head in E. discriminate. }
  split; [split|]; auto.
  - intros q. cbn [map fst In]. rewrite A2. split.
    + intros [<-|(k & r & t & t' & -> & It & St & Qt)].
      * exists [], (TSum g c fs). rewrite app_nil_r. split; auto. split; auto. constructor.
      * exists (k :: r), t'. split; auto. split; auto. econstructor; eauto.
    + intros (r & t' & -> & St & Qt). inversion St as [| |? ? ? k r' t ? It St']; subst; [left; rewrite app_nil_r; auto|].
      right. exists k, r', t, t'. auto.
  - rewrite fold_dupd; auto.
Qed.

Lemma fold_vupd_leaf l : forall v, m_leaf (fold_left vupd l v) = fold_left dupd (map m_leaf l) (m_leaf v).
Proof. induction l as [|x l IH]; intros v; cbn [fold_left map]; auto. rewrite IH. auto. Qed.
Lemma fold_vupd_tag l : forall v, m_tag (fold_left vupd l v) = fold_left dupd (map m_tag l) (m_tag v).
Proof. induction l as [|x l IH]; intros v; cbn [fold_left map]; auto. rewrite IH. auto. Qed.
Lemma fold_vupd_match l : forall v, m_match (fold_left vupd l v) = fold_left dupd (map m_match l) (m_match v).
Proof. induction l as [|x l IH]; intros v; cbn [fold_left map]; auto. rewrite IH. auto. Qed.

(** ** Forms of products *)
Section ProdForm.
  Variables (p : path) (c : string) (fs : list (key * ty)).
  Hypothesis ND : NoDup (map fst fs).

  Definition member_of (v : val) (k : key) (t : ty) (f : form) : Prop := matches (p ++ [k]) t v f.

  Definition good_parts (fl : list form) : Prop :=
    Forall2 (fun ft f => exists v, has_ty (snd ft) v /\ matches (p ++ [fst ft]) (snd ft) v f) fs fl.

  Lemma matches_under t v k f : matches (p ++ [k]) t v f -> under p k (f_dict f) /\ under p k (f_vars f).
  Proof.
    intros [D V N1 N2]. split; split; auto.
    - intros q I. apply in_map_iff in I as ([q' x] & E & I). cbn in E. subst q'. apply D in I as (r & -> & _).
      exists r. apply snoc_app.
    - intros q I. apply V in I as (r & -> & _). exists r. apply snoc_app.
  Qed.

  Lemma good_under fl : good_parts fl ->
    Forall2 (under p) (map fst fs) (map f_dict fl) /\ Forall2 (under p) (map fst fs) (map f_vars fl).
  Proof.
    unfold good_parts. clear ND. intros F. induction F as [|[k t] f fs' fl (v & H & M) F [IH1 IH2]]; cbn [map]; [split; constructor|].
    destruct (matches_under t v k f M) as [U1 U2]. split; constructor; auto.
  Qed.

  Variables (fl : list form) (f : form).
  Hypothesis G : good_parts fl.
  Hypothesis Ed : f_dict f = List.concat (map f_dict fl).
  Hypothesis Ev : f_vars f = List.concat (map f_vars fl).

  Lemma part_dict i k t g : nth_error fs i = Some (k, t) -> nth_error fl i = Some g ->
    forall r x, In (p ++ k :: r, x) (f_dict f) <-> In (p ++ k :: r, x) (f_dict g).
  Proof.
    intros Ef Eg r x. destruct (good_under fl G) as [U _].
    destruct (parts_concat key p (map fst fs) (map f_dict fl) ND U) as (_ & _ & A). rewrite Ed.
    apply (A i k (f_dict g)); rewrite nth_error_map, ?Ef, ?Eg; auto.
  Qed.
  Lemma part_vars i k t g : nth_error fs i = Some (k, t) -> nth_error fl i = Some g ->
    forall r x, In (p ++ k :: r, x) (f_vars f) <-> In (p ++ k :: r, x) (f_vars g).
  Proof.
    intros Ef Eg r x. destruct (good_under fl G) as [_ U].
    destruct (parts_concat Z p (map fst fs) (map f_vars fl) ND U) as (_ & _ & A). rewrite Ev.
    apply (A i k (f_vars g)); rewrite nth_error_map, ?Ef, ?Eg; auto.
  Qed.
  Lemma part_vars_keys i k t g : nth_error fs i = Some (k, t) -> nth_error fl i = Some g ->
    forall r, In (p ++ k :: r) (map fst (f_vars f)) <-> In (p ++ k :: r) (map fst (f_vars g)).
  Proof.
    intros Ef Eg r. split; intros I; apply in_map_iff in I as ([q x] & E & I); cbn in E; subst q;
      apply in_map_iff; exists (p ++ k :: r, x); split; auto; eapply part_vars; eauto.
  Qed.
  Lemma parts_nodup : NoDup (map fst (f_dict f)) /\ NoDup (map fst (f_vars f)).
  Proof.
    destruct (good_under fl G) as [U1 U2]. rewrite Ed, Ev.
    split; [apply (parts_concat key p (map fst fs) (map f_dict fl) ND U1)|apply (parts_concat Z p (map fst fs) (map f_vars fl) ND U2)].
  Qed.
  Lemma parts_dict_shape q x : In (q, x) (f_dict f) -> exists i k t g r, nth_error fs i = Some (k, t) /\ nth_error fl i = Some g /\ q = p ++ k :: r.
  Proof.
    rewrite Ed. intros I. apply in_concat in I as (l & Il & I). apply in_map_iff in Il as (g & <- & Ig).
    apply In_nth_error in Ig as [i Ei]. destruct (F2_nth' _ _ _ G i g Ei) as (kt & Ek & v & H & M). destruct kt as [k t]. cbn [fst snd] in M.
    apply (mt_dict _ _ _ _ M) in I. destruct I as (r & Er & _). exists i, k, t, g, r. rewrite snoc_app in Er. auto.
  Qed.
  Lemma parts_vars_shape q : In q (map fst (f_vars f)) -> exists i k t g r, nth_error fs i = Some (k, t) /\ nth_error fl i = Some g /\ q = p ++ k :: r.
  Proof.
    rewrite Ev. intros I. apply in_map_iff in I as ([q' x] & E & I). cbn in E. subst q'.
    apply in_concat in I as (l & Il & I). apply in_map_iff in Il as (g & <- & Ig).
    apply In_nth_error in Ig as [i Ei]. destruct (F2_nth' _ _ _ G i g Ei) as ([k t] & Ek & v & H & M). cbn [fst snd] in M.
    apply (in_map fst) in I. apply (proj1 (mt_vars _ _ _ _ M _)) in I; destruct I as (r & Er & _). cbn [fst] in Er. exists i, k, t, g, r. rewrite Er, snoc_app. auto.
  Qed.

  Lemma prod_matches vs : length vs = length fs ->
    ((forall i k t v g, nth_error fs i = Some (k, t) -> nth_error vs i = Some v -> nth_error fl i = Some g -> matches (p ++ [k]) t v g) <->
     matches p (TProd c fs) (VProd vs) f).
  Proof.
    intros L. pose proof (F2_length _ _ _ G) as Lf. destruct parts_nodup as [Nd Nv]. split.
    - intros H. constructor; auto.
      + intros q x. split.
        * intros I. destruct (parts_dict_shape q x I) as (i & k & t & g & r & Ef & Eg & ->).
          destruct (nth_same_length fs vs i _ (eq_sym L) Ef) as [v Evv].
          apply (part_dict i k t g Ef Eg) in I. rewrite <- snoc_app in I. apply (proj1 (mt_dict _ _ _ _ (H i k t v g Ef Evv Eg) _ _)) in I; destruct I as (r' & E & C).
          apply app_inv_head in E. subst r'. exists (k :: r). split; auto. eapply chooses_prod; eauto.
        * intros (r & -> & C). destruct (chooses_prod_inv _ _ _ _ _ C) as (i & k & t & v & r' & -> & Ef & Evv).
          destruct (nth_same_length fs fl i _ Lf Ef) as [g Eg]. apply (part_dict i k t g Ef Eg).
          rewrite <- snoc_app. apply (mt_dict _ _ _ _ (H i k t v g Ef Evv Eg)). exists r'. split; auto. eapply chooses_prod; eauto.
      + intros q. split.
        * intros I. destruct (parts_vars_shape q I) as (i & k & t & g & r & Ef & Eg & ->).
          destruct (nth_same_length fs vs i _ (eq_sym L) Ef) as [v Evv].
          apply (part_vars_keys i k t g Ef Eg) in I. rewrite <- snoc_app in I. apply (proj1 (mt_vars _ _ _ _ (H i k t v g Ef Evv Eg) _)) in I; destruct I as (r' & E & C).
          apply app_inv_head in E. subst r'. exists (k :: r). split; auto. eapply leaf_prod; eauto.
        * intros (r & -> & C). destruct (leaf_prod_inv _ _ _ _ C) as (i & k & t & v & r' & -> & Ef & Evv).
          destruct (nth_same_length fs fl i _ Lf Ef) as [g Eg]. apply (part_vars_keys i k t g Ef Eg).
          rewrite <- snoc_app. apply (mt_vars _ _ _ _ (H i k t v g Ef Evv Eg)). exists r'. split; auto. eapply leaf_prod; eauto.
    - intros M i k t v g Ef Evv Eg. destruct (F2_nth _ _ _ G i _ Ef) as (g' & Eg' & v' & Hv' & M'). cbn [fst snd] in *.
      assert (g' = g) by congruence. subst g'. constructor; [| |apply M'|apply M'].
      + intros q x. split.
        * intros I. pose proof I as I'. apply (mt_dict _ _ _ _ M') in I' as (r & -> & _). rewrite snoc_app in I.
          apply (part_dict i k t g Ef Eg) in I. apply (proj1 (mt_dict _ _ _ _ M _ _)) in I; destruct I as (r' & E & C). apply app_inv_head in E. subst r'.
          exists r. split; auto. eapply chooses_prod; eauto.
        * intros (r & -> & C). rewrite snoc_app. apply (part_dict i k t g Ef Eg). apply (mt_dict _ _ _ _ M). exists (k :: r). split; auto.
          eapply chooses_prod; eauto.
      + intros q. split.
        * intros I. pose proof I as I'. apply (mt_vars _ _ _ _ M') in I' as (r & -> & _). rewrite snoc_app in I.
          apply (part_vars_keys i k t g Ef Eg) in I. apply (proj1 (mt_vars _ _ _ _ M _)) in I; destruct I as (r' & E & C). apply app_inv_head in E. subst r'.
          exists r. split; auto. eapply leaf_prod; eauto.
        * intros (r & -> & C). rewrite snoc_app. apply (part_vars_keys i k t g Ef Eg). apply (mt_vars _ _ _ _ M). exists (k :: r). split; auto.
          eapply leaf_prod; eauto.
  Qed.
End ProdForm.

Lemma prod_same_dict p fs fl f fl' f' : NoDup (map fst fs) -> good_parts p fs fl -> good_parts p fs fl' ->
  f_dict f = List.concat (map f_dict fl) -> f_dict f' = List.concat (map f_dict fl') ->
  same_dict f f' -> Forall2 same_dict fl fl'.
Proof.
  intros ND G G' Ed Ed' S. pose proof (F2_length _ _ _ G) as L. pose proof (F2_length _ _ _ G') as L'.
  apply F2_intro; [lia|]. intros i g g' Eg Eg' q x.
  destruct (F2_nth' _ _ _ G i g Eg) as ([k t] & Ek & v & H & M). destruct (F2_nth' _ _ _ G' i g' Eg') as ([k' t'] & Ek' & v' & H' & M').
  assert ((k', t') = (k, t)) as E by congruence. injection E as -> ->. cbn [fst snd] in *. split; intros I.
  - pose proof I as I'. apply (proj1 (mt_dict _ _ _ _ M _ _)) in I'; destruct I' as (r & -> & _). rewrite snoc_app in *.
    apply (part_dict p fs ND fl' f' G' Ed' i k t g' Ek Eg'). apply S. apply (part_dict p fs ND fl f G Ed i k t g Ek Eg). auto.
  - pose proof I as I'. apply (mt_dict _ _ _ _ M') in I' as (r & -> & _). rewrite snoc_app in *.
    apply (part_dict p fs ND fl f G Ed i k t g Ek Eg). apply S. apply (part_dict p fs ND fl' f' G' Ed' i k t g' Ek Eg'). auto.
Qed.

(** ** Forms of sums *)
Lemma sum_matches p g c fs k t v f f' : NoDup (map fst fs) -> In (k, t) fs ->
  (exists v0, matches (p ++ [k]) t v0 f) -> f_dict f' = (p, k) :: f_dict f -> f_vars f' = f_vars f ->
  (matches (p ++ [k]) t v f <-> matches p (TSum g c fs) (VSum k v) f').
Proof.
  intros ND I [v0 M0] Ed Ev. split.
  - intros M. constructor.
    + intros q x. rewrite Ed. cbn [In]. rewrite (mt_dict _ _ _ _ M). split.
      * intros [[= <- <-]|(r & -> & C)]; [exists []; rewrite app_nil_r; split; auto; apply chooses_here|].
        exists (k :: r). rewrite snoc_app. split; auto. eapply chooses_sum; eauto.
      * intros (r & -> & C). destruct (chooses_sum_inv _ _ _ _ _ _ _ C) as [[-> ->]|[r' ->]]; [left; rewrite app_nil_r; auto|].
        right. exists r'. rewrite snoc_app. split; auto. eapply chooses_sum; eauto.
    + intros q. rewrite Ev, (mt_vars _ _ _ _ M). split.
      * intros (r & -> & C). exists (k :: r). rewrite snoc_app. split; auto. eapply leaf_sum; eauto.
      * intros (r & -> & C). destruct (leaf_sum_inv _ _ _ _ _ _ C) as [r' ->]. exists r'. rewrite snoc_app. split; auto. eapply leaf_sum; eauto.
    + rewrite Ed. cbn [map fst]. constructor; [|apply M]. intros C. apply in_map_iff in C as ([q x] & E & C). cbn in E. subst q.
      apply (proj1 (mt_dict _ _ _ _ M _ _)) in C; destruct C as (r & E & _). rewrite snoc_app in E. rewrite <- (app_nil_r p) in E at 1. apply app_inv_head in E. discriminate.
    + rewrite Ev. apply M.
  - intros M. constructor; [| |apply M0|apply M0].
    + intros q x. split.
      * intros Iq. pose proof Iq as I'. apply (proj1 (mt_dict _ _ _ _ M0 _ _)) in I'; destruct I' as (r & -> & _).
        assert (In ((p ++ [k]) ++ r, x) (f_dict f')) as I2 by (rewrite Ed; right; auto).
        apply (proj1 (mt_dict _ _ _ _ M _ _)) in I2; destruct I2 as (r' & E & C). rewrite snoc_app in E. apply app_inv_head in E. subst r'.
        exists r. split; auto. eapply chooses_sum; eauto.
      * intros (r & -> & C). assert (In ((p ++ [k]) ++ r, x) (f_dict f')) as I2.
        { apply (mt_dict _ _ _ _ M). exists (k :: r). rewrite snoc_app. split; auto. eapply chooses_sum; eauto. }
        rewrite Ed in I2. destruct I2 as [E|I2]; auto. exfalso. injection E as E _. rewrite snoc_app in E.
        rewrite <- (app_nil_r p) in E at 1. apply app_inv_head in E. discriminate.
    + intros q. rewrite <- Ev. rewrite (mt_vars _ _ _ _ M). split.
      * intros (r & -> & C). destruct (leaf_sum_inv _ _ _ _ _ _ C) as [r' ->]. exists r'. rewrite snoc_app. split; auto. eapply leaf_sum; eauto.
      * intros (r & -> & C). exists (k :: r). rewrite snoc_app. split; auto. eapply leaf_sum; eauto.
Qed.

(** * The invariant *)
Section Inv.
  Variables leafv tagv : path -> Z.
  Variable J : Z -> Prop.
  Hypothesis J0 : J 0.
  Variable R : list Z -> Z -> Prop.
  Hypothesis GR : good_request R.

  Definition rank_of (fs : list (key * ty)) (k : key) (x : Z) : Prop :=
    exists pre u post, fs = pre ++ (k, u) :: post /\ x = rank_at pre k post.

  (** Leaf variables hold the leaves of [v] and tag variables its choices. *)
  Definition agree (p : path) (t : ty) (v : val) : Prop :=
    (forall r t' v', sub_val t v r t' v' -> is_leaf t' -> enc J t' (leafv (p ++ r)) v') /\
    (forall r g c fs k w, sub_val t v r (TSum g c fs) (VSum k w) -> rank_of fs k (tagv (p ++ r))).

  Definition given (p : path) (t : ty) (value : option Z) (v : val) : Prop :=
    match value with None => agree p t v | Some op => enc J t op v end.

  Record Inv (p : path) (t : ty) (a : asm) (value : option Z) (out : list form) (vm : vmap) (z : Z) : Prop := {
    i_rng : 0 <= z < 2 ^ a_width a;
    i_frng : forall f, In f out -> 0 <= f_val f < 2 ^ a_width a;
    i_ex : forall v, has_ty t v -> exists f, In f out /\ matches p t v f;
    i_cov : forall f, In f out -> exists v, has_ty t v /\ matches p t v f;
    i_dis : distinct same_dict out;
    i_vars : forall f e, In f out -> In e (f_vars f) -> In e (m_leaf vm);
    i_leafs : keyed p t is_leaf (m_leaf vm);
    i_tags : keyed p t is_sum (m_tag vm);
    i_matches : keyed p t is_sum (m_match vm);
    i_fresh : value = None -> forall q x, In (q, x) (m_leaf vm) ->
      exists r t' w, q = p ++ r /\ sub_ty t r t' /\ swidth t' w /\ x = wrap w (leafv q);
    i_tfresh : value = None -> forall q x, In (q, x) (m_tag vm) ->
      exists r g c fs, q = p ++ r /\ sub_ty t r (TSum g c fs) /\ x = wrap (bits_for (Z.of_nat (length fs) - 1)) (tagv q);
    i_sem : forall v, has_ty t v -> given p t value v ->
      enc J t z v /\
      (forall f, In f out -> matches p t v f -> enc J t (f_val f) v) /\
      (forall r t' v' x, sub_val t v r t' v' -> is_leaf t' -> In (p ++ r, x) (m_leaf vm) -> enc J t' x v') /\
      (forall r g c fs k w, sub_val t v r (TSum g c fs) (VSum k w) ->
         (forall x, In (p ++ r, x) (m_tag vm) -> rank_of fs k x) /\
         (forall ms, In (p ++ r, ms) (m_match vm) ->
            map fst ms = map fst fs /\ forall k' b, In (k', b) ms -> (b = true <-> k' = k))) }.

  Definition good_value (t : ty) (a : asm) (value : option Z) : Prop :=
    forall op, value = Some op -> untagged t /\ 0 <= op < 2 ^ a_width a.

  Definition works (t : ty) : Prop := forall a p value, wf_ty t -> buildable t -> asm_rel R t a -> good_value t a value ->
    exists out vm z, smt_forms leafv tagv t a p value = Ok (out, vm, z) /\ Inv p t a value out vm z.

  Lemma leaf_sub t v r t' v' : is_leaf t -> sub_val t v r t' v' -> r = [] /\ t' = t /\ v' = v.
  Proof. intros L S. inversion S; subst; auto; destruct L. Qed.
  Lemma leaf_sub_ty t r t' : is_leaf t -> sub_ty t r t' -> r = [] /\ t' = t.
  Proof. intros L S. inversion S; subst; auto; destruct L. Qed.

  Lemma leaf_works t : is_leaf t -> works t.
  Proof.
    intros L a p value W B A GV.
    set (z := match value with Some z => z | None => wrap (a_width a) (leafv p) end).
    exists [Form z [] [(p, z)]], (VM [(p, z)] [] []), z.
    destruct (asm_rel_width R t W a A) as [Sw Pw].
    assert (0 <= z < 2 ^ a_width a) as Rz.
    { unfold z. destruct value as [op|]; [apply (GV op); auto|apply wrap_range; auto]. }
    split; [destruct t; try destruct L; reflexivity|].
    assert (forall v, matches p t v (Form z [] [(p, z)])) as Mt.
    { intros v. constructor; cbn [f_dict f_vars map fst]; [| |constructor|repeat constructor; intros []].
      - intros q k. split; [intros []|]. intros (r & _ & g & c & fs & w & S). apply leaf_sub in S as (_ & E & _); auto. subst t. destruct L.
      - intros q. cbn [In]. split.
        + intros [<-|[]]. exists []. rewrite app_nil_r. split; auto. exists t, v. split; auto. constructor.
        + intros (r & -> & t' & v' & S & _). apply leaf_sub in S as (-> & _); auto. rewrite app_nil_r. auto. }
    constructor; cbn [m_leaf m_tag m_match]; auto.
    - intros f [<-|[]]. auto.
    - intros v _. exists (Form z [] [(p, z)]). split; auto. left; auto.
    - intros f [<-|[]]. destruct (inhabited t W) as (v & H & _). exists v. auto.
    - cbn. split; auto.
    - intros f e [<-|[]] I. exact I.
    - split; [repeat constructor; intros []|]. intros q. cbn [map fst In]. split.
      + intros [<-|[]]. exists [], t. rewrite app_nil_r. split; auto. split; auto. constructor.
      + intros (r & t' & -> & S & _). apply leaf_sub_ty in S as (-> & _); auto. rewrite app_nil_r. auto.
    - split; [constructor|]. intros q. cbn [map In]. split; [intros []|]. intros (r & t' & -> & S & Q).
      apply leaf_sub_ty in S as (_ & ->); auto. destruct t; try destruct L; destruct Q.
    - split; [constructor|]. intros q. cbn [map In]. split; [intros []|]. intros (r & t' & -> & S & Q).
      apply leaf_sub_ty in S as (_ & ->); auto. destruct t; try destruct L; destruct Q.
    - intros Ev q x [[= <- <-]|[]]. exists [], t, (a_width a). rewrite app_nil_r. split; auto. split; [constructor|]. split; auto.
      unfold z. rewrite Ev. auto.
    - intros _ q x [].
    - intros v H G. assert (enc J t z v) as E.
      { unfold z. destruct value as [op|]; cbn [given] in G; auto. destruct G as [G _].
        specialize (G [] t v (sv_here t v) L). rewrite app_nil_r in G. rewrite wrap_small; auto. eapply enc_range; eauto. }
      split; auto. split; [intros f [<-|[]] _; auto|]. split.
      + intros r t' v' x S _ I. apply leaf_sub in S as (-> & -> & ->); auto. rewrite app_nil_r in I. destruct I as [[= <-]|[]]. auto.
      + intros r g c fs k w S. apply leaf_sub in S as (_ & E1 & _); auto. subst t. destruct L.
  Qed.

  Lemma given_sub_prod p c fs vs value i k t v sv : NoDup (map fst fs) -> nth_error fs i = Some (k, t) -> nth_error vs i = Some v ->
    value = None -> sv = None -> given p (TProd c fs) value (VProd vs) -> given (p ++ [k]) t sv v.
  Proof.
    intros ND Ef Ev -> -> [G1 G2]. split.
    - intros r t' v' S L. rewrite snoc_app. apply G1; auto. eapply sub_prod; eauto.
    - intros r g c' fs' k' w S. rewrite snoc_app. apply (G2 (k :: r) g c' fs' k' w). eapply sub_prod; eauto.
  Qed.
  Lemma given_sub_sum p g c fs value k t v sv : NoDup (map fst fs) -> In (k, t) fs ->
    value = None -> sv = None -> given p (TSum g c fs) value (VSum k v) -> given (p ++ [k]) t sv v.
  Proof.
    intros ND I -> -> [G1 G2]. split.
    - intros r t' v' S L. rewrite snoc_app. apply G1; auto. eapply sub_sum; eauto.
    - intros r g' c' fs' k' w S. rewrite snoc_app. apply (G2 (k :: r) g' c' fs' k' w). eapply sub_sum; eauto.
  Qed.

  (** ** Products *)
  Definition pmember (c : string) (all : list (key * ty)) (a : asm) (p : path) (value : option Z) (f : key * ty) (r : pres) : Prop :=
    exists fa sv, member_asm a (fst f) = Ok fa /\ asm_rel R (snd f) fa /\ q_width r = a_width fa /\
      Inv (p ++ [fst f]) (snd f) fa sv (q_forms r) (q_vm r) (q_word r) /\ (value = None -> sv = None) /\
      forall vs i v, nth_error all i = Some f -> nth_error vs i = Some v ->
        given p (TProd c all) value (VProd vs) -> given (p ++ [fst f]) (snd f) sv v.

  Lemma prod_loop_spec c all a p value : wf_ty (TProd c all) -> asm_rel R (TProd c all) a -> good_value (TProd c all) a value ->
    (forall k t, In (k, t) all -> buildable t) -> forall fs, incl fs all -> Forall (fun f => works (snd f)) fs ->
    exists rs, prod_loop (smt_forms leafv tagv) a p value fs = Ok rs /\ Forall2 (pmember c all a p value) fs rs.
  Proof.
    intros W A GV Bd. induction fs as [|[k t] fs IH]; intros Inc Wk; [exists []; split; [auto|constructor]|].
    inversion Wk as [|? ? W1 W2]; subst. cbn [snd] in W1.
    assert (In (k, t) all) as I by (apply Inc; left; auto).
    assert (NoDup (map fst all)) as ND by (inversion W; auto).
    destruct (prod_member R c all a k t W A I) as (fa & lo & Em & Af & Plo & Lfa & Pfa & Eg).
    set (sv := match value with None => None | Some z => Some (slice z lo (lo + a_width fa)) end).
    assert (good_value t fa sv) as GV'.
    { intros op E. unfold sv in E. destruct value as [z|]; [|discriminate]. injection E as <-.
      destruct (GV z eq_refl) as [U Rz]. split.
      - inversion U as [? L|? ? H|]; subst; [destruct L|]. eauto.
      - pose proof (slice_range z lo (lo + a_width fa) ltac:(lia)) as Rs. replace (lo + a_width fa - lo) with (a_width fa) in Rs by lia. exact Rs. }
    destruct (W1 fa (p ++ [k]) sv (wf_members_prod c all k t W I) (Bd k t I) Af GV') as (out & vm & z & Es & IV).
    destruct (IH (fun x Ix => Inc x (or_intror Ix)) W2) as (rs & Ers & F).
    exists (PR (a_width fa) out vm z :: rs). split.
    - cbn [prod_loop]. rewrite Em. cbn [bind].
      assert (match value with None => Ok None | Some z0 => do e <- aadt_get a z0 k; Ok (Some (fst e)) end = Ok sv) as Esv.
      { unfold sv. destruct value as [z0|]; auto. rewrite Eg. auto. }
      rewrite Esv. cbn [bind]. rewrite Es. cbn [bind]. rewrite Ers. auto.
    - constructor; auto. exists fa, sv. cbn [fst snd q_width q_forms q_vm q_word]. split; auto. split; auto. split; auto. split; auto.
      split; [unfold sv; intros ->; auto|]. intros vs i v Ei Evi G. destruct value as [op|].
      + cbn [given] in *. unfold sv. cbn [given].
        destruct (aadt_get_spec R J (TProd c all) (VProd vs) k t v a op) as (x & m & a' & Ex & En & _); auto.
        { econstructor; eauto. constructor. }
        rewrite Eg in Ex. injection Ex as <- _. auto.
      + eapply (given_sub_prod p c all vs None i k t v); eauto.
  Qed.

  Lemma prod_works c fs : Forall (fun f => works (snd f)) fs -> works (TProd c fs).
  Proof.
    intros Wk a p value W B A GV. inversion B as [? L|? ? NE Pos Bd|]; subst; [destruct L|].
    assert (NoDup (map fst fs)) as ND by (inversion W; auto).
    assert (Forall (fun f => wf_ty (snd f)) fs) as WF by (inversion W; auto).
    destruct (prod_loop_spec c fs a p value W A GV Bd fs (incl_refl fs) Wk) as (rs & Ers & F).
    pose proof (F2_length _ _ _ F) as Lrs.
    (* words *)
    assert (forall xs, Forall2 (fun r x => 0 <= x < 2 ^ q_width r) rs xs ->
      exists op, prod_from_fields fs a (map fw (combine (map q_width rs) xs)) 0 = Ok op /\ 0 <= op < 2 ^ a_width a /\
        forall vs, length vs = length fs -> (forall i k t x v, nth_error fs i = Some (k, t) -> nth_error xs i = Some x -> nth_error vs i = Some v -> enc J t x v) ->
          enc J (TProd c fs) op (VProd vs)) as Words.
    { intros xs Fx. pose proof (F2_length _ _ _ Fx) as Lx.
      destruct (prod_words R c fs a (combine (map q_width rs) xs) W A NE Pos) as (op & E1 & E2 & E3).
      - apply F2_intro; [rewrite combine_length, map_length; lia|]. intros i [k t] [w x] Ei Ej.
        destruct (F2_nth _ _ _ F i _ Ei) as (r & Er & fa & sv & Em & Af & Ew & _).
        assert (nth_error (map q_width rs) i = Some w /\ nth_error xs i = Some x) as [Ew' Ex'].
        { clear - Ej. revert i xs Ej. generalize (map q_width rs). induction l as [|y l IHl]; intros [|i] [|x' xs] Ej; try discriminate; cbn in *; [injection Ej as -> ->; auto|eauto]. }
        rewrite nth_error_map, Er in Ew'. injection Ew' as <-. cbn [fst snd] in *.
        destruct (F2_nth _ _ _ Fx i _ Er) as (x' & Ex2 & Rx). assert (x' = x) by congruence. subst x'.
        split; auto. rewrite Ew. rewrite Forall_forall in WF. apply (asm_rel_width R t (WF _ (nth_error_In _ _ Ei)) fa Af).
      - exists op. split; auto. split; auto. intros vs Lv H. apply E3; auto.
        + apply F2_intro; [rewrite combine_length, map_length, combine_length, map_length; lia|]. intros i [k t] [x v] Ei Ej.
          rewrite map_snd_combine in Ej by (rewrite map_length; lia).
          assert (nth_error xs i = Some x /\ nth_error vs i = Some v) as [Ex' Ev'].
          { clear - Ej. revert i vs Ej. induction xs as [|y l IHl]; intros [|i] [|v' vs] Ej; try discriminate; cbn in *; [injection Ej as -> ->; auto|eauto]. }
          cbn [fst snd]. eauto.
        + rewrite combine_length, map_length. lia. }
    destruct (Words (map q_word rs)) as (z & Ez & Rz & Encz).
    { apply F2_intro; [rewrite map_length; auto|]. intros i r x Er Ex. rewrite nth_error_map, Er in Ex. injection Ex as <-.
      destruct (F2_nth' _ _ _ F i _ Er) as ([k t] & Ek & fa & sv & Em & Af & Ew & IV & _). rewrite Ew. apply IV. }
    assert (map (fun e => FWord (q_width e) (q_word e)) rs = map fw (combine (map q_width rs) (map q_word rs))) as Efw.
    { clear. induction rs as [|r rs IH]; cbn [map combine]; auto. rewrite IH. auto. }
    (* parts of combinations *)
    assert (forall l, In l (iprod (map q_forms rs)) ->
      Forall2 (fun r f => In f (q_forms r)) rs l /\ good_parts p fs l) as Parts.
    { intros l I. apply iprod_In in I.
      assert (Forall2 (fun r f => In f (q_forms r)) rs l) as Fl.
      { clear - I. revert l I. induction rs as [|r rs IH]; intros l I; inversion I; subst; constructor; auto. }
      split; auto. unfold good_parts. pose proof (F2_length _ _ _ Fl). apply F2_intro; [lia|]. intros i [k t] f Ei Ef.
      destruct (F2_nth _ _ _ F i _ Ei) as (r & Er & fa & sv & Em & Af & Ew & IV & _).
      destruct (F2_nth _ _ _ Fl i _ Er) as (f' & Ef' & If). assert (f' = f) by congruence. subst f'.
      cbn [fst snd]. apply (i_cov _ _ _ _ _ _ _ IV f If). }
    assert (forall l, In l (iprod (map q_forms rs)) -> exists f, prod_form fs a (map q_width rs) l = Ok f /\
       0 <= f_val f < 2 ^ a_width a /\ f_dict f = List.concat (map f_dict l) /\ f_vars f = List.concat (map f_vars l) /\
       forall vs, length vs = length fs -> (forall i k t x v, nth_error fs i = Some (k, t) -> nth_error l i = Some x -> nth_error vs i = Some v -> enc J t (f_val x) v) ->
          enc J (TProd c fs) (f_val f) (VProd vs)) as Comb.
    { intros l I. destruct (Parts l I) as [Fl G].
      destruct (Words (map f_val l)) as (op & Eop & Rop & Encop).
      { pose proof (F2_length _ _ _ Fl). apply F2_intro; [rewrite map_length; auto|]. intros i r x Er Ex. rewrite nth_error_map in Ex.
        destruct (nth_error l i) as [f|] eqn:Ef; [|discriminate]. injection Ex as <-.
        destruct (F2_nth _ _ _ Fl i _ Er) as (f' & Ef' & If). assert (f' = f) by congruence. subst f'.
        destruct (F2_nth' _ _ _ F i _ Er) as ([k t] & Ek & fa & sv & Em & Af & Ew & IV & _). rewrite Ew. apply IV. auto. }
      destruct (good_under p fs l G) as [U1 U2].
      destruct (parts_concat key p (map fst fs) (map f_dict l) ND U1) as (N1 & _).
      destruct (parts_concat Z p (map fst fs) (map f_vars l) ND U2) as (N2 & _).
      unfold prod_form. change (fun e : Z * Z => FWord (fst e) (snd e)) with fw. rewrite Eop. cbn [bind].
      eexists. split; [reflexivity|]. cbn [f_val f_dict f_vars]. split; auto. split; [apply (fold_dupd key (map f_dict l) []); auto|].
      split; [apply (fold_dupd Z (map f_vars l) []); auto|]. intros vs Lv H. apply Encop; auto. intros i k t x v Ei Ex Evi.
      rewrite nth_error_map in Ex. destruct (nth_error l i) as [f|] eqn:Ef; [|discriminate]. injection Ex as <-. eauto. }
    destruct (mapM_ok (prod_form fs a (map q_width rs)) (iprod (map q_forms rs))) as (out & Eout & Fout).
    { intros l I. destruct (Comb l I) as (f & Ef & _). eauto. }
    (* the varmaps *)
    assert (forall V (m : vmap -> list (path * V)) Q, (forall q t' a' sv o vm x, Inv q t' a' sv o vm x -> keyed q t' Q (m vm)) ->
       Forall2 (fun f l => keyed (p ++ [fst f]) (snd f) Q l) fs (map m (map q_vm rs))) as Ky.
    { intros V m Q HK. clear - F HK. induction F as [|f r fs0 rs (fa & sv & Em & Af & Ew & IV & _) F IH]; cbn [map]; constructor; auto.
      eapply HK; eauto. }
    pose proof (Ky Z m_leaf is_leaf (fun q t' a' sv o vm x H => i_leafs _ _ _ _ _ _ _ H)) as K1.
    pose proof (Ky Z m_tag is_sum (fun q t' a' sv o vm x H => i_tags _ _ _ _ _ _ _ H)) as K2.
    pose proof (Ky _ m_match is_sum (fun q t' a' sv o vm x H => i_matches _ _ _ _ _ _ _ H)) as K3.
    clear Ky.
    destruct (keyed_prod Z p c fs is_leaf _ ND ltac:(intros []) K1) as [KL EL].
    destruct (keyed_prod Z p c fs is_sum _ ND ltac:(intros []) K2) as [KT ET].
    destruct (keyed_prod _ p c fs is_sum _ ND ltac:(intros []) K3) as [KM EM].
    destruct (keyed_members Z p fs is_leaf _ ND K1) as (_ & _ & AL).
    destruct (keyed_members Z p fs is_sum _ ND K2) as (_ & _ & AT).
    destruct (keyed_members _ p fs is_sum _ ND K3) as (_ & _ & AM).
    set (vm := fold_left vupd (map q_vm rs) (VM [] [] [])).
    assert (m_leaf vm = List.concat (map m_leaf (map q_vm rs))) as ELm by (unfold vm; rewrite fold_vupd_leaf; exact EL).
    assert (m_tag vm = List.concat (map m_tag (map q_vm rs))) as ETm by (unfold vm; rewrite fold_vupd_tag; exact ET).
    assert (m_match vm = List.concat (map m_match (map q_vm rs))) as EMm by (unfold vm; rewrite fold_vupd_match; exact EM).
    assert (forall f, In f out -> exists l, In l (iprod (map q_forms rs)) /\ prod_form fs a (map q_width rs) l = Ok f) as Back.
    { intros f I. apply In_nth_error in I as [i Ei]. destruct (F2_nth' _ _ _ Fout i f Ei) as (l & El & E). exists l. split; auto. eapply nth_error_In; eauto. }
    exists out, vm, z. split.
    { cbn [smt_forms]. rewrite Ers. cbn [bind]. rewrite Efw, Ez. cbn [bind]. rewrite Eout. reflexivity. }
    constructor.
    - exact Rz.
    - intros f I. destruct (Back f I) as (l & Il & E). destruct (Comb l Il) as (f' & E' & Rf & _).
      assert (f' = f) by congruence. subst f'. auto.
    - intros v H. inversion H as [| | | |? ? vs Fv|]; subst. pose proof (F2_length _ _ _ Fv) as Lv.
      assert (exists l, Forall2 (fun r f => In f (q_forms r)) rs l /\
        forall i k t v g, nth_error fs i = Some (k, t) -> nth_error vs i = Some v -> nth_error l i = Some g -> matches (p ++ [k]) t v g) as (l & Fl & Ml).
      { assert (Forall2 (fun f r => exists fa sv, Inv (p ++ [fst f]) (snd f) fa sv (q_forms r) (q_vm r) (q_word r)) fs rs) as F'.
        { clear - F. revert F. generalize fs at 2 3. intros fs0 F. induction F as [|f r fs0 rs (fa & sv & Em & Af & Ew & IV & _) F IH]; constructor; eauto. }
        clear - F' Fv. rename F' into F. revert vs Fv rs F. rename fs into all.
        induction all as [|[k t] all IH]; intros vs Fv rs F; inversion F as [|? r ? rs' PM F']; inversion Fv as [|? v ? vs' Hv Fv']; subst.
        - exists []. split; [constructor|]. intros [|i] ? ? ? ? E; discriminate E.
        - destruct PM as (fa & sv & IV). cbn [fst snd] in *.
          destruct (i_ex _ _ _ _ _ _ _ IV v Hv) as (f & If & Mf).
          destruct (IH vs' Fv' rs' F') as (l & Fl & Ml). exists (f :: l). split; [constructor; auto|].
          intros [|i] k' t' v' g' Ek Ev Eg; cbn [nth_error] in *; [|eauto]. injection Ek as <- <-. injection Ev as <-. injection Eg as <-. auto. }
      assert (In l (iprod (map q_forms rs))) as Il.
      { apply iprod_In. clear - Fl. induction Fl; cbn [map]; constructor; auto. }
      destruct (Comb l Il) as (f & Ef & Rf & Ed & Evf & _). destruct (Parts l Il) as [_ G].
      apply In_nth_error in Il as [i Ei]. destruct (F2_nth _ _ _ Fout i l Ei) as (f' & Ef' & E'). assert (f' = f) by congruence. subst f'.
      exists f. split; [eapply nth_error_In; eauto|]. apply (prod_matches p c fs ND l f G Ed Evf vs); auto.
    - intros f I. destruct (Back f I) as (l & Il & E). destruct (Comb l Il) as (f' & E' & Rf & Ed & Evf & _).
      assert (f' = f) by congruence. subst f'. destruct (Parts l Il) as [_ G].
      assert (exists vs, Forall2 (fun f v => has_ty (snd f) v) fs vs /\
        forall i k t v g, nth_error fs i = Some (k, t) -> nth_error vs i = Some v -> nth_error l i = Some g -> matches (p ++ [k]) t v g) as (vs & Hv & Mv).
      { clear - G. unfold good_parts in G. induction G as [|[k t] f fs l (v & H & M) G (vs & Hv & Mv)].
        - exists []. split; [constructor|]. intros [|i] ? ? ? ? E; discriminate E.
        - exists (v :: vs). split; [constructor; auto|].
          intros [|i] k' t' v' g' Ek Ev Eg; cbn [nth_error] in *; [|eauto]. injection Ek as <- <-. injection Ev as <-. injection Eg as <-. auto. }
      exists (VProd vs). split; [constructor; auto|]. apply (prod_matches p c fs ND l f G Ed Evf vs); auto. symmetry. eapply F2_length; eauto.
    - apply (distinct_map _ _ (Forall2 same_dict) same_dict _ _ _ Fout).
      + intros l l' f f' Il Il' E E' S. destruct (Comb l Il) as (g & Eg & _ & Ed & _). destruct (Comb l' Il') as (g' & Eg' & _ & Ed' & _).
        assert (g = f) by congruence. assert (g' = f') by congruence. subst g g'.
        apply (prod_same_dict p fs l f l' f'); auto; [apply Parts|apply Parts]; auto.
      + apply distinct_iprod. clear - F. induction F as [|f r fs0 rs (fa & sv & Em & Af & Ew & IV & _) F IH]; cbn [map]; constructor; auto. apply IV.
    - intros f [q x] I Ie. destruct (Back f I) as (l & Il & E). destruct (Comb l Il) as (f' & E' & Rf & Ed & Evf & _).
      assert (f' = f) by congruence. subst f'. destruct (Parts l Il) as [Fl G]. rewrite ELm. rewrite Evf in Ie.
      apply in_concat in Ie as (el & Iel & Ie). apply in_map_iff in Iel as (g & <- & Ig).
      apply In_nth_error in Ig as [i Ei]. destruct (F2_nth' _ _ _ Fl i g Ei) as (r & Er & Ir).
      destruct (F2_nth' _ _ _ F i r Er) as ([k t] & Ek & fa & sv & Em & Af & Ew & IV & _).
      apply in_concat. exists (m_leaf (q_vm r)). split.
      + apply in_map. apply in_map. eapply nth_error_In; eauto.
      + apply (i_vars _ _ _ _ _ _ _ IV g); auto.
    - rewrite ELm. exact KL.
    - rewrite ETm. exact KT.
    - rewrite EMm. exact KM.
    - intros En q x I. rewrite ELm in I. apply in_concat in I as (el & Iel & I). rewrite map_map in Iel. apply in_map_iff in Iel as (r & <- & Ir).
      apply In_nth_error in Ir as [i Er]. destruct (F2_nth' _ _ _ F i r Er) as ([k t] & Ek & fa & sv & Em & Af & Ew & IV & Sn & _).
      cbn [fst snd] in IV. destruct (i_fresh _ _ _ _ _ _ _ IV (Sn En) q x I) as (r' & t' & w & -> & St & Sw & ->).
      exists (k :: r'), t', w. rewrite snoc_app. split; auto. split; auto. econstructor; [eapply nth_error_In; eauto|auto].
    - intros En q x I. rewrite ETm in I. apply in_concat in I as (el & Iel & I). rewrite map_map in Iel. apply in_map_iff in Iel as (r & <- & Ir).
      apply In_nth_error in Ir as [i Er]. destruct (F2_nth' _ _ _ F i r Er) as ([k t] & Ek & fa & sv & Em & Af & Ew & IV & Sn & _).
      cbn [fst snd] in IV. destruct (i_tfresh _ _ _ _ _ _ _ IV (Sn En) q x I) as (r' & g0 & c0 & fs0 & -> & St & ->).
      exists (k :: r'), g0, c0, fs0. rewrite snoc_app. split; auto. split; auto. econstructor; [eapply nth_error_In; eauto|auto].
    - intros v H G. inversion H as [| | | |? ? vs Fv|]; subst. pose proof (F2_length _ _ _ Fv) as Lv.
      assert (forall i k t vi, nth_error fs i = Some (k, t) -> nth_error vs i = Some vi -> exists r fa sv, nth_error rs i = Some r /\
         Inv (p ++ [k]) t fa sv (q_forms r) (q_vm r) (q_word r) /\ has_ty t vi /\ given (p ++ [k]) t sv vi) as Each.
      { intros i k t vi Ei Evi. destruct (F2_nth _ _ _ F i _ Ei) as (r & Er & fa & sv & Em & Af & Ew & IV & _ & Gv). cbn [fst snd] in *.
        exists r, fa, sv. split; auto. split; auto. split; [|eapply Gv; eauto].
        destruct (F2_nth _ _ _ Fv i _ Ei) as (vi' & Evi' & Hv). cbn [snd] in Hv. congruence. }
      split; [|split; [|split]].
      + apply Encz; auto. intros i k t x vi Ei Ex Evi. destruct (Each i k t vi Ei Evi) as (r & fa & sv & Er & IV & Hv & Gv).
        rewrite nth_error_map, Er in Ex. injection Ex as <-. apply (i_sem _ _ _ _ _ _ _ IV vi Hv Gv).
      + intros f I M. destruct (Back f I) as (l & Il & E). destruct (Comb l Il) as (f' & E' & Rf & Ed & Evf & En).
        assert (f' = f) by congruence. subst f'. destruct (Parts l Il) as [Fl Gp]. apply En; auto. intros i k t x vi Ei Ex Evi.
        destruct (Each i k t vi Ei Evi) as (r & fa & sv & Er & IV & Hv & Gv).
        destruct (F2_nth _ _ _ Fl i _ Er) as (x' & Ex' & Ix). assert (x' = x) by congruence. subst x'.
        apply (i_sem _ _ _ _ _ _ _ IV vi Hv Gv); auto.
        apply (proj2 (prod_matches p c fs ND l f Gp Ed Evf vs (eq_sym Lv)) M i k t vi x); auto.
      + intros r t' v' x S L I. inversion S as [|? ? ? k r' i t vi ? ? Ei Evi S'|]; subst; [destruct L|].
        destruct (Each i k t vi Ei Evi) as (re & fa & sv & Er & IV & Hv & Gv). rewrite ELm in I.
        apply (AL i k t (m_leaf (q_vm re)) Ei) in I; [|rewrite !nth_error_map, Er; auto].
        destruct (i_sem _ _ _ _ _ _ _ IV vi Hv Gv) as (_ & _ & H3 & _). eapply H3; eauto.
      + intros r g0 c0 fs0 k0 w0 S. inversion S as [|? ? ? k r' i t vi ? ? Ei Evi S'|]; subst.
        destruct (Each i k t vi Ei Evi) as (re & fa & sv & Er & IV & Hv & Gv).
        destruct (i_sem _ _ _ _ _ _ _ IV vi Hv Gv) as (_ & _ & _ & H4). destruct (H4 r' g0 c0 fs0 k0 w0 S') as [H5 H6]. split.
        * intros x I. rewrite ETm in I. apply (AT i k t (m_tag (q_vm re)) Ei) in I; [|rewrite !nth_error_map, Er; auto]. auto.
        * intros ms I. rewrite EMm in I. apply (AM i k t (m_match (q_vm re)) Ei) in I; [|rewrite !nth_error_map, Er; auto]. auto.
  Qed.

  (** ** Sums *)
  Definition tag_word (a : asm) (p : path) (value : option Z) : Z :=
    match a with ASum _ tagw _ _ _ => match value with None => wrap tagw (tagv p) | Some z => slice z 0 tagw end | _ => 0 end.

  Lemma given_tag g c fs a p value k t v pre post w tagw as_ gs tv : wf_ty (TSum g c fs) -> a = ASum w tagw as_ gs tv ->
    tagw = bits_for (Z.of_nat (length fs) - 1) -> fs = pre ++ (k, t) :: post ->
    given p (TSum g c fs) value (VSum k v) -> tag_word a p value = rank_at pre k post.
  Proof.
    intros W Ea Etw Hfs G. assert (no_dup_keys fs) as ND by (inversion W; auto).
    pose proof (rank_lt _ _ _ _ _ Hfs) as Rl. unfold tag_word. rewrite Ea.
    assert (0 <= rank_at pre k post < 2 ^ tagw) as Rr by (rewrite Etw; split; [lia|apply lt_pow2_bits_for; lia]).
    assert (0 <= tagw) as Pt by (rewrite Etw; apply bits_for_nonneg).
    destruct value as [op|]; cbn [given] in G.
    - inversion G as [| | | | |g0 c0 fs0 pre' k' t' post' W0 w' x junk v' Hfs' SW Sw Ex Hj HJ HW Eg Eop Ev].
      destruct (nodup_split_unique fs pre pre' post post' k t t' ND Hfs Hfs') as (<- & <- & <-).
      rewrite <- Etw. apply slice_low; auto.
    - destruct G as [_ G]. destruct (G [] g c fs k v (sv_here _ _)) as (pre' & t' & post' & Hfs' & E). rewrite app_nil_r in E.
      destruct (nodup_split_unique fs pre pre' post post' k t t' ND Hfs Hfs') as (<- & <- & <-).
      rewrite E. apply wrap_small. auto.
  Qed.

  Definition smember (g : bool) (c : string) (all : list (key * ty)) (a : asm) (p : path) (value : option Z) (f : key * ty) (r : mres) : Prop :=
    exists fa sv sf x pre post, all = pre ++ f :: post /\ r_key r = fst f /\
      Inv (p ++ [fst f]) (snd f) fa sv sf (r_vm r) x /\ (value = None -> sv = None) /\
      Forall2 (fun s s' => f_dict s' = (p, fst f) :: f_dict s /\ f_vars s' = f_vars s /\ 0 <= f_val s' < 2 ^ a_width a /\
        forall v, given p (TSum g c all) value (VSum (fst f) v) -> enc J (snd f) (f_val s) v ->
          enc J (TSum g c all) (f_val s') (VSum (fst f) v)) sf (r_forms r) /\
      0 <= r_word r < 2 ^ a_width a /\ r_match r = (tag_word a p value =? rank_at pre (fst f) post) /\
      (forall v, given p (TSum g c all) value (VSum (fst f) v) -> enc J (snd f) x v -> enc J (TSum g c all) (r_word r) (VSum (fst f) v)) /\
      (forall v, given p (TSum g c all) value (VSum (fst f) v) -> given (p ++ [fst f]) (snd f) sv v).

  Lemma sum_loop_spec g c all a p value : wf_ty (TSum g c all) -> asm_rel R (TSum g c all) a -> good_value (TSum g c all) a value ->
    (2 <= length all)%nat -> (forall k t, In (k, t) all -> ~ swidth t 0) ->
    (forall k t, In (k, t) all -> buildable t) -> forall fs, incl fs all -> Forall (fun f => works (snd f)) fs ->
    exists rs, sum_loop (smt_forms leafv tagv) g all a p value (tag_word a p value) fs = Ok rs /\ Forall2 (smember g c all a p value) fs rs.
  Proof.
    intros W A GV L2 NW Bd. induction fs as [|[k t] fs IH]; intros Inc Wk; [exists []; split; [auto|constructor]|].
    inversion Wk as [|? ? W1 W2]; subst. cbn [snd] in W1.
    assert (In (k, t) all) as I by (apply Inc; left; auto).
    assert (NoDup (map fst all)) as ND by (inversion W; auto).
    destruct (sum_words R g c all a k t GR W A I)
      as (w & tagw & as_ & gs & tv & fa & pre & post & Ea & Etw & Hfs & Em & Af & Rr & Lw & Pt & Pfa & Eg & SW).
    set (sv := match value with None => None | Some z => Some (slice z tagw (tagw + a_width fa)) end).
    set (tag := tag_word a p value) in *.
    assert (0 <= tag < 2 ^ tagw) as Rt.
    { unfold tag, tag_word. rewrite Ea. destruct value as [z|]; [|apply wrap_range; auto].
      pose proof (slice_range z 0 tagw ltac:(lia)) as Rs. rewrite Z.sub_0_r in Rs. exact Rs. }
    assert (good_value t fa sv) as GV'.
    { intros op E. unfold sv in E. destruct value as [z|]; [|discriminate]. injection E as <-.
      destruct (GV z eq_refl) as [U Rz]. split.
      - inversion U as [? L|? ? H|? ? H]; subst; [destruct L|]. eauto.
      - pose proof (slice_range z tagw (tagw + a_width fa) ltac:(lia)) as Rs. replace (tagw + a_width fa - tagw) with (a_width fa) in Rs by lia. exact Rs. }
    destruct (W1 fa (p ++ [k]) sv (wf_members_sum g c all k t W I) (Bd k t I) Af GV') as (out & vm & z & Es & IV).
    destruct (IH (fun x Ix => Inc x (or_intror Ix)) W2) as (rs & Ers & F).
    destruct (proj2 (SW tag z Rt (i_rng _ _ _ _ _ _ _ IV)) L2 (NW k t I)) as (word & Ew & Rw & Egw & _ & Encw).
    assert (forall v, given p (TSum g c all) value (VSum k v) -> tag = rank_at pre k post) as GT.
    { intros v G. exact (given_tag g c all a p value k t v pre post w tagw as_ gs tv W Ea Etw Hfs G). }
    destruct (mapM_ok (sum_form all a fa p value tag k) out) as (out' & Eout & Fout).
    { intros f If. unfold sum_form.
      assert (existsb (fun e => path_eqb p (fst e)) (f_dict f) = false) as ->.
      { apply not_true_is_false. intros Ex. apply existsb_exists in Ex as ([q x] & Iq & Eq). apply path_eqb_eq in Eq. cbn in Eq. subst q.
        destruct (i_cov _ _ _ _ _ _ _ IV f If) as (v & _ & M). apply (proj1 (mt_dict _ _ _ _ M _ _)) in Iq. destruct Iq as (r & E & _).
        rewrite snoc_app in E. rewrite <- (app_nil_r p) in E at 1. apply app_inv_head in E. discriminate. }
      destruct value as [zv|]; [cbn [bind]; eauto|].
      destruct (proj2 (SW tag (f_val f) Rt (i_frng _ _ _ _ _ _ _ IV f If)) L2 (NW k t I)) as (wf & Ewf & _).
      rewrite Ewf. cbn [bind]. eauto. }
    exists (MR k out' vm word (tag =? rank_at pre k post) :: rs). split.
    - cbn [sum_loop]. rewrite Em. cbn [bind].
      assert (match value with None => Ok None | Some z0 => if g then Err KeyError else do e <- aadt_get a z0 k; Ok (Some (fst e)) end = Ok sv) as Esv.
      { unfold sv. destruct value as [z0|]; auto. destruct (GV z0 eq_refl) as [U _]. inversion U as [? L| |]; subst; [destruct L|]. rewrite Eg. auto. }
      rewrite Esv. cbn [bind]. rewrite Es. cbn [bind]. rewrite Ew. cbn [bind]. rewrite Eout. cbn [bind]. rewrite Egw. cbn [bind snd].
      rewrite Ers. auto.
    - constructor; auto. exists fa, sv, out, z, pre, post. cbn [fst snd r_key r_vm r_forms r_word r_match].
      split; auto. split; auto. split; auto. split; [unfold sv; intros ->; auto|]. split; [|split; [|split; [|split]]]; auto.
      + apply F2_intro; [apply (F2_length _ _ _ Fout)|]. intros i s s' Ei Ei'. destruct (F2_nth _ _ _ Fout i s Ei) as (s0 & E0 & Sf).
        assert (s0 = s') by congruence. subst s0. apply nth_error_In in Ei. unfold sum_form in Sf.
        destruct (existsb (fun e => path_eqb p (fst e)) (f_dict s)); [discriminate|].
        destruct value as [zv|].
        * cbn [bind] in Sf. injection Sf as <-. cbn [f_dict f_vars f_val]. split; auto. split; auto.
          split; [apply (GV zv); auto|]. intros v G _. exact G.
        * destruct (proj2 (SW tag (f_val s) Rt (i_frng _ _ _ _ _ _ _ IV s Ei)) L2 (NW k t I)) as (wf & Ewf & Rwf & _ & _ & Encf).
          rewrite Ewf in Sf. cbn [bind] in Sf. injection Sf as <-. cbn [f_dict f_vars f_val]. split; auto. split; auto.
          split; auto. intros v G En. apply Encf; auto. eapply GT; eauto.
      + intros v G En. apply Encw; auto. eapply GT; eauto.
      + intros v G. destruct value as [op|].
        * cbn [given] in *. unfold sv. cbn [given].
          destruct (aadt_get_spec R J (TSum g c all) (VSum k v) k t v a op) as (x & m & a' & Ex & En & _); auto.
          { econstructor; eauto. constructor. }
          rewrite Eg in Ex. injection Ex as <- _. auto.
        * eapply (given_sub_sum p g c all None k t v); eauto.
  Qed.

  Lemma rank_inj (fs pre pre' post post' : list (key * ty)) k t k' t' : fs = pre ++ (k, t) :: post -> fs = pre' ++ (k', t') :: post' ->
    rank_at pre k post = rank_at pre' k' post' -> k = k'.
  Proof.
    intros H H' E. pose proof (rank_index pre k t post) as R1. pose proof (rank_index pre' k' t' post') as R2.
    rewrite <- H in R1. rewrite <- H', <- E in R2. congruence.
  Qed.

  Lemma ite_chain_spec rs : rs <> [] -> exists z, ite_chain rs = Ok z /\ (exists r, In r rs /\ z = r_word r) /\
    forall r, In r rs -> r_match r = true -> (forall r', In r' rs -> r_match r' = true -> r' = r) -> z = r_word r.
  Proof.
    destruct rs as [|r0 rs]; [congruence|]. intros _. cbn [ite_chain]. eexists. split; [reflexivity|].
    assert (forall acc, fold_left (fun acc e => if r_match e then r_word e else acc) rs acc = acc \/
       exists r, In r rs /\ r_match r = true /\ fold_left (fun acc e => if r_match e then r_word e else acc) rs acc = r_word r) as P.
    { induction rs as [|e rs IH]; intros acc; cbn [fold_left]; auto.
      destruct (IH (if r_match e then r_word e else acc)) as [E|(r & I & M & E)].
      - rewrite E. destruct (r_match e) eqn:M; auto. right. exists e. split; [left|]; auto.
      - right. exists r. split; [right|]; auto. }
    assert (forall acc, (exists r, In r rs /\ r_match r = true) ->
       exists r, In r rs /\ r_match r = true /\ fold_left (fun acc e => if r_match e then r_word e else acc) rs acc = r_word r) as Q.
    { clear P. induction rs as [|e rs IH]; intros acc (r & I & M); [destruct I|]. cbn [fold_left].
      destruct (existsb r_match rs) eqn:Ex.
      - apply existsb_exists in Ex. destruct (IH (if r_match e then r_word e else acc) Ex) as (r' & I' & M' & E'). exists r'. split; [right|]; auto.
      - assert (forall acc, fold_left (fun acc e => if r_match e then r_word e else acc) rs acc = acc) as N.
        { clear - Ex. induction rs as [|e rs IH]; intros acc; cbn [fold_left]; auto. cbn [existsb] in Ex. apply orb_false_iff in Ex as [-> Ex]. auto. }
        destruct I as [->|I].
        + exists r. split; [left; auto|]. split; auto. rewrite N, M. auto.
        + exfalso. assert (existsb r_match rs = true) by (apply existsb_exists; eauto). congruence. }
    split.
    - destruct (P (r_word r0)) as [->|(r & I & M & ->)]; [exists r0; split; [left|]; auto|exists r; split; [right|]; auto].
    - intros r I M U. destruct I as [->|I].
      + destruct (P (r_word r)) as [->|(r' & I' & M' & ->)]; auto. rewrite (U r'); auto. right; auto.
      + destruct (Q (r_word r0) (ex_intro _ r (conj I M))) as (r' & I' & M' & ->). rewrite (U r'); auto. right; auto.
  Qed.

  Lemma sum_works g c fs : Forall (fun f => works (snd f)) fs -> works (TSum g c fs).
  Proof.
    intros Wk a p value W B A GV. inversion B as [? L| |? ? ? L2 NW Bd]; subst; [destruct L|].
    assert (NoDup (map fst fs)) as ND by (inversion W; auto).
    destruct (sum_loop_spec g c fs a p value W A GV L2 NW Bd fs (incl_refl fs) Wk) as (rs & Ers & F).
    pose proof (F2_length _ _ _ F) as Lrs.
    assert (rs <> []) as NE by (intros ->; cbn in Lrs; lia).
    destruct (ite_chain_spec rs NE) as (z & Ez & (rz & Irz & Ezr) & Uz).
    assert (forall r, In r rs -> exists k t, In (k, t) fs /\ smember g c fs a p value (k, t) r) as Back.
    { intros r I. apply In_nth_error in I as [i Ei]. destruct (F2_nth' _ _ _ F i r Ei) as ([k t] & Ek & M). exists k, t. split; auto. eapply nth_error_In; eauto. }
    assert (forall k t, In (k, t) fs -> exists r, In r rs /\ smember g c fs a p value (k, t) r) as Fwd.
    { intros k t I. apply In_nth_error in I as [i Ei]. destruct (F2_nth _ _ _ F i _ Ei) as (r & Er & M). exists r. split; auto. eapply nth_error_In; eauto. }
    assert (forall r r', In r rs -> In r' rs -> r_key r = r_key r' -> r = r') as KeyU.
    { intros r r' I I' E. apply In_nth_error in I as [i Ei]. apply In_nth_error in I' as [j Ej].
      destruct (F2_nth' _ _ _ F i r Ei) as ([k t] & Ek & M). destruct (F2_nth' _ _ _ F j r' Ej) as ([k' t'] & Ek' & M').
      destruct M as (fa & sv & sf & x & pre & post & Hf & Kr & _). destruct M' as (fa' & sv' & sf' & x' & pre' & post' & Hf' & Kr' & _).
      cbn [fst] in *. assert (k' = k) as -> by congruence. assert (i = j) by exact (nth_key_unique fs i j k t t' ND Ek Ek'). subst j. congruence. }
    (* the varmaps *)
    assert (forall V (m : vmap -> list (path * V)) Q, (forall q t' a' sv o vm x, Inv q t' a' sv o vm x -> keyed q t' Q (m vm)) ->
       Forall2 (fun f l => keyed (p ++ [fst f]) (snd f) Q l) fs (map m (map r_vm rs))) as Ky.
    { intros V m Q HK. assert (forall fs0, Forall2 (smember g c fs a p value) fs0 rs -> Forall2 (fun f l => keyed (p ++ [fst f]) (snd f) Q l) fs0 (map m (map r_vm rs))) as HH.
      { intros fs0 F0. clear - F0 HK. induction F0 as [|f r fs0 rs (fa & sv & sf & x & pre & post & Hf & Kr & IV & _) F IH]; cbn [map]; constructor; auto. eapply HK; eauto. }
      apply HH; auto. }
    pose proof (Ky Z m_leaf is_leaf (fun q t' a' sv o vm x H => i_leafs _ _ _ _ _ _ _ H)) as K1.
    pose proof (Ky Z m_tag is_sum (fun q t' a' sv o vm x H => i_tags _ _ _ _ _ _ _ H)) as K2.
    pose proof (Ky _ m_match is_sum (fun q t' a' sv o vm x H => i_matches _ _ _ _ _ _ _ H)) as K3.
    clear Ky.
    set (tag := tag_word a p value) in *. set (ms := map (fun e => (r_key e, r_match e)) rs).
    destruct (keyed_sum_no Z p g c fs is_leaf _ ND ltac:(intros []) K1) as [KL EL].
    destruct (keyed_sum_yes Z p g c fs is_sum tag _ ND Logic.I K2) as [KT ET].
    destruct (keyed_sum_yes _ p g c fs is_sum ms _ ND Logic.I K3) as [KM EM].
    destruct (keyed_members Z p fs is_leaf _ ND K1) as (_ & _ & AL).
    destruct (keyed_members Z p fs is_sum _ ND K2) as (_ & _ & AT).
    destruct (keyed_members _ p fs is_sum _ ND K3) as (_ & _ & AM).
    set (vm := fold_left vupd (map r_vm rs) (VM [] [(p, tag)] [(p, ms)])).
    assert (m_leaf vm = List.concat (map m_leaf (map r_vm rs))) as ELm by (unfold vm; rewrite fold_vupd_leaf; exact EL).
    assert (m_tag vm = (p, tag) :: List.concat (map m_tag (map r_vm rs))) as ETm by (unfold vm; rewrite fold_vupd_tag; exact ET).
    assert (m_match vm = (p, ms) :: List.concat (map m_match (map r_vm rs))) as EMm by (unfold vm; rewrite fold_vupd_match; exact EM).
    assert (map fst ms = map fst fs) as Ems.
    { unfold ms. rewrite map_map. cbn [fst]. assert (forall fs0, Forall2 (smember g c fs a p value) fs0 rs -> map r_key rs = map fst fs0) as HH; [|apply HH; auto].
      intros fs0 F0. clear - F0. induction F0 as [|f r fs0 rs (fa & sv & sf & x & pre & post & Hf & Kr & _) F IH]; cbn [map]; auto. f_equal; auto. }
    (* each produced form comes from a form of one member *)
    assert (forall f', In f' (flat_map r_forms rs) -> exists r k t fa sv sf x f, In r rs /\ In (k, t) fs /\
       Inv (p ++ [k]) t fa sv sf (r_vm r) x /\ In f sf /\ f_dict f' = (p, k) :: f_dict f /\ f_vars f' = f_vars f /\
       0 <= f_val f' < 2 ^ a_width a /\ (forall v, given p (TSum g c fs) value (VSum k v) -> given (p ++ [k]) t sv v) /\
       (forall v, given p (TSum g c fs) value (VSum k v) -> enc J t (f_val f) v -> enc J (TSum g c fs) (f_val f') (VSum k v))) as Src.
    { intros f' I. apply in_flat_map in I as (r & Ir & I). destruct (Back r Ir) as (k & t & Ik & fa & sv & sf & x & pre & post & Hf & Kr & IV & Sn & Fs & Rw & Mr & Ew & Gv).
      cbn [fst snd] in *. apply In_nth_error in I as [i Ei]. destruct (F2_nth' _ _ _ Fs i f' Ei) as (f & Ef & Ed & Ev & Rf & En).
      exists r, k, t, fa, sv, sf, x, f. apply nth_error_In in Ef. repeat (split; auto). }
    assert (forall r k t, smember g c fs a p value (k, t) r -> In r rs -> forall v, given p (TSum g c fs) value (VSum k v) ->
       In (k, t) fs -> forall r', In r' rs -> (r_match r' = true <-> r_key r' = k)) as MatchU.
    { intros r k t (fa & sv & sf & x & pre & post & Hf & Kr & IV & Sn & Fs & Rw & Mr & Ew & Gv) Ir v G Ik r' Ir'. cbn [fst snd] in *.
      destruct (sum_words R g c fs a k t GR W A Ik)
        as (w & tagw & as_ & gs & tv & fa0 & pre0 & post0 & Ea & Etw & Hfs0 & _).
      pose proof (given_tag g c fs a p value k t v pre post w tagw as_ gs tv W Ea Etw Hf G) as Et. fold tag in Et, Mr.
      destruct (Back r' Ir') as (k' & t' & Ik' & fa' & sv' & sf' & x' & pre' & post' & Hf' & Kr' & _ & _ & _ & _ & Mr' & _). cbn [fst snd] in *.
      fold tag in Mr'. rewrite Mr', Z.eqb_eq, Kr'. split.
      - intros E. symmetry. apply (rank_inj fs pre pre' post post' k t k' t'); auto. congruence.
      - intros ->. destruct (nodup_split_unique fs pre pre' post post' k t t' ND Hf Hf') as (<- & _ & <-). auto. }
    exists (flat_map r_forms rs), vm, z. split.
    { destruct (asm_rel_width R _ W a A) as [_ _]. cbn [smt_forms].
      inversion A as [| | | | |? ? ? sorted tagw pw fs' gs tv E1 E2 S G1 G2 Vt]; subst a.
      fold (tag_word (ASum (tagw + pw) tagw fs' gs tv) p value). fold tag. rewrite Ers. cbn [bind]. rewrite Ez. reflexivity. }
    constructor.
    - rewrite Ezr. destruct (Back rz Irz) as (k & t & Ik & fa & sv & sf & x & pre & post & Hf & Kr & IV & Sn & Fs & Rw & _). auto.
    - intros f' I. destruct (Src f' I) as (r & k & t & fa & sv & sf & x & f & Ir & Ik & IV & If & Ed & Ev & Rf & _). auto.
    - intros v H. inversion H as [| | | | |? ? ? k t v' Ik Hv]; subst. destruct (Fwd k t Ik) as (r & Ir & fa & sv & sf & x & pre & post & Hf & Kr & IV & Sn & Fs & _).
      cbn [fst snd] in *. destruct (i_ex _ _ _ _ _ _ _ IV v' Hv) as (f & If & M). apply In_nth_error in If as [i Ei].
      destruct (F2_nth _ _ _ Fs i f Ei) as (f' & Ef' & Ed & Ev & _). exists f'. split.
      + apply in_flat_map. exists r. split; auto. eapply nth_error_In; eauto.
      + apply (sum_matches p g c fs k t v' f f'); eauto.
    - intros f' I. destruct (Src f' I) as (r & k & t & fa & sv & sf & x & f & Ir & Ik & IV & If & Ed & Ev & Rf & _).
      destruct (i_cov _ _ _ _ _ _ _ IV f If) as (v & Hv & M). exists (VSum k v). split; [econstructor; eauto|].
      apply (sum_matches p g c fs k t v f f'); eauto.
    - assert (forall fs0 rs0, NoDup (map fst fs0) -> Forall2 (smember g c fs a p value) fs0 rs0 -> distinct same_dict (flat_map r_forms rs0)) as DD.
      { intros fs0 rs0 N0 F0. induction F0 as [|[k t] r fs0 rs0 M F0 IH]; cbn [flat_map]; [cbn; auto|].
        cbn [map fst] in N0. inversion N0 as [|? ? Nk N1]; subst.
        destruct M as (fa & sv & sf & x & pre & post & Hf & Kr & IV & Sn & Fs & _). cbn [fst snd] in *.
        assert (forall f f', In f sf -> f_dict f' = (p, k) :: f_dict f -> forall x0, In (p, x0) (f_dict f') -> x0 = k) as Only.
        { intros f f' If Ed x0 Ix. rewrite Ed in Ix. destruct Ix as [[= <-]|Ix]; auto. exfalso.
          destruct (i_cov _ _ _ _ _ _ _ IV f If) as (v & _ & M). apply (proj1 (mt_dict _ _ _ _ M _ _)) in Ix. destruct Ix as (r' & E & _).
          rewrite snoc_app in E. rewrite <- (app_nil_r p) in E at 1. apply app_inv_head in E. discriminate. }
        apply distinct_app; auto.
        - apply (distinct_map _ _ same_dict same_dict _ _ _ Fs); [|apply IV].
          intros f1 f2 f1' f2' I1 I2 (Ed1 & _) (Ed2 & _) S q y. specialize (S q y). rewrite Ed1, Ed2 in S. cbn [In] in S.
          assert (forall f, In f sf -> In (q, y) (f_dict f) -> (p, k) <> (q, y)) as NE1.
          { intros f If Iq E. injection E as <- <-. destruct (i_cov _ _ _ _ _ _ _ IV f If) as (v & _ & M).
            apply (proj1 (mt_dict _ _ _ _ M _ _)) in Iq. destruct Iq as (r' & E & _).
            rewrite snoc_app in E. rewrite <- (app_nil_r p) in E at 1. apply app_inv_head in E. discriminate. }
          split; intros Iq.
          + destruct (proj1 S (or_intror Iq)) as [E|]; auto. destruct (NE1 f1 I1 Iq E).
          + destruct (proj2 S (or_intror Iq)) as [E|]; auto. destruct (NE1 f2 I2 Iq E).
        - intros f1 f2 I1 I2 S. apply In_nth_error in I1 as [i Ei]. destruct (F2_nth' _ _ _ Fs i f1 Ei) as (f & Ef & Ed & _).
          apply in_flat_map in I2 as (r2 & Ir2 & I2). apply In_nth_error in Ir2 as [j Ej].
          destruct (F2_nth' _ _ _ F0 j r2 Ej) as ([k2 t2] & Ek2 & fa2 & sv2 & sf2 & x2 & pre2 & post2 & Hf2 & Kr2 & IV2 & Sn2 & Fs2 & _).
          cbn [fst snd] in *. apply In_nth_error in I2 as [l El]. destruct (F2_nth' _ _ _ Fs2 l f2 El) as (f0 & Ef0 & Ed2 & _).
          assert (k2 = k) as ->.
          { apply (Only f f1 (nth_error_In _ _ Ef) Ed). apply S. rewrite Ed2. left; auto. }
          apply Nk. apply in_map_iff. exists (k, t2). split; auto. eapply nth_error_In; eauto. }
      apply (DD fs rs ND F).
    - intros f' e I Ie. destruct (Src f' I) as (r & k & t & fa & sv & sf & x & f & Ir & Ik & IV & If & Ed & Ev & Rf & _).
      rewrite Ev in Ie. rewrite ELm. apply in_concat. exists (m_leaf (r_vm r)). split; [apply in_map, in_map; auto|].
      apply (i_vars _ _ _ _ _ _ _ IV f); auto.
    - rewrite ELm. exact KL.
    - rewrite ETm. exact KT.
    - rewrite EMm. exact KM.
    - intros En q x I. rewrite ELm in I. apply in_concat in I as (el & Iel & I). rewrite map_map in Iel. apply in_map_iff in Iel as (r & <- & Ir).
      destruct (Back r Ir) as (k & t & Ik & fa & sv & sf & x0 & pre & post & Hf & Kr & IV & Sn & _).
      cbn [fst snd] in IV. destruct (i_fresh _ _ _ _ _ _ _ IV (Sn En) q x I) as (r' & t' & w & -> & St & Sw & ->).
      exists (k :: r'), t', w. rewrite snoc_app. split; auto. split; auto. econstructor; eauto.
    - intros En q x I. rewrite ETm in I. destruct I as [E|I].
      + injection E as <- <-. exists [], g, c, fs. rewrite app_nil_r. split; auto. split; [constructor|].
        destruct fs as [|[k t] fs0] eqn:Efs; [cbn in L2; lia|]. rewrite <- Efs in *.
        destruct (sum_words R g c fs a k t GR W A) as (w & tagw & as_ & gs & tv & fa0 & pre0 & post0 & Ea & Etw & _); [rewrite Efs; left; auto|].
        unfold tag, tag_word. rewrite Ea, En, Etw. auto.
      + apply in_concat in I as (el & Iel & I). rewrite map_map in Iel. apply in_map_iff in Iel as (r & <- & Ir).
        destruct (Back r Ir) as (k & t & Ik & fa & sv & sf & x0 & pre & post & Hf & Kr & IV & Sn & _).
        cbn [fst snd] in IV. destruct (i_tfresh _ _ _ _ _ _ _ IV (Sn En) q x I) as (r' & g0 & c0 & fs0 & -> & St & ->).
        exists (k :: r'), g0, c0, fs0. rewrite snoc_app. split; auto. split; auto. econstructor; eauto.
    - clear Ezr Irz. intros v H G. inversion H as [| | | | |? ? ? k t v' Ik Hv]; subst.
      pose proof Ik as Ik2. apply In_nth_error in Ik2 as [i Ei]. destruct (F2_nth _ _ _ F i _ Ei) as (r & Er & M).
      pose proof (nth_error_In _ _ Er) as Ir. pose proof (MatchU r k t M Ir v' G Ik) as MU.
      destruct M as (fa & sv & sf & x & pre & post & Hf & Kr & IV & Sn & Fs & Rw & Mr & Ew & Gv). cbn [fst snd] in *.
      pose proof (i_sem _ _ _ _ _ _ _ IV v' Hv (Gv v' G)) as (H1 & H2 & H3 & H4).
      split; [|split; [|split]].
      + assert (z = r_word r) as ->.
        { apply Uz; auto; [apply MU; auto|]. intros r' Ir' Mr'. apply KeyU; auto. rewrite Kr. apply (MU r'); auto. }
        apply Ew; auto.
      + intros f' I M'. destruct (Src f' I) as (r2 & k2 & t2 & fa2 & sv2 & sf2 & x2 & f & Ir2 & Ik2 & IV2 & If2 & Ed & Ev & Rf & Gv2 & En).
        assert (k2 = k) as ->.
        { assert (In (p, k2) (f_dict f')) as I0 by (rewrite Ed; left; auto). apply (proj1 (mt_dict _ _ _ _ M' _ _)) in I0. destruct I0 as (r' & E & C).
          rewrite <- (app_nil_r p) in E at 1. apply app_inv_head in E. subst r'. apply chooses_sum_inv in C as [[_ ->]|[r' E]]; [auto|discriminate]. }
        assert (t2 = t) as -> by (eapply nodup_key_fun; eauto).
        apply En; auto. destruct (i_cov _ _ _ _ _ _ _ IV2 f If2) as (v0 & _ & M0).
        apply (i_sem _ _ _ _ _ _ _ IV2 v' Hv (Gv2 v' G)); auto. apply (sum_matches p g c fs k t v' f f'); eauto.
      + intros r0 t' v0 x0 S L I. inversion S as [| |? ? ? ? r' t0 ? ? ? Ik' S']; subst; [destruct L|].
        assert (t0 = t) as -> by (eapply nodup_key_fun; eauto). rewrite ELm in I.
        apply (AL i (r_key r) t (m_leaf (r_vm r)) Ei) in I; [|rewrite !nth_error_map, Er; auto]. eapply H3; eauto.
      + intros r0 g0 c0 fs0 k0 w0 S. inversion S as [| |? ? ? ? r' t0 ? ? ? Ik' S']; subst.
        * rewrite !app_nil_r. split.
          -- intros y I. assert (y = tag) as ->.
             { rewrite ETm in I. destruct I as [[= ->]|I]; auto. exfalso. destruct KT as [N _]. cbn [map fst] in N. inversion N as [|? ? N1 _]; subst.
               apply N1. apply (in_map fst) in I. exact I. }
             exists pre, t, post. split; auto. destruct (sum_words R g0 c0 (pre ++ (r_key r, t) :: post) a (r_key r) t GR W A Ik)
               as (w & tagw & as_ & gs & tv & fa0 & pre0 & post0 & Ea & Etw & Hfs0 & _).
             apply (given_tag g0 c0 _ a p value (r_key r) t w0 pre post w tagw as_ gs tv W Ea Etw eq_refl G).
          -- intros ms0 I. assert (ms0 = ms) as ->.
             { rewrite EMm in I. destruct I as [[= ->]|I]; auto. exfalso. destruct KM as [N _]. cbn [map fst] in N. inversion N as [|? ? N1 _]; subst.
               apply N1. apply (in_map fst) in I. exact I. }
             split; auto. intros k' b I'. unfold ms in I'. apply in_map_iff in I' as (r' & E & Ir'). injection E as <- <-. apply MU. auto.
        * assert (t0 = t) as -> by (eapply nodup_key_fun; eauto).
          destruct (H4 r' g0 c0 fs0 k0 w0 S') as [H5 H6]. split.
          -- intros y I. rewrite ETm in I. destruct I as [E|I].
             { exfalso. injection E as E _. rewrite <- (app_nil_r p) in E at 1. apply app_inv_head in E. discriminate. }
             apply (AT i _ t (m_tag (r_vm r)) Ei) in I; [|rewrite !nth_error_map, Er; auto]. auto.
          -- intros ms0 I. rewrite EMm in I. destruct I as [E|I].
             { exfalso. injection E as E _. rewrite <- (app_nil_r p) in E at 1. apply app_inv_head in E. discriminate. }
             apply (AM i _ t (m_match (r_vm r)) Ei) in I; [|rewrite !nth_error_map, Er; auto]. auto.
  Qed.

  Lemma all_work t : works t.
  Proof.
    induction t as [| | |c ms|c fs IH|g c fs IH] using ty_ind'; try (apply leaf_works; exact Logic.I).
    - apply prod_works; auto.
    - apply sum_works; auto.
  Qed.
End Inv.
