(** The main induction about [simplify]. *)
From Coq Require Import String ZArith List Bool Lia Permutation.
From Verif Require Import Base BaseLemmas BindModel MapIdxProps BindProps MapModel
  AsmModel AsmSpec AsmValid AsmEnum AsmBuild AsmProofs AsmSub AadtModel AadtProofs FormModel FormProofs FormMain.
Import ListNotations.
Open Scope list_scope.
Open Scope Z_scope.

(** [cut J ev t v b]: the entries of [b] sit at pairwise incomparable positions of
    the value [v], together cover all leaves of [v], and each source stands (under
    [ev]) for a word that holds the part of [v] at its position. *)
Record cut (J : Z -> Prop) (ev : src path -> option Z) (t : ty) (v : val) (b : list entry) : Prop := {
  c_nd : NoDup (map snd b);
  c_anti : forall q r, In q (map snd b) -> In (q ++ r) (map snd b) -> r = [];
  c_cov : forall q, leaf_path t v q -> exists q' r, In q' (map snd b) /\ q = q' ++ r;
  c_val : forall s q, In (s, q) b -> exists t' v' x, sub_val t v q t' v' /\ ev s = Some x /\ enc J t' x v' }.

(** The entries at or below member [k], seen from the member. *)
Definition below (k : key) (b : list entry) : list entry :=
  flat_map (fun e => match snd e with k' :: q => if key_eqb k' k then [(fst e, q)] else [] | [] => [] end) b.

Lemma below_In k b s q : In (s, q) (below k b) <-> In (s, k :: q) b.
Proof.
  unfold below. rewrite in_flat_map. split.
  - intros ([s' [|k' q']] & I & I'); [destruct I'|]. cbn [snd fst] in I'. destruct (key_eqb k' k) eqn:E; [|destruct I'].
    apply key_eqb_eq in E as ->. destruct I' as [[= <- <-]|[]]. auto.
  - intros I. exists (s, k :: q). split; auto. cbn [snd fst]. rewrite (proj2 (key_eqb_eq k k) eq_refl). left; auto.
Qed.
Lemma below_path k b q : In q (map snd (below k b)) <-> In (k :: q) (map snd b).
Proof.
  split; intros I; apply in_map_iff in I as ([s q'] & E & I); cbn in E; subst.
  - apply below_In in I. apply (in_map snd) in I. exact I.
  - apply (proj2 (below_In k b s q)) in I. apply (in_map snd) in I. exact I.
Qed.
Lemma below_nodup k b : NoDup (map snd b) -> NoDup (map snd (below k b)).
Proof.
  induction b as [|[s q] b IH]; cbn [map snd]; intros N; [constructor|]. inversion N as [|? ? N1 N2]; subst.
  cbn [below flat_map snd fst]. destruct q as [|k' q]; [auto|]. destruct (key_eqb k' k) eqn:E; [|auto].
  apply key_eqb_eq in E as ->. cbn [app map snd]. constructor; auto. fold (below k b). rewrite below_path. auto.
Qed.
Lemma below_app k b c : below k (b ++ c) = below k b ++ below k c.
Proof. apply flat_map_app. Qed.

Lemma prefix_In k b s q : In (s, q) (prefix_all k b) <-> exists r, q = k :: r /\ In (s, r) b.
Proof.
  unfold prefix_all. rewrite in_map_iff. split.
  - intros ([s' r] & [= <- <-] & I). eauto.
  - intros (r & -> & I). exists (s, r). auto.
Qed.
Lemma prefix_path k b q : In q (map snd (prefix_all k b)) <-> exists r, q = k :: r /\ In r (map snd b).
Proof.
  split.
  - intros I. apply in_map_iff in I as ([s q'] & E & I). cbn in E. subst q'. apply prefix_In in I as (r & -> & I). exists r. split; auto.
    apply (in_map snd) in I. exact I.
  - intros (r & -> & I). apply in_map_iff in I as ([s q'] & E & I). cbn in E. subst q'. apply in_map_iff. exists (s, k :: r). split; auto.
    apply prefix_In. eauto.
Qed.

Lemma leaf_exists t : wf_ty t -> buildable t -> forall v, has_ty t v -> exists q, leaf_path t v q.
Proof.
  induction t as [| | |c ms|c fs IH|g c fs IH] using ty_ind'; intros W B v H;
    try (exists []; eexists; eexists; split; [constructor|exact Logic.I]).
  - inversion H as [| | | |? ? vs F|]; subst. inversion B as [? L|? ? NE _ Bd|]; subst; [destruct L|].
    destruct fs as [|[k t] fs]; [congruence|]. inversion F as [|? v ? vs' H1 F']; subst. inversion IH as [|? ? IH1 _]; subst.
    destruct (IH1 (wf_members_prod c _ k t W (or_introl eq_refl)) (Bd k t (or_introl eq_refl)) v H1) as [q L].
    exists (k :: q). apply (leaf_prod c ((k, t) :: fs) (v :: vs') 0 k t v); auto. inversion W; auto.
  - inversion H as [| | | | |? ? ? k t v' I H1]; subst. inversion B as [? L| |? ? ? _ _ Bd]; subst; [destruct L|].
    rewrite Forall_forall in IH. destruct (IH (k, t) I (wf_members_sum g c fs k t W I) (Bd k t I) v' H1) as [q L].
    exists (k :: q). apply (leaf_sum g c fs k t v'); auto. inversion W; auto.
Qed.

Section S.
  Variable J : Z -> Prop.
  Hypothesis J0 : J 0.
  Variable ev : src path -> option Z.
  Hypothesis ev_val : forall z, ev (SVal z) = Some z.
  Hypothesis ev_unb : ev SUnbound = None.
  Variable R : list Z -> Z -> Prop.
  Hypothesis GR : good_request R.

  Notation cut := (cut J ev).

  Lemma cut_whole t v b : cut t v b -> In [] (map snd b) -> exists s, b = [(s, [])].
  Proof.
    intros C I. pose proof (c_anti _ _ _ _ _ C []) as A. pose proof (c_nd _ _ _ _ _ C) as N.
    assert (forall q, In q (map snd b) -> q = []) as E by (intros q Iq; apply A; auto). clear A C.
    destruct b as [|[s q] [|[s' q'] b]]; [destruct I| |].
    - exists s. rewrite (E q); [auto|left; auto].
    - exfalso. assert (q = []) as -> by (apply E; left; auto). assert (q' = []) as -> by (apply E; right; left; auto).
      cbn [map snd] in N. inversion N as [|? ? N1 _]; subst. apply N1. left. auto.
  Qed.
  Lemma whole_false t v b : cut t v b -> whole b = false -> forall s, ~ In (s, []) b.
  Proof. intros C Wh s I. destruct (cut_whole t v b C) as [s' ->]; [apply (in_map snd) in I; exact I|discriminate]. Qed.

  Lemma cut_prod_member c fs vs i k t v b : NoDup (map fst fs) -> nth_error fs i = Some (k, t) -> nth_error vs i = Some v ->
    cut (TProd c fs) (VProd vs) b -> (forall s, ~ In (s, []) b) -> cut t v (below k b).
  Proof.
    intros ND Ei Ev C NW. constructor.
    - apply below_nodup, C.
    - intros q r I I'. apply below_path in I. apply below_path in I'. apply (c_anti _ _ _ _ _ C (k :: q)); auto.
    - intros q L. apply (leaf_prod c fs vs i k t v q ND Ei Ev) in L. destruct (c_cov _ _ _ _ _ C _ L) as (q' & r & I & E).
      destruct q' as [|k' q']; [exfalso; apply in_map_iff in I as ([s q0] & E0 & I); cbn in E0; subst q0; eapply NW; eauto|].
      cbn [app] in E. injection E as <- ->. exists q', r. split; auto. apply below_path. auto.
    - intros s q I. apply below_In in I. destruct (c_val _ _ _ _ _ C s _ I) as (t' & v' & x & S & Ex & En).
      exists t', v', x. split; auto. apply (sub_prod c fs vs i k t v q t' v' ND Ei Ev) in S. auto.
  Qed.
  Lemma cut_sum_member g c fs k t v b : NoDup (map fst fs) -> In (k, t) fs ->
    cut (TSum g c fs) (VSum k v) b -> (forall s, ~ In (s, []) b) -> cut t v (below k b).
  Proof.
    intros ND Ik C NW. constructor.
    - apply below_nodup, C.
    - intros q r I I'. apply below_path in I. apply below_path in I'. apply (c_anti _ _ _ _ _ C (k :: q)); auto.
    - intros q L. apply (leaf_sum g c fs k t v q ND Ik) in L. destruct (c_cov _ _ _ _ _ C _ L) as (q' & r & I & E).
      destruct q' as [|k' q']; [exfalso; apply in_map_iff in I as ([s q0] & E0 & I); cbn in E0; subst q0; eapply NW; eauto|].
      cbn [app] in E. injection E as <- ->. exists q', r. split; auto. apply below_path. auto.
    - intros s q I. apply below_In in I. destruct (c_val _ _ _ _ _ C s _ I) as (t' & v' & x & S & Ex & En).
      exists t', v', x. split; auto. apply (sub_sum g c fs k t v q t' v' ND Ik) in S. auto.
  Qed.

  (** What is established of a result [b'] for the binding [b]. *)
  Record simplified (t : ty) (v : val) (b b' : list entry) : Prop := {
    s_cut : cut t v b';
    s_path : forall p q, In (SPath p, q) b' <-> In (SPath p, q) b;
    s_min : forall z q k, In (SVal z, q ++ [k]) b' -> exists p r, In (SPath p, q ++ r) b' }.

  Definition simp_works (t : ty) : Prop := forall a v b, wf_ty t -> buildable t -> asm_rel R t a -> has_ty t v -> cut t v b ->
    exists b', simplify t a b = Ok b' /\ simplified t v b b'.

  Lemma simplified_whole t v b : cut t v b -> whole b = true -> simplified t v b b.
  Proof.
    intros C Wh. constructor; auto; [tauto|]. destruct b as [|[s [|? ?]] [|? ?]]; try discriminate.
    intros z q k [E|[]]. injection E as _ E. destruct q; discriminate.
  Qed.

  Lemma cut_nonempty t v b : wf_ty t -> buildable t -> has_ty t v -> cut t v b -> b <> [].
  Proof. intros W B H C ->. destruct (leaf_exists t W B v H) as [q L]. destruct (c_cov _ _ _ _ _ C q L) as (? & ? & [] & _). Qed.

  Lemma value_source t v b s q : cut t v b -> In (s, q) b -> (forall p q, ~ In (SPath p, q) b) -> exists z, s = SVal z.
  Proof.
    intros C I NP. destruct s as [p|z|]; [destruct (NP p q I)|eauto|].
    destruct (c_val _ _ _ _ _ C _ _ I) as (? & ? & ? & _ & E & _). rewrite ev_unb in E. discriminate.
  Qed.

  (** A result without sources that are paths is one value. *)
  Lemma simplified_value t v b b' : wf_ty t -> buildable t -> has_ty t v -> simplified t v b b' -> (forall p q, ~ In (SPath p, q) b') ->
    exists z, b' = [(SVal z, [])] /\ enc J t z v.
  Proof.
    intros W B H S NP. pose proof (s_cut _ _ _ _ S) as C. pose proof (cut_nonempty t v b' W B H C) as NE.
    assert (exists s q, In (s, q) b') as (s & q & I) by (destruct b' as [|[s q] r]; [congruence|exists s, q; left; auto]).
    destruct (value_source t v b' s q C I NP) as [z ->].
    destruct q as [|k0 q0].
    - destruct (cut_whole t v b' C (in_map snd _ _ I)) as [s ->]. destruct I as [E|[]]. injection E as ->. exists z. split; auto.
      destruct (c_val _ _ _ _ _ C _ _ (or_introl eq_refl)) as (t' & v' & x & Sv & Ex & En). rewrite ev_val in Ex. injection Ex as <-.
      inversion Sv; subst. auto.
    - exfalso. destruct (exists_last (l := k0 :: q0)) as (q & k & E); [discriminate|]. rewrite E in I.
      destruct (s_min _ _ _ _ S z q k I) as (p & r & Ip). eapply NP; eauto.
  Qed.

  Lemma has_path b' : (exists p q, In (@SPath path p, q) b') \/ (forall p (q : path), ~ In (SPath p, q) b').
  Proof.
    induction b' as [|[s q] b' [(p & q' & I)|N]]; [right; intros ? ? []|left; exists p, q'; right; auto|].
    destruct s as [p|z|]; [left; exists p, q; left; auto| |]; right; intros p q' [E|I]; try discriminate; eapply N; eauto.
  Qed.

  Lemma cut_one t v z : enc J t z v -> cut t v [(SVal z, [])].
  Proof.
    intros En. constructor.
    - cbn. constructor; [intros []|constructor].
    - intros q r [<-|[]] [E|[]]. cbn in E. auto.
    - intros q _. exists [], q. split; [left|]; auto.
    - intros s q [E|[]]. injection E as <- <-. exists t, v, z. split; [constructor|auto].
  Qed.

  Lemma at_member_In (F : ty -> asm -> list entry -> res (list entry)) a k t sub fs : NoDup (map fst fs) -> In (k, t) fs ->
    at_member F a k sub fs = do fa <- member_asm a k; F t fa sub.
  Proof.
    induction fs as [|[k' t'] fs IH]; intros N I; [destruct I|]. cbn [map fst] in N. inversion N as [|? ? N1 N2]; subst. cbn [at_member].
    destruct I as [[= -> ->]|I].
    - rewrite (proj2 (key_eqb_eq k k) eq_refl). auto.
    - destruct (key_eqb k k') eqn:E; [|apply IH; auto]. apply key_eqb_eq in E as ->. exfalso. apply N1. apply (in_map fst) in I. exact I.
  Qed.

  (** ** Grouping *)
  Definition grouped (d : list (key * list entry)) (b : list entry) : Prop :=
    NoDup (map fst d) /\ forall k, dget key_eqb d k = match below k b with [] => None | l => Some l end.

  Lemma dset_nodup V (d : list (key * V)) k x : NoDup (map fst d) -> NoDup (map fst (dset key_eqb d k x)).
  Proof.
    intros N. destruct (dget key_eqb d k) as [y|] eqn:E.
    - assert (map fst (dset key_eqb d k x) = map fst d) as ->; auto. clear N.
      induction d as [|[k' x'] d IH]; [discriminate|]. cbn [dset dget] in *. destruct (key_eqb k k'); cbn [map fst]; [auto|]. f_equal. auto.
    - apply (dget_None key_eqb key_eqb_eq) in E. rewrite (dset_new key_eqb key_eqb_eq) by auto.
      rewrite map_app. apply NoDup_app_iff. split; auto. split; [repeat constructor; intros []|]. intros y I [<-|[]]. auto.
  Qed.

  Lemma group_by_spec fs b : (forall s q, In (s, q) b -> exists k r t, q = k :: r /\ dget key_eqb fs k = Some t) ->
    forall d0 b0, grouped d0 b0 -> exists d, group_by fs d0 b = Ok d /\ grouped d (b0 ++ b).
  Proof.
    induction b as [|[s q] b IH]; intros H d0 b0 G; [exists d0; rewrite app_nil_r; auto|].
    destruct (H s q (or_introl eq_refl)) as (k & r & t & -> & Et). cbn [group_by]. rewrite Et.
    set (old := match dget key_eqb d0 k with Some l => l | None => [] end).
    destruct (IH (fun s q I => H s q (or_intror I)) (dset key_eqb d0 k (old ++ [(s, r)])) (b0 ++ [(s, k :: r)])) as (d & Ed & Gd).
    { destruct G as [N G]. split; [apply dset_nodup; auto|]. intros k'. rewrite (dget_dset key_eqb key_eqb_eq), below_app.
      destruct (key_eqb k' k) eqn:E.
      - apply key_eqb_eq in E as ->. unfold old. rewrite G. cbn [below flat_map snd fst]. rewrite (proj2 (key_eqb_eq k k) eq_refl).
        destruct (below k b0); cbn [app]; auto.
      - assert (below k' [(s, k :: r)] = []) as ->; [|rewrite app_nil_r; auto]. cbn [below flat_map snd fst].
        destruct (key_eqb k k') eqn:E'; auto. apply key_eqb_eq in E'. subst k'. rewrite (proj2 (key_eqb_eq k k) eq_refl) in E. discriminate. }
    exists d. split; auto. rewrite <- app_assoc in Gd. exact Gd.
  Qed.

  Lemma sum_simp g c fs : Forall (fun f => simp_works (snd f)) fs -> simp_works (TSum g c fs).
  Proof.
    intros Wk a v b W B A H C. destruct (whole b) eqn:Wh.
    { exists b. cbn [simplify]. rewrite Wh. split; auto. apply simplified_whole; auto. }
    pose proof (whole_false _ _ _ C Wh) as NW. pose proof (cut_nonempty _ _ _ W B H C) as NE.
    inversion H as [| | | | |? ? ? k t v' Ik Hv]; subst. assert (NoDup (map fst fs)) as ND by (inversion W; auto).
    pose proof (cut_sum_member g c fs k t v' b ND Ik C NW) as Cm.
    inversion B as [? L| |? ? ? L2 NZ Bd]; subst; [destruct L|].
    destruct (sum_words R g c fs a k t GR W A Ik)
      as (w & tagw & as_ & gs & tv & fa & pre & post & Ea & Etw & Hfs & Em & Af & Rr & Lw & Pt & Pfa & Eg & SW).
    assert (forall s q, In (s, q) b -> exists r, q = k :: r) as Hd.
    { intros s q I. destruct (c_val _ _ _ _ _ C s q I) as (t' & v0 & x & S & _). inversion S; subst; [destruct (NW s I)|eauto]. }
    assert (mapM (strip_field k) b = Ok (below k b)) as Est.
    { clear - Hd. induction b as [|[s q] b IH]; auto. cbn [mapM]. destruct (Hd s q (or_introl eq_refl)) as [r ->].
      unfold strip_field at 1. cbn [snd fst]. rewrite (proj2 (key_eqb_eq k k) eq_refl). cbn [bind].
      rewrite IH by (intros; eapply Hd; right; eauto). cbn [bind below flat_map snd fst]. rewrite (proj2 (key_eqb_eq k k) eq_refl). auto. }
    rewrite Forall_forall in Wk. pose proof (Wk (k, t) Ik) as Wt. cbn [snd] in Wt.
    assert (wf_ty t) as WFt by (eapply wf_members_sum; eauto).
    destruct (Wt fa v' (below k b) WFt (Bd k t Ik) Af Hv Cm) as (s & Es & Ss).
    assert (at_member simplify a k (below k b) fs = Ok s) as Eat.
    { rewrite (at_member_In simplify a k t _ fs ND Ik), Em. exact Es. }
    pose proof (s_cut _ _ _ _ Ss) as Cs.
    assert (simplify (TSum g c fs) a b =
      match s with
          | [(SVal z, q)] =>
              match q with
              | [] => do fa <- member_asm a k;
                      do v <- sum_from_fields fs a k (FWord (a_width fa) z) None 0; Ok [(SVal v, [])]
              | _ => Err AssertionError
              end
          | [(SUnbound, q)] => match q with [] => Err TypeError | _ => Err AssertionError end
          | _ => Ok (prefix_all k s)
      end) as Ei.
    { cbn [simplify]. rewrite Wh. destruct b as [|[s0 q0] b0] eqn:Eb; [congruence|].
      destruct (Hd s0 q0 (or_introl eq_refl)) as [r0 ->]. rewrite Est. cbn [bind]. rewrite Eat. reflexivity. }
    assert (forall p r, In (SPath p, r) s <-> In (SPath p, k :: r) b) as Pk by (intros p r; rewrite (s_path _ _ _ _ Ss); apply below_In).
    destruct (has_path s) as [(p0 & q0 & Ip)|NP].
    - exists (prefix_all k s). split.
      { rewrite Ei. destruct s as [|[[p|z|] q] [|e l]]; auto; destruct Ip as [E|[]]; discriminate. }
      constructor.
      + constructor.
        * unfold prefix_all. rewrite map_map. cbn [snd]. rewrite <- (map_map snd (fun q => k :: q)). apply FinFun.Injective_map_NoDup; [intros x y E; injection E as ->; auto|exact (c_nd _ _ _ _ _ Cs)].
        * intros q r I I'. apply prefix_path in I as (q1 & -> & I). apply prefix_path in I' as (q2 & E & I').
          cbn [app] in E. injection E as <-. apply (c_anti _ _ _ _ _ Cs q1); auto.
        * intros q Lq. destruct (leaf_sum_inv g c fs k v' q Lq) as [r ->]. apply (leaf_sum g c fs k t v' r ND Ik) in Lq.
          destruct (c_cov _ _ _ _ _ Cs r Lq) as (q' & r' & I & ->). exists (k :: q'), r'. split; auto. apply prefix_path. eauto.
        * intros s1 q I. apply prefix_In in I as (r & -> & I). destruct (c_val _ _ _ _ _ Cs s1 r I) as (t' & v0 & x & S & Ex & En).
          exists t', v0, x. split; auto. econstructor; eauto.
      + intros p q. rewrite prefix_In. split.
        * intros (r & -> & I). apply Pk. auto.
        * intros I. destruct (Hd _ _ I) as [r ->]. exists r. split; auto. apply Pk. auto.
      + intros z q k1 I. apply prefix_In in I as (r & E & I). destruct q as [|k2 q].
        * exists p0, (k :: q0). cbn [app]. apply prefix_In. exists q0. auto.
        * cbn [app] in E. injection E as -> <-. destruct (s_min _ _ _ _ Ss z q k1 I) as (p & r & Ip').
          exists p, r. cbn [app]. apply prefix_In. eauto.
    - destruct (simplified_value t v' (below k b) s WFt (Bd k t Ik) Hv Ss NP) as (z & -> & En).
      assert (0 <= z < 2 ^ a_width fa) as Rz.
      { apply (enc_range J t WFt z v'); auto. apply (asm_rel_width R t WFt fa Af). }
      destruct (proj2 (SW (rank_at pre k post) z Rr Rz) L2 (NZ k t Ik)) as (op & Eop & _ & _ & _ & Enc).
      assert (sum_from_fields fs a k (FWord (a_width fa) z) None 0 = Ok op) as E.
      { rewrite <- Eop. destruct (tags_spec R g c fs a pre k t post GR W A Hfs) as (T1 & _ & _). rewrite Ea in *. cbn [sum_from_fields]. rewrite T1. reflexivity. }
      exists [(SVal op, [])]. split; [rewrite Ei, Em; cbn [bind]; rewrite E; auto|]. constructor.
      + apply cut_one. apply Enc; auto.
      + intros p q. split; [intros [X|[]]; discriminate|]. intros I. destruct (Hd _ _ I) as [r ->]. apply Pk in I as [X|[]]. discriminate.
      + intros z0 q k1 [X|[]]. injection X as _ X. destruct q; discriminate.
  Qed.

  Lemma one_value_one (b : list entry) z : one_value b = Some z -> exists q, b = [(SVal z, q)].
  Proof. destruct b as [|[[p|y|] q] [|e b]]; try discriminate. intros [= ->]. eauto. Qed.

  Lemma prefix_nodup (sd : list (key * list entry)) : NoDup (map fst sd) -> (forall k s, In (k, s) sd -> NoDup (map snd s)) ->
    NoDup (map snd (flat_map (fun e => prefix_all (fst e) (snd e)) sd)).
  Proof.
    induction sd as [|[k s] sd IH]; intros N H; [constructor|]. cbn [map fst] in N. inversion N as [|? ? N1 N2]; subst.
    cbn [flat_map fst snd]. rewrite map_app. apply NoDup_app_iff. split; [|split].
    - unfold prefix_all. rewrite map_map. cbn [snd]. rewrite <- (map_map snd (fun q => k :: q)).
      apply FinFun.Injective_map_NoDup; [intros x y E; injection E as ->; auto|]. apply (H k s). left; auto.
    - apply IH; auto. intros k' s' I. apply (H k' s'). right; auto.
    - intros q I I'. apply prefix_path in I as (r & -> & _). apply in_map_iff in I' as ([s0 q0] & E & I'). cbn in E. subst q0.
      apply in_flat_map in I' as ([k1 s1] & I1 & I'). apply prefix_In in I' as (r' & E & _). cbn [fst] in E. injection E as <- _.
      apply N1. apply (in_map fst) in I1. exact I1.
  Qed.

  Lemma prod_simp c fs : Forall (fun f => simp_works (snd f)) fs -> simp_works (TProd c fs).
  Proof.
    intros Wk a v b W B A H C. destruct (whole b) eqn:Wh.
    { exists b. cbn [simplify]. rewrite Wh. split; auto. apply simplified_whole; auto. }
    pose proof (whole_false _ _ _ C Wh) as NW.
    inversion H as [| | | |? ? vs F|]; subst. assert (NoDup (map fst fs)) as ND by (inversion W; auto).
    inversion B as [? L|? ? NE NZ Bd|]; subst; [destruct L|].
    assert (forall i k t, nth_error fs i = Some (k, t) -> exists v, nth_error vs i = Some v /\ has_ty t v /\ cut t v (below k b) /\ below k b <> []) as Fld.
    { intros i k t Ei. destruct (F2_nth _ _ _ F i _ Ei) as (v & Ev & Hv). cbn [snd] in Hv. exists v. split; auto. split; auto.
      pose proof (cut_prod_member c fs vs i k t v b ND Ei Ev C NW) as Cm. split; auto.
      pose proof (nth_error_In _ _ Ei) as I. apply (cut_nonempty t v); auto. eapply wf_members_prod; eauto. eauto. }
    assert (forall s q, In (s, q) b -> exists k r t, q = k :: r /\ In (k, t) fs) as Hd.
    { intros s q I. destruct (c_val _ _ _ _ _ C s q I) as (t' & v0 & x & S & _).
      inversion S as [|? ? ? k r i t ? ? ? Ei|]; subst; [destruct (NW s I)|]. apply nth_error_In in Ei. eauto. }
    destruct (group_by_spec fs b) with (d0 := @nil (key * list entry)) (b0 := @nil entry) as (d & Ed & Nd & Gd).
    { intros s q I. destruct (Hd s q I) as (k & r & t & -> & It). exists k, r, t. split; auto. apply dget_key_In; auto. }
    { split; [constructor|]. intros k. reflexivity. }
    cbn [app] in Gd.
    assert (forall k, In k (map fst d) <-> In k (map fst fs)) as Kd.
    { intros k. split; intros I.
      - destruct (below k b) as [|[s q] l] eqn:Eb.
        + pose proof (Gd k) as E. rewrite Eb in E. apply (dget_None key_eqb key_eqb_eq) in E. contradiction.
        + assert (In (s, k :: q) b) as Ib by (apply below_In; rewrite Eb; left; auto).
          destruct (Hd _ _ Ib) as (k' & r & t & E & It). injection E as <- _. apply (in_map fst) in It. exact It.
      - apply in_map_iff in I as ([k' t] & E & I). cbn in E. subst k'. apply In_nth_error in I as [i Ei].
        destruct (Fld i k t Ei) as (v & _ & _ & _ & Nb). pose proof (Gd k) as E. destruct (below k b) as [|e l]; [congruence|].
        apply (dget_In key_eqb key_eqb_eq) in E. apply (in_map fst) in E. exact E. }
    assert (length d = length fs) as Ld.
    { rewrite <- (map_length fst d), <- (map_length fst fs). apply Permutation_length, NoDup_Permutation; auto. }
    assert (forall k l, In (k, l) d -> l = below k b) as Bl.
    { intros k l I. apply (dget_NoDup key_eqb key_eqb_eq) in I; auto. rewrite Gd in I. destruct (below k b); congruence. }
    destruct (mapM_ok (fun e => do s <- at_member simplify a (fst e) (snd e) fs; Ok (fst e, s)) d) as (sd & Esd & Fsd).
    { intros [k l] I. cbn [fst snd]. rewrite (Bl k l I). assert (In k (map fst fs)) as Ik by (apply Kd; apply (in_map fst) in I; exact I).
      apply in_map_iff in Ik as ([k' t] & E & Ik). cbn in E. subst k'. pose proof Ik as Ik2. apply In_nth_error in Ik2 as [i Ei].
      destruct (Fld i k t Ei) as (v & Ev & Hv & Cm & Nb). rewrite (at_member_In simplify a k t _ fs ND Ik).
      destruct (prod_member R c fs a k t W A Ik) as (fa & lo & Em & Af & _). rewrite Em. cbn [bind].
      rewrite Forall_forall in Wk. assert (wf_ty t) as Wt by (eapply wf_members_prod; eauto).
      destruct (Wk (k, t) Ik fa v (below k b) Wt (Bd k t Ik) Af Hv Cm) as (s & Es & _).
      cbn [snd] in Es. rewrite Es. exists (k, s). reflexivity. }
    assert (map fst sd = map fst d) as Ksd.
    { clear - Fsd. induction Fsd as [|[k l] [k' s] d sd E F IH]; auto. cbn [map fst snd] in *. f_equal; auto.
      destruct (at_member simplify a k l fs); [injection E as -> _; auto|discriminate]. }
    assert (NoDup (map fst sd)) as Nsd by (rewrite Ksd; auto).
    assert (forall k s, In (k, s) sd -> exists i t v fa, nth_error fs i = Some (k, t) /\ nth_error vs i = Some v /\ In (k, t) fs /\ has_ty t v /\ wf_ty t /\ buildable t /\
       member_asm a k = Ok fa /\ asm_rel R t fa /\ simplified t v (below k b) s) as Ssd.
    { intros k s I. apply In_nth_error in I as [j Ej]. destruct (F2_nth' _ _ _ Fsd j _ Ej) as ([k' l] & El & E). cbn [fst snd] in E.
      apply nth_error_In in El. rewrite (Bl k' l El) in E. assert (In k' (map fst fs)) as Ik by (apply Kd; apply (in_map fst) in El; exact El).
      apply in_map_iff in Ik as ([k0 t] & E0 & Ik). cbn in E0. subst k0. pose proof Ik as Ik2. apply In_nth_error in Ik2 as [i Ei].
      destruct (Fld i k' t Ei) as (v & Ev & Hv & Cm & Nb). rewrite (at_member_In simplify a k' t _ fs ND Ik) in E.
      destruct (prod_member R c fs a k' t W A Ik) as (fa & lo & Em & Af & _). rewrite Em in E. cbn [bind] in E.
      rewrite Forall_forall in Wk. assert (wf_ty t) as Wt by (eapply wf_members_prod; eauto).
      destruct (Wk (k', t) Ik fa v (below k' b) Wt (Bd k' t Ik) Af Hv Cm) as (s' & Es & Ss).
      cbn [snd] in Es, Ss. rewrite Es in E. cbn [bind] in E. injection E as <- <-. exists i, t, v, fa. repeat (split; eauto). }
    assert (forall i k t, nth_error fs i = Some (k, t) -> exists s, In (k, s) sd) as Xsd.
    { intros i k t Ei. apply nth_error_In in Ei. assert (In k (map fst sd)) as I by (rewrite Ksd; apply Kd; apply (in_map fst) in Ei; exact Ei).
      apply in_map_iff in I as ([k' s] & E & I). cbn in E. subst k'. eauto. }
    cbn [simplify]. rewrite Wh, Ed. cbn [bind]. rewrite Ld, Nat.eqb_refl. cbn [negb]. rewrite Esd. cbn [bind].
    destruct (forallb (fun e => match one_value (snd e) with Some _ => true | None => false end) sd) eqn:All.
    - rewrite forallb_forall in All.
      assert (forall k s, In (k, s) sd -> (forall p q, ~ In (SPath p, q) s)) as NP.
      { intros k s I p q Ip. specialize (All _ I). cbn [snd] in All. destruct (one_value s) as [z|] eqn:E; [|discriminate].
        apply one_value_one in E as [q' ->]. destruct Ip as [X|[]]. discriminate. }
      assert (forall l, incl l fs -> exists wxs, mapM (fun f => do fa <- member_asm a (fst f);
                                   do s <- dgetE key_eqb sd (fst f);
                                   match one_value s with Some z => Ok (FWord (a_width fa) z) | None => Err TypeError end) l = Ok (map fw wxs) /\
         Forall2 (fun f wx => (swidth (snd f) (fst wx) /\ 0 <= snd wx < 2 ^ fst wx) /\
            forall i v, nth_error fs i = Some f -> nth_error vs i = Some v -> enc J (snd f) (snd wx) v) l wxs) as Args.
      { induction l as [|[k t] l IH]; intros Inc; [exists []; split; [auto|constructor]|].
        destruct IH as (wxs & Ew & Fw); [intros x Ix; apply Inc; right; auto|].
        assert (In (k, t) fs) as Ik by (apply Inc; left; auto). pose proof Ik as Ik2. apply In_nth_error in Ik2 as [i Ei].
        destruct (Xsd i k t Ei) as [s Is]. destruct (Ssd k s Is) as (j & t' & v & fa & Ej & Evj & It' & Hv & Wt & Bt & Em & Af & Ss).
        assert (j = i) by exact (nth_key_unique fs j i k t' t ND Ej Ei). subst j. assert (t' = t) as -> by congruence.
        destruct (simplified_value t v (below k b) s Wt Bt Hv Ss (NP k s Is)) as (z & -> & En).
        exists ((a_width fa, z) :: wxs). split.
        - cbn [mapM fst]. rewrite Em. cbn [bind]. unfold dgetE at 1. rewrite (dget_NoDup key_eqb key_eqb_eq sd k _ Nsd Is). cbn [bind one_value].
          rewrite Ew. reflexivity.
        - constructor; auto. cbn [fst snd]. destruct (asm_rel_width R t Wt fa Af) as [Sw _]. split; [split; auto; apply (enc_range J t Wt z v); auto|].
          intros j v' Ej' Ev'. assert (j = i) by exact (nth_key_unique fs j i k t t ND Ej' Ei). subst j. congruence. }
      destruct (Args fs (incl_refl fs)) as (wxs & Ew & Fw). rewrite Ew. cbn [bind].
      pose proof (F2_length _ _ _ Fw) as Lw. pose proof (F2_length _ _ _ F) as Lv.
      destruct (prod_words R c fs a wxs W A NE NZ) as (op & Eop & _ & Enc).
      { clear - Fw. induction Fw as [|? ? ? ? [X _]]; constructor; auto. }
      rewrite Eop. cbn [bind]. exists [(SVal op, [])]. split; auto. constructor.
      + apply cut_one. apply Enc; auto; [|congruence]. apply F2_intro.
        * rewrite combine_length, map_length. lia.
        * intros i f [x v] Ei Ec. assert (nth_error wxs i <> None) as Nw by (apply nth_error_Some; rewrite <- Lw; apply nth_error_Some; congruence).
          destruct (F2_nth _ _ _ Fw i f Ei) as (wx & Ewx & _ & X).
          destruct (F2_nth _ _ _ F i f Ei) as (v' & Ev' & _).
          assert (nth_error (combine (map snd wxs) vs) i = Some (snd wx, v')) as E'.
          { clear - Ewx Ev'. revert wxs vs Ewx Ev'. induction i as [|i IH]; intros [|a l] [|b m] E E'; try discriminate; cbn in *; [congruence|auto]. }
          rewrite E' in Ec. injection Ec as <- <-. cbn [fst snd]. eapply X; eauto.
      + intros p q. split; [intros [X|[]]; discriminate|]. intros I. exfalso. destruct (Hd _ _ I) as (k & r & t & -> & It).
        apply In_nth_error in It as [i Ei]. destruct (Xsd i k t Ei) as [s Is]. destruct (Ssd k s Is) as (j & t' & v & fa & _ & _ & _ & _ & _ & _ & _ & _ & Ss).
        apply (proj2 (below_In k b _ r)) in I. apply (s_path _ _ _ _ Ss) in I. eapply NP; eauto.
      + intros z q k1 [X|[]]. injection X as _ X. destruct q; discriminate.
    - assert (exists k0 s0 p0 q0, In (k0, s0) sd /\ In (SPath p0, q0) s0) as (k0 & s0 & p0 & q0 & I0 & Ip0).
      { assert (exists k s, In (k, s) sd /\ one_value s = None) as (k & s & I & E).
        { clear - All. induction sd as [|[k s] sd IH]; [discriminate|]. cbn [forallb snd] in All.
          destruct (one_value s) eqn:E; [|exists k, s; split; [left|]; auto]. destruct (IH All) as (k' & s' & I & E'). exists k', s'. split; [right|]; auto. }
        destruct (has_path s) as [(p & q & Ip)|NP]; [exists k, s, p, q; auto|].
        destruct (Ssd k s I) as (j & t' & v & fa & _ & _ & _ & Hv & Wt & Bt & _ & _ & Ss).
        destruct (simplified_value t' v (below k b) s Wt Bt Hv Ss NP) as (z & -> & _). discriminate. }
      set (out := flat_map (fun e => prefix_all (fst e) (snd e)) sd).
      assert (forall s q, In (s, q) out <-> exists k l r, In (k, l) sd /\ q = k :: r /\ In (s, r) l) as Out.
      { intros s q. unfold out. rewrite in_flat_map. split.
        - intros ([k l] & I & I'). apply prefix_In in I' as (r & -> & I'). exists k, l, r. auto.
        - intros (k & l & r & I & -> & I'). exists (k, l). split; auto. apply prefix_In. eauto. }
      assert (forall q, In q (map snd out) <-> exists k l r, In (k, l) sd /\ q = k :: r /\ In r (map snd l)) as OutP.
      { intros q. split.
        - intros I. apply in_map_iff in I as ([s q'] & E & I). cbn in E. subst q'. apply Out in I as (k & l & r & I & -> & I'). exists k, l, r. repeat split; auto. apply (in_map snd) in I'. exact I'.
        - intros (k & l & r & I & -> & I'). apply in_map_iff in I' as ([s q'] & E & I'). cbn in E. subst q'. apply in_map_iff. exists (s, k :: r). split; auto. apply Out. exists k, l, r. auto. }
      assert (forall k l l', In (k, l) sd -> In (k, l') sd -> l = l') as Fsd'.
      { intros k l l' I I'. apply (dget_NoDup key_eqb key_eqb_eq) in I; auto. apply (dget_NoDup key_eqb key_eqb_eq) in I'; auto. congruence. }
      exists out. split; auto. constructor.
      + constructor.
        * apply prefix_nodup; auto. intros k s I. destruct (Ssd k s I) as (j & t' & v & fa & _ & _ & _ & _ & _ & _ & _ & _ & Ss). apply (c_nd _ _ _ _ _ (s_cut _ _ _ _ Ss)).
        * intros q r I I'. apply OutP in I as (k & l & r1 & I1 & -> & I). apply OutP in I' as (k2 & l2 & r2 & I2 & E & I').
          cbn [app] in E. injection E as <- <-. assert (l2 = l) as -> by (eapply Fsd'; eauto).
          destruct (Ssd k l I1) as (j & t' & v & fa & _ & _ & _ & _ & _ & _ & _ & _ & Ss). exact (c_anti _ _ _ _ _ (s_cut _ _ _ _ Ss) r1 r I I').
        * intros q Lq. destruct (leaf_prod_inv c fs vs q Lq) as (i & k & t & v & r & -> & Ei & Ev). apply (leaf_prod c fs vs i k t v r ND Ei Ev) in Lq.
          destruct (Xsd i k t Ei) as [s Is]. destruct (Ssd k s Is) as (j & t' & v' & fa & Ej & Evj & _ & _ & _ & _ & _ & _ & Ss).
          assert (j = i) by exact (nth_key_unique fs j i k t' t ND Ej Ei). subst j. assert (t' = t) as -> by congruence. assert (v' = v) as -> by congruence.
          destruct (c_cov _ _ _ _ _ (s_cut _ _ _ _ Ss) r Lq) as (q' & r' & I & ->). exists (k :: q'), r'. split; auto. apply OutP. exists k, s, q'. auto.
        * intros s q I. apply Out in I as (k & l & r & I1 & -> & I). destruct (Ssd k l I1) as (j & t' & v' & fa & Ej & Evj & _ & _ & _ & _ & _ & _ & Ss).
          destruct (c_val _ _ _ _ _ (s_cut _ _ _ _ Ss) s r I) as (t0 & v0 & x & S & Ex & En). exists t0, v0, x. split; auto. econstructor; eauto.
      + intros p q. rewrite Out. split.
        * intros (k & l & r & I1 & -> & I). destruct (Ssd k l I1) as (j & t' & v' & fa & Ej & Evj & _ & _ & _ & _ & _ & _ & Ss).
          apply (s_path _ _ _ _ Ss) in I. apply below_In in I. auto.
        * intros I. destruct (Hd _ _ I) as (k & r & t & -> & It). apply In_nth_error in It as [i Ei]. destruct (Xsd i k t Ei) as [s Is].
          destruct (Ssd k s Is) as (j & t' & v & fa & _ & _ & _ & _ & _ & _ & _ & _ & Ss). exists k, s, r. split; auto. split; auto. apply (s_path _ _ _ _ Ss). apply below_In. auto.
      + intros z q k1 I. apply Out in I as (k & l & r & I1 & E & I). destruct q as [|k2 q].
        * exists p0, (k0 :: q0). cbn [app]. apply Out. exists k0, s0, q0. auto.
        * cbn [app] in E. injection E as -> <-. destruct (Ssd k l I1) as (j & t' & v' & fa & Ej & Evj & _ & _ & _ & _ & _ & _ & Ss).
          destruct (s_min _ _ _ _ Ss z q k1 I) as (p & r & Ip). exists p, r. cbn [app]. apply Out. exists k, l, (q ++ r). auto.
  Qed.

  Lemma leaf_simp t : is_leaf t -> simp_works t.
  Proof.
    intros L a v b W B A H C. assert (whole b = true) as Wh.
    { destruct (whole b) eqn:Wh; auto. exfalso. pose proof (cut_nonempty t v b W B H C) as NE.
      destruct b as [|[s q] b'] eqn:Eb; [congruence|]. rewrite <- Eb in *.
      assert (In (s, q) b) as I by (rewrite Eb; left; auto).
      destruct (c_val _ _ _ _ _ C s q I) as (t' & v' & x & S & _). assert (q = []) as ->.
      { inversion S; subst; auto; destruct L. }
      destruct (cut_whole t v b C (in_map snd _ _ I)) as [s' ->]. discriminate. }
    exists b. split; [destruct t; cbn [simplify]; rewrite Wh; auto|]. apply simplified_whole; auto.
  Qed.

  Lemma all_simp t : simp_works t.
  Proof.
    induction t as [| | |c ms|c fs IH|g c fs IH] using ty_ind'; try (apply leaf_simp; exact Logic.I).
    - apply prod_simp; auto.
    - apply sum_simp; auto.
  Qed.
End S.
