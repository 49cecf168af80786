(** Lemmas about forms and simplification of bindings. *)
From Coq Require Import String ZArith List Bool Lia Permutation.
From Verif Require Import Base BaseLemmas BindModel MapIdxProps BindProps MapModel
  AsmModel AsmSpec AsmValid AsmEnum AsmBuild AsmProofs AsmSub AadtModel AadtProofs FormModel.
Import ListNotations.
Open Scope list_scope.
Open Scope Z_scope.

(** * Types for which words can be built *)
Definition is_leaf (t : ty) : Prop :=
  match t with TBit | TBV _ | TSInt _ | TEnum _ _ => True | _ => False end.

(** No empty product, no sum with one member, no zero-width part next to others. *)
Inductive buildable : ty -> Prop :=
| bd_leaf t : is_leaf t -> buildable t
| bd_prod c fs : fs <> [] -> (length fs = 1%nat \/ forall k t, In (k, t) fs -> ~ swidth t 0) ->
    (forall k t, In (k, t) fs -> buildable t) -> buildable (TProd c fs)
| bd_sum g c fs : (2 <= length fs)%nat -> (forall k t, In (k, t) fs -> ~ swidth t 0) ->
    (forall k t, In (k, t) fs -> buildable t) -> buildable (TSum g c fs).

(** No tagged union inside. *)
Inductive untagged : ty -> Prop :=
| ut_leaf t : is_leaf t -> untagged t
| ut_prod c fs : (forall k t, In (k, t) fs -> untagged t) -> untagged (TProd c fs)
| ut_sum c fs : (forall k t, In (k, t) fs -> untagged t) -> untagged (TSum false c fs).

Lemma inhabited t : wf_ty t -> exists v, has_ty t v /\ nonneg_signed t v.
Proof.
  induction t as [|w|w|c ms|c fs IH|g c fs IH] using ty_ind'; intros W.
  - exists (VBit false). split; constructor.
  - inversion W; subst. exists (VBV 0). split; constructor. pose proof (pow2_pos w). lia.
  - inversion W; subst. exists (VBV 0). split; constructor; [pose proof (pow2_pos w)|pose proof (pow2_pos (w - 1))]; lia.
  - inversion W as [| | |? ? N| |]; subst. destruct ms as [|m ms]; [congruence|]. exists (VEnum m). split; constructor. left; auto.
  - assert (Forall (fun f => wf_ty (snd f)) fs) as WF by (inversion W; auto). clear W.
    assert (exists vs, Forall2 (fun f v => has_ty (snd f) v) fs vs /\ Forall2 (fun f v => nonneg_signed (snd f) v) fs vs)
      as (vs & A & B).
    { induction IH as [|f fs H IH' IHF]; [exists []; split; constructor|]. inversion WF as [|? ? W1 W2]; subst.
      destruct (H W1) as (v & A & B). destruct (IHF W2) as (vs & A' & B'). exists (v :: vs). split; constructor; auto. }
    exists (VProd vs). split; constructor; auto.
  - inversion W as [| | | | |? ? ? N ND WF]; subst. destruct fs as [|[k t] fs]; [congruence|].
    inversion IH as [|? ? H _]; inversion WF as [|? ? W1 _]; subst. destruct (H W1) as (v & A & B).
    exists (VSum k v). split; econstructor; eauto; left; auto.
Qed.

(** * Building words from words *)
Definition fw (wx : Z * Z) : farg := FWord (fst wx) (snd wx).

Definition shadow (fs : list (key * ty)) (ws : list Z) : list (key * ty) := combine (map fst fs) (map TBV ws).
Definition shadow_asm (e : key * (Z * Z) * asm) : key * (Z * Z) * asm :=
  (fst e, AField (TBV (a_width (snd e))) (a_width (snd e))).

Lemma shadow_rel R b fs w fs' : tup_rel R b fs w fs' ->
  tup_rel R b (shadow fs (map (fun e => a_width (snd e)) fs')) w (map shadow_asm fs').
Proof.
  induction 1 as [b|b k t r w a rest Ha Tr IH]; [constructor|].
  cbn [map shadow combine fst snd shadow_asm]. unfold shadow_asm at 1. cbn [fst snd].
  apply (tr_cons R b k (TBV (a_width a)) _ w (AField (TBV (a_width a)) (a_width a))); [constructor|exact IH].
Qed.

Lemma shadow_new R b fs w fs' : tup_rel R b fs w fs' -> forall wxs,
  new_fields fs fs' (map fw wxs) =
  new_fields (shadow fs (map (fun e => a_width (snd e)) fs')) (map shadow_asm fs') (map fw wxs).
Proof.
  induction 1 as [b|b k t r w a rest Ha Tr IH]; intros [|[w0 x] wxs]; auto.
  change (shadow ((k, t) :: r) (map (fun e : key * (Z * Z) * asm => a_width (snd e)) ((k, (b, b + a_width a), a) :: rest)))
    with ((k, TBV (a_width a)) :: shadow r (map (fun e : key * (Z * Z) * asm => a_width (snd e)) rest)).
  cbn [map shadow_asm fw fst snd new_fields field_new a_width]. unfold shadow_asm at 1. cbn [fst snd new_fields].
  unfold fw in *. cbn [fst snd field_new a_width]. destruct (w0 =? a_width a); cbn [bind]; auto. rewrite IH. auto.
Qed.

Lemma shadow_keys fs ws : length ws = length fs -> map fst (shadow fs ws) = map fst fs.
Proof. intros L. unfold shadow. apply map_fst_combine. rewrite !map_length. auto. Qed.

Lemma shadow_wf c fs ws : NoDup (map fst fs) -> length ws = length fs -> Forall (fun w => 0 <= w) ws -> wf_ty (TProd c (shadow fs ws)).
Proof.
  intros ND L F. constructor; [unfold no_dup_keys; rewrite shadow_keys; auto|].
  apply Forall_forall. intros [k t] I. apply in_combine_r in I. apply in_map_iff in I as (w & <- & I).
  constructor. rewrite Forall_forall in F. auto.
Qed.

Lemma prod_words R c fs a wxs : wf_ty (TProd c fs) -> asm_rel R (TProd c fs) a -> fs <> [] ->
  (length fs = 1%nat \/ forall k t, In (k, t) fs -> ~ swidth t 0) ->
  Forall2 (fun f wx => swidth (snd f) (fst wx) /\ 0 <= snd wx < 2 ^ fst wx) fs wxs ->
  exists op, prod_from_fields fs a (map fw wxs) 0 = Ok op /\ 0 <= op < 2 ^ a_width a /\
    forall (J : Z -> Prop) vs, J 0 -> Forall2 (fun f xv => enc J (snd f) (fst xv) (snd xv)) fs (combine (map snd wxs) vs) ->
      length vs = length wxs -> enc J (TProd c fs) op (VProd vs).
Proof.
  intros W A NE Pos F2. inversion A as [| | | |? ? w fs' T|]; subst.
  assert (Forall (fun f => wf_ty (snd f)) fs) as WF by (inversion W; auto).
  assert (NoDup (map fst fs)) as ND by (inversion W; auto).
  set (ws := map (fun e : key * (Z * Z) * asm => a_width (snd e)) fs').
  assert (length ws = length fs) as Lw by (unfold ws; rewrite map_length; eapply tup_rel_length; eauto).
  assert (Forall (fun w => 0 <= w) ws) as Pw by (unfold ws; eapply tup_rel_widths; eauto).
  assert (map fst wxs = ws) as Ews.
  { assert (Forall2 (fun (f : key * ty) (wx : Z * Z) => swidth (snd f) (fst wx)) fs wxs) as Fw.
    { clear - F2. induction F2 as [|? ? ? ? [S _]]; constructor; auto. }
    unfold ws. clear - T Fw WF. revert wxs Fw.
    induction T as [b|b k t r w a rest Ha Tr IH]; intros wxs Fw; inversion Fw as [|? wx ? wxs' Sw Fw']; subst; [reflexivity|].
    inversion WF as [|? ? W1 W2]; subst. cbn [map snd]. f_equal; [|apply IH; auto].
    cbn [snd] in *. apply (swidth_fun t); [exact Sw|]. apply (asm_rel_width R t W1 a Ha). }
  assert (length wxs = length fs) as Lx by (rewrite <- Lw, <- Ews, map_length; auto).
  pose proof (shadow_rel R 0 fs w fs' T) as T'. fold ws in T'.
  assert (prod_from_fields fs (ATuple w fs') (map fw wxs) 0 =
          prod_from_fields (shadow fs ws) (ATuple w (map shadow_asm fs')) (map fw wxs) 0) as Es.
  { cbn [prod_from_fields]. rewrite (shadow_new R 0 fs w fs' T). fold ws.
    destruct (new_fields (shadow fs ws) (map shadow_asm fs') (map fw wxs)); cbn [bind]; auto. f_equal.
    rewrite map_map. apply map_ext. auto. }
  assert (Forall2 (fun f va => arg_for (fun j => j = 0) (snd f) (fst va) (snd va)) (shadow fs ws)
            (combine (map (fun wx => VBV (snd wx)) wxs) (map fw wxs))) as F.
  { rewrite <- Ews. clear - F2. induction F2 as [|f wx fs wxs [S Rg] F IH]; cbn [map shadow combine]; constructor; auto.
    cbn [fst snd]. apply af_word; constructor; auto. }
  destruct (prod_from_fields_ok R (fun j => j = 0) c (shadow fs ws) (ATuple w (map shadow_asm fs'))
     (map (fun wx => VBV (snd wx)) wxs) (map fw wxs) 0) as (op & Eop & En); auto.
  - apply shadow_wf; auto.
  - constructor. auto.
  - rewrite !map_length; auto.
  - intros Z0. apply (f_equal (@length _)) in Z0. unfold shadow in Z0. rewrite combine_length, !map_length, Lw in Z0.
    destruct fs; [congruence|cbn in Z0; lia].
  - destruct Pos as [L1|Pos].
    + left. unfold shadow. rewrite combine_length, !map_length. lia.
    + right. intros k t I. intros S0. apply In_nth_error in I as [i Ei].
      assert (In t (map TBV ws)) as It by (apply nth_error_In in Ei; eapply in_combine_r; eauto).
      apply in_map_iff in It as (w0 & <- & Iw). inversion S0; subst.
      rewrite <- Ews in Iw. apply in_map_iff in Iw as ([w2 x] & E1 & I1). cbn in E1. subst w2.
      clear - F2 I1 Pos. induction F2 as [|[k1 t1] y fs wxs [S _] F IH]; [destruct I1|].
      destruct I1 as [->|I1]; [apply (Pos k1 t1); [left; auto|exact S]|]. apply IH; auto. intros k t I. apply (Pos k t). right; auto.
  - exists op. rewrite Es. split; auto.
    assert (0 <= op < 2 ^ w) as Rop.
    { apply (enc_range (fun j => j = 0) (TProd c (shadow fs ws)) (shadow_wf c fs ws ND Lw Pw) op _ w En).
      destruct (asm_rel_width R (TProd c (shadow fs ws)) (shadow_wf c fs ws ND Lw Pw) (ATuple w (map shadow_asm fs'))) as [S _];
        [constructor; auto|exact S]. }
    split; auto. intros J vs J0 FE Lv.
    destruct (prod_from_fields_ok R J c fs (ATuple w fs') vs (map fw wxs) 0) as (op' & Eop' & En'); auto.
    + rewrite map_length. auto.
    + clear - FE F2 Lv. revert vs FE Lv. induction F2 as [|f wx fs wxs [S Rg] F IH]; intros [|v vs] FE Lv; try discriminate; [constructor|].
      cbn [map combine] in *. inversion FE; subst. constructor; auto. cbn [fst snd] in *. apply af_word; auto.
    + rewrite Es, Eop in Eop'. injection Eop' as <-. auto.
Qed.

Lemma sum_words R g c fs a k t : good_request R -> wf_ty (TSum g c fs) -> asm_rel R (TSum g c fs) a -> In (k, t) fs ->
  exists w tagw as_ gs tv fa pre post,
    a = ASum w tagw as_ gs tv /\ tagw = bits_for (Z.of_nat (length fs) - 1) /\ fs = pre ++ (k, t) :: post /\
    member_asm a k = Ok fa /\ asm_rel R t fa /\ 0 <= rank_at pre k post < 2 ^ tagw /\
    tagw + a_width fa <= w /\ 0 <= tagw /\ 0 <= a_width fa /\
    (forall z, aadt_get a z k = Ok (slice z tagw (tagw + a_width fa), Some (slice z 0 tagw =? rank_at pre k post))) /\
    (forall tag x, 0 <= tag < 2 ^ tagw -> 0 <= x < 2 ^ a_width fa ->
      (length fs = 1%nat \/ swidth t 0 -> sum_from_fields fs a k (FWord (a_width fa) x) (Some tag) 0 = Err ValueError) /\
      ((2 <= length fs)%nat -> ~ swidth t 0 ->
       exists op, sum_from_fields fs a k (FWord (a_width fa) x) (Some tag) 0 = Ok op /\ 0 <= op < 2 ^ a_width a /\
        aadt_get a op k = Ok (x, Some (tag =? rank_at pre k post)) /\ slice op 0 tagw = tag /\
        forall (J : Z -> Prop) v, J 0 -> enc J t x v -> tag = rank_at pre k post -> enc J (TSum g c fs) op (VSum k v))).
Proof.
  intros GR W A I. assert (wf_ty t) as Wt by (eapply wf_members_sum; eauto).
  destruct (inhabited t Wt) as (v0 & H0 & N0).
  destruct (sum_new R g c fs a k t (FAdt v0) v0 (fun j => j = 0) eq_refl W A I (af_val _ _ _ H0 N0) GR)
    as (pre & post & w & tagw & as_ & gs & tv & f & z & Ea & Efs & Ef & Af & Ez & Enc & Et & Etw & Rr & Pf & Lw & Pt).
  assert (no_dup_keys fs) as ND by (inversion W; auto).
  destruct (asm_rel_width R t Wt f Af) as [Sf _].
  assert (sub_step a k = Some ((tagw, tagw + a_width f), f)) as Es by (rewrite Ea; cbn [sub_step]; rewrite Ef; auto).
  assert (forall z, aadt_get a z k = Ok (slice z tagw (tagw + a_width f), Some (slice z 0 tagw =? rank_at pre k post))) as Eg.
  { intros y. unfold aadt_get. rewrite Es. rewrite Ea in *. rewrite Et. reflexivity. }
  exists w, tagw, as_, gs, tv, f, pre, post.
  split; auto. split; auto. split; auto. split; [unfold member_asm; rewrite Es; auto|].
  split; auto. split; auto. split; auto. split; auto. split; auto. split; auto.
  intros tag x Rt Rx.
  assert (sum_from_fields fs a k (FWord (a_width f) x) (Some tag) 0 =
    create_from_layout w [(k_value, (tagw, tagw + a_width f)); (k_tag, (0, tagw))]
      [(k_value, (a_width f, x)); (k_tag, (tagw, tag))] 0) as Ec.
  { rewrite Ea. unfold sum_from_fields. rewrite (dget_key_In fs k t ND I), Ef. cbn [field_new]. rewrite Z.eqb_refl. reflexivity. }
  rewrite Ec. split.
  - intros H. apply create_sum_bad; auto. destruct H as [H|H].
    + left. rewrite Etw, H. reflexivity.
    + right. apply (swidth_fun t); auto.
  - intros L2 NW. assert (a_width f <> 0) as NZ by (intros E; rewrite E in Sf; auto).
    assert (0 < tagw) as Ptw.
    { assert (tagw <> 0); [|lia]. intros E. rewrite E in Etw.
      pose proof (lt_pow2_bits_for (Z.of_nat (length fs) - 1) (Z.of_nat (length fs) - 1) ltac:(lia)) as P.
      rewrite <- Etw in P. change (2 ^ 0) with 1 in P. lia. }
    rewrite create_sum by (auto; lia). change (wrap 1 0) with 0. rewrite Z.mul_0_l, Z.mul_0_r, Z.add_0_r.
    eexists. split; [reflexivity|].
    assert (tag + 2 ^ tagw * x < 2 ^ w) as Rop.
    { pose proof (pow2_mono (tagw + a_width f) w ltac:(lia)) as M. rewrite pow2_split in M by lia.
      pose proof (pow2_pos tagw ltac:(lia)). nia. }
    pose proof (pow2_pos tagw ltac:(lia)) as Pp.
    split; [rewrite Ea; cbn [a_width]; nia|].
    assert (slice (tag + 2 ^ tagw * x) 0 tagw = tag) as S0 by (apply slice_low; auto; lia).
    split; [rewrite Eg, S0; do 2 f_equal; rewrite <- (Z.add_0_r x) at 1; rewrite <- (Z.mul_0_r (2 ^ a_width f)); apply slice_mid; auto; lia|].
    split; auto. intros J v J0 En Er. rewrite Etw in *.
    set (tw := bits_for (Z.of_nat (length fs) - 1)) in *.
    replace x with (x + 2 ^ a_width f * 0) by lia. rewrite Er. apply enc_sum with (t := t) (W := w); auto; try lia.
    + destruct (asm_rel_width R _ W a A) as [S _]. rewrite Ea in S. exact S.
    + fold tw. rewrite Z.mul_0_r, Z.add_0_r, <- Er. auto.
Qed.

(** Members of a product. *)
Lemma prod_member R c fs a k t : wf_ty (TProd c fs) -> asm_rel R (TProd c fs) a -> In (k, t) fs ->
  exists fa lo, member_asm a k = Ok fa /\ asm_rel R t fa /\ 0 <= lo /\ lo + a_width fa <= a_width a /\ 0 <= a_width fa /\
    forall z, aadt_get a z k = Ok (slice z lo (lo + a_width fa), None).
Proof.
  intros W A I. destruct (sub_ty_spec R _ [k] t (st_prod c fs k [] t t I (st_here t)) W a A 0) as (o & f & Ep & Af & Wf & O & Lf).
  inversion A as [| | | |? ? w fs' T|]; subst. cbn [sub_path] in Ep.
  destruct (sub_step (ATuple w fs') k) as [[[lo hi] f']|] eqn:Es; [|discriminate].
  injection Ep as E1 <-. exists f', lo. unfold member_asm. rewrite Es. split; auto. split; auto.
  assert (lo = o) by lia. subst o. split; auto. split; [cbn [a_width] in *; lia|].
  split; [apply (asm_rel_width R t Wf f' Af)|]. intros z. unfold aadt_get. rewrite Es. auto.
Qed.

(** * Dictionaries *)
Lemma path_eqb_eq a b : path_eqb a b = true <-> a = b.
Proof. apply list_eqb_eq. apply key_eqb_eq. Qed.

Lemma dupd_app V (l d : list (path * V)) : NoDup (map fst l) -> (forall p, In p (map fst d) -> ~ In p (map fst l)) ->
  dupd d l = d ++ l.
Proof.
  revert d. induction l as [|[p v] l IH]; intros d ND D; unfold dupd in *; cbn [fold_left fst snd]; [rewrite app_nil_r; auto|].
  inversion ND as [|? ? N1 N2]; subst. rewrite (dset_new path_eqb path_eqb_eq).
  - rewrite IH; auto; [rewrite <- app_assoc; auto|]. intros q Iq. rewrite map_app in Iq. apply in_app_iff in Iq as [Iq|[<-|[]]]; auto.
    intros C. apply (D q Iq). right; auto.
  - intros C. apply (D p C). left; auto.
Qed.

Lemma NoDup_app_iff {A} (l m : list A) : NoDup (l ++ m) <-> NoDup l /\ NoDup m /\ forall x, In x l -> ~ In x m.
Proof.
  split.
  - induction l as [|x l IH]; cbn [app]; intros N; [repeat split; auto; constructor|].
    inversion N as [|? ? N1 N2]; subst. destruct (IH N2) as (A1 & A2 & A3).
    split; [constructor; auto; intros C; apply N1, in_app_iff; auto|]. split; auto.
    intros y [->|I]; auto. intros C. apply N1, in_app_iff; auto.
  - intros (A1 & A2 & A3). apply NoDup_app_intro; auto.
Qed.

Lemma fold_dupd V (ls : list (list (path * V))) : forall d,
  NoDup (map fst (d ++ List.concat ls)) -> fold_left dupd ls d = d ++ List.concat ls.
Proof.
  induction ls as [|l ls IH]; intros d ND; cbn [fold_left List.concat]; [rewrite app_nil_r; auto|].
  cbn [List.concat] in ND.
  assert (dupd d l = d ++ l) as E.
  { rewrite !map_app in ND. apply NoDup_app_iff in ND as (N1 & N2 & N3). apply NoDup_app_iff in N2 as (N4 & N5 & N6).
    apply dupd_app; auto. intros p I C. apply (N3 p I). apply in_app_iff. auto. }
  rewrite E, IH; rewrite <- app_assoc; auto.
Qed.

(** Lists of entries whose keys start with the path of one field each. *)
Definition under {V} (p : path) (k : key) (l : list (path * V)) : Prop :=
  (forall q, In q (map fst l) -> exists r, q = p ++ k :: r) /\ NoDup (map fst l).

Lemma path_split (p r r' : path) k k' : p ++ k :: r = p ++ k' :: r' -> k = k' /\ r = r'.
Proof. intros E. apply app_inv_head in E. injection E as -> ->. auto. Qed.

Lemma parts_concat V (p : path) (ks : list key) (ls : list (list (path * V))) : NoDup ks -> Forall2 (under p) ks ls ->
  NoDup (map fst (List.concat ls)) /\
  (forall q, In q (map fst (List.concat ls)) -> exists k r, In k ks /\ q = p ++ k :: r) /\
  forall i k l, nth_error ks i = Some k -> nth_error ls i = Some l ->
    forall r x, In (p ++ k :: r, x) (List.concat ls) <-> In (p ++ k :: r, x) l.
Proof.
  intros ND F. revert ND. induction F as [|k l ks ls [U N] F IH]; intros ND.
  - cbn. split; [constructor|]. split; [intros q []|]. intros [|i] ? ? E; discriminate E.
  - inversion ND as [|? ? N1 N2]; subst. destruct (IH N2) as (A1 & A2 & A3). cbn [List.concat]. rewrite map_app. split; [|split].
    + apply NoDup_app_iff. split; auto. split; auto. intros q I C. destruct (U q I) as [r ->].
      destruct (A2 _ C) as (k' & r' & Ik & E). apply path_split in E as [<- _]. contradiction.
    + intros q I. apply in_app_iff in I as [I|I].
      * destruct (U q I) as [r ->]. exists k, r. split; auto. left; auto.
      * destruct (A2 q I) as (k' & r & Ik & ->). exists k', r. split; auto. right; auto.
    + intros [|i] k' l' Ek El r x; cbn [nth_error] in *.
      * injection Ek as <-. injection El as <-. rewrite in_app_iff. split; [intros [I|I]; auto|auto].
        exfalso. apply (in_map fst) in I. destruct (A2 _ I) as (k' & r' & Ik & E). cbn [fst] in E.
        apply path_split in E as [<- _]. contradiction.
      * rewrite in_app_iff, (A3 i k' l' Ek El). split; [intros [I|I]; auto|auto].
        exfalso. apply (in_map fst) in I. destruct (U _ I) as [r' E]. cbn [fst] in E. apply path_split in E as [<- _].
        apply nth_error_In in Ek. contradiction.
Qed.

(** Pairwise different up to [E]. *)
Fixpoint distinct {A} (E : A -> A -> Prop) (l : list A) : Prop :=
  match l with [] => True | x :: r => (forall y, In y r -> ~ E x y) /\ distinct E r end.

Lemma distinct_app A (E : A -> A -> Prop) l m : distinct E l -> distinct E m ->
  (forall x y, In x l -> In y m -> ~ E x y) -> distinct E (l ++ m).
Proof.
  induction l as [|x l IH]; cbn [app distinct]; auto. intros [D1 D2] Dm C. split.
  - intros y I. apply in_app_iff in I as [I|I]; [auto|apply C; auto; left; auto].
  - apply IH; auto. intros a b Ia Ib. apply C; auto. right; auto.
Qed.

Lemma distinct_map A B (E : A -> A -> Prop) (E' : B -> B -> Prop) (R : A -> B -> Prop) l m :
  Forall2 R l m -> (forall x y x' y', In x l -> In y l -> R x x' -> R y y' -> E' x' y' -> E x y) -> distinct E l -> distinct E' m.
Proof.
  induction 1 as [|x x' l m Hx F IH]; cbn [distinct]; auto. intros H [D1 D2]. split.
  - intros y' I C. apply In_nth_error in I as [i Ei].
    assert (exists y, nth_error l i = Some y /\ R y y') as (y & Ey & Ry).
    { clear - F Ei. revert i Ei. induction F as [|a b l m Rab F IH]; intros [|i] E; try discriminate; cbn in *; eauto.
      injection E as <-. eauto. }
    apply nth_error_In in Ey. apply (D1 y Ey). apply (H x y x' y'); auto; [left|right]; auto.
  - apply IH; auto. intros a b a' b' Ia Ib. apply H; right; auto.
Qed.

Lemma distinct_iprod A (E : A -> A -> Prop) ls : Forall (distinct E) ls -> distinct (Forall2 E) (iprod ls).
Proof.
  induction 1 as [|l ls D F IH]; cbn [iprod]; [cbn; auto|].
  induction l as [|x l IHl]; cbn [flat_map]; [cbn; auto|]. destruct D as [D1 D2].
  apply distinct_app; auto.
  - apply (distinct_map _ _ (Forall2 E) (Forall2 E) (fun a b => b = x :: a) (iprod ls)); auto.
    + clear. induction (iprod ls); constructor; auto.
    + intros a b a' b' _ _ -> -> H. inversion H; auto.
  - intros a b Ia Ib C. apply in_map_iff in Ia as (a' & <- & _). apply in_flat_map in Ib as (y & Iy & Ib).
    apply in_map_iff in Ib as (b' & <- & _). inversion C; subst. apply (D1 y); auto.
Qed.

Lemma distinct_nth A (E : A -> A -> Prop) l : (forall x y, E x y -> E y x) -> distinct E l ->
  forall i j x y, nth_error l i = Some x -> nth_error l j = Some y -> E x y -> i = j.
Proof.
  intros Sy. induction l as [|a l IH]; intros D [|i] [|j] x y Ei Ej C; try discriminate; auto; destruct D as [D1 D2]; cbn [nth_error] in *.
  - injection Ei as <-. destruct (D1 y); auto. eapply nth_error_In; eauto.
  - injection Ej as <-. destruct (D1 x); auto. eapply nth_error_In; eauto.
  - f_equal. eapply IH; eauto.
Qed.

(** * What a form stands for *)
Definition chooses (t : ty) (v : val) (r : path) (k : key) : Prop :=
  exists g c fs w, sub_val t v r (TSum g c fs) (VSum k w).
Definition leaf_path (t : ty) (v : val) (r : path) : Prop :=
  exists t' v', sub_val t v r t' v' /\ is_leaf t'.

Record matches (p : path) (t : ty) (v : val) (f : form) : Prop := {
  mt_dict : forall q k, In (q, k) (f_dict f) <-> exists r, q = p ++ r /\ chooses t v r k;
  mt_vars : forall q, In q (map fst (f_vars f)) <-> exists r, q = p ++ r /\ leaf_path t v r;
  mt_nd : NoDup (map fst (f_dict f));
  mt_nv : NoDup (map fst (f_vars f)) }.

Definition same_dict (f f' : form) : Prop := forall q k, In (q, k) (f_dict f) <-> In (q, k) (f_dict f').

(** ** Sub values of products and sums *)
Lemma nth_key_unique (fs : list (key * ty)) i j k t t' : NoDup (map fst fs) -> nth_error fs i = Some (k, t) ->
  nth_error fs j = Some (k, t') -> i = j.
Proof.
  intros ND Ei Ej. eapply NoDup_nth_error; eauto.
  - rewrite map_length. apply nth_error_Some. congruence.
  - rewrite !nth_error_map, Ei, Ej. auto.
Qed.

Lemma sub_prod c fs vs i k t v r t' v' : NoDup (map fst fs) -> nth_error fs i = Some (k, t) -> nth_error vs i = Some v ->
  (sub_val (TProd c fs) (VProd vs) (k :: r) t' v' <-> sub_val t v r t' v').
Proof.
  intros ND Ef Ev. split; [|intros S; econstructor; eauto].
  intros S. inversion S as [|? ? ? ? ? j ? ? ? ? Ef' Ev' S'|]; subst.
  assert (j = i) as -> by (eapply nth_key_unique; eauto). congruence.
Qed.

Lemma sub_sum g c fs k t v r t' v' : NoDup (map fst fs) -> In (k, t) fs ->
  (sub_val (TSum g c fs) (VSum k v) (k :: r) t' v' <-> sub_val t v r t' v').
Proof.
  intros ND I. split; [|intros S; econstructor; eauto].
  intros S. inversion S as [| |? ? ? ? ? t0 ? ? ? I' S']; subst.
  assert (t0 = t) as -> by (eapply nodup_key_fun; eauto). auto.
Qed.

Lemma chooses_prod c fs vs i k t v r x : NoDup (map fst fs) -> nth_error fs i = Some (k, t) -> nth_error vs i = Some v ->
  (chooses (TProd c fs) (VProd vs) (k :: r) x <-> chooses t v r x).
Proof. intros ND Ef Ev. unfold chooses. split; intros (g0 & c0 & fs0 & w0 & S); exists g0, c0, fs0, w0; eapply sub_prod; eauto. Qed.
Lemma leaf_prod c fs vs i k t v r : NoDup (map fst fs) -> nth_error fs i = Some (k, t) -> nth_error vs i = Some v ->
  (leaf_path (TProd c fs) (VProd vs) (k :: r) <-> leaf_path t v r).
Proof. intros ND Ef Ev. unfold leaf_path. split; intros (t0 & v0 & S & L); exists t0, v0; split; auto; eapply sub_prod; eauto. Qed.
Lemma chooses_sum g c fs k t v r x : NoDup (map fst fs) -> In (k, t) fs ->
  (chooses (TSum g c fs) (VSum k v) (k :: r) x <-> chooses t v r x).
Proof. intros ND I. unfold chooses. split; intros (g0 & c0 & fs0 & w0 & S); exists g0, c0, fs0, w0; eapply sub_sum; eauto. Qed.
Lemma leaf_sum g c fs k t v r : NoDup (map fst fs) -> In (k, t) fs ->
  (leaf_path (TSum g c fs) (VSum k v) (k :: r) <-> leaf_path t v r).
Proof. intros ND I. unfold leaf_path. split; intros (t0 & v0 & S & L); exists t0, v0; split; auto; eapply sub_sum; eauto. Qed.

Lemma chooses_prod_inv c fs vs r x : chooses (TProd c fs) (VProd vs) r x ->
  exists i k t v r', r = k :: r' /\ nth_error fs i = Some (k, t) /\ nth_error vs i = Some v.
Proof. intros (g0 & c0 & fs0 & w0 & S). inversion S; subst. do 5 eexists. eauto. Qed.
Lemma leaf_prod_inv c fs vs r : leaf_path (TProd c fs) (VProd vs) r ->
  exists i k t v r', r = k :: r' /\ nth_error fs i = Some (k, t) /\ nth_error vs i = Some v.
Proof. intros (t0 & v0 & S & L). inversion S; subst; [destruct L|]. do 5 eexists. eauto. Qed.
Lemma chooses_sum_inv g c fs k v r x : chooses (TSum g c fs) (VSum k v) r x ->
  (r = [] /\ x = k) \/ exists r', r = k :: r'.
Proof. intros (g0 & c0 & fs0 & w0 & S). inversion S; subst; eauto. Qed.
Lemma leaf_sum_inv g c fs k v r : leaf_path (TSum g c fs) (VSum k v) r -> exists r', r = k :: r'.
Proof. intros (t0 & v0 & S & L). inversion S; subst; [destruct L|]. eauto. Qed.
Lemma chooses_here g c fs k v : chooses (TSum g c fs) (VSum k v) [] k.
Proof. do 4 eexists. constructor. Qed.
