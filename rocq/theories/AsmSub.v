(** Sub paths, layouts, tags, injectivity. *)
From Coq Require Import String ZArith List Bool Lia Permutation Sorted.
From Verif Require Import Base BaseLemmas AsmModel AsmSpec AsmValid AsmEnum AsmBuild AsmProofs.
Import ListNotations.
Open Scope Z_scope.

(** * Injectivity of encodings *)
Lemma mix_inj w x y x' y' : 0 <= w -> 0 <= x < 2 ^ w -> 0 <= x' < 2 ^ w ->
  x + 2 ^ w * y = x' + 2 ^ w * y' -> x = x' /\ y = y'.
Proof.
  intros Hw Hx Hx' E. pose proof (pow2_pos w Hw).
  assert (x = x') as ->; [|split; [auto|nia]].
  rewrite <- (Z.mod_small x (2 ^ w)) by lia. rewrite <- (Z.mod_small x' (2 ^ w)) by lia.
  rewrite <- (Z.mod_add x y (2 ^ w)) by lia. rewrite <- (Z.mod_add x' y' (2 ^ w)) by lia.
  f_equal. lia.
Qed.

Lemma enc_inj J t : wf_ty t -> forall op v v', enc J t op v -> enc J t op v' -> v = v'.
Proof.
  induction t as [| | |c ms|c fs IH|g c fs IH] using ty_ind'; intros W op v v' A B.
  - inversion A; inversion B; subst. destruct b, b0; auto; discriminate.
  - inversion A; inversion B; subst; congruence.
  - inversion A; inversion B; subst; congruence.
  - inversion A; inversion B; subst. f_equal. eapply enum_code_inj; eauto.
  - inversion A as [| | | |? ? ? vs F|]; inversion B as [| | | |? ? ? vs' F'|]; subst. f_equal.
    assert (Forall (fun f => wf_ty (snd f)) fs) as WF by (inversion W; auto).
    clear A B W. revert op vs vs' F F' IH WF. induction fs as [|[k t] fs IHF]; intros op vs vs' F F' IH WF.
    + inversion F; inversion F'; subst; auto.
    + inversion F as [|? ? ? w1 x1 y1 v1 vs1 S1 E1 R1]; inversion F' as [|? ? ? w2 x2 y2 v2 vs2 S2 E2 R2]; subst.
      inversion IH as [|? ? I1 I2]; inversion WF as [|? ? W1 W2]; subst. cbn [snd] in *.
      assert (w2 = w1) as -> by (eapply swidth_fun; eauto).
      destruct (mix_inj w1 x1 y1 x2 y2) as [-> ->]; auto.
      { eapply swidth_nonneg; eauto. } { eapply enc_range; eauto. } { eapply enc_range; eauto. }
      f_equal; eauto.
  - inversion A as [| | | | |? ? ? pre k t post W0 w x0 junk v0 Hfs SW Sw Ex Hj HJ HW]; subst v.
    inversion B as [| | | | |? ? ? pre' k' t' post' W0' w' x0' junk' v0' Hfs' SW' Sw' Ex' Hj' HJ' HW']; subst v'.
    assert (no_dup_keys fs) as ND by (inversion W; auto).
    pose proof (rank_lt _ _ _ _ _ Hfs) as L. pose proof (rank_lt _ _ _ _ _ Hfs') as L'.
    destruct (mix_inj (bits_for (Z.of_nat (length fs) - 1)) (rank_at pre k post) (x0 + 2 ^ w * junk)
                (rank_at pre' k' post') (x0' + 2 ^ w' * junk')) as [Er Ep].
    { apply bits_for_nonneg. }
    { split; [lia|apply lt_pow2_bits_for; lia]. } { split; [lia|apply lt_pow2_bits_for; lia]. }
    { congruence. }
    pose proof (rank_index pre k t post) as I1. pose proof (rank_index pre' k' t' post') as I2.
    rewrite <- Hfs in I1. rewrite <- Hfs' in I2. rewrite Er in I1. rewrite I1 in I2. injection I2 as <- <-.
    assert (In (k, t) fs) as I by (rewrite Hfs; apply in_app_iff; right; left; auto).
    assert (wf_ty t) as Wt by (eapply wf_members_sum; eauto).
    assert (w' = w) as -> by (eapply swidth_fun; eauto).
    destruct (mix_inj w x0 junk x0' junk') as [-> _]; auto.
    { eapply swidth_nonneg; eauto. } { eapply enc_range; eauto. } { eapply enc_range; eauto. }
    f_equal. rewrite Forall_forall in IH. eapply (IH _ I); eauto.
Qed.

(** * Sub paths *)
Definition tup_find := fix go (fs : list (key * (Z * Z) * asm)) (k : key) : option ((Z * Z) * asm) :=
  match fs with
  | [] => None
  | (k', lay, f) :: r => if key_eqb k k' then Some (lay, f) else go r k
  end.

Lemma sub_step_tuple w fs k : sub_step (ATuple w fs) k = tup_find fs k.
Proof.
  cbn. induction fs as [|[[k' lay] f] fs IH]; auto. cbn. destruct (key_eqb k k'); auto.
Qed.

Lemma tup_rel_mono R b fs w fs' : Forall (fun f => wf_ty (snd f)) fs ->
  tup_rel R b fs w fs' -> b <= w.
Proof.
  intros WF T. revert WF. induction T as [|b k t r w a rest Ha Tr IH]; intros WF; [lia|].
  inversion WF; subst. destruct (asm_rel_width R _ H1 a Ha). specialize (IH H2). cbn in *. lia.
Qed.

(** Layout of field i: starts after the fields before it. *)
Lemma tup_find_layout R b fs w fs' : tup_rel R b fs w fs' ->
  NoDup (map fst fs) -> Forall (fun f => wf_ty (snd f)) fs ->
  forall i k t, nth_error fs i = Some (k, t) ->
  exists ws a, Forall2 (fun f w => swidth (snd f) w) (firstn i fs) ws /\
    tup_find fs' k = Some ((b + zsum ws, b + zsum ws + a_width a), a) /\ asm_rel R t a /\
    b + zsum ws + a_width a <= w /\ 0 <= zsum ws.
Proof.
  induction 1 as [b|b k t r w a rest Ha Tr IH]; intros ND WF i k' t' E; [destruct i; discriminate|].
  inversion ND as [|? ? N1 N2]; inversion WF as [|? ? W1 W2]; subst. cbn [snd] in *.
  destruct (asm_rel_width R t W1 a Ha) as [Sa Pa].
  pose proof (tup_rel_mono _ _ _ _ _ W2 Tr) as M.
  destruct i as [|i]; cbn in E.
  - injection E as <- <-. exists [], a. split; [constructor|]. cbn [tup_find].
    rewrite (proj2 (key_eqb_eq k k)) by auto. unfold zsum. cbn [fold_right].
    rewrite Z.add_0_r. split; auto. split; auto. split; [auto|lia].
  - destruct (IH N2 W2 i k' t' E) as (ws & a' & F & Ef & Aa & Le & Ps).
    exists (a_width a :: ws), a'. cbn [firstn]. split; [constructor; auto|].
    change (zsum (a_width a :: ws)) with (a_width a + zsum ws).
    rewrite !Z.add_assoc. split; [|split; auto; split; lia].
    cbn [tup_find]. destruct (key_eqb k' k) eqn:Ek; auto.
    apply key_eqb_eq in Ek as ->. destruct N1. apply nth_error_In in E. apply (in_map fst) in E. exact E.
Qed.

Lemma enc_fields_nth J fs : forall y vs, enc_fields J fs y vs -> Forall (fun f => wf_ty (snd f)) fs ->
  forall i k t v ws w, nth_error fs i = Some (k, t) -> nth_error vs i = Some v ->
  Forall2 (fun f w => swidth (snd f) w) (firstn i fs) ws -> swidth t w ->
  enc J t (slice y (zsum ws) (zsum ws + w)) v.
Proof.
  induction fs as [|[k0 t0] fs IH]; intros y vs E WF i k t v ws w Ef Ev F S; [destruct i; discriminate|].
  inversion E as [|? ? ? w0 x y' v0 vs' Sw Ex Er]; subst.
  inversion WF as [|? ? W1 W2]; subst. cbn [snd] in *.
  pose proof (swidth_nonneg _ W1 _ Sw) as P0. pose proof (enc_range _ _ W1 _ _ _ Ex Sw) as Rx.
  destruct i as [|i]; cbn in Ef, Ev.
  - injection Ef as -> ->. injection Ev as ->. inversion F; subst.
    unfold zsum. cbn [fold_right]. rewrite Z.add_0_l.
    assert (w = w0) as -> by (eapply swidth_fun; eauto). rewrite slice_low; auto.
  - cbn [firstn] in F. inversion F as [|? w1 ? ws' S1 F']; subst. cbn [snd] in *.
    assert (w1 = w0) as -> by (eapply swidth_fun; eauto).
    pose proof (IH _ _ Er W2 i k t v ws' w Ef Ev F' S) as G.
    assert (wf_ty t) as Wt by (rewrite Forall_forall in W2; apply (W2 _ (nth_error_In _ _ Ef))).
    pose proof (swidth_nonneg _ Wt _ S) as Pw.
    assert (0 <= zsum ws') as Ps.
    { eapply zsum_widths_nonneg; [|exact F']. clear - W2. revert i.
      induction W2; intros [|i]; cbn; constructor; auto. }
    change (zsum (w0 :: ws')) with (w0 + zsum ws').
    replace (slice (x + 2 ^ w0 * y') (w0 + zsum ws') (w0 + zsum ws' + w)) with
      (slice y' (zsum ws') (zsum ws' + w)); auto.
    rewrite (slice_div (x + _)) by lia. rewrite (slice_div y') by lia.
    f_equal; [|lia]. rewrite pow2_split by lia. pose proof (pow2_pos _ P0). pose proof (pow2_pos _ Ps).
    rewrite <- Z.div_div by lia. f_equal. rewrite (Z.mul_comm (2 ^ w0)), Z.div_add by lia.
    rewrite Z.div_small by lia. lia.
Qed.

Lemma sub_spec R J t v p t' v' : sub_val t v p t' v' ->
  wf_ty t -> forall a op, asm_rel R t a -> enc J t op v -> forall off,
  exists o a', sub_path a off p = Ok (off + o, a') /\ asm_rel R t' a' /\ wf_ty t' /\
    0 <= o /\ o + a_width a' <= a_width a /\
    enc J t' (slice op o (o + a_width a')) v'.
Proof.
  induction 1 as [t v|c fs vs k p i t v t' v' Ef Ev Sv IH|g c fs k p t v t' v' I Sv IH];
    intros W a op A E off.
  - exists 0, a. cbn. rewrite Z.add_0_r. destruct (asm_rel_width R t W a A) as [S P].
    split; auto. split; auto. split; auto. split; [lia|]. split; [lia|].
    rewrite slice_full; auto. eapply enc_range; eauto.
  - inversion A as [| | | |? ? w fs' T|]; subst. inversion E as [| | | |? ? ? ? F|]; subst.
    assert (Forall (fun f => wf_ty (snd f)) fs) as WF by (inversion W; auto).
    assert (NoDup (map fst fs)) as ND by (inversion W; auto).
    destruct (tup_find_layout _ _ _ _ _ T ND WF i k t Ef) as (ws & a & Fw & Etf & Aa & Le & Ps).
    assert (wf_ty t) as Wt by (rewrite Forall_forall in WF; apply (WF _ (nth_error_In _ _ Ef))).
    destruct (asm_rel_width R t Wt a Aa) as [Sa Pa].
    pose proof (enc_fields_nth J fs op vs F WF i k t v ws (a_width a) Ef Ev Fw Sa) as En.
    destruct (IH Wt a _ Aa En (off + zsum ws)) as (o & a' & E1 & A1 & W1 & O1 & L1 & En1).
    exists (zsum ws + o), a'. cbn [sub_path]. rewrite sub_step_tuple, Etf. rewrite !Z.add_0_l in *.
    split; [rewrite E1; do 2 f_equal; lia|]. split; auto. split; auto. split; [lia|].
    cbn [a_width]. split; [lia|].
    destruct (asm_rel_width R t' W1 a' A1) as [Sa' Pa'].
    rewrite slice_slice in En1 by lia. rewrite <- Z.add_assoc. auto.
  - inversion A as [| | | | |? ? ? sorted tagw pw fs' gs tv E1 E2 S G1 G2 Vt]; subst.
    inversion E as [| | | | |? ? ? pre k' t0 post W0 w x junk v0 Hfs SW Sw Ex Hj HJ HW].
    match goal with X : _ = op |- _ => rename X into Hop end.
    subst k' v0.
    assert (no_dup_keys fs) as ND by (inversion W; auto).
    assert (In (k, t0) fs) as I0 by (rewrite Hfs; apply in_app_iff; right; left; auto).
    assert (t0 = t) as -> by (eapply nodup_key_fun; eauto).
    assert (wf_ty t) as Wt by (eapply wf_members_sum; eauto).
    pose proof (rank_index pre k t post) as Ri. rewrite <- Hfs in Ri.
    pose proof (rank_lt _ _ _ _ _ Hfs) as Rl.
    destruct (sum_find_spec _ _ _ _ _ _ _ _ _ _ (sorted_keys_NoDup fs ND) S Ri) as (a & Ef & Aa).
    destruct (asm_rel_width R t Wt a Aa) as [Sa Pa].
    assert (w = a_width a) as -> by (eapply swidth_fun; eauto).
    set (tw := bit_length (Z.of_nat (length fs) - 1)) in *.
    assert (bits_for (Z.of_nat (length fs) - 1) = tw) as Eb by (apply bits_for_bit_length; lia).
    assert (0 <= tw) as Ptw by apply bit_length_nonneg.
    rewrite Eb in *.
    assert (rank_at pre k post < 2 ^ tw) as Rt by (rewrite <- Eb; apply lt_pow2_bits_for; lia).
    pose proof (enc_range _ _ Wt _ _ _ Ex Sa) as Rx.
    assert (slice op tw (tw + a_width a) = x) as Es.
    { rewrite <- Hop. apply slice_mid; auto. lia. }
    assert (a_width a <= pw) as Le.
    { pose proof (sum_rel_spec _ _ _ _ _ _ _ S) as (-> & L & Hs). rewrite zmaximum_max by lia.
      apply Hs in Ri as (a' & Ea & _ & Aa').
      assert (a_width a = a_width a') as ->.
      { eapply swidth_fun; [exact Sa|]. apply (asm_rel_width R t); auto. }
      assert (a_width a' <= zmaximum (map (fun e : key * Z * (Z * Z) * asm => a_width (snd e)) fs')); [|lia].
      apply zmaximum_ge. apply in_map_iff. eexists. split; [|eapply nth_error_In; eauto]. reflexivity. }
    destruct (IH Wt a x Aa Ex (off + tw)) as (o & a' & E1 & A1 & W1 & O1 & L1 & En1).
    exists (tw + o), a'. cbn [sub_path sub_step]. rewrite Ef.
    split; [rewrite E1; do 2 f_equal; lia|]. split; auto. split; auto. split; [lia|].
    cbn [a_width]. split; [lia|].
    destruct (asm_rel_width R t' W1 a' A1) as [Sa' Pa'].
    rewrite <- Es in En1. rewrite slice_slice in En1 by lia. rewrite <- Z.add_assoc, Hop. auto.
Qed.

(** Structural sub types: what a path reaches, whatever the value. *)
Inductive sub_ty : ty -> list key -> ty -> Prop :=
| st_here t : sub_ty t [] t
| st_prod c fs k p t t' : In (k, t) fs -> sub_ty t p t' -> sub_ty (TProd c fs) (k :: p) t'
| st_sum g c fs k p t t' : In (k, t) fs -> sub_ty t p t' -> sub_ty (TSum g c fs) (k :: p) t'.

Lemma sub_ty_spec R t p t' : sub_ty t p t' -> wf_ty t -> forall a, asm_rel R t a -> forall off,
  exists o a', sub_path a off p = Ok (off + o, a') /\ asm_rel R t' a' /\ wf_ty t' /\
    0 <= o /\ o + a_width a' <= a_width a.
Proof.
  induction 1 as [t|c fs k p t t' I St IH|g c fs k p t t' I St IH]; intros W a A off.
  - exists 0, a. cbn. rewrite Z.add_0_r. repeat split; auto; lia.
  - inversion A as [| | | |? ? w fs' T|]; subst.
    assert (Forall (fun f => wf_ty (snd f)) fs) as WF by (inversion W; auto).
    assert (NoDup (map fst fs)) as ND by (inversion W; auto).
    destruct (In_nth_error _ _ I) as [i Ef].
    destruct (tup_find_layout _ _ _ _ _ T ND WF i k t Ef) as (ws & a & Fw & Etf & Aa & Le & Ps).
    assert (wf_ty t) as Wt by (eapply wf_members_prod; eauto).
    destruct (IH Wt a Aa (off + zsum ws)) as (o & a' & E1 & A1 & W1 & O1 & L1).
    exists (zsum ws + o), a'. cbn [sub_path]. rewrite sub_step_tuple, Etf. rewrite !Z.add_0_l in *.
    split; [rewrite E1; do 2 f_equal; lia|]. split; auto. split; auto. split; [lia|]. cbn [a_width]. lia.
  - inversion A as [| | | | |? ? ? sorted tagw pw fs' gs tv E1 E2 S G1 G2 Vt]; subst.
    assert (no_dup_keys fs) as ND by (inversion W; auto).
    assert (wf_ty t) as Wt by (eapply wf_members_sum; eauto).
    pose proof I as I2. apply (isort_In2 field_leb) in I2. apply In_nth_error in I2 as [i Ri].
    destruct (sum_find_spec _ _ _ _ _ _ _ _ _ _ (sorted_keys_NoDup fs ND) S Ri) as (a & Ef & Aa).
    destruct (asm_rel_width R t Wt a Aa) as [Sa Pa].
    set (tw := bit_length (Z.of_nat (length fs) - 1)) in *.
    assert (0 <= tw) as Ptw by apply bit_length_nonneg.
    assert (a_width a <= pw) as Le.
    { pose proof (sum_rel_spec _ _ _ _ _ _ _ S) as (-> & L & Hs). rewrite zmaximum_max by lia.
      apply Hs in Ri as (a' & Ea & _ & Aa').
      assert (a_width a = a_width a') as ->.
      { eapply swidth_fun; [exact Sa|]. apply (asm_rel_width R t); auto. }
      assert (a_width a' <= zmaximum (map (fun e : key * Z * (Z * Z) * asm => a_width (snd e)) fs')); [|lia].
      apply zmaximum_ge. apply in_map_iff. eexists. split; [|eapply nth_error_In; eauto]. reflexivity. }
    destruct (IH Wt a Aa (off + tw)) as (o & a' & E1 & A1 & W1 & O1 & L1).
    exists (tw + o), a'. cbn [sub_path sub_step]. rewrite Ef.
    split; [rewrite E1; do 2 f_equal; lia|]. split; auto. split; auto. split; [lia|]. cbn [a_width]. lia.
Qed.

(** * Tags *)
Lemma not_sparse_range a b : ~ sparse_one_hot (pyrange a b).
Proof. intros (_ & N & _). apply N, pyrange_contiguous. Qed.

(** Tag ranges are recognised exactly in every history. *)
Lemma tag_validator_exact R n w v :
  good_request R -> 0 < n -> w = bit_length (n - 1) -> vrel R (pyrange 0 n) w v ->
  forall c, 0 <= c < 2 ^ w -> (run_validator w c v = true <-> 0 <= c < n).
Proof.
  intros GR Hn Hw (HR & w0 & H0 & G) c Hc. rewrite <- pyrange_In.
  destruct (GR _ _ HR) as (_ & _ & Pw & F). destruct (GR _ _ H0) as (_ & _ & Pw0 & F0).
  apply (gen_rel_exact w0 w); auto.
  - destruct (Z.eq_dec w0 w) as [|N]; auto. right. split; [|apply not_sparse_range].
    intros (_ & L & _). apply pyrange_In in L.
    assert (n - 1 < 2 ^ w0) by (apply F0, pyrange_In; lia).
    assert (w <= w0) by (rewrite Hw; apply bit_length_le; lia).
    assert (n - 1 < 2 ^ w) by (apply F, pyrange_In; lia).
    assert (2 ^ w < 2 ^ w0) by (apply Z.pow_lt_mono_r; lia). lia.
  - intros (N & _). apply N, pyrange_contiguous.
Qed.

Lemma tag_name_find fs tag : tag_name fs tag =
  match find_tag fs tag with Some (k, _, _) => Ok k | None => Err KeyError end.
Proof. induction fs as [|[[[k t] l] f] fs IH]; cbn; auto. destruct (tag =? t); auto. Qed.

Lemma tags_spec R g c fs a pre k u post :
  good_request R -> wf_ty (TSum g c fs) -> asm_rel R (TSum g c fs) a ->
  fs = pre ++ (k, u) :: post ->
  assemble_tag a k = Ok (rank_at pre k post) /\
  is_valid_tag a (rank_at pre k post) = Ok true /\
  disassemble_tag a (rank_at pre k post) = Ok k.
Proof.
  intros GR W A Hfs.
  inversion A as [| | | | |? ? ? sorted tagw pw fs' gs tv E1 E2 S G1 G2 Vt]; subst sorted tagw.
  assert (no_dup_keys fs) as ND by (inversion W; auto).
  pose proof (rank_index pre k u post) as Ri. rewrite <- Hfs in Ri.
  pose proof (rank_lt _ _ _ _ _ Hfs) as Rl.
  set (tw := bit_length (Z.of_nat (length fs) - 1)) in *.
  assert (bits_for (Z.of_nat (length fs) - 1) = tw) as Eb by (apply bits_for_bit_length; lia).
  assert (rank_at pre k post < 2 ^ tw) as Rt by (rewrite <- Eb; apply lt_pow2_bits_for; lia).
  destruct (sum_find_spec _ _ _ _ _ _ _ _ _ _ (sorted_keys_NoDup fs ND) S Ri) as (f & Ef & Af).
  destruct (find_tag_spec _ _ _ _ _ _ _ _ _ _ S Ri) as (f' & Ef' & Af').
  rewrite Z.add_0_l, Z2Nat.id in Ef, Ef' by lia.
  assert (run_validator tw (rank_at pre k post) tv = true) as V.
  { eapply (tag_validator_exact R); eauto; lia. }
  cbn [assemble_tag is_valid_tag disassemble_tag]. rewrite Ef, V. cbn [negb].
  rewrite wrap_small by lia. rewrite tag_name_find, Ef'. auto.
Qed.

Lemma tag_invalid R g c fs a tag :
  good_request R -> wf_ty (TSum g c fs) -> asm_rel R (TSum g c fs) a ->
  0 <= tag < 2 ^ bits_for (Z.of_nat (length fs) - 1) ->
  is_valid_tag a tag = Ok (tag <? Z.of_nat (length fs)) /\
  (Z.of_nat (length fs) <= tag -> disassemble_tag a tag = Err NameError).
Proof.
  intros GR W A Ht.
  inversion A as [| | | | |? ? ? sorted tagw pw fs' gs tv E1 E2 S G1 G2 Vt]; subst.
  assert (fs <> []) as NE by (inversion W; auto).
  assert (0 < Z.of_nat (length fs)) by (destruct fs; [congruence|cbn [length]; lia]).
  rewrite bits_for_bit_length in Ht by lia.
  pose proof (tag_validator_exact R _ _ _ GR H eq_refl Vt tag Ht) as V.
  assert (run_validator (bit_length (Z.of_nat (length fs) - 1)) tag tv = (tag <? Z.of_nat (length fs))) as Ev.
  { destruct (Z.ltb_spec tag (Z.of_nat (length fs))); [apply V; lia|].
    apply not_true_is_false. rewrite V. lia. }
  cbn [is_valid_tag disassemble_tag]. rewrite Ev. split; auto.
  intros L. rewrite (proj2 (Z.ltb_ge _ _)) by auto. reflexivity.
Qed.

(** Tags do not depend on the order in which members are listed. *)
Lemma rank_perm fs fs' pre k u post pre' post' :
  Permutation fs fs' -> NoDup (map (fun f => krepr (fst f)) fs) ->
  fs = pre ++ (k, u) :: post -> fs' = pre' ++ (k, u) :: post' ->
  rank_at pre k post = rank_at pre' k post'.
Proof.
  intros P ND E E'.
  assert (forall pre post, NoDup (map (fun f : key * ty => krepr (fst f)) (pre ++ (k, u) :: post)) ->
    rank_at pre k post = Z.of_nat (length (filter (fun f => repr_lt (krepr (fst f)) (krepr k)) (pre ++ (k, u) :: post)))) as H.
  { clear. intros pre post ND. unfold rank_at.
    assert (filter (fun f : key * ty => String.eqb (krepr (fst f)) (krepr k)) pre = []) as ->.
    { rewrite map_app in ND. cbn in ND. apply NoDup_remove_2 in ND.
      assert (forall f, In f pre -> String.eqb (krepr (fst f)) (krepr k) = false) as F.
      { intros f I. apply String.eqb_neq. intros Eq. apply ND. apply in_app_iff. left.
        rewrite <- Eq. apply (in_map (fun f : key * ty => krepr (fst f))); auto. }
      clear ND. induction pre as [|f pre IH]; auto. cbn. rewrite F by (left; auto). apply IH.
      intros; apply F; right; auto. }
    rewrite !filter_app. cbn [filter fst].
    assert (repr_lt (krepr k) (krepr k) = false) as -> by (unfold repr_lt; rewrite str_compare_refl; auto).
    cbn [length]. lia. }
  rewrite (H pre post), (H pre' post').
  - rewrite <- E, <- E'. f_equal. apply filter_perm_length; auto.
  - rewrite <- E'. eapply Permutation_NoDup; [|exact ND]. apply Permutation_map; auto.
  - rewrite <- E; auto.
Qed.
