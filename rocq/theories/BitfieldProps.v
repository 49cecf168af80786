(** Property theorem C19: peak/bitfield.py. *)
From Coq Require Import ZArith List Bool Lia.
From Verif Require Import Base BaseLemmas BitfieldModel.
Import ListNotations.
Open Scope Z_scope.

(** * Values of a class *)
Inductive of_class : bty -> bval -> Prop :=
| oc_bit s b : of_class (BBit s) (WBit b)
| oc_bv s w z : 0 <= z < 2 ^ w -> of_class (BBV s w) (WBV z)
| oc_sint s w z : 0 <= z < 2 ^ w -> of_class (BSInt s w) (WBV z)
| oc_enum s ms z : In z ms -> of_class (BEnum s ms) (WEnum z)
| oc_prod s fs vs : Forall2 of_class fs vs -> of_class (BProd s fs) (WProd vs)
| oc_sum s tags fs i t v : nth_error fs i = Some t -> of_class t v -> of_class (BSum s tags fs) (WSum i v).

(** Classes [size] is right for: vectors of non-negative width, unsigned; Enum
    values below 2^size; tags one per member, distinct and non-negative; no
    [@bitfield] shift inside. *)
Inductive plain : bty -> Prop :=
| pl_bit s : plain (BBit s)
| pl_bv s w : 0 <= w -> plain (BBV s w)
| pl_enum s ms : (forall z, In z ms -> 0 <= z < 2 ^ clog2 (Z.of_nat (length ms))) -> plain (BEnum s ms)
| pl_prod s fs : Forall (fun t => plain t /\ shift_of t = 0) fs -> plain (BProd s fs)
| pl_sum s tags fs : Forall (fun t => plain t /\ shift_of t = 0) fs -> fs <> [] ->
    (forall ts, tags = Some ts -> length ts = length fs /\ NoDup ts /\ forall x, In x ts -> 0 <= x) ->
    plain (BSum s tags fs).

(** * Induction principle *)
Section Ind.
  Variable P : bty -> Prop.
  Hypotheses (h1 : forall s, P (BBit s)) (h2 : forall s w, P (BBV s w)) (h3 : forall s w, P (BSInt s w))
    (h4 : forall s ms, P (BEnum s ms)) (h5 : forall s fs, Forall P fs -> P (BProd s fs))
    (h6 : forall s tags fs, Forall P fs -> P (BSum s tags fs)).
  Fixpoint bty_ind' (t : bty) : P t :=
    match t with
    | BBit s => h1 s | BBV s w => h2 s w | BSInt s w => h3 s w | BEnum s ms => h4 s ms
    | BProd s fs => h5 s fs ((fix go (l : list bty) : Forall P l :=
        match l with [] => Forall_nil _ | x :: r => Forall_cons _ (bty_ind' x) (go r) end) fs)
    | BSum s tags fs => h6 s tags fs ((fix go (l : list bty) : Forall P l :=
        match l with [] => Forall_nil _ | x :: r => Forall_cons _ (bty_ind' x) (go r) end) fs)
    end.
End Ind.

(** * Unfolding *)
Fixpoint bsizes (fs : list bty) : Z := match fs with [] => 0 | t :: r => bsize t + bsizes r end.
Fixpoint bmax (fs : list bty) : Z := match fs with [] => 0 | t :: r => Z.max (bsize t) (bmax r) end.
Lemma bsize_prod s fs : bsize (BProd s fs) = bsizes fs. Proof. reflexivity. Qed.
Lemma bsize_sum s tags fs : bsize (BSum s tags fs) = bmax fs + sumsize tags (length fs). Proof. reflexivity. Qed.

Fixpoint enc_fwd (fs : list bty) (vs : list bval) (pos word : Z) : res Z :=
  match fs, vs with
  | t' :: fs', v' :: vs' =>
      do x <- encode false t' v'; enc_fwd fs' vs' (pos + bsize t') (Z.lor word (Z.shiftl x pos))
  | _, _ => Ok word
  end.
Fixpoint enc_rev (fs : list bty) (vs : list bval) (pos word : Z) : res Z :=
  match fs, vs with
  | t' :: fs', v' :: vs' =>
      do x <- encode true t' v'; enc_rev fs' vs' (pos - bsize t') (Z.lor word (Z.shiftl x (pos - bsize t')))
  | _, _ => Ok word
  end.
Lemma encode_prod r s fs vs : encode r (BProd s fs) (WProd vs) =
  do w <- (if r then enc_rev fs vs (bsizes fs) 0 else enc_fwd fs vs 0 0); Ok (Z.shiftl w s).
Proof.
  rewrite <- (bsize_prod s). destruct r; unfold encode; fold encode; cbn [shift_of]; f_equal.
Qed.
Lemma encode_sum r s tags fs i v : encode r (BSum s tags fs) (WSum i v) =
  do tag <- instkey tags i;
  do x <- match nth_error fs i with Some t => encode r t v | None => Err ValueError end;
  Ok (Z.shiftl (if r then Z.lor (Z.shiftl tag (bmax fs)) x else Z.lor (Z.shiftl x (sumsize tags (length fs))) tag) s).
Proof.
  unfold encode; fold encode. cbn [shift_of]. destruct (instkey tags i) as [tag|]; [|reflexivity]. cbn [bind].
  rewrite bsize_sum. replace (bmax fs + _ - _) with (bmax fs) by lia.
  generalize (bmax fs) (sumsize tags (length fs)). intros a b.
  match goal with |- bind (bind ?x _) _ = _ => assert (x = match nth_error fs i with Some t => encode r t v | None => Err ValueError end) as E end.
  { revert i. induction fs as [|t fs IH]; intros [|i]; try reflexivity. cbn [nth_error]. apply IH. }
  rewrite E. destruct (nth_error fs i) as [t|]; [|reflexivity]. destruct (encode r t v); [|reflexivity].
  destruct r; reflexivity.
Qed.

(** * Ranges *)
Lemma le_pow2_clog2 n : 1 <= n -> n <= 2 ^ clog2 n.
Proof. intros. unfold clog2. pose proof (Z.log2_up_le_pow2 n (Z.log2_up n)). lia. Qed.
Lemma clog2_nonneg n : 0 <= clog2 n. Proof. apply Z.log2_up_nonneg. Qed.
Lemma sumsize_nonneg tags n : 0 <= sumsize tags n.
Proof. destruct tags; apply clog2_nonneg. Qed.
Lemma bsize_nonneg t : plain t -> 0 <= bsize t.
Proof.
  induction t as [| | | |s fs IH|s tags fs IH] using bty_ind'; intros P; inversion P as [| | |? ? F|? ? ? F]; subst; cbn [bsize]; try lia.
  - apply clog2_nonneg.
  - change (0 <= bsizes fs). clear P. induction F as [|t fs [Pt _] F IHF]; cbn [bsizes]; [lia|].
    inversion IH; subst. pose proof (H1 Pt). specialize (IHF H2). lia.
  - change (0 <= bmax fs + sumsize tags (length fs)). pose proof (sumsize_nonneg tags (length fs)).
    assert (0 <= bmax fs); [|lia]. clear. induction fs; cbn [bmax]; lia.
Qed.
Lemma bmax_ge fs i t : nth_error fs i = Some t -> bsize t <= bmax fs.
Proof.
  revert i. induction fs as [|t' fs IH]; intros [|i] E; try discriminate; cbn in E.
  - injection E as ->. cbn [bmax]. lia.
  - specialize (IH i E). cbn [bmax]. lia.
Qed.
Lemma bmax_nonneg fs : 0 <= bmax fs.
Proof. induction fs; cbn [bmax]; lia. Qed.
Lemma fold_max_ge ts x : In x ts -> x <= fold_right Z.max 0 ts.
Proof. induction ts as [|y ts IH]; intros []; cbn; [lia|specialize (IH H); lia]. Qed.

Lemma tag_spec tags (fs : list bty) i t : nth_error fs i = Some t ->
  (forall ts, tags = Some ts -> length ts = length fs /\ NoDup ts /\ forall x, In x ts -> 0 <= x) ->
  exists tag, instkey tags i = Ok tag /\ 0 <= tag < 2 ^ sumsize tags (length fs).
Proof.
  intros E H. assert (i < length fs)%nat as L by (apply nth_error_Some; congruence).
  destruct tags as [ts|]; cbn [instkey sumsize].
  - destruct (H ts eq_refl) as (Ll & _ & P).
    destruct (nth_error ts i) as [x|] eqn:Ex; [|apply nth_error_None in Ex; lia].
    exists x. split; auto. apply nth_error_In in Ex. split; auto.
    pose proof (fold_max_ge ts x Ex). pose proof (P x Ex).
    pose proof (le_pow2_clog2 (fold_right Z.max 0 ts + 1) ltac:(lia)). lia.
  - exists (Z.of_nat i). split; auto. pose proof (le_pow2_clog2 (Z.of_nat (length fs)) ltac:(lia)). lia.
Qed.
Lemma tag_inj tags (fs : list bty) i j tag : instkey tags i = Ok tag -> instkey tags j = Ok tag ->
  (forall ts, tags = Some ts -> length ts = length fs /\ NoDup ts /\ forall x, In x ts -> 0 <= x) -> i = j.
Proof.
  destruct tags as [ts|]; cbn [instkey]; intros A B H.
  - destruct (H ts eq_refl) as (_ & ND & _).
    destruct (nth_error ts i) eqn:Ei; [|discriminate]. destruct (nth_error ts j) eqn:Ej; [|discriminate].
    apply (NoDup_nth_error ts); auto.
    + apply nth_error_Some. congruence.
    + congruence.
  - injection A as <-. injection B as B. lia.
Qed.

Lemma add_inj w x y x' y' : 0 <= w -> 0 <= x < 2 ^ w -> 0 <= x' < 2 ^ w -> x + 2 ^ w * y = x' + 2 ^ w * y' -> x = x' /\ y = y'.
Proof. intros. pose proof (pow2_pos w ltac:(lia)). set (M := 2 ^ w) in *.
  assert (y = y') by nia. subst. split; auto; lia. Qed.

(** What encoding unshifted values of [t] gives. *)
Definition good (r : bool) (t : bty) : Prop :=
  (forall v, of_class t v -> exists x, encode r t v = Ok (2 ^ shift_of t * x) /\ 0 <= x < 2 ^ bsize t) /\
  (forall v v' x, of_class t v -> of_class t v' -> encode r t v = Ok x -> encode r t v' = Ok x -> v = v').

Lemma fwd_spec fs : Forall (fun t => plain t /\ shift_of t = 0) fs -> Forall (good false) fs ->
  (forall vs, Forall2 of_class fs vs -> exists y, 0 <= y < 2 ^ bsizes fs /\
    forall pos word, 0 <= pos -> 0 <= word < 2 ^ pos -> enc_fwd fs vs pos word = Ok (word + 2 ^ pos * y)) /\
  (forall vs vs', Forall2 of_class fs vs -> Forall2 of_class fs vs' -> enc_fwd fs vs 0 0 = enc_fwd fs vs' 0 0 -> vs = vs').
Proof.
  intros P G.
  assert (exists f : list bval -> Z, (forall vs, Forall2 of_class fs vs -> 0 <= f vs < 2 ^ bsizes fs /\
    forall pos word, 0 <= pos -> 0 <= word < 2 ^ pos -> enc_fwd fs vs pos word = Ok (word + 2 ^ pos * f vs)) /\
    (forall vs vs', Forall2 of_class fs vs -> Forall2 of_class fs vs' -> f vs = f vs' -> vs = vs')) as (f & Hf & Hi).
  { induction fs as [|t fs IH].
    - exists (fun _ => 0). split.
      + intros vs F. inversion F; subst. cbn. split; [lia|]. intros. f_equal. lia.
      + intros vs vs' F F' _. inversion F; inversion F'; auto.
    - inversion P as [|? ? [Pt Zt] Pr]; inversion G as [|? ? [G1 G2] Gr]; subst.
      destruct (IH Pr Gr) as (f & Hf & Hi). pose proof (bsize_nonneg t Pt) as Nt.
      exists (fun vs => match vs with v :: r =>
        match encode false t v with Ok x => x | Err _ => 0 end + 2 ^ bsize t * f r | [] => 0 end).
      assert (forall v, of_class t v -> exists x, encode false t v = Ok x /\ 0 <= x < 2 ^ bsize t) as G1'.
      { intros v Hv. destruct (G1 v Hv) as (x & E & R). rewrite Zt, Z.mul_1_l in E. eauto. }
      assert (0 <= bsizes fs) as Ns.
      { clear - Pr. induction Pr as [|t fs [Pt _] F IHF]; cbn [bsizes]; [lia|]. pose proof (bsize_nonneg t Pt). lia. }
      split.
      + intros vs F. inversion F as [|? v ? r Hv Fr]; subst. destruct (G1' v Hv) as (x & E & R). rewrite E.
        destruct (Hf r Fr) as [Rf Ef]. cbn [bsizes]. split.
        * rewrite pow2_split by lia. pose proof (pow2_pos (bsize t) Nt). nia.
        * intros pos word Hp Hw. cbn [enc_fwd]. rewrite E. cbn [bind].
          rewrite lor_shiftl_add by auto. rewrite Ef; [|lia|].
          -- f_equal. rewrite pow2_split by lia. ring.
          -- rewrite pow2_split by lia. pose proof (pow2_pos pos Hp). nia.
      + intros vs vs' F F' Eq. inversion F as [|? v ? r Hv Fr]; inversion F' as [|? v' ? r' Hv' Fr']; subst.
        destruct (G1' v Hv) as (x & E & R). destruct (G1' v' Hv') as (x' & E' & R'). rewrite E, E' in Eq.
        apply add_inj in Eq as [Ex Er]; auto. subst x'. f_equal; [eapply G2; eauto|apply Hi; auto]. }
  split.
  - intros vs F. destruct (Hf vs F). eauto.
  - intros vs vs' F F' E. destruct (Hf vs F) as [R Ef]. destruct (Hf vs' F') as [R' Ef'].
    rewrite Ef, Ef' in E by (cbn; lia). apply Hi; auto. apply Ok_inj in E. change (2 ^ 0) with 1 in E. rewrite !Z.mul_1_l in E. auto.
Qed.

Lemma rev_spec fs : Forall (fun t => plain t /\ shift_of t = 0) fs -> Forall (good true) fs ->
  (forall vs, Forall2 of_class fs vs -> exists y, 0 <= y < 2 ^ bsizes fs /\
    forall a, enc_rev fs vs (bsizes fs) (2 ^ bsizes fs * a) = Ok (2 ^ bsizes fs * a + y)) /\
  (forall vs vs', Forall2 of_class fs vs -> Forall2 of_class fs vs' -> enc_rev fs vs (bsizes fs) 0 = enc_rev fs vs' (bsizes fs) 0 -> vs = vs').
Proof.
  intros P G.
  assert (exists f : list bval -> Z, (forall vs, Forall2 of_class fs vs -> 0 <= f vs < 2 ^ bsizes fs /\
    forall a, enc_rev fs vs (bsizes fs) (2 ^ bsizes fs * a) = Ok (2 ^ bsizes fs * a + f vs)) /\
    (forall vs vs', Forall2 of_class fs vs -> Forall2 of_class fs vs' -> f vs = f vs' -> vs = vs')) as (f & Hf & Hi).
  { induction fs as [|t fs IH].
    - exists (fun _ => 0). split.
      + intros vs F. inversion F; subst. cbn [bsizes enc_rev]. change (2 ^ 0) with 1. split; [lia|]. intros. f_equal. lia.
      + intros vs vs' F F' _. inversion F; inversion F'; auto.
    - inversion P as [|? ? [Pt Zt] Pr]; inversion G as [|? ? [G1 G2] Gr]; subst.
      destruct (IH Pr Gr) as (f & Hf & Hi). pose proof (bsize_nonneg t Pt) as Nt.
      exists (fun vs => match vs with v :: r =>
        f r + 2 ^ bsizes fs * match encode true t v with Ok x => x | Err _ => 0 end | [] => 0 end).
      assert (forall v, of_class t v -> exists x, encode true t v = Ok x /\ 0 <= x < 2 ^ bsize t) as G1'.
      { intros v Hv. destruct (G1 v Hv) as (x & E & R). rewrite Zt, Z.mul_1_l in E. eauto. }
      assert (0 <= bsizes fs) as Ns.
      { clear - Pr. induction Pr as [|t fs [Pt _] F IHF]; cbn [bsizes]; [lia|]. pose proof (bsize_nonneg t Pt). lia. }
      pose proof (pow2_pos (bsizes fs) Ns) as Ps.
      split.
      + intros vs F. inversion F as [|? v ? r Hv Fr]; subst. destruct (G1' v Hv) as (x & E & R). rewrite E.
        destruct (Hf r Fr) as [Rf Ef]. cbn [bsizes]. split.
        * rewrite pow2_split by lia. pose proof (pow2_pos (bsize t) Nt). nia.
        * intros a. cbn [enc_rev]. rewrite E. cbn [bind]. replace (bsize t + bsizes fs - bsize t) with (bsizes fs) by lia.
          replace (2 ^ (bsize t + bsizes fs) * a) with (Z.shiftl (Z.shiftl a (bsize t)) (bsizes fs)).
          2:{ rewrite !Z.shiftl_mul_pow2, pow2_split by lia. ring. }
          rewrite <- Z.shiftl_lor, Z.lor_comm, lor_shiftl_add by auto.
          rewrite Z.shiftl_mul_pow2, Z.mul_comm by lia. rewrite Ef. f_equal.
          rewrite !Z.shiftl_mul_pow2 by lia. ring.
      + intros vs vs' F F' Eq. inversion F as [|? v ? r Hv Fr]; inversion F' as [|? v' ? r' Hv' Fr']; subst.
        destruct (G1' v Hv) as (x & E & R). destruct (G1' v' Hv') as (x' & E' & R'). rewrite E, E' in Eq.
        destruct (Hf r Fr) as [Rf _]. destruct (Hf r' Fr') as [Rf' _].
        apply add_inj in Eq as [Er Ex]; auto. subst x'. f_equal; [eapply G2; eauto|apply Hi; auto]. }
  split.
  - intros vs F. destruct (Hf vs F). eauto.
  - intros vs vs' F F' E. destruct (Hf vs F) as [R Ef]. destruct (Hf vs' F') as [R' Ef'].
    specialize (Ef 0). specialize (Ef' 0). rewrite Z.mul_0_r in Ef, Ef'. rewrite Ef, Ef' in E. apply Hi; auto.
    apply Ok_inj in E. lia.
Qed.

Lemma shiftl_pow s x : 0 <= s -> Z.shiftl x s = 2 ^ s * x.
Proof. intros. rewrite Z.shiftl_mul_pow2 by auto. ring. Qed.
Lemma shiftl_inj s x y : 0 <= s -> Z.shiftl x s = Z.shiftl y s -> x = y.
Proof. intros H E. rewrite !shiftl_pow in E by auto. pose proof (pow2_pos s H). nia. Qed.

Lemma encode_good r t : plain t -> 0 <= shift_of t -> good r t.
Proof.
  induction t as [| | | |s fs IH|s tags fs IH] using bty_ind'; intros P Hs; cbn [shift_of] in Hs;
    inversion P as [| | |? ? F|? ? ? F NE Ht]; subst.
  - split.
    + intros v H. inversion H; subst. exists (b2z b). cbn [encode bind shift_of bsize]. rewrite shiftl_pow by auto. split; auto.
      destruct b; cbn; lia.
    + intros v v' x H H' E E'. inversion H; inversion H'; subst. cbn [encode bind shift_of] in *.
      pose proof (eq_trans E (eq_sym E')) as Eq. apply Ok_inj in Eq. apply shiftl_inj in Eq; auto. destruct b, b0; cbn in Eq; congruence.
  - split.
    + intros v H'. inversion H' as [|? ? z Rz| | | |]; subst. exists z. cbn [encode bind shift_of bsize]. rewrite shiftl_pow by auto. auto.
    + intros v v' x A A' E E'. inversion A; inversion A'; subst. cbn [encode bind shift_of] in *.
      pose proof (eq_trans E (eq_sym E')) as Eq. apply Ok_inj in Eq. apply shiftl_inj in Eq; auto. congruence.
  - split.
    + intros v H'. inversion H' as [| | |? ? z I| |]; subst. exists z. cbn [encode bind shift_of bsize]. rewrite shiftl_pow by auto. auto.
    + intros v v' x A A' E E'. inversion A; inversion A'; subst. cbn [encode bind shift_of] in *.
      pose proof (eq_trans E (eq_sym E')) as Eq. apply Ok_inj in Eq. apply shiftl_inj in Eq; auto. congruence.
  - assert (Forall (good r) fs) as G.
    { rewrite Forall_forall in *. intros t I. destruct (F t I) as [Pt Zt]. apply IH; auto. lia. }
    destruct r.
    + destruct (rev_spec fs F G) as [R1 R2]. split.
      * intros v H. inversion H as [| | | |? ? vs Fv|]; subst. destruct (R1 vs Fv) as (y & Ry & Ey).
        exists y. rewrite encode_prod. specialize (Ey 0). rewrite Z.mul_0_r in Ey. rewrite Ey. cbn [bind shift_of].
        rewrite shiftl_pow by auto. rewrite Z.add_0_l. auto.
      * intros v v' x H H' E E'. inversion H as [| | | |? ? vs Fv|]; inversion H' as [| | | |? ? vs' Fv'|]; subst.
        destruct (R1 vs Fv) as (y & Ry & Ey). destruct (R1 vs' Fv') as (y' & Ry' & Ey').
        specialize (Ey 0). specialize (Ey' 0). rewrite Z.mul_0_r in Ey, Ey'. rewrite encode_prod in E, E'. rewrite Ey in E. rewrite Ey' in E'.
        cbn [bind] in E, E'. pose proof (eq_trans E (eq_sym E')) as Eq. apply Ok_inj in Eq. apply shiftl_inj in Eq; auto.
        f_equal. apply R2; auto. rewrite Ey, Ey'. congruence.
    + destruct (fwd_spec fs F G) as [R1 R2]. split.
      * intros v H. inversion H as [| | | |? ? vs Fv|]; subst. destruct (R1 vs Fv) as (y & Ry & Ey).
        exists y. rewrite encode_prod, Ey by (cbn; lia). cbn [bind shift_of].
        rewrite shiftl_pow by auto. rewrite Z.mul_1_l, Z.add_0_l. auto.
      * intros v v' x H H' E E'. inversion H as [| | | |? ? vs Fv|]; inversion H' as [| | | |? ? vs' Fv'|]; subst.
        destruct (R1 vs Fv) as (y & Ry & Ey). destruct (R1 vs' Fv') as (y' & Ry' & Ey').
        rewrite encode_prod in E, E'. rewrite Ey in E by (cbn; lia). rewrite Ey' in E' by (cbn; lia).
        cbn [bind] in E, E'. pose proof (eq_trans E (eq_sym E')) as Eq. apply Ok_inj in Eq. apply shiftl_inj in Eq; auto.
        f_equal. apply R2; auto. rewrite Ey, Ey' by (cbn; lia). congruence.
  - assert (forall i t, nth_error fs i = Some t -> good r t /\ plain t /\ shift_of t = 0) as G.
    { intros i t E. apply nth_error_In in E. rewrite Forall_forall in *. destruct (F t E) as [Pt Zt]. split; auto.
      apply IH; auto. lia. }
    pose proof (sumsize_nonneg tags (length fs)) as Ns. pose proof (bmax_nonneg fs) as Nb.
    assert (forall v, of_class (BSum s tags fs) v -> exists i t v0 tag x, v = WSum i v0 /\ nth_error fs i = Some t /\
      of_class t v0 /\ instkey tags i = Ok tag /\ encode r t v0 = Ok x /\
      0 <= tag < 2 ^ sumsize tags (length fs) /\ 0 <= x < 2 ^ bmax fs /\
      encode r (BSum s tags fs) v = Ok (2 ^ s * (if r then x + 2 ^ bmax fs * tag else tag + 2 ^ sumsize tags (length fs) * x))) as K.
    { intros v H. inversion H as [| | | | |? ? ? i t v0 Ei Hv]; subst.
      destruct (tag_spec tags fs i t Ei Ht) as (tag & Et & Rt).
      destruct (G i t Ei) as ([G1 _] & Pt & Zt). destruct (G1 v0 Hv) as (x & Ex & Rx). rewrite Zt, Z.mul_1_l in Ex.
      pose proof (bsize_nonneg t Pt). pose proof (pow2_mono (bsize t) (bmax fs) ltac:(pose proof (bmax_ge fs i t Ei); lia)).
      exists i, t, v0, tag, x. repeat (split; auto; try lia).
      rewrite encode_sum, Et, Ei, Ex. cbn [bind]. rewrite shiftl_pow by auto. do 2 f_equal.
      destruct r; [rewrite Z.lor_comm, lor_shiftl_add by (auto; lia); auto|rewrite Z.lor_comm, lor_shiftl_add by (auto; lia); auto]. }
    split.
    + intros v H. destruct (K v H) as (i & t & v0 & tag & x & _ & _ & _ & _ & _ & Rt & Rx & E).
      eexists. split; [exact E|]. rewrite bsize_sum, pow2_split by auto.
      pose proof (pow2_pos (bmax fs) Nb). pose proof (pow2_pos _ Ns). destruct r; nia.
    + intros v v' y H H' E E'.
      destruct (K v H) as (i & t & v0 & tag & x & -> & Ei & Hv & Et & Ex & Rt & Rx & Ee).
      destruct (K v' H') as (i' & t' & v0' & tag' & x' & -> & Ei' & Hv' & Et' & Ex' & Rt' & Rx' & Ee').
      rewrite Ee in E. rewrite Ee' in E'. rewrite <- E' in E. injection E as E.
      assert (tag = tag' /\ x = x') as [<- <-].
      { pose proof (pow2_pos s Hs).
        assert ((if r then x + 2 ^ bmax fs * tag else tag + 2 ^ sumsize tags (length fs) * x) =
                (if r then x' + 2 ^ bmax fs * tag' else tag' + 2 ^ sumsize tags (length fs) * x')) as E2 by nia.
        destruct r; apply add_inj in E2; tauto. }
      assert (i = i') as <- by (eapply tag_inj; eauto).
      assert (t = t') as <- by congruence. f_equal. destruct (G i t Ei) as ([_ G2] & _). eapply G2; eauto.
Qed.

(** * C19 *)
(** The full property: no restriction on Enum values, tags, inner shifts or signed
    fields; it is false, see [C19_full_refuted] and the cases below it. *)
Definition C19_full : Prop := forall r t v v' x, 0 <= shift_of t ->
  of_class t v -> of_class t v' -> encode r t v = Ok x ->
  0 <= x < 2 ^ (shift_of t + bsize t) /\ (encode r t v' = Ok x -> v = v').

Theorem C19_encode_partial r t v : plain t -> 0 <= shift_of t -> of_class t v ->
  exists x, encode r t v = Ok x /\ 0 <= x < 2 ^ (shift_of t + bsize t) /\
    (forall v', of_class t v' -> encode r t v' = Ok x -> v = v').
Proof.
  intros P Hs H. destruct (encode_good r t P Hs) as [G1 G2]. destruct (G1 v H) as (x & E & R).
  exists (2 ^ shift_of t * x). split; auto. split.
  - pose proof (bsize_nonneg t P). rewrite pow2_split by auto. pose proof (pow2_pos _ Hs). nia.
  - intros v' H' E'. eapply G2; eauto.
Qed.

Definition ex19 : bty := BProd 3 [BEnum 0 [0; 2; 1; 3]; BSum 0 (Some [5; 0; 2]) [BBV 0 4; BProd 0 [BBit 0; BBV 0 8]; BBV 0 0]; BBV 0 6].
Definition ex19_val : bval := WProd [WEnum 2; WSum 1 (WProd [WBit true; WBV 171]); WBV 33].
Example C19_case : plain ex19 /\ of_class ex19 ex19_val /\ bsize ex19 = 20 /\
  encode false ex19 ex19_val = Ok (8 * (2 + 4 * (0 + 8 * (1 + 2 * 171)) + 2 ^ 14 * 33)) /\
  encode true ex19 ex19_val = Ok (8 * (33 + 2 ^ 6 * (2 ^ 9 * 0 + (2 ^ 8 * 1 + 171)) + 2 ^ 18 * 2)).
Proof.
  split; [|split; [|split; [|split]]].
  - apply pl_prod. repeat apply Forall_cons; try (apply Forall_nil); split; auto.
    + apply pl_enum. change (clog2 (Z.of_nat (length [0; 2; 1; 3]))) with 2. cbn. lia.
    + apply pl_sum; [|discriminate|].
      * repeat apply Forall_cons; try (apply Forall_nil); split; auto; try (constructor; lia).
        apply pl_prod. repeat apply Forall_cons; try (apply Forall_nil); split; auto; constructor; lia.
      * intros ts [= <-]. split; [reflexivity|]. split; [repeat constructor; cbn; lia|cbn; lia].
    + constructor; lia.
  - repeat (econstructor; cbn; try lia; auto).
  - reflexivity.
  - vm_compute. reflexivity.
  - vm_compute. reflexivity.
Qed.

(** An Enum with values 0 and 2 has size 1: its fields overlap. *)
Theorem C19_full_refuted : ~ C19_full.
Proof.
  intros F. destruct (F false (BEnum 0 [0; 2]) (WEnum 2) (WEnum 2) 2) as [R _]; cbn; try lia.
  - constructor. cbn. auto.
  - constructor. cbn. auto.
  - reflexivity.
  - vm_compute in R. destruct R; discriminate.
Qed.
Theorem C19_enum_refuted : exists t v v' x, of_class t v /\ of_class t v' /\ v <> v' /\
  t = BProd 0 [BEnum 0 [0; 2]; BBit 0] /\ encode false t v = Ok x /\ encode false t v' = Ok x.
Proof.
  exists (BProd 0 [BEnum 0 [0; 2]; BBit 0]), (WProd [WEnum 2; WBit false]), (WProd [WEnum 0; WBit true]), 2.
  split; [repeat (constructor; cbn; auto)|]. split; [repeat (constructor; cbn; auto)|]. split; [discriminate|].
  split; auto.
Qed.
Theorem C19_tags_refuted : exists t v v' x, of_class t v /\ of_class t v' /\ v <> v' /\
  t = BSum 0 (Some [1; 1]) [BBV 0 4; BBV 0 8] /\ encode false t v = Ok x /\ encode false t v' = Ok x.
Proof.
  exists (BSum 0 (Some [1; 1]) [BBV 0 4; BBV 0 8]), (WSum 0 (WBV 3)), (WSum 1 (WBV 3)), 7.
  split; [eapply oc_sum; [reflexivity|constructor; lia]|]. split; [eapply oc_sum; [reflexivity|constructor; lia]|].
  split; [discriminate|]. split; auto.
Qed.
Theorem C19_shift_refuted : exists t v v' x, of_class t v /\ of_class t v' /\ v <> v' /\
  t = BProd 0 [BBV 2 4; BBV 0 4] /\ encode false t v = Ok x /\ encode false t v' = Ok x.
Proof.
  exists (BProd 0 [BBV 2 4; BBV 0 4]), (WProd [WBV 4; WBV 0]), (WProd [WBV 0; WBV 1]), 16.
  split; [repeat (constructor; cbn; try lia)|]. split; [repeat (constructor; cbn; try lia)|]. split; [discriminate|].
  split; auto.
Qed.
Theorem C19_signed_refuted : exists t v v' x, of_class t v /\ of_class t v' /\ v <> v' /\
  t = BProd 0 [BSInt 0 8; BBit 0] /\ encode false t v = Ok x /\ encode false t v' = Ok x /\ x < 0.
Proof.
  exists (BProd 0 [BSInt 0 8; BBit 0]), (WProd [WBV 255; WBit false]), (WProd [WBV 255; WBit true]), (-1).
  split; [repeat (constructor; cbn; try lia)|]. split; [repeat (constructor; cbn; try lia)|]. split; [discriminate|].
  split; auto. split; [vm_compute; reflexivity|]. split; [vm_compute; reflexivity|lia].
Qed.

Print Assumptions C19_encode_partial.
Print Assumptions C19_full_refuted.
Print Assumptions C19_enum_refuted.
Print Assumptions C19_tags_refuted.
Print Assumptions C19_shift_refuted.
Print Assumptions C19_signed_refuted.
