(** Lemmas about Enum tables (assembler.py:101-143). *)
From Coq Require Import String ZArith List Bool Lia Permutation Sorted.
From Verif Require Import Base BaseLemmas AsmModel AsmSpec AsmValid.
Import ListNotations.
Open Scope Z_scope.

Lemma emem_eqb_eq a b : emem_eqb a b = true <-> a = b.
Proof.
  destruct a, b; cbn; try (split; congruence).
  - rewrite Z.eqb_eq. split; congruence.
  - rewrite String.eqb_eq. split; congruence.
Qed.

Lemma existsb_emem m ms : existsb (emem_eqb m) ms = true <-> In m ms.
Proof.
  rewrite existsb_exists. split.
  - intros (x & I & E). apply emem_eqb_eq in E as ->. auto.
  - intros. exists m. split; auto. apply emem_eqb_eq; auto.
Qed.

Lemma autos_In n ms : In n (autos ms) <-> In (EAuto n) ms.
Proof.
  induction ms as [|[v|a] ms IH]; cbn; [tauto| |].
  - rewrite IH. split; auto. intros [|]; [discriminate|auto].
  - rewrite IH. split; (intros [H|H]; [left; congruence|auto]).
Qed.

Lemma autos_NoDup ms :
  (forall n i j, nth_error ms i = Some (EAuto n) -> nth_error ms j = Some (EAuto n) -> i = j) ->
  NoDup (autos ms).
Proof.
  induction ms as [|m ms IH]; intros H; [constructor|].
  assert (NoDup (autos ms)).
  { apply IH. intros n i j Hi Hj. specialize (H n (S i) (S j) Hi Hj). lia. }
  destruct m as [v|n]; cbn; auto. constructor; auto.
  intros I. apply autos_In, In_nth_error in I as [i I].
  specialize (H n O (S i) eq_refl I). lia.
Qed.

(** ** Counting unused codes *)
Lemma unused_below_0 ms : unused_below ms 0 = O.
Proof. reflexivity. Qed.

Lemma unused_below_succ ms c : 0 <= c ->
  unused_below ms (c + 1) =
  (unused_below ms c + (if existsb (emem_eqb (EInt c)) ms then 0 else 1))%nat.
Proof.
  intros. unfold unused_below. replace (Z.to_nat (c + 1)) with (S (Z.to_nat c)) by lia.
  rewrite seq_S, map_app, filter_app, app_length. f_equal. cbn [map filter].
  cbn [Nat.add]. rewrite Z2Nat.id by lia.
  destruct (existsb (emem_eqb (EInt c)) ms); reflexivity.
Qed.

Lemma unused_below_used ms d c : 0 <= d <= c ->
  (forall x, d <= x < c -> In (EInt x) ms) -> unused_below ms c = unused_below ms d.
Proof.
  intros H. replace c with (d + Z.of_nat (Z.to_nat (c - d))) by lia.
  remember (Z.to_nat (c - d)) as n. clear Heqn. induction n as [|n IH]; intros U.
  - f_equal; lia.
  - replace (d + Z.of_nat (S n)) with (d + Z.of_nat n + 1) by lia.
    rewrite unused_below_succ by lia.
    assert (existsb (emem_eqb (EInt (d + Z.of_nat n))) ms = true) as ->.
    { apply existsb_emem, U. lia. }
    rewrite IH; [lia|]. intros; apply U; lia.
Qed.

Lemma unused_below_mono ms a b : 0 <= a <= b -> (unused_below ms a <= unused_below ms b)%nat.
Proof.
  intros H. replace b with (a + Z.of_nat (Z.to_nat (b - a))) by lia.
  remember (Z.to_nat (b - a)) as n. clear Heqn. induction n as [|n IH].
  - replace (a + Z.of_nat 0) with a by lia; lia.
  - replace (a + Z.of_nat (S n)) with (a + Z.of_nat n + 1) by lia.
    rewrite unused_below_succ by lia. lia.
Qed.

Lemma unused_below_lt ms a b : 0 <= a < b -> ~ In (EInt a) ms ->
  (unused_below ms a < unused_below ms b)%nat.
Proof.
  intros H N. pose proof (unused_below_mono ms (a + 1) b ltac:(lia)).
  rewrite unused_below_succ in H0 by lia.
  destruct (existsb (emem_eqb (EInt a)) ms) eqn:E; [apply existsb_emem in E; tauto|lia].
Qed.

Lemma unused_below_inj ms a b : 0 <= a -> 0 <= b -> ~ In (EInt a) ms -> ~ In (EInt b) ms ->
  unused_below ms a = unused_below ms b -> a = b.
Proof.
  intros Ha Hb Na Nb E. destruct (Z_lt_ge_dec a b).
  - pose proof (unused_below_lt ms a b ltac:(lia) Na). lia.
  - destruct (Z.eq_dec a b); auto. pose proof (unused_below_lt ms b a ltac:(lia) Nb). lia.
Qed.

(** ** Codes are functional, injective and non-negative *)
Lemma enum_code_fun ms m a b : NoDup (autos ms) ->
  enum_code ms m a -> enum_code ms m b -> a = b.
Proof.
  intros ND [I A] [_ B]. destruct m as [v|n]; [congruence|].
  destruct A as (A1 & A2 & A3), B as (B1 & B2 & B3).
  apply (unused_below_inj ms); auto.
  eapply (proj1 (NoDup_nth_error (autos ms)) ND); [|congruence].
  apply nth_error_Some. congruence.
Qed.

Lemma enum_code_inj ms m m' a : enum_code ms m a -> enum_code ms m' a -> m = m'.
Proof.
  intros [I A] [I' B]. destruct m as [v|n], m' as [v'|n'].
  - congruence.
  - subst. tauto.
  - subst. tauto.
  - destruct A as (A1 & A2 & A3), B as (B1 & B2 & B3). congruence.
Qed.

(** ** The table *)
Lemma enum_scan_spec ms : forall tbl used free,
  (forall v, In (EInt v) ms -> 0 <= v) ->
  NoDup (map fst tbl) -> (forall m c, In (m, c) tbl -> m = EInt c) ->
  (forall c, In (EInt c, c) tbl <-> In c used) ->
  exists tbl' used',
    enum_scan ms tbl used free = Ok (tbl', used', free ++ map EAuto (autos ms)) /\
    NoDup (map fst tbl') /\ (forall m c, In (m, c) tbl' -> m = EInt c) /\
    (forall c, In (EInt c, c) tbl' <-> In c used') /\
    (forall c, In c used' <-> In c used \/ In (EInt c) ms).
Proof.
  induction ms as [|[v|n] ms IH]; intros tbl used free P ND T U; cbn [enum_scan autos map].
  - exists tbl, used. rewrite app_nil_r. repeat split; auto; cbn; try tauto; apply U.
  - assert (0 <= v) by (apply P; left; auto). rewrite (proj2 (Z.ltb_ge v 0)) by lia.
    assert (Hnew : forall x, In x (dset emem_eqb tbl (EInt v) v) <-> x = (EInt v, v) \/ In x tbl).
    { intros x. destruct (in_dec Z.eq_dec v used) as [I|I].
      - split; [apply In_dset; apply emem_eqb_eq|].
        assert (dset emem_eqb tbl (EInt v) v = tbl) as ->.
        { apply U in I. clear - ND I. induction tbl as [|[m c] tbl IH]; [destruct I|].
          cbn [dset]. destruct (emem_eqb (EInt v) m) eqn:E.
          - apply emem_eqb_eq in E as <-. destruct I as [I|I]; [injection I as ->; auto|].
            exfalso. inversion ND as [|? ? H1 H2]; subst. apply H1. apply (in_map fst) in I. exact I.
          - destruct I as [[= -> ->]|I]; [cbn in E; rewrite Z.eqb_refl in E; discriminate|].
            f_equal. apply IH; auto. inversion ND; auto. }
        intros [->|]; auto. apply U; auto.
      - rewrite dset_new by (try apply emem_eqb_eq;
          intros I2; apply in_map_iff in I2 as ([m c] & E & I2); cbn in E; subst;
          specialize (T _ _ I2); injection T as ->; apply I, U; auto).
        rewrite in_app_iff. cbn. intuition auto. }
    destruct (IH (dset emem_eqb tbl (EInt v) v) (v :: used) free) as (tbl' & used' & E & A & B & C & D).
    + intros; apply P; right; auto.
    + destruct (in_dec Z.eq_dec v used) as [I|I].
      * assert (map fst (dset emem_eqb tbl (EInt v) v) = map fst tbl) as ->; auto.
        apply U in I. clear - I. induction tbl as [|[m c] tbl IH]; [destruct I|].
        cbn [dset]. destruct (emem_eqb (EInt v) m) eqn:E; [auto|]. cbn [map fst]. f_equal. apply IH.
        destruct I as [[= -> ->]|I]; auto. cbn in E. rewrite Z.eqb_refl in E. discriminate.
      * rewrite dset_new by (try apply emem_eqb_eq;
          intros I2; apply in_map_iff in I2 as ([m c] & E & I2); cbn in E; subst;
          specialize (T _ _ I2); injection T as ->; apply I, U; auto).
        rewrite map_app. cbn. eapply Permutation_NoDup; [apply Permutation_cons_append|].
        constructor; auto. intros I2. apply in_map_iff in I2 as ([m c] & E & I2). cbn in E. subst.
        specialize (T _ _ I2). injection T as ->. apply I, U; auto.
    + intros m c I. apply Hnew in I as [[= -> ->]|I]; auto.
    + intros c. rewrite Hnew. cbn. rewrite U. split; intros [H1|H1]; auto; left; congruence.
    + exists tbl', used'. split; [exact E|].
      split; auto. split; auto. split; auto.
      intros c. rewrite D. cbn. split.
      * intros [[<-|]|]; auto.
      * intros [|[E'|]]; auto. left; left; congruence.
  - destruct (IH tbl used (free ++ [EAuto n])) as (tbl' & used' & E & A & B & C & D); auto.
    + intros; apply P; right; auto.
    + exists tbl', used'. split; [rewrite E; rewrite <- app_assoc; auto|].
      split; auto. split; auto. split; auto.
      intros c. rewrite D. cbn. split; [tauto|].
      intros [|[E'|]]; auto. discriminate.
Qed.

Lemma next_free_total fuel : forall c used, (length used < fuel)%nat ->
  exists c', next_free fuel c used = Ok c' /\ c <= c' /\ ~ In c' used /\
             forall x, c <= x < c' -> In x used.
Proof.
  assert (forall fuel c used,
    (exists c', next_free fuel c used = Ok c' /\ c <= c' /\ ~ In c' used /\
                forall x, c <= x < c' -> In x used) \/
    (forall x, c <= x < c + Z.of_nat fuel -> In x used)) as H.
  { clear. induction fuel as [|f IH]; intros c used.
    - right. intros; lia.
    - cbn [next_free]. destruct (zmem c used) eqn:E.
      + apply zmem_In in E. destruct (IH (c + 1) used) as [(c' & A & B & C & D)|A].
        * left. exists c'. repeat split; auto; try lia. intros x Hx.
          destruct (Z.eq_dec x c) as [->|]; auto. apply D; lia.
        * right. intros x Hx. destruct (Z.eq_dec x c) as [->|]; auto. apply A; lia.
      + left. exists c. repeat split; auto; try lia.
        * rewrite <- zmem_In. congruence. }
  intros c used L. destruct (H fuel c used) as [|A]; auto. exfalso.
  assert (length (pyrange c (c + Z.of_nat fuel)) <= length used)%nat as Le.
  { apply NoDup_incl_length; [apply increasing_NoDup, pyrange_increasing|].
    intros x I. apply pyrange_In in I. auto. }
  unfold pyrange in Le. rewrite map_length, seq_length in Le. lia.
Qed.

(** [d] is the number below which every code is taken after [i] assignments. *)
Lemma enum_assign_spec ms free : forall c d i tbl used,
  0 <= d -> (c = d \/ c = d - 1 /\ In c used) -> unused_below ms d = i ->
  (forall x, In x used <-> In (EInt x) ms \/ 0 <= x < d) ->
  NoDup free -> (forall m, In m free -> ~ In m (map fst tbl)) ->
  exists ext, enum_assign free c tbl used = Ok (tbl ++ ext) /\
    map fst ext = free /\
    forall m x, In (m, x) ext <->
      0 <= x /\ ~ In (EInt x) ms /\ exists j, unused_below ms x = (i + j)%nat /\ nth_error free j = Some m.
Proof.
  induction free as [|m free IH]; intros c d i tbl used Hd Hc Hi Hu ND Hf; cbn [enum_assign].
  - exists []. rewrite app_nil_r. split; auto. split; auto. cbn. intros m x. split; [tauto|].
    intros (_ & _ & j & _ & E). destruct j; discriminate.
  - destruct (next_free_total (S (length used)) c used ltac:(lia)) as (c' & -> & L & N & U).
    cbn [bind]. inversion ND as [|? ? ND1 ND2]; subst.
    assert (d <= c').
    { destruct Hc as [->|[-> I]]; auto. destruct (Z.eq_dec c' (d - 1)) as [->|]; [tauto|lia]. }
    assert (~ In (EInt c') ms) as Nc by (intros I; apply N, Hu; auto).
    assert (unused_below ms c' = unused_below ms d) as Ec.
    { apply unused_below_used; [lia|]. intros x Hx.
      assert (In x used) as I by (apply U; destruct Hc as [->|[-> _]]; lia).
      apply Hu in I as [|]; auto; lia. }
    rewrite dset_new by (try apply emem_eqb_eq; apply Hf; left; auto).
    destruct (IH c' (c' + 1) (S (unused_below ms d)) (tbl ++ [(m, c')]) (c' :: used))
      as (ext & E & F & G); auto; try lia.
    + right. split; [lia|left; auto].
    + rewrite unused_below_succ by lia. rewrite Ec.
      destruct (existsb (emem_eqb (EInt c')) ms) eqn:Ex; [apply existsb_emem in Ex; tauto|lia].
    + intros x. cbn. rewrite Hu. split.
      * intros [<-|[|]]; auto; right; lia.
      * intros [|Hx]; auto. destruct (Z.eq_dec c' x); auto. right.
        destruct (Z_lt_ge_dec x d); [right; lia|]. apply Hu. apply U.
        destruct Hc as [->|[-> _]]; lia.
    + intros m' I. rewrite map_app, in_app_iff. cbn. intros [I2|[->|[]]]; auto.
      apply (Hf m'); auto. right; auto.
    + exists ((m, c') :: ext). rewrite E, <- app_assoc. split; auto. split; [cbn; congruence|].
      intros m' x. cbn [In]. rewrite G. split.
      * intros [[= <- <-]|(A & B & j & C & D)].
        -- split; [lia|]. split; auto. exists O. split; [lia|reflexivity].
        -- split; auto. split; auto. exists (S j). split; [lia|auto].
      * intros (A & B & [|j] & C & D).
        -- left. cbn in D. injection D as ->. f_equal.
           apply (unused_below_inj ms); auto; lia.
        -- right. split; auto. split; auto. exists j. split; [lia|auto].
Qed.

(** The table lists exactly the codes of the specification. *)
Lemma enum_table_spec c ms : wf_ty (TEnum c ms) ->
  exists tbl, enum_table ms = Ok tbl /\ tbl <> [] /\ NoDup (map fst tbl) /\
    forall m x, In (m, x) tbl <-> enum_code ms m x.
Proof.
  inversion 1 as [| | |? ? NE P D| |]; subst. apply autos_NoDup in D.
  destruct (enum_scan_spec ms [] [] []) as (tbl & used & E & ND & T & U & V); auto.
  { constructor. } { intros ? ? []. } { intros; cbn; tauto. }
  unfold enum_table. rewrite E. cbn [bind app].
  assert (HT : forall m x, In (m, x) tbl <-> m = EInt x /\ In (EInt x) ms).
  { intros m x. split.
    - intros I. pose proof (T _ _ I) as ->. split; auto. apply U, V in I. destruct I; [destruct H0|auto].
    - intros [-> I]. apply U, V. auto. }
  destruct (enum_assign_spec ms (map EAuto (autos ms)) 0 0 O tbl used) as (ext & Ea & Fa & Ga);
    auto; try lia.
  { intros x. rewrite V. cbn. intuition lia. }
  { apply FinFun.Injective_map_NoDup; auto. intros a b; congruence. }
  { intros m I I2. apply in_map_iff in I as (n & <- & I).
    apply in_map_iff in I2 as ([m' x] & E2 & I2). cbn in E2. subst. apply HT in I2 as [? _]. discriminate. }
  rewrite Ea. cbn [bind].
  assert (Hall : forall m x, In (m, x) (tbl ++ ext) <-> enum_code ms m x).
  { intros m x. rewrite in_app_iff, HT, Ga. unfold enum_code. split.
    - intros [[-> I]|(A & B & j & C & Dj)]; auto.
      rewrite nth_error_map in Dj. destruct (nth_error (autos ms) j) as [n|] eqn:En; [|discriminate].
      injection Dj as <-. split; [apply autos_In; eapply nth_error_In; eauto|].
      split; auto. split; auto. rewrite C. exact En.
    - intros [I C]. destruct m as [v|n]; [subst; auto|]. right. destruct C as (A & B & C).
      split; auto. split; auto. exists (unused_below ms x). split; auto.
      rewrite nth_error_map, C. auto. }
  assert (tbl ++ ext <> []) as NE'.
  { destruct ms as [|m ms']; [congruence|]. intros E0.
    destruct m as [v|n].
    - assert (In (EInt v, v) (tbl ++ ext)) as I.
      { apply Hall. split; [left; auto|auto]. }
      rewrite E0 in I. destruct I.
    - apply (f_equal (map fst)) in E0. rewrite map_app, Fa in E0. cbn in E0.
      apply app_eq_nil in E0 as [_ E0]. discriminate. }
  exists (tbl ++ ext). split; [destruct (tbl ++ ext); congruence|]. split; auto. split; auto.
  rewrite map_app, Fa. apply NoDup_app_intro; auto.
  - apply FinFun.Injective_map_NoDup; auto. intros a b; congruence.
  - intros m I I2. apply in_map_iff in I2 as (n & <- & I2).
    apply in_map_iff in I as ([m' x] & E2 & I). cbn in E2. subst. apply HT in I as [? _]. discriminate.
Qed.

Lemma dsm_lookup_Ok tbl z m :
  NoDup (map snd tbl) -> (dsm_lookup tbl z = Ok m <-> In (m, z) tbl).
Proof.
  induction tbl as [|[m' c] tbl IH]; cbn; intros ND.
  - split; [discriminate|tauto].
  - inversion ND; subst. destruct (Z.eqb_spec c z) as [->|N].
    + split; [intros [= ->]; auto|]. intros [[= ->]|I]; auto.
      destruct H1. apply (in_map snd) in I. exact I.
    + rewrite IH by auto. split; auto. intros [[= -> ->]|]; [congruence|auto].
Qed.

Lemma dsm_lookup_err tbl z e : dsm_lookup tbl z = Err e -> e = KeyError.
Proof.
  induction tbl as [|[m' c] tbl IH]; cbn; [congruence|]. destruct (c =? z); auto. discriminate.
Qed.

Lemma enum_code_nonneg c ms m x : wf_ty (TEnum c ms) -> enum_code ms m x -> 0 <= x.
Proof.
  inversion 1 as [| | |? ? NE P D| |]; subst. intros [I C].
  destruct m; [subst; auto|tauto].
Qed.

Lemma zmax_spec l : (forall c, In c l -> c <= zmax l) /\ (zmax l = 0 \/ In (zmax l) l) /\ 0 <= zmax l.
Proof.
  unfold zmax.
  assert (forall l a, (forall c, In c l -> c <= fold_left Z.max l a) /\
    (fold_left Z.max l a = a \/ In (fold_left Z.max l a) l) /\ a <= fold_left Z.max l a) as H.
  { clear. induction l as [|x l IH]; intros a; cbn.
    - split; [tauto|]. split; [auto|lia].
    - destruct (IH (Z.max a x)) as (A & B & C). split; [|split].
      + intros c [<-|I]; [lia|auto].
      + destruct B as [B|B]; [|auto]. rewrite B. destruct (Z.max_spec a x) as [[? ->]|[? ->]]; auto.
      + lia. }
  apply H.
Qed.

Lemma bits_for_bit_length n : 0 <= n -> bits_for n = bit_length n.
Proof.
  intros. unfold bits_for, bit_length. destruct (Z.eqb_spec n 0) as [->|N]; [reflexivity|].
  rewrite Z.abs_eq by lia. pose proof (Z.log2_spec n ltac:(lia)) as [L1 L2].
  apply Z.log2_up_unique; pose proof (Z.log2_nonneg n); [lia|].
  replace (Z.pred (Z.log2 n + 1)) with (Z.log2 n) by lia. split; [lia|].
  replace (Z.log2 n + 1) with (Z.succ (Z.log2 n)) by lia. lia.
Qed.

(** Facts about a table, gathered. *)
Lemma enum_facts c ms tbl : wf_ty (TEnum c ms) -> enum_table ms = Ok tbl ->
  tbl <> [] /\ NoDup (map fst tbl) /\ NoDup (map snd tbl) /\
  (forall m x, In (m, x) tbl <-> enum_code ms m x) /\
  (forall m, In m ms -> exists x, In (m, x) tbl) /\
  swidth (TEnum c ms) (bit_length (zmax (map snd tbl))) /\
  (forall x, In x (map snd tbl) -> 0 <= x < 2 ^ bit_length (zmax (map snd tbl))).
Proof.
  intros W E. destruct (enum_table_spec c ms W) as (tbl' & E' & NE & ND & H).
  rewrite E in E'. injection E' as <-.
  assert (NoDup (autos ms)) as NA by (inversion W; subst; apply autos_NoDup; auto).
  assert (forall x, In x (map snd tbl) -> 0 <= x) as P.
  { intros x I. apply in_map_iff in I as ([m y] & <- & I). apply H in I. cbn.
    eapply enum_code_nonneg; eauto. }
  assert (NoDup (map snd tbl)) as NS.
  { clear - ND H. assert (forall m m' x, In (m, x) tbl -> In (m', x) tbl -> m = m') as I.
    { intros m m' x A B. eapply enum_code_inj; apply H; eauto. }
    clear H. induction tbl as [|[m x] tbl IH]; [constructor|]. inversion ND; subst. cbn. constructor.
    - intros J. apply in_map_iff in J as ([m' y] & E & J). cbn in E. subst y.
      assert (m = m') by (apply (I m m' x); [left|right]; auto). subst.
      destruct H1. apply (in_map fst) in J. exact J.
    - apply IH; auto. intros a b y A B. apply (I a b y); right; auto. }
  destruct (zmax_spec (map snd tbl)) as (Z1 & Z2 & Z3).
  split; auto. split; auto. split; auto. split; auto. split; [|split].
  - intros m I. destruct m as [v|n].
    + exists v. apply H. split; auto.
    + destruct (enum_table_spec c ms W) as (tbl' & E' & _).
      unfold enum_table in E.
      inversion W as [| | |? ? _ Pm _| |]; subst.
      destruct (enum_scan_spec ms [] [] []) as (tb & used & Es & _ & T & U & V); auto.
      { constructor. } { intros ? ? []. } { intros; cbn; tauto. }
      rewrite Es in E. cbn [bind app] in E.
      destruct (enum_assign_spec ms (map EAuto (autos ms)) 0 0 O tb used) as (ext & Ea & Fa & Ga);
        auto; try lia.
      { intros x. rewrite V. cbn. intuition lia. }
      { apply FinFun.Injective_map_NoDup; auto. intros a b; congruence. }
      { intros m J J2. apply in_map_iff in J as (k & <- & J).
        apply in_map_iff in J2 as ([m' x] & E2 & J2). cbn in E2. subst. apply T in J2. discriminate. }
      rewrite Ea in E. cbn [bind] in E.
      assert (tb ++ ext = tbl) as <- by (destruct (tb ++ ext); congruence).
      assert (In (EAuto n) (map fst ext)) as J.
      { rewrite Fa. apply in_map, autos_In; auto. }
      apply in_map_iff in J as ([m' x] & E2 & J). cbn in E2. subst m'.
      exists x. apply in_app_iff. auto.
  - rewrite <- bits_for_bit_length by auto. constructor.
    + destruct Z2 as [Z2|Z2].
      * destruct tbl as [|[m x] tbl]; [congruence|]. exists m. apply H.
        assert (x = zmax (map snd ((m, x) :: tbl))) as <-; [|left; auto].
        assert (In x (map snd ((m, x) :: tbl))) as I by (left; auto).
        pose proof (Z1 x I). pose proof (P x I). lia.
      * apply in_map_iff in Z2 as ([m y] & E2 & I). cbn in E2. rewrite <- E2.
        exists m. apply H; auto.
    + intros m k C. apply Z1. apply H in C. apply (in_map snd) in C. exact C.
  - intros x I. split; auto. pose proof (Z1 x I). pose proof (bit_length_lt _ Z3). lia.
Qed.
