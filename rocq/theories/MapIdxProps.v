(** C29 (index variables), C30 (formula constructors), C45 (initial vectors). *)
From Coq Require Import ZArith List Bool Lia.
From Verif Require Import Base BaseLemmas MapIdxModel.
Import ListNotations.
Open Scope list_scope.
Open Scope Z_scope.

(** ** C29 Index variables *)
Lemma pow2_land i : 0 <= i -> Z.land (2 ^ i) (2 ^ i - 1) = 0.
Proof.
  intros H. replace (2 ^ i - 1) with (Z.ones i) by (rewrite Z.ones_equiv; lia).
  rewrite Z.land_ones by lia. apply Z.mod_same. pose proof (Z.pow_pos_nonneg 2 i). lia.
Qed.

Lemma land_pow2 v : 0 < v -> Z.land v (v - 1) = 0 -> v = 2 ^ Z.log2 v.
Proof.
  intros P H. pose proof (Z.log2_spec v P) as [L U].
  destruct (Z.eq_dec v (2 ^ Z.log2 v)) as [|N]; auto. exfalso.
  pose proof (Z.log2_nonneg v) as LN.
  assert (Z.log2 (v - 1) = Z.log2 v) as E by (apply Z.log2_unique; lia).
  assert (Z.testbit (Z.land v (v - 1)) (Z.log2 v) = true) as B.
  { rewrite Z.land_spec, Z.bit_log2 by lia. rewrite <- E, Z.bit_log2; auto.
    pose proof (Z.pow_pos_nonneg 2 (Z.log2 v)). lia. }
  rewrite H, Z.bits_0 in B. discriminate.
Qed.

Lemma bin_digits_pos n : 1 <= bin_digits n.
Proof. unfold bin_digits. destruct (n <? 0); lia. Qed.

Lemma bin_digits_fit n : 0 <= n -> n < 2 ^ bin_digits n.
Proof.
  intros P. unfold bin_digits, bit_length. replace (n <? 0) with false by lia. rewrite !Z.abs_eq by lia.
  destruct (Z.eqb_spec n 0) as [->|N]; [reflexivity|].
  pose proof (Z.log2_spec n ltac:(lia)) as [_ U]. pose proof (Z.log2_nonneg n).
  replace (Z.max 1 (Z.log2 n + 1) + 0) with (Z.succ (Z.log2 n)) by lia. exact U.
Qed.

Lemma translate_range k n i : 0 <= i < n -> 0 <= translate_index k i < 2 ^ var_len k n.
Proof.
  intros H. destruct k; cbn [translate_index var_len].
  - split; [apply Z.pow_nonneg; lia|]. apply Z.pow_lt_mono_r; lia.
  - pose proof (bin_digits_fit (n - 1) ltac:(lia)). lia.
Qed.

Lemma translate_inj k i j : 0 <= i -> 0 <= j -> translate_index k i = translate_index k j -> i = j.
Proof.
  intros Hi Hj. destruct k; cbn [translate_index]; auto. intros E.
  apply (Z.pow_inj_r 2); lia.
Qed.

Lemma match_index_eq k n i v : 0 <= i < n ->
  match_index k n i v = Ok (v =? translate_index k i).
Proof.
  intros H. unfold match_index. replace ((0 <=? i) && (i <? n)) with true by lia.
  rewrite wrap_small; auto. apply translate_range; lia.
Qed.

Lemma decode_spec k is v : (forall i, In i is -> 0 <= i) ->
  (forall i, decode_from k is v = Ok i <-> In i is /\ v = translate_index k i) /\
  (decode_from k is v = Err ValueError <-> ~ exists i, In i is /\ v = translate_index k i) /\
  (forall e, decode_from k is v = Err e -> e = ValueError).
Proof.
  induction is as [|j is IH]; intros P; cbn [decode_from].
  - split; [|split].
    + intros i. split; [discriminate|]. intros [[] _].
    + split; auto. intros _ (i & [] & _).
    + congruence.
  - destruct IH as (I1 & I2 & I3); [intros i I; apply P; now right|].
    destruct (Z.eqb_spec v (translate_index k j)) as [E|N].
    + split; [|split]; [|split; [discriminate|]|discriminate].
      * intros i. split.
        -- intros [= <-]. split; [now left|auto].
        -- intros [I Ei]. f_equal. apply (translate_inj k); [apply P; now left|apply P; exact I|congruence].
      * intros H. exfalso. apply H. exists j. split; [now left|auto].
    + split; [|split]; auto.
      * intros i. rewrite I1. split; intros [I Ei]; (split; [|auto]); [now right|].
        destruct I as [->|I]; [congruence|auto].
      * rewrite I2. split; intros H (i & I & Ei); apply H; exists i; (split; [|auto]); [|now right].
        destruct I as [->|I]; [congruence|auto].
Qed.

Lemma pyrange_In n i : In i (pyrange 0 n) <-> 0 <= i < n.
Proof.
  unfold pyrange. rewrite in_map_iff. split.
  - intros (x & <- & I). apply in_seq in I. lia.
  - intros H. exists (Z.to_nat i). split; [lia|]. apply in_seq. lia.
Qed.

(** For every number of entries and every index: exactly one value of the
    variable matches it, decoding that value gives the index back, and no value
    matches two indices. Indices out of range are rejected. *)
Theorem C29_match_decode :
  forall k n i, 0 <= i < n ->
    exists v, 0 <= v < 2 ^ var_len k n /\ decode k n v = Ok i /\
      (forall v', 0 <= v' < 2 ^ var_len k n -> (match_index k n i v' = Ok true <-> v' = v)) /\
      (forall j, 0 <= j < n -> match_index k n j v = Ok true -> j = i).
Proof.
  intros k n i H. exists (translate_index k i). split; [apply translate_range; lia|]. split; [|split].
  - unfold decode. apply (decode_spec k); [intros j J; apply pyrange_In in J; lia|].
    split; auto. now apply pyrange_In.
  - intros v' _. rewrite match_index_eq by auto. split; [intros [= E]; now apply Z.eqb_eq|].
    intros ->. now rewrite Z.eqb_refl.
  - intros j J. rewrite match_index_eq by auto. intros [= E]. apply Z.eqb_eq in E.
    symmetry. apply (translate_inj k); auto; lia.
Qed.

Theorem C29_out_of_range : forall k n i v, ~ 0 <= i < n -> match_index k n i v = Err ValueError.
Proof. intros k n i v H. unfold match_index. replace ((0 <=? i) && (i <? n)) with false by lia. reflexivity. Qed.

(** The values accepted by [is_valid] are exactly those that decode, which are
    exactly those that match some index. *)
Theorem C29_valid :
  forall k n v, 0 <= n -> 0 <= v < 2 ^ var_len k n ->
    (is_valid k n v = true <-> exists i, decode k n v = Ok i) /\
    ((exists i, decode k n v = Ok i) <-> exists i, 0 <= i < n /\ match_index k n i v = Ok true) /\
    (is_valid k n v = false <-> decode k n v = Err ValueError).
Proof.
  intros k n v Hn Hv.
  destruct (decode_spec k (pyrange 0 n) v) as (D1 & D2 & D3); [intros j J; apply pyrange_In in J; lia|].
  assert (A : is_valid k n v = true <-> exists i, 0 <= i < n /\ v = translate_index k i).
  { destruct k; cbn [is_valid translate_index var_len] in *.
    - assert (wrap n 0 = 0) as -> by (unfold wrap; apply Z.mod_0_l; pose proof (Z.pow_pos_nonneg 2 n); lia).
      rewrite andb_true_iff, negb_true_iff, Z.eqb_eq, Z.eqb_neq. split.
      + intros [L N]. rewrite wrap_small in L by lia. exists (Z.log2 v).
        pose proof (land_pow2 v ltac:(lia) L) as E. split; auto.
        split; [apply Z.log2_nonneg|]. apply Z.log2_lt_pow2; lia.
      + intros (i & I & ->). pose proof (Z.pow_pos_nonneg 2 i ltac:(lia) ltac:(lia)). split; [|lia].
        rewrite wrap_small by lia. apply pow2_land. lia.
    - pose proof (bin_digits_pos (n - 1)) as P.
      destruct (Z.eqb_spec n (2 ^ bin_digits (n - 1))) as [E|N].
      + split; auto. intros _. exists v. lia.
      + assert (wrap (bin_digits (n - 1)) n = n) as W.
        { destruct (Z.eq_dec n 0) as [->|Z0]; [reflexivity|].
          pose proof (bin_digits_fit (n - 1) ltac:(lia)). apply wrap_small. lia. }
        rewrite W, Z.ltb_lt. split; [intros L; exists v; lia|]. intros (i & I & ->). lia. }
  assert (B : (exists i, decode k n v = Ok i) <-> exists i, 0 <= i < n /\ v = translate_index k i).
  { split; intros (i & H).
    - apply D1 in H as [I ->]. apply pyrange_In in I. eauto.
    - exists i. apply D1. destruct H. split; auto. now apply pyrange_In. }
  split; [rewrite A, B; reflexivity|]. split.
  - rewrite B. split; intros (i & I & E); exists i; (split; [auto|]).
    + rewrite match_index_eq by auto. subst v. now rewrite Z.eqb_refl.
    + rewrite match_index_eq in E by auto. injection E as E. now apply Z.eqb_eq.
  - split.
    + intros F. apply D2. intros (i & I & E). apply pyrange_In in I.
      assert (is_valid k n v = true) by (apply A; eauto). congruence.
    + intros F. apply not_true_is_false. intros V. apply A, B in V as (i & E). unfold decode in *. congruence.
Qed.

Example C29_case :
  map (is_valid OneHot 3) (pyrange 0 8) = [false; true; true; false; true; false; false; false] /\
  map (is_valid Binary 3) (pyrange 0 4) = [true; true; true; false] /\
  map (is_valid Binary 1) (pyrange 0 2) = [true; false] /\
  decode OneHot 3 4 = Ok 2 /\ decode OneHot 3 5 = Err ValueError /\ match_index Binary 3 2 2 = Ok true.
Proof. vm_compute. auto 10. Qed.

(** ** C30 Formula constructors *)
Section C30.
  Context {E : Type} (ev : E -> bool).

  (** The intended meaning, as a proposition. *)
  Fixpoint holds (f : fc E) : Prop :=
    let all := fix all (l : list (fc E)) : Prop := match l with [] => True | x :: r => holds x /\ all r end in
    let any := fix any (l : list (fc E)) : Prop := match l with [] => False | x :: r => holds x \/ any r end in
    match f with
    | FLeaf e => ev e = true
    | FBad => False
    | FAnd l => all l
    | FOr l => any l
    | FImplies p q => holds p -> holds q
    end.

  (** Formulas without bad or missing arguments. *)
  Inductive proper : fc E -> Prop :=
  | p_leaf e : proper (FLeaf e)
  | p_and l : l <> [] -> Forall proper l -> proper (FAnd l)
  | p_or l : l <> [] -> Forall proper l -> proper (FOr l)
  | p_imp p q : proper p -> proper q -> proper (FImplies p q).

  Definition builds := fix builds (l : list (fc E)) : res (list (sexp E)) :=
      match l with
      | [] => Ok []
      | x :: r => do x' <- build x; do r' <- builds r; Ok (x' :: r')
      end.

  Lemma fold_and l : forall a, seval ev (fold_left SAnd l a) = seval ev a && forallb (seval ev) l.
  Proof. induction l as [|x l IH]; intros a; cbn [fold_left forallb]; [now rewrite andb_true_r|].
    rewrite IH. cbn [seval]. now rewrite andb_assoc. Qed.
  Lemma fold_or l : forall a, seval ev (fold_left SOr l a) = seval ev a || existsb (seval ev) l.
  Proof. induction l as [|x l IH]; intros a; cbn [fold_left existsb]; [now rewrite orb_false_r|].
    rewrite IH. cbn [seval]. now rewrite orb_assoc. Qed.

  Lemma reduce_and l : l <> [] -> exists s, reduce SAnd l = Ok s /\ seval ev s = forallb (seval ev) l.
  Proof. destruct l as [|a l]; [easy|]. intros _. exists (fold_left SAnd l a). split; auto. apply fold_and. Qed.
  Lemma reduce_or l : l <> [] -> exists s, reduce SOr l = Ok s /\ seval ev s = existsb (seval ev) l.
  Proof. destruct l as [|a l]; [easy|]. intros _. exists (fold_left SOr l a). split; auto. apply fold_or. Qed.

  Section Ind.
    Variable P : fc E -> Prop.
    Hypothesis Hleaf : forall e, P (FLeaf e).
    Hypothesis Hbad : P FBad.
    Hypothesis Hand : forall l, Forall P l -> P (FAnd l).
    Hypothesis Hor : forall l, Forall P l -> P (FOr l).
    Hypothesis Himp : forall p q, P p -> P q -> P (FImplies p q).
    Fixpoint fc_ind' (f : fc E) : P f :=
      let go := fix go (l : list (fc E)) : Forall P l :=
        match l with [] => Forall_nil _ | x :: r => Forall_cons _ (fc_ind' x) (go r) end in
      match f with
      | FLeaf e => Hleaf e
      | FBad => Hbad
      | FAnd l => Hand l (go l)
      | FOr l => Hor l (go l)
      | FImplies p q => Himp p q (fc_ind' p) (fc_ind' q)
      end.
  End Ind.

  Definition good (f : fc E) : Prop :=
    (exists s, build f = Ok s /\ proper f /\ (seval ev s = true <-> holds f)) \/
    (build f = Err AssertionError /\ ~ proper f).

  Lemma builds_good l : Forall good l ->
    (exists ls, builds l = Ok ls /\ Forall proper l /\ length ls = length l /\
       (forallb (seval ev) ls = true <-> holds (FAnd l)) /\ (existsb (seval ev) ls = true <-> holds (FOr l))) \/
    (builds l = Err AssertionError /\ ~ Forall proper l).
  Proof.
    induction 1 as [|x l [(s & B & Px & S)|[B N]] _ IH]; cbn [builds].
    - left. exists []. repeat split; auto; cbn; try easy.
    - rewrite B. cbn [bind]. destruct IH as [(ls & Bl & Pl & L & A & O)|[Bl Nl]]; rewrite Bl; cbn [bind].
      + left. exists (s :: ls). split; [reflexivity|]. split; [auto|]. split; [cbn; lia|]. split.
        * cbn [forallb]. rewrite andb_true_iff, S, A. reflexivity.
        * cbn [existsb]. rewrite orb_true_iff, S, O. reflexivity.
      + right. split; auto. intros F. inversion F; auto.
    - right. rewrite B. split; auto. intros F. inversion F; auto.
  Qed.

  Lemma build_good f : good f.
  Proof.
    induction f as [e| |l IH|l IH|p q IHp IHq] using fc_ind'.
    - left. exists (SLeaf e). repeat split; auto. constructor.
    - right. split; auto. intros H. inversion H.
    - destruct l as [|x l].
      { right. split; auto. intros H. inversion H; congruence. }
      change (good (FAnd (x :: l))) with
        ((exists s, (do ls <- builds (x :: l); reduce SAnd ls) = Ok s /\ proper (FAnd (x :: l)) /\
            (seval ev s = true <-> holds (FAnd (x :: l)))) \/
         ((do ls <- builds (x :: l); reduce SAnd ls) = Err AssertionError /\ ~ proper (FAnd (x :: l)))).
      destruct (builds_good _ IH) as [(ls & B & P & L & A & _)|[B N]]; rewrite B; cbn [bind].
      + left. destruct (reduce_and ls) as (s & -> & S); [intros ->; discriminate|].
        exists s. split; auto. split; [constructor; [discriminate|auto]|]. now rewrite S.
      + right. split; auto. intros H. inversion H; auto.
    - destruct l as [|x l].
      { right. split; auto. intros H. inversion H; congruence. }
      change (good (FOr (x :: l))) with
        ((exists s, (do ls <- builds (x :: l); reduce SOr ls) = Ok s /\ proper (FOr (x :: l)) /\
            (seval ev s = true <-> holds (FOr (x :: l)))) \/
         ((do ls <- builds (x :: l); reduce SOr ls) = Err AssertionError /\ ~ proper (FOr (x :: l)))).
      destruct (builds_good _ IH) as [(ls & B & P & L & _ & O)|[B N]]; rewrite B; cbn [bind].
      + left. destruct (reduce_or ls) as (s & -> & S); [intros ->; discriminate|].
        exists s. split; auto. split; [constructor; [discriminate|auto]|]. now rewrite S.
      + right. split; auto. intros H. inversion H; auto.
    - destruct IHp as [(a & Ba & Pa & Sa)|[Ba Na]].
      2:{ right. cbn [build]. rewrite Ba. split; auto. intros H. inversion H; auto. }
      destruct IHq as [(b & Bb & Pb & Sb)|[Bb Nb]].
      2:{ right. cbn [build]. rewrite Ba, Bb. split; auto. intros H. inversion H; auto. }
      left. cbn [build]. rewrite Ba, Bb. cbn [bind]. exists (SOr (SNot a) b). split; auto.
      split; [now constructor|]. cbn [seval holds]. rewrite <- Sa, <- Sb.
      destruct (seval ev a), (seval ev b); cbn; intuition congruence.
  Qed.
End C30.

(** Every formula: built exactly when it has no empty And/Or and no foreign
    value, with the logical meaning under every valuation of its leaves; else
    AssertionError. *)
Theorem C30_meaning :
  forall (E : Type) (f : fc E),
    (forall s, build f = Ok s -> proper f /\ forall ev, seval ev s = true <-> holds ev f) /\
    (proper f -> exists s, build f = Ok s) /\
    (~ proper f -> build f = Err AssertionError).
Proof.
  intros E f. split; [|split].
  - intros s B. split.
    + destruct (build_good (fun _ => true) f) as [(s' & B' & P & _)|[B' _]]; auto. congruence.
    + intros ev. destruct (build_good ev f) as [(s' & B' & P & S)|[B' _]]; congruence.
  - intros P. destruct (build_good (fun _ => true) f) as [(s' & B' & _)|[_ N]]; [eauto|contradiction].
  - intros N. destruct (build_good (fun _ => true) f) as [(s' & B' & P & _)|[B _]]; [contradiction|auto].
Qed.

Example C30_case :
  build (FImplies (FAnd [FLeaf 1; FLeaf 2]) (FOr [FLeaf 3]))
  = Ok (SOr (SNot (SAnd (SLeaf 1) (SLeaf 2))) (SLeaf 3)) /\
  proper (FImplies (FAnd [FLeaf 1; FLeaf 2]) (FOr [FLeaf 3])) /\
  build (FAnd [FLeaf 1; FOr []]) = Err AssertionError.
Proof. split; [reflexivity|]. split; [|reflexivity]. repeat (constructor; try discriminate). Qed.

(** ** C45 Initial vectors *)

(** The constant of a sort that an integer should denote. *)
Definition denotes (x : Z) (s : sort) (c : sconst) : Prop :=
  match s with
  | SBool => c = CBool (negb (x =? 0))
  | SBV w => c = CBV (wrap w x) w
  end.
Definition vector {X} (x : Z) (y : list (X * sort)) (d : list (X * sconst)) : Prop :=
  Forall2 (fun v c => fst c = fst v /\ denotes x (snd v) (snd c)) y d.

(** Full property. *)
Definition C45_full : Prop :=
  forall (X : Type) (y : list (X * sort)) num rnd vs,
    (forall v w, In (v, SBV w) y -> 0 < w) -> 0 <= num -> gen_initial y num rnd = Ok vs ->
    forall x, In x [0; 1; -1] -> exists d, In d vs /\ vector x y d.

Theorem C45_full_refuted : ~ C45_full.
Proof.
  intros H. specialize (H unit [(tt, SBV 8)] 0 (fun _ _ _ => 0) _ ltac:(intros v w [[= <- <-]|[]]; lia) ltac:(lia) eq_refl (-1) ltac:(cbn; auto)).
  destruct H as (d & I & V). cbn in I.
  inversion V as [|? c ? ? [_ D] V']; subst. inversion V'; subst. cbn in D. destruct c as [c1 c2]; cbn [snd] in D.
  destruct I as [I|[I|[I|[]]]]; injection I; intros; subst; discriminate.
Qed.

Lemma F2_length {A B} (P : A -> B -> Prop) l m : Forall2 P l m -> length l = length m.
Proof. induction 1; cbn; congruence. Qed.

Lemma mapM_ok {A B} (f : A -> res B) l : (forall x, In x l -> exists y, f x = Ok y) ->
  exists ys, mapM f l = Ok ys /\ Forall2 (fun x y => f x = Ok y) l ys.
Proof.
  induction l as [|x l IH]; intros H; cbn [mapM]; [eauto|].
  destruct (H x (or_introl eq_refl)) as [y E]. rewrite E. cbn [bind].
  destruct IH as (ys & -> & F); [intros z I; apply H; now right|]. cbn [bind]. eauto.
Qed.

(** What is supplied: num + 3 vectors whose first is all zero, whose second is
    one on vectors of width at least 2, and all of whose entries lie below the
    width of their variable. Missing for C45: the vector -1 has value width - 1
    (never the all-one word), and one has value 0 at width 1. *)
Theorem C45_initial_partial :
  forall (X : Type) (y : list (X * sort)) num rnd,
    (forall v w, In (v, SBV w) y -> 0 < w) -> 0 <= num ->
    exists d0 d1 dm rest, gen_initial y num rnd = Ok (d0 :: d1 :: dm :: rest) /\
      length rest = Z.to_nat num /\
      vector 0 y d0 /\
      ((forall v w, In (v, SBV w) y -> 2 <= w) -> vector 1 y d1) /\
      Forall2 (fun v c => fst c = fst v /\ match snd v with SBool => snd c = CBool true | SBV w => snd c = CBV (w - 1) w end) y dm /\
      (forall d v z w, In d (d0 :: d1 :: dm :: rest) -> In (v, CBV z w) d -> 0 <= z < w).
Proof.
  intros X y num rnd W N. unfold gen_initial. replace (num <? 0) with false by lia.
  set (one := fun (g : X -> sort -> Z) (v : X * sort) => do c <- int_to_pysmt (g (fst v) (snd v)) (snd v); Ok (fst v, c)).
  assert (One : forall g v, In v y -> exists c, int_to_pysmt (g (fst v) (snd v)) (snd v) = Ok c /\ one g v = Ok (fst v, c)).
  { intros g [v [|w]] I; unfold one; cbn [fst snd int_to_pysmt]; [eexists; split; reflexivity|].
    pose proof (W v w I). replace (w =? 0) with false by lia. eexists; split; reflexivity. }
  assert (Gv : forall g, exists d, gen_vector y g = Ok d /\ Forall2 (fun v c => one g v = Ok c) y d).
  { intros g. unfold gen_vector. apply (mapM_ok (one g)). intros v I. destruct (One g v I) as (c & _ & E). eauto. }
  assert (Gr : forall g d v z w, gen_vector y g = Ok d -> In (v, CBV z w) d -> 0 <= z < w).
  { intros g d v z w E I. destruct (Gv g) as (d' & E' & F). assert (d' = d) by congruence. subst d'.
    clear E E'. revert W I. clear - F. induction F as [|[u s] c y d O F IH]; intros W I; [easy|].
    destruct I as [->|I].
    - destruct s as [|w']; unfold one in O; cbn [fst snd int_to_pysmt] in O; [discriminate O|]. pose proof (W u w' (or_introl eq_refl)).
      destruct (Z.eqb_spec w' 0); [lia|]. cbn [bind] in O. injection O as -> <- ->. apply Z.mod_pos_bound. lia.
    - apply IH; auto. intros v0 w0 I0. apply (W v0 w0). now right. }
  destruct (mapM_ok (gen_vector y) ([(fun _ _ => 0); (fun _ _ => 1); (fun _ _ => -1)] ++ map rnd (pyrange 0 num)))
    as (ds & E & F).
  { intros g _. destruct (Gv g) as (d & Ed & _). eauto. }
  rewrite E. cbn [app] in F.
  inversion F as [|g0 d0 l0 ds0 E0 F0]; subst. inversion F0 as [|g1 d1 l1 ds1 E1 F1]; subst.
  inversion F1 as [|g2 dm l2 rest E2 F2]; subst.
  exists d0, d1, dm, rest. split; [reflexivity|]. split.
  { apply F2_length in F2. rewrite <- F2, map_length. unfold pyrange. rewrite map_length, seq_length. lia. }
  assert (Gf : forall g d, gen_vector y g = Ok d -> Forall2 (fun v c => one g v = Ok c) y d).
  { intros g d Ed. destruct (Gv g) as (d' & E' & F'). congruence. }
  assert (Up : forall (P Q : X * sort -> X * sconst -> Prop) y' d', Forall2 P y' d' ->
     (forall v c, In v y' -> P v c -> Q v c) -> Forall2 Q y' d').
  { intros P Q y' d' H. induction H; intros I; constructor; [apply I; [now left|auto]|].
    apply IHForall2. intros v c J. apply I. now right. }
  split; [|split; [|split]].
  - apply Gf in E0. eapply Up; [exact E0|]. intros [u [|w]] [u' c] I O; unfold one in O; cbn [fst snd int_to_pysmt] in O.
    + cbn [bind] in O. injection O as <- <-. split; reflexivity.
    + pose proof (W u w I). destruct (Z.eqb_spec w 0); [lia|]. cbn [bind] in O. injection O as <- <-. cbn. split; auto.
  - intros W2. apply Gf in E1. eapply Up; [exact E1|]. intros [u [|w]] [u' c] I O; unfold one in O; cbn [fst snd int_to_pysmt] in O.
    + cbn [bind] in O. injection O as <- <-. split; reflexivity.
    + pose proof (W2 u w I). destruct (Z.eqb_spec w 0); [lia|]. cbn [bind] in O. injection O as <- <-. cbn. split; auto.
      f_equal. rewrite wrap_small by (split; [lia|]; apply Z.pow_gt_1; lia). apply Z.mod_small. lia.
  - apply Gf in E2. eapply Up; [exact E2|]. intros [u [|w]] [u' c] I O; unfold one in O; cbn [fst snd int_to_pysmt] in O.
    + cbn [bind] in O. injection O as <- <-. split; reflexivity.
    + pose proof (W u w I). destruct (Z.eqb_spec w 0); [lia|]. cbn [bind] in O. injection O as <- <-. cbn. split; auto. f_equal.
      symmetry. apply (Z.mod_unique _ _ (-1)); lia.
  - intros d v z w Id Iz. cbn [In] in Id.
    assert (exists g, gen_vector y g = Ok d) as [g Eg].
    { destruct Id as [<-|[<-|[<-|I]]]; eauto. clear - F2 I.
      induction F2; [easy|]. destruct I as [<-|I]; eauto. }
    exact (Gr g d v z w Eg Iz).
Qed.

(** The all-one vector is never among the three fixed ones, and no vector ever
    contains a value of width w or more. *)
Theorem C45_minus_one_refuted :
  forall w, 1 < w -> int_to_pysmt (-1) (SBV w) = Ok (CBV (w - 1) w) /\ w - 1 <> wrap w (-1).
Proof.
  intros w H. unfold int_to_pysmt. destruct (Z.eqb_spec w 0); [lia|]. split.
  - do 2 f_equal. symmetry. apply (Z.mod_unique _ _ (-1)); lia.
  - unfold wrap. rewrite <- (Z.mod_unique (-1) (2 ^ w) (-1) (2 ^ w - 1)); [|left|];
    pose proof (Z.pow_gt_lin_r 2 w); lia.
Qed.

Theorem C45_none : forall (X : Type) (y : list (X * sort)) num rnd, num < 0 -> gen_initial y num rnd = Ok [].
Proof. intros X y num rnd H. unfold gen_initial. now replace (num <? 0) with true by lia. Qed.

Example C45_case :
  gen_initial [(1, SBV 8); (2, SBool)] 1 (fun k x s => 200)
  = Ok [[(1, CBV 0 8); (2, CBool false)]; [(1, CBV 1 8); (2, CBool true)];
        [(1, CBV 7 8); (2, CBool true)]; [(1, CBV 0 8); (2, CBool true)]].
Proof. reflexivity. Qed.

Print Assumptions C29_match_decode.
Print Assumptions C29_out_of_range.
Print Assumptions C29_valid.
Print Assumptions C30_meaning.
Print Assumptions C45_full_refuted.
Print Assumptions C45_initial_partial.
Print Assumptions C45_minus_one_refuted.
Print Assumptions C45_none.
