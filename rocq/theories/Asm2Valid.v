(** What [is_valid] of peak/assembler2 asks of its validators, and lemmas. *)
From Coq Require Import String ZArith List Bool Lia Permutation Sorted.
From Verif Require Import Base BaseLemmas AsmModel AsmSpec AsmValid AsmEnum AsmBuild AsmProofs AsmMore Asm2Model Asm2Proofs Asm2ValidModel.
Import ListNotations.
Open Scope Z_scope.

(** * Specification *)

(** [request2 t ops w]: recognising the instructions of type [t] involves recognising the
    set [ops] among the w-bit words. Unlike [request], the set of all tags of a Sum is
    not involved. *)
Inductive request2 : ty -> list Z -> Z -> Prop :=
| r2_enum c ms ops w :
    increasing ops -> (forall x, In x ops <-> exists m, enum_code ms m x) ->
    swidth (TEnum c ms) w -> request2 (TEnum c ms) ops w
| r2_group g c fs u ops :
    increasing ops -> ops <> [] ->
    (forall x, In x ops <-> exists pre k post, fs = pre ++ (k, u) :: post /\ x = rank_at pre k post) ->
    request2 (TSum g c fs) ops (bits_for (Z.of_nat (length fs) - 1))
| r2_prod c fs k t ops w : In (k, t) fs -> request2 t ops w -> request2 (TProd c fs) ops w
| r2_sum g c fs k t ops w : In (k, t) fs -> request2 t ops w -> request2 (TSum g c fs) ops w
| r2_run t ops w a b :
    request2 t ops w -> ~ contiguous ops -> ~ one_hot_set ops -> (3 <= length ops)%nat ->
    a <= b -> (forall x, a <= x <= b -> In x ops) -> ~ In (a - 1) ops -> ~ In (b + 1) ops ->
    request2 t (map (fun i => a + Z.of_nat i) (seq 0 (Z.to_nat (b + 1 - a)))) w.

Definition same_width_zero_hot2 (ts : list ty) : Prop :=
  forall t1 t2 ops w1 w2, In t1 ts -> In t2 ts -> request2 t1 ops w1 -> request2 t2 ops w2 ->
    In 0 ops -> sparse_one_hot ops -> w1 = w2.
Definition same_width2 (ts : list ty) : Prop :=
  forall t1 t2 ops w1 w2, In t1 ts -> In t2 ts -> request2 t1 ops w1 -> request2 t2 ops w2 ->
    w1 = w2 \/ (~ top_run w1 ops /\ ~ top_run w2 ops /\ ~ sparse_one_hot ops).
Definition no_multi_range2 (t : ty) : Prop := forall ops w, request2 t ops w -> ~ multi_range ops.

Lemma request2_request t ops w : request2 t ops w -> request t ops w.
Proof. induction 1; [now constructor|eapply rq_group; eauto|eapply rq_prod; eauto|eapply rq_sum; eauto|eapply rq_run; eauto]. Qed.

Definition reqs2 (ts : list ty) (ops : list Z) (w : Z) : Prop := exists t, In t ts /\ request2 t ops w.
Lemma reqs2_good ts : Forall wf_ty ts -> good_request (reqs2 ts).
Proof. intros F ops w (t & I & Rq). rewrite Forall_forall in F. eapply request_good; eauto. now apply request2_request. Qed.
Lemma reqs2_run_closed ts : run_closed (reqs2 ts).
Proof. intros ops w a b (t & I & Rq) ? ? ? ? ? ? ?. exists t. split; auto. apply (r2_run t ops w a b); auto. Qed.
Lemma acc_reqs2 ts : same_width_zero_hot2 ts -> acc_ok (reqs2 ts).
Proof. intros S ops w0 W (t1 & I1 & R1) (t2 & I2 & R2) Z0 SP. exact (S _ _ _ _ _ I1 I2 R1 R2 Z0 SP). Qed.
Lemma exact_reqs2 ts : same_width2 ts -> exact_ok (reqs2 ts).
Proof. intros S ops w0 W (t1 & I1 & R1) (t2 & I2 & R2). destruct (S _ _ _ _ _ I1 I2 R1 R2) as [|(A & B & C)]; auto. Qed.
Lemma same_width2_zero ts : same_width2 ts -> same_width_zero_hot2 ts.
Proof.
  intros S t1 t2 ops w1 w2 I1 I2 R1 R2 Z0 SP. destruct (S _ _ _ _ _ I1 I2 R1 R2) as [|(A & B & C)]; [auto|contradiction].
Qed.
Lemma same_width_2 ts : same_width ts -> same_width2 ts.
Proof. intros S t1 t2 ops w1 w2 I1 I2 R1 R2. eapply (S t1 t2); eauto using request2_request. Qed.
Lemma no_multi_range_2 t : no_multi_range t -> no_multi_range2 t.
Proof. intros N ops w R. eapply N, request2_request, R. Qed.

(** * The relation between a type and the object *)
Inductive v2_rel (R : list Z -> Z -> Prop) : ty -> vasm -> Prop :=
| vr_bit : v2_rel R TBit V2Leaf
| vr_bv w : v2_rel R (TBV w) V2Leaf
| vr_sint w : v2_rel R (TSInt w) V2Leaf
| vr_enum c ms tbl v :
    enum_table ms = Ok tbl -> vrel R (isort Z.leb (map snd tbl)) (a2_width (TEnum c ms)) v ->
    v2_rel R (TEnum c ms) (V2Enum (a2_width (TEnum c ms)) v)
| vr_prod c fs xs : v2_tup R 0 fs xs -> v2_rel R (TProd c fs) (V2Tuple xs)
| vr_sum g c fs gs :
    (forall v lay a, In (v, lay, a) gs ->
       exists u ops, lay = (a2_tagw fs, a2_tagw fs + a2_width u) /\ v2_rel R u a /\ vrel R ops (a2_tagw fs) v /\
         (forall x, In x ops <-> exists i k, nth_error (isort field_leb fs) i = Some (k, u) /\ x = Z.of_nat i)) ->
    (forall i k u, nth_error (isort field_leb fs) i = Some (k, u) ->
       exists v a ops, In (v, (a2_tagw fs, a2_tagw fs + a2_width u), a) gs /\ v2_rel R u a /\ vrel R ops (a2_tagw fs) v /\
         (forall x, In x ops <-> exists i k, nth_error (isort field_leb fs) i = Some (k, u) /\ x = Z.of_nat i)) ->
    v2_rel R (TSum g c fs) (V2Sum (a2_tagw fs) gs)
with v2_tup (R : list Z -> Z -> Prop) : Z -> list (key * ty) -> list (Z * Z * vasm) -> Prop :=
| vt_nil b : v2_tup R b [] []
| vt_cons b k t r a rest :
    v2_rel R t a -> v2_tup R (b + a2_width t) r rest -> v2_tup R b ((k, t) :: r) ((b, b + a2_width t, a) :: rest).

(** * Building *)
Lemma Forall2_In_r {A B} (P : A -> B -> Prop) l l' y : Forall2 P l l' -> In y l' -> exists x, In x l /\ P x y.
Proof. induction 1 as [|a b l l' H F IH]; intros I; [destruct I|]. destruct I as [->|I]; [exists a; cbn; auto|]. destruct (IH I) as (x & ? & ?). exists x; cbn; auto. Qed.
Lemma Forall2_In_l {A B} (P : A -> B -> Prop) l l' x : Forall2 P l l' -> In x l -> exists y, In y l' /\ P x y.
Proof. induction 1 as [|a b l l' H F IH]; intros I; [destruct I|]. destruct I as [->|I]; [exists b; cbn; auto|]. destruct (IH I) as (y & ? & ?). exists y; cbn; auto. Qed.

Definition vs_inv (R : list Z -> Z -> Prop) (st : vstate) : Prop :=
  vc_inv R (vs_vc st) /\ forall t a, In (t, a) (vs_ic st) -> v2_rel R t a.
Definition v2_builds (R : list Z -> Z -> Prop) (b : vstate -> ty -> res (vasm * vstate)) (t : ty) : Prop :=
  forall st, vs_inv R st -> exists a st', b st t = Ok (a, st') /\ vs_inv R st' /\ v2_rel R t a.

Lemma v2_tuple_spec R b fs : Forall (fun f => v2_builds R b (snd f)) fs ->
  forall st base, vs_inv R st -> exists xs st', v2_tuple b st base fs = Ok (xs, st') /\ vs_inv R st' /\ v2_tup R base fs xs.
Proof.
  induction 1 as [|[k t] fs Ht F IH]; intros st base I; cbn [v2_tuple].
  - exists [], st. repeat split; auto; try apply I. constructor.
  - destruct (Ht st I) as (a & st1 & E & I1 & A). cbn in E. rewrite E. cbn [bind].
    destruct (IH st1 (base + a2_width t) I1) as (xs & st2 & E2 & I2 & T). rewrite E2. cbn [bind].
    do 2 eexists. split; [reflexivity|]. split; auto. constructor; auto.
Qed.

Lemma v2_members_spec R b gs : Forall (fun g : ty * list Z => v2_builds R b (fst g)) gs ->
  forall st, vs_inv R st -> exists ms st', v2_members b st gs = Ok (ms, st') /\ vs_inv R st' /\
    Forall2 (fun g m => fst m = g /\ v2_rel R (fst g) (snd m)) gs ms.
Proof.
  induction 1 as [|[t tags] gs Ht F IH]; intros st I; cbn [v2_members].
  - exists [], st. repeat split; auto; apply I.
  - destruct (Ht st I) as (a & st1 & E & I1 & A). cbn in E. rewrite E. cbn [bind].
    destruct (IH st1 I1) as (ms & st2 & E2 & I2 & T). rewrite E2. cbn [bind].
    do 2 eexists. split; [reflexivity|]. split; auto.
Qed.

Lemma v2_groups_spec R tagw (gs : list (ty * list Z)) ms : good_request R -> run_closed R ->
  Forall2 (fun g m => fst m = g /\ v2_rel R (fst g) (snd m)) gs ms ->
  Forall (fun g => R (snd g) tagw) gs ->
  forall vc, vc_inv R vc -> exists xs vc', v2_groups vc tagw ms = Ok (xs, vc') /\ vc_inv R vc' /\
    Forall2 (fun g x => v2_rel R (fst g) (snd x) /\ snd (fst x) = (tagw, tagw + a2_width (fst g)) /\ vrel R (snd g) tagw (fst (fst x))) gs xs.
Proof.
  intros GR RC. induction 1 as [|[t tags] [g m] gs ms [E A] F IH]; intros FR vc I; cbn [v2_groups].
  - exists [], vc. auto.
  - cbn [fst snd] in *. subst g. inversion FR as [|? ? R1 R2]; subst. cbn [snd] in R1.
    destruct (GR _ _ R1) as (Inc & _).
    destruct (gen_is_valid_spec R vc tags tags tagw GR RC I (isort_increasing_id _ Inc) R1) as (v & c' & w0 & E1 & V1 & R0 & G0).
    rewrite E1. cbn [bind]. destruct (IH R2 c' V1) as (xs & c2 & E2 & V2 & P). rewrite E2. cbn [bind].
    do 2 eexists. split; [reflexivity|]. split; auto. constructor; auto. cbn [fst snd]. split; auto. split; auto. split; eauto.
Qed.

Lemma v2_fuel_spec R n : good_request R -> run_closed R ->
  forall t, (depth t <= n)%nat -> wf_ty t -> (forall ops w, request2 t ops w -> R ops w) -> v2_builds R (v2_fuel n) t.
Proof.
  intros GR RC. induction n as [|n IH]; intros t D W Rq st I.
  { destruct t; cbn in D; lia. }
  cbn [v2_fuel]. destruct (dget ty_eqb (vs_ic st) t) as [a|] eqn:Eg.
  { exists a, st. split; auto. split; auto. apply (dget_In ty_eqb ty_eqb_eq) in Eg. apply I; auto. }
  assert (exists a st', v2_init (v2_fuel n) st t = Ok (a, st') /\ vs_inv R st' /\ v2_rel R t a) as (a & st' & E & I' & A).
  2:{ rewrite E. cbn [bind]. do 2 eexists. split; [reflexivity|]. split; auto. split; [apply I'|].
      intros t' a' J. cbn in J. apply (In_dset ty_eqb ty_eqb_eq) in J as [[= -> ->]|J]; auto. apply I'; auto. }
  destruct t as [|w|w|c ms|c fs|g c fs]; cbn [v2_init].
  1-3: do 2 eexists; split; [reflexivity|]; split; auto; constructor.
  - destruct (enum_table_spec c ms W) as (tbl & E & _). rewrite E. cbn [bind].
    destruct (enum_facts c ms tbl W E) as (NE & ND & NS & Hc & _ & S & F).
    assert (R (isort Z.leb (map snd tbl)) (a2_width (TEnum c ms))) as HR.
    { apply Rq. constructor.
      - apply isort_increasing; auto.
      - intros x. rewrite isort_In. split.
        + intros J. apply in_map_iff in J as ([m y] & <- & J). exists m. apply Hc. exact J.
        + intros [m C]. apply Hc in C. apply (in_map snd) in C. exact C.
      - now apply a2_width_spec. }
    destruct (gen_is_valid_spec R (vs_vc st) (map snd tbl) _ _ GR RC (proj1 I) eq_refl HR) as (v & c' & w0 & E1 & V1 & R0 & G0).
    rewrite E1. cbn [bind]. do 2 eexists. split; [reflexivity|]. split.
    + split; [exact V1|apply I].
    + eapply vr_enum; eauto. split; eauto.
  - destruct (v2_tuple_spec R (v2_fuel n) fs) with (st := st) (base := 0) as (xs & st' & E & I' & T); auto.
    { apply Forall_forall. intros [k t] J. cbn. apply IH.
      - destruct (depth_field c fs k t J). lia.
      - eapply wf_members_prod; eauto.
      - intros. apply Rq. eapply r2_prod; eauto. }
    rewrite E. cbn [bind]. do 2 eexists. split; [reflexivity|]. split; auto. constructor; auto.
  - assert (NE : fs <> []) by (inversion W; auto). assert (ND : no_dup_keys fs) by (inversion W; auto).
    assert (Hs : length (isort field_leb fs) = length fs) by apply isort_length.
    assert (HB : forall k t, In (k, t) fs -> v2_builds R (v2_fuel n) t).
    { intros k t J. apply IH.
      - destruct (depth_field c fs k t J) as [_ H]. specialize (H g). lia.
      - eapply wf_members_sum; eauto.
      - intros. apply Rq. eapply r2_sum; eauto. }
    assert (0 <= Z.of_nat (length fs) - 1) as Hn by (destruct fs; [congruence|cbn [length]; lia]).
    destruct (isort field_leb fs) as [|f0 l0] eqn:Es; [cbn in Hs; lia|]. rewrite <- Es in *.
    destruct (group_by_ty_spec (isort field_leb fs)) as [G1 G2].
    destruct (v2_members_spec R (v2_fuel n) (group_by_ty (isort field_leb fs))) with (st := st) as (ms & st1 & E1 & I1 & M1); auto.
    { apply Forall_forall. intros [u l] J. cbn. destruct (G1 _ _ J) as (A1 & A2 & A3).
      destruct l as [|x l]; [congruence|]. destruct (proj1 (A3 x) (or_introl eq_refl)) as (i & k & Ei & _).
      apply nth_error_In in Ei. apply (isort_In1 field_leb) in Ei. eauto. }
    rewrite E1. cbn [bind].
    destruct (v2_groups_spec R (a2_tagw fs) (group_by_ty (isort field_leb fs)) ms GR RC M1) with (vc := vs_vc st1) as (gs & vc' & E2 & V2 & P2).
    { apply Forall_forall. intros [u l] J. cbn [snd]. destruct (G1 _ _ J) as (A1 & A2 & A3).
      apply Rq. unfold a2_tagw. rewrite <- bits_for_bit_length by auto. apply r2_group with (u := u); auto.
      intros x. rewrite A3. split.
      + intros (i & k & Ei & ->). apply rank_iff in Ei as (pre & post & ? & ?); auto. exists pre, k, post. auto.
      + intros (pre & k & post & E & ->). exists (Z.to_nat (rank_at pre k post)), k.
        pose proof (rank_nonneg pre k post). split; [|lia]. rewrite E. apply rank_index. }
    { apply I1. }
    rewrite E2. cbn [bind]. do 2 eexists. split; [reflexivity|]. split; [split; [exact V2|apply I1]|].
    clear E1 E2 M1. constructor.
    + intros v lay a J. destruct (Forall2_In_r _ _ _ _ P2 J) as ([u ops] & Ju & A1 & A2 & A3). cbn [fst snd] in *.
      exists u, ops. split; auto. split; auto. split; auto. now apply G1.
    + intros i k u Ei. destruct (G2 _ _ _ Ei) as [l J]. destruct (Forall2_In_l _ _ _ _ P2 J) as ([[v lay] a] & Ju & A1 & A2 & A3). cbn [fst snd] in *. subst lay.
      exists v, a, l. split; auto. split; auto. split; auto. now apply G1.
Qed.

Lemma v2_history_inv R h : good_request R -> run_closed R ->
  Forall wf_ty h -> (forall t ops w, In t h -> request2 t ops w -> R ops w) ->
  forall st, vs_inv R st -> vs_inv R (v2_history st h).
Proof.
  intros GR RC. induction h as [|t h IH]; intros W Rq st I; cbn [v2_history]; auto. inversion W; subst.
  destruct (v2_fuel_spec R (depth t) GR RC t) with (st := st) as (a & st' & E & I' & _); auto.
  { intros. eapply Rq; eauto. left; auto. }
  unfold v2_build. rewrite E. apply IH; auto. intros. eapply Rq; eauto. right; auto.
Qed.

Lemma v2_build_history h t : Forall wf_ty (t :: h) ->
  exists a st', v2_build (v2_history vs0 h) t = Ok (a, st') /\ v2_rel (reqs2 (t :: h)) t a.
Proof.
  intros W. inversion W; subst.
  destruct (v2_fuel_spec (reqs2 (t :: h)) (depth t) (reqs2_good _ W) (reqs2_run_closed _) t) with (st := v2_history vs0 h) as (a & st' & E & _ & A); auto.
  - intros ops w Rq. exists t. split; auto. left; auto.
  - apply v2_history_inv; auto using reqs2_good, reqs2_run_closed.
    + intros t' ops w J Rq. exists t'. split; auto. right; auto.
    + split; intros ? ? [].
  - exists a, st'. auto.
Qed.

(** * Accepting and rejecting *)
Section Valid.
  Variable R : list Z -> Z -> Prop.
  Hypothesis GR : good_request R.

  Lemma v2_accepts : acc_ok R -> forall t, wf_ty t -> forall a op v, v2_rel R t a -> encodes t op v -> v2_valid a op = true.
  Proof.
    intros AC. induction t as [| | |c ms|c fs IH|g c fs IH] using ty_ind'; intros W a op v A E.
    1-3: inversion A; reflexivity.
    - inversion A as [| | |? ? tbl vd E1 V| |]; subst. inversion E as [| | |? ? m k C| |]; subst.
      destruct (enum_facts c ms tbl W E1) as (_ & ND & NS & Hc & _).
      cbn [v2_valid]. eapply vrel_accepts; eauto. apply isort_In2. apply Hc in C. apply (in_map snd) in C. exact C.
    - inversion A as [| | | |? ? xs T|]; subst. inversion E as [| | | |? ? ? vs F|]; subst.
      cbn [v2_valid]. apply fold_andb_map. split; auto.
      assert (WF : Forall (fun f => wf_ty (snd f)) fs) by (inversion W; auto).
      enough (X : forall b fs xs, v2_tup R b fs xs -> 0 <= b -> Forall (fun f => wf_ty (snd f)) fs ->
        Forall (fun f => wf_ty (snd f) -> forall a op v, v2_rel R (snd f) a -> encodes (snd f) op v -> v2_valid a op = true) fs ->
        forall low y vs, 0 <= low < 2 ^ b -> enc_fields (fun _ => True) fs y vs ->
        forall e, In e xs -> v2_valid (snd e) (slice (low + 2 ^ b * y) (fst (fst e)) (snd (fst e))) = true).
      { specialize (X 0 fs xs T ltac:(lia) WF IH 0 op vs ltac:(lia) F). now rewrite Z.add_0_l, Z.mul_1_l in X. }
      clear. induction 1 as [b|b k t r a rest Ha Tr IHT]; intros Pb WF IH low y vs Rl Ef e Ie; [destruct Ie|].
      inversion WF as [|? ? W1 W2]; inversion IH as [|? ? I1 I2]; subst. cbn [snd] in *.
      inversion Ef as [|? ? ? w' x y' v vs' Sw Ex Ef']; subst.
      pose proof (a2_width_spec _ W1) as Sa. pose proof (a2_width_nonneg _ W1) as Pa.
      assert (w' = a2_width t) as -> by (eapply swidth_fun; eauto). pose proof (enc_range _ _ W1 _ _ _ Ex Sa) as Rx.
      destruct Ie as [<-|Ie].
      + cbn [fst snd]. rewrite slice_mid by auto. eapply I1; eauto.
      + replace (low + 2 ^ b * (x + 2 ^ a2_width t * y')) with (low + 2 ^ b * x + 2 ^ (b + a2_width t) * y') by (rewrite pow2_split by lia; ring).
        eapply IHT; eauto; [lia|]. rewrite pow2_split by lia. pose proof (pow2_pos b Pb). nia.
    - inversion A as [| | | | |? ? ? gs G1 G2]; subst.
      inversion E as [| | | | |? ? ? pre k t post W0 w x junk v0 Hfs SW Sw Ex Hj HJ HW]; subst op v.
      assert (In (k, t) fs) as I by (rewrite Hfs; apply in_app_iff; right; left; auto).
      assert (wf_ty t) as Wt by (eapply wf_members_sum; eauto).
      pose proof (a2_width_spec _ Wt) as Sa. pose proof (a2_width_nonneg _ Wt) as Pa.
      assert (w = a2_width t) as -> by (eapply swidth_fun; eauto). pose proof (enc_range _ _ Wt _ _ _ Ex Sa) as Rx.
      pose proof (rank_index pre k t post) as Ri. rewrite <- Hfs in Ri. destruct (G2 _ _ _ Ri) as (vd & f & ops & Ig & Af & Vr & Ho).
      assert (Io : In (Z.of_nat (Z.to_nat (rank_at pre k post))) ops) by (apply Ho; eauto).
      pose proof (rank_lt _ _ _ _ _ Hfs) as Rl. rewrite Z2Nat.id in Io by lia.
      assert (Eb : bits_for (Z.of_nat (length fs) - 1) = a2_tagw fs) by (apply bits_for_bit_length; lia).
      assert (Pt : 0 <= a2_tagw fs) by apply bit_length_nonneg.
      assert (Rt : 0 <= rank_at pre k post < 2 ^ a2_tagw fs) by (split; [lia|]; rewrite <- Eb; apply lt_pow2_bits_for; lia).
      rewrite Eb. cbn [v2_valid]. apply fold_orb_map. right. eexists. split; [exact Ig|]. cbn [fst snd]. apply andb_true_iff. split.
      + rewrite slice_low by auto. eapply vrel_accepts; eauto.
      + rewrite slice_mid by auto. rewrite Forall_forall in IH. eapply (IH _ I); eauto.
  Qed.

  Lemma v2_exact : exact_ok R -> forall t, wf_ty t -> no_multi_range2 t -> forall a op, v2_rel R t a -> 0 <= op < 2 ^ a2_width t ->
    v2_valid a op = true -> exists v, encodes t op v.
  Proof.
    intros EX. induction t as [| | |c ms|c fs IH|g c fs IH] using ty_ind'; intros W NM a op A Rg V.
    - change (2 ^ a2_width TBit) with 2 in Rg. assert (op = 0 \/ op = 1) as [->| ->] by lia; eexists; [apply (enc_bit _ false)|apply (enc_bit _ true)].
    - eexists. constructor; exact Rg.
    - eexists. constructor; exact Rg.
    - inversion A as [| | |? ? tbl vd E1 Vr| |]; subst.
      destruct (enum_facts c ms tbl W E1) as (_ & ND & NS & Hc & _ & Sw & _). cbn [v2_valid] in V.
      assert (~ multi_range (isort Z.leb (map snd tbl))) as Nm.
      { apply (NM _ (bit_length (zmax (map snd tbl)))). constructor; auto.
        - apply isort_increasing; auto.
        - intros x. rewrite isort_In. split.
          + intros J. apply in_map_iff in J as ([m y] & <- & J). exists m. apply Hc. exact J.
          + intros [m C]. apply Hc in C. apply (in_map snd) in C. exact C. }
      apply (vrel_exact R GR _ _ _ EX Nm Vr _ Rg) in V. apply (isort_In1 Z.leb) in V. apply in_map_iff in V as ([m x] & E & I). cbn in E. subst x.
      exists (VEnum m). constructor. apply Hc; auto.
    - inversion A as [| | | |? ? xs T|]; subst. cbn [v2_valid] in V. apply fold_andb_map in V as [_ V]. rewrite a2_width_prod in Rg.
      assert (WF : Forall (fun f => wf_ty (snd f)) fs) by (inversion W; auto).
      assert (NF : forall k t, In (k, t) fs -> no_multi_range2 t) by (intros k t I ops w' Rq; apply (NM ops w'); eapply r2_prod; eauto).
      enough (X : forall b fs xs, v2_tup R b fs xs -> 0 <= b ->
        (forall e, In e xs -> v2_valid (snd e) (slice op (fst (fst e)) (snd (fst e))) = true) ->
        Forall (fun f => wf_ty (snd f)) fs -> (forall k t, In (k, t) fs -> no_multi_range2 t) ->
        Forall (fun f => wf_ty (snd f) -> no_multi_range2 (snd f) -> forall a op, v2_rel R (snd f) a ->
          0 <= op < 2 ^ a2_width (snd f) -> v2_valid a op = true -> exists v, encodes (snd f) op v) fs ->
        0 <= op < 2 ^ (b + sum_widths fs) -> exists vs, enc_fields (fun _ => True) fs (op / 2 ^ b) vs).
      { destruct (X 0 fs xs T ltac:(lia) V WF NF IH Rg) as [vs X']. rewrite Z.pow_0_r, Z.div_1_r in X'. exists (VProd vs). now constructor. }
      clear. induction 1 as [b|b k t r a rest Ha Tr IHT]; intros Pb V WF NF IH Rg.
      + cbn in Rg. rewrite Z.add_0_r in Rg. rewrite Z.div_small by lia. exists []. constructor.
      + inversion WF as [|? ? W1 W2]; inversion IH as [|? ? I1 I2]; subst. cbn [snd sum_widths] in *.
        pose proof (a2_width_spec _ W1) as Sa. pose proof (a2_width_nonneg _ W1) as Pa.
        destruct (I1 W1 (NF k t (or_introl eq_refl)) a (slice op b (b + a2_width t)) Ha) as [v Ev].
        { pose proof (slice_range op b (b + a2_width t)) as H. replace (b + a2_width t - b) with (a2_width t) in H by lia. apply H. lia. }
        { apply (V _ (or_introl eq_refl)). }
        destruct IHT as [vs Evs]; auto; [lia|intros; apply V; right; auto|intros; eapply NF; right; eauto|now rewrite <- Z.add_assoc|].
        assert (op / 2 ^ b = slice op b (b + a2_width t) + 2 ^ a2_width t * (op / 2 ^ (b + a2_width t))) as ->.
        { rewrite slice_div by lia. replace (b + a2_width t - b) with (a2_width t) by lia.
          rewrite pow2_split by lia. pose proof (pow2_pos b Pb). pose proof (pow2_pos _ Pa).
          rewrite <- Z.div_div by lia. apply split_low; auto. }
        exists (v :: vs). econstructor; eauto.
    - inversion A as [| | | | |? ? ? gs G1 G2]; subst. cbn [v2_valid] in V.
      apply fold_orb_map in V as [|([[vd lay] f] & Ig & V)]; [discriminate|]. cbn [fst snd] in V.
      destruct (G1 _ _ _ Ig) as (u & ops & -> & Af & Vr & Hops). cbn [fst snd] in V. apply andb_true_iff in V as [V1 V2].
      assert (no_dup_keys fs) as ND by (inversion W; auto). assert (0 <= a2_tagw fs) as Ptw by apply bit_length_nonneg.
      pose proof (slice_range op 0 (a2_tagw fs) ltac:(lia)) as Rt. rewrite Z.sub_0_r in Rt.
      assert (fs <> []) as NE by (inversion W; auto).
      assert (bits_for (Z.of_nat (length fs) - 1) = a2_tagw fs) as Eb by (apply bits_for_bit_length; destruct fs; [congruence|cbn [length]; lia]).
      assert (forall x, In x ops <-> exists pre k post, fs = pre ++ (k, u) :: post /\ x = rank_at pre k post) as Hops'.
      { intros x. rewrite Hops. split.
        - intros (i & k & Ei & ->). apply rank_iff in Ei as (pre & post & ? & ?); auto. exists pre, k, post. auto.
        - intros (pre & k & post & E & ->). exists (Z.to_nat (rank_at pre k post)), k.
          pose proof (rank_nonneg pre k post). split; [|lia]. rewrite E. apply rank_index. }
      assert (ops <> [] /\ increasing ops) as [NEo Io] by (destruct Vr as [HR _]; destruct (GR _ _ HR) as (? & ? & _); auto).
      assert (~ multi_range ops) as Nm by (apply (NM _ (a2_tagw fs)); rewrite <- Eb; apply r2_group with (u := u); auto).
      apply (vrel_exact R GR _ _ _ EX Nm Vr _ Rt) in V1. apply Hops' in V1 as (pre & k & post & Hfs & Hr).
      assert (In (k, u) fs) as I by (rewrite Hfs; apply in_app_iff; right; left; auto).
      assert (wf_ty u) as Wt by (eapply wf_members_sum; eauto).
      pose proof (a2_width_spec _ Wt) as Sf. pose proof (a2_width_nonneg _ Wt) as Pf. pose proof (a2_width_spec _ W) as SW.
      rewrite Forall_forall in IH.
      destruct (IH _ I Wt) with (a := f) (op := slice op (a2_tagw fs) (a2_tagw fs + a2_width u)) as [v Ev]; auto.
      { intros ops' w' Rq. apply (NM ops' w'). eapply r2_sum; eauto. }
      { pose proof (slice_range op (a2_tagw fs) (a2_tagw fs + a2_width u)) as H. replace (a2_tagw fs + a2_width u - a2_tagw fs) with (a2_width u) in H by lia. apply H. lia. }
      cbn [snd] in Ev.
      assert (op = rank_at pre k post + 2 ^ bits_for (Z.of_nat (length fs) - 1) *
        (slice op (a2_tagw fs) (a2_tagw fs + a2_width u) + 2 ^ a2_width u * (op / 2 ^ a2_tagw fs / 2 ^ a2_width u))) as Eop.
      { rewrite Eb. rewrite slice_div by lia. replace (a2_tagw fs + a2_width u - a2_tagw fs) with (a2_width u) by lia.
        rewrite <- split_low by auto. rewrite <- Hr. apply split_low; auto. }
      exists (VSum k v). rewrite Eop. eapply enc_sum; eauto.
      + apply Z.div_pos; [apply Z.div_pos; [lia|apply pow2_pos; auto]|apply pow2_pos; auto].
      + rewrite <- Eop. apply Rg.
  Qed.
End Valid.

(** * Two histories *)
Lemma v2_agree R R' t : good_request R -> exact_ok R -> good_request R' -> exact_ok R' -> wf_ty t ->
  forall a a' op, v2_rel R t a -> v2_rel R' t a' -> 0 <= op < 2 ^ a2_width t ->
  v2_valid a op = true -> v2_valid a' op = true.
Proof.
  intros GR EX GR' EX'.
  induction t as [| | |c ms|c fs IH|g c fs IH] using ty_ind'; intros W a a' op A A' Rg V.
  1-3: inversion A'; auto.
  - inversion A as [| | |? ? tbl vd E1 Vr| |]; subst. inversion A' as [| | |? ? tbl' vd' E1' Vr'| |]; subst.
    rewrite E1 in E1'. injection E1' as <-. cbn [v2_valid] in *.
    destruct (multi_range_dec_pos (isort Z.leb (map snd tbl))) as [M|M].
    { apply (GR _ _ (proj1 Vr)). }
    { intros x I. apply (GR _ _ (proj1 Vr)) in I. lia. }
    + apply (vrel_accepts_iff R' _ _ _ GR' EX' Vr' op Rg (or_introl M)).
      apply (vrel_accepts_iff R _ _ _ GR EX Vr op Rg (or_introl M)). auto.
    + apply (vrel_accepts_iff R' _ _ _ GR' EX' Vr' op Rg (or_intror M)).
      apply (vrel_accepts_iff R _ _ _ GR EX Vr op Rg (or_intror M)). auto.
  - inversion A as [| | | |? ? xs T|]; subst. inversion A' as [| | | |? ? xs2 T2|]; subst.
    cbn [v2_valid] in *. apply fold_andb_map in V as [_ V]. apply fold_andb_map. split; auto.
    assert (WF : Forall (fun f => wf_ty (snd f)) fs) by (inversion W; auto).
    enough (forall b xs, v2_tup R b fs xs -> 0 <= b -> forall xs2, v2_tup R' b fs xs2 ->
      (forall e, In e xs -> v2_valid (snd e) (slice op (fst (fst e)) (snd (fst e))) = true) ->
      forall e, In e xs2 -> v2_valid (snd e) (slice op (fst (fst e)) (snd (fst e))) = true) as G.
    { apply (G 0 xs T ltac:(lia) xs2 T2 V). }
    clear A A' W Rg T T2 V xs xs2. intros b xs T. revert IH WF.
    induction T as [b|b k t r a rest Ha Tr IHT]; intros IH WF Hb xs2 T2 V.
    + inversion T2; subst. intros ? [].
    + inversion T2 as [|? ? ? ? a2 rest2 Ha2 Tr2]; subst.
      inversion IH as [|? ? I1 I2]; inversion WF as [|? ? W1 W2]; subst. cbn [snd] in *.
      pose proof (a2_width_nonneg _ W1) as Pa.
      intros e [<-|I].
      * cbn [fst snd]. apply (I1 W1 a a2); auto.
        -- pose proof (slice_range op b (b + a2_width t)) as H. replace (b + a2_width t - b) with (a2_width t) in H by lia.
           apply H. lia.
        -- apply (V _ (or_introl eq_refl)).
      * eapply IHT; eauto; [lia|]. intros; apply V; right; auto.
  - inversion A as [| | | | |? ? ? gs G1 G2]; subst. inversion A' as [| | | | |? ? ? gs2 G1' G2']; subst.
    cbn [v2_valid] in *. apply fold_orb_map in V as [|([[vd lay] f] & Ig & V)]; [discriminate|]. cbn [fst snd] in V.
    destruct (G1 _ _ _ Ig) as (u & ops & -> & Af & Vr & Hops). cbn [fst snd] in V. apply andb_true_iff in V as [V1 V2].
    assert (no_dup_keys fs) as ND by (inversion W; auto).
    destruct (GR _ _ (proj1 Vr)) as (Io & NEo & Ptw & Fo).
    assert (0 <= slice op 0 (a2_tagw fs) < 2 ^ a2_tagw fs) as Rt.
    { pose proof (slice_range op 0 (a2_tagw fs) ltac:(lia)) as Rt. rewrite Z.sub_0_r in Rt. auto. }
    destruct ops as [|x0 ops0]; [congruence|]. destruct (proj1 (Hops x0) (or_introl eq_refl)) as (i & k & Ei & _).
    destruct (G2' _ _ _ Ei) as (vd2 & f2 & ops2 & Ig2 & Af2 & Vr2 & Hops2).
    assert (In (k, u) fs) as I by (apply (isort_In1 field_leb); eapply nth_error_In; eauto).
    assert (wf_ty u) as Wt by (eapply wf_members_sum; eauto). pose proof (a2_width_nonneg _ Wt) as Pf.
    apply fold_orb_map. right. exists (vd2, (a2_tagw fs, a2_tagw fs + a2_width u), f2). split; auto. cbn [fst snd].
    assert (ops2 = x0 :: ops0) as ->.
    { apply increasing_ext; auto; [apply (GR' _ _ (proj1 Vr2))|]. intros x. rewrite Hops, Hops2. reflexivity. }
    apply andb_true_iff. split.
    + destruct (multi_range_dec_pos (x0 :: ops0)) as [M|M]; auto.
      { intros x J. apply Fo in J. lia. }
      * apply (vrel_accepts_iff R' _ _ _ GR' EX' Vr2 _ Rt (or_introl M)).
        apply (vrel_accepts_iff R _ _ _ GR EX Vr _ Rt (or_introl M)). auto.
      * apply (vrel_accepts_iff R' _ _ _ GR' EX' Vr2 _ Rt (or_intror M)).
        apply (vrel_accepts_iff R _ _ _ GR EX Vr _ Rt (or_intror M)). auto.
    + rewrite Forall_forall in IH. apply (IH _ I Wt f f2); auto.
      pose proof (slice_range op (a2_tagw fs) (a2_tagw fs + a2_width u)) as H.
      replace (a2_tagw fs + a2_width u - a2_tagw fs) with (a2_width u) in H by lia. apply H. lia.
Qed.
