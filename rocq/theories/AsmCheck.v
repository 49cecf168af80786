(** Decision procedure for the hypotheses [same_width_zero_hot], [same_width] and
    [no_multi_range], used to show that concrete histories meet them. *)
From Coq Require Import String ZArith List Bool Lia Permutation Sorted.
From Verif Require Import Base BaseLemmas AsmModel AsmSpec AsmValid AsmEnum AsmBuild AsmProofs.
Import ListNotations.
Open Scope Z_scope.

Fixpoint base_list (t : ty) : list (list Z * Z) :=
  match t with
  | TBit | TBV _ | TSInt _ => []
  | TEnum _ ms =>
      match enum_table ms with
      | Ok tbl => [(isort Z.leb (map snd tbl), bit_length (zmax (map snd tbl)))]
      | Err _ => []
      end
  | TProd _ fs => flat_map (fun f => base_list (snd f)) fs
  | TSum _ _ fs =>
      let w := bit_length (Z.of_nat (length fs) - 1) in
      (pyrange 0 (Z.of_nat (length fs)), w)
      :: map (fun g => (snd g, w)) (group_by_ty (isort field_leb fs))
      ++ flat_map (fun f => base_list (snd f)) fs
  end.

Definition run_list (r : list Z * Z) : list (list Z * Z) :=
  match fst r with
  | [] => []
  | x :: l => map (fun p => (pyrange (fst p) (snd p), snd r)) (split_ranges x x l)
  end.

Definition req_list (t : ty) : list (list Z * Z) :=
  flat_map (fun r => r :: run_list r) (base_list t).

Lemma split_ranges_complete rest : forall lb i,
  increasing (i :: rest) -> lb <= i ->
  forall a b, a <= b ->
  (forall x, a <= x <= b -> (lb <= x <= i \/ In x rest)) ->
  ~ (lb <= a - 1 <= i \/ In (a - 1) rest) -> ~ (lb <= b + 1 <= i \/ In (b + 1) rest) ->
  In (a, b + 1) (split_ranges lb i rest).
Proof.
  induction rest as [|j rest IH]; intros lb i S L a b AB C Na Nb; cbn [split_ranges].
  - left. pose proof (C a ltac:(lia)). pose proof (C b ltac:(lia)). cbn [In] in *. f_equal; lia.
  - inversion S as [|? ? S1 F]; subst. inversion F as [|? ? Hj F1]; subst.
    assert (forall x, In x rest -> j < x) as G.
    { inversion S1; subst. rewrite Forall_forall in *; auto. }
    destruct (Z.eqb_spec j (i + 1)) as [->|N].
    + apply IH; auto; try lia.
      * intros x Hx. destruct (C x Hx) as [|[|]]; auto; lia.
      * intros [H|H]; apply Na; [|right; right; auto].
        destruct (Z.eq_dec (a - 1) (i + 1)); [right; left; auto|lia].
      * intros [H|H]; apply Nb; [|right; right; auto].
        destruct (Z.eq_dec (b + 1) (i + 1)); [right; left; auto|lia].
    + destruct (Z_le_gt_dec a i) as [La|Ga].
      * left.
        assert (lb <= a) by (destruct (C a ltac:(lia)) as [|[|I]]; [lia|lia|apply G in I; lia]).
        assert (a = lb).
        { destruct (Z.eq_dec a lb); auto. destruct Na. left. lia. }
        subst a. f_equal.
        assert (b <= i).
        { destruct (Z_le_gt_dec b i); auto. exfalso.
          destruct (C (i + 1) ltac:(lia)) as [|[|I]]; [lia|lia|]. apply G in I. lia. }
        destruct (Z.eq_dec b i) as [|Nbi]; [lia|]. destruct Nb. left. lia.
      * right. apply IH; auto; try lia.
        -- intros x Hx. destruct (C x Hx) as [|[|]]; auto; lia.
        -- intros [H|H]; apply Na; [|right; right; auto]. right; left; lia.
        -- intros [H|H]; apply Nb; [|right; right; auto]. right; left; lia.
Qed.

Lemma base_sound_increasing t ops w : request t ops w -> wf_ty t -> increasing ops.
Proof. intros R W. destruct (request_good _ _ _ R W); auto. Qed.

Lemma request_req_list t ops w : request t ops w -> wf_ty t ->
  In (ops, w) (base_list t) \/
  (contiguous ops /\ exists ops0, In (ops0, w) (base_list t) /\ In (ops, w) (run_list (ops0, w))).
Proof.
  induction 1 as [c ms ops w I H S|g c fs u ops I NE H|g c fs ops I H|c fs k t ops w I Rq IH
                 |g c fs k t ops w I Rq IH|t ops w a b Rq IH NC NO L AB H Na Nb]; intros W.
  - left. destruct (enum_table_spec c ms W) as (tbl & E & NE & _). cbn [base_list]. rewrite E.
    destruct (enum_facts c ms tbl W E) as (_ & _ & ND & Hc & _ & S' & F).
    left. f_equal; [|eapply swidth_fun; eauto].
    apply increasing_ext; auto using isort_increasing. intros x. rewrite H. split.
    + intros J. apply isort_In1 in J. apply in_map_iff in J as ([m y] & <- & J). exists m. apply Hc, J.
    + intros [m C]. apply isort_In2. apply Hc in C. apply (in_map snd) in C. exact C.
  - left. assert (no_dup_keys fs) as ND by (inversion W; auto).
    cbn [base_list]. right. apply in_app_iff. left. apply in_map_iff.
    destruct ops as [|x0 ops0]; [congruence|].
    destruct (proj1 (H x0)) as (pre & k & post & E & _); [left; auto|].
    destruct (group_by_ty_spec (isort field_leb fs)) as [G1 G2].
    pose proof (rank_index pre k u post) as Ri. rewrite <- E in Ri.
    destruct (G2 _ _ _ Ri) as [l Il]. destruct (G1 _ _ Il) as (_ & Li & Hl).
    exists (u, l). split; auto. cbn [snd]. f_equal.
    + apply increasing_ext; auto. intros x. rewrite Hl, H. split.
      * intros (i & k' & E' & ->). apply rank_iff in E' as (p & q & E' & ->); auto. exists p, k', q. auto.
      * intros (p & k' & q & E' & ->). exists (Z.to_nat (rank_at p k' q)), k'.
        pose proof (rank_index p k' u q) as R'. rewrite <- E' in R'. split; auto.
        pose proof (rank_nonneg p k' q). lia.
    + symmetry. apply bits_for_bit_length. subst fs. rewrite app_length. cbn. lia.
  - left. cbn [base_list]. left. assert (fs <> []) by (inversion W; auto).
    f_equal.
    + apply increasing_ext; auto using pyrange_increasing. intros x. rewrite H, pyrange_In. reflexivity.
    + symmetry. apply bits_for_bit_length. destruct fs; [congruence|cbn [length]; lia].
  - assert (wf_ty t) as Wt by (eapply wf_members_prod; eauto).
    assert (forall r, In r (base_list t) -> In r (base_list (TProd c fs))) as J.
    { intros r Ir. cbn [base_list]. apply in_flat_map. exists (k, t). auto. }
    destruct (IH Wt) as [|(Cg & ops0 & I0 & I1)]; [left; auto|right; split; eauto].
  - assert (wf_ty t) as Wt by (eapply wf_members_sum; eauto).
    assert (forall r, In r (base_list t) -> In r (base_list (TSum g c fs))) as J.
    { intros r Ir. cbn [base_list]. right. apply in_app_iff. right. apply in_flat_map. exists (k, t). auto. }
    destruct (IH Wt) as [|(Cg & ops0 & I0 & I1)]; [left; auto|right; split; eauto].
  - right. destruct (IH W) as [I|(Cg & _)]; [|contradiction]. split.
    + change (contiguous (pyrange a (b + 1))). apply pyrange_contiguous.
    + exists ops. split; auto. pose proof (base_sound_increasing _ _ _ Rq W) as S.
      destruct ops as [|x l]; [cbn in L; lia|]. cbn [run_list fst snd].
      apply in_map_iff. exists (a, b + 1). split; [reflexivity|].
      assert (forall c, x <= c <= x \/ In c l <-> In c (x :: l)) as Q.
      { intros c. cbn [In]. split; intros [|]; auto; lia. }
      apply split_ranges_complete; auto; try lia.
      * intros y Hy. apply Q. auto.
      * rewrite Q. auto.
      * rewrite Q. auto.
Qed.

Lemma request_In t ops w : request t ops w -> wf_ty t -> In (ops, w) (req_list t).
Proof.
  intros R W. unfold req_list. apply in_flat_map.
  destruct (request_req_list _ _ _ R W) as [I|(_ & ops0 & I & J)].
  - exists (ops, w). split; auto. left; auto.
  - exists (ops0, w). split; auto. right; auto.
Qed.

(** ** Boolean tests *)
Definition contig_b (ops : list Z) : bool :=
  match ops with
  | [] => true
  | x :: _ => list_eqb Z.eqb ops (pyrange x (last ops x + 1))
  end.
Definition sparse_b (ops : list Z) : bool :=
  all_one_hot ops && negb (contig_b ops) && (3 <=? length ops)%nat.
Definition multi_b (ops : list Z) : bool :=
  negb (contig_b ops) && negb (all_one_hot ops) && (3 <=? length ops)%nat
  && (11 * Z.of_nat (runs ops) <? 10 * Z.of_nat (length ops)).

Lemma contig_b_iff ops : increasing ops -> contig_b ops = true <-> contiguous ops.
Proof.
  intros S. destruct ops as [|x l]; cbn [contig_b].
  - split; auto. intros _ ? ? ? [].
  - apply is_range_iff; auto.
Qed.

Lemma sparse_b_spec ops : increasing ops -> (forall c, In c ops -> 0 <= c) ->
  sparse_one_hot ops -> sparse_b ops = true.
Proof.
  intros S P (O & NC & L). unfold sparse_b. rewrite (proj2 (all_one_hot_iff ops P)) by auto.
  destruct (contig_b ops) eqn:E; [apply contig_b_iff in E; tauto|]. apply Nat.leb_le in L. rewrite L. auto.
Qed.

Lemma multi_b_spec ops : increasing ops -> (forall c, In c ops -> 0 <= c) ->
  multi_range ops -> multi_b ops = true.
Proof.
  intros S P (NC & NO & L & R). unfold multi_b. apply andb_true_iff. split; [|apply Z.ltb_lt; auto].
  apply andb_true_iff. split; [|apply Nat.leb_le; auto]. apply andb_true_iff. split.
  - apply negb_true_iff, not_true_is_false. rewrite contig_b_iff; auto.
  - apply negb_true_iff, not_true_is_false. rewrite all_one_hot_iff; auto.
Qed.

Definition top_b (w : Z) (ops : list Z) : bool :=
  contig_b ops && zmem (2 ^ w - 1) ops && (zmem 0 ops || (3 <=? length ops)%nat).

Lemma top_b_spec w ops : increasing ops -> top_run w ops -> top_b w ops = true.
Proof.
  intros S (C & I & L). unfold top_b.
  rewrite (proj2 (contig_b_iff ops S) C), (proj2 (zmem_In _ ops) I). cbn [andb].
  apply orb_true_iff. destruct L as [L|L]; [left; apply zmem_In; auto|right; apply Nat.leb_le; auto].
Qed.

Definition pairs_ok (f : list Z -> Z -> Z -> bool) (ts : list ty) : bool :=
  let l := flat_map req_list ts in
  forallb (fun r => forallb (fun s =>
    negb (list_eqb Z.eqb (fst r) (fst s)) || (snd r =? snd s) || f (fst r) (snd r) (snd s)) l) l.

Definition zero_hot_ok := pairs_ok (fun ops _ _ => negb (zmem 0 ops && sparse_b ops)).
Definition same_width_ok := pairs_ok (fun ops w1 w2 =>
  negb (top_b w1 ops) && negb (top_b w2 ops) && negb (sparse_b ops)).
Definition no_multi_ok (t : ty) : bool := forallb (fun r => negb (multi_b (fst r))) (req_list t).

Lemma pairs_ok_spec f ts t1 t2 ops w1 w2 : Forall wf_ty ts -> pairs_ok f ts = true ->
  In t1 ts -> In t2 ts -> request t1 ops w1 -> request t2 ops w2 ->
  w1 = w2 \/ f ops w1 w2 = true.
Proof.
  intros W C I1 I2 R1 R2. unfold pairs_ok in C. rewrite Forall_forall in W.
  assert (forall t w, In t ts -> request t ops w -> In (ops, w) (flat_map req_list ts)) as J.
  { intros t w I R. apply in_flat_map. exists t. split; auto. apply request_In; auto. }
  rewrite forallb_forall in C. specialize (C _ (J _ _ I1 R1)). rewrite forallb_forall in C.
  specialize (C _ (J _ _ I2 R2)). cbn [fst snd] in C.
  rewrite (proj2 (list_eqb_eq Z Z.eqb Z.eqb_eq ops ops)) in C by auto. cbn [negb orb] in C.
  apply orb_true_iff in C as [C|C]; [left; lia|right; auto].
Qed.

Lemma request_pos t ops w : request t ops w -> wf_ty t -> increasing ops /\ forall c, In c ops -> 0 <= c.
Proof.
  intros R W. destruct (request_good _ _ _ R W) as (S & _ & _ & F). split; auto. intros c I. apply F, I.
Qed.

Lemma zero_hot_ok_spec ts : Forall wf_ty ts -> zero_hot_ok ts = true -> same_width_zero_hot ts.
Proof.
  intros W C t1 t2 ops w1 w2 I1 I2 R1 R2 Z S.
  destruct (pairs_ok_spec _ _ _ _ _ _ _ W C I1 I2 R1 R2) as [|E]; auto.
  rewrite Forall_forall in W. destruct (request_pos _ _ _ R1) as [Inc P]; auto.
  rewrite (proj2 (zmem_In 0 ops)), sparse_b_spec in E by auto. discriminate.
Qed.

Lemma same_width_ok_spec ts : Forall wf_ty ts -> same_width_ok ts = true -> same_width ts.
Proof.
  intros W C t1 t2 ops w1 w2 I1 I2 R1 R2.
  destruct (pairs_ok_spec _ _ _ _ _ _ _ W C I1 I2 R1 R2) as [|E]; auto. right.
  rewrite Forall_forall in W. destruct (request_pos _ _ _ R1) as [Inc P]; auto.
  apply andb_true_iff in E as [E E3]. apply andb_true_iff in E as [E1 E2].
  rewrite negb_true_iff in *.
  split; [intros T; rewrite top_b_spec in E1 by auto; discriminate|].
  split; [intros T; rewrite top_b_spec in E2 by auto; discriminate|].
  intros S. rewrite sparse_b_spec in E3 by auto. discriminate.
Qed.

Lemma no_multi_ok_spec t : wf_ty t -> no_multi_ok t = true -> no_multi_range t.
Proof.
  intros W C ops w R M. unfold no_multi_ok in C. rewrite forallb_forall in C.
  specialize (C _ (request_In _ _ _ R W)). destruct (request_pos _ _ _ R) as [Inc P]; auto.
  cbn [fst] in C. rewrite multi_b_spec in C by auto. discriminate.
Qed.

(** ** Well-formedness test *)
Fixpoint nodupb {A} (eqb : A -> A -> bool) (l : list A) : bool :=
  match l with [] => true | x :: r => negb (existsb (eqb x) r) && nodupb eqb r end.

Lemma nodupb_spec A (eqb : A -> A -> bool) : (forall x y, eqb x y = true <-> x = y) ->
  forall l, nodupb eqb l = true -> NoDup l.
Proof.
  intros H. induction l as [|x l IH]; cbn; constructor.
  - apply andb_true_iff in H0 as [N _]. intros I. rewrite negb_true_iff in N.
    enough (existsb (eqb x) l = true) by congruence. apply existsb_exists. exists x. split; auto. apply H; auto.
  - apply IH. apply andb_true_iff in H0. tauto.
Qed.

Definition enum_wf_b (ms : list emem) : bool :=
  negb (match ms with [] => true | _ => false end)
  && forallb (fun m => match m with EInt v => 0 <=? v | _ => true end) ms
  && nodupb String.eqb (autos ms).

Fixpoint wf_b (t : ty) : bool :=
  match t with
  | TBit => true
  | TBV w => 0 <=? w
  | TSInt w => 1 <=? w
  | TEnum _ ms => enum_wf_b ms
  | TProd _ fs => nodupb key_eqb (map fst fs) && forallb (fun f => wf_b (snd f)) fs
  | TSum _ _ fs => negb (match fs with [] => true | _ => false end)
                   && nodupb key_eqb (map fst fs) && forallb (fun f => wf_b (snd f)) fs
  end.

Lemma autos_nodup_index ms : NoDup (autos ms) ->
  forall n i j, nth_error ms i = Some (EAuto n) -> nth_error ms j = Some (EAuto n) -> i = j.
Proof.
  assert (forall ms i n, nth_error ms i = Some (EAuto n) -> In n (autos ms)) as Hin.
  { clear. induction ms as [|[v|n'] ms IH]; intros [|i] n E; cbn in *; try discriminate.
    - eauto. - injection E as ->. auto. - right; eauto. }
  induction ms as [|[v|n'] ms IH]; intros ND n i j Hi Hj.
  - destruct i; discriminate.
  - destruct i, j; cbn in *; try discriminate. f_equal; eauto.
  - cbn in ND. inversion ND; subst. destruct i, j; cbn in *; auto.
    + injection Hi as ->. apply Hin in Hj. contradiction.
    + injection Hj as ->. apply Hin in Hi. contradiction.
    + f_equal; eauto.
Qed.

Lemma wf_b_spec t : wf_b t = true -> wf_ty t.
Proof.
  induction t as [| | |c ms|c fs IH|g c fs IH] using ty_ind'; cbn; intros H.
  - constructor.
  - constructor; lia.
  - constructor; lia.
  - unfold enum_wf_b in H. apply andb_true_iff in H as [H H3]. apply andb_true_iff in H as [H1 H2].
    constructor.
    + destruct ms; [discriminate|congruence].
    + intros v I. rewrite forallb_forall in H2. specialize (H2 _ I). cbn in H2. lia.
    + apply autos_nodup_index. eapply nodupb_spec; eauto. intros; apply String.eqb_eq.
  - apply andb_true_iff in H as [H1 H2]. constructor.
    + eapply nodupb_spec; eauto. intros; apply key_eqb_eq.
    + rewrite forallb_forall in H2. rewrite Forall_forall in *. intros f I. apply IH; auto.
  - apply andb_true_iff in H as [H H2]. apply andb_true_iff in H as [H0 H1]. constructor.
    + destruct fs; [discriminate|congruence].
    + eapply nodupb_spec; eauto. intros; apply key_eqb_eq.
    + rewrite forallb_forall in H2. rewrite Forall_forall in *. intros f I. apply IH; auto.
Qed.

Lemma wf_all_b ts : forallb wf_b ts = true -> Forall wf_ty ts.
Proof.
  intros H. rewrite forallb_forall in H. apply Forall_forall. intros t I. apply wf_b_spec; auto.
Qed.

(** ** Typing tests for values *)
Fixpoint has_ty_b (t : ty) (v : val) {struct v} : bool :=
  match t, v with
  | TBit, VBit _ => true
  | TBV w, VBV z => (0 <=? z) && (z <? 2 ^ w)
  | TSInt w, VBV z => (0 <=? z) && (z <? 2 ^ w)
  | TEnum _ ms, VEnum m => existsb (emem_eqb m) ms
  | TProd _ fs, VProd vs =>
      (fix go (fs : list (key * ty)) (vs : list val) {struct vs} : bool :=
         match fs, vs with
         | [], [] => true
         | (_, t) :: fs', v :: vs' => has_ty_b t v && go fs' vs'
         | _, _ => false
         end) fs vs
  | TSum _ _ fs, VSum k v =>
      existsb (fun f => key_eqb (fst f) k && has_ty_b (snd f) v) fs
  | _, _ => false
  end.

Fixpoint nonneg_b (t : ty) (v : val) {struct v} : bool :=
  match t, v with
  | TBit, VBit _ => true
  | TBV w, VBV z => true
  | TSInt w, VBV z => z <? 2 ^ (w - 1)
  | TEnum _ ms, VEnum m => true
  | TProd _ fs, VProd vs =>
      (fix go (fs : list (key * ty)) (vs : list val) {struct vs} : bool :=
         match fs, vs with
         | [], [] => true
         | (_, t) :: fs', v :: vs' => nonneg_b t v && go fs' vs'
         | _, _ => false
         end) fs vs
  | TSum _ _ fs, VSum k v =>
      existsb (fun f => key_eqb (fst f) k && nonneg_b (snd f) v) fs
  | _, _ => false
  end.

Lemma has_ty_b_spec t : forall v, has_ty_b t v = true -> has_ty t v.
Proof.
  induction t as [| | |c ms|c fs IH|g c fs IH] using ty_ind'; intros [| | | |] H; try discriminate; cbn in H.
  - constructor.
  - constructor; lia.
  - constructor; lia.
  - constructor. apply existsb_exists in H as (m' & I & E). apply emem_eqb_eq in E as ->. auto.
  - constructor. revert vs H. induction IH as [|[k t] fs It If IHf]; intros [|v vs] H; try discriminate; constructor.
    + apply It. apply andb_true_iff in H. tauto.
    + apply IHf. apply andb_true_iff in H. tauto.
  - apply existsb_exists in H as ([k' t] & I & E). apply andb_true_iff in E as [E1 E2].
    apply key_eqb_eq in E1. cbn in *. subst. rewrite Forall_forall in IH. econstructor; eauto. apply (IH _ I); auto.
Qed.

Lemma nonneg_b_spec t : forall v, nonneg_b t v = true -> nonneg_signed t v.
Proof.
  induction t as [| | |c ms|c fs IH|g c fs IH] using ty_ind'; intros [| | | |] H; try discriminate; cbn in H.
  - constructor.
  - constructor; lia.
  - constructor; lia.
  - constructor.
  - constructor. revert vs H. induction IH as [|[k t] fs It If IHf]; intros [|v vs] H; try discriminate; constructor.
    + apply It. apply andb_true_iff in H. tauto.
    + apply IHf. apply andb_true_iff in H. tauto.
  - apply existsb_exists in H as ([k' t] & I & E). apply andb_true_iff in E as [E1 E2].
    apply key_eqb_eq in E1. cbn in *. subst. rewrite Forall_forall in IH. econstructor; eauto. apply (IH _ I); auto.
Qed.
