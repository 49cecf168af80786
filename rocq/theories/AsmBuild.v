(** Assembler objects built in any process history: structure and validators. *)
From Coq Require Import String ZArith List Bool Lia Permutation Sorted.
From Verif Require Import Base BaseLemmas AsmModel AsmSpec AsmValid AsmEnum.
Import ListNotations.
Open Scope Z_scope.

(** * Induction over types, and decidable equality *)
Section TyInd.
  Variable P : ty -> Prop.
  Hypothesis Hbit : P TBit.
  Hypothesis Hbv : forall w, P (TBV w).
  Hypothesis Hsint : forall w, P (TSInt w).
  Hypothesis Henum : forall c ms, P (TEnum c ms).
  Hypothesis Hprod : forall c fs, Forall (fun f => P (snd f)) fs -> P (TProd c fs).
  Hypothesis Hsum : forall g c fs, Forall (fun f => P (snd f)) fs -> P (TSum g c fs).
  Fixpoint ty_ind' (t : ty) : P t :=
    let go := fix go (l : list (key * ty)) : Forall (fun f => P (snd f)) l :=
      match l with
      | [] => Forall_nil _
      | f :: r => Forall_cons f (ty_ind' (snd f)) (go r)
      end in
    match t with
    | TBit => Hbit
    | TBV w => Hbv w
    | TSInt w => Hsint w
    | TEnum c ms => Henum c ms
    | TProd c fs => Hprod c fs (go fs)
    | TSum g c fs => Hsum g c fs (go fs)
    end.
End TyInd.

Lemma key_eqb_eq a b : key_eqb a b = true <-> a = b.
Proof.
  destruct a, b. unfold key_eqb. cbn. rewrite andb_true_iff, !String.eqb_eq.
  split; [intros [-> ->]|intros [= -> ->]]; auto.
Qed.

Lemma fields_eqb_eq fs : Forall (fun f => forall t, ty_eqb (snd f) t = true <-> snd f = t) fs ->
  forall fs', fields_eqb ty_eqb fs fs' = true <-> fs = fs'.
Proof.
  induction 1 as [|[k t] fs H F IH]; intros [|[k' t'] fs']; cbn; try (split; congruence).
  rewrite !andb_true_iff, key_eqb_eq. cbn in H. rewrite H, IH.
  split; [intros [[-> ->] ->]; auto|intros [= -> -> ->]; auto].
Qed.

Lemma ty_eqb_eq a : forall b, ty_eqb a b = true <-> a = b.
Proof.
  induction a using ty_ind'; intros b; destruct b; cbn; try (split; congruence).
  - rewrite Z.eqb_eq. split; congruence.
  - rewrite Z.eqb_eq. split; congruence.
  - rewrite andb_true_iff, String.eqb_eq, (list_eqb_eq _ emem_eqb emem_eqb_eq).
    split; [intros [-> ->]|intros [= -> ->]]; auto.
  - rewrite andb_true_iff, String.eqb_eq, fields_eqb_eq by auto.
    split; [intros [-> ->]|intros [= -> ->]]; auto.
  - rewrite !andb_true_iff, Bool.eqb_true_iff, String.eqb_eq, fields_eqb_eq by auto.
    split; [intros [[-> ->] ->]|intros [= -> -> ->]]; auto.
Qed.

(** * Positions after sorting *)
Section Rank.
  Context {A : Type} (leb : A -> A -> bool).
  Hypothesis total : forall a b, leb a b = true \/ leb b a = true.
  Hypothesis trans : forall a b c, leb a b = true -> leb b c = true -> leb a c = true.

  Lemma insert_index y l : StronglySorted (le_ leb) l -> forall i z,
    nth_error l i = Some z ->
    nth_error (insert leb y l) (if leb y z then S i else i) = Some z.
  Proof.
    induction 1 as [|a l S IH F]; intros i z E; [destruct i; discriminate|]. cbn.
    destruct (leb y a) eqn:Ya.
    - assert (leb y z = true) as ->.
      { destruct i; [injection E as ->; auto|]. cbn in E. apply nth_error_In in E.
        rewrite Forall_forall in F. eapply trans; [eauto|]. apply F; auto. }
      exact E.
    - destruct i as [|i]; [injection E as ->; rewrite Ya; auto|].
      cbn in E. specialize (IH _ _ E). destruct (leb y z); auto.
  Qed.

  Lemma insert_self x l : StronglySorted (le_ leb) l ->
    nth_error (insert leb x l) (length (filter (fun y => negb (leb x y)) l)) = Some x.
  Proof.
    induction 1 as [|a l S IH F]; cbn; auto. destruct (leb x a) eqn:Xa; cbn [negb length]; auto.
    assert (filter (fun y => negb (leb x y)) l = []) as ->; auto.
    rewrite Forall_forall in F. clear - F Xa trans.
    induction l as [|b l IH]; auto. cbn. rewrite (trans x a b); auto.
    - apply IH. intros; apply F; right; auto.
    - apply F; left; auto.
  Qed.

  Lemma filter_perm_length (f : A -> bool) l l' :
    Permutation l l' -> length (filter f l) = length (filter f l').
  Proof.
    induction 1; cbn; auto; try (destruct (f x); cbn; lia).
    - destruct (f x), (f y); auto.
    - congruence.
  Qed.

  Lemma isort_index pre x post :
    nth_error (isort leb (pre ++ x :: post))
      (length (filter (fun y => negb (leb x y)) post) + length (filter (fun y => leb y x) pre))
    = Some x.
  Proof.
    induction pre as [|y pre IH]; cbn.
    - rewrite Nat.add_0_r. rewrite <- (filter_perm_length _ _ _ (isort_perm leb post)).
      apply insert_self, isort_sorted; auto.
    - assert (StronglySorted (le_ leb) (isort leb (pre ++ x :: post))) as S
        by (apply isort_sorted; auto).
      pose proof (insert_index y _ S _ _ IH) as E. destruct (leb y x); cbn [length]; auto.
      rewrite <- E. f_equal. lia.
  Qed.
End Rank.

Lemma str_leb_total a b : str_leb a b = true \/ str_leb b a = true.
Proof.
  unfold str_leb. rewrite (String.compare_antisym b a). destruct (String.compare a b); cbn; auto.
Qed.

Lemma str_leb_spec a b : str_leb a b = true <-> String.compare a b = Lt \/ a = b.
Proof.
  unfold str_leb. rewrite <- str_compare_eq.
  destruct (String.compare a b); intuition congruence.
Qed.

Lemma str_leb_trans a b c : str_leb a b = true -> str_leb b c = true -> str_leb a c = true.
Proof.
  rewrite !str_leb_spec. intros [H| ->] [H'| ->]; auto.
  left. eapply str_compare_trans_lt; eauto.
Qed.

Lemma filter_split (A : Type) (f g h : A -> bool) l :
  (forall x, f x = g x || h x) -> (forall x, g x && h x = false) ->
  length (filter f l) = (length (filter g l) + length (filter h l))%nat.
Proof.
  intros H D. induction l as [|x l IH]; auto. cbn. rewrite H. specialize (D x).
  destruct (g x), (h x); cbn in *; try discriminate; lia.
Qed.

Lemma rank_index pre k u post :
  nth_error (isort field_leb (pre ++ (k, u) :: post)) (Z.to_nat (rank_at pre k post)) = Some (k, u).
Proof.
  rewrite <- (isort_index field_leb) with (pre := pre) (x := (k, u)) (post := post).
  2:{ intros; apply str_leb_total. } 2:{ intros a b c; apply str_leb_trans. }
  f_equal. unfold rank_at. rewrite filter_app, app_length.
  rewrite (filter_split _ (fun y => field_leb y (k, u))
             (fun f => repr_lt (krepr (fst f)) (krepr k))
             (fun f => String.eqb (krepr (fst f)) (krepr k)) pre).
  - replace (filter (fun y => negb (field_leb (k, u) y)) post) with
      (filter (fun f : key * ty => repr_lt (krepr (fst f)) (krepr k)) post); [lia|].
    apply filter_ext. intros [k' u']. unfold field_leb, str_leb, repr_lt. cbn.
    rewrite (String.compare_antisym (krepr k') (krepr k)).
    destruct (String.compare (krepr k) (krepr k')); reflexivity.
  - intros [k' u']. unfold field_leb, str_leb, repr_lt. cbn.
    destruct (String.compare (krepr k') (krepr k)) eqn:E; cbn; auto.
    + apply str_compare_eq in E. rewrite E, String.eqb_refl. auto.
    + destruct (String.eqb_spec (krepr k') (krepr k)) as [Eq|]; auto.
      rewrite Eq, str_compare_refl in E. discriminate.
  - intros [k' u']. unfold repr_lt. cbn.
    destruct (String.eqb_spec (krepr k') (krepr k)) as [Eq|]; [|apply andb_false_r].
    rewrite Eq, str_compare_refl. auto.
Qed.

Lemma rank_nonneg pre k post : 0 <= rank_at pre k post.
Proof. unfold rank_at. lia. Qed.

Lemma rank_iff fs i k u : no_dup_keys fs ->
  nth_error (isort field_leb fs) i = Some (k, u) <->
  exists pre post, fs = pre ++ (k, u) :: post /\ Z.of_nat i = rank_at pre k post.
Proof.
  intros ND. split.
  - intros E. assert (In (k, u) fs) as I.
    { apply (isort_In1 field_leb). eapply nth_error_In; eauto. }
    apply in_split in I as (pre & post & ->). exists pre, post. split; auto.
    pose proof (rank_index pre k u post) as E2.
    assert (NoDup (isort field_leb (pre ++ (k, u) :: post))) as ND'.
    { eapply Permutation_NoDup; [symmetry; apply isort_perm|]. eapply NoDup_map_inv; eauto. }
    assert (i = Z.to_nat (rank_at pre k post)) as ->.
    { eapply (proj1 (NoDup_nth_error _) ND'); [|congruence]. apply nth_error_Some. congruence. }
    pose proof (rank_nonneg pre k post). lia.
  - intros (pre & post & -> & E). rewrite <- (rank_index pre k u post). f_equal. lia.
Qed.

Lemma rank_lt fs pre k u post : fs = pre ++ (k, u) :: post ->
  0 <= rank_at pre k post < Z.of_nat (length fs).
Proof.
  intros ->. pose proof (rank_nonneg pre k post). split; auto.
  pose proof (rank_index pre k u post) as E.
  assert (Z.to_nat (rank_at pre k post) < length (isort field_leb (pre ++ (k, u) :: post)))%nat as L
    by (apply nth_error_Some; congruence).
  rewrite isort_length in L. lia.
Qed.

(** * Widths *)
Lemma bits_for_nonneg n : 0 <= bits_for n.
Proof. apply Z.log2_up_nonneg. Qed.

Lemma Forall_Forall2_unique (A B : Type) (P : A -> B -> Prop) l :
  Forall (fun x => forall a b, P x a -> P x b -> a = b) l ->
  forall l1 l2, Forall2 P l l1 -> Forall2 P l l2 -> l1 = l2.
Proof.
  induction 1 as [|x l H F IH]; intros l1 l2 A1 A2; inversion A1; inversion A2; subst; auto.
  f_equal; eauto.
Qed.

Lemma swidth_fun t : forall w w', swidth t w -> swidth t w' -> w = w'.
Proof.
  induction t as [| | |c ms|c fs IH|g c fs IH] using ty_ind'; intros w1 w2 A B.
  1-3: inversion A; inversion B; congruence.
  - inversion A as [| | |? ? mx [m1 E1] M1| |]; inversion B as [| | |? ? mx' [m2 E2] M2| |]; subst.
    assert (mx = mx'); [|congruence]. apply Z.le_antisymm; eauto.
  - inversion A as [| | | |? ? ws F1|]; inversion B as [| | | |? ? ws' F2|]; subst.
    f_equal. exact (Forall_Forall2_unique _ _ (fun f w => swidth (snd f) w) fs IH _ _ F1 F2).
  - inversion A as [| | | | |? ? ? ws F1]; inversion B as [| | | | |? ? ? ws' F2]; subst.
    do 2 f_equal. exact (Forall_Forall2_unique _ _ (fun f w => swidth (snd f) w) fs IH _ _ F1 F2).
Qed.

(** * The relation between a type and an assembler object *)
Definition vrel (R : list Z -> Z -> Prop) (ops : list Z) (w : Z) (v : validator) : Prop :=
  R ops w /\ exists w0, R ops w0 /\ gen_rel w0 ops v.

Inductive asm_rel (R : list Z -> Z -> Prop) : ty -> asm -> Prop :=
| ar_bit : asm_rel R TBit (AField TBit 1)
| ar_bv w : asm_rel R (TBV w) (AField (TBV w) w)
| ar_sint w : asm_rel R (TSInt w) (AField (TSInt w) w)
| ar_enum c ms tbl ops w v :
    enum_table ms = Ok tbl -> ops = isort Z.leb (map snd tbl) ->
    w = bit_length (zmax (map snd tbl)) ->
    vrel R ops w v -> asm_rel R (TEnum c ms) (AEnum tbl w v)
| ar_prod c fs w fs' :
    tup_rel R 0 fs w fs' -> asm_rel R (TProd c fs) (ATuple w fs')
| ar_sum g c fs sorted tagw pw fs' gs tv :
    tagw = bit_length (Z.of_nat (length fs) - 1) ->
    sorted = isort field_leb fs ->
    sum_rel R tagw 0 0 sorted fs' pw ->
    (forall u v lay a, In (u, v, lay, a) gs ->
       lay = (tagw, tagw + a_width a) /\ asm_rel R u a /\
       exists ops, vrel R ops tagw v /\
         (forall x, In x ops <-> exists i k, nth_error sorted i = Some (k, u) /\ x = Z.of_nat i)) ->
    (forall i k u, nth_error sorted i = Some (k, u) ->
       exists v lay a, In (u, v, lay, a) gs) ->
    vrel R (pyrange 0 (Z.of_nat (length fs))) tagw tv ->
    asm_rel R (TSum g c fs) (ASum (tagw + pw) tagw fs' gs tv)
with tup_rel (R : list Z -> Z -> Prop) : Z -> list (key * ty) -> Z -> list (key * (Z * Z) * asm) -> Prop :=
| tr_nil b : tup_rel R b [] b []
| tr_cons b k t r w a rest :
    asm_rel R t a -> tup_rel R (b + a_width a) r w rest ->
    tup_rel R b ((k, t) :: r) w ((k, (b, b + a_width a), a) :: rest)
with sum_rel (R : list Z -> Z -> Prop) : Z -> Z -> Z -> list (key * ty) ->
    list (key * Z * (Z * Z) * asm) -> Z -> Prop :=
| sr_nil tagw tag pw : sum_rel R tagw tag pw [] [] pw
| sr_cons tagw tag pw k t r a rest w :
    asm_rel R t a -> sum_rel R tagw (tag + 1) (Z.max pw (a_width a)) r rest w ->
    sum_rel R tagw tag pw ((k, t) :: r) ((k, tag, (tagw, tagw + a_width a), a) :: rest) w.

Lemma tup_rel_Forall2 R b fs w fs' :
  tup_rel R b fs w fs' ->
  Forall2 (fun f e => fst f = fst (fst e) /\ asm_rel R (snd f) (snd e)) fs fs' /\
  w = b + zsum (map (fun e => a_width (snd e)) fs').
Proof.
  induction 1 as [b|b k t r w a rest Ha Hr [F E]]; cbn.
  - split; [constructor|lia].
  - split; [constructor; auto|]. unfold zsum in *. cbn. lia.
Qed.

Lemma zmaximum_max l : forall pw, 0 <= pw -> fold_left Z.max l pw = Z.max pw (zmaximum l).
Proof.
  induction l as [|x l IH]; intros pw H; cbn; [lia|]. rewrite IH by lia.
  fold (zmaximum l). lia.
Qed.

Lemma zmaximum_nonneg l : 0 <= zmaximum l.
Proof. induction l; cbn; [lia|]. fold (zmaximum l). lia. Qed.

Lemma zmaximum_ge l x : In x l -> x <= zmaximum l.
Proof.
  induction l as [|y l IH]; cbn; [tauto|]. fold (zmaximum l). intros [<-|I]; [lia|].
  specialize (IH I). lia.
Qed.

Lemma zmaximum_perm l l' : Permutation l l' -> zmaximum l = zmaximum l'.
Proof.
  induction 1; cbn; auto; try (fold (zmaximum l) (zmaximum l')); try lia.
Qed.

Lemma sum_rel_spec R tagw tag pw fs fs' w :
  sum_rel R tagw tag pw fs fs' w ->
  w = fold_left Z.max (map (fun e => a_width (snd e)) fs') pw /\
  length fs' = length fs /\
  forall i k t, nth_error fs i = Some (k, t) <->
    exists a, nth_error fs' i = Some (k, tag + Z.of_nat i, (tagw, tagw + a_width a), a) /\
              nth_error fs i = Some (k, t) /\ asm_rel R t a.
Proof.
  induction 1 as [tagw tag pw|tagw tag pw k t r a rest w Ha Hr (E & L & H)]; cbn.
  - split; auto. split; auto. intros i k t. split; [destruct i; discriminate|].
    intros (a & E & _). destruct i; discriminate.
  - split; auto. split; [lia|]. intros i k' t'. split; [|intros (x & ? & ? & ?); auto].
    destruct i as [|i]; cbn.
    + intros [= <- <-]. exists a. rewrite Z.add_0_r. auto.
    + intros Hi. pose proof Hi as Hi'. apply H in Hi' as (a' & A & _ & B).
      exists a'. split; [|auto].
      assert (tag + 1 + Z.of_nat i = tag + Z.pos (Pos.of_succ_nat i)) as <- by lia. auto.
Qed.

Lemma sum_rel_keys R tagw tag pw fs fs' w :
  sum_rel R tagw tag pw fs fs' w -> map (fun e => fst (fst (fst e))) fs' = map fst fs.
Proof. induction 1; cbn; congruence. Qed.

Lemma sum_rel_tags R tagw tag pw fs fs' w :
  sum_rel R tagw tag pw fs fs' w ->
  map (fun e => snd (fst (fst e))) fs' = pyrange tag (tag + Z.of_nat (length fs)).
Proof.
  induction 1; cbn [map length].
  - rewrite pyrange_nil by (cbn; lia). auto.
  - rewrite pyrange_cons by lia. cbn. f_equal. rewrite IHsum_rel. f_equal. lia.
Qed.

Lemma wf_members_prod c fs k t : wf_ty (TProd c fs) -> In (k, t) fs -> wf_ty t.
Proof.
  inversion 1 as [| | | |? ? N F|]; subst. rewrite Forall_forall in F. intros I. apply (F _ I).
Qed.

Lemma wf_members_sum g c fs k t : wf_ty (TSum g c fs) -> In (k, t) fs -> wf_ty t.
Proof.
  inversion 1 as [| | | | |? ? ? E N F]; subst. rewrite Forall_forall in F. intros I. apply (F _ I).
Qed.

(** Widths agree with the specification. *)
Lemma asm_rel_width R t : wf_ty t -> forall a, asm_rel R t a ->
  swidth t (a_width a) /\ 0 <= a_width a.
Proof.
  induction t as [| | |c ms|c fs IH|g c fs IH] using ty_ind'; intros W a A; inversion A; subst; cbn [a_width].
  - split; [constructor|lia].
  - split; [constructor|]. inversion W; lia.
  - split; [constructor|]. inversion W; lia.
  - split; [|apply bit_length_nonneg]. eapply enum_facts; eauto.
  - apply tup_rel_Forall2 in H2 as [F ->]. rewrite Z.add_0_l.
    assert (Forall (fun f => wf_ty (snd f)) fs) as WF by (inversion W; auto).
    assert (Forall2 (fun f w => swidth (snd f) w) fs
              (map (fun e : key * (Z * Z) * asm => a_width (snd e)) fs') /\
            0 <= zsum (map (fun e : key * (Z * Z) * asm => a_width (snd e)) fs')) as [S P].
    { clear A W. revert IH WF.
      induction F as [|[k t] [[k' l] a] fs fs' [E Ha] F IHF]; intros IH WF.
      - split; [constructor|unfold zsum; cbn; lia].
      - inversion IH as [|? ? IH1 IH2]; inversion WF as [|? ? W1 W2]; subst. cbn in *.
        destruct (IH1 W1 a Ha) as [S1 P1]. destruct (IHF IH2 W2) as [S2 P2].
        split; [constructor; auto|]. unfold zsum in *; cbn; lia. }
    split; [constructor; auto|auto].
  - match goal with HS : sum_rel _ _ _ _ _ _ _ |- _ =>
      pose proof (sum_rel_spec _ _ _ _ _ _ _ HS) as (-> & L & H) end.
    rewrite zmaximum_max by lia.
    assert (fs <> []) as NE by (inversion W; auto).
    assert (forall i k t, nth_error fs i = Some (k, t) -> exists w, swidth t w /\ 0 <= w) as SW.
    { intros i k t E. apply nth_error_In in E. pose proof E as E2.
      apply (isort_In2 field_leb) in E. apply In_nth_error in E as [j E].
      apply H in E as (a & _ & _ & Ha). rewrite Forall_forall in IH.
      exists (a_width a). apply (IH _ E2); auto. eapply wf_members_sum; eauto. }
    assert (exists ws, Forall2 (fun f w => swidth (snd f) w) fs ws) as [ws F].
    { clear - SW. induction fs as [|[k t] fs IH]; [exists []; constructor|].
      destruct (SW O k t eq_refl) as (w & Sw & _).
      destruct IH as [ws F]; [intros i; apply (SW (S i))|]. exists (w :: ws). constructor; auto. }
    assert (zmaximum (map (fun e => a_width (snd e)) fs') = zmaximum ws) as ->.
    { apply Z.le_antisymm.
      - assert (forall x, In x (map (fun e : key * Z * (Z * Z) * asm => a_width (snd e)) fs') ->
                 In x ws) as I.
        { intros x I. apply in_map_iff in I as (e & <- & I). apply In_nth_error in I as [i I].
          assert (i < length (isort field_leb fs))%nat as Li by (rewrite <- L; apply nth_error_Some; congruence).
          apply nth_error_Some in Li. destruct (nth_error (isort field_leb fs) i) as [[k t]|] eqn:E; [|congruence].
          pose proof E as E'. apply H in E' as (a & E2 & _ & Ha). rewrite I in E2. injection E2 as ->.
          apply nth_error_In in E. apply (isort_In1 field_leb) in E. cbn [snd].
          assert (swidth t (a_width a)) as S1.
          { rewrite Forall_forall in IH. apply (IH _ E); auto. eapply wf_members_sum; eauto. }
          clear - F E S1. induction F as [|[k' t'] w fs ws S F IH]; [destruct E|].
          destruct E as [[= -> ->]|E]; [left; eapply swidth_fun; eauto|right; auto]. }
        clear - I. induction (map _ fs') as [|y l IH]; cbn; [apply zmaximum_nonneg|].
        fold (zmaximum l). apply Z.max_lub; [apply zmaximum_ge, I; left; auto|].
        apply IH. intros; apply I; right; auto.
      - assert (forall x, In x ws -> In x (map (fun e : key * Z * (Z * Z) * asm => a_width (snd e)) fs')) as I.
        { intros x I. apply In_nth_error in I as [i I].
          assert (exists f, nth_error fs i = Some f /\ swidth (snd f) x) as ([k t] & Ei & Sx).
          { clear - F I. revert i I. induction F as [|f w fs ws S F IH]; intros [|i] I; try discriminate.
            - injection I as ->. exists f. auto.
            - apply IH; auto. }
          apply nth_error_In in Ei. pose proof Ei as Ei'. apply (isort_In2 field_leb) in Ei.
          apply In_nth_error in Ei as [j Ej]. apply H in Ej as (a & E2 & _ & Ha).
          assert (swidth t (a_width a)) as S1.
          { rewrite Forall_forall in IH. apply (IH _ Ei'); auto. eapply wf_members_sum; eauto. }
          apply in_map_iff. eexists. split; [|eapply nth_error_In; eauto]. cbn.
          eapply swidth_fun; eauto. }
        clear - I. induction ws as [|y l IH]; cbn; [apply zmaximum_nonneg|].
        fold (zmaximum l). apply Z.max_lub; [apply zmaximum_ge, I; left; auto|].
        apply IH. intros; apply I; right; auto. }
    pose proof (zmaximum_nonneg ws).
    rewrite Z.max_r by lia. rewrite <- bits_for_bit_length.
    2:{ destruct fs; [congruence|]. cbn [length]. lia. }
    split; [constructor; auto|]. pose proof (bits_for_nonneg (Z.of_nat (length fs) - 1)). lia.
Qed.

(** * Requests are well formed *)
Lemma swidth_nonneg t : wf_ty t -> forall w, swidth t w -> 0 <= w.
Proof.
  induction t as [| |sw|c ms|c fs IH|g c fs IH] using ty_ind'; intros W w' S; inversion S; subst.
  - lia.
  - inversion W; lia.
  - inversion W; lia.
  - apply bits_for_nonneg.
  - assert (Forall (fun f => wf_ty (snd f)) fs) as WF by (inversion W; auto).
    match goal with HF : Forall2 _ _ _ |- _ => clear - IH WF HF; revert IH WF;
      induction HF as [|[k t] w fs ws S F IHF] end; intros IH WF; unfold zsum in *; cbn in *; [lia|].
    inversion IH as [|? ? I1 I2]; inversion WF as [|? ? W1 W2]; subst. cbn in *.
    specialize (I1 W1 _ S). specialize (IHF I2 W2). lia.
  - pose proof (zmaximum_nonneg ws). pose proof (bits_for_nonneg (Z.of_nat (length fs) - 1)). lia.
Qed.

Lemma lt_pow2_bits_for n c : 0 <= c <= n -> c < 2 ^ bits_for n.
Proof.
  intros. rewrite bits_for_bit_length by lia. pose proof (bit_length_lt n). lia.
Qed.

Lemma request_good t ops w : request t ops w -> wf_ty t ->
  increasing ops /\ ops <> [] /\ 0 <= w /\ fits w ops.
Proof.
  induction 1 as [c ms ops w I H S|g c fs u ops I NE H|g c fs ops I H|c fs k t ops w I Rq IH
                 |g c fs k t ops w I Rq IH|t ops w a b Rq IH NC NO L AB H Na Nb]; intros W.
  - destruct (enum_table_spec c ms W) as (tbl & E & NE & _).
    destruct (enum_facts c ms tbl W E) as (_ & _ & _ & Hc & _ & S' & F).
    assert (w = bit_length (zmax (map snd tbl))) as -> by (eapply swidth_fun; eauto).
    assert (forall x, In x ops <-> In x (map snd tbl)) as Hops.
    { intros x. rewrite H. split.
      - intros [m C]. apply Hc in C. apply (in_map snd) in C. exact C.
      - intros J. apply in_map_iff in J as ([m y] & <- & J). exists m. apply Hc. exact J. }
    split; auto. split; [|split].
    + intros ->. destruct tbl as [|[m y] tbl]; [congruence|]. apply (Hops y). left; auto.
    + apply bit_length_nonneg.
    + intros x J. apply F, Hops, J.
  - split; auto. split; auto. split; [apply bits_for_nonneg|].
    intros x J. apply H in J as (pre & k & post & E & ->).
    pose proof (rank_lt _ _ _ _ _ E). split; [lia|]. apply lt_pow2_bits_for. lia.
  - split; auto. assert (fs <> []) by (inversion W; auto).
    split; [|split; [apply bits_for_nonneg|]].
    + intros ->. destruct fs; [congruence|]. apply (H 0). cbn [length]. lia.
    + intros x J. apply H in J. split; [lia|]. apply lt_pow2_bits_for. lia.
  - apply IH. eapply wf_members_prod; eauto.
  - apply IH. eapply wf_members_sum; eauto.
  - destruct (IH W) as (_ & _ & Hw & F). fold (pyrange a (b + 1)).
    split; [apply pyrange_increasing|]. split; [|split; auto].
    + rewrite pyrange_cons by lia. congruence.
    + intros x J. apply F, H. apply pyrange_In in J. lia.
Qed.

(** The requests of a list of types. *)
Definition reqs (ts : list ty) (ops : list Z) (w : Z) : Prop :=
  exists t, In t ts /\ request t ops w.

Lemma reqs_good ts : Forall wf_ty ts -> good_request (reqs ts).
Proof.
  intros F ops w (t & I & Rq). rewrite Forall_forall in F. eapply request_good; eauto.
Qed.

Lemma reqs_run_closed ts : run_closed (reqs ts).
Proof.
  intros ops w a b (t & I & Rq) ? ? ? ? ? ? ?. exists t. split; auto.
  apply (rq_run t ops w a b); auto.
Qed.

(** * Groups of members by type *)
Definition group_go := fix go (fs : list (key * ty)) (tag : Z) (acc : list (ty * list Z)) :=
  match fs with
  | [] => acc
  | (_, t) :: r =>
      let old := match dget ty_eqb acc t with Some l => l | None => [] end in
      go r (tag + 1) (dset ty_eqb acc t (old ++ [tag]))
  end.

Lemma dset_keys_NoDup (K V : Type) (eqb : K -> K -> bool) :
  (forall a b, eqb a b = true <-> a = b) ->
  forall (d : list (K * V)) k v, NoDup (map fst d) -> NoDup (map fst (dset eqb d k v)).
Proof.
  intros H d k v. induction d as [|[a b] d IH]; cbn; intros ND; [constructor; auto|].
  inversion ND; subst. destruct (eqb k a) eqn:E; cbn; constructor; auto.
  intros I. apply in_map_iff in I as ([a' b'] & Ea & I). cbn in Ea. subst a'.
  apply (In_dset eqb H) in I as [[= -> ->]|I].
  - assert (eqb k k = true) by (apply H; auto). congruence.
  - apply H2. apply (in_map fst) in I. exact I.
Qed.

Lemma group_go_spec fs : forall tag acc,
  NoDup (map fst acc) ->
  (forall u l, In (u, l) acc -> l <> [] /\ increasing l /\ forall x, In x l -> x < tag) ->
  NoDup (map fst (group_go fs tag acc)) /\
  (forall u l, In (u, l) (group_go fs tag acc) ->
     l <> [] /\ increasing l /\
     forall x, In x l <-> (exists l0, In (u, l0) acc /\ In x l0) \/
        exists i k, nth_error fs i = Some (k, u) /\ x = tag + Z.of_nat i) /\
  (forall u, In u (map fst acc) -> In u (map fst (group_go fs tag acc))) /\
  (forall i k u, nth_error fs i = Some (k, u) -> In u (map fst (group_go fs tag acc))).
Proof.
  induction fs as [|[k t] fs IH]; intros tag acc ND H; cbn [group_go].
  - split; auto. split; [|split; auto; intros [|i]; discriminate].
    intros u l I. destruct (H u l I) as (A & B & C). split; auto. split; auto.
    intros x. split.
    + intros J. left. exists l. auto.
    + intros [(l0 & I0 & J)|(i & k & E & _)]; [|destruct i; discriminate].
      assert (l = l0); [|congruence].
      apply (dget_NoDup ty_eqb ty_eqb_eq) in I, I0; auto. congruence.
  - set (old := match dget ty_eqb acc t with Some l => l | None => [] end).
    set (acc' := dset ty_eqb acc t (old ++ [tag])).
    assert (Hold : forall x, In x old <-> exists l0, In (t, l0) acc /\ In x l0).
    { intros x. unfold old. destruct (dget ty_eqb acc t) as [l|] eqn:E.
      - apply (dget_In ty_eqb ty_eqb_eq) in E. split; [eauto|].
        intros (l0 & I0 & J). assert (l = l0); [|congruence].
        apply (dget_NoDup ty_eqb ty_eqb_eq) in E, I0; auto. congruence.
      - apply (dget_None ty_eqb ty_eqb_eq) in E. split; [intros []|].
        intros (l0 & I0 & _). destruct E. apply (in_map fst) in I0. exact I0. }
    assert (increasing old /\ forall x, In x old -> x < tag) as [Io Lo].
    { unfold old. destruct (dget ty_eqb acc t) as [l|] eqn:E.
      - apply (dget_In ty_eqb ty_eqb_eq) in E. apply H in E as (_ & ? & ?). auto.
      - split; [constructor|intros ? []]. }
    assert (Hin : forall u l, In (u, l) acc' <-> (u = t /\ l = old ++ [tag]) \/ (u <> t /\ In (u, l) acc)).
    { intros u l. split.
      - intros I. apply (dget_NoDup ty_eqb ty_eqb_eq) in I; [|apply dset_keys_NoDup; auto using ty_eqb_eq].
        unfold acc' in I. rewrite (dget_dset ty_eqb ty_eqb_eq) in I.
        destruct (ty_eqb u t) eqn:E.
        + apply ty_eqb_eq in E as ->. injection I as <-. auto.
        + right. split; [intros ->; rewrite (proj2 (ty_eqb_eq t t)) in E; congruence|].
          apply (dget_In ty_eqb ty_eqb_eq) in I. auto.
      - intros [[-> ->]|[N I]]; apply (dget_In ty_eqb ty_eqb_eq); unfold acc';
          rewrite (dget_dset ty_eqb ty_eqb_eq).
        + rewrite (proj2 (ty_eqb_eq t t)); auto.
        + destruct (ty_eqb u t) eqn:E; [apply ty_eqb_eq in E; tauto|].
          apply (dget_NoDup ty_eqb ty_eqb_eq); auto. }
    destruct (IH (tag + 1) acc') as (A & B & C & D).
    + apply dset_keys_NoDup; auto using ty_eqb_eq.
    + intros u l I. apply Hin in I as [[-> ->]|[N I]].
      * split; [destruct old; discriminate|]. split.
        -- clear - Io Lo. induction Io as [|y l S IH F]; cbn; [repeat constructor|].
           constructor; [apply IH; intros; apply Lo; right; auto|].
           apply Forall_app. split; auto. constructor; auto. apply Lo; left; auto.
        -- intros x J. apply in_app_iff in J as [J|[<-|[]]]; [specialize (Lo _ J)|]; lia.
      * destruct (H u l I) as (P & Q & S). split; auto. split; auto. intros x J.
        specialize (S _ J). lia.
    + split; auto. split; [|split].
      * intros u l I. destruct (B u l I) as (P & Q & S). split; auto. split; auto.
        intros x. rewrite S. split.
        -- intros [(l0 & I0 & J)|(i & k' & E & ->)].
           ++ apply Hin in I0 as [[-> ->]|[N I0]]; [|left; eauto].
              apply in_app_iff in J as [J|[<-|[]]].
              ** left. apply Hold; auto.
              ** right. exists O, k. cbn. split; auto. lia.
           ++ right. exists (Datatypes.S i), k'. split; [auto|]. lia.
        -- intros [(l0 & I0 & J)|([|i] & k' & E & ->)].
           ++ left. destruct (ty_eqb u t) eqn:Eu.
              ** apply ty_eqb_eq in Eu as ->. exists (old ++ [tag]). split; [apply Hin; auto|].
                 apply in_app_iff. left. apply Hold. eauto.
              ** exists l0. split; auto. apply Hin. right. split; auto.
                 intros ->. rewrite (proj2 (ty_eqb_eq t t)) in Eu; congruence.
           ++ cbn in E. injection E as -> ->. left. exists (old ++ [tag]).
              split; [apply Hin; auto|]. apply in_app_iff. right. left. lia.
           ++ right. exists i, k'. split; auto. lia.
      * intros u I. apply C. apply in_map_iff in I as ([u' l] & E & I). cbn in E. subst u'.
        destruct (ty_eqb u t) eqn:Eu.
        -- apply ty_eqb_eq in Eu as ->. apply in_map_iff. exists (t, old ++ [tag]). split; auto.
           apply Hin; auto.
        -- apply in_map_iff. exists (u, l). split; auto. apply Hin. right. split; auto.
           intros ->. rewrite (proj2 (ty_eqb_eq t t)) in Eu; congruence.
      * intros [|i] k' u E.
        -- cbn in E. injection E as -> ->. apply C. apply in_map_iff. exists (u, old ++ [tag]).
           split; auto. apply Hin; auto.
        -- eapply D; eauto.
Qed.

Lemma group_by_ty_spec fs :
  (forall u l, In (u, l) (group_by_ty fs) ->
     l <> [] /\ increasing l /\
     forall x, In x l <-> exists i k, nth_error fs i = Some (k, u) /\ x = Z.of_nat i) /\
  (forall i k u, nth_error fs i = Some (k, u) -> exists l, In (u, l) (group_by_ty fs)).
Proof.
  destruct (group_go_spec fs 0 []) as (A & B & C & D); [constructor|intros ? ? []|].
  change (group_by_ty fs) with (group_go fs 0 []). split.
  - intros u l I. destruct (B u l I) as (P & Q & S). split; auto. split; auto.
    intros x. rewrite S. split; [intros [(? & [] & _)|]; auto|auto].
  - intros i k u E. apply D in E. apply in_map_iff in E as ([u' l] & E & I). cbn in E. subst. eauto.
Qed.

(** * Building *)
Definition st_inv (R : list Z -> Z -> Prop) (st : pstate) : Prop :=
  vc_inv R (p_vc st) /\ forall t a, In (t, a) (p_ic st) -> asm_rel R t a.

Definition builds (R : list Z -> Z -> Prop) (b : pstate -> ty -> res (asm * pstate)) (t : ty) : Prop :=
  forall st, st_inv R st -> exists a st', b st t = Ok (a, st') /\ st_inv R st' /\ asm_rel R t a.

Lemma build_tuple_spec R b fs : Forall (fun f => builds R b (snd f)) fs ->
  forall st base, st_inv R st ->
  exists fs' w st', build_tuple b st base fs = Ok (fs', w, st') /\ st_inv R st' /\
                    tup_rel R base fs w fs'.
Proof.
  induction 1 as [|[k t] fs Ht F IH]; intros st base I; cbn [build_tuple].
  - exists [], base, st. repeat split; auto; try apply I. constructor.
  - destruct (Ht st I) as (a & st1 & E & I1 & A). cbn in E. rewrite E. cbn [bind].
    destruct (IH st1 (base + a_width a) I1) as (fs' & w & st2 & E2 & I2 & T).
    rewrite E2. cbn [bind]. do 3 eexists. split; [reflexivity|]. split; auto. constructor; auto.
Qed.

Lemma build_sum_spec R b fs : Forall (fun f => builds R b (snd f)) fs ->
  forall st tagw tag pw, st_inv R st ->
  exists fs' w st', build_sum b st tagw tag pw fs = Ok (fs', w, st') /\ st_inv R st' /\
                    sum_rel R tagw tag pw fs fs' w.
Proof.
  induction 1 as [|[k t] fs Ht F IH]; intros st tagw tag pw I; cbn [build_sum].
  - exists [], pw, st. repeat split; auto; try apply I. constructor.
  - destruct (Ht st I) as (a & st1 & E & I1 & A). cbn in E. rewrite E. cbn [bind].
    destruct (IH st1 tagw (tag + 1) (Z.max pw (a_width a)) I1) as (fs' & w & st2 & E2 & I2 & T).
    rewrite E2. cbn [bind]. do 3 eexists. split; [reflexivity|]. split; auto. constructor; auto.
Qed.

Lemma build_groups_spec R b tagw gs : good_request R -> run_closed R ->
  Forall (fun g => builds R b (fst g) /\ R (snd g) tagw) gs ->
  forall st, st_inv R st ->
  exists gs' st', build_groups b st tagw gs = Ok (gs', st') /\ st_inv R st' /\
    (forall u v lay a, In (u, v, lay, a) gs' ->
       lay = (tagw, tagw + a_width a) /\ asm_rel R u a /\
       exists ops, In (u, ops) gs /\ vrel R ops tagw v) /\
    (forall u ops, In (u, ops) gs -> exists v lay a, In (u, v, lay, a) gs').
Proof.
  intros GR RC. induction 1 as [|[t tags] gs [Ht HR] F IH]; intros st I; cbn [build_groups].
  - exists [], st. repeat split; auto; try apply I; try (intros; cbn in *; tauto).
  - destruct (Ht st I) as (a & st1 & E & I1 & A). cbn in E. rewrite E. cbn [bind].
    cbn in HR. destruct (GR _ _ HR) as (Inc & _).
    destruct (gen_is_valid_spec R (p_vc st1) tags tags tagw GR RC (proj1 I1)
                (isort_increasing_id _ Inc) HR) as (v & c' & w0 & E1 & V1 & R0 & G0).
    rewrite E1. cbn [bind].
    destruct (IH (PS c' (p_ic st1))) as (gs' & st2 & E2 & I2 & P & Q).
    { split; [exact V1|apply I1]. }
    rewrite E2. cbn [bind]. do 2 eexists. split; [reflexivity|]. split; auto. split.
    + intros u v' lay a' [[= <- <- <- <-]|J].
      * split; auto. split; auto. exists tags. split; [left; auto|]. split; eauto.
      * destruct (P _ _ _ _ J) as (P1 & P2 & ops & P3 & P4). split; auto. split; auto.
        exists ops. split; [right; auto|auto].
    + intros u ops [[= <- <-]|J].
      * exists v, (tagw, tagw + a_width a), a. left; auto.
      * destruct (Q _ _ J) as (v' & lay & a' & J'). exists v', lay, a'. right; auto.
Qed.

Lemma depth_field c fs k t : In (k, t) fs ->
  (depth t < depth (TProd c fs))%nat /\ forall g, (depth t < depth (TSum g c fs))%nat.
Proof.
  intros I. cbn.
  assert (depth t <= (fix go (l : list (key * ty)) : nat :=
     match l with [] => O | (_, t) :: r => Nat.max (depth t) (go r) end) fs)%nat.
  { induction fs as [|[k' t'] fs IH]; [destruct I|].
    destruct I as [[= -> ->]|I]; [lia|]. specialize (IH I). lia. }
  split; intros; lia.
Qed.

Lemma build_fuel_spec R n : good_request R -> run_closed R ->
  forall t, (depth t <= n)%nat -> wf_ty t -> (forall ops w, request t ops w -> R ops w) ->
  builds R (build_fuel n) t.
Proof.
  intros GR RC. induction n as [|n IH]; intros t D W Rq st I.
  { destruct t; cbn in D; lia. }
  cbn [build_fuel]. destruct (dget ty_eqb (p_ic st) t) as [a|] eqn:Eg.
  { exists a, st. split; auto. split; auto. apply (dget_In ty_eqb ty_eqb_eq) in Eg. apply I; auto. }
  assert (exists a st', init_asm (build_fuel n) st t = Ok (a, st') /\ st_inv R st' /\ asm_rel R t a)
    as (a & st' & E & I' & A).
  2:{ rewrite E. cbn [bind]. do 2 eexists. split; [reflexivity|]. split; auto.
      split; [apply I'|]. intros t' a' J. cbn in J.
      apply (In_dset ty_eqb ty_eqb_eq) in J as [[= -> ->]|J]; auto. apply I'; auto. }
  destruct t as [|w|w|c ms|c fs|g c fs]; cbn [init_asm].
  - do 2 eexists. split; [reflexivity|]. split; auto. constructor.
  - do 2 eexists. split; [reflexivity|]. split; auto. constructor.
  - do 2 eexists. split; [reflexivity|]. split; auto. constructor.
  - destruct (enum_table_spec c ms W) as (tbl & E & _). rewrite E. cbn [bind].
    destruct (enum_facts c ms tbl W E) as (NE & ND & NS & Hc & _ & S & F).
    assert (R (isort Z.leb (map snd tbl)) (bit_length (zmax (map snd tbl)))) as HR.
    { apply Rq. constructor; auto.
      - apply isort_increasing; auto.
      - intros x. rewrite isort_In. split.
        + intros J. apply in_map_iff in J as ([m y] & <- & J). exists m. apply Hc. exact J.
        + intros [m C]. apply Hc in C. apply (in_map snd) in C. exact C. }
    destruct (gen_is_valid_spec R (p_vc st) (map snd tbl) _ _ GR RC (proj1 I) eq_refl HR)
      as (v & c' & w0 & E1 & V1 & R0 & G0).
    rewrite E1. cbn [bind]. do 2 eexists. split; [reflexivity|]. split.
    + split; [exact V1|apply I].
    + econstructor; eauto. split; eauto.
  - destruct (build_tuple_spec R (build_fuel n) fs) with (st := st) (base := 0)
      as (fs' & w & st' & E & I' & T); auto.
    { apply Forall_forall. intros [k t] J. cbn. apply IH.
      - destruct (depth_field c fs k t J). lia.
      - eapply wf_members_prod; eauto.
      - intros. apply Rq. eapply rq_prod; eauto. }
    rewrite E. cbn [bind]. do 2 eexists. split; [reflexivity|]. split; auto. constructor; auto.
  - assert (NE : fs <> []) by (inversion W; auto).
    assert (ND : no_dup_keys fs) by (inversion W; auto).
    assert (Hs : length (isort field_leb fs) = length fs) by apply isort_length.
    assert (HB : forall k t, In (k, t) fs -> builds R (build_fuel n) t).
    { intros k t J. apply IH.
      - destruct (depth_field c fs k t J) as [_ H]. specialize (H g). lia.
      - eapply wf_members_sum; eauto.
      - intros. apply Rq. eapply rq_sum; eauto. }
    assert (0 <= Z.of_nat (length fs) - 1) as Hn by (destruct fs; [congruence|cbn [length]; lia]).
    destruct (isort field_leb fs) as [|f0 l0] eqn:Es.
    { cbn in Hs. lia. }
    rewrite <- Es in *. clear f0 l0 Es.
    destruct (build_sum_spec R (build_fuel n) (isort field_leb fs))
      with (st := st) (tagw := bit_length (Z.of_nat (length fs) - 1)) (tag := 0) (pw := 0)
      as (fs' & pw & st1 & E1 & I1 & S1); auto.
    { apply Forall_forall. intros [k t] J. apply (isort_In1 field_leb) in J. cbn. eauto. }
    rewrite E1. cbn [bind].
    destruct (group_by_ty_spec (isort field_leb fs)) as [G1 G2].
    destruct (build_groups_spec R (build_fuel n) (bit_length (Z.of_nat (length fs) - 1))
                (group_by_ty (isort field_leb fs)) GR RC) with (st := st1)
      as (gs & st2 & E2 & I2 & P2 & Q2); auto.
    { apply Forall_forall. intros [u l] J. cbn. destruct (G1 _ _ J) as (A1 & A2 & A3). split.
      - destruct l as [|x l]; [congruence|].
        destruct (proj1 (A3 x) (or_introl eq_refl)) as (i & k & Ei & _).
        apply nth_error_In in Ei. apply (isort_In1 field_leb) in Ei. eauto.
      - apply Rq. rewrite <- bits_for_bit_length by auto. apply rq_group with (u := u); auto.
        intros x. rewrite A3. split.
        + intros (i & k & Ei & ->). apply rank_iff in Ei as (pre & post & ? & ?); auto.
          exists pre, k, post. auto.
        + intros (pre & k & post & E & ->). exists (Z.to_nat (rank_at pre k post)), k.
          pose proof (rank_nonneg pre k post). split; [|lia].
          rewrite E. apply rank_index. }
    rewrite E2. cbn [bind].
    assert (R (pyrange 0 (Z.of_nat (length fs))) (bit_length (Z.of_nat (length fs) - 1))) as HR.
    { apply Rq. rewrite <- bits_for_bit_length by auto. apply rq_tags.
      - apply pyrange_increasing.
      - intros. apply pyrange_In. }
    pose proof (sum_rel_tags _ _ _ _ _ _ _ S1) as Ht. rewrite Hs in Ht. cbn [Z.add] in Ht.
    assert (isort Z.leb (map (fun e => snd (fst (fst e))) fs') =
            pyrange 0 (Z.of_nat (length fs))) as Hi.
    { rewrite Ht. apply isort_increasing_id, pyrange_increasing. }
    destruct (gen_is_valid_spec R (p_vc st2) _ _ _ GR RC (proj1 I2) Hi HR)
      as (v & c' & w0 & E3 & V3 & R0 & G0).
    rewrite E3. cbn [bind]. do 2 eexists. split; [reflexivity|]. split.
    + split; [exact V3|apply I2].
    + eapply ar_sum; eauto.
      * intros u v' lay a' J. destruct (P2 _ _ _ _ J) as (B1 & B2 & ops & B3 & B4).
        split; auto. split; auto. exists ops. split; auto. apply G1; auto.
      * intros i k u Ei. destruct (G2 _ _ _ Ei) as [l J]. eauto.
      * split; eauto.
Qed.

(** Every history of well-formed requests leaves the invariant, and building
    never fails. *)
Lemma run_history_inv R h : good_request R -> run_closed R ->
  Forall wf_ty h -> (forall t ops w, In t h -> request t ops w -> R ops w) ->
  forall st, st_inv R st -> st_inv R (run_history st h).
Proof.
  intros GR RC. induction h as [|t h IH]; intros W Rq st I; cbn [run_history]; auto.
  inversion W; subst.
  destruct (build_fuel_spec R (depth t) GR RC t) with (st := st) as (a & st' & E & I' & _); auto.
  { intros. eapply Rq; eauto. left; auto. }
  unfold build. rewrite E. apply IH; auto. intros. eapply Rq; eauto. right; auto.
Qed.

Lemma st_inv_ps0 R : st_inv R ps0.
Proof. split; intros ? ? []. Qed.

Lemma build_history h t : Forall wf_ty (t :: h) ->
  exists a st', build (run_history ps0 h) t = Ok (a, st') /\ asm_rel (reqs (t :: h)) t a.
Proof.
  intros W. inversion W; subst.
  destruct (build_fuel_spec (reqs (t :: h)) (depth t) (reqs_good _ W) (reqs_run_closed _) t)
    with (st := run_history ps0 h) as (a & st' & E & _ & A); auto.
  - intros ops w Rq. exists t. split; auto. left; auto.
  - apply run_history_inv; auto using reqs_good, reqs_run_closed, st_inv_ps0.
    intros t' ops w J Rq. exists t'. split; auto. right; auto.
  - exists a, st'. auto.
Qed.
