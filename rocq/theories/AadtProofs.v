(** Lemmas about AssembledADT. *)
From Coq Require Import String ZArith List Bool Lia Permutation Sorted.
From Verif Require Import Base BaseLemmas AsmModel AsmSpec AsmValid AsmEnum AsmBuild AsmProofs AsmSub AsmMore AadtModel.
Import ListNotations.
Open Scope Z_scope.

Lemma somes_app A (a b : list (option A)) : somes (a ++ b) = somes a ++ somes b.
Proof. induction a as [|[x|] a IH]; cbn; auto. f_equal; auto. Qed.
Lemma somes_none A n : somes (repeat (@None A) n) = [].
Proof. induction n; cbn; auto. Qed.
Lemma somes_some A (x : A) n : somes (repeat (Some x) n) = repeat x n.
Proof. induction n; cbn; auto. f_equal; auto. Qed.

(** Concatenation as arithmetic. *)
Definition bv_ok (b : bv) : Prop := 0 <= fst b /\ 0 <= snd b < 2 ^ fst b.

Lemma bv_concat_ok x y : bv_ok x -> bv_ok y ->
  bv_concat x y = (fst x + fst y, snd x + 2 ^ fst x * snd y) /\ bv_ok (bv_concat x y).
Proof.
  intros [Hx Rx] [Hy Ry]. unfold bv_concat. rewrite lor_shiftl_add by auto.
  split; auto. split; cbn [fst snd]; [lia|]. rewrite pow2_split by auto.
  pose proof (pow2_pos _ Hx). nia.
Qed.

Fixpoint cat (l : list bv) : bv :=
  match l with [] => (0, 0) | x :: r => (fst x + fst (cat r), snd x + 2 ^ fst x * snd (cat r)) end.

Lemma cat_ok l : Forall bv_ok l -> bv_ok (cat l).
Proof.
  induction 1 as [|x l [Hx Rx] F IH]; cbn [cat].
  - split; cbn; lia.
  - destruct IH as [Hc Rc]. split; cbn [fst snd]; [lia|]. rewrite pow2_split by auto.
    pose proof (pow2_pos _ Hx). nia.
Qed.

Lemma cat_app a b : Forall bv_ok a -> Forall bv_ok b ->
  cat (a ++ b) = (fst (cat a) + fst (cat b), snd (cat a) + 2 ^ fst (cat a) * snd (cat b)).
Proof.
  intros Fa Fb. induction Fa as [|x a Hx Fa IH]; cbn [cat app fst snd].
  - change (2 ^ 0) with 1. rewrite Z.mul_1_l, !Z.add_0_l. destruct (cat b); auto.
  - rewrite IH. cbn [fst snd]. destruct Hx as [Hx _]. destruct (cat_ok _ Fa) as [Ha _].
    rewrite pow2_split by auto. f_equal; ring.
Qed.

Lemma fold_concat l : Forall bv_ok l -> forall x, bv_ok x ->
  fold_left bv_concat l x = cat (x :: l).
Proof.
  induction 1 as [|y l Hy F IH]; intros x Hx; cbn [fold_left].
  - cbn [cat fst snd]. rewrite Z.mul_0_r, !Z.add_0_r. destruct x; auto.
  - destruct (bv_concat_ok x y Hx Hy) as [E O]. rewrite (IH _ O), E. cbn [cat fst snd].
    destruct Hx as [Hx _], Hy as [Hy _]. rewrite pow2_split by auto. f_equal; ring.
Qed.

Lemma reduce_concat_ok l : l <> [] -> Forall bv_ok l -> reduce_concat l = Ok (cat l).
Proof.
  destruct l as [|x l]; [congruence|]. intros _ F. inversion F; subst. cbn [reduce_concat].
  rewrite fold_concat; auto.
Qed.

(** Writing the next range of a list whose first part is finished. *)
Lemma slot_set_next done rest lo hi v : length done = Z.to_nat lo -> 0 <= lo -> lo < hi ->
  hi - lo <= Z.of_nat (length rest) ->
  slot_set (done ++ rest) lo hi v =
  (done ++ Some v :: repeat None (Z.to_nat (hi - lo - 1))) ++ skipn (Z.to_nat (hi - lo)) rest.
Proof.
  intros L P H N. unfold slot_set. rewrite firstn_app, <- L, firstn_all, Nat.sub_diag. cbn [firstn].
  rewrite app_nil_r, <- app_assoc. f_equal. cbn [app]. f_equal.
  replace (hi - (lo + 1)) with (hi - lo - 1) by lia. f_equal.
  rewrite skipn_app. rewrite skipn_all2 by lia. cbn [app].
  replace (Z.to_nat hi - length done)%nat with (Z.to_nat (hi - lo)) by lia. auto.
Qed.

(** Writing a range into a gap of defaults after the beginning. *)
Lemma bv_ok_width t w x v J : wf_ty t -> swidth t w -> enc J t x v -> bv_ok (w, x).
Proof.
  intros W S E. split; cbn [fst snd]; [eapply swidth_nonneg; eauto|eapply enc_range; eauto].
Qed.

(** ** Products *)
Inductive arg_for (J : Z -> Prop) (t : ty) (v : val) : farg -> Prop :=
| af_val : has_ty t v -> nonneg_signed t v -> arg_for J t v (FAdt v)
| af_leaf : has_ty t v -> (exists w, t = TSInt w) -> arg_for J t v (FAdt v)
| af_word w x : swidth t w -> enc J t x v -> arg_for J t v (FWord w x).

Lemma field_new_spec R (J : Z -> Prop) t a v x : J 0 -> wf_ty t -> asm_rel R t a -> arg_for J t v x ->
  exists z, field_new t a x = Ok (a_width a, z) /\ enc J t z v.
Proof.
  intros J0 W A AF. destruct (asm_rel_width R t W a A) as [S P].
  inversion AF as [H N|H [w ->]|w z Sw E]; subst x; cbn [field_new].
  - destruct (assemble_spec R t a v W A H N) as (op & E & C & _).
    assert (enc J t op v) as C' by (eapply enc_weaken; [|exact C]; intros j ->; auto).
    destruct H; inversion A; subst; cbn [a_width].
    + eexists. split; [reflexivity|]. constructor.
    + eexists. split; [reflexivity|]. constructor; auto.
    + eexists. split; [reflexivity|]. constructor; auto.
    + rewrite E. cbn [bind]. eauto.
    + rewrite E. cbn [bind]. eauto.
    + rewrite E. cbn [bind]. eauto.
  - inversion H; inversion A; subst. cbn [field_new a_width]. eexists. split; [reflexivity|]. constructor; auto.
  - assert (w = a_width a) as -> by (eapply swidth_fun; eauto). rewrite Z.eqb_refl. eauto.
Qed.

Lemma new_fields_spec R (J : Z -> Prop) b fs w fs' : J 0 -> tup_rel R b fs w fs' -> forall vs args,
  Forall (fun f => wf_ty (snd f)) fs ->
  Forall2 (fun f va => arg_for J (snd f) (fst va) (snd va)) fs (combine vs args) ->
  length vs = length args ->
  exists bvs y, new_fields fs fs' args = Ok bvs /\ map fst bvs = map fst fs /\
    map (fun e => fst (snd e)) bvs = map (fun e => a_width (snd e)) fs' /\
    Forall (fun e => bv_ok (snd e)) bvs /\
    snd (cat (map snd bvs)) = y /\ b + fst (cat (map snd bvs)) = w /\ enc_fields J fs y vs.
Proof.
  intros J0. induction 1 as [b|b k t r w a rest Ha Tr IH]; intros vs args WF F L.
  - destruct vs as [|v vs], args as [|x args]; inversion F; try discriminate.
    exists [], 0. cbn. repeat split; auto; try constructor; lia.
  - destruct vs as [|v vs], args as [|x args]; inversion F as [|? ? ? ? Fx Fr]; try discriminate; subst.
    inversion WF as [|? ? W1 W2]; subst. cbn [fst snd] in *.
    destruct (field_new_spec R J t a v x J0 W1 Ha Fx) as (z & Ez & Enc).
    destruct (IH vs args W2 Fr) as (bvs & y & En & Ek & Ew & Fo & Ey & Es & Ef); [cbn in L; lia|].
    destruct (asm_rel_width R t W1 a Ha) as [Sa Pa].
    exists ((k, (a_width a, z)) :: bvs), (z + 2 ^ a_width a * y).
    cbn [new_fields]. rewrite Ez. cbn [bind]. rewrite En. cbn [bind map fst snd cat].
    split; auto. split; [f_equal; auto|]. split; [f_equal; auto|].
    split; [constructor; auto; eapply bv_ok_width; eauto|].
    split; [rewrite Ey; auto|]. split; [lia|]. econstructor; eauto.
Qed.

(** Sorting an already increasing list of ranges. *)
Fixpoint tiles (b : Z) (ws : list Z) : list (Z * Z) :=
  match ws with [] => [] | w :: r => (b, b + w) :: tiles (b + w) r end.

Lemma tup_rel_layout R b fs w fs' : tup_rel R b fs w fs' ->
  map (fun e => snd (fst e)) fs' = tiles b (map (fun e => a_width (snd e)) fs') /\
  map (fun e => fst (fst e)) fs' = map fst fs /\
  w = b + zsum (map (fun e => a_width (snd e)) fs').
Proof.
  induction 1 as [b|b k t r w a rest Ha Tr (IH1 & IH2 & IH3)]; cbn [map tiles fst snd].
  - unfold zsum. cbn. split; auto. split; auto. lia.
  - rewrite IH1 at 1. split; auto. split; [f_equal; auto|]. unfold zsum in *. cbn [fold_right]. lia.
Qed.

Lemma tiles_sorted ws : Forall (fun w => 0 <= w) ws -> forall b,
  StronglySorted (le_ pair_leb) (tiles b ws).
Proof.
  induction 1 as [|w ws Hw F IH]; intros b; cbn [tiles]; constructor; auto.
  apply Forall_forall. intros [lo hi] I. unfold le_, pair_leb. cbn [fst snd].
  assert (b + w <= lo /\ lo <= hi) as [A B].
  { clear - I F. revert b w I. induction F as [|w' ws Hw' F IH]; intros b w I; cbn [tiles] in I; [destruct I|].
    destruct I as [[= <- <-]|I]; [lia|]. apply (IH (b + w) w') in I. lia. }
  destruct (Z.ltb_spec b lo); auto. cbn. assert (lo = b) as -> by lia. rewrite Z.eqb_refl. cbn. lia.
Qed.

Lemma ranges_ok_tiles ws : Forall (fun w => 0 < w) ws -> forall b W, 0 <= b -> b + zsum ws <= W ->
  ranges_ok W (tiles b ws) = true.
Proof.
  induction 1 as [|w ws Hw F IH]; intros b W Hb L; auto. unfold zsum in *. cbn [fold_right tiles] in *.
  destruct F as [|w' ws Hw' F]; auto.
  cbn [tiles] in *. cbn [ranges_ok]. cbn [ranges_ok] in IH. cbn [fst snd].
  assert (0 <= fold_right Z.add 0 ws).
  { clear - F. induction F; cbn [fold_right]; lia. }
  cbn [fold_right] in L.
  specialize (IH (b + w) W ltac:(lia) ltac:(cbn [fold_right]; lia)). cbn [tiles] in IH.
  rewrite !andb_true_iff. repeat split; try lia. exact IH.
Qed.

Lemma skipn_skipn A (l : list A) a : forall b, skipn a (skipn b l) = skipn (a + b) l.
Proof.
  induction l as [|x l IH]; intros b; [rewrite !skipn_nil; auto|].
  destruct b as [|b]; [rewrite Nat.add_0_r; auto|]. rewrite Nat.add_succ_r. cbn [skipn]. apply IH.
Qed.

Lemma fill_tiles ks ws bvs0 : forall bvs b done rest,
  length ks = length ws -> map fst bvs = ks -> NoDup (map fst bvs0) ->
  (forall e, In e bvs -> In e bvs0) -> Forall (fun w => 0 < w) ws ->
  0 <= b -> length done = Z.to_nat b -> zsum ws <= Z.of_nat (length rest) ->
  exists sl, fill (combine ks (tiles b ws)) bvs0 (done ++ rest) = Ok sl /\
    somes sl = somes done ++ map snd bvs ++ somes (skipn (Z.to_nat (zsum ws)) rest).
Proof.
  revert ws. induction ks as [|k ks IH]; intros ws bvs b done rest L E ND I F Hb Ld Ln.
  - destruct ws; [|discriminate]. destruct bvs; [|discriminate]. cbn [combine fill].
    eexists. split; [reflexivity|]. rewrite somes_app. cbn. auto.
  - destruct ws as [|w ws]; [discriminate|]. destruct bvs as [|[k' v] bvs]; [discriminate|].
    cbn [map fst] in E. injection E as <- E. inversion F as [|? ? Hw F']; subst.
    assert (0 <= zsum ws) as Pz.
    { clear - F'. unfold zsum. induction F'; cbn [fold_right]; lia. }
    change (zsum (w :: ws)) with (w + zsum ws) in *.
    cbn [combine tiles fill]. unfold dgetE.
    rewrite (dget_NoDup key_eqb key_eqb_eq bvs0 k' v) by (auto; apply I; left; auto). cbn [bind].
    rewrite slot_set_next by lia.
    replace (b + w - b - 1) with (w - 1) by lia. replace (b + w - b) with w by lia.
    destruct (IH ws bvs (b + w) (done ++ Some v :: repeat None (Z.to_nat (w - 1)))
                (skipn (Z.to_nat w) rest)) as (sl & Es & Ss);
      [cbn in L; lia|auto|auto|intros; apply I; right; auto|auto|lia
      |rewrite app_length; cbn [length]; rewrite repeat_length; lia|rewrite skipn_length; lia|].
    exists sl. split; auto. rewrite Ss, somes_app. cbn [somes map snd]. rewrite somes_none.
    rewrite <- !app_assoc. cbn [app]. rewrite skipn_skipn.
    replace (Z.to_nat (zsum ws) + Z.to_nat w)%nat with (Z.to_nat (w + zsum ws)) by lia. auto.
Qed.

Lemma same_keys_refl l : same_keys l l = true.
Proof.
  unfold same_keys. assert (forallb (fun k => key_in k l) l = true) as ->; auto.
  apply forallb_forall. intros k I. unfold key_in. apply existsb_exists. exists k. split; auto.
  apply key_eqb_eq; auto.
Qed.

(** Zero-width fields are rejected when there are two fields or more. *)
Lemma ranges_ok_pos W rs : ranges_ok W rs = true -> (2 <= length rs)%nat ->
  forall r, In r rs -> fst r < snd r.
Proof.
  induction rs as [|r0 rs IH]; intros H L r I; [destruct I|].
  destruct rs as [|r1 rs]; [cbn in L; lia|]. cbn [ranges_ok] in H. rewrite !andb_true_iff in H.
  destruct H as (((((A & B) & C) & D) & E) & H).
  destruct I as [<-|I]; [lia|]. destruct rs as [|r2 rs]; [destruct I as [<-|[]]; lia|].
  apply IH; auto. cbn. lia.
Qed.

Lemma map_fst_combine A B (a : list A) : forall b : list B, length a = length b -> map fst (combine a b) = a.
Proof. induction a as [|x a IH]; intros [|y b] L; cbn in *; try discriminate; auto. f_equal; auto. Qed.
Lemma map_snd_combine A B (a : list A) : forall b : list B, length a = length b -> map snd (combine a b) = b.
Proof. induction a as [|x a IH]; intros [|y b] L; cbn in *; try discriminate; auto. f_equal; auto. Qed.

Lemma tiles_length b ws : length (tiles b ws) = length ws.
Proof. revert b. induction ws; intros; cbn; auto. Qed.

Lemma prod_layout_eq R b fs w fs' : tup_rel R b fs w fs' ->
  map fst fs' = combine (map fst fs) (tiles b (map (fun e => a_width (snd e)) fs')).
Proof.
  induction 1 as [b|b k t r w a rest Ha Tr IH]; cbn; auto. f_equal; auto.
Qed.

Lemma tup_rel_length R b fs w fs' : tup_rel R b fs w fs' -> length fs' = length fs.
Proof. induction 1; cbn; auto. Qed.

Lemma tup_rel_widths R b fs w fs' : tup_rel R b fs w fs' -> Forall (fun f => wf_ty (snd f)) fs ->
  Forall (fun w => 0 <= w) (map (fun e : key * (Z * Z) * asm => a_width (snd e)) fs').
Proof.
  induction 1 as [b|b k t r w a rest Ha Tr IH]; intros WF; cbn; [constructor|].
  inversion WF as [|? ? W1 W2]; subst. constructor; auto. apply (asm_rel_width R t W1 a Ha).
Qed.

Lemma tup_rel_In R b fs w fs' : tup_rel R b fs w fs' -> forall k lay a, In (k, lay, a) fs' ->
  exists t, In (k, t) fs /\ asm_rel R t a.
Proof.
  induction 1 as [b|b k t r w a rest Ha Tr IH]; intros k' lay a' I; [destruct I|].
  destruct I as [[= <- <- <-]|I]; [exists t; split; [left|]; auto|].
  destruct (IH _ _ _ I) as (t' & I' & A'). exists t'. split; [right|]; auto.
Qed.

Lemma tup_rel_tile0 R b fs w fs' k t : tup_rel R b fs w fs' -> Forall (fun f => wf_ty (snd f)) fs ->
  In (k, t) fs -> swidth t 0 ->
  exists r, In r (tiles b (map (fun e : key * (Z * Z) * asm => a_width (snd e)) fs')) /\ fst r = snd r.
Proof.
  induction 1 as [b|b k' t' r w a' rest Ha Tr IH]; intros WF I S0; [destruct I|].
  inversion WF as [|? ? W1 W2]; subst. cbn [map tiles snd]. destruct I as [[= -> ->]|I].
  - exists (b, b + a_width a'). split; [left; auto|]. cbn.
    assert (a_width a' = 0); [|lia]. eapply swidth_fun; [|exact S0]. apply (asm_rel_width R t W1 a' Ha).
  - destruct (IH W2 I S0) as (r' & I' & E'). exists r'. split; [right; auto|auto].
Qed.

Lemma prod_from_fields_ok R (J : Z -> Prop) c fs a vs args d :
  J 0 -> wf_ty (TProd c fs) -> asm_rel R (TProd c fs) a -> length vs = length args ->
  Forall2 (fun f va => arg_for J (snd f) (fst va) (snd va)) fs (combine vs args) ->
  fs <> [] -> (length fs = 1%nat \/ forall k t, In (k, t) fs -> ~ swidth t 0) ->
  exists op, prod_from_fields fs a args d = Ok op /\ enc J (TProd c fs) op (VProd vs).
Proof.
  intros J0 W A L F NE Pos. inversion A as [| | | |? ? w fs' T|]; subst.
  assert (Forall (fun f => wf_ty (snd f)) fs) as WF by (inversion W; auto).
  assert (NoDup (map fst fs)) as ND by (inversion W; auto).
  destruct (new_fields_spec R J 0 fs w fs' J0 T vs args WF F L) as (bvs & y & En & Ek & Ew & Fo & Ey & Es & Ef).
  cbn [prod_from_fields]. rewrite En. cbn [bind].
  unfold create_from_layout. rewrite (prod_layout_eq _ _ _ _ _ T).
  set (ws := map (fun e : key * (Z * Z) * asm => a_width (snd e)) fs') in *.
  assert (length ws = length fs) as Lw by (unfold ws; rewrite map_length; eapply tup_rel_length; eauto).
  rewrite map_fst_combine, map_snd_combine by (rewrite tiles_length, map_length; auto).
  rewrite Ek, same_keys_refl. cbn [negb].
  assert (Forall (fun w => 0 <= w) ws) as Pw.
  { unfold ws. eapply tup_rel_widths; eauto. }
  assert (w = zsum ws) as Eww by (destruct (tup_rel_layout _ _ _ _ _ T) as (_ & _ & E); exact E).
  rewrite isort_id by (apply tiles_sorted; auto).
  assert (exists sl, fill (combine (map fst fs) (tiles 0 ws)) bvs (repeat (Some (1, wrap 1 d)) (Z.to_nat w)) = Ok sl
            /\ somes sl = map snd bvs /\ ranges_ok w (tiles 0 ws) = true) as (sl & E1 & E2 & E3).
  { destruct Pos as [L1|Pos].
    - destruct fs as [|[k t] [|]]; try discriminate. destruct ws as [|w0 [|]]; try discriminate.
      destruct bvs as [|[k' v] [|]]; try discriminate. cbn [map fst] in Ek. injection Ek as ->.
      cbn [map fst tiles combine fill dgetE dget]. unfold dgetE. cbn [dget].
      rewrite (proj2 (key_eqb_eq k k)) by auto. cbn [bind]. eexists. split; [reflexivity|].
      split; [|reflexivity]. unfold slot_set. cbn [Z.to_nat firstn app somes]. rewrite somes_app, somes_none. cbn [app].
      unfold zsum in Eww. cbn [fold_right] in Eww. rewrite Z.add_0_l, skipn_all2; [reflexivity|].
      rewrite repeat_length. lia.
    - assert (Forall (fun w => 0 < w) ws) as Pp.
      { apply Forall_forall. intros x I. rewrite Forall_forall in Pw. specialize (Pw x I).
        destruct (Z.eq_dec x 0) as [->|]; [|lia]. exfalso.
        unfold ws in I. apply in_map_iff in I as ([[k lay] a] & E0 & I). cbn in E0.
        destruct (tup_rel_In _ _ _ _ _ T _ _ _ I) as (t & It & At).
        apply (Pos k t It). rewrite <- E0. rewrite Forall_forall in WF.
        apply (asm_rel_width R t (WF _ It) a At). }
      destruct (fill_tiles (map fst fs) ws bvs bvs 0 [] (repeat (Some (1, wrap 1 d)) (Z.to_nat w))) as (sl & E1 & E2); auto.
      + rewrite map_length; auto.
      + rewrite Ek; auto.
      + lia.
      + rewrite repeat_length. lia.
      + exists sl. split; auto. split.
        * rewrite E2. cbn [app somes]. rewrite Eww, skipn_all2, app_nil_r; auto. rewrite repeat_length. lia.
        * apply ranges_ok_tiles; auto; lia. }
  rewrite E3. cbn [negb]. rewrite E1. cbn [bind]. rewrite E2.
  assert (map snd bvs <> []) as NEb.
  { destruct bvs; [destruct fs; [congruence|discriminate]|discriminate]. }
  rewrite reduce_concat_ok; auto.
  2:{ apply Forall_forall. intros x I. apply in_map_iff in I as (e & <- & I). rewrite Forall_forall in Fo. auto. }
  cbn [bind]. rewrite Z.add_0_l in Es. rewrite Es, Z.eqb_refl. eexists. split; [reflexivity|].
  rewrite Ey. constructor. auto.
Qed.

Lemma isort_In_pair l (r : Z * Z) : In r l -> In r (isort pair_leb l).
Proof. apply isort_In2. Qed.

Lemma prod_from_fields_zero R (J : Z -> Prop) c fs a vs args d k t :
  J 0 -> wf_ty (TProd c fs) -> asm_rel R (TProd c fs) a -> length vs = length args ->
  Forall2 (fun f va => arg_for J (snd f) (fst va) (snd va)) fs (combine vs args) ->
  (2 <= length fs)%nat -> In (k, t) fs -> swidth t 0 ->
  prod_from_fields fs a args d = Err ValueError.
Proof.
  intros J0 W A L F L2 I S0. inversion A as [| | | |? ? w fs' T|]; subst.
  assert (Forall (fun f => wf_ty (snd f)) fs) as WF by (inversion W; auto).
  destruct (new_fields_spec R J 0 fs w fs' J0 T vs args WF F L) as (bvs & y & En & Ek & Ew & Fo & Ey & Es & Ef).
  cbn [prod_from_fields]. rewrite En. cbn [bind].
  unfold create_from_layout. rewrite (prod_layout_eq _ _ _ _ _ T).
  set (ws := map (fun e : key * (Z * Z) * asm => a_width (snd e)) fs') in *.
  assert (length ws = length fs) as Lw by (unfold ws; rewrite map_length; eapply tup_rel_length; eauto).
  rewrite map_fst_combine, map_snd_combine by (rewrite tiles_length, map_length; auto).
  rewrite Ek, same_keys_refl. cbn [negb].
  destruct (ranges_ok w (isort pair_leb (tiles 0 ws))) eqn:E; [|reflexivity]. exfalso.
  assert (exists r, In r (tiles 0 ws) /\ fst r = snd r) as (r & Ir & Er).
  { eapply tup_rel_tile0; eauto. }
  eapply ranges_ok_pos in E; [| |apply isort_In2; exact Ir]; [lia|].
  rewrite isort_length, tiles_length. lia.
Qed.

(** ** Sums *)
Lemma dget_key_In fs k (t : ty) : no_dup_keys fs -> In (k, t) fs -> dget key_eqb fs k = Some t.
Proof. intros ND I. apply (dget_NoDup key_eqb key_eqb_eq); auto. Qed.

Lemma sum_new R g c fs a k t x v (J : Z -> Prop) : J 0 -> wf_ty (TSum g c fs) -> asm_rel R (TSum g c fs) a ->
  In (k, t) fs -> arg_for J t v x -> good_request R ->
  exists pre post w tagw as_ gs tv f z,
    a = ASum w tagw as_ gs tv /\ fs = pre ++ (k, t) :: post /\
    sum_find as_ k = Some (rank_at pre k post, (tagw, tagw + a_width f), f) /\
    asm_rel R t f /\ field_new t f x = Ok (a_width f, z) /\ enc J t z v /\
    assemble_tag a k = Ok (rank_at pre k post) /\
    tagw = bits_for (Z.of_nat (length fs) - 1) /\ 0 <= rank_at pre k post < 2 ^ tagw /\
    0 <= a_width f /\ tagw + a_width f <= w /\ 0 <= tagw.
Proof.
  intros J0 W A I AF GR. pose proof I as I0. apply in_split in I0 as (pre & post & Hfs).
  destruct (tags_spec R g c fs a pre k t post GR W A Hfs) as (T1 & _ & _).
  pose proof (rank_lt _ _ _ _ _ Hfs) as Rl.
  destruct (sub_ty_spec R _ [k] t (st_sum g c fs k [] t t I (st_here t)) W a A 0) as (o & f' & Ep & Af' & Wf & O & Lf).
  inversion A as [| | | | |? ? ? sorted tagw pw fs' gs tv E1 E2 S G1 G2 Vt]; subst sorted tagw a.
  assert (no_dup_keys fs) as ND by (inversion W; auto).
  assert (wf_ty t) as Wt by (eapply wf_members_sum; eauto).
  pose proof (rank_index pre k t post) as Ri. rewrite <- Hfs in Ri.
  destruct (sum_find_spec _ _ _ _ _ _ _ _ _ _ (sorted_keys_NoDup fs ND) S Ri) as (f & Ef & Af).
  rewrite Z.add_0_l, Z2Nat.id in Ef by lia.
  destruct (field_new_spec R J t f v x J0 Wt Af AF) as (z & Ez & Enc).
  destruct (asm_rel_width R t Wt f Af) as [Sf Pf].
  cbn [sub_path sub_step] in Ep. rewrite Ef in Ep. injection Ep as Eo <-.
  set (tw := bit_length (Z.of_nat (length fs) - 1)) in *.
  assert (bits_for (Z.of_nat (length fs) - 1) = tw) as Eb by (apply bits_for_bit_length; lia).
  assert (rank_at pre k post < 2 ^ tw) as Rt by (rewrite <- Eb; apply lt_pow2_bits_for; lia).
  assert (0 <= tw) by apply bit_length_nonneg. cbn [a_width] in Lf.
  exists pre, post, (tw + pw), tw, fs', gs, tv, f, z.
  repeat (split; [auto; lia|]). lia.
Qed.

Lemma firstn_repeat A (x : A) n m : (n <= m)%nat -> firstn n (repeat x m) = repeat x n.
Proof. revert m. induction n; intros [|m] L; cbn; auto; try lia. f_equal. apply IHn. lia. Qed.
Lemma skipn_repeat A (x : A) n m : skipn n (repeat x m) = repeat x (m - n).
Proof. revert m. induction n; intros [|m]; cbn; auto. Qed.

Lemma cat_repeat d n : (d = 0 \/ d = 1) ->
  cat (repeat (1, d) n) = (Z.of_nat n, d * (2 ^ Z.of_nat n - 1)) /\ Forall bv_ok (repeat (1, d) n).
Proof.
  intros D. induction n as [|n [IH F]]; cbn [repeat cat].
  - split; [|constructor]. cbn. f_equal. lia.
  - rewrite IH. cbn [fst snd]. split.
    + f_equal; [lia|]. rewrite Nat2Z.inj_succ, Z.pow_succ_r by lia. change (2 ^ 1) with 2. ring.
    + constructor; auto. split; cbn; lia.
Qed.

Lemma wrap1 d : wrap 1 d = 0 \/ wrap 1 d = 1.
Proof. pose proof (wrap_range 1 d ltac:(lia)) as H. change (2 ^ 1) with 2 in H. lia. Qed.

Lemma slot_set_sum sl t f u v : 0 < t -> 0 < f -> t + f <= Z.of_nat (length sl) ->
  slot_set (slot_set sl t (t + f) v) 0 t u =
  Some u :: repeat None (Z.to_nat (t - 1)) ++
    Some v :: repeat None (Z.to_nat (f - 1)) ++ skipn (Z.to_nat (t + f)) sl.
Proof.
  intros Pt Pf L. unfold slot_set at 2.
  unfold slot_set. change (Z.to_nat 0) with 0%nat. rewrite firstn_O. cbn [app].
  assert (length (firstn (Z.to_nat t) sl) = Z.to_nat t) as Lf by (rewrite firstn_length; lia).
  rewrite skipn_app, skipn_all2 by lia. rewrite Lf, Nat.sub_diag.
  rewrite skipn_O. cbn [app].
  replace (t - (0 + 1)) with (t - 1) by lia. replace (t + f - (t + 1)) with (f - 1) by lia. reflexivity.
Qed.

(** The word built for a Sum: tag, payload, then copies of the default bit. *)
Lemma create_sum w tagw f z tag d :
  0 < tagw -> 0 < f -> tagw + f <= w -> 0 <= tag < 2 ^ tagw -> 0 <= z < 2 ^ f ->
  create_from_layout w [(k_value, (tagw, tagw + f)); (k_tag, (0, tagw))]
    [(k_value, (f, z)); (k_tag, (tagw, tag))] d =
  Ok (tag + 2 ^ tagw * (z + 2 ^ f * (wrap 1 d * (2 ^ (w - tagw - f) - 1)))).
Proof.
  intros Pt Pf Lw Rt Rz. unfold create_from_layout.
  replace (same_keys _ _) with true by reflexivity. cbn [negb map snd isort insert].
  unfold pair_leb at 1. cbn [fst snd].
  rewrite (proj2 (Z.ltb_ge tagw 0)) by lia. rewrite (proj2 (Z.eqb_neq tagw 0)) by lia. cbn [orb andb].
  cbn [ranges_ok fst snd].
  rewrite !(proj2 (Z.leb_le _ _)), !(proj2 (Z.ltb_lt _ _)) by lia. cbn [andb negb].
  match goal with |- context [fill ?l ?b ?s] =>
    change (fill l b s) with (Ok (slot_set (slot_set s tagw (tagw + f) (f, z)) 0 tagw (tagw, tag))) end.
  cbn [bind]. rewrite slot_set_sum by (rewrite ?repeat_length; lia). rewrite skipn_repeat.
  cbn [somes]. rewrite somes_app, somes_none. cbn [app somes]. rewrite somes_app, somes_none, somes_some. cbn [app].
  destruct (cat_repeat (wrap 1 d) (Z.to_nat w - Z.to_nat (tagw + f)) (wrap1 d)) as [Ec Fc].
  rewrite reduce_concat_ok; [|discriminate|].
  2:{ constructor; [split; cbn [fst snd]; lia|]. constructor; [split; cbn [fst snd]; lia|]. auto. }
  cbn [bind cat]. rewrite Ec. cbn [fst snd].
  replace (Z.of_nat (Z.to_nat w - Z.to_nat (tagw + f))) with (w - tagw - f) by lia.
  replace (tagw + (f + (w - tagw - f)) =? w) with true by lia. reflexivity.
Qed.

Lemma create_sum_bad w tagw f z tag d :
  0 <= tagw -> 0 <= f -> (tagw = 0 \/ f = 0) ->
  create_from_layout w [(k_value, (tagw, tagw + f)); (k_tag, (0, tagw))]
    [(k_value, (f, z)); (k_tag, (tagw, tag))] d = Err ValueError.
Proof.
  intros Pt Pf H. unfold create_from_layout.
  replace (same_keys _ _) with true by reflexivity. cbn [negb map snd].
  destruct (ranges_ok w (isort pair_leb [(tagw, tagw + f); (0, tagw)])) eqn:E; auto. exfalso.
  pose proof (ranges_ok_pos _ _ E) as P. rewrite isort_length in P. specialize (P ltac:(cbn; lia)).
  pose proof (P (tagw, tagw + f) ltac:(apply isort_In2; cbn; auto)).
  pose proof (P (0, tagw) ltac:(apply isort_In2; cbn; auto)). cbn [fst snd] in *. lia.
Qed.

Lemma sum_from_fields_ok R (J : Z -> Prop) g c fs a k t x v d :
  J 0 -> (forall n, 0 <= n -> J (wrap 1 d * (2 ^ n - 1))) -> good_request R ->
  wf_ty (TSum g c fs) -> asm_rel R (TSum g c fs) a -> In (k, t) fs -> arg_for J t v x ->
  (2 <= length fs)%nat -> ~ swidth t 0 ->
  exists op, sum_from_fields fs a k x None d = Ok op /\ enc J (TSum g c fs) op (VSum k v).
Proof.
  intros J0 JJ GR W A I AF L2 NW.
  destruct (sum_new R g c fs a k t x v J J0 W A I AF GR)
    as (pre & post & w & tagw & as_ & gs & tv & f & z & Ea & Efs & Ef & Af & Ez & Enc & Et & Etw & Rr & Pf & Lw & Pt).
  assert (no_dup_keys fs) as ND by (inversion W; auto).
  assert (wf_ty t) as Wt by (eapply wf_members_sum; eauto).
  destruct (asm_rel_width R t Wt f Af) as [Sf _].
  assert (a_width f <> 0) as NZ by (intros E; rewrite E in Sf; auto).
  assert (0 < tagw) as Ptw.
  { assert (tagw <> 0); [|lia]. intros E. rewrite E in Etw.
    pose proof (lt_pow2_bits_for (Z.of_nat (length fs) - 1) (Z.of_nat (length fs) - 1) ltac:(lia)) as P.
    rewrite <- Etw in P. change (2 ^ 0) with 1 in P. lia. }
  pose proof (enc_range J t Wt z v (a_width f) Enc Sf) as Rz.
  assert (sum_from_fields fs a k x None d =
    create_from_layout w [(k_value, (tagw, tagw + a_width f)); (k_tag, (0, tagw))]
      [(k_value, (a_width f, z)); (k_tag, (tagw, rank_at pre k post))] d) as ->.
  { rewrite Ea in *. unfold sum_from_fields. rewrite (dget_key_In fs k t ND I), Ef, Ez. cbn [bind].
    rewrite Et. cbn [bind]. reflexivity. }
  rewrite create_sum by (auto; lia). eexists. split; [reflexivity|]. rewrite Etw in *.
  set (tw := bits_for (Z.of_nat (length fs) - 1)) in *.
  pose proof (JJ (w - tw - a_width f) ltac:(lia)) as Jn.
  pose proof (pow2_pos (w - tw - a_width f) ltac:(lia)) as P1.
  pose proof (wrap_range 1 d ltac:(lia)) as Rw. change (2 ^ 1) with 2 in Rw.
  apply enc_sum with (t := t) (W := w); auto.
  - destruct (asm_rel_width R _ W a A) as [S _]. rewrite Ea in S. exact S.
  - nia.
  - fold tw. replace w with (tw + (a_width f + (w - tw - a_width f))) at 2 by lia.
    rewrite !pow2_split by lia. pose proof (pow2_pos tw ltac:(lia)). pose proof (pow2_pos (a_width f) ltac:(lia)).
    set (A1 := 2 ^ tw) in *. set (B1 := 2 ^ a_width f) in *. set (C1 := 2 ^ (w - tw - a_width f)) in *.
    assert (z + B1 * (wrap 1 d * (C1 - 1)) <= B1 * C1 - 1).
    { destruct (wrap1 d) as [-> | ->]; nia. }
    nia.
Qed.

Lemma sum_from_fields_tag R (J : Z -> Prop) g c fs a k t x v d tag :
  J 0 -> good_request R ->
  wf_ty (TSum g c fs) -> asm_rel R (TSum g c fs) a -> In (k, t) fs -> arg_for J t v x ->
  (2 <= length fs)%nat -> ~ swidth t 0 ->
  let tw := bits_for (Z.of_nat (length fs) - 1) in
  0 <= tag < 2 ^ tw ->
  exists op op', sum_from_fields fs a k x None d = Ok op /\ sum_from_fields fs a k x (Some tag) d = Ok op' /\ op' mod 2 ^ tw = tag /\ op' / 2 ^ tw = op / 2 ^ tw.
Proof.
  intros J0 GR W A I AF L2 NW tw0 Rtag.
  destruct (sum_new R g c fs a k t x v J J0 W A I AF GR)
    as (pre & post & w & tagw & as_ & gs & tv & f & z & Ea & Efs & Ef & Af & Ez & Enc & Et & Etw & Rr & Pf & Lw & Pt).
  assert (no_dup_keys fs) as ND by (inversion W; auto).
  assert (wf_ty t) as Wt by (eapply wf_members_sum; eauto).
  destruct (asm_rel_width R t Wt f Af) as [Sf _].
  assert (a_width f <> 0) as NZ by (intros E; rewrite E in Sf; auto).
  assert (0 < tagw) as Ptw.
  { assert (tagw <> 0); [|lia]. intros E. rewrite E in Etw.
    pose proof (lt_pow2_bits_for (Z.of_nat (length fs) - 1) (Z.of_nat (length fs) - 1) ltac:(lia)) as P.
    rewrite <- Etw in P. change (2 ^ 0) with 1 in P. lia. }
  pose proof (enc_range J t Wt z v (a_width f) Enc Sf) as Rz.
  assert (forall o tg, (match o with Some y => Ok y | None => assemble_tag a k end) = Ok tg ->
    sum_from_fields fs a k x o d =
    create_from_layout w [(k_value, (tagw, tagw + a_width f)); (k_tag, (0, tagw))]
      [(k_value, (a_width f, z)); (k_tag, (tagw, tg))] d) as H.
  { intros o tg Eo. rewrite Ea in *. unfold sum_from_fields. rewrite (dget_key_In fs k t ND I), Ef, Ez. cbn [bind].
    rewrite Eo. cbn [bind]. reflexivity. }
  subst tw0. rewrite <- Etw in *.
  pose proof (pow2_pos tagw ltac:(lia)) as Pp.
  rewrite (H None _ Et), (H (Some tag) tag eq_refl), !create_sum by (auto; lia).
  do 2 eexists. split; [reflexivity|]. split; [reflexivity|].
  rewrite !(Z.mul_comm (2 ^ tagw)). split.
  - rewrite Z_mod_plus_full, Z.mod_small; lia.
  - rewrite !Z_div_plus_full by lia. rewrite !Z.div_small by lia. reflexivity.
Qed.

Lemma sum_from_fields_bad R (J : Z -> Prop) g c fs a k t x v d :
  J 0 -> good_request R ->
  wf_ty (TSum g c fs) -> asm_rel R (TSum g c fs) a -> In (k, t) fs -> arg_for J t v x ->
  (length fs = 1%nat \/ swidth t 0) ->
  sum_from_fields fs a k x None d = Err ValueError.
Proof.
  intros J0 GR W A I AF H.
  destruct (sum_new R g c fs a k t x v J J0 W A I AF GR)
    as (pre & post & w & tagw & as_ & gs & tv & f & z & Ea & Efs & Ef & Af & Ez & Enc & Et & Etw & Rr & Pf & Lw & Pt).
  assert (no_dup_keys fs) as ND by (inversion W; auto).
  assert (wf_ty t) as Wt by (eapply wf_members_sum; eauto).
  destruct (asm_rel_width R t Wt f Af) as [Sf _].
  assert (sum_from_fields fs a k x None d =
    create_from_layout w [(k_value, (tagw, tagw + a_width f)); (k_tag, (0, tagw))]
      [(k_value, (a_width f, z)); (k_tag, (tagw, rank_at pre k post))] d) as ->.
  { rewrite Ea in *. unfold sum_from_fields. rewrite (dget_key_In fs k t ND I), Ef, Ez. cbn [bind].
    rewrite Et. cbn [bind]. reflexivity. }
  apply create_sum_bad; auto. destruct H as [H|H].
  - left. rewrite Etw, H. reflexivity.
  - right. eapply swidth_fun; eauto.
Qed.

(** ** Field access *)
Lemma aadt_get_spec R J t v k t' v' a op : sub_val t v [k] t' v' -> good_request R ->
  wf_ty t -> asm_rel R t a -> enc J t op v ->
  exists x m a', aadt_get a op k = Ok (x, m) /\ enc J t' x v' /\ asm_rel R t' a' /\ wf_ty t' /\
    (forall v0, assemble a' v0 = Ok x -> has_ty t' v0 -> nonneg_signed t' v0 ->
       exists w, field_new t' a' (FAdt v0) = Ok (w, x) /\ w = a_width a').
Proof.
  intros Sv GR W A E.
  destruct (sub_spec R J t v [k] t' v' Sv W a op A E 0) as (o & a' & Ep & A' & W' & O & L & E').
  cbn [sub_path] in Ep. unfold aadt_get.
  destruct (sub_step a k) as [[[lo hi] f]|] eqn:Es; [|discriminate].
  injection Ep as Eo <-. assert (lo = o) as -> by lia. clear Eo.
  assert (exists m, match a with
     | ASum _ tagw _ _ _ => do t0 <- assemble_tag a k; Ok (slice op o (o + a_width f), Some (slice op 0 tagw =? t0))
     | _ => Ok (slice op o (o + a_width f), None)
     end = Ok (slice op o (o + a_width f), m)) as [m Em].
  { destruct a; eauto.
    inversion Sv as [|? ? ? ? ? i ? ? ? ? Ef Ev Sv'|g0 c0 fs0 ? ? t0 v0 ? ? I Sv']; subst; [inversion A|].
    apply in_split in I as (pre & post & Hfs).
    destruct (tags_spec R g0 c0 fs0 _ pre k t0 post GR W A Hfs) as (T1 & _). rewrite T1. cbn [bind]. eauto. }
  exists (slice op o (o + a_width f)), m, f. split; auto. split; auto. split; auto. split; auto.
  intros v0 Ev H N.
  destruct (field_new_spec R (fun j => j = 0) t' f v0 (FAdt v0) eq_refl W' A' (af_val _ _ _ H N)) as (z & Ez & Enc).
  exists (a_width f). split; auto. rewrite Ez. do 2 f_equal.
  destruct (assemble_spec R t' f v0 W' A' H N) as (y & Ey & Cy & _). rewrite Ev in Ey. injection Ey as <-.
  eapply canonical_fun; eauto.
Qed.

Lemma aadt_match_spec R J g c fs k v k' t' a op : good_request R ->
  wf_ty (TSum g c fs) -> asm_rel R (TSum g c fs) a -> enc J (TSum g c fs) op (VSum k v) -> In (k', t') fs ->
  exists x b, aadt_get a op k' = Ok (x, Some b) /\ (b = true <-> k' = k).
Proof.
  intros GR W A E I'.
  inversion E as [| | | | |? ? ? pre k0 t0 post W0 w x junk v0 Hfs SW Sw Ex Hj HJ HW]. subst k0 v0 g0 c0 fs0.
  pose proof I' as I2. apply in_split in I2 as (pre' & post' & Hfs').
  destruct (tags_spec R g c fs a pre k t0 post GR W A Hfs) as (T1 & _ & D1).
  destruct (tags_spec R g c fs a pre' k' t' post' GR W A Hfs') as (T2 & _ & D2).
  pose proof (rank_lt _ _ _ _ _ Hfs) as Rl.
  destruct (sub_ty_spec R _ [k'] t' (st_sum g c fs k' [] t' t' I' (st_here t')) W a A 0) as (o & f & Ep & Af & Wf & O & L).
  unfold aadt_get. cbn [sub_path] in Ep.
  destruct (sub_step a k') as [[[lo hi] f0]|] eqn:Es; [|discriminate]. injection Ep as Eo ->.
  inversion A as [| | | | |? ? ? sorted tagw pw fs' gs tv E1 E2 S G1 G2 Vt]; subst sorted tagw.
  set (tw := bit_length (Z.of_nat (length fs) - 1)) in *.
  assert (bits_for (Z.of_nat (length fs) - 1) = tw) as Eb by (apply bits_for_bit_length; lia).
  assert (rank_at pre k post < 2 ^ tw) as Rt by (rewrite <- Eb; apply lt_pow2_bits_for; lia).
  subst a. rewrite T2. cbn [bind]. do 2 eexists. split; [reflexivity|].
  rewrite Eb. rewrite slice_low by (try apply bit_length_nonneg; lia). rewrite Z.eqb_eq. split.
  - intros Er. rewrite <- Er in D2. congruence.
  - intros ->. rewrite T1 in T2. congruence.
Qed.
