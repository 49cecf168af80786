(** Lemmas about calls of AssembledADT classes. *)
From Coq Require Import String ZArith List Bool Lia Permutation.
From Verif Require Import Base BaseLemmas AsmModel AsmSpec AsmValid AsmEnum AsmBuild AsmProofs AsmSub AsmMore AsmCheck AsmProps
  AadtModel AadtProofs AadtProps FamProgModel FamProgProofs AadtCallModel.
Import ListNotations.
Open Scope string_scope.
Open Scope list_scope.
Open Scope Z_scope.

(** ** Dictionaries up to order *)
Lemma Permutation_filter' A (f : A -> bool) l l' : Permutation l l' -> Permutation (filter f l) (filter f l').
Proof.
  induction 1 as [|x l l' _ IH|x y l|]; cbn [filter]; auto.
  - destruct (f x); auto.
  - destruct (f x), (f y); auto. constructor.
  - etransitivity; eauto.
Qed.

Lemma dget_perm (l l' : kwargs) n : Permutation l l' -> NoDup (map fst l') -> dget String.eqb l n = dget String.eqb l' n.
Proof.
  intros P ND. assert (NoDup (map fst l)) as ND2 by (eapply Permutation_NoDup; [apply Permutation_map, Permutation_sym; exact P|exact ND]).
  destruct (dget String.eqb l' n) as [x|] eqn:E.
  - apply (dget_NoDup String.eqb String.eqb_eq); auto. apply (Permutation_in _ (Permutation_sym P)).
    apply (dget_In String.eqb String.eqb_eq); auto.
  - destruct (dget String.eqb l n) as [x|] eqn:E2; auto.
    apply (dget_In String.eqb String.eqb_eq) in E2. apply (Permutation_in _ P) in E2.
    apply (dget_NoDup String.eqb String.eqb_eq) in E2; auto. congruence.
Qed.

(** ** Binding *)
Lemma bind_pos_spec params : forall pos rest, bind_pos params pos = Ok rest <-> ((length pos <= length params)%nat /\ rest = skipn (length pos) params).
Proof.
  induction params as [|p ps IH]; intros [|x pos] rest; cbn [bind_pos length skipn]; split; intros H.
  - injection H as <-. auto.
  - destruct H as [_ ->]. auto.
  - discriminate.
  - destruct H. lia.
  - injection H as <-. split; auto. lia.
  - destruct H as [_ ->]. auto.
  - apply IH in H as [H ->]. split; auto. lia.
  - destruct H as [H ->]. apply IH. split; auto. lia.
Qed.

Lemma bind_pos_err params pos e : bind_pos params pos = Err e -> e = TypeError.
Proof.
  revert pos. induction params as [|p ps IH]; intros [|x pos] H; cbn [bind_pos] in H; try discriminate; eauto. congruence.
Qed.

Lemma bind_args_err params pos kws e : bind_args params pos kws = Err e -> e = TypeError.
Proof.
  unfold bind_args. destruct (bind_pos params pos) as [rest|e1] eqn:E; cbn [bind].
  - destruct (forallb _ kws); [|congruence].
    destruct (mapM _ rest) as [xs|e2] eqn:Em; cbn [bind]; [discriminate|]. intros [= <-]. clear - Em.
    induction rest as [|p r IH]; cbn [mapM bind] in Em; [discriminate|].
    destruct (dget String.eqb kws p); cbn [bind] in Em; [|congruence].
    destruct (mapM _ r) as [ys|e3]; cbn [bind] in Em; [discriminate|]. injection Em as ->. auto.
  - intros [= <-]. eapply bind_pos_err; eauto.
Qed.

Lemma NoDup_skipn A n (l : list A) : NoDup l -> NoDup (skipn n l).
Proof. revert l. induction n as [|n IH]; intros [|x l] H; cbn; auto. inversion H; auto. Qed.

Lemma combine_fst A B (l : list A) : forall (r : list B), length l = length r -> map fst (combine l r) = l.
Proof. induction l as [|x l IH]; intros [|y r] H; try discriminate; cbn; auto. f_equal. auto. Qed.

Lemma lookup_combine (ns : list string) : forall (xs : list carg), NoDup ns -> length ns = length xs ->
  mapM (fun p => match dget String.eqb (combine ns xs) p with Some x => Ok x | None => Err TypeError end) ns = Ok xs.
Proof.
  intros xs ND L.
  assert (forall ms ys, length ms = length ys -> (forall m y, In (m, y) (combine ms ys) -> dget String.eqb (combine ns xs) m = Some y) ->
    mapM (fun p => match dget String.eqb (combine ns xs) p with Some x => Ok x | None => Err TypeError end) ms = Ok ys) as G.
  { induction ms as [|m ms IH]; intros [|y ys] Ly H; try discriminate; auto.
    cbn [mapM]. rewrite (H m y) by (left; auto). cbn [bind]. rewrite (IH ys); auto.
    intros m' y' I. apply H. right; auto. }
  apply G; auto. intros m y I. apply (dget_NoDup String.eqb String.eqb_eq); auto. rewrite combine_fst; auto.
Qed.

Lemma mapM_lookup (kws : kwargs) ns xs :
  mapM (fun p => match dget String.eqb kws p with Some x => Ok x | None => Err TypeError end) ns = Ok xs ->
  length xs = length ns /\ forall m y, In (m, y) (combine ns xs) -> In (m, y) kws.
Proof.
  revert xs. induction ns as [|n ns IH]; intros xs E; cbn [mapM bind] in E.
  - injection E as <-. cbn. split; auto. intros ? ? [].
  - destruct (dget String.eqb kws n) as [x|] eqn:Ed; [|discriminate]. cbn [bind] in E.
    destruct (mapM _ ns) as [ys|] eqn:Em; [|discriminate]. cbn [bind] in E. injection E as <-.
    destruct (IH ys eq_refl) as [L I]. cbn [length combine]. split; [lia|]. intros m y [[= <- <-]|J]; auto.
    apply (dget_In String.eqb String.eqb_eq); auto.
Qed.

Lemma bind_args_spec names pos kws xs : NoDup names -> NoDup (map fst kws) ->
  bind_args names pos kws = Ok xs <->
  (length xs = length names /\ firstn (length pos) xs = pos /\
   Permutation kws (combine (skipn (length pos) names) (skipn (length pos) xs))).
Proof.
  intros ND NK. unfold bind_args. split.
  - destruct (bind_pos names pos) as [rest|] eqn:Eb; [|discriminate]. apply bind_pos_spec in Eb as [Lp ->]. cbn [bind].
    destruct (forallb _ kws) eqn:Ef; [|discriminate].
    destruct (mapM _ (skipn (length pos) names)) as [ys|] eqn:Em; [|discriminate]. cbn [bind]. intros [= <-].
    apply mapM_lookup in Em as [Ly Iy]. rewrite skipn_length in Ly.
    split; [rewrite app_length; lia|]. split; [rewrite firstn_app, firstn_all, Nat.sub_diag, app_nil_r; auto|].
    rewrite skipn_app, skipn_all, Nat.sub_diag. cbn [skipn app].
    apply NoDup_Permutation.
    + eapply NoDup_map_inv; eauto.
    + apply (NoDup_map_inv fst). rewrite combine_fst by (rewrite skipn_length; auto). apply NoDup_skipn; auto.
    + intros [m y]. split; [|apply Iy]. intros I. rewrite forallb_forall in Ef. specialize (Ef _ I). cbn [fst] in Ef.
      apply existsb_exists in Ef as (p & Ip & Ep). apply String.eqb_eq in Ep as ->.
      apply (In_nth_error) in Ip as (i & Ei). assert (i < length (skipn (length pos) names))%nat as Li by (apply nth_error_Some; congruence).
      rewrite skipn_length in Li. destruct (nth_error ys i) as [y'|] eqn:Ey; [|apply nth_error_None in Ey; lia].
      assert (In (p, y') (combine (skipn (length pos) names) ys)) as Iz.
      { clear - Ei Ey. revert ys i Ei Ey. generalize (skipn (length pos) names) as ns. induction ns as [|n ns IH]; intros [|z ys] [|i] Ei Ey; try discriminate.
        - cbn in *. left. congruence.
        - cbn in *. right. eauto. }
      specialize (Iy _ _ Iz). apply (dget_NoDup String.eqb String.eqb_eq) in I, Iy; auto. congruence.
  - intros (L & Ep & P). assert (length pos <= length names)%nat as Lp.
    { pose proof (f_equal (@length carg) Ep) as E. rewrite firstn_length in E. lia. }
    rewrite (proj2 (bind_pos_spec names pos _) (conj Lp eq_refl)). cbn [bind].
    set (ns := skipn (length pos) names) in *. set (ys := skipn (length pos) xs) in *.
    assert (length ns = length ys) as Ln by (unfold ns, ys; rewrite !skipn_length; lia).
    assert (NoDup (map fst (combine ns ys))) as NDc by (rewrite combine_fst by auto; apply NoDup_skipn; auto).
    replace (forallb _ kws) with true.
    + assert (forall ms, mapM (fun p => match dget String.eqb kws p with Some x => Ok x | None => Err TypeError end) ms =
        mapM (fun p => match dget String.eqb (combine ns ys) p with Some x => Ok x | None => Err TypeError end) ms) as ->.
      { induction ms as [|m ms IH]; auto. cbn [mapM]. rewrite (dget_perm _ _ m P NDc), IH. auto. }
      rewrite lookup_combine; auto; [|rewrite combine_fst in NDc; auto]. cbn [bind]. f_equal.
      unfold ys. rewrite <- Ep at 1. apply firstn_skipn.
    + symmetry. apply forallb_forall. intros [m y] I. cbn [fst]. apply existsb_exists. exists m. split; [|apply String.eqb_refl].
      apply (Permutation_in _ P) in I. apply in_combine_l in I. auto.
Qed.

(** ** One argument *)
Inductive wraps : ty -> val -> ty -> val -> Prop :=
| w_here t v : wraps t v t v
| w_one c k t' v' u v : wraps t' v' u v -> wraps (TProd c [(k, t')]) (VProd [v']) u v.

Lemma wraps_depth t v' u v : wraps t v' u v -> (depth u <= depth t)%nat.
Proof. induction 1; cbn [depth]; lia. Qed.

Section One.
  Variable asmof : ty -> asm.
  Hypothesis asmof_ok : forall t, wf_ty t -> exists R, good_request R /\ asm_rel R t (asmof t).
  Variable leaf_new : ty -> carg -> res Z.
  Hypothesis leaf_words : forall t z, is_leaf t = true -> 0 <= z < 2 ^ leaf_width t -> leaf_new t (CWord (leaf_width t) z) = Ok z.
  Variable is_tuple : string -> bool.
  Variable shadow : string -> option (carg -> res Z).

  (** An argument that stands for the value [v] of type [t]. *)
  Inductive passes (t : ty) (v : val) : carg -> Prop :=
  | p_adt : is_leaf t = false -> has_ty t v -> nonneg_signed t v -> passes t v (CAdt t v)
  | p_inst z : is_leaf t = false -> canonical t z v -> passes t v (CInst t z)
  | p_word w z : swidth t w -> canonical t z v -> passes t v (CWord w z)
  | p_leaf x z : is_leaf t = true -> leaf_new t x = Ok z -> canonical t z v ->
      match x with CInt _ => True | CAdt u _ => is_leaf u = true | _ => False end -> passes t v x.

  Inductive clean : ty -> Prop :=
  | cl_other t : (forall c k t', t <> TProd c [(k, t')]) -> clean t
  | cl_one c k t' : is_tuple c = true \/ shadow (kname k) = None -> clean t' -> clean (TProd c [(k, t')]).

  Lemma sw_width t w : wf_ty t -> swidth t w -> a_width (asmof t) = w.
  Proof.
    intros Wt S. destruct (asmof_ok t Wt) as (R & _ & A). destruct (asm_rel_width R t Wt _ A) as [S' _]. eapply swidth_fun; eauto.
  Qed.

  Lemma leaf_sw t w : is_leaf t = true -> swidth t w -> w = leaf_width t.
  Proof. destruct t; try discriminate; intros _ S; inversion S; auto. Qed.

  Lemma one_wf c k t : wf_ty (TProd c [(k, t)]) -> wf_ty t.
  Proof. inversion 1 as [| | | |? ? ? F|]; subst. inversion F; subst. auto. Qed.

  Lemma one_field c k t z d : wf_ty (TProd c [(k, t)]) ->
    prod_from_fields [(k, t)] (asmof (TProd c [(k, t)])) [FWord (a_width (asmof t)) z] d = Ok z.
  Proof.
    intros W. pose proof (one_wf _ _ _ W) as Wt. destruct (asmof_ok _ W) as (R & GR & A).
    inversion A as [| | | |? ? w fs' T|]; subst. inversion T as [|? ? ? ? ? a0 rest Ha Tr]; subst. inversion Tr; subst.
    cbn [prod_from_fields new_fields field_new].
    destruct (asm_rel_width R t Wt _ Ha) as [S P]. rewrite (sw_width t _ Wt S), Z.eqb_refl. cbn [bind].
    unfold create_from_layout. cbn [map fst snd same_keys forallb key_in existsb].
    unfold same_keys. cbn [forallb key_in existsb]. rewrite (proj2 (key_eqb_eq k k) eq_refl). cbn [andb orb negb isort insert ranges_ok fill].
    unfold dgetE. cbn [dget]. rewrite (proj2 (key_eqb_eq k k) eq_refl). cbn [bind]. unfold slot_set.
    cbn [Z.to_nat firstn app somes]. rewrite somes_app, somes_none. cbn [app].
    rewrite skipn_all2 by (rewrite repeat_length; lia). cbn [reduce_concat fold_left somes bind fst snd].
    replace (a_width a0 =? 0 + a_width a0) with true by (symmetry; apply Z.eqb_eq; lia). auto.
  Qed.

  Lemma one_canonical c k t z v : wf_ty (TProd c [(k, t)]) -> canonical t z v -> canonical (TProd c [(k, t)]) z (VProd [v]).
  Proof.
    intros W C. pose proof (one_wf _ _ _ W) as Wt. destruct (asmof_ok t Wt) as (R & _ & A). destruct (asm_rel_width R t Wt _ A) as [S _].
    replace z with (z + 2 ^ a_width (asmof t) * 0) by lia. apply enc_prod. econstructor; eauto. constructor.
  Qed.

  Lemma one_swidth c k t w : swidth t w -> swidth (TProd c [(k, t)]) w.
  Proof. intros S. replace w with (zsum [w]) by (cbn; lia). apply sw_prod. repeat constructor. auto. Qed.

  Lemma init_small t u v x : passes u v x -> (depth u < depth t)%nat ->
    init asmof t x = Err TypeError \/ exists w z, x = CWord w z /\ w = a_width (asmof t) /\ init asmof t x = Ok z.
  Proof.
    intros P D. assert (forall s, (depth s < depth t)%nat -> ty_eqb t s = false) as NE.
    { intros s Hs. destruct (ty_eqb t s) eqn:E; auto. apply ty_eqb_eq in E as ->. lia. }
    destruct P as [Lu H N|z Lu C|w z S C|x z Lu E C Hx]; cbn [init].
    - rewrite NE by auto. auto.
    - rewrite NE by auto. auto.
    - destruct (w =? a_width (asmof t)) eqn:E; auto. apply Z.eqb_eq in E. right. exists w, z. auto.
    - destruct x; try contradiction; auto. cbn [init]. destruct (ty_eqb t t0) eqn:E2; auto.
      apply ty_eqb_eq in E2 as ->. destruct t0; try discriminate; destruct u; cbn in D; lia.
  Qed.

  Lemma wraps_sw t v' u v : wraps t v' u v -> forall w, swidth u w -> swidth t w.
  Proof. induction 1; intros w S; auto. apply one_swidth. auto. Qed.
  Lemma wraps_canonical t v' u v : wraps t v' u v -> wf_ty t -> forall z, canonical u z v -> canonical t z v'.
  Proof. induction 1 as [|c k t' v' u v Wr IH]; intros W z C; auto. apply one_canonical; auto. apply IH; auto. eapply one_wf; eauto. Qed.

  (** What the field class makes of such an argument, also through one-field products. *)
  Lemma new_ok t v' u v x : wraps t v' u v -> wf_ty t -> clean t -> passes u v x ->
    exists z, new asmof leaf_new is_tuple shadow t x = Ok z /\ canonical t z v'.
  Proof.
    intros Wr. revert x. induction Wr as [t v|c k t' v' u v Wr IH]; intros x W Cl P.
    - assert (is_leaf t = false -> (init asmof t x = Ok match x with CInst _ z => z | CWord _ z => z | CAdt _ v => match assemble (asmof t) v with Ok z => z | _ => 0 end | _ => 0 end) /\
        exists z, init asmof t x = Ok z /\ canonical t z v) as G.
      { intros L. destruct P as [_ H N|z _ C|w z S C|x z Lt E C Hx]; cbn [init].
        - rewrite ty_eqb_refl. destruct (asmof_ok t W) as (R & _ & A). destruct (assemble_spec R t _ v W A H N) as (op & E & C & _).
          rewrite E. eauto.
        - rewrite ty_eqb_refl. eauto.
        - rewrite (sw_width t w W S), Z.eqb_refl. eauto.
        - congruence. }
      destruct (is_leaf t) eqn:L.
      + clear G. assert (new asmof leaf_new is_tuple shadow t x = leaf_new t x) as -> by (destruct t; auto; discriminate).
        destruct P as [L' _ _|z L' _|w z S C|x z Lt E C Hx]; try congruence; eauto.
        exists z. split; auto. rewrite (leaf_sw t w L S). apply leaf_words; auto.
        destruct t; try discriminate; inversion C; subst; cbn [leaf_width]; auto.
        change (2 ^ 1) with 2. apply b2z_range.
      + destruct (G eq_refl) as [_ (z & E & C)]. exists z. split; auto.
        destruct t; try discriminate; cbn [new]; rewrite E; auto.
    - pose proof (one_wf _ _ _ W) as Wt. inversion Cl as [? N|? ? ? Sh Cl']; subst; [exfalso; eapply N; eauto|].
      destruct (IH x Wt Cl' P) as (z & En & C). exists z. split; [|apply one_canonical; auto].
      cbn [new]. pose proof (wraps_depth _ _ _ _ Wr) as D.
      destruct (init_small (TProd c [(k, t')]) u v x P ltac:(cbn [depth]; lia)) as [->|(w & z' & -> & Ew & ->)].
      + assert ((if is_tuple c then None else shadow (kname k)) = None) as -> by (destruct Sh as [->| ->]; destruct (is_tuple c); auto).
        rewrite En. cbn [bind]. apply one_field; auto.
      + f_equal. assert (exists y, canonical u y v /\ z' = y) as (y & Cy & ->).
        { inversion P as [| |w0 z0 S0 C0|x0 z0 L0 E0 C0 H0]; subst; [eauto|contradiction]. }
        eapply canonical_fun; [exact Wt|eapply wraps_canonical; eauto|auto].
  Qed.
End One.

Section Calls.
  Variable asmof : ty -> asm.
  Hypothesis asmof_ok : forall t, wf_ty t -> exists R, good_request R /\ asm_rel R t (asmof t).
  Variable leaf_new : ty -> carg -> res Z.
  Hypothesis leaf_words : forall t z, is_leaf t = true -> 0 <= z < 2 ^ leaf_width t -> leaf_new t (CWord (leaf_width t) z) = Ok z.
  Variable is_tuple : string -> bool.
  Variable shadow : string -> option (carg -> res Z).

  Definition passed (t : ty) (v : val) (x : carg) : Prop := exists u v0, wraps t v u v0 /\ passes leaf_new u v0 x.

  Lemma new_passed t v x : wf_ty t -> clean is_tuple shadow t -> passed t v x ->
    exists z, new asmof leaf_new is_tuple shadow t x = Ok z /\ canonical t z v.
  Proof. intros W Cl (u & v0 & Wr & P). eapply new_ok; eauto. Qed.

  (** The constructor of a class with one field, given that field. *)
  Lemma init_part c k t v x : wf_ty (TProd c [(k, t)]) -> passed t v x ->
    init asmof (TProd c [(k, t)]) x = Err TypeError \/
    exists z, init asmof (TProd c [(k, t)]) x = Ok z /\ canonical (TProd c [(k, t)]) z (VProd [v]).
  Proof.
    intros W (u & v0 & Wr & P). pose proof (wraps_depth _ _ _ _ Wr) as D.
    destruct (init_small asmof leaf_new (TProd c [(k, t)]) u v0 x P ltac:(cbn [depth]; lia)) as [E|(w & z & -> & Ew & E)]; [auto|].
    right. exists z. split; auto. apply (one_canonical asmof asmof_ok); [exact W|].
    eapply (wraps_canonical asmof asmof_ok); [exact Wr|eapply one_wf; eauto|].
    inversion P as [| |w0 z0 S0 C0|x0 z0 L0 E0 C0 H0]; subst; [auto|contradiction].
  Qed.

  Lemma new_all_passed mk fs vs xs : length vs = length xs ->
    (forall f x z, In f fs -> new asmof leaf_new is_tuple shadow (snd f) x = Ok z -> mk f x = Ok z) ->
    Forall (fun f => wf_ty (snd f)) fs -> Forall (fun f => clean is_tuple shadow (snd f)) fs ->
    Forall2 (fun f vx => passed (snd f) (fst vx) (snd vx)) fs (combine vs xs) ->
    exists zs, new_all asmof mk fs xs = Ok zs /\ length vs = length zs /\
      Forall2 (fun f va => arg_for (fun j => j = 0) (snd f) (fst va) (snd va)) fs (combine vs zs).
  Proof.
    revert vs xs. induction fs as [|f fs IH]; intros [|v vs] [|x xs] L Hm W Cl F; try discriminate; cbn [combine] in F; inversion F as [|? y ? r P Fr E1 E2]; subst.
    - exists []. cbn. auto.
    - cbn [fst snd] in P.
      inversion W as [|? ? Wf Wr]; subst. inversion Cl as [|? ? Cf Cr]; subst.
      destruct (new_passed _ _ _ Wf Cf P) as (z & En & C). injection L as L.
      destruct (IH vs xs L) as (zs & Ez & Lz & Fz); auto. { intros g y z' I. apply Hm. right; auto. }
      cbn [new_all]. rewrite (Hm f x z (or_introl eq_refl) En). cbn [bind]. rewrite Ez. cbn [bind].
      eexists. split; [reflexivity|]. cbn [length combine]. split; [lia|]. constructor; auto. cbn [fst snd].
      apply af_word; auto. destruct (asmof_ok _ Wf) as (R & _ & A). apply (asm_rel_width R _ Wf _ A).
  Qed.

  Lemma prod_words c fs vs zs d : wf_ty (TProd c fs) -> length vs = length zs ->
    Forall2 (fun f va => arg_for (fun j => j = 0) (snd f) (fst va) (snd va)) fs (combine vs zs) ->
    fs <> [] -> (length fs = 1%nat \/ all_wide fs) ->
    exists op, prod_from_fields fs (asmof (TProd c fs)) zs d = Ok op /\ canonical (TProd c fs) op (VProd vs).
  Proof.
    intros W L F NE Wd. destruct (asmof_ok _ W) as (R & _ & A).
    exact (prod_from_fields_ok R _ c fs _ vs zs d eq_refl W A L F NE Wd).
  Qed.

  (** The keyword dictionary of a call, without and with the default. *)
  Definition with_default (kws : kwargs) (d : option Z) : kwargs :=
    kws ++ match d with Some z => [("default_bv", CInt z)] | None => [] end.

  Lemma drop_none n (l : kwargs) : ~ In n (map fst l) -> drop n l = l.
  Proof.
    induction l as [|[m x] l IH]; cbn [drop filter map fst]; auto. intros N. destruct (String.eqb m n) eqn:E.
    - apply String.eqb_eq in E as ->. exfalso. apply N. left; auto.
    - cbn [negb]. f_equal. apply IH. intros I. apply N. right; auto.
  Qed.
  Lemma drop_app n (a b : kwargs) : drop n (a ++ b) = drop n a ++ drop n b.
  Proof. apply filter_app. Qed.
  Lemma drop_default kws base d : Permutation kws (with_default base d) -> ~ In "default_bv" (map fst base) ->
    Permutation (drop "default_bv" kws) base.
  Proof.
    intros P N. unfold drop. rewrite (Permutation_filter' _ _ _ _ P). fold (drop "default_bv" (with_default base d)).
    unfold with_default. rewrite drop_app, (drop_none _ base) by auto. destruct d; cbn; rewrite app_nil_r; auto.
  Qed.
  Lemma default_nodup base d : ~ In "default_bv" (map fst base) -> NoDup (map fst base) -> NoDup (map fst (with_default base d)).
  Proof.
    intros N ND. unfold with_default. rewrite map_app. destruct d; cbn [map fst]; [|rewrite app_nil_r; auto].
    apply (Permutation_NoDup (Permutation_app_comm ["default_bv"] _)). constructor; auto.
  Qed.
  Lemma dget_app (a b : kwargs) n : dget String.eqb (a ++ b) n = match dget String.eqb a n with Some x => Some x | None => dget String.eqb b n end.
  Proof. induction a as [|[m x] a IH]; cbn [app dget]; auto. destruct (String.eqb n m); auto. Qed.
  Lemma dget_out (a : kwargs) n : ~ In n (map fst a) -> dget String.eqb a n = None.
  Proof.
    induction a as [|[m x] a IH]; cbn [dget map fst]; auto. intros N. destruct (String.eqb n m) eqn:E.
    - apply String.eqb_eq in E as ->. exfalso. apply N. left; auto.
    - apply IH. intros I. apply N. right; auto.
  Qed.
  Lemma default_value kws base d : Permutation kws (with_default base d) -> ~ In "default_bv" (map fst base) -> NoDup (map fst base) ->
    exists z, default_of kws = Ok z /\ z = match d with Some z => z | None => 0 end.
  Proof.
    intros P N ND. unfold default_of. rewrite (dget_perm _ _ "default_bv" P) by (apply default_nodup; auto).
    unfold with_default. rewrite dget_app, dget_out by auto. destruct d; cbn; eauto.
  Qed.
  Lemma no_name kws base d n : Permutation kws (with_default base d) -> ~ In n (map fst base) -> n <> "default_bv" ->
    ~ In n (map fst kws).
  Proof.
    intros P N Ne I. apply (Permutation_in _ (Permutation_map fst P)) in I. unfold with_default in I. rewrite map_app in I.
    apply in_app_or in I as [I|I]; auto. destruct d; cbn in I; [destruct I as [I|[]]; congruence|auto].
  Qed.
  Lemma has_not kws base d n : Permutation kws (with_default base d) -> ~ In n (map fst base) -> n <> "default_bv" -> has kws n = false.
  Proof. intros P N Ne. unfold has. rewrite dget_out; auto. eapply no_name; eauto. Qed.

  Section Product.
    Variables (c : string) (fs : list (key * ty)) (vs : list val) (xs : list carg).
    Let t := TProd c fs.
    Let names := map (fun f : key * ty => kname (fst f)) fs.
    Hypothesis W : wf_ty t.
    Hypothesis L : length vs = length xs.
    Hypothesis F : Forall2 (fun f vx => passed (snd f) (fst vx) (snd vx)) fs (combine vs xs).
    Hypothesis Cl : Forall (fun f => clean is_tuple shadow (snd f)) fs.
    Hypothesis NE : fs <> [].
    Hypothesis Wd : length fs = 1%nat \/ all_wide fs.

    Lemma lengths : length fs = length xs.
    Proof.
      assert (length fs = length (combine vs xs)) as E by (clear - F; induction F; cbn; auto). rewrite combine_length in E. lia.
    Qed.

    (** The constructor on a call with the fields: it fails or gets the same word. *)
    Lemma init_fields pos kws d : pos = firstn (length pos) xs ->
      Permutation kws (with_default (combine (skipn (length pos) names) (skipn (length pos) xs)) d) ->
      init_call asmof t pos kws = Err TypeError \/ exists z, init_call asmof t pos kws = Ok z /\ canonical t z (VProd vs).
    Proof.
      intros Ep P. pose proof lengths as Lx.
      assert (forall x, xs = [x] -> init asmof t x = Err TypeError \/ exists z, init asmof t x = Ok z /\ canonical t z (VProd vs)) as G.
      { intros x Ex. rewrite Ex in *. unfold t in *. clear t names Ep P NE Wd. destruct fs as [|[k t'] [|? ?]]; try discriminate.
        destruct vs as [|v [|? ?]]; try discriminate. inversion F; subst. cbn [fst snd] in *. apply init_part; auto. }
      pose proof (Permutation_length P) as Lk. unfold with_default in Lk. rewrite app_length, combine_length, !skipn_length in Lk.
      assert (length names = length xs) as Ln by (unfold names; rewrite map_length; auto).
      assert (length xs <> 0%nat) as Nz by (rewrite <- Lx; destruct fs; [congruence|discriminate]).
      assert (length pos <= length xs)%nat as Lp by (pose proof (f_equal (@length _) Ep) as E; rewrite firstn_length in E; lia).
      unfold init_call. destruct pos as [|x [|? ?]].
      - destruct kws as [|[n x] [|? ?]]; auto. destruct (String.eqb n "adt") eqn:En; auto.
        cbn [length skipn] in *. destruct xs as [|x0 [|? ?]]; try (cbn in *; lia).
        destruct names as [|n0 [|? ?]]; try discriminate. destruct d; [cbn in Lk; lia|].
        cbn in P. apply Permutation_length_1 in P. injection P as -> ->. apply G. auto.
      - destruct kws as [|? ?]; auto. cbn [length] in *. destruct xs as [|x0 [|? ?]]; try (cbn in *; lia).
        cbn [firstn] in Ep. injection Ep as ->. apply G. auto.
      - auto.
    Qed.

    Lemma product_ok pos kws d : is_tuple c = false -> NoDup names -> ~ In "cls" names -> ~ In "default_bv" names ->
      (forall f, In f fs -> shadow (kname (fst f)) = None) ->
      pos = firstn (length pos) xs ->
      Permutation kws (with_default (combine (skipn (length pos) names) (skipn (length pos) xs)) d) ->
      exists op, from_fields asmof leaf_new is_tuple shadow t pos kws = Ok op /\
        cls_call asmof leaf_new is_tuple shadow t pos kws = Ok op /\ canonical t op (VProd vs).
    Proof.
      intros Tu ND Nc Nd Sh Ep P. pose proof lengths as Lx.
      set (base := combine (skipn (length pos) names) (skipn (length pos) xs)) in *.
      assert (length names = length xs) as Ln by (unfold names; rewrite map_length; auto).
      assert (map fst base = skipn (length pos) names) as Eb by (apply combine_fst; rewrite !skipn_length; lia).
      assert (forall n, ~ In n names -> ~ In n (map fst base)) as Nb.
      { intros n N I. apply N. rewrite Eb in I. rewrite <- (firstn_skipn (length pos) names). apply in_or_app. auto. }
      assert (NoDup (map fst base)) as NDb by (rewrite Eb; apply NoDup_skipn; auto).
      assert (has kws "cls" = false) as Hc by (eapply has_not; eauto; discriminate).
      destruct (default_value kws base d P (Nb _ Nd) NDb) as (z & Ez & _).
      pose proof (drop_default kws base d P (Nb _ Nd)) as Pd.
      assert (NoDup (map fst (drop "default_bv" kws))) as NDd.
      { eapply Permutation_NoDup; [apply Permutation_map, Permutation_sym; exact Pd|auto]. }
      assert (bind_args names pos (drop "default_bv" kws) = Ok xs) as Eba.
      { apply bind_args_spec; auto. }
      assert (Forall (fun f => wf_ty (snd f)) fs) as Wf by (unfold t in W; inversion W; auto).
      destruct (new_all_passed (new_attr asmof leaf_new is_tuple shadow) fs vs xs L) as (zs & En & Lz & Fz); auto.
      { intros f x y I E. unfold new_attr. rewrite Sh; auto. }
      destruct (prod_words c fs vs zs z W Lz Fz NE Wd) as (op & Eo & C).
      assert (from_fields asmof leaf_new is_tuple shadow t pos kws = Ok op) as Ff.
      { unfold from_fields, t. rewrite Tu. unfold product_ff. rewrite Hc. fold names. rewrite Eba. cbn [bind].
        rewrite En. cbn [bind]. rewrite Ez. cbn [bind]. exact Eo. }
      exists op. split; [exact Ff|]. split; [|exact C].
      unfold cls_call. rewrite Hc. destruct (init_fields pos kws d Ep P) as [E|(y & E & Cy)]; rewrite E; unfold t; [exact Ff|].
      f_equal. eapply canonical_fun; eauto.
    Qed.

    Lemma tuple_ok d : is_tuple c = true ->
      exists op, from_fields asmof leaf_new is_tuple shadow t xs (with_default [] d) = Ok op /\
        cls_call asmof leaf_new is_tuple shadow t xs (with_default [] d) = Ok op /\ canonical t op (VProd vs).
    Proof.
      intros Tu. pose proof lengths as Lx.
      assert (Forall (fun f => wf_ty (snd f)) fs) as Wf by (unfold t in W; inversion W; auto).
      destruct (new_all_passed (fun f => new asmof leaf_new is_tuple shadow (snd f)) fs vs xs L) as (zs & En & Lz & Fz); auto.
      set (z := match d with Some z => z | None => 0 end).
      destruct (prod_words c fs vs zs z W Lz Fz NE Wd) as (op & Eo & C).
      assert (from_fields asmof leaf_new is_tuple shadow t xs (with_default [] d) = Ok op) as Ff.
      { unfold from_fields, t. rewrite Tu. unfold tuple_ff.
        replace (drop "default_bv" (with_default [] d)) with (@nil (string * carg)) by (destruct d; auto).
        rewrite <- Lx, Nat.eqb_refl. cbn [negb]. rewrite En. cbn [bind].
        replace (default_of (with_default [] d)) with (@Ok Z z) by (destruct d; auto). exact Eo. }
      exists op. split; [exact Ff|]. split; [|exact C].
      unfold cls_call. replace (has (with_default [] d) "cls") with false by (destruct d; auto).
      destruct (init_fields xs (with_default [] d) d) as [E|(y & E & Cy)].
      - symmetry. apply firstn_all.
      - rewrite (skipn_all xs). rewrite combine_nil. auto.
      - rewrite E. unfold t. exact Ff.
      - rewrite E. unfold t. f_equal. eapply canonical_fun; eauto.
    Qed.
  End Product.

  Section SumCalls.
    Variables (g : bool) (c : string) (fs : list (key * ty)) (k : key) (u : ty) (v : val) (x : carg).
    Let t := TSum g c fs.
    Hypothesis W : wf_ty t.
    Hypothesis I : In (k, u) fs.
    Hypothesis P : passed u v x.
    Hypothesis Cl : clean is_tuple shadow u.
    Hypothesis L2 : (2 <= length fs)%nat.
    Hypothesis Wd : ~ swidth u 0.

    Lemma sum_member : wf_ty u.
    Proof. unfold t in W. inversion W as [| | | | |? ? ? _ _ Wf]; subst. rewrite Forall_forall in Wf. exact (Wf _ I). Qed.

    Lemma sum_value kws base d : Permutation kws (with_default base d) -> ~ In "default_bv" (map fst base) ->
      ~ In "tag_bv" (map fst base) -> NoDup (map fst base) ->
      exists z op, new asmof leaf_new is_tuple shadow u x = Ok z /\ sum_ff_value asmof t fs k u z kws = Ok op /\ encodes t op (VSum k v) /\
        (Z.even (match d with Some z => z | None => 0 end) = true -> canonical t op (VSum k v)).
    Proof.
      intros Pk Nd Nt ND. pose proof sum_member as Wu. destruct (new_passed _ _ _ Wu Cl P) as (z & En & C).
      destruct (asmof_ok _ Wu) as (Ru & _ & Au). destruct (asm_rel_width Ru u Wu _ Au) as [Su _].
      destruct (asmof_ok _ W) as (R & GR & A). destruct (default_value kws base d Pk Nd ND) as (dz & Ed & Edz).
      assert (forall J : Z -> Prop, J 0 -> arg_for J u v (FWord (a_width (asmof u)) z)) as AF.
      { intros J J0. apply af_word; auto. eapply enc_weaken; [|exact C]. intros j ->. auto. }
      destruct (sum_from_fields_ok R (fun _ => True) g c fs _ k u _ v dz Logic.I (fun _ _ => Logic.I) GR W A I (AF _ Logic.I) L2 Wd) as (op & Eo & Co).
      exists z, op. split; auto. split.
      - unfold sum_ff_value, tag_arg. rewrite dget_out by (eapply no_name; eauto; discriminate). rewrite Ed. cbn [bind]. unfold t in *. rewrite Eo. reflexivity.
      - split; [exact Co|]. rewrite <- Edz. intros Ev.
        assert (wrap 1 dz = 0) as Wz. { unfold wrap. change (2 ^ 1) with 2. apply Z.even_spec in Ev as [m ->]. rewrite Z.mul_comm. apply Z_mod_mult. }
        destruct (sum_from_fields_ok R (fun j => j = 0) g c fs _ k u _ v dz eq_refl ltac:(intros; rewrite Wz; auto) GR W A I (AF _ eq_refl) L2 Wd) as (op' & Eo' & Co').
        fold t in Eo, Eo', A. rewrite Eo in Eo'. injection Eo' as ->. exact Co'.
    Qed.

    (** With a tag: of the width of tags, or not. *)
    Lemma sum_value_tag kws base d gx w tag : Permutation kws (with_default (base ++ [("tag_bv", gx)]) d) ->
      gx = CWord w tag \/ (exists s, gx = CInst s tag /\ a_width (asmof s) = w) ->
      ~ In "default_bv" (map fst base) -> ~ In "tag_bv" (map fst base) -> NoDup (map fst base) ->
      let tw := bits_for (Z.of_nat (length fs) - 1) in
      exists z op, new asmof leaf_new is_tuple shadow u x = Ok z /\
        encodes t op (VSum k v) /\ (0 <= tag < 2 ^ tw -> w = tw -> exists op', sum_ff_value asmof t fs k u z kws = Ok op' /\ op' mod 2 ^ tw = tag /\ op' / 2 ^ tw = op / 2 ^ tw) /\
        (Z.even (match d with Some z => z | None => 0 end) = true -> canonical t op (VSum k v)).
    Proof.
      intros Pk Hg Nd Nt ND tw. destruct (sum_value (with_default base d) base d (Permutation_refl _) Nd Nt ND) as (z & op & En & Es & Co & Cc).
      exists z, op. split; auto. split; auto. split; auto. intros Rt Ew.
      pose proof sum_member as Wu. destruct (new_passed _ _ _ Wu Cl P) as (z' & En' & C). assert (z' = z) by congruence. subst z'.
      destruct (asmof_ok _ Wu) as (Ru & _ & Au). destruct (asm_rel_width Ru u Wu _ Au) as [Su _].
      destruct (asmof_ok _ W) as (R & GR & A).
      assert (~ In "default_bv" (map fst (base ++ [("tag_bv", gx)]))) as Nd'.
      { rewrite map_app. intros X. apply in_app_or in X as [X|[X|[]]]; [auto|discriminate X]. }
      assert (NoDup (map fst (base ++ [("tag_bv", gx)]))) as ND'.
      { rewrite map_app. apply (Permutation_NoDup (Permutation_app_comm (map fst [("tag_bv", gx)]) _)). constructor; auto. }
      destruct (default_value kws _ d Pk Nd' ND') as (dz & Ed & Edz). destruct (default_value _ base d (Permutation_refl _) Nd ND) as (dz' & Ed' & Edz'). assert (dz' = dz) by congruence. subst dz'.
      assert (tag_arg asmof kws = Ok (Some (w, tag))) as Et.
      { unfold tag_arg. rewrite (dget_perm _ _ "tag_bv" Pk) by (apply default_nodup; auto). unfold with_default. rewrite dget_app, dget_app, dget_out by auto.
        cbn [dget]. rewrite String.eqb_refl. destruct Hg as [->|(s & -> & Es')]; [reflexivity|now rewrite Es']. }
      unfold sum_ff_value in *. rewrite Ed' in Es. cbn [bind] in Es. unfold tag_arg in Es. rewrite dget_out in Es by (eapply no_name; [apply Permutation_refl|auto|discriminate]).
      rewrite Ed, Et. cbn [bind].
      destruct (sum_from_fields_tag R (fun _ => True) g c fs _ k u (FWord (a_width (asmof u)) z) v dz tag Logic.I GR W A I) as (op0 & op' & E0 & E1 & E2 & E3); auto.
      { apply af_word; auto. eapply enc_weaken; [|exact C]. auto. }
      fold t in E0, E1. rewrite Edz in E0. rewrite E0 in Es. cbn [bind] in Es. injection Es as ->. rewrite E1. cbn [bind]. exists op'.
      split; [|split; [exact E2|exact E3]].
      assert (exists w0 as_ gs tv, asmof t = ASum w0 tw as_ gs tv) as (w0 & as_ & gs & tv & ->).
      { unfold t in *. unfold tw. rewrite bits_for_bit_length by lia. generalize dependent (asmof (TSum g c fs)). intros a A; intros. clear - A. inversion A; subst. do 4 eexists. reflexivity. }
      now rewrite Ew, Z.eqb_refl.
    Qed.

    (** The calls with a tag. *)
    Lemma tag_bound kws base d gx : Permutation kws (with_default (base ++ [("tag_bv", gx)]) d) ->
      ~ In "default_bv" (map fst base) -> ~ In "tag_bv" (map fst base) ->
      Permutation (drop "tag_bv" (drop "default_bv" kws)) base.
    Proof.
      intros Pk Nd Nt. assert (~ In "default_bv" (map fst (base ++ [("tag_bv", gx)]))) as Nd'.
      { rewrite map_app. intros X. apply in_app_or in X as [X|[X|[]]]; [auto|discriminate X]. }
      unfold drop at 1. rewrite (Permutation_filter' _ _ _ _ (drop_default kws _ d Pk Nd')). fold (drop "tag_bv" (base ++ [("tag_bv", gx)])).
      rewrite drop_app, (drop_none _ base) by auto. cbn. rewrite app_nil_r. auto.
    Qed.
    Lemma sum_tag pos kws base d gx w tag z : pos = firstn (length pos) [CKey k; x] -> g = false ->
      base = combine (skipn (length pos) ["tag"; "value"]) (skipn (length pos) [CKey k; x]) ->
      Permutation kws (with_default (base ++ [("tag_bv", gx)]) d) -> gx = CWord w tag \/ (exists s, gx = CInst s tag /\ a_width (asmof s) = w) ->
      new asmof leaf_new is_tuple shadow u x = Ok z ->
      from_fields asmof leaf_new is_tuple shadow t pos kws = sum_ff_value asmof t fs k u z kws /\
      cls_call asmof leaf_new is_tuple shadow t pos kws = sum_ff_value asmof t fs k u z kws.
    Proof.
      intros Ep Hg Eb0 Pk Hx En. 
      assert (map fst base = skipn (length pos) ["tag"; "value"]) as Eb by (subst base; apply combine_fst; rewrite !skipn_length; auto).
      assert (forall n, ~ In n ["tag"; "value"] -> ~ In n (map fst base)) as Nb.
      { intros n N J. apply N. rewrite Eb in J. rewrite <- (firstn_skipn (length pos) ["tag"; "value"]). apply in_or_app. auto. }
      assert (NoDup ["tag"; "value"]) as ND0 by (repeat constructor; cbn; intuition discriminate).
      assert (NoDup (map fst base)) as NDb by (rewrite Eb; apply NoDup_skipn; auto).
      assert (~ In "default_bv" (map fst base)) as Nd by (apply Nb; cbn; intuition discriminate).
      assert (~ In "tag_bv" (map fst base)) as Nt by (apply Nb; cbn; intuition discriminate).
      assert (has kws "cls" = false) as Hc.
      { apply (has_not kws (base ++ [("tag_bv", gx)]) d); auto; [|discriminate]. rewrite map_app. intros X. apply in_app_or in X as [X|[X|[]]]; [|discriminate X]. revert X. apply Nb. cbn. intuition discriminate. }
      pose proof (tag_bound kws base d gx Pk Nd Nt) as Pd.
      assert (bind_args ["tag"; "value"] pos (drop "tag_bv" (drop "default_bv" kws)) = Ok [CKey k; x]) as Eba.
      { apply bind_args_spec; auto. 
        - eapply Permutation_NoDup; [apply Permutation_map, Permutation_sym; exact Pd|auto].
        - subst base. auto. }
      assert (no_dup_keys fs) as NDk by (unfold t in W; inversion W; auto).
      assert (from_fields asmof leaf_new is_tuple shadow t pos kws = sum_ff_value asmof t fs k u z kws) as Ff.
      { unfold from_fields, t. rewrite Hg. unfold sum_ff. rewrite Hc, Eba. cbn [bind]. rewrite (dget_key_In fs k u NDk I), En. reflexivity. }
      split; auto. unfold cls_call. rewrite Hc. replace (init_call asmof t pos kws) with (@Err Z TypeError); [unfold t; exact Ff|]. symmetry. unfold init_call.
      pose proof (Permutation_length Pk) as Lk. subst base. unfold with_default in Lk. rewrite !app_length, combine_length, !skipn_length in Lk. cbn [length] in Lk.
      destruct pos as [|p [|? ?]]; auto; cbn [length] in Lk.
      - destruct kws as [|[n y] [|? ?]]; auto. cbn [length] in Lk. lia.
      - destruct kws; auto. cbn [length] in Lk. lia.
    Qed.
    Lemma tagged_tag kws d gx w tag z : g = true -> NoDup (map (fun f => kname (fst f)) fs) ->
      kname k <> "cls" -> kname k <> "default_bv" -> kname k <> "tag_bv" -> shadow (kname k) = None ->
      Permutation kws (with_default ([(kname k, x)] ++ [("tag_bv", gx)]) d) -> gx = CWord w tag \/ (exists s, gx = CInst s tag /\ a_width (asmof s) = w) ->
      new asmof leaf_new is_tuple shadow u x = Ok z ->
      from_fields asmof leaf_new is_tuple shadow t [] kws = sum_ff_value asmof t fs k u z kws /\
      cls_call asmof leaf_new is_tuple shadow t [] kws = sum_ff_value asmof t fs k u z kws.
    Proof.
      intros Hg ND Nc Nd Nt Sh Pk Hx En.
      assert (forall n, kname k <> n -> ~ In n (map fst [(kname k, x)])) as Nb by (intros n N [E|[]]; auto).
      assert (has kws "cls" = false) as Hc.
      { apply (has_not kws ([(kname k, x)] ++ [("tag_bv", gx)]) d); auto; [|discriminate]. intros [X|[X|[]]]; [auto|discriminate X]. }
      assert (drop "tag_bv" (drop "default_bv" kws) = [(kname k, x)]) as Ed.
      { pose proof (tag_bound kws _ d gx Pk (Nb _ Nd) (Nb _ Nt)) as Pd. apply Permutation_sym, Permutation_length_1_inv in Pd. exact Pd. }
      assert (find (fun f : key * ty => String.eqb (kname (fst f)) (kname k)) fs = Some (k, u)) as Ef.
      { clear - I ND. induction fs as [|f l IH]; [destruct I|]. cbn [find map] in *. inversion ND as [|? ? N ND']; subst.
        destruct I as [->|J]; [cbn [fst]; rewrite String.eqb_refl; auto|].
        destruct (String.eqb (kname (fst f)) (kname k)) eqn:E; auto. apply String.eqb_eq in E. exfalso. apply N. rewrite E.
        apply in_map_iff. exists (k, u). auto. }
      assert (from_fields asmof leaf_new is_tuple shadow t [] kws = sum_ff_value asmof t fs k u z kws) as Ff.
      { unfold from_fields, t. rewrite Hg. unfold tagged_ff. rewrite Hc, Ed, Ef. cbn [fst snd]. unfold new_attr. cbn [fst snd].
        rewrite Sh, En. reflexivity. }
      split; auto. unfold cls_call. rewrite Hc. replace (init_call asmof t [] kws) with (@Err Z TypeError); [unfold t; exact Ff|]. symmetry. unfold init_call.
      pose proof (Permutation_length Pk) as Lk. unfold with_default in Lk. rewrite !app_length in Lk. cbn [length] in Lk.
      destruct kws as [|[n y] [|? ?]]; auto. cbn [length] in Lk. lia.
    Qed.

    (** The constructor does not take a member for the union. *)
    Lemma init_member : init asmof t x = Err TypeError.
    Proof.
      pose proof sum_member as Wu. destruct P as (s & v0 & Wr & Ps). pose proof (wraps_depth _ _ _ _ Wr) as D.
      assert (depth u < depth t)%nat as Du by (destruct (depth_field c fs k u I) as [_ H]; apply H).
      destruct (init_small asmof leaf_new t s v0 x Ps ltac:(lia)) as [E|(w & z & -> & Ew & E)]; auto. exfalso.
      assert (swidth s w) as Ss by (inversion Ps as [| |? ? S0 ?|? ? ? ? ? H0]; subst; [auto|contradiction]).
      pose proof (wraps_sw _ _ _ _ Wr w Ss) as Su.
      destruct (asmof_ok _ W) as (R & GR & A). destruct (asm_rel_width R t W _ A) as [St _]. rewrite <- Ew in St. unfold t in St.
      assert (exists ws, Forall2 (fun f w => swidth (snd f) w) fs ws /\ w = bits_for (Z.of_nat (length fs) - 1) + zmaximum ws) as (ws & Fw & Eq)
        by (inversion St; eauto).
      assert (In w ws) as Iw.
      { clear - I Fw Su Wu. revert I. induction Fw as [|f y fs ws Sf Fw IH]; [intros []|intros [J|J]].
        - subst f. left. eapply swidth_fun; eauto.
        - right. auto. }
      apply zmaximum_ge in Iw. assert (0 < bits_for (Z.of_nat (length fs) - 1)) by (unfold bits_for; apply Z.log2_up_pos; lia). lia.
    Qed.

    Lemma tagged_ok kws d : g = true -> NoDup (map (fun f => kname (fst f)) fs) ->
      kname k <> "cls" -> kname k <> "default_bv" -> kname k <> "tag_bv" -> shadow (kname k) = None ->
      Permutation kws (with_default [(kname k, x)] d) ->
      exists op, from_fields asmof leaf_new is_tuple shadow t [] kws = Ok op /\
        cls_call asmof leaf_new is_tuple shadow t [] kws = Ok op /\ encodes t op (VSum k v) /\
        (Z.even (match d with Some z => z | None => 0 end) = true -> canonical t op (VSum k v)).
    Proof.
      intros Hg ND Nc Nd Nt Sh Pk.
      assert (forall n, kname k <> n -> ~ In n (map fst [(kname k, x)])) as Nb by (intros n N [E|[]]; auto).
      destruct (sum_value kws _ d Pk (Nb _ Nd) (Nb _ Nt)) as (z & op & En & Es & Co & Cc). { repeat constructor. intros []. }
      assert (has kws "cls" = false) as Hc by (eapply has_not; eauto; discriminate).
      assert (drop "tag_bv" (drop "default_bv" kws) = [(kname k, x)]) as Ed.
      { pose proof (drop_default kws _ d Pk (Nb _ Nd)) as Pd. apply Permutation_sym, Permutation_length_1_inv in Pd. rewrite Pd.
        apply drop_none. auto. }
      assert (find (fun f : key * ty => String.eqb (kname (fst f)) (kname k)) fs = Some (k, u)) as Ef.
      { clear - I ND. induction fs as [|f l IH]; [destruct I|]. cbn [find map] in *. inversion ND as [|? ? N ND']; subst.
        destruct I as [->|J]; [cbn [fst]; rewrite String.eqb_refl; auto|].
        destruct (String.eqb (kname (fst f)) (kname k)) eqn:E; auto. apply String.eqb_eq in E. exfalso. apply N. rewrite E.
        apply in_map_iff. exists (k, u). auto. }
      assert (from_fields asmof leaf_new is_tuple shadow t [] kws = Ok op) as Ff.
      { unfold from_fields, t. rewrite Hg. unfold tagged_ff. rewrite Hc, Ed, Ef. cbn [fst snd]. unfold new_attr. cbn [fst snd].
        rewrite Sh, En. cbn [bind]. unfold t in Es. rewrite Hg in Es. exact Es. }
      exists op. split; [exact Ff|]. split; [|auto]. unfold cls_call. rewrite Hc.
      replace (init_call asmof t [] kws) with (@Err Z TypeError); [unfold t; exact Ff|]. symmetry. unfold init_call.
      destruct kws as [|[n y] [|? ?]]; auto. destruct (String.eqb n "adt") eqn:E; auto.
      destruct d; [apply Permutation_length in Pk; discriminate|]. cbn in Pk. apply Permutation_length_1 in Pk. injection Pk as -> ->. apply init_member.
    Qed.

    Lemma sum_ok pos kws d : g = false -> pos = firstn (length pos) [CKey k; x] ->
      Permutation kws (with_default (combine (skipn (length pos) ["tag"; "value"]) (skipn (length pos) [CKey k; x])) d) ->
      exists op, from_fields asmof leaf_new is_tuple shadow t pos kws = Ok op /\
        cls_call asmof leaf_new is_tuple shadow t pos kws = Ok op /\ encodes t op (VSum k v) /\
        (Z.even (match d with Some z => z | None => 0 end) = true -> canonical t op (VSum k v)).
    Proof.
      intros Hg Ep Pk. set (base := combine (skipn (length pos) ["tag"; "value"]) (skipn (length pos) [CKey k; x])) in *.
      assert (map fst base = skipn (length pos) ["tag"; "value"]) as Eb by (apply combine_fst; rewrite !skipn_length; auto).
      assert (forall n, ~ In n ["tag"; "value"] -> ~ In n (map fst base)) as Nb.
      { intros n N J. apply N. rewrite Eb in J. rewrite <- (firstn_skipn (length pos) ["tag"; "value"]). apply in_or_app. auto. }
      assert (NoDup ["tag"; "value"]) as ND0 by (repeat constructor; cbn; intuition discriminate).
      assert (NoDup (map fst base)) as NDb by (rewrite Eb; apply NoDup_skipn; auto).
      assert (~ In "default_bv" (map fst base)) as Nd by (apply Nb; cbn; intuition discriminate).
      assert (~ In "tag_bv" (map fst base)) as Nt by (apply Nb; cbn; intuition discriminate).
      destruct (sum_value kws base d Pk Nd Nt NDb) as (z & op & En & Es & Co & Cc).
      assert (has kws "cls" = false) as Hc by (eapply has_not; eauto; [apply Nb; cbn; intuition discriminate|discriminate]).
      pose proof (drop_default kws base d Pk Nd) as Pd.
      assert (drop "tag_bv" (drop "default_bv" kws) = drop "default_bv" kws) as Ed.
      { apply drop_none. intros J. apply Nt. eapply Permutation_in; [apply Permutation_map; exact Pd|auto]. }
      assert (bind_args ["tag"; "value"] pos (drop "default_bv" kws) = Ok [CKey k; x]) as Eba.
      { apply bind_args_spec; auto. eapply Permutation_NoDup; [apply Permutation_map, Permutation_sym; exact Pd|auto]. }
      assert (no_dup_keys fs) as NDk by (unfold t in W; inversion W; auto).
      assert (from_fields asmof leaf_new is_tuple shadow t pos kws = Ok op) as Ff.
      { unfold from_fields, t. rewrite Hg. unfold sum_ff. rewrite Hc, Ed, Eba. cbn [bind]. rewrite (dget_key_In fs k u NDk I), En.
        cbn [bind]. unfold t in Es. rewrite Hg in Es. exact Es. }
      exists op. split; [exact Ff|]. split; [|auto]. unfold cls_call. rewrite Hc.
      replace (init_call asmof t pos kws) with (@Err Z TypeError); [unfold t; exact Ff|]. symmetry. unfold init_call.
      pose proof (Permutation_length Pk) as Lk. unfold with_default, base in Lk. rewrite app_length, combine_length, !skipn_length in Lk. cbn [length] in Lk.
      destruct pos as [|p [|? ?]]; auto; cbn [length] in Lk.
      - destruct kws as [|[n y] [|? ?]]; auto. cbn [length] in Lk. lia.
      - destruct kws; auto. cbn [length] in Lk. lia.
    Qed.
  End SumCalls.
End Calls.
