(** C79: calling an AssembledADT class and its [from_fields] agree, however the
    fields are passed. *)
From Coq Require Import String ZArith List Bool Lia Permutation.
From Verif Require Import Base BaseLemmas AsmModel AsmSpec AsmValid AsmEnum AsmBuild AsmProofs AsmSub AsmMore AsmCheck AsmProps
  AadtModel AadtProofs AadtProps FamProgModel FamProgProofs FamProgProps AadtCallModel AadtCallProofs.
Import ListNotations.
Open Scope string_scope.
Open Scope list_scope.
Open Scope Z_scope.

(** What is assumed of Bit, BitVector[w] and Signed[w]: called with a bit vector of
    their own width, they keep its bits. *)
Definition leaf_keeps (leaf_new : ty -> carg -> res Z) : Prop :=
  forall t z, is_leaf t = true -> 0 <= z < 2 ^ leaf_width t -> leaf_new t (CWord (leaf_width t) z) = Ok z.

(** [passed leaf_new t v x] ([AadtCallProofs]): the argument [x] stands for the value
    [v] of [t]. It is the ADT value, an instance of the assembled class, a word
    with the bits of [v], or something a leaf class turns into these bits; or it
    stands for the only field of [v], if [t] has one field. *)

Definition names (fs : list (key * ty)) : list string := map (fun f => kname (fst f)) fs.
Definition passed_all leaf_new (fs : list (key * ty)) (vs : list val) (xs : list carg) : Prop :=
  length vs = length xs /\ Forall2 (fun f vx => passed leaf_new (snd f) (fst vx) (snd vx)) fs (combine vs xs).
(** The first fields by position, the others by name in any order, and the default
    or not. *)
Definition call_with (ns : list string) (xs : list carg) (d : option Z) (pos : list carg) (kws : kwargs) : Prop :=
  pos = firstn (length pos) xs /\
  Permutation kws (combine (skipn (length pos) ns) (skipn (length pos) xs) ++ match d with Some z => [("default_bv", CInt z)] | None => [] end).

(** The full property for Products; it is false, see [C79_full_refuted]. *)
Definition C79_full : Prop :=
  forall asmof leaf_new is_tuple shadow c fs vs xs d pos kws,
  assemblers asmof -> leaf_keeps leaf_new -> is_tuple c = false -> wf_ty (TProd c fs) -> NoDup (names fs) ->
  (forall f, In f fs -> shadow (kname (fst f)) = None) -> Forall (fun f => clean is_tuple shadow (snd f)) fs ->
  fs <> [] -> (length fs = 1%nat \/ all_wide fs) -> passed_all leaf_new fs vs xs -> call_with (names fs) xs d pos kws ->
  exists op, from_fields asmof leaf_new is_tuple shadow (TProd c fs) pos kws = Ok op /\
    cls_call asmof leaf_new is_tuple shadow (TProd c fs) pos kws = Ok op /\ canonical (TProd c fs) op (VProd vs).

Section C79.
  Variable asmof : ty -> asm.
  Hypothesis asmof_ok : assemblers asmof.
  Variable leaf_new : ty -> carg -> res Z.
  Hypothesis leaf_ok : leaf_keeps leaf_new.
  Variable is_tuple : string -> bool.
  Variable shadow : string -> option (carg -> res Z).
  Notation FF := (from_fields asmof leaf_new is_tuple shadow).
  Notation CALL := (cls_call asmof leaf_new is_tuple shadow).
  Notation NEW := (new asmof leaf_new is_tuple shadow).

  (** Binding: the arguments bind to [xs] exactly when they are the first fields by
      position and the others by name, each once. Anything else is a TypeError. *)
  Theorem C79_bind ns pos kws : NoDup ns -> NoDup (map fst kws) ->
    (forall xs, bind_args ns pos kws = Ok xs <-> (length xs = length ns /\ call_with ns xs None pos kws)) /\
    (forall e, bind_args ns pos kws = Err e -> e = TypeError).
  Proof.
    intros ND NK. split; [|apply bind_args_err]. intros xs. unfold call_with. rewrite app_nil_r, bind_args_spec by auto. intuition.
  Qed.

  (** Field classes keep the value of what is passed. *)
  Theorem C79_one t v x : wf_ty t -> clean is_tuple shadow t -> passed leaf_new t v x ->
    exists z, NEW t x = Ok z /\ canonical t z v.
  Proof. apply new_passed; auto. apply assemblers_rel; auto. Qed.

  (** They are the same calls as the user's, [cls(x)]. *)
  Theorem C79_nested t x : is_leaf t = false -> NEW t x = CALL t [x] [].
  Proof.
    destruct t as [| | |c ms|c fs|g c fs]; try discriminate; intros _; cbn [new cls_call has dget init_call].
    - auto.
    - destruct (init asmof (TProd c fs) x) as [z|[]]; auto.
      cbn [from_fields]. unfold tuple_ff, product_ff. cbn [drop filter has dget].
      destruct fs as [|[k t'] [|f fs]]; cbn [map length]; destruct (is_tuple c); auto.
      + cbn. destruct (new asmof leaf_new is_tuple shadow t' x); auto.
      + cbn. unfold new_attr. cbn [fst snd]. destruct (shadow (kname k)) as [h|]; [destruct (h x)|destruct (new asmof leaf_new is_tuple shadow t' x)]; auto.
    - destruct (init asmof (TSum g c fs) x) as [z|[]]; auto. destruct g; auto.
  Qed.

  (** ** Products
      Missing for C79: names that mean something else ([cls], [default_bv], class
      attributes), Products without fields, and zero-width fields beside others
      ([C12_product_raises]). *)
  Theorem C79_product_partial c fs vs xs d pos kws :
    is_tuple c = false -> wf_ty (TProd c fs) -> NoDup (names fs) -> ~ In "cls" (names fs) -> ~ In "default_bv" (names fs) ->
    (forall f, In f fs -> shadow (kname (fst f)) = None) -> Forall (fun f => clean is_tuple shadow (snd f)) fs ->
    fs <> [] -> (length fs = 1%nat \/ all_wide fs) -> passed_all leaf_new fs vs xs -> call_with (names fs) xs d pos kws ->
    exists op, FF (TProd c fs) pos kws = Ok op /\ CALL (TProd c fs) pos kws = Ok op /\ canonical (TProd c fs) op (VProd vs).
  Proof.
    intros Tu W ND Nc Nd Sh Cl NE Wd [L F] [Ep P].
    exact (product_ok asmof (assemblers_rel _ asmof_ok) leaf_new leaf_ok is_tuple shadow c fs vs xs W L F Cl NE Wd pos kws d Tu ND Nc Nd Sh Ep P).
  Qed.

  (** So a call with the fields is the call with the value. *)
  Theorem C79_product_value c fs vs xs d pos kws :
    is_tuple c = false -> wf_ty (TProd c fs) -> NoDup (names fs) -> ~ In "cls" (names fs) -> ~ In "default_bv" (names fs) ->
    (forall f, In f fs -> shadow (kname (fst f)) = None) -> Forall (fun f => clean is_tuple shadow (snd f)) fs ->
    fs <> [] -> (length fs = 1%nat \/ all_wide fs) -> passed_all leaf_new fs vs xs -> call_with (names fs) xs d pos kws ->
    nonneg_signed (TProd c fs) (VProd vs) ->
    CALL (TProd c fs) pos kws = CALL (TProd c fs) [CAdt (TProd c fs) (VProd vs)] [].
  Proof.
    intros Tu W ND Nc Nd Sh Cl NE Wd Pa Ca N.
    destruct (C79_product_partial c fs vs xs d pos kws) as (op & _ & -> & C); auto.
    cbn [cls_call has dget init_call init]. rewrite ty_eqb_refl.
    destruct (assemblers_rel _ asmof_ok _ W) as (R & _ & A).
    destruct (assemble_spec R _ _ _ W A (enc_has_ty _ _ _ _ C) N) as (op' & -> & C' & _). f_equal. eapply canonical_fun; eauto.
  Qed.

  (** Arguments that do not bind raise a TypeError: a field missing, passed twice,
      unknown names, too many. *)
  Theorem C79_product_unbound c fs pos kws : is_tuple c = false -> NoDup (names fs) -> NoDup (map fst kws) ->
    (forall xs, length xs = length fs -> ~ call_with (names fs) xs None pos (drop "default_bv" kws)) ->
    FF (TProd c fs) pos kws = Err TypeError.
  Proof.
    intros Tu ND NK H. unfold from_fields. rewrite Tu. unfold product_ff. destruct (has kws "cls"); auto. fold (names fs).
    destruct (bind_args (names fs) pos (drop "default_bv" kws)) as [xs|e] eqn:E; cbn [bind].
    - apply C79_bind in E as [L C]; auto.
      + exfalso. apply (H xs); auto. rewrite L. apply map_length.
      + clear - NK. induction kws as [|[n x] l IH]; cbn [drop filter map fst]; auto. inversion NK as [|? ? N ND]; subst.
        destruct (negb (String.eqb n "default_bv")); cbn [map fst]; [|apply IH; auto]. constructor; [|apply IH; auto].
        intros I. apply N. apply in_map_iff in I as ([m y] & E & I). apply filter_In in I as [I _]. apply in_map_iff. eauto.
    - apply bind_args_err in E as ->. auto.
  Qed.

  (** The name [cls] is taken by the first parameter. *)
  Theorem C79_cls t pos kws : In "cls" (map fst kws) ->
    CALL t pos kws = Err TypeError /\ (is_leaf t = false -> (forall c ms, t <> TEnum c ms) -> FF t pos kws = Err TypeError).
  Proof.
    intros H. assert (Hc : has kws "cls" = true).
    { unfold has. induction kws as [|[n x] l IH]; [destruct H|]. cbn [dget]. destruct (String.eqb_spec "cls" n); [reflexivity|].
      apply IH. destruct H as [H|H]; [cbn in H; congruence|exact H]. }
    unfold cls_call. rewrite Hc. split; [reflexivity|]. intros L Ne. destruct t as [| | |c ms|c fs|g c fs]; try discriminate; [now contradiction (Ne c ms)| |].
    - cbn [from_fields]. destruct (is_tuple c).
      + unfold tuple_ff. destruct (drop "default_bv" kws) as [|p l] eqn:E; [|reflexivity]. exfalso.
        apply in_map_iff in H as ((n & x) & En & I). cbn in En. subst n.
        assert (X : In ("cls", x) (drop "default_bv" kws)) by (apply filter_In; split; [exact I|reflexivity]). rewrite E in X. destruct X.
      + unfold product_ff. now rewrite Hc.
    - cbn [from_fields]. destruct g; [unfold tagged_ff|unfold sum_ff]; now rewrite Hc.
  Qed.

  (** ** Tuples *)
  Theorem C79_tuple c fs vs xs d :
    is_tuple c = true -> wf_ty (TProd c fs) -> Forall (fun f => clean is_tuple shadow (snd f)) fs ->
    fs <> [] -> (length fs = 1%nat \/ all_wide fs) -> passed_all leaf_new fs vs xs ->
    let kws := match d with Some z => [("default_bv", CInt z)] | None => [] end in
    exists op, FF (TProd c fs) xs kws = Ok op /\ CALL (TProd c fs) xs kws = Ok op /\ canonical (TProd c fs) op (VProd vs).
  Proof.
    intros Tu W Cl NE Wd [L F].
    exact (tuple_ok asmof (assemblers_rel _ asmof_ok) leaf_new leaf_ok is_tuple shadow c fs vs xs W L F Cl NE Wd d Tu).
  Qed.

  (** ** Unions
      The bits beside a short member come from the default. *)
  Theorem C79_tagged_partial c fs k u v x d kws :
    wf_ty (TSum true c fs) -> In (k, u) fs -> passed leaf_new u v x -> clean is_tuple shadow u -> (2 <= length fs)%nat -> ~ swidth u 0 ->
    NoDup (names fs) -> ~ In (kname k) ["cls"; "default_bv"; "tag_bv"] -> shadow (kname k) = None ->
    call_with [kname k] [x] d [] kws ->
    exists op, FF (TSum true c fs) [] kws = Ok op /\ CALL (TSum true c fs) [] kws = Ok op /\ encodes (TSum true c fs) op (VSum k v) /\
      (Z.even (match d with Some z => z | None => 0 end) = true -> canonical (TSum true c fs) op (VSum k v)).
  Proof.
    intros W I P Cl L2 Wd ND Nk Sh [_ Pk].
    apply (tagged_ok asmof (assemblers_rel _ asmof_ok) leaf_new leaf_ok is_tuple shadow true c fs k u v x W I P Cl L2 Wd kws d eq_refl ND); auto;
      intros E; apply Nk; cbn; auto.
  Qed.
  Theorem C79_sum c fs k u v x d pos kws :
    wf_ty (TSum false c fs) -> In (k, u) fs -> passed leaf_new u v x -> clean is_tuple shadow u -> (2 <= length fs)%nat -> ~ swidth u 0 ->
    call_with ["tag"; "value"] [CKey k; x] d pos kws ->
    exists op, FF (TSum false c fs) pos kws = Ok op /\ CALL (TSum false c fs) pos kws = Ok op /\ encodes (TSum false c fs) op (VSum k v) /\
      (Z.even (match d with Some z => z | None => 0 end) = true -> canonical (TSum false c fs) op (VSum k v)).
  Proof.
    intros W I P Cl L2 Wd [Ep Pk].
    exact (sum_ok asmof (assemblers_rel _ asmof_ok) leaf_new leaf_ok is_tuple shadow false c fs k u v x W I P Cl L2 Wd pos kws d eq_refl Ep Pk).
  Qed.

  (** With [tag_bv], a word or an instance of the width of the tags: the bits above the
      tag are as without, the tag is the one given. *)
  Theorem C79_tag g c fs k u v x d pos kws gx w tag :
    wf_ty (TSum g c fs) -> In (k, u) fs -> passed leaf_new u v x -> clean is_tuple shadow u -> (2 <= length fs)%nat -> ~ swidth u 0 ->
    (if g then NoDup (names fs) /\ ~ In (kname k) ["cls"; "default_bv"; "tag_bv"] /\ shadow (kname k) = None /\ pos = [] /\
                Permutation kws ([(kname k, x); ("tag_bv", gx)] ++ match d with Some z => [("default_bv", CInt z)] | None => [] end)
     else pos = firstn (length pos) [CKey k; x] /\ 
          Permutation kws (combine (skipn (length pos) ["tag"; "value"]) (skipn (length pos) [CKey k; x]) ++ [("tag_bv", gx)] ++ match d with Some z => [("default_bv", CInt z)] | None => [] end)) ->
    gx = CWord w tag \/ (exists s, gx = CInst s tag /\ a_width (asmof s) = w) ->
    let tw := bits_for (Z.of_nat (length fs) - 1) in 0 <= tag < 2 ^ tw -> w = tw ->
    exists op op', encodes (TSum g c fs) op (VSum k v) /\ (Z.even (match d with Some z => z | None => 0 end) = true -> canonical (TSum g c fs) op (VSum k v)) /\
      FF (TSum g c fs) pos kws = Ok op' /\ CALL (TSum g c fs) pos kws = Ok op' /\ op' mod 2 ^ tw = tag /\ op' / 2 ^ tw = op / 2 ^ tw.
  Proof.
    intros W I P Cl L2 Wd H Hx tw Rt Ew. pose proof (assemblers_rel _ asmof_ok) as Rl. destruct g.
    - destruct H as (ND & Nk & Sh & -> & Pk).
      assert (kname k <> "cls" /\ kname k <> "default_bv" /\ kname k <> "tag_bv") as (N1 & N2 & N3) by (split; [|split]; intros E; apply Nk; cbn; auto).
      destruct (sum_value_tag asmof Rl leaf_new leaf_ok is_tuple shadow true c fs k u v x W I P Cl L2 Wd kws [(kname k, x)] d gx w tag Pk Hx) as (z & op & En & Co & Ht & Cc).
      { intros [E|[]]; auto. } { intros [E|[]]; auto. } { repeat constructor. intros []. }
      destruct (Ht Rt Ew) as (op' & Es & E1 & E2). exists op, op'.
      destruct (tagged_tag asmof leaf_new is_tuple shadow true c fs k u x I L2 kws d gx w tag z eq_refl ND N1 N2 N3 Sh Pk Hx En) as [-> ->]. auto 8.
    - destruct H as [Ep Pk]. rewrite app_assoc in Pk.
      assert (map fst (combine (skipn (length pos) ["tag"; "value"]) (skipn (length pos) [CKey k; x])) = skipn (length pos) ["tag"; "value"]) as Eb
        by (apply combine_fst; rewrite !skipn_length; auto).
      assert (forall n, ~ In n ["tag"; "value"] -> ~ In n (map fst (combine (skipn (length pos) ["tag"; "value"]) (skipn (length pos) [CKey k; x])))) as Nb.
      { intros n N J. apply N. rewrite Eb in J. rewrite <- (firstn_skipn (length pos) ["tag"; "value"]). apply in_or_app. auto. }
      destruct (sum_value_tag asmof Rl leaf_new leaf_ok is_tuple shadow false c fs k u v x W I P Cl L2 Wd kws _ d gx w tag Pk Hx) as (z & op & En & Co & Ht & Cc).
      { apply Nb. cbn. intuition discriminate. } { apply Nb. cbn. intuition discriminate. } { rewrite Eb. apply NoDup_skipn. repeat constructor; cbn; intuition discriminate. }
      destruct (Ht Rt Ew) as (op' & Es & E1 & E2). exists op, op'.
      destruct (sum_tag asmof leaf_new is_tuple shadow false c fs k u x W I L2 pos kws _ d gx w tag z Ep eq_refl eq_refl Pk Hx En) as [-> ->]. auto 8.
  Qed.

  (** ** Enums: only the constructor. *)
  Theorem C79_enum c ms v x : wf_ty (TEnum c ms) -> passed leaf_new (TEnum c ms) v x ->
    exists z, CALL (TEnum c ms) [x] [] = Ok z /\ canonical (TEnum c ms) z v.
  Proof.
    intros W P. rewrite <- C79_nested by auto. apply C79_one; auto. apply cl_other. discriminate.
  Qed.
End C79.

(** ** Cases *)
(** The leaf classes of hwtypes on bit vectors and integers (which wrap). *)
Definition leaf0 (t : ty) (x : carg) : res Z :=
  match x with
  | CWord w z => Ok (wrap (leaf_width t) z)
  | CInt z => Ok (wrap (leaf_width t) z)
  | CAdt _ (VBV z) => Ok (wrap (leaf_width t) z)
  | CAdt _ (VBit b) => Ok (b2z b)
  | _ => Err TypeError
  end.
Lemma leaf0_keeps : leaf_keeps leaf0.
Proof. intros t z _ R. cbn [leaf0]. rewrite wrap_small; auto. Qed.
Definition no_shadow (n : string) : option (carg -> res Z) := None.
Definition tup (c : string) : bool := String.eqb c "T".

(** [class In(Product): op = Op; a = BitVector[8]; b = One], [class One(Product): x = BitVector[4]]. *)
Definition c_op := TEnum "Op" [EInt 0; EInt 1; EInt 2].
Definition c_one := TProd "One" [(k "x", TBV 4)].
Definition c_fs : list (key * ty) := [(k "op", c_op); (k "a", TBV 8); (k "b", c_one)].
Definition c_in := TProd "In" c_fs.
Lemma c_in_wf : wf_ty c_in. Proof. apply wf_b_spec. reflexivity. Qed.

(** [In(Op(2), b=3, a=171)]: the integer 3 goes through [One] to its field. *)
Example C79_product_case :
  passed_all leaf0 c_fs [VEnum (EInt 2); VBV 171; VProd [VBV 3]] [CAdt c_op (VEnum (EInt 2)); CInt 171; CInt 3] /\
  call_with (names c_fs) [CAdt c_op (VEnum (EInt 2)); CInt 171; CInt 3] None [CAdt c_op (VEnum (EInt 2))] [("b", CInt 3); ("a", CInt 171)] /\
  all_wide c_fs /\ NoDup (names c_fs) /\ ~ In "cls" (names c_fs) /\ ~ In "default_bv" (names c_fs) /\
  Forall (fun f => clean tup no_shadow (snd f)) c_fs /\
  from_fields asm0 leaf0 tup no_shadow c_in [CAdt c_op (VEnum (EInt 2))] [("b", CInt 3); ("a", CInt 171)] = Ok (2 + 4 * (171 + 256 * 3)) /\
  cls_call asm0 leaf0 tup no_shadow c_in [CAdt c_op (VEnum (EInt 2))] [("b", CInt 3); ("a", CInt 171)] = Ok (2 + 4 * (171 + 256 * 3)).
Proof.
  split.
  { split; [reflexivity|]. cbn [c_fs combine]. repeat constructor; cbn [fst snd].
    - do 2 eexists. split; [apply w_here|]. apply p_adt; [reflexivity|apply has_ty_b_spec; reflexivity|apply nonneg_b_spec; reflexivity].
    - do 2 eexists. split; [apply w_here|]. apply (p_leaf _ _ _ _ 171); try reflexivity. apply enc_bv. cbn; lia.
    - do 2 eexists. split; [apply w_one, w_here|]. apply (p_leaf _ _ _ _ 3); try reflexivity. apply enc_bv. cbn; lia. }
  split. { split; [reflexivity|]. cbn. apply perm_swap. }
  split. { intros n t I S. cbn in I. destruct I as [[= <- <-]|[[= <- <-]|[[= <- <-]|[]]]].
    - pose proof (sw_width asm0 (assemblers_rel _ asm0_ok) _ _ (wf_b_spec c_op eq_refl) S) as E. vm_compute in E. discriminate.
    - inversion S.
    - pose proof (sw_width asm0 (assemblers_rel _ asm0_ok) _ _ (wf_b_spec c_one eq_refl) S) as E. vm_compute in E. discriminate. }
  split. { repeat constructor; cbn; intuition discriminate. }
  do 2 (split; [cbn; intuition discriminate|]).
  split. { do 2 (apply Forall_cons; [apply cl_other; discriminate|]). apply Forall_cons; [|apply Forall_nil].
    apply cl_one; [right; reflexivity|]. apply cl_other. discriminate. }
  split; vm_compute; reflexivity.
Qed.

(** [In(Op(2), 171)], [In(Op(2), op=...)] do not bind. *)
Example C79_unbound_case :
  cls_call asm0 leaf0 tup no_shadow c_in [CAdt c_op (VEnum (EInt 2)); CInt 171] [] = Err TypeError /\
  cls_call asm0 leaf0 tup no_shadow c_in [CAdt c_op (VEnum (EInt 2)); CInt 171] [("op", CInt 3)] = Err TypeError /\
  (forall xs, length xs = length c_fs -> ~ call_with (names c_fs) xs None [CInt 1; CInt 171] (drop "default_bv" [])).
Proof.
  do 2 (split; [vm_compute; reflexivity|]). intros xs L [_ P]. cbn [length skipn names map c_fs] in *.
  destruct xs as [|? [|? [|? [|? ?]]]]; try discriminate. apply Permutation_nil in P. discriminate.
Qed.

(** A tuple, a tagged union with a member called [adt], a Sum; default 1. *)
Definition c_tu := TSum true "U" [(k "adt", TBV 4); (k "w", TBV 8)].
Definition c_su := TSum false "S" [(k "BitVector[4]", TBV 4); (k "BitVector[8]", TBV 8)].
Example C79_other_cases :
  cls_call asm0 leaf0 tup no_shadow (TProd "T" [(k "0", TBV 4); (k "1", TBit)]) [CWord 4 9; CInt 1] [("default_bv", CInt 1)] = Ok 25 /\
  cls_call asm0 leaf0 tup no_shadow c_tu [] [("adt", CWord 4 9)] = Ok (2 * 9) /\
  cls_call asm0 leaf0 tup no_shadow c_tu [] [("default_bv", CInt 1); ("adt", CInt 9)] = Ok (2 * (9 + 16 * 15)) /\
  cls_call asm0 leaf0 tup no_shadow c_su [CKey (k "BitVector[8]")] [("value", CInt 7)] = Ok (1 + 2 * 7) /\
  cls_call asm0 leaf0 tup no_shadow c_su [] [("value", CInt 7); ("tag", CKey (k "BitVector[4]"))] = Ok (2 * 7).
Proof. repeat split; vm_compute; reflexivity. Qed.

(** A tag that is not the member's, by word and by instance, and one too wide. *)
Example C79_tag_case :
  cls_call asm0 leaf0 tup no_shadow c_su [CKey (k "BitVector[4]"); CInt 7] [("tag_bv", CWord 1 1)] = Ok (1 + 2 * 7) /\
  cls_call asm0 leaf0 tup no_shadow c_tu [] [("tag_bv", CInst (TProd "B" [(k "b", TBit)]) 1); ("adt", CInt 9)] = Ok (1 + 2 * 9) /\
  cls_call asm0 leaf0 tup no_shadow c_su [CKey (k "BitVector[4]"); CInt 7] [("tag_bv", CWord 2 1)] = Err AssertionError /\
  cls_call asm0 leaf0 tup no_shadow c_su [CKey (k "BitVector[4]"); CInt 7] [("tag_bv", CInt 1)] = Err TypeError.
Proof. repeat split; vm_compute; reflexivity. Qed.

(** A field named [default_bv] cannot be passed by name: RESERVED_NAMES
    (assembled_adt.py:25-30) is checked nowhere. *)
Definition r_fs : list (key * ty) := [(k "a", TBV 8); (k "default_bv", TBV 8)].
Theorem C79_full_refuted : ~ C79_full.
Proof.
  intros H.
  destruct (H asm0 leaf0 tup no_shadow "R" r_fs [VBV 1; VBV 2] [CInt 1; CInt 2] None [CInt 1] [("default_bv", CInt 2)]) as (op & E & _).
  - apply asm0_ok.
  - apply leaf0_keeps.
  - reflexivity.
  - apply wf_b_spec. reflexivity.
  - repeat constructor; cbn; intuition discriminate.
  - reflexivity.
  - do 2 (apply Forall_cons; [apply cl_other; discriminate|]). apply Forall_nil.
  - discriminate.
  - right. intros n t I S. cbn in I. destruct I as [[= <- <-]|[[= <- <-]|[]]]; inversion S.
  - split; [reflexivity|]. repeat constructor; cbn [fst snd]; do 2 eexists; (split; [apply w_here|]).
    + apply (p_leaf _ _ _ _ 1); try reflexivity. apply enc_bv. cbn; lia.
    + apply (p_leaf _ _ _ _ 2); try reflexivity. apply enc_bv. cbn; lia.
  - split; [reflexivity|]. cbn. auto.
  - vm_compute in E. discriminate.
Qed.

(** By position it can, and [cls] and [tag_bv] have the same trouble. *)
Example C79_reserved_cases :
  cls_call asm0 leaf0 tup no_shadow (TProd "R" r_fs) [CInt 1; CInt 2] [] = Ok (1 + 256 * 2) /\
  cls_call asm0 leaf0 tup no_shadow (TProd "R" [(k "a", TBV 8); (k "cls", TBV 8)]) [CInt 1] [("cls", CInt 2)] = Err TypeError /\
  cls_call asm0 leaf0 tup no_shadow (TSum true "U" [(k "tag_bv", TBV 4); (k "w", TBV 8)]) [] [("tag_bv", CWord 4 9)] = Err TypeError.
Proof. repeat split; vm_compute; reflexivity. Qed.

(** With a word too wide for the member, the call and [from_fields] differ for a
    member named [adt]: the call takes the word for the whole union, [from_fields]
    truncates it. *)
Theorem C79_adt_refuted : exists x op op',
  from_fields asm0 leaf0 tup no_shadow c_tu [] [("adt", x)] = Ok op /\
  cls_call asm0 leaf0 tup no_shadow c_tu [] [("adt", x)] = Ok op' /\ op <> op'.
Proof. exists (CWord 9 255). do 2 eexists. split; [vm_compute; reflexivity|]. split; [vm_compute; reflexivity|]. discriminate. Qed.

Print Assumptions C79_bind.
Print Assumptions C79_one.
Print Assumptions C79_nested.
Print Assumptions C79_product_partial.
Print Assumptions C79_product_value.
Print Assumptions C79_product_unbound.
Print Assumptions C79_cls.
Print Assumptions C79_tuple.
Print Assumptions C79_tagged_partial.
Print Assumptions C79_sum.
Print Assumptions C79_tag.
Print Assumptions C79_enum.
Print Assumptions C79_full_refuted.
Print Assumptions C79_adt_refuted.
