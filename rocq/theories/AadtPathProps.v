(** C92: field access on assembled classes and instances along paths. *)
From Coq Require Import String ZArith List Bool Lia.
From Verif Require Import Base BaseLemmas AsmModel AsmSpec AsmValid AsmEnum AsmBuild AsmProofs AsmSub AsmCheck AsmProps.
From Verif Require Import AadtModel AadtProofs AadtProps Asm2Model Asm2Proofs AadtPathModel AadtPathProofs.
Import ListNotations.
Open Scope string_scope.
Open Scope list_scope.
Open Scope Z_scope.

(** ** The class and the bits of a field *)
(** For every path of fields of a type, and every word: the path on the class gives the assembled class of the type it
    leads to; the path on the instance gives an instance of that class, whose bits are the slice [sub[path].idx] of the word. *)
Theorem C92_access nm h t a op p u :
  Forall wf_ty (t :: h) -> built h t a -> 0 <= op < 2 ^ a_width a -> sub_ty t (map snd p) u ->
  class_path nm (aadt_class t) p = Ok (aadt_class u) /\
  exists i ms lo hi, inst_path nm (mk t a op) p = Ok (i, ms) /\ class_of i = aadt_class u /\
    sub_idx a (map snd p) = Ok (lo, hi) /\ bits_of i = slice op lo hi /\ swidth u (hi - lo).
Proof.
  intros W B Ho S.
  destruct (path_in nm _ p (reqs_good _ W) t u a op S (wf_head _ _ W) (built_rel h t a W B) Ho)
    as (Ec & lo & f & ms & Ep & Af & Wf & O & P & L & Ei & Fl).
  split; auto. exists (mk u f (slice op lo (lo + a_width f))), ms, lo, (lo + a_width f).
  split; auto. split; [apply mk_class|]. split; [unfold sub_idx; rewrite Ep; reflexivity|].
  split; [apply (mk_bits _ u f _ Af); apply slice_in; auto|].
  replace (lo + a_width f - lo) with (a_width f) by lia. apply (asm_rel_width _ u Wf f Af).
Qed.

(** ** The flags on the way *)
(** If the word holds the value [v], all [match] flags on the way are true exactly if the path leads to a part of [v]; and
    then the instance holds that part. *)
Theorem C92_value nm h t a op v p u :
  Forall wf_ty (t :: h) -> built h t a -> encodes t op v -> sub_ty t (map snd p) u ->
  exists i ms, inst_path nm (mk t a op) p = Ok (i, ms) /\
    (Forall (eq true) ms <-> exists x, sub_val t v (map snd p) u x) /\
    (forall x, sub_val t v (map snd p) u x -> encodes u (bits_of i) x).
Proof.
  intros W B E S. pose proof (built_rel h t a W B) as A. pose proof (wf_head _ _ W) as Wt.
  assert (0 <= op < 2 ^ a_width a) as Ho by (eapply enc_range; eauto; apply (asm_rel_width _ t Wt a A)).
  destruct (path_in nm _ p (reqs_good _ W) t u a op S Wt A Ho) as (Ec & lo & f & ms & Ep & Af & Wf & O & P & L & Ei & Fl).
  exists (mk u f (slice op lo (lo + a_width f))), ms. split; auto.
  destruct (flags_value _ _ (map snd p) (reqs_good _ W) t u a op v ms lo f S Wt A E Fl Ep) as [Iff En].
  split; auto. intros x V. rewrite (mk_bits _ u f _ Af) by (apply slice_in; auto). exact (En x V).
Qed.

(** ** Failing access *)
(** A path that is not in the type fails on the class and on the instance with the same exception, raised at the first name that is
    not there: TypeError for the name of an Enum member, else AttributeError or KeyError by the syntax. *)
Theorem C92_errors nm h t a op p :
  Forall wf_ty (t :: h) -> built h t a -> 0 <= op < 2 ^ a_width a -> (forall u, ~ sub_ty t (map snd p) u) ->
  exists q how k r u e, p = q ++ (how, k) :: r /\ sub_ty t (map snd q) u /\ (forall u', ~ sub_ty u [k] u') /\
    e = match u with TEnum _ ms => if is_member nm ms k then TypeError else missing how | _ => missing how end /\
    class_path nm (aadt_class t) p = Err e /\ inst_path nm (mk t a op) p = Err e.
Proof.
  intros W B Ho N. exact (path_out nm _ p (reqs_good _ W) t a op (wf_head _ _ W) (built_rel h t a W B) Ho N).
Qed.

(** So class and instance accept the same paths. *)
Theorem C92_same_paths nm h t a op p :
  Forall wf_ty (t :: h) -> built h t a -> 0 <= op < 2 ^ a_width a ->
  ((exists c, class_path nm (aadt_class t) p = Ok c) <-> (exists i, inst_path nm (mk t a op) p = Ok i)) /\
  (forall e, class_path nm (aadt_class t) p = Err e <-> inst_path nm (mk t a op) p = Err e).
Proof.
  intros W B Ho.
  destruct (sub_ty_path_dec (map snd p) t (wf_head _ _ W)) as [[u S]|N].
  - destruct (C92_access nm h t a op p u W B Ho S) as (Ec & i & ms & lo & hi & Ei & _). rewrite Ec, Ei.
    split; [split; intros _; eexists; reflexivity|]. intros e. split; intros X; discriminate X.
  - destruct (C92_errors nm h t a op p W B Ho N) as (q & hw & k & r & u & e & _ & _ & _ & _ & Ec & Ei). rewrite Ec, Ei.
    split; [split; intros [x X]; discriminate X|]. intros e'. split; intros X; injection X as ->; reflexivity.
Qed.

(** ** assembler2 *)
(** The classes of assembler2 give the same class, bits and flags along every path. *)
Theorem C92_assembler2 nm h t a op p i ms :
  Forall wf_ty (t :: h) -> built h t a -> 0 <= op < 2 ^ a_width a ->
  inst_path nm (mk t a op) p = Ok (i, ms) -> inst2_path nm (aadt_class t) op p = Ok (class_of i, bits_of i, ms).
Proof.
  intros W B Ho Ei. pose proof (built_rel h t a W B) as A. pose proof (wf_head _ _ W) as Wt.
  destruct (sub_ty_path_dec (map snd p) t Wt) as [[u S]|N].
  - destruct (path_in nm _ p (reqs_good _ W) t u a op S Wt A Ho) as (Ec & lo & f & ms' & Ep & Af & Wf & O & P & L & Ei' & Fl).
    rewrite Ei in Ei'. injection Ei' as -> ->.
    rewrite (path2_in nm _ p (reqs_good _ W) t u a op lo f ms' S Wt A Ho Ep Fl), mk_class, (mk_bits _ u f _ Af) by (apply slice_in; auto). reflexivity.
  - destruct (C92_errors nm h t a op p W B Ho N) as (q & hw & k & r & u & e & _ & _ & _ & _ & _ & E). rewrite E in Ei. discriminate Ei.
Qed.

(** ** Ways to name a member of a Sum *)
(** [_TAG] gives the tag of the member the word holds; on other types it raises KeyError. *)
Theorem C92_tag nm h g c fs a op k v :
  Forall wf_ty (TSum g c fs :: h) -> built h (TSum g c fs) a -> encodes (TSum g c fs) op (VSum k v) ->
  exists w tag, inst_item nm (mk (TSum g c fs) a op) NTag = Ok (inl (IVec w tag)) /\ assemble_tag a k = Ok tag /\
    w = bits_for (Z.of_nat (length fs) - 1).
Proof.
  intros W B E.
  destruct (C08_tag_idx h _ a op _ [] g c fs k v W B E (sv_here _ _)) as (lo & hi & a' & Et & Ep & Ea).
  cbn [sub_path] in Ep. injection Ep as <- <-. pose proof (built_rel h _ a W B) as A.
  unfold mk. cbn [aadt_class inst_item]. rewrite Et. cbn [bind]. do 2 eexists. split; [reflexivity|]. split; auto.
  inversion A; subst. unfold sub_tag_idx in Et. cbn [sub_path bind] in Et. injection Et as <-.
  assert (fs <> []) by (pose proof (wf_head _ _ W) as X; inversion X; auto).
  rewrite bits_for_bit_length; [lia|]. destruct fs; [contradiction|cbn [length]; lia].
Qed.
Theorem C92_tag_other nm t a op : (forall g c fs, t <> TSum g c fs) -> inst_item nm (mk t a op) NTag = Err KeyError.
Proof. intros N. destruct t as [| | |c ms|c fs|g c fs]; try reflexivity. destruct (N g c fs eq_refl). Qed.

(** Naming a member by its assembled class: the lookup comes before the code that takes the type from it (282-284), so it raises
    KeyError whatever the class. For Bits and bit vectors the assembled class is the type itself, and works. *)
Theorem C92_by_class nm t a op u k :
  match u with
  | TBit | TBV _ | TSInt _ => aadt_class t = KAdt t -> inst_item nm (mk t a op) (NClass u k) = inst_item nm (mk t a op) (NKey k)
  | _ => inst_item nm (mk t a op) (NClass u k) = Err KeyError
  end.
Proof. destruct u; unfold mk; destruct t; try reflexivity; intros X; discriminate X. Qed.
(** The full claim, that the class of a member is as good as its type, is false. *)
Definition C92_by_class_full : Prop := forall nm h g c fs a op k u,
  Forall wf_ty (TSum g c fs :: h) -> built h (TSum g c fs) a -> 0 <= op < 2 ^ a_width a -> In (k, u) fs ->
  inst_item nm (mk (TSum g c fs) a op) (NClass u k) = inst_item nm (mk (TSum g c fs) a op) (NKey k).

(** ** [Sub] is a Mapping, except for Enums *)
Theorem C92_mapping nm h t a ks :
  Forall wf_ty (t :: h) -> built h t a -> (forall c ms, t <> TEnum c ms) -> sub_iter nm t = Ok ks ->
  NoDup ks /\ sub_len t = Ok (Z.of_nat (length ks)) /\
  (forall k, In k ks -> exists lo f u, sub_get nm t a k = Ok (Some ((lo, lo + a_width f), f)) /\ sub_ty t [k] u /\ swidth u (a_width f)) /\
  (forall k, ~ In k ks -> sub_get nm t a k = Ok None).
Proof.
  intros W B Ne It. pose proof (built_rel h t a W B) as A. pose proof (wf_head _ _ W) as Wt.
  destruct t as [| | |c ms|c fs|g c fs]; try discriminate It; [destruct (Ne c ms eq_refl)| |]; cbn [sub_iter] in It; injection It as <-.
  - inversion Wt as [| | | |? ? ND WF|]; subst. inversion A as [| | | |? ? w fs' T|]; subst. split; [exact ND|]. split; [cbn [sub_len]; now rewrite map_length|]. split.
    + intros k I. apply in_map_iff in I as ([k' u] & E & I). cbn [fst] in E. subst k'.
      pose proof I as I2. apply In_nth_error in I2 as (i & Ei).
      destruct (tup_find_layout _ _ _ _ _ T ND WF i k u Ei) as (ws & f & _ & Etf & Af & _).
      exists (0 + zsum ws), f, u. cbn [sub_get]. rewrite sub_step_tuple, Etf. split; [reflexivity|]. split; [eapply st_prod; [exact I|constructor]|].
      rewrite Forall_forall in WF. apply (asm_rel_width _ u (WF _ I) f Af).
    + intros k N. cbn [sub_get]. f_equal. eapply step_out_prod; [exact A|]. intros u I. apply N. apply (in_map fst) in I. exact I.
  - inversion Wt as [| | | | |? ? ? Ne' ND WF]; subst. split; [exact ND|]. split; [cbn [sub_len]; now rewrite map_length|]. split.
    + intros k I. apply in_map_iff in I as ([k' u] & E & I). cbn [fst] in E. subst k'.
      pose proof I as I2. apply in_split in I2 as (pre & post & Hfs). pose proof (rank_index pre k u post) as Ri. rewrite <- Hfs in Ri.
      inversion A as [| | | | |? ? ? sorted tagw pw fs' gs tv E1 E2 Sm G1 G2 Vt]; subst sorted tagw; subst a.
      destruct (sum_find_spec _ _ _ _ _ _ _ _ _ _ (sorted_keys_NoDup fs ND) Sm Ri) as (f & Ef & Af).
      eexists _, f, u. cbn [sub_get sub_step]. rewrite Ef. split; [reflexivity|]. split; [eapply st_sum; [exact I|constructor]|].
      rewrite Forall_forall in WF. apply (asm_rel_width _ u (WF _ I) f Af).
    + intros k N. cbn [sub_get]. f_equal. eapply step_out_sum; [exact A|]. intros u I. apply N. apply (in_map fst) in I. exact I.
Qed.
(** The keys of an Enum are its members' names, and looking up any of them raises TypeError. *)
Theorem C92_mapping_enum nm c ms a ks k :
  sub_iter nm (TEnum c ms) = Ok ks -> sub_len (TEnum c ms) = Ok (Z.of_nat (length ks)) /\
  (In k ks -> sub_get nm (TEnum c ms) a k = Err TypeError).
Proof.
  cbn [sub_iter]. intros E. injection E as <-. split; [cbn [sub_len]; now rewrite map_length|].
  intros I. apply in_map_iff in I as (m & <- & I). cbn [sub_get]. unfold is_member. cbn [kname].
  assert (existsb (fun m0 => String.eqb (nm m0) (nm m)) ms = true) as ->; [|reflexivity].
  apply existsb_exists. exists m. split; auto. apply String.eqb_refl.
Qed.
Definition C92_mapping_full : Prop := forall nm h t a ks k,
  Forall wf_ty (t :: h) -> built h t a -> sub_iter nm t = Ok ks -> In k ks -> exists e, sub_get nm t a k = Ok (Some e).

(** ** Cases *)
Definition ex_nm (m : emem) : string := match m with EInt _ => "int" | EAuto n => n end.
Definition ex_word : Z := 2 + 2 ^ 3 * (1 + 2 ^ 2 * (171 + 2 ^ 8)) + 2 ^ 14 * 5.

Example C92_case : Forall wf_ty (ex_isa :: ex_hist) /\ built ex_hist ex_isa ex_asm /\ 0 <= ex_word < 2 ^ a_width ex_asm /\
  sub_ty ex_isa [ky "imm"; ky "pair"; ky "x"] (TBV 8) /\
  class_path ex_nm (aadt_class ex_isa) [(Attr, ky "imm"); (Attr, ky "pair"); (Attr, ky "x")] = Ok (KVec 8) /\
  inst_path ex_nm (mk ex_isa ex_asm ex_word) [(Attr, ky "imm"); (Attr, ky "pair"); (Attr, ky "x")] = Ok (IVec 8 171, [true]) /\
  inst_path ex_nm (mk ex_isa ex_asm ex_word) [(Attr, ky "imm"); (Attr, ky "short")] = Ok (IVec 4 11, [false]) /\
  class_path ex_nm (aadt_class ex_isa) [(Attr, ky "s")] = Ok (KSigned 8) /\
  inst_path ex_nm (mk ex_isa ex_asm ex_word) [(Attr, ky "op"); (Attr, ky "Mul")] = Err TypeError /\
  inst_path ex_nm (mk ex_isa ex_asm ex_word) [(Attr, ky "imm"); (Attr, ky "long")] = Err AttributeError /\
  inst2_path ex_nm (aadt_class ex_isa) ex_word [(Attr, ky "imm"); (Attr, ky "pair"); (Attr, ky "x")] = Ok (KVec 8, 171, [true]).
Proof.
  split; [exact ex_wf|]. split; [exact ex_built|]. split; [vm_compute; split; [discriminate|reflexivity]|]. split.
  { eapply st_prod; [right; left; reflexivity|]. eapply st_sum; [right; left; reflexivity|]. eapply st_prod; [left; reflexivity|constructor]. }
  vm_compute. repeat split.
Qed.

Example C92_tag_case : exists a, built [] ex_imm a /\
  inst_item ex_nm (mk ex_imm a (1 + 2 ^ 2 * (171 + 2 ^ 8))) NTag = Ok (inl (IVec 2 1)) /\ assemble_tag a (ky "pair") = Ok 1 /\
  inst_item ex_nm (mk ex_imm a 1) (NClass (TProd "P" [(ky "x", TBV 8); (ky "y", TBit)]) (ky "pair")) = Err KeyError /\
  sub_iter ex_nm ex_imm = Ok [ky "short"; ky "pair"; ky "none"].
Proof.
  destruct (build ps0 ex_imm) as [[a st]|] eqn:B; [|vm_compute in B; discriminate B].
  exists a. split; [exists st; exact B|]. vm_compute in B. injection B as <- _. vm_compute. auto.
Qed.

Theorem C92_by_class_refuted : ~ C92_by_class_full.
Proof.
  intros F. set (t := TSum false "S" [(ky "P", TProd "P" [(ky "x", TBV 8)]); (ky "Bit", TBit)]).
  destruct (build ps0 t) as [[a st]|] eqn:B; [|vm_compute in B; discriminate B].
  assert (built [] t a) as Bt by (exists st; exact B).
  assert (Forall wf_ty [t]) as W by (constructor; [apply wf_b_spec; reflexivity|constructor]).
  pose proof (F ex_nm [] false "S" _ a 0 (ky "P") (TProd "P" [(ky "x", TBV 8)]) W Bt) as X. vm_compute in B. injection B as <- _.
  specialize (X ltac:(vm_compute; split; [discriminate|reflexivity]) ltac:(left; reflexivity)). vm_compute in X. discriminate X.
Qed.

Theorem C92_mapping_refuted : ~ C92_mapping_full.
Proof.
  intros F. set (t := TEnum "E" [EAuto "A"; EAuto "B"]).
  destruct (build ps0 t) as [[a st]|] eqn:B; [|vm_compute in B; discriminate B].
  assert (built [] t a) as Bt by (exists st; exact B).
  assert (Forall wf_ty [t]) as W by (constructor; [apply wf_b_spec; reflexivity|constructor]).
  destruct (F ex_nm [] t a _ (Key "A" "A") W Bt eq_refl ltac:(left; reflexivity)) as [e X]. vm_compute in X. discriminate X.
Qed.

Print Assumptions C92_access.
Print Assumptions C92_value.
Print Assumptions C92_errors.
Print Assumptions C92_same_paths.
Print Assumptions C92_assembler2.
Print Assumptions C92_tag.
Print Assumptions C92_tag_other.
Print Assumptions C92_by_class.
Print Assumptions C92_by_class_refuted.
Print Assumptions C92_mapping.
Print Assumptions C92_mapping_enum.
Print Assumptions C92_mapping_refuted.
