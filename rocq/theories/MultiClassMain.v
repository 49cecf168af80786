(** [ArchMapper] and [Multi] call a class on the same words and read the same outputs. *)
From Coq Require Import String ZArith List Bool Lia.
From Verif Require Import Base BaseLemmas BindModel MapIdxModel MapIdxProps BindProps MultiModel MultiProps MapModel MapProofs MapMain MapProps
  AsmModel AsmSpec AsmValid AsmEnum AsmBuild AsmProofs AsmSub AsmCheck AsmMore AsmProps Asm2Model Asm2Proofs AadtModel AadtProofs FormModel FormProofs FormMain FormSimp FormProps
  AdtArchModel AdtArchProofs AdtArchMain AdtArchProps RuleAppModel RuleAppProofs RuleAppMain MultiClassModel MultiClassProofs.
Import ListNotations.
Open Scope string_scope.
Open Scope list_scope.
Open Scope Z_scope.

Definition word_fields (fs : list (key * mty)) : Prop := forall k m, In (k, m) fs -> word_field m.
Definition named (fs : list (key * mty)) : Prop := NoDup (map (fun f => kname (fst f)) fs).

(** * Words as values *)
Definition bits (t : ty) (w : Z) : AsmModel.val := match t with TBit => VBit (w =? 1) | _ => VBV w end.
Lemma bits_enc J t n w : word_type t -> swidth t n -> 0 <= w < 2 ^ n -> enc J t w (bits t w) /\ has_ty t (bits t w).
Proof.
  intros T S R. destruct t; try destruct T; cbn [bits]; inversion S; subst.
  - change (2 ^ 1) with 2 in R. assert (w = b2z (w =? 1)) as E by (destruct (Z.eqb_spec w 1); cbn; lia).
    rewrite E at 1. split; constructor.
  - split; constructor; auto.
  - split; constructor; auto.
Qed.
Lemma bits_fun J t n w x : word_type t -> swidth t n -> 0 <= w < 2 ^ n -> enc J t x (bits t w) -> x = w.
Proof.
  intros T S R E. destruct t; try destruct T; cbn [bits] in E; inversion E; subst; auto.
  inversion S; subst. change (2 ^ 1) with 2 in R. destruct (Z.eqb_spec w 1); cbn; lia.
Qed.
Lemma swidth_word t : word_type t -> exists n, swidth t n.
Proof. destruct t; intros []; eexists; constructor. Qed.
Lemma leaf_bits_word t n : word_type t -> swidth t n -> leaf_bits t = n.
Proof. destruct t; intros [] S; inversion S; reflexivity. Qed.
Lemma words_sum_free c fs : word_fields fs -> sum_free (TProd c (strip_fields fs)).
Proof.
  intros F r g c' fs' S. inversion S as [|? ? k p t ? I S'|]; subst. unfold strip_fields in I. apply in_map_iff in I as ([k0 m] & [= <- <-] & I).
  apply F, word_field_strip in I. cbn [snd] in *. apply leaf_sub_ty in S' as [_ E]; [|now apply word_type_leaf]. rewrite <- E in I. destruct I.
Qed.

(** * Widths *)
Lemma lty_width_spec m n : wf_ty (strip m) -> swidth (strip m) n -> Z.of_nat (lty_width (field_ty m)) = n.
Proof.
  intros W S. unfold lty_width, field_ty. rewrite outer_strip. destruct (build_history [] (strip m)) as (a & st & E & A); [constructor; auto|].
  cbn [run_history] in E. rewrite E. destruct (asm_rel_width _ _ W a A) as [Sa P]. rewrite Z2Nat.id by auto. eapply swidth_fun; eauto.
Qed.
Lemma word_word_of (f : key * mty) w : wf_ty (strip (snd f)) -> (exists n, swidth (strip (snd f)) n) -> (word lty_width (field_ty (snd f)) w <-> word_of f w).
Proof.
  intros W [n S]. unfold word, word_of. rewrite (lty_width_spec (snd f) n W S). split; [eauto|]. intros (n' & S' & R). now rewrite (swidth_fun _ _ _ S S').
Qed.

(** * Names *)
Lemma named_find fs k m : named fs -> In (k, m) fs -> field_named fs (kname k) = Some (k, m).
Proof.
  unfold named, field_named. induction fs as [|[k' m'] fs IH]; intros N I; [destruct I|]. cbn [map] in N. inversion N as [|? ? N1 N2]; subst. cbn [find fst].
  destruct I as [[= -> ->]|I]; [now rewrite String.eqb_refl|]. destruct (String.eqb_spec (kname k') (kname k)) as [E|]; auto.
  exfalso. apply N1. rewrite E. apply (in_map (fun f => kname (fst f))) in I. exact I.
Qed.
Lemma named_inj fs k m k' m' : named fs -> In (k, m) fs -> In (k', m') fs -> kname k = kname k' -> k = k' /\ m = m'.
Proof. intros N I I' E. pose proof (named_find fs k m N I) as X. rewrite E, (named_find fs k' m' N I') in X. injection X as -> ->. auto. Qed.
Lemma named_keys fs : named fs -> NoDup (map fst (typed_fields fs)).
Proof. unfold named, typed_fields. rewrite map_map. auto. Qed.
Lemma filter_split_nodup {X} (g : X -> string) (h : X -> bool) l : NoDup (map g l) ->
  NoDup (map g (filter h l) ++ map g (filter (fun x => negb (h x)) l)).
Proof.
  induction l as [|x l IH]; intros N; [constructor|]. cbn [map] in N. inversion N as [|? ? N1 N2]; subst. specialize (IH N2).
  assert (~ In (g x) (map g (filter h l) ++ map g (filter (fun x => negb (h x)) l))) as Nx.
  { intros I. apply N1. apply in_app_or in I. destruct I as [I|I]; apply in_map_iff in I as (y & E & I); rewrite <- E; apply in_map; apply filter_In in I; tauto. }
  cbn [filter]. destruct (h x); cbn [negb map List.app]; [constructor; auto|]. apply NoDup_Add with (a := g x) (l := map g (filter h l) ++ map g (filter (fun x => negb (h x)) l)); [apply Add_app|]. split; auto.
Qed.
Lemma dicts_In fs g t : In (g, t) (const_dict fs ++ non_const_dict fs) <-> exists k m, In (k, m) fs /\ g = kname k /\ t = field_ty m.
Proof.
  unfold const_dict, non_const_dict, typed_fields. rewrite in_app_iff, !in_map_iff. split.
  - intros [([k m] & [= <- <-] & I)|([k m] & [= <- <-] & I)]; apply filter_In in I as [I _]; exists k, m; auto.
  - intros (k & m & I & -> & ->). destruct (const_field m) eqn:E; [left|right]; exists (k, m); (split; [reflexivity|]); apply filter_In; cbn [snd]; rewrite E; auto.
Qed.
Lemma non_const_In fs g t : In (g, t) (non_const_dict fs) <-> exists k m, In (k, m) fs /\ const_field m = false /\ g = kname k /\ t = field_ty m.
Proof.
  unfold non_const_dict, typed_fields. rewrite in_map_iff. split.
  - intros ([k m] & [= <- <-] & I). apply filter_In in I as [I E]. apply negb_true_iff in E. exists k, m. auto.
  - intros (k & m & I & E & -> & ->). exists (k, m). split; auto. apply filter_In. cbn [snd]. rewrite E. auto.
Qed.
Lemma const_In fs g t : In (g, t) (const_dict fs) <-> exists k m, In (k, m) fs /\ const_field m = true /\ g = kname k /\ t = field_ty m.
Proof.
  unfold const_dict, typed_fields. rewrite in_map_iff. split.
  - intros ([k m] & [= <- <-] & I). apply filter_In in I as [I E]. exists k, m. auto.
  - intros (k & m & I & E & -> & ->). exists (k, m). split; auto. apply filter_In. auto.
Qed.
Lemma typed_In fs g t : In (g, t) (typed_fields fs) <-> exists k m, In (k, m) fs /\ g = kname k /\ t = field_ty m.
Proof.
  unfold typed_fields. rewrite in_map_iff. split.
  - intros ([k m] & [= <- <-] & I). exists k, m. auto.
  - intros (k & m & I & -> & ->). exists (k, m). auto.
Qed.

(** * Outputs *)
Section Outputs.
  Variable C : pclass.
  Hypothesis K : class_ok C.
  Hypothesis Ck : call_ok C.
  Hypothesis Bo : buildable (out_ty C).
  Hypothesis Wo : word_fields (c_out C).

  (** The outputs as values. *)
  Definition outs_val (os : list Z) : list AsmModel.val := map (fun e => bits (strip (snd (fst e))) (snd e)) (combine (c_out C) os).
  Lemma outs_nth os i k m w : nth_error (c_out C) i = Some (k, m) -> nth_error os i = Some w -> nth_error (outs_val os) i = Some (bits (strip m) w).
  Proof.
    unfold outs_val. rewrite nth_error_map. intros E1 E2. assert (nth_error (combine (c_out C) os) i = Some ((k, m), w)) as -> by (apply nth_combine; auto). reflexivity.
  Qed.
  Lemma outs_words J os : Forall2 word_of (c_out C) os -> words (enc J) (c_out C) os (outs_val os) /\ has_ty (out_ty C) (VProd (outs_val os)).
  Proof.
    intros F. pose proof (F2_length _ _ _ F) as L. split.
    - split; [auto|]. split; [unfold outs_val; rewrite map_length, combine_length; lia|]. intros i k m w v Ei Ew Ev.
      rewrite (outs_nth os i k m w Ei Ew) in Ev. injection Ev as <-. destruct (F2_nth _ _ _ F i _ Ei) as (w' & Ew' & n & S & R).
      assert (w' = w) by congruence. subst w'. apply (bits_enc J _ n); auto. apply word_field_strip, (Wo k). eapply nth_error_In; eauto.
    - constructor. apply F2_intro; [rewrite strip_length; unfold outs_val; rewrite map_length, combine_length; lia|].
      intros i [k t] v Ei Ev. apply strip_nth in Ei as (m & Ei & ->). destruct (F2_nth _ _ _ F i _ Ei) as (w & Ew & n & S & R).
      rewrite (outs_nth os i k m w Ei Ew) in Ev. injection Ev as <-. apply (bits_enc (fun _ => True) _ n); auto. apply word_field_strip, (Wo k). eapply nth_error_In; eauto.
  Qed.
  Lemma outs_sub os i k m w : nth_error (c_out C) i = Some (k, m) -> nth_error os i = Some w ->
    sub_val (out_ty C) (VProd (outs_val os)) [k] (strip m) (bits (strip m) w).
  Proof.
    intros Ei Ew. econstructor; [unfold strip_fields; rewrite nth_error_map, Ei; reflexivity|apply (outs_nth os i k m w Ei Ew)|constructor].
  Qed.

  (** What [ArchMapper] reads of the output. *)
  Lemma out_word z ws i k m w : in_words C z = Ok ws -> nth_error (c_out C) i = Some (k, m) -> nth_error (c_call C ws) i = Some w -> out_at C z [k] = w.
  Proof.
    intros Ew Ei Ec. destruct (in_words_ok C z K) as (ws' & Ew' & Fi). assert (ws' = ws) by congruence. subst ws'.
    pose proof (Ck ws Fi) as F. destruct (outs_words (fun _ => True) _ F) as [Ws Ht].
    assert (word_type (strip m)) as T by (apply word_field_strip, (Wo k); eapply nth_error_In; eauto).
    destruct (F2_nth _ _ _ F i _ Ei) as (w' & Ew2 & n & S & R). assert (w' = w) by congruence. subst w'.
    apply (bits_fun (fun _ => True) (strip m) n); auto.
    apply (out_read C z ws K Bo (words_sum_free _ _ Wo) Ew F _ Ws Ht [k] (strip m)); [apply (outs_sub _ i); auto|now apply word_type_leaf].
  Qed.

  (** What [Multi] reads of the output. *)
  Lemma run_word x i k m w : named (c_out C) -> Forall2 word_of (c_in C) (call_args C x) -> nth_error (c_out C) i = Some (k, m) ->
    nth_error (c_call C (call_args C x)) i = Some w -> run_peak C x (kname k) = w.
  Proof.
    intros Nm Fi Ei Ec. destruct (k_out C K) as (R & GR & W & Rl). pose proof (Ck _ Fi) as F.
    destruct (wrap_ok C (c_call C (call_args C x)) K Bo F) as (op & Eop & Rg & En). destruct (outs_words (fun _ => True) _ F) as [Ws Ht].
    unfold run_peak. rewrite Eop. cbn [bind]. rewrite (named_find _ k m Nm (nth_error_In _ _ Ei)).
    destruct (aadt_get_spec R (fun _ => True) _ _ k (strip m) (bits (strip m) w) (c_oa C) op (outs_sub _ i k m w Ei Ec) GR W Rl (En _ _ Logic.I Ws)) as (y & mm & a' & -> & Ey & _).
    cbn [bind fst]. destruct (F2_nth _ _ _ F i _ Ei) as (w' & Ew2 & n & S & Rw). assert (w' = w) by congruence. subst w'.
    apply (bits_fun (fun _ => True) (strip m) n); auto. apply word_field_strip, (Wo k). eapply nth_error_In; eauto.
  Qed.
End Outputs.

Lemma wf_field fs c k m : wf_ty (TProd c (strip_fields fs)) -> In (k, m) fs -> wf_ty (strip m).
Proof. intros W I. apply (wf_members_prod c (strip_fields fs) k _ W). unfold strip_fields. apply in_map_iff. exists (k, m). auto. Qed.
Lemma swidth_in C k m : class_ok C -> In (k, m) (c_in C) -> wf_ty (strip m) /\ exists n, swidth (strip m) n.
Proof.
  intros Kc I. destruct (k_in C Kc) as (R & _ & W & Rl). split; [eapply wf_field; eauto|].
  assert (In (k, strip m) (strip_fields (c_in C))) as Ik by (unfold strip_fields; apply in_map_iff; exists (k, m); auto).
  destruct (prod_member R "Input" _ (c_ia C) k (strip m) W Rl Ik) as (fa & lo & _ & Af & _).
  destruct (asm_rel_width R _ (wf_field _ _ _ _ W I) fa Af) as [S _]. eauto.
Qed.
Lemma swidth_out C k m : class_ok C -> In (k, m) (c_out C) -> wf_ty (strip m) /\ exists n, swidth (strip m) n.
Proof.
  intros Kc I. destruct (k_out C Kc) as (R & _ & W & Rl). split; [eapply wf_field; eauto|].
  assert (In (k, strip m) (strip_fields (c_out C))) as Ik by (unfold strip_fields; apply in_map_iff; exists (k, m); auto).
  destruct (prod_member R "Output" _ (c_oa C) k (strip m) W Rl Ik) as (fa & lo & _ & Af & _).
  destruct (asm_rel_width R _ (wf_field _ _ _ _ W I) fa Af) as [S _]. eauto.
Qed.

(** Words of all fields are arguments of a call. *)
Lemma args_words C x : class_ok C -> (forall k m, In (k, m) (c_in C) -> word lty_width (field_ty m) (x (kname k))) -> Forall2 word_of (c_in C) (call_args C x).
Proof.
  intros Kc H. unfold call_args. apply F2_intro; [now rewrite map_length|]. intros i [k m] w Ei Ew. rewrite nth_error_map, Ei in Ew. injection Ew as <-.
  destruct (swidth_in C k m Kc (nth_error_In _ _ Ei)) as [W S]. apply (word_word_of (k, m)); auto. apply (H k m). eapply nth_error_In; eauto.
Qed.

(** * The architecture and the IR of [Multi] are regular. *)
Lemma args_ext C x y : (forall k m, In (k, m) (c_in C) -> x (kname k) = y (kname k)) -> call_args C x = call_args C y.
Proof. intros H. unfold call_args. apply map_ext_in. intros [k m] I. apply (H k m I). Qed.
Lemma multi_regular C D : class_ok C -> call_ok C -> buildable (out_ty C) -> word_fields (c_out C) -> named (c_in C) -> named (c_out C) ->
  class_ok D -> named (c_in D) -> const_dict (c_in D) = [] -> regular lty_width (multi_arch C) (multi_ir D).
Proof.
  intros Kc Ck Bo Wo Ni No Kd Nd Nc. constructor; cbn [multi_arch multi_ir MultiModel.a_const MultiModel.a_in MultiModel.a_out MultiModel.a_sem MultiModel.i_in MultiModel.i_sem].
  - rewrite map_app. unfold const_dict, non_const_dict, typed_fields. rewrite !map_map. apply (filter_split_nodup (fun f : key * mty => kname (fst f)) (fun f => const_field (snd f))). exact Ni.
  - apply named_keys. exact No.
  - pose proof (filter_split_nodup (fun f : key * mty => kname (fst f)) (fun f => const_field (snd f)) (c_in D) Nd) as N.
    unfold non_const_dict, typed_fields. rewrite map_map. apply NoDup_app_iff in N. apply N.
  - intros x y H g. unfold run_peak. rewrite (args_ext C x y); auto. intros k m I. apply H. apply in_map_iff. exists (kname k, field_ty m). split; auto. apply dicts_In. eauto.
  - intros _ _ x y _ H g. unfold run_peak. rewrite (args_ext D x y); auto. intros k m I. apply H. apply in_map_iff. exists (kname k, field_ty m). split; auto.
    assert (In (kname k, field_ty m) (const_dict (c_in D) ++ non_const_dict (c_in D))) as X by (apply dicts_In; eauto). rewrite Nc in X. exact X.
  - intros x H g t I. apply typed_In in I as (k & m & I & -> & ->). apply In_nth_error in I as [i Ei].
    assert (Forall2 word_of (c_in C) (call_args C x)) as Fa by (apply args_words; auto; intros k' m' I'; apply H; apply dicts_In; eauto).
    destruct (F2_nth _ _ _ (Ck _ Fa) i _ Ei) as (w & Ew & Rw). rewrite (run_word C Kc Ck Bo Wo x i k m w No Fa Ei Ew).
    destruct (swidth_out C k m Kc (nth_error_In _ _ Ei)) as [W S]. now apply (word_word_of (k, m)).
Qed.

(** * The instruction of the IR *)
Lemma instr_arch D I : class_ok D -> adt_instr D = Ok I -> exists A f, adt_arch D [] = Ok A /\ nth_error (a_forms A) 0 = Some f /\
  forall x q, MapModel.i_sem I x q = out_at D (form_word D 0 (own A 0) x) q.
Proof.
  intros K E. destruct (instr_forms D I K E) as [B S]. destruct (adt_instr_inv D I E) as (_ & _ & Es).
  assert (exists A, adt_arch D [] = Ok A) as [A EA].
  { unfold adt_arch, adt_instr in *. destruct (in_forms D (fun _ => 0) (fun _ => 0)) as [[[fo vm] z]|]; [|discriminate]. cbn [bind] in *.
    destruct (one_output_form D fo); [|discriminate]. cbn. eauto. }
  destruct (k_in D K) as (R & GR & W & Rl). destruct (C86_forms D [] A K EA) as [F1 F2].
  destruct (inhabited _ W) as (v & Hv & _). destruct (F1 v Hv) as (fi & (f & Ef & _) & _).
  destruct (nth_error (a_forms A) 0) as [f0|] eqn:E0; [|destruct (a_forms A); [destruct fi; discriminate|discriminate]].
  exists A, f0. split; auto. split; auto. intros x q. rewrite Es. f_equal. apply (same_word R GR D W Rl B [] A EA 0 f0); auto.
  intros [q' z] I'. exfalso. destruct (F2 0%nat f0 E0) as (v0 & _ & f1 & E1 & _ & H). assert (f1 = f0) by congruence. subst f1.
  cbn [fst snd] in *. destruct (proj1 (H q' z) I') as (g & c & fs & k & w & Sv & _). apply (S q' g c fs). eapply sub_val_ty; eauto.
Qed.
