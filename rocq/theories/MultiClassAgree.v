(** One instruction: from a rule of [ArchMapper] to a program of [Multi] and back. *)
From Coq Require Import String ZArith List Bool Lia.
From Verif Require Import Base BaseLemmas BindModel MapIdxModel MapIdxProps BindProps MultiModel MultiProps MapModel MapProofs MapMain MapProps MapIff MapIffProps MapDirect
  AsmModel AsmSpec AsmValid AsmEnum AsmBuild AsmProofs AsmSub AsmCheck AsmMore AsmProps Asm2Model Asm2Proofs AadtModel AadtProofs FormModel FormProofs FormMain FormSimp FormProps
  AdtArchModel AdtArchProofs AdtArchMain AdtArchProps RuleAppModel RuleAppProofs RuleAppMain MultiClassModel MultiClassProofs MultiClassMain.
Import ListNotations.
Open Scope string_scope.
Open Scope list_scope.
Open Scope Z_scope.

(** A class with one Const field, which may have any type; the other fields and the outputs
    are Bits and bit vectors. *)
Record word_arch (C : pclass) (k0 : key) (m0 : mty) : Prop := {
  w_ok : class_ok C; w_call : call_ok C; w_bo : buildable (out_ty C);
  w_out : word_fields (c_out C); w_ni : named (c_in C); w_no : named (c_out C);
  w_const : filter (fun f => const_field (snd f)) (c_in C) = [(k0, m0)];
  w_in : forall k m, In (k, m) (c_in C) -> const_field m = false -> word_field m }.
(** A class without Const fields. *)
Record word_ir (D : pclass) : Prop := {
  d_ok : class_ok D; d_call : call_ok D; d_bo : buildable (out_ty D);
  d_out : word_fields (c_out D); d_ni : named (c_in D); d_no : named (c_out D);
  d_in : word_fields (c_in D); d_const : forall k m, In (k, m) (c_in D) -> const_field m = false }.

Lemma filter_none {X} (h : X -> bool) l : (forall x, In x l -> h x = false) -> filter h l = [].
Proof. induction l as [|x l IH]; intros H; auto. cbn. rewrite (H x) by now left. apply IH. intros y I. apply H. now right. Qed.
Lemma nth_error_ext {X} (l l' : list X) : (forall i, nth_error l i = nth_error l' i) -> l = l'.
Proof.
  revert l'. induction l as [|x l IH]; intros [|y l'] H; auto; [specialize (H 0%nat); discriminate|specialize (H 0%nat); discriminate|].
  pose proof (H 0%nat) as E. injection E as ->. f_equal. apply IH. intros i. apply (H (S i)).
Qed.
Lemma find_name {X Y} (g : X -> string) (s : X -> Y) (l : list X) x : NoDup (map g l) -> In x l ->
  forall (q : string -> mpath), (forall a b, mpath_eqb (q a) (q b) = String.eqb a b) ->
  find (fun e => mpath_eqb (snd e) (q (g x))) (map (fun e => (s e, q (g e))) l) = Some (s x, q (g x)).
Proof.
  intros N I q Q. induction l as [|y l IH]; [destruct I|]. cbn [map] in *. inversion N as [|? ? N1 N2]; subst. cbn [find snd]. rewrite Q.
  destruct I as [->|I]; [now rewrite String.eqb_refl|]. destruct (String.eqb_spec (g y) (g x)) as [E|]; auto. exfalso. apply N1. rewrite E. now apply in_map.
Qed.

Section Agree.
  Variables (C D : pclass) (k0 : key) (m0 : mty) (A : arch path lty) (I : instr path lty).
  Hypothesis HC : word_arch C k0 m0.
  Hypothesis HD : word_ir D.
  Hypothesis EA : adt_arch C [] = Ok A.
  Hypothesis ED : adt_instr D = Ok I.
  Let K := w_ok _ _ _ HC.
  Let KD := d_ok _ HD.

  Lemma c0_in : In (k0, m0) (c_in C) /\ const_field m0 = true.
  Proof.
    assert (In (k0, m0) (filter (fun f => const_field (snd f)) (c_in C))) as X by (rewrite (w_const _ _ _ HC); left; auto). apply filter_In in X. exact X.
  Qed.
  Lemma c0_only k m : In (k, m) (c_in C) -> const_field m = true -> k = k0 /\ m = m0.
  Proof.
    intros J E. assert (In (k, m) (filter (fun f => const_field (snd f)) (c_in C))) as X by (apply filter_In; auto). rewrite (w_const _ _ _ HC) in X.
    destruct X as [[= <- <-]|[]]. auto.
  Qed.
  Lemma key_fun k m m' : In (k, m) (c_in C) -> In (k, m') (c_in C) -> m = m'.
  Proof. intros J J'. eapply pair_fun; [exact (in_keys C K)|exact J|exact J']. Qed.

  (** The leaves. *)
  Lemma leaf_data k m : In (k, m) (c_in C) -> const_field m = false -> In ([k], field_ty m) (in_flat C).
  Proof. intros J E. apply (in_flat_fields C K). exists k, m. split; auto. rewrite (word_field_flat m (w_in _ _ _ HC k m J E)). left; auto. Qed.
  Lemma leaf_inv p t : In (p, t) (in_flat C) ->
    (exists k m, In (k, m) (c_in C) /\ const_field m = false /\ p = [k] /\ t = field_ty m /\ lty_const t = false) \/ (exists r, p = k0 :: r /\ lty_const t = true).
  Proof.
    intros J. pose proof J as J0. apply (in_flat_fields C K) in J as (k & m & J & F). destruct (const_field m) eqn:E.
    - right. destruct (c0_only k m J E) as [-> ->].
      assert (exists r, p = k0 :: r) as [r ->].
      { destruct (k_in C K) as (R & _ & W & _). pose proof (wf_field _ _ _ _ W J) as Wm. pose proof (k_mi C K) as M. rewrite Forall_forall in M.
        destruct (flat_all m0 (M _ J) Wm [k0] []) as [[_ S] _]. assert (In p (map fst (flat m0 [k0] []))) as X by (apply (in_map fst) in F; exact F).
        apply S in X as (r & u & -> & _). exists r. reflexivity. }
      exists r. split; auto. destruct (k_in C K) as (R & _ & W & _). eapply (const_leaf C W (k_mi C K) k0 m0); eauto.
    - left. exists k, m. rewrite (word_field_flat m (w_in _ _ _ HC k m J E)) in F. destruct F as [[= <- <-]|[]]. rewrite (outer_const m []), E. auto.
  Qed.
  Lemma ir_leaf k m : In (k, m) (c_in D) -> In ([k], field_ty m) (in_flat D).
  Proof. intros J. apply (in_flat_fields D KD). exists k, m. split; auto. rewrite (word_field_flat m (d_in _ HD k m J)). left; auto. Qed.
  Lemma ir_leaf_inv p t : In (p, t) (in_flat D) -> exists k m, In (k, m) (c_in D) /\ p = [k] /\ t = field_ty m.
  Proof.
    intros J. apply (in_flat_fields D KD) in J as (k & m & J & F). rewrite (word_field_flat m (d_in _ HD k m J)) in F. destruct F as [[= <- <-]|[]]. eauto.
  Qed.
  Lemma out_leaf (E : pclass) k m : class_ok E -> word_fields (c_out E) -> In (k, m) (c_out E) -> In ([k], field_ty m) (out_flat E).
  Proof. intros KE F J. apply (out_flat_fields E KE). exists k, m. split; auto. rewrite (word_field_flat m (F k m J)). left; auto. Qed.
  Lemma out_leaf_inv (E : pclass) p t : class_ok E -> word_fields (c_out E) -> In (p, t) (out_flat E) -> exists k m, In (k, m) (c_out E) /\ p = [k] /\ t = field_ty m.
  Proof.
    intros KE F J. apply (out_flat_fields E KE) in J as (k & m & J & X). rewrite (word_field_flat m (F k m J)) in X. destruct X as [[= <- <-]|[]]. eauto.
  Qed.

  (** Words of leaves. *)
  Lemma vals_word (E : pclass) k m z : class_ok E -> In (k, m) (c_in E) -> word_field m -> (In z (lty_vals (field_ty m)) <-> word lty_width (field_ty m) z).
  Proof.
    intros KE J Wm. destruct (swidth_in E k m KE J) as [W [n S]]. unfold word, lty_vals. rewrite (lty_width_spec m n W S). unfold field_ty. rewrite outer_strip.
    rewrite (leaf_bits_word _ n (word_field_strip m Wm) S). apply BaseLemmas.pyrange_In.
  Qed.
  Lemma wrap_word (E : pclass) k m z n : class_ok E -> In (k, m) (c_in E) -> swidth (strip m) n -> word lty_width (field_ty m) z -> wrap n z = z.
  Proof.
    intros KE J S R. destruct (swidth_in E k m KE J) as [W _]. unfold word in R. rewrite (lty_width_spec m n W S) in R. apply wrap_small. lia.
  Qed.

  Lemma forms_buildable_c : buildable (in_ty C).
  Proof. eapply arch_buildable; eauto. Qed.
  Let B := forms_buildable_c.

  (** ** Calls *)
  Lemma arch_call fi f l ws X k m : nth_error (a_forms A) fi = Some f -> in_words C (form_word C fi (own A fi) l) = Ok ws ->
    (forall i k m, nth_error (c_in C) i = Some (k, m) -> nth_error ws i = Some (X (kname k))) -> In (k, m) (c_out C) ->
    adt_fs C A fi l [k] = run_peak C X (kname k).
  Proof.
    intros Ef Ew H J. destruct (in_words_ok C (form_word C fi (own A fi) l) K) as (ws' & Ew' & Fw). rewrite Ew in Ew'. injection Ew' as <-.
    assert (call_args C X = ws) as Ea.
    { pose proof (F2_length _ _ _ Fw) as L. unfold call_args. apply nth_error_ext. intros i. rewrite nth_error_map.
      destruct (nth_error (c_in C) i) as [[k' m']|] eqn:Ei; cbn; [symmetry; apply (H i k' m' Ei)|]. symmetry. apply nth_error_None. apply nth_error_None in Ei. lia. }
    apply In_nth_error in J as [i Ei]. destruct (F2_nth _ _ _ (w_call _ _ _ HC ws Fw) i _ Ei) as (w & Eo & _).
    unfold adt_fs. rewrite (out_word C K (w_call _ _ _ HC) (w_bo _ _ _ HC) (w_out _ _ _ HC) _ ws i k m w Ew Ei Eo).
    symmetry. eapply (run_word C K (w_call _ _ _ HC) (w_bo _ _ _ HC) (w_out _ _ _ HC)); rewrite ?Ea; eauto. apply (w_no _ _ _ HC).
  Qed.

  Lemma ir_call y x k m : (forall k m, In (k, m) (c_in D) -> In (y [k]) (lty_vals (field_ty m)) /\ x (kname k) = y [k]) -> In (k, m) (c_out D) ->
    MapModel.i_sem I y [k] = run_peak D x (kname k).
  Proof.
    intros H J. destruct (instr_arch D I KD ED) as (A' & f' & EA' & Ef' & Es). rewrite Es.
    destruct (form_parts D KD (arch_buildable D [] A' KD EA') [] A' EA' 0 f' y Ef') as (ws & Ew & Fw & P).
    assert (call_args D x = ws) as Ea.
    { pose proof (F2_length _ _ _ Fw) as L. unfold call_args. apply nth_error_ext. intros i. rewrite nth_error_map.
      destruct (nth_error (c_in D) i) as [[k' m']|] eqn:Ei; cbn; [|symmetry; apply nth_error_None; apply nth_error_None in Ei; lia].
      pose proof (nth_error_In _ _ Ei) as J'. pose proof (d_in _ HD k' m' J') as Wm. destruct (swidth_in D k' m' KD J') as [W [n S]].
      destruct (P i k' m' n Ei Wm S) as [_ ->]. destruct (H k' m' J') as [H1 H2]. apply (vals_word D k' m' _ KD J' Wm) in H1.
      rewrite (wrap_word D k' m' _ n KD J' S H1). now rewrite H2. }
    apply In_nth_error in J as [i Ei]. destruct (F2_nth _ _ _ (d_call _ HD ws Fw) i _ Ei) as (w & Eo & _).
    rewrite (out_word D KD (d_call _ HD) (d_bo _ HD) (d_out _ HD) _ ws i k m w Ew Ei Eo).
    symmetry. eapply (run_word D KD (d_call _ HD) (d_bo _ HD) (d_out _ HD)); rewrite ?Ea; eauto. apply (d_no _ HD).
  Qed.

  (** ** The fields of [Multi] *)
  Lemma consts_eq : const_dict (c_in C) = [(kname k0, field_ty m0)].
  Proof. unfold const_dict. rewrite (w_const _ _ _ HC). reflexivity. Qed.
  Lemma ir_consts : const_dict (c_in D) = [].
  Proof. unfold const_dict. rewrite filter_none; auto. intros [k m] J. cbn. eapply d_const; eauto. Qed.
  Definition data : list (key * mty) := filter (fun f => negb (const_field (snd f))) (c_in C).
  Lemma data_In k m : In (k, m) data <-> In (k, m) (c_in C) /\ const_field m = false.
  Proof. unfold data. rewrite filter_In. cbn [snd]. now rewrite negb_true_iff. Qed.
  Lemma data_names : NoDup (map (fun f => kname (fst f)) data).
  Proof.
    pose proof (filter_split_nodup (fun f : key * mty => kname (fst f)) (fun f => const_field (snd f)) (c_in C) (w_ni _ _ _ HC)) as N. apply NoDup_app_iff in N. apply N.
  Qed.
  Lemma data_not_const k m : In (k, m) data -> kname k <> kname k0.
  Proof.
    intros J E. apply data_In in J as [J Ec]. destruct c0_in as [J0 E0]. destruct (named_inj _ _ _ _ _ (w_ni _ _ _ HC) J J0 E) as [_ ->]. congruence.
  Qed.
  Lemma regular_cd : regular lty_width (multi_arch C) (multi_ir D).
  Proof. apply multi_regular; [apply HC|apply HC|apply HC|apply HC|apply HC|apply HC|apply HD|apply HD|apply ir_consts]. Qed.

  (** The value of a field in the only instruction of a program. *)
  Lemma arg_const b w x u : arg (multi_arch C) 0 b [w] x u [] (kname k0) = w.
  Proof. unfold arg. cbn [multi_arch MultiModel.a_const]. rewrite consts_eq. cbn. now rewrite String.eqb_refl. Qed.
  Lemma arg_data (s : key * mty -> option mpath) w x u e : In e data ->
    arg (multi_arch C) 0 (map (fun e => (s e, Ain 0 (kname (fst e)))) data) [w] x u [] (kname (fst e)) =
    match s e with Some (IRin g) => x g | Some (Aout _ _) => 0 | _ => u 0%nat (kname (fst e)) end.
  Proof.
    intros J. unfold arg. cbn [multi_arch MultiModel.a_const]. rewrite consts_eq. cbn [map combine fst dget].
    destruct (String.eqb_spec (kname (fst e)) (kname k0)) as [E|_]; [destruct e as [k m]; destruct (data_not_const k m J E)|].
    rewrite (find_name (fun e : key * mty => kname (fst e)) s data e data_names J (Ain 0)) by (intros a b; cbn; reflexivity).
    destruct (s e) as [[]|]; auto. now destruct i.
  Qed.

  (** ** From a rule to a program *)
  Section Forward.
    Variables (fi : nat) (f : list path * list (path * Z)) (l0 : path -> Z) (bnd obnd : path -> path).
    Hypothesis Ef : nth_error (a_forms A) fi = Some f.
    Hypothesis Tl : typed lty_vals (in_flat C) l0.
    Hypothesis Fv : adt_fv C A fi l0 = true.
    Hypothesis Hb : forall q t, In (q, t) (in_flat D) -> In (bnd q, t) (in_flat C).
    Hypothesis Hi : forall q t q' t', In (q, t) (in_flat D) -> In (q', t') (in_flat D) -> bnd q = bnd q' -> q = q'.
    Hypothesis Ho : forall q t, In (q, t) (out_flat D) -> In (obnd q, t) (out_flat C).
    Hypothesis Hoi : forall q t q' t', In (q, t) (out_flat D) -> In (q', t') (out_flat D) -> obnd q = obnd q' -> q = q'.
    Hypothesis Hs : forall q t, In (q, t) (out_flat D) -> forall l, typed lty_vals (in_flat C) l ->
      (forall p t', In (p, t') (in_flat C) -> In p (fst f) -> lty_const t' = true -> l p = l0 p) ->
      MapModel.i_sem I (fun q => l (bnd q)) q = adt_fs C A fi l (obnd q).

    Definition takes (e : key * mty) : option (key * mty) := find (fun d => path_eqb (bnd [fst d]) [fst e]) (c_in D).
    Definition src_of (e : key * mty) : option mpath := match takes e with Some d => Some (IRin (kname (fst d))) | None => None end.
    Definition fbind : binding := map (fun e => (src_of e, Ain 0 (kname (fst e)))) data.

    Lemma takes_some e d : takes e = Some d -> In d (c_in D) /\ bnd [fst d] = [fst e].
    Proof. intros E. unfold takes in E. apply find_some in E as [J E]. apply path_eqb_eq in E. auto. Qed.
    Lemma takes_of kd md : In (kd, md) (c_in D) -> exists k m, In (k, m) data /\ bnd [kd] = [k] /\ takes (k, m) = Some (kd, md) /\ field_ty md = field_ty m.
    Proof.
      intros J. pose proof (Hb _ _ (ir_leaf kd md J)) as Hc. destruct (leaf_inv _ _ Hc) as [(k & m & J' & Ec & E1 & E2 & _)|(r & _ & Ec)].
      - exists k, m. split; [apply data_In; auto|]. split; auto. split; auto. unfold takes. cbn [fst].
        destruct (find (fun d => path_eqb (bnd [fst d]) [k]) (c_in D)) as [[kd' md']|] eqn:Ex.
        + apply find_some in Ex as [J2 E3]. cbn [fst] in E3. apply path_eqb_eq in E3. assert ([kd'] = [kd]) as [= ->] by (eapply Hi; [apply ir_leaf; eauto|apply ir_leaf; eauto|congruence]).
          do 2 f_equal. eapply pair_fun; [exact (in_keys D KD)|exact J2|exact J].
        + exfalso. pose proof (find_none _ _ Ex (kd, md) J) as X. cbn [fst] in X. rewrite E1 in X. now rewrite (proj2 (path_eqb_eq [k] [k]) eq_refl) in X.
      - exfalso. rewrite field_const, (d_const _ HD kd md J) in Ec. discriminate.
    Qed.
    Lemma takes_ty k m kd md : In (k, m) data -> takes (k, m) = Some (kd, md) -> field_ty md = field_ty m.
    Proof.
      intros J E. apply takes_some in E as [J' E]. cbn [fst] in E. apply data_In in J as [J Ec]. pose proof (Hb _ _ (ir_leaf kd md J')) as Hc. rewrite E in Hc.
      eapply (flat_fun C [k]); [exact K|exact Hc|apply leaf_data; auto].
    Qed.

    Lemma fbind_wired : wired (multi_arch C) (multi_ir D) 1 [fbind].
    Proof.
      split; [reflexivity|]. split.
      - intros i b E. destruct i as [|[|i]]; [|discriminate|discriminate]. cbn in E. injection E as <-. unfold wires, fbind. cbn [multi_arch MultiModel.a_in].
        unfold non_const_dict, typed_fields. fold data. apply F2_map. apply F2_intro; auto. intros i [k m] e E1 E2. assert (e = (k, m)) by congruence. subst e. cbn [fst snd].
        split; auto. unfold src_of. destruct (takes (k, m)) as [[kd md]|] eqn:Et; auto. cbn [fst]. left. exists (kname kd). split; auto.
        cbn [multi_ir MultiModel.i_in]. apply non_const_In. exists kd, md. pose proof (takes_some _ _ Et) as [J _]. split; auto. split; [eapply d_const; eauto|]. split; auto.
        symmetry. eapply takes_ty; eauto. eapply nth_error_In; eauto.
      - intros g t J. cbn [multi_ir MultiModel.i_in] in J. apply non_const_In in J as (kd & md & J & _ & -> & ->).
        destruct (takes_of kd md J) as (k & m & Jd & Eb & Et & _). exists 0%nat, (kname k). cbn [List.concat]. rewrite app_nil_r. unfold fbind. split.
        + apply in_map_iff. exists (k, m). split; auto. unfold src_of. rewrite Et. reflexivity.
        + intros j' f' J'. apply in_map_iff in J' as ([k' m'] & E & J'). cbn [fst] in E. injection E as E <- <-. split; auto. f_equal.
          unfold src_of in E. destruct (takes (k', m')) as [[kd' md']|] eqn:Et'; [|discriminate]. cbn [fst] in E. injection E as E.
          pose proof (takes_some _ _ Et') as [J2 E2]. destruct (named_inj _ _ _ _ _ (d_ni _ HD) J2 J E) as [-> ->]. cbn [fst] in E2. rewrite Eb in E2. now injection E2.
    Qed.

    Lemma forward : exists w ob, program lty_width (multi_arch C) (multi_ir D) 1 [(fbind, [w])] /\ selects (multi_arch C) (multi_ir D) ob /\ NoDup ob /\
      forall box, MultiProps.computes lty_width (multi_arch C) (multi_ir D) 1 [(fbind, [w])] ob box.
    Proof.
      destruct (form_parts C K B [] A EA fi f l0 Ef) as (ws0 & Ew0 & Fw0 & _). destruct c0_in as [J0 Ec0]. apply In_nth_error in J0 as [i0 Ei0].
      destruct (F2_nth _ _ _ Fw0 i0 _ Ei0) as (w & Eww & Rw). pose (oname := fun e : key * mty => match obnd [fst e] with [k] => kname k | _ => "" end).
      assert (forall kd md, In (kd, md) (c_out D) -> exists k m, In (k, m) (c_out C) /\ obnd [kd] = [k] /\ field_ty md = field_ty m /\ oname (kd, md) = kname k) as On.
      { intros kd md J. destruct (out_leaf_inv C _ _ K (w_out _ _ _ HC) (Ho _ _ (out_leaf D kd md KD (d_out _ HD) J))) as (k & m & J' & E1 & E2).
        exists k, m. split; auto. split; auto. split; auto. unfold oname. cbn [fst]. now rewrite E1. }
      exists w, (map oname (c_out D)). split; [split; [exact fbind_wired|]|split; [|split]].
      - intros b ws J. destruct J as [[= <- <-]|[]]. cbn [multi_arch MultiModel.a_const MultiModel.a_valid]. rewrite consts_eq. constructor; [|constructor]. cbn [fst snd]. split.
        + destruct (swidth_in C k0 m0 K (nth_error_In _ _ Ei0)) as [W S]. apply (word_word_of (k0, m0)); auto.
        + unfold const_valid. rewrite (named_find _ k0 m0 (w_ni _ _ _ HC) (nth_error_In _ _ Ei0)). unfold adt_fv, valid_word in Fv. rewrite forallb_forall in Fv.
          assert (In k0 (const_fields C)) as Jk by (unfold const_fields; rewrite (w_const _ _ _ HC); left; auto). specialize (Fv k0 Jk). unfold field_valid in Fv.
          unfold in_words, words_of in Ew0. apply mapM_F2 in Ew0. destruct (F2_nth _ _ _ Ew0 i0 k0) as (w' & Ew' & Gw); [rewrite nth_error_map, Ei0; reflexivity|].
          assert (w' = w) by congruence. subst w'. destruct (member_asm (c_ia C) k0) as [fa|]; [|discriminate]. cbn [bind] in Fv.
          destruct (aadt_get (c_ia C) (form_word C fi (own A fi) l0) k0) as [e|]; [|discriminate]. cbn [bind] in Fv, Gw. injection Gw as <-. exact Fv.
      - unfold selects. cbn [multi_arch multi_ir MultiModel.a_out MultiModel.i_out]. unfold typed_fields at 2. apply F2_map. apply F2_intro; auto.
        intros i [kd md] e E1 E2. assert (e = (kd, md)) by congruence. subst e. destruct (On kd md (nth_error_In _ _ E1)) as (k & m & J & _ & Et & ->). cbn [fst snd].
        rewrite Et. apply typed_In. eauto.
      - assert (NoDup (c_out D)) as Nd by (eapply NoDup_map_inv; exact (out_keys D KD)). clear - Nd On Hoi HC HD. pose (K' := d_ok _ HD).
        assert (forall e e', In e (c_out D) -> In e' (c_out D) -> oname e = oname e' -> e = e') as Inj.
        { intros [kd md] [kd' md'] J J' E. destruct (On kd md J) as (k & m & Jc & Eo & _ & E1). destruct (On kd' md' J') as (k' & m' & Jc' & Eo' & _ & E2).
          rewrite E1, E2 in E. destruct (named_inj _ _ _ _ _ (w_no _ _ _ HC) Jc Jc' E) as [-> _].
          assert ([kd] = [kd']) as [= ->] by (eapply Hoi; [apply (out_leaf D kd md K' (d_out _ HD) J)|apply (out_leaf D kd' md' K' (d_out _ HD) J')|congruence]).
          f_equal. eapply pair_fun; [exact (out_keys D K')|exact J|exact J']. }
        clear On Hoi. induction (c_out D) as [|e r IH]; [constructor|]. inversion Nd as [|? ? N1 N2]; subst. cbn [map]. constructor.
        + intros X. apply in_map_iff in X as (e' & E & J). apply N1. rewrite (Inj e e'); auto; [left; auto|right; auto].
        + apply IH; auto. intros e1 e2 J1 J2. apply Inj; right; auto.
      - intros box x u Hx Hu. cbn [run length Nat.sub nth]. set (X := arg (multi_arch C) 0 fbind [w] x u []).
        assert (X (kname k0) = w) as Xc by apply arg_const.
        assert (forall k m, In (k, m) data -> X (kname k) = match takes (k, m) with Some d => x (kname (fst d)) | None => u 0%nat (kname k) end) as Xd.
        { intros k m J. pose proof (arg_data src_of w x u (k, m) J) as E. cbn [fst] in E. unfold X, fbind. rewrite E. unfold src_of. destruct (takes (k, m)); reflexivity. }
        assert (forall k m, In (k, m) data -> word lty_width (field_ty m) (X (kname k))) as Xr.
        { intros k m J. rewrite (Xd k m J). destruct (takes (k, m)) as [[kd md]|] eqn:Et.
          - rewrite <- (takes_ty k m kd md J Et). cbn [fst]. apply Hx. cbn [multi_ir MultiModel.i_in]. apply non_const_In. exists kd, md. pose proof (takes_some _ _ Et) as [J' _].
            split; auto. split; auto. eapply d_const; eauto.
          - apply (Hu 0%nat); [lia|]. cbn [multi_arch MultiModel.a_in]. apply non_const_In. exists k, m. apply data_In in J as [J E]. auto. }
        pose (l := fun p => match find (fun e => path_eqb [fst e] p) data with Some e => X (kname (fst e)) | None => l0 p end).
        assert (forall k m, In (k, m) data -> l [k] = X (kname k)) as Ld.
        { intros k m J. unfold l. destruct (find _ data) as [[k' m']|] eqn:Ex.
          - apply find_some in Ex as [_ E]. cbn [fst] in *. apply path_eqb_eq in E. now injection E as ->.
          - exfalso. pose proof (find_none _ _ Ex (k, m) J) as E. cbn [fst] in E. now rewrite (proj2 (path_eqb_eq [k] [k]) eq_refl) in E. }
        assert (forall r, l (k0 :: r) = l0 (k0 :: r)) as Lc.
        { intros r. unfold l. destruct (find _ data) as [[k' m']|] eqn:Ex; auto. exfalso. apply find_some in Ex as [J E]. cbn [fst] in E. apply path_eqb_eq in E. injection E as -> _.
          now apply (data_not_const k0 m' J). }
        assert (typed lty_vals (in_flat C) l) as Ty.
        { intros p t J. destruct (leaf_inv p t J) as [(k & m & Jc & Ec & -> & -> & _)|(r & -> & _)].
          - assert (In (k, m) data) as Jd by (apply data_In; auto). rewrite (Ld k m Jd). apply (vals_word C k m _ K Jc (w_in _ _ _ HC k m Jc Ec)). eauto.
          - rewrite Lc. apply Tl. exact J. }
        destruct (form_parts C K B [] A EA fi f l Ef) as (ws & Ew & Fw & P).
        assert (forall i k m, nth_error (c_in C) i = Some (k, m) -> nth_error ws i = Some (X (kname k))) as Wx.
        { intros i k m Ei. destruct (const_field m) eqn:Ec.
          - destruct (c0_only k m (nth_error_In _ _ Ei) Ec) as [-> ->]. rewrite Xc. rewrite <- Eww. rewrite (in_key_fun C K i0 i k0 m0 m0 Ei0 Ei) in *.
            eapply (field_local C K B [] A EA fi f l l0 ws ws0 i k0 m0); eauto.
          - assert (In (k, m) data) as Jd by (apply data_In; split; auto; eapply nth_error_In; eauto). destruct (swidth_in C k m K (nth_error_In _ _ Ei)) as [W [n S]].
            destruct (P i k m n Ei (w_in _ _ _ HC k m (nth_error_In _ _ Ei) Ec) S) as [_ ->]. rewrite (Ld k m Jd). f_equal.
            apply (wrap_word C k m _ n K (nth_error_In _ _ Ei) S). auto. }
        cbn [multi_ir MultiModel.i_out MultiModel.i_sem multi_arch MultiModel.a_sem]. unfold typed_fields. apply F2_map. apply F2_intro; auto.
        intros i [kd md] e E1 E2. assert (e = (kd, md)) by congruence. subst e. cbn [fst snd]. pose proof (nth_error_In _ _ E1) as Jd.
        destruct (On kd md Jd) as (k & m & Jc & Eo & _ & ->). cbn [List.app nth]. rewrite <- (arch_call fi f l ws X k m Ef Ew Wx Jc), <- Eo.
        rewrite <- (Hs [kd] _ (out_leaf D kd md KD (d_out _ HD) Jd) l Ty).
        + apply (ir_call (fun q => l (bnd q)) x kd md); auto. intros kq mq Jq. destruct (takes_of kq mq Jq) as (k' & m' & Jk & Eb & Et & Ety). rewrite Eb, (Ld k' m' Jk), Ety.
          apply data_In in Jk as [Jk Eck]. split.
          * apply (vals_word C k' m' _ K Jk (w_in _ _ _ HC k' m' Jk Eck)). apply Xr. apply data_In; auto.
          * rewrite (Xd k' m'); [|apply data_In; auto]. rewrite Et. reflexivity.
        + intros p t' Jp _ Ec. destruct (leaf_inv p t' Jp) as [(? & ? & _ & _ & _ & _ & E)|(r & -> & _)]; [congruence|apply Lc].
    Qed.
  End Forward.

  (** ** From a program to a rule *)
  Section Backward.
    (** The unused bits of the words of the Const field do not matter. *)
    Hypothesis Bl : forall ws ws' vs, words encodes (c_in C) ws vs -> words encodes (c_in C) ws' vs -> c_call C ws = c_call C ws'.
    Variable h : list ty.
    Hypothesis Wh : Forall wf_ty (in_ty C :: h).
    Hypothesis Bh : built h (in_ty C) (c_ia C).
    Hypothesis SW : same_width (in_ty C :: h).
    Hypothesis NM : no_multi_range (strip m0).

    Variables (b : MultiModel.binding) (w : Z) (ob : list string) (box : string -> Z).
    Hypothesis PR : program lty_width (multi_arch C) (multi_ir D) 1 [(b, [w])].
    Hypothesis Sel : selects (multi_arch C) (multi_ir D) ob.
    Hypothesis Nob : NoDup ob.
    Hypothesis Cmp : MultiProps.computes lty_width (multi_arch C) (multi_ir D) 1 [(b, [w])] ob box.

    Lemma w_good : word_of (k0, m0) w /\ const_valid C (kname k0) w = true.
    Proof.
      destruct PR as [_ H]. specialize (H b [w] (or_introl eq_refl)). cbn [multi_arch MultiModel.a_const MultiModel.a_valid] in H. rewrite consts_eq in H.
      inversion H as [|? ? ? ? [H1 H2] _]; subst. cbn [fst snd] in *. split; auto. destruct (swidth_in C k0 m0 K (proj1 c0_in)) as [W S]. now apply (word_word_of (k0, m0)).
    Qed.
    (** The instruction of the word. *)
    Lemma w_value : exists v, has_ty (strip m0) v /\ encodes (strip m0) w v.
    Proof.
      destruct w_good as [(n & S & Rn) V]. destruct c0_in as [J0 _]. unfold const_valid in V. rewrite (named_find _ k0 m0 (w_ni _ _ _ HC) J0) in V.
      assert (wf_ty (in_ty C)) as W by (inversion Wh; auto). pose proof (built_rel h _ _ Wh Bh) as Rl.
      assert (In (k0, strip m0) (strip_fields (c_in C))) as Ik by (unfold strip_fields; apply in_map_iff; exists (k0, m0); auto).
      pose proof (wf_members_prod "Input" _ _ _ W Ik) as Wm.
      destruct (prod_member _ "Input" _ (c_ia C) k0 (strip m0) W Rl Ik) as (fa & lo & Em & Af & _). rewrite Em in V.
      assert (n = a_width fa) as -> by (apply (swidth_fun (strip m0)); auto; apply (asm_rel_width _ (strip m0) Wm fa Af)).
      destruct (isv_spec _ (reqs_good _ Wh) (exact_reqs _ SW) (strip m0) Wm NM fa w Af Rn V) as [v En]. exists v. split; auto. eapply enc_has_ty; eauto.
    Qed.

    (** Values of all fields. *)
    Definition vals_of (v : AsmModel.val) (l : path -> Z) : list AsmModel.val :=
      map (fun e => if const_field (snd e) then v else bits (strip (snd e)) (l [fst e])) (c_in C).
    Lemma vals_nth v l i k m : nth_error (c_in C) i = Some (k, m) -> nth_error (vals_of v l) i = Some (if const_field m then v else bits (strip m) (l [k])).
    Proof. intros E. unfold vals_of. rewrite nth_error_map, E. reflexivity. Qed.
    Lemma vals_words v l wc X : has_ty (strip m0) v -> encodes (strip m0) wc v -> X (kname k0) = wc ->
      (forall k m, In (k, m) data -> In (l [k]) (lty_vals (field_ty m)) /\ X (kname k) = l [k]) ->
      words encodes (c_in C) (call_args C X) (vals_of v l) /\ has_ty (in_ty C) (VProd (vals_of v l)).
    Proof.
      intros Hv En Xc Xd.
      assert (forall k m, In (k, m) data -> exists n, word_type (strip m) /\ swidth (strip m) n /\ 0 <= l [k] < 2 ^ n) as Dw.
      { intros k m J. destruct (Xd k m J) as [H1 _]. apply data_In in J as [J Ec]. pose proof (w_in _ _ _ HC k m J Ec) as Wm. destruct (swidth_in C k m K J) as [W [n S]].
        exists n. split; [now apply word_field_strip|]. split; auto. apply (vals_word C k m _ K J Wm) in H1. unfold word in H1. now rewrite (lty_width_spec m n W S) in H1. }
      split.
      - split; [unfold call_args; now rewrite map_length|]. split; [unfold vals_of; now rewrite map_length|]. intros i k m z u Ei Ez Eu.
        unfold call_args in Ez. rewrite nth_error_map, Ei in Ez. injection Ez as <-. cbn [fst]. rewrite (vals_nth v l i k m Ei) in Eu. injection Eu as <-.
        pose proof (nth_error_In _ _ Ei) as J. destruct (const_field m) eqn:Ec.
        + destruct (c0_only k m J Ec) as [-> ->]. now rewrite Xc.
        + assert (In (k, m) data) as Jd by (apply data_In; auto). destruct (Xd k m Jd) as [_ ->]. destruct (Dw k m Jd) as (n & T & S & R). apply (bits_enc _ _ n); auto.
      - constructor. apply F2_intro; [unfold vals_of; rewrite strip_length, map_length; auto|]. intros i [k t] u Ei Eu. apply strip_nth in Ei as (m & Ei & ->). cbn [snd].
        rewrite (vals_nth v l i k m Ei) in Eu. injection Eu as <-. pose proof (nth_error_In _ _ Ei) as J. destruct (const_field m) eqn:Ec.
        + destruct (c0_only k m J Ec) as [-> ->]. auto.
        + destruct (Dw k m ltac:(apply data_In; auto)) as (n & T & S & R). apply (bits_enc (fun _ => True) _ n); auto.
    Qed.

    (** A form and leaves for the instruction. *)
    Lemma w_form v : has_ty (strip m0) v -> exists fi f l0 ws0 wc, nth_error (a_forms A) fi = Some f /\ typed lty_vals (in_flat C) l0 /\
      in_words C (form_word C fi (own A fi) l0) = Ok ws0 /\ (forall i, nth_error (c_in C) i = Some (k0, m0) -> nth_error ws0 i = Some wc) /\
      canonical (strip m0) wc v /\ adt_fv C A fi l0 = true /\ (forall p, In p (fst f) -> exists t, In (p, t) (in_flat C)).
    Proof.
      intros Hv. destruct (k_in C K) as (R & GR & W & Rl).
      set (vs := vals_of v (fun _ => 0)).
      assert (has_ty (in_ty C) (VProd vs)) as Ht.
      { constructor. apply F2_intro; [unfold vs, vals_of; rewrite strip_length, map_length; auto|]. intros i [k t] u Ei Eu. apply strip_nth in Ei as (m & Ei & ->). cbn [snd].
        unfold vs in Eu. rewrite (vals_nth v _ i k m Ei) in Eu. injection Eu as <-. pose proof (nth_error_In _ _ Ei) as J. destruct (const_field m) eqn:Ec.
        + destruct (c0_only k m J Ec) as [-> ->]. auto.
        + pose proof (word_field_strip m (w_in _ _ _ HC k m J Ec)) as T. destruct (swidth_in C k m K J) as [Wm [n S]]. apply (bits_enc (fun _ => True) _ n); auto.
          pose proof (swidth_nonneg _ Wm n S). pose proof (Z.pow_pos_nonneg 2 n). lia. }
      destruct (C86_forms C [] A K EA) as [F1 _]. destruct (F1 _ Ht) as (fi & Fo & _). pose proof Fo as (f & Ef & Hq & Htag).
      destruct (agree_exists [] (in_ty C) W _ Ht) as (l1 & tg & H1 & H2).
      assert (forall p, {In p (fst f)} + {~ In p (fst f)}) as Dec.
      { intros p. apply in_dec. apply list_eq_dec. intros x y. destruct (key_eqb x y) eqn:E; [left; now apply key_eqb_eq|right; intros Q; apply key_eqb_eq in Q; congruence]. }
      set (l0 := fun p => if Dec p then l1 p else 0).
      assert (holds (in_ty C) (VProd vs) l0) as Hl.
      { intros r t' v' Sv L. unfold l0. destruct (Dec r) as [_|N]; [apply (H1 r t' v' Sv L)|]. exfalso. apply N, Hq. exists t', v'. auto. }
      assert (typed lty_vals (in_flat C) l0) as Ty.
      { intros p [ms t] J. unfold l0. destruct (Dec p) as [Y|_]; [|apply (zero_val C p); auto]. apply Hq in Y as (t' & v' & Sv & L).
        destruct (in_flat_spec C W (k_mi C K)) as [_ S]. apply S in J as [St Lt]. assert (t' = t) by (eapply sub_ty_fun; [eapply sub_val_ty; exact Sv|exact W|exact St]). subst t'.
        pose proof (H1 p t v' Sv L) as Cn. cbn [List.app] in Cn. destruct (asm_at_spec R _ _ _ _ St W Rl) as (a & _ & Aa & Wt). destruct (asm_rel_width R t Wt a Aa) as [Sa _].
        pose proof (enc_range _ _ Wt _ _ _ Cn Sa) as Rg. unfold lty_vals. cbn [snd]. apply BaseLemmas.pyrange_In. now rewrite <- (leaf_width R t a Aa L). }
      destruct (form_at R GR C W Rl B [] A EA fi f (own A fi) l0 Ef) as (fo & vm & z0 & g & Ew & Eg & Vg & Dg & Efw & _).
      assert (matches [] (in_ty C) (VProd vs) g) as M by (apply (form_matches C [] A fi f (VProd vs) (own A fi) l0 fo vm z0 g K EA Ht Ef Ew Eg); auto).
      destruct (call_words C (own A fi) l0 fo vm z0 g vs K B Ew (nth_error_In _ _ Eg) Ht M Hl) as (ws0 & Ews & Wd).
      { intros r gg c fs k w' Sv. pose proof (sub_val_has _ _ _ _ _ Sv W Ht) as H. inversion H as [| | | | |? ? ? ? u ? Iu Hu]; subst.
        apply in_split in Iu as (pre & post & Hfs). assert (rank_of fs k (rank_at pre k post)) as Rk by (exists pre, u, post; auto).
        assert (In (r, rank_at pre k post) (snd f)) as J by (apply Htag; exists gg, c, fs, k, w'; auto).
        rewrite (own_dict R GR C W Rl B [] A EA fi f r _ Ef J). exact Rk. }
      rewrite <- Efw in Ews. destruct Wd as (L1 & L2 & Wd). destruct c0_in as [J0 E0]. apply In_nth_error in J0 as [i0 Ei0].
      assert (exists wc, nth_error ws0 i0 = Some wc) as [wc Ewc].
      { destruct (nth_error ws0 i0) eqn:X; eauto. apply nth_error_None in X. assert (i0 < length (c_in C))%nat by (apply nth_error_Some; congruence). lia. }
      assert (canonical (strip m0) wc v) as Cw.
      { apply (Wd i0 k0 m0 wc v Ei0 Ewc). unfold vs. rewrite (vals_nth v _ i0 k0 m0 Ei0), E0. reflexivity. }
      exists fi, f, l0, ws0, wc. split; auto. split; auto. split; auto. split; [|split; [auto|split]].
      - intros i Ei. now rewrite (in_key_fun C K i i0 k0 m0 m0 Ei Ei0).
      - destruct (C86_valid C [] A h K Wh Bh SW) with (fi := fi) (l := l0) as (ws' & Ew' & V); auto.
        { intros k m J Ec. destruct (c0_only k m J Ec) as [-> ->]. exact NM. }
        rewrite Ews in Ew'. injection Ew' as <-. apply V. intros i k m z Ei Ec Ez. destruct (c0_only k m (nth_error_In _ _ Ei) Ec) as [-> ->].
        rewrite (in_key_fun C K i i0 k0 m0 m0 Ei Ei0) in Ez. assert (z = wc) by congruence. subst z. exists v. split; auto. apply canonical_encodes. exact Cw.
      - intros p J. apply Hq in J as (t' & v' & Sv & L). destruct (in_flat_spec C W (k_mi C K)) as [[_ S] _].
        assert (In p (map fst (in_flat C))) as X by (apply S; exists p, t'; split; [reflexivity|]; split; auto; eapply sub_val_ty; exact Sv).
        apply in_map_iff in X as ([p' t2] & <- & J). eauto.
    Qed.

    (** The sources of the inputs. *)
    Lemma b_shape : exists s : key * mty -> option mpath, b = map (fun e => (s e, Ain 0 (kname (fst e)))) data /\
      forall e, In e data -> match s e with None => True | Some p => exists kd md, p = IRin (kname kd) /\ In (kd, md) (c_in D) /\ field_ty md = field_ty (snd e) end.
    Proof.
      destruct PR as [(_ & Hw & _) _]. specialize (Hw 0%nat b eq_refl). unfold wires in Hw. cbn [multi_arch MultiModel.a_in] in Hw. unfold non_const_dict, typed_fields in Hw. fold data in Hw.
      exists (fun e => match find (fun x => mpath_eqb (snd x) (Ain 0 (kname (fst e)))) b with Some x => fst x | None => None end).
      assert (forall dl bl, Forall2 (fun (e : option mpath * mpath) (f : string * lty) => snd e = Ain 0 (fst f) /\ match fst e with None => True | Some p => source (multi_arch C) (multi_ir D) 0 p (snd f) end)
        bl (map (fun f => (kname (fst f), field_ty (snd f))) dl) -> NoDup (map (fun f : key * mty => kname (fst f)) dl) ->
        bl = map (fun e => (match find (fun x => mpath_eqb (snd x) (Ain 0 (kname (fst e)))) bl with Some x => fst x | None => None end, Ain 0 (kname (fst e)))) dl /\
        forall e, In e dl -> match (match find (fun x => mpath_eqb (snd x) (Ain 0 (kname (fst e)))) bl with Some x => fst x | None => None end) with None => True
          | Some p => exists kd md, p = IRin (kname kd) /\ In (kd, md) (c_in D) /\ field_ty md = field_ty (snd e) end) as H; [|apply H; [exact Hw|exact data_names]].
      clear. intros dl. induction dl as [|e dl IH]; intros bl F N; cbn [map] in *; inversion F as [|[s p] ? bl' ? [E1 E2] F']; subst; [split; [reflexivity|intros e []]|].
      inversion N as [|? ? N1 N2]; subst. destruct (IH bl' F' N2) as [I1 I2]. cbn [fst snd] in E1, E2. subst p. cbn [find snd mpath_eqb Nat.eqb andb].
      rewrite String.eqb_refl. cbn [fst].
      assert (forall e', In e' dl -> String.eqb (kname (fst e)) (kname (fst e')) = false) as Ne.
      { intros e' J. apply String.eqb_neq. intros E. apply N1. rewrite E. apply (in_map (fun f : key * mty => kname (fst f))) in J. exact J. }
      split.
      - f_equal. rewrite I1 at 1. apply map_ext_in. intros e' J. cbn [andb]. now rewrite (Ne e' J).
      - intros e' [<-|J].
        + rewrite String.eqb_refl. cbn [fst]. destruct s as [p|]; auto. destruct E2 as [(g & -> & J)|(j & g & L & _)]; [|lia].
          cbn [multi_ir MultiModel.i_in] in J. apply non_const_In in J as (kd & md & J & _ & -> & Et). eauto.
        + rewrite (Ne e' J). apply I2. exact J.
    Qed.

    Lemma backward : direct path_eqb lty_const lty_vals A I (adt_fs C A) (adt_fv C A).
    Proof.
      destruct w_value as (v & Hv & Env). destruct (w_form v Hv) as (fi & f & l0 & ws0 & wc & Ef & Tl & Ew0 & Ewc & Cw & Fv & Lf).
      destruct b_shape as (s & Eb & Hs). destruct PR as [(_ & _ & Us) _]. unfold used_once in Us. cbn [map fst List.concat] in Us. rewrite app_nil_r in Us.
      (* the field taking an input *)
      assert (forall kd md, In (kd, md) (c_in D) -> exists k m, In (k, m) data /\ s (k, m) = Some (IRin (kname kd)) /\ field_ty md = field_ty m /\
        forall k' m', In (k', m') data -> s (k', m') = Some (IRin (kname kd)) -> k' = k) as Tk.
      { intros kd md J. destruct (Us (kname kd) (field_ty md)) as (j & g & H1 & H2).
        { cbn [multi_ir MultiModel.i_in]. apply non_const_In. exists kd, md. split; auto. split; auto. eapply d_const; eauto. }
        rewrite Eb in H1, H2. apply in_map_iff in H1 as ([k m] & E & Jd). cbn [fst] in E. injection E as E <- <-. exists k, m. split; auto. split; auto. split.
        - pose proof (Hs _ Jd) as X. rewrite E in X. destruct X as (kd' & md' & [= En] & J' & Et). destruct (named_inj _ _ _ _ _ (d_ni _ HD) J J' En) as [-> ->]. exact Et.
        - intros k' m' J' E'. destruct (H2 0%nat (kname k')) as [_ X].
          { apply in_map_iff. exists (k', m'). cbn [fst]. rewrite E'. auto. }
          apply data_In in J' as [J' _]. apply data_In in Jd as [Jd _]. apply (named_inj _ _ _ _ _ (w_ni _ _ _ HC) J' Jd X). }
      pose (bnd := fun q : path => match q with
        | [kd] => match find (fun e => match s e with Some p => mpath_eqb p (IRin (kname kd)) | None => false end) data with Some e => [fst e] | None => [] end
        | _ => [] end).
      assert (forall kd md, In (kd, md) (c_in D) -> exists k m, In (k, m) data /\ bnd [kd] = [k] /\ s (k, m) = Some (IRin (kname kd)) /\ field_ty md = field_ty m) as Bd.
      { intros kd md J. destruct (Tk kd md J) as (k & m & Jd & Es & Et & U). exists k, m. split; auto. split; auto. unfold bnd.
        destruct (find _ data) as [[k' m']|] eqn:Ex.
        - apply find_some in Ex as [J' E']. destruct (s (k', m')) as [p|] eqn:Es'; [|discriminate]. destruct p; try discriminate. cbn in E'. apply String.eqb_eq in E'. subst f0.
          cbn [fst]. now rewrite (U k' m' J' Es').
        - exfalso. pose proof (find_none _ _ Ex (k, m) Jd) as X. cbn beta in X. rewrite Es in X. cbn in X. now rewrite String.eqb_refl in X. }
      unfold selects in Sel. cbn [multi_arch multi_ir MultiModel.a_out MultiModel.i_out] in Sel.
      assert (forall i kd md, nth_error (c_out D) i = Some (kd, md) -> exists k m, In (k, m) (c_out C) /\ nth_error ob i = Some (kname k) /\ field_ty md = field_ty m) as Os.
      { intros i kd md Ei. destruct (F2_nth' _ _ _ Sel i (kname kd, field_ty md)) as (g & Eg & J).
        { unfold typed_fields. rewrite nth_error_map, Ei. reflexivity. }
        cbn [snd] in J. apply typed_In in J as (k & m & J & -> & Et). exists k, m. auto. }
      pose (obnd := fun q : path => match q with
        | [kd] => match find (fun e => key_eqb (fst (fst e)) kd) (combine (c_out D) ob) with
                  | Some e => match field_named (c_out C) (snd e) with Some x => [fst x] | None => [] end
                  | None => [] end
        | _ => [] end).
      assert (forall i kd md, nth_error (c_out D) i = Some (kd, md) -> exists k m, In (k, m) (c_out C) /\ nth_error ob i = Some (kname k) /\ field_ty md = field_ty m /\ obnd [kd] = [k]) as Od.
      { intros i kd md Ei. destruct (Os i kd md Ei) as (k & m & J & Eo & Et). exists k, m. split; auto. split; auto. split; auto. unfold obnd.
        assert (nth_error (combine (c_out D) ob) i = Some ((kd, md), kname k)) as En by (apply nth_combine; auto).
        destruct (find _ (combine (c_out D) ob)) as [[[kd' md'] g]|] eqn:Ex.
        - apply find_some in Ex as [J' E']. cbn [fst] in E'. apply key_eqb_eq in E'. subst kd'. apply In_nth_error in J' as [i' Ei']. apply nth_combine in Ei' as [E1 E2].
          rewrite (out_key_fun D KD i' i kd md' md E1 Ei) in E2. rewrite Eo in E2. injection E2 as <-. cbn [snd]. now rewrite (named_find _ k m (w_no _ _ _ HC) J).
        - exfalso. pose proof (find_none _ _ Ex _ (nth_error_In _ _ En)) as X. cbn [fst] in X. pose proof (proj2 (key_eqb_eq kd kd) eq_refl). congruence. }
      destruct (arch_inv C [] A EA) as (_ & _ & _ & _ & _ & _ & Ein & Eout & Ecs & _). destruct (adt_instr_inv D I ED) as (EinD & EoutD & _).
      exists fi, f, l0, bnd, obnd. rewrite Ein, Eout, Ecs, EinD, EoutD. split; auto. split; auto. split; auto. split; [intros p zs []|].
      assert (forall k m, In (k, m) data -> In [k] (fst f)) as Inf.
      { intros k m J. apply data_In in J as [J Ec]. apply In_nth_error in J as [i Ei]. destruct (swidth_in C k m K (nth_error_In _ _ Ei)) as [_ [n S]].
        destruct (form_parts C K B [] A EA fi f l0 Ef) as (ws & _ & _ & P). apply (P i k m n Ei); auto. apply (w_in _ _ _ HC k m); auto. eapply nth_error_In; eauto. }
      split; [|split; [|split; [|split]]].
      - intros q t J. apply ir_leaf_inv in J as (kd & md & J & -> & ->). destruct (Bd kd md J) as (k & m & Jd & -> & _ & Et). rewrite Et. split; [|split; [eauto|intros []]].
        apply data_In in Jd as [Jd Ec]. apply leaf_data; auto.
      - intros q t q' t' J J' E. apply ir_leaf_inv in J as (kd & md & J & -> & ->). apply ir_leaf_inv in J' as (kd' & md' & J' & -> & ->).
        destruct (Bd kd md J) as (k & m & Jd & E1 & Es1 & _). destruct (Bd kd' md' J') as (k' & m' & Jd' & E2 & Es2 & _). rewrite E1, E2 in E. injection E as <-.
        apply data_In in Jd as [Jd _]. apply data_In in Jd' as [Jd' _]. rewrite (key_fun k m' m Jd' Jd) in Es2. rewrite Es1 in Es2. injection Es2 as En.
        destruct (named_inj _ _ _ _ _ (d_ni _ HD) J J' En) as [-> _]. reflexivity.
      - intros q t J. apply (out_leaf_inv D _ _ KD (d_out _ HD)) in J as (kd & md & J & -> & ->). apply In_nth_error in J as [i Ei].
        destruct (Od i kd md Ei) as (k & m & Jc & _ & Et & ->). rewrite Et. apply out_leaf; auto. apply (w_out _ _ _ HC).
      - intros q t q' t' J J' E. apply (out_leaf_inv D _ _ KD (d_out _ HD)) in J as (kd & md & J & -> & ->). apply (out_leaf_inv D _ _ KD (d_out _ HD)) in J' as (kd' & md' & J' & -> & ->).
        apply In_nth_error in J as [i Ei]. apply In_nth_error in J' as [i' Ei'].
        destruct (Od i kd md Ei) as (k & m & Jc & En & _ & E1). destruct (Od i' kd' md' Ei') as (k' & m' & Jc' & En' & _ & E2). rewrite E1, E2 in E. injection E as <-.
        assert (i = i') by (apply (proj1 (NoDup_nth_error ob) Nob); [apply nth_error_Some; congruence|congruence]). subst i'. rewrite Ei in Ei'. injection Ei' as -> _. reflexivity.
      - intros q t J l Ty Con _. apply (out_leaf_inv D _ _ KD (d_out _ HD)) in J as (kd & md & J & -> & ->). apply In_nth_error in J as [i Ei].
        destruct (Od i kd md Ei) as (k & m & Jc & Eo & _ & ->).
        destruct (form_parts C K B [] A EA fi f l Ef) as (ws & Ew & Fw & P).
        assert (forall k m, In (k, m) data -> In (l [k]) (lty_vals (field_ty m))) as Ld by (intros k1 m1 J1; apply Ty; apply data_In in J1 as [J1 E1]; apply leaf_data; auto).
        assert (forall k m, In (k, m) data -> word lty_width (field_ty m) (l [k])) as Lw.
        { intros k1 m1 J1. pose proof (Ld k1 m1 J1) as X. apply data_In in J1 as [J1 E1]. now apply (vals_word C k1 m1 _ K J1 (w_in _ _ _ HC k1 m1 J1 E1)) in X. }
        (* the words of the call *)
        assert (forall i, nth_error (c_in C) i = Some (k0, m0) -> nth_error ws i = Some wc) as Wc.
        { intros j Ej. rewrite <- (Ewc j Ej). eapply (field_local C K B [] A EA fi f l l0 ws ws0 j k0 m0); eauto. intros r Jr.
          destruct (Lf _ Jr) as [t Jt]. destruct (leaf_inv _ _ Jt) as [(k1 & m1 & J1 & E1 & [= <- _] & _)|(r' & _ & Ec)].
          - destruct c0_in as [J2 E2]. rewrite (key_fun k0 m1 m0 J1 J2) in E1. congruence.
          - apply (Con _ t); auto. intros q' t'' J' E'. apply ir_leaf_inv in J' as (kd' & md' & J' & -> & ->). destruct (Bd kd' md' J') as (k1 & m1 & Jd1 & E1 & _).
            rewrite E1 in E'. injection E' as -> _. now apply (data_not_const k0 m1 Jd1). }
        pose (x := fun g => match field_named (c_in D) g with Some e => l (bnd [fst e]) | None => 0 end).
        pose (u := fun (_ : nat) g => match field_named (c_in C) g with Some e => l [fst e] | None => 0 end).
        assert (forall kd md, In (kd, md) (c_in D) -> x (kname kd) = l (bnd [kd])) as Xx by (intros kd1 md1 J1; unfold x; now rewrite (named_find _ kd1 md1 (d_ni _ HD) J1)).
        assert (forall k m, In (k, m) data -> u 0%nat (kname k) = l [k]) as Uu.
        { intros k1 m1 J1. unfold u. apply data_In in J1 as [J1 _]. now rewrite (named_find _ k1 m1 (w_ni _ _ _ HC) J1). }
        assert (forall f0 t, In (f0, t) (MultiModel.i_in (multi_ir D)) -> word lty_width t (x f0)) as Hx.
        { intros f0 t J0. cbn [multi_ir MultiModel.i_in] in J0. apply non_const_In in J0 as (kd1 & md1 & J1 & _ & -> & ->). rewrite (Xx kd1 md1 J1).
          destruct (Bd kd1 md1 J1) as (k1 & m1 & Jd1 & -> & _ & ->). auto. }
        assert (forall j f0 t, (j < 1)%nat -> In (f0, t) (MultiModel.a_in (multi_arch C)) -> word lty_width t (u j f0)) as Hu.
        { intros j f0 t Lj J0. assert (j = 0%nat) by lia. subst j. cbn [multi_arch MultiModel.a_in] in J0. apply non_const_In in J0 as (k1 & m1 & J1 & E1 & -> & ->).
          assert (In (k1, m1) data) as Jd1 by (apply data_In; auto). rewrite (Uu k1 m1 Jd1). auto. }
        pose proof (Cmp x u Hx Hu) as Cx. cbn [run length Nat.sub nth] in Cx. set (X := arg (multi_arch C) 0 b [w] x u []) in *.
        cbn [List.app nth multi_ir MultiModel.i_out MultiModel.i_sem multi_arch MultiModel.a_sem] in Cx.
        assert (X (kname k0) = w) as Xc by apply arg_const.
        assert (forall k m, In (k, m) data -> X (kname k) = l [k]) as Xd.
        { intros k1 m1 J1. pose proof (arg_data s w x u (k1, m1) J1) as E. cbn [fst] in E. unfold X. rewrite Eb, E. pose proof (Hs _ J1) as Y.
          destruct (s (k1, m1)) as [p|] eqn:Es; [|apply (Uu k1 m1 J1)]. destruct Y as (kd1 & md1 & -> & J2 & _). rewrite (Xx kd1 md1 J2).
          destruct (Bd kd1 md1 J2) as (k2 & m2 & Jd2 & -> & Es2 & _). destruct (Tk kd1 md1 J2) as (k3 & m3 & _ & _ & _ & Un).
          rewrite (Un k1 m1 J1 Es), (Un k2 m2 Jd2 Es2). reflexivity. }
        pose (X' := fun g => if String.eqb g (kname k0) then wc else X g).
        assert (X' (kname k0) = wc) as Xc' by (unfold X'; now rewrite String.eqb_refl).
        assert (forall k m, In (k, m) data -> X' (kname k) = l [k]) as Xd'.
        { intros k1 m1 J1. unfold X'. destruct (String.eqb_spec (kname k1) (kname k0)) as [E|_]; [destruct (data_not_const k1 m1 J1 E)|]. eauto. }
        assert (forall i k m, nth_error (c_in C) i = Some (k, m) -> nth_error ws i = Some (X' (kname k))) as Wx.
        { intros j k1 m1 Ej. destruct (const_field m1) eqn:Ec.
          - destruct (c0_only k1 m1 (nth_error_In _ _ Ej) Ec) as [-> ->]. rewrite Xc'. auto.
          - assert (In (k1, m1) data) as Jd by (apply data_In; split; auto; eapply nth_error_In; eauto). destruct (swidth_in C k1 m1 K (nth_error_In _ _ Ej)) as [W [n S]].
            destruct (P j k1 m1 n Ej (w_in _ _ _ HC k1 m1 (nth_error_In _ _ Ej) Ec) S) as [_ ->]. rewrite (Xd' k1 m1 Jd). f_equal.
            apply (wrap_word C k1 m1 _ n K (nth_error_In _ _ Ej) S). auto. }
        rewrite (arch_call fi f l ws X' k m Ef Ew Wx Jc).
        destruct (vals_words v l w X Hv Env Xc) as [V1 _]; [intros k1 m1 J1; split; eauto|].
        destruct (vals_words v l wc X' Hv (canonical_encodes _ _ _ Cw) Xc') as [V2 _]; [intros k1 m1 J1; split; eauto|].
        assert (run_peak C X' (kname k) = run_peak C X (kname k)) as -> by (unfold run_peak; now rewrite (Bl _ _ _ V1 V2)).
        unfold typed_fields in Cx. destruct (F2_nth _ _ _ Cx i (kname k) Eo) as ([g t] & Eg & Ex). rewrite nth_error_map, Ei in Eg. injection Eg as <- _. cbn [fst snd] in Ex.
        rewrite Ex. apply (ir_call (fun q => l (bnd q)) x kd md); [|eapply nth_error_In; eauto]. intros kq mq Jq. rewrite (Xx kq mq Jq). split; auto.
        destruct (Bd kq mq Jq) as (k1 & m1 & Jd1 & -> & _ & ->). auto.
    Qed.
  End Backward.
End Agree.
