(** C58: rounding modes of the floating point library. *)
From Coq Require Import String Ascii ZArith List Bool Lia.
From Verif Require Import Base BaseLemmas FloatModel.
Import ListNotations.
Open Scope string_scope.
Open Scope list_scope.
Open Scope Z_scope.

(** What the modes mean, by the comments in the source: RDN is RTN (towards
    negative), RUP is RTP (towards positive), RMM is RNA (nearest, ties away). *)
Definition rounds (m : rm) (h : hw) : Prop :=
  match m, h with
  | RNE, hRNE | RTZ, hRTZ | RDN, hRTN | RUP, hRTP | RMM, hRNA => True
  | _, _ => False
  end.

(** The result of an entry of the library in mode [h] on [args], if the number of
    arguments and the kind of result are right. *)
Definition in_mode (impl : hw -> string -> list Z -> fpval) (h : hw) (e : entry) (args : list Z)
    (r : fpval) : Prop :=
  match e with
  | EUnary op => length args = 1%nat /\ r = impl h op args /\ exists z, r = FVec z
  | EBinary op => length args = 2%nat /\ r = impl h op args /\ exists z, r = FVec z
  | EBit op => length args = 2%nat /\ r = impl h op args
  | EFma => length args = 3%nat /\ r = impl h "fp_fma" args /\ exists z, r = FVec z
  end.

(** ** Conversions *)

Theorem C58_conversions :
  (forall m, of_hw (to_hw m) = m /\ rounds m (to_hw m)) /\
  (forall h, to_hw (of_hw h) = h) /\
  (forall m, to_rm (from_rm m) = m /\ 0 <= from_rm m < 8) /\
  (forall v, 0 <= v < 8 -> (from_rm (to_rm v) = v <-> v <= 4)) /\
  (forall v, 4 < v < 8 -> to_rm v = RMM).
Proof.
  split; [intros []; split; exact I || reflexivity|].
  split; [intros []; reflexivity|].
  split; [intros []; split; [reflexivity|cbn; lia|reflexivity|cbn; lia|reflexivity|cbn; lia|reflexivity|cbn; lia|reflexivity|cbn; lia]|].
  split.
  - intros v H. assert (v = 0 \/ v = 1 \/ v = 2 \/ v = 3 \/ v = 4 \/ v = 5 \/ v = 6 \/ v = 7) as C by lia.
    repeat destruct C as [->|C]; try subst v; cbn; lia.
  - intros v H. assert (v = 5 \/ v = 6 \/ v = 7) as [->|[->| ->]] by lia; reflexivity.
Qed.

(** ** Execution *)

(** An operation of the library asked for in mode [m] is executed in mode [m]. *)
Definition C58_full : Prop := forall alias_rdn alias_rup impl e m args r h,
  rounds m h -> in_mode impl h e args r ->
  call alias_rdn alias_rup impl e m args = Ok r.

Lemma call_mode ar au impl e m args r h :
  dispatch ar au m = Ok h -> in_mode impl h e args r ->
  call ar au impl e m args = Ok r.
Proof.
  intros D H. destruct e as [op|op|op|]; cbn [in_mode] in H.
  - destruct H as (L & E & z & R). destruct args as [|x [|y l]]; try discriminate L.
    cbn [call]. rewrite D. cbn [bind]. rewrite <- E, R. reflexivity.
  - destruct H as (L & E & z & R). destruct args as [|x [|y [|u l]]]; try discriminate L.
    cbn [call]. rewrite D. cbn [bind]. rewrite <- E, R. reflexivity.
  - destruct H as (L & E). destruct args as [|x [|y [|u l]]]; try discriminate L.
    cbn [call]. rewrite D. cbn [bind]. rewrite <- E. reflexivity.
  - destruct H as (L & E & z & R). destruct args as [|x [|y [|u [|v l]]]]; try discriminate L.
    cbn [call]. rewrite D. cbn [bind]. rewrite <- E, R. reflexivity.
Qed.

(** Missing for C58: RMM, and RDN and RUP unless hwtypes has these names for RTN
    and RTP. *)
Theorem C58_execution_partial : forall alias_rdn alias_rup impl e m args r h,
  rounds m h -> in_mode impl h e args r ->
  m = RNE \/ m = RTZ \/ (m = RDN /\ alias_rdn = Some hRTN) \/ (m = RUP /\ alias_rup = Some hRTP) ->
  call alias_rdn alias_rup impl e m args = Ok r.
Proof.
  intros ar au impl e m args r h R H M. apply (call_mode ar au impl e m args r h); [|exact H].
  destruct M as [->|[->|[[-> ->]|[-> ->]]]]; destruct h; cbn in R; try contradiction; reflexivity.
Qed.
Example C58_execution_case :
  let impl := fun h op args => match h, op, args with
              | hRTZ, "fp_add"%string, [x; y] => FVec (x + y) | _, _, _ => FBit true end in
  in_mode impl hRTZ (EBinary "fp_add") [3; 4] (FVec 7) /\ rounds RTZ hRTZ /\
  call None None impl (EBinary "fp_add") RTZ [3; 4] = Ok (FVec 7).
Proof. cbn. split; [|split; [exact I|reflexivity]]. split; [reflexivity|]. split; [reflexivity|eauto]. Qed.

(** RUP and RMM are executed in the same mode, whatever that is: one of them is
    wrong. Without the names RDN and RUP in hwtypes both, and RDN, raise. *)
Theorem C58_rmm_refuted : forall alias_rdn alias_rup,
  (forall impl e args, call alias_rdn alias_rup impl e RMM args = call alias_rdn alias_rup impl e RUP args) /\
  (exists impl e args r m h, (m = RUP \/ m = RMM) /\ rounds m h /\ in_mode impl h e args r /\
     call alias_rdn alias_rup impl e m args <> Ok r).
Proof.
  intros ar au. split; [reflexivity|].
  exists (fun h _ _ => match h with hRTP => FVec 1 | hRNA => FVec 2 | _ => FVec 3 end), (EUnary "fp_sqrt"), [5].
  destruct au as [h|].
  - destruct h.
    all: first [exists (FVec 2), RMM, hRNA; (split; [right; reflexivity|]); (split; [exact I|]);
                 (split; [repeat split; eauto|discriminate])
               | exists (FVec 1), RUP, hRTP; (split; [left; reflexivity|]); (split; [exact I|]);
                 (split; [repeat split; eauto|discriminate])].
  - exists (FVec 1), RUP, hRTP. split; [left; reflexivity|]. split; [exact I|].
    split; [repeat split; eauto|discriminate].
Qed.
Theorem C58_names_refuted : forall impl e m args,
  m = RDN \/ m = RUP \/ m = RMM -> forall r, call None None impl e m args <> Ok r.
Proof.
  intros impl e m args [->|[->| ->]] r;
    destruct e, args as [|x [|y [|z [|u l]]]]; cbn; discriminate.
Qed.

(** With RUP an alias of RTP, RMM always rounds upwards. *)
Theorem C58_rmm_upwards : forall alias_rdn impl e args r,
  in_mode impl hRTP e args r -> call alias_rdn (Some hRTP) impl e RMM args = Ok r.
Proof. intros ar impl e args r H. apply (call_mode ar (Some hRTP) impl e RMM args r hRTP); auto. Qed.

Theorem C58_full_refuted : ~ C58_full.
Proof.
  intros F. destruct (C58_rmm_refuted None None) as [_ (impl & e & args & r & m & h & _ & R & M & N)].
  apply N. exact (F None None impl e m args r h R M).
Qed.

(** ** Fixed modes *)

(** The operations of [const_rm(m)] run in mode [m], for every mode. *)
Theorem C58_const_rm_partial : forall impl e m args r h,
  e <> EFma -> rounds m h -> in_mode impl h e args r ->
  call_const impl e m args = Ok r.
Proof.
  intros impl e m args r h N R H.
  assert (h = to_hw m) by (destruct m, h; cbn in R; try contradiction; reflexivity). subst h.
  destruct e as [op|op|op|]; cbn [in_mode] in H; [| | |congruence].
  - destruct H as (L & E & z & V). destruct args as [|x [|y l]]; try discriminate L.
    cbn [call_const]. rewrite <- E, V. reflexivity.
  - destruct H as (L & E & z & V). destruct args as [|x [|y [|u l]]]; try discriminate L.
    cbn [call_const]. rewrite <- E, V. reflexivity.
  - destruct H as (L & E). destruct args as [|x [|y [|u l]]]; try discriminate L.
    cbn [call_const]. rewrite <- E. reflexivity.
Qed.
Example C58_const_rm_case :
  let impl := fun h op args => match h, op, args with
              | hRNA, "fp_mul"%string, [x; y] => FVec (x * y) | _, _, _ => FBit true end in
  in_mode impl hRNA (EBinary "fp_mul") [3; 4] (FVec 12) /\ rounds RMM hRNA.
Proof. cbn. split; [|exact I]. split; [reflexivity|]. split; [reflexivity|eauto]. Qed.

(** Missing there: the fused multiply-add of a fixed mode, which always raises. *)
Theorem C58_const_fma_refuted : forall impl m args, call_const impl EFma m args = Err NameError.
Proof. intros impl m [|x [|y [|z l]]]; reflexivity. Qed.

(** Where both exist and are right, they agree. *)
Theorem C58_agree : forall alias_rdn alias_rup impl e m args,
  e <> EFma -> m = RNE \/ m = RTZ ->
  call alias_rdn alias_rup impl e m args = call_const impl e m args.
Proof.
  intros ar au impl e m args N [->| ->]; destruct e as [op|op|op|]; try congruence;
    destruct args as [|x [|y [|z l]]]; reflexivity.
Qed.

(** A unary method that returns a Bit (is it zero, negative, …) can be called from
    neither library: its result is reinterpreted as a word. *)
Theorem C58_predicates_refuted : forall alias_rdn alias_rup impl op x m,
  (forall h, exists b, impl h op [x] = FBit b) ->
  call_const impl (EUnary op) m [x] = Err AttributeError /\
  call alias_rdn alias_rup impl (EUnary op) m [x] = Err AttributeError.
Proof.
  intros ar au impl op x m H. split.
  - cbn. destruct (H (to_hw m)) as [b ->]. reflexivity.
  - cbn [call]. destruct (dispatch ar au m) as [h|e] eqn:D.
    + cbn [bind]. destruct (H h) as [b ->]. reflexivity.
    + destruct m, ar, au; cbn in D; inversion D; reflexivity.
Qed.

(** ** Contents of the library *)

(** Every method with one parameter, every comparison and every method with two
    parameters is there under its own name, everything in the library comes from
    one of them, and the fused multiply-add is there; the names being different. *)
Definition wanted (k : string) (n : nat) (e : entry) : Prop :=
  is_fp k = true /\
  (n = 1%nat /\ e = EUnary k \/
   n <> 1%nat /\ In k comparisons /\ e = EBit k \/
   n = 2%nat /\ ~ In k comparisons /\ e = EBinary k).

Lemma in_comparisons k : existsb (String.eqb k) comparisons = true <-> In k comparisons.
Proof.
  rewrite existsb_exists. split.
  - intros (x & I & E). apply String.eqb_eq in E. subst. exact I.
  - intros I. exists k. split; [exact I|apply String.eqb_refl].
Qed.

Lemma entry_wanted k n e : is_fp k = true -> (entry_of k n = Some e <-> wanted k n e).
Proof.
  intros F. unfold entry_of, wanted. pose proof (in_comparisons k) as C.
  destruct (Nat.eqb_spec n 1) as [->|N1].
  - split; [intros H; inversion H; auto|].
    intros (_ & [[_ ->]|[(X & _)|(X & _)]]); [reflexivity|congruence|discriminate].
  - destruct (existsb (String.eqb k) comparisons).
    + split.
      * intros H; inversion H. split; [exact F|]. right; left. split; [exact N1|]. split; [apply C; reflexivity|reflexivity].
      * intros (_ & [[X _]|[(_ & _ & ->)|(_ & X & _)]]); [congruence|reflexivity|].
        exfalso. apply X, C. reflexivity.
    + assert (NC : ~ In k comparisons) by (intros I; apply C in I; discriminate).
      destruct (Nat.eqb_spec n 2) as [->|N2].
      * split; [intros H; inversion H; split; [exact F|right; right; auto]|].
        intros (_ & [[X _]|[(_ & X & _)|(_ & _ & ->)]]); [congruence|contradiction|reflexivity].
      * split; [discriminate|]. intros (_ & [[X _]|[(_ & X & _)|(X & _)]]); contradiction.
Qed.

Definition names (abs : list (string * nat)) : list string :=
  map fst (filter (fun p => is_fp (fst p)) abs).
Definition fmt (s : string) : string := capitalize (substring 3 (String.length s - 3) s) ++ "_fc".

Lemma format_fmt k : is_fp k = true -> format_name k = Ok (fmt k).
Proof. intros H. unfold format_name. rewrite H. reflexivity. Qed.

Lemma gen_spec abs : forall d,
  NoDup (map fmt (names abs)) ->
  exists d', gen_closures abs d = Ok d' /\
  (forall f e, dget String.eqb d' f = Some e <->
     (exists k n, In (k, n) abs /\ wanted k n e /\ f = fmt k) \/
     (dget String.eqb d f = Some e /\
      forall k n e', In (k, n) abs -> wanted k n e' -> f <> fmt k)).
Proof.
  induction abs as [|[k n] abs IH]; intros d ND.
  - exists d. split; [reflexivity|]. intros f e. split.
    + intros H. right. split; [exact H|]. intros ? ? ? [].
    + intros [(k & n & [] & _)|[H _]]. exact H.
  - cbn [gen_closures]. unfold names in ND. cbn [filter fst] in ND.
    destruct (is_fp k) eqn:F.
    + cbn [map] in ND. inversion ND as [|? ? N1 N2]; subst.
      assert (NW : forall k' n' e', In (k', n') abs -> wanted k' n' e' -> fmt k' <> fmt k).
      { intros k' n' e' I W Ef. apply N1. rewrite <- Ef. apply in_map. unfold names.
        apply (in_map fst _ (k', n')). apply filter_In. split; [exact I|apply W]. }
      destruct (entry_of k n) as [e0|] eqn:E0.
      * rewrite (format_fmt k F). cbn [bind].
        destruct (IH (upd d (fmt k) e0) N2) as (d' & D & S). exists d'. split; [exact D|].
        assert (W0 : wanted k n e0) by (apply entry_wanted; auto).
        intros f e. rewrite S. unfold upd. rewrite (dget_dset String.eqb String.eqb_eq).
        split.
        -- intros [(k' & n' & I & W & Ef)|[G H]].
           ++ left. exists k', n'. split; [right; exact I|auto].
           ++ destruct (String.eqb_spec f (fmt k)) as [->|Nf].
              ** inversion G; subst e. left. exists k, n. split; [left; reflexivity|auto].
              ** right. split; [exact G|]. intros k' n' e' [I|I] W; [|exact (H k' n' e' I W)].
                 inversion I; subst k' n'. exact Nf.
        -- intros [(k' & n' & [I|I] & W & Ef)|[G H]].
           ++ inversion I; subst k' n'. right. subst f. rewrite String.eqb_refl. split.
              ** apply entry_wanted in W; [|exact F]. congruence.
              ** intros k' n' e' I' W' E'. exact (NW k' n' e' I' W' (eq_sym E')).
           ++ left. exists k', n'. auto.
           ++ right. pose proof (H k n e0 (or_introl eq_refl) W0) as Nf.
              apply String.eqb_neq in Nf. rewrite Nf. split; [exact G|].
              intros k' n' e' I W. exact (H k' n' e' (or_intror I) W).
      * destruct (IH d N2) as (d' & D & S). exists d'. split; [exact D|].
        assert (NW0 : forall e, ~ wanted k n e) by (intros e W; apply entry_wanted in W; congruence).
        intros f e. rewrite S. split.
        -- intros [(k' & n' & I & W & Ef)|[G H]].
           ++ left. exists k', n'. split; [right; exact I|auto].
           ++ right. split; [exact G|]. intros k' n' e' [I|I] W; [|exact (H k' n' e' I W)].
              inversion I; subst. exfalso. exact (NW0 _ W).
        -- intros [(k' & n' & [I|I] & W & Ef)|[G H]].
           ++ inversion I; subst. exfalso. exact (NW0 _ W).
           ++ left. exists k', n'. auto.
           ++ right. split; [exact G|]. intros k' n' e' I W. exact (H k' n' e' (or_intror I) W).
    + destruct (IH d ND) as (d' & D & S). exists d'. split; [exact D|].
      intros f e. rewrite S. split.
      * intros [(k' & n' & I & W & Ef)|[G H]].
        -- left. exists k', n'. split; [right; exact I|auto].
        -- right. split; [exact G|]. intros k' n' e' [I|I] W; [|exact (H k' n' e' I W)].
           inversion I; subst. destruct W as [W _]. congruence.
      * intros [(k' & n' & [I|I] & W & Ef)|[G H]].
        -- inversion I; subst. destruct W as [W _]. congruence.
        -- left. exists k', n'. auto.
        -- right. split; [exact G|]. intros k' n' e' I W. exact (H k' n' e' (or_intror I) W).
Qed.

Theorem C58_contents : forall abs,
  NoDup (map fmt (names abs)) ->
  exists d, library abs = Ok d /\
  dget String.eqb d "Fma_fc" = Some EFma /\
  (forall f e, f <> "Fma_fc" ->
     (dget String.eqb d f = Some e <-> exists k n, In (k, n) abs /\ wanted k n e /\ f = fmt k)).
Proof.
  intros abs ND. destruct (gen_spec abs [] ND) as (d & D & S).
  exists (upd d "Fma_fc" EFma). unfold library. rewrite D. split; [reflexivity|]. unfold upd. split.
  - rewrite (dget_dset String.eqb String.eqb_eq). reflexivity.
  - intros f e N. rewrite (dget_dset String.eqb String.eqb_eq).
    apply String.eqb_neq in N. rewrite N, S. split.
    + intros [H|[H _]]; [exact H|discriminate H].
    + auto.
Qed.
Example C58_contents_case :
  let abs := [("fp_abs", 1%nat); ("reinterpret_as_bv", 1%nat); ("fp_add", 2%nat); ("fp_is_NaN", 1%nat);
              ("fp_leq", 2%nat); ("fp_fma", 3%nat)] in
  NoDup (map fmt (names abs)) /\
  library abs = Ok [("Abs_fc", EUnary "fp_abs"); ("Add_fc", EBinary "fp_add");
                    ("Is_nan_fc", EUnary "fp_is_NaN"); ("Leq_fc", EBit "fp_leq"); ("Fma_fc", EFma)].
Proof.
  split; [|reflexivity]. cbn. repeat constructor; cbn; intuition discriminate.
Qed.

Print Assumptions C58_conversions.
Print Assumptions C58_execution_partial.
Print Assumptions C58_rmm_refuted.
Print Assumptions C58_names_refuted.
Print Assumptions C58_rmm_upwards.
Print Assumptions C58_full_refuted.
Print Assumptions C58_const_rm_partial.
Print Assumptions C58_const_fma_refuted.
Print Assumptions C58_agree.
Print Assumptions C58_predicates_refuted.
Print Assumptions C58_contents.
