(** Properties of the mapper with stateful objects: C47. *)
From Coq Require Import ZArith List Bool Lia.
From Verif Require Import Base RegModel StateModel.
Import ListNotations.
Open Scope list_scope.

Section Fresh.
  Context {St I O : Type}.

  (** What a new object gives for [i]. *)
  Definition fresh (p : peak St I O) (i : I) : O := fst (call p i (init p)).

  (** The formula for request [r] is about new objects. *)
  Definition about_new (p : peak St I O) (forms : list I) (r : request St I O) (u : used) : Prop :=
    u = if negb (rq_bindings r) then NoFormula
        else if rq_simple r then UWhole (fresh p (rq_arch_in r)) (fresh (rq_ir r) (rq_ir_in r))
        else UForms (map (fresh p) forms) [fresh (rq_ir r) (rq_form r)].

  (** The state after calls on [h]. *)
  Definition after (p : peak St I O) (h : list I) : St := fold_left (fun s i => snd (call p i s)) h (init p).

  (** No sequence of calls changes what the object gives. *)
  Definition steady (p : peak St I O) : Prop := forall h i, fst (call p i (after p h)) = fresh p i.

  Lemma after_snoc (p : peak St I O) h i : after p (h ++ [i]) = snd (call p i (after p h)).
  Proof. unfold after. now rewrite fold_left_app. Qed.

  Lemma form_calls_spec (p : peak St I O) forms : forall h,
    length (fst (form_calls p (after p h) forms)) = length forms /\
    snd (form_calls p (after p h) forms) = after p (h ++ forms) /\
    forall n i, nth_error forms n = Some i ->
      nth_error (fst (form_calls p (after p h) forms)) n = Some (fst (call p i (after p (h ++ firstn n forms)))).
  Proof.
    induction forms as [|i forms IH]; intros h; cbn [form_calls].
    - split; auto. split; [now rewrite app_nil_r|]. intros [|n]; discriminate.
    - destruct (call p i (after p h)) as [o s1] eqn:E. specialize (IH (h ++ [i])).
      assert (after p (h ++ [i]) = s1) as Es by (unfold after; rewrite fold_left_app; cbn [fold_left]; fold (after p h); now rewrite E).
      rewrite Es in IH. destruct (form_calls p s1 forms) as [os s2]. cbn [fst snd] in *. destruct IH as (L & S & H).
      split; [cbn; now rewrite L|]. split; [rewrite S, <- app_assoc; reflexivity|].
      intros [|n] i'; cbn [nth_error firstn].
      + intros [= <-]. rewrite app_nil_r, E. reflexivity.
      + intros En. rewrite (H n i' En), <- app_assoc. reflexivity.
  Qed.

  Lemma map_by_nth (g : I -> O) : forall (out : nat -> I -> O) forms os, length os = length forms ->
    (forall n i, nth_error forms n = Some i -> nth_error os n = Some (out n i)) ->
    (forall n i, nth_error forms n = Some i -> out n i = g i) -> os = map g forms.
  Proof.
    intros out forms. revert out. induction forms as [|i forms IH]; intros out [|o os] L X H; try discriminate; auto. cbn [map]. f_equal.
    - pose proof (X 0%nat i eq_refl) as X0. cbn in X0. rewrite <- (H 0%nat i eq_refl). congruence.
    - injection L as L. apply (IH (fun n => out (S n)) os L); intros n i' En.
      + apply (X (S n) i' En).
      + apply (H (S n) i' En).
  Qed.

  Lemma fresh_forms (p : peak St I O) forms : (forall n i, nth_error forms n = Some i -> fst (call p i (after p (firstn n forms))) = fresh p i) ->
    mp_outs (smt_mapper p forms) = map (fresh p) forms.
  Proof.
    intros H. unfold smt_mapper. destruct (form_calls_spec p forms []) as (L & S & X). change (after p []) with (init p) in *.
    destruct (form_calls p (init p) forms) as [os s]. cbn [fst snd mp_outs] in *. cbn [app] in X.
    exact (map_by_nth (fresh p) (fun n i => fst (call p i (after p (firstn n forms)))) forms os L X H).
  Qed.

  (** The state of the architecture's object during a session. *)
  Definition calls_of (r : request St I O) : list I := if rq_bindings r && rq_simple r then [rq_arch_in r] else [].

  Lemma processes_spec (p : peak St I O) outs : forall rs h,
    length (processes p (mkMapper outs (after p h)) rs) = length rs /\
    forall n r, nth_error rs n = Some r -> nth_error (processes p (mkMapper outs (after p h)) rs) n =
      Some (if negb (rq_bindings r) then NoFormula
            else if rq_simple r then
              UWhole (fst (call p (rq_arch_in r) (after p (h ++ flat_map calls_of (firstn n rs)))))
                     (fst (call (rq_ir r) (rq_ir_in r) (after (rq_ir r) [rq_form r])))
            else UForms outs [fresh (rq_ir r) (rq_form r)]).
  Proof.
    induction rs as [|r rs IH]; intros h; cbn [processes].
    - split; auto. intros [|n]; discriminate.
    - assert (exists u, process p (mkMapper outs (after p h)) r = (u, mkMapper outs (after p (h ++ calls_of r))) /\
        u = if negb (rq_bindings r) then NoFormula else if rq_simple r then
              UWhole (fst (call p (rq_arch_in r) (after p h))) (fst (call (rq_ir r) (rq_ir_in r) (after (rq_ir r) [rq_form r])))
            else UForms outs [fresh (rq_ir r) (rq_form r)]) as (u & Eu & ->).
      { unfold process, calls_of. destruct (rq_bindings r); cbn [negb andb]; [|rewrite app_nil_r; eauto].
        destruct (rq_simple r).
        - unfold run_peak, smt_mapper. cbn [form_calls mp_state mp_outs]. rewrite after_snoc.
          change (after (rq_ir r) [rq_form r]) with (snd (call (rq_ir r) (rq_form r) (init (rq_ir r)))). destruct (call p (rq_arch_in r) (after p h)) as [o s]. cbn [fst snd].
          destruct (call (rq_ir r) (rq_form r) (init (rq_ir r))) as [o1 s1] eqn:E1. cbn [mp_state mp_outs snd].
          destruct (call (rq_ir r) (rq_ir_in r) s1) as [o2 s2] eqn:E2. cbn [fst]. eexists. split; reflexivity.
        - rewrite app_nil_r. eexists. split; [reflexivity|]. unfold smt_mapper, fresh. cbn [form_calls].
          destruct (call (rq_ir r) (rq_form r) (init (rq_ir r))). reflexivity. }
      rewrite Eu. destruct (IH (h ++ calls_of r)) as [L H]. split; [cbn; now rewrite L|].
      intros [|n] r'; cbn [nth_error firstn flat_map].
      + intros [= <-]. rewrite app_nil_r. reflexivity.
      + intros En. rewrite (H n r' En), <- app_assoc. reflexivity.
  Qed.
End Fresh.

(** Every formula is about new objects. *)
Definition C47_full : Prop := forall (St I O : Type) (p : peak St I O) forms rs,
  Forall2 (about_new p forms) rs (session p forms rs).

(** What each formula is about, for all objects: form [n] sees the object after the
    earlier forms; the simple formula sees it after all forms and earlier formulas, and the
    IR object after its form. *)
Theorem C47_history : forall (St I O : Type) (p : peak St I O) forms rs,
  length (mp_outs (smt_mapper p forms)) = length forms /\
  (forall n i, nth_error forms n = Some i -> nth_error (mp_outs (smt_mapper p forms)) n = Some (fst (call p i (after p (firstn n forms))))) /\
  length (session p forms rs) = length rs /\
  (forall n r, nth_error rs n = Some r -> nth_error (session p forms rs) n =
     Some (if negb (rq_bindings r) then NoFormula
           else if rq_simple r then
             UWhole (fst (call p (rq_arch_in r) (after p (forms ++ flat_map calls_of (firstn n rs)))))
                    (fst (call (rq_ir r) (rq_ir_in r) (after (rq_ir r) [rq_form r])))
           else UForms (mp_outs (smt_mapper p forms)) [fresh (rq_ir r) (rq_form r)])).
Proof.
  intros St I O p forms rs. unfold session.
  assert (mp_outs (smt_mapper p forms) = fst (form_calls p (init p) forms) /\ mp_state (smt_mapper p forms) = after p forms) as [E1 E2].
  { unfold smt_mapper. destruct (form_calls_spec p forms []) as (_ & S & _). change (after p []) with (init p) in *. cbn [app] in S.
    destruct (form_calls p (init p) forms); auto. }
  destruct (form_calls_spec p forms []) as (L & _ & H). change (after p []) with (init p) in *. cbn [app] in H.
  rewrite E1. split; auto. split; auto.
  assert (smt_mapper p forms = mkMapper (mp_outs (smt_mapper p forms)) (after p forms)) as -> by (rewrite <- E2; destruct (smt_mapper p forms); auto).
  rewrite E1. apply processes_spec.
Qed.

(** Missing for C47: objects whose outputs change with their calls. For an architecture,
    all formulas with steady IR instructions are about new objects exactly when it is steady. *)
Theorem C47_steady_partial : forall (St I O : Type) (p : peak St I O), steady p ->
  forall forms rs, Forall (fun r => steady (rq_ir r)) rs -> Forall2 (about_new p forms) rs (session p forms rs).
Proof.
  intros St I O p Sp forms rs Sr. destruct (C47_history St I O p forms rs) as (_ & _ & L & H).
  assert (mp_outs (smt_mapper p forms) = map (fresh p) forms) as Eo by (apply fresh_forms; intros; apply Sp).
  assert (forall n r u, nth_error rs n = Some r -> nth_error (session p forms rs) n = Some u -> about_new p forms r u) as X.
  { intros n r u E1 E2. rewrite (H n r E1) in E2. injection E2 as <-. rewrite Forall_forall in Sr. specialize (Sr r (nth_error_In _ _ E1)).
    unfold about_new. destruct (negb (rq_bindings r)); auto. destruct (rq_simple r); [rewrite Sp, Sr; auto|]. now rewrite Eo. }
  revert L X. generalize (session p forms rs). clear. induction rs as [|r rs IH]; intros [|u us] L X; try discriminate; constructor.
  - apply (X 0%nat); auto.
  - apply IH; [injection L; auto|]. intros n. apply (X (S n)).
Qed.

Theorem C47_only_steady : forall (St I O : Type) (p : peak St I O),
  (forall forms rs, Forall (fun r => steady (rq_ir r)) rs -> Forall2 (about_new p forms) rs (session p forms rs)) -> steady p.
Proof.
  intros St I O p H h i. set (q := mkPeak (init p) (fun i (s : St) => (fresh p i, s))).
  assert (steady q) as Sq by (intros h' i'; reflexivity).
  set (r := mkReq q i true true i i). specialize (H h [r] (Forall_cons r (Sq : (fun r => steady (rq_ir r)) r) (Forall_nil _))).
  destruct (C47_history St I O p h [r]) as (_ & _ & _ & X). specialize (X 0%nat r eq_refl).
  cbn [firstn flat_map r rq_bindings rq_simple rq_arch_in rq_ir rq_ir_in negb] in X. rewrite app_nil_r in X.
  destruct (session p h [r]) as [|u us]; [discriminate|]. cbn [nth_error] in X. injection X as ->.
  inversion H as [|? ? ? ? A _]; subst. unfold about_new in A. cbn in A. congruence.
Qed.

(** An architecture holding one register, which returns what was stored before. *)
Definition reg_peak : peak (option Z) Z (option Z) :=
  mkPeak (Some 0%Z) (fun i s => let (o, s') := reg_call s (Some i) true in (match o with Ok v => v | Err _ => None end, s')).
Definition wire_peak : peak (option Z) Z (option Z) := mkPeak None (fun i s => (Some i, s)).

Theorem C47_full_refuted : ~ C47_full.
Proof.
  intros H. specialize (H _ _ _ reg_peak [3%Z; 4%Z] [mkReq wire_peak 0%Z true false 0%Z 0%Z]).
  inversion H as [|? ? ? ? A _]; subst. vm_compute in A. discriminate.
Qed.

Example C47_case : steady wire_peak /\ session wire_peak [3%Z; 4%Z] [mkReq wire_peak 0%Z true false 0%Z 0%Z; mkReq wire_peak 0%Z true true 7%Z 8%Z] =
  [UForms [Some 3%Z; Some 4%Z] [Some 0%Z]; UWhole (Some 7%Z) (Some 8%Z)].
Proof. split; [intros h i; reflexivity|reflexivity]. Qed.

(** With a register, the second form sees the value of the first, and the same request
    gives two different formulas. *)
Example C47_register : session reg_peak [3%Z; 4%Z]
    [mkReq wire_peak 0%Z true false 0%Z 0%Z; mkReq wire_peak 0%Z true true 7%Z 8%Z; mkReq wire_peak 0%Z true true 7%Z 8%Z] =
  [UForms [Some 0%Z; Some 3%Z] [Some 0%Z]; UWhole (Some 4%Z) (Some 8%Z); UWhole (Some 7%Z) (Some 8%Z)].
Proof. reflexivity. Qed.

Print Assumptions C47_history.
Print Assumptions C47_steady_partial.
Print Assumptions C47_only_steady.
Print Assumptions C47_full_refuted.
