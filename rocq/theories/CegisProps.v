(** C35-C37: the counterexample-guided loop of the mapper. *)
From Coq Require Import ZArith List Bool Lia.
From Verif Require Import Base BindModel BindProps CegisModel.
Import ListNotations.
Open Scope list_scope.
Open Scope Z_scope.

Section Spec.
  Context {V : Type} (veqb : V -> V -> bool).
  (** The values of a variable's sort. *)
  Variable dom : V -> list Z.

  Definition sorted (r : valuation V) : Prop := forall v, In (r v) (dom v).

  (** The meaning of a formula depends on its free variables only. *)
  Definition wf (f : form V) : Prop :=
    forall r s, (forall v, In v (fv f) -> r v = s v) -> sem f r = sem f s.

  (** [r] solves exists-forall: phi holds however the variables in [y] are
      changed. *)
  Definition solves (y : list V) (phi : form V) (r : valuation V) : Prop :=
    forall s, sorted s -> (forall v, ~ In v y -> s v = r v) -> sem phi s = true.

  (** Solver contract: answers are well-sorted models, and None means that
      there is none. The choice of model is free and may depend on the history. *)
  Definition solver_ok (solve_or : nat -> list (form V) -> option (valuation V)) : Prop :=
    forall k as_, Forall wf as_ ->
                  match solve_or k as_ with
                  | Some r => sorted r /\ forall f, In f as_ -> sem f r = true
                  | None => forall r, sorted r -> exists f, In f as_ /\ sem f r = false
                  end.
  Definition model_ok (model_or : nat -> form V -> option (valuation V)) : Prop :=
    forall k f, wf f ->
                match model_or k f with
                | Some r => sorted r /\ sem f r = true
                | None => forall r, sorted r -> sem f r = false
                end.
  Definition forall_ok (forall_or : list V -> form V -> option (valuation V)) : Prop :=
    forall y f, wf f ->
                match forall_or y f with
                | Some r => sorted r /\ solves y f r
                | None => forall r, sorted r -> ~ solves y f r
                end.

  (** Number of assignments to the variables of [y]. *)
  Fixpoint assignments (y : list V) : nat :=
    match y with [] => 1%nat | v :: r => (length (dom v) * assignments r)%nat end.
End Spec.

Section Proofs.
  Context {V : Type} (veqb : V -> V -> bool) (dom : V -> list Z).
  Hypothesis veqb_spec : forall a b, veqb a b = true <-> a = b.
  Notation vmem := (vmem veqb).
  Notation override := (override veqb).
  Notation subst := (subst veqb).

  Lemma vmem_In v l : vmem v l = true <-> In v l.
  Proof.
    unfold CegisModel.vmem. rewrite existsb_exists. split.
    - intros (u & I & E). apply veqb_spec in E. now subst.
    - intros I. exists v. split; auto. now apply veqb_spec.
  Qed.
  Lemma vmem_out v l : vmem v l = false <-> ~ In v l.
  Proof. rewrite <- vmem_In. destruct (vmem v l); intuition discriminate. Qed.

  Lemma override_sorted vs s r : sorted dom s -> sorted dom r -> sorted dom (override vs s r).
  Proof. intros Hs Hr v. unfold CegisModel.override. destruct (vmem v vs); auto. Qed.

  Definition xvars (y : list V) (phi : form V) := filter (fun v => negb (vmem v y)) (fv phi).

  (** Substituting the existential part leaves a formula about [y] only. *)
  Lemma sub_x_y y phi r s : wf phi -> sem phi (override (xvars y phi) r s) = sem phi (override y s r).
  Proof.
    intros W. apply W. intros v I. unfold CegisModel.override.
    destruct (vmem v y) eqn:E.
    - assert (vmem v (xvars y phi) = false) as ->; auto.
      apply vmem_out. intros J. apply filter_In in J as [_ J]. rewrite E in J. discriminate.
    - assert (vmem v (xvars y phi) = true) as ->; auto.
      apply vmem_In, filter_In. split; auto. now rewrite E.
  Qed.

  Lemma solves_override y phi r : wf phi ->
    (forall s, sorted dom s -> sem phi (override y s r) = true) -> solves dom y phi r.
  Proof.
    intros W H s Hs E. rewrite <- (H s Hs). apply W. intros v _. unfold CegisModel.override.
    destruct (vmem v y) eqn:M; auto. apply E. now apply vmem_out.
  Qed.

  Lemma override_solves y phi r s : sorted dom r -> solves dom y phi r -> sorted dom s -> sem phi (override y s r) = true.
  Proof.
    intros Hr H Hs. apply H; [now apply override_sorted|]. intros v N. unfold CegisModel.override.
    apply vmem_out in N. now rewrite N.
  Qed.

  Variables (solve_or : nat -> list (form V) -> option (valuation V)) (model_or : nat -> form V -> option (valuation V)).
  Hypothesis Hs : solver_ok dom solve_or.
  Hypothesis Hm : model_ok dom model_or.
  Variables (y : list V) (phi : form V).
  Hypothesis W : wf phi.
  Notation loop := (loop veqb solve_or model_or).

  Lemma subst_wf vs s : wf (subst phi vs s).
  Proof.
    intros r r' E. cbn [sem CegisModel.subst]. apply W. intros v I. unfold CegisModel.override.
    destruct (vmem v vs) eqn:M; auto. apply E. cbn [fv CegisModel.subst]. apply filter_In. split; auto. now rewrite M.
  Qed.
  Lemma fnot_wf (f : form V) : wf f -> wf (fnot f).
  Proof. intros H r s E. cbn [sem fnot]. f_equal. now apply H. Qed.

  (** Every assertion is phi with some sorted assignment of y. *)
  Definition asserted (as_ : list (form V)) : Prop :=
    forall f, In f as_ -> f = ftrue \/ exists s, sorted dom s /\ f = subst phi y s.

  Lemma asserted_wf as_ : asserted as_ -> Forall wf as_.
  Proof.
    intros A. apply Forall_forall. intros f I. destruct (A f I) as [->|(s & _ & ->)]; [now intros r s _|apply subst_wf].
  Qed.
  Lemma asserted_init init : Forall (sorted dom) init -> asserted (ftrue :: map (subst phi y) init).
  Proof.
    intros F f [<-|I]; [now left|]. apply in_map_iff in I as (s & <- & I). right. exists s. split; auto.
    rewrite Forall_forall in F. auto.
  Qed.

  Lemma asserted_snoc as_ s : asserted as_ -> sorted dom s -> asserted (as_ ++ [subst phi y s]).
  Proof. intros A Ss f I. apply in_app_iff in I as [I|[<-|[]]]; auto. right. eauto. Qed.

  Lemma loop_sound fuel : forall m n as_ r c, asserted as_ -> loop fuel y (xvars y phi) phi m n as_ = (ODone r, c) ->
    sorted dom r /\ solves dom y phi r.
  Proof.
    induction fuel as [|fuel IH]; intros m n as_ r c A H; cbn [CegisModel.loop] in H; [discriminate|].
    destruct (match m with None => true | Some k => Z.of_nat n <=? k end); [|discriminate].
    pose proof (Hs n as_ (asserted_wf as_ A)) as S1. destruct (solve_or n as_) as [r0|]; [|discriminate].
    cbv zeta in H.
    pose proof (Hm n _ (fnot_wf _ (subst_wf (xvars y phi) r0))) as M1.
    destruct (model_or n _) as [sg|]; [eapply IH; [|eauto]; apply asserted_snoc; tauto|].
    injection H as -> _. split; [tauto|]. apply solves_override; auto. intros s Ss.
    specialize (M1 s Ss). cbn [sem fnot CegisModel.subst] in M1. apply negb_false_iff in M1. now rewrite sub_x_y in M1.
  Qed.

  Lemma loop_none fuel : forall m n as_ c, asserted as_ -> loop fuel y (xvars y phi) phi m n as_ = (ONone, c) ->
    forall r, sorted dom r -> ~ solves dom y phi r.
  Proof.
    induction fuel as [|fuel IH]; intros m n as_ c A H; cbn [CegisModel.loop] in H; [discriminate|].
    destruct (match m with None => true | Some k => Z.of_nat n <=? k end); [|discriminate].
    pose proof (Hs n as_ (asserted_wf as_ A)) as S1. destruct (solve_or n as_) as [r0|].
    - cbv zeta in H. pose proof (Hm n _ (fnot_wf _ (subst_wf (xvars y phi) r0))) as M1.
      destruct (model_or n _) as [sg|]; [|discriminate].
      eapply IH; [|eauto]. apply asserted_snoc; tauto.
    - intros r Sr So. destruct (S1 r Sr) as (f & I & E). destruct (A f I) as [->|(s & Ss & ->)]; [discriminate|].
      cbn [sem CegisModel.subst] in E. rewrite (override_solves y phi r s Sr So Ss) in E. discriminate.
  Qed.

  (** *** Termination: every counterexample is a new assignment of y. *)
  Definition key (s : valuation V) : list Z := map s y.

  Lemma key_override s s' r : key s = key s' -> sem phi (override y s r) = sem phi (override y s' r).
  Proof.
    intros E. apply W. intros v _. unfold CegisModel.override. destruct (vmem v y) eqn:M; auto.
    apply vmem_In in M. unfold key in E. clear - E M. induction y as [|u y' IH]; [easy|].
    cbn [map] in E. injection E as E1 E2. destruct M as [->|M]; auto.
  Qed.

  Lemma key_In s : sorted dom s -> In (key s) (iprod (map dom y)).
  Proof.
    intros S. apply iprod_In. unfold key. clear - S. induction y as [|u y' IH]; cbn [map]; constructor; auto.
  Qed.

  Lemma iprod_length (l : list V) : length (iprod (map dom l)) = assignments dom l.
  Proof.
    induction l as [|v l IH]; auto. cbn [map iprod assignments]. rewrite <- IH.
    induction (dom v) as [|x d IHd]; auto. cbn [flat_map length]. rewrite app_length, map_length, IHd. reflexivity.
  Qed.

  Definition seen (as_ : list (form V)) (ks : list (list Z)) : Prop :=
    NoDup ks /\ (forall k, In k ks -> In k (iprod (map dom y))) /\
    (forall k, In k ks -> exists s, sorted dom s /\ key s = k /\ In (subst phi y s) as_).

  Lemma loop_ends fuel : forall n as_ ks, asserted as_ -> seen as_ ks ->
    (assignments dom y < length ks + fuel)%nat ->
    exists o c, loop fuel y (xvars y phi) phi None n as_ = (o, c) /\ o <> OFuel /\ o <> OLoop /\
                (n < c)%nat /\ (c + length ks <= n + S (assignments dom y))%nat.
  Proof.
    induction fuel as [|fuel IH]; intros n as_ ks A (N & K & B0) L.
    - exfalso. assert (length ks <= length (iprod (map dom y)))%nat by (apply NoDup_incl_length; auto).
      rewrite iprod_length in H. lia.
    - assert (B : (length ks <= assignments dom y)%nat).
      { rewrite <- iprod_length. apply NoDup_incl_length; auto. }
      cbn [CegisModel.loop]. pose proof (Hs n as_ (asserted_wf as_ A)) as S1. destruct (solve_or n as_) as [r0|].
      2:{ exists ONone, (S n). repeat split; try discriminate; lia. }
      cbv zeta. pose proof (Hm n _ (fnot_wf _ (subst_wf (xvars y phi) r0))) as M1.
      destruct (model_or n _) as [sg|].
      2:{ exists (ODone r0), (S n). repeat split; try discriminate; lia. }
      destruct M1 as [Ssg M1]. cbn [sem fnot CegisModel.subst] in M1. apply negb_true_iff in M1.
      rewrite sub_x_y in M1 by auto. destruct S1 as [Sr S1].
      destruct (IH (S n) (as_ ++ [subst phi y sg]) (key sg :: ks)) as (o & c & E & O1 & O2 & C1 & C2).
      + now apply asserted_snoc.
      + split; [|split].
        * constructor; auto. intros I. destruct (B0 _ I) as (s & Ss & Ek & Ia). apply S1 in Ia.
          cbn [sem CegisModel.subst] in Ia. rewrite (key_override s sg r0 Ek) in Ia. congruence.
        * intros k [<-|I]; auto. now apply key_In.
        * intros k [<-|I].
          -- exists sg. split; auto. split; auto. apply in_app_iff. right. now left.
          -- destruct (B0 k I) as (s & X & Y & Z). exists s. split; auto. split; auto. apply in_app_iff. now left.
      + cbn [length]. lia.
      + exists o, c. rewrite E. cbn [length] in C2. repeat split; auto; lia.
  Qed.

  Lemma loop_bounded fuel : forall m n as_, 0 <= m -> Z.of_nat n <= m + 1 -> (Z.to_nat (m + 2) <= n + fuel)%nat ->
    exists o c, loop fuel y (xvars y phi) phi (Some m) n as_ = (o, c) /\ o <> OFuel /\
                Z.of_nat c <= m + 1 /\ (o = OLoop -> Z.of_nat c = m + 1) /\ (n <= c)%nat.
  Proof.
    induction fuel as [|fuel IH]; intros m n as_ Hm0 Hn L; [exfalso; lia|].
    cbn [CegisModel.loop]. destruct (Z.leb_spec (Z.of_nat n) m) as [Le|Gt].
    - destruct (solve_or n as_) as [r0|].
      2:{ exists ONone, (S n). repeat split; try discriminate; lia. }
      cbv zeta. destruct (model_or n _) as [sg|].
      2:{ exists (ODone r0), (S n). repeat split; try discriminate; lia. }
      destruct (IH m (S n) (as_ ++ [subst phi y sg])) as (o & c & E & O1 & C1 & C2 & C3); try lia.
      exists o, c. rewrite E. repeat split; auto; lia.
    - exists OLoop, n. repeat split; try discriminate; lia.
  Qed.

  (** A bounded and an unbounded run agree while the bound is not reached, so
      a bound that is not reached changes nothing. *)
  Lemma loop_bound_irrelevant fuel : forall m n as_ o c, loop fuel y (xvars y phi) phi (Some m) n as_ = (o, c) ->
    o <> OLoop -> loop fuel y (xvars y phi) phi None n as_ = (o, c).
  Proof.
    induction fuel as [|fuel IH]; intros m n as_ o c H O; cbn [CegisModel.loop] in *; auto.
    destruct (Z.of_nat n <=? m); [|congruence].
    destruct (solve_or n as_) as [r0|]; auto. cbv zeta in *. destruct (model_or n _) as [sg|]; auto. eapply IH; eauto.
  Qed.
End Proofs.

(** ** C35 *)
Theorem C35_cegis_sound :
  forall (V : Type) (veqb : V -> V -> bool) (dom : V -> list Z),
    (forall a b, veqb a b = true <-> a = b) ->
  forall solve_or model_or, solver_ok dom solve_or -> model_ok dom model_or ->
  forall (y : list V) (phi : form V), wf phi ->
  forall fuel maxloops init r c, Forall (sorted dom) init ->
    external_loop_solve veqb solve_or model_or fuel y phi maxloops init = (ODone r, c) ->
    sorted dom r /\ solves dom y phi r.
Proof.
  intros V veqb dom Hv so mo Hs Hm y phi W fuel m init r c F H.
  eapply loop_sound; [..|exact H]; eauto. now apply asserted_init.
Qed.

(** The other strategy, which asserts the quantified formula. *)
Theorem C35_direct_sound :
  forall (V : Type) (dom : V -> list Z) forall_or, forall_ok dom forall_or ->
  forall (y : list V) (phi : form V) r, wf phi -> direct_solve forall_or y phi = ODone r -> sorted dom r /\ solves dom y phi r.
Proof.
  intros V dom fo H y phi r W E. unfold direct_solve in E. specialize (H y phi W).
  destruct (fo y phi); [|discriminate]. now injection E as <-.
Qed.

(** ** C36. The initial vectors must be well-sorted assignments, which those of
    [_gen_initial] are (C45). *)
Theorem C36_cegis_none :
  forall (V : Type) (veqb : V -> V -> bool) (dom : V -> list Z),
    (forall a b, veqb a b = true <-> a = b) ->
  forall solve_or model_or, solver_ok dom solve_or -> model_ok dom model_or ->
  forall (y : list V) (phi : form V), wf phi ->
  forall fuel maxloops init c, Forall (sorted dom) init ->
    external_loop_solve veqb solve_or model_or fuel y phi maxloops init = (ONone, c) ->
    forall r, sorted dom r -> ~ solves dom y phi r.
Proof.
  intros V veqb dom Hv so mo Hs Hm y phi W fuel m init c F H. eapply loop_none; [..|exact H]; eauto. now apply asserted_init.
Qed.

Theorem C36_direct_none :
  forall (V : Type) (dom : V -> list Z) forall_or, forall_ok dom forall_or ->
  forall (y : list V) (phi : form V), wf phi -> direct_solve forall_or y phi = ONone ->
    forall r, sorted dom r -> ~ solves dom y phi r.
Proof.
  intros V dom fo H y phi W E. unfold direct_solve in E. specialize (H y phi W). destruct (fo y phi); [discriminate|auto].
Qed.

(** ** C37. The second component is the number of iterations, each of which
    calls [solver.solve()] once. With [maxloops=None] the loop ends within
    [assignments dom y + 1] iterations, with an answer. *)
Theorem C37_terminates :
  forall (V : Type) (veqb : V -> V -> bool) (dom : V -> list Z),
    (forall a b, veqb a b = true <-> a = b) ->
  forall solve_or model_or, solver_ok dom solve_or -> model_ok dom model_or ->
  forall (y : list V) (phi : form V), wf phi ->
  forall init fuel, Forall (sorted dom) init -> (S (assignments dom y) <= fuel)%nat ->
    exists o c, external_loop_solve veqb solve_or model_or fuel y phi None init = (o, c) /\
      (c <= S (assignments dom y))%nat /\ (o = ONone \/ exists r, o = ODone r).
Proof.
  intros V veqb dom Hv so mo Hs Hm y phi W init fuel F L.
  destruct (loop_ends veqb dom Hv so mo Hs Hm y phi W fuel 0 (ftrue :: map (subst veqb phi y) init) []) as (o & c & E & O1 & O2 & C1 & C2).
  - now apply asserted_init.
  - split; [constructor|]. split; easy.
  - cbn [length]. lia.
  - exists o, c. split; [exact E|]. cbn [length] in C2. split; [lia|]. destruct o; eauto; congruence.
Qed.

Theorem C37_maxloops :
  forall (V : Type) (veqb : V -> V -> bool) solve_or model_or (y : list V) (phi : form V) init m fuel,
    0 <= m -> (Z.to_nat (m + 2) <= fuel)%nat ->
    exists o c, external_loop_solve veqb solve_or model_or fuel y phi (Some m) init = (o, c) /\
      Z.of_nat c <= m + 1 /\ (o = OLoop -> Z.of_nat c = m + 1) /\ o <> OFuel.
Proof.
  intros V veqb so mo y phi init m fuel M L.
  destruct (loop_bounded veqb so mo y phi fuel m 0 (ftrue :: map (subst veqb phi y) init) M) as (o & c & E & O & C1 & C2 & _); try lia.
  exists o, c. auto.
Qed.

(** A bound of at least the number of universal assignments never raises
    LoopException. *)
Theorem C37_enough :
  forall (V : Type) (veqb : V -> V -> bool) (dom : V -> list Z),
    (forall a b, veqb a b = true <-> a = b) ->
  forall solve_or model_or, solver_ok dom solve_or -> model_ok dom model_or ->
  forall (y : list V) (phi : form V), wf phi ->
  forall init m fuel o c, Forall (sorted dom) init -> Z.of_nat (assignments dom y) <= m ->
    external_loop_solve veqb solve_or model_or fuel y phi (Some m) init = (o, c) -> o <> OLoop.
Proof.
  intros V veqb dom Hv so mo Hs Hm y phi W init m fuel o c F L E ->.
  set (as_ := ftrue :: map (subst veqb phi y) init) in *.
  assert (Inv : forall fuel n as_ ks c, asserted veqb dom y phi as_ -> seen veqb dom y phi as_ ks -> (n <= length ks)%nat ->
            loop veqb so mo fuel y (xvars veqb y phi) phi (Some m) n as_ <> (OLoop, c)).
  { clear - Hv Hs Hm W L. induction fuel as [|fuel IH]; intros n as_ ks c A (N & K & B0) Ln; cbn [loop]; [discriminate|].
    assert (B : (length ks <= assignments dom y)%nat).
    { rewrite <- iprod_length. apply NoDup_incl_length; auto. }
    destruct (Z.leb_spec (Z.of_nat n) m) as [Le|Gt]; [|exfalso; lia].
    pose proof (Hs n as_ (asserted_wf veqb dom y phi W as_ A)) as S1. destruct (so n as_) as [r0|]; [|discriminate].
    cbv zeta. pose proof (Hm n _ (fnot_wf _ (subst_wf veqb phi W (xvars veqb y phi) r0))) as M1.
    destruct (mo n _) as [sg|]; [|discriminate].
    destruct M1 as [Ssg M1]. cbn [sem fnot subst] in M1. apply negb_true_iff in M1.
    rewrite sub_x_y in M1 by auto. destruct S1 as [Sr S1].
    apply (IH _ _ (key y sg :: ks)); [now apply asserted_snoc| |cbn [length]; lia].
    split; [|split].
    - constructor; auto. intros I. destruct (B0 _ I) as (s & Ss & Ek & Ia). apply S1 in Ia.
      cbn [sem subst] in Ia. rewrite (key_override veqb Hv y phi W s sg r0 Ek) in Ia. congruence.
    - intros k [<-|I]; auto. now apply key_In.
    - intros k [<-|I].
      + exists sg. split; auto. split; auto. apply in_app_iff. right. now left.
      + destruct (B0 k I) as (s & X & Y & Z). exists s. split; auto. split; auto. apply in_app_iff. now left. }
  eapply (Inv fuel 0%nat as_ []); [now apply asserted_init| |cbn; lia|exact E]. split; [constructor|]. split; easy.
Qed.

(** ** A solvable and an unsolvable instance, with brute-force solvers. *)
Module Case.
  (** Variables 0 (existential) and 1 (universal) of width 1; others are 0. *)
  Definition dom (v : Z) : list Z := if (v =? 0) || (v =? 1) then [0; 1] else [0].
  Definition vals : list (valuation Z) :=
    map (fun p v => if v =? 0 then fst p else if v =? 1 then snd p else 0) [(0, 0); (0, 1); (1, 0); (1, 1)].
  Definition solve_or (k : nat) (as_ : list (form Z)) : option (valuation Z) :=
    find (fun r => forallb (fun f => sem f r) as_) vals.
  Definition model_or (k : nat) (f : form Z) : option (valuation Z) := find (sem f) vals.
  (** x | ~y: solved by x = 1. *)
  Definition phi1 : form Z := {| fv := [0; 1]; sem := fun r => (r 0 =? 1) || (r 1 =? 0) |}.
  (** x = y: no solution. *)
  Definition phi2 : form Z := {| fv := [0; 1]; sem := fun r => r 0 =? r 1 |}.
  Definition value (o : outcome Z) : option (option Z) :=
    match o with ODone r => Some (Some (r 0)) | ONone => Some None | _ => None end.
End Case.
Example C35_case :
  let run := fun phi m => let (o, c) := external_loop_solve Z.eqb Case.solve_or Case.model_or 10 [1] phi m [] in (Case.value o, c) in
  run Case.phi1 None = (Some (Some 1), 2%nat) /\ run Case.phi2 None = (Some None, 3%nat) /\
  run Case.phi2 (Some 0) = (None, 1%nat) /\ assignments Case.dom [1] = 2%nat /\ wf Case.phi1 /\ wf Case.phi2.
Proof.
  repeat split; try (vm_compute; reflexivity).
  - intros r s E. cbn. rewrite (E 0), (E 1); cbn; auto.
  - intros r s E. cbn. rewrite (E 0), (E 1); cbn; auto.
Qed.

(** The brute-force solvers meet the contract on well-formed formulas over the
    two variables; a contract-abiding solver therefore exists. *)
Lemma Case_vals r : sorted Case.dom r -> exists s, In s Case.vals /\ forall v, s v = r v.
Proof.
  intros S. pose proof (S 0) as S0. pose proof (S 1) as S1. cbn in S0, S1.
  exists (fun v => if v =? 0 then r 0 else if v =? 1 then r 1 else 0). split.
  - unfold Case.vals. apply in_map_iff.
    exists (r 0, r 1). split; [reflexivity|]. cbn.
    destruct S0 as [<-|[<-|[]]], S1 as [<-|[<-|[]]]; auto.
  - intros v. pose proof (S v) as Sv. unfold Case.dom in Sv.
    destruct (Z.eqb_spec v 0) as [E0|E0]; [now rewrite E0|].
    destruct (Z.eqb_spec v 1) as [E1|E1]; [now rewrite E1|].
    cbn in Sv. intuition.
Qed.

Example C35_solvers : solver_ok Case.dom Case.solve_or /\ model_ok Case.dom Case.model_or.
Proof.
  assert (Sv : forall r, In r Case.vals -> sorted Case.dom r).
  { intros r I v. unfold Case.vals in I. unfold Case.dom. apply in_map_iff in I as ([a b] & <- & I).
    cbn [fst snd]. destruct (v =? 0); [|destruct (v =? 1)]; cbn [orb];
    cbn in I; destruct I as [[= <- <-]|[[= <- <-]|[[= <- <-]|[[= <- <-]|[]]]]]; cbn; auto. }
  split.
  - intros k as_ F. unfold Case.solve_or. destruct (find _ _) as [r|] eqn:E.
    + apply find_some in E as [I E]. split; auto. now apply forallb_forall.
    + intros r S. destruct (Case_vals r S) as (s & I & Eq). pose proof (find_none _ _ E s I) as N.
      cbv beta in N. clear E.
      induction F as [|f as_ Wf F IH]; [discriminate|]. cbn [forallb] in N. apply andb_false_iff in N as [N|N].
      * exists f. split; [now left|]. rewrite <- N. apply Wf. intros v _. now rewrite Eq.
      * destruct (IH N) as (g & J & G). exists g. split; [now right|auto].
  - intros k f Wf. unfold Case.model_or. destruct (find _ _) as [r|] eqn:E.
    + apply find_some in E as [I E]. auto.
    + intros r S. destruct (Case_vals r S) as (s & I & Eq). rewrite <- (find_none _ _ E s I).
      apply Wf. intros v _. now rewrite Eq.
Qed.

Print Assumptions C35_cegis_sound.
Print Assumptions C35_direct_sound.
Print Assumptions C36_cegis_none.
Print Assumptions C36_direct_none.
Print Assumptions C37_terminates.
Print Assumptions C37_maxloops.
Print Assumptions C37_enough.
