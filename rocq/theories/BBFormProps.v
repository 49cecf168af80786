(** C34: the black-box side condition is the functional-consistency reduction. *)
From Coq Require Import ZArith List Bool Arith Lia Permutation.
From Verif Require Import Base BindModel BindProps MapIdxModel MapIdxProps BBFormModel.
Import ListNotations.
Open Scope list_scope.
Open Scope Z_scope.

(** ** Specification *)
Section Spec.
  Context {D C : Type} (cls : nat -> C).

  (** The run when every black-box class is a function of its inputs. *)
  Fixpoint fun_run {A} (F : C -> list D -> list D) (c : comp D A) : A :=
    match c with
    | Ret a => a
    | Call o ins k => fun_run F (k (F (cls o) ins))
    end.

  (** The run calls the objects [os] in this order, whatever they return, each
      with the number of inputs its class has. *)
  Inductive straight {A} (nin : C -> nat) : list nat -> comp D A -> Prop :=
  | straight_ret a : straight nin [] (Ret a)
  | straight_call o ins k os :
      length ins = nin (cls o) -> (forall out, straight nin os (k out)) -> straight nin (o :: os) (Call o ins k).
End Spec.

(** ** Formulas *)
Definition tt_ev : bool -> bool := fun b => b.

Lemma holds_and (l : list (fc bool)) : holds tt_ev (FAnd l) <-> Forall (holds tt_ev) l.
Proof.
  induction l as [|x l IH]; [split; [constructor|easy]|].
  change (holds tt_ev (FAnd (x :: l))) with (holds tt_ev x /\ holds tt_ev (FAnd l)). rewrite IH.
  split; [intros []; now constructor|]. intros H. now inversion H.
Qed.

Section Formula.
  Context {D C : Type} (deqb : D -> D -> bool) (ceqb : C -> C -> bool).
  Hypothesis deqb_spec : forall a b, deqb a b = true <-> a = b.
  Hypothesis ceqb_spec : forall a b, ceqb a b = true <-> a = b.

  Lemma and_eq_spec x y : length x = length y -> x <> [] ->
    exists g, and_eq deqb x y = Ok g /\ proper g /\ (holds tt_ev g <-> x = y).
  Proof.
    intros L N. unfold and_eq. destruct (combine x y) as [|p l] eqn:E.
    { destruct x, y; try discriminate; congruence. }
    rewrite <- E. eexists. split; [reflexivity|]. split.
    { constructor; [rewrite E; discriminate|]. apply Forall_forall. intros g I. apply in_map_iff in I as (q & <- & _). constructor. }
    rewrite holds_and. clear E N.
    revert y L. induction x as [|a x IH]; intros [|b y] L; try discriminate; cbn [combine map].
    - split; auto.
    - injection L as L. specialize (IH y L). split.
      + intros H. inversion H as [|? ? H1 H2]; subst. cbn [holds fst snd] in H1. apply deqb_spec in H1. subst.
        f_equal. now apply IH.
      + intros [= -> ->]. constructor; [cbn [holds fst snd]; now apply deqb_spec|]. now apply IH.
  Qed.

  Lemma pair_cond_spec i0 o0 i1 o1 : length i0 = length i1 -> length o0 = length o1 -> i0 <> [] -> o0 <> [] ->
    exists g, pair_cond deqb ((i0, o0), (i1, o1)) = Ok g /\ proper g /\ (holds tt_ev g <-> (i0 = i1 -> o0 = o1)).
  Proof.
    intros L1 L2 N1 N2. unfold pair_cond. rewrite (proj2 (Nat.eqb_eq _ _) L1), (proj2 (Nat.eqb_eq _ _) L2). cbn [negb].
    destruct (and_eq_spec i0 i1 L1 N1) as (gi & -> & Pi & Hi). destruct (and_eq_spec o0 o1 L2 N2) as (go & -> & Po & Ho).
    cbn [bind]. eexists. split; [reflexivity|]. split; [now constructor|].
    change (holds tt_ev (FImplies gi go)) with (holds tt_ev gi -> holds tt_ev go). rewrite Hi, Ho. reflexivity.
  Qed.

  Lemma pairs_In {X} (l : list X) x y : In (x, y) (pairs l) -> In x l /\ In y l.
  Proof.
    induction l as [|a l IH]; cbn [pairs]; [easy|]. intros I. apply in_app_iff in I as [I|I].
    - apply in_map_iff in I as (z & [= <- <-] & I). split; [now left|now right].
    - destruct (IH I). split; now right.
  Qed.
  Lemma pairs_all {X} (l : list X) x y : In x l -> In y l -> x = y \/ In (x, y) (pairs l) \/ In (y, x) (pairs l).
  Proof.
    induction l as [|a l IH]; cbn [pairs]; [easy|]. intros [->|I] [->|J]; auto.
    - right. left. apply in_app_iff. left. now apply in_map.
    - right. right. apply in_app_iff. left. now apply in_map.
    - destruct (IH I J) as [->|[K|K]]; auto; right; [left|right]; apply in_app_iff; now right.
  Qed.

  Lemma add_io_sort es : forall d, add_io (D := D) ceqb d es = sort_by_t_from ceqb d (map (fun e => (snd e, fst e)) es).
  Proof. induction es as [|[c e] es IH]; intros d; cbn [add_io map sort_by_t_from fst snd]; auto. Qed.

  Lemma add_io_In es c l : In (c, l) (add_io (D := D) ceqb [] es) -> forall e, In e l <-> In (c, e) es.
  Proof.
    intros I e. rewrite add_io_sort in I. fold (sort_by_t ceqb (map (fun e => (snd e, fst e)) es)) in I.
    destruct (sort_by_t_spec ceqb ceqb_spec (map (fun e => (snd e, fst e)) es)) as (_ & _ & L & _).
    rewrite (L c l I), of_type_In by auto. rewrite in_map_iff. split.
    - intros ([c' e'] & [= <- <-] & J). auto.
    - intros J. exists (c, e). auto.
  Qed.

  Lemma add_io_has es c e : In (c, e) es -> exists l, In (c, l) (add_io (D := D) ceqb [] es).
  Proof.
    intros I. rewrite add_io_sort. fold (sort_by_t ceqb (map (fun e => (snd e, fst e)) es)).
    destruct (sort_by_t_spec ceqb ceqb_spec (map (fun e => (snd e, fst e)) es)) as (_ & K & _ & _).
    assert (In c (map fst (sort_by_t ceqb (map (fun e => (snd e, fst e)) es)))) as J.
    { apply K, in_map_iff. exists (e, c). split; auto. apply in_map_iff. exists (c, e). auto. }
    apply in_map_iff in J as ([c' l] & [= <-] & J). eauto.
  Qed.

  (** Entries of one class with the same inputs have the same outputs. *)
  Definition functional (es : list (C * (list D * list D))) : Prop :=
    forall c i o o', In (c, (i, o)) es -> In (c, (i, o')) es -> o = o'.

  Definition uniform (nin nout : C -> nat) (es : list (C * (list D * list D))) : Prop :=
    forall c i o, In (c, (i, o)) es -> length i = nin c /\ length o = nout c.

  Lemma update_spec nin nout f es : (forall c, 0 < nin c)%nat -> (forall c, 0 < nout c)%nat -> uniform nin nout es ->
    exists g, update_with_bb deqb ceqb f es = Ok (g, flat_map (fun e => snd (snd e)) es) /\
              (proper g <-> proper f) /\ (holds tt_ev g <-> (functional es -> holds tt_ev f)).
  Proof.
    intros Pi Po U. unfold update_with_bb.
    set (ps := flat_map _ (add_io _ _ _)).
    assert (Ps : forall i0 o0 i1 o1, In ((i0, o0), (i1, o1)) ps ->
              exists c, In (c, (i0, o0)) es /\ In (c, (i1, o1)) es).
    { intros i0 o0 i1 o1 I. unfold ps in I. apply in_flat_map in I as ([c l] & I & J). cbn [snd] in J.
      apply pairs_In in J as [J0 J1]. exists c. split; now apply (add_io_In es c l I). }
    destruct (mapM_ok (pair_cond deqb) ps) as (cs & E & F).
    { intros [[i0 o0] [i1 o1]] I. destruct (Ps _ _ _ _ I) as (c & I0 & I1).
      destruct (U c i0 o0 I0) as [A1 A2]. destruct (U c i1 o1 I1) as [B1 B2].
      destruct (pair_cond_spec i0 o0 i1 o1) as (g & Eg & _ & _); [congruence..| | |exists g; exact Eg].
      - intros ->. cbn in A1. specialize (Pi c). lia.
      - intros ->. cbn in A2. specialize (Po c). lia. }
    rewrite E. cbn [bind].
    assert (H : Forall (holds tt_ev) cs <-> functional es).
    { assert (H1 : Forall (holds tt_ev) cs <-> forall i0 o0 i1 o1, In ((i0, o0), (i1, o1)) ps -> i0 = i1 -> o0 = o1).
      { clear E. clearbody ps.
        induction F as [|[[i0 o0] [i1 o1]] g ps cs G F IH]; [split; [easy|constructor]|].
        assert (IH' := IH (fun a b c d I => Ps a b c d (or_intror I))). clear IH.
        assert (Hg : holds tt_ev g <-> (i0 = i1 -> o0 = o1)).
        { destruct (Ps _ _ _ _ (or_introl eq_refl)) as (c & I0 & I1).
          destruct (U c i0 o0 I0) as [A1 A2]. destruct (U c i1 o1 I1) as [B1 B2].
          destruct (pair_cond_spec i0 o0 i1 o1) as (g' & G' & _ & S); [congruence..| | |].
          - intros ->. cbn in A1. specialize (Pi c). lia.
          - intros ->. cbn in A2. specialize (Po c). lia.
          - pose proof (eq_trans (eq_sym G') G) as X. injection X as <-. exact S. }
        split.
        - intros Fa. inversion Fa as [|? ? Fa1 Fa2]; subst. intros a b c d [[= <- <- <- <-]|I]; [now apply Hg|].
          now apply IH'.
        - intros Hp. constructor; [apply Hg, Hp; now left|]. apply IH'. intros a b c d I. apply Hp. now right. }
      rewrite H1. split.
      - intros Hp c i o o' I I'. destruct (add_io_has es c _ I) as (l & L).
        destruct (pairs_all l (i, o) (i, o')) as [Eq|[J|J]].
        + now apply (add_io_In es c l L).
        + now apply (add_io_In es c l L).
        + congruence.
        + apply (Hp i o i o'); auto. unfold ps. apply in_flat_map. exists (c, l). auto.
        + symmetry. apply (Hp i o' i o); auto. unfold ps. apply in_flat_map. exists (c, l). auto.
      - intros Fu i0 o0 i1 o1 I ->. destruct (Ps _ _ _ _ I) as (c & I0 & I1). eapply Fu; eauto. }
    assert (Pcs : Forall proper cs).
    { clear H E. clearbody ps. induction F as [|[[i0 o0] [i1 o1]] g ps cs G F IH]; [constructor|].
      constructor; [|apply IH; intros a b c d I; apply (Ps a b c d); now right].
      destruct (Ps _ _ _ _ (or_introl eq_refl)) as (c & I0 & I1).
      destruct (U c i0 o0 I0) as [A1 A2]. destruct (U c i1 o1 I1) as [B1 B2].
      destruct (pair_cond_spec i0 o0 i1 o1) as (g' & G' & S & _); [congruence..| | |].
      - intros ->. cbn in A1. specialize (Pi c). lia.
      - intros ->. cbn in A2. specialize (Po c). lia.
      - pose proof (eq_trans (eq_sym G') G) as X. injection X as <-. exact S. }
    eexists. split; [reflexivity|]. split.
    { destruct cs as [|c0 cs]; [reflexivity|]. split.
      - intros X. now inversion X.
      - intros X. constructor; [constructor; [discriminate|exact Pcs]|exact X]. }
    destruct cs as [|c0 cs].
    - split; [auto|]. intros X. apply X, H. constructor.
    - set (l := c0 :: cs) in *.
      change (holds tt_ev (FImplies (FAnd l) f)) with (holds tt_ev (FAnd l) -> holds tt_ev f).
      rewrite holds_and, H. reflexivity.
  Qed.
End Formula.

(** ** Runs *)
Lemma last_input_In {D} (tr : list (nat * list D)) o ins : NoDup (map fst tr) ->
  (last_input tr o = Some ins <-> In (o, ins) tr).
Proof.
  induction tr as [|[o' i'] tr IH]; cbn [last_input map fst]; intros N; [split; [discriminate|easy]|].
  inversion N as [|? ? N1 N2]; subst. specialize (IH N2). destruct (last_input tr o) as [x|] eqn:E.
  - split.
    + intros [= ->]. right. now apply IH.
    + intros [[= -> ->]|I]; [|now apply IH]. exfalso. apply N1.
      assert (In (o, x) tr) as I.
      { clear - E. induction tr as [|[p q] tr IH]; [discriminate|]. cbn [last_input] in E.
        destruct (last_input tr o) as [y|]; [right; auto|].
        destruct (Nat.eqb_spec o p) as [->|]; [injection E as ->; now left|discriminate]. }
      exact (in_map fst _ _ I).
  - destruct (Nat.eqb_spec o o') as [->|Ne].
    + split; [intros [= ->]; now left|]. intros [[= ->]|I]; auto. apply IH in I. discriminate.
    + split; [discriminate|]. intros [[= -> ->]|I]; [congruence|]. apply IH in I. discriminate.
Qed.

Lemma get_inputs_spec {D} (tr : list (nat * list D)) objs : NoDup (map fst tr) -> Permutation (map fst tr) objs ->
  exists ii, get_bb_inputs tr objs = Ok ii /\ length ii = length objs /\
    forall o ins, In (o, ins) (combine objs ii) <-> In (o, ins) tr.
Proof.
  intros N P. unfold get_bb_inputs.
  assert (All : forall o, In o objs -> exists ins, last_input tr o = Some ins).
  { intros o I. rewrite <- P in I. apply in_map_iff in I as ([o' i] & <- & I). exists i. now apply last_input_In. }
  destruct (mapM_ok (fun o => match last_input tr o with Some i => Ok i | None => Err ValueError end) objs) as (ii & E & F).
  { intros o I. destruct (All o I) as (i & ->). eauto. }
  exists ii. split; auto. pose proof (F2_length _ _ _ F) as L. split; [auto|].
  assert (Hin : forall o ins, In (o, ins) (combine objs ii) <-> In o objs /\ last_input tr o = Some ins).
  { clear - F. induction F as [|o i objs ii H F IH]; [intros; cbn; tauto|]. intros o' i'. cbn [combine In].
    rewrite IH. split.
    - intros [[= <- <-]|[A B]]; [|auto]. split; auto. destruct (last_input tr o); congruence.
    - intros [[<-|A] B]; [|auto]. left. rewrite B in H. congruence. }
  intros o ins. rewrite Hin. rewrite (last_input_In tr o ins N). split; [tauto|]. intros I. split; auto.
  rewrite <- P. exact (in_map fst _ _ I).
Qed.

Section Runs.
  Context {D C : Type} (ceqb : C -> C -> bool) (deqb : D -> D -> bool).
  Hypothesis deqb_spec : forall a b, deqb a b = true <-> a = b.
  Hypothesis ceqb_spec : forall a b, ceqb a b = true <-> a = b.
  Variables (cls : nat -> C) (nin : C -> nat).

  Lemma sym_trace {A} outs os (c : comp D A) : straight cls nin os c ->
    map fst (snd (sym_run outs c)) = os /\ forall o ins, In (o, ins) (snd (sym_run outs c)) -> length ins = nin (cls o).
  Proof.
    induction 1 as [a|o ins k os L _ IH]; cbn [sym_run].
    - split; [reflexivity|easy].
    - destruct (IH (outs o)) as [E H]. destruct (sym_run outs (k (outs o))) as [a tr]. cbn [snd map fst] in *.
      split; [now f_equal|]. intros o' i' [[= <- <-]|I]; auto.
  Qed.

  (** Running with functions equals running with preset outputs that agree with
      them on the calls made. *)
  Lemma fun_sym {A} F outs (c : comp D A) :
    (forall o ins, In (o, ins) (snd (sym_run outs c)) -> F (cls o) ins = outs o) ->
    fun_run cls F c = fst (sym_run outs c).
  Proof.
    induction c as [a|o ins k IH]; cbn [sym_run fun_run]; intros H; auto.
    assert (E : F (cls o) ins = outs o).
    { apply H. destruct (sym_run outs (k (outs o))). now left. }
    rewrite E. rewrite (IH (outs o)).
    - now destruct (sym_run outs (k (outs o))).
    - intros o' i' I. apply H. destruct (sym_run outs (k (outs o))). now right.
  Qed.

  (** Outputs of the objects when the classes are functions. *)
  Fixpoint fun_trace {A} (F : C -> list D -> list D) (c : comp D A) : list (nat * list D) :=
    match c with
    | Ret _ => []
    | Call o ins k => (o, F (cls o) ins) :: fun_trace F (k (F (cls o) ins))
    end.

  Lemma trace_objs {A} F os (c : comp D A) : straight cls nin os c -> map fst (fun_trace F c) = os.
  Proof. induction 1 as [a|o ins k os L _ IH]; cbn [fun_trace map fst]; [reflexivity|now f_equal]. Qed.

  Lemma trace_sym {A} F outs (c : comp D A) :
    (forall o out, In (o, out) (fun_trace F c) -> outs o = out) ->
    fst (sym_run outs c) = fun_run cls F c /\
    forall o ins, In (o, ins) (snd (sym_run outs c)) -> F (cls o) ins = outs o.
  Proof.
    induction c as [a|o ins k IH]; cbn [sym_run fun_run fun_trace]; intros H; [split; [reflexivity|easy]|].
    assert (E : outs o = F (cls o) ins) by (apply H; now left).
    destruct (IH (F (cls o) ins)) as [I1 I2]; [intros o' out I; apply H; now right|].
    rewrite E. destruct (sym_run outs (k (F (cls o) ins))) as [a tr]. cbn [fst snd] in *. split; auto.
    intros o' i' [[= <- <-]|I]; [auto|]. now apply I2.
  Qed.
End Runs.

(** ** C34 *)

(** Setting: [okout] are the well-sorted outputs of a class, inhabited by [dflt];
    every class has at least one input and one output. Arch and IR objects are
    different objects, and [aobjs], [iobjs] are the objects [get_black_boxes]
    finds, i.e. those that are called. *)
Definition reduction_correct {D C A B : Type} (deqb : D -> D -> bool) (ceqb : C -> C -> bool) (cls : nat -> C)
  (okout : C -> list D -> Prop) (aobjs iobjs : list nat) (arch : comp D A) (ir : comp D B) (f : A -> B -> fc bool) : Prop :=
  (forall outs, (forall o, okout (cls o) (outs o)) ->
     exists g fa, bb_formula deqb ceqb cls aobjs iobjs arch ir f outs = Ok (g, fa) /\ holds tt_ev g)
  <->
  (forall F, (forall c i, okout c (F c i)) -> holds tt_ev (f (fun_run cls F arch) (fun_run cls F ir))).

Definition setting {D C A B : Type} (cls : nat -> C) (okout : C -> list D -> Prop) (dflt : C -> list D)
  (nin nout : C -> nat) (aobjs iobjs aos ios : list nat) (arch : comp D A) (ir : comp D B) : Prop :=
  (forall c, okout c (dflt c)) /\ (forall c l, okout c l -> length l = nout c) /\
  (forall c, 0 < nin c)%nat /\ (forall c, 0 < nout c)%nat /\
  straight cls nin aos arch /\ straight cls nin ios ir /\
  NoDup aobjs /\ NoDup iobjs /\ (forall o, In o aobjs -> ~ In o iobjs) /\
  (forall o, In o aos <-> In o aobjs) /\ (forall o, In o ios <-> In o iobjs).

(** The full property: for any number of calls per object. *)
Definition C34_full : Prop :=
  forall (D C A B : Type) (deqb : D -> D -> bool) (ceqb : C -> C -> bool),
    (forall a b, deqb a b = true <-> a = b) -> (forall a b, ceqb a b = true <-> a = b) ->
  forall cls okout dflt nin nout aobjs iobjs aos ios (arch : comp D A) (ir : comp D B) f,
    setting cls okout dflt nin nout aobjs iobjs aos ios arch ir ->
    reduction_correct deqb ceqb cls okout aobjs iobjs arch ir f.

(** Both directions for one valuation. *)
Section Pointwise.
  Context {D C A B : Type} (deqb : D -> D -> bool) (ceqb : C -> C -> bool).
  Hypothesis Hd : forall a b, deqb a b = true <-> a = b.
  Hypothesis Hc : forall a b, ceqb a b = true <-> a = b.
  Variables (cls : nat -> C) (okout : C -> list D -> Prop) (dflt : C -> list D) (nin nout : C -> nat).
  Variables (aobjs iobjs aos ios : list nat) (arch : comp D A) (ir : comp D B).
  Hypothesis St : setting cls okout dflt nin nout aobjs iobjs aos ios arch ir.
  Hypotheses (Naos : NoDup aos) (Nios : NoDup ios).

  Definition calls_of (outs : nat -> list D) := snd (sym_run outs arch) ++ snd (sym_run outs ir).
  (** The preset outputs are those of a function of the inputs. *)
  Definition consistent (outs : nat -> list D) : Prop :=
    forall o ins o' ins', In (o, ins) (calls_of outs) -> In (o', ins') (calls_of outs) ->
      cls o = cls o' -> ins = ins' -> outs o = outs o'.

  Lemma bb_value f outs : (forall o, okout (cls o) (outs o)) ->
    exists g fa, bb_formula deqb ceqb cls aobjs iobjs arch ir f outs = Ok (g, fa) /\
      (proper g <-> proper (f (fst (sym_run outs arch)) (fst (sym_run outs ir)))) /\
      (holds tt_ev g <-> (consistent outs -> holds tt_ev (f (fst (sym_run outs arch)) (fst (sym_run outs ir))))).
  Proof.
    destruct St as (Hdef & Hlen & Pi & Po & Sa & Si & Na & Ni & Dis & Ea & Ei).
    assert (PA : Permutation aos aobjs) by (apply NoDup_Permutation; auto).
    assert (PI : Permutation ios iobjs) by (apply NoDup_Permutation; auto).
    intros Ho. unfold bb_formula, consistent, calls_of.
    destruct (sym_trace cls nin outs aos arch Sa) as [Ta La]. destruct (sym_trace cls nin outs ios ir Si) as [Ti Li].
    destruct (sym_run outs arch) as [a atr]. destruct (sym_run outs ir) as [b itr]. cbn [fst snd] in *.
    destruct (get_inputs_spec atr aobjs) as (ai & -> & _ & Ha); [now rewrite Ta|now rewrite Ta|].
    destruct (get_inputs_spec itr iobjs) as (ii & -> & _ & Hi); [now rewrite Ti|now rewrite Ti|].
    cbn [bind].
    set (es := _ ++ _).
    assert (Es : forall c i o, In (c, (i, o)) es <-> exists n, c = cls n /\ o = outs n /\ In (n, i) (atr ++ itr)).
    { intros c i o. unfold es. rewrite in_app_iff, !in_map_iff. split.
      - intros [([n x] & [= <- <- <-] & I)|([n x] & [= <- <- <-] & I)]; cbn [fst snd];
          exists n; repeat split; auto; apply in_app_iff; [left; now apply Ha|right; now apply Hi].
      - intros (n & -> & -> & I). apply in_app_iff in I as [I|I].
        + left. exists (n, i). split; auto. now apply Ha.
        + right. exists (n, i). split; auto. now apply Hi. }
    destruct (update_spec deqb ceqb Hd Hc nin nout (f a b) es Pi Po) as (g & E & Pg & G).
    { intros c i o I. apply Es in I as (n & -> & -> & I). split; [|auto].
      apply in_app_iff in I as [I|I]; [eapply La|eapply Li]; eauto. }
    exists g. eexists. split; [exact E|]. split; [exact Pg|]. rewrite G. unfold functional.
    assert (X : forall P Q R : Prop, (P <-> Q) -> ((P -> R) <-> (Q -> R))) by tauto. apply X. split.
    - intros H o ins o' ins' I I' Ec <-. apply (H (cls o) ins); apply Es; eauto.
    - intros H c i o o' I I'. apply Es in I as (n & -> & -> & I). apply Es in I' as (n' & Ec & -> & I'). eauto.
  Qed.

  Lemma outs_of_fun F : (forall c i, okout c (F c i)) ->
    exists outs, (forall o, okout (cls o) (outs o)) /\ consistent outs /\
      fst (sym_run outs arch) = fun_run cls F arch /\ fst (sym_run outs ir) = fun_run cls F ir.
  Proof.
    destruct St as (Hdef & Hlen & Pi & Po & Sa & Si & Na & Ni & Dis & Ea & Ei). intros HF.
    pose (tr := fun_trace cls F arch ++ fun_trace cls F ir).
    pose (outs := fun o => match find (fun e => Nat.eqb o (fst e)) tr with Some e => snd e | None => dflt (cls o) end).
    assert (Ntr : NoDup (map fst tr)).
    { unfold tr. rewrite map_app. rewrite (trace_objs cls nin F aos arch Sa), (trace_objs cls nin F ios ir Si).
      apply NoDup_app_intro; auto. intros o I J. apply Ea in I. apply Ei in J. exact (Dis o I J). }
    assert (Houts : forall o out, In (o, out) tr -> outs o = out).
    { intros o out I. unfold outs. revert Ntr I. clear. induction tr as [|[p q] tr IH]; intros N I; [easy|].
      cbn [map fst] in N. inversion N as [|? ? N1 N2]; subst. cbn [find fst].
      destruct (Nat.eqb_spec o p) as [->|Ne].
      - destruct I as [[= ->]|I]; [reflexivity|]. exfalso. apply N1. exact (in_map fst _ _ I).
      - destruct I as [[= -> ->]|I]; [congruence|]. auto. }
    assert (Hok : forall o, okout (cls o) (outs o)).
    { intros o. unfold outs. destruct (find _ tr) as [[p q]|] eqn:E; [|apply Hdef].
      apply find_some in E as [I E]. cbn [fst snd] in *. apply Nat.eqb_eq in E. subst p.
      unfold tr in I. apply in_app_iff in I.
      assert (Tr : forall X (c : comp D X) o out, In (o, out) (fun_trace cls F c) -> okout (cls o) out).
      { clear - HF. intros X c. induction c as [a|o ins k IH]; intros o' out I; [easy|]. cbn [fun_trace] in I.
        destruct I as [[= <- <-]|I]; [apply HF|eauto]. }
      destruct I as [I|I]; eapply Tr; eauto. }
    destruct (trace_sym cls F outs arch) as [A1 A2].
    { intros o out I. apply Houts. unfold tr. apply in_app_iff. now left. }
    destruct (trace_sym cls F outs ir) as [I1 I2].
    { intros o out I. apply Houts. unfold tr. apply in_app_iff. now right. }
    assert (X : forall p i, In (p, i) (calls_of outs) -> F (cls p) i = outs p).
    { intros p i J. unfold calls_of in J. apply in_app_iff in J as [J|J]; auto. }
    exists outs. split; [exact Hok|]. split; [|auto].
    intros o ins o' ins' I I' Ec <-. rewrite <- (X o ins I), <- (X o' ins I'), Ec. reflexivity.
  Qed.

  Lemma fun_of_outs outs : (forall o, okout (cls o) (outs o)) -> consistent outs ->
    exists F, (forall c i, okout c (F c i)) /\
      fun_run cls F arch = fst (sym_run outs arch) /\ fun_run cls F ir = fst (sym_run outs ir).
  Proof.
    destruct St as (Hdef & _). intros Hok Fu.
    unfold consistent in Fu. set (tr := calls_of outs) in *.
    pose (F := fun c i => match find (fun e => ceqb c (cls (fst e)) && list_eqb deqb i (snd e)) tr with
                          | Some e => outs (fst e) | None => dflt c end).
    assert (Leq : forall x y, list_eqb deqb x y = true <-> x = y).
    { clear - Hd. induction x as [|a x IH]; intros [|b y]; cbn; split; try easy.
      - rewrite andb_true_iff, Hd, IH. intros [-> ->]. reflexivity.
      - intros [= -> ->]. rewrite andb_true_iff, Hd, IH. auto. }
    assert (FH : forall o ins, In (o, ins) tr -> F (cls o) ins = outs o).
    { intros o ins I. unfold F. destruct (find _ tr) as [[p q]|] eqn:Ef.
      - apply find_some in Ef as [J Ef]. cbn [fst snd] in *. apply andb_true_iff in Ef as [E1 E2].
        apply Hc in E1. apply Leq in E2. subst q. symmetry. eapply Fu; eauto.
      - exfalso. pose proof (find_none _ _ Ef _ I) as N. cbn [fst snd] in N.
        rewrite (proj2 (Hc _ _) eq_refl), (proj2 (Leq _ _) eq_refl) in N. discriminate. }
    assert (HF : forall c i, okout c (F c i)).
    { intros c i. unfold F. destruct (find _ tr) as [[p q]|] eqn:Ef; [|apply Hdef].
      apply find_some in Ef as [J Ef]. cbn [fst snd] in *. apply andb_true_iff in Ef as [E1 _].
      apply Hc in E1. subst c. apply Hok. }
    exists F. split; [exact HF|]. split.
    + apply (fun_sym cls F outs arch). intros o ins I. apply FH. apply in_app_iff. now left.
    + apply (fun_sym cls F outs ir). intros o ins I. apply FH. apply in_app_iff. now right.
  Qed.

  Lemma consistent_dec outs : {consistent outs} + {~ consistent outs}.
  Proof.
    assert (Leq : forall x y, list_eqb deqb x y = true <-> x = y).
    { clear - Hd. induction x as [|a x IH]; intros [|b y]; cbn; split; try easy.
      - rewrite andb_true_iff, Hd, IH. intros [-> ->]. reflexivity.
      - intros [= -> ->]. rewrite andb_true_iff, Hd, IH. auto. }
    set (t := calls_of outs).
    set (b := forallb (fun e => forallb (fun e' =>
        negb (ceqb (cls (fst e)) (cls (fst e')) && list_eqb deqb (snd e) (snd e'))
        || list_eqb deqb (outs (fst e)) (outs (fst e'))) t) t).
    assert (X : b = true <-> consistent outs).
    { unfold b, consistent. fold t. rewrite forallb_forall. split.
      - intros H o ins o' ins' I I' Ec <-. specialize (H _ I). rewrite forallb_forall in H. specialize (H _ I').
        cbn [fst snd] in H. rewrite (proj2 (Hc _ _) Ec), (proj2 (Leq ins ins) eq_refl) in H. cbn in H. now apply Leq.
      - intros H [o ins] I. apply forallb_forall. intros [o' ins'] I'. cbn [fst snd].
        destruct (ceqb (cls o) (cls o')) eqn:E1; cbn [andb negb orb]; [|reflexivity].
        destruct (list_eqb deqb ins ins') eqn:E2; cbn [andb negb orb]; [|reflexivity].
        apply Leq. apply Hc in E1. apply Leq in E2. eauto. }
    destruct b; [left; now apply X|right]. intros H. apply X in H. discriminate.
  Qed.
End Pointwise.

(** Missing for C34: objects called more than once in a run. [NoDup] of the call
    sequences says that each object is called exactly once. *)
Theorem C34_ackermann_partial :
  forall (D C A B : Type) (deqb : D -> D -> bool) (ceqb : C -> C -> bool),
    (forall a b, deqb a b = true <-> a = b) -> (forall a b, ceqb a b = true <-> a = b) ->
  forall cls okout dflt nin nout aobjs iobjs aos ios (arch : comp D A) (ir : comp D B) f,
    setting cls okout dflt nin nout aobjs iobjs aos ios arch ir ->
    NoDup aos -> NoDup ios ->
    reduction_correct deqb ceqb cls okout aobjs iobjs arch ir f.
Proof.
  intros D C A B deqb ceqb Hd Hc cls okout dflt nin nout aobjs iobjs aos ios arch ir f St Naos Nios. split.
  - intros H F HF. destruct (outs_of_fun cls okout dflt nin nout aobjs iobjs aos ios arch ir St Naos Nios F HF)
      as (outs & Hok & Co & <- & <-).
    destruct (bb_value deqb ceqb Hd Hc cls okout dflt nin nout aobjs iobjs aos ios arch ir St Naos Nios f outs Hok)
      as (g & fa & E & _ & G).
    destruct (H outs Hok) as (g' & fa' & E' & G'). rewrite E in E'. injection E' as <- <-. now apply G.
  - intros H outs Hok.
    destruct (bb_value deqb ceqb Hd Hc cls okout dflt nin nout aobjs iobjs aos ios arch ir St Naos Nios f outs Hok)
      as (g & fa & E & _ & G).
    exists g, fa. split; [exact E|]. apply G. intros Co.
    destruct (fun_of_outs deqb ceqb Hd Hc cls okout dflt nin nout aobjs iobjs aos ios arch ir St outs Hok Co)
      as (F & HF & <- & <-). auto.
Qed.

(** The outputs to be quantified are those of every object, arch first. *)
Theorem C34_forall_outputs :
  forall (D C A B : Type) (deqb : D -> D -> bool) (ceqb : C -> C -> bool) cls aobjs iobjs
    (arch : comp D A) (ir : comp D B) f outs g fa,
    bb_formula deqb ceqb cls aobjs iobjs arch ir f outs = Ok (g, fa) ->
    fa = flat_map outs (aobjs ++ iobjs).
Proof.
  intros D C A B deqb ceqb cls aobjs iobjs arch ir f outs g fa H. unfold bb_formula in H.
  destruct (sym_run outs arch) as [a atr], (sym_run outs ir) as [b itr].
  assert (Len : forall tr objs ii, get_bb_inputs (D := D) tr objs = Ok ii -> length ii = length objs).
  { clear. intros tr. unfold get_bb_inputs. induction objs as [|o objs IH]; intros ii E; cbn [mapM] in E.
    - now injection E as <-.
    - destruct (last_input tr o); [|discriminate]. cbn [bind] in E. destruct (mapM _ objs) as [l1|] eqn:M; [|discriminate].
      cbn [bind] in E. injection E as <-. cbn. f_equal. now apply IH. }
  destruct (get_bb_inputs atr aobjs) as [ai|] eqn:Ea; [|discriminate]. cbn [bind] in H.
  destruct (get_bb_inputs itr iobjs) as [ii|] eqn:Ei; [|discriminate]. cbn [bind] in H.
  unfold update_with_bb in H. destruct (mapM _ _) as [cs|]; [|discriminate]. cbn [bind] in H. injection H as _ <-.
  apply Len in Ea, Ei. rewrite !flat_map_app.
  assert (X : forall objs ii, length ii = length objs ->
    flat_map (fun e : C * (list D * list D) => snd (snd e)) (map (fun p => (cls (fst p), (snd p, outs (fst p)))) (combine objs ii))
    = flat_map outs objs).
  { clear. induction objs as [|o objs IH]; intros [|i ii] L; try discriminate; auto.
    cbn [combine map flat_map fst snd]. f_equal. apply IH. now injection L. }
  now rewrite (X _ _ Ea), (X _ _ Ei).
Qed.

(** One object called twice: only the last inputs are recorded and both calls
    return the same output variable, so "f(1) = f(2) for every f" is accepted. *)
Definition twice : comp Z (list Z * list Z) := Call 0 [1] (fun a => Call 0 [2] (fun b => Ret (a, b))).
Definition outputs_equal (r : list Z * list Z) (_ : unit) : fc bool := FLeaf (list_eqb Z.eqb (fst r) (snd r)).

Theorem C34_full_refuted : ~ C34_full.
Proof.
  intros H.
  specialize (H Z unit (list Z * list Z)%type unit Z.eqb (fun _ _ => true)).
  specialize (H Z.eqb_eq ltac:(intros [] []; easy) (fun _ => tt) (fun _ l => length l = 1%nat) (fun _ => [0])
    (fun _ => 1%nat) (fun _ => 1%nat) [0%nat] [] [0; 0]%nat [] twice (Ret tt) outputs_equal).
  destruct H as [H _].
  - repeat split; auto; try lia; try (now repeat constructor).
    all: intros; cbn in *; tauto.
  - assert (F : holds tt_ev (outputs_equal (fun_run (fun _ => tt) (fun _ i => match i with [1] => [1] | _ => [2] end) twice) tt)).
    { apply H; [|intros c [|[|[]|] []]; reflexivity].
      intros outs Ho. unfold bb_formula. cbn [sym_run twice fst snd].
      cbn [get_bb_inputs mapM last_input Nat.eqb bind combine map app fst snd].
      eexists _, _. split; [reflexivity|]. cbn [holds outputs_equal fst snd tt_ev].
      induction (outs 0%nat) as [|x l IH]; [reflexivity|]. cbn [list_eqb]. now rewrite Z.eqb_refl. }
    vm_compute in F. discriminate.
Qed.

(** Two objects of one class, one in the architecture and one in the IR
    instruction, called with the same input: outputs are equal for every
    function, and the formula holds for all outputs. *)
Example C34_case :
  let arch := Call 0 [7] (fun a => Ret a) in let ir := Call 1 [7] (fun a => Ret a) in
  setting (fun _ => tt) (fun _ l => length l = 1%nat) (fun _ => [0]) (fun _ => 1%nat) (fun _ => 1%nat)
    [0%nat] [1%nat] [0%nat] [1%nat] arch ir /\
  bb_formula Z.eqb (fun _ _ => true) (fun _ => tt) [0%nat] [1%nat] arch ir
    (fun a b => FLeaf (list_eqb Z.eqb a b)) (fun o => [Z.of_nat o])
  = Ok (FImplies (FAnd [FImplies (FAnd [FLeaf true]) (FAnd [FLeaf false])]) (FLeaf false), [0; 1]).
Proof.
  cbv zeta. split; [|reflexivity].
  repeat split; auto; try lia; try (now repeat constructor); intros; cbn in *; intuition; subst; discriminate.
Qed.

Print Assumptions C34_ackermann_partial.
Print Assumptions C34_forall_outputs.
Print Assumptions C34_full_refuted.
