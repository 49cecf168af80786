(** Property theorems C81: registers made by a family are what was asked for and do
    not depend on each other. *)
From Coq Require Import String ZArith List Bool Lia.
From Verif Require Import Base BaseLemmas RegModel RegProps RegGenModel.
Import ListNotations.
Open Scope list_scope.
Open Scope Z_scope.

(** ** What a program should see *)
Section Spec.
  Context {F T I V : Type}.
  Variable conv : T -> I -> res V.
  Variable inst : V -> T -> bool.

  (** A fresh class for each request, a fresh object for each construction. *)
  Definition world := (list (request F T I) * list (option (request F T I * option V)))%type.
  Definition ideal (o : op F T I V) (w : world) : seen V * world :=
    let (reqs, objs) := w in
    match o with
    | OGen q => (SNone, (reqs ++ [q], objs))
    | ONew c =>
        match nth_error reqs c with
        | None => (SErr NameError, (reqs, objs ++ [None]))
        | Some q =>
            match conv (q_ty q) (q_init q) with
            | Err e => (SErr e, (reqs, objs ++ [None]))
            | Ok v => (SNone, (reqs, objs ++ [Some (q, Some v)]))
            end
        end
    | _ =>
        match nth_error objs (target o) with
        | Some (Some (q, s)) =>
            let (r, s') := method inst (q_kind q) (q_ty q) s o in (r, (reqs, upd objs (target o) (Some (q, s'))))
        | _ => (SErr NameError, w)
        end
    end.
  Fixpoint ideal_run (w : world) (os : list (op F T I V)) : list (seen V) * world :=
    match os with
    | [] => ([], w)
    | o :: r => let (x, w') := ideal o w in let (xs, w'') := ideal_run w' r in (x :: xs, w'')
    end.
End Spec.
Arguments world : clear implicits.

Definition all_hashable {F T I V} (hashable : I -> bool) (os : list (op F T I V)) : Prop :=
  forall q, In (OGen q) os -> hashable (q_init q) = true.

(** ** Lists *)
Lemma upd_length {A} (l : list A) : forall k x, length (upd l k x) = length l.
Proof. induction l as [|y l IH]; intros [|k] x; cbn; auto. Qed.
Lemma upd_same {A} (l : list A) : forall k x y, nth_error l k = Some y -> nth_error (upd l k x) k = Some x.
Proof. induction l as [|z l IH]; intros [|k] x y; cbn; try discriminate; auto. apply IH. Qed.
Lemma upd_other {A} (l : list A) : forall k j x, k <> j -> nth_error (upd l k x) j = nth_error l j.
Proof. induction l as [|z l IH]; intros [|k] [|j] x H; cbn; auto; try congruence. Qed.
Lemma nth_snoc {A} (l : list A) x i : nth_error (l ++ [x]) i = if (i =? length l)%nat then Some x else nth_error l i.
Proof.
  destruct (Nat.eqb_spec i (length l)) as [->|H].
  - rewrite nth_error_app2 by lia. rewrite Nat.sub_diag. auto.
  - destruct (Nat.lt_ge_cases i (length l)); [apply nth_error_app1; auto|].
    rewrite nth_error_app2 by lia. rewrite (proj2 (nth_error_None l i)) by lia. destruct (i - length l)%nat eqn:E; [lia|]. destruct n; auto.
Qed.
Lemma nth_lt {A} (l : list A) i x : nth_error l i = Some x -> (i < length l)%nat.
Proof. intros H. apply nth_error_Some. congruence. Qed.

(** ** C81 *)
Section C81.
  Context {F T I V : Type}.
  Variables (feq : F -> F -> bool) (teq : T -> T -> bool) (ieq : I -> I -> bool) (hashable : I -> bool).
  Variables (conv : T -> I -> res V) (inst : V -> T -> bool).
  Hypothesis feq_ok : forall a b, feq a b = true <-> a = b.
  Hypothesis teq_ok : forall a b, teq a b = true <-> a = b.
  Hypothesis ieq_refl : forall a, ieq a a = true.
  Hypothesis ieq_sym : forall a b, ieq a b = true -> ieq b a = true.
  Hypothesis ieq_trans : forall a b c, ieq a b = true -> ieq b c = true -> ieq a c = true.
  Notation step := (step feq teq ieq hashable conv inst).
  Notation run := (run feq teq ieq hashable conv inst).
  Notation req_eqb := (req_eqb feq teq ieq).

  Lemma kind_eqb_eq a b : kind_eqb a b = true <-> a = b.
  Proof. destruct a as [x|], b as [y|]; cbn; try (split; congruence). destruct x, y; cbn; split; congruence. Qed.
  Lemma req_eqb_iff a b : req_eqb a b = true <->
    q_fam a = q_fam b /\ q_ty a = q_ty b /\ ieq (q_init a) (q_init b) = true /\ q_kind a = q_kind b.
  Proof. unfold req_eqb. rewrite !andb_true_iff, feq_ok, teq_ok, kind_eqb_eq. tauto. Qed.
  Lemma req_refl a : req_eqb a a = true. Proof. apply req_eqb_iff. auto. Qed.
  Lemma req_sym a b : req_eqb a b = true -> req_eqb b a = true.
  Proof. rewrite !req_eqb_iff. intros (A & B & C & D). auto. Qed.
  Lemma req_trans a b c : req_eqb a b = true -> req_eqb b c = true -> req_eqb a c = true.
  Proof. rewrite !req_eqb_iff. intros (A & B & C & D) (A' & B' & C' & D'). repeat split; try congruence. eauto. Qed.

  Lemma find_key_some c q n : find_key feq teq ieq c q = Some n -> exists q', In (q', n) c /\ req_eqb q' q = true.
  Proof.
    induction c as [|[q' m] c IH]; cbn [find_key]; [discriminate|]. destruct (req_eqb q' q) eqn:E.
    - intros [= <-]. exists q'. split; auto. left. auto.
    - intros H. destruct (IH H) as (q0 & Hi & E'). exists q0. split; auto. right. auto.
  Qed.
  Lemma find_key_none c q q' n : find_key feq teq ieq c q = None -> In (q', n) c -> req_eqb q' q = false.
  Proof.
    induction c as [|[q0 m] c IH]; cbn [find_key]; [intros _ []|]. destruct (req_eqb q0 q) eqn:E; [discriminate|].
    intros H [[= <- <-]|Hi]; auto.
  Qed.

  (** *** Classes: what the process keeps *)
  Definition cinv (p : proc F T I V) (reqs : list (request F T I)) : Prop :=
    (forall q n, In (q, n) (p_cache p) -> nth_error (p_classes p) n = Some q) /\
    (forall n q, nth_error (p_classes p) n = Some q -> In (q, n) (p_cache p)) /\
    (forall n m a b, nth_error (p_classes p) n = Some a -> nth_error (p_classes p) m = Some b -> req_eqb a b = true -> n = m) /\
    length (h_classes p) = length reqs /\
    (forall i q, nth_error reqs i = Some q -> exists n q', nth_error (h_classes p) i = Some (Some n) /\
       nth_error (p_classes p) n = Some q' /\ req_eqb q' q = true) /\
    (forall q, In q (p_classes p) \/ In q reqs -> hashable (q_init q) = true).
  Definition oinv (p : proc F T I V) (objs : list (option (request F T I * option V))) : Prop :=
    length (h_objs p) = length objs /\
    (forall i k, nth_error (h_objs p) i = Some (Some k) -> (k < length (p_objs p))%nat) /\
    (forall i j k, nth_error (h_objs p) i = Some (Some k) -> nth_error (h_objs p) j = Some (Some k) -> i = j) /\
    (forall i, match nth_error objs i with
       | Some (Some (q, s)) => exists k n q', nth_error (h_objs p) i = Some (Some k) /\ nth_error (p_objs p) k = Some (n, s) /\
           nth_error (p_classes p) n = Some q' /\ req_eqb q' q = true
       | Some None => nth_error (h_objs p) i = Some None
       | None => True end).

  Lemma gen_cinv q p reqs r p' : hashable (q_init q) = true -> cinv p reqs -> gen feq teq ieq hashable q p = (r, p') ->
    cinv p' (reqs ++ [q]) /\ (forall n x, nth_error (p_classes p) n = Some x -> nth_error (p_classes p') n = Some x) /\
    h_objs p' = h_objs p /\ p_objs p' = p_objs p /\
    exists n q', r = Ok n /\ h_classes p' = h_classes p ++ [Some n] /\ nth_error (p_classes p') n = Some q' /\ req_eqb q' q = true.
  Proof.
    intros Hh (C1 & C2 & C3 & C4 & C5 & C6). unfold gen. rewrite Hh. cbn [negb].
    destruct (find_key feq teq ieq (p_cache p) q) as [n|] eqn:E; intros [= <- <-]; cbn [p_cache p_classes p_objs h_classes h_objs].
    - destruct (find_key_some _ _ _ E) as (q' & Hi & Eq). pose proof (C1 _ _ Hi) as Hn.
      split; [|split; [auto|split; [auto|split; [auto|exists n, q'; auto]]]].
      unfold cinv. cbn [p_cache p_classes h_classes]. split; [auto|]. split; [auto|]. split; [auto|]. split; [rewrite !app_length, C4; auto|].
      split.
      + intros i q0. rewrite !nth_snoc, C4. destruct (i =? length reqs)%nat; [intros [= <-]; exists n, q'; auto|auto].
      + intros q0. rewrite in_app_iff. intros [H|[H|[<-|[]]]]; auto.
    - set (N := length (p_classes p)).
      assert (Old : forall n x, nth_error (p_classes p) n = Some x -> nth_error (p_classes p ++ [q]) n = Some x).
      { intros n x Hn. rewrite nth_snoc. destruct (Nat.eqb_spec n (length (p_classes p))) as [->|]; auto. apply nth_lt in Hn. lia. }
      assert (New : nth_error (p_classes p ++ [q]) N = Some q) by (rewrite nth_snoc; unfold N; rewrite Nat.eqb_refl; auto).
      split; [|split; [auto|split; [auto|split; [auto|exists N, q; auto using req_refl]]]].
      unfold cinv. cbn [p_cache p_classes h_classes]. split; [|split; [|split; [|split; [|split]]]].
      + intros q0 n Hi. apply in_app_iff in Hi. destruct Hi as [Hi|[[= <- <-]|[]]]; auto.
      + intros n q0. rewrite nth_snoc. rewrite in_app_iff. destruct (Nat.eqb_spec n (length (p_classes p))) as [->|]; auto.
        intros [= <-]. right. left. auto.
      + intros n m a b. rewrite !nth_snoc.
        destruct (Nat.eqb_spec n (length (p_classes p))) as [->|Hn], (Nat.eqb_spec m (length (p_classes p))) as [->|Hm]; auto.
        * intros [= <-] Hb Eb. apply C2 in Hb. apply req_sym in Eb. rewrite (find_key_none _ _ _ _ E Hb) in Eb. discriminate.
        * intros Hb [= <-] Eb. apply C2 in Hb. rewrite (find_key_none _ _ _ _ E Hb) in Eb. discriminate.
        * intros Ha Hb Eb. eapply C3; eauto.
      + rewrite !app_length, C4. auto.
      + intros i q0. rewrite !(nth_snoc _ _ i), C4. destruct (i =? length reqs)%nat.
        * intros [= <-]. exists N, q. auto using req_refl.
        * intros H. destruct (C5 _ _ H) as (n & q' & A & B & C). exists n, q'. auto.
      + intros q0. rewrite !in_app_iff. intros [[H|[<-|[]]]|[H|[<-|[]]]]; auto.
  Qed.

  Lemma method_eq q q' s (o : op F T I V) : req_eqb q' q = true -> method inst (q_kind q') (q_ty q') s o = method inst (q_kind q) (q_ty q) s o.
  Proof. intros H. apply req_eqb_iff in H. destruct H as (_ & -> & _ & ->). auto. Qed.

  Section Transparent.
    Hypothesis Hconv : forall t a b, hashable a = true -> hashable b = true -> ieq a b = true -> conv t a = conv t b.

    Lemma obj_step p reqs objs o x p' y w' :
      cinv p reqs -> oinv p objs ->
      (match o with OGen _ | ONew _ => False | _ => True end) ->
      step o p = (x, p') -> ideal conv inst o (reqs, objs) = (y, w') ->
      x = y /\ cinv p' (fst w') /\ oinv p' (snd w').
    Proof.
      intros HC HO Ho Es Ei.
      assert (St : step o p = match held (h_objs p) (target o) with
        | None => (SErr NameError, p)
        | Some k => match nth_error (p_objs p) k with
          | None => (SErr NameError, p)
          | Some (n, s) => match nth_error (p_classes p) n with
            | None => (SErr NameError, p)
            | Some q => let (r, s') := method inst (q_kind q) (q_ty q) s o in
                (r, Proc (p_cache p) (p_classes p) (upd (p_objs p) k (n, s')) (h_classes p) (h_objs p)) end end end)
        by (destruct o; try contradiction; reflexivity).
      assert (It : ideal conv inst o (reqs, objs) = match nth_error objs (target o) with
        | Some (Some (q, s)) => let (r, s') := method inst (q_kind q) (q_ty q) s o in (r, (reqs, upd objs (target o) (Some (q, s'))))
        | _ => (SErr NameError, (reqs, objs)) end)
        by (destruct o; try contradiction; reflexivity).
      rewrite St in Es. rewrite It in Ei. clear St It Ho. set (i := target o) in *.
      pose proof HO as (O1 & O2 & O3 & O4). pose proof (O4 i) as Oi.
      destruct (nth_error objs i) as [[[q s]|]|] eqn:Eo.
      - destruct Oi as (k & n & q' & A & B & C & D). unfold held in Es. rewrite A, B, C in Es.
        rewrite (method_eq q q' s o D) in Es. destruct (method inst (q_kind q) (q_ty q) s o) as [r s'].
        injection Es as <- <-. injection Ei as <- <-. cbn [fst snd]. split; [auto|]. split; [exact HC|].
        split; [rewrite upd_length; exact O1|]. cbn [h_objs p_objs p_classes]. split; [intros j k' Hj; rewrite upd_length; eauto|]. split; [exact O3|].
        intros j. destruct (Nat.eq_dec i j) as [<-|Hij].
        + rewrite (upd_same _ _ _ _ Eo). exists k, n, q'. rewrite (upd_same _ _ _ _ B). auto.
        + rewrite (upd_other _ _ _ _ Hij). specialize (O4 j). destruct (nth_error objs j) as [[[q0 s0]|]|]; auto.
          destruct O4 as (k0 & n0 & q1 & A' & B' & C' & D'). exists k0, n0, q1. rewrite upd_other; auto.
          intros <-. apply Hij. eapply O3; eauto.
      - unfold held in Es. rewrite Oi in Es. injection Es as <- <-. injection Ei as <- <-. auto.
      - assert (N : nth_error (h_objs p) i = None) by (apply nth_error_None; rewrite O1; apply nth_error_None; auto).
        unfold held in Es. rewrite N in Es. injection Es as <- <-. injection Ei as <- <-. auto.
    Qed.

    Lemma sim_step p reqs objs o x p' y w' :
      cinv p reqs -> oinv p objs ->
      (forall q, o = OGen q -> hashable (q_init q) = true) ->
      step o p = (x, p') -> ideal conv inst o (reqs, objs) = (y, w') ->
      x = y /\ cinv p' (fst w') /\ oinv p' (snd w').
    Proof.
      intros HC HO Hh Es Ei. destruct o as [q|c|o v en|o v|o|o v|o]; try (eapply obj_step; eauto; exact Logic.I).
      - cbn [RegGenModel.step] in Es. destruct (gen feq teq ieq hashable q p) as [r p1] eqn:Eg.
        destruct (gen_cinv q p reqs r p1 (Hh q eq_refl) HC Eg) as (C' & Old & E1 & E2 & n & q' & -> & _).
        injection Es as <- <-. cbn [ideal] in Ei. injection Ei as <- <-. cbn [fst snd]. split; [auto|]. split; [auto|].
        destruct HO as (O1 & O2 & O3 & O4). unfold oinv. rewrite E1, E2. split; [auto|]. split; [auto|]. split; [auto|].
        intros i. specialize (O4 i). destruct (nth_error objs i) as [[[q0 s0]|]|]; auto.
        destruct O4 as (k0 & n0 & q1 & A' & B' & C0 & D'). exists k0, n0, q1. auto.
      - cbn [RegGenModel.step ideal] in *. pose proof HC as (C1 & C2 & C3 & C4 & C5 & C6). pose proof HO as (O1 & O2 & O3 & O4).
        assert (Fail : oinv (Proc (p_cache p) (p_classes p) (p_objs p) (h_classes p) (h_objs p ++ [None])) (objs ++ [None])).
        { unfold oinv. cbn [h_objs p_objs p_classes]. split; [rewrite !app_length, O1; auto|]. split; [|split].
          - intros i k. rewrite nth_snoc. destruct (i =? _)%nat; [discriminate|eauto].
          - intros i j k. rewrite !nth_snoc. destruct (i =? _)%nat, (j =? _)%nat; try discriminate. eauto.
          - intros i. rewrite !nth_snoc, O1. destruct (i =? length objs)%nat; auto. apply O4. }
        destruct (nth_error reqs c) as [q|] eqn:Er.
        + destruct (C5 _ _ Er) as (n & q' & A & B & D). unfold held in Es. rewrite A, B in Es.
          pose proof (proj1 (req_eqb_iff _ _) D) as (_ & Et & Ein & _). rewrite Et, (Hconv _ _ _ (C6 _ (or_introl (nth_error_In _ _ B))) (C6 _ (or_intror (nth_error_In _ _ Er))) Ein) in Es.
          destruct (conv (q_ty q) (q_init q)) as [v|e].
          * injection Es as <- <-. injection Ei as <- <-. cbn [fst snd]. split; [auto|]. split; [exact HC|].
            unfold oinv. cbn [h_objs p_objs p_classes]. split; [rewrite !app_length, O1; auto|]. split; [|split].
            -- intros i k. rewrite nth_snoc, app_length. cbn [length]. destruct (i =? _)%nat; [intros [= <-]; lia|].
               intros H. apply O2 in H. lia.
            -- intros i j k. rewrite !nth_snoc. destruct (Nat.eqb_spec i (length (h_objs p))), (Nat.eqb_spec j (length (h_objs p))); try congruence.
               ++ intros [= <-] H. apply O2 in H. lia.
               ++ intros H [= <-]. apply O2 in H. lia.
               ++ eauto.
            -- intros i. rewrite !(nth_snoc _ _ i), O1. destruct (i =? length objs)%nat.
               ++ exists (length (p_objs p)), n, q'. rewrite nth_snoc, Nat.eqb_refl. auto.
               ++ specialize (O4 i). destruct (nth_error objs i) as [[[q0 s0]|]|]; auto.
                  destruct O4 as (k0 & n0 & q1 & A' & B' & C0 & D'). exists k0, n0, q1. split; auto. split; auto.
                  rewrite nth_snoc. destruct (Nat.eqb_spec k0 (length (p_objs p))) as [->|]; auto. apply nth_lt in B'. lia.
          * injection Es as <- <-. injection Ei as <- <-. cbn [fst snd]. auto.
        + assert (N : nth_error (h_classes p) c = None) by (apply nth_error_None; rewrite C4; apply nth_error_None; auto).
          unfold held in Es. rewrite N in Es. injection Es as <- <-. injection Ei as <- <-. auto.
    Qed.

    Lemma sim_run os : forall p reqs objs, cinv p reqs -> oinv p objs -> all_hashable hashable os ->
      fst (run p os) = fst (ideal_run conv inst (reqs, objs) os).
    Proof.
      induction os as [|o os IH]; intros p reqs objs HC HO Hh; auto. cbn [RegGenModel.run ideal_run].
      destruct (step o p) as [x p'] eqn:Es. destruct (ideal conv inst o (reqs, objs)) as [y [reqs' objs']] eqn:Ei.
      destruct (sim_step _ _ _ _ _ _ _ _ HC HO (fun q E => Hh q (or_introl E)) Es Ei) as (-> & HC' & HO').
      cbn [fst snd] in HC', HO'. specialize (IH p' reqs' objs' HC' HO' (fun q H => Hh q (or_intror H))).
      destruct (run p' os), (ideal_run conv inst (reqs', objs') os). cbn [fst] in *. congruence.
    Qed.
  End Transparent.

  Lemma inv0 : cinv proc0 [] /\ oinv proc0 [].
  Proof.
    split.
    - unfold cinv. cbn. split; [intros ? ? []|]. split; [intros [|n] q; discriminate|]. split; [intros [|n] m a b; discriminate|]. split; auto. split; [intros [|i] q; discriminate|]. intros q [[]|[]].
    - unfold oinv. cbn. split; auto. split; [intros [|i] k; discriminate|]. split; [intros [|i] j k; discriminate|]. intros [|i]; exact Logic.I.
  Qed.

  (** Types do not tell equal initial values apart. *)
  Definition respects : Prop :=
    forall t a b, hashable a = true -> hashable b = true -> ieq a b = true -> conv t a = conv t b.

  (** Whatever a program does with hashable initial values, it sees what it would see if
      each request made a fresh class - if the types do not tell equal initial values
      apart.
      Missing for C81: unhashable initial values. *)
  Theorem C81_transparent_partial os : respects -> all_hashable hashable os ->
    fst (run proc0 os) = fst (ideal_run conv inst ([], []) os).
  Proof. intros Hconv Hh. destruct inv0 as [A B]. apply sim_run; auto. Qed.

  (** The condition is needed: it holds exactly if no program sees a difference. *)
  Theorem C81_condition (f : F) :
    (forall os, all_hashable hashable os -> fst (run proc0 os) = fst (ideal_run conv inst ([], []) os)) <-> respects.
  Proof.
    split; [|intros H os; apply C81_transparent_partial; auto].
    intros H t a b Ha Hb Eab. set (q i := Req f t i (KReg false) : request F T I).
    specialize (H [OGen (q a); OGen (q b); ONew 1; OPrev 0]).
    assert (Hh : all_hashable hashable [OGen (q a); OGen (q b); ONew 1; OPrev 0] (V := V)).
    { intros q0 [[= <-]|[[= <-]|[|[|[]]]]]; try discriminate; auto. }
    specialize (H Hh).
    assert (Eq : req_eqb (q a) (q b) = true) by (apply req_eqb_iff; auto).
    cbn [RegGenModel.run RegGenModel.step] in H. unfold gen in H. cbn [q q_init] in H. rewrite Ha, Hb in H.
    cbn [negb proc0 p_cache find_key app p_classes length p_objs h_classes h_objs] in H. fold (q a) (q b) in H. rewrite Eq in H.
    cbn in H. destruct (conv t a) as [va|ea], (conv t b) as [vb|eb]; cbn in H; unfold reg_prev in H; congruence.
  Qed.

  (** Two requests return the same class object exactly if they agree in the family's
      class, the type, the kind of register and (up to [==]) the initial value, whatever
      happens before, between and after. *)
  Fixpoint requests (os : list (op F T I V)) : list (request F T I) :=
    match os with [] => [] | OGen q :: r => q :: requests r | _ :: r => requests r end.
  Lemma run_cinv os : forall p reqs, cinv p reqs -> all_hashable hashable os -> cinv (snd (run p os)) (reqs ++ requests os).
  Proof.
    induction os as [|o os IH]; intros p reqs HC Hh; [cbn; rewrite app_nil_r; auto|]. cbn [RegGenModel.run].
    assert (C' : cinv (snd (step o p)) (reqs ++ requests [o])).
    { destruct o as [q|c|o v en|o v|o|o v|o]; cbn [requests].
      - cbn [RegGenModel.step]. destruct (gen feq teq ieq hashable q p) as [r p1] eqn:Eg.
        destruct (gen_cinv q p reqs r p1 (Hh q (or_introl eq_refl)) HC Eg) as (C' & _). destruct r; auto.
      - rewrite app_nil_r. cbn [RegGenModel.step]. destruct (held (h_classes p) c); auto. destruct (nth_error (p_classes p) n) as [q|]; auto.
        destruct (conv (q_ty q) (q_init q)); auto.
      - rewrite app_nil_r. cbn [RegGenModel.step target]. destruct (held _ o); auto. destruct (nth_error (p_objs p) n) as [[n0 s]|]; auto.
        destruct (nth_error (p_classes p) n0); auto. destruct (method _ _ _ _ _); auto.
      - rewrite app_nil_r. cbn [RegGenModel.step target]. destruct (held _ o); auto. destruct (nth_error (p_objs p) n) as [[n0 s]|]; auto.
        destruct (nth_error (p_classes p) n0); auto. destruct (method _ _ _ _ _); auto.
      - rewrite app_nil_r. cbn [RegGenModel.step target]. destruct (held _ o); auto. destruct (nth_error (p_objs p) n) as [[n0 s]|]; auto.
        destruct (nth_error (p_classes p) n0); auto. destruct (method _ _ _ _ _); auto.
      - rewrite app_nil_r. cbn [RegGenModel.step target]. destruct (held _ o); auto. destruct (nth_error (p_objs p) n) as [[n0 s]|]; auto.
        destruct (nth_error (p_classes p) n0); auto. destruct (method _ _ _ _ _); auto.
      - rewrite app_nil_r. cbn [RegGenModel.step target]. destruct (held _ o); auto. destruct (nth_error (p_objs p) n) as [[n0 s]|]; auto.
        destruct (nth_error (p_classes p) n0); auto. destruct (method _ _ _ _ _); auto. }
    destruct (step o p) as [x p1]. cbn [snd] in C'. specialize (IH p1 _ C' (fun q H => Hh q (or_intror H))).
    destruct (run p1 os) as [xs p2]. cbn [snd] in *. rewrite <- app_assoc in IH.
    replace (requests (o :: os)) with (requests [o] ++ requests os) by (destruct o; auto). exact IH.
  Qed.
  Theorem C81_identity os i j a b : all_hashable hashable os ->
    nth_error (requests os) i = Some a -> nth_error (requests os) j = Some b ->
    exists n m, nth_error (h_classes (snd (run proc0 os))) i = Some (Some n) /\
      nth_error (h_classes (snd (run proc0 os))) j = Some (Some m) /\
      (n = m <-> q_fam a = q_fam b /\ q_ty a = q_ty b /\ ieq (q_init a) (q_init b) = true /\ q_kind a = q_kind b).
  Proof.
    intros Hh Ha Hb. pose proof (run_cinv os proc0 [] (proj1 inv0) Hh) as (C1 & C2 & C3 & C4 & C5 & C6). cbn [app] in C5.
    destruct (C5 _ _ Ha) as (n & qa & A1 & A2 & A3). destruct (C5 _ _ Hb) as (m & qb & B1 & B2 & B3).
    exists n, m. split; auto. split; auto. rewrite <- req_eqb_iff. split.
    - intros <-. rewrite A2 in B2. injection B2 as <-. eapply req_trans; [apply req_sym|]; eauto.
    - intros E. apply (C3 _ _ _ _ A2 B2). eapply req_trans; [eauto|]. eapply req_trans; [eauto|]. apply req_sym. auto.
  Qed.

  (** An object answers as if it were alone: with the latest write to itself that counts,
      or the initial value it was asked for with. *)
  Definition made (os : list (op F T I V)) : nat := length (filter (fun o => match o with ONew _ => true | _ => false end) os).
  Definition content (n : nat) (q : request F T I) (v0 : option V) (os : list (op F T I V)) : option V :=
    match q_kind q with
    | KReg true => last_enabled v0 (flat_map (fun o => match o with OCall m v en => if (m =? n)%nat then [{| rc_value := v; rc_en := en |}] else [] | _ => [] end) os)
    | KReg false => last (flat_map (fun o => match o with OCallN m v => if (m =? n)%nat then [v] else [] | _ => [] end) os) v0
    | KAttr => last (flat_map (fun o => match o with OPoke m v => if (m =? n)%nat && inst v (q_ty q) then [Some v] else [] | _ => [] end) os) v0
    end.

  Lemma last_cons {A} (l : list A) : forall x d, last (x :: l) d = last l x.
  Proof. induction l as [|y l IH]; intros x d; auto. change (last (x :: y :: l) d) with (last (y :: l) d). rewrite IH. symmetry. apply IH. Qed.
  Lemma content_cons n q v0 o os : content n q v0 (o :: os) = content n q (content n q v0 [o]) os.
  Proof.
    unfold content. destruct (q_kind q) as [[]|]; cbn [flat_map].
    - destruct o as [| |m v en| | | |]; auto. destruct (m =? n)%nat; auto. cbn [app]. rewrite !last_enabled_cons. cbn [rc_value rc_en]. auto.
    - destruct o as [| | |m v| | |]; auto. destruct (m =? n)%nat; auto. cbn [app]. rewrite last_cons. auto.
    - destruct o as [| | | | |m v|]; auto. destruct (_ && _); auto. cbn [app]. rewrite last_cons. auto.
  Qed.

  Lemma ideal_objs o reqs objs n q s : nth_error objs n = Some (Some (q, s)) ->
    nth_error (snd (snd (ideal conv inst o (reqs, objs)))) n = Some (Some (q, content n q s [o])).
  Proof.
    intros Hn.
    assert (App : forall x, nth_error (objs ++ [x]) n = Some (Some (q, s))).
    { intros x. rewrite nth_error_app1; auto. eapply nth_lt; eauto. }
    assert (Obj : forall m, nth_error (snd (snd (match nth_error objs m with
        | Some (Some (q0, s0)) => let (r, s') := method inst (q_kind q0) (q_ty q0) s0 o in (r, (reqs, upd objs m (Some (q0, s'))))
        | _ => (SErr NameError, (reqs, objs)) end))) n =
        Some (Some (q, if (m =? n)%nat then snd (method inst (q_kind q) (q_ty q) s o) else s))).
    { intros m. destruct (Nat.eqb_spec m n) as [->|Hm].
      - rewrite Hn. destruct (method _ _ _ _ _). cbn [snd]. apply (upd_same _ _ _ _ Hn).
      - destruct (nth_error objs m) as [[[q0 s0]|]|]; auto. destruct (method _ _ _ _ _). cbn [snd]. rewrite upd_other; auto. }
    destruct o as [q0|c|m v en|m v|m|m v|m]; cbn [ideal target]; try (rewrite Obj; do 2 f_equal; f_equal; unfold content; cbn [flat_map app]).
    - cbn [snd]. rewrite Hn. do 3 f_equal. unfold content. destruct (q_kind q) as [[]|]; auto.
    - assert (E : content n q s [ONew c] = s) by (unfold content; destruct (q_kind q) as [[]|]; auto). rewrite E.
      destruct (nth_error reqs c) as [q0|]; cbn [snd]; auto. destruct (conv (q_ty q0) (q_init q0)); cbn [snd]; auto.
    - destruct (m =? n)%nat, (q_kind q) as [[]|]; auto. cbn [method]. destruct v; cbn; auto. unfold last_enabled. cbn. destruct en; auto.
    - destruct (m =? n)%nat, (q_kind q) as [[]|]; auto.
    - destruct (m =? n)%nat, (q_kind q) as [[]|]; auto.
    - destruct (m =? n)%nat, (q_kind q) as [[]|]; auto. cbn [method andb]. destruct (inst v (q_ty q)); auto.
    - destruct (m =? n)%nat, (q_kind q) as [[]|]; auto.
  Qed.
  Lemma ideal_content os : forall w n q s, nth_error (snd w) n = Some (Some (q, s)) ->
    nth_error (snd (snd (ideal_run conv inst w os))) n = Some (Some (q, content n q s os)).
  Proof.
    induction os as [|o os IH]; intros [reqs objs] n q s Hn.
    - cbn [ideal_run snd] in *. rewrite Hn. unfold content. destruct (q_kind q) as [[]|]; auto.
    - cbn [ideal_run snd] in *. pose proof (ideal_objs o reqs objs n q s Hn) as H. destruct (ideal conv inst o (reqs, objs)) as [x w']. cbn [snd] in H.
      specialize (IH w' n q _ H). destruct (ideal_run conv inst w' os) as [xs w'']. cbn [snd] in *. rewrite IH, <- content_cons. auto.
  Qed.
  Lemma ideal_world os : forall w, fst (snd (ideal_run conv inst w os)) = fst w ++ requests os /\
    length (snd (snd (ideal_run conv inst w os))) = (length (snd w) + made os)%nat.
  Proof.
    induction os as [|o os IH]; intros [reqs objs]; [cbn; rewrite app_nil_r; auto|]. cbn [ideal_run].
    assert (H : fst (snd (ideal conv inst o (reqs, objs))) = reqs ++ requests [o] /\
      length (snd (snd (ideal conv inst o (reqs, objs)))) = (length objs + made [o])%nat).
    { destruct o as [q|c|m v en|m v|m|m v|m]; cbn [ideal requests made filter length]; rewrite ?app_nil_r, ?Nat.add_0_r; auto;
        try (destruct (nth_error objs _) as [[[q0 s0]|]|]; auto; destruct (method _ _ _ _ _); cbn [fst snd]; rewrite upd_length; auto).
      destruct (nth_error reqs c) as [q0|]; [destruct (conv (q_ty q0) (q_init q0))|]; cbn [fst snd]; rewrite app_length; auto. }
    destruct (ideal conv inst o (reqs, objs)) as [x w']. cbn [snd] in H. destruct H as [H1 H2]. destruct (IH w') as [I1 I2].
    destruct (ideal_run conv inst w' os) as [xs w'']. cbn [fst snd] in *. rewrite I1, I2, H1, H2, <- app_assoc. split.
    - f_equal. destruct o; auto.
    - unfold made. destruct o; cbn [filter length]; lia.
  Qed.
  Lemma ideal_app (a b : list (op F T I V)) : forall w, ideal_run conv inst w (a ++ b) =
    (fst (ideal_run conv inst w a) ++ fst (ideal_run conv inst (snd (ideal_run conv inst w a)) b),
     snd (ideal_run conv inst (snd (ideal_run conv inst w a)) b)).
  Proof.
    induction a as [|o a IH]; intros w.
    - cbn. destruct (ideal_run conv inst w b); auto.
    - cbn [app ideal_run]. destruct (ideal conv inst o w) as [x w']. rewrite IH. destruct (ideal_run conv inst w' a) as [xs w'']. cbn [fst snd app]. auto.
  Qed.

  Theorem C81_object h1 c q v h2 : respects ->
    nth_error (requests h1) c = Some q -> conv (q_ty q) (q_init q) = Ok v ->
    let n := made h1 in
    let look := match q_kind q with KAttr => OPeek n | _ => OPrev n end in
    all_hashable hashable (h1 ++ ONew c :: h2) ->
    last (fst (run proc0 ((h1 ++ ONew c :: h2) ++ [look]))) SNone = SVal (content n q (Some v) h2).
  Proof.
    intros Hr Hq Hv n look Hh. rewrite C81_transparent_partial; auto.
    2:{ intros q0 H. apply in_app_iff in H. destruct H as [H|[H|[]]]; auto. unfold look in H. destruct (q_kind q); discriminate. }
    rewrite ideal_app. cbn [fst].
    assert (E : exists reqs objs, snd (ideal_run conv inst ([], []) (h1 ++ ONew c :: h2)) = (reqs, objs) /\
       nth_error objs n = Some (Some (q, content n q (Some v) h2))).
    { rewrite ideal_app. cbn [snd]. destruct (ideal_world h1 ([], [])) as [W1 W2]. cbn [fst snd app length] in W1, W2.
      destruct (ideal_run conv inst ([], []) h1) as [xs [reqs objs]]. cbn [fst snd] in *. cbn [ideal_run ideal]. rewrite W1, Hq, Hv.
      destruct (ideal_run conv inst (requests h1, objs ++ [Some (q, Some v)]) h2) as [ys [reqs2 objs2]] eqn:E2.
      exists reqs2, objs2. cbn [snd]. split; auto.
      pose proof (ideal_content h2 (requests h1, objs ++ [Some (q, Some v)]) n q (Some v)) as H. rewrite E2 in H. cbn [snd] in H. apply H.
      rewrite nth_snoc, W2. fold n. rewrite Nat.eqb_refl. auto. }
    destruct E as (reqs & objs & -> & Hn).
    assert (L : fst (ideal_run conv inst (reqs, objs) [look]) = [SVal (content n q (Some v) h2)]).
    { cbn [ideal_run]. unfold look. destruct (q_kind q) as [[]|] eqn:Ek; cbn [ideal target]; rewrite Hn, Ek; auto. }
    rewrite L. apply last_last.
  Qed.
End C81.

(** ** The unrestricted claim *)
Definition C81_full : Prop :=
  forall (F T I V : Type) feq teq ieq hashable (conv : T -> I -> res V) inst,
  (forall a b : F, feq a b = true <-> a = b) -> (forall a b : T, teq a b = true <-> a = b) ->
  (forall a, ieq a a = true) -> (forall a b, ieq a b = true -> ieq b a = true) ->
  (forall a b c, ieq a b = true -> ieq b c = true -> ieq a c = true) ->
  (forall t a b, ieq a b = true -> conv t a = conv t b) ->
  forall os : list (op F T I V), fst (run feq teq ieq hashable conv inst proc0 os) = fst (ideal_run conv inst ([], []) os).

(** ** Concrete cases: bit vectors of some width, initial values an int, a bool or a list
    of bits (which BitVector accepts, and which has no hash). *)
Inductive pyinit := IInt (z : Z) | IBool (b : bool) | IList (l : list bool).
Definition num (i : pyinit) : option Z := match i with IInt z => Some z | IBool b => Some (b2z b) | IList _ => None end.
Fixpoint bits_eqb (a b : list bool) : bool :=
  match a, b with [], [] => true | x :: a', y :: b' => Bool.eqb x y && bits_eqb a' b' | _, _ => false end.
Definition py_eqb (a b : pyinit) : bool :=
  match num a, num b with
  | Some x, Some y => x =? y
  | None, None => match a, b with IList l, IList m => bits_eqb l m | _, _ => false end
  | _, _ => false
  end.
Definition py_hashable (i : pyinit) : bool := match i with IList _ => false | _ => true end.
Definition bv_new (w : Z) (i : pyinit) : res Z :=
  match i with
  | IList l => if Z.of_nat (length l) =? w then Ok (fold_right (fun b z => 2 * z + b2z b) 0 l) else Err TypeError
  | _ => match num i with Some z => Ok (wrap w z) | None => Err TypeError end
  end.
Lemma bits_eqb_eq a : forall b, bits_eqb a b = true <-> a = b.
Proof.
  induction a as [|x a IH]; intros [|y b]; cbn; try (split; congruence).
  rewrite andb_true_iff, IH, eqb_true_iff. split; [intros [-> ->]; auto|intros [= -> ->]; auto].
Qed.
Lemma py_eqb_spec a b : py_eqb a b = true <-> num a = num b /\ (num a = None -> a = b).
Proof.
  unfold py_eqb. destruct a as [x|x|x], b as [y|y|y]; cbn [num]; rewrite ?Z.eqb_eq, ?bits_eqb_eq.
  all: try (split; [intros ->; split; congruence|intros [[= E] _]; auto]).
  all: try (split; [discriminate|intros [? _]; discriminate]).
  split; [intros ->; auto|]. intros [_ H]. specialize (H eq_refl). congruence.
Qed.
Lemma bv_respects w a b : py_eqb a b = true -> bv_new w a = bv_new w b.
Proof.
  rewrite py_eqb_spec. intros [E H]. destruct a as [x|x|x], b as [y|y|y]; cbn [num] in *; try discriminate; try (unfold bv_new; cbn [num]; congruence).
  rewrite (H eq_refl). auto.
Qed.
Definition prun := run Bool.eqb Z.eqb py_eqb py_hashable bv_new (fun v w => (0 <=? v) && (v <? 2 ^ w)).
Definition pideal := ideal_run (F := bool) bv_new (fun v w => (0 <=? v) && (v <? 2 ^ w)).
Lemma py_hyps : (forall a b, py_eqb a b = true -> py_eqb b a = true) /\ (forall a, py_eqb a a = true) /\
  (forall a b c, py_eqb a b = true -> py_eqb b c = true -> py_eqb a c = true).
Proof.
  split; [|split].
  - intros a b. rewrite !py_eqb_spec. intros [E H]. split; [congruence|]. intros N. symmetry. apply H. congruence.
  - intros a. apply py_eqb_spec. auto.
  - intros a b c. rewrite !py_eqb_spec. intros [E H] [E' H']. split; [congruence|]. intros N. rewrite (H N). apply H'. congruence.
Qed.

(** A list of bits is a good initial value of a BitVector, but not a dict key. *)
Theorem C81_full_refuted : ~ C81_full.
Proof.
  intros H. destruct py_hyps as (S & R & Tr).
  specialize (H bool Z pyinit Z Bool.eqb Z.eqb py_eqb py_hashable bv_new (fun _ _ => true) eqb_true_iff Z.eqb_eq R S Tr bv_respects
    [OGen (Req true 2 (IList [true; false]) (KReg true))]).
  vm_compute in H. discriminate.
Qed.

(** Two requests for [BitVector[8]], with 1 and True, share a class; their registers do
    not share values; another width, family or kind gives another class. *)
Definition story : list (op bool Z pyinit Z) :=
  let q i k w f := OGen (Req f w i k) in
  [q (IInt 1) (KReg true) 8 true; q (IBool true) (KReg true) 8 true; q (IInt 1) (KReg true) 4 true; q (IInt 1) (KReg true) 8 false;
   q (IInt 1) KAttr 8 true; q (IInt 1) (KReg false) 8 true;
   ONew 0; ONew 1; ONew 4; ONew 5;
   OCall 0 (Some 5) true; OCall 1 (Some 9) false; OCall 0 (Some 6) false; OPoke 2 300; OPoke 2 30; OCallN 3 (Some 7); OCall 3 (Some 7) true;
   OPrev 0; OPrev 1; OPeek 2; OPrev 3].
Example story_seen : prun proc0 story = (
  [SNone; SNone; SNone; SNone; SNone; SNone; SNone; SNone; SNone; SNone;
   SVal (Some 1); SVal (Some 1); SVal (Some 5); SErr TypeError; SNone; SVal (Some 1); SErr TypeError;
   SVal (Some 5); SVal (Some 1); SVal (Some 30); SVal (Some 7)], snd (prun proc0 story)) /\
  h_classes (snd (prun proc0 story)) = [Some 0; Some 0; Some 1; Some 2; Some 3; Some 4]%nat /\
  fst (pideal ([], []) story) = fst (prun proc0 story) /\ all_hashable py_hashable story.
Proof.
  split; [|split; [|split]]; try (vm_compute; reflexivity).
  intros q H. cbn in H. repeat (destruct H as [H|H]; [try discriminate; injection H as <-; reflexivity|]). destruct H.
Qed.

Print Assumptions C81_transparent_partial.
Print Assumptions C81_condition.
Print Assumptions C81_identity.
Print Assumptions C81_object.
Print Assumptions C81_full_refuted.
