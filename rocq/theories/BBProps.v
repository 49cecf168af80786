(** Properties C25-C26: black boxes. *)
From Coq Require Import String ZArith List Bool Lia PeanoNat.
From Verif Require Import Base BBModel.
Import ListNotations.
Open Scope list_scope.

(** * C25 *)
Section C25.
  Context {D : Type} (ins : option (list string)) (nout : option nat).

  (** Specification over the operations done so far, most recent first. *)
  Definition sets (o : bbop D) : bool :=
    match o, nout with
    | BSet a, Some n => Nat.eqb (length a) n
    | _, _ => false
    end.
  (** What a call should return: the outputs set last, a single one bare.
      A single [None] counts as nothing set. *)
  Definition outputs_before (r : list (bbop D)) : option (outs D) :=
    match find sets r with
    | Some (BSet [None]) => None
    | Some (BSet [Some d]) => Some (OVal d)
    | Some (BSet a) => Some (OTup a)
    | _ => None
    end.
  (** Arguments match the declared inputs: all positional or all by keyword. *)
  Definition fits (a : list (option D)) (k : list (string * option D)) : Prop :=
    exists names, ins = Some names /\
      ((a <> [] /\ k = [] /\ length a = length names) \/
       (a = [] /\ k <> [] /\ forall n, In n (map fst k) <-> In n names)).
  (** Arguments in declared order. *)
  Definition declared (names : list string) (a : list (option D)) (k : list (string * option D)) :=
    match a with
    | [] => map (fun n => match dget String.eqb k n with Some v => v | None => None end) names
    | _ => a
    end.
  (** Arguments in the order of the call. *)
  Definition as_called (a : list (option D)) (k : list (string * option D)) :=
    match a with [] => map snd k | _ => a end.

  (** [l] are the arguments, ordered by [ord], of the last successful call. *)
  Inductive last_inputs (ord : list (option D) -> list (string * option D) -> list (option D))
    : list (bbop D) -> option (list (option D)) -> Prop :=
  | li_nil : last_inputs ord [] None
  | li_call a k r : fits a k -> outputs_before r <> None ->
      last_inputs ord (BCall a k :: r) (Some (ord a k))
  | li_skip o r x : (forall a k, o = BCall a k -> ~ (fits a k /\ outputs_before r <> None)) ->
      last_inputs ord r x -> last_inputs ord (o :: r) x.

  (** Expected outcome of an operation after [r]. *)
  Definition outcome ord (r : list (bbop D)) (o : bbop D) (x : res (bbres D)) : Prop :=
    match o with
    | BSet a => if sets o then x = Ok RUnit else exists e, x = Err e
    | BCall a k =>
        (forall y, outputs_before r = Some y -> fits a k -> x = Ok (ROut y)) /\
        ((outputs_before r = None \/ ~ fits a k) -> exists e, x = Err e)
    | BGet => exists l, last_inputs ord r l /\
              x = match l with Some v => Ok (RIn v) | None => Err ValueError end
    end.

  Lemma same_keys_spec a b : same_keys a b = true <-> (forall n, In n a <-> In n b).
  Proof.
    unfold same_keys. rewrite andb_true_iff, !forallb_forall.
    assert (E : forall x l, existsb (String.eqb x) l = true <-> In x l).
    { intros x l. rewrite existsb_exists. split.
      - intros (y & I & H). apply String.eqb_eq in H. now subst.
      - intros I. exists x. split; [exact I|apply String.eqb_refl]. }
    split.
    - intros [H1 H2] n. split; intros I; apply E; auto.
    - intros H. split; intros x I; apply E; apply H; exact I.
  Qed.

  (** State reached after [r]. *)
  Definition rep (r : list (bbop D)) (s : bbstate D) : Prop :=
    bb_out s = match outputs_before r with Some y => y | None => ONone end /\
    outputs_before r <> Some ONone /\
    last_inputs as_called r (bb_in s).

  Lemma bb_call_fits s a k y :
    bb_out s = y -> y <> ONone -> fits a k ->
    bb_call ins s a k = (Ok y, {| bb_in := Some (as_called a k); bb_out := y |}).
  Proof.
    intros Hy Hn (names & Hi & H). unfold bb_call. rewrite Hy, Hi.
    destruct H as [(Ha & -> & Hl)|(-> & Hk & Hs)].
    - destruct a as [|x a]; [congruence|]. cbn [length Nat.ltb Nat.leb Bool.eqb as_called] in *.
      rewrite Hl, Nat.eqb_refl. destruct y; [congruence|reflexivity|reflexivity].
    - destruct k as [|x k]; [congruence|]. cbn [length Nat.ltb Nat.leb Bool.eqb as_called].
      rewrite (proj2 (same_keys_spec _ _) Hs). destruct y; [congruence|reflexivity|reflexivity].
  Qed.

  Lemma bb_call_unfit s a k : bb_out s = ONone \/ ~ fits a k ->
    exists e, bb_call ins s a k = (Err e, s).
  Proof.
    intros H. unfold bb_call. destruct (bb_out s) eqn:Eo; [eauto| |];
      (destruct H as [H|H]; [discriminate|]);
      (destruct (Bool.eqb _ _) eqn:Eb; [eauto|]);
      (destruct ins as [names|] eqn:Ei; [|eauto]);
      destruct a as [|x a]; destruct k as [|y k]; cbn [length Nat.ltb Nat.leb Bool.eqb] in *; try discriminate.
    - destruct (same_keys _ _) eqn:Es; [|eauto]. exfalso. apply H. exists names. split; [auto|].
      right. split; [reflexivity|split; [congruence|apply same_keys_spec; exact Es]].
    - destruct (Nat.eqb _ _) eqn:Es; [|eauto]. exfalso. apply H. exists names. split; [auto|].
      left. repeat split; try congruence. apply Nat.eqb_eq. exact Es.
    - destruct (same_keys _ _) eqn:Es; [|eauto]. exfalso. apply H. exists names. split; [auto|].
      right. split; [reflexivity|split; [congruence|apply same_keys_spec; exact Es]].
    - destruct (Nat.eqb _ _) eqn:Es; [|eauto]. exfalso. apply H. exists names. split; [auto|].
      left. repeat split; try congruence. apply Nat.eqb_eq. exact Es.
  Qed.

  Lemma fits_dec a k : fits a k \/ ~ fits a k.
  Proof.
    destruct ins as [names|] eqn:Ei; [|right; intros (n & E & _); congruence].
    destruct a as [|x a], k as [|y k].
    - right. intros (n & _ & [(H & _)|(_ & H & _)]); congruence.
    - destruct (same_keys (map fst (y :: k)) names) eqn:Es.
      + left. exists names. split; [auto|right]. split; [reflexivity|split; [congruence|apply same_keys_spec; exact Es]].
      + right. intros (n & E & [(H & _)|(_ & _ & H)]); [congruence|].
        rewrite E in Ei. injection Ei as ->.
        apply same_keys_spec in H. congruence.
    - destruct (Nat.eqb (length (x :: a)) (length names)) eqn:Es.
      + left. exists names. split; [auto|left]. repeat split; try congruence. now apply Nat.eqb_eq.
      + right. intros (n & E & [(_ & _ & H)|(H & _)]); [|congruence].
        rewrite E in Ei. injection Ei as ->. apply Nat.eqb_neq in Es. congruence.
    - right. intros (n & _ & [(_ & H & _)|(H & _)]); congruence.
  Qed.

  Lemma rep_step r s o : rep r s ->
    outcome as_called r o (fst (bb_step ins nout s o)) /\ rep (o :: r) (snd (bb_step ins nout s o)).
  Proof.
    intros (H1 & H2 & H3). destruct o as [a|a k|]; cbn [bb_step].
    - unfold bb_set_outputs.
      assert (S : sets (BSet a) = match nout with Some n => Nat.eqb (length a) n | None => false end)
        by reflexivity.
      assert (Sk : forall x, last_inputs as_called r x -> last_inputs as_called (BSet a :: r) x)
        by (intros; apply li_skip; [intros; discriminate|assumption]).
      destruct nout as [n|] eqn:En.
      + destruct (Nat.eqb (length a) n) eqn:El; cbn [fst snd].
        * split; [cbn [outcome]; now rewrite S|].
          split; [|split]; cbn [bb_out bb_in]; [| |apply Sk; exact H3];
            unfold outputs_before; cbn [find]; rewrite S;
            destruct a as [|[d|] [|x a]]; try reflexivity; discriminate.
        * split; [cbn [outcome]; rewrite S; eauto|].
          split; [|split]; [| |apply Sk; exact H3];
            unfold outputs_before; cbn [find]; rewrite S; assumption.
      + cbn [fst snd]. split; [cbn [outcome]; rewrite S; eauto|].
        split; [|split]; [| |apply Sk; exact H3];
          unfold outputs_before; cbn [find]; rewrite S; assumption.
    - destruct (outputs_before r) as [y|] eqn:Eo.
      + destruct (fits_dec a k) as [Hf|Hf].
        * rewrite (bb_call_fits s a k y) by (auto; congruence).
          cbn [fst snd]. split.
          -- cbn [outcome]. rewrite Eo. split; [intros z E _; congruence|].
             intros [E|E]; [discriminate|contradiction].
          -- split; [|split]; cbn [bb_in bb_out].
             ++ unfold outputs_before in *. cbn [find sets]. now rewrite Eo.
             ++ unfold outputs_before in *. cbn [find sets]. now rewrite Eo.
             ++ apply li_call; [exact Hf|congruence].
        * destruct (bb_call_unfit s a k (or_intror Hf)) as [e Ee]. rewrite Ee. cbn [fst snd]. split.
          -- cbn [outcome]. split; [intros; contradiction|eauto].
          -- split; [|split]; cbn [bb_in bb_out].
             ++ unfold outputs_before in *. cbn [find sets]. now rewrite Eo.
             ++ unfold outputs_before in *. cbn [find sets]. now rewrite Eo.
             ++ apply li_skip; [|exact H3]. intros a' k' E [F _]. injection E as -> ->. contradiction.
      + destruct (bb_call_unfit s a k (or_introl H1)) as [e Ee]. rewrite Ee. cbn [fst snd]. split.
        * cbn [outcome]. rewrite Eo. split; [intros; discriminate|eauto].
        * split; [|split].
          -- unfold outputs_before in *. cbn [find sets]. now rewrite Eo.
          -- unfold outputs_before in *. cbn [find sets]. now rewrite Eo.
          -- apply li_skip; [|exact H3]. intros a' k' _ [_ F]. congruence.
    - cbn [fst snd]. split.
      + cbn [outcome]. exists (bb_in s). split; [exact H3|].
        unfold bb_get_inputs. destruct (bb_in s); reflexivity.
      + split; [|split].
        * unfold outputs_before in *. cbn [find sets]. exact H1.
        * unfold outputs_before in *. cbn [find sets]. exact H2.
        * apply li_skip; [intros; discriminate|exact H3].
  Qed.

  Lemma rep_run h : forall r s, rep r s -> rep (rev h ++ r) (snd (bb_run ins nout s h)).
  Proof.
    induction h as [|o h IH]; intros r s H; cbn [bb_run rev]; [exact H|].
    destruct (rep_step r s o H) as [_ Hs]. destruct (bb_step ins nout s o) as [x s'].
    cbn [snd] in Hs. specialize (IH _ _ Hs). rewrite <- app_assoc.
    destruct (bb_run ins nout s' h). exact IH.
  Qed.

  Lemma bb_run_split (s : bbstate D) h1 o h2 :
    nth_error (fst (bb_run ins nout s (h1 ++ o :: h2))) (length h1)
    = Some (fst (bb_step ins nout (snd (bb_run ins nout s h1)) o)).
  Proof.
    revert s. induction h1 as [|x h1 IH]; intros s; cbn [List.app bb_run length].
    - cbn [snd]. destruct (bb_step ins nout s o) as [r s']. destruct (bb_run ins nout s' h2). reflexivity.
    - destruct (bb_step ins nout s x) as [r s']. specialize (IH s').
      destruct (bb_run ins nout s' (h1 ++ o :: h2)) as [rs t]. destruct (bb_run ins nout s' h1) as [rs1 t1].
      exact IH.
  Qed.

  Lemma last_inputs_ext ord1 ord2 r x :
    (forall a k, In (BCall a k) r -> fits a k -> ord1 a k = ord2 a k) ->
    last_inputs ord1 r x -> last_inputs ord2 r x.
  Proof.
    intros H L. induction L as [|a k r F O|o r x N L IH].
    - constructor.
    - rewrite (H a k (or_introl eq_refl) F). now constructor.
    - constructor; [exact N|]. apply IH. intros a k I. apply H. now right.
  Qed.
End C25.

(** Full property: in every history every operation has the expected outcome,
    with the reported inputs in declared order. *)
Definition C25_full : Prop :=
  forall (D : Type) (names : list string) (n : nat) (h1 : list (bbop D)) o h2,
    NoDup names -> names <> [] ->
    exists x, nth_error (fst (bb_run (Some names) (Some n) bb_init (h1 ++ o :: h2))) (length h1) = Some x /\
              outcome (Some names) (Some n) (declared names) (rev h1) o x.

(** Keyword arguments are reported in the order of the call. *)
Theorem C25_full_refuted : ~ C25_full.
Proof.
  intros H.
  specialize (H Z ["x"; "y"]%string 1%nat
     [BSet [Some 0%Z]; BCall [] [("y"%string, Some 1%Z); ("x"%string, Some 2%Z)]] BGet []).
  assert (N : NoDup ["x"; "y"]%string).
  { repeat constructor; cbn; intuition discriminate. }
  destruct (H N ltac:(discriminate)) as (x & E & O). vm_compute in E. injection E as <-.
  cbn [outcome rev List.app] in O. destruct O as (l & L & E).
  destruct l as [l|]; [|discriminate]. injection E as <-.
  inversion L as [|a k r F O'|o r x N' L' Eo Ex]; subst.
  apply (N' _ _ eq_refl). split; [|discriminate].
  exists ["x"; "y"]%string. split; [reflexivity|right]. split; [reflexivity|]. split; [discriminate|].
  intros n. cbn. tauto.
Qed.

(** The same with inputs in the order of the call: true in every history and
    for every interface. *)
Theorem C25_protocol_call_order :
  forall (D : Type) (ins : option (list string)) (nout : option nat) (h1 : list (bbop D)) o h2,
    exists x, nth_error (fst (bb_run ins nout bb_init (h1 ++ o :: h2))) (length h1) = Some x /\
              outcome ins nout as_called (rev h1) o x.
Proof.
  intros D ins nout h1 o h2. eexists. split; [apply bb_run_split|].
  apply rep_step. pose proof (rep_run ins nout h1 [] bb_init) as H. rewrite app_nil_r in H.
  apply H. split; [reflexivity|split; [discriminate|constructor]].
Qed.

Lemma dget_declared {D} (k : list (string * option D)) :
  NoDup (map fst k) ->
  map (fun n => match dget String.eqb k n with Some v => v | None => None end) (map fst k) = map snd k.
Proof.
  induction k as [|[n v] k IH]; intros N; [reflexivity|]. inversion N as [|? ? Nn Nk]; subst.
  cbn [map fst snd dget]. rewrite String.eqb_refl. f_equal.
  rewrite <- (IH Nk). apply map_ext_in. intros m I.
  destruct (String.eqb_spec m n) as [->|]; [contradiction|reflexivity].
Qed.

(** Missing for C25: keyword calls in another order than declared. *)
Theorem C25_protocol_partial :
  forall (D : Type) (names : list string) (n : nat) (h1 : list (bbop D)) o h2,
    NoDup names -> names <> [] ->
    (forall a k, In (BCall a k) h1 -> k <> [] -> map fst k = names) ->
    exists x, nth_error (fst (bb_run (Some names) (Some n) bb_init (h1 ++ o :: h2))) (length h1) = Some x /\
              outcome (Some names) (Some n) (declared names) (rev h1) o x.
Proof.
  intros D names n h1 o h2 Nd Ne Hk.
  destruct (C25_protocol_call_order D (Some names) (Some n) h1 o h2) as (x & E & O).
  exists x. split; [exact E|]. destruct o as [a|a k|]; [exact O|exact O|].
  destruct O as (l & L & Ex). exists l. split; [|exact Ex]. revert L. apply last_inputs_ext.
  intros a k I (nm & Enm & F). injection Enm as <-. unfold as_called, declared.
  destruct a as [|y a]; [|reflexivity].
  destruct F as [(F & _)|(_ & F & _)]; [congruence|].
  specialize (Hk [] k (proj2 (in_rev _ _) I) F). rewrite <- Hk in *. symmetry. now apply dget_declared.
Qed.

(** A black box without inputs can never be called, whatever is done before. *)
Theorem C25_no_inputs_refuted :
  forall (D : Type) nout (h1 : list (bbop D)) a k h2,
    exists e, nth_error (fst (bb_run None nout bb_init (h1 ++ BCall a k :: h2))) (length h1) = Some (Err e).
Proof.
  intros D nout h1 a k h2.
  destruct (C25_protocol_call_order D None nout h1 (BCall a k) h2) as (x & E & _ & O).
  destruct O as [e ->]; [right; intros (n & F & _); discriminate|eauto].
Qed.

(** Setting the single output to [None] makes the next call raise. *)
Theorem C25_none_output_refuted :
  fst (bb_run (D := Z) (Some ["x"%string]) (Some 1%nat) bb_init [BSet [None]; BCall [Some 3%Z] []])
  = [Ok RUnit; Err ValueError].
Proof. reflexivity. Qed.

Example C25_case :
  let s := fun v => BSet [Some v] in
  fst (bb_run (Some ["x"; "y"]%string) (Some 1%nat) bb_init
    [BGet; BCall [Some 1%Z; Some 2%Z] []; s 7%Z; BCall [Some 1%Z; Some 2%Z] []; BGet;
     BCall [] [("x"%string, Some 3%Z); ("y"%string, Some 4%Z)]; BGet; BCall [Some 1%Z] []; BGet; s 8%Z;
     BCall [Some 5%Z; Some 6%Z] []; BSet [Some 1%Z; Some 2%Z]])
  = [Err ValueError; Err ValueError; Ok RUnit; Ok (ROut (OVal 7%Z)); Ok (RIn [Some 1; Some 2])%Z;
     Ok (ROut (OVal 7%Z)); Ok (RIn [Some 3; Some 4])%Z; Err ValueError; Ok (RIn [Some 3; Some 4])%Z; Ok RUnit;
     Ok (ROut (OVal 8%Z)); Err ValueError].
Proof. reflexivity. Qed.

(** * C26 *)

(** Specification: [t] is a black box reached from [o] along [p], passing only
    through Peak objects that are not black boxes. *)
Inductive bbpath (h : bheap) : nat -> path -> nat -> Prop :=
| bp_here o ob : nth_error h o = Some ob -> o_peak ob = true -> o_bb ob = true -> bbpath h o [] o
| bp_step o ob n l p t : nth_error h o = Some ob -> o_peak ob = true -> o_bb ob = false ->
    In (n, l) (o_fields ob) -> bbpath h l p t -> bbpath h o (n :: p) t.

(** Attribute names of an object are distinct, references lead to objects, and
    Peak attributes have smaller rank (no cycles through Peak attributes). *)
Definition heap_ok (h : bheap) (rank : nat -> nat) : Prop :=
  forall o ob, nth_error h o = Some ob ->
    NoDup (map fst (o_fields ob)) /\
    forall n l, In (n, l) (o_fields ob) ->
      exists ob', nth_error h l = Some ob' /\ (o_peak ob' = true -> rank l < rank o)%nat.

(** [d] lists exactly the black boxes under [o], with paths prefixed by [p]. *)
Definition exact (h : bheap) (o : nat) (p : path) (d : bbdict) : Prop :=
  NoDup (map fst d) /\
  forall q t, In (q, t) d <-> exists q', q = p ++ q' /\ bbpath h o q' t.

Definition cache_ok (h : bheap) (c : bcache) : Prop :=
  (forall o p d, dget ckey_eqb (c_all c) (o, p) = Some d ->
     exact h o p d /\ exists ob, nth_error h o = Some ob /\ o_peak ob = true) /\
  (forall o p t, dget ckey_eqb (c_one c) (o, p) = Some t -> walk h o p = Ok t).

Lemma path_eqb_eq p q : path_eqb p q = true <-> p = q.
Proof.
  unfold path_eqb. revert q. induction p as [|x p IH]; intros [|y q]; cbn [list_eqb]; try (split; congruence).
  rewrite andb_true_iff, String.eqb_eq, IH. split; [intros [-> ->]; reflexivity|].
  intros H. injection H. auto.
Qed.

Lemma ckey_eqb_eq a b : ckey_eqb a b = true <-> a = b.
Proof.
  destruct a as [o p], b as [o' p']. unfold ckey_eqb. cbn [fst snd].
  rewrite andb_true_iff, Nat.eqb_eq, path_eqb_eq. split; [intros [-> ->]; reflexivity|].
  intros H. injection H. auto.
Qed.

Lemma dset_new (d : bbdict) q t : ~ In q (map fst d) -> dset path_eqb d q t = d ++ [(q, t)].
Proof.
  induction d as [|[q' t'] d IH]; cbn [map fst dset List.app]; intros H; [reflexivity|].
  destruct (path_eqb q q') eqn:E; [apply path_eqb_eq in E; exfalso; apply H; left; auto|].
  f_equal. apply IH. intros I. apply H. now right.
Qed.

Lemma merge_disjoint sub : forall ret,
  NoDup (map fst sub) -> (forall q, In q (map fst ret) -> ~ In q (map fst sub)) ->
  merge ret sub = ret ++ sub.
Proof.
  unfold merge. induction sub as [|[q t] sub IH]; intros ret N Hd; cbn [fold_left].
  - now rewrite app_nil_r.
  - cbn [map fst] in N. inversion N as [|? ? Nq Ns]; subst. cbn [fst snd].
    rewrite dset_new by (intros I; apply (Hd q I); now left).
    rewrite IH.
    + rewrite <- app_assoc. reflexivity.
    + exact Ns.
    + intros q' I J. rewrite map_app in I. apply in_app_or in I as [I|[<-|[]]].
      * apply (Hd q' I). now right.
      * contradiction.
Qed.

(** The loop over the attributes, named. *)
Definition gbb_loop (f : nat) (h : bheap) (p : path) :=
  fix loop (fs : list (string * nat)) (ret : bbdict) (c : bcache) : res bbdict * bcache :=
    match fs with
    | [] => (Ok ret, c)
    | (n, l) :: fs' =>
        match nth_error h l with
        | Some ob' =>
            if o_peak ob' then
              let (r, c') := gbb f h c l (p ++ [n]) in
              match r with
              | Ok sub => loop fs' (merge ret sub) c'
              | Err e => (Err e, c')
              end
            else loop fs' ret c
        | None => (Err OutOfFuel, c)
        end
    end.

Lemma cache_ok_add_all h c o p d ob : nth_error h o = Some ob -> o_peak ob = true ->
  cache_ok h c -> exact h o p d -> cache_ok h (add_all c (o, p) d).
Proof.
  intros Ho Hp [H1 H2] He. split; [|exact H2]. intros o' p' d'. cbn [add_all c_all dget].
  destruct (ckey_eqb (o', p') (o, p)) eqn:E.
  - apply ckey_eqb_eq in E. injection E as -> ->. intros E. injection E as <-. eauto.
  - apply H1.
Qed.

Lemma NoDup_app_intro {A} (l1 l2 : list A) :
  NoDup l1 -> NoDup l2 -> (forall x, In x l1 -> ~ In x l2) -> NoDup (l1 ++ l2).
Proof.
  induction l1 as [|x l1 IH]; cbn [List.app]; intros N1 N2 H; [exact N2|].
  inversion N1; subst. constructor.
  - rewrite in_app_iff. intros [I|I]; [contradiction|]. apply (H x); [now left|exact I].
  - apply IH; auto. intros y I. apply H. now right.
Qed.

Lemma gbb_spec h rank : heap_ok h rank -> forall f c o p ob,
  cache_ok h c -> nth_error h o = Some ob -> o_peak ob = true -> (rank o < f)%nat ->
  exists d, fst (gbb f h c o p) = Ok d /\ exact h o p d /\ cache_ok h (snd (gbb f h c o p)).
Proof.
  intros Hh. induction f as [|f IH]; intros c o p ob Hc Ho Hp Hr; [lia|].
  cbn [gbb]. destruct (dget ckey_eqb (c_all c) (o, p)) as [d|] eqn:Ed.
  { exists d. split; [reflexivity|]. split; [exact (proj1 (proj1 Hc _ _ _ Ed))|exact Hc]. }
  rewrite Ho, Hp. cbn [negb]. destruct (o_bb ob) eqn:Eb.
  { assert (He : exact h o p [(p, o)]).
    { split; [repeat constructor; intros []|]. intros q t. split.
      - intros [E|[]]. injection E as <- <-. exists []. rewrite app_nil_r. split; [reflexivity|].
        econstructor; eassumption.
      - intros (q' & -> & B). inversion B; subst.
        + rewrite app_nil_r. now left.
        + congruence. }
    eexists. cbn [fst snd]. split; [reflexivity|]. split; [exact He|]. now apply (cache_ok_add_all h _ o p _ ob). }
  change (fix loop (fs : list (string * nat)) (ret : bbdict) (c0 : bcache) {struct fs} := _)
    with (gbb_loop f h p).
  destruct (Hh o ob Ho) as [Nf Hf].
  (* loop invariant *)
  assert (L : forall fs done (ret : bbdict) c, done ++ fs = o_fields ob -> cache_ok h c ->
            NoDup (map fst ret) ->
            (forall q t, In (q, t) ret <-> exists n l q', In (n, l) done /\ q = p ++ n :: q' /\ bbpath h l q' t) ->
            exists d, fst (gbb_loop f h p fs ret c) = Ok d /\ NoDup (map fst d) /\
              (forall q t, In (q, t) d <-> exists n l q', In (n, l) (o_fields ob) /\ q = p ++ n :: q' /\ bbpath h l q' t) /\
              cache_ok h (snd (gbb_loop f h p fs ret c))).
  { induction fs as [|[n l] fs IHl]; intros done ret c0 Hd Hc0 Nr Hret; cbn [gbb_loop].
    - rewrite app_nil_r in Hd. subst done. exists ret. cbn [fst snd]. auto.
    - assert (Inl : In (n, l) (o_fields ob)) by (rewrite <- Hd; apply in_or_app; right; now left).
      destruct (Hf n l Inl) as (ob' & Hl & Hrk). rewrite Hl.
      destruct (o_peak ob') eqn:Ep.
      + destruct (IH c0 l (p ++ [n]) ob' Hc0 Hl Ep ltac:(specialize (Hrk eq_refl); lia)) as (sub & E1 & E2 & E3).
        destruct (gbb f h c0 l (p ++ [n])) as [r c']. cbn [fst snd] in E1, E3. subst r.
        destruct E2 as [Ns Hs].
        assert (Disj : forall q, In q (map fst ret) -> ~ In q (map fst sub)).
        { intros q I J. apply in_map_iff in I as ([q1 t1] & <- & I). apply in_map_iff in J as ([q2 t2] & E & J).
          cbn [fst] in E. subst q2. apply Hret in I as (n1 & l1 & q1' & I1 & -> & _).
          apply Hs in J as (q2' & E & _). rewrite <- app_assoc in E. apply app_inv_head in E.
          cbn [List.app] in E. injection E as -> _.
          assert (NoDup (map fst (done ++ (n, l) :: fs))) as Nd by (rewrite Hd; exact Nf).
          rewrite map_app in Nd. cbn [map fst] in Nd. apply NoDup_remove_2 in Nd. apply Nd.
          apply in_or_app. left. apply (in_map fst) in I1. exact I1. }
        rewrite (merge_disjoint sub ret Ns Disj).
        apply (IHl (done ++ [(n, l)])).
        * rewrite <- app_assoc. exact Hd.
        * exact E3.
        * rewrite map_app. apply NoDup_app_intro; auto.
        * intros q t. rewrite in_app_iff, Hret, Hs. split.
          -- intros [(n1 & l1 & q' & I & E & B)|(q' & E & B)].
             ++ exists n1, l1, q'. split; [apply in_or_app; now left|auto].
             ++ exists n, l, q'. split; [apply in_or_app; right; now left|].
                rewrite <- app_assoc in E. auto.
          -- intros (n1 & l1 & q' & I & E & B). apply in_app_or in I as [I|[I|[]]].
             ++ left. exists n1, l1, q'. auto.
             ++ injection I as <- <-. right. exists q'. rewrite <- app_assoc. auto.
      + apply (IHl (done ++ [(n, l)])).
        * rewrite <- app_assoc. exact Hd.
        * exact Hc0.
        * exact Nr.
        * intros q t. rewrite Hret. split.
          -- intros (n1 & l1 & q' & I & E & B). exists n1, l1, q'. split; [apply in_or_app; now left|auto].
          -- intros (n1 & l1 & q' & I & E & B). apply in_app_or in I as [I|[I|[]]].
             ++ exists n1, l1, q'. auto.
             ++ injection I as <- <-. inversion B; congruence. }
  destruct (L (o_fields ob) [] [] c eq_refl Hc (NoDup_nil _)) as (d & E1 & E2 & E3 & E4).
  { intros q t. split; [intros []|]. intros (n & l & q' & [] & _). }
  destruct (gbb_loop f h p (o_fields ob) [] c) as [r c'] eqn:El. cbn [fst snd] in E1, E4. subst r.
  assert (He : exact h o p d).
  { split; [exact E2|]. intros q t. rewrite E3. split.
    - intros (n & l & q' & I & E & B). exists (n :: q'). split; [exact E|].
      eapply bp_step; eassumption.
    - intros (q' & E & B). inversion B as [|? ob2 n l p' ? Ho' _ _ I B']; subst; [congruence|].
      rewrite Ho in Ho'. injection Ho' as <-. exists n, l, p'. auto. }
  exists d. cbn [fst snd]. split; [reflexivity|]. split; [exact He|]. now apply (cache_ok_add_all h _ o p _ ob).
Qed.

Lemma dget_In_nodup (l : list (string * nat)) n v : NoDup (map fst l) -> In (n, v) l -> dget String.eqb l n = Some v.
Proof.
  induction l as [|[m w] l IH]; intros N I; [contradiction|]. cbn [map fst] in N. inversion N; subst.
  cbn [dget]. destruct I as [I|I].
  - injection I as -> ->. now rewrite String.eqb_refl.
  - destruct (String.eqb_spec n m) as [->|]; [|auto].
    exfalso. apply (in_map fst) in I. contradiction.
Qed.

Lemma bbpath_walk h rank o p t : heap_ok h rank -> bbpath h o p t -> walk h o p = Ok t.
Proof.
  intros Hh B. induction B as [|o ob n l p t Ho Hp Hb I B IH]; [reflexivity|].
  cbn [walk]. rewrite Ho. destruct (Hh o ob Ho) as [N Hf].
  rewrite (dget_In_nodup _ _ _ N I). destruct (Hf n l I) as (ob' & Hl & _). rewrite Hl.
  assert (o_peak ob' = true) as -> by (inversion B; congruence). exact IH.
Qed.

Lemma gb1_spec h c o p : cache_ok h c ->
  fst (gb1 h c o p) = walk h o p /\ cache_ok h (snd (gb1 h c o p)).
Proof.
  intros [H1 H2]. unfold gb1. destruct (dget ckey_eqb (c_one c) (o, p)) as [t|] eqn:E.
  - cbn [fst snd]. split; [symmetry; apply H2; exact E|split; assumption].
  - destruct (walk h o p) as [t|e] eqn:Ew; cbn [fst snd]; [|split; [reflexivity|split; assumption]].
    split; [reflexivity|]. split; [exact H1|]. intros o' p' t'. cbn [add_one c_one dget].
    destruct (ckey_eqb (o', p') (o, p)) eqn:Ek; [|apply H2].
    apply ckey_eqb_eq in Ek. injection Ek as -> ->. intros E'. injection E' as <-. exact Ew.
Qed.

(** [t] is reached from [o] through the attributes [p], all of them Peak objects. *)
Inductive attrs (h : bheap) : nat -> path -> nat -> Prop :=
| at_here o : attrs h o [] o
| at_step o ob n l ob' p t : nth_error h o = Some ob -> In (n, l) (o_fields ob) ->
    nth_error h l = Some ob' -> o_peak ob' = true -> attrs h l p t -> attrs h o (n :: p) t.

Lemma dget_In_s {V} (m : list (string * V)) n l : dget String.eqb m n = Some l -> In (n, l) m.
Proof.
  induction m as [|[k v] m IH]; cbn [dget In]; [discriminate|].
  destruct (String.eqb_spec n k) as [->|]; [intros [= ->]; now left|intros E; right; auto].
Qed.

Lemma walk_attrs h rank : heap_ok h rank -> forall p o ob, nth_error h o = Some ob ->
  match walk h o p with
  | Ok t => attrs h o p t
  | Err e => e = ValueError /\ forall t, ~ attrs h o p t
  end.
Proof.
  intros Hh. induction p as [|n p IH]; intros o ob Ho; cbn [walk]; [constructor|].
  rewrite Ho. destruct (Hh o ob Ho) as [N Hf].
  destruct (dget String.eqb (o_fields ob) n) as [l|] eqn:El.
  - pose proof (dget_In_s _ _ _ El) as I. destruct (Hf n l I) as (ob' & Hl & _). rewrite Hl.
    destruct (o_peak ob') eqn:Ep.
    + specialize (IH l ob' Hl). destruct (walk h l p) as [t|e].
      * econstructor; eassumption.
      * destruct IH as [-> IH]. split; [reflexivity|]. intros t A. inversion A; subst.
        replace ob0 with ob in * by congruence. rewrite (dget_In_nodup _ _ _ N H2) in El. injection El as ->.
        apply (IH t). assumption.
    + split; [reflexivity|]. intros t A. inversion A; subst.
      replace ob0 with ob in * by congruence. rewrite (dget_In_nodup _ _ _ N H2) in El. injection El as ->.
      congruence.
  - split; [reflexivity|]. intros t A. inversion A; subst.
    replace ob0 with ob in * by congruence. rewrite (dget_In_nodup _ _ _ N H2) in El. discriminate.
Qed.

(** What a query should answer on the heap as it is at the time of the query. *)
Definition answer (h : bheap) (x : gop) (r : res gres) : Prop :=
  match x with
  | GAll o =>
      match nth_error h o with
      | Some ob => if o_peak ob
                   then exists d, r = Ok (GDict d) /\ exact h o [] d /\
                                  forall q t, In (q, t) d -> attrs h o q t
                   else r = Err ValueError
      | None => True
      end
  | GOne o p =>
      match nth_error h o with
      | Some _ => (exists t, attrs h o p t /\ r = Ok (GObj t)) \/
                  (r = Err ValueError /\ forall t, ~ attrs h o p t)
      | None => True
      end
  | GSetAttr _ _ _ => True
  end.

Lemma grun_queries h rank fuel : heap_ok h rank -> forall xs c,
  (forall o, rank o < fuel)%nat -> cache_ok h c ->
  (forall o n l, ~ In (GSetAttr o n l) xs) ->
  Forall2 (answer h) xs (fst (grun fuel (h, c) xs)).
Proof.
  intros Hh. induction xs as [|x xs IH]; intros c Hf Hc Hn; cbn [grun]; [constructor|].
  assert (Hx : exists c', gstep fuel (h, c) x = (fst (gstep fuel (h, c) x), (h, c')) /\ cache_ok h c' /\
               answer h x (fst (gstep fuel (h, c) x))).
  { destruct x as [o|o p|o n l]; cbn [gstep].
    - destruct (nth_error h o) as [ob|] eqn:Ho.
      + destruct (o_peak ob) eqn:Ep.
        * destruct (gbb_spec h rank Hh fuel c o [] ob Hc Ho Ep (Hf o)) as (d & E1 & E2 & E3).
          destruct (gbb fuel h c o []) as [r c']. cbn [fst snd] in *. subst r.
          exists c'. split; [reflexivity|]. split; [exact E3|]. cbn [answer]. rewrite Ho, Ep.
          exists d. split; [reflexivity|]. split; [exact E2|]. intros q t I.
          apply E2 in I as (q' & E & B). cbn [List.app] in E. subst q'.
          pose proof (walk_attrs h rank Hh q o ob Ho) as W. erewrite bbpath_walk in W by eassumption. exact W.
        * specialize (Hf o). destruct fuel as [|f]; [lia|]. cbn [gbb].
          destruct (dget ckey_eqb (c_all c) (o, [] : path)) as [d|] eqn:Ed.
          { destruct (proj1 Hc _ _ _ Ed) as (_ & ob2 & Ho2 & Ep2). congruence. }
          rewrite Ho, Ep. cbn [negb fst snd]. exists c. split; [reflexivity|]. split; [exact Hc|].
          cbn [answer]. rewrite Ho, Ep. reflexivity.
      + exists (snd (gbb fuel h c o [])). cbn [answer]. rewrite Ho.
        assert (E : snd (gbb fuel h c o []) = c).
        { destruct fuel as [|f]; cbn [gbb]; destruct (dget ckey_eqb (c_all c) (o, [] : path)); try reflexivity.
          now rewrite Ho. }
        destruct (gbb fuel h c o []) as [r c']. cbn [snd fst] in *. subst c'. auto.
    - destruct (gb1_spec h c o p Hc) as [E1 E2]. destruct (gb1 h c o p) as [r c'] eqn:Eg. cbn [fst snd] in *.
      exists c'. split; [reflexivity|]. split; [exact E2|]. cbn [answer].
      destruct (nth_error h o) as [ob|] eqn:Ho; [|exact I].
      pose proof (walk_attrs h rank Hh p o ob Ho) as W. rewrite <- E1 in W.
      destruct r as [t|e]; [left; exists t; auto|]. destruct W as [-> W]. right. auto.
    - exfalso. apply (Hn o n l). now left. }
  destruct Hx as (c' & E & Hc' & Ha). rewrite E.
  specialize (IH c' Hf Hc' (fun o n l I => Hn o n l (or_intror I))).
  destruct (grun fuel (h, c') xs) as [rs st]. cbn [fst] in *. now constructor.
Qed.

(** Full property: in every history of attribute assignments and queries, every
    query answers for the objects as they are then. The heap after the first i
    operations is [fst (snd (grun ...))]. *)
Definition C26_full : Prop :=
  forall h rank fuel xs i x r,
    heap_ok h rank -> (forall o, rank o < fuel)%nat ->
    (forall j, exists rk, heap_ok (fst (snd (grun fuel (h, empty_cache) (firstn j xs)))) rk) ->
    nth_error xs i = Some x -> nth_error (fst (grun fuel (h, empty_cache) xs)) i = Some r ->
    answer (fst (snd (grun fuel (h, empty_cache) (firstn i xs)))) x r.

(** Assigning a black box after the first query: the second query still answers
    with the old list. *)
Theorem C26_full_refuted : ~ C26_full.
Proof.
  intros H.
  pose (h := [{| o_peak := true; o_bb := false; o_fields := [] |};
              {| o_peak := true; o_bb := true; o_fields := [] |}]).
  pose (rank := fun o : nat => match o with O => 1%nat | _ => 0%nat end).
  pose (xs := [GAll 0%nat; GSetAttr 0%nat "b"%string 1%nat; GAll 0%nat]).
  specialize (H h rank 5%nat xs 2%nat (GAll 0%nat) (Ok (GDict []))).
  assert (H0 : heap_ok h rank).
  { intros [|[|[|o]]] ob E; try discriminate; injection E as <-; (split; [constructor|intros ? ? []]). }
  assert (H1 : forall j, exists rk, heap_ok (fst (snd (grun 5 (h, empty_cache) (firstn j xs)))) rk).
  { assert (H0' : heap_ok [{| o_peak := true; o_bb := false; o_fields := [("b"%string, 1%nat)] |};
              {| o_peak := true; o_bb := true; o_fields := [] |}] rank).
    { intros [|[|[|o]]] ob E; try discriminate; injection E as <-.
      - split; [constructor; [intros []|constructor]|]. intros n l [I|[]]. injection I as <- <-.
        eexists. split; [reflexivity|]. cbn. lia.
      - split; [constructor|intros ? ? []]. }
    intros j. exists rank.
    destruct j as [|[|[|[|j]]]]; [exact H0|exact H0|exact H0'|exact H0'|exact H0']. }
  specialize (H H0 ltac:(intros [|o]; cbn; lia) H1 eq_refl eq_refl).
  vm_compute in H. destruct H as (d & E & (_ & X) & _). injection E as <-.
  apply (proj2 (X ["b"%string] 1%nat)). exists ["b"%string]. split; [reflexivity|].
  eapply bp_step; [reflexivity|reflexivity|reflexivity|now left|].
  eapply bp_here; reflexivity.
Qed.

(** On objects that are not changed, every query in every sequence of queries
    lists exactly the black boxes with their paths, and [get_black_box] on each
    path returns the object reached through Peak attributes, or raises
    ValueError when there is none. Missing for C26: attribute
    assignments between queries. *)
Theorem C26_discovery_partial :
  forall h rank fuel xs,
    heap_ok h rank -> (forall o, rank o < fuel)%nat ->
    (forall o n l, ~ In (GSetAttr o n l) xs) ->
    Forall2 (answer h) xs (fst (grun fuel (h, empty_cache) xs)).
Proof.
  intros h rank fuel xs Hh Hf Hn. apply (grun_queries h rank fuel Hh xs empty_cache Hf); [|exact Hn].
  split; intros; discriminate.
Qed.

(** The first query after any number of assignments is exact too. *)
Theorem C26_first_query :
  forall h rank fuel o ob,
    heap_ok h rank -> (rank o < fuel)%nat -> nth_error h o = Some ob -> o_peak ob = true ->
    exists d, fst (gbb fuel h empty_cache o []) = Ok d /\ exact h o [] d.
Proof.
  intros h rank fuel o ob Hh Hf Ho Hp.
  destruct (gbb_spec h rank Hh fuel empty_cache o [] ob) as (d & E1 & E2 & _); auto.
  - split; intros; discriminate.
  - exists d. auto.
Qed.

(** [get_black_box] also returns Peak objects that are not black boxes. *)
Theorem C26_get_black_box_any_peak :
  exists h o p t ob, walk h o p = Ok t /\ nth_error h t = Some ob /\ o_bb ob = false /\ p <> [].
Proof.
  exists [{| o_peak := true; o_bb := false; o_fields := [("a"%string, 1%nat)] |};
          {| o_peak := true; o_bb := false; o_fields := [] |}], 0%nat, ["a"%string], 1%nat.
  eexists. repeat split; try reflexivity. discriminate.
Qed.

Example C26_case :
  let node f := {| o_peak := true; o_bb := false; o_fields := f |} in
  let bb := {| o_peak := true; o_bb := true; o_fields := [("y"%string, 4%nat)] |} in
  let other := {| o_peak := false; o_bb := false; o_fields := [] |} in
  let h := [node [("a", 1); ("b", 2); ("c", 3)]%nat%string; node [("b", 2); ("d", 5)]%nat%string; bb; other; other; bb] in
  heap_ok h (fun o => match o with 0 => 2 | 1 => 1 | _ => 0 end)%nat /\
  fst (grun 3 (h, empty_cache) [GAll 0; GAll 1; GOne 0 ["a"; "d"]%string; GAll 3; GOne 0 ["c"]%string]%nat)
  = [Ok (GDict [(["a"; "b"], 2); (["a"; "d"], 5); (["b"], 2)]%nat%string);
     Ok (GDict [(["b"], 2); (["d"], 5)]%nat%string); Ok (GObj 5); Err ValueError; Err ValueError].
Proof.
  split; [|reflexivity].
  intros o ob E.
  assert (o = 0 \/ o = 1 \/ o = 2 \/ o = 3 \/ o = 4 \/ o = 5)%nat as Ho.
  { destruct o as [|[|[|[|[|[|o]]]]]]; try lia. destruct o; discriminate. }
  destruct Ho as [->|[->|[->|[->|[->| ->]]]]]; cbn in E; injection E as <-; cbn [o_fields map fst];
    (split; [repeat constructor; cbn; intuition discriminate|]);
    intros n l I; cbn in I;
    repeat (destruct I as [I|I]; [injection I as <- <-; eexists; split; [reflexivity|cbn; lia || discriminate]|]);
    contradiction.
Qed.

Print Assumptions C25_full_refuted.
Print Assumptions C25_protocol_call_order.
Print Assumptions C25_protocol_partial.
Print Assumptions C25_no_inputs_refuted.
Print Assumptions C25_none_output_refuted.
Print Assumptions C26_full_refuted.
Print Assumptions C26_discovery_partial.
Print Assumptions C26_first_query.
Print Assumptions C26_get_black_box_any_peak.

