(** Properties C23-C24: family closure cache and family equality. *)
From Coq Require Import String ZArith List Bool Lia.
From Verif Require Import Base FamModel.
Import ListNotations.
Open Scope list_scope.
Open Scope Z_scope.

(** * C24 *)
Section C24.
  Context {C : Type} (ceqb : C -> C -> bool) (sub : C -> C -> bool) (meth : C -> eqkind)
          (hv : Z -> Z).
  Hypothesis ceqb_spec : forall a b, ceqb a b = true <-> a = b.
  Hypothesis sub_refl : forall a, sub a a = true.
  Hypothesis sub_antisym : forall a b, sub a b = true -> sub b a = true -> a = b.

  Lemma ceqb_ne a b : a <> b -> ceqb a b = false.
  Proof. intros H. destruct (ceqb a b) eqn:E; [|reflexivity]. apply ceqb_spec in E. congruence. Qed.

  (** What the attributes compared by a given kind of [__eq__] say. *)
  Definition fields_eq (k : eqkind) (a b : family C) : Prop :=
    match k with
    | KAbs => True
    | KAsm => f_asm a = f_asm b /\ f_aadt a = f_aadt b /\ f_extras a = f_extras b
    | KRew => f_passes a = f_passes b
    end.

  (** Exact meaning of [a == b]: the more general class decides; unrelated
      classes compare by identity. *)
  Lemma py_eq_iff a b :
    py_eq ceqb sub meth a b = true <->
    (sub (f_cls b) (f_cls a) = true /\ fields_eq (meth (f_cls a)) a b) \/
    (sub (f_cls a) (f_cls b) = true /\ fields_eq (meth (f_cls b)) a b) \/
    (sub (f_cls a) (f_cls b) = false /\ sub (f_cls b) (f_cls a) = false /\ f_id a = f_id b).
  Proof.
    assert (M : forall x y, eq_method sub meth x y
              = if sub (f_cls y) (f_cls x)
                then Some (match meth (f_cls x) with
                     | KAbs => true
                     | KAsm => (f_asm x =? f_asm y) && (f_aadt x =? f_aadt y) && (f_extras x =? f_extras y)
                     | KRew => f_passes x =? f_passes y end) else None) by reflexivity.
    assert (F : forall k x y, (match k with
                     | KAbs => true
                     | KAsm => (f_asm x =? f_asm y) && (f_aadt x =? f_aadt y) && (f_extras x =? f_extras y)
                     | KRew => f_passes x =? f_passes y end) = true <-> fields_eq k x y).
    { intros [| |] x y; cbn [fields_eq]; [tauto| |apply Z.eqb_eq].
      rewrite !andb_true_iff, !Z.eqb_eq. tauto. }
    assert (Fs : forall k x y, fields_eq k x y -> fields_eq k y x).
    { intros [| |] x y; cbn [fields_eq]; intuition. }
    unfold py_eq. rewrite !M.
    destruct (sub (f_cls b) (f_cls a)) eqn:Eba; destruct (sub (f_cls a) (f_cls b)) eqn:Eab.
    - pose proof (sub_antisym _ _ Eab Eba) as Hc.
      rewrite (proj2 (ceqb_spec _ _) Hc). cbn [negb andb]. rewrite F.
      rewrite Hc. intuition; discriminate.
    - rewrite ceqb_ne by (intros Hc; rewrite Hc, sub_refl in Eab; discriminate).
      cbn [negb andb]. rewrite F. intuition; discriminate.
    - rewrite andb_false_r. rewrite F. split; [intros H; right; left; auto|].
      intros [[H _]|[[_ H]|[H _]]]; try discriminate. auto.
    - rewrite andb_false_r. rewrite Z.eqb_eq. intuition; discriminate.
  Qed.

  Lemma fields_eq_sym k a b : fields_eq k a b -> fields_eq k b a.
  Proof. destruct k; cbn [fields_eq]; intuition. Qed.

  Lemma py_eq_sym a b : py_eq ceqb sub meth a b = py_eq ceqb sub meth b a.
  Proof.
    apply eq_true_iff_eq. rewrite !py_eq_iff.
    split; (intros [[H1 H2]|[[H1 H2]|(H1 & H2 & H3)]];
      [right; left|left|right; right]; auto using fields_eq_sym).
  Qed.

  Lemma py_eq_refl a : py_eq ceqb sub meth a a = true.
  Proof.
    rewrite py_eq_iff. left. split; [apply sub_refl|].
    destruct (meth (f_cls a)); cbn [fields_eq]; auto.
  Qed.

  Lemma py_ne_eq a b : py_ne ceqb sub meth a b = negb (py_eq ceqb sub meth a b).
  Proof. unfold py_ne, ne_method. destruct (_ && _); [now rewrite py_eq_sym|reflexivity]. Qed.

  Lemma fields_trans k a b c : fields_eq k a b -> fields_eq k b c -> fields_eq k a c.
  Proof. destruct k; cbn [fields_eq]; intuition congruence. Qed.

  Lemma py_eq_trans a b c k :
    (f_id a = f_id b -> a = b) -> (f_id b = f_id c -> b = c) ->
    meth (f_cls a) = k -> meth (f_cls b) = k -> meth (f_cls c) = k ->
    sub (f_cls a) (f_cls c) = true \/ sub (f_cls c) (f_cls a) = true ->
    py_eq ceqb sub meth a b = true -> py_eq ceqb sub meth b c = true ->
    py_eq ceqb sub meth a c = true.
  Proof.
    intros Iab Ibc Ka Kb Kc Hs Hab Hbc.
    assert (G : forall x y, meth (f_cls x) = k -> meth (f_cls y) = k -> (f_id x = f_id y -> x = y) ->
                py_eq ceqb sub meth x y = true -> fields_eq k x y).
    { intros x y Kx Ky I H. apply py_eq_iff in H. rewrite Kx, Ky in H.
      destruct H as [[_ H]|[[_ H]|(_ & _ & H)]]; auto.
      rewrite (I H). destruct k; cbn [fields_eq]; auto. }
    pose proof (fields_trans k _ _ _ (G _ _ Ka Kb Iab Hab) (G _ _ Kb Kc Ibc Hbc)) as F.
    apply py_eq_iff. rewrite Ka, Kc. tauto.
  Qed.

  Lemma py_eq_hash a b :
    (f_id a = f_id b -> a = b) -> meth (f_cls a) = meth (f_cls b) ->
    py_eq ceqb sub meth a b = true -> fhash meth hv a = fhash meth hv b.
  Proof.
    intros I K H. apply py_eq_iff in H. unfold fhash. rewrite <- K. rewrite <- K in H.
    assert (F : fields_eq (meth (f_cls a)) a b).
    { destruct H as [[_ H]|[[_ H]|(_ & _ & H)]]; auto. rewrite (I H).
      destruct (meth (f_cls b)); cbn [fields_eq]; auto. }
    destruct (meth (f_cls a)); cbn [fields_eq] in F; [reflexivity| |congruence].
    destruct F as (-> & -> & ->). reflexivity.
  Qed.
End C24.

(** The class hierarchy of family.py with arbitrary user subclasses satisfies
    the hypotheses above. *)
Lemma bcls_eqb_spec a : forall b, bcls_eqb a b = true <-> a = b.
Proof.
  induction a as [| | | |n a IH]; intros [| | | |m b]; cbn [bcls_eqb]; try (split; congruence).
  rewrite andb_true_iff, Z.eqb_eq, IH. split; [intros [-> ->]; reflexivity|].
  intros H. inversion H. auto.
Qed.

Fixpoint csize (a : bcls) : nat :=
  match a with Py => 0 | PyX => 1 | Smt => 0 | Magma => 0 | UCls _ b => S (csize b) end.

Lemma bsub_size a : forall b, bsub a b = true -> a = b \/ (csize b < csize a)%nat.
Proof.
  induction a as [| | | |n a IH]; intros b; cbn [bsub]; rewrite orb_true_iff, bcls_eqb_spec;
    (intros [H|H]; [left; exact H|]); try discriminate.
  - right. destruct b; try discriminate. cbn. lia.
  - right. destruct (IH b H) as [->|]; cbn [csize]; lia.
Qed.

Lemma bsub_refl a : bsub a a = true.
Proof. destruct a; cbn [bsub]; try reflexivity. rewrite (proj2 (bcls_eqb_spec _ _) eq_refl). reflexivity. Qed.

Lemma bsub_antisym a b : bsub a b = true -> bsub b a = true -> a = b.
Proof.
  intros H1 H2. destruct (bsub_size _ _ H1) as [|L1]; [assumption|].
  destruct (bsub_size _ _ H2) as [|L2]; [congruence|lia].
Qed.

(** [==] and [hash] on families of these classes. *)
Definition feq := py_eq bcls_eqb bsub bmeth.
Definition fne := py_ne bcls_eqb bsub bmeth.
Definition fha (hv : Z -> Z) := fhash (C := bcls) bmeth hv.

Definition C24_full : Prop :=
  forall hv : Z -> Z, (forall z, hv z = z) ->
  forall a b c : family bcls,
    (f_id a = f_id b -> a = b) -> (f_id b = f_id c -> b = c) -> (f_id a = f_id c -> a = c) ->
    feq a a = true /\
    (feq a b = true -> feq b a = true) /\
    (feq a b = true -> feq b c = true -> feq a c = true) /\
    (feq a b = true -> fha hv a = fha hv b) /\
    (feq a b = true -> f_cls a = f_cls b).

(** PyFamily() == PyXFamily(), with different classes. *)
Theorem C24_full_refuted : ~ C24_full.
Proof.
  intros H.
  specialize (H (fun z => z) (fun _ => eq_refl)
    (mkFamily 1 Py 0 0 0 0) (mkFamily 2 PyX 5 6 7 8) (mkFamily 3 Smt 5 6 7 8)
    ltac:(discriminate) ltac:(discriminate) ltac:(discriminate)).
  destruct H as (_ & _ & _ & _ & H). discriminate (H eq_refl).
Qed.

(** Equality with unequal hashes, for the two shipped Python families. *)
Theorem C24_hash_refuted :
  forall hv, 2 * hv 5 + 3 * hv 6 + 5 * hv 7 <> 0 ->
  exists a b : family bcls, f_cls a = Py /\ f_cls b = PyX /\ feq a b = true /\ fha hv a <> fha hv b.
Proof.
  intros hv H. exists (mkFamily 1 Py 0 0 0 0), (mkFamily 2 PyX 5 6 7 8).
  repeat split. unfold fha, fhash. cbn [bmeth f_cls f_asm f_aadt f_extras]. lia.
Qed.

(** Equality is not transitive, even without user subclasses: two PyX families
    with different assemblers both equal a Py family. *)
Theorem C24_transitive_refuted :
  exists a b c : family bcls, feq a b = true /\ feq b c = true /\ feq a c = false.
Proof.
  exists (mkFamily 1 PyX 5 6 7 8), (mkFamily 2 Py 0 0 0 0), (mkFamily 3 PyX 4 6 7 8).
  repeat split.
Qed.

(** Equality is reflexive and symmetric and [!=] is its negation, for every
    hierarchy whatever. *)
Theorem C24_refl_sym_ne :
  forall (C : Type) (ceqb sub : C -> C -> bool) (meth : C -> eqkind),
    (forall a b, ceqb a b = true <-> a = b) -> (forall a, sub a a = true) ->
    (forall a b, sub a b = true -> sub b a = true -> a = b) ->
    forall a b : family C,
      py_eq ceqb sub meth a a = true /\
      py_eq ceqb sub meth a b = py_eq ceqb sub meth b a /\
      py_ne ceqb sub meth a b = negb (py_eq ceqb sub meth a b).
Proof. intros; split; [|split]; [apply py_eq_refl|apply py_eq_sym|apply py_ne_eq]; auto. Qed.

(** Transitivity and hash consistency among families that use the same
    [__eq__], in every hierarchy. Missing for C24: families of related classes
    with different [__eq__] methods, where both fail. *)
Theorem C24_transitive_partial :
  forall a b c : family bcls,
    (f_id a = f_id b -> a = b) -> (f_id b = f_id c -> b = c) ->
    bmeth (f_cls a) = bmeth (f_cls b) -> bmeth (f_cls b) = bmeth (f_cls c) ->
    bsub (f_cls a) (f_cls c) = true \/ bsub (f_cls c) (f_cls a) = true ->
    feq a b = true -> feq b c = true -> feq a c = true.
Proof.
  intros a b c I1 I2 K1 K2 Hs. apply (py_eq_trans _ _ _ bcls_eqb_spec bsub_refl bsub_antisym) with (k := bmeth (f_cls b)); auto.
Qed.

Theorem C24_hash_partial :
  forall (hv : Z -> Z) (a b : family bcls),
    (f_id a = f_id b -> a = b) -> bmeth (f_cls a) = bmeth (f_cls b) ->
    feq a b = true -> fha hv a = fha hv b.
Proof.
  intros hv a b I K. apply (py_eq_hash _ _ _ hv bcls_eqb_spec bsub_refl bsub_antisym); auto.
Qed.

(** Two distinct families are equal exactly when one class derives from the
    other and, unless the more general one is a plain Python family, assembler,
    ADT class and extras agree. *)
Theorem C24_meaning :
  forall a b : family bcls,
    feq a b = true <->
    (bsub (f_cls b) (f_cls a) = true /\ fields_eq (bmeth (f_cls a)) a b) \/
    (bsub (f_cls a) (f_cls b) = true /\ fields_eq (bmeth (f_cls b)) a b) \/
    (bsub (f_cls a) (f_cls b) = false /\ bsub (f_cls b) (f_cls a) = false /\ f_id a = f_id b).
Proof. intros. apply (py_eq_iff _ _ _ bcls_eqb_spec bsub_refl bsub_antisym). Qed.

Example C24_case :
  let a := mkFamily 1 Smt 5 6 7 8 in let b := mkFamily 2 Smt 5 6 7 9 in
  let c := mkFamily 3 (UCls 0 Smt) 5 6 7 9 in let d := mkFamily 4 Magma 5 6 7 9 in
  feq a b = true /\ feq b c = true /\ feq a c = true /\ feq a d = false /\
  bmeth (f_cls a) = bmeth (f_cls c).
Proof. repeat split. Qed.

(** * C23 *)
Section C23.
  Context {A R : Type} (aeq : A -> A -> bool) (ahash : A -> option Z) (isfun : A -> bool)
          (app : A -> call A -> res R).
  Notation match_ := (key_match aeq ahash).
  Notation run := (cl_run aeq ahash app).
  Notation step := (cl_call aeq ahash app).

  (** Invariant of a bound closure whose earlier calls were [past]. *)
  Definition cinv (f : A) (past : list (call A)) (s : closure A R) : Prop :=
    cl_fc s = Some f /\
    (forall k o, In (k, o) (cl_cache s) ->
       In k past /\ app f k = Ok (snd o) /\ (fst o < cl_next s)%nat) /\
    (forall k1 o1 k2 o2, In (k1, o1) (cl_cache s) -> In (k2, o2) (cl_cache s) ->
       fst o1 = fst o2 -> k1 = k2 /\ o1 = o2).

  Lemma lookup_In (l : list (call A * obj R)) k o : lookup aeq ahash l k = Some o ->
    exists k' : call A, In (k', o) l /\ match_ k' k = true.
  Proof.
    induction l as [|[k' o'] l IH]; cbn [lookup]; [discriminate|].
    destruct (match_ k' k) eqn:E.
    - intros H. injection H as ->. exists k'. split; [now left|exact E].
    - intros H. destruct (IH H) as (k'' & I & M). exists k''. split; [now right|exact M].
  Qed.

  Lemma lookup_None (l : list (call A * obj R)) k : lookup aeq ahash l k = None ->
    forall k' o, In (k', o) l -> match_ k' k = false.
  Proof.
    induction l as [|[k' o'] l IH]; cbn [lookup]; [intros _ ? ? []|].
    destruct (match_ k' k) eqn:E; [discriminate|].
    intros H k'' o [I|I]; [injection I as <- <-; exact E|eauto].
  Qed.

  Lemma cinv_step f past s c : cinv f past s -> cinv f (past ++ [c]) (snd (step s c)).
  Proof.
    intros (H1 & H2 & H3). unfold cl_call. rewrite H1.
    assert (K : cinv f (past ++ [c]) s).
    { split; [exact H1|split; [|exact H3]]. intros k o I.
      destruct (H2 k o I) as (I1 & I2 & I3). repeat split; auto. apply in_or_app. auto. }
    destruct (negb _); [exact K|].
    destruct (lookup _ _ _ _) eqn:El; [exact K|].
    destruct (app f c) as [r|e] eqn:Ea; [|exact K]. cbn [snd].
    split; [reflexivity|]. cbn [cl_cache cl_next]. split.
    - intros k o I. apply in_app_or in I. destruct I as [I|[I|[]]].
      + destruct (H2 k o I) as (I1 & I2 & I3). repeat split; auto. apply in_or_app. auto.
      + injection I as <- <-. repeat split; auto. apply in_or_app. right. now left.
    - intros k1 o1 k2 o2 I1 I2 E.
      apply in_app_or in I1. apply in_app_or in I2.
      destruct I1 as [I1|[I1|[]]]; destruct I2 as [I2|[I2|[]]]; [eauto| | |].
      + injection I2 as <- <-. cbn [fst] in E. destruct (H2 _ _ I1) as (_ & _ & L). lia.
      + injection I1 as <- <-. cbn [fst] in E. destruct (H2 _ _ I2) as (_ & _ & L). lia.
      + injection I1 as <- <-. injection I2 as <- <-. auto.
  Qed.

  Lemma run_split s h1 c h2 :
    nth_error (fst (run s (h1 ++ c :: h2))) (length h1)
    = Some (fst (step (snd (run s h1)) c)).
  Proof.
    revert s. induction h1 as [|x h1 IH]; intros s; cbn [List.app cl_run length].
    - cbn [snd fst]. destruct (step s c) as [r s']. destruct (run s' h2). reflexivity.
    - destruct (step s x) as [r s']. specialize (IH s').
      destruct (run s' (h1 ++ c :: h2)) as [rs t]. destruct (run s' h1) as [rs1 t1].
      cbn [fst snd nth_error] in *. exact IH.
  Qed.

  Lemma cinv_run f h : forall past s, cinv f past s -> cinv f (past ++ h) (snd (run s h)).
  Proof.
    induction h as [|c h IH]; intros past s H; cbn [cl_run].
    - rewrite app_nil_r. exact H.
    - pose proof (cinv_step f past s c H) as Hs. destruct (step s c) as [r s'].
      cbn [snd] in Hs. specialize (IH _ _ Hs). rewrite <- app_assoc in IH.
      destruct (run s' h) as [rs s'']. exact IH.
  Qed.

  Lemma cinv_init f : isfun f = true -> cinv f [] (closure_init (R := R) isfun f).
  Proof.
    intros H. unfold closure_init. rewrite H. split; [reflexivity|].
    split; intros; contradiction.
  Qed.

  Lemma closure_result f h1 c h2 :
    isfun f = true -> key_hashable ahash c = true ->
    (forall c', In c' h1 -> match_ c' c = true -> app f c' = app f c) ->
    match app f c with
    | Err e => nth_error (fst (run (closure_init isfun f) (h1 ++ c :: h2))) (length h1) = Some (Err e)
    | Ok r => exists n, nth_error (fst (run (closure_init isfun f) (h1 ++ c :: h2))) (length h1)
                        = Some (Ok (CObj (n, r)))
    end.
  Proof.
    intros Hf Hh Hr. rewrite run_split.
    pose proof (cinv_run f h1 [] _ (cinv_init f Hf)) as (H1 & H2 & H3). cbn [List.app] in *.
    set (s := snd (run (closure_init isfun f) h1)) in *.
    unfold cl_call. rewrite H1, Hh. cbn [negb].
    destruct (lookup aeq ahash (cl_cache s) c) as [[n r]|] eqn:El.
    - apply lookup_In in El as (k' & I & M). destruct (H2 _ _ I) as (I1 & I2 & _).
      rewrite <- (Hr k' I1 M), I2. exists n. reflexivity.
    - destruct (app f c) as [r|e]; [exists (cl_next s)|]; reflexivity.
  Qed.

  (** After a successful call the key of that call, or an equal one, is cached. *)
  Lemma step_cached f past s c o :
    cinv f past s -> fst (step s c) = Ok (CObj o) ->
    exists k, In (k, o) (cl_cache (snd (step s c))) /\ (match_ k c = true \/ k = c).
  Proof.
    intros (H1 & H2 & H3). unfold cl_call. rewrite H1.
    destruct (negb _); [discriminate|].
    destruct (lookup aeq ahash (cl_cache s) c) as [o'|] eqn:El; cbn [fst snd].
    - intros E. injection E as <-. apply lookup_In in El as (k & I & M). exists k. auto.
    - destruct (app f c) as [r|e]; cbn [fst snd]; [|discriminate].
      intros E. injection E as <-. exists c. split; [apply in_or_app; right; now left|now right].
  Qed.

  Lemma step_keeps s c k o : In (k, o) (cl_cache s) -> cl_fc s <> None ->
    In (k, o) (cl_cache (snd (step s c))) /\ cl_fc (snd (step s c)) <> None.
  Proof.
    intros I F. unfold cl_call. destruct (cl_fc s) as [f|] eqn:Ef; [|congruence].
    destruct (negb _); [split; cbn; congruence|].
    destruct (lookup _ _ _ _); [split; cbn; congruence|].
    destruct (app f c); [|split; cbn; congruence].
    cbn. split; [apply in_or_app; auto|congruence].
  Qed.

  Lemma run_keeps h : forall s k o, In (k, o) (cl_cache s) -> cl_fc s <> None ->
    In (k, o) (cl_cache (snd (run s h))).
  Proof.
    induction h as [|c h IH]; intros s k o I F; cbn [cl_run]; [exact I|].
    destruct (step_keeps s c k o I F) as [I' F'].
    destruct (step s c) as [r s']. cbn [snd] in *. specialize (IH s' k o I' F').
    destruct (run s' h). exact IH.
  Qed.

  Lemma run_app s h1 h2 : snd (run s (h1 ++ h2)) = snd (run (snd (run s h1)) h2).
  Proof.
    revert s. induction h1 as [|c h1 IH]; intros s; cbn [cl_run List.app]; [reflexivity|].
    destruct (step s c) as [r s']. specialize (IH s').
    destruct (run s' (h1 ++ h2)), (run s' h1). exact IH.
  Qed.

  (** Keys in the cache never match one another, when matching is symmetric. *)
  Lemma closure_same f h1 c1 h2 c2 h3 o :
    isfun f = true -> key_hashable ahash c2 = true ->
    (forall x y, In x (h1 ++ c1 :: h2 ++ [c2]) -> In y (h1 ++ c1 :: h2 ++ [c2]) ->
       match_ x y = true -> match_ y x = true) ->
    (forall x y z, In x (h1 ++ c1 :: h2 ++ [c2]) -> In y (h1 ++ c1 :: h2 ++ [c2]) ->
       In z (h1 ++ c1 :: h2 ++ [c2]) ->
       match_ x y = true -> match_ y z = true -> match_ x z = true) ->
    let h := h1 ++ c1 :: h2 ++ c2 :: h3 in
    nth_error (fst (run (closure_init isfun f) h)) (length h1) = Some (Ok (CObj o)) ->
    match_ c1 c2 = true ->
    nth_error (fst (run (closure_init isfun f) h)) (length h1 + S (length h2)) = Some (Ok (CObj o)).
  Proof.
    intros Hf Hh Hsym Htr h H1 M12. unfold h in *.
    set (U := h1 ++ c1 :: h2 ++ [c2]) in *.
    rewrite run_split in H1. injection H1 as H1.
    set (s0 := closure_init isfun f) in *.
    pose proof (cinv_run f h1 [] s0 (cinv_init f Hf)) as Hi1. cbn [List.app] in Hi1.
    set (s1 := snd (run s0 h1)) in *.
    destruct (step_cached f h1 s1 c1 o Hi1 H1) as (k & Ik & Mk).
    set (s2 := snd (step s1 c1)) in *.
    pose proof (cinv_step f h1 s1 c1 Hi1) as Hi2. fold s2 in Hi2.
    replace (h1 ++ c1 :: h2 ++ c2 :: h3) with ((h1 ++ c1 :: h2) ++ c2 :: h3)
      by (rewrite <- app_assoc; reflexivity).
    replace (length h1 + S (length h2))%nat with (length (h1 ++ c1 :: h2))
      by (rewrite app_length; reflexivity).
    rewrite run_split. f_equal.
    assert (Es : snd (run s0 (h1 ++ c1 :: h2)) = snd (run s2 h2)).
    { rewrite run_app. fold s1. cbn [cl_run]. fold s2.
      unfold s2. destruct (step s1 c1) as [r s']. cbn [snd]. destruct (run s' h2). reflexivity. }
    rewrite Es.
    pose proof (cinv_run f h2 _ s2 Hi2) as (F3 & P3 & N3).
    pose proof (run_keeps h2 s2 k o Ik ltac:(destruct Hi2 as (-> & _); discriminate)) as Ik3.
    (* pairwise non-matching keys *)
    assert (NM : forall h past s, cinv f past s ->
               (forall x, In x past \/ In x h -> In x U) ->
               (forall k1 o1 k2 o2, In (k1, o1) (cl_cache s) -> In (k2, o2) (cl_cache s) ->
                  match_ k1 k2 = true -> o1 = o2) ->
               forall k1 o1 k2 o2, In (k1, o1) (cl_cache (snd (run s h))) -> In (k2, o2) (cl_cache (snd (run s h))) ->
                  match_ k1 k2 = true -> o1 = o2).
    { induction h0 as [|c h0 IH]; intros past s Hc HU Hp; cbn [cl_run]; [exact Hp|].
      pose proof (cinv_step f past s c Hc) as Hc'.
      assert (Hp' : forall k1 o1 k2 o2, In (k1, o1) (cl_cache (snd (step s c))) ->
                 In (k2, o2) (cl_cache (snd (step s c))) -> match_ k1 k2 = true -> o1 = o2).
      { destruct Hc as (G1 & G2 & G3). unfold cl_call. rewrite G1.
        destruct (negb _); [exact Hp|].
        destruct (lookup aeq ahash (cl_cache s) c) eqn:El; [exact Hp|].
        destruct (app f c) as [r|e]; [|exact Hp]. cbn [snd cl_cache].
        pose proof (lookup_None _ _ El) as Nn.
        intros k1 o1 k2 o2 I1 I2 M. apply in_app_or in I1. apply in_app_or in I2.
        destruct I1 as [I1|[I1|[]]]; destruct I2 as [I2|[I2|[]]].
        - eauto.
        - injection I2 as <- <-. rewrite (Nn _ _ I1) in M. discriminate.
        - injection I1 as <- <-. apply Hsym in M.
          + rewrite (Nn _ _ I2) in M. discriminate.
          + apply HU. right. now left.
          + apply HU. left. apply (G2 _ _ I2).
        - injection I1 as <- <-. injection I2 as <- <-. reflexivity. }
      destruct (step s c) as [r s'] eqn:E. cbn [snd] in *.
      specialize (IH (past ++ [c]) s' Hc').
      assert (HU' : forall x, In x (past ++ [c]) \/ In x h0 -> In x U).
      { intros x [I|I]; apply HU; [|right; now right].
        apply in_app_or in I as [I|[->|[]]]; [now left|right; now left]. }
      specialize (IH HU' Hp'). destruct (run s' h0) as [rs s'']. exact IH. }
    assert (NMf : forall k1 o1 k2 o2, In (k1, o1) (cl_cache (snd (run s2 h2))) ->
               In (k2, o2) (cl_cache (snd (run s2 h2))) -> match_ k1 k2 = true -> o1 = o2).
    { rewrite <- Es. apply (NM (h1 ++ c1 :: h2) [] s0 (cinv_init f Hf)).
      - intros x [[]|I]. unfold U. apply in_app_or in I as [I|[->|I]]; apply in_or_app; [now left| |];
          right; [now left|]. right. apply in_or_app. now left.
      - unfold s0, closure_init. intros ? ? ? ? []. }
    assert (Uc1 : In c1 U) by (apply in_or_app; right; now left).
    assert (Uc2 : In c2 U) by (apply in_or_app; right; right; apply in_or_app; right; now left).
    assert (Up : forall x, In x ((h1 ++ [c1]) ++ h2) -> In x U).
    { intros x I. unfold U. rewrite <- app_assoc in I. cbn [List.app] in I.
      apply in_app_or in I as [I|[->|I]]; apply in_or_app; [now left|right; now left|].
      right. right. apply in_or_app. now left. }
    assert (Mkc2 : match_ k c2 = true).
    { destruct Mk as [Mk| ->]; [|exact M12].
      apply (Htr k c1 c2); auto. apply Up. apply (P3 _ _ Ik3). }
    unfold cl_call. rewrite F3, Hh. cbn [negb].
    destruct (lookup aeq ahash (cl_cache (snd (run s2 h2))) c2) as [o'|] eqn:El.
    - apply lookup_In in El as (k' & I' & M'). cbn [fst]. do 2 f_equal.
      apply (NMf k' o' k o I' Ik3).
      assert (Ukk : In k' U) by (apply Up; apply (P3 _ _ I')).
      assert (Uk : In k U) by (apply Up; apply (P3 _ _ Ik3)).
      apply (Htr k' c2 k); auto.
    - rewrite (lookup_None _ _ El _ _ Ik3) in Mkc2. discriminate.
  Qed.
End C23.

(** Arguments: families and other hashable values. *)
Inductive farg := AFam (f : family bcls) | AFun (n : Z) | AVal (z : Z).
Definition farg_eq (a b : farg) : bool :=
  match a, b with
  | AFam f, AFam g => feq f g
  | AFun n, AFun m => n =? m
  | AVal x, AVal y => x =? y
  | _, _ => false
  end.
(** [None] for values without a hash; here the negative ones, say lists. *)
Definition farg_hash (hv : Z -> Z) (a : farg) : option Z :=
  match a with
  | AFam f => Some (fha hv f)
  | AFun n => Some (hv n)
  | AVal z => if z <? 0 then None else Some (hv z)
  end.
Definition farg_isfun (a : farg) : bool := match a with AFun _ => true | _ => false end.

(** Every argument of the call has a hash. *)
Definition hashes {A} (ahash : A -> option Z) (c : call A) : Prop :=
  (forall x, In x (c_args c) -> ahash x <> None) /\ (forall k x, In (k, x) (c_kw c) -> ahash x <> None).
Lemma hashes_spec {A} (ahash : A -> option Z) c : hashes ahash c <-> key_hashable ahash c = true.
Proof.
  unfold hashes, key_hashable. rewrite andb_true_iff, !forallb_forall.
  assert (H : forall x, ahash x <> None <-> hashable ahash x = true).
  { intros x. unfold hashable. destruct (ahash x); split; congruence. }
  split; intros (A1 & A2); (split; [intros x I; apply H, A1, I|]).
  - intros [k x] I. apply H, (A2 k), I.
  - intros k x I. apply H, (A2 (k, x) I).
Qed.

(** Full property: every hashable call yields what the wrapped function
    builds for exactly that call, if the function cannot tell two families of
    the same class and contents apart. *)
Definition same_family (f g : family bcls) : Prop :=
  f_cls f = f_cls g /\
  (f_cls f <> Py -> f_asm f = f_asm g /\ f_aadt f = f_aadt g /\ f_extras f = f_extras g).
Definition same_arg (a b : farg) : Prop :=
  match a, b with
  | AFam f, AFam g => same_family f g
  | _, _ => a = b
  end.
Definition same_call (c d : call farg) : Prop :=
  Forall2 same_arg (c_args c) (c_args d) /\
  Forall2 (fun x y => fst x = fst y /\ same_arg (snd x) (snd y)) (c_kw c) (c_kw d).

Definition C23_full : Prop :=
  forall (R : Type) (hv : Z -> Z) (app : farg -> call farg -> res R) n h1 c h2 r,
    (forall c d, same_call c d -> app (AFun n) c = app (AFun n) d) ->
    hashes (farg_hash hv) c ->
    app (AFun n) c = Ok r ->
    exists k, nth_error (fst (cl_run farg_eq (farg_hash hv) app (closure_init farg_isfun (AFun n))
                              (h1 ++ c :: h2))) (length h1)
              = Some (Ok (CObj (k, r))).

(** A family class derived from PyFamily is served the class built for
    PyFamily. *)
Theorem C23_full_refuted : ~ C23_full.
Proof.
  intros H.
  pose (py := mkFamily 1 Py 0 0 0 0). pose (my := mkFamily 2 (UCls 0 Py) 0 0 0 0).
  pose (app := fun (_ : farg) (c : call farg) =>
     match c_args c with [AFam f] => Ok (f_cls f) | _ => Err TypeError end : res bcls).
  specialize (H bcls (fun z => z) app 0 [mkCall [AFam py] []] (mkCall [AFam my] []) [] (UCls 0 Py)).
  assert (Hr : forall c d, same_call c d -> app (AFun 0) c = app (AFun 0) d).
  { intros [c1 c2] [d1 d2] [H1 _]. cbn [c_args] in *. unfold app. cbn [c_args].
    destruct H1 as [|x y l l' Hxy Hl]; [reflexivity|].
    destruct x as [f|n|z], y as [g|n'|z']; cbn [same_arg] in Hxy; try discriminate;
      destruct Hl; try reflexivity. destruct Hxy as (-> & _). reflexivity. }
  assert (Hh : hashes (farg_hash (fun z => z)) (mkCall [AFam my] [])) by now apply hashes_spec.
  specialize (H Hr Hh eq_refl). destruct H as [k H]. vm_compute in H. discriminate H.
Qed.

(** Only the shipped classes. *)
Definition shipped (f : family bcls) : Prop :=
  match f_cls f with UCls _ _ => False | _ => True end.
Definition arg_ok (hv : Z -> Z) (a : farg) : Prop :=
  match a with
  | AFam f => shipped f /\ (f_cls f = PyX -> fha hv f <> 0)
  | _ => True
  end.
Definition call_ok hv (c : call farg) : Prop :=
  Forall (arg_ok hv) (c_args c) /\ Forall (fun kv => arg_ok hv (snd kv)) (c_kw c).
(** Identity determines the object. *)
Definition arg_ids (P : farg -> Prop) : Prop :=
  forall f g, P (AFam f) -> P (AFam g) -> f_id f = f_id g -> f = g.
Definition arg_in (h : list (call farg)) (a : farg) : Prop :=
  exists c, In c h /\ (In a (c_args c) \/ exists n, In (n, a) (c_kw c)).

Lemma shipped_match hv f g :
  arg_ok hv (AFam f) -> arg_ok hv (AFam g) -> (f_id f = f_id g -> f = g) ->
  arg_match farg_eq (farg_hash hv) (AFam f) (AFam g) = true <-> (same_family f g \/ f = g).
Proof.
  intros [S1 N1] [S2 N2] Hid.
  unfold arg_match. cbn [farg_hash farg_eq oz_eqb]. rewrite andb_true_iff, Z.eqb_eq.
  unfold feq. rewrite (py_eq_iff _ _ _ bcls_eqb_spec bsub_refl bsub_antisym).
  unfold shipped, same_family in *. unfold fha, fhash in *.
  destruct f as [i1 c1 a1 b1 e1 p1], g as [i2 c2 a2 b2 e2 p2]; cbn [f_cls f_id f_asm f_aadt f_extras f_passes] in *.
  destruct c1; try contradiction; destruct c2; try contradiction;
    cbn [bmeth bsub bcls_eqb orb fields_eq f_cls f_id f_asm f_aadt f_extras f_passes] in *.
  all: try (split; [intros [Hh [[E _]|[[E _]|(_ & _ & E)]]]; try discriminate;
                    right; apply Hid; exact E
                   |intros [(E & _)|E]; discriminate]).
  all: try (split; [intros [Hh [[_ F]|[[_ F]|(E & _)]]]; try discriminate; left; tauto
                   |intros [(_ & E)|E];
                    [destruct E as (-> & -> & ->); [discriminate|]; split; [reflexivity|left; auto]
                    |injection E as -> -> -> -> ->; split; [reflexivity|left; auto]]]).
  - (* Py Py *)
    split; [|intros _; split; [reflexivity|left; auto]].
    intros _. left. split; [reflexivity|congruence].
  - (* Py PyX *)
    split; [intros [Hh _]; exfalso; apply N2; [reflexivity|symmetry; exact Hh]|].
    intros [(E & _)|E]; discriminate.
  - split; [intros [Hh _]; exfalso; apply N1; [reflexivity|exact Hh]|].
    intros [(E & _)|E]; discriminate.
Qed.

Lemma arg_match_same hv a b :
  arg_ok hv a -> arg_ok hv b -> (forall f g, a = AFam f -> b = AFam g -> f_id f = f_id g -> f = g) ->
  arg_match farg_eq (farg_hash hv) a b = true -> same_arg a b.
Proof.
  intros Ha Hb Hid H. destruct a as [f|n|z], b as [g|m|y];
    try (unfold arg_match in H; cbn [farg_eq] in H; rewrite andb_false_r in H; discriminate).
  - apply shipped_match in H; auto. cbn [same_arg]. destruct H as [H|H]; [exact H|].
    subst g. split; auto.
  - unfold arg_match in H. apply andb_true_iff in H as [_ H]. cbn [farg_eq] in H.
    apply Z.eqb_eq in H. now subst.
  - unfold arg_match in H. apply andb_true_iff in H as [_ H]. cbn [farg_eq] in H.
    apply Z.eqb_eq in H. now subst.
Qed.

Lemma arg_same_match hv a b : arg_ok hv a -> arg_ok hv b -> 
  (forall f g, a = AFam f -> b = AFam g -> f_id f = f_id g -> f = g) ->
  same_arg a b -> arg_match farg_eq (farg_hash hv) a b = true.
Proof.
  intros Ha Hb Hid H. destruct a as [f|n|z], b as [g|m|y]; cbn [same_arg] in H; try discriminate.
  - apply shipped_match; auto.
  - injection H as ->. unfold arg_match. cbn. now rewrite !Z.eqb_refl.
  - injection H as ->. unfold arg_match. cbn. destruct (y <? 0); cbn; now rewrite ?Z.eqb_refl.
Qed.

Lemma list_eqb_F2 {A} (e : A -> A -> bool) l : forall l',
  list_eqb e l l' = true <-> Forall2 (fun x y => e x y = true) l l'.
Proof.
  induction l as [|x l IH]; intros [|y l']; cbn [list_eqb].
  - split; [constructor|reflexivity].
  - split; [discriminate|intros H; inversion H].
  - split; [discriminate|intros H; inversion H].
  - rewrite andb_true_iff, IH. split; [intros [H1 H2]; now constructor|].
    intros H. inversion H. auto.
Qed.

Lemma F2_impl {A} (P Q : A -> A -> Prop) l l' :
  (forall x y, In x l -> In y l' -> P x y -> Q x y) -> Forall2 P l l' -> Forall2 Q l l'.
Proof.
  intros H F. induction F as [|x y l l' Hxy F IH]; constructor.
  - apply H; auto; now left.
  - apply IH. intros a b Ia Ib. apply H; now right.
Qed.

(** Among calls over shipped families, keys match exactly when the calls are
    the same call. *)
Lemma key_match_same hv h c d :
  Forall (call_ok hv) h -> arg_ids (arg_in h) -> In c h -> In d h ->
  key_match farg_eq (farg_hash hv) c d = true <-> same_call c d.
Proof.
  intros Hok Hid Ic Id. unfold key_match, same_call.
  rewrite andb_true_iff, !list_eqb_F2.
  rewrite Forall_forall in Hok.
  destruct (Hok c Ic) as [A1 K1]. destruct (Hok d Id) as [A2 K2].
  rewrite Forall_forall in A1, K1, A2, K2.
  assert (Hids : forall a b, (In a (c_args c) \/ exists n, In (n, a) (c_kw c)) ->
                             (In b (c_args d) \/ exists n, In (n, b) (c_kw d)) ->
            forall f g, a = AFam f -> b = AFam g -> f_id f = f_id g -> f = g).
  { intros a b Ia Ib f g -> -> E. apply Hid; auto; [exists c|exists d]; auto. }
  split; intros [F1 F2]; split.
  - revert F1. apply F2_impl. intros x y Ix Iy. apply arg_match_same; auto. apply Hids; auto.
  - revert F2. apply F2_impl. intros [n x] [m y] Ix Iy. unfold kv_match. cbn [fst snd].
    rewrite andb_true_iff, String.eqb_eq. intros [-> H]. split; [reflexivity|].
    revert H. apply arg_match_same; [exact (K1 _ Ix)|exact (K2 _ Iy)|]. apply Hids; eauto.
  - revert F1. apply F2_impl. intros x y Ix Iy. apply arg_same_match; auto. apply Hids; auto.
  - revert F2. apply F2_impl. intros [n x] [m y] Ix Iy. unfold kv_match. cbn [fst snd].
    intros [-> H]. rewrite andb_true_iff, String.eqb_eq. split; [reflexivity|].
    apply arg_same_match; [exact (K1 _ Ix)|exact (K2 _ Iy)| |exact H]. apply Hids; eauto.
Qed.

Lemma same_arg_sym a b : same_arg a b -> same_arg b a.
Proof.
  destruct a as [f|n|z], b as [g|m|y]; cbn [same_arg]; try congruence.
  unfold same_family. intros [E F]. rewrite E in F. split; [auto|]. intros N.
  destruct (F N) as (? & ? & ?). auto.
Qed.
Lemma same_arg_trans a b c : same_arg a b -> same_arg b c -> same_arg a c.
Proof.
  destruct a as [f|n|z], b as [g|m|y], c as [k|o|x]; cbn [same_arg]; try congruence.
  unfold same_family. intros [E F] [E' F']. rewrite E in *. split; [auto|]. intros N.
  destruct (F N) as (? & ? & ?). destruct (F' N) as (? & ? & ?).
  repeat split; congruence.
Qed.
Lemma F2_sym {A} (P : A -> A -> Prop) l l' : (forall x y, P x y -> P y x) -> Forall2 P l l' -> Forall2 P l' l.
Proof. intros H F. induction F; constructor; auto. Qed.
Lemma F2_trans {A} (P : A -> A -> Prop) l1 l2 l3 : (forall x y z, P x y -> P y z -> P x z) ->
  Forall2 P l1 l2 -> Forall2 P l2 l3 -> Forall2 P l1 l3.
Proof.
  intros H F. revert l3. induction F; intros l3 G; inversion G; subst; constructor; eauto.
Qed.
Lemma same_call_sym c d : same_call c d -> same_call d c.
Proof.
  intros [H1 H2]. split.
  - revert H1. apply F2_sym. exact same_arg_sym.
  - revert H2. apply F2_sym. intros x y [E F]. auto using same_arg_sym.
Qed.
Lemma same_call_trans c d e : same_call c d -> same_call d e -> same_call c e.
Proof.
  intros [H1 H2] [G1 G2]. split.
  - exact (F2_trans _ _ _ _ same_arg_trans H1 G1).
  - revert H2 G2. apply F2_trans. intros x y z [E F] [E' F']. split; [congruence|].
    eauto using same_arg_trans.
Qed.

(** Caching is transparent in every history of calls over the shipped
    families. Missing for C23: user-defined family subclasses, where it fails.
    The hypothesis on PyX says its hash differs from 0, the hash of every
    PyFamily. *)
Theorem C23_transparent_partial :
  forall (R : Type) (hv : Z -> Z) (app : farg -> call farg -> res R) n h1 c h2,
    (forall c d, same_call c d -> app (AFun n) c = app (AFun n) d) ->
    Forall (call_ok hv) (h1 ++ [c]) -> arg_ids (arg_in (h1 ++ [c])) ->
    hashes (farg_hash hv) c ->
    match app (AFun n) c with
    | Err e => nth_error (fst (cl_run farg_eq (farg_hash hv) app (closure_init farg_isfun (AFun n))
                              (h1 ++ c :: h2))) (length h1) = Some (Err e)
    | Ok r => exists k, nth_error (fst (cl_run farg_eq (farg_hash hv) app (closure_init farg_isfun (AFun n))
                              (h1 ++ c :: h2))) (length h1)
              = Some (Ok (CObj (k, r)))
    end.
Proof.
  intros R hv app n h1 c h2 Hr Hok Hid Hh%hashes_spec.
  apply (closure_result farg_eq (farg_hash hv) farg_isfun app (AFun n) h1 c h2 eq_refl Hh).
  intros c' I M. apply Hr. apply (key_match_same hv (h1 ++ [c])); auto;
    apply in_or_app; [now left|right; now left].
Qed.

(** Repeating a call, possibly with another instance of the same family, yields
    the same object. *)
Theorem C23_same_object_partial :
  forall (R : Type) (hv : Z -> Z) (app : farg -> call farg -> res R) n h1 c1 h2 c2 h3 o,
    let h := h1 ++ c1 :: h2 ++ c2 :: h3 in
    Forall (call_ok hv) (h1 ++ c1 :: h2 ++ [c2]) -> arg_ids (arg_in (h1 ++ c1 :: h2 ++ [c2])) ->
    hashes (farg_hash hv) c2 ->
    same_call c1 c2 ->
    nth_error (fst (cl_run farg_eq (farg_hash hv) app (closure_init farg_isfun (AFun n)) h))
      (length h1) = Some (Ok (CObj o)) ->
    nth_error (fst (cl_run farg_eq (farg_hash hv) app (closure_init farg_isfun (AFun n)) h))
      (length h1 + S (length h2)) = Some (Ok (CObj o)).
Proof.
  intros R hv app n h1 c1 h2 c2 h3 o h Hok Hid Hh%hashes_spec Hs H1.
  set (U := h1 ++ c1 :: h2 ++ [c2]) in *.
  assert (K : forall x y, In x U -> In y U ->
             key_match farg_eq (farg_hash hv) x y = true <-> same_call x y).
  { intros x y Ix Iy. apply (key_match_same hv U); auto. }
  apply (closure_same farg_eq (farg_hash hv) farg_isfun app (AFun n) h1 c1 h2 c2 h3 o eq_refl Hh).
  - intros x y Ix Iy M. apply (K y x Iy Ix). apply same_call_sym. apply (K x y Ix Iy). exact M.
  - intros x y z Ix Iy Iz M1 M2. apply (K x z Ix Iz). apply same_call_trans with y.
    + apply (K x y Ix Iy). exact M1.
    + apply (K y z Iy Iz). exact M2.
  - exact H1.
  - apply K; auto; unfold U; apply in_or_app; right; [now left|].
    right. apply in_or_app. right. now left.
Qed.

(** Without any assumption on families: a call never returns an object that was
    not built by the wrapped function for some matching earlier call, so the
    cache is transparent for every argument equality that the wrapped function
    respects. *)
Theorem C23_respects :
  forall (A R : Type) (aeq : A -> A -> bool) (ahash : A -> option Z) (isfun : A -> bool)
         (app : A -> call A -> res R) f h1 c h2,
    isfun f = true -> hashes ahash c ->
    (forall c', In c' h1 -> key_match aeq ahash c' c = true -> app f c' = app f c) ->
    match app f c with
    | Err e => nth_error (fst (cl_run aeq ahash app (closure_init isfun f) (h1 ++ c :: h2))) (length h1)
               = Some (Err e)
    | Ok r => exists n, nth_error (fst (cl_run aeq ahash app (closure_init isfun f) (h1 ++ c :: h2)))
                          (length h1) = Some (Ok (CObj (n, r)))
    end.
Proof. intros A R aeq ahash isfun app f h1 c h2 Hf Hh%hashes_spec Hr. now apply closure_result. Qed.

(** Unhashable arguments raise TypeError and leave the closure as it was. *)
Theorem C23_unhashable :
  forall (A R : Type) (aeq : A -> A -> bool) (ahash : A -> option Z) (app : A -> call A -> res R) s c f,
    cl_fc s = Some f -> ~ hashes ahash c ->
    cl_call aeq ahash app s c = (Err TypeError, s).
Proof.
  intros A R aeq ahash app s c f Hf Hh. rewrite hashes_spec, not_true_iff_false in Hh.
  unfold cl_call. now rewrite Hf, Hh.
Qed.

(** The same call with keyword arguments in another order builds a second
    object. *)
Theorem C23_kwargs_order_refuted :
  exists (app : farg -> call farg -> res Z) c1 c2 o1 o2,
    (forall x, In x (c_kw c1) <-> In x (c_kw c2)) /\ c_args c1 = c_args c2 /\
    fst (cl_run farg_eq (farg_hash (fun z => z)) app (closure_init farg_isfun (AFun 0)) [c1; c2])
    = [Ok (CObj o1); Ok (CObj o2)] /\ fst o1 <> fst o2.
Proof.
  pose (f := AFam (mkFamily 1 Py 0 0 0 0)).
  exists (fun _ _ => Ok 5), (mkCall [f] [("a"%string, AVal 1); ("b"%string, AVal 2)]),
    (mkCall [f] [("b"%string, AVal 2); ("a"%string, AVal 1)]), (0%nat, 5), (1%nat, 5).
  repeat split; cbn; try tauto. discriminate.
Qed.

(** A closure created with a family module instead of a function binds whatever
    it is called with first, even a family. *)
Theorem C23_bind_first_call :
  forall (R : Type) (hv : Z -> Z) (app : farg -> call farg -> res R) z f,
    cl_call farg_eq (farg_hash hv) app (closure_init farg_isfun (AVal z)) (mkCall [AFam f] [])
    = (Ok CSelf, {| cl_fc := Some (AFam f); cl_cache := []; cl_next := O |}).
Proof. reflexivity. Qed.

Example C23_case :
  let hv := fun z : Z => z + 1 in
  let py i := AFam (mkFamily i Py 0 0 0 0) in
  let pyx i := AFam (mkFamily i PyX 5 6 7 8) in
  let smt i a := AFam (mkFamily i Smt a 6 7 8) in
  let c x := mkCall [x] [] in
  let app := fun (_ : farg) (c : call farg) =>
     match c_args c with [AFam f] => Ok (f_cls f, f_asm f) | _ => Err TypeError end : res (bcls * Z) in
  let h := [c (py 1); c (pyx 2); c (smt 3 5); c (py 4); c (smt 5 5); c (smt 6 9); c (pyx 2)] in
 Forall (call_ok hv) h /\
  fst (cl_run farg_eq (farg_hash hv) app (closure_init farg_isfun (AFun 0)) h)
  = [Ok (CObj (0%nat, (Py, 0))); Ok (CObj (1%nat, (PyX, 5))); Ok (CObj (2%nat, (Smt, 5)));
     Ok (CObj (0%nat, (Py, 0))); Ok (CObj (2%nat, (Smt, 5))); Ok (CObj (3%nat, (Smt, 9)));
     Ok (CObj (1%nat, (PyX, 5)))].
Proof.
  split; [|reflexivity].
  repeat (constructor; [split; repeat constructor; cbn; discriminate|]). constructor.
Qed.

Print Assumptions C24_full_refuted.
Print Assumptions C24_hash_refuted.
Print Assumptions C24_transitive_refuted.
Print Assumptions C24_refl_sym_ne.
Print Assumptions C24_transitive_partial.
Print Assumptions C24_hash_partial.
Print Assumptions C24_meaning.
Print Assumptions C23_full_refuted.
Print Assumptions C23_transparent_partial.
Print Assumptions C23_same_object_partial.
Print Assumptions C23_respects.
Print Assumptions C23_unhashable.
Print Assumptions C23_kwargs_order_refuted.
Print Assumptions C23_bind_first_call.
