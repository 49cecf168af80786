(** C27 (IR registry and generated instructions) and C28 (interfaces and result
    checking). *)
From Coq Require DecimalString DecimalNat.
From Coq Require Import String ZArith List Bool Lia.
From Verif Require Import Base IRModel.
Import ListNotations.
Open Scope string_scope.
Open Scope list_scope.
Open Scope nat_scope.

(** ** C27 The registry *)

(** Expected: the first closure given for a name. *)
Fixpoint first_def {P} (h : list (string * P)) (n : string) : option P :=
  match h with
  | [] => None
  | (m, p) :: h' => if String.eqb m n then Some p else first_def h' n
  end.

Section Reg.
  Context {P : Type}.

  Lemma dget_dset_s (r : list (string * P)) n p m :
    dget String.eqb (dset String.eqb r n p) m = if String.eqb m n then Some p else dget String.eqb r m.
  Proof.
    induction r as [|[k x] r IH]; cbn [dset dget].
    - destruct (String.eqb_spec m n); reflexivity.
    - destruct (String.eqb_spec n k) as [->|N]; cbn [dget].
      + destruct (String.eqb_spec m k); reflexivity.
      + destruct (String.eqb_spec m k) as [->|]; [|exact IH].
        destruct (String.eqb_spec k n); congruence.
  Qed.

  Lemma first_def_app (h h' : list (string * P)) n :
    first_def (h ++ h') n = match first_def h n with Some p => Some p | None => first_def h' n end.
  Proof. induction h as [|[m p] h IH]; cbn; auto. destruct (String.eqb m n); auto. Qed.

  Lemma add_all_spec (h : list (string * P)) : forall r h0,
    (forall n, dget String.eqb r n = first_def h0 n) ->
    (forall n, dget String.eqb (snd (add_all r h)) n = first_def (h0 ++ h) n) /\
    (forall h1 n p h2, h = h1 ++ (n, p) :: h2 ->
       nth_error (fst (add_all r h)) (length h1) =
       Some (match first_def (h0 ++ h1) n with Some _ => Err ValueError | None => Ok tt end)).
  Proof.
    induction h as [|[m q] h IH]; intros r h0 Hr.
    - split; [intros n; rewrite app_nil_r; apply Hr|]. intros [|? ?]; discriminate.
    - pose proof (Hr m) as Hm.
      set (r' := match dget String.eqb r m with Some _ => r | None => dset String.eqb r m q end).
      assert (Hr' : forall n, dget String.eqb r' n = first_def (h0 ++ [(m, q)]) n).
      { intros n. rewrite first_def_app. cbn [first_def]. unfold r'. destruct (dget String.eqb r m) eqn:E.
        - rewrite (Hr n). destruct (first_def h0 n) eqn:F; auto.
          destruct (String.eqb_spec m n) as [->|]; auto. congruence.
        - rewrite dget_dset_s, (Hr n). destruct (String.eqb_spec n m) as [->|N].
          + rewrite <- Hm, String.eqb_refl. reflexivity.
          + destruct (String.eqb_spec m n); [congruence|]. destruct (first_def h0 n); auto. }
      destruct (IH r' _ Hr') as [I1 I2]. rewrite <- app_assoc in I1. cbn [app] in I1.
      assert (E : add_all r ((m, q) :: h)
              = ((match first_def h0 m with Some _ => Err ValueError | None => Ok tt end) :: fst (add_all r' h), snd (add_all r' h))).
      { cbn [add_all]. unfold add_instruction, r'. rewrite <- Hm.
        destruct (dget String.eqb r m); destruct (add_all _ h); reflexivity. }
      rewrite E. cbn [fst snd]. split; [exact I1|].
      intros [|[m' q'] h1] n p h2 Eh; cbn [app] in Eh; injection Eh as -> -> ->.
      + rewrite app_nil_r. reflexivity.
      + cbn [length nth_error]. rewrite (I2 h1 n p h2 eq_refl), <- app_assoc. reflexivity.
  Qed.
End Reg.

(** After every sequence of calls on a new IR: each name has the closure of its
    first call, and the i-th call raises exactly when its name came before. *)
Theorem C27_registry :
  forall (P : Type) (h : list (string * P)),
    (forall n, dget String.eqb (snd (add_all [] h)) n = first_def h n) /\
    (forall h1 n p h2, h = h1 ++ (n, p) :: h2 ->
       nth_error (fst (add_all [] h)) (length h1) =
       Some (if existsb (fun x => String.eqb (fst x) n) h1 then Err ValueError else Ok tt)).
Proof.
  intros P h. destruct (add_all_spec h [] [] (fun n => eq_refl)) as [H1 H2]. split; [exact H1|].
  intros h1 n p h2 E. rewrite (H2 h1 n p h2 E). cbn [app]. f_equal.
  clear. induction h1 as [|[m q] h1 IH]; auto. cbn [first_def existsb fst].
  destruct (String.eqb m n); [reflexivity|exact IH].
Qed.

Example C27_registry_case :
  add_all [] [("add", 1%Z); ("sub", 2%Z); ("add", 3%Z)]%string
  = ([Ok tt; Ok tt; Err ValueError], [("add", 1%Z); ("sub", 2%Z)]%string).
Proof. reflexivity. Qed.

(** ** C27 Generated classes *)

Lemma tname_inj i j : tname i = tname j -> i = j.
Proof.
  unfold tname. intros H. cbn [append] in H. injection H as H.
  assert (E : forall n, DecimalString.NilZero.uint_of_string (DecimalString.NilZero.string_of_uint (Nat.to_uint n)) = Some (Nat.to_uint n)).
  { intros n. apply DecimalString.NilZero.usu. intros E.
    pose proof (DecimalNat.Unsigned.of_to n) as F. rewrite E in F. cbn in F. subst n. discriminate E. }
  pose proof (E i) as Ei. rewrite H, (E j) in Ei. injection Ei as Ei.
  symmetry. apply DecimalNat.Unsigned.to_uint_inj. exact Ei.
Qed.

Lemma utname_inj i j : utname i = utname j -> i = j.
Proof. unfold utname. cbn [append]. intros H. injection H. intros H'. apply tname_inj. unfold tname. cbn [append]. congruence. Qed.

Lemma tname_utname i j : tname i <> utname j.
Proof. unfold utname, tname. cbn [append]. discriminate. Qed.

Section Gen.
  Context {T V F : Type} (teqb : T -> T -> bool).
  Hypothesis teqb_spec : forall a b, teqb a b = true <-> a = b.
  Notation gval := (gval T V F).

  (** *** The list of distinct types *)
  Lemma distinct_In ts : forall seen t, In t (distinct_types teqb ts seen) <-> In t seen \/ In t ts.
  Proof.
    induction ts as [|u ts IH]; intros seen t; cbn [distinct_types In]; [tauto|].
    destruct (existsb (teqb u) seen) eqn:E; rewrite IH.
    - apply existsb_exists in E as (x & Ix & Ex). apply teqb_spec in Ex. subst x.
      split; [tauto|]. intros [H|[->|H]]; tauto.
    - rewrite in_app_iff. cbn [In]. tauto.
  Qed.

  Lemma type_index_In ts t : In t ts -> exists i, type_index teqb ts t = Some i /\ nth_error ts i = Some t.
  Proof.
    induction ts as [|u ts IH]; intros I; [easy|]. cbn [type_index].
    destruct (teqb t u) eqn:E.
    - apply teqb_spec in E. subst u. exists 0. auto.
    - destruct I as [->|I].
      + rewrite (proj2 (teqb_spec t t) eq_refl) in E. discriminate.
      + destruct (IH I) as (i & -> & N). exists (S i). auto.
  Qed.

  (** *** Global names *)
  Lemma dget_globals_t (l : list (nat * T)) i :
    dget String.eqb (map (fun it : nat * T => (tname (fst it), GType (snd it) : gval)) l) (tname i)
    = match dget Nat.eqb l i with Some t => Some (GType t) | None => None end.
  Proof.
    induction l as [|[j t] l IH]; auto. cbn [map dget fst snd].
    destruct (String.eqb_spec (tname i) (tname j)) as [E|E].
    - apply tname_inj in E as ->. rewrite Nat.eqb_refl. reflexivity.
    - destruct (Nat.eqb_spec i j); [congruence|]. exact IH.
  Qed.

  Lemma dget_combine_seq (ts : list T) : forall k i,
    dget Nat.eqb (combine (seq k (length ts)) ts) (k + i) = nth_error ts i.
  Proof.
    induction ts as [|t ts IH]; intros k i; [destruct i; reflexivity|].
    cbn [length seq combine dget]. destruct i as [|i].
    - rewrite Nat.add_0_r, Nat.eqb_refl. reflexivity.
    - destruct (Nat.eqb_spec (k + S i) k); [lia|].
      replace (k + S i) with (S k + i) by lia. apply IH.
  Qed.

  Lemma globals_t (ts : list T) i : dget String.eqb (globals ts : scope (V:=V) (F:=F)) (tname i) =
    match nth_error ts i with Some t => Some (GType t) | None => None end.
  Proof.
    unfold globals. cbn [app dget].
    replace (String.eqb (tname i) "Peak") with false by reflexivity.
    replace (String.eqb (tname i) "name_outputs") with false by reflexivity.
    replace (String.eqb (tname i) "_fun_") with false by reflexivity.
    replace (String.eqb (tname i) "_family_closure") with false by reflexivity.
    rewrite dget_globals_t. change i with (0 + i) at 1. rewrite dget_combine_seq. reflexivity.
  Qed.

  (** *** The local variables [_ti] *)
  Definition has_types (ts : list T) (is : list nat) (fam : F) (L : scope (V:=V) (F:=F)) : Prop :=
    dget String.eqb L "family" = Some (GFamily fam) /\
    (forall i, In i is -> exists t, nth_error ts i = Some t /\ dget String.eqb L (utname i) = Some (GType t)) /\
    (forall n v, dget String.eqb L n = Some v -> n = "family"%string \/ exists i, n = utname i).

  Lemma bind_types_ok cls ts fam is : forall done L,
    (forall i, In i is -> i < length ts) ->
    (forall i, In i is -> tname i <> cls) ->
    has_types ts done fam L ->
    exists L', bind_types cls (globals ts) is L = Ok L' /\ has_types ts (done ++ is) fam L'.
  Proof.
    induction is as [|i is IH]; intros done L B N (H1 & H2 & H3); cbn [bind_types].
    - exists L. split; auto. rewrite app_nil_r. repeat split; auto.
    - unfold fn_lookup at 1.
      destruct (dget String.eqb L (tname i)) as [v|] eqn:E.
      { exfalso. destruct (H3 _ _ E) as [D|[j D]]; [discriminate D|]. exact (tname_utname i j D). }
      destruct (String.eqb_spec (tname i) cls) as [D|_]; [exfalso; exact (N i (or_introl eq_refl) D)|].
      rewrite globals_t. pose proof (B i (or_introl eq_refl)) as Bi.
      destruct (nth_error ts i) as [t|] eqn:Et; [|apply nth_error_None in Et; lia].
      cbn [bind].
      destruct (IH (done ++ [i]) (dset String.eqb L (utname i) (GType t))) as (L' & E' & H').
      + intros j J. apply B. now right.
      + intros j J. apply N. now right.
      + split; [|split].
        * rewrite dget_dset_s. change (String.eqb "family" (utname i)) with false. exact H1.
        * intros j J. rewrite dget_dset_s. destruct (String.eqb_spec (utname j) (utname i)) as [D|D].
          { apply utname_inj in D as ->. exists t. auto. }
          apply in_app_iff in J as [J|[->|[]]]; [|congruence]. apply H2, J.
        * intros n v. rewrite dget_dset_s. destruct (String.eqb_spec n (utname i)) as [->|D]; [eauto|]. apply H3.
      + exists L'. split; auto. rewrite <- app_assoc in H'. exact H'.
  Qed.

  Lemma eval_types_ok cls ts fam L fs :
    has_types ts (seq 0 (length ts)) fam L ->
    (forall n t, In (n, t) fs -> In t ts) ->
    eval_types teqb cls L (globals ts) ts fs = Ok fs.
  Proof.
    intros (_ & H & _). induction fs as [|[n t] fs IH]; intros I; auto. cbn [eval_types].
    destruct (type_index_In ts t (I n t (or_introl eq_refl))) as (i & -> & Ni).
    assert (i < length ts) as Li by (apply nth_error_Some; congruence).
    destruct (H i) as (t' & Nt & Dt); [apply in_seq; lia|].
    unfold fn_lookup. rewrite Dt. cbn [bind as_type]. rewrite IH by (intros m u J; apply (I m u); now right).
    cbn [bind]. congruence.
  Qed.

  Definition class_name_ok (cls : string) (ntypes : nat) : Prop :=
    cls <> "Peak"%string /\ cls <> "name_outputs"%string /\ cls <> "_fun_"%string /\
    cls <> "family"%string /\ forall i, i < ntypes -> cls <> tname i.

  Definition input_names_ok (ins : list string) : Prop :=
    NoDup ins /\ ~ In "self"%string ins /\ ~ In "family"%string ins /\ ~ In "_fun_"%string ins.

  Lemma build_ok cls ins outs fam :
    let ts := distinct_types teqb (map snd ins ++ map snd outs) [] in
    class_name_ok cls (length ts) -> input_names_ok (map fst ins) ->
    exists c : gclass T V F, build_class teqb cls ins outs fam = Ok c /\ g_in c = ins /\ g_out c = outs /\
      dget String.eqb (g_scope c) "family" = Some (GFamily fam) /\
      dget String.eqb (g_scope c) "_fun_" = None /\ dget String.eqb (g_glob c) "_fun_" = Some GFun.
  Proof.
    intros ts (N1 & N2 & N3 & N4 & N5) (_ & S & _ & _). unfold build_class.
    destruct (existsb _ _) eqn:E.
    { apply existsb_exists in E as (x & I & Ex). apply String.eqb_eq in Ex. subst x. contradiction. }
    fold ts.
    destruct (bind_types_ok cls ts fam (seq 0 (length ts)) [] [("family"%string, GFamily fam)]) as (L & EL & HL).
    - intros i I. apply in_seq in I. lia.
    - intros i I. apply in_seq in I. apply not_eq_sym, N5. lia.
    - split; [reflexivity|]. split; [easy|]. intros n v D. cbn [dget] in D.
      destruct (String.eqb_spec n "family"); [auto|discriminate].
    - rewrite EL. cbn [bind app] in *. pose proof HL as (HF & _ & HO).
      assert (LN : forall n, n <> "family"%string -> (forall i, n <> utname i) -> dget String.eqb L n = None).
      { intros n A B. destruct (dget String.eqb L n) eqn:D; auto. destruct (HO _ _ D) as [|[i Hi]]; [congruence|].
        exfalso. exact (B i Hi). }
      assert (X1 : fn_lookup cls L (globals ts) "Peak" = Ok GPeak).
      { unfold fn_lookup. rewrite LN; [|discriminate|intros i Hi; discriminate Hi].
        destruct (String.eqb_spec "Peak" cls); [congruence|]. reflexivity. }
      assert (X2 : fn_lookup cls L (globals ts) "name_outputs" = Ok GNameOutputs).
      { unfold fn_lookup. rewrite LN; [|discriminate|intros i Hi; discriminate Hi].
        destruct (String.eqb_spec "name_outputs" cls); [congruence|]. reflexivity. }
      rewrite X1, X2. cbn [bind].
      assert (IT : forall t, In t ts <-> In t (map snd ins ++ map snd outs)).
      { intros t. unfold ts. rewrite distinct_In. cbn [In]. tauto. }
      rewrite (eval_types_ok cls ts fam L outs HL).
      2:{ intros n t I. apply IT, in_app_iff. right. exact (in_map snd _ _ I). }
      rewrite (eval_types_ok cls ts fam L ins HL).
      2:{ intros n t I. apply IT, in_app_iff. left. exact (in_map snd _ _ I). }
      cbn [bind]. eexists. split; [reflexivity|]. cbn [g_in g_out g_scope g_glob].
      split; [reflexivity|]. split; [reflexivity|]. split; [|split].
      + rewrite dget_dset_s. destruct (String.eqb_spec "family" cls); [congruence|]. exact HF.
      + rewrite dget_dset_s. destruct (String.eqb_spec "_fun_" cls); [congruence|].
        apply LN; [discriminate|intros i Hi; discriminate Hi].
      + reflexivity.
  Qed.

  Lemma params_other (fs : list (string * T)) (vs : list V) n : ~ In n (map fst fs) ->
    dget String.eqb (map (fun p => (fst (fst p), GArg (snd p) : gval)) (combine fs vs)) n = None.
  Proof.
    revert vs. induction fs as [|[m t] fs IH]; intros [|v vs] N; auto. cbn [combine map dget fst snd].
    destruct (String.eqb_spec n m) as [->|]; [exfalso; apply N; now left|].
    apply IH. intros I. apply N. now right.
  Qed.

  Lemma params_all (fs : list (string * T)) : forall (vs : list V) c pre,
    NoDup (map fst fs) -> length vs = length fs ->
    (forall n, In n (map fst fs) -> dget String.eqb pre n = None) ->
    mapM (call_lookup c (pre ++ map (fun p => (fst (fst p), GArg (snd p) : gval)) (combine fs vs))) (map fst fs)
    = Ok (map (fun v => GArg v) vs).
  Proof.
    induction fs as [|[m t] fs IH]; intros [|v vs] c pre ND L Hp; try discriminate; auto.
    cbn [map combine mapM fst snd]. inversion ND as [|? ? N1 N2]; subst.
    assert (D : dget String.eqb (pre ++ (m, GArg v : gval) :: map (fun p => (fst (fst p), GArg (snd p))) (combine fs vs)) m = Some (GArg v)).
    { pose proof (Hp m (or_introl eq_refl)) as Hm. revert Hm. clear. induction pre as [|[k x] pre IHp]; cbn [app dget].
      - now rewrite String.eqb_refl.
      - destruct (String.eqb m k); [discriminate|]. exact IHp. }
    unfold call_lookup at 1. rewrite D. cbn [bind].
    specialize (IH vs c (pre ++ [(m, GArg v : gval)]) N2 ltac:(now injection L)).
    rewrite <- app_assoc in IH. cbn [app] in IH. rewrite IH; auto.
    intros n I. pose proof (Hp n (or_intror I)) as Hn. revert Hn.
    assert (n <> m) as Nm by (intros ->; contradiction).
    clear - Nm. induction pre as [|[k x] pre IHp]; cbn [app dget].
    - destruct (String.eqb_spec n m); [contradiction|auto].
    - destruct (String.eqb n k); [discriminate|]. exact IHp.
  Qed.

  Lemma gen_ok cls ins outs fam vs :
    let ts := distinct_types teqb (map snd ins ++ map snd outs) [] in
    class_name_ok cls (length ts) -> input_names_ok (map fst ins) -> length vs = length ins ->
    exists c : gclass T V F, build_class teqb cls ins outs fam = Ok c /\ g_in c = ins /\ g_out c = outs /\
      gen_call c vs = Ok (GFun, GFamily fam :: map (fun v => GArg v) vs).
  Proof.
    intros ts C I Lv. destruct (build_ok cls ins outs fam C I) as (c & B & Hi & Ho & Sf & Sg & Gg).
    exists c. repeat (split; [assumption|]). destruct I as (ND & NS & NF & NU).
    unfold gen_call. rewrite Hi, Lv, Nat.eqb_refl. cbn [negb].
    set (ps := map (fun p : string * T * V => (fst (fst p), GArg (snd p) : gval)) (combine ins vs)).
    assert (X1 : call_lookup c (("self"%string, GSelf) :: ps) "_fun_" = Ok GFun).
    { unfold call_lookup. cbn [dget]. change (String.eqb "_fun_" "self") with false. cbn iota.
      unfold ps. rewrite params_other by exact NU. rewrite Sg, Gg. reflexivity. }
    assert (X2 : call_lookup c (("self"%string, GSelf) :: ps) "family" = Ok (GFamily fam)).
    { unfold call_lookup. cbn [dget]. change (String.eqb "family" "self") with false. cbn iota.
      unfold ps. rewrite params_other by exact NF. rewrite Sf. reflexivity. }
    rewrite X1, X2. cbn [bind].
    pose proof (params_all ins vs c [("self"%string, GSelf)] ND Lv) as X3. cbn [app] in X3. fold ps in X3.
    rewrite X3. { reflexivity. }
    intros n In_. cbn [dget]. destruct (String.eqb_spec n "self") as [->|]; [contradiction|reflexivity].
  Qed.
End Gen.

(** Full property for add_peak_instruction: whatever the names, the class has the
    given interface and its call is [fun(family, *values)] with the values in
    order. *)
Definition C27_generated_full : Prop :=
  forall (T V F : Type) (teqb : T -> T -> bool), (forall a b, teqb a b = true <-> a = b) ->
  forall cls (ins outs : list (string * T)) (fam : F) (vs : list V),
    NoDup (map fst ins) -> NoDup (map fst outs) -> length vs = length ins ->
    exists c : gclass T V F, build_class teqb cls ins outs fam = Ok c /\ g_in c = ins /\ g_out c = outs /\
      gen_call c vs = Ok (GFun, GFamily fam :: map (fun v => GArg v) vs).

(** Missing for the full property: instructions called Peak, name_outputs, _fun_,
    family or t0, t1, ..., and inputs called self, family or _fun_. *)
Theorem C27_generated_partial :
  forall (T V F : Type) (teqb : T -> T -> bool), (forall a b, teqb a b = true <-> a = b) ->
  forall cls (ins outs : list (string * T)) (fam : F) (vs : list V),
    ~ In cls ["Peak"; "name_outputs"; "_fun_"; "family"]%string -> (forall i, cls <> tname i) ->
    NoDup (map fst ins) ->
    (forall n, In n ["self"; "family"; "_fun_"]%string -> ~ In n (map fst ins)) ->
    length vs = length ins ->
    exists c : gclass T V F, build_class teqb cls ins outs fam = Ok c /\ g_in c = ins /\ g_out c = outs /\
      gen_call c vs = Ok (GFun, GFamily fam :: map (fun v => GArg v) vs).
Proof.
  intros T V F teqb S cls ins outs fam vs C Ct ND Ni L. apply gen_ok; auto.
  - repeat split; try (intros ->; apply C; cbn; tauto). intros i _. apply Ct.
  - repeat split; auto; apply Ni; cbn; tauto.
Qed.

Example C27_generated_case :
  (exists c, build_class (V := Z) Z.eqb "add" [("in0", 16%Z); ("in1", 16%Z); ("c", 1%Z)]%string [("out", 16%Z)]%string "Py"%string = Ok c /\
     gen_call c [3; 4; 1]%Z = Ok (GFun, [GFamily "Py"%string; GArg 3; GArg 4; GArg 1]%Z)) /\
  ~ In "add"%string ["Peak"; "name_outputs"; "_fun_"; "family"]%string /\ (forall i, "add"%string <> tname i).
Proof.
  split; [eexists; split; reflexivity|]. split; [cbn; intuition discriminate|]. intros i H. discriminate H.
Qed.

(** An input called family takes the place of the family. *)
Theorem C27_input_family_refuted :
  exists c, build_class (V := Z) Z.eqb "add" [("family", 16%Z)]%string [("out", 16%Z)]%string tt = Ok c /\
    gen_call c [7%Z] = Ok (GFun, [GArg 7%Z; GArg 7%Z]).
Proof. eexists. split; reflexivity. Qed.

(** An input called _fun_ is called itself. *)
Theorem C27_input_fun_refuted :
  exists c, build_class (V := Z) Z.eqb "add" [("_fun_", 16%Z)]%string [("out", 16%Z)]%string tt = Ok c /\
    gen_call c [7%Z] = Ok (GArg 7%Z, [GFamily tt; GArg 7%Z]).
Proof. eexists. split; reflexivity. Qed.

(** An instruction called t0 (with any interface) cannot be built. *)
Theorem C27_class_t0_refuted :
  build_class (V := Z) Z.eqb "t0" [("x", 16%Z)]%string [("out", 16%Z)]%string tt = Err NameError.
Proof. reflexivity. Qed.

(** An instruction called family is passed its own class as the family. *)
Theorem C27_class_family_refuted :
  exists c, build_class (V := Z) Z.eqb "family" [("x", 16%Z)]%string [("out", 16%Z)]%string tt = Ok c /\
    gen_call c [7%Z] = Ok (GFun, [GClass; GArg 7%Z]).
Proof. eexists. split; reflexivity. Qed.

Theorem C27_generated_full_refuted : ~ C27_generated_full.
Proof.
  intros H. destruct (H Z Z unit Z.eqb Z.eqb_eq "t0"%string [("x", 16%Z)]%string [("out", 16%Z)]%string tt [1%Z])
    as (c & E & _); try (repeat constructor; cbn; tauto). discriminate E.
Qed.

(** ** C28 Interfaces *)
Section C28.
  Context {T V : Type}.

  (** The parameters of a call, without [self] for a [__call__] method. *)
  Definition call_params (f : pyfun T) : list string :=
    if String.eqb (f_name f) "__call__" then tl (f_params f) else f_params f.

  Lemma mem_spec x l : existsb (String.eqb x) l = true <-> In x l.
  Proof.
    rewrite existsb_exists. split.
    - intros (y & I & E). apply String.eqb_eq in E. now subst.
    - intros I. exists x. split; auto. apply String.eqb_refl.
  Qed.

  Lemma dget_In (l : list (string * T)) n : In n (map fst l) -> exists t, dget String.eqb l n = Some t.
  Proof.
    induction l as [|[m t] l IH]; [easy|]. cbn [map fst dget In]. destruct (String.eqb_spec n m) as [->|N]; eauto.
    intros [E|I]; [congruence|auto].
  Qed.

  Lemma input_fields (f : pyfun T) ns : (forall n, In n ns -> In n (map fst (f_ann f))) ->
    exists fs, mapM (fun n => do t <- dgetE String.eqb (f_ann f) n; Ok (n, t)) ns = Ok fs /\
      map fst fs = ns /\ (forall n t, In (n, t) fs -> dget String.eqb (f_ann f) n = Some t).
  Proof.
    induction ns as [|n ns IH]; intros H.
    - exists []. repeat split. intros ? ? [].
    - cbn [mapM]. destruct (dget_In (f_ann f) n (H n (or_introl eq_refl))) as [t Et].
      unfold dgetE. rewrite Et. cbn [bind]. destruct IH as (fs & E & M & D).
      { intros m I. apply H. now right. }
      change (mapM (fun n0 => do t0 <- match dget String.eqb (f_ann f) n0 with Some v => Ok v | None => Err KeyError end;
         Ok (n0, t0)) ns) with (mapM (fun n0 => do t0 <- dgetE String.eqb (f_ann f) n0; Ok (n0, t0)) ns).
      rewrite E. cbn [bind]. exists ((n, t) :: fs). cbn [map fst].
      split; [reflexivity|]. split; [congruence|]. intros m u [[= <- <-]|I]; auto.
  Qed.
End C28.

(** The input type lists exactly the parameters, in order, with their
    annotations; it is None for no parameters; a missing or extra annotation is
    a ValueError. *)
Theorem C28_input_t :
  forall (T : Type) (f : pyfun T),
    ((forall n, In n (call_params f) <-> In n (map fst (f_ann f))) ->
       exists fs, gen_input_t f = Ok (match fs with [] => None | _ => Some fs end) /\ map fst fs = call_params f /\
         forall n t, In (n, t) fs -> dget String.eqb (f_ann f) n = Some t) /\
    (~ (forall n, In n (call_params f) <-> In n (map fst (f_ann f))) -> gen_input_t f = Err ValueError).
Proof.
  intros T f. unfold gen_input_t. fold (call_params f).
  assert (S : forallb (fun x => existsb (String.eqb x) (map fst (f_ann f))) (call_params f) &&
              forallb (fun x => existsb (String.eqb x) (call_params f)) (map fst (f_ann f)) = true <->
              (forall n, In n (call_params f) <-> In n (map fst (f_ann f)))).
  { rewrite andb_true_iff, !forallb_forall. split.
    - intros [A B] n. split; intros I; [apply A in I|apply B in I]; apply mem_spec in I; exact I.
    - intros H. split; intros n I; apply mem_spec; apply H; exact I. }
  split; intros H.
  - rewrite (proj2 S H). cbn [negb].
    destruct (input_fields f (call_params f) ltac:(intros n I; apply H, I)) as (fs & E & M & D).
    rewrite E. cbn [bind]. exists fs. auto.
  - destruct (_ && _); [exfalso; apply H, S; reflexivity|]. reflexivity.
Qed.

Example C28_input_t_case :
  gen_input_t (T := Z) {| f_name := "__call__"; f_params := ["self"; "a"; "b"]; f_ann := [("b", 8%Z); ("a", 16%Z)]; f_ret := None |}
  = Ok (Some [("a", 16%Z); ("b", 8%Z)]%string) /\
  gen_input_t (T := Z) {| f_name := "__call__"; f_params := ["self"; "a"; "b"]; f_ann := [("a", 16%Z)]; f_ret := None |}
  = Err ValueError.
Proof. split; reflexivity. Qed.

(** The output type has one entry per declared output; a missing return
    annotation is a ValueError. *)
Theorem C28_output_t :
  forall (T : Type) (f : pyfun T),
    (gen_output_t f = Err ValueError <-> f_ret f = None) /\
    (gen_output_t f = Ok None <-> f_ret f = Some RetNone) /\
    (forall ts, gen_output_t f = Ok (Some ts) <->
       f_ret f = Some (RetTuple ts) \/ exists t, f_ret f = Some (RetOne t) /\ ts = [t]).
Proof.
  intros T f. unfold gen_output_t. destruct (f_ret f) as [[|t|ts]|];
    (split; [|split]); try (split; congruence); intros us; split; try discriminate.
  - intros [H|(t & H & _)]; discriminate.
  - intros [= <-]. right. eauto.
  - intros [H|(t' & [= <-] & ->)]; [discriminate|reflexivity].
  - intros [= <-]. now left.
  - intros [[= <-]|(t & H & _)]; [reflexivity|discriminate].
  - intros [H|(t & H & _)]; discriminate.
Qed.

(** ** C28 Result checking *)

(** The results of a call as a list: the elements of a tuple, else the one
    result. *)
Definition results {V} (r : result V) : list V := match r with RSingle v => [v] | RTuple l => l end.

Section Check.
  Context {T V : Type} (inst : V -> T -> bool).

  (** Position i exists on both sides and does not match. *)
  Definition mismatch (ts : list T) (l : list V) (i : nat) : Prop :=
    exists t v, nth_error ts i = Some t /\ nth_error l i = Some v /\ inst v t = false.

  Lemma check_ok ts : forall l, check inst ts l = Ok tt <->
    length ts <= length l /\ forall i, ~ mismatch ts l i.
  Proof.
    induction ts as [|t ts IH]; intros [|v l]; cbn [check length].
    - split; [|auto]. intros _. split; [lia|]. intros i (t & v & H & _). destruct i; discriminate.
    - split; [|auto]. intros _. split; [lia|]. intros i (t & u & H & _). destruct i; discriminate.
    - split; [discriminate|]. intros [H _]. lia.
    - destruct (inst v t) eqn:E.
      + rewrite IH. split; intros [L H]; (split; [lia|]); intros i.
        * destruct i as [|i]; [|exact (H i)]. intros (t' & v' & [= <-] & [= <-] & E'). congruence.
        * exact (H (S i)).
      + split; [discriminate|]. intros [_ H]. exfalso. apply (H 0). exists t, v. auto.
  Qed.

  Lemma check_err ts : forall l e, check inst ts l = Err e <->
    (e = TypeError /\ exists i, mismatch ts l i) \/
    (e = IndexError /\ length l < length ts /\ forall i, ~ mismatch ts l i).
  Proof.
    induction ts as [|t ts IH]; intros [|v l] e; cbn [check length].
    - split; [discriminate|]. intros [(_ & i & t & v & H & _)|(_ & H & _)]; [destruct i; discriminate|lia].
    - split; [discriminate|]. intros [(_ & i & t & u & H & _)|(_ & H & _)]; [destruct i; discriminate|lia].
    - split.
      + intros [= <-]. right. split; auto. split; [lia|]. intros i (t' & v & _ & H & _). destruct i; discriminate.
      + intros [(_ & i & t' & v & _ & H & _)|(-> & _)]; [destruct i; discriminate|reflexivity].
    - destruct (inst v t) eqn:E.
      + rewrite IH. split; (intros [(-> & i & H)|(-> & L & H)]; [left|right]); (split; [reflexivity|]).
        * exists (S i). exact H.
        * split; [lia|]. intros [|i]; [|exact (H i)]. intros (t' & v' & [= <-] & [= <-] & E'). congruence.
        * destruct i as [|i]; [|exists i; exact H]. destruct H as (t' & v' & [= <-] & [= <-] & E'). congruence.
        * split; [lia|]. intros i. exact (H (S i)).
      + split.
        * intros [= <-]. left. split; auto. exists 0, t, v. auto.
        * intros [(-> & _)|(_ & _ & H)]; [reflexivity|]. exfalso. apply (H 0). exists t, v. auto.
  Qed.
End Check.

(** Full property: results of the declared number and types are returned
    unchanged, everything else is a TypeError. *)
Definition C28_full : Prop :=
  forall (T V : Type) (inst : V -> T -> bool) (ts : list T) (r : result V),
    (length (results r) = length ts /\ (forall i, ~ mismatch inst ts (results r) i) -> checked_call inst (Some ts) r = Ok r) /\
    (~ (length (results r) = length ts /\ (forall i, ~ mismatch inst ts (results r) i)) ->
       checked_call inst (Some ts) r = Err TypeError).

(** One result too many passes. *)
Theorem C28_full_refuted : ~ C28_full.
Proof.
  intros H. destruct (H unit Z (fun _ _ => true) [tt] (RTuple [1%Z; 2%Z])) as [_ H2].
  specialize (H2 ltac:(intros [E _]; discriminate E)). discriminate H2.
Qed.

(** What the wrapper does in every case. Missing for C28: too many results are
    accepted, and too few are an IndexError. *)
Theorem C28_typecheck_partial :
  forall (T V : Type) (inst : V -> T -> bool) (ts : list T) (r : result V),
    (checked_call inst (Some ts) r = Ok r <->
       length ts <= length (results r) /\ forall i, ~ mismatch inst ts (results r) i) /\
    (forall r', checked_call inst (Some ts) r = Ok r' -> r' = r) /\
    (checked_call inst (Some ts) r = Err TypeError <-> exists i, mismatch inst ts (results r) i) /\
    (checked_call inst (Some ts) r = Err IndexError <->
       length (results r) < length ts /\ forall i, ~ mismatch inst ts (results r) i).
Proof.
  intros T V inst ts r.
  assert (E : checked_call inst (Some ts) r = do _ <- check inst ts (results r); Ok r) by (destruct r; reflexivity).
  rewrite E. pose proof (check_ok inst ts (results r)) as C1. pose proof (check_err inst ts (results r)) as C2.
  destruct (check inst ts (results r)) as [[]|e]; cbn [bind].
  - split; [split; [intros _; apply C1; reflexivity|reflexivity]|].
    split; [congruence|]. split; (split; [discriminate|]).
    + intros [i Hi]. exfalso. apply (proj2 (proj1 C1 eq_refl) i Hi).
    + intros [H _]. destruct (proj1 C1 eq_refl). lia.
  - split; [split; [discriminate|]; intros H; apply C1 in H; discriminate|].
    split; [discriminate|]. destruct (proj1 (C2 e) eq_refl) as [(-> & i & M)|(-> & L & N)].
    + split; (split; [intros H|intros H]); eauto; try discriminate. exfalso. apply (proj2 H i M).
    + split; (split; [intros H|intros H]); eauto; try discriminate. destruct H as [i Hi]. exfalso. exact (N i Hi).
Qed.

Theorem C28_too_few_refuted : forall (T V : Type) (inst : V -> T -> bool) (t u : T) (v : V), inst v t = true ->
  checked_call inst (Some [t; u]) (RSingle v) = Err IndexError.
Proof. intros T V inst t u v E. cbn. now rewrite E. Qed.

(** A call declared to return None cannot be called once checked. *)
Theorem C28_none_refuted : forall (T V : Type) (inst : V -> T -> bool) (r : result V),
  checked_call inst None r = Err AttributeError.
Proof. reflexivity. Qed.

Example C28_case :
  checked_call Z.leb (Some [4; 8]%Z) (RTuple [3; 8]%Z) = Ok (RTuple [3; 8]%Z) /\
  checked_call Z.leb (Some [4; 8]%Z) (RTuple [3; 9]%Z) = Err TypeError /\
  checked_call Z.leb (Some [4]%Z) (RSingle 3%Z) = Ok (RSingle 3%Z) /\
  checked_call Z.leb (Some [4; 8]%Z) (RTuple [3; 8; 100]%Z) = Ok (RTuple [3; 8; 100]%Z).
Proof. repeat split. Qed.

Print Assumptions C27_registry.
Print Assumptions C27_generated_partial.
Print Assumptions C27_input_family_refuted.
Print Assumptions C27_input_fun_refuted.
Print Assumptions C27_class_t0_refuted.
Print Assumptions C27_class_family_refuted.
Print Assumptions C27_generated_full_refuted.
Print Assumptions C28_input_t.
Print Assumptions C28_output_t.
Print Assumptions C28_full_refuted.
Print Assumptions C28_typecheck_partial.
Print Assumptions C28_too_few_refuted.
Print Assumptions C28_none_refuted.
