(** C93: mapping Peak classes whose objects keep state. *)
From Coq Require Import String ZArith List Bool Lia.
From Verif Require Import Base BaseLemmas BindModel MapIdxModel MapIdxProps BindProps MapModel MapProofs MapMain MapProps MapIff MapIffProps MapDirect
  MapDirectProps MapConst MapConstProps
  AsmModel AsmSpec AsmValid AsmEnum AsmBuild AsmProofs AsmSub AsmCheck AsmMore AsmProps AadtModel AadtProofs FormModel FormProofs FormMain FormProps
  AdtArchModel AdtArchProofs AdtArchMain AdtArchProps StateMapModel StateMapProofs.
Import ListNotations.
Open Scope string_scope.
Open Scope list_scope.
Open Scope Z_scope.

(** After [n] calls, whatever their inputs, the next call returns [f] of its inputs. *)
Definition after (C : pclass) {Obj} (ocall : Obj -> list Z -> list Z * Obj) (o0 : Obj) (n : nat) (f : list Z -> list Z) : Prop :=
  forall hist ws, Forall (Forall2 word_of (c_in C)) hist -> length hist = n -> Forall2 word_of (c_in C) ws ->
    fst (ocall (fold_left (fun o h => snd (ocall o h)) hist o0) ws) = f ws.
(** What a call returns does not depend on earlier calls (every call sets the registers
    it reads, as in the classes [..._mappable] of the examples). *)
Definition history_free (C : pclass) {Obj} (ocall : Obj -> list Z -> list Z * Obj) (o0 : Obj) : Prop :=
  forall n, after C ocall o0 n (fun ws => fst (ocall o0 ws)).

(** The instruction in the expanded formula is that of a new object. *)
Theorem C93_instr D {Obj} ocall (o0 : Obj) : st_instr D ocall o0 false = adt_instr (on_obj D ocall o0).
Proof.
  unfold st_instr, adt_instr. destruct (in_forms (on_obj D ocall o0) (fun _ => 0) (fun _ => 0)) as [[[fo vm] z]|]; [|reflexivity]. cbn [bind].
  destruct (one_output_form (on_obj D ocall o0) fo) as [[]|]; [|reflexivity]. cbn [bind]. destruct (Nat.ltb 1 (length fo)); reflexivity.
Qed.

(** The mapper's view of the same class with another function. *)
Lemma arch_with C f f' cs A : class_ok C -> adt_arch (with_call C f) cs = Ok A -> call_ok (with_call C f') -> buildable (out_ty C) -> sum_free (out_ty C) ->
  exists A', adt_arch (with_call C f') cs = Ok A' /\ a_forms A' = a_forms A /\ a_in A' = a_in A /\ a_out A' = a_out A /\ a_constr A' = a_constr A.
Proof.
  intros K E Ck B S. unfold adt_arch in *. change (in_forms (with_call C f')) with (in_forms (with_call C f)).
  destruct (k_in C K) as (R & GR & W & Rl). destruct (in_forms (with_call C f) (fun _ => 0) (fun _ => 0)) as [[[fo vm] z]|] eqn:Ef; [|discriminate]. cbn [bind] in *.
  assert (fo <> []) as NE.
  { intros ->. change (in_forms C (fun _ => 0) (fun _ => 0) = Ok ([], vm, z)) in Ef. pose proof (forms_buildable _ _ R _ GR W _ _ _ Rl Ef) as Bi.
    pose proof (forms_inv R GR C W Rl Bi _ _ _ _ _ Ef) as IV. destruct (inhabited _ W) as (v & Hv & _). destruct (i_ex _ _ _ _ _ _ _ _ _ _ IV v Hv) as (x & [] & _). }
  rewrite (one_form_ok (with_call C f') fo (with_ok C K f') B S Ck NE). cbn [bind].
  destruct (one_output_form (with_call C f) fo) as [[]|]; [|discriminate]. cbn [bind] in *. change (constraints_ok (with_call C f') cs) with (constraints_ok (with_call C f) cs).
  destruct (constraints_ok (with_call C f) cs) as [[]|]; [|discriminate]. cbn [bind] in *. injection E as <-. eexists. split; [reflexivity|]. cbn. auto.
Qed.

Section Found.
  Variable k : ivar.
  Variables C D : pclass.
  Context {Oc Od : Type}.
  Variables (call : Oc -> list Z -> list Z * Oc) (o0 : Oc) (dcall : Od -> list Z -> list Z * Od) (d0 : Od).
  Variables (past : list Z) (cs : list (path * list Z)) (A SA : arch path lty) (I SI : instr path lty).
  Hypothesis K : class_ok C.
  Hypothesis KD : class_ok D.
  Hypothesis B : buildable (out_ty C).
  Hypothesis S : sum_free (out_ty C).
  Hypothesis EA : adt_arch (on_obj C call o0) cs = Ok A.
  Hypothesis ESA : st_arch C call o0 past cs = Ok SA.
  Hypothesis N : NoDup (map fst cs).
  Hypothesis Hc : constr_ok lty_vals A.
  Hypothesis Hk : exists k m, In (k, m) (c_in C) /\ const_field m = true.

  Lemma sa_eq : SA =
    {| a_forms := a_forms A; a_in := a_in A; a_out := a_out A; a_constr := a_constr A; a_has_const := a_has_const A;
       a_fsem := fun fi tags l q => out_at (on_obj C call (obj_at C call o0 fi tags l)) (form_word C fi tags l) q;
       a_sem := fun tags l q => out_at (on_obj C call (obj_simple C call o0 (length (a_forms A)) past tags l)) (full_word C tags l) q;
       a_fvalid := a_fvalid A; a_valid := a_valid A |}.
  Proof. unfold st_arch in ESA. rewrite EA in ESA. cbn [bind] in ESA. injection ESA as <-. reflexivity. Qed.

  Section Views.
  Variable g : nat -> list Z -> list Z.
  (** The function of a form: the object called as often as there are forms before it. *)
  Definition nth_fs (fi : nat) : (path -> Z) -> path -> Z := adt_fs (with_call C (g fi)) A fi.

  Lemma arch_n n : call_ok (with_call C (g n)) -> exists A', adt_arch (with_call C (g n)) cs = Ok A' /\ a_forms A' = a_forms A /\ a_in A' = a_in A /\
    arch_ok lty_const A' (adt_fs (with_call C (g n)) A) (adt_fv C A) /\ arch_ext A' /\
    (forall fi tags l q, a_fsem A' fi tags l q = out_at (with_call C (g n)) (form_word C fi tags l) q) /\
    (forall tags l q, a_sem A' tags l q = out_at (with_call C (g n)) (full_word C tags l) q).
  Proof.
    intros G. destruct (arch_with C _ (g n) cs A K EA G B S) as (A' & E' & Ef & Ei & _ & _). exists A'. split; auto. split; auto. split; auto.
    destruct (C86_arch _ cs A' (with_ok C K (g n)) E' N) as [Ok_ Ext].
    destruct (arch_inv _ cs A' E') as (_ & _ & _ & _ & _ & _ & _ & _ & _ & _ & F1 & F2 & _).
    split; [|split; [exact Ext|split; [exact F1|exact F2]]].
    assert (forall fi q, own A' fi q = own A fi q) as Eo by (intros fi q; unfold own; rewrite Ef; reflexivity).
    replace (adt_fs (with_call C (g n)) A) with (adt_fs (with_call C (g n)) A'). replace (adt_fv C A) with (adt_fv (with_call C (g n)) A'). exact Ok_.
    - unfold adt_fv, own. rewrite Ef. reflexivity.
    - unfold adt_fs, own. rewrite Ef. reflexivity.
  Qed.

  Lemma form_sem fi tags l z q : after C call o0 fi (g fi) -> out_at (on_obj C call (obj_at C call o0 fi tags l)) z q = out_at (with_call C (g fi)) z q.
  Proof.
    intros T. destruct (obj_at_run C call o0 K fi tags l) as (h & Lh & Hh & ->). unfold on_obj. apply out_at_ext; auto.
    intros ws Hw. exact (T h ws Hh Lh Hw).
  Qed.

  (** The same view with an output object that fits the forms. *)
  Definition sel (tags : path -> Z) : option nat :=
    find (fun fi => match nth_error (a_forms A) fi with Some f => forallb (fun d => tags (fst d) =? snd d) (snd f) | None => false end) (seq 0 (length (a_forms A))).
  Lemma sel_spec tags fi f : nth_error (a_forms A) fi = Some f -> (forall d, In d (snd f) -> tags (fst d) = snd d) -> sel tags = Some fi.
  Proof.
    intros Ef Et. unfold sel. destruct (find _ _) as [fj|] eqn:F.
    - apply find_some in F as [_ F]. destruct (nth_error (a_forms A) fj) as [f'|] eqn:Ej; [|discriminate]. f_equal. symmetry.
      apply (tags_form (on_obj C call o0) cs A tags fi fj f f' (with_ok C K _) EA Ef Ej Et). rewrite forallb_forall in F. intros d Id. apply Z.eqb_eq. auto.
    - exfalso. assert (In fi (seq 0 (length (a_forms A)))) as If by (apply in_seq; split; [lia|]; cbn; apply nth_error_Some; congruence).
      pose proof (find_none _ _ F fi If) as X. cbn beta in X. rewrite Ef in X. apply not_true_iff_false in X. apply X.
      apply forallb_forall. intros d Id. apply Z.eqb_eq. auto.
  Qed.
  Definition fit : arch path lty :=
    {| a_forms := a_forms A; a_in := a_in A; a_out := a_out A; a_constr := a_constr A; a_has_const := a_has_const A;
       a_fsem := fun fi tags l q => if (fi <? length (a_forms A))%nat then out_at (with_call C (g fi)) (form_word C fi tags l) q else 0;
       a_sem := fun tags l q => match sel tags with Some fi => out_at (with_call C (g fi)) (form_word C fi tags l) q | None => 0 end;
       a_fvalid := a_fvalid A; a_valid := a_valid A |}.
  Hypothesis G : forall fi, (fi < length (a_forms A))%nat -> call_ok (with_call C (g fi)).
  Lemma form_lt fi (f : list path * list (path * Z)) : nth_error (a_forms A) fi = Some f -> (fi < length (a_forms A))%nat.
  Proof. intros E. apply nth_error_Some. congruence. Qed.
  Lemma sel_lt tags fi : sel tags = Some fi -> (fi < length (a_forms A))%nat.
  Proof. intros E. apply find_some in E as [E _]. apply in_seq in E. lia. Qed.
  Lemma fit_ok : arch_ok lty_const fit nth_fs (adt_fv C A).
  Proof.
    destruct (C86_arch _ cs A (with_ok C K _) EA N) as [[O1 O2 O3 O4 O5 O6 _ _ O7 O8 _ O9] _]. constructor; cbn [fit a_forms a_in a_out a_constr a_fsem a_sem a_fvalid a_valid]; auto.
    - intros fi f tags l q Ef Et. pose proof (form_lt _ _ Ef) as Lt. rewrite (proj2 (Nat.ltb_lt _ _) Lt).
      destruct (arch_n fi (G fi Lt)) as (A' & _ & Ef' & _ & Ok' & _ & F1 & _). rewrite <- F1. rewrite <- Ef' in Ef. unfold nth_fs. eapply ok_fsem; eauto.
    - intros fi f tags l q Ef Et. rewrite (sel_spec tags fi f Ef Et). destruct (arch_n fi (G fi (form_lt _ _ Ef))) as (A' & _ & Ef' & _ & Ok' & _ & F1 & _). rewrite <- F1.
      rewrite <- Ef' in Ef. unfold nth_fs. eapply ok_fsem; eauto.
    - intros fi f l l' q Ef Hl. destruct (arch_n fi (G fi (form_lt _ _ Ef))) as (A' & _ & Ef' & _ & Ok' & _ & _ & _). rewrite <- Ef' in Ef. unfold nth_fs.
      eapply ok_local; eauto.
  Qed.
  Lemma fit_ext : arch_ext fit.
  Proof.
    destruct (C86_arch _ cs A (with_ok C K _) EA N) as [_ Ext]. intros tags tags' l l' Et El. destruct (Ext tags tags' l l' Et El) as (_ & _ & E3 & E4).
    assert (forall fi q, (fi < length (a_forms A))%nat -> out_at (with_call C (g fi)) (form_word C fi tags l) q = out_at (with_call C (g fi)) (form_word C fi tags' l') q) as X.
    { intros fi q Lt. destruct (arch_n fi (G fi Lt)) as (A' & _ & Ef' & Ei' & _ & Ext' & F1 & _). rewrite <- !F1. apply (Ext' tags tags' l l').
      - intros p Ip. apply Et. unfold tag_paths in *. rewrite Ef' in Ip. exact Ip.
      - intros p Ip. apply El. rewrite Ei' in Ip. exact Ip. }
    split; [|split; [|split; [exact E3|exact E4]]]; cbn [fit a_fsem a_sem].
    - intros fi q. destruct (Nat.ltb_spec fi (length (a_forms A))) as [Lt|]; auto.
    - intros q. assert (sel tags = sel tags') as ->; [|destruct (sel tags') eqn:Es; auto; apply X; eapply sel_lt; eauto].
      unfold sel. assert (forall P Q : nat -> bool, (forall x, P x = Q x) -> forall s, find P s = find Q s) as Fe.
      { intros P Q H s. induction s as [|x s IH]; cbn; auto. rewrite H, IH. reflexivity. }
      apply Fe. intros fi. destruct (nth_error (a_forms A) fi) as [f|] eqn:Ef; auto. apply eq_true_iff_eq. rewrite !forallb_forall.
      assert (forall d, In d (snd f) -> tags (fst d) = tags' (fst d)) as Eq.
      { intros d Id. apply Et. unfold tag_paths. cbn [fit a_forms]. apply in_flat_map. exists f. split; [eapply nth_error_In; eauto|apply in_map; auto]. }
      split; intros H d Id; specialize (H d Id); specialize (Eq d Id); apply Z.eqb_eq; apply Z.eqb_eq in H; congruence.
  Qed.

  (** ** The expanded formula *)
  Hypothesis T : forall fi, (fi < length (a_forms A))%nat -> after C call o0 fi (g fi).
  Hypothesis EI : st_instr D dcall d0 false = Ok I.
  (** Form [fi] stands for the object after [fi] calls. *)
  Theorem C93_expanded :
    satisfiable path_eqb lty_eqb lty_vals (tag_vals C) k SA I (build_expanded path_eqb lty_eqb lty_const k SA I) <->
    direct path_eqb lty_const lty_vals A I (fun fi => adt_fs (with_call C (g fi)) A fi) (adt_fv C A).
  Proof.
    rewrite C93_instr in EI. rewrite sa_eq.
    pose proof (C69_expanded_direct path_eqb lty_eqb lty_const lty_vals (tag_vals C) k fit I nth_fs (adt_fv C A) eqs_lty fit_ok fit_ext
      (C86_instr _ _ (with_ok D KD _) EI) (inhabited_adt _ cs A _ I (with_ok C K _) EA (with_ok D KD _) EI) Hc (proj2 (has_const_iff _ cs A EA) Hk)) as X.
    transitivity (direct path_eqb lty_const lty_vals fit I nth_fs (adt_fv C A)); [|reflexivity]. rewrite <- X. unfold fit. apply sat_congr.
    intros fi tags l q Lt. rewrite (proj2 (Nat.ltb_lt _ _) Lt). apply form_sem. auto.
  Qed.
  End Views.

  (** One input form: the expanded formula is about a new object, whatever it keeps. *)
  Theorem C93_one_form : call_ok (on_obj C call o0) -> st_instr D dcall d0 false = Ok I -> length (a_forms A) = 1%nat ->
    satisfiable path_eqb lty_eqb lty_vals (tag_vals C) k SA I (build_expanded path_eqb lty_eqb lty_const k SA I) <->
    direct path_eqb lty_const lty_vals A I (adt_fs (on_obj C call o0) A) (adt_fv C A).
  Proof.
    intros G EI L. apply (C93_expanded (fun _ ws => fst (call o0 ws))); [intros; exact G| |exact EI].
    intros fi Lt hist ws _ Lh _. destruct hist; [reflexivity|]. cbn [length] in Lh. lia.
  Qed.
  (** Objects without history: the expanded formula is about a new object. *)
  Theorem C93_history_free : call_ok (on_obj C call o0) -> st_instr D dcall d0 false = Ok I -> history_free C call o0 ->
    satisfiable path_eqb lty_eqb lty_vals (tag_vals C) k SA I (build_expanded path_eqb lty_eqb lty_const k SA I) <->
    direct path_eqb lty_const lty_vals A I (adt_fs (on_obj C call o0) A) (adt_fv C A).
  Proof. intros G EI F. apply (C93_expanded (fun _ ws => fst (call o0 ws))); [intros; exact G| |exact EI]. intros fi _. apply F. Qed.

  (** ** The simple formula *)
  Section Simple.
  Variables (g h : list Z -> list Z).
  Variables (I0 I1 : instr path lty).
  Let M := (length (a_forms A) + length past)%nat.
  Hypothesis G : call_ok (with_call C g).
  Hypothesis T : after C call o0 M g.
  Hypothesis TD : after D dcall d0 1 h.
  Hypothesis EI0 : adt_instr (on_obj D dcall d0) = Ok I0.
  Hypothesis EI1 : adt_instr (with_call D h) = Ok I1.
  Hypothesis ESI : st_instr D dcall d0 true = Ok SI.

  Lemma simple_sem tags l z q : out_at (on_obj C call (obj_simple C call o0 (length (a_forms A)) past tags l)) z q = out_at (with_call C g) z q.
  Proof.
    destruct (obj_simple_run C call o0 K (length (a_forms A)) past tags l) as (hs & Lh & Hh & ->). unfold on_obj. apply out_at_ext; auto.
    intros ws Hw. exact (T hs ws Hh Lh Hw).
  Qed.

  Lemma si_sem : i_in SI = i_in I1 /\ i_out SI = i_out I1 /\ forall x q, MapModel.i_sem SI x q = MapModel.i_sem I1 x q.
  Proof.
    destruct (adt_instr_inv _ _ EI0) as (E1 & E2 & _). destruct (adt_instr_inv _ _ EI1) as (F1 & F2 & F3).
    unfold st_instr in ESI. rewrite EI0 in ESI. cbn [bind] in ESI. injection ESI as <-. cbn [i_in i_out MapModel.i_sem]. rewrite E1, E2, F1, F2.
    split; [reflexivity|]. split; [reflexivity|]. intros x q. rewrite F3. change (form_word (with_call D h)) with (form_word D).
    destruct (next_run D dcall d0 KD [] (form_word D 0 (fun _ => 0) x) (Forall_nil _)) as (ws & Hw & En & Hh). unfold run in En. cbn [fold_left List.app] in En.
    rewrite En. unfold on_obj. apply out_at_ext; auto. intros ws' Hw'. exact (TD [ws] ws' Hh eq_refl Hw').
  Qed.

  Definition fit_s : arch path lty :=
    {| a_forms := a_forms A; a_in := a_in A; a_out := a_out A; a_constr := a_constr A; a_has_const := a_has_const A;
       a_fsem := fun fi tags l q => out_at (with_call C g) (form_word C fi tags l) q;
       a_sem := fun tags l q => out_at (on_obj C call (obj_simple C call o0 (length (a_forms A)) past tags l)) (full_word C tags l) q;
       a_fvalid := a_fvalid A; a_valid := a_valid A |}.
  Lemma fit_s_ok : arch_ok lty_const fit_s (adt_fs (with_call C g) A) (adt_fv C A) /\ arch_ext fit_s.
  Proof.
    destruct (C86_arch _ cs A (with_ok C K _) EA N) as [[O1 O2 O3 O4 O5 O6 _ _ O7 O8 _ O9] Ext].
    destruct (arch_n (fun _ => g) 0 G) as (A' & _ & Ef' & Ei' & Ok' & Ext' & F1 & F2). split.
    - constructor; cbn [fit_s a_forms a_in a_out a_constr a_fsem a_sem a_fvalid a_valid]; auto.
      + intros fi f tags l q Ef Et. rewrite <- F1. rewrite <- Ef' in Ef. eapply ok_fsem; eauto.
      + intros fi f tags l q Ef Et. rewrite simple_sem.  rewrite <- F2. rewrite <- Ef' in Ef. eapply ok_sem; eauto.
      + intros fi f l l' q Ef Hl. rewrite <- Ef' in Ef. eapply ok_local; eauto.
    - intros tags tags' l l' Et El. destruct (Ext tags tags' l l' Et El) as (_ & _ & E3 & E4).
      destruct (Ext' tags tags' l l') as (X1 & X2 & _).
      { intros p Ip. apply Et. unfold tag_paths in *. rewrite Ef' in Ip. exact Ip. }
      { intros p Ip. apply El. rewrite Ei' in Ip. exact Ip. }
      split; [|split; [|split; [exact E3|exact E4]]]; cbn [fit_s a_fsem a_sem].
      + intros fi q. rewrite <- !F1. apply X1.
      + intros q. rewrite !simple_sem.  rewrite <- !F2. apply X2.
  Qed.

  Theorem C93_simple : flat_outputs (c_out C) -> flat_outputs (c_out D) -> i_out I1 <> [] ->
    (forall p t, In (p, t) (i_in I1) -> lty_const t = false) -> in_all_forms path_eqb lty_const A ->
    satisfiable path_eqb lty_eqb lty_vals (tag_vals C) k SA SI (build_simple_adt k SA SI) <->
    direct path_eqb lty_const lty_vals A I1 (adt_fs (with_call C g) A) (adt_fv C A).
  Proof.
    intros FC FD No Nc Al. destruct si_sem as (Si & So & Ss).
    assert (instr_ok SI) as OkI.
    { destruct (C86_instr _ _ (with_ok D KD _) EI1) as [P1 P2 P3]. constructor; rewrite ?Si, ?So; auto. intros x x' q H. rewrite !Ss. apply P3. exact H. }
    destruct fit_s_ok as [OkA ExA].
    assert (inhabited_types lty_vals (tag_vals C) fit_s SI) as Inh.
    { pose proof (inhabited_adt _ cs A _ I1 (with_ok C K _) EA (with_ok D KD _) EI1) as (Q1 & Q2 & Q3). split; [rewrite Si; exact Q1|]. split; [exact Q2|exact Q3]. }
    assert (build_simple_adt k SA SI = build_simple path_eqb lty_eqb lty_const k SA SI) as ->.
    { rewrite sa_eq. pose proof (simple_flat k _ cs A _ I1 (with_ok C K _) (with_ok D KD _) EA EI1 FC FD) as E. clear E.
      unfold build_simple_adt.
      assert (nested_output (output_bindings path_eqb lty_eqb A I1) = false) as Nn.
      { unfold nested_output. apply not_true_is_false. intros X. apply existsb_exists in X as (b & Ib & X). apply existsb_exists in X as ([x a] & Ie & X).
        cbn [fst snd] in X. destruct x as [q|]; [|discriminate].
        destruct (bindings_out _ cs A _ I1 b (with_ok C K _) (with_ok D KD _) EA EI1 Ib) as (_ & Ty & _). destruct (Ty q a Ie) as (t & Ta & Tb).
        rewrite (flat_not_nested D KD FD q t Ta), (flat_not_nested C K FC a t Tb) in X. discriminate. }
      match goal with |- context [nested_output (output_bindings path_eqb lty_eqb ?X SI)] =>
        assert (output_bindings path_eqb lty_eqb X SI = output_bindings path_eqb lty_eqb A I1) as -> by (unfold output_bindings; rewrite So; reflexivity) end.
      rewrite Nn. unfold build_simple. destruct (negb (has_bindings _ _ _ SI)); [reflexivity|]. cbn [a_has_const]. destruct (negb (a_has_const A)); reflexivity. }
    rewrite sa_eq.
    assert (satisfiable path_eqb lty_eqb lty_vals (tag_vals C) k fit_s SI (build_simple path_eqb lty_eqb lty_const k fit_s SI) <->
      direct path_eqb lty_const lty_vals fit_s SI (adt_fs (with_call C g) A) (adt_fv C A)) as X.
    { rewrite (C69_simple_partial _ _ path_eqb lty_eqb lty_const eqs_lty lty_vals (tag_vals C) k fit_s SI (adt_fs (with_call C g) A) (adt_fv C A)); auto.
      - apply (C69_direct path_eqb lty_eqb); auto using eqs_lty.
      - exact (proj2 (has_const_iff _ cs A EA) Hk).
      - rewrite So. exact No.
      - rewrite Si. exact Nc. }
    assert (direct path_eqb lty_const lty_vals fit_s SI (adt_fs (with_call C g) A) (adt_fv C A) <->
      direct path_eqb lty_const lty_vals A I1 (adt_fs (with_call C g) A) (adt_fv C A)) as Y.
    { unfold direct. rewrite Si, So. cbn [fit_s a_forms a_in a_out a_constr]. split; intros (fi & f & l0 & bnd & obnd & H1 & H2 & H3 & H4 & H5 & H6 & H7 & H8 & H9);
        exists fi, f, l0, bnd, obnd; repeat (split; [assumption|]); intros q t Iq l Tl Cl Zl; [rewrite <- Ss|rewrite Ss]; apply (H9 q t Iq l Tl Cl Zl). }
    rewrite <- Y. exact X.
  Qed.
  End Simple.
  (** Objects without history: the simple formula is about new objects too, whatever was
      mapped before. *)
  Theorem C93_history_free_simple : call_ok (on_obj C call o0) -> history_free C call o0 -> history_free D dcall d0 ->
    adt_instr (on_obj D dcall d0) = Ok I -> st_instr D dcall d0 true = Ok SI ->
    flat_outputs (c_out C) -> flat_outputs (c_out D) -> i_out I <> [] ->
    (forall p t, In (p, t) (i_in I) -> lty_const t = false) -> in_all_forms path_eqb lty_const A ->
    satisfiable path_eqb lty_eqb lty_vals (tag_vals C) k SA SI (build_simple_adt k SA SI) <->
    direct path_eqb lty_const lty_vals A I (adt_fs (on_obj C call o0) A) (adt_fv C A).
  Proof.
    intros G F FD EI ESI. apply (C93_simple (fun ws => fst (call o0 ws)) (fun ws => fst (dcall d0 ws)) I I); auto.
  Qed.
End Found.

(** ** A class that counts its calls *)
Module Case.
Import AdtArchProps.Case.
(** An object with one bit of state that every call flips; the call returns its bit [d],
    inverted if the state is set. With [two], [d] is a tagged union of two bits. *)
Definition tg_in (two : bool) : list (key * mty) :=
  [(ky "k", MMod "Const" (MLeaf TBit)); (ky "d", if two then MSum false "D" [(ky "a", MLeaf TBit); (ky "b", MLeaf TBit)] else MLeaf TBit)].
Definition inv (b : bool) (z : Z) : Z := (z + Z.b2z b) mod 2.
Definition flip (two b : bool) (ws : list Z) : list Z := [inv b (match ws with [_; d] => if two then Z.div d 2 else d | _ => 0 end)].
Definition ocall (two b : bool) (ws : list Z) : list Z * bool := (flip two b ws, negb b).
Definition tg (two : bool) : pclass := mk (tg_in two) [(ky "out", MLeaf TBit)] (fun _ => []).
(** The instructions: the bit itself, or its inverse. *)
Definition bit_i (b : bool) : pclass := mk [(ky "p", MLeaf TBit)] [(ky "r", MLeaf TBit)] (fun _ => []).
Definition bit_call (b : bool) (_ : unit) (ws : list Z) : list Z * unit := ([inv b (match ws with [p] => p | _ => 0 end)], tt).
Definition A_tg (two : bool) : arch path lty := A_of (on_obj (tg two) (ocall two) false) [].
Definition SA_tg (two : bool) (past : list Z) : arch path lty :=
  match st_arch (tg two) (ocall two) false past [] with Ok A => A | Err _ => A_tg two end.
Definition I_bit (b : bool) : instr path lty := I_of (on_obj (bit_i b) (bit_call b) tt).
Definition SI_bit (b : bool) : instr path lty := match st_instr (bit_i b) (bit_call b) tt true with Ok A => A | Err _ => I_bit b end.

Lemma inv_range b z : 0 <= inv b z < 2.
Proof. apply Z.mod_pos_bound. lia. Qed.
Lemma tg_ok two : class_ok (tg two).
Proof. destruct two; class. Qed.
Lemma bit_ok b : class_ok (bit_i b).
Proof. class. Qed.
Lemma tg_call two b : call_ok (with_call (tg two) (flip two b)).
Proof. intros ws _. constructor; [|constructor]. exists 1. split; [constructor|]. apply inv_range. Qed.
Lemma tg_arch two : adt_arch (on_obj (tg two) (ocall two) false) [] = Ok (A_tg two).
Proof. apply A_of_ok. destruct two; vm_compute; reflexivity. Qed.
Lemma tg_st two past : st_arch (tg two) (ocall two) false past [] = Ok (SA_tg two past).
Proof. unfold SA_tg, st_arch. rewrite tg_arch. reflexivity. Qed.
Lemma bit_instr b : adt_instr (on_obj (bit_i b) (bit_call b) tt) = Ok (I_bit b).
Proof. apply I_of_ok. vm_compute. reflexivity. Qed.
Lemma bit_st b : st_instr (bit_i b) (bit_call b) tt true = Ok (SI_bit b).
Proof. unfold SI_bit, st_instr. rewrite bit_instr. reflexivity. Qed.
Lemma tg_const two : exists k m, In (k, m) (c_in (tg two)) /\ const_field m = true.
Proof. do 2 eexists. split; [left; reflexivity|reflexivity]. Qed.
Lemma tg_build two : buildable (out_ty (tg two)).
Proof. apply build_b_spec. destruct two; vm_compute; reflexivity. Qed.
Lemma tg_free two : sum_free (out_ty (tg two)).
Proof. apply free_b_spec. destruct two; vm_compute; reflexivity. Qed.
Lemma tg_constr two : constr_ok lty_vals (A_tg two).
Proof. intros p zs H. destruct two; vm_compute in H; destruct H. Qed.
Definition p_k : path := [ky "k"].
Definition p_d (two : bool) (fi : nat) : path := if two then [ky "d"; ky (if Nat.eqb fi 0 then "a" else "b")] else [ky "d"].
Definition p_o : path := [ky "out"].
Lemma tg_a_in two : a_in (A_tg two) = (p_k, (["Const"], TBit)) :: if two then [(p_d true 0, ([], TBit)); (p_d true 1, ([], TBit))] else [(p_d false 0, ([], TBit))].
Proof. destruct two; vm_compute; reflexivity. Qed.
Lemma tg_forms two : a_forms (A_tg two) =
  if two then [([p_k; p_d true 0], [([ky "d"], 0)]); ([p_k; p_d true 1], [([ky "d"], 1)])] else [([p_k; p_d false 0], [])].
Proof. destruct two; vm_compute; reflexivity. Qed.
Lemma tg_a_out two : a_out (A_tg two) = [(p_o, ([], TBit))].
Proof. destruct two; vm_compute; reflexivity. Qed.
Lemma tg_a_constr two : a_constr (A_tg two) = [].
Proof. destruct two; vm_compute; reflexivity. Qed.
Lemma bit_in b : i_in (I_bit b) = [([ky "p"], ([], TBit))].
Proof. vm_compute. reflexivity. Qed.
Lemma bit_out b : i_out (I_bit b) = [([ky "r"], ([], TBit))].
Proof. vm_compute. reflexivity. Qed.
Lemma bits m z : In z (lty_vals (m, TBit)) -> z = 0 \/ z = 1.
Proof. intros H. vm_compute in H. intuition. Qed.
(** What form [fi] returns if the states are [st]. *)
Lemma tg_fs two (st : nat -> bool) fi f l : nth_error (a_forms (A_tg two)) fi = Some f -> typed lty_vals (a_in (A_tg two)) l ->
  adt_fs (with_call (tg two) (flip two (st fi))) (A_tg two) fi l p_o = inv (st fi) (l (p_d two fi)).
Proof.
  intros Ef Ty. pose proof (fit_ok (tg two) (ocall two) false [] (A_tg two) (tg_ok two) (tg_build two) (tg_free two) (tg_arch two) (NoDup_nil _)
    (fun n => flip two (st n)) (fun n _ => tg_call two (st n))) as Ok_.
  assert (In (p_d two fi) (fst f) /\ fst f = [p_k; p_d two fi] /\ In (p_d two fi, ([], TBit)) (a_in (A_tg two))) as (_ & E2 & E3).
  { rewrite tg_forms in Ef. rewrite tg_a_in. destruct two, fi as [|[|fi]]; try discriminate Ef; try (destruct fi; discriminate Ef); injection Ef as <-; vm_compute; repeat split; auto 8. }
  pose proof (ok_local _ _ _ _ Ok_ fi f l (at_ [(p_k, l p_k); (p_d two fi, l (p_d two fi))]) p_o) as Lo. cbn [fit a_forms] in Lo. unfold nth_fs in Lo.
  rewrite Lo; [|exact Ef|].
  2: { intros p. rewrite E2. intros [<-|[<-|[]]]; [reflexivity|]. unfold p_d. destruct two, (Nat.eqb fi 0); reflexivity. }
  clear Lo. assert (In (l p_k) (lty_vals (["Const"], TBit))) as Hk by (apply Ty; rewrite tg_a_in; left; reflexivity).
  pose proof (Ty _ _ E3) as Hd. apply bits in Hk. apply bits in Hd. clear Ty E3 E2 Ok_. rewrite tg_forms in Ef. generalize dependent (l p_k). generalize dependent (l (p_d two fi)).
  intros d Hd k Hk. destruct two, fi as [|[|fi]]; try discriminate Ef; try (destruct fi; discriminate Ef); destruct (st _);
    destruct Hk as [-> | ->], Hd as [-> | ->]; vm_compute; reflexivity.
Qed.
Lemma bit_sem c x q : 0 <= x [ky "p"] < 2 -> q = [ky "r"] -> MapModel.i_sem (I_bit c) x q = inv c (x [ky "p"]).
Proof.
  intros Hx ->. rewrite (ok_ilocal _ (C86_instr _ _ (with_ok _ (bit_ok c) _) (bit_instr c)) x (at_ [([ky "p"], x [ky "p"])])).
  2: { intros p t. rewrite bit_in. intros [[= <- <-]|[]]. reflexivity. }
  assert (x [ky "p"] = 0 \/ x [ky "p"] = 1) as [-> | ->] by lia; destruct c; vm_compute; reflexivity.
Qed.
Lemma inv_inj b c : inv b 0 = inv c 0 -> b = c.
Proof. destruct b, c; vm_compute; congruence. Qed.
Lemma tg_direct two (st : nat -> bool) c :
  direct path_eqb lty_const lty_vals (A_tg two) (I_bit c) (fun fi => adt_fs (with_call (tg two) (flip two (st fi))) (A_tg two) fi) (adt_fv (tg two) (A_tg two)) <->
  exists fi, (fi < length (a_forms (A_tg two)))%nat /\ st fi = c.
Proof.
  split.
  - intros (fi & f & l0 & bnd & obnd & Ef & Ty & _ & _ & Hb & _ & Ho & _ & H). exists fi. split; [apply nth_error_Some; congruence|].
    rewrite bit_in in Hb. rewrite bit_out in Ho, H. specialize (Ho _ _ (or_introl eq_refl)). rewrite tg_a_out in Ho. destruct Ho as [Ho|[]]. injection Ho as Ho.
    destruct (Hb _ _ (or_introl eq_refl)) as (Ib & If & _).
    assert (bnd [ky "p"] = p_d two fi) as Eb.
    { rewrite tg_forms in Ef. rewrite tg_a_in in Ib. destruct two, fi as [|[|fi]]; try discriminate Ef; try (destruct fi; discriminate Ef); injection Ef as <-;
        destruct If as [If|[If|[]]]; try (symmetry; exact If); rewrite <- If in Ib; vm_compute in Ib; intuition discriminate. }
    assert (p_d two fi <> p_k) as Nk by (destruct two; vm_compute; discriminate).
    specialize (H _ _ (or_introl eq_refl) (at_ [(p_k, l0 p_k)])). rewrite <- Ho in H.
    assert (typed lty_vals (a_in (A_tg two)) (at_ [(p_k, l0 p_k)])) as Ty'.
    { intros p t Ip. pose proof (Ty p t Ip) as Tp. rewrite tg_a_in in Ip. destruct two; repeat (destruct Ip as [Ip|Ip]; [injection Ip as <- <-; try exact Tp; clear; vm_compute; auto|]); destruct Ip. }
    rewrite (tg_fs two st fi f _ Ef Ty') in H.
    rewrite bit_sem in H; [| |reflexivity].
    2: { rewrite Eb. destruct two; vm_compute; split; congruence. }
    rewrite Eb in H. symmetry. apply inv_inj.
    assert (at_ [(p_k, l0 p_k)] (p_d two fi) = 0) as E0 by (destruct two; vm_compute; reflexivity).
    rewrite E0 in H. apply H.
    + exact Ty'.
    + intros p t Ip _ Ct _. rewrite tg_a_in in Ip. destruct two; repeat (destruct Ip as [Ip|Ip]; [injection Ip as <- <-; try reflexivity; discriminate Ct|]); destruct Ip.
    + rewrite tg_a_constr. intros p zs [].
  - intros (fi & Lt & Es). destruct (nth_error (a_forms (A_tg two)) fi) as [f|] eqn:Ef; [|apply nth_error_None in Ef; lia].
    exists fi, f, (fun _ => 0), (fun _ => p_d two fi), (fun _ => p_o).
    assert (In (p_d two fi, ([], TBit)) (a_in (A_tg two)) /\ In (p_d two fi) (fst f)) as [Ia If].
    { rewrite tg_forms in Ef. rewrite tg_a_in. destruct two, fi as [|[|fi]]; try discriminate Ef; try (destruct fi; discriminate Ef); injection Ef as <-; vm_compute; repeat split; auto 8. }
    split; [exact Ef|]. split. { intros p t Ip. rewrite tg_a_in in Ip. destruct two; repeat (destruct Ip as [Ip|Ip]; [injection Ip as <- <-; clear; vm_compute; auto|]); destruct Ip. }
    split. { rewrite tg_forms in Ef. destruct two, fi as [|[|fi]]; try discriminate Ef; try (destruct fi; discriminate Ef); vm_compute; reflexivity. }
    rewrite tg_a_constr, bit_in, bit_out, tg_a_out. split; [intros p zs []|].
    split. { intros q t [[= <- <-]|[]]. split; [exact Ia|]. split; [exact If|intros []]. }
    split. { intros q t q' t' [[= <- <-]|[]] [[= <- <-]|[]]. reflexivity. }
    split. { intros q t [[= <- <-]|[]]. left. reflexivity. }
    split. { intros q t q' t' [[= <- <-]|[]] [[= <- <-]|[]]. reflexivity. }
    intros q t [[= <- <-]|[]] l Ty _ _. rewrite (tg_fs two st fi f l Ef Ty), Es. apply bit_sem; [|reflexivity].
    pose proof (Ty _ _ Ia) as Hd. apply bits in Hd. lia.
Qed.
(** The state after [n] calls. *)
Lemma tg_state two n b hist : length hist = n -> fold_left (fun o h => snd (ocall two o h)) hist b = xorb (Nat.odd n) b.
Proof.
  revert n b. induction hist as [|h hist IH]; intros n b <-; [destruct b; reflexivity|]. cbn [fold_left length]. change (snd (ocall two b h)) with (negb b). rewrite (IH (length hist) (negb b) eq_refl).
  rewrite Nat.odd_succ, <- Nat.negb_odd. destruct (Nat.odd (length hist)), b; reflexivity.
Qed.
Lemma tg_after two n : after (tg two) (ocall two) false n (flip two (Nat.odd n)).
Proof. intros hist ws _ L _. rewrite (tg_state two n false hist L), xorb_false_r. reflexivity. Qed.
Lemma bit_after b n : after (bit_i b) (bit_call b) tt n (fun ws => fst (bit_call b tt ws)).
Proof. intros hist ws _ _ _. destruct (fold_left _ hist tt). reflexivity. Qed.

(** The inverse is found by the second form only, and only since the object was called
    for the first one. *)
Lemma tg_expanded two c past k :
  satisfiable path_eqb lty_eqb lty_vals (tag_vals (tg two)) k (SA_tg two past) (I_bit c) (build_expanded path_eqb lty_eqb lty_const k (SA_tg two past) (I_bit c)) <->
  c = false \/ two = true.
Proof.
  rewrite (C93_expanded k (tg two) (bit_i c) (ocall two) false (bit_call c) tt past [] (A_tg two) (SA_tg two past) (I_bit c) (tg_ok two) (bit_ok c) (tg_build two) (tg_free two)
    (tg_arch two) (tg_st two past) (NoDup_nil _) (tg_constr two) (tg_const two) (fun n => flip two (Nat.odd n)) (fun n _ => tg_call two _) (fun n _ => tg_after two n)).
  2: { rewrite C93_instr. apply bit_instr. }
  rewrite tg_direct, tg_forms. split.
  - intros (fi & Lt & <-). destruct two; [auto|]. cbn in Lt. replace fi with 0%nat by lia. auto.
  - intros [-> | ->]; [exists 0%nat|]; [destruct two; cbn; split; auto; lia|]. destruct c; [exists 1%nat|exists 0%nat]; cbn; split; auto; lia.
Qed.
Lemma tg_simple two c past k :
  satisfiable path_eqb lty_eqb lty_vals (tag_vals (tg two)) k (SA_tg two past) (SI_bit c) (build_simple_adt k (SA_tg two past) (SI_bit c)) <->
  c = Nat.odd (length past + if two then 0 else 1).
Proof.
  rewrite (C93_simple k (tg two) (bit_i c) (ocall two) false (bit_call c) tt past [] (A_tg two) (SA_tg two past) (SI_bit c) (tg_ok two) (bit_ok c) (tg_build two) (tg_free two)
    (tg_arch two) (tg_st two past) (NoDup_nil _) (tg_constr two) (tg_const two) (flip two (Nat.odd (length (a_forms (A_tg two)) + length past))) (fun ws => fst (bit_call c tt ws))
    (I_bit c) (I_bit c) (tg_call two _) (tg_after two _) (bit_after c 1) (bit_instr c) (bit_instr c) (bit_st c)).
  - rewrite (tg_direct two (fun _ => Nat.odd (length (a_forms (A_tg two)) + length past)) c).
    assert (Nat.odd (length (a_forms (A_tg two)) + length past) = Nat.odd (length past + (if two then 0 else 1))) as E.
    { rewrite tg_forms. destruct two; cbn [length]; rewrite Nat.add_comm, !Nat.odd_add; reflexivity. }
    split; [intros (fi & _ & E'); cbn beta in E'; rewrite E in E'; auto|intros ->; exists 0%nat; split; [rewrite tg_forms; destruct two; cbn; lia|exact E]].
  - intros k0 m [[= <- <-]|[]] p mods q u [[= <- <-]|[]]. reflexivity.
  - intros k0 m [[= <- <-]|[]] p mods q u [[= <- <-]|[]]. reflexivity.
  - rewrite bit_out. discriminate.
  - rewrite bit_in. intros p t [[= <- <-]|[]]. reflexivity.
  - intros p fi f. rewrite tg_a_constr. intros [].
Qed.
Lemma fresh two c : direct path_eqb lty_const lty_vals (A_tg two) (I_bit c) (adt_fs (on_obj (tg two) (ocall two) false) (A_tg two)) (adt_fv (tg two) (A_tg two)) <-> c = false.
Proof.
  change (direct path_eqb lty_const lty_vals (A_tg two) (I_bit c) (fun fi => adt_fs (with_call (tg two) (flip two false)) (A_tg two) fi) (adt_fv (tg two) (A_tg two)) <-> c = false).
  rewrite (tg_direct two (fun _ => false) c). split; [intros (? & _ & E); auto|intros ->]. exists 0%nat. split; [rewrite tg_forms; destruct two; cbn; lia|reflexivity].
Qed.
End Case.

(** ** What is false *)
(** Every rule found would be one for a new object. *)
Definition C93_full : Prop := forall k C Obj (call : Obj -> list Z -> list Z * Obj) o0 past cs A SA D I,
  class_ok C -> call_ok (on_obj C call o0) -> class_ok D -> call_ok D -> buildable (out_ty C) -> sum_free (out_ty C) ->
  adt_arch (on_obj C call o0) cs = Ok A -> st_arch C call o0 past cs = Ok SA -> NoDup (map fst cs) -> constr_ok lty_vals A ->
  (exists k m, In (k, m) (c_in C) /\ const_field m = true) -> adt_instr D = Ok I ->
  satisfiable path_eqb lty_eqb lty_vals (tag_vals C) k SA I (build_expanded path_eqb lty_eqb lty_const k SA I) ->
  direct path_eqb lty_const lty_vals A I (adt_fs (on_obj C call o0) A) (adt_fv C A).
(** False: the second form sees what the first one left. *)
Theorem C93_full_refuted : ~ C93_full.
Proof.
  intros F. assert (true = false) as X; [|discriminate X].
  rewrite <- (Case.fresh true true). apply (F OneHot (Case.tg true) bool (Case.ocall true) false [] [] _ (Case.SA_tg true []) (on_obj (Case.bit_i true) (Case.bit_call true) tt)).
  - apply Case.tg_ok.
  - apply (Case.tg_call true false).
  - exact (with_ok _ (Case.bit_ok true) _).
  - intros ws _. constructor; [|constructor]. exists 1. split; [constructor|apply Case.inv_range].
  - apply Case.tg_build.
  - apply Case.tg_free.
  - apply Case.tg_arch.
  - apply Case.tg_st.
  - constructor.
  - apply Case.tg_constr.
  - apply Case.tg_const.
  - apply Case.bit_instr.
  - apply Case.tg_expanded. auto.
Qed.

(** The simple formula would be about new objects if there is one form. *)
Definition C93_simple_full : Prop := forall k C Obj (call : Obj -> list Z -> list Z * Obj) o0 cs A SA D Od (dcall : Od -> list Z -> list Z * Od) d0 I SI,
  class_ok C -> call_ok (on_obj C call o0) -> class_ok D -> call_ok (on_obj D dcall d0) -> history_free D dcall d0 -> buildable (out_ty C) -> sum_free (out_ty C) ->
  adt_arch (on_obj C call o0) cs = Ok A -> st_arch C call o0 [] cs = Ok SA -> NoDup (map fst cs) -> constr_ok lty_vals A ->
  (exists k m, In (k, m) (c_in C) /\ const_field m = true) -> adt_instr (on_obj D dcall d0) = Ok I -> st_instr D dcall d0 true = Ok SI ->
  length (a_forms A) = 1%nat ->
  satisfiable path_eqb lty_eqb lty_vals (tag_vals C) k SA SI (build_simple_adt k SA SI) ->
  direct path_eqb lty_const lty_vals A I (adt_fs (on_obj C call o0) A) (adt_fv C A).
(** What the simple formula finds would not depend on the instructions mapped before. *)
Definition C93_order_full : Prop := forall k C Obj (call : Obj -> list Z -> list Z * Obj) o0 past past' cs SA SA' D Od (dcall : Od -> list Z -> list Z * Od) d0 SI,
  class_ok C -> call_ok (on_obj C call o0) -> class_ok D -> call_ok (on_obj D dcall d0) -> history_free D dcall d0 -> buildable (out_ty C) -> sum_free (out_ty C) ->
  st_arch C call o0 past cs = Ok SA -> st_arch C call o0 past' cs = Ok SA' -> NoDup (map fst cs) ->
  (exists k m, In (k, m) (c_in C) /\ const_field m = true) -> st_instr D dcall d0 true = Ok SI ->
  satisfiable path_eqb lty_eqb lty_vals (tag_vals C) k SA SI (build_simple_adt k SA SI) ->
  satisfiable path_eqb lty_eqb lty_vals (tag_vals C) k SA' SI (build_simple_adt k SA' SI).
Lemma bit_plain c : call_ok (on_obj (Case.bit_i c) (Case.bit_call c) tt).
Proof. intros ws _. constructor; [|constructor]. exists 1. split; [constructor|apply Case.inv_range]. Qed.
(** False: it calls the object that was called for the form. *)
Theorem C93_simple_full_refuted : ~ C93_simple_full.
Proof.
  intros F. assert (true = false) as X; [|discriminate X]. rewrite <- (Case.fresh false true).
  refine (F OneHot (Case.tg false) bool (Case.ocall false) false [] _ (Case.SA_tg false []) (Case.bit_i true) unit (Case.bit_call true) tt _ (Case.SI_bit true)
    (Case.tg_ok false) (Case.tg_call false false) (Case.bit_ok true) (bit_plain true) (Case.bit_after true) (Case.tg_build false) (Case.tg_free false) (Case.tg_arch false) (Case.tg_st false [])
    (NoDup_nil _) (Case.tg_constr false) (Case.tg_const false) (Case.bit_instr true) (Case.bit_st true) _ _).
  - rewrite Case.tg_forms. reflexivity.
  - apply Case.tg_simple. reflexivity.
Qed.
(** False: every mapping calls the same object once more. *)
Theorem C93_order_full_refuted : ~ C93_order_full.
Proof.
  intros F. pose proof (F OneHot (Case.tg true) bool (Case.ocall true) false [] [0] [] (Case.SA_tg true []) (Case.SA_tg true [0]) (Case.bit_i false) unit (Case.bit_call false) tt (Case.SI_bit false)
    (Case.tg_ok true) (Case.tg_call true false) (Case.bit_ok false) (bit_plain false) (Case.bit_after false) (Case.tg_build true) (Case.tg_free true) (Case.tg_st true []) (Case.tg_st true [0]) (NoDup_nil _)
    (Case.tg_const true) (Case.bit_st false)) as X. rewrite !Case.tg_simple in X. specialize (X eq_refl). discriminate X.
Qed.

(** ** Concrete cases *)
(** The class with two forms: the mapper finds the inverse, which no new object computes. *)
Example C93_case_expanded two c past k :
  (satisfiable path_eqb lty_eqb lty_vals (tag_vals (Case.tg two)) k (Case.SA_tg two past) (Case.I_bit c)
    (build_expanded path_eqb lty_eqb lty_const k (Case.SA_tg two past) (Case.I_bit c)) <-> c = false \/ two = true) /\
  (direct path_eqb lty_const lty_vals (Case.A_tg two) (Case.I_bit c) (adt_fs (on_obj (Case.tg two) (Case.ocall two) false) (Case.A_tg two)) (adt_fv (Case.tg two) (Case.A_tg two)) <-> c = false).
Proof. split; [apply Case.tg_expanded|apply Case.fresh]. Qed.
(** The simple formula finds the bit or its inverse by how often the object was called. *)
Example C93_case_simple two c past k :
  satisfiable path_eqb lty_eqb lty_vals (tag_vals (Case.tg two)) k (Case.SA_tg two past) (Case.SI_bit c) (build_simple_adt k (Case.SA_tg two past) (Case.SI_bit c)) <->
  c = Nat.odd (length past + if two then 0 else 1).
Proof. apply Case.tg_simple. Qed.
(** A register that every call sets before it reads it, as in [RegPE_mappable]
    (examples/reg_file/sim.py): the state changes but no call depends on it. *)
Definition set_call (two : bool) (r : Z) (ws : list Z) : list Z * Z := let r' := nth 1 ws 0 in (Case.flip two false [0; r'], r').
Example C93_case_history_free two :
  history_free (Case.tg two) (set_call two) 5 /\ call_ok (on_obj (Case.tg two) (set_call two) 5) /\ snd (set_call two 5 [0; 1]) <> 5 /\
  ~ history_free (Case.tg two) (Case.ocall two) false.
Proof.
  split; [|split; [|split]].
  - intros n hist ws _ _ _. reflexivity.
  - intros ws _. constructor; [|constructor]. exists 1. split; [constructor|apply Case.inv_range].
  - discriminate.
  - intros F. assert (Forall2 word_of (c_in (Case.tg two)) [0; 0]) as W.
    { constructor; [exists 1; split; [constructor|lia]|]. constructor; [|constructor]. destruct two.
      - exists 2. split; [|lia]. apply (sw_sum false "D" [(ky "a", TBit); (ky "b", TBit)] [1; 1]). repeat constructor.
      - exists 1. split; [constructor|lia]. }
    specialize (F 1%nat [[0; 0]] [0; 0] (Forall_cons _ W (Forall_nil _)) eq_refl W). destruct two; discriminate F.
Qed.

Print Assumptions C93_instr.
Print Assumptions C93_expanded.
Print Assumptions C93_one_form.
Print Assumptions C93_history_free.
Print Assumptions C93_simple.
Print Assumptions C93_history_free_simple.
Print Assumptions C93_full_refuted.
Print Assumptions C93_simple_full_refuted.
Print Assumptions C93_order_full_refuted.
