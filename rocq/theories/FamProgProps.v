(** Property theorems C78: a Peak class computes the same in PyFamily and in
    PyXFamily. *)
From Coq Require Import String ZArith List Bool Lia.
From Verif Require Import Base BaseLemmas AsmModel AsmSpec AsmValid AsmEnum AsmBuild AsmProofs AsmSub AsmMore AsmCheck AsmProps
  AadtModel AadtProofs FamProgModel FamProgProofs.
Import ListNotations.
Open Scope string_scope.
Open Scope list_scope.
Open Scope Z_scope.

(** [asmof t] is the assembler of [t], built after any earlier ones. *)
Definition assemblers (asmof : ty -> asm) : Prop :=
  forall t, wf_ty t -> exists h, Forall wf_ty (t :: h) /\ built h t (asmof t).

Lemma assemblers_rel asmof : assemblers asmof ->
  forall t, wf_ty t -> exists R, good_request R /\ asm_rel R t (asmof t).
Proof.
  intros H t Wt. destruct (H t Wt) as (h & Wh & B). exists (reqs (t :: h)).
  split; [apply reqs_good; auto|apply built_rel; auto].
Qed.

(** A word of a type: any bits of its width. *)
Definition word_of (t : ty) (x : xval) : Prop :=
  exists z w, x = XW t z /\ swidth t w /\ 0 <= z < 2 ^ w.
(** The word is the encoding of the value, with zero padding. *)
Definition holds (t : ty) (v : val) (x : xval) : Prop := exists z, x = XW t z /\ canonical t z v.
(** The same for three lists of one length. *)
Fixpoint hold_all (ts : list ty) (vs : list val) (xs : list xval) : Prop :=
  match ts, vs, xs with
  | [], [], [] => True
  | t :: ts', v :: vs', x :: xs' => holds t v x /\ hold_all ts' vs' xs'
  | _, _, _ => False
  end.

(** What is asked of the components: on words of the parameter types the PyX
    version answers with words of the result types; when the states correspond and
    the arguments are the encodings, the answers are encodings and the new states
    correspond. *)
Definition component {Sp Sx} (csig : string -> option (list ty * list ty))
    (pcall : string -> Sp -> list val -> res (list val * Sp))
    (xcall : string -> Sx -> list xval -> res (list xval * Sx))
    (Inv : Sx -> Prop) (Rc : Sp -> Sx -> Prop) : Prop :=
  (forall m ps qs s xs, csig m = Some (ps, qs) -> Inv s -> Forall2 word_of ps xs ->
     exists rs s', xcall m s xs = Ok (rs, s') /\ Inv s' /\ Forall2 word_of qs rs) /\
  (forall m ps qs sp sx vs xs rs sp', csig m = Some (ps, qs) -> Inv sx -> Rc sp sx ->
     hold_all ps vs xs -> pcall m sp vs = Ok (rs, sp') ->
     exists us sx', xcall m sx xs = Ok (us, sx') /\ Rc sp' sx' /\ hold_all qs rs us).

(** The declared attributes of an object hold words; of two objects, encodings. *)
Definition attrs_typed (D : env ty) (X : env xval) : Prop :=
  forall r, match get D r, get X r with
            | Some t, Some x => word_of t x
            | None, None => True
            | _, _ => False
            end.
Definition attrs_same (D : env ty) (P : env val) (X : env xval) : Prop :=
  forall r, match get D r, get P r, get X r with
            | Some t, Some v, Some x => holds t v x
            | None, _, None => True
            | _, _, _ => False
            end.

Lemma xtyped_word_of t x : xtyped (W t) x <-> word_of t x.
Proof.
  destruct x as [t' z]. cbn [xtyped]. split.
  - intros (-> & w & S & R). exists z, w. auto.
  - intros (z' & w & [= -> ->] & S & R). eauto.
Qed.
Lemma xtypeds_words ts xs : Forall2 xtyped (map W ts) xs <-> Forall2 word_of ts xs.
Proof.
  revert xs. induction ts as [|t ts IH]; intros xs; cbn [map]; split; intros H; inversion H; subst; constructor;
    try (apply xtyped_word_of; auto); apply IH; auto.
Qed.
Lemma hold_vrels ts : forall vs xs, hold_all ts vs xs <-> vrels ts vs xs.
Proof. reflexivity. Qed.

Lemma attrs_wf D r t : forallb (fun p : string * ty => wf_b (snd p)) D = true -> get D r = Some t -> wf_ty t.
Proof.
  intros H E. apply (dget_In String.eqb String.eqb_eq) in E. rewrite forallb_forall in H. apply wf_b_spec. apply (H _ E).
Qed.

Lemma attrs_ok D X : forallb (fun p : string * ty => wf_b (snd p)) D = true -> attrs_typed D X <-> attr_ok D X.
Proof.
  intros Wd. split; intros H r; specialize (H r); destruct (get D r) as [t|] eqn:E; destruct (get X r); auto.
  - split; [eapply attrs_wf; eauto|apply xtyped_word_of; auto].
  - destruct H as [_ H]. apply xtyped_word_of; auto.
Qed.

Section Class.
  Variable asmof : ty -> asm.
  Hypothesis Hasm : assemblers asmof.

  Lemma attrs_same_ok D P X : forallb (fun p : string * ty => wf_b (snd p)) D = true ->
    attrs_same D P X <-> (arel D P X /\ attr_ok D X).
  Proof.
    intros Wd. split.
    - intros H. split.
      + intros r t E. specialize (H r). rewrite E in H. destruct (get P r) as [v|]; [|destruct H].
        destruct (get X r) as [x|]; [|destruct H]. exists v, x. auto.
      + intros r. specialize (H r). destruct (get D r) as [t|] eqn:E.
        * destruct (get P r) as [v|]; [|destruct H]. destruct (get X r) as [x|]; [|destruct H].
          pose proof (attrs_wf _ _ _ Wd E) as Wt. split; auto.
          apply (rel_xtyped asmof (assemblers_rel _ Hasm) (W t) (PV v)); auto. exists v. auto.
        * destruct (get P r), (get X r); auto.
    - intros [H1 H2] r. specialize (H2 r). destruct (get D r) as [t|] eqn:E.
      + destruct (H1 r t E) as (v & x & -> & -> & Hv). auto.
      + destruct (get P r), (get X r); auto.
  Qed.

  Variable match_bool eq_bool : bool.
  Context {Sp Sx : Type}.
  Variable csig : string -> option (list ty * list ty).
  Variable pcall : string -> Sp -> list val -> res (list val * Sp).
  Variable xcall : string -> Sx -> list xval -> res (list xval * Sx).
  Variable Inv : Sx -> Prop.
  Variable Rc : Sp -> Sx -> Prop.
  Hypothesis Hcomp : component csig pcall xcall Inv Rc.

  Lemma call_ok_of : forall m ps qs s xs, csig m = Some (ps, qs) -> Inv s -> Forall2 xtyped (map W ps) xs ->
    exists rs s', xcall m s xs = Ok (rs, s') /\ Inv s' /\ Forall2 xtyped (map W qs) rs.
  Proof.
    intros m ps qs s xs E I F. apply xtypeds_words in F. destruct Hcomp as [H _].
    destruct (H m ps qs s xs E I F) as (rs & s' & Ec & I' & F'). exists rs, s'. split; auto. split; auto.
    apply xtypeds_words; auto.
  Qed.

  (** A class with fitting types never raises in PyXFamily: every call, on any words
      of the right widths, whether they encode values or not, returns words of the
      output types, and the attributes keep their types. *)
  Theorem C78_total strict c obj args :
    class_ok strict csig c = true ->
    attrs_typed (c_attrs c) (fst obj) -> Inv (snd obj) -> Forall2 word_of (map snd (c_params c)) args ->
    exists ws obj', px_call asmof xcall c obj args = Ok (ws, obj') /\ Forall2 word_of (c_rets c) ws /\
      attrs_typed (c_attrs c) (fst obj') /\ Inv (snd obj').
  Proof.
    intros Ok_ Ha Hi Fa. unfold class_ok in Ok_. rewrite !andb_true_iff in Ok_. destruct Ok_ as [[[Wp Wd] Rt] T].
    destruct (bind_types [] (map fst (c_params c)) (map snd (c_params c))) as [G|] eqn:Eb; [|discriminate].
    destruct (tstmt csig (c_attrs c) (c_rets c) strict true G (c_body c)) as [[G' m]|] eqn:Et; [|discriminate].
    assert (Forall wf_ty (map snd (c_params c))) as WF.
    { apply Forall_forall. intros t I. apply in_map_iff in I as (p & <- & I). apply wf_b_spec.
      rewrite forallb_forall in Wp. apply (Wp _ I). }
    destruct (bind_env (map fst (c_params c)) _ [] G [] args Eb) as (X & EX & HX); auto.
    { intros x. exact Logic.I. } { apply xtypeds_words; auto. }
    apply (attrs_ok _ _ Wd) in Ha.
    destruct (xexec_ok asmof (assemblers_rel _ Hasm) xcall csig Inv call_ok_of (c_attrs c) (c_rets c) strict (c_body c)
      true G G' m true X (fst obj) (snd obj) Et HX Ha Hi) as (X' & A' & cs' & rs & Ex & _ & _ & HI' & Hr & Nr & _).
    destruct (pick_ok (c_attrs c) (c_rets c) rs (Nr Rt) Hr) as (ws & at_ & Ep & Hw & Hat & _).
    unfold px_call. rewrite EX. cbn [bind]. rewrite Ex. cbn [bind]. rewrite Ep. cbn [bind].
    exists ws, (at_, cs'). split; auto. split; [apply xtypeds_words; auto|]. cbn [fst snd]. split; auto. apply (attrs_ok _ _ Wd); auto.
  Qed.

  (** If the call returns in PyFamily, the corresponding call returns in PyXFamily:
      each output is the encoding of the PyFamily output, and afterwards attributes
      and components correspond again.
      Missing for C78: components called under a condition or after a possible
      return, types that do not fit, objects with words that are not encodings. *)
  Theorem C78_same_partial c obj args outs obj' xobj xargs :
    class_ok true csig c = true ->
    attrs_same (c_attrs c) (fst obj) (fst xobj) -> Inv (snd xobj) -> Rc (snd obj) (snd xobj) ->
    hold_all (map snd (c_params c)) args xargs ->
    py_call match_bool eq_bool pcall c obj args = Ok (outs, obj') ->
    exists vs ws xobj', px_call asmof xcall c xobj xargs = Ok (ws, xobj') /\
      outs = map PV vs /\ hold_all (c_rets c) vs ws /\
      attrs_same (c_attrs c) (fst obj') (fst xobj') /\ Rc (snd obj') (snd xobj') /\ Inv (snd xobj').
  Proof.
    intros Ok_ Ha Hi HR Fa Ec. pose proof Ok_ as Ok0.
    unfold class_ok in Ok_. rewrite !andb_true_iff in Ok_. destruct Ok_ as [[[Wp Wd] Rt] T].
    destruct (bind_types [] (map fst (c_params c)) (map snd (c_params c))) as [G|] eqn:Eb; [|discriminate].
    destruct (tstmt csig (c_attrs c) (c_rets c) true true G (c_body c)) as [[G' m]|] eqn:Et; [|discriminate].
    assert (Forall wf_ty (map snd (c_params c))) as WF.
    { apply Forall_forall. intros t I. apply in_map_iff in I as (p & <- & I). apply wf_b_spec.
      rewrite forallb_forall in Wp. apply (Wp _ I). }
    apply hold_vrels in Fa. apply (attrs_same_ok _ _ _ Wd) in Ha as [Ha1 Ha2].
    unfold py_call in Ec. destruct (bind_all [] (map fst (c_params c)) (map PV args)) as [P|] eqn:EP; [|discriminate].
    cbn [bind] in Ec.
    destruct (pexec match_bool eq_bool pcall (c_body c) (P, fst obj, snd obj)) as [[[[P' PA'] csp'] r]|] eqn:Ex; [|discriminate].
    cbn [bind] in Ec. destruct r as [ps|]; [|discriminate]. injection Ec as <- <-.
    assert (env_ok [] []) as E0 by (intros x; exact Logic.I).
    pose proof (vrels_typed asmof (assemblers_rel _ Hasm) _ WF _ _ Fa) as Ft.
    destruct (bind_env (map fst (c_params c)) _ [] G [] xargs Eb E0 WF Ft) as (X & EX & HX).
    destruct (bind_rel (map fst (c_params c)) _ [] G [] P [] args xargs Eb) as (X1 & EX1 & HP); auto.
    { intros x p E. discriminate. }
    rewrite EX in EX1. injection EX1 as <-.
    destruct Hcomp as [_ Hsim].
    destruct (xexec_sim asmof (assemblers_rel _ Hasm) match_bool eq_bool pcall xcall csig Inv Rc call_ok_of Hsim (c_attrs c) (c_rets c)
      (c_body c) true G G' m X (fst xobj) (snd xobj) P (fst obj) (snd obj) P' PA' csp' (Some ps) Et HX Ha2 Hi HP Ha1 HR Ex)
      as (X' & A' & cs' & rs & Exx & HR' & (r1 & vs & at_ & r2 & us & Ers & Fo & Eus & Hvs & Hat)).
    destruct (xexec_ok asmof (assemblers_rel _ Hasm) xcall csig Inv call_ok_of (c_attrs c) (c_rets c) true (c_body c)
      true G G' m true X (fst xobj) (snd xobj) Et HX Ha2 Hi) as (Xb & Ab & cb & rb & Exb & _ & _ & HI' & Hr & Nr & _).
    rewrite Exx in Exb. injection Exb as <- <- <- <-.
    destruct (pick_ok (c_attrs c) (c_rets c) rs (Nr Rt) Hr) as (ws & aw & Ep & Hw & Haw & Hp).
    destruct (Hp _ _ _ _ Ers Fo) as [-> Hg].
    exists us, vs, (aw, cs'). unfold px_call. rewrite EX. cbn [bind]. rewrite Exx. cbn [bind]. rewrite Ep. cbn [bind].
    split; auto. split.
    { apply mapM_Ok in Eus. clear - Eus. induction Eus as [|p v ps vs E F IH]; auto. cbn [map]. f_equal; auto.
      destruct p; cbn in E; try discriminate. injection E as ->. auto. }
    split; [apply hold_vrels; auto|]. cbn [fst snd]. split; [|auto]. apply (attrs_same_ok _ _ _ Wd). split; auto.
    intros r t E. destruct (Hat r t E) as (v & x & E1 & E2 & Hv). exists v, x. rewrite Hg. auto.
  Qed.

  (** *** Histories *)
  Fixpoint py_run (c : pclass) (obj : env val * Sp) (inputs : list (list val)) : res (list (list pval)) :=
    match inputs with
    | [] => Ok []
    | args :: r => do '(o, obj') <- py_call match_bool eq_bool pcall c obj args; do os <- py_run c obj' r; Ok (o :: os)
    end.
  Fixpoint px_run (c : pclass) (obj : env xval * Sx) (inputs : list (list xval)) : res (list (list xval)) :=
    match inputs with
    | [] => Ok []
    | args :: r => do '(o, obj') <- px_call asmof xcall c obj args; do os <- px_run c obj' r; Ok (o :: os)
    end.

  Theorem C78_history c inputs : forall obj xobj xinputs outs,
    class_ok true csig c = true ->
    attrs_same (c_attrs c) (fst obj) (fst xobj) -> Inv (snd xobj) -> Rc (snd obj) (snd xobj) ->
    Forall2 (hold_all (map snd (c_params c))) inputs xinputs ->
    py_run c obj inputs = Ok outs ->
    exists vss wss, px_run c xobj xinputs = Ok wss /\ outs = map (map PV) vss /\
      Forall2 (hold_all (c_rets c)) vss wss.
  Proof.
    induction inputs as [|args r IH]; intros obj xobj xinputs outs Ok_ Ha Hi HR F E; inversion F as [|? xa ? xr Fx Fr]; subst.
    - cbn in E. injection E as <-. exists [], []. cbn.
  rewrite ?ty_eqb_refl. cbn. auto.
    - cbn [py_run] in E. destruct (py_call match_bool eq_bool pcall c obj args) as [[o obj']|] eqn:Ec; [|discriminate].
      cbn [bind] in E. destruct (py_run c obj' r) as [os|] eqn:Er; [|discriminate]. injection E as <-.
      destruct (C78_same_partial c obj args o obj' xobj xa Ok_ Ha Hi HR Fx Ec) as (vs & ws & xobj' & Ex & -> & Hv & Ha' & HR' & Hi').
      destruct (IH obj' xobj' xr os Ok_ Ha' Hi' HR' Fr Er) as (vss & wss & Er' & -> & Fv).
      exists (vs :: vss), (ws :: wss). cbn [px_run]. rewrite Ex. cbn [bind]. rewrite Er'. cbn.
  rewrite ?ty_eqb_refl. cbn. auto.
  Qed.

  (** *** A class is a component *)
  Definition class_sig (name : string) (c : pclass) (m : string) : option (list ty * list ty) :=
    if String.eqb m name then Some (map snd (c_params c), c_rets c) else None.
  Definition class_pcall (c : pclass) (m : string) (obj : env val * Sp) (args : list val) : res (list val * (env val * Sp)) :=
    do '(ps, obj') <- py_call match_bool eq_bool pcall c obj args; do vs <- mapM adt_of ps; Ok (vs, obj').
  Definition class_xcall (c : pclass) (m : string) (obj : env xval * Sx) (args : list xval) : res (list xval * (env xval * Sx)) :=
    px_call asmof xcall c obj args.

  Theorem C78_component name c :
    class_ok true csig c = true ->
    component (class_sig name c) (class_pcall c) (class_xcall c)
      (fun o => attrs_typed (c_attrs c) (fst o) /\ Inv (snd o))
      (fun p x => attrs_same (c_attrs c) (fst p) (fst x) /\ Rc (snd p) (snd x)).
  Proof.
    intros Ok_. split.
    - intros m ps qs s xs E [Ha Hi] F. unfold class_sig in E. destruct (String.eqb m name); [|discriminate].
      injection E as <- <-. destruct (C78_total true c s xs Ok_ Ha Hi F) as (ws & s' & Ec & Hw & Ha' & Hi').
      exists ws, s'. split; auto.
    - intros m ps qs sp sx vs xs rs sp' E [_ Hi] [Ha HR] F Ec. unfold class_sig in E. destruct (String.eqb m name); [|discriminate].
      injection E as <- <-. unfold class_pcall in Ec.
      destruct (py_call match_bool eq_bool pcall c sp vs) as [[o obj']|] eqn:Epc; [|discriminate]. cbn [bind] in Ec.
      destruct (mapM adt_of o) as [us|] eqn:Em; [|discriminate]. injection Ec as <- <-.
      destruct (C78_same_partial c sp vs o obj' sx xs Ok_ Ha Hi HR F Epc) as (vs' & ws & xobj' & Ex & -> & Hv & Ha' & HR' & Hi').
      assert (us = vs') as ->.
      { clear - Em. revert us Em. induction vs' as [|v vs IH]; intros us E; cbn [map mapM adt_of bind] in E.
        - injection E as <-. auto.
        - destruct (mapM adt_of (map PV vs)) as [us'|]; [|discriminate]. injection E as <-. f_equal; auto. }
      exists ws, xobj'. auto.
  Qed.
End Class.

(** Components side by side: calls go to the one that has the name. *)
Section Pair.
  Context {P1 X1 P2 X2 : Type}.
  Variables (s1 s2 : string -> option (list ty * list ty)).
  Variables (pc1 : string -> P1 -> list val -> res (list val * P1)) (pc2 : string -> P2 -> list val -> res (list val * P2)).
  Variables (xc1 : string -> X1 -> list xval -> res (list xval * X1)) (xc2 : string -> X2 -> list xval -> res (list xval * X2)).
  Definition pair_sig (m : string) := match s1 m with Some q => Some q | None => s2 m end.
  Definition pair_pcall (m : string) (s : P1 * P2) (vs : list val) : res (list val * (P1 * P2)) :=
    match s1 m with
    | Some _ => do '(r, s') <- pc1 m (fst s) vs; Ok (r, (s', snd s))
    | None => do '(r, s') <- pc2 m (snd s) vs; Ok (r, (fst s, s'))
    end.
  Definition pair_xcall (m : string) (s : X1 * X2) (vs : list xval) : res (list xval * (X1 * X2)) :=
    match s1 m with
    | Some _ => do '(r, s') <- xc1 m (fst s) vs; Ok (r, (s', snd s))
    | None => do '(r, s') <- xc2 m (snd s) vs; Ok (r, (fst s, s'))
    end.

  Theorem C78_components I1 R1 I2 R2 :
    component s1 pc1 xc1 I1 R1 -> component s2 pc2 xc2 I2 R2 ->
    component pair_sig pair_pcall pair_xcall (fun s => I1 (fst s) /\ I2 (snd s))
      (fun p x => R1 (fst p) (fst x) /\ R2 (snd p) (snd x)).
  Proof.
    intros [T1 S1] [T2 S2]. split.
    - intros m ps qs s xs E [Ha Hb] F. unfold pair_sig, pair_xcall in *. destruct (s1 m) as [q|] eqn:E1.
      + injection E as ->. destruct (T1 m ps qs (fst s) xs E1 Ha F) as (rs & s' & -> & Hi & Fr). cbn [bind].
        exists rs, (s', snd s). auto.
      + destruct (T2 m ps qs (snd s) xs E Hb F) as (rs & s' & -> & Hi & Fr). cbn [bind]. exists rs, (fst s, s'). auto.
    - intros m ps qs sp sx vs xs rs sp' E [Ha Hb] [Ra Rb] F Ec. unfold pair_sig, pair_pcall, pair_xcall in *.
      destruct (s1 m) as [q|] eqn:E1.
      + injection E as ->. destruct (pc1 m (fst sp) vs) as [[r s']|] eqn:Ep; [|discriminate]. cbn [bind] in Ec. injection Ec as <- <-.
        destruct (S1 m ps qs _ _ vs xs r s' E1 Ha Ra F Ep) as (us & sx' & -> & Rs & H). cbn [bind]. exists us, (sx', snd sx). auto.
      + destruct (pc2 m (snd sp) vs) as [[r s']|] eqn:Ep; [|discriminate]. cbn [bind] in Ec. injection Ec as <- <-.
        destruct (S2 m ps qs _ _ vs xs r s' E Hb Rb F Ep) as (us & sx' & -> & Rs & H). cbn [bind]. exists us, (fst sx, sx'). auto.
  Qed.
End Pair.

(** No components. *)
Definition no_sig (m : string) : option (list ty * list ty) := None.
Definition no_pcall (m : string) (s : unit) (vs : list val) : res (list val * unit) := Err AttributeError.
Definition no_xcall (m : string) (s : unit) (vs : list xval) : res (list xval * unit) := Err AttributeError.
Lemma no_component : component no_sig no_pcall no_xcall (fun _ => True) (fun _ _ => True).
Proof. split; intros; discriminate. Qed.

(** ** Registers (family.py:168-202) are such classes, for every type *)
Definition reg_class (t : ty) : pclass := PClass [("value", t); ("en", TBit)] [("value", t)] [t]
  (SSeq (SAssign "retvalue" (EAttr "value"))
  (SSeq (SIf (EVar "en") (SAttr "value" (EVar "value")) SSkip)
        (SRet (ECons (EVar "retvalue") ENil)))).
Definition reg_class_no_en (t : ty) : pclass := PClass [("value", t)] [("value", t)] [t]
  (SSeq (SAssign "retvalue" (EAttr "value"))
  (SSeq (SAttr "value" (EVar "value"))
        (SRet (ECons (EVar "retvalue") ENil)))).

Theorem C78_register t : wf_b t = true ->
  class_ok true no_sig (reg_class t) = true /\ class_ok true no_sig (reg_class_no_en t) = true.
Proof.
  intros Wt. unfold class_ok. cbn [reg_class reg_class_no_en c_params c_attrs c_rets c_body forallb snd andb returns orb map fst].
  rewrite Wt. cbn [wf_b andb bind_types].
  cbn [tstmt texp texps get dget set dset String.eqb Ascii.eqb Bool.eqb map bitlike returns gmerge names gmerge_names fst app].
  unfold gmerge, names. cbn. rewrite ?ty_eqb_refl. cbn. rewrite ?ty_eqb_refl. cbn.
  rewrite ?ty_eqb_refl. cbn. auto.
Qed.

(** ** The full property *)

(** Whenever the types fit, a call that returns in PyFamily returns in PyXFamily
    with the same outputs and leaves corresponding objects. False, see
    [C78_full_refuted]. *)
Definition C78_full (match_bool eq_bool : bool) : Prop :=
  forall (asmof : ty -> asm) (Sp Sx : Type) csig
    (pcall : string -> Sp -> list val -> res (list val * Sp)) (xcall : string -> Sx -> list xval -> res (list xval * Sx)) Inv Rc,
  assemblers asmof -> component csig pcall xcall Inv Rc ->
  forall c obj args outs obj' xobj xargs,
  class_ok false csig c = true ->
  attrs_same (c_attrs c) (fst obj) (fst xobj) -> Inv (snd xobj) -> Rc (snd obj) (snd xobj) ->
  hold_all (map snd (c_params c)) args xargs ->
  py_call match_bool eq_bool pcall c obj args = Ok (outs, obj') ->
  exists vs ws xobj', px_call asmof xcall c xobj xargs = Ok (ws, xobj') /\
    outs = map PV vs /\ hold_all (c_rets c) vs ws /\
    attrs_same (c_attrs c) (fst obj') (fst xobj') /\ Rc (snd obj') (snd xobj').

(** The assemblers one after the other in a fresh process. *)
Definition asm0 (t : ty) : asm := match build ps0 t with Ok (a, _) => a | Err _ => AField TBit 0 end.
Lemma asm0_ok : assemblers asm0.
Proof.
  intros t Wt. exists []. split; auto. unfold asm0, built.
  destruct (build_history [] t) as (a & st & E & _); auto. cbn [run_history] in *. rewrite E. eauto.
Qed.

Definition bv8 := TBV 8.
Definition k (n : string) := Key n n.
Lemma holds_bv z : 0 <= z < 256 -> holds bv8 (VBV z) (XW bv8 z).
Proof. intros H. exists z. split; auto. apply enc_bv. exact H. Qed.
Lemma holds_bit b : holds TBit (VBit b) (XW TBit (b2z b)).
Proof. exists (b2z b). split; auto. apply enc_bit. Qed.

(** [if en: x = self.reg(v) else: x = v; return x]: in PyFamily the register is
    called only when [en]; the rewritten code calls it always. *)
Definition guarded : pclass := PClass [("v", bv8); ("en", TBit)] [] [bv8]
  (SSeq (SIf (EVar "en") (SCall ["x"] "reg" (ECons (EVar "v") ENil)) (SAssign "x" (EVar "v")))
        (SRet (ECons (EVar "x") ENil))).
Definition reg_sig := class_sig "reg" (reg_class_no_en bv8).
Definition reg_p mb eb := class_pcall mb eb no_pcall (reg_class_no_en bv8).
Definition reg_x := class_xcall asm0 no_xcall (reg_class_no_en bv8).
Lemma reg_component mb eb : component reg_sig (reg_p mb eb) reg_x
  (fun o => attrs_typed (c_attrs (reg_class_no_en bv8)) (fst o) /\ True)
  (fun p x => attrs_same (c_attrs (reg_class_no_en bv8)) (fst p) (fst x) /\ True).
Proof. apply (C78_component asm0 asm0_ok mb eb no_sig no_pcall no_xcall _ _ no_component "reg"). reflexivity. Qed.

Lemma attrs_same_one n t v x : holds t v x -> attrs_same [(n, t)] [(n, v)] [(n, x)].
Proof. intros H r. unfold get. cbn. destruct (String.eqb r n); auto. Qed.
Lemma attrs_same_nil : attrs_same [] [] [].
Proof. intros r. exact Logic.I. Qed.
Lemma attrs_typed_one n t z w : swidth t w -> 0 <= z < 2 ^ w -> attrs_typed [(n, t)] [(n, XW t z)].
Proof. intros S R r. unfold get. cbn. destruct (String.eqb r n); auto. exists z, w. auto. Qed.

Theorem C78_full_refuted mb eb : ~ C78_full mb eb.
Proof.
  intros H.
  destruct (H asm0 _ _ reg_sig (reg_p mb eb) reg_x _ _ asm0_ok (reg_component mb eb) guarded
    ([], ([("value", VBV 3)], tt)) [VBV 7; VBit false] [PV (VBV 7)] ([], ([("value", VBV 3)], tt))
    ([], ([("value", XW bv8 3)], tt)) [XW bv8 7; XW TBit 0]) as (vs & ws & xobj' & E & _ & _ & _ & HR & _).
  - reflexivity.
  - apply attrs_same_nil.
  - split; auto. apply (attrs_typed_one _ _ _ 8); [constructor|]. change (2 ^ 8) with 256. lia.
  - split; auto. apply attrs_same_one. apply holds_bv. lia.
  - cbn [hold_all map snd guarded c_params]. split; [apply holds_bv; lia|]. split; auto. apply (holds_bit false).
  - reflexivity.
  - vm_compute in E. injection E as <- <-. specialize (HR "value"). cbn in HR. destruct HR as (z & [= <-] & C). inversion C.
Qed.

(** The difference shows in the outputs of the next call. *)
Example guarded_differs :
  py_run true true (reg_p true true) guarded ([], ([("value", VBV 3)], tt)) [[VBV 7; VBit false]; [VBV 9; VBit true]]
    = Ok [[PV (VBV 7)]; [PV (VBV 3)]] /\
  px_run asm0 reg_x guarded ([], ([("value", XW bv8 3)], tt)) [[XW bv8 7; XW TBit 0]; [XW bv8 9; XW TBit 1]]
    = Ok [[XW bv8 7]; [XW bv8 7]].
Proof. split; vm_compute; reflexivity. Qed.

(** Without the condition on types the outputs differ even in one call without
    components: [~(not b)] is [~] of a Python bool in PyFamily, an integer that
    is never zero. *)
Definition inverted_not : pclass := PClass [("b", TBit)] [] [bv8]
  (SIf (EInv (ENot (EVar "b"))) (SRet (ECons (ELit bv8 (VBV 1)) ENil)) (SRet (ECons (ELit bv8 (VBV 2)) ENil))).
Theorem C78_untyped_refuted mb eb :
  py_call mb eb no_pcall inverted_not ([], tt) [VBit false] = Ok ([PV (VBV 1)], ([], tt)) /\
  px_call asm0 no_xcall inverted_not ([], tt) [XW TBit 0] = Ok ([XW bv8 2], ([], tt)) /\
  class_ok true no_sig inverted_not = false.
Proof. split; [|split]; vm_compute; reflexivity. Qed.

(** [~inst[k].match] has this effect exactly when [match] is a Python bool. *)
Definition two_arms := TSum true "Arms" [(k "a", bv8); (k "b", bv8)].
Definition inverted_match : pclass := PClass [("i", two_arms)] [] [bv8]
  (SIf (EInv (EMatch two_arms (EVar "i") (k "a"))) (SRet (ECons (ELit bv8 (VBV 1)) ENil)) (SRet (ECons (ELit bv8 (VBV 2)) ENil))).
Example inverted_match_outputs mb eb :
  py_call mb eb no_pcall inverted_match ([], tt) [VSum (k "a") (VBV 5)]
    = Ok ([PV (VBV (if mb then 1 else 2))], ([], tt)) /\
  exists z, assemble (asm0 two_arms) (VSum (k "a") (VBV 5)) = Ok z /\
  px_call asm0 no_xcall inverted_match ([], tt) [XW two_arms z] = Ok ([XW bv8 2], ([], tt)).
Proof. split; [destruct mb; vm_compute; reflexivity|]. eexists. split; vm_compute; reflexivity. Qed.

(** ** Concrete cases *)

(** A PE with an enum opcode, a tagged operand, a condition code computed with
    [and]/[not], an accumulator attribute and a register component with enable. *)
Definition aluT := TEnum "ALU" [EInt 1; EInt 2; EAuto "Sub"].
Definition srcT := TSum true "Src" [(k "imm", bv8); (k "flag", TBit)].
Definition instT := TProd "Inst" [(k "alu", aluT); (k "src", srcT)].
Definition add8 := Prim [bv8; bv8] bv8 (fun zs => nth 0 zs 0 + nth 1 zs 0).
Definition sub8 := Prim [bv8; bv8] bv8 (fun zs => nth 0 zs 0 - nth 1 zs 0).
Definition and8 := Prim [bv8; bv8] bv8 (fun zs => Z.land (nth 0 zs 0) (nth 1 zs 0)).
Definition ult8 := Prim [bv8; bv8] TBit (fun zs => b2z (nth 0 zs 0 <? nth 1 zs 0)).
Definition e2 a b := ECons a (ECons b ENil).
Definition src := EGet instT (EVar "inst") (k "src").
Definition alu := EGet instT (EVar "inst") (k "alu").
Definition pe : pclass := PClass [("inst", instT); ("a", bv8); ("b", bv8)] [("acc", bv8)] [bv8; bv8; srcT]
  (SSeq (SIf (EMatch srcT src (k "imm")) (SAssign "y" (EValue srcT src (k "imm"))) (SAssign "y" (EVar "b")))
  (SSeq (SIf (EEqC alu (VEnum (EInt 1))) (SAssign "r" (EOp add8 (e2 (EVar "a") (EVar "y"))))
        (SIf (EEqC alu (VEnum (EInt 2))) (SAssign "r" (EOp and8 (e2 (EVar "a") (EVar "y"))))
             (SAssign "r" (EOp sub8 (e2 (EVar "a") (EVar "y"))))))
  (SSeq (SAssign "en" (EOp ult8 (e2 (EVar "r") (ELit bv8 (VBV 100)))))
  (SSeq (SCall ["old"] "reg" (e2 (EVar "r") (EVar "en")))
  (SSeq (SIf (EAnd (EVar "en") (ENot (EMatch srcT src (k "imm")))) (SAttr "acc" (EOp add8 (e2 (EAttr "acc") (EVar "r")))) SSkip)
  (SSeq (SIf (EVar "en") (SRet (ECons (EVar "old") (ECons (EAttr "acc") (ECons (EInj srcT (k "imm") (EVar "r")) ENil)))) SSkip)
        (SRet (ECons (EVar "r") (ECons (EAttr "acc") (ECons (EInj srcT (k "flag") (EVar "en")) ENil)))))))))).
Definition regen_sig := class_sig "reg" (reg_class bv8).
Definition regen_p mb eb := class_pcall mb eb no_pcall (reg_class bv8).
Definition regen_x := class_xcall asm0 no_xcall (reg_class bv8).
Lemma regen_component mb eb : component regen_sig (regen_p mb eb) regen_x
  (fun o => attrs_typed (c_attrs (reg_class bv8)) (fst o) /\ True)
  (fun p x => attrs_same (c_attrs (reg_class bv8)) (fst p) (fst x) /\ True).
Proof. apply (C78_component asm0 asm0_ok mb eb no_sig no_pcall no_xcall _ _ no_component "reg"). reflexivity. Qed.

Example pe_ok : class_ok true regen_sig pe = true.
Proof. vm_compute. reflexivity. Qed.

Definition i1 := VProd [VEnum (EInt 1); VSum (k "imm") (VBV 20)].
Definition i2 := VProd [VEnum (EAuto "Sub"); VSum (k "flag") (VBit true)].
Definition w_of t v := XW t (match assemble (asm0 t) v with Ok z => z | Err _ => -1 end).
Definition pe_ins := [[i1; VBV 30; VBV 1]; [i2; VBV 9; VBV 4]; [i2; VBV 4; VBV 9]].
Definition pe_xins := map (fun r => match r with [a; b; c] => [w_of instT a; w_of bv8 b; w_of bv8 c] | _ => [] end) pe_ins.
Definition pe_obj : env val * (env val * unit) := ([("acc", VBV 0)], ([("value", VBV 0)], tt)).
Definition pe_xobj : env xval * (env xval * unit) := ([("acc", XW bv8 0)], ([("value", XW bv8 0)], tt)).
Definition pe_outs := [[VBV 0; VBV 0; VSum (k "imm") (VBV 50)]; [VBV 50; VBV 5; VSum (k "imm") (VBV 5)]; [VBV 251; VBV 5; VSum (k "flag") (VBit false)]].

Example pe_py mb eb : py_run mb eb (regen_p mb eb) pe pe_obj pe_ins = Ok (map (map PV) pe_outs).
Proof. destruct mb, eb; vm_compute; reflexivity. Qed.
Example pe_px : px_run asm0 regen_x pe pe_xobj pe_xins
  = Ok (map (fun r => match r with [a; b; c] => [w_of bv8 a; w_of bv8 b; w_of srcT c] | _ => [] end) pe_outs).
Proof. vm_compute. reflexivity. Qed.

(** The hypotheses of [C78_history] hold for it. *)
Lemma holds_asm t v z : wf_b t = true -> has_ty_b t v = true -> nonneg_b t v = true -> assemble (asm0 t) v = Ok z -> holds t v (XW t z).
Proof.
  intros Wt Ht Nt E. apply wf_b_spec in Wt. exists z. split; auto.
  destruct (asm0_ok t Wt) as (h & Wh & B).
  destruct (C02_assemble_canonical h t (asm0 t) v Wh B) as (op & E' & C); [apply has_ty_b_spec; auto|apply nonneg_b_spec; auto|].
  congruence.
Qed.
Example pe_hyps : attrs_same (c_attrs pe) (fst pe_obj) (fst pe_xobj) /\
  attrs_typed (c_attrs (reg_class bv8)) (fst (snd pe_xobj)) /\
  attrs_same (c_attrs (reg_class bv8)) (fst (snd pe_obj)) (fst (snd pe_xobj)) /\
  Forall2 (hold_all (map snd (c_params pe))) pe_ins pe_xins.
Proof.
  split; [|split; [|split]].
  - apply attrs_same_one, holds_bv. lia.
  - apply (attrs_typed_one _ _ _ 8); [constructor|]. change (2 ^ 8) with 256. lia.
  - apply attrs_same_one, holds_bv. lia.
  - repeat constructor; apply holds_asm; reflexivity.
Qed.

(** The counter of tests/test_register.py:47-66, with 8 bits instead of 16 and the
    attribute holding the value itself (family.py:212-223). *)
Definition counter : pclass := PClass [("en", TBit); ("rst", TBit)] [("reg", bv8)] [bv8]
  (SSeq (SAssign "last" (EAttr "reg"))
  (SSeq (SIf (EVar "rst") (SAttr "reg" (ELit bv8 (VBV 0)))
        (SIf (EVar "en") (SAttr "reg" (EOp add8 (e2 (EAttr "reg") (ELit bv8 (VBV 1))))) SSkip))
        (SRet (ECons (EVar "last") ENil)))).
Example counter_ok : class_ok true no_sig counter = true.
Proof. vm_compute. reflexivity. Qed.
Example counter_run : px_run asm0 no_xcall counter ([("reg", XW bv8 255)], tt)
    [[XW TBit 1; XW TBit 0]; [XW TBit 1; XW TBit 0]; [XW TBit 0; XW TBit 0]; [XW TBit 1; XW TBit 1]; [XW TBit 1; XW TBit 0]]
  = Ok [[XW bv8 255]; [XW bv8 0]; [XW bv8 1]; [XW bv8 1]; [XW bv8 0]].
Proof. vm_compute. reflexivity. Qed.

Print Assumptions C78_total.
Print Assumptions C78_same_partial.
Print Assumptions C78_history.
Print Assumptions C78_component.
Print Assumptions C78_components.
Print Assumptions C78_register.
Print Assumptions C78_full_refuted.
Print Assumptions C78_untyped_refuted.
