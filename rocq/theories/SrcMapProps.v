(** C94: from the source of two Peak classes to the rule found: it is right about the
    values the sources compute in Python. *)
From Coq Require Import String ZArith List Bool Lia.
From Verif Require Import Base BaseLemmas BindModel MapIdxModel MapIdxProps BindProps MapModel MapProofs MapMain MapProps MapIff MapIffProps MapDirect
  MapDirectProps MapConst MapConstProps
  AsmModel AsmSpec AsmValid AsmEnum AsmBuild AsmProofs AsmSub AsmCheck AsmMore AsmProps AadtModel AadtProofs FormModel FormProofs FormMain FormProps
  AdtArchModel AdtArchProofs AdtArchMain AdtArchProps StateMapModel StateMapProofs StateMapProps SrcMapModel.
From Verif Require FamProgModel FamProgProofs FamProgProps FamSmtModel FamSmtProps.
Import ListNotations.
Open Scope string_scope.
Open Scope list_scope.
Open Scope Z_scope.

(** The types fit, the names differ, every Product, Sum or Enum is well formed. *)
Record source_ok (csig : string -> option (list ty * list ty)) (S : src) : Prop := {
  so_class : FamProgModel.class_ok true csig (prog S) = true;
  so_in : wf_ty (TProd "Input" (strip_fields (fields (s_in S))));
  so_out : wf_ty (TProd "Output" (strip_fields (fields (s_out S))));
  so_mi : Forall (fun f => wf_mty (snd f)) (s_in S);
  so_mo : Forall (fun f => wf_mty (snd f)) (s_out S) }.

Lemma fields_wf ps : Forall (fun f => wf_mty (snd f)) ps -> Forall (fun f => wf_mty (snd f)) (fields ps).
Proof. intros F. unfold fields. rewrite Forall_map. exact F. Qed.

Section Class.
  Variable asmof : ty -> asm.
  Hypothesis Hasm : FamProgProps.assemblers asmof.
  Context {Sp Sx : Type}.
  Variables (match_bool eq_bool : bool).
  Variable csig : string -> option (list ty * list ty).
  Variable pcall : string -> Sp -> list AsmModel.val -> res (list AsmModel.val * Sp).
  Variable xcall : string -> Sx -> list FamProgModel.xval -> res (list FamProgModel.xval * Sx).
  Variable Inv : Sx -> Prop.
  Variable Rc : Sp -> Sx -> Prop.
  Hypothesis Hcomp : FamProgProps.component csig pcall xcall Inv Rc.

  Notation Shape := (shape asmof).
  Notation Call := (src_call asmof xcall).
  Notation on S o := (on_obj (Shape S) (Call S) o).

  Theorem C94_shape S : source_ok csig S -> class_ok (Shape S).
  Proof.
    intros [_ Wi Wo Mi Mo]. constructor.
    - exact (Hasm _ Wi).
    - exact (Hasm _ Wo).
    - apply fields_wf. exact Mi.
    - apply fields_wf. exact Mo.
  Qed.

  Lemma typed_ok ps ws : Forall2 word_of (fields ps) ws -> Forall2 FamProgProps.word_of (map snd (map (fun p => (fst p, strip (snd p))) ps)) (typed_words ps ws).
  Proof.
    revert ws. induction ps as [|[x m] ps IH]; intros ws F; inversion F as [|? w ? ws' (n & Sn & Rn) F']; subst; cbn [typed_words map]; constructor; auto.
    exists w, n. auto.
  Qed.
  Lemma bits_ok (ps : list (string * mty)) xs : Forall2 FamProgProps.word_of (map (fun p => strip (snd p)) ps) xs -> Forall2 word_of (fields ps) (map bits xs).
  Proof.
    revert xs. induction ps as [|[x m] ps IH]; intros xs F; inversion F as [|? y ? xs' (z & n & -> & Sn & Rn) F']; subst; cbn [fields map]; constructor; auto.
    exists n. auto.
  Qed.
  (** Every call, on any words, returns words of the output types. *)
  Theorem C94_call S o : source_ok csig S -> FamProgProps.attrs_typed (s_attrs S) (fst o) -> Inv (snd o) -> call_ok (on S o).
  Proof.
    intros O Ha Hi ws F. cbn [on_obj with_call c_call c_out shape]. unfold src_call.
    destruct (FamProgProps.C78_total asmof Hasm csig pcall xcall Inv Rc Hcomp true (prog S) o (typed_words (s_in S) ws) (so_class _ _ O) Ha Hi) as (xs & o' & -> & Fx & _).
    - apply (typed_ok _ _ F).
    - apply bits_ok. exact Fx.
  Qed.
  Theorem C94_keeps S o ws : source_ok csig S -> FamProgProps.attrs_typed (s_attrs S) (fst o) -> Inv (snd o) -> Forall2 word_of (c_in (Shape S)) ws ->
    FamProgProps.attrs_typed (s_attrs S) (fst (snd (Call S o ws))) /\ Inv (snd (snd (Call S o ws))).
  Proof.
    intros O Ha Hi F. unfold src_call.
    destruct (FamProgProps.C78_total asmof Hasm csig pcall xcall Inv Rc Hcomp true (prog S) o (typed_words (s_in S) ws) (so_class _ _ O) Ha Hi (typed_ok _ _ F)) as (xs & o' & -> & _ & Ha' & Hi'). auto.
  Qed.

  (** What the mapper evaluates: the terms SMTFamily makes of variables for the inputs,
      under any valuation, are what the call returns on the words of the inputs. *)
  Theorem C94_terms {Ss} rho (st : Ss -> Sx) scall S so sargs : FamSmtProps.exact rho st scall xcall ->
    map (FamSmtProps.at_rho rho) sargs = typed_words (s_in S) (map (fun a => bits (FamSmtProps.at_rho rho a)) sargs) ->
    match FamSmtModel.smt_call asmof scall (prog S) so sargs with
    | Ok (outs, so') => Call S (FamSmtProps.obj_at rho st so) (map (fun a => bits (FamSmtProps.at_rho rho a)) sargs) =
        (map (fun x => bits (FamSmtProps.at_rho rho x)) outs, FamSmtProps.obj_at rho st so')
    | Err _ => True
    end.
  Proof.
    intros Ex Es. pose proof (FamSmtProps.C80_exact asmof rho st scall xcall (prog S) so sargs Ex) as E. unfold src_call. rewrite <- Es, E.
    destruct (FamSmtModel.smt_call asmof scall (prog S) so sargs) as [[outs so']|]; [|exact Logic.I]. cbn [FamSmtProps.rmap fst snd]. rewrite map_map. reflexivity.
  Qed.

  Lemma args_hold ps ws vs : words canonical (fields ps) ws vs -> FamProgProps.hold_all (map snd (map (fun p => (fst p, strip (snd p))) ps)) vs (typed_words ps ws).
  Proof.
    intros (L1 & L2 & H). unfold fields in *. rewrite map_length in *. revert ws vs L1 L2 H. induction ps as [|[x m] ps IH]; intros ws vs L1 L2 H.
    - destruct vs; [exact Logic.I|discriminate L2].
    - destruct ws as [|w ws]; [discriminate L1|]. destruct vs as [|v vs]; [discriminate L2|]. cbn [map typed_words FamProgProps.hold_all fst snd]. split.
      + exists w. split; auto. exact (H 0%nat _ _ _ _ eq_refl eq_refl eq_refl).
      + apply IH; [injection L1; auto|injection L2; auto|]. intros i k m' w' v' Ei Ew Ev. exact (H (Datatypes.S i) k m' w' v' Ei Ew Ev).
  Qed.
  Lemma outs_hold (ps : list (string * mty)) os xs : FamProgProps.hold_all (map (fun p => strip (snd p)) ps) os xs ->
    words encodes (fields ps) (map bits xs) os /\ Forall2 (fun f v => has_ty (snd f) v) (strip_fields (fields ps)) os.
  Proof.
    revert os xs. induction ps as [|[n m] ps IH]; intros os xs H; destruct os as [|o os], xs as [|x xs]; cbn [map FamProgProps.hold_all] in H; try destruct H.
    - split; [|constructor]. split; [reflexivity|]. split; [reflexivity|]. intros i k m w v Ei. destruct i; discriminate Ei.
    - destruct H as (z & -> & Cz). destruct (IH os xs H0) as [(L1 & L2 & Hw) Ht]. split.
      + split; [exact (f_equal Datatypes.S L1)|]. split; [exact (f_equal Datatypes.S L2)|]. intros [|i] k m' w v Ei Ew Ev.
        * injection Ei as <- <-. injection Ew as <-. injection Ev as <-. apply canonical_encodes. exact Cz.
        * exact (Hw i k m' w v Ei Ew Ev).
      + constructor; [|exact Ht]. cbn [snd]. eapply enc_has_ty; eauto.
  Qed.

  (** What a call in Python returns, by what [reads] says of the call on words. *)
  Lemma python S po xo vs ws outs po' out : source_ok csig S ->
    FamProgProps.attrs_same (s_attrs S) (fst po) (fst xo) -> Inv (snd xo) -> Rc (snd po) (snd xo) ->
    words canonical (c_in (Shape S)) ws vs -> reads (on S xo) ws out ->
    FamProgModel.py_call match_bool eq_bool pcall (prog S) po vs = Ok (outs, po') ->
    exists os, outs = map FamProgModel.PV os /\ has_ty (out_ty (Shape S)) (VProd os) /\
      forall q t o, sub_val (out_ty (Shape S)) (VProd os) q t o -> is_leaf t -> encodes t (out q) o.
  Proof.
    intros O Ha Hi Hr Ws Rd Ec.
    destruct (FamProgProps.C78_same_partial asmof Hasm match_bool eq_bool csig pcall xcall Inv Rc Hcomp (prog S) po vs outs po' xo (typed_words (s_in S) ws)
      (so_class _ _ O) Ha Hi Hr (args_hold _ _ _ Ws) Ec) as (os & xs & xo' & Ex & -> & Ho & _).
    exists os. split; auto. apply outs_hold in Ho as [Hw Ht]. assert (has_ty (out_ty (Shape S)) (VProd os)) as HT by (constructor; exact Ht). split; auto.
    apply (Rd os); auto. cbn [on_obj with_call c_call c_out shape]. unfold src_call. rewrite Ex. exact Hw.
  Qed.

  (** The view of the architecture: for values of form [fi] with the leaves [l] the
      source computes in Python what the view says of [fi] and [l]. *)
  Theorem C94_arch S po xo cs A fi vs l outs po' : source_ok csig S -> adt_arch (on S xo) cs = Ok A ->
    buildable (out_ty (Shape S)) -> sum_free (out_ty (Shape S)) ->
    FamProgProps.attrs_same (s_attrs S) (fst po) (fst xo) -> Inv (snd xo) -> Rc (snd po) (snd xo) ->
    has_ty (in_ty (Shape S)) (VProd vs) -> form_of (Shape S) A fi (VProd vs) -> holds (in_ty (Shape S)) (VProd vs) l ->
    FamProgModel.py_call match_bool eq_bool pcall (prog S) po vs = Ok (outs, po') ->
    exists os, outs = map FamProgModel.PV os /\ has_ty (out_ty (Shape S)) (VProd os) /\
      forall q t o, sub_val (out_ty (Shape S)) (VProd os) q t o -> is_leaf t -> encodes t (adt_fs (on S xo) A fi l q) o.
  Proof.
    intros O EA B Sf Ha Hi Hr Hv Fo Hl Ec.
    assert (FamProgProps.attrs_typed (s_attrs S) (fst xo)) as Ht.
    { pose proof (so_class _ _ O) as Ok_. unfold FamProgModel.class_ok in Ok_. rewrite !andb_true_iff in Ok_. destruct Ok_ as [[[_ Wd] _] _].
      apply (FamProgProps.attrs_ok _ _ Wd). exact (proj2 (proj1 (FamProgProps.attrs_same_ok asmof Hasm _ _ _ Wd) Ha)). }
    destruct (C86_function (on S xo) cs A (with_ok _ (C94_shape S O) _) (C94_call S xo O Ht Hi) EA B Sf fi vs l Hv Fo Hl) as (ws & Ws & Rd).
    eapply python; eauto.
  Qed.
  Theorem C94_instr S po xo I us x outs po' : source_ok csig S -> adt_instr (on S xo) = Ok I ->
    buildable (out_ty (Shape S)) -> sum_free (out_ty (Shape S)) ->
    FamProgProps.attrs_same (s_attrs S) (fst po) (fst xo) -> Inv (snd xo) -> Rc (snd po) (snd xo) ->
    has_ty (in_ty (Shape S)) (VProd us) -> holds (in_ty (Shape S)) (VProd us) x ->
    FamProgModel.py_call match_bool eq_bool pcall (prog S) po us = Ok (outs, po') ->
    exists os, outs = map FamProgModel.PV os /\ has_ty (out_ty (Shape S)) (VProd os) /\
      forall q t o, sub_val (out_ty (Shape S)) (VProd os) q t o -> is_leaf t -> encodes t (MapModel.i_sem I x q) o.
  Proof.
    intros O EI B Sf Ha Hi Hr Hv Hl Ec.
    assert (FamProgProps.attrs_typed (s_attrs S) (fst xo)) as Ht.
    { pose proof (so_class _ _ O) as Ok_. unfold FamProgModel.class_ok in Ok_. rewrite !andb_true_iff in Ok_. destruct Ok_ as [[[_ Wd] _] _].
      apply (FamProgProps.attrs_ok _ _ Wd). exact (proj2 (proj1 (FamProgProps.attrs_same_ok asmof Hasm _ _ _ Wd) Ha)). }
    destruct (C86_instr_function (on S xo) I (with_ok _ (C94_shape S O) _) (C94_call S xo O Ht Hi) EI B Sf us x Hv Hl) as (ws & Ws & Rd).
    eapply python; eauto.
  Qed.
End Class.

(** The outputs [os] and [us] of two sources: at every output leaf of [D] and at the leaf
    it is bound to stands the same value. *)
Definition same_outputs (C D : pclass) (obnd : path -> path) (os us : list AsmModel.val) : Prop :=
  forall q t, In (q, t) (out_flat D) -> exists v, sub_val (out_ty D) (VProd us) q (snd t) v /\ sub_val (out_ty C) (VProd os) (obnd q) (snd t) v.

(** A rule of [D] on [C]: a form, constants and bindings of the leaves such that the two
    Python objects [runC] and [runD], called on values related by the rule, return the
    same, whenever both return. *)
Definition right_in_python (C D : pclass) (A : arch path lty) (cs : list (path * list Z)) {Oc Od}
    (runC : list AsmModel.val -> res (list FamProgModel.pval * Oc)) (runD : list AsmModel.val -> res (list FamProgModel.pval * Od)) : Prop :=
  exists fi f l0 (bnd obnd : path -> path),
    nth_error (a_forms A) fi = Some f /\ typed lty_vals (in_flat C) l0 /\ adt_fv C A fi l0 = true /\
    (forall p zs, In (p, zs) cs -> In p (fst f) -> In (l0 p) zs) /\
    (forall q t, In (q, t) (in_flat D) -> In (bnd q, t) (in_flat C) /\ In (bnd q) (fst f) /\ ~ In (bnd q) (map fst cs)) /\
    (forall q t q' t', In (q, t) (in_flat D) -> In (q', t') (in_flat D) -> bnd q = bnd q' -> q = q') /\
    (forall q t, In (q, t) (out_flat D) -> In (obnd q, t) (out_flat C)) /\
    (forall q t q' t', In (q, t) (out_flat D) -> In (q', t') (out_flat D) -> obnd q = obnd q' -> q = q') /\
    forall vs us l x outs c' outs' d', has_ty (in_ty C) (VProd vs) -> form_of C A fi (VProd vs) -> holds (in_ty C) (VProd vs) l -> typed lty_vals (in_flat C) l ->
      has_ty (in_ty D) (VProd us) -> holds (in_ty D) (VProd us) x ->
      (forall q t, In (q, t) (in_flat D) -> l (bnd q) = x q) ->
      (forall p t, In (p, t) (in_flat C) -> lty_const t = true -> (forall q t', In (q, t') (in_flat D) -> bnd q <> p) -> l p = l0 p) ->
      (forall p zs, In (p, zs) cs -> In (l p) zs) ->
      runC vs = Ok (outs, c') -> runD us = Ok (outs', d') ->
      exists os os', outs = map FamProgModel.PV os /\ outs' = map FamProgModel.PV os' /\ same_outputs C D obnd os os'.

Lemma present t r u : sub_ty t r u -> forall v, sum_free t -> has_ty t v -> exists w, sub_val t v r u w.
Proof.
  induction 1 as [t|c fs k p t u I S IH|g c fs k p t u I S IH]; intros v F H.
  - exists v. constructor.
  - inversion H as [| | | |? ? vs Fv|]; subst. apply In_nth_error in I as [i Ei]. destruct (F2_nth _ _ _ Fv i _ Ei) as (v' & Ev & Hv).
    destruct (IH v') as (w & Sw); auto.
    + intros r g c' fs' X. apply (F (k :: r) g c' fs'). econstructor; eauto. eapply nth_error_In; eauto.
    + exists w. econstructor; eauto.
  - destruct (F [] g c fs). constructor.
Qed.

Section Mapper.
  Variable asmof : ty -> asm.
  Hypothesis Hasm : FamProgProps.assemblers asmof.
  Variables (match_bool eq_bool : bool).
  (** The components of the architecture and of the instruction. *)
  Context {Pc Xc Pd Xd : Type}.
  Variables (sigc sigd : string -> option (list ty * list ty)).
  Variables (pcallc : string -> Pc -> list AsmModel.val -> res (list AsmModel.val * Pc)) (xcallc : string -> Xc -> list FamProgModel.xval -> res (list FamProgModel.xval * Xc)).
  Variables (pcalld : string -> Pd -> list AsmModel.val -> res (list AsmModel.val * Pd)) (xcalld : string -> Xd -> list FamProgModel.xval -> res (list FamProgModel.xval * Xd)).
  Variables (InvC : Xc -> Prop) (RC : Pc -> Xc -> Prop) (InvD : Xd -> Prop) (RD : Pd -> Xd -> Prop).
  Hypothesis HcC : FamProgProps.component sigc pcallc xcallc InvC RC.
  Hypothesis HcD : FamProgProps.component sigd pcalld xcalld InvD RD.
  Variables (SC SD : src).
  Hypothesis OC : source_ok sigc SC.
  Hypothesis OD : source_ok sigd SD.
  (** New objects of the two classes, in Python and on words. *)
  Variables (pc : FamProgModel.env AsmModel.val * Pc) (xc : FamProgModel.env FamProgModel.xval * Xc).
  Variables (pd : FamProgModel.env AsmModel.val * Pd) (xd : FamProgModel.env FamProgModel.xval * Xd).
  Hypothesis AC : FamProgProps.attrs_same (s_attrs SC) (fst pc) (fst xc).
  Hypothesis IC : InvC (snd xc).
  Hypothesis RCo : RC (snd pc) (snd xc).
  Hypothesis AD : FamProgProps.attrs_same (s_attrs SD) (fst pd) (fst xd).
  Hypothesis ID : InvD (snd xd).
  Hypothesis RDo : RD (snd pd) (snd xd).

  Notation C := (shape asmof SC).
  Notation D := (shape asmof SD).
  Notation callC := (src_call asmof xcallc SC).
  Notation callD := (src_call asmof xcalld SD).
  Notation runC := (FamProgModel.py_call match_bool eq_bool pcallc (prog SC) pc).
  Notation runD := (FamProgModel.py_call match_bool eq_bool pcalld (prog SD) pd).

  Lemma typed_attrs csig S P X : source_ok csig S -> FamProgProps.attrs_same (s_attrs S) P X -> FamProgProps.attrs_typed (s_attrs S) X.
  Proof.
    intros O Ha. pose proof (so_class _ _ O) as Ok_. unfold FamProgModel.class_ok in Ok_. rewrite !andb_true_iff in Ok_. destruct Ok_ as [[[_ Wd] _] _].
    apply (FamProgProps.attrs_ok _ _ Wd). exact (proj2 (proj1 (FamProgProps.attrs_same_ok asmof Hasm _ _ _ Wd) Ha)).
  Qed.

  Variables (k : ivar) (past : list Z) (cs : list (path * list Z)) (A SA : arch path lty) (I : instr path lty).
  Hypothesis BC : buildable (out_ty C).
  Hypothesis FC : sum_free (out_ty C).
  Hypothesis BD : buildable (out_ty D).
  Hypothesis FD : sum_free (out_ty D).
  Hypothesis EA : adt_arch (on_obj C callC xc) cs = Ok A.
  Hypothesis ESA : st_arch C callC xc past cs = Ok SA.
  Hypothesis N : NoDup (map fst cs).
  Hypothesis Hc : constr_ok lty_vals A.
  Hypothesis Hk : exists k m, In (k, m) (c_in C) /\ const_field m = true.
  Hypothesis EI : st_instr D callD xd false = Ok I.

  (** If the architecture has one input form or its calls do not depend on earlier ones,
      whatever the mapper finds with the expanded formula is right in Python. *)
  Theorem C94_correct_partial : length (a_forms A) = 1%nat \/ history_free C callC xc ->
    satisfiable path_eqb lty_eqb lty_vals (tag_vals C) k SA I (build_expanded path_eqb lty_eqb lty_const k SA I) ->
    right_in_python C D A cs runC runD.
  Proof.
    intros Hist Sat.
    pose proof (C94_shape asmof Hasm sigc SC OC) as KC. pose proof (C94_shape asmof Hasm sigd SD OD) as KD.
    pose proof (C94_call asmof Hasm sigc pcallc xcallc InvC RC HcC SC xc OC (typed_attrs _ _ _ _ OC AC) IC) as CkC.
    pose proof (C94_call asmof Hasm sigd pcalld xcalld InvD RD HcD SD xd OD (typed_attrs _ _ _ _ OD AD) ID) as CkD.
    assert (direct path_eqb lty_const lty_vals A I (adt_fs (on_obj C callC xc) A) (adt_fv C A)) as Dir.
    { destruct Hist as [L|H].
      - apply (C93_one_form k C D callC xc callD xd past cs A SA I KC KD BC FC EA ESA N Hc Hk CkC EI L). exact Sat.
      - apply (C93_history_free k C D callC xc callD xd past cs A SA I KC KD BC FC EA ESA N Hc Hk CkC EI H). exact Sat. }
    rewrite C93_instr in EI.
    apply (C86_found k (on_obj C callC xc) cs A (on_obj D callD xd) I (with_ok C KC _) (with_ok D KD _) EA EI N Hc Hk) in Dir.
    destruct (C86_correct k (on_obj C callC xc) cs A (on_obj D callD xd) I (with_ok C KC _) CkC (with_ok D KD _) CkD EA EI BC FC BD FD N Hc Hk Dir)
      as (fi & f & l0 & bnd & obnd & Ef & Tl & Fv & Cl & Hb & Hbi & Ho & Hoi & H).
    exists fi, f, l0, bnd, obnd. do 8 (split; [assumption|]).
    intros vs us l x outs c' outs' d' Hv Fo Hl Ty Hu Hx Eq Con Csl Rc_ Rd_.
    destruct (H vs us l x Hv Fo Hl Ty Hu Hx Eq Con Csl) as (ws & zs & out & out' & Ws & Zs & R1 & R2 & E).
    destruct (python asmof Hasm match_bool eq_bool sigc pcallc xcallc InvC RC HcC SC pc xc vs ws outs c' out OC AC IC RCo Ws R1 Rc_) as (os & -> & To & Vo).
    destruct (python asmof Hasm match_bool eq_bool sigd pcalld xcalld InvD RD HcD SD pd xd us zs outs' d' out' OD AD ID RDo Zs R2 Rd_) as (os' & -> & To' & Vo').
    exists os, os'. split; [reflexivity|]. split; [reflexivity|]. intros q [ms t] Iq. cbn [snd].
    pose proof (Ho q _ Iq) as Ip. destruct (out_flat_spec D (so_out _ _ OD) (k_mo D KD)) as [_ S1]. destruct (out_flat_spec C (so_out _ _ OC) (k_mo C KC)) as [_ S2].
    destruct (S1 q ms t Iq) as [St1 Lf]. destruct (S2 _ ms t Ip) as [St2 _].
    destruct (present _ _ _ St1 _ FD To') as (v & Sv). destruct (present _ _ _ St2 _ FC To) as (v' & Sv').
    exists v. split; [exact Sv|]. replace v with v'; [exact Sv'|].
    apply (enc_inj (fun _ => True) t (sub_ty_wf _ _ _ St1 (so_out _ _ OD)) (out' q)).
    - rewrite (E q _ Iq). exact (Vo _ _ _ Sv' Lf).
    - exact (Vo' _ _ _ Sv Lf).
  Qed.
End Mapper.

(** A source without attributes, on components without state: no call depends on an
    earlier one. *)
Theorem C94_history_free asmof csig pcall (xcall : string -> unit -> list FamProgModel.xval -> res (list FamProgModel.xval * unit)) Inv (Rc : unit -> unit -> Prop) S o :
  FamProgProps.assemblers asmof -> FamProgProps.component csig pcall xcall Inv Rc -> source_ok csig S -> s_attrs S = [] ->
  FamProgProps.attrs_typed (s_attrs S) (fst o) -> Inv (snd o) -> history_free (shape asmof S) (src_call asmof xcall S) o.
Proof.
  intros Hasm Hcomp O Na Ha Hi n hist ws Fh _ _. f_equal. f_equal.
  assert (forall X : FamProgModel.env FamProgModel.xval, FamProgProps.attrs_typed (s_attrs S) X -> X = []) as Nil.
  { intros [|[r x] X] T; auto. exfalso. specialize (T r). rewrite Na in T. unfold FamProgModel.get in T. cbn in T. rewrite String.eqb_refl in T. exact T. }
  clear n ws. revert o Ha Hi. induction Fh as [|h hist Hh _ IH]; intros o Ha Hi; [reflexivity|]. cbn [fold_left].
  destruct (C94_keeps asmof Hasm csig pcall xcall Inv Rc Hcomp S o h O Ha Hi Hh) as [Ha' Hi']. rewrite (IH _ Ha' Hi').
  apply Nil in Ha, Ha'. destruct (snd (src_call asmof xcall S o h)) as [X []], o as [Y []]. cbn [fst] in *. congruence.
Qed.

(** ** The class that counts its calls, as a source *)
Module Case.
Import AdtArchProps.Case StateMapProps.Case.
Import FamProgModel.
Definition dT := TSum false "D" [(ky "a", TBit); (ky "b", TBit)].
Definition xor1 := Prim [TBit; TBit] TBit (fun zs => nth 0 zs 0 + nth 1 zs 0).
(** [x = d[A].value if d[A].match else d[B].value; r = x ^ self.s; self.s = ~self.s; return r],
    or [x = d] if [d] is a bit. *)
Definition tg_src (two : bool) : src :=
  Src [("k", MMod "Const" (MLeaf TBit)); ("d", if two then MSum false "D" [(ky "a", MLeaf TBit); (ky "b", MLeaf TBit)] else MLeaf TBit)]
    [("out", MLeaf TBit)] [("s", TBit)]
    (SSeq (SAssign "x" (if two then ECond (EMatch dT (EVar "d") (ky "a")) (EValue dT (EVar "d") (ky "a")) (EValue dT (EVar "d") (ky "b")) else EVar "d"))
    (SSeq (SAssign "r" (EOp xor1 (ECons (EVar "x") (ECons (EAttr "s") ENil))))
    (SSeq (SAttr "s" (EInv (EAttr "s"))) (SRet (ECons (EVar "r") ENil))))).
(** [return p] or [return ~p]. *)
Definition bit_src (c : bool) : src :=
  Src [("p", MLeaf TBit)] [("r", MLeaf TBit)] [] (SRet (ECons (if c then EInv (EVar "p") else EVar "p") ENil)).
Notation asm0 := FamProgProps.asm0.
Notation nosig := FamProgProps.no_sig.
Notation nop := FamProgProps.no_pcall.
Notation nox := FamProgProps.no_xcall.
Definition xs (b : bool) : env xval * unit := ([("s", XW TBit (Z.b2z b))], tt).
Definition ps (b : bool) : env AsmModel.val * unit := ([("s", VBit b)], tt).
Definition x0 : env xval * unit := ([], tt).
Definition p0 : env AsmModel.val * unit := ([], tt).
Definition tcall two := src_call asm0 nox (tg_src two).
Definition bcall c := src_call asm0 nox (bit_src c).

Lemma tg_shape two : shape asm0 (tg_src two) = tg two.
Proof. destruct two; reflexivity. Qed.
Lemma bit_shape c : shape asm0 (bit_src c) = bit_i c.
Proof. reflexivity. Qed.
Lemma tg_source two : source_ok nosig (tg_src two).
Proof. constructor; [destruct two; vm_compute; reflexivity|apply wf_b_spec; destruct two; vm_compute; reflexivity|apply wf_b_spec; vm_compute; reflexivity|destruct two; repeat constructor|repeat constructor]. Qed.
Lemma bit_source c : source_ok nosig (bit_src c).
Proof. constructor; [destruct c; vm_compute; reflexivity|apply wf_b_spec; vm_compute; reflexivity|apply wf_b_spec; vm_compute; reflexivity|repeat constructor|repeat constructor]. Qed.
Lemma bit_range z n : swidth TBit n -> 0 <= z < 2 ^ n -> z = 0 \/ z = 1.
Proof. intros S R. assert (n = 1) as -> by (apply (swidth_fun TBit); [exact S|constructor]). change (2 ^ 1) with 2 in R. lia. Qed.
Lemma d_range z n : swidth dT n -> 0 <= z < 2 ^ n -> z = 0 \/ z = 1 \/ z = 2 \/ z = 3.
Proof.
  intros S R. assert (n = 2) as ->; [|change (2 ^ 2) with 4 in R; lia].
  apply (swidth_fun dT); [exact S|]. apply (sw_sum false "D" [(ky "a", TBit); (ky "b", TBit)] [1; 1]). repeat constructor.
Qed.
(** On words the source is the class of C93. *)
Lemma tg_step two b ws : Forall2 word_of (c_in (tg two)) ws -> tcall two (xs b) ws = (flip two b ws, xs (negb b)).
Proof.
  intros F. inversion F as [|? w ? ws1 (n & Sn & Rn) F1]; subst. inversion F1 as [|? d ? ws2 (m & Sm & Rm) F2]; subst. inversion F2; subst.
  apply (bit_range _ _ Sn) in Rn. clear F F1 F2 Sn. destruct two.
  - apply (d_range _ _ Sm) in Rm. clear Sm. destruct b, Rn as [-> | ->], Rm as [-> | [-> | [-> | ->]]]; vm_compute; reflexivity.
  - apply (bit_range _ _ Sm) in Rm. clear Sm. destruct b, Rn as [-> | ->], Rm as [-> | ->]; vm_compute; reflexivity.
Qed.
Lemma bit_step c ws : Forall2 word_of (c_in (bit_i c)) ws -> bcall c x0 ws = (fst (bit_call c tt ws), x0).
Proof.
  intros F. inversion F as [|? w ? ws1 (n & Sn & Rn) F1]; subst. inversion F1; subst. apply (bit_range _ _ Sn) in Rn. clear F F1 Sn.
  destruct c, Rn as [-> | ->]; vm_compute; reflexivity.
Qed.
Lemma tg_hist two n : after (tg two) (tcall two) (xs false) n (flip two (Nat.odd n)).
Proof.
  intros hist ws Fh L Fw. assert (forall b, fold_left (fun o h => snd (tcall two o h)) hist (xs b) = xs (xorb (Nat.odd (length hist)) b)) as E.
  { clear L. induction Fh as [|h hist Hh _ IH]; intros b; [destruct b; reflexivity|]. cbn [fold_left length]. rewrite (tg_step two b h Hh). cbn [snd]. rewrite IH.
    rewrite Nat.odd_succ, <- Nat.negb_odd. destruct (Nat.odd (length hist)), b; reflexivity. }
  rewrite E, xorb_false_r, L, (tg_step two _ ws Fw). reflexivity.
Qed.
Definition A_src (two : bool) : arch path lty := A_of (on_obj (tg two) (tcall two) (xs false)) [].
Definition SA_src (two : bool) (past : list Z) : arch path lty :=
  match st_arch (tg two) (tcall two) (xs false) past [] with Ok A => A | Err _ => A_src two end.
Definition I_src (c : bool) : instr path lty := match st_instr (bit_i c) (bcall c) x0 false with Ok i => i | Err _ => I_bit c end.
Lemma src_arch two : adt_arch (on_obj (tg two) (tcall two) (xs false)) [] = Ok (A_src two).
Proof. apply A_of_ok. destruct two; vm_compute; reflexivity. Qed.
Lemma src_st two past : st_arch (tg two) (tcall two) (xs false) past [] = Ok (SA_src two past).
Proof. unfold SA_src, st_arch. rewrite src_arch. reflexivity. Qed.
Lemma src_instr c : st_instr (bit_i c) (bcall c) x0 false = Ok (I_src c).
Proof. unfold I_src. assert (adt_instr (on_obj (bit_i c) (bcall c) x0) = Ok (I_of (on_obj (bit_i c) (bcall c) x0))) as E by (apply I_of_ok; destruct c; vm_compute; reflexivity). unfold st_instr. rewrite E. reflexivity. Qed.
Lemma src_parts two : a_forms (A_src two) = a_forms (A_tg two) /\ a_in (A_src two) = a_in (A_tg two) /\ a_out (A_src two) = a_out (A_tg two) /\ a_constr (A_src two) = a_constr (A_tg two).
Proof. destruct two; vm_compute; auto. Qed.
Lemma src_sem c : i_in (I_src c) = i_in (I_bit c) /\ i_out (I_src c) = i_out (I_bit c) /\ forall x q, MapModel.i_sem (I_src c) x q = MapModel.i_sem (I_bit c) x q.
Proof.
  pose proof (src_instr c) as E. rewrite C93_instr in E. destruct (adt_instr_inv _ _ E) as (E1 & E2 & E3). destruct (adt_instr_inv _ _ (bit_instr c)) as (F1 & F2 & F3).
  split; [rewrite E1, F1; reflexivity|]. split; [rewrite E2, F2; reflexivity|]. intros x q. rewrite E3, F3. apply (out_at_ext (bit_i c) (bit_ok c)). intros ws Fw. rewrite (bit_step c ws Fw). reflexivity.
Qed.
Lemma src_constr two : constr_ok lty_vals (A_src two).
Proof. intros p zs H. destruct two; vm_compute in H; destruct H. Qed.
(** What the mapper finds for the sources. *)
Lemma src_expanded two c past k :
  satisfiable path_eqb lty_eqb lty_vals (tag_vals (tg two)) k (SA_src two past) (I_src c) (build_expanded path_eqb lty_eqb lty_const k (SA_src two past) (I_src c)) <->
  c = false \/ two = true.
Proof.
  rewrite (C93_expanded k (tg two) (bit_i c) (tcall two) (xs false) (bcall c) x0 past [] (A_src two) (SA_src two past) (I_src c) (tg_ok two) (bit_ok c) (tg_build two) (tg_free two)
    (src_arch two) (src_st two past) (NoDup_nil _) (src_constr two) (tg_const two) (fun n => flip two (Nat.odd n)) (fun n _ => tg_call two _) (fun n _ => tg_hist two n) (src_instr c)).
  rewrite <- (tg_expanded two c past k).
  rewrite (C93_expanded k (tg two) (bit_i c) (ocall two) false (bit_call c) tt past [] (A_tg two) (SA_tg two past) (I_bit c) (tg_ok two) (bit_ok c) (tg_build two) (tg_free two)
    (tg_arch two) (tg_st two past) (NoDup_nil _) (tg_constr two) (tg_const two) (fun n => flip two (Nat.odd n)) (fun n _ => tg_call two _) (fun n _ => tg_after two n)).
  2: { rewrite C93_instr. apply bit_instr. }
  destruct (src_parts two) as (P1 & P2 & P3 & P4). destruct (src_sem c) as (S1 & S2 & S3).
  unfold direct, adt_fs, adt_fv, own, is_const. rewrite P1, P2, P3, P4, S1, S2.
  split; intros (fi & f & l0 & bnd & obnd & H1 & H2 & H3 & H4 & H5 & H6 & H7 & H8 & H9);
    exists fi, f, l0, bnd, obnd; repeat (split; [assumption|]); intros q t Iq l Tl Cl Zl; [rewrite <- S3|rewrite S3]; apply (H9 q t Iq l Tl Cl Zl).
Qed.

(** Values of every form. *)
Definition tgv (two : bool) (fi : nat) (kb b : bool) : list AsmModel.val := [VBit kb; if two then VSum (ky (if Nat.eqb fi 0 then "a" else "b")) (VBit b) else VBit b].
Lemma tgv_ty two fi kb b : has_ty (in_ty (tg two)) (VProd (tgv two fi kb b)).
Proof. apply has_ty_b_spec. destruct two, (Nat.eqb fi 0) eqn:E, kb, b; unfold tgv; rewrite ?E; vm_compute; reflexivity. Qed.
Lemma tgv_leaf two fi kb b : leaf_path (in_ty (tg two)) (VProd (tgv two fi kb b)) (p_d two fi).
Proof.
  exists TBit, (VBit b). split; [|exact Logic.I]. unfold p_d, tgv. destruct two.
  - eapply (sv_prod _ _ _ _ _ 1); [reflexivity|reflexivity|]. apply (sv_sum _ _ _ _ _ TBit); [destruct (Nat.eqb fi 0); vm_compute; auto|constructor].
  - eapply (sv_prod _ _ _ _ _ 1); [reflexivity|reflexivity|constructor].
Qed.
Lemma tgv_form two fi f kb b : nth_error (a_forms (A_src two)) fi = Some f -> form_of (tg two) (A_src two) fi (VProd (tgv two fi kb b)).
Proof.
  intros Ef. destruct (C86_forms _ [] (A_src two) (with_ok _ (tg_ok two) _) (src_arch two)) as [F _].
  destruct (F _ (tgv_ty two fi kb b)) as (fj & Fj & _). replace fi with fj at 1; [exact Fj|].
  destruct Fj as (f' & Ej & Lj & _).
  pose proof (proj2 (Lj (p_d two fi)) (tgv_leaf two fi kb b)) as Ip. destruct (src_parts two) as (P1 & _). rewrite P1, tg_forms in *.
  destruct two, fi as [|[|fi]]; try discriminate Ef; try (destruct fi; discriminate Ef); destruct fj as [|[|fj]]; try discriminate Ej; try (destruct fj; discriminate Ej);
    try reflexivity; injection Ej as <-; vm_compute in Ip; intuition discriminate.
Qed.
Definition tgl (two : bool) (fi : nat) (kb b : bool) : path -> Z := at_ [(p_k, Z.b2z kb); (p_d two fi, Z.b2z b)].
Lemma tgv_holds two fi kb b : holds (in_ty (tg two)) (VProd (tgv two fi kb b)) (tgl two fi kb b).
Proof.
  intros r t' v' S L. inversion S as [|? ? ? k0 p i t v ? ? Ei Ev S'|]; subst; [destruct L|].
  destruct i as [|[|i]]; cbn in Ei, Ev; [| |destruct i; discriminate Ev].
  - injection Ei as <- <-. injection Ev as <-. inversion S'; subst. unfold tgl. replace (at_ _ _) with (Z.b2z kb) by reflexivity. destruct kb; apply (enc_bit _ true) || apply (enc_bit _ false).
  - destruct two; injection Ei as <- <-; injection Ev as <-.
    + inversion S' as [| |? ? ? ? p' t v ? ? I S'']; subst; [destruct L|]. vm_compute in I. assert (t = TBit) as -> by intuition congruence. inversion S''; subst.
      unfold tgl, p_d. destruct (Nat.eqb fi 0); replace (at_ _ _) with (Z.b2z b) by reflexivity; destruct b; apply (enc_bit _ true) || apply (enc_bit _ false).
    + inversion S'; subst. unfold tgl, p_d. replace (at_ _ _) with (Z.b2z b) by reflexivity. destruct b; apply (enc_bit _ true) || apply (enc_bit _ false).
Qed.
Lemma tg_python mb eb two fi kb b s : py_call mb eb nop (prog (tg_src two)) (ps s) (tgv two fi kb b) = Ok ([PV (VBit (xorb b s))], ps (negb s)).
Proof. unfold tgv. destruct mb, eb, two, (Nat.eqb fi 0), kb, b, s; vm_compute; reflexivity. Qed.
Lemma bit_python mb eb c b : py_call mb eb nop (prog (bit_src c)) p0 [VBit b] = Ok ([PV (VBit (xorb b c))], p0).
Proof. destruct mb, eb, c, b; vm_compute; reflexivity. Qed.
Definition run_tg mb eb two := py_call mb eb nop (prog (tg_src two)) (ps false).
Definition run_bit mb eb c := py_call mb eb nop (prog (bit_src c)) p0.
Lemma bit_holds c b : holds (in_ty (bit_i c)) (VProd [VBit b]) (fun _ => Z.b2z b).
Proof.
  intros r t' v' S L. inversion S as [|? ? ? k0 p i t v ? ? Ei Ev S'|]; subst; [destruct L|].
  destruct i as [|i]; cbn in Ei, Ev; [|destruct i; discriminate Ev]. injection Ei as <- <-. injection Ev as <-. inversion S'; subst.
  destruct b; apply (enc_bit _ true) || apply (enc_bit _ false).
Qed.
(** In Python a new object returns the bit, never its inverse. *)
Lemma only_bit mb eb two c : right_in_python (tg two) (bit_i c) (A_src two) [] (run_tg mb eb two) (run_bit mb eb c) -> c = false.
Proof.
  intros (fi & f & l0 & bnd & obnd & Ef & Tl & _ & _ & Hb & _ & Ho & _ & H).
  assert (in_flat (bit_i c) = [([ky "p"], ([], TBit))]) as Ei by reflexivity. assert (out_flat (bit_i c) = [([ky "r"], ([], TBit))]) as Eo by reflexivity.
  destruct (src_parts two) as (P1 & _). assert (in_flat (tg two) = a_in (A_tg two)) as Ea by (destruct two; vm_compute; reflexivity).
  rewrite Ei, Ea in *. rewrite Eo in Ho. destruct (Hb _ _ (or_introl eq_refl)) as (Ib & If & _).
  pose proof (Ho _ _ (or_introl eq_refl)) as Io. assert (out_flat (tg two) = [(p_o, ([], TBit))]) as Et by (destruct two; reflexivity). rewrite Et in Io. destruct Io as [Io|[]]. injection Io as Io.
  assert (bnd [ky "p"] = p_d two fi) as Eb.
  { pose proof Ef as Ef'. rewrite P1, tg_forms in Ef'. rewrite tg_a_in in Ib. clear - Ef' Ib If. destruct two, fi as [|[|fi]]; try discriminate Ef'; try (destruct fi; discriminate Ef'); injection Ef' as <-;
      destruct If as [If|[If|[]]]; try (symmetry; exact If); rewrite <- If in Ib; vm_compute in Ib; intuition discriminate. }
  assert (exists kb, l0 p_k = Z.b2z kb) as [kb Ek].
  { assert (In (l0 p_k) (lty_vals (["Const"], TBit))) as X by (apply Tl; rewrite tg_a_in; left; reflexivity). apply bits in X as [-> | ->]; [exists false|exists true]; reflexivity. }
  assert (typed lty_vals (a_in (A_tg two)) (tgl two fi kb true)) as Ty.
  { intros p t Ip. rewrite tg_a_in in Ip. clear - Ip. destruct two; repeat (destruct Ip as [Ip|Ip]; [injection Ip as <- <-|]); try destruct Ip; unfold tgl, p_d; destruct kb, (Nat.eqb fi 0); vm_compute; auto. }
  assert (forall (q : path) (t : lty), In (q, t) [([ky "p"], ([], TBit))] -> tgl two fi kb true (bnd q) = 1) as G1.
  { intros q t [[= <- <-]|[]]. rewrite Eb. unfold tgl, p_d. destruct two, kb, (Nat.eqb fi 0); vm_compute; reflexivity. }
  assert (forall p t, In (p, t) (a_in (A_tg two)) -> lty_const t = true -> tgl two fi kb true p = l0 p) as G2.
  { intros p t Ip Ct. rewrite tg_a_in in Ip. destruct Ip as [[= <- <-]|Ip]; [rewrite Ek; reflexivity|]. exfalso. clear - Ip Ct.
    destruct two; repeat (destruct Ip as [Ip|Ip]; [injection Ip as <- <-; discriminate Ct|]); destruct Ip. }
  assert (has_ty (in_ty (bit_i c)) (VProd [VBit true])) as Hu by (apply has_ty_b_spec; vm_compute; reflexivity).
  destruct (H (tgv two fi kb true) [VBit true] (tgl two fi kb true) (fun _ => 1) _ _ _ _ (tgv_ty two fi kb true) (tgv_form two fi f kb true Ef) (tgv_holds two fi kb true) Ty
    Hu (bit_holds c true) G1 (fun p t Ip Ct _ => G2 p t Ip Ct) (fun p zs (X : In (p, zs) []) => match X with end) (tg_python mb eb two fi kb true false) (bit_python mb eb c true))
    as (os & os' & E1 & E2 & Sm).
    destruct os as [|o [|]]; try discriminate E1. destruct os' as [|o' [|]]; try discriminate E2. injection E1 as <-. injection E2 as <-.
    destruct (Sm [ky "r"] ([], TBit)) as (v & S1 & S2); [rewrite Eo; left; reflexivity|]. rewrite <- Io in S2. cbn [snd] in *.
    inversion S1 as [|? ? ? ? ? i t w ? ? Ei1 Ev1 S1'|]; subst. destruct i as [|i]; [|destruct i; discriminate Ev1]. injection Ei1 as <-. injection Ev1 as <-. inversion S1'; subst.
    inversion S2 as [|? ? ? ? ? i t w ? ? Ei2 Ev2 S2'|]; subst. destruct i as [|i]; [|destruct i; discriminate Ev2].
    assert (t = TBit) as -> by (destruct two; injection Ei2; auto). injection Ev2 as <-. inversion S2' as [? ? Q1 Q2| |]; subst. destruct c; [discriminate|reflexivity].
Qed.
End Case.

(** ** What is false *)
(** Whatever the mapper finds would be right in Python. *)
Definition C94_full : Prop := forall asmof match_bool eq_bool (Pc Xc Pd Xd : Type) sigc sigd pcallc xcallc pcalld xcalld (InvC : Xc -> Prop) (RC : Pc -> Xc -> Prop) (InvD : Xd -> Prop) (RD : Pd -> Xd -> Prop)
    SC SD pc xc pd xd k past cs A SA I,
  FamProgProps.assemblers asmof -> FamProgProps.component sigc pcallc xcallc InvC RC -> FamProgProps.component sigd pcalld xcalld InvD RD -> source_ok sigc SC -> source_ok sigd SD ->
  FamProgProps.attrs_same (s_attrs SC) (fst pc) (fst xc) -> InvC (snd xc) -> RC (snd pc) (snd xc) ->
  FamProgProps.attrs_same (s_attrs SD) (fst pd) (fst xd) -> InvD (snd xd) -> RD (snd pd) (snd xd) ->
  buildable (out_ty (shape asmof SC)) -> sum_free (out_ty (shape asmof SC)) -> buildable (out_ty (shape asmof SD)) -> sum_free (out_ty (shape asmof SD)) ->
  adt_arch (on_obj (shape asmof SC) (src_call asmof xcallc SC) xc) cs = Ok A -> st_arch (shape asmof SC) (src_call asmof xcallc SC) xc past cs = Ok SA ->
  NoDup (map fst cs) -> constr_ok lty_vals A -> (exists k m, In (k, m) (c_in (shape asmof SC)) /\ const_field m = true) ->
  st_instr (shape asmof SD) (src_call asmof xcalld SD) xd false = Ok I ->
  satisfiable path_eqb lty_eqb lty_vals (tag_vals (shape asmof SC)) k SA I (build_expanded path_eqb lty_eqb lty_const k SA I) ->
  right_in_python (shape asmof SC) (shape asmof SD) A cs (FamProgModel.py_call match_bool eq_bool pcallc (prog SC) pc) (FamProgModel.py_call match_bool eq_bool pcalld (prog SD) pd).
(** Missing for C94: architectures with several input forms whose calls depend on earlier
    ones. There it is false: the inverse is found for a source that never returns it on
    its first call. *)
Theorem C94_full_refuted : ~ C94_full.
Proof.
  intros F. assert (true = false) as X; [|discriminate X]. apply (Case.only_bit true true true true).
  rewrite <- (Case.tg_shape true), <- (Case.bit_shape true).
  apply (F FamProgProps.asm0 true true unit unit unit unit FamProgProps.no_sig FamProgProps.no_sig FamProgProps.no_pcall FamProgProps.no_xcall FamProgProps.no_pcall FamProgProps.no_xcall
    (fun _ => True) (fun _ _ => True) (fun _ => True) (fun _ _ => True) (Case.tg_src true) (Case.bit_src true) (Case.ps false) (Case.xs false) Case.p0 Case.x0 OneHot [] [] (Case.A_src true) (Case.SA_src true []) (Case.I_src true)).
  - apply FamProgProps.asm0_ok.
  - apply FamProgProps.no_component.
  - apply FamProgProps.no_component.
  - apply Case.tg_source.
  - apply Case.bit_source.
  - apply FamProgProps.attrs_same_one. apply (FamProgProps.holds_bit false).
  - exact Logic.I.
  - exact Logic.I.
  - apply FamProgProps.attrs_same_nil.
  - exact Logic.I.
  - exact Logic.I.
  - apply (StateMapProps.Case.tg_build true).
  - apply (StateMapProps.Case.tg_free true).
  - apply build_b_spec. vm_compute. reflexivity.
  - apply free_b_spec. vm_compute. reflexivity.
  - apply (Case.src_arch true).
  - apply (Case.src_st true []).
  - constructor.
  - apply Case.src_constr.
  - apply (StateMapProps.Case.tg_const true).
  - apply (Case.src_instr true).
  - apply (Case.src_expanded true true []). auto.
Qed.

(** ** Concrete cases *)
(** One form: the source keeps state, the bit is found whatever was mapped before, and
    Python agrees; both sources return. *)
Example C94_case mb eb past k :
  satisfiable path_eqb lty_eqb lty_vals (tag_vals (StateMapProps.Case.tg false)) k (Case.SA_src false past) (Case.I_src false)
    (build_expanded path_eqb lty_eqb lty_const k (Case.SA_src false past) (Case.I_src false)) /\
  right_in_python (StateMapProps.Case.tg false) (StateMapProps.Case.bit_i false) (Case.A_src false) [] (Case.run_tg mb eb false) (Case.run_bit mb eb false) /\
  (forall b, exists o o', Case.run_tg mb eb false [VBit false; VBit b] = Ok ([FamProgModel.PV (VBit b)], o) /\ Case.run_bit mb eb false [VBit b] = Ok ([FamProgModel.PV (VBit b)], o')).
Proof.
  assert (satisfiable path_eqb lty_eqb lty_vals (tag_vals (StateMapProps.Case.tg false)) k (Case.SA_src false past) (Case.I_src false)
    (build_expanded path_eqb lty_eqb lty_const k (Case.SA_src false past) (Case.I_src false))) as Sat by (apply Case.src_expanded; auto).
  split; [exact Sat|]. split.
  - rewrite <- (Case.tg_shape false), <- (Case.bit_shape false).
    apply (C94_correct_partial FamProgProps.asm0 FamProgProps.asm0_ok mb eb FamProgProps.no_sig FamProgProps.no_sig FamProgProps.no_pcall FamProgProps.no_xcall FamProgProps.no_pcall FamProgProps.no_xcall
      (fun _ => True) (fun _ _ => True) (fun _ => True) (fun _ _ => True) FamProgProps.no_component FamProgProps.no_component (Case.tg_src false) (Case.bit_src false) (Case.tg_source false) (Case.bit_source false)
      (Case.ps false) (Case.xs false) Case.p0 Case.x0) with (k := k) (past := past) (SA := Case.SA_src false past) (I := Case.I_src false).
    + apply FamProgProps.attrs_same_one. apply (FamProgProps.holds_bit false).
    + exact Logic.I.
    + exact Logic.I.
    + apply FamProgProps.attrs_same_nil.
    + exact Logic.I.
    + exact Logic.I.
    + apply (StateMapProps.Case.tg_build false).
    + apply (StateMapProps.Case.tg_free false).
    + apply build_b_spec. vm_compute. reflexivity.
    + apply free_b_spec. vm_compute. reflexivity.
    + apply (Case.src_arch false).
    + apply (Case.src_st false past).
    + constructor.
    + apply Case.src_constr.
    + apply (StateMapProps.Case.tg_const false).
    + apply (Case.src_instr false).
    + left. vm_compute. reflexivity.
    + exact Sat.
  - intros b. exists (Case.ps true), Case.p0. split; [destruct mb, eb, b; vm_compute; reflexivity|destruct mb, eb, b; vm_compute; reflexivity].
Qed.
(** The inverse is right for no source of the two. *)
Example C94_case_wrong mb eb two : ~ right_in_python (StateMapProps.Case.tg two) (StateMapProps.Case.bit_i true) (Case.A_src two) [] (Case.run_tg mb eb two) (Case.run_bit mb eb true).
Proof. intros H. apply Case.only_bit in H. discriminate H. Qed.
(** The instructions have no history. *)
Example C94_case_history_free c : history_free (shape FamProgProps.asm0 (Case.bit_src c)) (src_call FamProgProps.asm0 FamProgProps.no_xcall (Case.bit_src c)) Case.x0.
Proof.
  apply (C94_history_free _ FamProgProps.no_sig FamProgProps.no_pcall _ (fun _ => True) (fun _ _ => True)); auto using FamProgProps.asm0_ok, FamProgProps.no_component, Case.bit_source.
  intros r. exact Logic.I.
Qed.

(** The terms of a call on variables, with the state a variable too. *)
Definition t_rho (x : string) : Z := if String.eqb x "k" then 0 else 1.
Definition t_obj : FamProgModel.env FamSmtModel.sval * unit := ([("s", FamSmtModel.SW TBit (FamSmtModel.MVar "s"))], tt).
Example C94_case_terms two : exists outs so',
  FamSmtModel.smt_call FamProgProps.asm0 FamSmtProps.no_scall (prog (Case.tg_src two)) t_obj (FamSmtProps.vars (prog (Case.tg_src two))) = Ok (outs, so') /\
  map (FamSmtProps.at_rho t_rho) (FamSmtProps.vars (prog (Case.tg_src two))) = typed_words (s_in (Case.tg_src two)) [0; 1] /\
  Case.tcall two (Case.xs true) [0; 1] = (map (fun x => bits (FamSmtProps.at_rho t_rho x)) outs, FamSmtProps.obj_at t_rho (fun u => u) so') /\
  fst (Case.tcall two (Case.xs true) [0; 1]) = [if two then 1 else 0].
Proof. destruct two; do 2 eexists; (split; [vm_compute; reflexivity|]); split; [|split| |split]; vm_compute; reflexivity. Qed.

Print Assumptions C94_shape.
Print Assumptions C94_call.
Print Assumptions C94_keeps.
Print Assumptions C94_terms.
Print Assumptions C94_arch.
Print Assumptions C94_instr.
Print Assumptions C94_correct_partial.
Print Assumptions C94_history_free.
Print Assumptions C94_full_refuted.
