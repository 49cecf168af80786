(** C43: verify. *)
From Coq Require Import ZArith List Bool Lia Permutation.
From Verif Require Import Base BaseLemmas BindModel BindProps MapIdxModel MapIdxProps BBFormModel BBFormProps
  CegisModel CegisProps MapModel MapProofs MapMain MapProps VerModel.
Import ListNotations.
Open Scope list_scope.
Open Scope Z_scope.

Section Spec.
  Context {P C : Type} (peqb : P -> P -> bool) (d : design P C).
  (** Values of the free variables: of IR paths, of unbound arch paths, outputs
      of black boxes by class. *)
  Variables (xd ud : P -> list Z) (okout : C -> list Z -> Prop).

  (** What a rule does to the leaves of the architecture. *)
  Definition gives (rin : list (src P * P)) (x u l : P -> Z) : Prop :=
    forall s p, In (s, p) rin -> l p = match s with SPath ip => x ip | SVal z => z | SUnbound => u p end.

  (** The bound outputs agree on these inputs when the black boxes are [F]. *)
  Definition agrees (ru : rule P) (fi : nat) (F : C -> list Z -> list Z) (x u : P -> Z) : Prop :=
    forall l, gives (r_in ru) x u l ->
    forall q ap, In (Some q, ap) (r_out ru) ->
      fun_run (d_cls d) F (d_ir d x) q = fun_run (d_cls d) F (d_arch d fi l) ap.

  Definition ok_fun (F : C -> list Z -> list Z) : Prop := forall c i, okout c (F c i).
  Definition ok_in (x u : P -> Z) : Prop := (forall p, In (x p) (xd p)) /\ (forall p, In (u p) (ud p)).
  Definition ok_vals (v : vals P) : Prop := ok_in (v_x v) (v_u v) /\ forall o, okout (d_cls d o) (v_outs v o).

  (** Contract of the solver, for formulas over the values of the variables. *)
  Definition same_vals (v v' : vals P) : Prop :=
    (forall p, v_x v p = v_x v' p) /\ (forall p, v_u v p = v_u v' p) /\ (forall o, v_outs v o = v_outs v' o).
  Definition sat_ok (sat_or : (vals P -> bool) -> option (vals P)) : Prop :=
    forall f, (forall v v', same_vals v v' -> f v = f v') ->
              match sat_or f with
              | Some v => ok_vals v /\ f v = true
              | None => forall v, ok_vals v -> f v = false
              end.

  (** The designs look only at the leaves; the rule binds the leaves of the IR
      input and of form [fi], each once, and names existing outputs. *)
  Definition local : Prop :=
    (forall x x', (forall p, In p (d_ir_in d) -> x p = x' p) -> d_ir d x = d_ir d x') /\
    (forall fi l l', (fi < length (d_forms d))%nat -> (forall p, In p (nth fi (d_forms d) []) -> l p = l' p) -> d_arch d fi l = d_arch d fi l').
  Definition rule_for (ru : rule P) (fi : nat) : Prop :=
    (fi < length (d_forms d))%nat /\
    NoDup (map snd (r_in ru)) /\ NoDup (ir_paths ru) /\
    (forall p, In p (map snd (r_in ru)) <-> In p (nth fi (d_forms d) [])) /\
    (forall p, In p (ir_paths ru) <-> In p (d_ir_in d)) /\
    (forall q ap, In (Some q, ap) (r_out ru) -> In q (d_ir_out d) /\ In ap (d_arch_out d)).
  (** No two forms have the same leaves, no form or input type lists a leaf twice. *)
  Definition proper_forms : Prop :=
    NoDup (d_ir_in d) /\ (forall f, In f (d_forms d) -> NoDup f) /\
    (forall i j, (i < length (d_forms d))%nat -> (j < length (d_forms d))%nat ->
       (forall p, In p (nth i (d_forms d) []) <-> In p (nth j (d_forms d) [])) -> i = j).

  (** The black boxes, as in C34. *)
  Definition boxes (dflt : C -> list Z) (nin nout : C -> nat) (fi : nat) (aos ios : list nat) : Prop :=
    forall x l, setting (d_cls d) okout dflt nin nout (d_aobjs d) (d_iobjs d) aos ios (d_arch d fi l) (d_ir d x).
End Spec.

(** Full property. *)
Definition C43_full : Prop :=
  forall (P C : Type) (peqb : P -> P -> bool) (ceqb : C -> C -> bool),
    (forall a b, peqb a b = true <-> a = b) -> (forall a b, ceqb a b = true <-> a = b) ->
  forall (d : design P C) xd ud okout dflt nin nout aos ios ru fi,
    local d -> proper_forms d -> rule_for d ru fi -> boxes d okout dflt nin nout fi aos ios ->
  forall v0 sat_or, ok_vals d xd ud okout v0 -> sat_ok d xd ud okout sat_or ->
  exists res, verify peqb ceqb d ru v0 sat_or = Ok res /\
    (res = None <-> forall F x u, ok_fun okout F -> ok_in xd ud x u -> agrees d ru fi F x u) /\
    (forall ix au, res = Some (ix, au) ->
       map fst ix = ir_paths ru /\ map fst au = arch_paths ru /\
       forall x u, (forall p z, In (p, z) ix -> x p = z) -> (forall p z, In (p, z) au -> u p = z) ->
         exists F, ok_fun okout F /\ ~ agrees d ru fi F x u).

Lemma sym_run_ext {D A} (outs outs' : nat -> list D) (H : forall o, outs o = outs' o) (c : comp D A) :
  sym_run outs c = sym_run outs' c.
Proof. induction c as [a|o ins k IH]; [reflexivity|]. cbn [sym_run]. now rewrite H, IH. Qed.
Lemma bb_formula_ext {D C A B} deqb ceqb (cls : nat -> C) aobjs iobjs (arch : comp D A) (ir : comp D B) f outs outs' :
  (forall o, outs o = outs' o) ->
  bb_formula deqb ceqb cls aobjs iobjs arch ir f outs = bb_formula deqb ceqb cls aobjs iobjs arch ir f outs'.
Proof.
  intros H. unfold bb_formula. rewrite (sym_run_ext outs outs' H arch), (sym_run_ext outs outs' H ir).
  destruct (sym_run outs' arch) as [a atr], (sym_run outs' ir) as [b itr].
  destruct (get_bb_inputs atr aobjs) as [ai|]; [|reflexivity]. cbn [bind].
  destruct (get_bb_inputs itr iobjs) as [ii|]; [|reflexivity]. cbn [bind].
  f_equal. f_equal; apply map_ext; intros p; now rewrite H.
Qed.

Section Proofs.
  Context {P C : Type} (peqb : P -> P -> bool) (ceqb : C -> C -> bool).
  Hypothesis Hp : forall a b, peqb a b = true <-> a = b.
  Hypothesis Hc : forall a b, ceqb a b = true <-> a = b.
  Variable d : design P C.

  Lemma vmem_In p l : vmem peqb p l = true <-> In p l.
  Proof.
    unfold vmem. rewrite existsb_exists. split.
    - intros (x & I & E). apply Hp in E. now subst.
    - intros I. exists p. split; auto. now apply Hp.
  Qed.

  Lemma same_paths_In l m : same_paths peqb l m = true -> forall p, In p l <-> In p m.
  Proof.
    unfold same_paths. rewrite !andb_true_iff, !forallb_forall. intros [[_ H1] H2] p.
    split; intros I; [apply H1 in I|apply H2 in I]; now apply vmem_In in I.
  Qed.
  Lemma same_paths_iff l m : NoDup l -> NoDup m -> same_paths peqb l m = true <-> (forall p, In p l <-> In p m).
  Proof.
    intros N M. split; [apply same_paths_In|]. intros E.
    unfold same_paths. rewrite !andb_true_iff, !forallb_forall, Nat.eqb_eq. split; [split|].
    - apply Permutation_length, NoDup_Permutation; auto.
    - intros p I. apply vmem_In, E. exact I.
    - intros p I. apply vmem_In, E. exact I.
  Qed.

  Lemma leaf_val_gives (rin : list (src P * P)) x u : NoDup (map snd rin) -> gives rin x u (leaf_val peqb rin x u).
  Proof.
    intros N s p I. induction rin as [|[s' q] rin IH]; [destruct I|]. inversion N as [|? ? Nq Nr]; subst. cbn [leaf_val].
    destruct I as [E|I].
    - injection E as -> ->. now rewrite (proj2 (Hp p p) eq_refl).
    - destruct (peqb p q) eqn:E; [|auto]. apply Hp in E. subst q. destruct Nq. exact (in_map snd _ _ I).
  Qed.

  Lemma gives_unique (rin : list (src P * P)) x u l l' : gives rin x u l -> gives rin x u l' -> forall p, In p (map snd rin) -> l p = l' p.
  Proof. intros G G' p I. apply in_map_iff in I as ([s q] & <- & I). cbn [snd]. now rewrite (G _ _ I), (G' _ _ I). Qed.

  Lemma find_form_eq ru fi : proper_forms d -> rule_for d ru fi -> find_form peqb d ru = Some fi.
  Proof.
    intros (_ & Nf & Dj) (L & N & _ & E & _ & _). unfold find_form.
    assert (T : forall j, (j < length (d_forms d))%nat ->
      same_paths peqb (map snd (r_in ru)) (nth j (d_forms d) []) = true <-> j = fi).
    { intros j Lj. rewrite same_paths_iff; [|auto|apply Nf, nth_In; auto]. split.
      - intros H. apply Dj; auto. intros p. rewrite <- H, E. tauto.
      - intros ->. exact E. }
    assert (G : forall n s, (s <= fi < s + n)%nat -> (s + n <= length (d_forms d))%nat ->
      find (fun j => same_paths peqb (map snd (r_in ru)) (nth j (d_forms d) [])) (seq s n) = Some fi).
    { induction n as [|n IH]; intros s B Bn; [lia|]. cbn [seq find].
      destruct (same_paths peqb (map snd (r_in ru)) (nth s (d_forms d) [])) eqn:Es.
      - f_equal. apply T; auto. lia.
      - apply IH; [|lia]. destruct (Nat.eq_dec s fi) as [->|]; [|lia].
        rewrite (proj2 (T fi L) eq_refl) in Es. discriminate. }
    apply G; lia.
  Qed.

  Lemma agree_holds (ru : rule P) (a b : P -> Z) : holds tt_ev (agree ru a b) <-> forall q ap, In (Some q, ap) (r_out ru) -> b q = a ap.
  Proof.
    unfold agree. rewrite holds_and, Forall_forall. split.
    - intros H q ap I. specialize (H (FLeaf (b q =? a ap))). cbn [holds tt_ev] in H. apply Z.eqb_eq. apply H.
      apply in_flat_map. exists (Some q, ap). split; [exact I|now left].
    - intros H f I. apply in_flat_map in I as ([[q|] ap] & I & J); cbn [fst snd] in J; [|destruct J].
      destruct J as [<-|[]]. cbn [holds tt_ev]. apply Z.eqb_eq. now apply H.
  Qed.

  Lemma agree_proper (ru : rule P) (a b : P -> Z) : (exists q ap, In (Some q, ap) (r_out ru)) -> proper (agree ru a b).
  Proof.
    intros (q & ap & I). unfold agree. constructor.
    - intros E. assert (J : In (FLeaf (b q =? a ap)) []) by (rewrite <- E; apply in_flat_map; exists (Some q, ap); split; [exact I|now left]).
      destruct J.
    - apply Forall_forall. intros f J. apply in_flat_map in J as ([[q'|] ap'] & _ & J); cbn [fst snd] in J; [|destruct J].
      destruct J as [<-|[]]. constructor.
  Qed.

  Variables (xd ud : P -> list Z) (okout : C -> list Z -> Prop) (dflt : C -> list Z) (nin nout : C -> nat).
  Variables (aos ios : list nat) (ru : rule P) (fi : nat).
  Hypotheses (Lo : local d) (Pf : proper_forms d) (Rf : rule_for d ru fi) (Bx : boxes d okout dflt nin nout fi aos ios).
  Hypotheses (Na : NoDup aos) (Ni : NoDup ios) (Bo : exists q ap, In (Some q, ap) (r_out ru)).

  Let lv (x u : P -> Z) : P -> Z := leaf_val peqb (r_in ru) x u.

  Lemma agrees_iff F x u : agrees d ru fi F x u <->
    holds tt_ev (agree ru (fun_run (d_cls d) F (d_arch d fi (lv x u))) (fun_run (d_cls d) F (d_ir d x))).
  Proof.
    rewrite agree_holds. destruct Rf as (Lf & N & _ & E & _). split.
    - intros A q ap I. apply (A (lv x u)); auto. now apply leaf_val_gives.
    - intros A l G q ap I. rewrite (A q ap I). rewrite (proj2 Lo fi (lv x u) l Lf); [reflexivity|]. intros p Ip.
      apply (gives_unique (r_in ru) x u); [now apply leaf_val_gives|exact G|now apply E].
  Qed.

  Lemma formula_spec v : ok_vals d xd ud okout v -> exists b, formula peqb ceqb d ru fi v = Ok b /\
    (b = true <-> (consistent (d_cls d) (d_arch d fi (lv (v_x v) (v_u v))) (d_ir d (v_x v)) (v_outs v) ->
       holds tt_ev (agree ru (fst (sym_run (v_outs v) (d_arch d fi (lv (v_x v) (v_u v)))))
                          (fst (sym_run (v_outs v) (d_ir d (v_x v))))))).
  Proof.
    intros [_ Ho]. unfold formula. fold (lv (v_x v) (v_u v)).
    destruct (bb_value Z.eqb ceqb Z.eqb_eq Hc (d_cls d) okout dflt nin nout (d_aobjs d) (d_iobjs d) aos ios
      (d_arch d fi (lv (v_x v) (v_u v))) (d_ir d (v_x v)) (Bx _ _) Na Ni (agree ru) (v_outs v) Ho)
      as (g & fa & E & Pg & G).
    rewrite E. cbn [bind fst]. destruct (C30_meaning _ g) as (M1 & M2 & _).
    destruct M2 as (s & Bs). { apply Pg, agree_proper, Bo. }
    rewrite Bs. cbn [bind]. eexists. split; [reflexivity|]. destruct (M1 s Bs) as [_ M]. rewrite (M tt_ev). exact G.
  Qed.

  Lemma formula_ext v v' : same_vals v v' -> formula peqb ceqb d ru fi v = formula peqb ceqb d ru fi v'.
  Proof.
    intros (Sx & Su & So). unfold formula.
    rewrite (proj1 Lo (v_x v) (v_x v') (fun p _ => Sx p)).
    rewrite (proj2 Lo fi (leaf_val peqb (r_in ru) (v_x v) (v_u v)) (leaf_val peqb (r_in ru) (v_x v') (v_u v')) (proj1 Rf)).
    2:{ intros p _. induction (r_in ru) as [|[s q] r IH]; [reflexivity|]. cbn [leaf_val].
        destruct (peqb p q); [destruct s; auto|exact IH]. }
    now rewrite (bb_formula_ext Z.eqb ceqb (d_cls d) (d_aobjs d) (d_iobjs d) _ _ (agree ru) _ _ So).
  Qed.

  Lemma in_ir_paths p : In p (ir_paths ru) <-> exists ap, In (SPath p, ap) (r_in ru).
  Proof.
    unfold ir_paths. rewrite in_flat_map. split.
    - intros ([s ap] & I & J). destruct s; cbn in J; try contradiction. destruct J as [->|[]]. eauto.
    - intros (ap & I). exists (SPath p, ap). split; [exact I|now left].
  Qed.
  Lemma in_arch_paths p : In p (arch_paths ru) <-> In (SUnbound, p) (r_in ru).
  Proof.
    unfold arch_paths. rewrite in_flat_map. split.
    - intros ([s ap] & I & J). destruct s; cbn in J; try contradiction. destruct J as [->|[]]. exact I.
    - intros I. exists (SUnbound, p). split; [exact I|now left].
  Qed.

  Lemma verify_spec v0 sat_or : ok_vals d xd ud okout v0 -> sat_ok d xd ud okout sat_or ->
    exists res, verify peqb ceqb d ru v0 sat_or = Ok res /\
    (res = None <-> forall F x u, ok_fun okout F -> ok_in xd ud x u -> agrees d ru fi F x u) /\
    (forall ix au, res = Some (ix, au) ->
       map fst ix = ir_paths ru /\ map fst au = arch_paths ru /\
       forall x u, (forall p z, In (p, z) ix -> x p = z) -> (forall p z, In (p, z) au -> u p = z) ->
         exists F, ok_fun okout F /\ ~ agrees d ru fi F x u).
  Proof.
    intros O0 Hs. unfold verify.
    rewrite (find_form_eq ru fi Pf Rf).
    destruct Rf as (Lf & N & Nx & E & Ex & Ko). destruct Pf as (Nin & _ & _).
    rewrite (proj2 (same_paths_iff (ir_paths ru) (d_ir_in d) Nx Nin) Ex). cbn [negb].
    assert (Kn : outputs_known peqb d ru = true).
    { unfold outputs_known. apply forallb_forall. intros [[q|] ap] I; cbn [fst snd]; [|reflexivity].
      destruct (Ko q ap I) as [K1 K2]. now rewrite (proj2 (vmem_In _ _) K1), (proj2 (vmem_In _ _) K2). }
    rewrite Kn. cbn [negb]. destruct (formula_spec v0 O0) as (b0 & -> & _). cbn [bind].
    set (fv := fun v => match formula peqb ceqb d ru fi v with Ok b => negb b | Err _ => false end).
    specialize (Hs fv). assert (Xf : forall v v', same_vals v v' -> fv v = fv v').
    { intros v v' S. unfold fv. now rewrite (formula_ext v v' S). }
    specialize (Hs Xf). destruct (sat_or fv) as [v|].
    - destruct Hs as [Ov Hv]. eexists. split; [reflexivity|].
      assert (Cx : forall x u, (forall p, In p (ir_paths ru) -> x p = v_x v p) -> (forall p, In p (arch_paths ru) -> u p = v_u v p) ->
                exists F, ok_fun okout F /\ ~ agrees d ru fi F x u).
      { intros x u Hx Hu. unfold fv in Hv. destruct (formula_spec v Ov) as (b & Eb & Sb). rewrite Eb in Hv.
        apply negb_true_iff in Hv. subst b.
        destruct (consistent_dec Z.eqb ceqb Z.eqb_eq Hc (d_cls d) (d_arch d fi (lv (v_x v) (v_u v))) (d_ir d (v_x v)) (v_outs v)) as [Co|Nc].
        2:{ destruct (diff_false_true (proj2 Sb (fun c => False_ind _ (Nc c)))). }
        destruct (fun_of_outs Z.eqb ceqb Z.eqb_eq Hc (d_cls d) okout dflt nin nout (d_aobjs d) (d_iobjs d) aos ios
           (d_arch d fi (lv (v_x v) (v_u v))) (d_ir d (v_x v)) (Bx _ _) (v_outs v) (proj2 Ov) Co) as (F & HF & Fa & Fi).
        exists F. split; [exact HF|]. intros A. apply agrees_iff in A.
        assert (Ei : d_ir d x = d_ir d (v_x v)) by (apply (proj1 Lo); intros p Ip; apply Hx, Ex, Ip).
        assert (Ea : d_arch d fi (lv x u) = d_arch d fi (lv (v_x v) (v_u v))).
        { apply (proj2 Lo); [exact Lf|]. intros p Ip. apply E in Ip. apply in_map_iff in Ip as ([s q] & <- & Ip). cbn [snd].
          unfold lv. rewrite (leaf_val_gives (r_in ru) x u N s q Ip), (leaf_val_gives (r_in ru) (v_x v) (v_u v) N s q Ip).
          destruct s as [ip|z|]; [|reflexivity|]; [apply Hx, in_ir_paths; eauto|apply Hu, in_arch_paths; exact Ip]. }
        rewrite Ei, Ea, Fa, Fi in A. apply diff_false_true, Sb. auto. }
      split.
      + split; [discriminate|]. intros A. exfalso. destruct (Cx (v_x v) (v_u v)) as (F & HF & Na'); auto.
        apply Na', A; auto. exact (proj1 Ov).
      + intros ix au [= <- <-]. rewrite !map_map. cbn [fst]. rewrite !map_id. split; [reflexivity|]. split; [reflexivity|].
        intros x u Hx Hu. apply Cx.
        * intros p Ip. apply Hx. now apply (in_map (fun p => (p, v_x v p))).
        * intros p Ip. apply Hu. now apply (in_map (fun p => (p, v_u v p))).
    - eexists. split; [reflexivity|]. split; [|discriminate]. split; [|reflexivity]. intros _ F x u HF Oi.
      apply agrees_iff.
      destruct (outs_of_fun (d_cls d) okout dflt nin nout (d_aobjs d) (d_iobjs d) aos ios
         (d_arch d fi (lv x u)) (d_ir d x) (Bx _ _) Na Ni F HF) as (outs & Hok & Co & <- & <-).
      pose (v := {| v_x := x; v_u := u; v_outs := outs |}).
      assert (Ov : ok_vals d xd ud okout v) by (split; auto).
      specialize (Hs v Ov). unfold fv in Hs. destruct (formula_spec v Ov) as (b & Eb & Sb). rewrite Eb in Hs.
      apply negb_false_iff in Hs. subst b. exact (proj1 Sb eq_refl Co).
  Qed.
End Proofs.

(** Missing for C43: rules without a bound output (verify raises), and objects
    called more than once in a run (their calls are conflated, see C34). *)
Theorem C43_verify_partial :
  forall (P C : Type) (peqb : P -> P -> bool) (ceqb : C -> C -> bool),
    (forall a b, peqb a b = true <-> a = b) -> (forall a b, ceqb a b = true <-> a = b) ->
  forall (d : design P C) xd ud okout dflt nin nout aos ios ru fi,
    local d -> proper_forms d -> rule_for d ru fi -> boxes d okout dflt nin nout fi aos ios ->
    NoDup aos -> NoDup ios -> (exists q ap, In (Some q, ap) (r_out ru)) ->
  forall v0 sat_or, ok_vals d xd ud okout v0 -> sat_ok d xd ud okout sat_or ->
  exists res, verify peqb ceqb d ru v0 sat_or = Ok res /\
    (res = None <-> forall F x u, ok_fun okout F -> ok_in xd ud x u -> agrees d ru fi F x u) /\
    (forall ix au, res = Some (ix, au) ->
       map fst ix = ir_paths ru /\ map fst au = arch_paths ru /\
       forall x u, (forall p z, In (p, z) ix -> x p = z) -> (forall p z, In (p, z) au -> u p = z) ->
         exists F, ok_fun okout F /\ ~ agrees d ru fi F x u).
Proof. intros. now apply (verify_spec peqb ceqb H H0 d xd ud okout dflt nin nout aos ios ru fi). Qed.

(** A rule that leaves out a leaf or binds an IR input twice, or names an
    unknown output, is rejected. *)
Theorem C43_incomplete :
  forall (P C : Type) (peqb : P -> P -> bool) (ceqb : C -> C -> bool) (d : design P C) ru v0 sat_or,
    (forall a b, peqb a b = true <-> a = b) -> NoDup (d_ir_in d) ->
    (~ (NoDup (ir_paths ru) /\ forall p, In p (ir_paths ru) <-> In p (d_ir_in d)) ->
       verify peqb ceqb d ru v0 sat_or = Err AssertionError) /\
    ((forall f, In f (d_forms d) -> exists p, ~ (In p (map snd (r_in ru)) <-> In p f)) ->
       verify peqb ceqb d ru v0 sat_or = Err AssertionError) /\
    (forall q ap, In (Some q, ap) (r_out ru) -> ~ (In q (d_ir_out d) /\ In ap (d_arch_out d)) ->
       exists e, verify peqb ceqb d ru v0 sat_or = Err e).
Proof.
  intros P C peqb ceqb d ru v0 sat_or Hp Nin. unfold verify. split; [|split].
  - intros H. destruct (same_paths peqb (ir_paths ru) (d_ir_in d)) eqn:E; [|reflexivity]. exfalso. apply H.
    pose proof (same_paths_In peqb Hp _ _ E) as I. split; [|exact I].
    unfold same_paths in E. rewrite !andb_true_iff, Nat.eqb_eq in E. destruct E as [[E _] _].
    apply (NoDup_incl_NoDup (l := d_ir_in d)); [exact Nin|rewrite E; apply le_n|]. intros p J. now apply I.
  - intros H. destruct (negb _); [reflexivity|].
    destruct (find_form peqb d ru) as [fi|] eqn:E; [|reflexivity]. exfalso.
    unfold find_form in E. apply find_some in E as [I E]. apply in_seq in I.
    destruct (H (nth fi (d_forms d) [])) as (p & Np); [apply nth_In; lia|].
    apply Np. now apply (same_paths_In peqb Hp).
  - intros q ap I Nk. destruct (negb _); [eauto|]. destruct (find_form peqb d ru) as [fi|]; [|eauto].
    destruct (outputs_known peqb d ru) eqn:K; [|cbn [negb]; eauto]. exfalso. apply Nk.
    unfold outputs_known in K. rewrite forallb_forall in K. specialize (K _ I). cbn [fst snd] in K.
    apply andb_true_iff in K as [K1 K2]. split; now apply (vmem_In peqb Hp).
Qed.

(** A rule whose outputs are all unbound makes [And([])]. *)
Definition no_box : design nat unit :=
  {| d_ir_in := [0%nat]; d_ir_out := [0%nat]; d_forms := [[0%nat; 1%nat]]; d_arch_out := [0%nat];
     d_ir := fun x => Ret (fun _ => x 0%nat + 1);
     d_arch := fun _ l => Ret (fun _ => l 0%nat + l 1%nat);
     d_cls := fun _ => tt; d_aobjs := []; d_iobjs := [] |}.
Definition unboxed_ok : unit -> list Z -> Prop := fun _ l => l = [0].

Lemma no_box_boxes : boxes no_box unboxed_ok (fun _ => [0]) (fun _ => 1%nat) (fun _ => 1%nat) 0 [] [].
Proof. intros x l. unfold unboxed_ok. repeat split; auto; try lia; cbn; try (now repeat constructor); intros; subst; try easy. Qed.
Lemma no_box_local : local no_box.
Proof.
  split.
  - intros x x' H. cbn in *. rewrite (H 0%nat); [reflexivity|now left].
  - intros fi l l' L H. cbn in *. destruct fi as [|fi]; [|lia].
    rewrite (H 0%nat), (H 1%nat); [reflexivity|right; now left|now left].
Qed.
Lemma no_box_forms : proper_forms no_box.
Proof.
  split; [repeat constructor; easy|]. split.
  - cbn. intros f [<-|[]]. repeat constructor; cbn; intuition congruence.
  - cbn. intros i j Li Lj _. lia.
Qed.

Definition one_rule (out : option nat) : rule nat :=
  {| r_form := 0%nat; r_in := [(SPath 0%nat, 0%nat); (SVal 1, 1%nat)]; r_out := [(out, 0%nat)] |}.
Lemma one_rule_for out : (out = None \/ out = Some 0%nat) -> rule_for no_box (one_rule out) 0.
Proof.
  intros Ho. split; [cbn; lia|]. split; [repeat constructor; cbn; intuition congruence|].
  split; [repeat constructor; cbn; intuition congruence|]. split; [cbn; tauto|]. split; [cbn; tauto|].
  cbn. intros q ap [[= -> <-]|[]]. destruct Ho as [|[= ->]]; [discriminate|]. auto.
Qed.

(** A solver for one variable. *)
Definition dom0 (l : list Z) (p : nat) : list Z := match p with O => l | _ => [0] end.
Definition val0 (z : Z) : vals nat := {| v_x := fun p => match p with O => z | _ => 0 end; v_u := fun _ => 0; v_outs := fun _ => [0] |}.
Definition try_all (l : list Z) (f : vals nat -> bool) : option (vals nat) := find f (map val0 l).
Lemma try_all_ok l : sat_ok no_box (dom0 l) (fun _ => [0]) unboxed_ok (try_all l).
Proof.
  intros f X. unfold try_all. destruct (find f (map val0 l)) as [v|] eqn:E.
  - apply find_some in E as [I E]. apply in_map_iff in I as (z & <- & I). split; [|exact E].
    split; [split|]; cbn; intros p; try reflexivity; [destruct p; cbn; auto|auto].
  - intros v [[Ox Ou] Oo]. rewrite (X v (val0 (v_x v 0%nat))).
    + apply (find_none _ _ E). apply in_map. exact (Ox 0%nat).
    + split; [|split]; cbn; intros p.
      * destruct p; [reflexivity|]. destruct (Ox (S p)) as [->|[]]. reflexivity.
      * destruct (Ou p) as [->|[]]. reflexivity.
      * exact (Oo p).
Qed.
Lemma val0_ok l z : In z l -> ok_vals no_box (dom0 l) (fun _ => [0]) unboxed_ok (val0 z).
Proof. intros I. split; [split|]; cbn; intros p; try reflexivity; [destruct p; cbn; auto|auto]. Qed.

Theorem C43_full_refuted : ~ C43_full.
Proof.
  intros H.
  destruct (H nat unit Nat.eqb (fun _ _ => true) Nat.eqb_eq ltac:(intros [] []; easy) no_box (dom0 [0]) (fun _ => [0])
    unboxed_ok (fun _ => [0]) (fun _ => 1%nat) (fun _ => 1%nat) [] [] (one_rule None) 0%nat
    no_box_local no_box_forms (one_rule_for None (or_introl eq_refl)) no_box_boxes
    (val0 0) (try_all [0]) (val0_ok [0] 0 (or_introl eq_refl)) (try_all_ok [0]))
    as (r & E & _).
  vm_compute in E. discriminate.
Qed.

(** x + 1 against l0 + l1: with the constant 1 the rule verifies; with the
    constant 3 a counterexample is found. *)
Example C43_case :
  let ru := one_rule (Some 0%nat) in
  let bad := {| r_form := 0%nat; r_in := [(SPath 0%nat, 0%nat); (SVal 3, 1%nat)]; r_out := [(Some 0%nat, 0%nat)] |} in
  local no_box /\ proper_forms no_box /\ rule_for no_box ru 0 /\
  boxes no_box unboxed_ok (fun _ => [0]) (fun _ => 1%nat) (fun _ => 1%nat) 0 [] [] /\
  sat_ok no_box (dom0 [5; 6; 7]) (fun _ => [0]) unboxed_ok (try_all [5; 6; 7]) /\
  ok_vals no_box (dom0 [5; 6; 7]) (fun _ => [0]) unboxed_ok (val0 5) /\
  verify Nat.eqb (fun _ _ => true) no_box ru (val0 5) (try_all [5; 6; 7]) = Ok None /\
  verify Nat.eqb (fun _ _ => true) no_box bad (val0 5) (try_all [5; 6; 7]) = Ok (Some ([(0%nat, 5)], [])).
Proof.
  cbv zeta. split; [exact no_box_local|]. split; [exact no_box_forms|]. split; [apply one_rule_for; auto|].
  split; [exact no_box_boxes|]. split; [apply try_all_ok|]. split; [apply val0_ok; cbn; auto|]. split; reflexivity.
Qed.

(** With black boxes: one of the architecture, one of the IR, same class. *)
Definition boxed : design nat unit :=
  {| d_ir_in := [0%nat]; d_ir_out := [0%nat]; d_forms := [[0%nat; 1%nat]]; d_arch_out := [0%nat];
     d_ir := fun x => Call 1 [x 0%nat] (fun o => Ret (fun _ => hd 0 o + 1));
     d_arch := fun _ l => Call 0 [l 0%nat] (fun o => Ret (fun _ => hd 0 o + l 1%nat));
     d_cls := fun _ => tt; d_aobjs := [0%nat]; d_iobjs := [1%nat] |}.
Example C43_box_case :
  let ru := one_rule (Some 0%nat) in
  local boxed /\ proper_forms boxed /\ rule_for boxed ru 0 /\
  boxes boxed (fun _ l => length l = 1%nat) (fun _ => [0]) (fun _ => 1%nat) (fun _ => 1%nat) 0 [0%nat] [1%nat] /\
  formula Nat.eqb (fun _ _ => true) boxed ru 0 {| v_x := fun _ => 4; v_u := fun _ => 0; v_outs := fun _ => [9] |} = Ok true /\
  formula Nat.eqb (fun _ _ => true) boxed ru 0 {| v_x := fun _ => 4; v_u := fun _ => 0; v_outs := fun o => [Z.of_nat o] |} = Ok true.
Proof.
  cbv zeta. split; [|split; [|split; [|split]]]; [| | | |split; reflexivity].
  - split.
    + intros x x' H. cbn in *. rewrite (H 0%nat); [reflexivity|now left].
    + intros fi l l' L H. cbn in *. destruct fi as [|fi]; [|lia].
      rewrite (H 0%nat), (H 1%nat); [reflexivity|right; now left|now left].
  - exact no_box_forms.
  - exact (one_rule_for (Some 0%nat) (or_intror eq_refl)).
  - intros x l. repeat split; auto; try lia; try (now repeat constructor); intros; cbn in *; intuition; subst; discriminate.
Qed.

(** ** Rules from the synthesis loop verify *)
Section Plain.
  Context {P T : Type} (peqb : P -> P -> bool).
  (** Values of the leaves as a dictionary, [dv] elsewhere. *)
  Definition tab (dv : P -> Z) (l : list (P * Z)) (p : P) : Z := match dget peqb l p with Some z => z | None => dv p end.
  (** The design of an architecture and an instruction of MapModel, without
      black boxes; the objects see the leaves of the form, resp. of the input. *)
  Definition plain (a : arch P T) (i : instr P T) (fs : nat -> (P -> Z) -> P -> Z) (dv dx : P -> Z) : design P unit :=
    {| d_ir_in := map fst (i_in i); d_ir_out := map fst (i_out i);
       d_forms := map fst (a_forms a); d_arch_out := map fst (a_out a);
       d_ir := fun x => Ret (i_sem i (tab dx (map (fun p => (p, x p)) (map fst (i_in i)))));
       d_arch := fun fi l => Ret (fs fi (tab dv (map (fun p => (p, l p)) (nth fi (map fst (a_forms a)) []))));
       d_cls := fun _ => tt; d_aobjs := []; d_iobjs := [] |}.
End Plain.

Section PlainProofs.
  Context {P T : Type} (peqb : P -> P -> bool) (isconst : T -> bool) (td : T -> list Z).
  Hypothesis Hp : forall a b, peqb a b = true <-> a = b.

  Lemma tab_in dv (x : P -> Z) l p : In p l -> tab peqb dv (map (fun p => (p, x p)) l) p = x p.
  Proof.
    intros I. unfold tab. induction l as [|q l IH]; [destruct I|]. cbn [map dget].
    destruct (peqb p q) eqn:E; [apply Hp in E; now subst|]. destruct I as [->|I]; [|auto].
    rewrite (proj2 (Hp p p) eq_refl) in E. discriminate.
  Qed.
  Lemma tab_out dv (x : P -> Z) l p : ~ In p l -> tab peqb dv (map (fun p => (p, x p)) l) p = dv p.
  Proof.
    intros I. unfold tab. induction l as [|q l IH]; [reflexivity|]. cbn [map dget].
    destruct (peqb p q) eqn:E; [apply Hp in E; subst; destruct I; now left|]. apply IH. intros J. apply I. now right.
  Qed.

  Lemma shape_snd (rin : list (src P * P)) : map snd (shape rin) = map snd rin.
  Proof. unfold shape. rewrite map_map. apply map_ext. reflexivity. Qed.
  Lemma uses_ir (ru : rule P) p : uses peqb (shape (r_in ru)) p = length (filter (peqb p) (ir_paths ru)).
  Proof.
    unfold uses, ir_paths, shape. induction (r_in ru) as [|[s q] r IH]; [reflexivity|].
    cbn [map filter flat_map fst snd]. destruct s; cbn [filter app]; auto.
    destruct (peqb p p0); cbn [length]; auto.
  Qed.
  Lemma once_NoDup (l : list P) : (forall p, In p l -> length (filter (peqb p) l) = 1%nat) -> NoDup l.
  Proof.
    induction l as [|q l IH]; intros H; [constructor|].
    assert (Nq : ~ In q l).
    { intros I. specialize (H q (or_introl eq_refl)). cbn [filter] in H. rewrite (proj2 (Hp q q) eq_refl) in H.
      cbn [length] in H. injection H as H. apply length_zero_iff_nil in H.
      assert (J : In q (filter (peqb q) l)) by (apply filter_In; split; [exact I|now apply Hp]). rewrite H in J. destruct J. }
    constructor; [exact Nq|]. apply IH. intros p I. specialize (H p (or_intror I)). cbn [filter] in H.
    destruct (peqb p q) eqn:E; [apply Hp in E; subst; contradiction|exact H].
  Qed.

  Variables (a : arch P T) (i : instr P T) (fs : nat -> (P -> Z) -> P -> Z) (fv : nat -> (P -> Z) -> bool) (ru : rule P).
  Hypotheses (Ha : arch_ok isconst a fs fv) (Hi : instr_ok i).
  Hypotheses (W : well_formed peqb isconst a i ru).

  Lemma well_formed_rule_for dv dx : rule_for (plain peqb a i fs dv dx) ru (r_form ru).
  Proof.
    destruct W as (f & Ef & (Pin & Tin & Uin) & (Pout & Tout & Uout) & _ & _).
    assert (Nf : nth (r_form ru) (map fst (a_forms a)) [] = fst f).
    { apply nth_error_nth. now apply map_nth_error. }
    assert (Ns : NoDup (map fst (filter (fun e => pmem peqb (fst e) (fst f)) (a_in a)))).
    { pose proof (MapProofs.ok_in _ _ _ _ Ha) as N. clear - N. induction (a_in a) as [|e l IH]; [constructor|].
      cbn [map] in N. inversion N as [|? ? N1 N2]; subst. cbn [filter]. destruct (pmem peqb (fst e) (fst f)); auto.
      cbn [map]. constructor; auto. intros I. apply N1. apply in_map_iff in I as (e' & E & I). apply filter_In in I as [I _].
      rewrite <- E. now apply in_map. }
    rewrite shape_snd in Pin.
    assert (Ir : forall p, In p (ir_paths ru) <-> In p (map fst (i_in i))).
    { intros p. split.
      - intros I. unfold ir_paths in I. apply in_flat_map in I as ([s q] & I & J). destruct s as [p'| |]; cbn in J; try contradiction.
        destruct J as [->|[]]. destruct (Tin p q) as (t & It & _); [|exact (in_map fst _ _ It)].
        unfold shape. apply in_map_iff. exists (SPath p, q). auto.
      - intros I. apply in_map_iff in I as ([p' t] & E & I). cbn [fst] in E. subst p'. specialize (Uin p t I).
        rewrite uses_ir in Uin. destruct (filter (peqb p) (ir_paths ru)) as [|q l] eqn:F; [discriminate|].
        assert (J : In q (filter (peqb p) (ir_paths ru))) by (rewrite F; now left).
        apply filter_In in J as [J E]. apply Hp in E. now subst. }
    split; [|split; [|split; [|split; [|split]]]]; cbn [plain d_forms d_ir_in d_ir_out d_arch_out].
    - rewrite map_length. eapply nth_error_lt; eauto.
    - rewrite Pin. exact Ns.
    - apply once_NoDup. intros p I. apply Ir in I. apply in_map_iff in I as ([p' t] & E & I). cbn [fst] in E. subst p'.
      rewrite <- uses_ir. eauto.
    - intros p. rewrite Nf, Pin. split.
      + intros I. apply in_map_iff in I as (e & <- & I). apply filter_In in I as [_ I]. unfold pmem in I.
        apply existsb_exists in I as (q & I & E). apply Hp in E. now rewrite E.
      + intros I. pose proof (ok_leaves _ _ _ _ Ha _ _ Ef p I) as J. apply in_map_iff in J as (e & <- & J).
        apply in_map, filter_In. split; [exact J|]. unfold pmem. apply existsb_exists. exists (fst e). split; [exact I|now apply Hp].
    - exact Ir.
    - intros q ap I. destruct (Tout q ap I) as (t & I1 & I2). split; [exact (in_map fst _ _ I1)|exact (in_map fst _ _ I2)].
  Qed.

  Lemma plain_local dv dx : local (plain peqb a i fs dv dx).
  Proof.
    split; cbn [plain d_ir_in d_forms d_ir d_arch].
    - intros x x' H. do 3 f_equal. apply map_ext_in. intros p I. now rewrite H.
    - intros fi l l' _ H. do 3 f_equal. apply map_ext_in. intros p I. now rewrite H.
  Qed.

  Variables (dv dx : P -> Z).
  Hypotheses (Td : typed td (a_in a) dv) (Tx : typed td (i_in i) dx).
  Hypothesis Co : correct td a i fs ru.
  Hypothesis Vc : valid_consts td a fv ru.

  Lemma plain_agrees F x u : ok_in (path_dom peqb td (i_in i)) (path_dom peqb td (a_in a)) x u ->
    agrees (plain peqb a i fs dv dx) ru (r_form ru) F x u.
  Proof.
    intros [Ox Ou] l G q ap I. cbn [plain d_ir d_arch fun_run].
    destruct W as (f & Ef & (Pin & Tin & Uin) & (Pout & Tout & Uout) & _ & _).
    assert (Nf : nth (r_form ru) (map fst (a_forms a)) [] = fst f).
    { apply nth_error_nth. now apply map_nth_error. }
    destruct (well_formed_rule_for dv dx) as (_ & Nl & _ & El & Ex & _). cbn [plain d_ir_in d_forms] in El, Ex.
    assert (Dm : forall flat p t, NoDup (map fst flat) -> In (p, t) flat -> path_dom peqb td flat p = td t).
    { intros flat p t N J. unfold path_dom. now rewrite (dget_NoDup peqb Hp flat p t N J). }
    rewrite Nf in El |- *.
    assert (Lp : forall p, In p (map snd (r_in ru)) -> tab peqb dv (map (fun p => (p, l p)) (fst f)) p = l p).
    { intros p J. apply tab_in, El, J. }
    apply Co.
    - intros p t J. rewrite tab_in; [|exact (in_map fst _ _ J)]. specialize (Ox p).
      rewrite (Dm (i_in i) p t) in Ox; auto. exact (ok_iin _ Hi).
    - intros p t J. destruct (in_dec (fun p q : P => match peqb p q as b return peqb p q = b -> {p = q} + {p <> q} with
          | true => fun E => left (proj1 (Hp p q) E)
          | false => fun E => right (fun Q => eq_ind true (fun b => if b then True else False) Logic.I false
                (eq_trans (eq_sym (proj2 (Hp p q) Q)) E)) end eq_refl) p (fst f)) as [K|K]; [|rewrite tab_out by exact K; eauto].
      rewrite tab_in by exact K. apply El in K. apply in_map_iff in K as ([s p'] & E & K). cbn [snd] in E. subst p'.
      rewrite (G s p K). destruct s as [ip|z|].
      + destruct (Tin ip p) as (t' & I1 & I2); [unfold shape; apply in_map_iff; exists (SPath ip, p); auto|].
        assert (t' = t).
        { apply filter_In in I2 as [I2 _]. pose proof (MapProofs.ok_in _ _ _ _ Ha) as N.
          pose proof (dget_NoDup peqb Hp _ _ _ N I2) as D1. rewrite (dget_NoDup peqb Hp _ _ _ N J) in D1. congruence. }
        subst t'. specialize (Ox ip). rewrite (Dm (i_in i) ip t) in Ox; auto. exact (ok_iin _ Hi).
      + destruct Vc as (l0 & T0 & V0 & _). rewrite <- (V0 z p K). eauto.
      + specialize (Ou p). rewrite (Dm (a_in a) p t) in Ou; auto. exact (MapProofs.ok_in _ _ _ _ Ha).
    - intros s p J. assert (Jp : In p (map snd (r_in ru))) by exact (in_map snd _ _ J).
      pose proof (G s p J) as E. destruct s as [ip|z|]; auto; rewrite (Lp p Jp); auto.
      rewrite tab_in; [exact E|]. apply Ex. unfold ir_paths. apply in_flat_map. exists (SPath ip, p). split; [exact J|now left].
    - exact I.
  Qed.
End PlainProofs.


(** A correct rule verifies: a rule found for an architecture and an instruction
    without black boxes (C38 gives [well_formed], [valid_consts], [correct]) is
    never refuted by [verify]. *)
Theorem C43_correct_rules_verify :
  forall (P T : Type) (peqb : P -> P -> bool) (isconst : T -> bool) (td : T -> list Z),
    (forall a b, peqb a b = true <-> a = b) ->
  forall (a : arch P T) (i : instr P T) fs fv ru, arch_ok isconst a fs fv -> instr_ok i -> i_out i <> [] ->
    well_formed peqb isconst a i ru -> valid_consts td a fv ru -> correct td a i fs ru ->
  forall dv dx, typed td (a_in a) dv -> typed td (i_in i) dx ->
  let d := plain peqb a i fs dv dx in
  let xd := path_dom peqb td (i_in i) in let ud := path_dom peqb td (a_in a) in
  proper_forms d ->
  forall v0 sat_or, ok_vals d xd ud unboxed_ok v0 -> sat_ok d xd ud unboxed_ok sat_or ->
  verify peqb (fun _ _ => true) d ru v0 sat_or = Ok None.
Proof.
  intros P T peqb isconst td Hp a i fs fv ru Ha Hi No W V Co dv dx Td Tx d xd ud Pf v0 sat_or Ov Hs.
  assert (Bx : boxes d unboxed_ok (fun _ => [0]) (fun _ => 1%nat) (fun _ => 1%nat) (r_form ru) [] []).
  { intros x l. unfold unboxed_ok. repeat split; auto; try lia; cbn; try (now repeat constructor); intros; subst; try easy. }
  destruct (C43_verify_partial P unit peqb (fun _ _ => true) Hp ltac:(intros [] []; easy) d xd ud unboxed_ok (fun _ => [0])
    (fun _ => 1%nat) (fun _ => 1%nat) [] [] ru (r_form ru)) with (v0 := v0) (sat_or := sat_or) as (r & E & N & _); auto.
  - apply plain_local.
  - exact (well_formed_rule_for peqb isconst Hp a i fs fv ru Ha W dv dx).
  - constructor.
  - constructor.
  - destruct W as (f & _ & _ & (_ & _ & U) & _). destruct (i_out i) as [|[q t] l]; [congruence|].
    specialize (U q t (or_introl eq_refl)). unfold uses in U.
    destruct (filter _ (r_out ru)) as [|[q' ap] m] eqn:F; [discriminate|].
    assert (J : In (q', ap) ((q', ap) :: m)) by now left. rewrite <- F in J. apply filter_In in J as [J K].
    cbn [fst] in K. destruct q' as [q'|]; [|discriminate]. eauto.
  - rewrite E. f_equal. apply N. intros F x u _ Oi.
    exact (plain_agrees peqb isconst td Hp a i fs fv ru Ha Hi W dv dx Td Co V F x u Oi).
Qed.

(** Trying all values is a solver that meets the contract. *)
Section Brute.
  Context {P T : Type} (peqb : P -> P -> bool) (td : T -> list Z).
  Fixpoint all_on (flat : list (P * T)) : list (P -> Z) :=
    match flat with
    | [] => [fun _ => 0]
    | (p, t) :: r => flat_map (fun z => map (fun g q => if peqb q p then z else g q) (all_on r)) (td t)
    end.
  Definition brute (fx fu : list (P * T)) (f : vals P -> bool) : option (vals P) :=
    find f (flat_map (fun x => map (fun u => {| v_x := x; v_u := u; v_outs := fun _ => [0] |}) (all_on fu)) (all_on fx)).

  Lemma all_on_sound flat g : In g (all_on flat) -> forall p, In (g p) (path_dom peqb td flat p).
  Proof.
    revert g. induction flat as [|[q t] r IH]; intros g I p; cbn [all_on] in I.
    - destruct I as [<-|[]]. now left.
    - apply in_flat_map in I as (z & Iz & I). apply in_map_iff in I as (g' & <- & I'). unfold path_dom. cbn [dget].
      destruct (peqb p q); [exact Iz|exact (IH g' I' p)].
  Qed.
  Hypothesis Hp : forall a b, peqb a b = true <-> a = b.
  Lemma all_on_complete flat : NoDup (map fst flat) -> forall x, (forall p, In (x p) (path_dom peqb td flat p)) ->
    exists g, In g (all_on flat) /\ forall p, x p = g p.
  Proof.
    induction flat as [|[q t] r IH]; intros N x H.
    - exists (fun _ => 0). split; [now left|]. intros p. destruct (H p) as [<-|[]]. reflexivity.
    - inversion N as [|? ? Nq Nr]; subst. cbn [fst] in Nq.
      destruct (IH Nr (fun p => if peqb p q then 0 else x p)) as (g & Ig & Eg).
      + intros p. specialize (H p). unfold path_dom in H. cbn [dget] in H. destruct (peqb p q) eqn:E; [|exact H].
        apply Hp in E. subst p. unfold path_dom. destruct (dget peqb r q) as [t'|] eqn:D; [|now left].
        apply (dget_In peqb Hp) in D. destruct Nq. exact (in_map fst _ _ D).
      + exists (fun p => if peqb p q then x q else g p). split.
        * cbn [all_on]. apply in_flat_map. exists (x q). split.
          { specialize (H q). unfold path_dom in H. cbn [dget] in H. now rewrite (proj2 (Hp q q) eq_refl) in H. }
          apply in_map_iff. exists g. auto.
        * intros p. specialize (Eg p). cbn beta in Eg. destruct (peqb p q) eqn:E; [apply Hp in E; now subst|exact Eg].
  Qed.

  Lemma brute_ok {C} (d : design P C) fx fu : NoDup (map fst fx) -> NoDup (map fst fu) ->
    sat_ok d (path_dom peqb td fx) (path_dom peqb td fu) (fun _ l => l = [0]) (brute fx fu).
  Proof.
    intros Nx Nu f X. unfold brute. destruct (find f _) as [v|] eqn:E.
    - apply find_some in E as [I E]. split; [|exact E]. apply in_flat_map in I as (x & Ix & I).
      apply in_map_iff in I as (u & <- & Iu).
      split; [split; cbn [v_x v_u]; now apply all_on_sound|]. cbn. reflexivity.
    - intros v [[Ox Ou] Oo]. destruct (all_on_complete fx Nx _ Ox) as (x & Ix & Ex).
      destruct (all_on_complete fu Nu _ Ou) as (u & Iu & Eu).
      rewrite (X v {| v_x := x; v_u := u; v_outs := fun _ => [0] |}); [|split; [|split]; auto].
      apply (find_none _ _ E). apply in_flat_map. exists x. split; [exact Ix|]. apply in_map_iff. eauto.
  Qed.
End Brute.

(** The rule synthesised in C38's case. *)
Import Inst.
Example C43_correct_case :
  let ru := {| r_form := 0; r_in := [(SPath 11, 1); (SPath 12, 2); (SVal 0, 3)]; r_out := [(Some 21, 20)] |} in
  let d := plain Z.eqb (arch1 []) xor1 fs1 (fun _ => 0) (fun _ => 0) in
  well_formed Z.eqb snd (arch1 []) xor1 ru /\ valid_consts td (arch1 []) (fun _ _ => true) ru /\
  correct td (arch1 []) xor1 fs1 ru /\ proper_forms d /\
  sat_ok d (path_dom Z.eqb td (i_in xor1)) (path_dom Z.eqb td (a_in (arch1 []))) unboxed_ok
    (brute Z.eqb td (i_in xor1) (a_in (arch1 []))) /\
  verify Z.eqb (fun _ _ => true) d ru {| v_x := fun _ => 0; v_u := fun _ => 0; v_outs := fun _ => [0] |}
    (brute Z.eqb td (i_in xor1) (a_in (arch1 []))) = Ok None.
Proof.
  intros ru d.
  assert (W : well_formed Z.eqb snd (arch1 []) xor1 ru /\ valid_consts td (arch1 []) (fun _ _ => true) ru).
  { destruct C38_C39_case as ((y & phi & B & Sol) & _ & A & I & S & L & _ & R).
    destruct (C38_expanded_partial _ _ Z.eqb teqb snd eqs_ok td tagd OneHot _ _ _ _ A I y phi [] r1 B S (Sol []) L)
      as (ru' & R' & W & V & _).
    rewrite R in R'. injection R' as <-. auto. }
  destruct W as [W V]. split; [exact W|]. split; [exact V|]. split; [exact C38_case_correct|].
  assert (Pf : proper_forms d).
  { split; [repeat constructor; cbn; intuition lia|]. split.
    - cbn. intros f [<-|[<-|[]]]; repeat constructor; cbn; intuition lia.
    - intros [|[|i]] [|[|j]] Li Lj H; cbn in Li, Lj; try lia; exfalso; cbn in H.
      + destruct (H 3) as [H3 _]. destruct H3 as [|[|[|[]]]]; auto; lia.
      + destruct (H 4) as [H4 _]. destruct H4 as [|[|[|[]]]]; auto; lia. }
  split; [exact Pf|]. split.
  - apply brute_ok; [exact Z.eqb_eq|repeat constructor; cbn; intuition lia..].
  - vm_compute. reflexivity.
Qed.

Print Assumptions C43_verify_partial.
Print Assumptions C43_incomplete.
Print Assumptions C43_full_refuted.
Print Assumptions C43_correct_rules_verify.
