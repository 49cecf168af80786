(** C95: a class whose [__call__] sets every attribute before it reads it computes a
    function of its inputs, in Python and on words, so the mapper finds for it what is
    right for objects in any state. *)
From Coq Require Import String ZArith List Bool Lia.
From Verif Require Import Base BaseLemmas BindModel MapIdxModel MapIdxProps BindProps MapModel MapProofs MapMain MapProps MapIff MapIffProps MapDirect
  MapDirectProps MapConst MapConstProps
  AsmModel AsmSpec AsmValid AsmEnum AsmBuild AsmProofs AsmSub AsmCheck AsmMore AsmProps AadtModel AadtProofs FormModel FormProofs FormMain FormProps
  AdtArchModel AdtArchProofs AdtArchMain AdtArchProps StateMapModel StateMapProofs StateMapProps SrcMapModel SrcMapProps.
From Verif Require FamProgModel FamProgProofs FamProgProps.
Import ListNotations.
Open Scope string_scope.
Open Scope list_scope.
Open Scope Z_scope.

(** ** The condition on the source *)
Definition mem (r : string) (A : list string) : bool := existsb (String.eqb r) A.
(** The expression reads attributes of [A] only. *)
Fixpoint set_e (A : list string) (e : FamProgModel.expr) {struct e} : bool :=
  match e with
  | FamProgModel.EVar _ | FamProgModel.ELit _ _ => true
  | FamProgModel.EAttr r => mem r A
  | FamProgModel.EGet _ e _ | FamProgModel.EMatch _ e _ | FamProgModel.EValue _ e _ | FamProgModel.EInj _ _ e
  | FamProgModel.EEqC e _ | FamProgModel.EInv e | FamProgModel.ENot e => set_e A e
  | FamProgModel.EMake _ es | FamProgModel.EOp _ es => set_es A es
  | FamProgModel.EEq a b | FamProgModel.EAnd a b | FamProgModel.EOr a b => set_e A a && set_e A b
  | FamProgModel.EIte a b c | FamProgModel.ECond a b c => set_e A a && set_e A b && set_e A c
  end
with set_es (A : list string) (es : FamProgModel.exprs) {struct es} : bool :=
  match es with FamProgModel.ENil => true | FamProgModel.ECons e es' => set_e A e && set_es A es' end.
(** The attributes set for certain after the statement, or [None] if one may be read that is
    not; [A] are those set before. *)
Fixpoint set_s (A : list string) (s : FamProgModel.stmt) : option (list string) :=
  match s with
  | FamProgModel.SSkip => Some A
  | FamProgModel.SAssign _ e => if set_e A e then Some A else None
  | FamProgModel.SAttr r e => if set_e A e then Some (r :: A) else None
  | FamProgModel.SCall _ _ es | FamProgModel.SRet es => if set_es A es then Some A else None
  | FamProgModel.SIf c s1 s2 =>
      if set_e A c then
        match set_s A s1, set_s A s2 with
        | Some A1, Some A2 => Some (if FamProgModel.returns s1 then A2 else if FamProgModel.returns s2 then A1 else filter (fun r => mem r A2) A1)
        | _, _ => None
        end
      else None
  | FamProgModel.SSeq s1 s2 =>
      match set_s A s1 with Some A1 => if FamProgModel.returns s1 then Some A1 else set_s A1 s2 | None => None end
  end.
Definition sets_first (s : FamProgModel.stmt) : bool := match set_s [] s with Some _ => true | None => false end.

(** What a call returns, without the object afterwards. *)
Definition outcome {A B} (r : res (A * B)) : res A := match r with Ok p => Ok (fst p) | Err e => Err e end.
(** Components that answer the same in every state. *)
Definition stateless {V S} (call : string -> S -> list V -> res (list V * S)) : Prop :=
  forall m s s' vs, outcome (call m s vs) = outcome (call m s' vs).

Lemma mem_In r A : mem r A = true <-> In r A.
Proof. unfold mem. rewrite existsb_exists. split; [intros (x & I & E); apply String.eqb_eq in E as ->; auto|intros I; exists r; split; auto; apply String.eqb_refl]. Qed.
Definition agree {V} (A : list string) (e1 e2 : FamProgModel.env V) : Prop :=
  forall r, In r A -> exists v, FamProgModel.get e1 r = Some v /\ FamProgModel.get e2 r = Some v.
Lemma agree_nil {V} (e1 e2 : FamProgModel.env V) : agree [] e1 e2.
Proof. intros r []. Qed.
Lemma agree_set {V} A (e1 e2 : FamProgModel.env V) r v : agree A e1 e2 -> agree (r :: A) (FamProgModel.set e1 r v) (FamProgModel.set e2 r v).
Proof.
  intros H x I. rewrite !FamProgProofs.get_set. destruct (String.eqb x r) eqn:E; [eauto|]. destruct I as [->|I]; [rewrite String.eqb_refl in E; discriminate|auto].
Qed.
Lemma agree_incl {V} A B (e1 e2 : FamProgModel.env V) : agree A e1 e2 -> (forall r, In r B -> In r A) -> agree B e1 e2.
Proof. intros H I r X. auto. Qed.

Ltac ands := repeat match goal with H : _ && _ = true |- _ => apply andb_true_iff in H as [? ?] end.

(** ** Python *)
Section Python.
  Variables (match_bool eq_bool : bool).
  Context {Sp : Type}.
  Variable pcall : string -> Sp -> list AsmModel.val -> res (list AsmModel.val * Sp).
  Hypothesis Free : stateless pcall.
  Notation peval := (FamProgModel.peval match_bool eq_bool).
  Notation pevals := (FamProgModel.pevals match_bool eq_bool).
  Notation pexec := (FamProgModel.pexec match_bool eq_bool pcall).

  Lemma peval_same A ev at1 at2 : agree A at1 at2 -> forall e, set_e A e = true -> peval ev at1 e = peval ev at2 e.
  Proof.
    intros Ag. apply (FamProgProofs.expr_mut (fun e => set_e A e = true -> peval ev at1 e = peval ev at2 e) (fun es => set_es A es = true -> pevals ev at1 es = pevals ev at2 es));
      intros; cbn [set_e set_es FamProgModel.peval FamProgModel.pevals] in *; fold set_e set_es (FamProgModel.peval match_bool eq_bool) (FamProgModel.pevals match_bool eq_bool) in *; ands; try reflexivity;
      try (apply mem_In in H as Im; destruct (Ag _ Im) as (v & E1 & E2); unfold FamProgModel.getE; rewrite E1, E2; reflexivity);
      repeat match goal with H : ?a = true -> _ = _, H' : ?a = true |- _ => specialize (H H'); rewrite H end; reflexivity.
  Qed.
  Lemma pevals_same A ev at1 at2 : agree A at1 at2 -> forall es, set_es A es = true -> pevals ev at1 es = pevals ev at2 es.
  Proof.
    intros Ag. induction es as [|e es IH]; intros H; [reflexivity|]. cbn [set_es FamProgModel.pevals] in *. fold set_e (FamProgModel.peval match_bool eq_bool) in *. ands.
    rewrite (peval_same A ev at1 at2 Ag e) by auto. rewrite IH by auto. reflexivity.
  Qed.
  Lemma pexec_same s : forall A A' ev at1 at2 c1 c2, set_s A s = Some A' -> agree A at1 at2 ->
    match pexec s (ev, at1, c1), pexec s (ev, at2, c2) with
    | Ok ((e1, b1, _), r1), Ok ((e2, b2, _), r2) => e1 = e2 /\ r1 = r2 /\ (r1 = None -> agree A' b1 b2)
    | Err x, Err y => x = y
    | _, _ => False
    end.
  Proof.
    induction s as [|x e|r0 e|xs mth es|c s1 IH1 s2 IH2|s1 IH1 s2 IH2|es]; intros A A' ev at1 at2 c1 c2 St Ag; cbn [set_s FamProgModel.pexec] in *.
    - injection St as <-. auto.
    - destruct (set_e A e) eqn:Se; [|discriminate]. injection St as <-. rewrite (peval_same A ev at1 at2 Ag e Se). destruct (peval ev at2 e); cbn [bind]; auto.
    - destruct (set_e A e) eqn:Se; [|discriminate]. injection St as <-. rewrite (peval_same A ev at1 at2 Ag e Se). destruct (peval ev at2 e) as [p|]; cbn [bind]; auto.
      destruct (FamProgModel.adt_of p) as [v|]; cbn [bind]; auto. split; auto. split; auto. intros _. apply agree_set. exact Ag.
    - destruct (set_es A es) eqn:Se; [|discriminate]. injection St as <-. rewrite (pevals_same A ev at1 at2 Ag es Se). destruct (pevals ev at2 es) as [ps|]; cbn [bind]; auto.
      destruct (mapM FamProgModel.adt_of ps) as [vs|]; cbn [bind]; auto. pose proof (Free mth c1 c2 vs) as F. unfold outcome in F.
      destruct (pcall mth c1 vs) as [[rs d1]|], (pcall mth c2 vs) as [[rs' d2]|]; try discriminate F; cbn [bind] in *; [|injection F; auto]. injection F as ->.
      destruct (FamProgModel.bind_all ev xs (map FamProgModel.PV rs')); cbn [bind]; auto.
    - destruct (set_e A c) eqn:Se; [|discriminate]. destruct (set_s A s1) as [A1|] eqn:E1; [|discriminate]. destruct (set_s A s2) as [A2|] eqn:E2; [|discriminate]. injection St as <-.
      rewrite (peval_same A ev at1 at2 Ag c Se). destruct (peval ev at2 c) as [p|]; cbn [bind]; auto. destruct (FamProgModel.truth p) as [[|]|]; cbn [bind]; auto.
      + specialize (IH1 A A1 ev at1 at2 c1 c2 E1 Ag). destruct (pexec s1 (ev, at1, c1)) as [[[[e1 b1] d1] r1]|] eqn:X1, (pexec s1 (ev, at2, c2)) as [[[[e2 b2] d2] r2]|] eqn:X2; auto.
        destruct IH1 as (-> & -> & G). split; auto. split; auto. intros ->. destruct (FamProgModel.returns s1) eqn:R1; [destruct (FamProgProofs.pexec_returns _ _ _ _ _ _ _ R1 X1); reflexivity|].
        destruct (FamProgModel.returns s2); auto. apply (agree_incl A1); auto. intros r I. apply filter_In in I. apply I.
      + specialize (IH2 A A2 ev at1 at2 c1 c2 E2 Ag). destruct (pexec s2 (ev, at1, c1)) as [[[[e1 b1] d1] r1]|] eqn:X1, (pexec s2 (ev, at2, c2)) as [[[[e2 b2] d2] r2]|] eqn:X2; auto.
        destruct IH2 as (-> & -> & G). split; auto. split; auto. intros ->. destruct (FamProgModel.returns s1); auto.
        destruct (FamProgModel.returns s2) eqn:R2; [destruct (FamProgProofs.pexec_returns _ _ _ _ _ _ _ R2 X1); reflexivity|].
        apply (agree_incl A2); auto. intros r I. apply filter_In in I as [_ I]. apply mem_In. exact I.
    - destruct (set_s A s1) as [A1|] eqn:E1; [|discriminate]. specialize (IH1 A A1 ev at1 at2 c1 c2 E1 Ag).
      destruct (pexec s1 (ev, at1, c1)) as [[[[e1 b1] d1] r1]|] eqn:X1, (pexec s1 (ev, at2, c2)) as [[[[e2 b2] d2] r2]|] eqn:X2; cbn [bind]; auto; try contradiction.
      destruct IH1 as (-> & -> & G). destruct r2 as [vs|]; [split; auto; split; auto; discriminate|].
      destruct (FamProgModel.returns s1) eqn:R1; [destruct (FamProgProofs.pexec_returns _ _ _ _ _ _ _ R1 X1); reflexivity|]. apply (IH2 A1 A'); auto.
    - destruct (set_es A es) eqn:Se; [|discriminate]. injection St as <-. rewrite (pevals_same A ev at1 at2 Ag es Se). destruct (pevals ev at2 es); cbn [bind]; auto.
  Qed.

  (** Two objects of the class, whatever their attributes and components hold, answer the same
      to the same arguments, errors included. *)
  Theorem C95_python c o o' args : sets_first (FamProgModel.c_body c) = true ->
    outcome (FamProgModel.py_call match_bool eq_bool pcall c o args) = outcome (FamProgModel.py_call match_bool eq_bool pcall c o' args).
  Proof.
    intros St. unfold sets_first in St. destruct (set_s [] (FamProgModel.c_body c)) as [A|] eqn:E; [|discriminate]. unfold FamProgModel.py_call.
    destruct (FamProgModel.bind_all [] (map fst (FamProgModel.c_params c)) (map FamProgModel.PV args)) as [ev|]; cbn [bind]; auto.
    pose proof (pexec_same _ [] A ev (fst o) (fst o') (snd o) (snd o') E (agree_nil _ _)) as H.
    destruct (pexec (FamProgModel.c_body c) (ev, fst o, snd o)) as [[[[e1 b1] d1] r1]|], (pexec (FamProgModel.c_body c) (ev, fst o', snd o')) as [[[[e2 b2] d2] r2]|]; cbn [bind]; try contradiction.
    - destruct H as (_ & -> & _). destruct r2; reflexivity.
    - rewrite H. reflexivity.
  Qed.
End Python.

(** ** Words *)
Lemma x_ite_get c (X1 X2 X : FamProgModel.env FamProgModel.xval) r a b : FamProgModel.phi c X1 X2 = Ok X -> FamProgModel.get X1 r = Some a -> FamProgModel.get X2 r = Some b ->
  exists v, FamProgModel.x_ite c a b = Ok v /\ FamProgModel.get X r = Some v.
Proof.
  unfold FamProgModel.phi. intros E Ga Gb. assert (In r (FamProgModel.names X1 X2)) as I by (unfold FamProgModel.names; apply in_or_app; left; eapply FamProgProofs.get_In; eauto).
  revert X E. induction (FamProgModel.names X1 X2) as [|x ns IH]; intros X E; [destruct I|]. cbn [mapM] in E.
  destruct (match FamProgModel.get X1 x with Some _ => _ | None => _ end) as [p|] eqn:Ep; [|discriminate]. cbn [bind] in E.
  match type of E with context [mapM ?f ns] => destruct (mapM f ns) as [X'|] eqn:EX; [|discriminate] end. cbn [bind] in E. injection E as <-.
  assert (fst p = x) as Fp.
  { clear - Ep. destruct (FamProgModel.get X1 x) as [a|], (FamProgModel.get X2 x) as [b|]; try discriminate; [|injection Ep as <-; reflexivity|injection Ep as <-; reflexivity].
    destruct (FamProgModel.x_ite c a b); [|discriminate]. cbn [bind] in Ep. injection Ep as <-. reflexivity. }
  destruct p as [x' v]. cbn [fst] in Fp. subst x'. unfold FamProgModel.get at 1. cbn [dget]. destruct (String.eqb r x) eqn:Er.
  - apply String.eqb_eq in Er as <-. rewrite Ga, Gb in Ep. destruct (FamProgModel.x_ite c a b) as [w|]; [|discriminate]. cbn [bind] in Ep. injection Ep as <-. eauto.
  - destruct I as [->|I]; [rewrite String.eqb_refl in Er; discriminate|]. exact (IH I X' eq_refl).
Qed.

Section Words.
  Variable asmof : ty -> asm.
  Context {Sx : Type}.
  Variable xcall : string -> Sx -> list FamProgModel.xval -> res (list FamProgModel.xval * Sx).
  Hypothesis Free : stateless xcall.
  Notation xeval := (FamProgModel.xeval asmof).
  Notation xevals := (FamProgModel.xevals asmof).
  Notation xexec := (FamProgModel.xexec asmof xcall).

  Lemma xeval_same A ev at1 at2 : agree A at1 at2 -> forall e, set_e A e = true -> xeval ev at1 e = xeval ev at2 e.
  Proof.
    intros Ag. apply (FamProgProofs.expr_mut (fun e => set_e A e = true -> xeval ev at1 e = xeval ev at2 e) (fun es => set_es A es = true -> xevals ev at1 es = xevals ev at2 es));
      intros; cbn [set_e set_es FamProgModel.xeval FamProgModel.xevals] in *; fold set_e set_es (FamProgModel.xeval asmof) (FamProgModel.xevals asmof) in *; ands; try reflexivity;
      try (apply mem_In in H as Im; destruct (Ag _ Im) as (v & E1 & E2); unfold FamProgModel.getE; rewrite E1, E2; reflexivity);
      repeat match goal with H : ?a = true -> _ = _, H' : ?a = true |- _ => specialize (H H'); rewrite H end; reflexivity.
  Qed.
  Lemma xevals_same A ev at1 at2 : agree A at1 at2 -> forall es, set_es A es = true -> xevals ev at1 es = xevals ev at2 es.
  Proof.
    intros Ag. induction es as [|e es IH]; intros H; [reflexivity|]. cbn [set_es FamProgModel.xevals] in *. fold set_e (FamProgModel.xeval asmof) in *. ands.
    rewrite (xeval_same A ev at1 at2 Ag e) by auto. rewrite IH by auto. reflexivity.
  Qed.
  Lemma phi_agree c A1 A2 (X1 X2 Y1 Y2 X Y : FamProgModel.env FamProgModel.xval) : agree A1 X1 Y1 -> agree A2 X2 Y2 ->
    FamProgModel.phi c X1 X2 = Ok X -> FamProgModel.phi c Y1 Y2 = Ok Y -> agree (filter (fun r => mem r A2) A1) X Y.
  Proof.
    intros H1 H2 EX EY r I. apply filter_In in I as [I1 I2]. apply mem_In in I2. destruct (H1 r I1) as (a & Xa & Ya), (H2 r I2) as (b & Xb & Yb).
    destruct (x_ite_get c X1 X2 X r a b EX Xa Xb) as (v & Ev & Gv). destruct (x_ite_get c Y1 Y2 Y r a b EY Ya Yb) as (w & Ew & Gw). exists v. split; auto. congruence.
  Qed.
  Ltac step E := match type of E with (do _ <- ?r; _) = Ok _ => let X := fresh "X" in destruct r eqn:X; [|discriminate E]; cbn [bind] in E end.
  Lemma xexec_same s : forall A A' path ev at1 at2 c1 c2 e1 b1 d1 r1 e2 b2 d2 r2, set_s A s = Some A' -> agree A at1 at2 ->
    xexec path s (ev, at1, c1) = Ok ((e1, b1, d1), r1) -> xexec path s (ev, at2, c2) = Ok ((e2, b2, d2), r2) ->
    e1 = e2 /\ map fst r1 = map fst r2 /\ agree A' b1 b2.
  Proof.
    induction s as [|x e|r0 e|xs mth es|c s1 IH1 s2 IH2|s1 IH1 s2 IH2|es]; intros A A' path ev at1 at2 c1 c2 e1 b1 d1 r1 e2 b2 d2 r2 St Ag H1 H2; cbn [set_s FamProgModel.xexec] in *.
    - injection St as <-. injection H1 as <- <- <- <-. injection H2 as <- <- <- <-. auto.
    - destruct (set_e A e) eqn:Se; [|discriminate]. injection St as <-. rewrite (xeval_same A ev at1 at2 Ag e Se) in H1. destruct (xeval ev at2 e); [|discriminate H1]. cbn [bind] in *.
      injection H1 as <- <- <- <-. injection H2 as <- <- <- <-. auto.
    - destruct (set_e A e) eqn:Se; [|discriminate]. injection St as <-. rewrite (xeval_same A ev at1 at2 Ag e Se) in H1. destruct (xeval ev at2 e); [|discriminate H1]. cbn [bind] in *.
      injection H1 as <- <- <- <-. injection H2 as <- <- <- <-. split; auto. split; auto. apply agree_set. exact Ag.
    - destruct (set_es A es) eqn:Se; [|discriminate]. injection St as <-. rewrite (xevals_same A ev at1 at2 Ag es Se) in H1. destruct (xevals ev at2 es) as [vs|]; [|discriminate H1]. cbn [bind] in *.
      pose proof (Free mth c1 c2 vs) as F. unfold outcome in F.
      destruct (xcall mth c1 vs) as [[rs f1]|]; [|discriminate H1]. destruct (xcall mth c2 vs) as [[rs' f2]|]; [|discriminate H2]. injection F as ->. cbn [bind fst] in *.
      destruct (FamProgModel.bind_all ev xs rs'); [|discriminate H1]. cbn [bind] in *. injection H1 as <- <- <- <-. injection H2 as <- <- <- <-. auto.
    - destruct (set_e A c) eqn:Se; [|discriminate]. destruct (set_s A s1) as [A1|] eqn:E1; [|discriminate]. destruct (set_s A s2) as [A2|] eqn:E2; [|discriminate]. injection St as <-.
      rewrite (xeval_same A ev at1 at2 Ag c Se) in H1. destruct (xeval ev at2 c) as [p|]; [|discriminate H1]. cbn [bind] in *. destruct (FamProgModel.x_cond p) as [b|]; [|discriminate H1]. cbn [bind] in *.
      destruct (xexec (path && b) s1 (ev, at1, c1)) as [[[[g1 h1] i1] q1]|] eqn:X1; [|discriminate H1]. destruct (xexec (path && b) s1 (ev, at2, c2)) as [[[[g1' h1'] i1'] q1']|] eqn:X1'; [|discriminate H2]. cbn [bind] in *.
      destruct (IH1 _ _ _ _ _ _ _ _ _ _ _ _ _ _ _ _ E1 Ag X1 X1') as (<- & Q1 & G1).
      destruct (xexec (path && negb b) s2 (ev, at1, i1)) as [[[[g2 h2] i2] q2]|] eqn:X2; [|discriminate H1]. destruct (xexec (path && negb b) s2 (ev, at2, i1')) as [[[[g2' h2'] i2'] q2']|] eqn:X2'; [|discriminate H2]. cbn [bind] in *.
      destruct (IH2 _ _ _ _ _ _ _ _ _ _ _ _ _ _ _ _ E2 Ag X2 X2') as (<- & Q2 & G2).
      destruct (FamProgModel.returns s1); [injection H1 as <- <- <- <-; injection H2 as <- <- <- <-; split; [reflexivity|split; [rewrite !map_app; exact (f_equal2 (@app _) Q1 Q2)|assumption]]|].
      destruct (FamProgModel.returns s2); [injection H1 as <- <- <- <-; injection H2 as <- <- <- <-; split; [reflexivity|split; [rewrite !map_app; exact (f_equal2 (@app _) Q1 Q2)|assumption]]|].
      destruct (FamProgModel.phi b g1 g2) as [ev'|]; [|discriminate H1]. cbn [bind] in *.
      destruct (FamProgModel.phi b h1 h2) as [at'|] eqn:P1; [|discriminate H1]. destruct (FamProgModel.phi b h1' h2') as [at''|] eqn:P2; [|discriminate H2]. cbn [bind] in *.
      injection H1 as <- <- <- <-. injection H2 as <- <- <- <-. split; [reflexivity|split; [rewrite !map_app; exact (f_equal2 (@app _) Q1 Q2)|]]. eapply phi_agree; eauto.
    - destruct (set_s A s1) as [A1|] eqn:E1; [|discriminate].
      destruct (xexec path s1 (ev, at1, c1)) as [[[[g1 h1] i1] q1]|] eqn:X1; [|discriminate H1]. destruct (xexec path s1 (ev, at2, c2)) as [[[[g1' h1'] i1'] q1']|] eqn:X1'; [|discriminate H2]. cbn [bind] in *.
      destruct (IH1 _ _ _ _ _ _ _ _ _ _ _ _ _ _ _ _ E1 Ag X1 X1') as (<- & Q1 & G1).
      destruct (FamProgModel.returns s1); [injection St as <-; injection H1 as <- <- <- <-; injection H2 as <- <- <- <-; auto|].
      destruct (xexec path s2 (g1, h1, i1)) as [[[[g2 h2] i2] q2]|] eqn:X2; [|discriminate H1]. destruct (xexec path s2 (g1, h1', i1')) as [[[[g2' h2'] i2'] q2']|] eqn:X2'; [|discriminate H2]. cbn [bind] in *.
      destruct (IH2 _ _ _ _ _ _ _ _ _ _ _ _ _ _ _ _ St G1 X2 X2') as (<- & Q2 & G2). injection H1 as <- <- <- <-. injection H2 as <- <- <- <-. split; [reflexivity|split; [rewrite !map_app; exact (f_equal2 (@app _) Q1 Q2)|assumption]].
    - destruct (set_es A es) eqn:Se; [|discriminate]. injection St as <-. rewrite (xevals_same A ev at1 at2 Ag es Se) in H1. destruct (xevals ev at2 es) as [vs|]; [|discriminate H1]. cbn [bind] in *.
      injection H1 as <- <- <- <-. injection H2 as <- <- <- <-. auto.
  Qed.
  Lemma pick_same (r1 : list FamProgModel.xret) : forall r2 v1 a1 v2 a2, map fst r1 = map fst r2 -> FamProgModel.pick r1 = Ok (v1, a1) -> FamProgModel.pick r2 = Ok (v2, a2) -> v1 = v2.
  Proof.
    induction r1 as [|[[g vs] at1] r1 IH]; intros [|[[g' vs'] at2] r2] v1 a1 v2 a2 E H1 H2; try discriminate. cbn [map fst] in E. injection E as -> -> E.
    destruct r1 as [|x1 r1], r2 as [|x2 r2]; try discriminate E; cbn [FamProgModel.pick] in H1, H2.
    - congruence.
    - change (FamProgModel.pick ((g', vs', at1) :: x1 :: r1)) with (do '(vs'0, at') <- FamProgModel.pick (x1 :: r1); do ws <- FamProgModel.x_ites g' vs' vs'0; do aw <- FamProgModel.phi g' at1 at'; Ok (ws, aw)) in *.
      match type of H1 with (do _ <- ?p; _) = _ => destruct p as [[u1 t1]|] eqn:P1; [|discriminate H1] end. match type of H2 with (do _ <- ?p; _) = _ => destruct p as [[u2 t2]|] eqn:P2; [|discriminate H2] end.
      rewrite (IH (x2 :: r2) u1 t1 u2 t2 E P1 P2) in H1. cbn [bind] in *. destruct (FamProgModel.x_ites g' vs' u2); [|discriminate H1]. cbn [bind] in *.
      destruct (FamProgModel.phi g' at1 t1); [|discriminate H1]. destruct (FamProgModel.phi g' at2 t2); [|discriminate H2]. cbn [bind] in *. congruence.
  Qed.
  (** On words: two calls that return return the same. *)
  Theorem C95_words c o o' args ws p ws' p' : sets_first (FamProgModel.c_body c) = true ->
    FamProgModel.px_call asmof xcall c o args = Ok (ws, p) -> FamProgModel.px_call asmof xcall c o' args = Ok (ws', p') -> ws = ws'.
  Proof.
    intros St H1 H2. unfold sets_first in St. destruct (set_s [] (FamProgModel.c_body c)) as [A|] eqn:E; [|discriminate]. unfold FamProgModel.px_call in *.
    destruct (FamProgModel.bind_all [] (map fst (FamProgModel.c_params c)) args) as [ev|]; [|discriminate H1]. cbn [bind] in *.
    destruct (xexec true (FamProgModel.c_body c) (ev, fst o, snd o)) as [[[[g1 h1] i1] q1]|] eqn:X1; [|discriminate H1]. destruct (xexec true (FamProgModel.c_body c) (ev, fst o', snd o')) as [[[[g2 h2] i2] q2]|] eqn:X2; [|discriminate H2]. cbn [bind] in *.
    destruct (xexec_same _ _ _ _ _ _ _ _ _ _ _ _ _ _ _ _ _ E (agree_nil _ _) X1 X2) as (_ & Q & _).
    destruct (FamProgModel.pick q1) as [[v1 a1]|] eqn:P1; [|discriminate H1]. destruct (FamProgModel.pick q2) as [[v2 a2]|] eqn:P2; [|discriminate H2]. cbn [bind] in *.
    rewrite (pick_same _ _ _ _ _ _ Q P1 P2) in H1. congruence.
  Qed.
End Words.

(** A source without attributes meets the condition. *)
Lemma no_attrs_e A G e : forall t, FamProgModel.texp G [] e = Some t -> set_e A e = true.
Proof.
  revert e. apply (FamProgProofs.expr_mut (fun e => forall t, FamProgModel.texp G [] e = Some t -> set_e A e = true) (fun es => forall ts, FamProgModel.texps G [] es = Some ts -> set_es A es = true));
    intros; cbn [set_e set_es FamProgModel.texp FamProgModel.texps] in *; fold set_e set_es FamProgModel.texp FamProgModel.texps in *; try reflexivity; try discriminate;
    repeat match goal with H : context [FamProgModel.texp G [] ?e], IH : forall t, FamProgModel.texp G [] ?e = Some t -> _ |- _ => destruct (FamProgModel.texp G [] e); [specialize (IH _ eq_refl)|] end;
    repeat match goal with H : context [FamProgModel.texps G [] ?e], IH : forall t, FamProgModel.texps G [] ?e = Some t -> _ |- _ => destruct (FamProgModel.texps G [] e); [specialize (IH _ eq_refl)|] end;
    repeat match goal with H : ?x = true |- _ => rewrite H; clear H end; try reflexivity;
    try discriminate; repeat match goal with H : match ?x with _ => _ end = Some _ |- _ => destruct x; try discriminate end; auto.
Qed.
Lemma no_attrs_es A G es : forall ts, FamProgModel.texps G [] es = Some ts -> set_es A es = true.
Proof.
  induction es as [|e es IH]; intros ts H; [reflexivity|]. cbn [set_es FamProgModel.texps] in *. fold set_e FamProgModel.texp in *.
  destruct (FamProgModel.texp G [] e) eqn:E; [|discriminate]. destruct (FamProgModel.texps G [] es); [|discriminate]. rewrite (no_attrs_e A G e _ E). eauto.
Qed.
Lemma no_attrs_s csig rets strict s : forall top G A p, FamProgModel.tstmt csig [] rets strict top G s = Some p -> exists A', set_s A s = Some A'.
Proof.
  induction s as [|x e|r0 e|xs mth es|c s1 IH1 s2 IH2|s1 IH1 s2 IH2|es]; intros top G A p H; cbn [set_s FamProgModel.tstmt] in *.
  - eauto.
  - destruct (FamProgModel.texp G [] e) eqn:E; [|discriminate]. rewrite (no_attrs_e A G e _ E). eauto.
  - destruct (FamProgModel.texp G [] e) as [[]|]; discriminate.
  - destruct (top || negb strict); [|discriminate]. destruct (csig mth) as [[]|]; [|discriminate]. destruct (FamProgModel.texps G [] es) eqn:E; [|discriminate]. rewrite (no_attrs_es A G es _ E). eauto.
  - destruct (FamProgModel.texp G [] c) eqn:E; [|discriminate]. rewrite (no_attrs_e A G c _ E). destruct (FamProgModel.bitlike e); [|discriminate].
    destruct (FamProgModel.tstmt csig [] rets strict false G s1) as [[G1 m1]|] eqn:E1; [|discriminate]. destruct (FamProgModel.tstmt csig [] rets strict false G s2) as [[G2 m2]|] eqn:E2; [|discriminate].
    destruct (IH1 _ _ A _ E1) as (A1 & ->). destruct (IH2 _ _ A _ E2) as (A2 & ->). eauto.
  - destruct (FamProgModel.tstmt csig [] rets strict top G s1) as [[G1 m1]|] eqn:E1; [|discriminate]. destruct (IH1 _ _ A _ E1) as (A1 & ->).
    destruct (FamProgModel.returns s1); [eauto|]. destruct (FamProgModel.tstmt csig [] rets strict (top && negb m1) G1 s2) as [[G2 m2]|] eqn:E2; [|discriminate]. eauto.
  - destruct (FamProgModel.texps G [] es) eqn:E; [|discriminate]. rewrite (no_attrs_es A G es _ E). eauto.
Qed.
Theorem C95_no_attributes strict csig c : FamProgModel.class_ok strict csig c = true -> FamProgModel.c_attrs c = [] -> sets_first (FamProgModel.c_body c) = true.
Proof.
  intros K E. unfold FamProgModel.class_ok in K. rewrite !andb_true_iff in K. destruct K as [_ K].
  destruct (FamProgModel.bind_types [] (map fst (FamProgModel.c_params c)) (map snd (FamProgModel.c_params c))) as [G|]; [|discriminate]. rewrite E in K.
  destruct (FamProgModel.tstmt csig [] (FamProgModel.c_rets c) strict true G (FamProgModel.c_body c)) eqn:T; [|discriminate]. destruct (no_attrs_s _ _ _ _ _ _ [] _ T) as (A & EA). unfold sets_first. rewrite EA. reflexivity.
Qed.

(** ** The mapper *)
Section Class.
  Variable asmof : ty -> asm.
  Hypothesis Hasm : FamProgProps.assemblers asmof.
  Context {Sp Sx : Type}.
  Variable csig : string -> option (list ty * list ty).
  Variable pcall : string -> Sp -> list AsmModel.val -> res (list AsmModel.val * Sp).
  Variable xcall : string -> Sx -> list FamProgModel.xval -> res (list FamProgModel.xval * Sx).
  Variable Inv : Sx -> Prop.
  Variable Rc : Sp -> Sx -> Prop.
  Hypothesis Hcomp : FamProgProps.component csig pcall xcall Inv Rc.
  Hypothesis Free : stateless xcall.
  (** Objects whose attributes have their types answer the same on all words. *)
  Theorem C95_same S o o' ws : source_ok csig S -> sets_first (s_body S) = true -> FamProgProps.attrs_typed (s_attrs S) (fst o) -> Inv (snd o) ->
    FamProgProps.attrs_typed (s_attrs S) (fst o') -> Inv (snd o') -> Forall2 word_of (c_in (shape asmof S)) ws ->
    fst (src_call asmof xcall S o ws) = fst (src_call asmof xcall S o' ws).
  Proof.
    intros O St Ha Hi Ha' Hi' F. unfold src_call. apply typed_ok in F.
    destruct (FamProgProps.C78_total asmof Hasm csig pcall xcall Inv Rc Hcomp true (prog S) o (typed_words (s_in S) ws) (so_class _ _ O) Ha Hi F) as (us & p & E & _).
    destruct (FamProgProps.C78_total asmof Hasm csig pcall xcall Inv Rc Hcomp true (prog S) o' (typed_words (s_in S) ws) (so_class _ _ O) Ha' Hi' F) as (us' & p' & E' & _).
    rewrite E, E'. cbn [fst]. f_equal. exact (C95_words asmof xcall Free (prog S) o o' _ _ _ _ _ St E E').
  Qed.
  Theorem C95_history_free S o : source_ok csig S -> sets_first (s_body S) = true -> FamProgProps.attrs_typed (s_attrs S) (fst o) -> Inv (snd o) ->
    history_free (shape asmof S) (src_call asmof xcall S) o.
  Proof.
    intros O St Ha Hi n hist ws Fh _ Fw.
    assert (FamProgProps.attrs_typed (s_attrs S) (fst (fold_left (fun p h => snd (src_call asmof xcall S p h)) hist o)) /\ Inv (snd (fold_left (fun p h => snd (src_call asmof xcall S p h)) hist o))) as [Ha' Hi'].
    { clear n Fw ws. revert o Ha Hi. induction Fh as [|h hist Hh _ IH]; intros o Ha Hi; [auto|]. cbn [fold_left].
      destruct (C94_keeps asmof Hasm csig pcall xcall Inv Rc Hcomp S o h O Ha Hi Hh) as [Ha' Hi']. auto. }
    apply C95_same; auto.
  Qed.
End Class.

(** As [right_in_python], for whatever [RunC] and [RunD] may return. *)
Definition right_for (C D : pclass) (A : arch path lty) (cs : list (path * list Z)) (RunC RunD : list AsmModel.val -> list FamProgModel.pval -> Prop) : Prop :=
  exists fi f l0 (bnd obnd : path -> path),
    nth_error (a_forms A) fi = Some f /\ typed lty_vals (in_flat C) l0 /\ adt_fv C A fi l0 = true /\
    (forall p zs, In (p, zs) cs -> In p (fst f) -> In (l0 p) zs) /\
    (forall q t, In (q, t) (in_flat D) -> In (bnd q, t) (in_flat C) /\ In (bnd q) (fst f) /\ ~ In (bnd q) (map fst cs)) /\
    (forall q t q' t', In (q, t) (in_flat D) -> In (q', t') (in_flat D) -> bnd q = bnd q' -> q = q') /\
    (forall q t, In (q, t) (out_flat D) -> In (obnd q, t) (out_flat C)) /\
    (forall q t q' t', In (q, t) (out_flat D) -> In (q', t') (out_flat D) -> obnd q = obnd q' -> q = q') /\
    forall vs us l x outs outs', has_ty (in_ty C) (VProd vs) -> form_of C A fi (VProd vs) -> holds (in_ty C) (VProd vs) l -> typed lty_vals (in_flat C) l ->
      has_ty (in_ty D) (VProd us) -> holds (in_ty D) (VProd us) x ->
      (forall q t, In (q, t) (in_flat D) -> l (bnd q) = x q) ->
      (forall p t, In (p, t) (in_flat C) -> lty_const t = true -> (forall q t', In (q, t') (in_flat D) -> bnd q <> p) -> l p = l0 p) ->
      (forall p zs, In (p, zs) cs -> In (l p) zs) ->
      RunC vs outs -> RunD us outs' ->
      exists os os', outs = map FamProgModel.PV os /\ outs' = map FamProgModel.PV os' /\ same_outputs C D obnd os os'.
(** What some object of the source, in whatever state, returns. *)
Definition some_object (match_bool eq_bool : bool) {P} (pcall : string -> P -> list AsmModel.val -> res (list AsmModel.val * P)) (S : src)
    (vs : list AsmModel.val) (outs : list FamProgModel.pval) : Prop :=
  exists o o', FamProgModel.py_call match_bool eq_bool pcall (prog S) o vs = Ok (outs, o').

Lemma right_any mb eb {Pc Pd} (pcallc : string -> Pc -> list AsmModel.val -> res (list AsmModel.val * Pc)) (pcalld : string -> Pd -> list AsmModel.val -> res (list AsmModel.val * Pd))
    SC SD pc pd C D A cs : stateless pcallc -> stateless pcalld -> sets_first (s_body SC) = true -> sets_first (s_body SD) = true ->
  right_in_python C D A cs (FamProgModel.py_call mb eb pcallc (prog SC) pc) (FamProgModel.py_call mb eb pcalld (prog SD) pd) ->
  right_for C D A cs (some_object mb eb pcallc SC) (some_object mb eb pcalld SD).
Proof.
  intros Fc Fd Sc Sd (fi & f & l0 & bnd & obnd & H1 & H2 & H3 & H4 & H5 & H6 & H7 & H8 & H). exists fi, f, l0, bnd, obnd. do 8 (split; [assumption|]).
  intros vs us l x outs outs' G1 G2 G3 G4 G5 G6 G7 G8 G9 (o & o' & R1) (p & p' & R2).
  pose proof (C95_python mb eb pcallc Fc (prog SC) o pc vs Sc) as E1. rewrite R1 in E1. pose proof (C95_python mb eb pcalld Fd (prog SD) p pd us Sd) as E2. rewrite R2 in E2. cbn [outcome fst] in *.
  destruct (FamProgModel.py_call mb eb pcallc (prog SC) pc vs) as [[w1 q1]|] eqn:Q1; [|discriminate E1]. destruct (FamProgModel.py_call mb eb pcalld (prog SD) pd us) as [[w2 q2]|] eqn:Q2; [|discriminate E2].
  cbn [outcome fst] in *. injection E1 as ->. injection E2 as ->. exact (H vs us l x _ _ _ _ G1 G2 G3 G4 G5 G6 G7 G8 G9 Q1 Q2).
Qed.

(** Whatever the mapper finds for such sources, for any number of input forms, holds for all
    their objects in Python. *)
Theorem C95_correct asmof match_bool eq_bool {Pc Xc Pd Xd} sigc sigd pcallc xcallc pcalld xcalld (InvC : Xc -> Prop) (RC : Pc -> Xc -> Prop) (InvD : Xd -> Prop) (RD : Pd -> Xd -> Prop)
    SC SD pc xc pd xd k past cs A SA I :
  FamProgProps.assemblers asmof -> FamProgProps.component sigc pcallc xcallc InvC RC -> FamProgProps.component sigd pcalld xcalld InvD RD -> source_ok sigc SC -> source_ok sigd SD ->
  stateless pcallc -> stateless xcallc -> stateless pcalld -> sets_first (s_body SC) = true -> sets_first (s_body SD) = true ->
  FamProgProps.attrs_same (s_attrs SC) (fst pc) (fst xc) -> InvC (snd xc) -> RC (snd pc) (snd xc) ->
  FamProgProps.attrs_same (s_attrs SD) (fst pd) (fst xd) -> InvD (snd xd) -> RD (snd pd) (snd xd) ->
  buildable (out_ty (shape asmof SC)) -> sum_free (out_ty (shape asmof SC)) -> buildable (out_ty (shape asmof SD)) -> sum_free (out_ty (shape asmof SD)) ->
  adt_arch (on_obj (shape asmof SC) (src_call asmof xcallc SC) xc) cs = Ok A -> st_arch (shape asmof SC) (src_call asmof xcallc SC) xc past cs = Ok SA ->
  NoDup (map fst cs) -> constr_ok lty_vals A -> (exists k m, In (k, m) (c_in (shape asmof SC)) /\ const_field m = true) ->
  st_instr (shape asmof SD) (src_call asmof xcalld SD) xd false = Ok I ->
  satisfiable path_eqb lty_eqb lty_vals (tag_vals (shape asmof SC)) k SA I (build_expanded path_eqb lty_eqb lty_const k SA I) ->
  right_for (shape asmof SC) (shape asmof SD) A cs (some_object match_bool eq_bool pcallc SC) (some_object match_bool eq_bool pcalld SD).
Proof.
  intros Hasm HcC HcD OC OD Fp Fx Fd Sc Sd AC IC RCo AD ID RDo BC FC BD FD EA ESA N Hc Hk EI Sat.
  apply (right_any match_bool eq_bool pcallc pcalld SC SD pc pd); auto.
  eapply (C94_correct_partial asmof Hasm match_bool eq_bool sigc sigd pcallc xcallc pcalld xcalld InvC RC InvD RD HcC HcD SC SD OC OD pc xc pd xd); eauto.
  right. apply (C95_history_free asmof Hasm sigc pcallc xcallc InvC RC HcC Fx); auto. eapply typed_attrs; eauto.
Qed.
(** The same with the simple formula, whatever instructions were mapped before. *)
Theorem C95_correct_simple asmof match_bool eq_bool {Pc Xc Pd Xd} sigc sigd pcallc xcallc pcalld xcalld (InvC : Xc -> Prop) (RC : Pc -> Xc -> Prop) (InvD : Xd -> Prop) (RD : Pd -> Xd -> Prop)
    SC SD pc xc pd xd k past cs A SA I SI :
  FamProgProps.assemblers asmof -> FamProgProps.component sigc pcallc xcallc InvC RC -> FamProgProps.component sigd pcalld xcalld InvD RD -> source_ok sigc SC -> source_ok sigd SD ->
  stateless pcallc -> stateless xcallc -> stateless pcalld -> stateless xcalld -> sets_first (s_body SC) = true -> sets_first (s_body SD) = true ->
  FamProgProps.attrs_same (s_attrs SC) (fst pc) (fst xc) -> InvC (snd xc) -> RC (snd pc) (snd xc) ->
  FamProgProps.attrs_same (s_attrs SD) (fst pd) (fst xd) -> InvD (snd xd) -> RD (snd pd) (snd xd) ->
  buildable (out_ty (shape asmof SC)) -> sum_free (out_ty (shape asmof SC)) -> buildable (out_ty (shape asmof SD)) -> sum_free (out_ty (shape asmof SD)) ->
  adt_arch (on_obj (shape asmof SC) (src_call asmof xcallc SC) xc) cs = Ok A -> st_arch (shape asmof SC) (src_call asmof xcallc SC) xc past cs = Ok SA ->
  NoDup (map fst cs) -> constr_ok lty_vals A -> (exists k m, In (k, m) (c_in (shape asmof SC)) /\ const_field m = true) ->
  st_instr (shape asmof SD) (src_call asmof xcalld SD) xd false = Ok I -> st_instr (shape asmof SD) (src_call asmof xcalld SD) xd true = Ok SI ->
  flat_outputs (c_out (shape asmof SC)) -> flat_outputs (c_out (shape asmof SD)) -> i_out I <> [] ->
  (forall p t, In (p, t) (i_in I) -> lty_const t = false) -> in_all_forms path_eqb lty_const A ->
  satisfiable path_eqb lty_eqb lty_vals (tag_vals (shape asmof SC)) k SA SI (build_simple_adt k SA SI) ->
  right_for (shape asmof SC) (shape asmof SD) A cs (some_object match_bool eq_bool pcallc SC) (some_object match_bool eq_bool pcalld SD).
Proof.
  intros Hasm HcC HcD OC OD Fp Fx Fd Fy Sc Sd AC IC RCo AD ID RDo BC FC BD FD EA ESA N Hc Hk EI ESI FlC FlD No Nc Al Sat.
  pose proof (C94_shape asmof Hasm sigc SC OC) as KC. pose proof (C94_shape asmof Hasm sigd SD OD) as KD.
  pose proof (typed_attrs asmof Hasm _ _ _ _ OC AC) as TC. pose proof (typed_attrs asmof Hasm _ _ _ _ OD AD) as TD.
  pose proof (C94_call asmof Hasm sigc pcallc xcallc InvC RC HcC SC xc OC TC IC) as CkC.
  pose proof (C95_history_free asmof Hasm sigc pcallc xcallc InvC RC HcC Fx SC xc OC Sc TC IC) as HC.
  pose proof (C95_history_free asmof Hasm sigd pcalld xcalld InvD RD HcD Fy SD xd OD Sd TD ID) as HD.
  pose proof EI as EI'. rewrite C93_instr in EI'.
  apply (C93_history_free_simple k (shape asmof SC) (shape asmof SD) (src_call asmof xcallc SC) xc (src_call asmof xcalld SD) xd past cs A SA I SI KC KD BC FC EA ESA N Hc Hk CkC HC HD EI' ESI FlC FlD No Nc Al) in Sat.
  apply (C93_history_free k (shape asmof SC) (shape asmof SD) (src_call asmof xcallc SC) xc (src_call asmof xcalld SD) xd past cs A SA I KC KD BC FC EA ESA N Hc Hk CkC EI HC) in Sat.
  eapply (C95_correct asmof match_bool eq_bool sigc sigd pcallc xcallc pcalld xcalld InvC RC InvD RD SC SD pc xc pd xd k past cs A SA I); eauto.
Qed.

(** ** A class that keeps the bit it was given *)
Module Keep.
Import FamProgModel AdtArchProps.Case StateMapProps.Case SrcMapProps.Case.
(** [x = d[A].value if d[A].match else d[B].value]; [if k: self.s = x], else
    [self.s = ~x; self.s = ~self.s]; [return self.s]. With one input form [x = d]. *)
Definition keep_src (two : bool) : src :=
  Src (s_in (tg_src two)) (s_out (tg_src two)) (s_attrs (tg_src two))
    (SSeq (SAssign "x" (if two then ECond (EMatch dT (EVar "d") (ky "a")) (EValue dT (EVar "d") (ky "a")) (EValue dT (EVar "d") (ky "b")) else EVar "d"))
    (SSeq (SIf (EVar "k") (SAttr "s" (EVar "x")) (SSeq (SAttr "s" (EInv (EVar "x"))) (SAttr "s" (EInv (EAttr "s")))))
      (SRet (ECons (EAttr "s") ENil)))).
Definition kcall two := src_call asm0 nox (keep_src two).
Lemma keep_shape two : shape asm0 (keep_src two) = tg two.
Proof. destruct two; reflexivity. Qed.
Lemma keep_source two : source_ok nosig (keep_src two).
Proof. constructor; [destruct two; vm_compute; reflexivity|apply wf_b_spec; destruct two; vm_compute; reflexivity|apply wf_b_spec; vm_compute; reflexivity|destruct two; repeat constructor|repeat constructor]. Qed.
Lemma keep_sets two : sets_first (s_body (keep_src two)) = true.
Proof. destruct two; reflexivity. Qed.
Lemma keep_step two b ws : Forall2 word_of (c_in (tg two)) ws -> fst (kcall two (xs b) ws) = flip two false ws.
Proof.
  intros F. inversion F as [|? w ? ws1 (n & Sn & Rn) F1]; subst. inversion F1 as [|? d ? ws2 (m & Sm & Rm) F2]; subst. inversion F2; subst.
  apply (bit_range _ _ Sn) in Rn. clear F F1 F2 Sn. destruct two.
  - apply (d_range _ _ Sm) in Rm. clear Sm. destruct b, Rn as [-> | ->], Rm as [-> | [-> | [-> | ->]]]; vm_compute; reflexivity.
  - apply (bit_range _ _ Sm) in Rm. clear Sm. destruct b, Rn as [-> | ->], Rm as [-> | ->]; vm_compute; reflexivity.
Qed.
Lemma nox_free : stateless nox.
Proof. intros m [] [] vs. reflexivity. Qed.
Lemma nop_free : stateless nop.
Proof. intros m [] [] vs. reflexivity. Qed.
Lemma keep_typed b : FamProgProps.attrs_typed [("s", TBit)] (fst (xs b)).
Proof.
  intros r. unfold xs, get. cbn [fst dget]. destruct (String.eqb r "s"); auto. exists (Z.b2z b), 1. split; auto. split; [constructor|]. destruct b; cbn; lia.
Qed.
Lemma keep_free two : history_free (tg two) (kcall two) (xs false).
Proof.
  rewrite <- keep_shape. apply (C95_history_free asm0 FamProgProps.asm0_ok nosig nop nox (fun _ => True) (fun _ _ => True) FamProgProps.no_component nox_free); auto using keep_source, keep_sets.
  apply keep_typed.
Qed.
Definition A_keep (two : bool) : arch path lty := A_of (on_obj (tg two) (kcall two) (xs false)) [].
Definition SA_keep (two : bool) (past : list Z) : arch path lty :=
  match st_arch (tg two) (kcall two) (xs false) past [] with Ok A => A | Err _ => A_keep two end.
Lemma keep_arch two : adt_arch (on_obj (tg two) (kcall two) (xs false)) [] = Ok (A_keep two).
Proof. apply A_of_ok. destruct two; vm_compute; reflexivity. Qed.
Lemma keep_st two past : st_arch (tg two) (kcall two) (xs false) past [] = Ok (SA_keep two past).
Proof. unfold SA_keep, st_arch. rewrite keep_arch. reflexivity. Qed.
Lemma keep_parts two : a_forms (A_keep two) = a_forms (A_tg two) /\ a_in (A_keep two) = a_in (A_tg two) /\ a_out (A_keep two) = a_out (A_tg two) /\ a_constr (A_keep two) = a_constr (A_tg two).
Proof. destruct two; vm_compute; auto. Qed.
Lemma keep_constr two : constr_ok lty_vals (A_keep two).
Proof. intros p zs H. destruct two; vm_compute in H; destruct H. Qed.
(** The bit is found, for one form and for two; its inverse is not. *)
Lemma keep_expanded two c past k :
  satisfiable path_eqb lty_eqb lty_vals (tag_vals (tg two)) k (SA_keep two past) (I_src c) (build_expanded path_eqb lty_eqb lty_const k (SA_keep two past) (I_src c)) <-> c = false.
Proof.
  assert (forall n, after (tg two) (kcall two) (xs false) n (flip two false)) as Af.
  { intros n hist ws Fh L Fw. rewrite (keep_free two n hist ws Fh L Fw). apply keep_step. exact Fw. }
  rewrite (C93_expanded k (tg two) (bit_i c) (kcall two) (xs false) (bcall c) x0 past [] (A_keep two) (SA_keep two past) (I_src c) (tg_ok two) (bit_ok c) (tg_build two) (tg_free two)
    (keep_arch two) (keep_st two past) (NoDup_nil _) (keep_constr two) (tg_const two) (fun _ => flip two false) (fun n _ => tg_call two false) (fun n _ => Af n) (src_instr c)).
  rewrite <- (fresh two c).
  change (adt_fs (on_obj (tg two) (ocall two) false) (A_tg two)) with (fun fi => adt_fs (with_call (tg two) (flip two false)) (A_tg two) fi).
  destruct (keep_parts two) as (P1 & P2 & P3 & P4). destruct (src_sem c) as (S1 & S2 & S3).
  unfold direct, adt_fs, adt_fv, own, is_const. rewrite P1, P2, P3, P4, S1, S2.
  split; intros (fi & f & l0 & bnd & obnd & H1 & H2 & H3 & H4 & H5 & H6 & H7 & H8 & H9);
    exists fi, f, l0, bnd, obnd; repeat (split; [assumption|]); intros q t Iq l Tl Cl Zl; [rewrite <- S3|rewrite S3]; apply (H9 q t Iq l Tl Cl Zl).
Qed.
Definition SI_src (c : bool) : instr path lty := match st_instr (bit_i c) (bcall c) x0 true with Ok i => i | Err _ => I_bit c end.
Lemma simple_instr c : st_instr (bit_i c) (bcall c) x0 true = Ok (SI_src c).
Proof.
  unfold SI_src. assert (adt_instr (on_obj (bit_i c) (bcall c) x0) = Ok (I_of (on_obj (bit_i c) (bcall c) x0))) as E by (apply I_of_ok; destruct c; vm_compute; reflexivity).
  unfold st_instr. rewrite E. reflexivity.
Qed.
Lemma flat_out two : flat_outputs (c_out (tg two)).
Proof. intros k0 m [[= <- <-]|[]] p mods q u [[= <- <-]|[]]. reflexivity. Qed.
Lemma flat_bit c : flat_outputs (c_out (bit_i c)).
Proof. intros k0 m [[= <- <-]|[]] p mods q u [[= <- <-]|[]]. reflexivity. Qed.
Lemma some_out c : i_out (I_src c) <> [].
Proof. destruct (src_sem c) as (_ & -> & _). rewrite bit_out. discriminate. Qed.
Lemma no_const c p t : In (p, t) (i_in (I_src c)) -> lty_const t = false.
Proof. destruct (src_sem c) as (-> & _). rewrite bit_in. intros [[= <- <-]|[]]. reflexivity. Qed.
Lemma keep_all two : in_all_forms path_eqb lty_const (A_keep two).
Proof. intros p fi f. destruct (keep_parts two) as (_ & _ & _ & ->). rewrite tg_a_constr. intros []. Qed.
Lemma keep_simple two c past k :
  satisfiable path_eqb lty_eqb lty_vals (tag_vals (tg two)) k (SA_keep two past) (SI_src c) (build_simple_adt k (SA_keep two past) (SI_src c)) <-> c = false.
Proof.
  pose proof (src_instr c) as EI. pose proof EI as EI'. rewrite C93_instr in EI'.
  assert (call_ok (on_obj (tg two) (kcall two) (xs false))) as Ck by (intros ws Fw; unfold on_obj, with_call; cbn [c_call]; rewrite (keep_step two false ws Fw); apply (tg_call two false ws Fw)).
  assert (history_free (bit_i c) (bcall c) x0) as HD by apply (C94_case_history_free c).
  rewrite (C93_history_free_simple k (tg two) (bit_i c) (kcall two) (xs false) (bcall c) x0 past [] (A_keep two) (SA_keep two past) (I_src c) (SI_src c) (tg_ok two) (bit_ok c) (tg_build two) (tg_free two)
    (keep_arch two) (keep_st two past) (NoDup_nil _) (keep_constr two) (tg_const two) Ck (keep_free two) HD EI' (simple_instr c) (flat_out two) (flat_bit c) (some_out c) (no_const c) (keep_all two)).
  rewrite <- (C93_history_free k (tg two) (bit_i c) (kcall two) (xs false) (bcall c) x0 past [] (A_keep two) (SA_keep two past) (I_src c) (tg_ok two) (bit_ok c) (tg_build two) (tg_free two)
    (keep_arch two) (keep_st two past) (NoDup_nil _) (keep_constr two) (tg_const two) Ck EI (keep_free two)).
  apply keep_expanded.
Qed.
End Keep.

(** ** Concrete cases *)
(** The condition holds of the class, whose attribute is set in both branches, not of the one
    that reads the attribute first (C94), nor if one branch does not set it. *)
Example C95_case_sets two :
  sets_first (s_body (Keep.keep_src two)) = true /\ sets_first (s_body (SrcMapProps.Case.tg_src two)) = false /\
  sets_first (FamProgModel.SSeq (FamProgModel.SIf (FamProgModel.EVar "k") (FamProgModel.SAttr "s" (FamProgModel.EVar "x")) FamProgModel.SSkip)
    (FamProgModel.SRet (FamProgModel.ECons (FamProgModel.EAttr "s") FamProgModel.ENil))) = false.
Proof. destruct two; vm_compute; auto. Qed.
(** With two input forms the bit is found, and every object in Python agrees; the inverse is not found.
    The state does change. *)
Example C95_case mb eb past k two :
  right_for (StateMapProps.Case.tg two) (StateMapProps.Case.bit_i false) (Keep.A_keep two) [] (some_object mb eb FamProgProps.no_pcall (Keep.keep_src two)) (some_object mb eb FamProgProps.no_pcall (SrcMapProps.Case.bit_src false)) /\
  ~ satisfiable path_eqb lty_eqb lty_vals (tag_vals (StateMapProps.Case.tg two)) k (Keep.SA_keep two past) (SrcMapProps.Case.I_src true)
      (build_expanded path_eqb lty_eqb lty_const k (Keep.SA_keep two past) (SrcMapProps.Case.I_src true)) /\
  length (a_forms (Keep.A_keep two)) = (if two then 2 else 1)%nat /\
  forall kb b s, FamProgModel.py_call mb eb FamProgProps.no_pcall (prog (Keep.keep_src true)) (SrcMapProps.Case.ps s) [VBit kb; VSum (ky "b") (VBit b)] =
    Ok ([FamProgModel.PV (VBit b)], SrcMapProps.Case.ps b).
Proof.
  split; [|split; [|split]].
  - assert (satisfiable path_eqb lty_eqb lty_vals (tag_vals (StateMapProps.Case.tg two)) k (Keep.SA_keep two past) (SrcMapProps.Case.I_src false)
      (build_expanded path_eqb lty_eqb lty_const k (Keep.SA_keep two past) (SrcMapProps.Case.I_src false))) as Sat by (apply Keep.keep_expanded; auto).
    rewrite <- (SrcMapProps.Case.bit_shape false). rewrite <- (Keep.keep_shape two) in *.
    apply (C95_correct FamProgProps.asm0 mb eb FamProgProps.no_sig FamProgProps.no_sig FamProgProps.no_pcall FamProgProps.no_xcall FamProgProps.no_pcall FamProgProps.no_xcall
      (fun _ => True) (fun _ _ => True) (fun _ => True) (fun _ _ => True) (Keep.keep_src two) (SrcMapProps.Case.bit_src false)
      (SrcMapProps.Case.ps false) (SrcMapProps.Case.xs false) SrcMapProps.Case.p0 SrcMapProps.Case.x0 k past [] (Keep.A_keep two) (Keep.SA_keep two past) (SrcMapProps.Case.I_src false));
      auto using FamProgProps.asm0_ok, FamProgProps.no_component, Keep.keep_source, SrcMapProps.Case.bit_source, Keep.nop_free, Keep.nox_free, Keep.keep_sets.
    + destruct two; apply FamProgProps.attrs_same_one; apply (FamProgProps.holds_bit false).
    + apply FamProgProps.attrs_same_nil.
    + rewrite Keep.keep_shape. apply (StateMapProps.Case.tg_build two).
    + rewrite Keep.keep_shape. apply (StateMapProps.Case.tg_free two).
    + apply build_b_spec. vm_compute. reflexivity.
    + apply free_b_spec. vm_compute. reflexivity.
    + rewrite Keep.keep_shape. apply Keep.keep_arch.
    + rewrite Keep.keep_shape. apply Keep.keep_st.
    + constructor.
    + apply Keep.keep_constr.
    + rewrite Keep.keep_shape. apply (StateMapProps.Case.tg_const two).
  - rewrite Keep.keep_expanded. discriminate.
  - destruct two; vm_compute; reflexivity.
  - intros kb b s. destruct mb, eb, kb, b, s; vm_compute; reflexivity.
Qed.
(** The simple formula, whatever was mapped before. *)
Example C95_case_simple mb eb past k two c :
  satisfiable path_eqb lty_eqb lty_vals (tag_vals (StateMapProps.Case.tg two)) k (Keep.SA_keep two past) (Keep.SI_src c) (build_simple_adt k (Keep.SA_keep two past) (Keep.SI_src c)) ->
  right_for (StateMapProps.Case.tg two) (StateMapProps.Case.bit_i c) (Keep.A_keep two) [] (some_object mb eb FamProgProps.no_pcall (Keep.keep_src two)) (some_object mb eb FamProgProps.no_pcall (SrcMapProps.Case.bit_src c)).
Proof.
  intros Sat. rewrite <- (SrcMapProps.Case.bit_shape c). rewrite <- (Keep.keep_shape two) in *.
  apply (C95_correct_simple FamProgProps.asm0 mb eb FamProgProps.no_sig FamProgProps.no_sig FamProgProps.no_pcall FamProgProps.no_xcall FamProgProps.no_pcall FamProgProps.no_xcall
    (fun _ => True) (fun _ _ => True) (fun _ => True) (fun _ _ => True) (Keep.keep_src two) (SrcMapProps.Case.bit_src c)
    (SrcMapProps.Case.ps false) (SrcMapProps.Case.xs false) SrcMapProps.Case.p0 SrcMapProps.Case.x0 k past [] (Keep.A_keep two) (Keep.SA_keep two past) (SrcMapProps.Case.I_src c) (Keep.SI_src c));
    rewrite ?Keep.keep_shape, ?SrcMapProps.Case.bit_shape;
    auto using FamProgProps.asm0_ok, FamProgProps.no_component, Keep.keep_source, SrcMapProps.Case.bit_source, Keep.nop_free, Keep.nox_free, Keep.keep_sets, FamProgProps.attrs_same_nil,
      StateMapProps.Case.tg_build, StateMapProps.Case.tg_free, Keep.keep_arch, Keep.keep_st, NoDup_nil, Keep.keep_constr, StateMapProps.Case.tg_const, SrcMapProps.Case.src_instr,
      Keep.simple_instr, Keep.flat_out, Keep.flat_bit, Keep.some_out, Keep.keep_all.
  - destruct c; reflexivity.
  - destruct two; apply FamProgProps.attrs_same_one; apply (FamProgProps.holds_bit false).
  - apply build_b_spec. vm_compute. reflexivity.
  - apply free_b_spec. vm_compute. reflexivity.
  - apply Keep.keep_arch.
  - apply Keep.keep_st.
  - constructor.
  - apply SrcMapProps.Case.src_instr.
  - apply Keep.simple_instr.
  - apply Keep.no_const.
Qed.
Example C95_case_simple_found two c past k :
  satisfiable path_eqb lty_eqb lty_vals (tag_vals (StateMapProps.Case.tg two)) k (Keep.SA_keep two past) (Keep.SI_src c) (build_simple_adt k (Keep.SA_keep two past) (Keep.SI_src c)) <-> c = false.
Proof. apply Keep.keep_simple. Qed.
(** Without the condition an object's past shows. *)
Example C95_case_reads mb eb b : outcome (FamProgModel.py_call mb eb FamProgProps.no_pcall (prog (SrcMapProps.Case.tg_src false)) (SrcMapProps.Case.ps b) [VBit false; VBit true]) =
  Ok [FamProgModel.PV (VBit (negb b))].
Proof. destruct mb, eb, b; vm_compute; reflexivity. Qed.

Print Assumptions C95_python.
Print Assumptions C95_words.
Print Assumptions C95_no_attributes.
Print Assumptions C95_same.
Print Assumptions C95_history_free.
Print Assumptions C95_correct.
Print Assumptions C95_correct_simple.
Print Assumptions C95_case.
