(** Lemmas for C93: the object when a form is called; the tags determine the form. *)
From Coq Require Import String ZArith List Bool Lia.
From Verif Require Import Base BaseLemmas CegisModel BindModel MapIdxModel MapIdxProps BindProps MapModel MapProofs MapMain MapProps MapIff MapIffProps MapDirect
  MapDirectProps MapConst MapConstProps
  AsmModel AsmSpec AsmValid AsmEnum AsmBuild AsmProofs AsmSub AsmCheck AsmMore AsmProps AadtModel AadtProofs FormModel FormProofs FormMain FormProps
  AdtArchModel AdtArchProofs AdtArchMain AdtArchProps StateMapModel.
Import ListNotations.
Open Scope string_scope.
Open Scope list_scope.
Open Scope Z_scope.

Lemma nodup_fst_fun {A B} (l : list (A * B)) k x y : NoDup (map fst l) -> In (k, x) l -> In (k, y) l -> x = y.
Proof.
  induction l as [|[a b] l IH]; cbn [map fst]; intros N I J; [destruct I|]. inversion N as [|? ? N1 N2]; subst.
  destruct I as [[= -> ->]|I], J as [[= E]|J]; auto; try (subst; exfalso; apply N1; eapply (in_map fst) in I; exact I).
  exfalso. apply N1. eapply (in_map fst) in J. exact J.
Qed.

(** Values that never choose differently have the same parts. *)
Lemma same_skeleton t v r t' w : sub_val t v r t' w -> forall v', wf_ty t -> has_ty t v -> has_ty t v' ->
  (forall r k k', chooses t v r k -> chooses t v' r k' -> k = k') ->
  exists w', sub_val t v' r t' w' /\ forall k x, w = VSum k x -> exists x', w' = VSum k x'.
Proof.
  induction 1 as [t v|c fs vs k p i t v t' w Ei Ev S IH|g c fs k p t v t' w I S IH]; intros v' W Hv Hv' Eq.
  - exists v'. split; [constructor|]. intros k x ->. inversion Hv as [| | | | |g c fs ? u ? Iu Hu]; subst.
    inversion Hv' as [| | | | |? ? ? k' u' x' Iu' Hu']; subst. exists x'. f_equal. symmetry. apply (Eq [] k k'); exists g, c, fs; eexists; constructor.
  - inversion Hv as [| | | |? ? ? F|]; subst. inversion Hv' as [| | | |? ? vs' F'|]; subst.
    destruct (F2_nth _ _ _ F' i _ Ei) as (u & Eu & Hu). destruct (F2_nth _ _ _ F i _ Ei) as (u0 & Eu0 & Hu0). cbn [snd] in *.
    assert (u0 = v) by congruence. subst u0.
    destruct (IH u) as (w' & S' & Hw); auto.
    { eapply wf_members_prod; eauto. eapply nth_error_In; eauto. }
    { intros r k1 k2 (g1 & c1 & fs1 & w1 & S1) (g2 & c2 & fs2 & w2 & S2). apply (Eq (k :: r)).
      - exists g1, c1, fs1, w1. econstructor; eauto.
      - exists g2, c2, fs2, w2. econstructor; eauto. }
    exists w'. split; auto. econstructor; eauto.
  - inversion Hv as [| | | | |? ? ? ? u ? Iu Hu]; subst. inversion Hv' as [| | | | |? ? ? k' u' x' Iu' Hu']; subst.
    assert (k' = k) as -> by (symmetry; apply (Eq [] k k'); exists g, c, fs; eexists; constructor).
    assert (NoDup (map fst fs)) as ND by (inversion W; auto).
    assert (u = t) as -> by (eapply nodup_fst_fun; eauto). assert (u' = t) as -> by (eapply nodup_fst_fun; eauto).
    destruct (IH x') as (w' & S' & Hw); auto.
    { eapply wf_members_sum; eauto. }
    { intros r k1 k2 (g1 & c1 & fs1 & w1 & S1) (g2 & c2 & fs2 & w2 & S2). apply (Eq (k :: r)).
      - exists g1, c1, fs1, w1. econstructor; eauto.
      - exists g2, c2, fs2, w2. econstructor; eauto. }
    exists w'. split; auto. econstructor; eauto.
Qed.

(** The tags match at most one form. *)
Lemma tags_form C cs A tags fi fj f f' : class_ok C -> adt_arch C cs = Ok A ->
  nth_error (a_forms A) fi = Some f -> nth_error (a_forms A) fj = Some f' ->
  (forall d, In d (snd f) -> tags (fst d) = snd d) -> (forall d, In d (snd f') -> tags (fst d) = snd d) -> fi = fj.
Proof.
  intros K E Ei Ej Ti Tj. destruct (k_in C K) as (R & GR & W & _). destruct (C86_forms C cs A K E) as [F1 F2].
  destruct (F2 fi f Ei) as (v & Hv & Fv). destruct (F2 fj f' Ej) as (v' & Hv' & Fv').
  destruct (F1 v Hv) as (fk & _ & U). rewrite (U fi Fv). symmetry. apply U. clear U fk.
  destruct Fv as (f0 & E0 & L & D). assert (f0 = f) by congruence. subst f0. destruct Fv' as (f0 & E0' & L' & D'). assert (f0 = f') by congruence. subst f0.
  assert (forall r k k', chooses (in_ty C) v r k -> chooses (in_ty C) v' r k' -> k = k') as Eq.
  { intros r k k' (g & c & fs & w & S) (g' & c' & fs' & w' & S').
    pose proof (sub_ty_fun _ _ _ (sub_val_ty _ _ _ _ _ S) W _ (sub_val_ty _ _ _ _ _ S')) as Et. injection Et as <- <- <-.
    pose proof (sub_val_has _ _ _ _ _ S W Hv) as H. inversion H as [| | | | |? ? ? ? u ? Iu Hu]; subst.
    pose proof (sub_val_has _ _ _ _ _ S' W Hv') as H'. inversion H' as [| | | | |? ? ? ? u' ? Iu' Hu']; subst.
    apply in_split in Iu as (pre & post & Hfs). apply in_split in Iu' as (pre' & post' & Hfs').
    assert (rank_of fs k (rank_at pre k post)) as Rk by (exists pre, u, post; auto).
    assert (rank_of fs k' (rank_at pre' k' post')) as Rk' by (exists pre', u', post'; auto).
    assert (In (r, rank_at pre k post) (snd f)) as I1 by (apply D; exists g, c, fs, k, w; auto).
    assert (In (r, rank_at pre' k' post') (snd f')) as I2 by (apply D'; exists g, c, fs, k', w'; auto).
    pose proof (Ti _ I1) as X1. pose proof (Tj _ I2) as X2. cbn [fst snd] in X1, X2. rewrite X2 in X1. rewrite <- X1 in Rk. exact (rank_key fs k k' _ Rk Rk'). }
  assert (forall r k k', chooses (in_ty C) v' r k -> chooses (in_ty C) v r k' -> k = k') as Eq' by (intros r k k' H H'; symmetry; eapply Eq; eauto).
  exists f'. split; auto. split.
  - intros q. rewrite L'. split; intros (t' & w & S & Lf).
    + destruct (same_skeleton _ _ _ _ _ S v W Hv' Hv Eq') as (w' & S' & _). exists t', w'. auto.
    + destruct (same_skeleton _ _ _ _ _ S v' W Hv Hv' Eq) as (w' & S' & _). exists t', w'. auto.
  - intros q z. rewrite D'. split; intros (g & c & fs & k & w & S & Rk).
    + destruct (same_skeleton _ _ _ _ _ S v W Hv' Hv Eq') as (w' & S' & X). destruct (X k w eq_refl) as (x & ->). exists g, c, fs, k, x. auto.
    + destruct (same_skeleton _ _ _ _ _ S v' W Hv Hv' Eq) as (w' & S' & X). destruct (X k w eq_refl) as (x & ->). exists g, c, fs, k, x. auto.
Qed.

(** * Objects *)
Section Obj.
  Variable C : pclass.
  Context {Obj : Type}.
  Variable ocall : Obj -> list Z -> list Z * Obj.
  Variable o0 : Obj.
  Hypothesis K : class_ok C.

  (** The object after calls with given words. *)
  Definition run (hist : list (list Z)) : Obj := fold_left (fun o ws => snd (ocall o ws)) hist o0.
  Definition hist_ok (hist : list (list Z)) : Prop := Forall (Forall2 word_of (c_in C)) hist.

  Lemma with_ok f : class_ok (with_call C f).
  Proof. destruct K. constructor; auto. Qed.
  Lemma next_run hist z : hist_ok hist -> exists ws, Forall2 word_of (c_in C) ws /\ next C ocall (run hist) z = run (hist ++ [ws]) /\ hist_ok (hist ++ [ws]).
  Proof.
    intros H. destruct (in_words_ok C z K) as (ws & E & F). exists ws. split; auto. unfold next. rewrite E. split.
    - unfold run. rewrite fold_left_app. reflexivity.
    - unfold hist_ok. apply Forall_app. split; auto.
  Qed.
  Lemma nexts_run zs : forall hist, hist_ok hist -> exists more, length more = length zs /\ hist_ok (hist ++ more) /\ fold_left (next C ocall) zs (run hist) = run (hist ++ more).
  Proof.
    induction zs as [|z zs IH]; intros hist H.
    - exists []. rewrite app_nil_r. auto.
    - destruct (next_run hist z H) as (ws & _ & E & H'). cbn [fold_left]. rewrite E. destruct (IH _ H') as (more & L & Hm & Em).
      exists (ws :: more). rewrite <- app_assoc in *. cbn [List.app] in *. split; [cbn; congruence|auto].
  Qed.
  Lemma obj_at_run fi tags l : exists hist, length hist = fi /\ hist_ok hist /\ obj_at C ocall o0 fi tags l = run hist.
  Proof.
    unfold obj_at. assert (fold_left (fun o i => next C ocall o (form_word C i tags l)) (seq 0 fi) o0 =
      fold_left (next C ocall) (map (fun i => form_word C i tags l) (seq 0 fi)) (run [])) as ->.
    { change o0 with (run []) at 1. generalize (run []) as o. generalize (seq 0 fi) as s. induction s as [|i s IH]; intros o; [reflexivity|]. cbn [fold_left map]. apply IH. }
    destruct (nexts_run (map (fun i => form_word C i tags l) (seq 0 fi)) [] (Forall_nil _)) as (h & L & H & E). rewrite map_length, seq_length in L. eauto.
  Qed.
  Lemma obj_simple_run n past tags l : exists hist, length hist = (n + length past)%nat /\ hist_ok hist /\ obj_simple C ocall o0 n past tags l = run hist.
  Proof.
    unfold obj_simple. destruct (obj_at_run n tags l) as (h & L & H & ->). destruct (nexts_run past h H) as (m & Lm & Hm & E).
    exists (h ++ m). rewrite app_length. split; auto.
  Qed.

  (** What is called on the same words gives the same. *)
  Lemma out_at_ext f f' z q : (forall ws, Forall2 word_of (c_in C) ws -> f ws = f' ws) -> out_at (with_call C f) z q = out_at (with_call C f') z q.
  Proof.
    intros H. destruct (in_words_ok C z K) as (ws & E & F). unfold out_at. change (in_words (with_call C f) z) with (in_words C z).
    change (in_words (with_call C f') z) with (in_words C z). rewrite E. cbn [bind].
    unfold out_forms. change (c_call (with_call C f) ws) with (f ws). change (c_call (with_call C f') ws) with (f' ws). rewrite (H ws F). reflexivity.
  Qed.
End Obj.

(** * The expanded formula looks at the functions of the forms it has *)
Lemma F2_flat_map {X Y Z'} (R : Y -> Z' -> Prop) (f : X -> list Y) (g : X -> list Z') l :
  (forall x, In x l -> Forall2 R (f x) (g x)) -> Forall2 R (flat_map f l) (flat_map g l).
Proof. induction l as [|x l IH]; cbn [flat_map]; intros H; [constructor|]. apply Forall2_app; [apply H; left; auto|apply IH; intros y I; apply H; right; auto]. Qed.
Lemma F2_map_same {X Y Z'} (R : Y -> Z' -> Prop) (f : X -> Y) (g : X -> Z') l : (forall x, In x l -> R (f x) (g x)) -> Forall2 R (map f l) (map g l).
Proof. induction l as [|x l IH]; cbn [map]; intros H; constructor; [apply H; left; auto|apply IH; intros y I; apply H; right; auto]. Qed.
Lemma enum_bound {X} (l : list X) i x : In (i, x) (enumerate l) -> (i < length l)%nat.
Proof. intros I. unfold enumerate in I. apply in_combine_l in I. apply in_seq in I. lia. Qed.

Section Congr.
  Context {P T : Type} (peqb : P -> P -> bool) (teqb : T -> T -> bool) (isconst : T -> bool) (td : T -> list Z) (tagd : P -> list Z) (k : ivar).
  Variables (fo : list (list P * list (P * Z))) (ins outs : list (P * T)) (cs : list (P * list Z)) (hc : bool).
  Variables (f f' : nat -> (P -> Z) -> (P -> Z) -> P -> Z) (s s' : (P -> Z) -> (P -> Z) -> P -> Z) (fv : nat -> (P -> Z) -> (P -> Z) -> bool) (v : (P -> Z) -> (P -> Z) -> bool).
  Hypothesis Hf : forall fi tags l q, (fi < length fo)%nat -> f fi tags l q = f' fi tags l q.
  Let a := mkArch fo ins outs cs hc f s fv v.
  Let b := mkArch fo ins outs cs hc f' s' fv v.

  Lemma disj_congr i r : existsb (fun phi => phi r) (disjuncts_expanded peqb teqb k a i) = existsb (fun phi => phi r) (disjuncts_expanded peqb teqb k b i).
  Proof.
    assert (Forall2 (fun p q : MapModel.val P -> bool => p r = q r) (disjuncts_expanded peqb teqb k a i) (disjuncts_expanded peqb teqb k b i)) as F.
    { unfold disjuncts_expanded. change (input_bindings peqb teqb b i) with (input_bindings peqb teqb a i). change (output_bindings peqb teqb b i) with (output_bindings peqb teqb a i).
      change (a_forms b) with (a_forms a). apply F2_flat_map. intros [fi ff] If. apply F2_flat_map. intros bb _. apply F2_map_same. intros oo _.
      assert (fi < length fo)%nat as Lt.
      { apply enum_bound in If. rewrite combine_length in If. cbn [a a_forms] in If. lia. }
      unfold conj_expanded. cbn [fst snd]. f_equal. induction (snd oo) as [|[[q|] ap] ob IH]; [reflexivity| |exact IH].
      cbn [forallb fst snd]. rewrite IH. cbn [a b a_fsem]. rewrite (Hf fi _ _ _ Lt). reflexivity. }
    induction F as [|p q l m E F IH]; [reflexivity|]. cbn [existsb]. rewrite E, IH. reflexivity.
  Qed.
  Lemma all_congr phi phi' : (forall r, phi r = phi' r) -> forall c r, constrain_all peqb isconst a c phi r = constrain_all peqb isconst b c phi' r.
  Proof.
    intros H c. revert phi phi' H. induction c as [|[p zs] c IH]; intros phi phi' H r; cbn [constrain_all]; [apply H|]. apply IH. intros r'.
    change (is_const peqb isconst b p) with (is_const peqb isconst a p). destruct (is_const peqb isconst a p); [apply H|].
    induction zs as [|z zs IHz]; [reflexivity|]. cbn [forallb]. rewrite H, IHz. reflexivity.
  Qed.
  Lemma ex_congr phi phi' : (forall r, phi r = phi' r) -> forall c r, constrain_ex peqb isconst a c phi r = constrain_ex peqb isconst b c phi' r.
  Proof.
    intros H c. revert phi phi' H. induction c as [|[p zs] c IH]; intros phi phi' H r; cbn [constrain_ex]; [apply H|]. apply IH. intros r'.
    change (is_const peqb isconst b p) with (is_const peqb isconst a p). destruct (is_const peqb isconst a p); [rewrite H; reflexivity|apply H].
  Qed.
  Lemma sat_congr i :
    satisfiable peqb teqb td tagd k a i (build_expanded peqb teqb isconst k a i) <-> satisfiable peqb teqb td tagd k b i (build_expanded peqb teqb isconst k b i).
  Proof.
    unfold satisfiable. change (dom peqb teqb td tagd k b i) with (dom peqb teqb td tagd k a i). unfold build_expanded.
    change (has_bindings peqb teqb b i) with (has_bindings peqb teqb a i). change (empty_constraint b) with (empty_constraint a). change (a_has_const b) with (a_has_const a).
    change (forall_expanded peqb teqb isconst b i) with (forall_expanded peqb teqb isconst a i). change (a_constr b) with (a_constr a).
    destruct (negb (has_bindings peqb teqb a i)); [reflexivity|]. destruct (negb (a_has_const a)); [reflexivity|]. destruct (empty_constraint a); [reflexivity|].
    assert (forall r, constrain_ex peqb isconst a (a_constr a) (constrain_all peqb isconst a (a_constr a) (fun r => existsb (fun phi => phi r) (disjuncts_expanded peqb teqb k a i))) r =
      constrain_ex peqb isconst b (a_constr a) (constrain_all peqb isconst b (a_constr a) (fun r => existsb (fun phi => phi r) (disjuncts_expanded peqb teqb k b i))) r) as E.
    { apply ex_congr. apply all_congr. intros r. apply disj_congr. }
    split; intros (y & phi & r & Eb & Sr & H); injection Eb as <- <-; eexists _, _, r; (split; [reflexivity|]); (split; [exact Sr|]); intros vs s0 Ss Ags; cbn [mkform CegisModel.sem].
    - rewrite <- E. exact (H vs s0 Ss Ags).
    - rewrite E. exact (H vs s0 Ss Ags).
  Qed.
End Congr.
