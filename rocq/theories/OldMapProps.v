(** C72: the enumerating mapper. *)
From Coq Require Import String ZArith List Bool Lia Permutation.
From Verif Require Import Base BaseLemmas BindModel BindProps OldMapModel.
Import ListNotations.
Open Scope list_scope.
Open Scope Z_scope.

(** ** Permutations *)
Lemma picks_perm {A} (l : list A) x r : In (x, r) (picks l) -> Permutation (x :: r) l.
Proof.
  revert x r. induction l as [|y l IH]; cbn [picks]; intros x r I; [easy|]. destruct I as [I|I].
  - injection I as <- <-. reflexivity.
  - apply in_map_iff in I as ([z s] & E & I). cbn [fst snd] in E. injection E as <- <-. apply IH in I.
    rewrite perm_swap. now constructor.
Qed.
Lemma picks_In {A} (l : list A) x : In x l -> exists r, In (x, r) (picks l).
Proof.
  induction l as [|y l IH]; cbn [picks]; intros I; [easy|]. destruct I as [->|I]; [exists l; now left|].
  destruct (IH I) as (r & J). exists (y :: r). right. apply in_map_iff. now exists (x, r).
Qed.
Lemma perms_In {A} (l p : list A) : In p (perms l) <-> Permutation p l.
Proof.
  unfold perms. remember (length l) as n eqn:E. revert l p E. induction n as [|n IH]; intros l p E; cbn [perms_n].
  - destruct l; [|discriminate]. split; [intros [<-|[]]; constructor|]. intros H. apply Permutation_sym, Permutation_nil in H. now left.
  - rewrite in_flat_map. split.
    + intros ([x r] & I & J). cbn [fst snd] in J. apply in_map_iff in J as (q & <- & J). apply picks_perm in I.
      rewrite <- I. constructor. apply IH; auto. apply Permutation_length in I. cbn in I. lia.
    + intros H. destruct p as [|x q]; [apply Permutation_length in H; cbn in H; lia|].
      assert (I : In x l) by (rewrite <- H; now left). destruct (picks_In l x I) as (r & J). exists (x, r). split; auto.
      cbn [fst snd]. apply in_map. pose proof (picks_perm l x r J) as P. apply IH.
      * apply Permutation_length in P. cbn in P. lia.
      * apply (Permutation_cons_inv (a := x)). now rewrite H.
Qed.

Lemma perm_reorder {A B} (f : A -> B) l m : Permutation (map f l) m -> exists l', Permutation l l' /\ map f l' = m.
Proof.
  intros H. apply Permutation_sym in H. apply Permutation_map_inv in H as (l' & -> & H). exists l'. split; auto.
Qed.

(** ** One type *)
Lemma count_split (p : string) l : count String.eqb (Some p) l = 1%nat ->
  exists l1 l2, l = l1 ++ Some p :: l2 /\ ~ In (Some p) l1 /\ ~ In (Some p) l2.
Proof.
  unfold count. induction l as [|o l IH]; cbn [filter]; [discriminate|]. intros H.
  destruct (opt_eqb String.eqb (Some p) o) eqn:E.
  - destruct o as [q|]; [|discriminate]. cbn in E. apply String.eqb_eq in E. subst q. exists [], l. split; auto. split; auto.
    intros I. cbn [length] in H. destruct (filter (opt_eqb String.eqb (Some p)) l) as [|y f] eqn:F; [|discriminate].
    assert (J : In (Some p) (filter (opt_eqb String.eqb (Some p)) l)) by (apply filter_In; split; auto; cbn; apply String.eqb_refl).
    rewrite F in J. destruct J.
  - destruct (IH H) as (l1 & l2 & -> & N1 & N2). exists (o :: l1), l2. split; auto. split; auto.
    intros [->|I]; auto. cbn in E. rewrite String.eqb_refl in E. discriminate.
Qed.

Lemma count_app (x : option string) l m : count String.eqb x (l ++ m) = (count String.eqb x l + count String.eqb x m)%nat.
Proof. unfold count. now rewrite filter_app, app_length. Qed.
Lemma count_none x l : ~ In x l -> count String.eqb x l = 0%nat.
Proof.
  intros N. unfold count. destruct (filter _ l) as [|y f] eqn:F; auto. exfalso.
  assert (J : In y (filter (opt_eqb String.eqb x) l)) by (rewrite F; now left). apply filter_In in J as [J E].
  destruct x as [x|], y as [y|]; try discriminate; cbn in E; [apply String.eqb_eq in E; subst|]; auto.
Qed.

Lemma perm_ci cs : NoDup cs -> forall l, (forall p, In (Some p) l -> In p cs) -> (forall p, In p cs -> count String.eqb (Some p) l = 1%nat) ->
  (length cs <= length l)%nat /\ Permutation l (map Some cs ++ repeat None (length l - length cs)).
Proof.
  induction 1 as [|c cs N _ IH]; intros l H1 H2.
  - cbn [length map app]. split; [lia|]. rewrite Nat.sub_0_r. clear H2. induction l as [|[p|] l IH]; cbn [length repeat]; auto.
    + destruct (H1 p (or_introl eq_refl)).
    + constructor. apply IH. intros p I. apply H1. now right.
  - destruct (count_split c l (H2 c (or_introl eq_refl))) as (l1 & l2 & -> & N1 & N2).
    destruct (IH (l1 ++ l2)) as [L P].
    + intros p I. assert (J : In p (c :: cs)) by (apply H1; apply in_app_iff in I; apply in_app_iff; cbn; intuition).
      destruct J as [<-|J]; auto. apply in_app_iff in I. intuition.
    + intros p I. rewrite <- (H2 p (or_intror I)), !count_app. f_equal. change (Some c :: l2) with ([Some c] ++ l2).
      rewrite count_app. rewrite (count_none (Some p) [Some c]); auto. intros [E|[]]. injection E as <-. contradiction.
    + rewrite app_length in *. cbn [length] in *. split; [lia|]. rewrite <- Permutation_middle. cbn [map app]. constructor.
      replace (length l1 + Datatypes.S (length l2) - Datatypes.S (length cs))%nat with (length l1 + length l2 - length cs)%nat by lia. exact P.
Qed.

Lemma uses_count b p : uses String.eqb b p = count String.eqb (Some p) (map fst b).
Proof.
  unfold uses, count. induction b as [|[[q|] a] b IH]; cbn [filter map fst opt_eqb]; auto. destruct (String.eqb p q); cbn [length]; auto.
Qed.

Lemma matchings_In cs ps b : (length cs <= length ps)%nat ->
  In b (matchings cs ps) <-> map fst b = map Some cs ++ repeat None (length ps - length cs) /\ Permutation (map snd b) ps.
Proof.
  intros L. unfold matchings. rewrite in_map_iff.
  assert (Lc : length (map (@Some string) cs ++ repeat None (length ps - length cs)) = length ps).
  { rewrite app_length, map_length, repeat_length. lia. }
  split.
  - intros (p & <- & I). apply perms_In in I. pose proof (Permutation_length I) as Lp. split.
    + rewrite <- (firstn_all (map Some cs ++ _)) at 2. rewrite Lc, <- Lp. clear - Lc Lp. revert Lc. rewrite <- Lp. clear Lp.
      generalize (map Some cs ++ repeat None (length p - length cs)) as l. intros l E. rewrite <- E, firstn_all.
      revert p E. induction l as [|x l IH]; intros [|y p] E; try discriminate; auto. cbn. f_equal. apply IH. cbn in E. lia.
    + replace (map snd (combine _ p)) with p; auto. revert Lc. rewrite <- Lp. clear.
      generalize (map Some cs ++ repeat None (length p - length cs)) as l. intros l E. revert l E.
      induction p as [|y p IH]; intros [|x l] E; try discriminate; auto. cbn. f_equal. apply IH. cbn in E. lia.
  - intros [E P]. exists (map snd b). split; [|now apply perms_In]. rewrite <- E. apply combine_split_eq.
Qed.

Lemma matchings_type cs ps b : NoDup cs -> (length cs <= length ps)%nat -> In b (matchings cs ps) ->
  exists b', Permutation b b' /\ In b' (type_bindings String.eqb cs ps).
Proof.
  intros N L I. apply matchings_In in I as [E P]; auto. destruct (perm_reorder snd b ps P) as (b' & Pb & Es).
  exists b'. split; auto. apply (type_bindings_In String.eqb). split; auto. split.
  - intros p a J. assert (K : In (Some p) (map fst b)) by (apply (Permutation_in _ (Permutation_sym Pb)) in J; exact (in_map fst _ _ J)).
    rewrite E in K. apply in_app_iff in K as [K|K]; [|apply repeat_spec in K; discriminate]. apply in_map_iff in K as (q & X & K). now injection X as ->.
  - intros p J. rewrite uses_count.
    assert (X : forall l m, Permutation l m -> count String.eqb (Some p) l = count String.eqb (Some p) m).
    { intros l m H. unfold count. induction H as [|x l m H IH|x y l|l m n H1 IH1 H2 IH2]; cbn [filter]; auto.
      - destruct (opt_eqb String.eqb (Some p) x); cbn [length]; congruence.
      - destruct (opt_eqb String.eqb (Some p) x), (opt_eqb String.eqb (Some p) y); reflexivity.
      - congruence. }
    rewrite <- (X _ _ (Permutation_map fst Pb)), E, count_app.
    rewrite (count_none (Some p) (repeat None _)) by (intros K; apply repeat_spec in K; discriminate).
    rewrite Nat.add_0_r. clear - N J. induction N as [|c cs Nc _ IH]; [easy|]. cbn [map]. change (Some c :: map Some cs) with ([Some c] ++ map Some cs).
    rewrite count_app. destruct J as [->|J].
    + unfold count at 1. cbn [filter opt_eqb]. rewrite String.eqb_refl. cbn [length]. rewrite count_none; auto.
      intros K. apply in_map_iff in K as (q & Y & K). injection Y as ->. contradiction.
    + rewrite (count_none (Some p) [Some c]); auto. intros [Y|[]]. injection Y as ->. contradiction.
Qed.

Lemma type_matchings cs ps b : NoDup cs -> In b (type_bindings String.eqb cs ps) ->
  (length cs <= length ps)%nat /\ exists b', Permutation b b' /\ In b' (matchings cs ps).
Proof.
  intros N I. apply (type_bindings_In String.eqb) in I as (Es & H1 & H2).
  destruct (perm_ci cs N (map fst b)) as [L P].
  - intros p J. apply in_map_iff in J as ([o a] & E & J). cbn [fst] in E. subst o. now apply (H1 p a).
  - intros p J. rewrite <- uses_count. now apply H2.
  - rewrite map_length in *. assert (Lb : length b = length ps) by (rewrite <- Es; now rewrite map_length). rewrite Lb in *.
    split; auto. destruct (perm_reorder fst b _ P) as (b' & Pb & E). exists b'. split; auto. apply matchings_In; auto. split; auto.
    rewrite <- Es. apply Permutation_map. now symmetry.
Qed.

(** ** Bindings *)
Section Bindings.
  Context {T : Type} (teqb : T -> T -> bool) (teqb_spec : forall a b, teqb a b = true <-> a = b).
  Variables (pe_in core_ports : list (string * T)).
  Hypothesis Npe : NoDup (map fst pe_in).
  Hypothesis Ncore : NoDup (map fst core_ports).
  Hypothesis NoIn : ~ In "in_"%string (map fst core_ports).

  Definition mangled : list (string * T) := map (fun e => (mangle (fst e), snd e)) core_ports.

  Lemma mangle_inj a b : a <> "in_"%string -> b <> "in_"%string -> mangle a = mangle b -> a = b.
  Proof.
    unfold mangle. destruct (String.eqb a "in") eqn:A, (String.eqb b "in") eqn:B; intros Ha Hb E; try congruence.
    apply String.eqb_eq in A, B. congruence.
  Qed.

  Lemma mangled_NoDup : NoDup (map fst mangled).
  Proof.
    unfold mangled. rewrite map_map. cbn [fst]. rewrite <- (map_map fst mangle). apply NoDup_map_inj; auto.
    intros x y I J. apply mangle_inj; intros ->; contradiction.
  Qed.

  Lemma fold_dset_new (l d : list (string * T)) : NoDup (map fst (d ++ l)) ->
    fold_left (fun d e => dset String.eqb d (fst e) (snd e)) l d = d ++ l.
  Proof.
    revert d. induction l as [|[k v] l IH]; intros d N; cbn [fold_left fst snd]; [now rewrite app_nil_r|].
    rewrite dset_new; [|exact String.eqb_eq|].
    - rewrite IH by (rewrite <- app_assoc; exact N). now rewrite <- app_assoc.
    - intros I. rewrite map_app in N. cbn [map fst] in N.
      apply NoDup_remove_2 in N. apply N, in_app_iff. now left.
  Qed.

  Lemma core_inputs_eq : core_inputs core_ports = mangled.
  Proof.
    unfold core_inputs.
    assert (E : forall l d, fold_left (fun d e => dset String.eqb d (mangle (fst e)) (snd e)) l d =
      fold_left (fun d e => dset String.eqb d (fst e) (snd e)) (map (fun e => (mangle (fst e), snd e)) l) (d : list (string * T))).
    { induction l as [|e l IH]; intros d; cbn [fold_left map fst snd]; auto. }
    rewrite E. apply (fold_dset_new _ []). cbn [app]. exact mangled_NoDup.
  Qed.

  Lemma asserts_iff : asserts teqb pe_in core_ports = true <->
    forall t, In t (map snd mangled) -> In t (map snd pe_in) /\ (length (of_type teqb mangled t) <= length (of_type teqb pe_in t))%nat.
  Proof.
    unfold asserts, group_by_value. rewrite core_inputs_eq, forallb_forall.
    destruct (sort_by_t_spec teqb teqb_spec mangled) as (Nc & Kc & Gc & Lc).
    destruct (sort_by_t_spec teqb teqb_spec pe_in) as (Np & Kp & Gp & Lp). split.
    - intros H t I. apply Kc in I. apply in_map_iff in I as ([u l] & <- & I). specialize (H _ I). cbn [fst snd] in *.
      specialize (Lp u). destruct (dget teqb (sort_by_t teqb pe_in) u) as [m|] eqn:D; [|discriminate].
      apply Nat.leb_le in H. rewrite <- (Gc _ _ I), <- Lp. split; auto. apply Kp. apply (dget_In teqb teqb_spec) in D. exact (in_map fst _ _ D).
    - intros H [t l] I. cbn [fst snd]. destruct (H t) as [A L]; [apply Kc; exact (in_map fst _ _ I)|].
      specialize (Lp t). destruct (dget teqb (sort_by_t teqb pe_in) t) as [m|] eqn:D.
      + apply Nat.leb_le. now rewrite (Gc _ _ I), Lp.
      + apply (dget_None teqb teqb_spec) in D. apply Kp in A. contradiction.
  Qed.

  Lemma of_type_nil (l : list (string * T)) t : ~ In t (map snd l) -> of_type teqb l t = [].
  Proof.
    intros N. destruct (of_type teqb l t) as [|p r] eqn:E; auto. exfalso. apply N.
    assert (I : In p (of_type teqb l t)) by (rewrite E; now left). apply (of_type_In teqb teqb_spec) in I. exact (in_map snd _ _ I).
  Qed.

  Lemma asserts_len t : asserts teqb pe_in core_ports = true -> (length (of_type teqb mangled t) <= length (of_type teqb pe_in t))%nat.
  Proof.
    intros A. destruct (of_type teqb mangled t) as [|p r] eqn:E; [cbn; lia|]. rewrite <- E.
    apply asserts_iff; auto. assert (I : In p (of_type teqb mangled t)) by (rewrite E; now left).
    apply (of_type_In teqb teqb_spec) in I. exact (in_map snd _ _ I).
  Qed.

  Lemma bindings_In b : In b (bindings teqb pe_in core_ports) <->
    exists bs, b = List.concat bs /\ Forall2 (fun bt t => In bt (matchings (of_type teqb mangled t) (of_type teqb pe_in t))) bs (map fst (sort_by_t teqb pe_in)).
  Proof.
    unfold bindings, group_by_value. rewrite core_inputs_eq, in_map_iff.
    destruct (sort_by_t_spec teqb teqb_spec mangled) as (Nc & Kc & Gc & Lc).
    destruct (sort_by_t_spec teqb teqb_spec pe_in) as (Np & Kp & Gp & Lp).
    assert (X : forall (f : T * list string -> list (list (option string * string))) (g : T -> list (list (option string * string))) l bs,
       (forall e, In e l -> f e = g (fst e)) -> Forall2 (@In _) bs (map f l) <-> Forall2 (fun bt t => In bt (g t)) bs (map fst l)).
    { intros f g l. induction l as [|e l IH]; intros bs H; cbn [map].
      - split; intros F; inversion F; constructor.
      - split; intros F; inversion F; subst; constructor; auto; try (apply IH; auto; intros; apply H; now right).
        + rewrite <- (H e); auto. now left. + rewrite (H e); auto. now left. }
    specialize (X (fun e => matchings (lookup teqb (sort_by_t teqb mangled) (fst e)) (snd e)) (fun t => matchings (of_type teqb mangled t) (of_type teqb pe_in t)) (sort_by_t teqb pe_in)).
    assert (Y : forall e, In e (sort_by_t teqb pe_in) -> matchings (lookup teqb (sort_by_t teqb mangled) (fst e)) (snd e) = matchings (of_type teqb mangled (fst e)) (of_type teqb pe_in (fst e))).
    { intros [t l] I. cbn [fst snd]. f_equal; [apply Lc|now apply Gp]. }
    split.
    - intros (bs & <- & I). exists bs. split; auto. apply X; auto. now apply iprod_In.
    - intros (bs & -> & F). exists bs. split; auto. apply iprod_In. now apply X.
  Qed.

  Lemma F2_concat (Q R : list (option string * string) -> T -> Prop) : (forall b t, Q b t -> exists b', Permutation b b' /\ R b' t) ->
    forall bs ks, Forall2 Q bs ks -> exists bs', Permutation (List.concat bs) (List.concat bs') /\ Forall2 R bs' ks.
  Proof.
    intros H bs ks F. induction F as [|b t bs ks q F (bs' & P & F')]; [exists []; auto|].
    destruct (H _ _ q) as (b' & Pb & r). exists (b' :: bs'). split; [|now constructor]. cbn [List.concat]. now apply Permutation_app.
  Qed.

  Lemma type_correct_perm b b' : Permutation b b' -> type_correct String.eqb pe_in mangled b -> type_correct String.eqb pe_in mangled b'.
  Proof.
    intros P (H1 & H2 & H3). split; [rewrite <- H1; apply Permutation_map; now symmetry|]. split.
    - intros p a I. apply (H2 p a). apply (Permutation_in _ (Permutation_sym P) I).
    - intros p t I. rewrite <- (uses_perm String.eqb b b' p P). eauto.
  Qed.

  Lemma bindings_sound b : asserts teqb pe_in core_ports = true -> In b (bindings teqb pe_in core_ports) ->
    type_correct String.eqb pe_in mangled b.
  Proof.
    intros A I. apply bindings_In in I as (bs & -> & F).
    destruct (F2_concat _ (fun bt t => In bt (type_bindings String.eqb (of_type teqb mangled t) (of_type teqb pe_in t)))
      (fun bt t J => matchings_type _ _ bt (of_type_NoDup teqb _ t mangled_NoDup) (asserts_len t A) J) _ _ F) as (bs' & P & F').
    apply (type_correct_perm (List.concat bs')); [now symmetry|].
    apply (create_sound String.eqb teqb String.eqb_eq teqb_spec); auto; [exact mangled_NoDup|].
    apply create_In; auto. split; [|eauto]. intros t J. now apply (proj1 asserts_iff A).
  Qed.

  Lemma bindings_complete b : type_correct String.eqb pe_in mangled b ->
    asserts teqb pe_in core_ports = true /\ exists b', Permutation b b' /\ In b' (bindings teqb pe_in core_ports).
  Proof.
    intros C. destruct (create_complete String.eqb teqb String.eqb_eq teqb_spec string_dec pe_in mangled b Npe mangled_NoDup C) as (b1 & P1 & I).
    apply create_In in I as (K & bs & -> & F); auto. split.
    - apply asserts_iff. intros t J. split; auto. specialize (K t J).
      apply (proj1 (proj2 (sort_by_t_spec teqb teqb_spec pe_in))) in K.
      assert (X : exists bt, In bt (type_bindings String.eqb (of_type teqb mangled t) (of_type teqb pe_in t))).
      { clear - F K. induction F; [easy|]. destruct K as [->|K]; eauto. }
      destruct X as (bt & X). now apply (type_matchings _ _ bt (of_type_NoDup teqb _ t mangled_NoDup)) in X as [X _].
    - destruct (F2_concat _ (fun bt t => In bt (matchings (of_type teqb mangled t) (of_type teqb pe_in t)))
        (fun bt t J => proj2 (type_matchings _ _ bt (of_type_NoDup teqb _ t mangled_NoDup) J)) _ _ F) as (bs' & P & F').
      exists (List.concat bs'). split; [now rewrite P1|]. apply bindings_In. eauto.
  Qed.

  Lemma asserts_complete : asserts teqb pe_in core_ports = true -> exists b, type_correct String.eqb pe_in mangled b.
  Proof.
    intros A. assert (X : exists b, In b (bindings teqb pe_in core_ports)).
    { assert (Y : exists bs, Forall2 (fun bt t => In bt (matchings (of_type teqb mangled t) (of_type teqb pe_in t))) bs (map fst (sort_by_t teqb pe_in))).
      { generalize (map fst (sort_by_t teqb pe_in)) as ks. induction ks as [|t ks (bs & IH)]; [exists []; constructor|].
        eexists (combine (map Some (of_type teqb mangled t) ++ repeat None _) (of_type teqb pe_in t) :: bs). constructor; auto.
        unfold matchings. apply in_map_iff. exists (of_type teqb pe_in t). split; [reflexivity|]. now apply perms_In. }
      destruct Y as (bs & Y). exists (List.concat bs). apply bindings_In. eauto. }
    destruct X as (b & X). exists b. now apply bindings_sound.
  Qed.
End Bindings.

(** ** The input map *)
Lemma im_In (b : list (option string * string)) : forall d v k, In (v, k) (fold_left (fun d e => dset String.eqb d (demangle (fst e)) (snd e)) b d) ->
  In (v, k) d \/ exists ov, In (ov, k) b /\ demangle ov = v.
Proof.
  induction b as [|[o a] b IH]; intros d v k I; cbn [fold_left fst snd] in I; auto.
  apply IH in I as [I|(ov & I & E)]; [|right; exists ov; split; auto; now right].
  apply (In_dset String.eqb String.eqb_eq) in I as [I|I]; auto. injection I as -> ->. right. exists o. split; auto. now left.
Qed.
Lemma im_get (b : list (option string * string)) k v : forall (d : list (string * string)), (forall e, In e b -> demangle (fst e) <> k) -> dget String.eqb d k = Some v ->
  dget String.eqb (fold_left (fun d e => dset String.eqb d (demangle (fst e)) (snd e)) b d) k = Some v.
Proof.
  induction b as [|[o a] b IH]; intros d H D; cbn [fold_left fst snd]; auto. apply IH; [intros; apply H; now right|].
  rewrite (dget_dset String.eqb String.eqb_eq). destruct (String.eqb k (demangle o)) eqn:E; auto. apply String.eqb_eq in E.
  destruct (H (o, a) (or_introl eq_refl)). auto.
Qed.
Lemma im_complete b o k : In (o, k) b -> (forall e, In e b -> demangle (fst e) = demangle o -> e = (o, k)) -> NoDup b ->
  In (demangle o, k) (input_map b).
Proof.
  intros I U N. apply in_split in I as (b1 & b2 & ->). unfold input_map. rewrite fold_left_app. cbn [fold_left fst snd].
  apply (dget_In String.eqb String.eqb_eq). apply im_get.
  - intros e J E. apply NoDup_remove_2 in N. apply N. rewrite <- (U e); auto; apply in_app_iff; right; auto. now right.
  - rewrite (dget_dset String.eqb String.eqb_eq). now rewrite String.eqb_refl.
Qed.

(** ** Events *)
Lemma enum_nth {A} (l : list A) : forall n i x, In (i, x) (enum_from n l) <-> exists j, i = (n + j)%nat /\ nth_error l j = Some x.
Proof.
  induction l as [|y l IH]; intros n i x; cbn [enum_from]; [split; [easy|intros (j & _ & E); destruct j; discriminate]|].
  cbn [In]. rewrite IH. split.
  - intros [E|(j & -> & E)]; [injection E as <- <-; exists 0%nat; split; [lia|auto]|exists (Datatypes.S j); split; [lia|auto]].
  - intros ([|j] & -> & E); cbn [nth_error] in E; [left; injection E as ->; f_equal; lia|right; exists j; split; [lia|auto]].
Qed.

Lemma drain_all {BI} (ms : list (mapping BI)) : forall max, drain max (map Ok ms) = (firstn (Z.to_nat max) ms, None).
Proof.
  induction ms as [|m ms IH]; intros max; cbn [map drain].
  - rewrite firstn_nil. now destruct (max <=? 0).
  - destruct (max <=? 0) eqn:E; [apply Z.leb_le in E; replace (Z.to_nat max) with 0%nat by lia; reflexivity|]. apply Z.leb_gt in E.
    rewrite IH. replace (Z.to_nat max) with (Datatypes.S (Z.to_nat (max - 1))) by lia. reflexivity.
Qed.

Section C72.
  Context {T S BI SI : Type} (teqb : T -> T -> bool) (seqb : S -> S -> bool).
  Variables (pe_in : list (string * T)) (pe_out : list string) (pe_call : SI -> list (option S * term)).
  Variables (core_ports : list (string * T)) (core : S * term) (bv_all : list BI) (smt_all : list SI).
  Variables (bv_ok : BI -> bool) (smt_ok : SI -> bool) (equal : term -> term -> bool).
  (** What a Python instruction computes: sort and value of each output. *)
  Variable pe_bv : BI -> list (option S * term).
  (** Values of the inputs of the CoreIR module that are of their types. *)
  Variable typed : env -> Prop.

  Definition named (k : string) : Prop := In k (map fst pe_in).

  (** The value PE input [k] gets from a binding. *)
  Definition feeds (b : list (option string * string)) (x l : env) : Prop :=
    forall o k, In (o, k) b -> l k = match o with Some v => x v | None => 0 end.

  (** What the user supplies and what is assumed of the solver. *)
  Record setup : Prop := {
    su_teqb : forall a b, teqb a b = true <-> a = b;
    su_seqb : forall a b, seqb a b = true <-> a = b;
    su_pe : NoDup (map fst pe_in);
    su_ports : NoDup (map fst core_ports);
    su_names : ~ In "in_"%string (map fst core_ports) /\ ~ In "0"%string (map fst core_ports);
    (** the solver answers the queries of the mapper rightly *)
    su_solver : forall i so t b, In i bv_all -> In (so, t) (pe_bv i) -> type_correct String.eqb pe_in (mangled core_ports) b ->
      equal (fun x => t (bound b x)) (snd core) = true <-> forall x, typed x -> t (bound b x) = snd core x;
    (** the PE reads its inputs only *)
    su_local : forall i so t l l', In i bv_all -> In (so, t) (pe_bv i) -> (forall k, named k -> l k = l' k) -> t l = t l';
    (** the two instruction sets enumerate alike, with the same constraints and values *)
    su_isa : Forall2 (fun i s => bv_ok i = smt_ok s /\ pe_bv i = pe_call s) bv_all smt_all;
    su_out : forall i, In i bv_all -> (length (pe_bv i) <= length pe_out)%nat }.

  (** A mapping used as a rewrite rule: PE inputs named in the input map get the
      value of the CoreIR input, all others 0. *)
  Definition correct (m : mapping BI) : Prop :=
    In (m_inst m) bv_all /\ bv_ok (m_inst m) = true /\
    exists idx t, nth_error pe_out idx = Some (m_out m) /\ nth_error (pe_bv (m_inst m)) idx = Some (Some (fst core), t) /\
      forall x l, typed x ->
        (forall v k, In (v, k) (m_in m) -> v <> "0"%string -> l k = x (mangle v)) ->
        (forall k, named k -> (forall v, In (v, k) (m_in m) -> v = "0"%string) -> l k = 0) ->
        t l = snd core x.

  Section Under.
    Hypothesis su : setup.
    Hypothesis A : asserts teqb pe_in core_ports = true.
    Let ports := mangled core_ports.

    Lemma b_facts b : In b (bindings teqb pe_in core_ports) ->
      NoDup (map snd b) /\ (forall k, named k <-> In k (map snd b)) /\
      (forall v k, In (Some v, k) b -> In v (map fst ports)) /\
      (forall v k k', In (Some v, k) b -> In (Some v, k') b -> k = k').
    Proof.
      intros I. apply bindings_sound in I; try apply su; auto. destruct I as (P & H1 & H2).
      split; [rewrite P; apply su|]. split; [intros k; unfold named; split; apply Permutation_in; [now symmetry|auto]|]. split.
      - intros v k I. destruct (H1 v k I) as (t & J & _). exact (in_map fst _ _ J).
      - intros v k k' I J. destruct (H1 v k I) as (t & K & _). specialize (H2 v t K).
        unfold uses in H2. match type of H2 with length (filter ?f b) = _ => set (g := f) in H2 end.
        assert (F : forall a, In (Some v, a) b -> In (Some v, a) (filter g b)).
        { intros a L. apply filter_In. split; auto. unfold g. cbn. apply String.eqb_refl. }
        apply F in I. apply F in J. destruct (filter g b) as [|e [|e' r]]; try discriminate.
        destruct I as [I|[]], J as [J|[]]. congruence.
    Qed.

    Lemma port_name v : In v (map fst ports) -> v <> "in"%string /\ v <> "0"%string /\ mangle (demangle (Some v)) = v /\ demangle (Some v) <> "0"%string.
    Proof.
      unfold ports, mangled. rewrite map_map. cbn [fst]. intros I. apply in_map_iff in I as ([p t] & <- & I). cbn [fst].
      destruct (su_names su) as [N1 N2]. assert (J : In p (map fst core_ports)) by exact (in_map fst _ _ I).
      assert (p <> "in_"%string) by (intros ->; contradiction). assert (p <> "0"%string) by (intros ->; contradiction).
      unfold mangle, demangle. destruct (String.eqb p "in") eqn:E; [cbn; repeat split; discriminate|].
      apply String.eqb_neq in E. assert (E' : String.eqb p "in_" = false) by now apply String.eqb_neq. rewrite E'.
      repeat split; auto. apply String.eqb_neq in E. now rewrite E.
    Qed.
    Lemma demangle_inj v w : In v (map fst ports) -> In w (map fst ports) -> demangle (Some v) = demangle (Some w) -> v = w.
    Proof. intros I J E. destruct (port_name v I) as (_ & _ & <- & _), (port_name w J) as (_ & _ & <- & _). now rewrite E. Qed.

    Lemma snd_NoDup (b : list (option string * string)) : NoDup (map snd b) -> NoDup b.
    Proof. apply NoDup_map_inv. Qed.
    Lemma snd_inj (b : list (option string * string)) o o' k : NoDup (map snd b) -> In (o, k) b -> In (o', k) b -> o = o'.
    Proof.
      induction b as [|[p a] b IH]; cbn [map snd]; intros N I J; [easy|]. apply NoDup_cons_iff in N as [N1 N2].
      destruct I as [I|I], J as [J|J]; try congruence; auto.
      - injection I as -> ->. destruct N1. exact (in_map snd _ _ J).
      - injection J as -> ->. destruct N1. exact (in_map snd _ _ I).
    Qed.

    Lemma im_some b v k : In b (bindings teqb pe_in core_ports) -> v <> "0"%string ->
      In (v, k) (input_map b) <-> exists w, In (Some w, k) b /\ demangle (Some w) = v.
    Proof.
      intros I Hv. destruct (b_facts b I) as (N & K & V & U). split.
      - intros J. apply im_In in J as [J|([w|] & J & E)]; [destruct J|eauto|]. cbn in E. congruence.
      - intros (w & J & <-). apply im_complete; auto; [|now apply snd_NoDup].
        intros [[w'|] k'] L E; cbn [fst] in E.
        + assert (w' = w) by (eapply demangle_inj; eauto). subst w'. f_equal. eauto.
        + cbn [demangle] in E. symmetry in E. now apply (port_name w (V _ _ J)) in E.
    Qed.

    (** A valuation built from the input map is the one of the binding. *)
    Lemma im_feeds b x l : In b (bindings teqb pe_in core_ports) ->
      (forall v k, In (v, k) (input_map b) -> v <> "0"%string -> l k = x (mangle v)) ->
      (forall k, named k -> (forall v, In (v, k) (input_map b) -> v = "0"%string) -> l k = 0) -> feeds b x l.
    Proof.
      intros I H1 H2 [v|] k J; destruct (b_facts b I) as (N & K & V & U).
      - destruct (port_name v (V _ _ J)) as (_ & _ & E & D). rewrite <- E. apply H1; auto. apply im_some; eauto.
      - apply H2; [apply K; exact (in_map snd _ _ J)|]. intros v L. apply im_In in L as [L|(o & L & E)]; [destruct L|].
        rewrite (snd_inj b o None k N L J) in E. now rewrite <- E.
    Qed.

    Lemma feeds_bound b x l k : In b (bindings teqb pe_in core_ports) -> feeds b x l -> named k -> l k = bound b x k.
    Proof.
      intros I F J. destruct (b_facts b I) as (N & K & _). apply K in J. apply in_map_iff in J as ([o a] & E & J). cbn [snd] in E. subst a.
      unfold bound. rewrite (dget_NoDup String.eqb String.eqb_eq _ k o).
      - rewrite (F o k J). now destruct o.
      - rewrite map_map. cbn [fst]. exact N.
      - apply in_map_iff. now exists (o, k).
    Qed.
    Lemma bound_feeds b x : In b (bindings teqb pe_in core_ports) -> feeds b x (bound b x).
    Proof.
      intros I o k J. destruct (b_facts b I) as (N & _). unfold bound. rewrite (dget_NoDup String.eqb String.eqb_eq _ k o).
      - now destruct o.
      - rewrite map_map. cbn [fst]. exact N.
      - apply in_map_iff. now exists (o, k).
    Qed.

    Lemma F2_filter (l : list BI) (m : list SI) : Forall2 (fun i s => bv_ok i = smt_ok s /\ pe_bv i = pe_call s) l m ->
      Forall2 (fun i s => bv_ok i = true /\ pe_bv i = pe_call s) (filter bv_ok l) (filter smt_ok m).
    Proof. induction 1 as [|i s l m [E P] _ IH]; cbn [filter]; auto. rewrite <- E. destruct (bv_ok i) eqn:X; auto. Qed.

    Lemma F2_nth_r {X Y} (R : X -> Y -> Prop) l m : Forall2 R l m -> forall n y, nth_error m n = Some y -> exists x, nth_error l n = Some x /\ R x y.
    Proof. induction 1; intros [|n] z E; try discriminate; cbn in *; [injection E as <-|]; eauto. Qed.
    Lemma F2_nth_l {X Y} (R : X -> Y -> Prop) l m : Forall2 R l m -> forall n x, nth_error l n = Some x -> exists y, nth_error m n = Some y /\ R x y.
    Proof. induction 1; intros [|n] z E; try discriminate; cbn in *; [injection E as <-|]; eauto. Qed.

    Let evs := events teqb seqb pe_in pe_out pe_call core_ports core bv_all smt_all bv_ok smt_ok equal.

    Lemma sort_spec so : opt_seqb seqb so (fst core) = true <-> so = Some (fst core).
    Proof.
      unfold opt_seqb. destruct so as [c|]; [|split; discriminate]. rewrite (su_seqb su). split; [now intros ->|now intros [= ->]].
    Qed.

    Lemma events_In e : In e evs <-> exists n i b idx t o, nth_error (filter bv_ok bv_all) n = Some i /\
      In b (bindings teqb pe_in core_ports) /\ nth_error (pe_bv i) idx = Some (Some (fst core), t) /\ nth_error pe_out idx = Some o /\
      (forall x, typed x -> t (bound b x) = snd core x) /\ e = Ok (Mapping i o (input_map b)).
    Proof.
      pose proof (F2_filter _ _ (su_isa su)) as F. unfold evs, events. rewrite in_flat_map. split.
      - intros ([n s] & I & J). apply in_flat_map in J as (b & Ib & J). apply in_flat_map in J as ([idx [so t]] & Io & J).
        cbn [fst snd] in *. apply enum_nth in I as (j & En & I). cbn in En. subst j. apply enum_nth in Io as (j & En & Io). cbn in En. subst j.
        destruct (opt_seqb seqb so (fst core) && _) eqn:E; [|destruct J]. apply andb_prop in E as [E1 E2]. destruct J as [<-|[]].
        apply sort_spec in E1. subst so.
        destruct (F2_nth_r _ _ _ F _ _ I) as (i & Ei & _ & Ev). rewrite <- Ev in Io.
        assert (Ii : In i bv_all) by (apply nth_error_In in Ei; now apply filter_In in Ei).
        assert (Lo : (idx < length pe_out)%nat).
        { pose proof (su_out su i Ii). assert (idx < length (pe_bv i))%nat by (apply nth_error_Some; intros X; pose proof (eq_trans (eq_sym Io) X); discriminate). lia. }
        apply nth_error_Some in Lo. destruct (nth_error pe_out idx) as [o|] eqn:Eo; [|congruence]. rewrite Ei.
        exists n, i, b, idx, t, o. repeat split; auto.
        apply (su_solver su i (Some (fst core)) t b); auto; [exact (nth_error_In _ _ Io)|]. apply (bindings_sound teqb); auto; apply su.
      - intros (n & i & b & idx & t & o & Ei & Ib & Et & Eo & E2 & ->).
        assert (Ii : In i bv_all) by (apply nth_error_In in Ei; now apply filter_In in Ei).
        destruct (F2_nth_l _ _ _ F _ _ Ei) as (s & Es & _ & Ev).
        exists (n, s). split; [apply enum_nth; now exists n|]. apply in_flat_map. exists b. split; auto. apply in_flat_map.
        exists (idx, (Some (fst core), t)). split; [apply enum_nth; exists idx; split; [reflexivity|cbn [snd]; rewrite <- Ev; exact Et]|]. cbn [fst snd]. rewrite Ei, Eo.
        rewrite (proj2 (sort_spec (Some (fst core))) eq_refl).
        rewrite (proj2 (su_solver su i (Some (fst core)) t b Ii (nth_error_In _ _ Et) (bindings_sound teqb (su_teqb su) _ _ (su_pe su) (su_ports su) (proj1 (su_names su)) b A Ib)) E2). now left.
    Qed.

    Lemma events_ok : exists all, evs = map Ok all.
    Proof.
      assert (H : forall l : list (res (mapping BI)), (forall e, In e l -> exists m, e = Ok m) -> exists all, l = map Ok all).
      { induction l as [|e l IH]; intros H; [now exists []|]. destruct (H e (or_introl eq_refl)) as (m & ->).
        destruct IH as (all & ->); [intros; apply H; now right|]. now exists (m :: all). }
      apply H. intros e I. apply events_In in I as (n & i & b & idx & t & o & I). decompose [and] I. eauto.
    Qed.
  End Under.

  Definition has_attrs (attrs : list string) : Prop := In "_peak_inputs_"%string attrs /\ In "_peak_outputs_"%string attrs.
  Let gen := gen_mapping teqb seqb pe_in pe_out pe_call core_ports core bv_all smt_all bv_ok smt_ok equal.

  (** The mappings a user may expect: instruction, output and inputs fed by CoreIR
      inputs, of a binding under which the values agree. *)
  Definition yields (all : list (mapping BI)) i b idx : Prop :=
    exists m, In m all /\ m_inst m = i /\ nth_error pe_out idx = Some (m_out m) /\
      forall v k, v <> "0"%string -> (In (v, k) (m_in m) <-> exists p, In (Some p, k) b /\ p = mangle v /\ v = demangle (Some p)).

  Lemma has_attrs_b attrs : existsb (String.eqb "_peak_inputs_") attrs && existsb (String.eqb "_peak_outputs_") attrs = true <-> has_attrs attrs.
  Proof.
    rewrite andb_true_iff, !existsb_exists. unfold has_attrs. split.
    - intros [(x & I & E) (y & J & F)]. apply String.eqb_eq in E, F. now subst.
    - intros [I J]. split; [exists "_peak_inputs_"%string|exists "_peak_outputs_"%string]; auto.
  Qed.

  Lemma gen_main attrs b0 : setup -> has_attrs attrs -> type_correct String.eqb pe_in (mangled core_ports) b0 ->
    exists all, (forall max, gen attrs max = (firstn (Z.to_nat max) all, None)) /\
      (forall m, In m all -> correct m) /\
      (forall i b idx t, In i bv_all -> bv_ok i = true -> type_correct String.eqb pe_in (mangled core_ports) b ->
        nth_error (pe_bv i) idx = Some (Some (fst core), t) -> (forall x l, typed x -> feeds b x l -> t l = snd core x) -> yields all i b idx).
  Proof.
    intros su Ha C0. assert (A : asserts teqb pe_in core_ports = true) by (apply (bindings_complete teqb (su_teqb su) _ _ (su_pe su) (su_ports su) (proj1 (su_names su)) b0 C0)).
    destruct (events_ok su A) as (all & E). exists all. split; [|split].
    - intros max. unfold gen, gen_mapping. rewrite (proj2 (has_attrs_b attrs) Ha), A, E. cbn [negb]. apply drain_all.
    - intros m I. apply (in_map Ok) in I. rewrite <- E in I. apply (events_In su A) in I as (n & i & b & idx & t & o & Ei & Ib & Et & Eo & Eq & X).
      injection X as ->. unfold correct. cbn [m_inst m_out m_in]. apply nth_error_In, filter_In in Ei as [Ii Ok_]. split; auto. split; auto.
      exists idx, t. split; auto. split; auto. intros x l Tx H1 H2. rewrite <- (Eq x Tx).
      apply (su_local su i (Some (fst core)) t l _ Ii (nth_error_In _ _ Et)). intros k N. apply (feeds_bound su A); auto. now apply (im_feeds su A).
    - intros i b idx t Ii Oki C Et H.
      destruct (bindings_complete teqb (su_teqb su) _ _ (su_pe su) (su_ports su) (proj1 (su_names su)) b C) as (_ & b' & P & Ib).
      assert (If : In i (filter bv_ok bv_all)) by (apply filter_In; auto). apply In_nth_error in If as (n & En).
      assert (Lo : (idx < length pe_out)%nat).
      { pose proof (su_out su i Ii). assert (idx < length (pe_bv i))%nat by (apply nth_error_Some; intros X; pose proof (eq_trans (eq_sym Et) X); discriminate). lia. }
      apply nth_error_Some in Lo. destruct (nth_error pe_out idx) as [o|] eqn:Eo; [|congruence].
      exists (Mapping i o (input_map b')). split; [|split; [reflexivity|split; [exact Eo|]]].
      + assert (J : In (Ok (Mapping i o (input_map b'))) (map Ok all)).
        { rewrite <- E. apply (events_In su A). exists n, i, b', idx, t, o. repeat split; auto.
          intros x Tx. apply H; auto. intros p k J. apply (bound_feeds su A); auto. now apply (Permutation_in _ P). }
        apply in_map_iff in J as (m & X & J). injection X as <-. exact J.
      + intros v k Hv. cbn [m_in]. rewrite (im_some su A b' v k Ib Hv). split.
        * intros (w & J & D). exists w. split; [apply (Permutation_in _ (Permutation_sym P)); auto|]. split; auto.
          destruct (b_facts su A b' Ib) as (_ & _ & V & _). destruct (port_name su w (V _ _ J)) as (_ & _ & X & _). now rewrite <- D, X.
        * intros (w & J & _ & D). exists w. split; auto. apply (Permutation_in _ P); auto.
  Qed.

  Lemma gen_assert attrs max : setup -> has_attrs attrs -> (gen attrs max = ([], Some AssertionError) <-> ~ exists b, type_correct String.eqb pe_in (mangled core_ports) b).
  Proof.
    intros su Ha. split.
    - intros G (b & C). destruct (gen_main attrs b su Ha C) as (all & H & _). rewrite H in G. discriminate.
    - intros N. unfold gen, gen_mapping. rewrite (proj2 (has_attrs_b attrs) Ha). cbn [negb].
      destruct (asserts teqb pe_in core_ports) eqn:A; auto. destruct N. apply (asserts_complete teqb); auto; apply su.
  Qed.

  Lemma gen_attrs attrs max : ~ has_attrs attrs -> gen attrs max = ([], Some AttributeError).
  Proof.
    intros N. unfold gen, gen_mapping. destruct (existsb (String.eqb "_peak_inputs_") attrs && existsb (String.eqb "_peak_outputs_") attrs) eqn:E; auto.
    apply has_attrs_b in E. contradiction.
  Qed.
End C72.

(** A user who sets the PE inputs the input map names, and no others. *)
Definition as_recorded {BI} (m : mapping BI) (x l : env) : Prop :=
  forall v k, In (v, k) (m_in m) -> l k = if String.eqb v "0" then 0 else x (mangle v).

(** The property in full: for every Peak class, the generator yields without an
    exception, up to the number asked for, each mapping once; each is right for
    a user who follows it; every instruction, binding and output that implements
    the CoreIR module is among them. *)
Definition C72_full : Prop :=
  forall T S BI SI teqb seqb pe_in pe_out pe_call core_ports core bv_all smt_all bv_ok smt_ok equal pe_bv typed user,
    @setup T S BI SI teqb seqb pe_in pe_out pe_call core_ports core bv_all smt_all bv_ok smt_ok equal pe_bv typed ->
    (exists b, type_correct String.eqb pe_in (mangled core_ports) b) ->
    exists all, (forall max, gen_mapping teqb seqb pe_in pe_out pe_call core_ports core bv_all smt_all bv_ok smt_ok equal (call_attrs user) max = (firstn (Z.to_nat max) all, None)) /\
      NoDup all /\
      (forall m, In m all -> exists idx t, nth_error pe_out idx = Some (m_out m) /\ nth_error (pe_bv (m_inst m)) idx = Some (Some (fst core), t) /\
         forall x l, typed x -> as_recorded m x l -> t l = snd core x) /\
      (forall i b idx t, In i bv_all -> bv_ok i = true -> type_correct String.eqb pe_in (mangled core_ports) b ->
        nth_error (pe_bv i) idx = Some (Some (fst core), t) -> (forall x l, typed x -> feeds b x l -> t l = snd core x) -> yields pe_out all i b idx).

(** Missing for C72: the attributes lines 55-56 read have to be there (no class
    gets them from the library, see [C72_attrs_refuted]); inputs the input map
    does not name have to be 0 ([C72_zero_refuted]); mappings may be yielded
    several times ([C72_once_refuted]); no port of the CoreIR module may be named
    [in_] or [0]. *)
Theorem C72_mappings_partial :
  forall T S BI SI teqb seqb pe_in pe_out pe_call core_ports core bv_all smt_all bv_ok smt_ok equal pe_bv typed attrs,
    @setup T S BI SI teqb seqb pe_in pe_out pe_call core_ports core bv_all smt_all bv_ok smt_ok equal pe_bv typed -> has_attrs attrs ->
    (exists b, type_correct String.eqb pe_in (mangled core_ports) b) ->
    exists all, (forall max, gen_mapping teqb seqb pe_in pe_out pe_call core_ports core bv_all smt_all bv_ok smt_ok equal attrs max = (firstn (Z.to_nat max) all, None)) /\
      (forall m, In m all -> correct pe_in pe_out core bv_all bv_ok pe_bv typed m) /\
      (forall i b idx t, In i bv_all -> bv_ok i = true -> type_correct String.eqb pe_in (mangled core_ports) b ->
        nth_error (pe_bv i) idx = Some (Some (fst core), t) -> (forall x l, typed x -> feeds b x l -> t l = snd core x) -> yields pe_out all i b idx).
Proof. intros. destruct H1 as (b0 & C). eapply gen_main; eauto. Qed.

(** If the inputs do not fit, and only then, an AssertionError is raised. *)
Theorem C72_assert :
  forall T S BI SI teqb seqb pe_in pe_out pe_call core_ports core bv_all smt_all bv_ok smt_ok equal pe_bv typed attrs max,
    @setup T S BI SI teqb seqb pe_in pe_out pe_call core_ports core bv_all smt_all bv_ok smt_ok equal pe_bv typed -> has_attrs attrs ->
    gen_mapping teqb seqb pe_in pe_out pe_call core_ports core bv_all smt_all bv_ok smt_ok equal attrs max = ([], Some AssertionError) <->
    ~ exists b, type_correct String.eqb pe_in (mangled core_ports) b.
Proof. intros. eapply gen_assert; eauto. Qed.

(** With the attributes the library sets, the generator always fails. *)
Theorem C72_attrs_refuted :
  forall T S BI SI teqb seqb pe_in pe_out pe_call core_ports core bv_all smt_all bv_ok smt_ok equal user max,
    ~ (In "_peak_inputs_"%string user /\ In "_peak_outputs_"%string user) ->
    @gen_mapping T S BI SI teqb seqb pe_in pe_out pe_call core_ports core bv_all smt_all bv_ok smt_ok equal (call_attrs user) max = ([], Some AttributeError).
Proof.
  intros. apply gen_attrs. intros [A B]. apply H. unfold call_attrs in *. apply in_app_iff in A, B.
  split; [destruct A as [A|A]; auto|destruct B as [B|B]; auto]; cbn in *; intuition discriminate.
Qed.

(** ** A PE with four inputs of one bit *)
Definition ex_in : list (string * unit) := [("a", tt); ("b", tt); ("c", tt); ("d", tt)]%string.
Definition ex_bv (i : bool) : list (option unit * term) :=
  [(None, fun _ => 7); (Some tt, fun l => if i then (l "a" + l "b" + l "c" + l "d") mod 2 else l "a")]%string.
Definition ex_ports : list (string * unit) := [("in", tt)]%string.
Definition ex_core : unit * term := (tt, fun x => x "in_"%string).
Definition ex_typed (x : env) : Prop := x "in_"%string = 0 \/ x "in_"%string = 1.
Definition ex_equal (t u : term) : bool := (t (fun _ => 0) =? u (fun _ => 0)) && (t (fun _ => 1) =? u (fun _ => 1)).
Definition ueqb (_ _ : unit) := true.
Definition ex_gen := gen_mapping ueqb ueqb ex_in ["p"; "q"]%string ex_bv ex_ports ex_core [true; false] [true; false] (fun _ => true) (fun _ => true) ex_equal.
Definition ex_attrs := ["_peak_inputs_"; "_peak_outputs_"]%string.

Lemma NoDup_strings l : (forallb (fun x => Nat.eqb (length (filter (String.eqb x) l)) 1) l) = true -> NoDup l.
Proof.
  intros H. rewrite forallb_forall in H.
  assert (X : forall l, (forall x, In x l -> length (filter (String.eqb x) l) = 1%nat) -> NoDup l).
  { clear. induction l as [|y l IH]; intros H; constructor.
    - intros I. specialize (H y (or_introl eq_refl)). cbn [filter] in H. rewrite String.eqb_refl in H. cbn [length] in H.
      destruct (filter (String.eqb y) l) as [|z f] eqn:F; [|discriminate].
      assert (J : In y (filter (String.eqb y) l)) by (apply filter_In; split; auto; apply String.eqb_refl). rewrite F in J. destruct J.
    - apply IH. intros x I. specialize (H x (or_intror I)). cbn [filter] in H. destruct (String.eqb x y) eqn:E; auto.
      apply String.eqb_eq in E. subst y. cbn [length] in H.
      destruct (filter (String.eqb x) l) as [|z f] eqn:F; [|discriminate].
      assert (J : In x (filter (String.eqb x) l)) by (apply filter_In; split; auto; apply String.eqb_refl). rewrite F in J. destruct J. }
  apply X. intros x I. apply Nat.eqb_eq. auto.
Qed.

Lemma ex_bound b x : type_correct String.eqb ex_in (mangled ex_ports) b -> forall k, bound b x k = bound b (fun _ => x "in_"%string) k.
Proof.
  intros (_ & H & _) k. unfold bound. destruct (dget String.eqb (map (fun e => (snd e, fst e)) b) k) as [[v|]|] eqn:E; auto.
  apply (dget_In String.eqb String.eqb_eq) in E. apply in_map_iff in E as ([o a] & X & I). cbn [fst snd] in X. injection X as -> ->.
  destruct (H v k I) as (t & [J|[]] & _). now injection J as <-.
Qed.

Lemma ex_setup : setup ueqb ueqb ex_in ["p"; "q"]%string ex_bv ex_ports ex_core [true; false] [true; false] (fun _ => true) (fun _ => true) ex_equal ex_bv ex_typed.
Proof.
  constructor.
  - intros [] []. cbn. intuition.
  - intros [] []. cbn. intuition.
  - now apply NoDup_strings.
  - now apply NoDup_strings.
  - split; intros [E|[]]; discriminate.
  - intros i so t b _ I C. unfold ex_equal. rewrite andb_true_iff, !Z.eqb_eq.
    assert (L : forall l l', (forall k, l k = l' k) -> t l = t l').
    { intros l l' H. destruct I as [E|[E|[]]]; injection E as <- <-; auto. destruct i; now rewrite ?H. }
    split.
    + intros [H0 H1] x T. rewrite (L _ _ (ex_bound b x C)). unfold ex_core in *. cbn [snd] in *. destruct T as [->| ->]; auto.
    + intros H. split; apply H; [now left|now right].
  - intros i so t l l' _ [E|[E|[]]] H; injection E as <- <-; auto. destruct i; rewrite ?(H "a"%string), ?(H "b"%string), ?(H "c"%string), ?(H "d"%string); auto; cbn; auto.
  - repeat constructor.
  - intros i _. cbn. lia.
Qed.
Lemma ex_fits : exists b, type_correct String.eqb ex_in (mangled ex_ports) b.
Proof.
  exists [(Some "in_", "a"); (None, "b"); (None, "c"); (None, "d")]%string. split; [reflexivity|]. split.
  - intros p a [E|[E|[E|[E|[]]]]]; try discriminate. injection E as <- <-. exists tt. cbn. auto.
  - intros p t [E|[]]. injection E as <- <-. reflexivity.
Qed.
Lemma ex_has : has_attrs ex_attrs. Proof. cbn. unfold has_attrs. cbn. auto. Qed.

(** What the generator yields for it, among others. *)
Example C72_case :
  ex_gen ex_attrs 1 = ([Mapping true "q" [("in", "a"); ("0", "d")]], None)%string /\
  length (fst (ex_gen ex_attrs 100)) = 30%nat /\
  ex_gen ["_input_t"; "_output_t"]%string 1 = ([], Some AttributeError) /\
  gen_mapping ueqb ueqb [] ["p"]%string ex_bv ex_ports ex_core [true] [true] (fun _ => true) (fun _ => true) ex_equal ex_attrs 1 = ([], Some AssertionError).
Proof. repeat split; vm_compute; reflexivity. Qed.

(** A user who sets what the input map says, [in] on [a] and 0 on [d], gets
    another value: nothing says that [b] and [c] have to be 0. *)
Theorem C72_zero_refuted : exists m, fst (ex_gen ex_attrs 1) = [m] /\
  exists x l, ex_typed x /\ as_recorded m x l /\ forall t, nth_error (ex_bv (m_inst m)) 1 = Some (Some tt, t) -> t l <> snd ex_core x.
Proof.
  eexists. split; [vm_compute; reflexivity|]. exists (fun _ => 0), (fun k => if String.eqb k "b" then 1 else 0). split; [now left|]. split.
  - intros v k [E|[E|[]]]; injection E as <- <-; reflexivity.
  - intros t E. injection E as <-. vm_compute. discriminate.
Qed.

(** The same mapping is yielded twice. *)
Theorem C72_once_refuted : ~ NoDup (fst (ex_gen ex_attrs 100)).
Proof.
  assert (E : exists m r, fst (ex_gen ex_attrs 100) = m :: r /\ In m r).
  { eexists. eexists. split; [vm_compute; reflexivity|]. cbn. tauto. }
  destruct E as (m & r & -> & I). intros N. apply NoDup_cons_iff in N as [N _]. contradiction.
Qed.

Theorem C72_full_refuted : ~ C72_full.
Proof.
  intros F. destruct (F _ _ _ _ _ _ _ _ _ _ _ _ _ _ _ _ _ _ [] ex_setup ex_fits) as (all & G & _).
  specialize (G 0). rewrite C72_attrs_refuted in G; [discriminate|]. intros [[] _].
Qed.

Print Assumptions C72_mappings_partial.
Print Assumptions C72_assert.
Print Assumptions C72_attrs_refuted.
Print Assumptions C72_case.
Print Assumptions C72_zero_refuted.
Print Assumptions C72_once_refuted.
Print Assumptions C72_full_refuted.
