(** C31: create_bindings enumerates exactly the type-correct bindings. *)
From Coq Require Import ZArith List Bool Arith Lia Permutation.
From Verif Require Import Base BindModel.
Import ListNotations.
Open Scope list_scope.

(** ** Cartesian products *)
Lemma iprod_In {A} (ls : list (list A)) : forall p, In p (iprod ls) <-> Forall2 (@In A) p ls.
Proof.
  induction ls as [|l ls IH]; intros p; cbn [iprod].
  - split; [intros [<-|[]]; constructor|]. intros H. inversion H. now left.
  - rewrite in_flat_map. split.
    + intros (x & I & J). apply in_map_iff in J as (q & <- & J). constructor; auto. now apply IH.
    + intros H. inversion H as [|x ? q ? I F]; subst. exists x. split; auto. apply in_map. now apply IH.
Qed.

Lemma NoDup_app_intro {A} (l m : list A) : NoDup l -> NoDup m -> (forall x, In x l -> ~ In x m) -> NoDup (l ++ m).
Proof.
  induction l as [|x l IH]; intros Nl Nm D; cbn [app]; auto. inversion Nl as [|? ? N1 N2]; subst.
  constructor.
  - intros I. apply in_app_iff in I as [I|I]; [contradiction|]. exact (D x (or_introl eq_refl) I).
  - apply IH; auto. intros y I. apply D. now right.
Qed.

Lemma NoDup_map_inj {A B} (f : A -> B) l : (forall x y, In x l -> In y l -> f x = f y -> x = y) ->
  NoDup l -> NoDup (map f l).
Proof.
  induction l as [|x l IH]; intros H N; cbn [map]; [constructor|]. inversion N as [|? ? N1 N2]; subst.
  constructor.
  - intros I. apply in_map_iff in I as (y & E & I). assert (y = x) by (apply H; auto; [now right|now left]).
    subst. contradiction.
  - apply IH; auto. intros a b Ia Ib. apply H; now right.
Qed.

Lemma iprod_NoDup {A} (ls : list (list A)) : Forall (@NoDup A) ls -> NoDup (iprod ls).
Proof.
  induction 1 as [|l ls Hl _ IH]; cbn [iprod]; [repeat constructor; easy|].
  induction Hl as [|x l N _ IHl]; cbn [flat_map]; [constructor|].
  apply NoDup_app_intro; auto.
  - apply NoDup_map_inj; auto. congruence.
  - intros p I J. apply in_map_iff in I as (q & <- & _). apply in_flat_map in J as (y & Iy & J).
    apply in_map_iff in J as (q' & E & _). injection E as -> _. contradiction.
Qed.

Section C31.
  Context {P T : Type} (peqb : P -> P -> bool) (teqb : T -> T -> bool).
  Hypothesis peqb_spec : forall a b, peqb a b = true <-> a = b.
  Hypothesis teqb_spec : forall a b, teqb a b = true <-> a = b.
  Variable pdec : forall a b : P, {a = b} + {a <> b}.

  Lemma teqb_refl t : teqb t t = true.
  Proof. now apply teqb_spec. Qed.
  Lemma teqb_cases a b : (teqb a b = true /\ a = b) \/ (teqb a b = false /\ a <> b).
  Proof.
    destruct (teqb a b) eqn:E; [left; split; [easy|now apply teqb_spec]|right; split; auto].
    intros ->. rewrite teqb_refl in E. discriminate.
  Qed.

  (** ** Grouping by type *)
  Definition of_type (flat : list (P * T)) (t : T) : list P :=
    map fst (filter (fun e => teqb t (snd e)) flat).

  Definition lookup (d : list (T * list P)) (t : T) : list P :=
    match dget teqb d t with Some l => l | None => [] end.

  Lemma dget_dset_t (d : list (T * list P)) t l u :
    dget teqb (dset teqb d t l) u = if teqb u t then Some l else dget teqb d u.
  Proof.
    induction d as [|[k x] d IH]; cbn [dset dget].
    - reflexivity.
    - destruct (teqb_cases t k) as [[E ->]|[E N]]; rewrite E; cbn [dget].
      + destruct (teqb_cases u k) as [[E' ->]|[E' N']]; rewrite ?E'; reflexivity.
      + destruct (teqb_cases u k) as [[E' ->]|[E' N']]; rewrite E'; auto.
        destruct (teqb_cases k t) as [[E'' ->]|[E'' N']]; [congruence|]. now rewrite E''.
  Qed.

  Lemma sort_lookup (flat : list (P * T)) : forall d t, lookup (sort_by_t_from teqb d flat) t = lookup d t ++ of_type flat t.
  Proof.
    induction flat as [|[p u] flat IH]; intros d t; cbn [sort_by_t_from].
    - unfold of_type. cbn. now rewrite app_nil_r.
    - rewrite IH. unfold lookup at 1. rewrite dget_dset_t. unfold of_type at 2. cbn [filter snd].
      destruct (teqb_cases t u) as [[E ->]|[E N]]; rewrite E; cbn [map fst].
      + fold (of_type flat u). rewrite <- app_assoc. reflexivity.
      + reflexivity.
  Qed.

  Lemma dset_keys (d : list (T * list P)) t l u : In u (map fst (dset teqb d t l)) <-> u = t \/ In u (map fst d).
  Proof.
    induction d as [|[k x] d IH]; cbn [dset map fst In].
    - intuition.
    - destruct (teqb_cases t k) as [[E ->]|[E N]]; rewrite E; cbn [map fst In]; [intuition|]. rewrite IH. intuition.
  Qed.

  Lemma dset_NoDup (d : list (T * list P)) t l : NoDup (map fst d) -> NoDup (map fst (dset teqb d t l)).
  Proof.
    induction d as [|[k x] d IH]; cbn [dset map fst]; intros N.
    - constructor; [easy|constructor].
    - inversion N as [|? ? N1 N2]; subst. destruct (teqb_cases t k) as [[E ->]|[E Ne]]; rewrite E; cbn [map fst].
      + constructor; auto.
      + constructor; auto. rewrite dset_keys. intros [->|I]; contradiction.
  Qed.

  Lemma sort_keys (flat : list (P * T)) : forall d, (NoDup (map fst d) -> NoDup (map fst (sort_by_t_from teqb d flat))) /\
    forall t, In t (map fst (sort_by_t_from teqb d flat)) <-> In t (map fst d) \/ In t (map snd flat).
  Proof.
    induction flat as [|[p u] flat IH]; intros d; cbn [sort_by_t_from map snd].
    - split; auto. intros t. cbn. tauto.
    - destruct (IH (dset teqb d u (lookup d u ++ [p]))) as [I1 I2]. split.
      + intros N. apply I1. now apply dset_NoDup.
      + intros t. unfold lookup in I2. rewrite I2, dset_keys. cbn [In]. intuition.
  Qed.

  Lemma dget_keys (d : list (T * list P)) t : In t (map fst d) <-> exists l, dget teqb d t = Some l.
  Proof.
    induction d as [|[k x] d IH]; cbn [map fst dget In].
    - split; [easy|]. intros (l & H). discriminate.
    - destruct (teqb_cases t k) as [[E ->]|[E N]]; rewrite E.
      + split; eauto.
      + rewrite IH. split; [intros [->|H]; [contradiction|auto]|auto].
  Qed.

  Lemma dget_In_t (d : list (T * list P)) t l : NoDup (map fst d) -> In (t, l) d -> dget teqb d t = Some l.
  Proof.
    induction d as [|[k x] d IH]; cbn [map fst dget]; intros N I; [easy|destruct I as [I|I]].
    - injection I as -> ->. now rewrite teqb_refl.
    - inversion N as [|? ? N1 N2]; subst. destruct (teqb_cases t k) as [[E ->]|[E Ne]]; rewrite E; auto.
      exfalso. apply N1. exact (in_map fst _ _ I).
  Qed.

  Lemma sort_by_t_spec (flat : list (P * T)) :
    let d := sort_by_t teqb flat in
    NoDup (map fst d) /\ (forall t, In t (map fst d) <-> In t (map snd flat)) /\
    (forall t l, In (t, l) d -> l = of_type flat t) /\
    (forall t, match dget teqb d t with Some l => l | None => [] end = of_type flat t).
  Proof.
    intros d. destruct (sort_keys flat []) as [N K]. fold (sort_by_t teqb flat) in N, K. fold d in N, K.
    specialize (N (NoDup_nil _)). assert (L : forall t, lookup d t = of_type flat t).
    { intros t. unfold d, sort_by_t. rewrite sort_lookup. reflexivity. }
    split; auto. split; [|split]; auto.
    - intros t. rewrite K. cbn. tauto.
    - intros t l I. rewrite <- L. unfold lookup. now rewrite (dget_In_t d t l N I).
  Qed.

  (** Concatenating the groups permutes the flat list. *)
  Lemma of_type_cons p u flat t : of_type ((p, u) :: flat) t = (if teqb t u then [p] else []) ++ of_type flat t.
  Proof. unfold of_type. cbn [filter snd]. destruct (teqb t u); reflexivity. Qed.

  Lemma groups_perm (flat : list (P * T)) : forall ks, NoDup ks -> (forall t, In t (map snd flat) -> In t ks) ->
    Permutation (flat_map (of_type flat) ks) (map fst flat).
  Proof.
    induction flat as [|[p u] flat IH]; intros ks N H.
    - assert (flat_map (of_type []) ks = []) as -> by (clear; induction ks; auto). constructor.
    - cbn [map fst].
      assert (I : In u ks) by (apply H; now left).
      assert (E : Permutation (flat_map (of_type ((p, u) :: flat)) ks) (p :: flat_map (of_type flat) ks)).
      { clear H IH. induction ks as [|k ks IHk]; [easy|]. inversion N as [|? ? N1 N2]; subst.
        cbn [flat_map]. rewrite of_type_cons. destruct (teqb_cases k u) as [[E ->]|[E Ne]]; rewrite E; cbn [app].
        - constructor. apply Permutation_app_head. clear - N1 teqb_spec.
          induction ks as [|k ks IHk]; [constructor|]. cbn [flat_map]. rewrite of_type_cons.
          destruct (teqb_cases k u) as [[_ ->]|[E _]]; [exfalso; apply N1; now left|]. rewrite E. cbn [app].
          apply Permutation_app_head. apply IHk. intros I. apply N1. now right.
        - destruct I as [->|I]; [congruence|]. rewrite (IHk N2 I). symmetry. apply Permutation_middle. }
      rewrite E. constructor. apply IH; auto. intros t It. apply H. now right.
  Qed.

  Lemma of_type_In flat t p : In p (of_type flat t) <-> In (p, t) flat.
  Proof.
    unfold of_type. rewrite in_map_iff. split.
    - intros ([q u] & <- & I). apply filter_In in I as [I E]. apply teqb_spec in E. cbn [fst snd] in *. now subst.
    - intros I. exists (p, t). split; auto. apply filter_In. split; auto. apply teqb_refl.
  Qed.

  Lemma of_type_NoDup flat t : NoDup (map fst flat) -> NoDup (of_type flat t).
  Proof.
    unfold of_type. induction flat as [|[p u] flat IH]; cbn [map fst filter snd]; intros N; [constructor|].
    inversion N as [|? ? N1 N2]; subst. destruct (teqb t u); auto. cbn [map fst]. constructor; auto.
    intros I. apply N1. apply in_map_iff in I as (e & <- & I). apply filter_In in I as [I _]. now apply in_map.
  Qed.

  (** ** Specification *)

  (** How often an IR path is used by a binding. *)
  Definition uses (b : list (option P * P)) (p : P) : nat :=
    length (filter (fun e => match fst e with Some q => peqb p q | None => false end) b).

  (** The type-correct bindings, in any order of the arch paths. *)
  Definition type_correct (arch ir : list (P * T)) (b : list (option P * P)) : Prop :=
    Permutation (map snd b) (map fst arch) /\
    (forall p a, In (Some p, a) b -> exists t, In (p, t) ir /\ In (a, t) arch) /\
    (forall p t, In (p, t) ir -> uses b p = 1%nat).

  (** ** One type *)
  Lemma count_uses m arch p : length m = length arch -> count peqb (Some p) m = uses (combine m arch) p.
  Proof.
    revert arch. induction m as [|[q|] m IH]; intros [|a arch] L; try discriminate; auto.
    - unfold count, uses in *. cbn [combine filter fst opt_eqb]. injection L as L. specialize (IH arch L).
      destruct (peqb p q); cbn [length]; congruence.
    - unfold count, uses in *. cbn [combine filter fst opt_eqb]. injection L as L. exact (IH arch L).
  Qed.

  Lemma combine_split_eq {A B} (b : list (A * B)) : combine (map fst b) (map snd b) = b.
  Proof. induction b as [|[x y] b IH]; cbn; congruence. Qed.

  Lemma F2_repeat {A} (l : list A) (x : list A) n : Forall2 (@In A) l (repeat x n) <-> length l = n /\ forall y, In y l -> In y x.
  Proof.
    revert l. induction n as [|n IH]; intros l; cbn [repeat].
    - split; [intros H; inversion H; cbn; easy|]. intros [L _]. destruct l; [constructor|discriminate].
    - split.
      + intros H. inversion H as [|y ? l' ? I F]; subst. apply IH in F as [L F]. cbn [length]. split; [lia|].
        intros z [<-|J]; auto.
      + intros [L F]. destruct l as [|y l]; [discriminate|]. constructor; [apply F; now left|].
        apply IH. split; [now injection L|]. intros z J. apply F. now right.
  Qed.

  Lemma type_bindings_In irs archs b :
    In b (type_bindings peqb irs archs) <->
    map snd b = archs /\ (forall p a, In (Some p, a) b -> In p irs) /\ (forall p, In p irs -> uses b p = 1%nat).
  Proof.
    unfold type_bindings. rewrite in_map_iff. split.
    - intros (m & <- & I). apply filter_In in I as [I F]. apply iprod_In, F2_repeat in I as [L I].
      split; [|split].
      + clear - L. revert m L. induction archs as [|a archs IH]; intros [|x m] L; try discriminate; auto.
        cbn. f_equal. apply IH. now injection L.
      + intros p a J. apply in_combine_l in J. apply I in J. apply in_app_iff in J as [J|[J|[]]]; [|discriminate].
        apply in_map_iff in J as (q & [= ->] & J). auto.
      + intros p J. rewrite <- count_uses by auto. unfold filt in F. rewrite forallb_forall in F.
        apply F in J. now apply Nat.eqb_eq in J.
    - intros (E & H & U). exists (map fst b). subst archs. split; [apply combine_split_eq|].
      apply filter_In. split.
      + apply iprod_In, F2_repeat. split; [now rewrite !map_length|].
        intros [p|] I; apply in_app_iff; [left|right; now left].
        apply in_map_iff in I as ([q a] & E & I). cbn [fst] in E. subst q. apply in_map. exact (H p a I).
      + apply forallb_forall. intros p I. apply Nat.eqb_eq. rewrite (count_uses _ (map snd b)) by (now rewrite !map_length).
        rewrite combine_split_eq. auto.
  Qed.

  Lemma combine_inj {A B} (l : list B) : forall (m n : list A), length m = length l -> length n = length l ->
    combine m l = combine n l -> m = n.
  Proof.
    induction l as [|x l IH]; intros [|a m] [|b n] L1 L2 E; try discriminate; auto.
    cbn in E. injection E as -> E. f_equal. apply IH; auto.
  Qed.

  Lemma type_bindings_NoDup irs archs : NoDup irs -> NoDup (type_bindings peqb irs archs).
  Proof.
    intros N. unfold type_bindings. apply NoDup_map_inj.
    - intros m n Im In_ E. apply filter_In in Im as [Im _], In_ as [In_ _].
      apply iprod_In, F2_repeat in Im as [Lm _], In_ as [Ln _]. eapply combine_inj; eauto.
    - apply NoDup_filter, iprod_NoDup, Forall_forall. intros l I. apply repeat_spec in I as ->.
      apply NoDup_app_intro.
      + apply NoDup_map_inj; auto. congruence.
      + constructor; [easy|constructor].
      + intros x I [<-|[]]. apply in_map_iff in I as (q & E & _). discriminate.
  Qed.

  (** ** All types *)
  Lemma uses_app b c p : uses (b ++ c) p = (uses b p + uses c p)%nat.
  Proof. unfold uses. rewrite filter_app, app_length. reflexivity. Qed.

  Lemma uses_zero b p : (forall a, ~ In (Some p, a) b) -> uses b p = 0%nat.
  Proof.
    intros H. unfold uses. induction b as [|[[q|] a] b IH]; auto.
    - cbn [filter fst]. destruct (peqb p q) eqn:E.
      + apply peqb_spec in E. subst q. exfalso. apply (H a). now left.
      + apply IH. intros c I. apply (H c). now right.
    - cbn [filter fst]. apply IH. intros c I. apply (H c). now right.
  Qed.

  Definition order (arch : list (P * T)) : list P := flat_map (of_type arch) (map fst (sort_by_t teqb arch)).

  Lemma order_perm (arch : list (P * T)) : Permutation (order arch) (map fst arch).
  Proof.
    destruct (sort_by_t_spec arch) as (N & K & _ & _). apply groups_perm; auto. intros t I. now apply K.
  Qed.

  (** The group structure of the enumeration. *)
  Lemma create_In (arch ir : list (P * T)) b :
    In b (create_bindings peqb teqb arch ir) <->
    (forall t, In t (map snd ir) -> In t (map snd arch)) /\
    exists bs, b = List.concat bs /\
      Forall2 (fun bt t => In bt (type_bindings peqb (of_type ir t) (of_type arch t))) bs (map fst (sort_by_t teqb arch)).
  Proof.
    destruct (sort_by_t_spec arch) as (Na & Ka & La & _). destruct (sort_by_t_spec ir) as (Ni & Ki & _ & Di).
    unfold create_bindings. cbv zeta.
    set (da := sort_by_t teqb arch) in *. set (di := sort_by_t teqb ir) in *.
    assert (C : forallb (fun e => match dget teqb da (fst e) with Some _ => true | None => false end) di = true <->
                (forall t, In t (map snd ir) -> In t (map snd arch))).
    { rewrite forallb_forall. split.
      - intros H t I. apply Ki, in_map_iff in I as (e & <- & I). specialize (H e I).
        apply Ka, dget_keys. destruct (dget teqb da (fst e)); [eauto|discriminate].
      - intros H e I. assert (In (fst e) (map fst da)) as J.
        { apply Ka, H, Ki. now apply in_map. }
        apply dget_keys in J as (l & ->). reflexivity. }
    assert (M : map (fun e => type_bindings peqb (match dget teqb di (fst e) with Some l => l | None => [] end) (snd e)) da
              = map (fun t => type_bindings peqb (of_type ir t) (of_type arch t)) (map fst da)).
    { rewrite map_map. apply map_ext_in. intros [t l] I. cbn [fst snd]. rewrite Di, (La t l I). reflexivity. }
    destruct (forallb _ di) eqn:E.
    - rewrite M, in_map_iff. split.
      + intros (bs & <- & I). split; [now apply C|]. exists bs. split; auto. apply iprod_In in I.
        clear - I. revert bs I. induction (map fst da) as [|t ts IH]; intros bs I; inversion I; subst; constructor; auto.
      + intros (_ & bs & -> & F). exists bs. split; auto. apply iprod_In.
        clear - F. induction F; constructor; auto.
    - split; [easy|]. intros (H & _). apply C in H. congruence.
  Qed.

  Lemma group_sound (arch ir : list (P * T)) : NoDup (map fst arch) -> NoDup (map fst ir) -> forall ks bs, NoDup ks ->
    Forall2 (fun bt t => In bt (type_bindings peqb (of_type ir t) (of_type arch t))) bs ks ->
    map snd (List.concat bs) = flat_map (of_type arch) ks /\
    (forall p a, In (Some p, a) (List.concat bs) -> exists t, In t ks /\ In (p, t) ir /\ In (a, t) arch) /\
    (forall p t, In t ks -> In (p, t) ir -> uses (List.concat bs) p = 1%nat).
  Proof.
    intros Na Ni ks bs Nk F. induction F as [|bt t bs ks I F IH]; cbn [List.concat flat_map].
    - split; [reflexivity|]. split; [easy|]. intros p t [].
    - inversion Nk as [|? ? N1 N2]; subst. destruct (IH N2) as (I1 & I2 & I3).
      apply type_bindings_In in I as (B1 & B2 & B3). split; [|split].
      + rewrite map_app, B1, I1. reflexivity.
      + intros p a J. apply in_app_iff in J as [J|J].
        * exists t. split; [now left|]. split; [apply of_type_In; eapply B2; eauto|].
          apply of_type_In. rewrite <- B1. exact (in_map snd _ _ J).
        * destruct (I2 p a J) as (u & Iu & X). exists u. split; [now right|auto].
      + assert (One : forall p u v, In (p, u) ir -> In (p, v) ir -> u = v).
        { clear - Ni. intros p u v I J. induction ir as [|[q w] ir IH]; [easy|]. cbn [map fst] in Ni.
          inversion Ni as [|? ? N1 N2]; subst. destruct I as [I|I], J as [J|J].
          - congruence.
          - injection I as -> ->. exfalso. apply N1. exact (in_map fst _ _ J).
          - injection J as -> ->. exfalso. apply N1. exact (in_map fst _ _ I).
          - auto. }
        intros p u Iu Ip. rewrite uses_app. destruct Iu as [<-|Iu].
        * rewrite (B3 p) by (now apply of_type_In). rewrite uses_zero; [reflexivity|].
          intros a J. destruct (I2 p a J) as (v & Iv & Ipv & _). rewrite (One p v t Ipv Ip) in Iv. contradiction.
        * rewrite (I3 p u Iu Ip). rewrite uses_zero; [reflexivity|].
          intros a J. apply B2 in J. apply of_type_In in J. rewrite (One p t u J Ip) in N1. contradiction.
  Qed.

  Lemma create_sound (arch ir : list (P * T)) b : NoDup (map fst arch) -> NoDup (map fst ir) ->
    In b (create_bindings peqb teqb arch ir) -> map snd b = order arch /\ type_correct arch ir b.
  Proof.
    intros Na Ni I. apply create_In in I as (C & bs & -> & F).
    destruct (sort_by_t_spec arch) as (N & K & _ & _).
    destruct (group_sound arch ir Na Ni _ _ N F) as (G1 & G2 & G3). split; [exact G1|]. split; [|split].
    - rewrite G1. apply order_perm.
    - intros p a J. destruct (G2 p a J) as (t & _ & X). eauto.
    - intros p t J. apply (G3 p t); auto. apply K, C. exact (in_map snd _ _ J).
  Qed.

  (** *** Completeness: rearrange a type-correct binding by type. *)
  Definition pick (b : list (option P * P)) (a : P) : list (option P * P) :=
    filter (fun e => if pdec (snd e) a then true else false) b.

  Lemma pick_one b a : NoDup (map snd b) -> In a (map snd b) -> exists x, pick b a = [(x, a)] /\ In (x, a) b.
  Proof.
    induction b as [|[x c] b IH]; cbn [map snd]; intros N I; [easy|]. inversion N as [|? ? N1 N2]; subst.
    unfold pick. cbn [filter snd]. destruct (pdec c a) as [->|Ne].
    - exists x. split; [|now left]. f_equal. clear - N1. induction b as [|[y d] b IH]; auto.
      cbn [filter snd]. destruct (pdec d a) as [->|]; [exfalso; apply N1; now left|].
      apply IH. intros I. apply N1. now right.
    - destruct I as [->|I]; [congruence|]. destruct (IH N2 I) as (y & E & J). exists y. split; [exact E|now right].
  Qed.

  Lemma pick_snd b l : NoDup (map snd b) -> (forall a, In a l -> In a (map snd b)) -> map snd (flat_map (pick b) l) = l.
  Proof.
    intros N. induction l as [|a l IH]; intros H; auto. cbn [flat_map]. rewrite map_app, IH by (intros c I; apply H; now right).
    destruct (pick_one b a N (H a (or_introl eq_refl))) as (x & -> & _). reflexivity.
  Qed.

  Lemma pick_In b l e : In e (flat_map (pick b) l) <-> In e b /\ In (snd e) l.
  Proof.
    rewrite in_flat_map. unfold pick. split.
    - intros (a & I & J). apply filter_In in J as [J E]. destruct (pdec (snd e) a) as [<-|]; [auto|discriminate].
    - intros [I J]. exists (snd e). split; auto. apply filter_In. split; auto. destruct (pdec (snd e) (snd e)); easy.
  Qed.

  Lemma NoDup_of_map {A B} (f : A -> B) l : NoDup (map f l) -> NoDup l.
  Proof.
    induction l as [|x l IH]; cbn [map]; intros N; [constructor|]. inversion N as [|? ? N1 N2]; subst.
    constructor; auto. intros I. apply N1. now apply in_map.
  Qed.

  Lemma pick_perm b l : NoDup (map snd b) -> Permutation l (map snd b) -> Permutation (flat_map (pick b) l) b.
  Proof.
    intros N H. apply NoDup_Permutation.
    - apply (NoDup_of_map snd). rewrite pick_snd; auto.
      + eapply Permutation_NoDup; [symmetry; exact H|exact N].
      + intros a I. now rewrite <- H.
    - now apply NoDup_of_map in N.
    - intros e. rewrite pick_In. split; [tauto|]. intros I. split; auto. rewrite H. now apply in_map.
  Qed.

  Lemma uses_perm b c p : Permutation b c -> uses b p = uses c p.
  Proof.
    unfold uses. intros H. induction H as [|x b c H IH|x y b|b c d H1 IH1 H2 IH2]; cbn [filter]; auto.
    - destruct (match fst x with Some q => peqb p q | None => false end); cbn [length]; auto.
    - destruct (match fst x with Some q => peqb p q | None => false end), (match fst y with Some q => peqb p q | None => false end); auto.
    - congruence.
  Qed.

  Lemma create_complete (arch ir : list (P * T)) b : NoDup (map fst arch) -> NoDup (map fst ir) -> type_correct arch ir b ->
    exists b', Permutation b b' /\ In b' (create_bindings peqb teqb arch ir).
  Proof.
    intros Na Ni (H1 & H2 & H3).
    assert (Nb : NoDup (map snd b)) by (eapply Permutation_NoDup; [symmetry; exact H1|exact Na]).
    destruct (sort_by_t_spec arch) as (N & K & _ & _).
    set (bs := map (fun t => flat_map (pick b) (of_type arch t)) (map fst (sort_by_t teqb arch))).
    assert (Eo : List.concat bs = flat_map (pick b) (order arch)).
    { unfold bs, order. generalize (map fst (sort_by_t teqb arch)) as ks. induction ks as [|k ks IH]; auto.
      cbn [map List.concat flat_map]. rewrite flat_map_app, IH. reflexivity. }
    assert (Pb : Permutation (List.concat bs) b).
    { rewrite Eo. apply pick_perm; auto. rewrite H1. apply order_perm. }
    assert (Used : forall p t, In (p, t) ir -> exists a, In (Some p, a) b).
    { intros p t I. pose proof (H3 p t I) as U. unfold uses in U.
      destruct (filter _ b) as [|[[q|] a] l] eqn:E; [discriminate| |].
      - assert (In (Some q, a) (filter (fun e => match fst e with Some q => peqb p q | None => false end) b)) as J
          by (rewrite E; now left).
        apply filter_In in J as [J E']. cbn [fst] in E'. apply peqb_spec in E'. subst q. eauto.
      - assert (In (None, a) (filter (fun e => match fst e with Some q => peqb p q | None => false end) b)) as J
          by (rewrite E; now left).
        apply filter_In in J as [_ E']. discriminate. }
    exists (List.concat bs). split; [now symmetry|]. apply create_In. split.
    - intros t I. apply in_map_iff in I as ([p u] & <- & I). cbn [snd]. destruct (Used p u I) as (a & J).
      destruct (H2 p a J) as (v & Iv & Av).
      assert (v = u) as <-.
      { clear - Ni I Iv. induction ir as [|[q w] ir IH]; [easy|]. cbn [map fst] in Ni. inversion Ni as [|? ? N1 N2]; subst.
        destruct I as [I|I], Iv as [J|J].
        - congruence.
        - injection I as -> ->. exfalso. apply N1. exact (in_map fst _ _ J).
        - injection J as -> ->. exfalso. apply N1. exact (in_map fst _ _ I).
        - auto. }
      exact (in_map snd _ _ Av).
    - exists bs. split; auto. unfold bs.
      assert (Sub : forall t a, In a (of_type arch t) -> In a (map snd b)).
      { intros t a I. rewrite H1. apply of_type_In in I. exact (in_map fst _ _ I). }
      assert (OneA : forall a u v, In (a, u) arch -> In (a, v) arch -> u = v).
      { clear - Na. intros p u v I J. induction arch as [|[q w] arch IH]; [easy|]. cbn [map fst] in Na.
        inversion Na as [|? ? N1 N2]; subst. destruct I as [I|I], J as [J|J].
        - congruence.
        - injection I as -> ->. exfalso. apply N1. exact (in_map fst _ _ J).
        - injection J as -> ->. exfalso. apply N1. exact (in_map fst _ _ I).
        - auto. }
      assert (OneI : forall a u v, In (a, u) ir -> In (a, v) ir -> u = v).
      { clear - Ni. intros p u v I J. induction ir as [|[q w] ir IH]; [easy|]. cbn [map fst] in Ni.
        inversion Ni as [|? ? N1 N2]; subst. destruct I as [I|I], J as [J|J].
        - congruence.
        - injection I as -> ->. exfalso. apply N1. exact (in_map fst _ _ J).
        - injection J as -> ->. exfalso. apply N1. exact (in_map fst _ _ I).
        - auto. }
      assert (E : forall t, In (flat_map (pick b) (of_type arch t)) (type_bindings peqb (of_type ir t) (of_type arch t))).
      { intros t. apply type_bindings_In. split; [|split].
        - apply pick_snd; auto. intros a. apply Sub.
        - intros p a I. apply pick_In in I as [I J]. cbn [snd] in J. apply of_type_In in J.
          destruct (H2 p a I) as (u & Iu & Au). rewrite (OneA a t u J Au). now apply of_type_In.
        - intros p I. apply of_type_In in I. rewrite <- (H3 p t I).
          transitivity (uses (filter (fun e => if in_dec pdec (snd e) (of_type arch t) then true else false) b) p).
          + apply uses_perm, NoDup_Permutation.
            * apply (NoDup_of_map snd). rewrite pick_snd; [now apply of_type_NoDup|auto|intros a; apply Sub].
            * apply NoDup_filter. now apply NoDup_of_map in Nb.
            * intros e. rewrite pick_In, filter_In. destruct (in_dec pdec (snd e) (of_type arch t)); intuition discriminate.
          + unfold uses. f_equal. clear - H2 I peqb_spec teqb_spec OneI.
            induction b as [|[[q|] a] b IH]; cbn [filter fst snd]; auto.
            * assert (IH' := IH (fun p a J => H2 p a (or_intror J))). clear IH.
              destruct (peqb p q) eqn:E.
              -- apply peqb_spec in E. subst q. destruct (H2 p a (or_introl eq_refl)) as (u & Iu & Au).
                 rewrite (OneI p u t Iu I) in Au.
                 destruct (in_dec pdec a (of_type arch t)) as [_|Na]; [|exfalso; apply Na; now apply of_type_In].
                 cbn [filter fst]. assert (peqb p p = true) as -> by now apply peqb_spec. now f_equal.
              -- destruct (in_dec pdec a (of_type arch t)); [cbn [filter fst]; rewrite E|]; exact IH'.
            * assert (IH' := IH (fun p a J => H2 p a (or_intror J))). clear IH.
              destruct (in_dec pdec a (of_type arch t)); [cbn [filter fst]|]; exact IH'. }
      clear - E. induction (map fst (sort_by_t teqb arch)) as [|k ks IH]; cbn [map]; constructor; auto.
  Qed.

  (** *** No repetition *)
  Lemma concat_by_length {A} (bs cs : list (list A)) (ns : list nat) :
    Forall2 (fun b n => length b = n) bs ns -> Forall2 (fun b n => length b = n) cs ns ->
    List.concat bs = List.concat cs -> bs = cs.
  Proof.
    intros F. revert cs. induction F as [|b n bs ns L F IH]; intros cs G E; inversion G as [|c ? cs' ? L' G']; subst; auto.
    cbn [List.concat] in E.
    assert (forall (x y u v : list A), length x = length y -> x ++ u = y ++ v -> x = y /\ u = v) as App.
    { clear. induction x as [|a x IH]; intros [|a' y] u v L E; try discriminate; auto.
      cbn in E. injection E as -> E. injection L as L. destruct (IH y u v L E) as [-> ->]. auto. }
    destruct (App b c _ _ (eq_sym L') E) as [-> E']. f_equal. apply IH; auto.
  Qed.

  Lemma create_NoDup (arch ir : list (P * T)) : NoDup (map fst ir) -> NoDup (create_bindings peqb teqb arch ir).
  Proof.
    intros Ni. destruct (sort_by_t_spec arch) as (Na & Ka & La & _). destruct (sort_by_t_spec ir) as (_ & Ki & _ & Di).
    unfold create_bindings. cbv zeta.
    destruct (forallb _ _); [|constructor]. set (da := sort_by_t teqb arch) in *.
    apply NoDup_map_inj.
    - intros bs cs Ib Ic E. apply iprod_In in Ib, Ic.
      apply (concat_by_length bs cs (map (fun e => length (snd e)) da)); auto.
      + clear - Ib peqb_spec teqb_spec. revert bs Ib. induction da as [|e da IH]; intros bs Ib; inversion Ib as [|b ? bs' ? I F]; subst; constructor; auto.
        apply type_bindings_In in I as [I _]. rewrite <- I, map_length. reflexivity.
      + clear - Ic peqb_spec teqb_spec. revert cs Ic. induction da as [|e da IH]; intros cs Ic; inversion Ic as [|b ? cs' ? I F]; subst; constructor; auto.
        apply type_bindings_In in I as [I _]. rewrite <- I, map_length. reflexivity.
    - apply iprod_NoDup, Forall_forall. intros l I. apply in_map_iff in I as ([t ps] & <- & I). cbn [fst snd].
      apply type_bindings_NoDup. rewrite Di. now apply of_type_NoDup.
  Qed.
End C31.

(** The listed bindings are type-correct, all list the arch paths in the same
    order and none is repeated (so no two are the same assignment); and every
    type-correct assignment is listed. *)
Theorem C31_bindings :
  forall (P T : Type) (peqb : P -> P -> bool) (teqb : T -> T -> bool),
    (forall a b, peqb a b = true <-> a = b) -> (forall a b, teqb a b = true <-> a = b) ->
  forall arch ir : list (P * T), NoDup (map fst arch) -> NoDup (map fst ir) ->
    (forall b, In b (create_bindings peqb teqb arch ir) -> type_correct peqb arch ir b) /\
    (forall b, type_correct peqb arch ir b ->
       exists b', Permutation b b' /\ In b' (create_bindings peqb teqb arch ir)) /\
    NoDup (create_bindings peqb teqb arch ir) /\
    (forall b c, In b (create_bindings peqb teqb arch ir) -> In c (create_bindings peqb teqb arch ir) ->
       map snd b = map snd c).
Proof.
  intros P T peqb teqb Hp Ht arch ir Na Ni.
  assert (pdec : forall a b : P, {a = b} + {a <> b}).
  { intros a b. destruct (peqb a b) eqn:E; [left; now apply Hp|right; intros H; apply Hp in H; congruence]. }
  split; [|split; [|split]].
  - intros b I. eapply create_sound; eauto.
  - intros b I. eapply create_complete; eauto.
  - eapply create_NoDup; eauto.
  - intros b c Ib Ic. destruct (create_sound peqb teqb Hp Ht arch ir b Na Ni Ib) as [-> _].
    destruct (create_sound peqb teqb Hp Ht arch ir c Na Ni Ic) as [-> _]. reflexivity.
Qed.

Example C31_case :
  let arch := [(1, 16); (2, 8); (3, 16)]%Z in let ir := [(7, 16)]%Z in
  create_bindings Z.eqb Z.eqb arch ir
  = [[(Some 7, 1); (None, 3); (None, 2)]; [(None, 1); (Some 7, 3); (None, 2)]]%Z /\
  create_bindings Z.eqb Z.eqb arch [(7, 32)]%Z = [] /\
  create_bindings Z.eqb Z.eqb [] ([] : list (Z * Z)) = [[]] /\
  NoDup (map fst arch) /\ type_correct Z.eqb arch ir [(None, 1); (None, 2); (Some 7, 3)]%Z.
Proof.
  cbv zeta. split; [reflexivity|]. split; [reflexivity|]. split; [reflexivity|]. split.
  - repeat constructor; cbn; intuition discriminate.
  - split; [reflexivity|]. split.
    + intros p a [[=]|[[=]|[[= <- <-]|[]]]]. exists 16%Z. cbn. auto.
    + intros p t [[= <- <-]|[]]. reflexivity.
Qed.

Print Assumptions C31_bindings.
