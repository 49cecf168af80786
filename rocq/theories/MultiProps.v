(** Properties of the multi-instruction search: C46, C60. *)
From Coq Require Import String ZArith List Bool Arith Lia.
From Verif Require Import Base BaseLemmas BindModel BindProps MapIdxModel MapIdxProps MultiModel.
Import ListNotations.
Open Scope list_scope.
Open Scope Z_scope.

(** ** C46 Bindings *)
(** [b] joins every sink of [outs], in order, to a source of the same type, or leaves it
    unbound where that is allowed. *)
Definition joins {P T} (ins outs : list (P * T)) (ub : bool) (b : list (option P * P)) : Prop :=
  Forall2 (fun e o => snd e = fst o /\ match fst e with None => ub = true | Some p => In (p, snd o) ins end) b outs.

Section Create.
  Context {P T : Type} (teqb : T -> T -> bool).
  Hypothesis teqb_spec : forall a b, teqb a b = true <-> a = b.

  Definition possible (ins : list (P * T)) (ub : bool) (o : P * T) : list (option P) :=
    (if ub then [None] else []) ++
    match dget teqb (sort_by_t teqb ins) (snd o) with Some l => map Some l | None => [] end.

  Lemma possible_In ins ub o s : In s (possible ins ub o) <->
    match s with None => ub = true | Some p => In (p, snd o) ins end.
  Proof.
    unfold possible. destruct (sort_by_t_spec teqb teqb_spec ins) as (_ & _ & _ & L). specialize (L (snd o)).
    rewrite in_app_iff. assert (In s (match dget teqb (sort_by_t teqb ins) (snd o) with Some l => map Some l | None => [] end) <->
      exists p, s = Some p /\ In (p, snd o) ins) as ->.
    { destruct (dget teqb (sort_by_t teqb ins) (snd o)) as [l|].
      - rewrite in_map_iff. split.
        + intros (p & <- & I). exists p. split; auto. apply (of_type_In teqb teqb_spec). now rewrite <- L.
        + intros (p & -> & I). exists p. split; auto. rewrite L. now apply (of_type_In teqb teqb_spec).
      - split; [intros []|]. intros (p & _ & I). apply (of_type_In teqb teqb_spec) in I. rewrite <- L in I. destruct I. }
    destruct s as [p|]; destruct ub; cbn [In]; split; intros H; auto.
    - destruct H as [[H|[]]|(q & [= <-] & I)]; [discriminate|auto].
    - right. eauto.
    - destruct H as [[]|(q & [= <-] & I)]; auto.
    - right. eauto.
    - destruct H as [[]|(q & X & _)]; discriminate.
    - discriminate.
  Qed.

  Lemma possible_NoDup ins ub o : NoDup (map fst ins) -> NoDup (possible ins ub o).
  Proof.
    intros N. unfold possible. destruct (sort_by_t_spec teqb teqb_spec ins) as (_ & _ & _ & L). specialize (L (snd o)).
    assert (NoDup (match dget teqb (sort_by_t teqb ins) (snd o) with Some l => map (@Some P) l | None => [] end)) as H.
    { destruct (dget teqb (sort_by_t teqb ins) (snd o)) as [l|]; [|constructor].
      apply NoDup_map_inj; [intros x y _ _ [= ->]; auto|]. rewrite L. now apply of_type_NoDup. }
    apply NoDup_app_intro; auto.
    - destruct ub; repeat constructor. intros [].
    - intros s I. destruct ub; [|destruct I]. destruct I as [<-|[]]. intros I.
      destruct (dget teqb (sort_by_t teqb ins) (snd o)); [|destruct I]. apply in_map_iff in I as (x & X & _). discriminate.
  Qed.

  Lemma has_spec (ins : list (P * T)) t : match dget teqb (sort_by_t teqb ins) t with Some _ => true | None => false end = true <->
    exists p, In (p, t) ins.
  Proof.
    destruct (sort_by_t_spec teqb teqb_spec ins) as (_ & K & _ & _).
    assert (In t (map snd ins) <-> exists p, In (p, t) ins) as <-.
    { rewrite in_map_iff. split; [intros ([p u] & <- & I); eauto|intros (p & I); exists (p, t); auto]. }
    rewrite <- K, (dget_keys teqb teqb_spec). destruct (dget teqb (sort_by_t teqb ins) t); split; eauto; try discriminate.
    intros (l & X). discriminate.
  Qed.

  (** The result of [create_bindings] is exactly the list of type-correct joins, and there
      is an error exactly when unbound sinks are not allowed and one has no source. *)
  Lemma mcreate_spec (ins outs : list (P * T)) ub : NoDup (map fst ins) ->
    (exists bs, mcreate teqb ins outs ub = Ok bs /\ (forall b, In b bs <-> joins ins outs ub b) /\ NoDup bs /\
       (ub = false -> forall o t, In (o, t) outs -> exists p, In (p, t) ins)) \/
    (mcreate teqb ins outs ub = Err ValueError /\ ub = false /\ exists o t, In (o, t) outs /\ forall p, ~ In (p, t) ins).
  Proof.
    intros N. unfold mcreate. cbv zeta.
    set (has := fun t => match dget teqb (sort_by_t teqb ins) t with Some _ => true | None => false end).
    match goal with |- context [if ?c then Err ValueError else _] => destruct c eqn:E end;
      match type of E with _ = ?b => change (negb ub && negb (forallb (fun e => has (fst e)) (sort_by_t teqb outs)) = b) in E end.
    - right. apply andb_true_iff in E as [E1 E2]. apply negb_true_iff in E1, E2. split; auto. split; auto.
      assert (exists e, In e (sort_by_t teqb outs) /\ has (fst e) = false) as (e & I & H).
      { revert E2. generalize (sort_by_t teqb outs). induction l as [|e l IH]; cbn [forallb]; [discriminate|].
        destruct (has (fst e)) eqn:Eh; cbn [andb]; [|exists e; split; cbn; auto]. intros X. destruct (IH X) as (e' & I & H). exists e'. split; cbn; auto. }
      destruct (sort_by_t_spec teqb teqb_spec outs) as (_ & K & _ & _).
      apply (in_map fst) in I. apply K in I. apply in_map_iff in I as ([o t] & E' & I). cbn [snd] in E'.
      exists o, t. split; auto. intros p Ip. assert (has t = true) as X by (apply has_spec; eauto).
      rewrite <- E' in H. congruence.
    - left. assert (forall o, In o outs -> ub = true \/ exists p, In (p, snd o) ins) as Src.
      { intros [o t] I. destruct ub; auto. right. cbn [negb andb] in E. apply negb_false_iff in E. rewrite forallb_forall in E.
        destruct (sort_by_t_spec teqb teqb_spec outs) as (_ & K & _ & _).
        assert (In t (map fst (sort_by_t teqb outs))) as I' by (apply K; apply (in_map snd) in I; exact I).
        apply in_map_iff in I' as (e & <- & Ie). apply has_spec. apply E. auto. }
      change (fun o : P * T => (if ub then [None] else []) ++
        match dget teqb (sort_by_t teqb ins) (snd o) with Some l => map Some l | None => [] end) with (possible ins ub).
      assert (forallb (fun p => Nat.ltb 0 (length p)) (map (possible ins ub) outs) = true) as ->.
      { apply forallb_forall. intros l I. apply in_map_iff in I as (o & <- & I). apply Nat.ltb_lt.
        assert (exists s, In s (possible ins ub o)) as (s & X).
        { destruct (Src o I) as [->|(p & X)]; [exists None|exists (Some p)]; apply possible_In; auto. }
        destruct (possible ins ub o); [destruct X|cbn; lia]. }
      eexists. split; [reflexivity|]. split; [|split].
      + intros b. rewrite in_map_iff. split.
        * intros (l & <- & I). apply iprod_In in I. clear - I teqb_spec. revert l I. induction outs as [|o outs IH]; intros l I; inversion I; subst; cbn [map combine]; constructor.
          -- cbn [fst snd]. split; auto. now apply possible_In.
          -- apply IH; auto.
        * intros J. exists (map fst b). split.
          -- clear - J. induction J as [|[s q] [o t] b outs [H1 H2] J IH]; cbn [map combine]; auto. cbn [fst snd] in *. congruence.
          -- apply iprod_In. clear - J teqb_spec. induction J as [|[s q] [o t] b outs [H1 H2] J IH]; cbn [map]; constructor; auto.
             cbn [fst snd] in *. now apply possible_In.
      + apply NoDup_map_inj.
        * intros x y Ix Iy. apply iprod_In, F2_length in Ix. apply iprod_In, F2_length in Iy. rewrite map_length in Ix, Iy.
          apply combine_inj; now rewrite map_length.
        * apply iprod_NoDup. apply Forall_forall. intros l I. apply in_map_iff in I as (o & <- & I). now apply possible_NoDup.
      + intros -> o t I. destruct (Src (o, t) I) as [X|X]; [discriminate|auto].
  Qed.
End Create.

Theorem C46_create : forall (P T : Type) (teqb : T -> T -> bool), (forall a b, teqb a b = true <-> a = b) ->
  forall (ins outs : list (P * T)) ub, NoDup (map fst ins) ->
    match mcreate teqb ins outs ub with
    | Ok bs => (forall b, In b bs <-> joins ins outs ub b) /\ NoDup bs
    | Err e => e = ValueError
    end /\
    (mcreate teqb ins outs ub = Err ValueError <-> ub = false /\ exists o t, In (o, t) outs /\ forall p, ~ In (p, t) ins).
Proof.
  intros P T teqb Sp ins outs ub N. destruct (mcreate_spec teqb Sp ins outs ub N) as [(bs & -> & H1 & H2 & H3)|(-> & H1 & H2)]; split; auto.
  - split; [discriminate|]. intros (-> & o & t & I & X). destruct (H3 eq_refl o t I) as (p & Ip). destruct (X p Ip).
  - split; auto.
Qed.

(** ** Programs *)
Lemma mpath_eqb_eq a b : mpath_eqb a b = true <-> a = b.
Proof.
  destruct a, b; cbn [mpath_eqb]; try (split; [discriminate|intros [=]]); try (rewrite String.eqb_eq; split; congruence);
    (rewrite andb_true_iff, Nat.eqb_eq, String.eqb_eq; split; [intros [-> ->]; auto|intros [= -> ->]; auto]).
Qed.

Lemma filter_one (p : mpath) (l : binding) : NoDup (map snd l) ->
  (length (filter (fun e => match fst e with Some q => mpath_eqb q p | None => false end) l) = 1%nat <->
   exists q, In (Some p, q) l /\ forall q', In (Some p, q') l -> q' = q).
Proof.
  set (h := fun e : option mpath * mpath => match fst e with Some q => mpath_eqb q p | None => false end). intros N.
  assert (forall e, h e = true <-> fst e = Some p) as Hh.
  { intros [[q|] o]; unfold h; cbn [fst]; [|split; discriminate]. rewrite mpath_eqb_eq. split; congruence. }
  assert (forall q, In (Some p, q) l <-> In (Some p, q) (filter h l)) as HI.
  { intros q. rewrite filter_In, Hh. cbn. tauto. }
  assert (NoDup (map snd (filter h l))) as N'.
  { clear - N. induction l as [|e l IH]; cbn [filter map]; auto. inversion N as [|? ? M1 M2]; subst. destruct (h e); auto. cbn [map]. constructor; auto.
    intros I. apply M1. apply in_map_iff in I as (x & <- & I). apply filter_In in I as [I _]. now apply in_map. }
  split.
  - intros L. destruct (filter h l) as [|e [|? ?]] eqn:E; try discriminate. destruct e as [s q].
    assert (s = Some p) as -> by (apply (Hh (s, q)); apply (filter_In h (s, q) l); rewrite E; now left).
    exists q. split; [apply HI; now left|]. intros q' I. apply HI in I as [[= ->]|[]]; auto.
  - intros (q & I & U). apply HI in I.
    assert (forall e, In e (filter h l) -> snd e = q) as A.
    { intros [s q'] I'. cbn [snd]. apply U. apply filter_In in I' as [I1 I2]. apply Hh in I2. cbn [fst] in I2. now subst s. }
    destruct (filter h l) as [|e [|e' r]]; [destruct I|auto|]. exfalso. cbn [map] in N'. inversion N' as [|? ? M1 M2]; subst. apply M1.
    rewrite (A e), <- (A e'); [now left|right; now left|now left].
Qed.

Lemma picked_In (bls : list (list binding)) : forall x, Forall2 (@In nat) x (map (fun bl => seq 0 (length bl)) bls) ->
  Forall2 (@In binding) (picked bls x) bls.
Proof.
  unfold picked. induction bls as [|bl bls IH]; intros x F; inversion F as [|m ? x' ? Im F']; subst; cbn [combine map]; constructor.
  - cbn [fst snd]. apply nth_In. apply in_seq in Im. exact (proj2 Im).
  - apply IH; auto.
Qed.

Lemma picked_onto (bls : list (list binding)) : forall bs, Forall2 (@In binding) bs bls ->
  exists x, Forall2 (@In nat) x (map (fun bl => seq 0 (length bl)) bls) /\ picked bls x = bs.
Proof.
  unfold picked. induction bls as [|bl bls IH]; intros bs F; inversion F as [|b ? bs' ? I F']; subst.
  - exists []. split; [constructor|auto].
  - destruct (IH bs' F') as (x & Fx & E). apply (In_nth _ _ []) in I as (m & Hm & Em). exists (m :: x). cbn [map combine]. split.
    + constructor; auto. apply in_seq. split; [lia|exact Hm].
    + cbn [fst snd]. congruence.
Qed.

Lemma picked_inj (bls : list (list binding)) : Forall (@NoDup binding) bls -> forall x y,
  Forall2 (@In nat) x (map (fun bl => seq 0 (length bl)) bls) -> Forall2 (@In nat) y (map (fun bl => seq 0 (length bl)) bls) ->
  picked bls x = picked bls y -> x = y.
Proof.
  unfold picked. induction bls as [|bl bls IH]; intros N x y Fx Fy E; inversion Fx as [|m ? x' ? Im Fx']; inversion Fy as [|m' ? y' ? Im' Fy']; subst; auto.
  inversion N as [|? ? N1 N2]; subst. cbn [combine map fst snd] in E. injection E as E1 E2. f_equal.
  - apply in_seq in Im, Im'. apply (proj1 (NoDup_nth bl []) N1); [exact (proj2 Im)|exact (proj2 Im')|auto].
  - apply IH; auto.
Qed.

Section Programs.
  Context {T : Type} (teqb : T -> T -> bool) (a : archinfo T) (ir : irinfo T).

  (** The sources of type [t] which instruction [i] may read: inputs of the IR and
      outputs of earlier instructions. *)
  Definition source (i : nat) (p : mpath) (t : T) : Prop :=
    (exists g, p = IRin g /\ In (g, t) (i_in ir)) \/ (exists j g, (j < i)%nat /\ p = Aout j g /\ In (g, t) (a_out a)).

  (** [b] says, for every input of instruction [i] that is not Const, where it comes from. *)
  Definition wires (i : nat) (b : binding) : Prop :=
    Forall2 (fun e f => snd e = Ain i (fst f) /\ match fst e with None => True | Some p => source i p (snd f) end) b (a_in a).

  (** Exactly one input of one instruction is the IR input [g]. *)
  Definition used_once (bs : list binding) (g : string) : Prop :=
    exists j f, In (Some (IRin g), Ain j f) (List.concat bs) /\
      forall j' f', In (Some (IRin g), Ain j' f') (List.concat bs) -> j' = j /\ f' = f.

  Definition wired (n : nat) (bs : list binding) : Prop :=
    length bs = n /\ (forall i b, nth_error bs i = Some b -> wires i b) /\ forall g t, In (g, t) (i_in ir) -> used_once bs g.

  Hypothesis teqb_spec : forall x y, teqb x y = true <-> x = y.
  Hypothesis nd_in : NoDup (map fst (a_in a)).
  Hypothesis nd_out : NoDup (map fst (a_out a)).
  Hypothesis nd_ir : NoDup (map fst (i_in ir)).

  Lemma block_source i p t : In (p, t) (block_inputs a ir i) <-> source i p t.
  Proof.
    unfold block_inputs, source. rewrite in_app_iff, in_map_iff, in_flat_map. split.
    - intros [([g u] & [= <- <-] & I)|(j & Ij & I)]; [left; eauto|]. apply in_map_iff in I as ([g u] & [= <- <-] & I).
      apply in_seq in Ij. right. exists j, g. split; [lia|auto].
    - intros [(g & -> & I)|(j & g & L & -> & I)]; [left; exists (g, t); auto|]. right. exists j. split; [apply in_seq; lia|].
      apply in_map_iff. exists (g, t). auto.
  Qed.

  Lemma block_nodup i : NoDup (map fst (block_inputs a ir i)).
  Proof.
    unfold block_inputs. rewrite map_app, map_map. cbn [fst]. apply NoDup_app_intro.
    - rewrite <- (map_map fst IRin). apply NoDup_map_inj; auto. intros x y _ _ [= ->]; auto.
    - generalize (seq_NoDup i 0). generalize (seq 0 i). induction l as [|j l IH]; intros N; [constructor|]. inversion N; subst.
      cbn [flat_map]. rewrite map_app, map_map. cbn [fst]. apply NoDup_app_intro; auto.
      + rewrite <- (map_map fst (Aout j)). apply NoDup_map_inj; auto. intros x y _ _ [= ->]; auto.
      + intros p I I'. apply in_map_iff in I as (e & <- & I). apply in_map_iff in I' as ([q u] & E & I'). cbn [fst] in E. subst q.
        apply in_flat_map in I' as (j' & Ij & I'). apply in_map_iff in I' as (e' & [= -> _ _] & _). contradiction.
    - intros p I I'. apply in_map_iff in I as (e & <- & I). apply in_map_iff in I' as ([q u] & E & I'). cbn [fst] in E. subst q.
      apply in_flat_map in I' as (j' & Ij & I'). apply in_map_iff in I' as (e' & [=] & _).
  Qed.

  Lemma wires_joins i b : joins (block_inputs a ir i) (block_outputs a i) true b <-> wires i b.
  Proof.
    unfold joins, wires, block_outputs. split.
    - revert b. clear nd_in. induction (a_in a) as [|[f t] l IH]; cbn [map]; intros b F; inversion F as [|[s q] ? ? ? [H1 H2] F']; subst; constructor; [|apply IH; auto].
      cbn [fst snd] in *. split; auto. destruct s; auto. now apply block_source.
    - intros F. clear nd_in. induction F as [|[s q] [f t] b l [H1 H2] F IH]; cbn [map]; constructor; auto.
      cbn [fst snd] in *. split; auto. destruct s; auto. now apply block_source.
  Qed.

  Lemma wires_targets i b : wires i b -> map snd b = map (fun f => Ain i (fst f)) (a_in a).
  Proof. intros F. clear nd_in. induction F as [|e f b l [H _] F IH]; cbn [map]; auto. now rewrite IH, H. Qed.

  Lemma targets_nodup bs : forall o, (forall i b, nth_error bs i = Some b -> wires (o + i) b) -> NoDup (map snd (List.concat bs)).
  Proof.
    induction bs as [|b bs IH]; intros o H; cbn [List.concat map]; [constructor|]. rewrite map_app. apply NoDup_app_intro.
    - rewrite (wires_targets (o + 0) b); [|apply (H 0%nat); auto]. rewrite <- (map_map fst (Ain (o + 0))).
      apply NoDup_map_inj; auto. intros x y _ _ [= ->]; auto.
    - apply (IH (S o)). intros i b' E. replace (S o + i)%nat with (o + S i)%nat by lia. apply (H (S i)). auto.
    - intros p I I'. rewrite (wires_targets (o + 0) b) in I; [|apply (H 0%nat); auto]. apply in_map_iff in I as (f & <- & _).
      apply in_map_iff in I' as ([s q] & E & I'). cbn [snd] in E. subst q. apply in_concat in I' as (b' & Ib & I').
      apply In_nth_error in Ib as (i & Ei). apply (in_map snd) in I'. rewrite (wires_targets (o + S i) b') in I'; [|apply (H (S i)); auto].
      apply in_map_iff in I' as (f' & E & _). cbn [snd] in E. assert (o + S i = o + 0)%nat by congruence. lia.
  Qed.

  Lemma found_once bs g : (forall i b, nth_error bs i = Some b -> wires i b) ->
    (found bs (IRin g) = 1%nat <-> used_once bs g).
  Proof.
    intros H. unfold found. rewrite filter_one; [|apply (targets_nodup bs 0); auto].
    assert (forall q, In (Some (IRin g), q) (List.concat bs) -> exists j f, q = Ain j f) as A.
    { intros q I. apply in_concat in I as (b & Ib & I). apply In_nth_error in Ib as (i & Ei). apply (in_map snd) in I.
      rewrite (wires_targets i b) in I by auto. apply in_map_iff in I as (f & E & _). cbn [snd] in E. eauto. }
    split.
    - intros (q & I & U). destruct (A q I) as (j & f & ->). exists j, f. split; auto. intros j' f' I'. specialize (U _ I'). split; congruence.
    - intros (j & f & I & U). exists (Ain j f). split; auto. intros q' I'. destruct (A q' I') as (j' & f' & ->). destruct (U j' f' I'). congruence.
  Qed.

  Lemma blocks_ok n : a_boxes a = false -> exists bls, blocks teqb a ir n = Ok bls /\ length bls = n /\
    forall i bl, nth_error bls i = Some bl -> (forall b, In b bl <-> wires i b) /\ NoDup bl.
  Proof.
    intros B. unfold blocks. rewrite B.
    assert (forall i, exists bs, mcreate teqb (block_inputs a ir i) (block_outputs a i) true = Ok bs /\ (forall b, In b bs <-> wires i b) /\ NoDup bs) as H.
    { intros i. destruct (mcreate_spec teqb teqb_spec (block_inputs a ir i) (block_outputs a i) true (block_nodup i))
        as [(bs & E & H1 & H2 & _)|(_ & X & _)]; [|discriminate]. exists bs. split; auto. split; auto. intros b. rewrite H1. apply wires_joins. }
    destruct (mapM_ok (fun i => mcreate teqb (block_inputs a ir i) (block_outputs a i) true) (seq 0 n)) as (bls & E & F).
    { intros i _. destruct (H i) as (bs & E & _). eauto. }
    exists bls. split; auto. split; [rewrite <- (F2_length _ _ _ F); apply seq_length|].
    intros i bl Ei. assert (exists k, nth_error (seq 0 n) i = Some k /\ mcreate teqb (block_inputs a ir k) (block_outputs a k) true = Ok bl) as (k & Ek & Em).
    { clear - F Ei. revert i Ei. induction F as [|x y l m H F IH]; intros [|i] Ei; try discriminate; cbn [nth_error] in *; eauto.
      injection Ei as <-. eauto. }
    assert (k = i) as ->.
    { assert (i < n)%nat by (rewrite <- (seq_length n 0); apply nth_error_Some; congruence).
      rewrite (nth_error_nth' _ 0%nat) in Ek by (rewrite seq_length; auto). rewrite seq_nth in Ek by auto. injection Ek as <-. lia. }
    destruct (H i) as (bs & E' & H1 & H2). assert (bs = bl) as -> by congruence. auto.
  Qed.

  Lemma F2_by_nth {A B} (R : A -> B -> Prop) l m : length l = length m -> (forall i x y, nth_error l i = Some x -> nth_error m i = Some y -> R x y) ->
    Forall2 R l m.
  Proof.
    revert m. induction l as [|x l IH]; intros [|y m] L H; try discriminate; constructor.
    - apply (H 0%nat); auto.
    - apply IH; [injection L; auto|]. intros i. apply (H (S i)).
  Qed.

  Lemma F2_at {A B} (R : A -> B -> Prop) l m i x y : Forall2 R l m -> nth_error l i = Some x -> nth_error m i = Some y -> R x y.
  Proof.
    intros F. revert i. induction F; intros [|i] E1 E2; try discriminate; cbn [nth_error] in *; eauto. congruence.
  Qed.

  Lemma valid_spec n bls : blocks teqb a ir n = Ok bls -> a_boxes a = false ->
    (forall bs, (exists x, In x (valid_bindings ir bls) /\ picked bls x = bs) <-> wired n bs) /\
    NoDup (map (picked bls) (valid_bindings ir bls)).
  Proof.
    intros Eb B. destruct (blocks_ok n B) as (bls' & E & L & H). assert (bls' = bls) as -> by congruence.
    unfold valid_bindings, mfilt.
    assert (forall bs, Forall2 (@In binding) bs bls <-> length bs = n /\ forall i b, nth_error bs i = Some b -> wires i b) as HF.
    { intros bs. split.
      - intros F. pose proof (F2_length _ _ _ F) as Lb. split; [congruence|]. intros i b Ei.
        destruct (nth_error bls i) as [bl|] eqn:El; [|apply nth_error_None in El; assert (i < length bs)%nat by (apply nth_error_Some; congruence); lia].
        apply (H i bl El). apply (F2_at _ _ _ i b bl F); auto.
      - intros [Lb Hw]. apply F2_by_nth; [congruence|]. intros i b bl E1 E2. apply (H i bl E2). auto. }
    assert (Forall (@NoDup binding) bls) as ND.
    { apply Forall_forall. intros bl I. apply In_nth_error in I as (i & Ei). apply (H i bl Ei). }
    split.
    - intros bs. split.
      + intros (x & I & <-). apply filter_In in I as [I Fi]. apply iprod_In in I. pose proof (picked_In _ _ I) as Fp.
        apply HF in Fp as [Lp Hw]. split; auto. split; auto. intros g t Ig. rewrite forallb_forall in Fi. specialize (Fi _ Ig).
        apply Nat.eqb_eq in Fi. apply found_once; auto.
      + intros (Lb & Hw & U). destruct (picked_onto bls bs) as (x & Fx & Ex); [apply HF; auto|]. exists x. split; auto.
        apply filter_In. split; [apply iprod_In; auto|]. apply forallb_forall. intros [g t] Ig. apply Nat.eqb_eq. rewrite Ex.
        apply found_once; eauto.
    - apply NoDup_map_inj.
      + intros x y Ix Iy. apply filter_In in Ix as [Ix _], Iy as [Iy _]. apply iprod_In in Ix, Iy. apply picked_inj; auto.
      + apply NoDup_filter. apply iprod_NoDup. apply Forall_forall. intros l I. apply in_map_iff in I as (bl & <- & _). apply seq_NoDup.
  Qed.
End Programs.

(** ** C60 What a solution means *)
Lemma nth_ext' {A} (l m : list A) : (forall i, nth_error l i = nth_error m i) -> l = m.
Proof.
  revert m. induction l as [|x l IH]; intros [|y m] H; auto; try (specialize (H 0%nat); discriminate).
  f_equal; [specialize (H 0%nat); cbn in H; congruence|]. apply IH. intros i. apply (H (S i)).
Qed.
Lemma nth_firstn {A} (l : list A) : forall i n, (i < n)%nat -> nth_error (firstn n l) i = nth_error l i.
Proof.
  induction l as [|x l IH]; intros [|i] [|n] H; try lia; auto. cbn [firstn nth_error]. apply IH. lia.
Qed.

Section Meaning.
  Context {T : Type} (width : T -> nat).

  (** [z] is a word of type [t]. *)
  Definition word (t : T) (z : Z) : Prop := 0 <= z < 2 ^ Z.of_nat (width t).

  (** Running a program: instruction [i] reads its Const fields from [ws], the others from
      where its binding says, and unbound ones from [u i]; [outs] are the outputs of the
      instructions before it. *)
  Definition arg (a : archinfo T) (i : nat) (b : binding) (ws : list Z) (x : string -> Z) (u : nat -> string -> Z)
    (outs : list (string -> Z)) (f : string) : Z :=
    match dget String.eqb (combine (map fst (a_const a)) ws) f with
    | Some z => z
    | None =>
        match find (fun e => mpath_eqb (snd e) (Ain i f)) b with
        | Some (Some (IRin g), _) => x g
        | Some (Some (Aout j g), _) => nth j outs (fun _ => 0) g
        | _ => u i f
        end
    end.
  Fixpoint run (a : archinfo T) (prog : list (binding * list Z)) (x : string -> Z) (u : nat -> string -> Z)
    (outs : list (string -> Z)) : list (string -> Z) :=
    match prog with
    | [] => outs
    | (b, ws) :: r => run a r x u (outs ++ [a_sem a (arg a (length outs) b ws x u outs)])
    end.

  (** The outputs [ob] of the last instruction are those of the IR, for all inputs of the
      IR and all values of unbound inputs. *)
  Definition computes (a : archinfo T) (ir : irinfo T) (n : nat) (prog : list (binding * list Z)) (ob : list string)
    (box : string -> Z) : Prop :=
    forall x u, (forall f t, In (f, t) (i_in ir) -> word t (x f)) ->
      (forall i f t, (i < n)%nat -> In (f, t) (a_in a) -> word t (u i f)) ->
      Forall2 (fun g f => nth (n - 1) (run a prog x u []) (fun _ => 0) g = i_sem ir box x (fst f)) ob (i_out ir).

  (** [prog] is a program of [n] instructions with valid instruction words, and [ob]
      selects outputs of the right types. *)
  Definition program (a : archinfo T) (ir : irinfo T) (n : nat) (prog : list (binding * list Z)) : Prop :=
    wired a ir n (map fst prog) /\
    forall b ws, In (b, ws) prog -> Forall2 (fun w c => word (snd c) w /\ a_valid a (fst c) w = true) ws (a_const a).
  Definition selects (a : archinfo T) (ir : irinfo T) (ob : list string) : Prop :=
    Forall2 (fun g f => In (g, snd f) (a_out a)) ob (i_out ir).

  (** [sol] gives the variables that are not quantified such values that the formula holds
      for all values of the quantified ones (C35 is about finding it). *)
  Definition solution (k : ivar) (a : archinfo T) (ir : irinfo T) (n : nat) (m : multi) (sol : mval) : Prop :=
    (0 <= sol VBind < 2 ^ var_len k (Z.of_nat (length (m_valid m)))) /\
    (0 <= sol VBout < 2 ^ var_len k (Z.of_nat (length (m_outb m)))) /\
    (forall i c t, (i < n)%nat -> In (c, t) (a_const a) -> word t (sol (VIn i c))) /\
    forall v : mval, (forall y, ~ In y (m_forall m) -> v y = sol y) ->
      (forall f t, In (f, t) (i_in ir) -> word t (v (VIr f))) ->
      (forall i f t, (i < n)%nat -> In (f, t) (a_in a) -> word t (v (VIn i f))) ->
      (forall i f t, In (VFree i f) (m_forall m) -> In (f, t) (a_out a) -> word t (v (VFree i f))) ->
      m_formula m v = true.

  (** The fields have different names; outputs are functions of the fields, and words of
      their types. *)
  Record regular (a : archinfo T) (ir : irinfo T) : Prop := {
    r_in : NoDup (map fst (a_const a ++ a_in a));
    r_out : NoDup (map fst (a_out a));
    r_ir : NoDup (map fst (i_in ir));
    r_ext : forall x y, (forall f, In f (map fst (a_const a ++ a_in a)) -> x f = y f) -> forall g, a_sem a x g = a_sem a y g;
    r_iext : forall box box' x y, (forall b, box b = box' b) -> (forall f, In f (map fst (i_in ir)) -> x f = y f) ->
      forall g, i_sem ir box x g = i_sem ir box' y g;
    r_typed : forall x, (forall f t, In (f, t) (a_const a ++ a_in a) -> word t (x f)) -> forall g t, In (g, t) (a_out a) -> word t (a_sem a x g) }.

  Section Run.
    Variables (a : archinfo T) (ir : irinfo T).
    Hypothesis R : regular a ir.

    Lemma run_spec x u : forall prog outs0, let outs := run a prog x u outs0 in
      length outs = (length outs0 + length prog)%nat /\ (forall i, (i < length outs0)%nat -> nth_error outs i = nth_error outs0 i) /\
      forall i b ws, nth_error prog i = Some (b, ws) ->
        nth_error outs (length outs0 + i) = Some (a_sem a (arg a (length outs0 + i) b ws x u (firstn (length outs0 + i) outs))).
    Proof.
      induction prog as [|[b ws] prog IH]; intros outs0; cbn [run length].
      - split; [lia|]. split; auto. intros [|i]; discriminate.
      - set (o := a_sem a (arg a (length outs0) b ws x u outs0)). destruct (IH (outs0 ++ [o])) as (L & P & St). rewrite app_length in L, P, St. cbn [length] in L, P, St.
        set (outs := run a prog x u (outs0 ++ [o])) in *. split; [lia|].
        assert (firstn (length outs0) outs = outs0) as F.
        { apply nth_ext'. intros i. destruct (Nat.lt_ge_cases i (length outs0)) as [Li|Li].
          - rewrite nth_firstn by auto. rewrite P by lia. now rewrite nth_error_app1.
          - rewrite !(proj2 (nth_error_None _ _)); auto. rewrite firstn_length. lia. }
        split.
        + intros i Li. rewrite P by lia. now rewrite nth_error_app1.
        + intros [|i] b' ws' E; cbn [nth_error] in E.
          * injection E as <- <-. rewrite Nat.add_0_r. rewrite P by lia. rewrite nth_error_app2 by lia. rewrite Nat.sub_diag. cbn [nth_error].
            now rewrite F.
          * replace (length outs0 + S i)%nat with (length outs0 + 1 + i)%nat by lia. apply St. auto.
    Qed.

    Variables (n : nat) (prog : list (binding * list Z)) (x : string -> Z) (u : nat -> string -> Z).
    Hypothesis PR : program a ir n prog.
    Let outs := run a prog x u [].

    Lemma prog_length : length prog = n.
    Proof. destruct PR as [[L _] _]. now rewrite map_length in L. Qed.
    Lemma prog_at i : (i < n)%nat -> exists b ws, nth_error prog i = Some (b, ws).
    Proof.
      intros L. destruct (nth_error prog i) as [[b ws]|] eqn:E; eauto. apply nth_error_None in E. rewrite prog_length in E. lia.
    Qed.
    Lemma prog_lt i b ws : nth_error prog i = Some (b, ws) -> (i < n)%nat.
    Proof. intros E. rewrite <- prog_length. apply nth_error_Some. congruence. Qed.
    Lemma prog_wires i b ws : nth_error prog i = Some (b, ws) -> wires a ir i b.
    Proof.
      intros E. destruct PR as [(_ & W & _) _]. apply W. rewrite nth_error_map, E. reflexivity.
    Qed.

    Definition at_instr (i : nat) (f : string) : Z :=
      match nth_error prog i with Some (b, ws) => arg a i b ws x u outs f | None => 0 end.

    Lemma nd_const_in c f : In c (map fst (a_const a)) -> In f (map fst (a_in a)) -> c <> f.
    Proof.
      pose proof (r_in _ _ R) as N. rewrite map_app in N. intros I1 I2 ->. induction (map fst (a_const a)) as [|c l IH]; [destruct I1|].
      cbn [app] in N. inversion N as [|? ? N1 N2]; subst. destruct I1 as [->|I1]; auto. apply N1. apply in_app_iff. auto.
    Qed.
    Lemma nd_in' : NoDup (map fst (a_in a)).
    Proof.
      pose proof (r_in _ _ R) as N. rewrite map_app in N. induction (map fst (a_const a)) as [|c l IH]; auto. cbn [app] in N. inversion N; auto.
    Qed.
    Lemma nd_const : NoDup (map fst (a_const a)).
    Proof.
      pose proof (r_in _ _ R) as N. rewrite map_app in N. induction (map fst (a_const a)) as [|c l IH]; [constructor|]. cbn [app] in N. inversion N as [|? ? N1 N2]; subst.
      constructor; auto. intros I. apply N1. apply in_app_iff. auto.
    Qed.

    Lemma dget_combine (ks : list string) : NoDup ks -> forall (ws : list Z) j c w, nth_error ks j = Some c -> nth_error ws j = Some w ->
      dget String.eqb (combine ks ws) c = Some w.
    Proof.
      induction ks as [|k ks IH]; intros N ws [|j] c w E1 E2; try discriminate; destruct ws as [|w' ws]; try discriminate; cbn [combine dget nth_error] in *.
      - injection E1 as ->. injection E2 as ->. now rewrite String.eqb_refl.
      - inversion N as [|? ? N1 N2]; subst. destruct (String.eqb_spec c k) as [->|_]; [|eapply IH; eauto]. exfalso. apply N1. eapply nth_error_In; eauto.
    Qed.
    Lemma dget_combine_no (ks : list string) : forall (ws : list Z) c, ~ In c ks -> dget String.eqb (combine ks ws) c = None.
    Proof.
      induction ks as [|k ks IH]; intros [|w ws] c N; auto. cbn [combine dget]. destruct (String.eqb_spec c k) as [->|_]; [exfalso; apply N; now left|].
      apply IH. intros I. apply N. now right.
    Qed.

    Lemma arg_const i b ws o j c t w : nth_error (a_const a) j = Some (c, t) -> nth_error ws j = Some w -> arg a i b ws x u o c = w.
    Proof.
      intros E1 E2. unfold arg. rewrite (dget_combine _ nd_const ws j c w); auto. rewrite nth_error_map, E1. reflexivity.
    Qed.

    Lemma wires_target_in i b s o : wires a ir i b -> In (s, o) b -> exists f t, o = Ain i f /\ In (f, t) (a_in a) /\
      match s with None => True | Some p => source a ir i p t end.
    Proof.
      intros W I. unfold wires in W. induction W as [|[s' o'] [f t] b l [H1 H2] W IH]; [destruct I|].
      destruct I as [[= -> ->]|I]; [exists f, t; cbn in *; auto|]. destruct (IH I) as (f' & t' & X1 & X2 & X3). exists f', t'. cbn. auto.
    Qed.
    Lemma wires_target_onto i b f t : wires a ir i b -> In (f, t) (a_in a) -> exists s, In (s, Ain i f) b /\ match s with None => True | Some p => source a ir i p t end.
    Proof.
      intros W I. unfold wires in W. induction W as [|[s' o'] [f' t'] b l [H1 H2] W IH]; [destruct I|].
      destruct I as [[= -> ->]|I]; [exists s'; cbn in *; subst; auto|]. destruct (IH I) as (s & X1 & X2). exists s. cbn. auto.
    Qed.

    Lemma arg_wire i b ws o s f : wires a ir i b -> In (s, Ain i f) b ->
      arg a i b ws x u o f = match s with Some (IRin g) => x g | Some (Aout j g) => nth j o (fun _ => 0) g | _ => u i f end.
    Proof.
      intros W I. destruct (wires_target_in i b s _ W I) as (f' & t & [= <-] & If & _). unfold arg.
      rewrite dget_combine_no; [|intros Ic; apply (nd_const_in f f Ic); auto; apply (in_map fst) in If; exact If].
      assert (find (fun e => mpath_eqb (snd e) (Ain i f)) b = Some (s, Ain i f)) as ->; [|reflexivity].
      assert (NoDup (map snd b)) as N.
      { rewrite (wires_targets a ir i b W). rewrite <- (map_map fst (Ain i)). apply NoDup_map_inj; [intros p q _ _ [= ->]; auto|apply nd_in']. }
      clear - N I. induction b as [|[s' o'] b IH]; [destruct I|]. cbn [find snd]. destruct (mpath_eqb o' (Ain i f)) eqn:E.
      - apply mpath_eqb_eq in E. subst o'. destruct I as [[= ->]|I]; auto. exfalso. cbn [map snd] in N. inversion N as [|? ? N1 N2]; subst.
        apply N1. apply (in_map snd) in I. exact I.
      - destruct I as [[= -> ->]|I]; [rewrite (proj2 (mpath_eqb_eq _ _) eq_refl) in E; discriminate|]. cbn [map] in N. inversion N; auto.
    Qed.

    Lemma outs_at i g : (i < n)%nat -> nth i outs (fun _ => 0) g = a_sem a (at_instr i) g.
    Proof.
      intros L. destruct (prog_at i L) as (b & ws & E). destruct (run_spec x u prog []) as (Lo & _ & St). fold outs in Lo, St.
      specialize (St i b ws E). cbn [length Nat.add] in St, Lo. rewrite (nth_error_nth _ _ _ St). apply (r_ext _ _ R). intros f If.
      unfold at_instr. rewrite E. pose proof (prog_wires i b ws E) as W.
      rewrite map_app in If. apply in_app_iff in If as [If|If].
      - unfold arg. destruct PR as [_ Pw]. specialize (Pw b ws (nth_error_In _ _ E)).
        apply in_map_iff in If as ([c t] & <- & If). cbn [fst]. apply In_nth_error in If as (j & Ej).
        destruct (nth_error ws j) as [w|] eqn:Ew; [rewrite (dget_combine _ nd_const ws j c w); auto; rewrite nth_error_map, Ej; auto|].
        apply nth_error_None in Ew. rewrite (F2_length _ _ _ Pw) in Ew. assert (j < length (a_const a))%nat by (apply nth_error_Some; congruence). lia.
      - apply in_map_iff in If as ([f' t] & <- & If). cbn [fst]. destruct (wires_target_onto i b f' t W If) as (s & Is & Ss).
        rewrite !(arg_wire i b ws _ s f' W Is). destruct s as [[g1|g1|j1 g1|j1 g1]|]; auto. destruct Ss as [(? & [=] & _)|(j & g' & Lj & [= <- <-] & _)].
        assert (nth j1 (firstn i outs) (fun _ => 0) = nth j1 outs (fun _ => 0)) as X; [|now rewrite X].
        destruct (nth_error outs j1) as [o|] eqn:Eo.
        + rewrite (nth_error_nth _ _ _ Eo). apply nth_error_nth. rewrite nth_firstn; auto.
        + rewrite !nth_overflow; auto; [apply nth_error_None; auto|]. apply nth_error_None in Eo. rewrite firstn_length. lia.
    Qed.

    Lemma at_const i b ws j c t w : nth_error prog i = Some (b, ws) -> nth_error (a_const a) j = Some (c, t) -> nth_error ws j = Some w ->
      at_instr i c = w.
    Proof. intros E E1 E2. unfold at_instr. rewrite E. eapply arg_const; eauto. Qed.

    Lemma at_wire i b ws s f : nth_error prog i = Some (b, ws) -> In (s, Ain i f) b ->
      at_instr i f = match s with Some (IRin g) => x g | Some (Aout j g) => a_sem a (at_instr j) g | _ => u i f end.
    Proof.
      intros E I. pose proof (prog_wires i b ws E) as W. unfold at_instr at 1. rewrite E. rewrite (arg_wire i b ws outs s f W I).
      destruct s as [[]|]; auto. apply outs_at. destruct (wires_target_in i b _ _ W I) as (f' & t & _ & _ & [(? & [=] & _)|(j & g & L & [= <- <-] & _)]).
      pose proof (prog_lt i b ws E). lia.
    Qed.

    Lemma at_typed : (forall f t, In (f, t) (i_in ir) -> word t (x f)) -> (forall i f t, (i < n)%nat -> In (f, t) (a_in a) -> word t (u i f)) ->
      forall i, (i < n)%nat -> forall f t, In (f, t) (a_const a ++ a_in a) -> word t (at_instr i f).
    Proof.
      intros Tx Tu i. induction i as [i IH] using lt_wf_ind. intros L f t If. destruct (prog_at i L) as (b & ws & E).
      apply in_app_iff in If as [If|If].
      - destruct PR as [_ Pw]. specialize (Pw b ws (nth_error_In _ _ E)). apply In_nth_error in If as (j & Ej).
        destruct (nth_error ws j) as [w|] eqn:Ew.
        + rewrite (at_const i b ws j f t w E Ej Ew). pose proof (F2_at _ _ _ j w (f, t) Pw Ew Ej) as [H _]. exact H.
        + apply nth_error_None in Ew. rewrite (F2_length _ _ _ Pw) in Ew. assert (j < length (a_const a))%nat by (apply nth_error_Some; congruence). lia.
      - pose proof (prog_wires i b ws E) as W. destruct (wires_target_onto i b f t W If) as (s & Is & Ss). rewrite (at_wire i b ws s f E Is).
        destruct s as [p|]; [|apply (Tu i f t L If)]. destruct Ss as [(g & -> & Ig)|(j & g & Lj & -> & Ig)]; [apply (Tx g t Ig)|].
        apply (r_typed _ _ R); auto. intros f' t' If'. apply (IH j Lj); auto. lia.
    Qed.
  End Run.

  Section Formula.
    Variables (teqb : T -> T -> bool) (k : ivar) (a : archinfo T) (ir : irinfo T) (real : bool) (n : nat).
    Hypothesis teqb_spec : forall x y, teqb x y = true <-> x = y.

    Definition holds (r : bool) (b : binding) (v : mval) : Prop :=
      forall s o, In (s, o) b -> translate a ir r (match s with Some p => p | None => o end) v = translate a ir r o v.

    Lemma equations_spec r b v : forallb (fun f => f v) (equations a ir r b) = true <-> holds r b v.
    Proof.
      unfold equations, holds. rewrite forallb_forall. split.
      - intros H s o I. specialize (H _ (in_map _ _ _ I)). cbn in H. now apply Z.eqb_eq.
      - intros H f I. apply in_map_iff in I as ([s o] & <- & I). apply Z.eqb_eq. cbn [fst snd]. auto.
    Qed.

    Lemma enum_In {A} (l : list A) j b : In (j, b) (enum l) <-> nth_error l j = Some b.
    Proof.
      unfold enum. assert (forall o, In (j, b) (combine (seq o (length l)) l) <-> (o <= j)%nat /\ nth_error l (j - o) = Some b) as H.
      { induction l as [|x l IH]; intros o; cbn [length seq combine In].
        - split; [intros []|]. intros [_ X]. destruct (j - o)%nat; discriminate.
        - rewrite IH. split.
          + intros [[= -> ->]|[L E]]; [rewrite Nat.sub_diag; auto|]. split; [lia|]. replace (j - o)%nat with (S (j - S o)) by lia. auto.
          + intros [L E]. destruct (Nat.eq_dec o j) as [->|N]; [rewrite Nat.sub_diag in E; left; cbn in E; congruence|right].
            split; [lia|]. replace (j - o)%nat with (S (j - S o)) in E by lia. auto. }
      rewrite H, Nat.sub_0_r. split; [tauto|split; [lia|auto]].
    Qed.

    Lemma matches_spec N x j v : (j < N)%nat -> (matches k N x j v = true <-> v x = translate_index k (Z.of_nat j)).
    Proof. intros L. unfold matches. rewrite match_index_eq by lia. apply Z.eqb_eq. Qed.

    Lemma choices_spec x r bs v : existsb (fun f => f v) (choices k a ir x r bs) = true <->
      exists j b, nth_error bs j = Some b /\ v x = translate_index k (Z.of_nat j) /\ holds r b v.
    Proof.
      unfold choices. rewrite existsb_exists. split.
      - intros (f & I & E). apply in_map_iff in I as ([j b] & <- & I). apply enum_In in I. cbn [fst snd] in E. apply andb_true_iff in E as [E1 E2].
        exists j, b. split; auto. split; [|now apply equations_spec]. apply matches_spec in E1; auto. apply nth_error_Some. congruence.
      - intros (j & b & I & E1 & E2). eexists. split; [apply in_map, enum_In, I|]. cbn [fst snd]. apply andb_true_iff. split; [|now apply equations_spec].
        apply matches_spec; auto. apply nth_error_Some. congruence.
    Qed.

    Lemma mor_spec l f : mor l = Ok f -> l <> [] /\ forall v, f v = existsb (fun g => g v) l.
    Proof. destruct l; [discriminate|]. intros [= <-]. split; [discriminate|auto]. Qed.
    Lemma mand_spec l f : mand l = Ok f -> l <> [] /\ forall v, f v = forallb (fun g => g v) l.
    Proof. destruct l; [discriminate|]. intros [= <-]. split; [discriminate|auto]. Qed.

    (** What the formula says. *)
    Definition repl (v : mval) : Prop := real = false -> forall i g t, (i < n - 1)%nat -> In (g, t) (a_out a) ->
      v (VFree i g) = a_sem a (fun f => v (VIn i f)) g.
    Record shape (m : multi) : Prop := {
      h_const : length (a_const a) = 1%nat;
      h_n : (0 < n)%nat;
      h_boxes : a_boxes a = false;
      h_blocks : blocks teqb a ir n = Ok (m_blocks m);
      h_valid : m_valid m = valid_bindings ir (m_blocks m);
      h_vne : m_valid m <> [];
      h_outb : mcreate teqb (map (fun e => (Aout (n - 1) (fst e), snd e)) (a_out a)) (map (fun e => (IRout (fst e), snd e)) (i_out ir)) false = Ok (m_outb m);
      h_one : m_outb m <> [];
      h_fir : forall f, In (VIr f) (m_forall m) <-> In f (map fst (i_in ir));
      h_fin : forall i f, In (VIn i f) (m_forall m) <-> (i < n)%nat /\ In f (map fst (a_in a));
      h_ffree : forall i f, In (VFree i f) (m_forall m) <-> real = false /\ (i < n - 1)%nat /\ In f (map fst (a_out a));
      h_fbind : ~ In VBind (m_forall m);
      h_fbout : ~ In VBout (m_forall m);
      h_fbox : forall f, ~ In (VBox f) (m_forall m);
      h_formula : forall v, m_formula m v = true <->
        is_valid k (Z.of_nat (length (m_valid m))) (v VBind) = true /\ is_valid k (Z.of_nat (length (m_outb m))) (v VBout) = true /\
        (forall i c t, (i < n)%nat -> In (c, t) (a_const a) -> a_valid a c (v (VIn i c)) = true) /\
        (repl v -> (exists j x, nth_error (m_valid m) j = Some x /\ v VBind = translate_index k (Z.of_nat j) /\ holds real (List.concat (picked (m_blocks m) x)) v) ->
         exists j b, nth_error (m_outb m) j = Some b /\ v VBout = translate_index k (Z.of_nat j) /\ holds true b v) }.

    Lemma free_repl_spec fr : (if real then Ok (fun _ => true) else free_repl a n) = Ok fr -> (0 < n)%nat -> forall v, fr v = true <-> repl v.
    Proof.
      intros E L v. unfold repl. destruct real; [injection E as <-; split; auto; discriminate|]. unfold free_repl in E.
      destruct (Nat.eqb_spec n 1) as [->|N]; [injection E as <-; split; auto; intros _ _ i g t X; lia|].
      apply mand_spec in E as [_ E]. rewrite E, forallb_forall. split.
      - intros H _ i g t Li I. apply Z.eqb_eq. apply (H (fun v => v (VFree i g) =? a_sem a (fun f => v (VIn i f)) g)).
        apply in_flat_map. exists i. split; [apply in_seq; lia|]. apply in_map_iff. exists (g, t). auto.
      - intros H f I. apply in_flat_map in I as (i & Ii & I). apply in_seq in Ii. apply in_map_iff in I as ([g t] & <- & I). cbn [fst]. apply Z.eqb_eq.
        apply (H eq_refl i g t); auto. lia.
    Qed.

    Lemma build_shape split m : multi_build teqb k a ir real n split = Ok m -> shape m.
    Proof.
      intros E. unfold multi_build in E. destruct (Nat.eqb (length (i_const ir)) 0); [|discriminate]. cbn [negb] in E.
      destruct (Nat.eqb_spec (length (a_const a)) 1) as [Lc|]; [|discriminate]. cbn [negb] in E.
      destruct (blocks teqb a ir n) as [bls|] eqn:Eb; [|discriminate]. cbn [bind] in E.
      destruct (Nat.eqb_spec n 0) as [|Nn]; [discriminate|]. destruct (Nat.eqb_spec (length (valid_bindings ir bls)) 0) as [|Nv]; [discriminate|].
      destruct (if real then Ok (fun _ => true) else free_repl a n) as [fr|] eqn:Efr; [|discriminate]. cbn [bind] in E.
      destruct (mcreate teqb _ _ false) as [outb|] eqn:Eo; [|discriminate]. cbn [bind] in E.
      destruct (mor (choices k a ir VBout true outb)) as [out|] eqn:Eout; [|discriminate]. cbn [bind] in E.
      destruct split; [discriminate|].
      match type of E with (bind (mand ?l) _) = _ => destruct (mand l) as [valid|] eqn:Ev; [|discriminate] end. cbn [bind] in E.
      match type of E with (bind (mor ?l) _) = _ => destruct (mor l) as [impls|] eqn:Ei; [|discriminate] end. cbn [bind] in E.
      injection E as <-. apply mor_spec in Eout as [Nout Eout], Ei as [Nimp Ei]. apply mand_spec in Ev as [_ Ev].
      assert (0 < n)%nat as L by lia.
      assert (forall y, In y (if real then [] else if Nat.eqb n 1 then [] else flat_map (fun i => map (fun e => VFree i (fst e)) (a_out a)) (seq 0 (n - 1))) <->
        exists i f, y = VFree i f /\ real = false /\ (i < n - 1)%nat /\ In f (map fst (a_out a))) as HF.
      { intros y. destruct real; [split; [intros []|intros (? & ? & _ & [=] & _)]|]. destruct (Nat.eqb_spec n 1) as [->|].
        - split; [intros []|]. intros (i & f & _ & _ & X & _). lia.
        - rewrite in_flat_map. split.
          + intros (i & Ii & I). apply in_map_iff in I as (e & <- & I). apply in_seq in Ii. exists i, (fst e). repeat split; auto; [lia|]. now apply in_map.
          + intros (i & f & -> & _ & Li & I). exists i. split; [apply in_seq; lia|]. apply in_map_iff in I as (e & <- & I). apply in_map_iff. eauto. }
      assert (forall y, In y (map (fun e => VIr (fst e)) (i_in ir)) <-> exists f, y = VIr f /\ In f (map fst (i_in ir))) as HI.
      { intros y. rewrite in_map_iff. split; [intros (e & <- & I); exists (fst e); split; auto; now apply in_map|].
        intros (f & -> & I). apply in_map_iff in I as (e & <- & I). eauto. }
      assert (forall y, In y (flat_map (fun i => map (fun e => VIn i (fst e)) (a_in a)) (seq 0 n)) <-> exists i f, y = VIn i f /\ (i < n)%nat /\ In f (map fst (a_in a))) as HA.
      { intros y. rewrite in_flat_map. split.
        - intros (i & Ii & I). apply in_map_iff in I as (e & <- & I). apply in_seq in Ii. exists i, (fst e). repeat split; auto; [lia|]. now apply in_map.
        - intros (i & f & -> & Li & I). exists i. split; [apply in_seq; lia|]. apply in_map_iff in I as (e & <- & I). apply in_map_iff. eauto. }
      assert (forall y, In y (map (fun e => VIr (fst e)) (i_in ir) ++ flat_map (fun i => map (fun e => VIn i (fst e)) (a_in a)) (seq 0 n) ++
        (if real then [] else if Nat.eqb n 1 then [] else flat_map (fun i => map (fun e => VFree i (fst e)) (a_out a)) (seq 0 (n - 1)))) <->
        (exists f, y = VIr f /\ In f (map fst (i_in ir))) \/ (exists i f, y = VIn i f /\ (i < n)%nat /\ In f (map fst (a_in a))) \/
        (exists i f, y = VFree i f /\ real = false /\ (i < n - 1)%nat /\ In f (map fst (a_out a)))) as HV.
      { intros y. rewrite !in_app_iff, HF, HI, HA. tauto. }
      constructor; cbn [m_forall m_formula m_blocks m_valid m_outb]; auto.
      - destruct n as [|n']; [lia|]. unfold blocks in Eb. cbn [seq mapM] in Eb. destruct (a_boxes a); [discriminate|auto].
      - intros X. rewrite X in Nv. apply Nv. reflexivity.
      - intros ->. apply Nout. reflexivity.
      - intros f. rewrite HV. split; [intros [(? & [= ->] & I)|[(? & ? & [=] & _)|(? & ? & [=] & _)]]; auto|eauto].
      - intros i f. rewrite HV. split; [intros [(? & [=] & _)|[(? & ? & [= -> ->] & I)|(? & ? & [=] & _)]]; auto|right; left; eauto].
      - intros i f. rewrite HV. split; [intros [(? & [=] & _)|[(? & ? & [=] & _)|(? & ? & [= -> ->] & I)]]; auto|right; right; eauto].
      - rewrite HV. intros [(? & [=] & _)|[(? & ? & [=] & _)|(? & ? & [=] & _)]].
      - rewrite HV. intros [(? & [=] & _)|[(? & ? & [=] & _)|(? & ? & [=] & _)]].
      - intros f. rewrite HV. intros [(? & [=] & _)|[(? & ? & [=] & _)|(? & ? & [=] & _)]].
      - intros v. rewrite andb_true_iff, orb_true_iff, negb_true_iff. rewrite Ev, Ei, Eout, choices_spec. cbn [app forallb]. rewrite !andb_true_iff.
        assert (forallb (fun g => g v) (flat_map (fun i => map (fun e v => a_valid a (fst e) (v (VIn i (fst e)))) (a_const a)) (seq 0 n)) = true <->
          forall i c t, (i < n)%nat -> In (c, t) (a_const a) -> a_valid a c (v (VIn i c)) = true) as ->.
        { rewrite forallb_forall. split.
          - intros H i c t Li I. apply (H (fun v => a_valid a c (v (VIn i c)))). apply in_flat_map. exists i. split; [apply in_seq; lia|].
            apply in_map_iff. exists (c, t). auto.
          - intros H f I. apply in_flat_map in I as (i & Ii & I). apply in_seq in Ii. apply in_map_iff in I as ([c t] & <- & I). cbn [fst]. apply (H i c t); auto. lia. }
        assert ((fr v && existsb (fun g => g v) (choices k a ir VBind real (map (fun x => List.concat (picked bls x)) (valid_bindings ir bls))) = true) <->
          repl v /\ exists j x, nth_error (valid_bindings ir bls) j = Some x /\ v VBind = translate_index k (Z.of_nat j) /\ holds real (List.concat (picked bls x)) v) as HX.
        { rewrite andb_true_iff, (free_repl_spec fr Efr L), choices_spec. split; intros [H1 (j & b & H2 & H3 & H4)]; split; auto.
          - rewrite nth_error_map in H2. destruct (nth_error (valid_bindings ir bls) j) as [x|] eqn:Ex; [|discriminate]. injection H2 as <-. eauto.
          - exists j, (List.concat (picked bls b)). rewrite nth_error_map, H2. auto. }
        split.
        + intros [(H1 & H2 & H3) H4]. repeat split; auto. intros H5 H6. destruct H4 as [H4|H4]; auto. exfalso.
          assert (fr v && existsb (fun g => g v) (choices k a ir VBind real (map (fun x => List.concat (picked bls x)) (valid_bindings ir bls))) = true) as X by (apply HX; auto). congruence.
        + intros (H1 & H2 & H3 & H4). split; auto.
          destruct (fr v && existsb (fun g => g v) (choices k a ir VBind real (map (fun x => List.concat (picked bls x)) (valid_bindings ir bls)))) eqn:X; auto.
          right. destruct (proj1 HX eq_refl) as [X1 X2]. auto.
    Qed.

    Hypothesis R : regular a ir.
    Variable m : multi.
    Hypothesis S : shape m.

    Lemma valid_index N z : 0 <= z < 2 ^ var_len k (Z.of_nat N) ->
      (is_valid k (Z.of_nat N) z = true <-> exists j, (j < N)%nat /\ z = translate_index k (Z.of_nat j)).
    Proof.
      intros H. destruct (C29_valid k (Z.of_nat N) z ltac:(lia) H) as (-> & -> & _). split.
      - intros (i & Hi & E). rewrite match_index_eq in E by auto. injection E as E. apply Z.eqb_eq in E. exists (Z.to_nat i). split; [lia|].
        rewrite Z2Nat.id by lia. auto.
      - intros (j & L & ->). exists (Z.of_nat j). split; [lia|]. rewrite match_index_eq by lia. now rewrite Z.eqb_refl.
    Qed.

    Definition prog_of (sol : mval) (bs : list binding) : list (binding * list Z) :=
      map (fun e => (snd e, map (fun c => sol (VIn (fst e) (fst c))) (a_const a))) (combine (seq 0 n) bs).
    Lemma nth_combine {A B} (l : list A) : forall (l' : list B) i, nth_error (combine l l') i =
      match nth_error l i, nth_error l' i with Some x, Some y => Some (x, y) | _, _ => None end.
    Proof.
      induction l as [|x l IH]; intros [|y l'] [|i]; cbn [combine nth_error]; auto. destruct (nth_error l i); auto.
    Qed.
    Lemma nth_seq o N i : nth_error (seq o N) i = if Nat.ltb i N then Some (o + i)%nat else None.
    Proof.
      revert o i. induction N as [|N IH]; intros o [|i]; cbn [seq nth_error]; auto; [cbn; f_equal; lia|]. rewrite IH. change (Nat.ltb (Datatypes.S i) (Datatypes.S N)) with (Nat.ltb i N).
      destruct (Nat.ltb i N); auto. f_equal. lia.
    Qed.
    Lemma prog_of_at sol bs i : length bs = n -> nth_error (prog_of sol bs) i =
      match nth_error bs i with Some b => Some (b, map (fun c => sol (VIn i (fst c))) (a_const a)) | None => None end.
    Proof.
      intros L. unfold prog_of. rewrite nth_error_map, nth_combine, nth_seq. destruct (Nat.ltb_spec i n) as [Li|Li].
      - destruct (nth_error bs i); reflexivity.
      - rewrite (proj2 (nth_error_None bs i)) by lia. reflexivity.
    Qed.
    Lemma prog_of_fst sol bs : length bs = n -> map fst (prog_of sol bs) = bs.
    Proof.
      intros L. apply nth_ext'. intros i. rewrite nth_error_map, prog_of_at by auto. destruct (nth_error bs i); reflexivity.
    Qed.

    Lemma rr_spec sol j x : nth_error (m_valid m) j = Some x -> sol VBind = translate_index k (Z.of_nat j) ->
      multi_rr k a n m sol = Ok (prog_of sol (picked (m_blocks m) x)).
    Proof.
      intros E1 E2. unfold multi_rr. assert (j < length (m_valid m))%nat as L by (apply nth_error_Some; congruence).
      assert (decode k (Z.of_nat (length (m_valid m))) (sol VBind) = Ok (Z.of_nat j)) as ->.
      { apply (decode_spec k (pyrange 0 (Z.of_nat (length (m_valid m))))); [intros i I; apply pyrange_In in I; lia|].
        split; auto. apply pyrange_In. lia. }
      cbn [bind]. rewrite Nat2Z.id, E1. reflexivity.
    Qed.

    Definition outbind (ob : list string) : binding := map (fun e => (Some (Aout (n - 1) (fst e)), IRout (fst (snd e)))) (combine ob (i_out ir)).
    Lemma outb_spec b : In b (m_outb m) <-> exists ob, selects a ir ob /\ b = outbind ob.
    Proof.
      pose proof (h_outb _ S) as E.
      assert (NoDup (map fst (map (fun e => (Aout (n - 1) (fst e), snd e)) (a_out a)))) as N.
      { rewrite map_map. cbn [fst]. rewrite <- (map_map fst (Aout (n - 1))). apply NoDup_map_inj; [intros p q _ _ [= ->]; auto|apply (r_out _ _ R)]. }
      destruct (mcreate_spec teqb teqb_spec _ (map (fun e => (IRout (fst e), snd e)) (i_out ir)) false N) as [(bs & E' & H & _)|(E' & _)]; [|rewrite E in E'; discriminate].
      rewrite E in E'. injection E' as <-. rewrite H. unfold joins, selects, outbind. clear. split.
      - revert b. induction (i_out ir) as [|[f t] l IH]; cbn [map]; intros b F; inversion F as [|[s o] ? b' ? [H1 H2] F']; subst; [exists []; split; [constructor|auto]|].
        destruct (IH b' F') as (ob & H3 & ->). cbn [fst snd] in *. destruct s as [p|]; [|discriminate]. apply in_map_iff in H2 as ([g t'] & [= <- ->] & I).
        exists (g :: ob). split; [constructor; auto|]. cbn [combine map fst snd]. now rewrite H1.
      - intros (ob & F & ->). induction F as [|g [f t] ob l I F IH]; cbn [combine map]; constructor; auto. cbn [fst snd] in *. split; auto.
        apply in_map_iff. exists (g, t). auto.
    Qed.
    Lemma outbind_holds ob v : length ob = length (i_out ir) -> (holds true (outbind ob) v <->
      Forall2 (fun g f => a_sem a (fun f => v (VIn (n - 1) f)) g = i_sem ir (fun b => v (VBox b)) (fun f => v (VIr f)) (fst f)) ob (i_out ir)).
    Proof.
      unfold holds, outbind. generalize (i_out ir) as l. induction ob as [|g ob IH]; intros [|[f t] l] L; try discriminate; cbn [combine map].
      - split; [constructor|intros _ s o []].
      - injection L as L. specialize (IH l L). split.
        + intros H. constructor.
          * apply (H _ _ (or_introl eq_refl)).
          * apply IH. intros s o I. apply H. now right.
        + intros F s o. inversion F; subst. intros [[= <- <-]|I]; [auto|]. apply (proj2 IH); auto.
    Qed.

    Lemma mvar_dec (x y : mvar) : {x = y} + {x <> y}.
    Proof. decide equality; auto using string_dec, Nat.eq_dec. Qed.
    Definition overlay (sol w : mval) : mval := fun y => if in_dec mvar_dec y (m_forall m) then w y else sol y.
    Lemma overlay_in sol w y : In y (m_forall m) -> overlay sol w y = w y.
    Proof. unfold overlay. destruct (in_dec mvar_dec y (m_forall m)); tauto. Qed.
    Lemma overlay_out sol w y : ~ In y (m_forall m) -> overlay sol w y = sol y.
    Proof. unfold overlay. destruct (in_dec mvar_dec y (m_forall m)); tauto. Qed.

    Lemma valid_wired bs : (exists x, In x (m_valid m) /\ picked (m_blocks m) x = bs) <-> wired a ir n bs.
    Proof.
      rewrite (h_valid _ S). apply (valid_spec teqb a ir teqb_spec (nd_in' a ir R) (r_out _ _ R) (r_ir _ _ R) n (m_blocks m) (h_blocks _ S) (h_boxes _ S)).
    Qed.

    Lemma word_0 t : word t 0.
    Proof. unfold word. split; [lia|]. apply Z.pow_pos_nonneg; lia. Qed.

    Lemma sound sol : solution k a ir n m sol -> exists prog ob, multi_rr k a n m sol = Ok prog /\ program a ir n prog /\ selects a ir ob /\
      computes a ir n prog ob (fun b => sol (VBox b)).
    Proof.
      intros (Rb & Ro & Tc & H).
      assert (forall v, (forall y, ~ In y (m_forall m) -> v y = sol y) -> v VBind = sol VBind /\ v VBout = sol VBout /\ (forall b, v (VBox b) = sol (VBox b))) as Ag.
      { intros v A. split; [apply A, (h_fbind _ S)|]. split; [apply A, (h_fbout _ S)|]. intros b. apply A, (h_fbox _ S). }
      assert (m_formula m (overlay sol (fun _ => 0)) = true) as F0.
      { apply H; [apply overlay_out|..].
        - intros f t I. rewrite overlay_in; [apply word_0|]. apply (h_fir _ S). apply (in_map fst) in I. exact I.
        - intros i f t L I. rewrite overlay_in; [apply word_0|]. apply (h_fin _ S). split; auto. apply (in_map fst) in I. exact I.
        - intros i f t I _. rewrite overlay_in; auto. apply word_0. }
      apply (h_formula _ S) in F0 as (V1 & V2 & V3 & _).
      destruct (Ag (overlay sol (fun _ => 0)) (overlay_out sol _)) as (A1 & A2 & _). rewrite A1 in V1. rewrite A2 in V2. clear A1 A2.
      apply valid_index in V1 as (j & Lj & Ej); auto. apply valid_index in V2 as (jo & Ljo & Ejo); auto.
      destruct (nth_error (m_valid m) j) as [x|] eqn:Ex; [|apply nth_error_None in Ex; lia].
      destruct (nth_error (m_outb m) jo) as [bo|] eqn:Ebo; [|apply nth_error_None in Ebo; lia].
      destruct (proj1 (outb_spec bo) (nth_error_In _ _ Ebo)) as (ob & Sel & ->).
      set (bs := picked (m_blocks m) x). assert (wired a ir n bs) as W by (apply valid_wired; exists x; split; auto; eapply nth_error_In; eauto).
      pose proof W as (Lb & Wb & _).
      set (prog := prog_of sol bs). exists prog, ob. split; [apply (rr_spec sol j x); auto|].
      assert (program a ir n prog) as PR.
      { split; [unfold prog; rewrite prog_of_fst; auto|]. intros b ws I. apply In_nth_error in I as (i & Ei). unfold prog in Ei. rewrite prog_of_at in Ei by auto.
        destruct (nth_error bs i) as [b'|] eqn:Eb; [|discriminate]. injection Ei as _ <-. assert (i < n)%nat as Li by (rewrite <- Lb; apply nth_error_Some; congruence).
        assert (forall c t, In (c, t) (a_const a) -> word t (sol (VIn i c)) /\ a_valid a c (sol (VIn i c)) = true) as X.
        { intros c t I. split; [apply (Tc i c t Li I)|]. specialize (V3 i c t Li I). rewrite overlay_out in V3; auto.
          intros J. apply (h_fin _ S) in J as [_ J]. apply (nd_const_in a ir R c c); auto. apply (in_map fst) in I. exact I. }
        clear - X. induction (a_const a) as [|[c t] l IH]; cbn [map]; constructor; [apply X; left; auto|]. apply IH. intros c' t' I. apply X. now right. }
      split; auto. split; auto. intros xs u Tx Tu.
      set (w := fun y => match y with VIr f => xs f | VIn i f => at_instr a prog xs u i f | VFree i g => a_sem a (at_instr a prog xs u i) g | _ => 0 end).
      set (v := overlay sol w). assert (forall y, ~ In y (m_forall m) -> v y = sol y) as Av by apply overlay_out.
      assert (forall f, In f (map fst (i_in ir)) -> v (VIr f) = xs f) as Hir by (intros f I; unfold v; rewrite overlay_in; auto; now apply (h_fir _ S)).
      assert (forall i f, (i < n)%nat -> In f (map fst (a_const a ++ a_in a)) -> v (VIn i f) = at_instr a prog xs u i f) as Hin.
      { intros i f Li I. destruct (in_dec string_dec f (map fst (a_in a))) as [I'|I'].
        - unfold v. rewrite overlay_in; auto. apply (h_fin _ S). auto.
        - rewrite Av by (rewrite (h_fin _ S); tauto). rewrite map_app in I. apply in_app_iff in I as [I|I]; [|contradiction].
          apply in_map_iff in I as ([c t] & <- & I). cbn [fst]. apply In_nth_error in I as (jc & Ec).
          destruct (nth_error bs i) as [b|] eqn:Eb; [|apply nth_error_None in Eb; lia].
          symmetry. apply (at_const a ir R prog xs u i b (map (fun c => sol (VIn i (fst c))) (a_const a)) jc c t).
          + unfold prog. rewrite prog_of_at by auto. now rewrite Eb.
          + auto.
          + rewrite nth_error_map, Ec. reflexivity. }
      assert (forall i g, (i < n)%nat -> a_sem a (fun f => v (VIn i f)) g = a_sem a (at_instr a prog xs u i) g) as Hsem.
      { intros i g Li. apply (r_ext _ _ R). intros f I. auto. }
      assert (m_formula m v = true) as Fv.
      { apply H; auto.
        - intros f t I. rewrite Hir; [apply Tx; auto|]. apply (in_map fst) in I. exact I.
        - intros i f t Li I. rewrite Hin; auto; [|rewrite map_app; apply in_app_iff; right; apply (in_map fst) in I; exact I].
          apply (at_typed a ir R n prog xs u PR Tx Tu i Li f t). apply in_app_iff. auto.
        - intros i g t I It. unfold v. rewrite overlay_in by auto. unfold w. apply (r_typed _ _ R); auto.
          apply (h_ffree _ S) in I as (_ & Li & _). apply (at_typed a ir R n prog xs u PR Tx Tu i). lia. }
      apply (h_formula _ S) in Fv as (_ & _ & _ & F). destruct (Ag v Av) as (A1 & A2 & A3).
      assert (repl v) as Rp.
      { intros Er i g t Li I. unfold v at 1. rewrite overlay_in; [|apply (h_ffree _ S); repeat split; auto; apply (in_map fst) in I; exact I].
        unfold w. symmetry. apply Hsem. lia. }
      destruct F as (jo' & bo & Eb & Ev & Hh); auto.
      { exists j, x. split; auto. split; [congruence|]. intros s o I. apply in_concat in I as (b & Ib & I). fold bs in Ib. apply In_nth_error in Ib as (i & Ei).
        assert (i < n)%nat as Li by (rewrite <- Lb; apply nth_error_Some; congruence).
        destruct (wires_target_in a ir i b s o (Wb i b Ei) I) as (f & t & -> & If & Src). destruct s as [p|]; [|reflexivity].
        assert (nth_error prog i = Some (b, map (fun c => sol (VIn i (fst c))) (a_const a))) as Ep by (unfold prog; rewrite prog_of_at by auto; now rewrite Ei).
        cbn [translate]. rewrite (Hin i f Li) by (rewrite map_app; apply in_app_iff; right; apply (in_map fst) in If; exact If).
        rewrite (at_wire a ir R n prog xs u PR i _ _ (Some p) f Ep I). destruct Src as [(g & -> & Ig)|(j' & g & Lj' & -> & Ig)]; cbn [translate].
        - apply Hir. apply (in_map fst) in Ig. exact Ig.
        - destruct real eqn:Er; [apply Hsem; lia|]. unfold v. rewrite overlay_in; [reflexivity|]. apply (h_ffree _ S). rewrite Er. repeat split; auto; [lia|].
          apply (in_map fst) in Ig. exact Ig. }
      assert (jo' = jo) as -> by (apply Nat2Z.inj; apply (translate_inj k); [lia..|congruence]). assert (bo = outbind ob) as -> by congruence.
      apply outbind_holds in Hh; [|apply (F2_length _ _ _ Sel)].
      pose proof (h_n _ S) as Ln. clear - Hh Hsem Hir A3 PR R Ln Lb. induction Hh as [|g f obs fs E Hh IH]; constructor; auto.
      rewrite (outs_at a ir R n prog xs u PR (n - 1) g) by lia. rewrite <- (Hsem (n - 1)%nat g) by lia. rewrite E. apply (r_iext _ _ R); auto.
    Qed.

    Lemma complete prog ob box : program a ir n prog -> selects a ir ob -> computes a ir n prog ob box ->
      exists sol, solution k a ir n m sol /\ multi_rr k a n m sol = Ok prog /\ forall b, sol (VBox b) = box b.
    Proof.
      intros PR Sel C. pose proof PR as [W Pw]. destruct (proj2 (valid_wired (map fst prog)) W) as (x & Ix & Ep).
      pose proof (proj2 (outb_spec (outbind ob)) (ex_intro _ ob (conj Sel eq_refl))) as Io.
      apply In_nth_error in Ix as (j & Ej), Io as (jo & Ejo).
      assert (j < length (m_valid m))%nat as Lj by (apply nth_error_Some; congruence).
      assert (jo < length (m_outb m))%nat as Ljo by (apply nth_error_Some; congruence).
      pose proof (prog_length a ir n prog PR) as Lp.
      set (sol := fun y => match y with VBind => translate_index k (Z.of_nat j) | VBout => translate_index k (Z.of_nat jo) | VBox b => box b
        | VIn i f => match nth_error prog i with Some (_, ws) => match dget String.eqb (combine (map fst (a_const a)) ws) f with Some z => z | None => 0 end | None => 0 end
        | _ => 0 end).
      assert (forall i b ws jc c t w, nth_error prog i = Some (b, ws) -> nth_error (a_const a) jc = Some (c, t) -> nth_error ws jc = Some w -> sol (VIn i c) = w) as Sc.
      { intros i b ws jc c t w E1 E2 E3. unfold sol. rewrite E1. rewrite (dget_combine _ (nd_const a ir R) ws jc c w); auto. rewrite nth_error_map, E2. reflexivity. }
      assert (forall i b ws c t, nth_error prog i = Some (b, ws) -> In (c, t) (a_const a) -> exists jc w, nth_error (a_const a) jc = Some (c, t) /\ nth_error ws jc = Some w /\
        sol (VIn i c) = w /\ word t w /\ a_valid a c w = true) as Sw.
      { intros i b ws c t E1 I. apply In_nth_error in I as (jc & Ec). specialize (Pw b ws (nth_error_In _ _ E1)).
        destruct (nth_error ws jc) as [w|] eqn:Ew; [|apply nth_error_None in Ew; rewrite (F2_length _ _ _ Pw) in Ew; assert (jc < length (a_const a))%nat by (apply nth_error_Some; congruence); lia].
        exists jc, w. split; auto. split; auto. split; [eapply Sc; eauto|]. exact (F2_at _ _ _ jc w (c, t) Pw Ew Ec). }
      exists sol. split; [|split; [|reflexivity]].
      - split; [apply translate_range; lia|]. split; [apply translate_range; lia|]. split.
        { intros i c t Li I. destruct (prog_at a ir n prog PR i Li) as (b & ws & E). destruct (Sw i b ws c t E I) as (jc & w & _ & _ & -> & Ww & _). auto. }
        intros v Av Tx Tu Tf. apply (h_formula _ S).
        assert (v VBind = sol VBind) as Avb by (apply Av, (h_fbind _ S)). assert (v VBout = sol VBout) as Avo by (apply Av, (h_fbout _ S)).
        assert (forall i c t, (i < n)%nat -> In (c, t) (a_const a) -> v (VIn i c) = sol (VIn i c)) as Avc.
        { intros i c t Li I. apply Av. intros J. apply (h_fin _ S) in J as [_ J]. apply (nd_const_in a ir R c c); auto. apply (in_map fst) in I. exact I. }
        split; [rewrite Avb; apply valid_index; [apply translate_range; lia|exists j; auto]|].
        split; [rewrite Avo; apply valid_index; [apply translate_range; lia|exists jo; auto]|]. split.
        { intros i c t Li I. rewrite (Avc i c t Li I). destruct (prog_at a ir n prog PR i Li) as (b & ws & E). destruct (Sw i b ws c t E I) as (jc & w & _ & _ & -> & _ & Vw). auto. }
        intros Rp (j' & x' & Ex' & Ev & Hh). rewrite Avb in Ev. unfold sol in Ev.
        assert (j' = j) as -> by (apply Nat2Z.inj; apply (translate_inj k); [lia..|congruence]). assert (x' = x) as -> by congruence. rewrite Ep in Hh.
        exists jo, (outbind ob). split; auto. split; [rewrite Avo; reflexivity|]. apply outbind_holds; [apply (F2_length _ _ _ Sel)|].
        set (xs := fun f => v (VIr f)). set (u := fun i f => v (VIn i f)).
        assert (forall i, (i < n)%nat -> forall f, In f (map fst (a_const a ++ a_in a)) -> v (VIn i f) = at_instr a prog xs u i f) as Hin.
        { intros i. induction i as [i IH] using lt_wf_ind. intros Li f I. destruct (prog_at a ir n prog PR i Li) as (b & ws & E).
          apply in_map_iff in I as ([f' t] & <- & I). cbn [fst]. apply in_app_iff in I as [I|I].
          - destruct (Sw i b ws f' t E I) as (jc & w & E1 & E2 & E3 & _). rewrite (Avc i f' t Li I), E3. symmetry. exact (at_const a ir R prog xs u i b ws jc f' t w E E1 E2).
          - destruct (wires_target_onto a ir i b f' t (prog_wires a ir n prog PR i b ws E) I) as (s & Is & Src).
            rewrite (at_wire a ir R n prog xs u PR i b ws s f' E Is). destruct s as [p|]; [|reflexivity].
            assert (In (Some p, Ain i f') (List.concat (map fst prog))) as Ic.
            { apply in_concat. exists b. split; auto. apply in_map_iff. exists (b, ws). split; auto. eapply nth_error_In; eauto. }
            specialize (Hh _ _ Ic). cbn [translate] in Hh. rewrite <- Hh.
            destruct Src as [(g & -> & Ig)|(j' & g & Lj' & -> & Ig)]; cbn [translate]; [reflexivity|].
            assert (a_sem a (fun f => v (VIn j' f)) g = a_sem a (at_instr a prog xs u j') g) as Es.
            { apply (r_ext _ _ R). intros f If. apply IH; auto. lia. }
            rewrite <- Es. destruct real eqn:Er; auto. apply (Rp Er j' g t); auto. lia. }
        specialize (C xs u Tx Tu). pose proof (h_n _ S) as Ln. clear - C Hin PR R Ln Av S. induction C as [|g f obs fs E C IH]; constructor; auto.
        rewrite (outs_at a ir R n prog xs u PR (n - 1) g) in E by lia. transitivity (i_sem ir box xs (fst f)).
        + rewrite <- E. apply (r_ext _ _ R). intros f' I. apply Hin; auto. lia.
        + apply (r_iext _ _ R); auto. intros b. symmetry. rewrite Av; [reflexivity|apply (h_fbox _ S)].
      - rewrite (rr_spec sol j x Ej eq_refl), Ep. f_equal. apply nth_ext'. intros i. rewrite prog_of_at by (rewrite map_length; auto).
        rewrite nth_error_map. destruct (nth_error prog i) as [[b ws]|] eqn:E; cbn [option_map fst]; auto. f_equal. f_equal.
        apply nth_ext'. intros jc. rewrite nth_error_map. specialize (Pw b ws (nth_error_In _ _ E)). destruct (nth_error (a_const a) jc) as [[c t]|] eqn:Ec; cbn [option_map fst].
        + destruct (Sw i b ws c t E (nth_error_In _ _ Ec)) as (jc' & w & E1 & E2 & -> & _).
          assert (jc' = jc) as ->; [|auto]. pose proof (nd_const a ir R) as N. assert (jc < length (map fst (a_const a)))%nat by (rewrite map_length; apply nth_error_Some; congruence).
          assert (jc' < length (map fst (a_const a)))%nat by (rewrite map_length; apply nth_error_Some; congruence).
          apply (proj1 (NoDup_nth_error _) N); auto. rewrite !nth_error_map, E1, Ec. reflexivity.
        + symmetry. apply nth_error_None. apply nth_error_None in Ec. rewrite (F2_length _ _ _ Pw). auto.
    Qed.
  End Formula.
End Meaning.

(** The tuples [Multi] chooses from are exactly the wirings of [n] instructions in which
    inputs come from inputs of the IR or earlier instructions, have the right types, and
    every IR input is used once; no wiring comes twice. *)
Theorem C46_programs : forall (T : Type) (teqb : T -> T -> bool), (forall x y, teqb x y = true <-> x = y) ->
  forall k a ir real n split m, NoDup (map fst (a_in a)) -> NoDup (map fst (a_out a)) -> NoDup (map fst (i_in ir)) ->
    multi_build teqb k a ir real n split = Ok m ->
    (forall bs, In bs (map (picked (m_blocks m)) (m_valid m)) <-> wired a ir n bs) /\
    NoDup (map (picked (m_blocks m)) (m_valid m)).
Proof.
  intros T teqb Sp k a ir real n split m N1 N2 N3 E. pose proof (build_shape teqb k a ir real n split m E) as S.
  rewrite (h_valid _ _ _ _ _ _ _ S). destruct (valid_spec teqb a ir Sp N1 N2 N3 n (m_blocks m) (h_blocks _ _ _ _ _ _ _ S) (h_boxes _ _ _ _ _ _ _ S)) as [H1 H2].
  split; auto. intros bs. rewrite <- H1, in_map_iff. split; intros (x & X1 & X2); eauto.
Qed.

(** When there is a problem to solve. *)
Theorem C46_build : forall (T : Type) (teqb : T -> T -> bool), (forall x y, teqb x y = true <-> x = y) ->
  forall k a ir real n split, NoDup (map fst (a_in a)) -> NoDup (map fst (a_out a)) -> NoDup (map fst (i_in ir)) ->
    ((exists m, multi_build teqb k a ir real n split = Ok m) <->
     i_const ir = [] /\ length (a_const a) = 1%nat /\ (0 < n)%nat /\ a_boxes a = false /\ (exists bs, wired a ir n bs) /\
     (real = true \/ n = 1%nat \/ a_out a <> []) /\ (forall f t, In (f, t) (i_out ir) -> exists g, In (g, t) (a_out a)) /\ split = false).
Proof.
  intros T teqb Sp k a ir real n split N1 N2 N3.
  assert (NoDup (map fst (map (fun e => (Aout (n - 1) (fst e), snd e)) (a_out a)))) as NO.
  { rewrite map_map. cbn [fst]. rewrite <- (map_map fst (Aout (n - 1))). apply NoDup_map_inj; auto. intros p q _ _ [= ->]; auto. }
  split.
  - intros [m E]. pose proof (build_shape teqb k a ir real n split m E) as S. unfold multi_build in E.
    destruct (Nat.eqb_spec (length (i_const ir)) 0) as [E0|]; [|discriminate]. apply length_zero_iff_nil in E0. split; auto. cbn [negb] in E.
    split; [apply (h_const _ _ _ _ _ _ _ S)|]. split; [apply (h_n _ _ _ _ _ _ _ S)|]. split; [apply (h_boxes _ _ _ _ _ _ _ S)|].
    destruct (negb (Nat.eqb (length (a_const a)) 1)); [discriminate|]. rewrite (h_blocks _ _ _ _ _ _ _ S) in E. cbn [bind] in E.
    destruct (Nat.eqb n 0); [discriminate|]. destruct (Nat.eqb (length _) 0); [discriminate|].
    split; [|split; [|split]].
    + pose proof (h_vne _ _ _ _ _ _ _ S) as Nv. destruct (valid_spec teqb a ir Sp N1 N2 N3 n (m_blocks m) (h_blocks _ _ _ _ _ _ _ S) (h_boxes _ _ _ _ _ _ _ S)) as [H1 _].
      rewrite (h_valid _ _ _ _ _ _ _ S) in Nv. destruct (valid_bindings ir (m_blocks m)) as [|x r] eqn:Ev; [congruence|]. exists (picked (m_blocks m) x). apply H1. exists x. split; auto. now left.
    + destruct real; auto. right. destruct (Nat.eqb_spec n 1) as [|Nn]; auto. right. intros X. unfold free_repl in E. rewrite X in E.
      destruct (Nat.eqb_spec n 1); [contradiction|]. cbn [map] in E. assert (forall l : list nat, flat_map (fun _ : nat => @nil mfm) l = []) as Z0 by (induction l; auto).
      rewrite Z0 in E. discriminate.
    + pose proof (h_outb _ _ _ _ _ _ _ S) as Eo. destruct (mcreate_spec teqb Sp _ (map (fun e => (IRout (fst e), snd e)) (i_out ir)) false NO) as [(bs & E' & _ & _ & H)|(E' & _)]; [|congruence].
      intros f t I. destruct (H eq_refl (IRout f) t) as (p & Ip); [apply in_map_iff; exists (f, t); auto|]. apply in_map_iff in Ip as ([g t'] & [= _ ->] & Ig). eauto.
    + destruct split; auto. exfalso. destruct (if real then Ok (fun _ => true) else free_repl a n); [|discriminate]. cbn [bind] in E.
      destruct (mcreate teqb _ _ false); [|discriminate]. cbn [bind] in E. destruct (mor _); discriminate.
  - intros (H1 & H2 & H3 & H4 & (bs & W) & H5 & H6 & ->). unfold multi_build. rewrite H1, H2. cbn [length Nat.eqb negb].
    destruct (blocks_ok teqb a ir Sp N2 N3 n H4) as (bls & Eb & Lb & _). rewrite Eb. cbn [bind]. destruct (Nat.eqb_spec n 0) as [|_]; [lia|].
    destruct (valid_spec teqb a ir Sp N1 N2 N3 n bls Eb H4) as [V _]. destruct (proj2 (V bs) W) as (x & Ix & _).
    destruct (valid_bindings ir bls) as [|x0 vb] eqn:Ev; [destruct Ix|]. cbn [length Nat.eqb].
    assert (exists fr, (if real then Ok (fun _ : mval => true) else free_repl a n) = Ok fr) as (fr & ->).
    { destruct real; eauto. unfold free_repl. destruct (Nat.eqb_spec n 1) as [|Nn]; eauto. destruct H5 as [|[|H5]]; try discriminate; try contradiction.
      destruct n as [|[|n']]; try lia. cbn [Nat.sub seq flat_map]. destruct (a_out a) as [|e l]; [congruence|]. cbn [map app mand]. eauto. }
    cbn [bind]. destruct (mcreate_spec teqb Sp _ (map (fun e => (IRout (fst e), snd e)) (i_out ir)) false NO) as [(ob & -> & J & _)|(_ & _ & o & t & I & X)].
    + cbn [bind]. assert (exists b, In b ob) as (b & Ib).
      { assert (exists b, joins (map (fun e => (Aout (n - 1) (fst e), snd e)) (a_out a)) (map (fun e => (IRout (fst e), snd e)) (i_out ir)) false b) as (b & Jb); [|exists b; now apply J].
        clear - H6. unfold joins. induction (i_out ir) as [|[f t] l IH]; [exists []; constructor|]. destruct IH as (b & F); [intros f' t' I; apply (H6 f' t'); now right|].
        destruct (H6 f t) as (g & Ig); [now left|]. exists ((Some (Aout (n - 1) g), IRout f) :: b). cbn [map]. constructor; auto. cbn [fst snd]. split; auto.
        apply in_map_iff. exists (g, t). auto. }
      destruct ob as [|b0 ob]; [destruct Ib|]. unfold choices at 1. unfold enum. cbn [length seq combine map mor bind app mand]. unfold choices, enum. cbn [map length seq combine mor bind]. eauto.
    + exfalso. apply in_map_iff in I as ([f t'] & [= <- <-] & I). destruct (H6 f t' I) as (g & Ig). apply (X (Aout (n - 1) g)). apply in_map_iff. exists (g, t'). auto.
Qed.

(** C60. The rule shown for a solution is a program of [n] valid instructions, and some
    outputs of its last instruction are those of the IR for all inputs, provided the IR
    has no black boxes; conversely every such program is the rule of a solution.
    Missing for C60: IR instructions with black boxes, see [C60_full_refuted]. *)
Definition plain {T} (ir : irinfo T) : Prop := forall box box' x g, i_sem ir box x g = i_sem ir box' x g.

Theorem C60_sound_partial : forall (T : Type) (width : T -> nat) (teqb : T -> T -> bool), (forall x y, teqb x y = true <-> x = y) ->
  forall k a ir real n split m sol, regular width a ir -> plain ir -> multi_build teqb k a ir real n split = Ok m ->
    solution width k a ir n m sol ->
    exists prog ob, multi_rr k a n m sol = Ok prog /\ program width a ir n prog /\ selects a ir ob /\ forall box, computes width a ir n prog ob box.
Proof.
  intros T width teqb Sp k a ir real n split m sol R Pl E Sol. destruct (sound width teqb k a ir real n Sp R m (build_shape teqb k a ir real n split m E) sol Sol)
    as (prog & ob & H1 & H2 & H3 & H4). exists prog, ob. split; auto. split; auto. split; auto. intros box x u Tx Tu. specialize (H4 x u Tx Tu). clear - H4 Pl.
  induction H4 as [|g f obs fs X F IH]; constructor; auto. rewrite X. apply Pl.
Qed.

Theorem C60_exact : forall (T : Type) (width : T -> nat) (teqb : T -> T -> bool), (forall x y, teqb x y = true <-> x = y) ->
  forall k a ir real n split m prog, regular width a ir -> multi_build teqb k a ir real n split = Ok m ->
    ((exists sol, solution width k a ir n m sol /\ multi_rr k a n m sol = Ok prog) <->
     program width a ir n prog /\ exists ob box, selects a ir ob /\ computes width a ir n prog ob box).
Proof.
  intros T width teqb Sp k a ir real n split m prog R E. pose proof (build_shape teqb k a ir real n split m E) as S. split.
  - intros (sol & Sol & Er). destruct (sound width teqb k a ir real n Sp R m S sol Sol) as (prog' & ob & H1 & H2 & H3 & H4).
    assert (prog' = prog) as -> by congruence. split; auto. exists ob, (fun b => sol (VBox b)). auto.
  - intros (PR & ob & box & Sel & C). destruct (complete width teqb k a ir real n Sp R m S prog ob box PR Sel C) as (sol & H1 & H2 & _). eauto.
Qed.

(** With and without [use_real], and with either index variable, the same programs are
    found. *)
Theorem C60_use_real : forall (T : Type) (width : T -> nat) (teqb : T -> T -> bool), (forall x y, teqb x y = true <-> x = y) ->
  forall k k' a ir n m m' prog, regular width a ir -> multi_build teqb k a ir true n false = Ok m -> multi_build teqb k' a ir false n false = Ok m' ->
    ((exists sol, solution width k a ir n m sol /\ multi_rr k a n m sol = Ok prog) <->
     (exists sol, solution width k' a ir n m' sol /\ multi_rr k' a n m' sol = Ok prog)).
Proof.
  intros T width teqb Sp k k' a ir n m m' prog R E E'. rewrite (C60_exact T width teqb Sp k a ir true n false m prog R E), (C60_exact T width teqb Sp k' a ir false n false m' prog R E'). tauto.
Qed.

(** Without [plain] the first half fails: the outputs of black boxes in the IR are chosen
    along with the program. *)
Definition C60_full : Prop := forall (T : Type) (width : T -> nat) (teqb : T -> T -> bool), (forall x y, teqb x y = true <-> x = y) ->
  forall k a ir real n split m sol, regular width a ir -> multi_build teqb k a ir real n split = Ok m -> solution width k a ir n m sol ->
    exists prog ob, multi_rr k a n m sol = Ok prog /\ program width a ir n prog /\ selects a ir ob /\ forall box, computes width a ir n prog ob box.

Open Scope string_scope. Open Scope list_scope. Open Scope Z_scope.
Definition copy_arch : archinfo nat :=
  mkArchI [("inst", 1%nat)] [("a", 8%nat)] [("o", 8%nat)] (fun x _ => x "a") (fun _ _ => true) false.
Definition box_ir : irinfo nat := mkIr [] [("x", 8%nat)] [("y", 8%nat)] (fun box x _ => (x "x" + box "b") mod 256).
Definition copy_prog : list (binding * list Z) := [([(Some (IRin "x"), Ain 0 "a")], [0])].

Lemma copy_regular : regular (fun w => w) copy_arch box_ir.
Proof.
  constructor; cbn.
  - repeat constructor; cbn; intuition discriminate.
  - repeat constructor; cbn; intuition.
  - repeat constructor; cbn; intuition.
  - intros x y H _. apply H. auto.
  - intros box box' x y Hb H _. now rewrite Hb, (H "x") by auto.
  - intros x H g t [[= _ <-]|[]]. apply (H "a" 8%nat). auto.
Qed.
Lemma copy_program : program (fun w => w) copy_arch box_ir 1 copy_prog.
Proof.
  split.
  - split; [reflexivity|]. split.
    + intros [|[|i]] b; try discriminate. intros [= <-]. constructor; [|constructor]. split; [reflexivity|]. left. exists "x". cbn. auto.
    + intros g t [[= <- _]|[]]. exists 0%nat, "a". split; [cbn; auto|]. intros j f [[= <- <-]|[]]. auto.
  - intros b ws [[= _ <-]|[]]. repeat constructor; cbn; lia.
Qed.

Theorem C60_full_refuted : ~ C60_full.
Proof.
  intros H. destruct (multi_build Nat.eqb Binary copy_arch box_ir true 1 false) as [m|] eqn:E; [|vm_compute in E; discriminate].
  destruct (complete (fun w => w) Nat.eqb Binary copy_arch box_ir true 1 Nat.eqb_eq copy_regular m (build_shape _ _ _ _ _ _ _ m E) copy_prog ["o"] (fun _ => 0))
    as (sol & Sol & Er & _).
  - apply copy_program.
  - repeat constructor.
  - intros x u Tx _. constructor; [|constructor]. cbn. specialize (Tx "x" 8%nat (or_introl eq_refl)). unfold word in Tx. cbn in Tx.
    rewrite Z.add_0_r. symmetry. apply Z.mod_small. lia.
  - destruct (H nat (fun w => w) Nat.eqb Nat.eqb_eq Binary copy_arch box_ir true 1%nat false m sol copy_regular E Sol) as (prog & ob & Er' & _ & Sel & C).
    assert (prog = copy_prog) as -> by congruence.
    specialize (C (fun _ => 1) (fun _ => 0) (fun _ _ => 0)). inversion Sel as [|g [f t] ? ? Ig S']; subst. inversion S'; subst.
    assert (word (fun w => w) 8%nat 0) as W0 by (apply word_0).
    assert (Forall2 (fun g f => nth 0 (run copy_arch copy_prog (fun _ => 0) (fun _ _ => 0) []) (fun _ => 0) g = i_sem box_ir (fun _ => 1) (fun _ => 0) (fst f)) [g] [("y", 8%nat)]) as F.
    { apply C; intros; apply word_0. }
    inversion F as [|? ? ? ? X _]; subst. vm_compute in X. discriminate.
Qed.

(** A program exists and is found: x - y as the sum of x and the negation of y. *)
Definition an_arch : archinfo nat :=
  mkArchI [("inst", 1%nat)] [("a", 8%nat); ("b", 8%nat)] [("o", 8%nat)]
    (fun x _ => if x "inst" =? 0 then (x "a" + x "b") mod 256 else (- x "a") mod 256) (fun _ _ => true) false.
Definition sub_ir : irinfo nat := mkIr [] [("x", 8%nat); ("y", 8%nat)] [("z", 8%nat)] (fun _ x _ => (x "x" - x "y") mod 256).
Definition sub_prog : list (binding * list Z) :=
  [([(Some (IRin "y"), Ain 0 "a"); (None, Ain 0 "b")], [1]);
   ([(Some (IRin "x"), Ain 1 "a"); (Some (Aout 0 "o"), Ain 1 "b")], [0])].

Example C46_case : exists m, multi_build Nat.eqb Binary an_arch sub_ir true 2 false = Ok m /\ length (m_valid m) = 26%nat /\
  In (map fst sub_prog) (map (picked (m_blocks m)) (m_valid m)).
Proof.
  destruct (multi_build Nat.eqb Binary an_arch sub_ir true 2 false) as [m|] eqn:E; [|vm_compute in E; discriminate].
  exists m. split; auto. vm_compute in E. injection E as <-. split; [vm_compute; reflexivity|]. vm_compute. tauto.
Qed.

Example C46_create_case : mcreate Nat.eqb [(1, 8%nat); (2, 16%nat)] [(3, 8%nat); (4, 8%nat)] true =
    Ok [[(None, 3); (None, 4)]; [(None, 3); (Some 1, 4)]; [(Some 1, 3); (None, 4)]; [(Some 1, 3); (Some 1, 4)]] /\
  mcreate Nat.eqb [(1, 8%nat)] [(3, 16%nat)] false = Err ValueError.
Proof. split; reflexivity. Qed.

Lemma sub_regular : regular (fun w => w) an_arch sub_ir.
Proof.
  constructor; cbn [a_const a_in a_out i_in an_arch sub_ir app map fst].
  - repeat constructor; cbn; intuition discriminate.
  - repeat constructor; cbn; intuition.
  - repeat constructor; cbn; intuition discriminate.
  - intros x y H g. cbn [a_sem an_arch]. now rewrite (H "inst"), (H "a"), (H "b") by (cbn; auto).
  - intros box box' x y _ H g. cbn [i_sem sub_ir]. now rewrite (H "x"), (H "y") by (cbn; auto).
  - intros x H g t [[= _ <-]|[]]. cbn [a_sem an_arch]. unfold word. change (2 ^ Z.of_nat 8) with 256.
    destruct (x "inst" =? 0); apply Z.mod_pos_bound; lia.
Qed.

Example C60_case : forall real, exists m sol, multi_build Nat.eqb Binary an_arch sub_ir real 2 false = Ok m /\
  solution (fun w => w) Binary an_arch sub_ir 2 m sol /\ multi_rr Binary an_arch 2 m sol = Ok sub_prog.
Proof.
  intros real. destruct (multi_build Nat.eqb Binary an_arch sub_ir real 2 false) as [m|] eqn:E; [|destruct real; vm_compute in E; discriminate].
  destruct (complete (fun w => w) Nat.eqb Binary an_arch sub_ir real 2 Nat.eqb_eq sub_regular m (build_shape _ _ _ _ _ _ _ m E) sub_prog ["o"] (fun _ => 0))
    as (sol & Sol & Er & _); eauto.
  - split.
    + split; [reflexivity|]. split.
      * intros [|[|[|i]]] b; try discriminate; intros [= <-]; constructor; [|constructor; [|constructor]| |constructor; [|constructor]]; split; try reflexivity; cbn.
        -- left. exists "y". cbn. auto.
        -- left. exists "x". cbn. auto.
        -- right. exists 0%nat, "o". cbn. auto.
      * intros g t [[= <- _]|[[= <- _]|[]]].
        -- exists 1%nat, "a". split; [cbn; auto|]. cbn. intros j f [X|[X|[X|[X|[]]]]]; try discriminate. injection X as <- <-. auto.
        -- exists 0%nat, "a". split; [cbn; auto|]. cbn. intros j f [X|[X|[X|[X|[]]]]]; try discriminate. injection X as <- <-. auto.
    + intros b ws [[= _ <-]|[[= _ <-]|[]]]; repeat constructor; cbn; lia.
  - repeat constructor.
  - intros x u _ _. constructor; [|constructor]. change (nth (2 - 1) (run an_arch sub_prog x u []) (fun _ => 0) "o") with ((x "x" + (- x "y") mod 256) mod 256).
    cbn [i_sem sub_ir fst]. rewrite Zplus_mod_idemp_r. f_equal.
Qed.

Print Assumptions C46_create.
Print Assumptions C46_programs.
Print Assumptions C46_build.
Print Assumptions C60_sound_partial.
Print Assumptions C60_exact.
Print Assumptions C60_use_real.
Print Assumptions C60_full_refuted.
