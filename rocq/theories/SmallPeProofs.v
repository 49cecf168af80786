(** Rules for the small PEs. *)
From Coq Require Import ZArith List Bool Lia Permutation.
From Verif Require Import Base BaseLemmas BvModel BvLemmas BindModel BindProps MapIdxModel MapIdxProps CegisModel CegisProps
  MapModel MapProofs MapMain MapProps MapIff MapIffProps SmallPeModel.
Import ListNotations.
Open Scope list_scope.
Open Scope Z_scope.

Lemma path_eqb_eq p q : path_eqb p q = true <-> p = q.
Proof. unfold path_eqb. rewrite Z.eqb_eq. split; [|now intros ->]. destruct p, q; cbn; congruence. Qed.
Lemma lty_eqb_eq s t : lty_eqb s t = true <-> s = t.
Proof.
  destruct s as [c|c|c|c], t as [d|d|d|d]; cbn [lty_eqb]; try (split; congruence); rewrite Bool.eqb_true_iff; split; congruence.
Qed.
Lemma small_eqs : eqs path_eqb lty_eqb.
Proof. split; [apply path_eqb_eq|apply lty_eqb_eq]. Qed.

Definition leaves : list path := [PBit0; PBit1; PAlu0; PAlu1; PIn0; PIn1; PIn2; PIn3].
Definition word (z : Z) : Prop := 0 <= z < 256.

Ltac in_cases H := cbn in H; repeat (destruct H as [H|H]; [|]); try contradiction.

Lemma instr2_ok f : instr_ok (small_instr2 f).
Proof.
  constructor; [repeat constructor; cbn; intuition discriminate..|]. intros x x' q H. cbn [small_instr2 i_sem].
  rewrite (H QIn0 (TWord false)), (H QIn1 (TWord false)); cbn; auto.
Qed.
Lemma instr1_ok f : instr_ok (small_instr1 f).
Proof.
  constructor; [repeat constructor; cbn; intuition discriminate..|]. intros x x' q H. cbn [small_instr1 i_sem].
  rewrite (H QIn0 (TWord false)); cbn; auto.
Qed.

Section Small.
  Variables (ta tb : Z) (first : bool).
  Hypothesis Htags : ta <> tb.
  Variable cs : list (path * list Z).
  Hypothesis Ncs : NoDup (map fst cs).
  Hypothesis Ics : incl (map fst cs) leaves.
  Notation arch0 := (small_arch ta tb first cs).
  Definition fs (fi : nat) (l : path -> Z) (q : path) : Z := pe_out (is_alu first fi) l q.
  Definition fvv (fi : nat) (l : path -> Z) : bool := pe_valid (is_alu first fi) l.

  Lemma form_nth fi f : nth_error (a_forms arch0) fi = Some f -> f = form ta tb (is_alu first fi).
  Proof. destruct fi as [|[|fi]]; cbn; intros E; [now injection E|now injection E|destruct fi; discriminate]. Qed.

  Lemma tag_is fi f (tags : path -> Z) : nth_error (a_forms arch0) fi = Some f ->
    (forall d, In d (snd f) -> tags (fst d) = snd d) ->
    (tags PInst =? ta) = is_alu first fi /\ (tags PInst =? ta) || (tags PInst =? tb) = true.
  Proof.
    intros E H. apply form_nth in E. subst f. destruct (is_alu first fi); cbn [form snd] in H;
      pose proof (H _ (or_introl eq_refl)) as X; cbn [fst snd] in X; rewrite X.
    - rewrite Z.eqb_refl. auto.
    - rewrite Z.eqb_refl, orb_true_r. split; auto. apply Z.eqb_neq. congruence.
  Qed.

  Lemma pe_out_local alu l l' q : (forall p, In p (fst (form ta tb alu)) -> l p = l' p) -> pe_out alu l q = pe_out alu l' q.
  Proof. intros H. unfold pe_out, inst_of. destruct alu; cbn [form fst] in H; rewrite !H by (cbn; auto 8); reflexivity. Qed.

  Lemma small_ok : arch_ok lty_const arch0 fs fvv.
  Proof.
    constructor.
    - repeat constructor; cbn; intuition discriminate.
    - repeat constructor; cbn; intuition discriminate.
    - exact Ncs.
    - exact Ics.
    - intros fi f E. apply form_nth in E. subst f. destruct (is_alu first fi); intros p; cbn; intuition (subst; auto).
    - intros fi f E. apply form_nth in E. subst f. destruct (is_alu first fi); repeat constructor; cbn; auto.
    - intros fi f tags l q E H. destruct (tag_is fi f tags E H) as [X _]. cbn [small_arch a_fsem]. now rewrite X.
    - intros fi f tags l q E H. destruct (tag_is fi f tags E H) as [X _]. cbn [small_arch a_sem]. now rewrite X.
    - intros fi f tags l E H. destruct (tag_is fi f tags E H) as [X Y]. cbn [small_arch a_fvalid]. now rewrite Y, X.
    - intros fi f tags l E H. destruct (tag_is fi f tags E H) as [X Y]. cbn [small_arch a_valid]. now rewrite Y, X.
    - intros fi f l l' q E H. apply form_nth in E. subst f. now apply pe_out_local.
    - intros fi f l l' E H. apply form_nth in E. subst f. unfold fvv, pe_valid. destruct (is_alu first fi).
      + rewrite (H PAlu0 (TOp true)); cbn; auto.
      + rewrite (H PBit0 (TOp true)); cbn; auto.
  Qed.

  Lemma small_ext : arch_ext arch0.
  Proof.
    intros tags tags' l l' Et El. cbn [small_arch a_fsem a_sem a_fvalid a_valid].
    rewrite (Et PInst) by (destruct first; cbn; auto).
    assert (E : forall alu q, pe_out alu l q = pe_out alu l' q).
    { intros alu q. apply pe_out_local. intros p I. apply El. destruct alu; cbn in *; intuition (subst; auto). }
    assert (V : forall alu, pe_valid alu l = pe_valid alu l').
    { intros alu. unfold pe_valid. rewrite El; auto. destruct alu; cbn; auto. }
    repeat split; intros; auto. now rewrite V. now rewrite V.
  Qed.

  (** What a rule for one or two words does. *)
  Definition sel (a b c : Z) (p : path) : Z := match p with PIn0 => a | PIn1 => b | _ => c end.
  Definition pe_word (alu : bool) (o m a b : Z) : Z := if alu then alu8 (op_of o) m a b else bit8 (op_of o) m a b.
  Definition fits_cs (p : path) (z : Z) : Prop := forall zs, In (p, zs) cs -> In z zs.
  Definition word_in (p : path) : Prop := In p [PIn0; PIn1; PIn2] /\ ~ In p (map fst cs).

  Definition consts_ok (alu : bool) (o m : Z) : Prop :=
    valid_op o = true /\ 0 <= m < (if alu then 256 else 2) /\
    fits_cs (if alu then PAlu0 else PBit0) o /\ fits_cs (if alu then PAlu1 else PBit1) m.

  Definition does2 (f : Z -> Z -> Z) (alu : bool) (o m : Z) (p0 p1 : path) : Prop :=
    forall a b c, word a -> word b -> word c -> fits_cs PIn0 a -> fits_cs PIn1 b -> fits_cs PIn2 c ->
      f (sel a b c p0) (sel a b c p1) = pe_word alu o m a b.
  Definition does1 (f : Z -> Z) (alu : bool) (o m : Z) (p0 : path) : Prop :=
    forall a b c, word a -> word b -> word c -> fits_cs PIn0 a -> fits_cs PIn1 b -> fits_cs PIn2 c ->
      f (sel a b c p0) = pe_word alu o m a b.

  Definition leaf_env (alu : bool) (o m : Z) (a b c d : Z) (p : path) : Z :=
    match p with
    | PBit0 => if alu then 1 else o | PBit1 => if alu then 0 else m
    | PAlu0 => if alu then o else 1 | PAlu1 => if alu then m else 0
    | PIn0 => a | PIn1 => b | PIn2 => c | PIn3 => d | _ => 0
    end.

  Lemma leaf_env_typed (alu : bool) o m a b c d : valid_op o = true -> 0 <= m < (if alu then 256 else 2) ->
    word a -> word b -> word c -> 0 <= d < 2 -> typed lty_vals (a_in arch0) (leaf_env alu o m a b c d).
  Proof.
    intros V M Wa Wb Wc Wd p t I. assert (Ho : 0 <= o < 4).
    { unfold valid_op in V. destruct (Z.eqb_spec o 1), (Z.eqb_spec o 2); try discriminate; lia. }
    clear V.
    cbn in I. unfold word in *. repeat (destruct I as [I|I]; [injection I as <- <-; apply pyrange_In; destruct alu; cbn; lia|]). destruct I.
  Qed.

  (** The value of a Const leaf stands in the rule. *)
  Lemma const_In (i : instr path lty) ru l0 (alu : bool) p t : well_formed path_eqb lty_const arch0 i ru ->
    (forall q t', In (q, t') (i_in i) -> t' = TWord false) -> (forall z p, In (SVal z, p) (r_in ru) -> l0 p = z) ->
    alu = is_alu first (r_form ru) -> In (p, t) (a_in arch0) -> lty_const t = true -> In p (fst (form ta tb alu)) ->
    In (SVal (l0 p), p) (r_in ru).
  Proof.
    intros (f & Ef & Ti & _ & _ & Nu) Et Vl Ea It Ct If. apply form_nth in Ef. subst f. rewrite <- Ea in Ti.
    destruct Ti as (Pm & Ty & _).
    assert (J : In p (map snd (shape (r_in ru)))).
    { eapply Permutation_in; [symmetry; exact Pm|]. apply in_map_iff. exists (p, t). split; auto. apply filter_In. split; auto.
      now apply (pmem_In path_eqb path_eqb_eq). }
    unfold shape in J. rewrite map_map in J. apply in_map_iff in J as ((s & p') & E & J). cbn [snd] in E. subst p'.
    destruct s as [q|z|].
    - exfalso. destruct (Ty q p) as (t' & I1 & I2).
      { unfold shape. apply in_map_iff. exists (SPath q, p). auto. }
      rewrite (Et q t' I1) in I2. apply filter_In in I2 as [I2 _]. revert It I2 Ct. cbn.
      intros It I2 Ct. repeat (destruct It as [It|It]; [injection It as <- <-; try discriminate; intuition discriminate|]). destruct It.
    - now rewrite (Vl z p J).
    - now destruct (Nu SUnbound p t J It Ct).
  Qed.

  Lemma rule_inv (i : instr path lty) ru : instr_ok i -> i_out i = [(QOut, TWord false)] ->
    (forall q t, In (q, t) (i_in i) -> t = TWord false) ->
    well_formed path_eqb lty_const arch0 i ru -> valid_consts lty_vals arch0 fvv ru -> allowed_consts arch0 ru ->
    correct_any lty_const lty_vals arch0 i fs ru ->
    exists (alu : bool) o m bnd,
      (In (SVal o, if alu then PAlu0 else PBit0) (r_in ru) /\ In (SVal m, if alu then PAlu1 else PBit1) (r_in ru) /\
       alu = is_alu first (r_form ru)) /\ consts_ok alu o m /\
      (forall q t, In (q, t) (i_in i) -> word_in (bnd q)) /\
      (forall q t q' t', In (q, t) (i_in i) -> In (q', t') (i_in i) -> bnd q = bnd q' -> q = q') /\
      forall a b c, word a -> word b -> word c -> fits_cs PIn0 a -> fits_cs PIn1 b -> fits_cs PIn2 c ->
        exists d, i_sem i (fun q => leaf_env alu o m a b c d (bnd q)) QOut = pe_word alu o m a b.
  Proof.
    intros Hi Eo Et W (l0 & Tl0 & Vl0 & Fl0) Al C.
    destruct (rule_eq path_eqb lty_const path_eqb_eq lty_vals arch0 i fs fvv small_ok Hi ru l0 W Tl0 Vl0 Al C)
      as (f & bnd & Ef & B & Inj & Ac & O).
    apply form_nth in Ef. subst f. unfold fvv in Fl0. set (alu := is_alu first (r_form ru)) in *.
    exists alu, (l0 (if alu then PAlu0 else PBit0)), (l0 (if alu then PAlu1 else PBit1)), bnd.
    assert (Co : consts_ok alu (l0 (if alu then PAlu0 else PBit0)) (l0 (if alu then PAlu1 else PBit1))).
    { split; [exact Fl0|]. split; [|split].
      - destruct alu.
        + apply pyrange_In. apply (Tl0 PAlu1 (TWord true)). cbn. auto.
        + apply pyrange_In. apply (Tl0 PBit1 (TBv1 true)). cbn. auto.
      - intros zs I. apply (Ac _ zs I). destruct alu; cbn; auto.
      - intros zs I. apply (Ac _ zs I). destruct alu; cbn; auto. }
    split.
    { split; [|split; [|reflexivity]].
      - eapply (const_In i ru l0 alu _ (TOp true)); eauto; destruct alu; cbn; auto.
      - eapply (const_In i ru l0 alu _ (if alu then TWord true else TBv1 true)); eauto; destruct alu; cbn; auto. }
    split; [exact Co|]. split; [|split; [exact Inj|]].
    - intros q t I. destruct (B q t I) as (B1 & B2 & B3). rewrite (Et q t I) in B1. split; [|exact B3].
      cbn in B1. repeat (destruct B1 as [B1|B1]; [injection B1; intros; subst; try discriminate; try (rewrite <- H; cbn; auto)|]); try contradiction.
    - intros a b c Wa Wb Wc Fa Fb Fc. exists (l0 PIn3).
      destruct (O QOut (TWord false) ltac:(rewrite Eo; now left)) as (ap & Iap & E).
      assert (ap = POut) as -> by (cbn in Iap; destruct Iap as [Iap|[Iap|[]]]; congruence).
      destruct Co as (Vo & Mo & _ & _).
      specialize (E (leaf_env alu (l0 (if alu then PAlu0 else PBit0)) (l0 (if alu then PAlu1 else PBit1)) a b c (l0 PIn3))).
      unfold fs in E. fold alu in E. rewrite E.
      + unfold pe_out, pe_word, inst_of. destruct alu; reflexivity.
      + apply leaf_env_typed; auto. apply pyrange_In. apply (Tl0 PIn3 (TBit false)). cbn. auto 10.
      + intros p t I J Ct _. destruct alu; cbn in J; repeat (destruct J as [J|J]; [subst p; try reflexivity|]); try contradiction;
          cbn in I; repeat (destruct I as [I|I]; [injection I; intros; subst; discriminate|]); contradiction.
      + intros p zs I J _. destruct alu; cbn in J; repeat (destruct J as [J|J]; [subst p; cbn [leaf_env]; auto|]); try contradiction;
          apply (Ac _ zs I); cbn; auto 8.
  Qed.


  Lemma implementable_inv (i : instr path lty) : instr_ok i -> i_out i = [(QOut, TWord false)] ->
    (forall q t, In (q, t) (i_in i) -> t = TWord false) ->
    implementable path_eqb lty_const lty_vals arch0 i fs fvv ->
    exists (alu : bool) o m bnd, consts_ok alu o m /\
      (forall q t, In (q, t) (i_in i) -> word_in (bnd q)) /\
      (forall q t q' t', In (q, t) (i_in i) -> In (q', t') (i_in i) -> bnd q = bnd q' -> q = q') /\
      forall a b c, word a -> word b -> word c -> fits_cs PIn0 a -> fits_cs PIn1 b -> fits_cs PIn2 c ->
        exists d, i_sem i (fun q => leaf_env alu o m a b c d (bnd q)) QOut = pe_word alu o m a b.
  Proof.
    intros Hi Eo Et (ru & W & V & Al & C). destruct (rule_inv i ru Hi Eo Et W V Al C) as (alu & o & m & bnd & _ & H).
    exists alu, o, m, bnd. exact H.
  Qed.

  Hypothesis Hcs : constr_ok lty_vals arch0.

  (** A rule from the binding of the leaves. *)
  Definition srcs (inv : path -> option path) (p : path) : src path :=
    match inv p with
    | Some q => SPath q
    | None => match dget path_eqb cs p with Some zs => SVal (hd 0 zs) | None => SUnbound end
    end.
  Definition mk_rule (alu : bool) (o m : Z) (inv : path -> option path) : rule path :=
    {| r_form := if Bool.eqb alu first then 0 else 1;
       r_in := (SVal o, if alu then PAlu0 else PBit0) :: (SVal m, if alu then PAlu1 else PBit1) ::
               map (fun p => (srcs inv p, p)) [PIn0; PIn1; PIn2; PIn3];
       r_out := [(Some QOut, POut); (None, POutBit)] |}.

  Lemma mk_form alu : is_alu first (if Bool.eqb alu first then 0%nat else 1%nat) = alu.
  Proof. destruct alu, first; reflexivity. Qed.
  Lemma mk_nth alu : nth_error (a_forms arch0) (if Bool.eqb alu first then 0%nat else 1%nat) = Some (form ta tb alu).
  Proof. unfold small_arch. cbn [a_forms]. destruct alu, first; reflexivity. Qed.

  Lemma cs_dget p zs : In (p, zs) cs -> dget path_eqb cs p = Some zs.
  Proof. intros I. now apply (In_dget path_eqb path_eqb_eq). Qed.

  Lemma implementable_intro (i : instr path lty) (alu : bool) o m (inv : path -> option path) :
    i_out i = [(QOut, TWord false)] ->
    (forall p q, inv p = Some q -> word_in p /\ In (q, TWord false) (i_in i)) ->
    (forall q t, In (q, t) (i_in i) -> uses path_eqb (map (fun p => (inv p, p)) [PIn0; PIn1; PIn2; PIn3]) q = 1%nat) ->
    consts_ok alu o m ->
    (forall x l, typed lty_vals (a_in arch0) l -> (forall p q, inv p = Some q -> l p = x q) ->
       fits_cs PIn0 (l PIn0) -> fits_cs PIn1 (l PIn1) -> fits_cs PIn2 (l PIn2) ->
       i_sem i x QOut = pe_word alu o m (l PIn0) (l PIn1)) ->
    implementable path_eqb lty_const lty_vals arch0 i fs fvv.
  Proof.
    intros Eo Hinv Hus (Vo & Mo & F0 & F1) Heq.
    pose (cf0 := if alu then PAlu0 else PBit0). pose (cf1 := if alu then PAlu1 else PBit1).
    assert (Rin : forall s p, In (s, p) (r_in (mk_rule alu o m inv)) ->
              (s = SVal o /\ p = cf0) \/ (s = SVal m /\ p = cf1) \/ (In p [PIn0; PIn1; PIn2; PIn3] /\ s = srcs inv p)).
    { intros s p I. cbn [mk_rule r_in In map] in I. destruct I as [I|[I|I]].
      - injection I as <- <-. auto.
      - injection I as <- <-. auto.
      - right. right. repeat (destruct I as [I|I]; [injection I as <- <-; cbn; auto 6|]). destruct I. }
    assert (Rp : forall p, In p [PIn0; PIn1; PIn2; PIn3] -> In (srcs inv p, p) (r_in (mk_rule alu o m inv))).
    { intros p I. cbn [mk_rule r_in]. right. right. apply in_map_iff. eauto. }
    assert (Ssrc : forall p, match srcs inv p with SPath q => Some q | _ => None end = inv p).
    { intros p. unfold srcs. destruct (inv p); auto. destruct (dget path_eqb cs p); auto. }
    assert (Sh : shape (r_in (mk_rule alu o m inv)) = (None, cf0) :: (None, cf1) :: map (fun p => (inv p, p)) [PIn0; PIn1; PIn2; PIn3]).
    { unfold shape. cbn [mk_rule r_in map fst snd]. rewrite !Ssrc. reflexivity. }
    exists (mk_rule alu o m inv). split; [|split; [|split]].
    - exists (form ta tb alu). split; [apply mk_nth|]. rewrite Sh. split; [|split; [|split]].
      + split; [|split].
        * unfold cf0, cf1. destruct alu; reflexivity.
        * intros q p I. destruct I as [I|[I|I]]; try discriminate. apply in_map_iff in I as (p' & E & I). injection E as E ->.
          destruct (Hinv p q E) as [[Wp _] Iq]. exists (TWord false). split; auto. apply filter_In. split.
          -- cbn in Wp. destruct Wp as [<-|[<-|[<-|[]]]]; cbn; auto 10.
          -- apply (pmem_In path_eqb path_eqb_eq). cbn in Wp. destruct alu; destruct Wp as [<-|[<-|[<-|[]]]]; cbn; auto 10.
        * intros q t I. exact (Hus q t I).
      + cbn [mk_rule r_out]. rewrite Eo. split; [reflexivity|]. split.
        * intros q p [E|[E|[]]]; [injection E as <- <-|discriminate]. exists (TWord false). cbn. auto.
        * intros q t [E|[]]. injection E as <- <-. reflexivity.
      + intros s p I N. apply Rin in I. destruct I as [[-> _]|[[-> _]|[_ ->]]]; eauto. unfold srcs.
        destruct (inv p) as [q|] eqn:E; [destruct (Hinv p q E) as [[_ X] _]; contradiction|].
        apply in_map_iff in N as ((p' & zs) & Ep & N). cbn [fst] in Ep. subst p'. rewrite (cs_dget p zs N). eauto.
      + intros s p t I J Ct. apply Rin in I. destruct I as [[-> _]|[[-> _]|[I ->]]]; try discriminate. exfalso.
        cbn in I, J. repeat (destruct J as [J|J]; [injection J; intros; subst; try discriminate; intuition discriminate|]). destruct J.
    - exists (fun p => if path_eqb p cf0 then o else if path_eqb p cf1 then m else
                match p with PBit0 | PAlu0 => 1 | _ => match dget path_eqb cs p with Some zs => hd 0 zs | None => 0 end end).
      assert (Ho : 0 <= o < 4) by (unfold valid_op in Vo; destruct (Z.eqb_spec o 1), (Z.eqb_spec o 2); try discriminate; lia).
      assert (Hd : forall p t, In (p, t) (a_in arch0) -> In 0 (lty_vals t) ->
                In (match dget path_eqb cs p with Some zs => hd 0 zs | None => 0 end) (lty_vals t)).
      { intros p t I Z. destruct (dget path_eqb cs p) as [zs|] eqn:E; auto. apply (dget_In path_eqb path_eqb_eq) in E.
        destruct (Hcs p zs E) as [N H]. apply (H t); auto. now apply hd_In. }
      split; [|split].
      + intros p t I. destruct (path_eqb p cf0) eqn:E0.
        { apply path_eqb_eq in E0. subst p. assert (t = TOp true) as ->.
          { unfold cf0 in I. destruct alu; cbn in I; repeat (destruct I as [I|I]; [injection I; intros; subst; congruence|]); destruct I. }
          apply pyrange_In. lia. }
        destruct (path_eqb p cf1) eqn:E1.
        { apply path_eqb_eq in E1. subst p. unfold cf1 in I. destruct alu; cbn in I;
            repeat (destruct I as [I|I]; [injection I; intros; subst; try discriminate; apply pyrange_In; lia|]); destruct I. }
        pose proof (Hd p t I) as X.
        cbn in I. repeat (destruct I as [I|I]; [injection I as <- <-; try (apply pyrange_In; lia); apply X, pyrange_In; lia|]). destruct I.
      + intros z p I. apply Rin in I. destruct I as [[[= <-] ->]|[[[= <-] ->]|[I E]]].
        * now rewrite (proj2 (path_eqb_eq _ _) eq_refl).
        * rewrite (proj2 (path_eqb_eq cf1 cf1) eq_refl). unfold cf0, cf1. destruct alu; reflexivity.
        * unfold srcs in E. destruct (inv p); [discriminate|]. destruct (dget path_eqb cs p) as [zs|]; [|discriminate]. injection E as ->.
          cbn in I. unfold cf0, cf1. destruct alu; destruct I as [<-|[<-|[<-|[<-|[]]]]]; reflexivity.
      + unfold fvv. cbn [mk_rule r_form]. rewrite mk_form. unfold pe_valid. fold cf0. now rewrite (proj2 (path_eqb_eq cf0 cf0) eq_refl).
    - intros z p zs I Iz. apply Rin in I. destruct I as [[[= <-] ->]|[[[= <-] ->]|[I E]]].
      + now apply F0.
      + now apply F1.
      + unfold srcs in E. destruct (inv p); [discriminate|]. rewrite (cs_dget p zs Iz) in E. injection E as ->. apply hd_In.
        now destruct (Hcs p zs Iz).
    - intros x l Tx Tl F q ap I. cbn [mk_rule r_out r_form] in *. destruct I as [I|[I|[]]]; [|discriminate]. injection I as <- <-.
      unfold fs. rewrite mk_form.
      assert (E0 : l cf0 = o).
      { unfold cf0. destruct alu; [apply (F (SVal o) PAlu0 (TOp true))|apply (F (SVal o) PBit0 (TOp true))]; cbn; auto 8. }
      assert (E1 : l cf1 = m).
      { unfold cf1. destruct alu; [apply (F (SVal m) PAlu1 (TWord true))|apply (F (SVal m) PBit1 (TBv1 true))]; cbn; auto 8. }
      assert (Ein : forall p, In p [PIn0; PIn1; PIn2; PIn3] -> exists t, In (p, t) (a_in arch0)).
      { intros p J. cbn in J. destruct J as [<-|[<-|[<-|[<-|[]]]]]; eexists; cbn; auto 10. }
      assert (Fin : forall p, In p [PIn0; PIn1; PIn2; PIn3] -> fits_cs p (l p)).
      { intros p J zs Iz. destruct (Ein p J) as (t & It). pose proof (F _ p t (Rp p J) It) as X. unfold srcs in X.
        destruct (inv p) as [q|] eqn:E; [destruct (Hinv p q E) as [[_ N] _]; destruct N; now apply (in_map fst) in Iz|].
        rewrite (cs_dget p zs Iz) in X. now apply X. }
      rewrite (Heq x l).
      + unfold pe_out, pe_word, inst_of. cbn [fst]. unfold cf0, cf1 in *. destruct alu; cbn [tagged_call fst]; congruence.
      + exact Tl.
      + intros p q E. destruct (Hinv p q E) as [[Wp _] _].
        assert (J : In p [PIn0; PIn1; PIn2; PIn3]) by (cbn in Wp |- *; intuition).
        destruct (Ein p J) as (t & It). pose proof (F _ p t (Rp p J) It) as X. unfold srcs in X. now rewrite E in X.
      + apply Fin. cbn. auto.
      + apply Fin. cbn. auto.
      + apply Fin. cbn. auto.
  Qed.

  Lemma leaf_sel alu o m a b c d p : word_in p -> leaf_env alu o m a b c d p = sel a b c p.
  Proof. intros [I _]. cbn in I. destruct I as [<-|[<-|[<-|[]]]]; reflexivity. Qed.

  Lemma typed_word l p : typed lty_vals (a_in arch0) l -> In p [PIn0; PIn1; PIn2] -> word (l p).
  Proof.
    intros T I. apply pyrange_In. cbn in I. destruct I as [<-|[<-|[<-|[]]]]; [apply (T PIn0 (TWord false))|apply (T PIn1 (TWord false))|apply (T PIn2 (TWord false))];
      cbn; auto 10.
  Qed.
  Lemma sel_leaf (l : path -> Z) p : In p [PIn0; PIn1; PIn2] -> sel (l PIn0) (l PIn1) (l PIn2) p = l p.
  Proof. intros I. cbn in I. destruct I as [<-|[<-|[<-|[]]]]; reflexivity. Qed.

  Theorem rule2_iff f : implementable path_eqb lty_const lty_vals arch0 (small_instr2 f) fs fvv <->
    exists alu o m p0 p1, consts_ok alu o m /\ word_in p0 /\ word_in p1 /\ p0 <> p1 /\ does2 f alu o m p0 p1.
  Proof.
    split.
    - intros M. destruct (implementable_inv (small_instr2 f) (instr2_ok f) eq_refl) with (2 := M) as (alu & o & m & bnd & Co & Wb & Inj & E).
      { intros q t [I|[I|[]]]; injection I; auto. }
      exists alu, o, m, (bnd QIn0), (bnd QIn1).
      assert (W0 : word_in (bnd QIn0)) by (eapply Wb; now left). assert (W1 : word_in (bnd QIn1)) by (eapply Wb; right; now left).
      split; [exact Co|]. split; [exact W0|]. split; [exact W1|]. split.
      + intros X. assert (QIn0 = QIn1) by (eapply Inj; [now left|right; now left|exact X]). discriminate.
      + intros a b c Wa Wb' Wc Fa Fb Fc. destruct (E a b c Wa Wb' Wc Fa Fb Fc) as (d & X). cbn [small_instr2 i_sem] in X.
        now rewrite !leaf_sel in X by auto.
    - intros (alu & o & m & p0 & p1 & Co & W0 & W1 & N & Do).
      apply (implementable_intro (small_instr2 f) alu o m (fun p => if path_eqb p p0 then Some QIn0 else if path_eqb p p1 then Some QIn1 else None)); auto.
      + intros p q. destruct (path_eqb p p0) eqn:E0; [|destruct (path_eqb p p1) eqn:E1; [|discriminate]]; intros E; injection E as <-;
          apply path_eqb_eq in E0 || apply path_eqb_eq in E1; subst p; split; cbn; auto.
      + destruct W0 as [W0 _], W1 as [W1 _]. intros q t I. cbn in W0, W1.
        destruct W0 as [<-|[<-|[<-|[]]]], W1 as [<-|[<-|[<-|[]]]]; try congruence; cbn in I; destruct I as [I|[I|[]]]; injection I as <- <-; reflexivity.
      + intros x l Tl Hl F0 F1 F2. cbn [small_instr2 i_sem].
        assert (E0 : l p0 = x QIn0) by (apply Hl; now rewrite (proj2 (path_eqb_eq p0 p0) eq_refl)).
        assert (E1 : l p1 = x QIn1).
        { apply Hl. destruct (path_eqb p1 p0) eqn:E; [apply path_eqb_eq in E; congruence|]. now rewrite (proj2 (path_eqb_eq p1 p1) eq_refl). }
        rewrite <- E0, <- E1. destruct W0 as [W0 _], W1 as [W1 _]. rewrite <- (sel_leaf l p0 W0), <- (sel_leaf l p1 W1).
        apply Do; auto; apply (typed_word l _ Tl); cbn; auto.
  Qed.

  Theorem rule1_iff f : implementable path_eqb lty_const lty_vals arch0 (small_instr1 f) fs fvv <->
    exists alu o m p0, consts_ok alu o m /\ word_in p0 /\ does1 f alu o m p0.
  Proof.
    split.
    - intros M. destruct (implementable_inv (small_instr1 f) (instr1_ok f) eq_refl) with (2 := M) as (alu & o & m & bnd & Co & Wb & Inj & E).
      { intros q t [I|[]]; injection I; auto. }
      exists alu, o, m, (bnd QIn0).
      assert (W0 : word_in (bnd QIn0)) by (eapply Wb; now left).
      split; [exact Co|]. split; [exact W0|].
      intros a b c Wa Wb' Wc Fa Fb Fc. destruct (E a b c Wa Wb' Wc Fa Fb Fc) as (d & X). cbn [small_instr1 i_sem] in X.
      now rewrite !leaf_sel in X by auto.
    - intros (alu & o & m & p0 & Co & W0 & Do).
      apply (implementable_intro (small_instr1 f) alu o m (fun p => if path_eqb p p0 then Some QIn0 else None)); auto.
      + intros p q. destruct (path_eqb p p0) eqn:E0; [|discriminate]. intros E; injection E as <-.
        apply path_eqb_eq in E0. subst p. split; cbn; auto.
      + destruct W0 as [W0 _]. intros q t I. cbn in W0.
        destruct W0 as [<-|[<-|[<-|[]]]]; cbn in I; destruct I as [I|[]]; injection I as <- <-; reflexivity.
      + intros x l Tl Hl F0 F1 F2. cbn [small_instr1 i_sem].
        assert (E0 : l p0 = x QIn0) by (apply Hl; now rewrite (proj2 (path_eqb_eq p0 p0) eq_refl)).
        rewrite <- E0. destruct W0 as [W0 _]. rewrite <- (sel_leaf l p0 W0).
        apply Do; auto; apply (typed_word l _ Tl); cbn; auto.
  Qed.
End Small.
