(** Instructions of words, and which of them the architecture of test_basic_rr has. *)
From Coq Require Import String ZArith List Bool Arith Lia.
From Verif Require Import Base BaseLemmas BindModel BindProps MapIdxModel MapIdxProps MultiModel MapModel MapProofs MapMain MapProps MapIff MapIffProps MapDirect MapConst
  BvModel SmallPeModel
  AsmModel AsmSpec AsmValid AsmEnum AsmBuild AsmProofs AsmCheck AsmSub AsmProps AadtModel FormModel FormProofs FormMain AdtArchModel AdtArchMain AdtArchProps
  MultiBasicModel MultiBasicProofs BasicMapModel BasicMapProofs.
Import ListNotations.
Open Scope string_scope.
Open Scope list_scope.
Open Scope Z_scope.

Section Word.
  Variables (ins : list (key * bool)) (o : key) (f : list Z -> Z) (ia oa : asm).
  Let D := word_class ins o f ia oa.
  Hypothesis K : class_ok D.
  Hypothesis Hf : forall xs, length xs = length ins -> Forall byte xs -> byte (f xs).
  Hypothesis NE : ins <> [].

  Lemma strip_ins : strip_fields (c_in D) = map (fun e => (fst e, TBV 8)) ins.
  Proof. unfold D, word_class, strip_fields. cbn [c_in]. rewrite map_map. apply map_ext. intros [k []]; reflexivity. Qed.
  Lemma ins_nodup : NoDup (map fst ins).
  Proof.
    destruct (k_in D K) as (R & _ & W & _). assert (no_dup_keys (strip_fields (c_in D))) as N by (inversion W; auto). unfold no_dup_keys in N. rewrite strip_ins, map_map in N. cbn [fst] in N. exact N.
  Qed.

  Lemma word_in q t : In (q, t) (in_flat D) <-> exists k c, In (k, c) ins /\ q = [k] /\ t = tw c.
  Proof.
    destruct (k_in D K) as (R & _ & W & _). unfold in_flat. rewrite flat_prod.
    assert (Forall (fun g => wf_ty (snd g)) (strip_fields (c_in D)) /\ no_dup_keys (strip_fields (c_in D))) as [WF ND] by (split; inversion W; auto).
    assert (Forall (fun g => flat_good (snd g)) (c_in D)) as FG by (apply Forall_forall; intros g _; apply flat_all).
    destruct (flat_members (c_in D) [] [] FG (k_mi D K) WF) as [FF _].
    destruct (keyed_prod lty [] "Input" (strip_fields (c_in D)) is_leaf (flats [] [] (c_in D)) ND (fun x => x) FF) as [_ ->].
    rewrite in_concat. unfold flats, D, word_class. cbn [c_in]. rewrite map_map. split.
    - intros (l & Il & I). apply in_map_iff in Il as ([k c] & <- & Ik). cbn [fst snd] in I. exists k, c. split; auto.
      destruct c; cbn [word_m flat] in I; destruct I as [I|[]]; injection I as <- <-; auto.
    - intros (k & c & Ik & -> & ->). exists [([k], tw c)]. split; [|left; auto]. apply in_map_iff. exists (k, c). split; auto. destruct c; reflexivity.
  Qed.
  Lemma word_out : out_flat D = [([o], tw false)].
  Proof. reflexivity. Qed.
  Lemma word_call_ok : call_ok D.
  Proof.
    intros ws F. constructor; [|constructor]. exists 8. split; [constructor|]. cbn [c_call]. apply Hf.
    - pose proof (F2_length _ _ _ F) as L. unfold D, word_class in L. cbn [c_in] in L. now rewrite map_length in L.
    - assert (forall e, In e (c_in D) -> strip (snd e) = TBV 8) as S.
      { intros e I. unfold D, word_class in I. cbn [c_in] in I. apply in_map_iff in I as ([k []] & <- & _); reflexivity. }
      clear - F S. induction F as [|e w fs ws (n & Sn & B) F IH]; constructor.
      + rewrite S in Sn by (left; auto). inversion Sn; subst. exact B.
      + apply IH. intros e' I. apply S. right; auto.
  Qed.
  Lemma word_types : buildable (in_ty D) /\ buildable (out_ty D) /\ sum_free (in_ty D) /\ sum_free (out_ty D).
  Proof.
    assert (~ swidth (TBV 8) 0) as N8 by (intros S; inversion S).
    unfold in_ty, out_ty. rewrite strip_ins. split; [|split; [|split]].
    - apply bd_prod.
      + intros X. apply map_eq_nil in X. auto.
      + right. intros k t I. apply in_map_iff in I as (e & [= _ <-] & _). exact N8.
      + intros k t I. apply in_map_iff in I as (e & [= _ <-] & _). constructor. exact Logic.I.
    - apply bd_prod; [discriminate|left; reflexivity|]. intros k t [[= <- <-]|[]]. apply bd_leaf. exact Logic.I.
    - intros r g c fs S. inversion S; subst. match goal with H : In _ (map _ _) |- _ => apply in_map_iff in H as (e & [= _ <-] & _) end. match goal with H : sub_ty (TBV 8) _ _ |- _ => inversion H end.
    - apply free_b_spec. reflexivity.
  Qed.
  Lemma word_builds : exists I, adt_instr D = Ok I.
  Proof. destruct word_types as (B & B' & S & S'). apply C86_builds_instr; auto using word_call_ok. Qed.

  Variable I : MapModel.instr path lty.
  Hypothesis EI : adt_instr D = Ok I.
  Lemma word_sem x : (forall k c, In (k, c) ins -> byte (x [k])) -> MapModel.i_sem I x [o] = f (map (fun e => x [fst e]) ins).
  Proof.
    intros Hx. destruct word_types as (B & B' & S & S'). set (xs := map (fun e => x [fst e]) ins).
    assert (Forall byte xs) as Bx by (apply Forall_forall; intros z Iz; apply in_map_iff in Iz as ([k c] & <- & Iz); eapply Hx; eauto).
    assert (has_ty (in_ty D) (VProd (map VBV xs))) as Hu.
    { unfold in_ty. rewrite strip_ins. constructor. unfold xs. rewrite map_map. assert (Forall (fun e => byte (x [fst e])) ins) as F by (apply Forall_forall; intros [k c] Ie; eapply Hx; eauto).
      clear - F. induction F; constructor; auto. constructor. exact H. }
    assert (holds (in_ty D) (VProd (map VBV xs)) x) as Hh.
    { intros r t' v' Sv L. unfold in_ty in Sv. rewrite strip_ins in Sv. inversion Sv as [|? ? ? k p i t v ? ? Et Ev Sv'|]; subst; [destruct L|].
      unfold xs in Ev. rewrite map_map, nth_error_map in Ev. rewrite nth_error_map in Et. destruct (nth_error ins i) as [[k' c]|] eqn:Ei; [|discriminate]. cbn [fst] in Et, Ev.
      injection Et as <- <-. injection Ev as <-. inversion Sv'; subst. constructor. apply nth_error_In in Ei. exact (Hx k' c Ei). }
    destruct (C86_instr_function D I K word_call_ok EI B' S' (map VBV xs) x Hu Hh) as (ws & (L1 & _ & Hw) & Rd).
    assert (ws = xs) as ->.
    { assert (length ws = length xs) as L by (unfold xs; rewrite map_length, L1; unfold D, word_class; cbn [c_in]; apply map_length).
      apply nth_ext with (d := 0) (d' := 0); auto. intros i Li. destruct (nth_error (c_in D) i) as [[k m]|] eqn:Ei.
      2: { apply nth_error_None in Ei. lia. }
      assert (strip m = TBV 8) as Sm. { unfold D, word_class in Ei. cbn [c_in] in Ei. rewrite nth_error_map in Ei. destruct (nth_error ins i) as [[? []]|]; [| |discriminate]; injection Ei as <- <-; reflexivity. }
      pose proof (nth_error_nth' ws 0 Li) as E1. rewrite L in Li. pose proof (nth_error_nth' xs 0 Li) as E2.
      assert (nth_error (map VBV xs) i = Some (VBV (nth i xs 0))) as E3 by (rewrite nth_error_map, E2; reflexivity).
      specialize (Hw i k m _ _ Ei E1 E3). rewrite Sm in Hw. inversion Hw; subst; auto. }
    assert (length xs = length ins) as Lx by apply map_length.
    assert (encodes (TBV 8) (MapModel.i_sem I x [o]) (VBV (f xs))) as En.
    { apply (Rd [VBV (f xs)]).
      - split; [reflexivity|]. split; [reflexivity|]. intros [|i] k m w v E1 E2 E3; [|destruct i; discriminate]. injection E1 as <- <-. injection E2 as <-. injection E3 as <-.
        constructor. apply Hf; auto.
      - constructor. constructor; [|constructor]. constructor. apply Hf; auto.
      - apply (sv_prod "Output" [(o, TBV 8)] [VBV (f xs)] o [] 0 (TBV 8) (VBV (f xs))); [reflexivity|reflexivity|constructor].
      - exact Logic.I. }
    inversion En; subst; auto.
  Qed.
End Word.

(** ** Which instructions the architecture has *)
Definition words_like (cs : list bool) (xs : list Z) : Prop := length xs = length cs /\ Forall byte xs.
Definition data_count (cs : list bool) : nat := length (filter negb cs).
Definition const_count (cs : list bool) : nat := length (filter (fun c => c) cs).
(** [cs] tells which inputs are Const. *)
Definition one_instruction (cs : list bool) (f : list Z -> Z) : Prop :=
  (data_count cs <= 2)%nat /\ (const_count cs <= 2)%nat /\
  ((cs = [false; false] /\
    ((forall x y, byte x -> byte y -> f [x; y] = (x + y) mod 256) \/ (forall x y, byte x -> byte y -> f [x; y] = (x * y) mod 256))) \/
   (exists i, (i < length cs)%nat /\ forall xs, words_like cs xs -> f xs = nth i xs 0) \/
   (exists i j, nth_error cs i = Some false /\ nth_error cs j = Some true /\ forall xs, words_like cs xs -> f xs = (nth i xs 0 + nth j xs 0) mod 256) \/
   ((const_count cs <= 1)%nat /\ exists k, byte k /\
     ((forall xs, words_like cs xs -> f xs = k) \/
      exists i, nth_error cs i = Some false /\ forall xs, words_like cs xs -> f xs = (nth i xs 0 + k) mod 256))).

Lemma two_slots {X} (l : list X) a x y : NoDup l -> (length l <= 2)%nat -> In a l -> In x l -> In y l -> x <> a -> y <> a -> x = y.
Proof.
  intros N L Ia Ix Iy Nx Ny. destruct l as [|u [|w [|? ?]]]; [destruct Ia| | |cbn in L; lia].
  - destruct Ia as [<-|[]], Ix as [<-|[]]. congruence.
  - destruct Ia as [<-|[<-|[]]], Ix as [<-|[<-|[]]], Iy as [<-|[<-|[]]]; congruence.
Qed.

Lemma count_map (ins : list (key * bool)) (h : bool -> bool) :
  length (filter h (map snd ins)) = length (filter (fun e => h (snd e)) ins).
Proof. induction ins as [|e ins IH]; cbn [map filter]; auto. destruct (h (snd e)); cbn [length]; congruence. Qed.

Lemma filter_keys_nodup (ins : list (key * bool)) h : NoDup (map fst ins) -> NoDup (map fst (filter h ins)).
Proof.
  induction ins as [|e l IH]; intros N; [constructor|]. cbn [map] in N. inversion N as [|? ? N1 N2]; subst. cbn [filter].
  destruct (h e); auto. cbn [map]. constructor; auto. intros H. apply N1. apply in_map_iff in H as (e' & E & H). apply filter_In in H as [H _]. rewrite <- E. now apply in_map.
Qed.
Lemma filter_same {X} (h h' : X -> bool) l : (forall e, h e = h' e) -> filter h l = filter h' l.
Proof. intros E. induction l as [|e l IH]; cbn [filter]; auto. rewrite E, IH. reflexivity. Qed.

Lemma combine_keys_nodup (ins : list (key * bool)) (xs : list Z) : NoDup (map fst ins) -> NoDup (map (fun e => fst (fst e)) (combine ins xs)).
Proof.
  revert xs. induction ins as [|e l IH]; intros [|x xs] N; try constructor; cbn [map] in N; inversion N as [|? ? N1 N2]; subst.
  - intros H. apply N1. apply in_map_iff in H as ([e' x'] & E & H). cbn [fst] in E. rewrite <- E. apply in_map. eapply in_combine_l; eauto.
  - now apply IH.
Qed.
Lemma nodup_same {X Y} (g : X -> Y) l a b : NoDup (map g l) -> In a l -> In b l -> g a = g b -> a = b.
Proof.
  induction l as [|x l IH]; cbn [map]; intros N Ia Ib E; [destruct Ia|]. inversion N as [|? ? N1 N2]; subst.
  destruct Ia as [->|Ia], Ib as [->|Ib]; auto; exfalso; apply N1; [rewrite E|rewrite <- E]; now apply in_map.
Qed.
Lemma nth_error_combine {X Y} (l : list X) (l' : list Y) i x y : nth_error l i = Some x -> nth_error l' i = Some y -> nth_error (combine l l') i = Some (x, y).
Proof. revert l l'. induction i as [|i IH]; intros [|a l] [|b l'] E E'; try discriminate; cbn in *; [congruence|auto]. Qed.

Lemma nth_repeat_lt {X} (x d : X) n i : (i < n)%nat -> nth i (repeat x n) d = x.
Proof. revert i. induction n as [|n IH]; intros [|i] L; cbn; auto; try lia. apply IH. lia. Qed.
Lemma two_list (ins : list (key * bool)) k0 k1 : k0 <> k1 -> NoDup (map fst ins) -> In (k0, false) ins -> In (k1, false) ins ->
  (forall k c, In (k, c) ins -> c = false /\ (k = k0 \/ k = k1)) -> ins = [(k0, false); (k1, false)] \/ ins = [(k1, false); (k0, false)].
Proof.
  intros N ND I0 I1 All. assert (length ins <= 2)%nat as L.
  { rewrite <- (map_length fst). change 2%nat with (length [k0; k1]). apply NoDup_incl_length; auto. intros k J. apply in_map_iff in J as ([k' c] & <- & J). cbn [fst].
    destruct (All k' c J) as [_ [-> | ->]]; cbn; auto. }
  destruct ins as [|[a ca] [|[b cb] [|? ?]]]; [destruct I0| | |cbn in L; lia].
  - destruct I0 as [I0|[]], I1 as [I1|[]]. congruence.
  - destruct I0 as [I0|[I0|[]]], I1 as [I1|[I1|[]]]; try congruence; [left|right]; congruence.
Qed.

Section Main.
  Variables (v1 v2 : validator) (gs : list (ty * validator * (Z * Z) * asm)) (tv : validator).
  Let C := basic_class (ishape v1 v2 gs tv) oshape.
  Variable A : arch path lty.
  Hypothesis EA : adt_arch C [] = Ok A.
  Variable R : list Z -> Z -> Prop.
  Hypothesis GR : good_request R.
  Hypothesis AR : acc_ok R.
  Hypothesis SR : asm_rel R basic_inst (shape v1 v2 gs tv).
  Variables (ins : list (key * bool)) (o : key) (f : list Z -> Z) (ia oa : asm).
  Let D := word_class ins o f ia oa.
  Hypothesis K : class_ok D.
  Hypothesis Hf : forall xs, length xs = length ins -> Forall byte xs -> byte (f xs).
  Hypothesis NE : ins <> [].
  Variable I : MapModel.instr path lty.
  Hypothesis EI : adt_instr D = Ok I.

  Lemma i_in_iff q t : In (q, t) (i_in I) <-> exists k c, In (k, c) ins /\ q = [k] /\ t = tw c.
  Proof. destruct (adt_instr_inv D I EI) as (-> & _). now apply word_in. Qed.
  Lemma i_out_iff q t : In (q, t) (i_out I) <-> q = [o] /\ t = tw false.
  Proof. destruct (adt_instr_inv D I EI) as (_ & -> & _). unfold D. rewrite word_out. split; [intros [[= <- <-]|[]]; auto|intros [-> ->]; left; auto]. Qed.
  Lemma ins_fun k c c' : In (k, c) ins -> In (k, c') ins -> c = c'.
  Proof. apply pair_fun. exact (ins_nodup ins o f ia oa K). Qed.

  Lemma leaf_word p c : In (p, tw c) (a_in A) <-> if c then p = p_imm0 \/ p = p_imm1 else p = p_r0 \/ p = p_r1.
  Proof.
    rewrite (in_eq v1 v2 gs tv [] A EA). unfold basic_leaves. split.
    - intros H. repeat (destruct H as [H|H]; [destruct c; try discriminate H; injection H as <-; auto|]). destruct H.
    - destruct c; intros [-> | ->]; cbn [In]; tauto.
  Qed.

  Definition constk (k : key) : bool := match dget key_eqb ins k with Some c => c | None => false end.
  Lemma constk_eq k c : In (k, c) ins -> constk k = c.
  Proof. intros H. unfold constk. rewrite (In_dget key_eqb key_eqb_eq _ _ _ (ins_nodup ins o f ia oa K) H). reflexivity. Qed.
  Definition keys (c : bool) : list key := map fst (filter (fun e => Bool.eqb (snd e) c) ins).
  Lemma keys_In k c : In k (keys c) <-> In (k, c) ins.
  Proof.
    unfold keys. rewrite in_map_iff. split.
    - intros ([k' c'] & <- & H). apply filter_In in H as [H E]. cbn [snd fst] in *. apply Bool.eqb_prop in E. now subst.
    - intros H. exists (k, c). split; auto. apply filter_In. split; auto. apply Bool.eqb_reflx.
  Qed.
  Lemma keys_nodup c : NoDup (keys c).
  Proof. apply filter_keys_nodup. exact (ins_nodup ins o f ia oa K). Qed.
  Lemma keys_length c : length (keys c) = if c then const_count (map snd ins) else data_count (map snd ins).
  Proof.
    unfold keys, const_count, data_count. rewrite map_length, !count_map.
    destruct c; f_equal; apply filter_same; intros [k []]; reflexivity.
  Qed.

  (** ** From the list to a rule *)
  Definition form_at_ (fi : nat) : list path * list (path * Z) := match fi with 0%nat => form_rr | _ => form_ri end.
  Definition bnd (dk : key) (ck : option key) (q : path) : path :=
    match q with
    | [k] => if constk k then match ck with Some m => if key_eqb k m then p_imm1 else p_imm0 | None => p_imm0 end
             else if key_eqb k dk then p_r0 else p_r1
    | _ => p_r0
    end.
  Definition l0 (op0 op1 k : Z) (p : path) : Z :=
    if path_eqb p (p_rr "OP") then op0 else if path_eqb p (p_ri "OP") then op1 else if path_eqb p p_imm1 then k else 0.

  Lemma place fi dk ck op0 op1 k ob : (fi < 2)%nat -> (fi = 0%nat -> keys true = []) -> (length (keys false) <= 2)%nat -> (keys false <> [] -> In dk (keys false)) ->
    match ck with Some m => In m (keys true) /\ (length (keys true) <= 2)%nat | None => (length (keys true) <= 1)%nat end ->
    op0 = 1 \/ op0 = 2 -> op1 = 3 \/ op1 = 4 -> byte k -> ob = p_o0 \/ ob = p_o1 ->
    (forall l, bounds l -> (fi = 0%nat -> l (p_rr "OP") = op0) -> (fi = 1%nat -> l (p_ri "OP") = op1) -> (fi = 1%nat -> ck = None -> l p_imm1 = k) ->
      f (map (fun e => l (bnd dk ck [fst e])) ins) = adt_fs C A fi l ob) ->
    direct_simple path_eqb lty_const lty_vals A I (adt_fs C A) (adt_fv C A).
  Proof.
    intros Lf Fc Ld Hd Hc O0 O1 Bk Ho H.
    pose proof (in_eq v1 v2 gs tv [] A EA) as Ein.
    assert (forall q t, In (q, t) (i_in I) -> In (bnd dk ck q, t) (a_in A) /\ In (bnd dk ck q) (fst (form_at_ fi))) as Hb.
    { intros q t Iq. apply i_in_iff in Iq as (k' & c & Ik & -> & ->). rewrite leaf_word. cbn [bnd]. rewrite (constk_eq k' c Ik). destruct c.
      - assert (fi = 1%nat) as ->. { destruct fi as [|[|fi]]; [|reflexivity|lia]. rewrite (Fc eq_refl) in *. apply keys_In in Ik. rewrite (Fc eq_refl) in Ik. destruct Ik. }
        destruct ck as [m|]; [destruct (key_eqb k' m)|]; (split; [auto|cbn; tauto]).
      - destruct (key_eqb k' dk); (split; [auto|]); destruct fi as [|[|fi]]; try lia; cbn; tauto. }
    exists fi, (form_at_ fi), (l0 op0 op1 k), (bnd dk ck), (fun _ => ob).
    split; [rewrite (forms_eq v1 v2 gs tv [] A EA); destruct fi as [|[|fi]]; [reflexivity|reflexivity|lia]|].
    split. { apply (typed_bounds v1 v2 gs tv [] A EA). unfold bounds, byte in *. cbn. destruct O0 as [-> | ->], O1 as [-> | ->]; lia. }
    rewrite (constr_eq v1 v2 gs tv [] A EA).
    split; [intros p zs []|]. split; [intros q t Iq; destruct (Hb q t Iq); split; [|split]; auto|].
    split.
    { intros q t q' t' Iq Iq' E. apply i_in_iff in Iq as (k1 & c1 & I1 & -> & ->). apply i_in_iff in Iq' as (k2 & c2 & I2 & -> & ->). f_equal.
      cbn [bnd] in E. rewrite (constk_eq k1 c1 I1), (constk_eq k2 c2 I2) in E. destruct c1, c2.
      - apply keys_In in I1. apply keys_In in I2. destruct ck as [m|].
        + destruct Hc as [Hm Lc]. destruct (key_eqb k1 m) eqn:E1, (key_eqb k2 m) eqn:E2; try discriminate E.
          * apply key_eqb_eq in E1, E2. congruence.
          * apply (two_slots (keys true) m); auto using keys_nodup; intros ->; rewrite (proj2 (key_eqb_eq m m) eq_refl) in *; discriminate.
        + destruct (keys true) as [|u [|? ?]]; [destruct I1| |cbn in Hc; lia]. destruct I1 as [<-|[]], I2 as [<-|[]]. reflexivity.
      - exfalso. destruct ck as [m|]; [destruct (key_eqb k1 m)|]; destruct (key_eqb k2 dk); discriminate E.
      - exfalso. destruct ck as [m|]; [destruct (key_eqb k2 m)|]; destruct (key_eqb k1 dk); discriminate E.
      - apply keys_In in I1. apply keys_In in I2. assert (In dk (keys false)) as Hdk by (apply Hd; intros X; rewrite X in I1; destruct I1).
        destruct (key_eqb k1 dk) eqn:E1, (key_eqb k2 dk) eqn:E2; try discriminate E.
        + apply key_eqb_eq in E1, E2. congruence.
        + apply (two_slots (keys false) dk); auto using keys_nodup; intros ->; rewrite (proj2 (key_eqb_eq dk dk) eq_refl) in *; discriminate. }
    split. { intros q t Iq. apply i_out_iff in Iq as [-> ->]. rewrite (out_eq v1 v2 gs tv [] A EA). cbn [In]. destruct Ho as [-> | ->]; tauto. }
    split. { intros q t q' t' Iq Iq' _. apply i_out_iff in Iq as [-> _]. apply i_out_iff in Iq' as [-> _]. reflexivity. }
    intros l Ty Eq. apply (typed_bounds v1 v2 gs tv [] A EA) in Ty.
    assert (forall p t, In (p, t) (a_in A) -> In p (fst (form_at_ fi)) -> lty_const t = true -> (forall q t, In (q, t) (i_in I) -> bnd dk ck q <> p) -> l p = l0 op0 op1 k p) as Eq' by exact Eq. clear Eq.
    assert (forall q t, In (q, t) (i_in I) -> bnd dk ck q = p_imm0 \/ bnd dk ck q = p_imm1 /\ ck <> None \/ bnd dk ck q = p_r0 \/ bnd dk ck q = p_r1) as Wh.
    { intros q t Iq. apply i_in_iff in Iq as (k' & c & Ik & -> & ->). cbn [bnd]. destruct (constk k').
      - destruct ck as [m|]; [destruct (key_eqb k' m)|]; auto. right; left. split; [auto|discriminate].
      - destruct (key_eqb k' dk); auto. }
    assert (fi = 0%nat -> l (p_rr "OP") = op0) as E0.
    { intros ->. apply (Eq' (p_rr "OP") (cst rr_op)); [rewrite Ein; cbn; tauto|cbn; tauto|reflexivity|].
      intros q t Iq X. destruct (Wh q t Iq) as [Y|[[Y _]|[Y|Y]]]; rewrite Y in X; discriminate X. }
    assert (fi = 1%nat -> l (p_ri "OP") = op1) as E1.
    { intros ->. apply (Eq' (p_ri "OP") (cst ri_op)); [rewrite Ein; cbn; tauto|cbn; tauto|reflexivity|].
      intros q t Iq X. destruct (Wh q t Iq) as [Y|[[Y _]|[Y|Y]]]; rewrite Y in X; discriminate X. }
    assert (fi = 1%nat -> ck = None -> l p_imm1 = k) as E2.
    { intros -> En. apply (Eq' p_imm1 (tw true)); [rewrite Ein; cbn; tauto|cbn; tauto|reflexivity|].
      intros q t Iq X. destruct (Wh q t Iq) as [Y|[[Y N]|[Y|Y]]]; [| contradiction | |]; rewrite Y in X; discriminate X. }
    split.
    - destruct fi as [|[|fi]]; [|  |lia].
      + apply (rr_valid v1 v2 gs tv [] A EA R GR AR SR); auto. rewrite E0 by reflexivity. exact O0.
      + apply (ri_valid v1 v2 gs tv [] A EA R GR AR SR); auto. rewrite E1 by reflexivity. exact O1.
    - intros _ q t Iq. apply i_out_iff in Iq as [-> _]. cbv beta. rewrite (word_sem ins o f ia oa K Hf NE I EI).
      + apply H; auto.
      + intros k' c Ik. assert (In ([k'], tw c) (i_in I)) as Iq by (apply i_in_iff; eauto). pose proof Ty as (_ & _ & _ & _ & _ & _ & _ & T1 & T2 & T3 & T4).
        destruct (Wh _ _ Iq) as [Y|[[Y _]|[Y|Y]]]; rewrite Y; auto.
  Qed.

  Lemma at_pos i c : nth_error (map snd ins) i = Some c -> exists k, In (k, c) ins /\ forall g : key -> Z, nth i (map (fun e => g (fst e)) ins) 0 = g k.
  Proof.
    rewrite nth_error_map. destruct (nth_error ins i) as [[k c']|] eqn:E; [|discriminate]. intros [= <-]. exists k. split; [eapply nth_error_In; eauto|].
    intros g. apply nth_error_nth. rewrite nth_error_map, E. reflexivity.
  Qed.
  Lemma some_data : exists dk, keys false <> [] -> In dk (keys false).
  Proof. destruct (keys false) as [|k l]; [exists (fk "")|exists k]; cbn; auto. Qed.
  Lemma some_const : (length (keys true) <= 2)%nat -> exists ck, match ck with Some m => In m (keys true) /\ (length (keys true) <= 2)%nat | None => (length (keys true) <= 1)%nat end.
  Proof. intros L. destruct (keys true) as [|k l]; [exists None; cbn; auto|exists (Some k)]. split; [left; auto|exact L]. Qed.
  Lemma bnd_like l dk ck : bounds l -> words_like (map snd ins) (map (fun e => l (bnd dk ck [fst e])) ins).
  Proof.
    intros (_ & _ & _ & _ & _ & _ & _ & T1 & T2 & T3 & T4). split; [now rewrite !map_length|]. apply Forall_forall. intros z Iz. apply in_map_iff in Iz as ([k c] & <- & _).
    cbn [bnd fst]. destruct (constk k); [destruct ck as [m|]; [destruct (key_eqb k m)|]|destruct (key_eqb k dk)]; auto.
  Qed.
  Lemma bnd_data dk ck : In (dk, false) ins -> bnd dk ck [dk] = p_r0.
  Proof. intros H. cbn [bnd]. now rewrite (constk_eq dk false H), (proj2 (key_eqb_eq dk dk) eq_refl). Qed.
  Lemma bnd_const dk m : In (m, true) ins -> bnd dk (Some m) [m] = p_imm1.
  Proof. intros H. cbn [bnd]. now rewrite (constk_eq m true H), (proj2 (key_eqb_eq m m) eq_refl). Qed.
  Let fs0 fi l (L : (fi < 2)%nat) B := proj1 (fs_eq v1 v2 gs tv [] A EA fi l L B).
  Let fs1 fi l (L : (fi < 2)%nat) B := proj2 (fs_eq v1 v2 gs tv [] A EA fi l L B).

  Theorem list_found : one_instruction (map snd ins) f -> direct_simple path_eqb lty_const lty_vals A I (adt_fs C A) (adt_fv C A).
  Proof.
    assert (1 < 2)%nat as L1 by lia. assert (0 < 2)%nat as L0 by lia. assert (byte 0) as B0 by (unfold byte; lia).
    intros (Nd & Nc & H). pose proof (keys_length false) as Kd. pose proof (keys_length true) as Kc. cbv iota in Kd, Kc.
    destruct some_data as (dk0 & Hdk0). destruct some_const as (ck0 & Hck0); [lia|].
    assert (forall k, In (k, false) ins -> keys false <> [] -> In k (keys false)) as Hd by (intros; now apply keys_In).
    destruct H as [(Ecs & H)|[(i & Li & H)|[(i & j & Ei & Ej & H)|(N1 & k & Bk & H)]]].
    - assert (exists k0 k1, ins = [(k0, false); (k1, false)]) as (k0 & k1 & Ei).
      { destruct ins as [|[k0 c0] [|[k1 c1] [|? ?]]]; try discriminate Ecs. injection Ecs as -> ->. eauto. }
      assert (k1 <> k0) as N. { pose proof (ins_nodup ins o f ia oa K) as N. rewrite Ei in N. inversion N as [|? ? N1 _]; subst. intros ->. apply N1. left; auto. }
      assert (In (k0, false) ins /\ In (k1, false) ins) as [I0 I1] by (rewrite Ei; cbn; auto).
      assert (forall (l : path -> Z) ck, map (fun e => l (bnd k0 ck [fst e])) ins = [l p_r0; l p_r1]) as Em.
      { intros l ck. transitivity [l (bnd k0 ck [k0]); l (bnd k0 ck [k1])]; [now rewrite Ei|]. rewrite bnd_data by auto. cbn [bnd]. rewrite (constk_eq k1 false I1).
        destruct (key_eqb k1 k0) eqn:E; auto. apply key_eqb_eq in E. contradiction. }
      assert (keys true = []) as Et by (apply length_zero_iff_nil; rewrite Kc, Ecs; reflexivity).
      destruct H as [H|H]; [apply (place 0 k0 None 1 3 0 p_o0)|apply (place 0 k0 None 2 3 0 p_o0)]; auto; try lia.
      all: try (rewrite Et; cbn; lia).
      all: intros l B E0 _ _; rewrite Em, fs0 by auto; cbn [does]; rewrite E0 by auto; cbn; apply H; unfold bounds in B; tauto.
    - destruct (nth_error (map snd ins) i) as [c|] eqn:Ei. 2: { apply nth_error_None in Ei. lia. }
      destruct (at_pos i c Ei) as (k & Ik & Hk). destruct c.
      + apply (place 1 dk0 (Some k) 1 3 0 p_o0); auto; try lia. { split; [now apply keys_In|lia]. }
        intros l B _ E1 _. rewrite H by now apply bnd_like. rewrite (Hk (fun q => l (bnd dk0 (Some k) [q]))), bnd_const, fs0 by auto. cbn [does]. rewrite E1 by auto. reflexivity.
      + apply (place 1 k ck0 1 3 0 p_o1); auto; try lia.
        intros l B _ E1 _. rewrite H by now apply bnd_like. rewrite (Hk (fun q => l (bnd k ck0 [q]))), bnd_data, fs1 by auto. reflexivity.
    - destruct (at_pos i false Ei) as (ki & Iki & Hki). destruct (at_pos j true Ej) as (kj & Ikj & Hkj).
      apply (place 1 ki (Some kj) 1 4 0 p_o0); auto; try lia. { split; [now apply keys_In|lia]. }
      intros l B _ E1 _. rewrite H by now apply bnd_like. rewrite (Hki (fun q => l (bnd ki (Some kj) [q]))), (Hkj (fun q => l (bnd ki (Some kj) [q]))), bnd_const, bnd_data, fs0 by auto.
      cbn [does]. rewrite E1 by auto. reflexivity.
    - destruct H as [H|(i & Ei & H)].
      + apply (place 1 dk0 None 1 3 k p_o0); auto; try lia.
        intros l B _ E1 E2. rewrite H by now apply bnd_like. rewrite fs0 by auto. cbn [does]. rewrite E1, E2 by auto. reflexivity.
      + destruct (at_pos i false Ei) as (ki & Iki & Hki). apply (place 1 ki None 1 4 k p_o0); auto; try lia.
        intros l B _ E1 E2. rewrite H by now apply bnd_like. rewrite (Hki (fun q => l (bnd ki None [q]))), bnd_data, fs0 by auto. cbn [does]. rewrite E1, E2 by auto. reflexivity.
  Qed.

  (** ** From a rule to the list *)
  Section Rule.
    Variables (fi : nat) (ff : list path * list (path * Z)) (lc : path -> Z) (bd ob : path -> path).
    Hypothesis Ef : nth_error (a_forms A) fi = Some ff.
    Hypothesis Tl : typed lty_vals (a_in A) lc.
    Hypothesis Bd : forall q t, In (q, t) (i_in I) -> In (bd q, t) (a_in A) /\ In (bd q) (fst ff) /\ ~ In (bd q) (map fst (a_constr A)).
    Hypothesis Inj : forall q t q' t', In (q, t) (i_in I) -> In (q', t') (i_in I) -> bd q = bd q' -> q = q'.
    Hypothesis Ob : forall q t, In (q, t) (i_out I) -> In (ob q, t) (a_out A).
    Hypothesis Eq : forall q t, In (q, t) (i_out I) -> forall l, typed lty_vals (a_in A) l ->
      (forall p t', In (p, t') (a_in A) -> In p (fst ff) -> lty_const t' = true -> (forall q' t'', In (q', t'') (i_in I) -> bd q' <> p) -> l p = lc p) ->
      (forall p zs, In (p, zs) (a_constr A) -> In p (fst ff) -> is_const path_eqb lty_const A p = false -> In (l p) zs) ->
      MapModel.i_sem I (fun q => l (bd q)) q = adt_fs C A fi l (ob q).

    Lemma rule_fi : (fi < 2)%nat /\ ff = form_at_ fi.
    Proof. rewrite (forms_eq v1 v2 gs tv [] A EA) in Ef. destruct fi as [|[|n]]; [| |destruct n; discriminate Ef]; injection Ef as <-; split; auto. Qed.
    Lemma rule_in k c : In (k, c) ins -> In ([k], tw c) (i_in I).
    Proof. intros H. apply i_in_iff. eauto. Qed.
    Lemma rule_data k : In (k, false) ins -> bd [k] = p_r0 \/ bd [k] = p_r1.
    Proof. intros H. destruct (Bd _ _ (rule_in k false H)) as [X _]. now apply leaf_word in X. Qed.
    Lemma rule_const k : In (k, true) ins -> (bd [k] = p_imm0 \/ bd [k] = p_imm1) /\ fi = 1%nat.
    Proof.
      intros H. destruct (Bd _ _ (rule_in k true H)) as (X & Y & _). apply leaf_word in X. split; auto.
      destruct rule_fi as [L E]. rewrite E in Y. destruct fi as [|[|n]]; [exfalso|auto|lia].
      destruct X as [X|X]; rewrite X in Y; cbn in Y; repeat (destruct Y as [Y|Y]; [discriminate Y|]); destruct Y.
    Qed.
    Lemma rule_inj k c k' c' : In (k, c) ins -> In (k', c') ins -> bd [k] = bd [k'] -> k = k'.
    Proof. intros H H' E. assert ([k] = [k']) as X by (eapply Inj; eauto using rule_in). now injection X. Qed.
    Lemma rule_leaf k c : In (k, c) ins -> bd [k] = p_imm0 \/ bd [k] = p_imm1 \/ bd [k] = p_r0 \/ bd [k] = p_r1.
    Proof. destruct c; intros H; [destruct (rule_const k H) as [[|] _]|destruct (rule_data k H)]; auto. Qed.

    Lemma rule_count c (ps : list path) : (forall k, In (k, c) ins -> In (bd [k]) ps) -> (length (keys c) <= length ps)%nat.
    Proof.
      intros H. rewrite <- (map_length (fun k => bd [k])). apply NoDup_incl_length.
      - assert (forall l, incl l (keys c) -> NoDup l -> NoDup (map (fun k => bd [k]) l)) as X.
        { induction l as [|k l IH]; intros Il N; cbn [map]; [constructor|]. inversion N as [|? ? N1 N2]; subst. constructor.
          - intros J. apply in_map_iff in J as (k' & E & J). apply N1. assert (k' = k) as ->; auto.
            apply (rule_inj k' c k c); auto; apply keys_In, Il; [right|left]; auto.
          - apply IH; auto. intros x J. apply Il. right; auto. }
        apply X; [apply incl_refl|apply keys_nodup].
      - intros p J. apply in_map_iff in J as (k & <- & J). apply H. now apply keys_In.
    Qed.

    (** The values for inputs [xs]; leaves without inputs take [u]. *)
    Definition vals (xs : list Z) (u : path -> Z) (p : path) : Z :=
      match find (fun e => path_eqb (bd [fst (fst e)]) p) (combine ins xs) with Some e => snd e | None => u p end.
    Lemma vals_at xs u k c x : In (k, c, x) (combine ins xs) -> vals xs u (bd [k]) = x.
    Proof.
      intros H. unfold vals. destruct (find _ (combine ins xs)) as [[[k' c'] x']|] eqn:E.
      - apply find_some in E as [H' E]. cbn [fst snd] in E. apply FormProofs.path_eqb_eq in E. pose proof (in_combine_l _ _ _ _ H) as J. pose proof (in_combine_l _ _ _ _ H') as J'.
        assert (k' = k) as -> by (eapply rule_inj; eauto). cbn [snd].
        assert (NoDup (map (fun e => fst (fst e)) (combine ins xs))) as N.
        { apply (combine_keys_nodup ins xs). exact (ins_nodup ins o f ia oa K). }
        assert ((k, c', x') = (k, c, x)) as X by (apply (nodup_same (fun e : key * bool * Z => fst (fst e)) (combine ins xs)); auto). congruence.
      - pose proof (find_none _ _ E _ H) as X. cbn [fst] in X. rewrite (proj2 (FormProofs.path_eqb_eq _ _) eq_refl) in X. discriminate X.
    Qed.
    Lemma vals_free xs u p : (forall k c, In (k, c) ins -> bd [k] <> p) -> vals xs u p = u p.
    Proof.
      intros H. unfold vals. destruct (find _ (combine ins xs)) as [[[k' c'] x']|] eqn:E; auto.
      apply find_some in E as [J E]. cbn [fst] in E. apply FormProofs.path_eqb_eq in E. apply in_combine_l in J. exfalso. exact (H k' c' J E).
    Qed.
    Lemma bound_or p : (exists i k c, nth_error ins i = Some (k, c) /\ bd [k] = p) \/ (forall k c, In (k, c) ins -> bd [k] <> p).
    Proof.
      destruct (find (fun e => path_eqb (bd [fst e]) p) ins) as [[k c]|] eqn:E.
      - left. apply find_some in E as [J E]. cbn [fst] in E. apply FormProofs.path_eqb_eq in E. apply In_nth_error in J as (i & J). eauto 6.
      - right. intros k c J X. pose proof (find_none _ _ E _ J) as Y. cbn [fst] in Y. rewrite (proj2 (FormProofs.path_eqb_eq _ _) X) in Y. discriminate Y.
    Qed.
    Lemma vals_pos xs u i k c : length xs = length ins -> nth_error ins i = Some (k, c) -> vals xs u (bd [k]) = nth i xs 0.
    Proof.
      intros L E. apply (vals_at xs u k c). assert (i < length ins)%nat as Li by (apply nth_error_Some; congruence).
      apply (nth_error_In _ i). apply nth_error_combine; auto. apply nth_error_nth'. lia.
    Qed.
    Lemma vals_byte xs u p : Forall byte xs -> byte (u p) -> byte (vals xs u p).
    Proof.
      intros F Hu. unfold vals. destruct (find _ (combine ins xs)) as [[kc x]|] eqn:E; auto.
      apply find_some in E as [J _]. apply in_combine_r in J. cbn [snd]. eapply Forall_forall in F; eauto.
    Qed.

    (** Leaves without inputs and not Const take any bytes. *)
    Definition free (a b : Z) (p : path) : Z := if path_eqb p p_r0 then a else if path_eqb p p_r1 then b else lc p.
    Lemma lc_bounds : bounds lc.
    Proof. now apply (typed_bounds v1 v2 gs tv [] A EA). Qed.
    Lemma vals_other xs a b p : p <> p_imm0 -> p <> p_imm1 -> p <> p_r0 -> p <> p_r1 -> vals xs (free a b) p = lc p.
    Proof.
      intros N1 N2 N3 N4. rewrite vals_free.
      - unfold free. destruct (path_eqb p p_r0) eqn:E; [apply FormProofs.path_eqb_eq in E; contradiction|]. destruct (path_eqb p p_r1) eqn:E'; [apply FormProofs.path_eqb_eq in E'; contradiction|]. reflexivity.
      - intros k c J X. destruct (rule_leaf k c J) as [Y|[Y|[Y|Y]]]; congruence.
    Qed.
    Lemma vals_bounds xs a b : Forall byte xs -> byte a -> byte b -> bounds (vals xs (free a b)).
    Proof.
      intros F Ba Bb. pose proof lc_bounds as (X1 & X2 & X3 & X4 & X5 & X6 & X7 & X8 & X9 & X10 & X11). unfold bounds.
      rewrite !(vals_other xs a b (p_rr _)), !(vals_other xs a b (p_ri "OP")), !(vals_other xs a b (p_ri "rs")), !(vals_other xs a b (p_ri "rd")) by discriminate.
      repeat (split; [assumption|]). repeat split; apply vals_byte; auto; exact X8 || exact X9 || exact X10 || exact X11.
    Qed.

    Lemma rule_eq xs a b : words_like (map snd ins) xs -> byte a -> byte b -> f xs = adt_fs C A fi (vals xs (free a b)) (ob [o]).
    Proof.
      intros [L F] Ba Bb. rewrite map_length in L. pose proof (vals_bounds xs a b F Ba Bb) as Bv.
      rewrite <- (Eq [o] (tw false)).
      - rewrite (word_sem ins o f ia oa K Hf NE I EI).
        + f_equal. apply nth_ext with (d := 0) (d' := 0); [now rewrite map_length|]. intros i Li. rewrite L in Li.
          destruct (nth_error ins i) as [[k c]|] eqn:E. 2: { apply nth_error_None in E. lia. }
          symmetry. rewrite <- (vals_pos xs (free a b) i k c L E). apply nth_error_nth. rewrite nth_error_map, E. reflexivity.
        + intros k c J. pose proof Bv as (_ & _ & _ & _ & _ & _ & _ & T1 & T2 & T3 & T4). destruct (rule_leaf k c J) as [Y|[Y|[Y|Y]]]; rewrite Y; auto.
      - apply i_out_iff. auto.
      - now apply (typed_bounds v1 v2 gs tv [] A EA).
      - intros p t J _ Ct N. rewrite vals_free.
        + unfold free. destruct (path_eqb p p_r0) eqn:E0; [apply FormProofs.path_eqb_eq in E0|destruct (path_eqb p p_r1) eqn:E1; [apply FormProofs.path_eqb_eq in E1|reflexivity]]; subst p; exfalso;
            rewrite (in_eq v1 v2 gs tv [] A EA) in J; unfold basic_leaves in J; repeat (destruct J as [J|J]; [try discriminate J; injection J as <-; discriminate Ct|]); destruct J.
        + intros k c Jk. apply (N [k] (tw c)). now apply rule_in.
      - rewrite (constr_eq v1 v2 gs tv [] A EA). intros p zs [].
    Qed.

    Definition ones : list Z := repeat 1 (length ins).
    Lemma ones_like : words_like (map snd ins) ones.
    Proof. split; [unfold ones; now rewrite repeat_length, map_length|]. apply Forall_forall. intros z Iz. apply repeat_spec in Iz. subst z. unfold byte. lia. Qed.
    Lemma ones_at p a b : vals ones (free a b) p = 1 \/ (forall k c, In (k, c) ins -> bd [k] <> p) /\ vals ones (free a b) p = free a b p.
    Proof.
      destruct (bound_or p) as [(i & k & c & E & <-)|N]; [left|right; auto using vals_free].
      rewrite (vals_pos ones (free a b) i k c); auto; [|apply repeat_length]. unfold ones. assert (i < length ins)%nat as Li by (apply nth_error_Some; congruence).
      rewrite nth_repeat_lt by auto. reflexivity.
    Qed.
    Lemma free_r0 a b : free a b p_r0 = a. Proof. reflexivity. Qed.
    Lemma free_r1 a b : free a b p_r1 = b. Proof. reflexivity. Qed.
    Lemma pos_const i k c : nth_error ins i = Some (k, c) -> nth_error (map snd ins) i = Some c.
    Proof. intros E. rewrite nth_error_map, E. reflexivity. Qed.

    Theorem rule_list : one_instruction (map snd ins) f.
    Proof.
      destruct rule_fi as [Lf _]. assert (byte 0 /\ byte 1) as [Z0 Z1] by (unfold byte; lia).
      pose proof (rule_count false [p_r0; p_r1]) as Cd. pose proof (rule_count true [p_imm0; p_imm1]) as Cc. rewrite keys_length in Cd, Cc. cbn [length] in Cd, Cc.
      split. { apply Cd. intros k J. destruct (rule_data k J) as [-> | ->]; cbn; auto. }
      split. { apply Cc. intros k J. destruct (rule_const k J) as [[-> | ->] _]; cbn; auto. }
      clear Cd Cc.
      assert (forall xs a b, words_like (map snd ins) xs -> byte a -> byte b -> bounds (vals xs (free a b))) as Bv by (intros xs a b [_ F]; now apply vals_bounds).
      assert (forall xs a b i k c, words_like (map snd ins) xs -> nth_error ins i = Some (k, c) -> vals xs (free a b) (bd [k]) = nth i xs 0) as Vp
        by (intros xs a b i k c [L _] E; eapply vals_pos; eauto; now rewrite map_length in L).
      assert (ob [o] = p_o0 \/ ob [o] = p_o1) as [Eo|Eo].
      { assert (In (ob [o], tw false) (a_out A)) as X by (apply Ob, i_out_iff; auto). rewrite (out_eq v1 v2 gs tv [] A EA) in X. destruct X as [X|[X|[]]]; injection X as <-; auto. }
      2: { (* the second output *)
        destruct (bound_or p_r0) as [(i & k & c & E & Eb)|N].
        - right; left. exists i. split; [rewrite map_length; apply nth_error_Some; congruence|]. intros xs W.
          rewrite (rule_eq xs 0 0 W Z0 Z0), Eo, fs1 by auto. rewrite <- Eb. eapply Vp; eauto.
        - exfalso. pose proof (rule_eq ones 0 0 ones_like Z0 Z0) as E1. pose proof (rule_eq ones 1 0 ones_like Z1 Z0) as E2.
          rewrite Eo, fs1 in E1, E2 by auto using ones_like. rewrite vals_free in E1, E2 by auto. rewrite free_r0 in E1, E2. lia. }
      assert (forall xs a b, words_like (map snd ins) xs -> byte a -> byte b ->
        f xs = bsem (does fi (vals xs (free a b))) (vals xs (free a b) p_r0) (vals xs (free a b) p_r1)) as E.
      { intros xs a b W Ba Bb. rewrite (rule_eq xs a b W Ba Bb), Eo. apply fs0; auto. }
      assert (fi = 0%nat \/ fi = 1%nat) as [F|F] by lia.
      - (* RR *)
        assert (forall xs a b, does fi (vals xs (free a b)) = rr_do (lc (p_rr "OP"))) as Ed.
        { intros xs a b. rewrite F. cbn [does]. rewrite vals_other by discriminate. reflexivity. }
        set (d := rr_do (lc (p_rr "OP"))) in *. assert (d = BAdd \/ d = BMul) as Hd by (unfold d, rr_do; destruct (_ =? _); auto).
        assert (exists i0 k0 c0, nth_error ins i0 = Some (k0, c0) /\ bd [k0] = p_r0) as (i0 & k0 & c0 & E0 & Eb0).
        { destruct (bound_or p_r0) as [X|N]; auto. exfalso. pose proof (E ones 0 1 ones_like Z0 Z1) as E1. pose proof (E ones 1 1 ones_like Z1 Z1) as E2.
          rewrite Ed in E1, E2. rewrite (vals_free _ _ p_r0) in E1 by auto. rewrite (vals_free _ _ p_r0) in E2 by auto. rewrite free_r0 in E1, E2.
          assert (forall a, vals ones (free a 1) p_r1 = 1) as V1 by (intros a; destruct (ones_at p_r1 a 1) as [X|[_ X]]; rewrite X; reflexivity).
          rewrite V1 in E1, E2. rewrite E1 in E2. destruct Hd as [Hd|Hd]; rewrite Hd in E2; discriminate E2. }
        assert (exists i1 k1 c1, nth_error ins i1 = Some (k1, c1) /\ bd [k1] = p_r1) as (i1 & k1 & c1 & E1 & Eb1).
        { destruct (bound_or p_r1) as [X|N]; auto. exfalso. pose proof (E ones 1 0 ones_like Z1 Z0) as E1. pose proof (E ones 1 1 ones_like Z1 Z1) as E2.
          rewrite Ed in E1, E2. rewrite (vals_free _ _ p_r1) in E1 by auto. rewrite (vals_free _ _ p_r1) in E2 by auto. rewrite free_r1 in E1, E2.
          assert (forall b, vals ones (free 1 b) p_r0 = 1) as V1 by (intros b; destruct (ones_at p_r0 1 b) as [X|[_ X]]; rewrite X; reflexivity).
          rewrite V1 in E1, E2. rewrite E1 in E2. destruct Hd as [Hd|Hd]; rewrite Hd in E2; discriminate E2. }
        left.
        assert (forall k c, In (k, c) ins -> c = false /\ (k = k0 \/ k = k1)) as All.
        { intros k c J. assert (c = false) as -> by (destruct c; auto; destruct (rule_const k J) as [_ X]; congruence). split; auto.
          destruct (rule_data k J) as [X|X]; [left|right]; eapply rule_inj; eauto using nth_error_In; congruence. }
        assert (k0 <> k1) as Nk by (intros ->; rewrite Eb0 in Eb1; discriminate Eb1).
        assert (ins = [(k0, false); (k1, false)] \/ ins = [(k1, false); (k0, false)]) as Ei.
        { apply (two_list ins k0 k1 Nk); auto.
          - exact (ins_nodup ins o f ia oa K).
          - pose proof (nth_error_In _ _ E0) as J. destruct (All k0 c0 J) as [-> _]. exact J.
          - pose proof (nth_error_In _ _ E1) as J. destruct (All k1 c1 J) as [-> _]. exact J. }
        assert (map snd ins = [false; false]) as Es by (destruct Ei as [-> | ->]; reflexivity). split; [exact Es|].
        assert (forall x y, byte x -> byte y -> f [x; y] = bsem d x y) as Ex.
        { intros x y Bx By. assert (words_like (map snd ins) [x; y]) as W by (rewrite Es; split; [reflexivity|constructor; [exact Bx|constructor; [exact By|constructor]]]).
          rewrite (E [x; y] 0 0 W Z0 Z0), Ed, <- Eb0, <- Eb1, (Vp [x; y] 0 0 i0 k0 c0 W E0), (Vp [x; y] 0 0 i1 k1 c1 W E1).
          assert (i0 = 0%nat /\ i1 = 1%nat \/ i0 = 1%nat /\ i1 = 0%nat) as [[-> ->]|[-> ->]].
          { clear - Ei E0 E1 Nk. destruct Ei as [Ei|Ei]; rewrite Ei in E0, E1; destruct i0 as [|[|[|?]]]; try discriminate E0; destruct i1 as [|[|[|?]]]; try discriminate E1; cbn in E0, E1; auto; congruence. }
          - reflexivity.
          - cbn [nth]. destruct Hd as [-> | ->]; cbn [bsem]; [now rewrite Z.add_comm|now rewrite Z.mul_comm]. }
        destruct Hd as [Hd|Hd]; rewrite Hd in Ex; [left|right]; exact Ex.
      - (* RI *)
        assert (forall xs a b, does fi (vals xs (free a b)) = ri_do (lc (p_ri "OP")) (vals xs (free a b) p_imm1)) as Ed.
        { intros xs a b. rewrite F. cbn [does]. rewrite (vals_other xs a b (p_ri "OP")) by discriminate. reflexivity. }
        assert (byte (lc p_imm1)) as Bi by (pose proof lc_bounds; unfold bounds in *; tauto).
        assert ((forall k c, In (k, c) ins -> bd [k] <> p_imm1) -> (const_count (map snd ins) <= 1)%nat) as One.
        { intros N. pose proof (rule_count true [p_imm0]) as Cc. rewrite keys_length in Cc. apply Cc. intros k J. destruct (rule_const k J) as [[X|X] _]; [rewrite X; left; auto|exfalso; exact (N k true J X)]. }
        assert (forall xs a b, (forall k c, In (k, c) ins -> bd [k] <> p_imm1) -> vals xs (free a b) p_imm1 = lc p_imm1) as Vi by (intros xs a b N; now rewrite vals_free).
        unfold ri_do in Ed. destruct (lc (p_ri "OP") =? 3).
        + destruct (bound_or p_imm1) as [(j & k & c & Ej & Eb)|N].
          * right; left. exists j. split; [rewrite map_length; apply nth_error_Some; congruence|]. intros xs W. rewrite (E xs 0 0 W Z0 Z0), Ed. cbn [bsem]. rewrite <- Eb. eapply Vp; eauto.
          * right; right; right. split; [auto|]. exists (lc p_imm1). split; auto. left. intros xs W. rewrite (E xs 0 0 W Z0 Z0), Ed. cbn [bsem]. auto.
        + assert (exists i0 k0, nth_error ins i0 = Some (k0, false) /\ bd [k0] = p_r0) as (i0 & k0 & E0 & Eb0).
          { destruct (bound_or p_r0) as [(i0 & k0 & c0 & E0 & Eb0)|N].
            - exists i0, k0. split; auto. destruct c0; auto. destruct (rule_const k0 (nth_error_In _ _ E0)) as [[X|X] _]; rewrite X in Eb0; discriminate Eb0.
            - exfalso. pose proof (E ones 0 0 ones_like Z0 Z0) as E1. pose proof (E ones 1 0 ones_like Z1 Z0) as E2. rewrite Ed in E1, E2. cbn [bsem] in E1, E2.
              rewrite (vals_free _ _ p_r0) in E1 by auto. rewrite (vals_free _ _ p_r0) in E2 by auto. rewrite free_r0 in E1, E2.
              assert (vals ones (free 0 0) p_imm1 = vals ones (free 1 0) p_imm1) as X.
              { destruct (bound_or p_imm1) as [(j & k & c & Ej & Eb)|N']; [rewrite <- Eb; rewrite !(Vp _ _ _ j k c) by auto using ones_like; reflexivity|rewrite !Vi by auto; reflexivity]. }
              rewrite X in E1. rewrite E1 in E2. clear - E2. Z.to_euclidean_division_equations. lia. }
          destruct (bound_or p_imm1) as [(j & k & c & Ej & Eb)|N].
          * assert (c = true) as -> by (destruct c; auto; destruct (rule_data k (nth_error_In _ _ Ej)) as [X|X]; rewrite X in Eb; discriminate Eb).
            right; right; left. exists i0, j. split; [eauto using pos_const|]. split; [eauto using pos_const|]. intros xs W.
            rewrite (E xs 0 0 W Z0 Z0), Ed. cbn [bsem]. rewrite <- Eb, <- Eb0, (Vp xs 0 0 i0 k0 false), (Vp xs 0 0 j k true) by auto. reflexivity.
          * right; right; right. split; [auto|]. exists (lc p_imm1). split; auto. right. exists i0. split; [eauto using pos_const|]. intros xs W.
            rewrite (E xs 0 0 W Z0 Z0), Ed. cbn [bsem]. rewrite Vi by auto. rewrite <- Eb0, (Vp xs 0 0 i0 k0 false) by auto. reflexivity.
    Qed.
  End Rule.

  Theorem found_list : direct path_eqb lty_const lty_vals A I (adt_fs C A) (adt_fv C A) -> one_instruction (map snd ins) f.
  Proof. intros (fi & ff & lc & bd & ob & Ef & Tl & _ & _ & Bd & Inj & Ob & _ & Eq). exact (rule_list fi ff lc bd ob Ef Tl Bd Inj Ob Eq). Qed.
End Main.
