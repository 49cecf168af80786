(** Which IR instructions [Multi] finds programs for on the architecture of
    tests/test_basic_rr.py: C85. *)
From Coq Require Import String ZArith List Bool Arith Lia.
From Verif Require Import Base BaseLemmas BindModel MapIdxModel MultiModel MultiProps BvModel SmallPeModel
  AsmModel AsmSpec AsmCheck AsmProps AadtModel MultiBasicModel MultiBasicProofs.
Import ListNotations.
Open Scope string_scope.
Open Scope list_scope.
Open Scope Z_scope.

(** ** Specification *)
(** [Multi] with [n] instructions, either kind of index variable and either value of
    [use_real], has a problem with a solution. By C60 the rule shown is then a correct
    program. *)
Definition found (a : asm) (ir : irinfo nat) (k : ivar) (real : bool) (n : nat) : Prop :=
  exists m sol, multi_build Nat.eqb k (basic_arch a) ir real n false = Ok m /\
    solution (fun w => w) k (basic_arch a) ir n m sol.

(** [a] is the assembler of the instruction, made after those of the types in [h]. *)
Definition instruction_assembler (h : list ty) (a : asm) : Prop :=
  Forall wf_ty (basic_inst :: h) /\ same_width_zero_hot (basic_inst :: h) /\ built h basic_inst a.

(** Polynomials in the inputs, with integer coefficients. *)
Inductive poly := PVar (i : nat) | PConst (c : Z) | PAdd (p q : poly) | PMul (p q : poly).
Fixpoint peval (p : poly) (xs : list Z) : Z :=
  match p with
  | PVar i => nth i xs 0
  | PConst c => c
  | PAdd p q => peval p xs + peval q xs
  | PMul p q => peval p xs * peval q xs
  end.
Fixpoint pvars (n : nat) (p : poly) : Prop :=
  match p with PVar i => (i < n)%nat | PConst _ => True | PAdd p q | PMul p q => pvars n p /\ pvars n q end.
(** Constants and operations. *)
Fixpoint psize (p : poly) : nat :=
  match p with PVar _ => 0 | PConst _ => 1 | PAdd p q | PMul p q => psize p + psize q + 1 end%nat.
Definition is_poly (n : nat) (f : list Z -> Z) (p : poly) : Prop :=
  pvars n p /\ forall xs, length xs = n -> Forall byte xs -> f xs = peval p xs mod 256.

(** ** Programs compute polynomials *)
Fixpoint index_of (g : string) (gs : list string) : nat :=
  match gs with [] => 0 | h :: r => if String.eqb g h then 0 else S (index_of g r) end%nat.
Lemma index_lt g gs : In g gs -> (index_of g gs < length gs)%nat.
Proof.
  induction gs as [|h gs IH]; [intros []|]. cbn [index_of length]. destruct (String.eqb_spec g h); [lia|]. intros [<-|I]; [congruence|].
  specialize (IH I). lia.
Qed.
Lemma index_nth g gs x : In g gs -> nth (index_of g gs) (map x gs) 0 = x g.
Proof.
  induction gs as [|h gs IH]; [intros []|]. cbn [index_of map]. destruct (String.eqb_spec g h) as [->|N]; [auto|]. intros [<-|I]; [congruence|]. now apply IH.
Qed.
Lemma assign gs xs : NoDup gs -> length xs = length gs -> map (fun g => nth (index_of g gs) xs 0) gs = xs.
Proof.
  revert xs. induction gs as [|h gs IH]; intros [|x xs] N L; try discriminate; auto. inversion N as [|? ? Nh Ng]; subst. cbn [map index_of].
  rewrite String.eqb_refl. cbn [nth]. f_equal. injection L as L. transitivity (map (fun g => nth (index_of g gs) xs 0) gs); [|auto]. apply map_ext_in. intros g I.
  destruct (String.eqb_spec g h) as [->|]; [contradiction|]. reflexivity.
Qed.

Section Polys.
  Variable gs : list string.

  Definition sexpr (es : list (poly * poly)) (s : option mpath) : poly :=
    match s with
    | Some (IRin g) => PVar (index_of g gs)
    | Some (Aout j g) => let e := nth j es (PConst 0, PConst 0) in if String.eqb g "0" then fst e else snd e
    | _ => PConst 0
    end.
  Definition bexpr (d : binst) (p q : poly) : poly :=
    match d with BAdd => PAdd p q | BMul => PMul p q | BLd i => PConst i | BAddi i => PAdd p (PConst i) end.
  Fixpoint exprs (c : list instr) (es : list (poly * poly)) : list (poly * poly) :=
    match c with
    | [] => es
    | (d, s0, s1) :: r => exprs r (es ++ [(bexpr d (sexpr es s0) (sexpr es s1), sexpr es s0)])
    end.

  Definition desc (x : string -> Z) (es : list (poly * poly)) (outs : list (string -> Z)) : Prop :=
    length outs = length es /\ forall j g, (j < length es)%nat ->
      nth j outs dflt g = (let e := nth j es (PConst 0, PConst 0) in peval (if String.eqb g "0" then fst e else snd e) (map x gs)) mod 256.

  Lemma sexpr_ok x es outs i s fl : (forall g, In g gs -> byte (x g)) -> desc x es outs -> okp gs (length es) s ->
    sval x (fun _ _ => 0) i fl outs s = peval (sexpr es s) (map x gs) mod 256.
  Proof.
    intros Hx [L D] O. destruct s as [[g|g|j g|j g]|]; cbn [sval sexpr okp] in *; try tauto; try reflexivity.
    - cbn [peval]. rewrite index_nth by auto. symmetry. apply Z.mod_small, Hx, O.
    - destruct O as [Lj _]. exact (D j g Lj).
  Qed.
  Lemma sexpr_vars es i s : okp gs i s -> Forall (fun e => pvars (length gs) (fst e) /\ pvars (length gs) (snd e)) es -> pvars (length gs) (sexpr es s).
  Proof.
    intros O F. destruct s as [[g|g|j g|j g]|]; cbn [sexpr okp pvars] in *; auto; [now apply index_lt|].
    destruct (nth_in_or_default j es (PConst 0, PConst 0)) as [I| ->].
    - rewrite Forall_forall in F. destruct (F _ I). destruct (String.eqb g "0"); auto.
    - destruct (String.eqb g "0"); exact Logic.I.
  Qed.
  Lemma bexpr_ok d p q xs : bimm d -> peval (bexpr d p q) xs mod 256 = bsem d (peval p xs mod 256) (peval q xs mod 256).
  Proof.
    intros B. destruct d; cbn [bexpr bsem peval bimm] in *.
    - now rewrite <- Zplus_mod.
    - now rewrite <- Zmult_mod.
    - now apply Z.mod_small.
    - now rewrite Zplus_mod_idemp_l.
  Qed.

  Lemma exprs_ok x : (forall g, In g gs -> byte (x g)) -> forall c es outs, code_ok gs (length es) c -> desc x es outs ->
    desc x (exprs c es) (srun x (fun _ _ => 0) c outs).
  Proof.
    intros Hx. induction c as [|[[d s0] s1] c IH]; intros es outs; cbn [code_ok exprs srun]; auto. intros (B & O0 & O1 & O) D.
    apply IH; [rewrite app_length; cbn [length]; now rewrite Nat.add_1_r|].
    rewrite !(sexpr_ok x es outs) by auto. destruct D as [L D]. split; [rewrite !app_length; cbn [length]; lia|]. intros j g Lj.
    rewrite app_length in Lj. cbn [length] in Lj. destruct (Nat.lt_ge_cases j (length es)) as [Lt|Ge].
    - rewrite !app_nth1 by lia. now apply D.
    - assert (j = length es) as -> by lia. rewrite !app_nth2 by lia. rewrite L, Nat.sub_diag. cbn [nth fst snd].
      destruct (String.eqb g "0"); [now rewrite bexpr_ok|reflexivity].
  Qed.
  Lemma exprs_vars c : forall i es, code_ok gs i c -> Forall (fun e => pvars (length gs) (fst e) /\ pvars (length gs) (snd e)) es ->
    Forall (fun e => pvars (length gs) (fst e) /\ pvars (length gs) (snd e)) (exprs c es).
  Proof.
    induction c as [|[[d s0] s1] c IH]; intros i es; cbn [code_ok exprs]; auto. intros (B & O0 & O1 & O) F. apply (IH (S i)); auto.
    apply Forall_app. split; auto. constructor; [|constructor]. cbn [fst snd].
    pose proof (sexpr_vars es i s0 O0 F). pose proof (sexpr_vars es i s1 O1 F). split; auto. destruct d; cbn [bexpr pvars]; auto.
  Qed.
  Lemma exprs_len c : forall es, length (exprs c es) = (length es + length c)%nat.
  Proof. induction c as [|[[d s0] s1] c IH]; intros es; cbn [exprs length]; [lia|]. rewrite IH, app_length. cbn. lia. Qed.
End Polys.

(** ** Polynomials are computed by programs *)
Definition copy (s : option mpath) : instr := (BAddi 0, s, None).
Definition loads (gs : list string) : list instr := map (fun g => copy (Some (IRin g))) gs.
Fixpoint comp (p : poly) (base : nat) : list instr * nat :=
  match p with
  | PVar i => ([], i)
  | PConst c => ([(BLd (c mod 256), None, None)], base)
  | PAdd p q =>
      let '(c1, i1) := comp p base in
      let '(c2, i2) := comp q (base + length c1)%nat in
      (c1 ++ c2 ++ [(BAdd, Some (Aout i1 "0"), Some (Aout i2 "0"))], (base + length c1 + length c2)%nat)
  | PMul p q =>
      let '(c1, i1) := comp p base in
      let '(c2, i2) := comp q (base + length c1)%nat in
      (c1 ++ c2 ++ [(BMul, Some (Aout i1 "0"), Some (Aout i2 "0"))], (base + length c1 + length c2)%nat)
  end.

Lemma comp_op d i1 i2 x u c1 c2 outs : (i1 < length outs + length c1)%nat -> (i2 < length outs + length c1 + length c2)%nat ->
  nth (length outs + length c1 + length c2) (srun x u (c1 ++ c2 ++ [(d, Some (Aout i1 "0"), Some (Aout i2 "0"))]) outs) dflt "0" =
  bsem d (nth i1 (srun x u c1 outs) dflt "0") (nth i2 (srun x u c2 (srun x u c1 outs)) dflt "0").
Proof.
  intros L1 L2. rewrite !srun_app. set (o1 := srun x u c1 outs). set (o2 := srun x u c2 o1).
  assert (length o1 = length outs + length c1)%nat as E1 by apply srun_len. assert (length o2 = length outs + length c1 + length c2)%nat as E2 by (unfold o2; rewrite srun_len; lia).
  cbn [srun sval]. rewrite app_nth2 by lia. rewrite E2, Nat.sub_diag. cbn [nth]. cbn [String.eqb Ascii.eqb Bool.eqb]. f_equal.
  unfold o2. rewrite srun_old; auto. lia.
Qed.

Lemma comp_spec gs x u p : pvars (length gs) p -> (forall g, In g gs -> byte (x g)) -> forall outs, (length gs <= length outs)%nat ->
  (forall i, (i < length gs)%nat -> nth i outs dflt "0" = nth i (map x gs) 0) ->
  let '(c, r) := comp p (length outs) in
  length c = psize p /\ (r < length outs + length c)%nat /\ nth r (srun x u c outs) dflt "0" = peval p (map x gs) mod 256.
Proof.
  intros V Hx. revert V. induction p as [i|c|p IHp q IHq|p IHp q IHq]; intros V outs L H; cbn [comp pvars] in *.
  - cbn [length srun psize peval]. split; auto. split; [lia|]. rewrite H by auto. symmetry. apply Z.mod_small.
    rewrite <- (map_length x) in V. destruct (proj1 (in_map_iff x gs _) (nth_In (map x gs) 0 V)) as (g & <- & I). now apply Hx.
  - cbn [length psize]. split; auto. split; [lia|]. cbn [srun]. rewrite app_nth2 by lia. rewrite Nat.sub_diag. reflexivity.
  - destruct V as [Vp Vq]. specialize (IHp Vp outs L H). destruct (comp p (length outs)) as [c1 i1]. destruct IHp as (S1 & R1 & E1).
    specialize (IHq Vq (srun x u c1 outs)). rewrite srun_len in IHq. destruct (comp q (length outs + length c1)) as [c2 i2]. destruct IHq as (S2 & R2 & E2); [lia| |].
    { intros i Li. rewrite srun_old by lia. auto. }
    split; [rewrite !app_length; cbn [length psize]; lia|]. split; [rewrite !app_length; cbn [length]; lia|].
    rewrite comp_op by lia. rewrite E1, E2. cbn [bsem peval]. now rewrite <- Zplus_mod.
  - destruct V as [Vp Vq]. specialize (IHp Vp outs L H). destruct (comp p (length outs)) as [c1 i1]. destruct IHp as (S1 & R1 & E1).
    specialize (IHq Vq (srun x u c1 outs)). rewrite srun_len in IHq. destruct (comp q (length outs + length c1)) as [c2 i2]. destruct IHq as (S2 & R2 & E2); [lia| |].
    { intros i Li. rewrite srun_old by lia. auto. }
    split; [rewrite !app_length; cbn [length psize]; lia|]. split; [rewrite !app_length; cbn [length]; lia|].
    rewrite comp_op by lia. rewrite E1, E2. cbn [bsem peval]. now rewrite <- Zmult_mod.
Qed.

Lemma comp_ok gs n p : pvars n p -> forall base, (n <= base)%nat ->
  let '(c, r) := comp p base in code_ok gs base c /\ (forall i g q, ~ In (Some (IRin g), q) (srcs i c)) /\ (r < base + length c)%nat.
Proof.
  induction p as [i|c|p IHp q IHq|p IHp q IHq]; intros V base L; cbn [comp pvars] in *.
  - cbn. split; auto. split; [auto|lia].
  - cbn [code_ok bimm okp srcs In length]. split; [|split; [|lia]].
    + split; auto. apply Z.mod_pos_bound. reflexivity.
    + intros i g q [X|[X|[]]]; discriminate.
  - destruct V as [Vp Vq]. specialize (IHp Vp base L). destruct (comp p base) as [c1 i1]. destruct IHp as (O1 & I1 & R1).
    specialize (IHq Vq (base + length c1)%nat). destruct (comp q (base + length c1)) as [c2 i2]. destruct IHq as (O2 & I2 & R2); [lia|]. split; [|split].
    + rewrite !code_ok_app. split; auto. split; auto. cbn [code_ok bimm okp]. repeat split; auto; lia.
    + intros i g s I. rewrite !srcs_app, !in_app_iff in I. cbn [srcs In] in I. destruct I as [I|[I|[I|[I|[]]]]]; try discriminate; [eapply I1|eapply I2]; eauto.
    + rewrite !app_length. cbn [length]. lia.
  - destruct V as [Vp Vq]. specialize (IHp Vp base L). destruct (comp p base) as [c1 i1]. destruct IHp as (O1 & I1 & R1).
    specialize (IHq Vq (base + length c1)%nat). destruct (comp q (base + length c1)) as [c2 i2]. destruct IHq as (O2 & I2 & R2); [lia|]. split; [|split].
    + rewrite !code_ok_app. split; auto. split; auto. cbn [code_ok bimm okp]. repeat split; auto; lia.
    + intros i g s I. rewrite !srcs_app, !in_app_iff in I. cbn [srcs In] in I. destruct I as [I|[I|[I|[I|[]]]]]; try discriminate; [eapply I1|eapply I2]; eauto.
    + rewrite !app_length. cbn [length]. lia.
Qed.

Lemma loads_run x u gs : (forall g, In g gs -> byte (x g)) -> forall outs,
  let outs' := srun x u (loads gs) outs in
  (forall i, (i < length gs)%nat -> nth (length outs + i) outs' dflt "0" = nth i (map x gs) 0).
Proof.
  induction gs as [|g gs IH]; intros Hx outs; [intros outs' i L; cbn in L; lia|]. intros outs' [|i] L; unfold outs'; cbn [loads map srun copy].
  - rewrite srun_old by (rewrite app_length; cbn; lia). rewrite app_nth2 by lia. rewrite Nat.add_0_r, Nat.sub_diag.
    cbn [nth sval String.eqb Ascii.eqb Bool.eqb bsem]. rewrite Z.add_0_r. apply Z.mod_small, Hx. now left.
  - cbn [map nth]. rewrite <- (IH (fun g' I => Hx g' (or_intror I)) (outs ++ [fun g0 => if String.eqb g0 "0" then bsem (BAddi 0) (sval x u (length outs) "r0" outs (Some (IRin g))) (sval x u (length outs) "r1" outs None) else sval x u (length outs) "r0" outs (Some (IRin g))])).
    + rewrite app_length. cbn [length]. now replace (length outs + S i)%nat with (length outs + 1 + i)%nat by lia.
    + cbn in L. lia.
Qed.
Lemma loads_srcs gs g j fl : forall i, In (Some (IRin g), Ain j fl) (srcs i (loads gs)) <-> fl = "r0" /\ (i <= j)%nat /\ nth_error gs (j - i) = Some g.
Proof.
  induction gs as [|h gs IH]; intros i; cbn [loads map srcs copy In].
  - split; [tauto|]. intros (_ & _ & E). destruct (j - i)%nat; discriminate.
  - fold (loads gs). rewrite IH. split.
    + intros [[= <- <- <-]|[X|(E1 & E2 & E3)]]; [rewrite Nat.sub_diag; auto|discriminate|]. split; auto. split; [lia|].
      now replace (j - i)%nat with (S (j - S i)) by lia.
    + intros (-> & L & E). destruct (Nat.eq_dec j i) as [->|N]; [left; rewrite Nat.sub_diag in E; cbn in E; congruence|]. right. right. split; auto. split; [lia|].
      now replace (j - i)%nat with (S (j - S i)) in E by lia.
Qed.
Lemma loads_ok gs : forall l i, (forall g, In g l -> In g gs) -> code_ok gs i (loads l).
Proof.
  induction l as [|g l IH]; intros i H; cbn [loads map code_ok copy]; auto. split; [cbn; lia|]. split; [apply H; now left|]. split; [exact Logic.I|].
  apply IH. intros g' I. apply H. now right.
Qed.

Definition pcode (gs : list string) (p : poly) : list instr :=
  let '(c, r) := comp p (length gs) in loads gs ++ c ++ [copy (Some (Aout r "0"))].
Lemma pcode_spec gs f p : NoDup gs -> is_poly (length gs) f p -> let c := pcode gs p in
  length c = (length gs + psize p + 1)%nat /\ code_ok gs 0 c /\ (forall g, In g gs -> once c g) /\ computed gs f c "0".
Proof.
  intros ND [V P]. unfold pcode. assert (length (loads gs) = length gs) as Ll by apply map_length.
  pose proof (comp_ok gs (length gs) p V (length gs) (le_n _)) as O.
  assert (forall x u, (forall g, In g gs -> byte (x g)) -> let '(c, r) := comp p (length gs) in length c = psize p /\ (r < length gs + length c)%nat /\
    nth r (srun x u c (srun x u (loads gs) [])) dflt "0" = peval p (map x gs) mod 256) as C.
  { intros x u Hx. pose proof (comp_spec gs x u p V Hx (srun x u (loads gs) [])) as C. rewrite srun_len in C. cbn [length] in C. rewrite Ll in C. apply C; [lia|].
    intros i Li. pose proof (loads_run x u gs Hx [] i Li) as E. cbn [length] in E. exact E. }
  destruct (comp p (length gs)) as [c r]. destruct O as (O & NI & R).
  assert (length c = psize p) as Lc. { destruct (C (fun _ => 0) (fun _ _ => 0)) as [E _]; auto. intros. unfold byte. lia. }
  cbn zeta. split; [rewrite !app_length; cbn [length]; lia|]. split; [|split].
  - rewrite !code_ok_app. split; [apply loads_ok; auto|]. rewrite Ll. cbn [Nat.add]. split; auto. cbn [code_ok copy bimm okp]. repeat split; auto; lia.
  - intros g I. destruct (In_nth_error _ _ I) as (j & E). exists j, "r0". split.
    + rewrite srcs_app, in_app_iff. left. apply loads_srcs. rewrite Nat.sub_0_r. split; auto. split; auto. lia.
    + intros j' fl' I'. rewrite !srcs_app, !in_app_iff in I'. destruct I' as [I'|[I'|I']].
      * apply loads_srcs in I' as (-> & _ & E'). rewrite Nat.sub_0_r in E'. split; auto. apply (proj1 (NoDup_nth_error gs) ND).
        -- apply nth_error_Some. congruence.
        -- congruence.
      * exfalso. eapply NI; eauto.
      * exfalso. cbn [srcs copy In] in I'. destruct I' as [X|[X|[]]]; discriminate.
  - intros x u Hx Hu. destruct (C x u Hx) as (_ & _ & E). rewrite !app_length. cbn [length]. rewrite Ll.
    replace (length gs + (length c + 1) - 1)%nat with (length gs + length c)%nat by lia. rewrite !srun_app. cbn [srun copy].
    set (o := srun x u c (srun x u (loads gs) [])) in *. assert (length o = (length gs + length c)%nat) as Lo by (unfold o; rewrite !srun_len; cbn [length]; lia).
    rewrite app_nth2 by lia. rewrite Lo, Nat.sub_diag. cbn [nth sval]. cbn [String.eqb Ascii.eqb Bool.eqb bsem]. rewrite Z.add_0_r, E. rewrite Zmod_mod.
    symmetry. apply P; [apply map_length|]. apply Forall_forall. intros z I. apply in_map_iff in I as (g & <- & I). auto.
Qed.

(** ** C85 *)
Lemma found_code h a gs o f k real n : instruction_assembler h a -> NoDup gs ->
  (found a (word_ir gs o f) k real n <->
   (0 < n)%nat /\ exists c q, length c = n /\ code_ok gs 0 c /\ (forall g, In g gs -> once c g) /\ (q = "0" \/ q = "1") /\ computed gs f c q).
Proof. intros (W & S & B) ND. exact (search a gs o f (basic_built h a W S B) ND k real n). Qed.

(** A program of some length is found exactly if the instruction computes a polynomial
    of its inputs modulo 256. *)
Theorem C85_polynomials : forall h a gs o f k real, instruction_assembler h a -> NoDup gs ->
  ((exists n, found a (word_ir gs o f) k real n) <-> exists p, is_poly (length gs) f p).
Proof.
  intros h a gs o f k real A ND. split.
  - intros (n & F). apply (found_code h) in F as (Hn & c & q & L & O & U & Q & C); auto.
    set (e := nth (length c - 1) (exprs gs c []) (PConst 0, PConst 0)). exists (if String.eqb q "0" then fst e else snd e).
    assert (length (exprs gs c []) = length c) as Le by apply exprs_len. split.
    + pose proof (exprs_vars gs c 0 [] O (Forall_nil _)) as F. rewrite Forall_forall in F. destruct (F e) as [H1 H2]; [apply nth_In; lia|]. destruct (String.eqb q "0"); auto.
    + intros xs Lx Bx. set (x := fun g => nth (index_of g gs) xs 0). assert (map x gs = xs) as Ex by now apply assign.
      assert (forall g, In g gs -> byte (x g)) as Hx. { intros g I. rewrite Forall_forall in Bx. apply Bx. apply nth_In. rewrite Lx. now apply index_lt. }
      rewrite <- Ex, <- (C x (fun _ _ => 0)); auto; [|intros; unfold byte; lia].
      assert (desc gs x [] []) as D0 by (split; [reflexivity|intros j g Lj; cbn in Lj; lia]).
      destruct (exprs_ok gs x Hx c [] [] O D0) as [_ D]. apply D. lia.
  - intros (p & P). exists (length gs + psize p + 1)%nat. apply (found_code h); auto. split; [lia|].
    destruct (pcode_spec gs f p ND P) as (L & O & U & C). exists (pcode gs p), "0". auto 6.
Qed.

(** One instruction per input, constant and operation and one more are enough. *)
Theorem C85_length : forall h a gs o f k real p, instruction_assembler h a -> NoDup gs -> is_poly (length gs) f p ->
  found a (word_ir gs o f) k real (length gs + psize p + 1).
Proof.
  intros h a gs o f k real p A ND P. apply (found_code h); auto. split; [lia|].
  destruct (pcode_spec gs f p ND P) as (L & O & U & C). exists (pcode gs p), "0". auto 6.
Qed.

(** Longer programs find no less. *)
Theorem C85_longer : forall h a gs o f k real n n', instruction_assembler h a -> NoDup gs -> (n <= n')%nat ->
  found a (word_ir gs o f) k real n -> found a (word_ir gs o f) k real n'.
Proof.
  intros h a gs o f k real n n' A ND Le. induction Le as [|n' Le IH]; auto. intros F. specialize (IH F). apply (found_code h) in IH as (Hn & c & q & L & O & U & Q & C); auto.
  apply (found_code h); auto. split; [lia|]. exists (c ++ [copy (Some (Aout (n' - 1) q))]), "0". split; [rewrite app_length; cbn [length]; lia|]. split; [|split; [|split]]; auto.
  - rewrite code_ok_app. split; auto. cbn [code_ok copy bimm okp]. repeat split; auto; lia.
  - intros g I. destruct (U g I) as (j & fl & H1 & H2). exists j, fl. rewrite srcs_app. split; [apply in_app_iff; auto|]. intros j' fl' I'.
    apply in_app_iff in I' as [I'|I']; auto. cbn [srcs copy In] in I'. destruct I' as [X|[X|[]]]; discriminate.
  - intros x u Hx Hu. rewrite app_length. cbn [length]. replace (length c + 1 - 1)%nat with (length c) by lia.
    assert (nth (length c - 1) (srun x u c []) dflt q = f (map x gs)) as E.
    { apply C; auto. intros i fl Li. apply Hu. rewrite app_length. lia. }
    rewrite srun_app. cbn [srun copy]. rewrite app_nth2 by (rewrite srun_len; cbn; lia). rewrite srun_len. cbn [length Nat.add]. rewrite Nat.sub_diag.
    cbn [nth sval]. cbn [String.eqb Ascii.eqb Bool.eqb bsem]. rewrite <- L, E, Z.add_0_r. apply Z.mod_small.
    (* the value is a byte *)
    rewrite <- E. clear - O Hx Hu Hn L. 
    assert (forall c i outs, code_ok gs i c -> length outs = i -> (forall j fl, (j < i + length c)%nat -> fl = "r0" \/ fl = "r1" -> byte (u j fl)) ->
      (forall j g, byte (nth j outs dflt g)) -> forall j g, byte (nth j (srun x u c outs) dflt g)) as G.
    { clear - Hx. induction c as [|[[d s0] s1] c IH]; intros i outs; cbn [code_ok srun]; auto. intros (B & O0 & O1 & O) L Hu Ho. 
      assert (forall s fl, okp gs i s -> fl = "r0" \/ fl = "r1" -> byte (sval x u (length outs) fl outs s)) as V.
      { intros [[g|g|j g|j g]|] fl Os Hf; cbn [okp sval] in *; try tauto; auto. apply Hu; auto. rewrite L. cbn [length]. lia. }
      apply (IH (S i)); auto.
      - rewrite app_length. cbn [length]. lia.
      - intros j fl Lj. apply Hu. cbn [length]. lia.
      - intros j g. destruct (Nat.lt_ge_cases j (length outs)) as [Lt|Ge]; [rewrite app_nth1 by auto; apply Ho|]. rewrite app_nth2 by auto.
        destruct (j - length outs)%nat as [|[|?]]; cbn [nth]; [|unfold dflt, byte; lia|unfold dflt, byte; lia].
        destruct (String.eqb g "0"); [now apply bsem_byte|apply V; auto]. }
    apply (G c 0%nat []); auto.
    + intros j fl Lj. apply Hu. rewrite app_length. lia.
    + intros [|j] g; unfold dflt, byte; cbn; lia.
Qed.

(** Polynomials respect congruences, and a second difference with steps that are
    multiples of [d] is a multiple of [d * d]. Instructions without these properties are
    found for no number of instructions. *)
Theorem C85_differences : forall h a gs o f k real n d xs ys zs ts, instruction_assembler h a -> NoDup gs ->
  found a (word_ir gs o f) k real n -> (d * d | 256) ->
  (forall l, In l [xs; ys; zs; ts] -> length l = length gs /\ Forall byte l) ->
  (forall i, (d | nth i ys 0 - nth i xs 0) /\ (d | nth i zs 0 - nth i xs 0) /\ nth i ts 0 = nth i ys 0 + nth i zs 0 - nth i xs 0) ->
  (d | f ys - f xs) /\ (d * d | f ts - f ys - f zs + f xs).
Proof.
  intros h a gs o f k real n d xs ys zs ts A ND F Dv Hl Hi. destruct (proj1 (C85_polynomials h a gs o f k real A ND) (ex_intro _ n F)) as (p & V & P).
  assert (forall l, In l [xs; ys; zs; ts] -> exists m, f l = peval p l + d * d * m) as R.
  { intros l I. destruct (Hl l I) as [L B]. rewrite (P l L B). destruct Dv as [q E]. exists (- (q * (peval p l / 256))). rewrite Z.mod_eq by lia. rewrite E at 1. ring. }
  assert (forall p, exists b c m, peval p ys = peval p xs + d * b /\ peval p zs = peval p xs + d * c /\ peval p ts = peval p xs + d * b + d * c + d * d * m) as D.
  { clear - Hi. induction p as [i|c|p IHp q IHq|p IHp q IHq]; cbn [peval].
    - destruct (Hi i) as ([b B] & [c C] & T). exists b, c, 0. rewrite T. repeat split; lia.
    - exists 0, 0, 0. repeat split; ring.
    - destruct IHp as (b & c & m & E1 & E2 & E3), IHq as (b' & c' & m' & E1' & E2' & E3'). rewrite E1, E2, E3, E1', E2', E3'.
      exists (b + b'), (c + c'), (m + m'). repeat split; ring.
    - destruct IHp as (b & c & m & E1 & E2 & E3), IHq as (b' & c' & m' & E1' & E2' & E3'). rewrite E1, E2, E3, E1', E2', E3'.
      generalize (peval p xs) (peval q xs). intros X X'. exists (X * b' + b * X' + d * b * b'), (X * c' + c * X' + d * c * c'),
        ((b + c) * (b' + c') - b * b' - c * c' + m * X' + X * m' + d * ((b + c) * m' + m * (b' + c')) + d * d * m * m'). repeat split; ring. }
  destruct (D p) as (b & c & m & E1 & E2 & E3). destruct (R xs) as (m1 & R1); [cbn; auto|]. destruct (R ys) as (m2 & R2); [cbn; auto|].
  destruct (R zs) as (m3 & R3); [cbn; auto|]. destruct (R ts) as (m4 & R4); [cbn; auto|]. rewrite R1, R2, R3, R4, E1, E2, E3. split.
  - exists (b + d * m2 - d * m1). ring.
  - exists (m + m4 - m2 - m3 + m1). ring.
Qed.

(** The instruction of test_multi: found with two instructions or more; with one
    instruction there is no binding for three inputs and [Multi] raises ValueError. *)
Theorem C85_test : forall h a k real n, instruction_assembler h a ->
  (found a add3_ir k real n <-> (2 <= n)%nat) /\ multi_build Nat.eqb k (basic_arch a) add3_ir real 1 false = Err ValueError.
Proof.
  intros h a k real n A. assert (multi_build Nat.eqb k (basic_arch a) add3_ir real 1 false = Err ValueError) as E1 by reflexivity. split; auto. split.
  - intros F. destruct n as [|[|n]]; [| |lia].
    + exfalso. apply (found_code h) in F as [X _]; auto; [lia|]. repeat constructor; cbn; intuition discriminate.
    + exfalso. destruct F as (m & sol & E & _). congruence.
  - intros L. apply (C85_longer h) with (n := 2%nat); auto; [repeat constructor; cbn; intuition discriminate|].
    apply (found_code h); auto; [repeat constructor; cbn; intuition discriminate|]. split; [lia|].
    exists [(BAdd, Some (IRin "a"), Some (IRin "b")); (BMul, Some (Aout 0 "0"), Some (IRin "c"))], "0". split; auto. split; [cbn; intuition|]. split; [|split; auto].
    + intros g [<-|[<-|[<-|[]]]].
      * exists 0%nat, "r0". split; [cbn; auto|]. cbn. intros j fl I. intuition congruence.
      * exists 0%nat, "r1". split; [cbn; auto|]. cbn. intros j fl I. intuition congruence.
      * exists 1%nat, "r1". split; [cbn; auto|]. cbn. intros j fl I. intuition congruence.
    + intros x u Hx Hu. reflexivity.
Qed.

(** ** The instructions of smallir *)
(** The least number of instructions. *)
Definition needs (o : irop) : option nat :=
  match o with Add | Mul => Some 1 | Neg => Some 2 | Sub | Not => Some 3 | _ => None end%nat.

(** Programs of two instructions, tried on some inputs with unbound inputs 0. *)
Section Two.
  Variables (gs : list string) (pts : list ((string -> Z) * Z)).
  Definition L0 : list (option mpath) := None :: map (fun g => Some (IRin g)) gs.
  Definition L1 : list (option mpath) := L0 ++ [Some (Aout 0 "0"); Some (Aout 0 "1")].
  Definition lv0 (x : string -> Z) (s : option mpath) : Z := match s with Some (IRin g) => x g | _ => 0 end.
  Definition lv1 (x : string -> Z) (p q : Z) (s : option mpath) : Z :=
    match s with Some (IRin g) => x g | Some (Aout _ g) => if String.eqb g "0" then p else q | _ => 0 end.
  (** No [d1] of the second instruction gives all the results. *)
  Definition bad2 (d0 : binst) (s0 s1 t0 t1 : option mpath) : bool :=
    let v := map (fun e => let x := fst e in let p := bsem d0 (lv0 x s0) (lv0 x s1) in
                           (lv1 x p (lv0 x s0) t0, lv1 x p (lv0 x s0) t1, snd e)) pts in
    let same l := match l with [] => true | y :: r => forallb (Z.eqb y) r end in
    negb (forallb (fun e => let '(r0, r1, y) := e in r0 =? y) v) &&
    negb (forallb (fun e => let '(r0, r1, y) := e in bsem BAdd r0 r1 =? y) v) &&
    negb (forallb (fun e => let '(r0, r1, y) := e in bsem BMul r0 r1 =? y) v) &&
    negb (same (map (fun e => let '(r0, r1, y) := e in y) v)) &&
    negb (same (map (fun e => let '(r0, r1, y) := e in (y - r0) mod 256) v)).
  Definition check2 : bool :=
    forallb (fun s0 => forallb (fun s1 => forallb (fun d0 => forallb (fun t0 => forallb (fun t1 => bad2 d0 s0 s1 t0 t1) L1) L1) binsts) L0) L0.

  Lemma L0_In s : okp gs 0 s -> In s L0.
  Proof. destruct s as [[g|g|j g|j g]|]; cbn [okp]; intros O; try tauto; [right; apply in_map_iff; eauto|lia|now left]. Qed.
  Lemma L1_In s : okp gs 1 s -> In s L1.
  Proof.
    unfold L1. rewrite in_app_iff. destruct s as [[g|g|j g|j g]|]; cbn [okp]; intros O; try tauto; [left; right; apply in_map_iff; eauto| |left; now left].
    right. destruct O as [L [->| ->]]; (replace j with 0%nat by lia); cbn; auto.
  Qed.

  Lemma two f : check2 = true -> Forall (fun e => (forall g, In g gs -> byte (fst e g)) /\ f (map (fst e) gs) = snd e) pts ->
    forall c q, length c = 2%nat -> code_ok gs 0 c -> ~ computed gs f c q.
  Proof.
    intros H P c q L O C. destruct c as [|[[d0 s0] s1] [|[[d1 t0] t1] [|]]]; try discriminate. cbn [code_ok] in O.
    destruct O as (B0 & O0 & O1 & B1 & O2 & O3 & _). unfold check2 in H. rewrite forallb_forall in H. specialize (H s0 (L0_In _ O0)).
    rewrite forallb_forall in H. specialize (H s1 (L0_In _ O1)). rewrite forallb_forall in H. specialize (H d0 (proj2 (binsts_In _) B0)).
    rewrite forallb_forall in H. specialize (H t0 (L1_In _ O2)). rewrite forallb_forall in H. specialize (H t1 (L1_In _ O3)).
    assert (forall e, In e pts -> let x := fst e in let p := bsem d0 (lv0 x s0) (lv0 x s1) in
      (if String.eqb q "0" then bsem d1 (lv1 x p (lv0 x s0) t0) (lv1 x p (lv0 x s0) t1) else lv1 x p (lv0 x s0) t0) = snd e) as R.
    { intros e I. rewrite Forall_forall in P. destruct (P e I) as [Px Pf]. specialize (C (fst e) (fun _ _ => 0) Px). rewrite <- Pf, <- C by (intros; unfold byte; lia).
      cbn zeta. cbn [length Nat.sub srun app nth].
      assert (forall s fl, okp gs 0 s -> sval (fst e) (fun _ _ => 0) 0 fl [] s = lv0 (fst e) s) as E0.
      { intros [[g|g|j g|j g]|] fl Os; cbn [sval lv0 okp] in *; try tauto; auto. lia. }
      cbn [srun length app nth]. rewrite !E0 by auto. set (p := bsem d0 (lv0 (fst e) s0) (lv0 (fst e) s1)).
      assert (forall s fl, okp gs 1 s -> sval (fst e) (fun _ _ => 0) 1 fl [fun g => if String.eqb g "0" then p else lv0 (fst e) s0] s = lv1 (fst e) p (lv0 (fst e) s0) s) as E1.
      { intros [[g|g|j g|j g]|] fl Os; cbn [sval lv1 okp] in *; try tauto; auto. destruct Os as [Lj _]. replace j with 0%nat by lia. reflexivity. }
      rewrite !E1 by auto. reflexivity. }
    unfold bad2 in H. rewrite !andb_true_iff, !negb_true_iff in H. destruct H as ((((H1 & H2) & H3) & H4) & H5).
    set (v := map _ pts) in *.
    assert (forall e, In e v -> let '(r0, r1, y) := e in (if String.eqb q "0" then bsem d1 r0 r1 else r0) = y) as Rv.
    { intros e I. apply in_map_iff in I as (e' & <- & I). apply (R e' I). }
    assert (forall (l : list Z) y, (forall z, In z l -> z = y) -> match l with [] => true | y :: r => forallb (Z.eqb y) r end = true) as Sm.
    { intros [|z l] y Hy; auto. apply forallb_forall. intros z' I. apply Z.eqb_eq. rewrite (Hy z), (Hy z'); auto; [now right|now left]. }
    destruct (String.eqb q "0"); [destruct d1|].
    - apply not_true_iff_false in H2. apply H2. apply forallb_forall. intros [[r0 r1] y] I. apply Z.eqb_eq. exact (Rv _ I).
    - apply not_true_iff_false in H3. apply H3. apply forallb_forall. intros [[r0 r1] y] I. apply Z.eqb_eq. exact (Rv _ I).
    - rewrite (Sm _ i) in H4; [discriminate|]. intros z I. apply in_map_iff in I as ([[r0 r1] y] & <- & I). symmetry. exact (Rv _ I).
    - rewrite (Sm _ (i mod 256)) in H5; [discriminate|]. intros z I. apply in_map_iff in I as ([[r0 r1] y] & <- & I). specialize (Rv _ I). cbn [bsem] in Rv.
      rewrite <- Rv. rewrite Zminus_mod_idemp_l. f_equal. ring.
    - apply not_true_iff_false in H1. apply H1. apply forallb_forall. intros [[r0 r1] y] I. apply Z.eqb_eq. exact (Rv _ I).
  Qed.
End Two.

Definition pt2 (f : list Z -> Z) (x y : Z) : (string -> Z) * Z := (fun g => if String.eqb g "in0" then x else y, f [x; y]).
Definition pt1 (f : list Z -> Z) (x : Z) : (string -> Z) * Z := (fun g => x, f [x]).
Definition small_f (o : irop) (xs : list Z) : Z := ir_call 8 o (nth 0 xs 0) (nth 1 xs 0).

Lemma two_sub : check2 ["in0"; "in1"] [pt2 (small_f Sub) 0 0; pt2 (small_f Sub) 0 1; pt2 (small_f Sub) 1 0] = true.
Proof. vm_compute. reflexivity. Qed.
Lemma two_not : check2 ["in0"] [pt1 (small_f Not) 0; pt1 (small_f Not) 1; pt1 (small_f Not) 2] = true.
Proof. vm_compute. reflexivity. Qed.

Lemma nd1 : NoDup ["in0"]. Proof. repeat constructor; cbn; intuition. Qed.
Lemma nd2 : NoDup ["in0"; "in1"]. Proof. repeat constructor; cbn; intuition discriminate. Qed.

Lemma not_two_sub c q : length c = 2%nat -> code_ok ["in0"; "in1"] 0 c -> ~ computed ["in0"; "in1"] (small_f Sub) c q.
Proof.
  apply (two _ _ _ two_sub). do 3 (apply Forall_cons; [split; [intros g [<-|[<-|[]]]; cbn; unfold byte; lia|reflexivity]|]). apply Forall_nil.
Qed.
Lemma not_two_not c q : length c = 2%nat -> code_ok ["in0"] 0 c -> ~ computed ["in0"] (small_f Not) c q.
Proof.
  apply (two _ _ _ two_not). do 3 (apply Forall_cons; [split; [intros g [<-|[]]; cbn; unfold byte; lia|reflexivity]|]). apply Forall_nil.
Qed.
Lemma not_one_neg c q : length c = 1%nat -> code_ok ["in0"] 0 c -> ~ computed ["in0"] (small_f Neg) c q.
Proof.
  intros L O C. destruct c as [|[[d s0] s1] [|]]; try discriminate. cbn [code_ok] in O. destruct O as (B & O0 & O1 & _).
  assert (forall z, byte z -> (if String.eqb q "0" then bsem d (lv0 (fun _ => z) s0) (lv0 (fun _ => z) s1) else lv0 (fun _ => z) s0) = (- z) mod 256) as R.
  { intros z Bz. specialize (C (fun _ => z) (fun _ _ => 0) (fun _ _ => Bz)). cbn [length Nat.sub srun app nth] in C.
    assert (forall s fl, okp ["in0"] 0 s -> sval (fun _ => z) (fun _ _ => 0) 0 fl [] s = lv0 (fun _ => z) s) as E0.
    { intros [[g|g|j g|j g]|] fl Os; cbn [sval lv0 okp] in *; try tauto; auto. lia. }
    rewrite !E0 in C by auto. rewrite C by (intros; unfold byte; lia). reflexivity. }
  pose proof (R 0) as R0. pose proof (R 1) as R1. pose proof (R 2) as R2. clear R C. unfold byte in *.
  specialize (R0 ltac:(lia)). specialize (R1 ltac:(lia)). specialize (R2 ltac:(lia)).
  change ((-0) mod 256) with 0 in R0. change ((-(1)) mod 256) with 255 in R1. change ((-(2)) mod 256) with 254 in R2.
  destruct s0 as [[g|g|j g|j g]|], s1 as [[g'|g'|j' g'|j' g']|]; cbn [okp lv0] in *; try tauto; try lia;
    destruct (String.eqb q "0"); try lia; destruct d; cbn [bsem bimm] in *; try lia; try discriminate;
    rewrite ?Z.add_0_l in R0; rewrite ?Z.mod_small in R0 by lia; subst; try discriminate.
Qed.

Lemma small_gs o : small_word_ir o = word_ir (if unary o then ["in0"] else ["in0"; "in1"]) "out" (small_f o).
Proof. reflexivity. Qed.
Lemma small_nd o : NoDup (if unary o then ["in0"] else ["in0"; "in1"]).
Proof. destruct (unary o); [apply nd1|apply nd2]. Qed.

Lemma small_never h a k real n o : instruction_assembler h a -> needs o = None -> ~ found a (small_word_ir o) k real n.
Proof.
  intros A N F. rewrite small_gs in F. assert (unary o = false) as U by (destruct o; try discriminate; reflexivity). rewrite U in F.
  assert (forall d x x' y y' z z' t t', (d * d | 256) -> Forall byte [x; x'; y; y'; z; z'; t; t'] ->
     (d | y - x) -> (d | y' - x') -> (d | z - x) -> (d | z' - x') -> t = y + z - x -> t' = y' + z' - x' ->
     (d | small_f o [y; y'] - small_f o [x; x']) /\
     (d * d | small_f o [t; t'] - small_f o [y; y'] - small_f o [z; z'] + small_f o [x; x'])) as D.
  { intros d x x' y y' z z' t t' Dv Hb D1 D2 D3 D4 E1 E2.
    apply (C85_differences h a ["in0"; "in1"] "out" (small_f o) k real n d [x; x'] [y; y'] [z; z'] [t; t'] A nd2 F Dv).
    - rewrite Forall_forall in Hb. intros l [<-|[<-|[<-|[<-|[]]]]]; (split; [reflexivity|]); apply Forall_forall; intros w [<-|[<-|[]]]; apply Hb; cbn; auto 10.
    - intros [|[|i]]; cbn [nth]; auto. destruct i; cbn [nth]; (split; [exists 0; lia|]; split; [exists 0; lia|lia]). }
  assert (forall l, forallb (fun z => (0 <=? z) && (z <? 256)) l = true -> Forall byte l) as Bl.
  { intros l H. apply Forall_forall. intros z I. rewrite forallb_forall in H. specialize (H z I). unfold byte. lia. }
  assert (forall d b, 0 < d -> b mod d <> 0 -> ~ (d | b)) as Nd.
  { intros d b P Nz Dv. apply Nz. now apply Z.mod_divide; [lia|]. }
  assert (2 * 2 | 256) as D4 by (exists 64; reflexivity).
  assert (forall z, (2 | 2 * z)) as E2 by (intros z; exists z; ring).
  destruct o; try discriminate.
  - destruct (D 2 0 0 2 0 0 2 2 2) as [_ X]; auto; try reflexivity; try (apply Bl; reflexivity); try (apply (E2 0)); try (apply (E2 1)).
    revert X. now apply Nd.
  - destruct (D 2 0 0 2 0 0 2 2 2) as [_ X]; auto; try reflexivity; try (apply Bl; reflexivity); try (apply (E2 0)); try (apply (E2 1)).
    revert X. now apply Nd.
  - destruct (D 2 0 0 2 0 0 2 2 2) as [_ X]; auto; try reflexivity; try (apply Bl; reflexivity); try (apply (E2 0)); try (apply (E2 1)).
    revert X. now apply Nd.
  - destruct (D 2 0 0 2 0 0 2 2 2) as [_ X]; auto; try reflexivity; try (apply Bl; reflexivity); try (apply (E2 0)); try (apply (E2 1)).
    revert X. now apply Nd.
  - destruct (D 2 0 1 2 1 0 1 2 1) as [X _]; auto; try reflexivity; try (apply Bl; reflexivity); try (apply (E2 0)); try (apply (E2 1)).
    revert X. now apply Nd.
  - destruct (D 2 1 0 1 2 1 0 1 2) as [X _]; auto; try reflexivity; try (apply Bl; reflexivity); try (apply (E2 0)); try (apply (E2 1)).
    revert X. now apply Nd.
Qed.

Lemma small_least h a k real o m : instruction_assembler h a -> needs o = Some m -> found a (small_word_ir o) k real m.
Proof.
  intros A N. rewrite small_gs. apply (found_code h); auto; [apply small_nd|]. destruct o; try discriminate; injection N as <-; (split; [lia|]); cbn [unary].
  - exists [(BAdd, Some (IRin "in0"), Some (IRin "in1"))], "0". split; auto. split; [cbn; intuition|]. split; [|split; auto].
    + intros g [<-|[<-|[]]]; [exists 0%nat, "r0"|exists 0%nat, "r1"]; (split; [cbn; auto|]); cbn; intros j fl I; intuition congruence.
    + intros x u Hx Hu. reflexivity.
  - exists [(BLd 255, None, None); (BMul, Some (IRin "in1"), Some (Aout 0 "0")); (BAdd, Some (IRin "in0"), Some (Aout 1 "0"))], "0".
    split; auto. split; [cbn; repeat split; auto; lia|]. split; [|split; auto].
    + intros g [<-|[<-|[]]]; [exists 2%nat, "r0"|exists 1%nat, "r0"]; (split; [cbn; auto 10|]); cbn; intros j fl I; intuition congruence.
    + intros x u Hx Hu. change ((x "in0" + (x "in1" * 255) mod 256) mod 256 = (x "in0" - x "in1") mod 256). rewrite Zplus_mod_idemp_r.
      replace (x "in0" + x "in1" * 255) with (x "in0" - x "in1" + x "in1" * 256) by ring. apply Z_mod_plus_full.
  - exists [(BMul, Some (IRin "in0"), Some (IRin "in1"))], "0". split; auto. split; [cbn; intuition|]. split; [|split; auto].
    + intros g [<-|[<-|[]]]; [exists 0%nat, "r0"|exists 0%nat, "r1"]; (split; [cbn; auto|]); cbn; intros j fl I; intuition congruence.
    + intros x u Hx Hu. reflexivity.
  - exists [(BLd 255, None, None); (BMul, Some (IRin "in0"), Some (Aout 0 "0")); (BAddi 255, Some (Aout 1 "0"), None)], "0".
    split; auto. split; [cbn; repeat split; auto; lia|]. split; [|split; auto].
    + intros g [<-|[]]; exists 1%nat, "r0"; (split; [cbn; auto 10|]); cbn; intros j fl I; intuition congruence.
    + intros x u Hx Hu. change (((x "in0" * 255) mod 256 + 255) mod 256 = (Z.lnot (x "in0")) mod 256). rewrite Zplus_mod_idemp_l.
      replace (x "in0" * 255 + 255) with (Z.lnot (x "in0") + (x "in0" + 1) * 256) by (unfold Z.lnot; lia). apply Z_mod_plus_full.
  - exists [(BLd 255, None, None); (BMul, Some (IRin "in0"), Some (Aout 0 "0"))], "0".
    split; auto. split; [cbn; repeat split; auto; lia|]. split; [|split; auto].
    + intros g [<-|[]]; exists 1%nat, "r0"; (split; [cbn; auto 10|]); cbn; intros j fl I; intuition congruence.
    + intros x u Hx Hu. change ((x "in0" * 255) mod 256 = (- x "in0") mod 256).
      replace (x "in0" * 255) with (- x "in0" + x "in0" * 256) by ring. apply Z_mod_plus_full.
Qed.

Lemma small_short h a k real o m : instruction_assembler h a -> needs o = Some (S m) -> ~ found a (small_word_ir o) k real m.
Proof.
  intros A N F. rewrite small_gs in F. apply (found_code h) in F as (Hm & c & q & L & O & _ & _ & C); auto; [|apply small_nd].
  destruct o; try discriminate; injection N as <-; try lia; cbn [unary] in *.
  - eapply not_two_sub; eauto.
  - eapply not_two_not; eauto.
  - eapply not_one_neg; eauto.
Qed.

(** Each instruction of smallir: the numbers of instructions with which it is found.
    [And], [Nand], [Or], [Nor] and the shifts are found with none. *)
Theorem C85_small : forall h a k real o n, instruction_assembler h a ->
  (found a (small_word_ir o) k real n <-> exists m, needs o = Some m /\ (m <= n)%nat).
Proof.
  intros h a k real o n A. split.
  - intros F. destruct (needs o) as [m|] eqn:E; [|exfalso; eapply small_never; eauto]. exists m. split; auto.
    destruct (Nat.le_gt_cases m n) as [|Lt]; auto. exfalso. destruct m as [|m]; [lia|]. apply (small_short h a k real o m A E).
    rewrite small_gs in *. apply (C85_longer h) with (n := n); auto; [apply small_nd|lia].
  - intros (m & E & L). pose proof (small_least h a k real o m A E) as F. rewrite small_gs in *. apply (C85_longer h) with (n := m); auto. apply small_nd.
Qed.

(** ** Cases *)
(** The assembler exists, for example after others were made. *)
Example C85_case : instruction_assembler [ex_imm; ri_inst] (match build (run_history ps0 [ex_imm; ri_inst]) basic_inst with Ok (a, _) => a | Err _ => AField TBit 0 end).
Proof.
  assert (Forall wf_ty [basic_inst; ex_imm; ri_inst]) as W by (apply wf_all_b; vm_compute; reflexivity).
  split; [exact W|]. split; [|eexists; vm_compute; reflexivity]. apply same_width_zero, same_width_ok_spec; [exact W|vm_compute; reflexivity].
Qed.

(** x * x * x + 7: found with six instructions or more, although the input is given to one operand only. *)
Example C85_cube : is_poly 1 (fun xs => (nth 0 xs 0 * nth 0 xs 0 * nth 0 xs 0 + 7) mod 256) (PAdd (PMul (PMul (PVar 0) (PVar 0)) (PVar 0)) (PConst 7)).
Proof. split; [cbn; auto|]. intros xs _ _. reflexivity. Qed.

Print Assumptions C85_polynomials.
Print Assumptions C85_length.
Print Assumptions C85_longer.
Print Assumptions C85_differences.
Print Assumptions C85_test.
Print Assumptions C85_small.
