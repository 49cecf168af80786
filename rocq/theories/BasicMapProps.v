(** C87: which instructions of words [ArchMapper] finds on the architecture of
    test_basic_rr. *)
From Coq Require Import String ZArith List Bool Arith Lia.
From Verif Require Import Base BaseLemmas BindModel BindProps MapIdxModel MapIdxProps MultiModel MapModel MapProofs MapMain MapProps MapIff MapIffProps MapDirect MapConst MapConstProps
  BvModel SmallPeModel
  AsmModel AsmSpec AsmValid AsmEnum AsmBuild AsmProofs AsmCheck AsmSub AsmMore AsmProps AadtModel AadtProofs FormModel FormProofs FormMain FormProps AdtArchModel AdtArchProofs AdtArchMain AdtArchProps
  MultiBasicModel MultiBasicProofs MultiBasicProps BasicMapModel BasicMapProofs BasicMapMain.
Import ListNotations.
Open Scope string_scope.
Open Scope list_scope.
Open Scope Z_scope.

(** ** Specification *)
(** [ia] and [oa] are the assemblers of the inputs and outputs of [Arch], made after
    those of the types in [h] and [h']. *)
Definition arch_assemblers (h h' : list ty) (ia oa : asm) : Prop :=
  Forall wf_ty (basic_in_t :: h) /\ same_width_zero_hot (basic_in_t :: h) /\ built h basic_in_t ia /\
  Forall wf_ty (basic_out_t :: h') /\ built h' basic_out_t oa.
(** The same for an instruction of words, which returns words. *)
Definition word_assemblers (ins : list (key * bool)) (o : key) (ia oa : asm) : Prop :=
  exists h h', Forall wf_ty (TProd "Input" (map (fun e => (fst e, TBV 8)) ins) :: h) /\ built h (TProd "Input" (map (fun e => (fst e, TBV 8)) ins)) ia /\
    Forall wf_ty (TProd "Output" [(o, TBV 8)] :: h') /\ built h' (TProd "Output" [(o, TBV 8)]) oa.
Definition returns_words (n : nat) (f : list Z -> Z) : Prop := forall xs, length xs = n -> Forall byte xs -> byte (f xs).

(** A problem with a solution: [false] the expanded and [true] the simple formula. *)
Definition solvable (k : ivar) (ia oa : asm) (A : arch path lty) (I : MapModel.instr path lty) (simple : bool) : Prop :=
  satisfiable path_eqb lty_eqb lty_vals (tag_vals (basic_class ia oa)) k A I
    (if simple then build_simple_adt k A I else build_expanded path_eqb lty_eqb lty_const k A I).

(** ** Proofs *)
Lemma arch_class h h' ia oa : arch_assemblers h h' ia oa -> class_ok (basic_class ia oa).
Proof.
  intros (W & _ & B & W' & B'). constructor; [exists h; split; auto|exists h'; split; auto| |]; cbn [c_in c_out basic_class].
  - repeat constructor.
  - repeat constructor.
Qed.
Lemma word_class_ok ins o f ia oa : word_assemblers ins o ia oa -> class_ok (word_class ins o f ia oa).
Proof.
  intros (h & h' & W & B & W' & B'). constructor.
  - exists h. unfold in_ty. rewrite strip_ins. auto.
  - exists h'. auto.
  - cbn [c_in word_class]. apply Forall_forall. intros g Ig. apply in_map_iff in Ig as ([k []] & <- & _); cbn [snd word_m]; repeat constructor.
  - repeat constructor.
Qed.
Lemma arch_shapes h h' ia oa : arch_assemblers h h' ia oa -> exists v1 v2 gs tv R, ia = ishape v1 v2 gs tv /\ oa = oshape /\
  good_request R /\ acc_ok R /\ asm_rel R basic_inst (shape v1 v2 gs tv).
Proof.
  intros (W & S & B & W' & B'). pose proof (built_rel h _ _ W B) as Rl. destruct (ishape_of _ _ Rl) as (v1 & v2 & gs & tv & ->).
  exists v1, v2, gs, tv, (reqs (basic_in_t :: h)). split; auto. split; [eapply oshape_of, built_rel; eauto|]. split; [now apply reqs_good|]. split; [now apply acc_reqs|].
  assert (wf_ty basic_in_t) as Wt by (inversion W; auto).
  destruct (prod_member _ "Input" (strip_fields basic_in) (ishape v1 v2 gs tv) (fk "inst") basic_inst Wt Rl) as (fa & lo & Em & Af & _); [left; reflexivity|].
  change (member_asm (ishape v1 v2 gs tv) (fk "inst")) with (Ok (shape v1 v2 gs tv)) in Em. injection Em as <-. exact Af.
Qed.
Lemma has_inputs ins o f ia oa I : class_ok (word_class ins o f ia oa) -> adt_instr (word_class ins o f ia oa) = Ok I -> ins <> [].
Proof.
  intros K E. destruct (k_in _ K) as (R & GR & W & Rl). unfold adt_instr in E. destruct (in_forms _ (fun _ => 0) (fun _ => 0)) as [r|] eqn:Ef; [|discriminate].
  pose proof (forms_buildable _ _ R _ GR W _ _ _ Rl Ef) as B. unfold in_ty in B. rewrite strip_ins in B. intros ->. inversion B as [? L|? ? N|]; [destruct L|apply N; reflexivity].
Qed.

(** The architecture and the instructions exist. *)
Theorem C87_builds h h' ia oa : arch_assemblers h h' ia oa -> (exists A, adt_arch (basic_class ia oa) [] = Ok A) /\
  forall ins o f wi wo, word_assemblers ins o wi wo -> returns_words (length ins) f ->
    ((exists I, adt_instr (word_class ins o f wi wo) = Ok I) <-> ins <> []).
Proof.
  intros Aa. split.
  - destruct (arch_shapes h h' ia oa Aa) as (v1 & v2 & gs & tv & R & -> & -> & _). now apply basic_builds.
  - intros ins o f wi wo Wa Hf. pose proof (word_class_ok ins o f wi wo Wa) as K. split.
    + intros (I & E). eapply has_inputs; eauto.
    + intros NE. apply (word_builds ins o f wi wo K Hf NE).
Qed.

(** Both formulas, with either kind of index variables, have a solution exactly for
    the instructions the machine does at once. *)
Theorem C87_found h h' ia oa A ins o f wi wo I : arch_assemblers h h' ia oa -> adt_arch (basic_class ia oa) [] = Ok A ->
  word_assemblers ins o wi wo -> returns_words (length ins) f -> adt_instr (word_class ins o f wi wo) = Ok I ->
  forall k simple, solvable k ia oa A I simple <-> one_instruction (map snd ins) f.
Proof.
  intros Aa EA Wa Hf EI k simple. pose proof (arch_class h h' ia oa Aa) as K. pose proof (word_class_ok ins o f wi wo Wa) as KD. pose proof (has_inputs _ _ _ _ _ _ KD EI) as NE.
  destruct (arch_shapes h h' ia oa Aa) as (v1 & v2 & gs & tv & R & -> & -> & GR & AR & SR).
  assert (constr_ok lty_vals A) as Hc by (intros p zs; rewrite (constr_eq v1 v2 gs tv [] A EA); intros []).
  assert (exists k m, In (k, m) (c_in (basic_class (ishape v1 v2 gs tv) oshape)) /\ const_field m = true) as Hk by (exists (fk "inst"), inst_m; split; [left; reflexivity|reflexivity]).
  assert (one_instruction (map snd ins) f -> direct_simple path_eqb lty_const lty_vals A I (adt_fs (basic_class (ishape v1 v2 gs tv) oshape) A) (adt_fv (basic_class (ishape v1 v2 gs tv) oshape) A)) as L
    by exact (list_found v1 v2 gs tv A EA R GR AR SR ins o f wi wo KD Hf NE I EI).
  assert (direct path_eqb lty_const lty_vals A I (adt_fs (basic_class (ishape v1 v2 gs tv) oshape) A) (adt_fv (basic_class (ishape v1 v2 gs tv) oshape) A) -> one_instruction (map snd ins) f) as L'
    by exact (found_list v1 v2 gs tv A EA ins o f wi wo KD Hf NE I EI).
  unfold solvable. destruct simple.
  - rewrite (C86_found_simple_const k _ [] A _ I K KD EA EI (NoDup_nil _) Hc Hk).
    + split; [intros X; apply L', direct_simple_direct, X|exact L].
    + intros k' m [[= <- <-]|[[= <- <-]|[]]] p mods q u [[= <- <-]|[]]; reflexivity.
    + intros k' m [[= <- <-]|[]] p mods q u [[= <- <-]|[]]; reflexivity.
    + intros X. assert (In ([o], tw false) (i_out I)) as Y by (apply (i_out_iff ins o f wi wo I EI); auto). rewrite X in Y. destruct Y.
    + intros p fi ff. rewrite (constr_eq v1 v2 gs tv [] A EA). intros [].
  - rewrite (C86_found k _ [] A _ I K KD EA EI (NoDup_nil _) Hc Hk). split; [exact L'|]. intros X. apply direct_simple_direct, L, X.
Qed.

(** The rules of the test exist. *)
Lemma two_inputs (cs : list bool) xs : words_like cs xs -> cs = [false; false] -> exists x y, xs = [x; y] /\ byte x /\ byte y.
Proof. intros [L F] ->. destruct xs as [|x [|y [|? ?]]]; try discriminate. inversion F as [|? ? Bx F1]; subst. inversion F1; subst. eauto. Qed.
Lemma add_one : one_instruction (map snd add_ins) add_f.
Proof. split; [cbn; lia|]. split; [cbn; lia|]. left. split; [reflexivity|]. left. intros x y _ _. reflexivity. Qed.
Lemma inc_one : one_instruction (map snd inc_ins) inc_f.
Proof.
  split; [cbn; lia|]. split; [cbn; lia|]. right; right; right. split; [cbn; lia|]. exists 1. split; [unfold byte; lia|]. right. exists 0%nat. split; [reflexivity|]. intros xs _. reflexivity.
Qed.
Lemma const_one : one_instruction (map snd const_ins) const_f.
Proof. split; [cbn; lia|]. split; [cbn; lia|]. right; left. exists 0%nat. split; [cbn; lia|]. intros xs _. reflexivity. Qed.
Lemma mod_byte z : byte (z mod 256).
Proof. unfold byte. apply Z.mod_pos_bound. reflexivity. Qed.

Theorem C87_test h h' ia oa A : arch_assemblers h h' ia oa -> adt_arch (basic_class ia oa) [] = Ok A ->
  forall ins f, In (ins, f) [([(fk "a", false); (fk "b", false)], fun xs => (nth 0 xs 0 + nth 1 xs 0) mod 256);
    ([(fk "a", false)], fun xs => (nth 0 xs 0 + 1) mod 256); ([(fk "c", true)], fun xs => nth 0 xs 0)] ->
  forall o wi wo, word_assemblers ins o wi wo ->
    exists I, adt_instr (word_class ins o f wi wo) = Ok I /\ forall k simple, solvable k ia oa A I simple.
Proof.
  intros Aa EA ins f Hi o wi wo Wa. change (In (ins, f) [(add_ins, add_f); (inc_ins, inc_f); (const_ins, const_f)]) in Hi.
  assert (returns_words (length ins) f /\ one_instruction (map snd ins) f /\ ins <> []) as (Hf & H1 & NE).
  { destruct Hi as [[= <- <-]|[[= <- <-]|[[= <- <-]|[]]]]; (split; [|split; [auto using add_one, inc_one, const_one|discriminate]]); intros xs L F.
    - apply mod_byte. - apply mod_byte. - unfold const_f. destruct xs as [|x xs]; [discriminate|]. inversion F; auto. }
  destruct (proj2 (proj2 (C87_builds h h' ia oa Aa) ins o f wi wo Wa Hf) NE) as (I & EI). exists I. split; auto. intros k simple.
  now apply (C87_found h h' ia oa A ins o f wi wo I).
Qed.

(** Of the instructions of smallir exactly the sum and the product are found. *)
Definition points : list (Z * Z) := [(0, 0); (1, 0); (0, 1); (1, 1); (2, 3); (2, 0); (0, 2); (3, 2); (7, 7)].
Lemma binary_none f : 
  forallb (fun g => existsb (fun p => negb (f [fst p; snd p] =? g (fst p) (snd p))) points)
    [(fun x y => (x + y) mod 256); (fun x y => (x * y) mod 256); (fun x _ => x); (fun _ y => y); (fun _ _ => f [0; 0]); (fun x _ => (x + f [0; 0]) mod 256); (fun _ y => (y + f [0; 0]) mod 256)] = true ->
  ~ one_instruction [false; false] f.
Proof.
  intros H (_ & _ & Hc). rewrite forallb_forall in H.
  assert (forall g, In g [(fun x y => (x + y) mod 256); (fun x y => (x * y) mod 256); (fun x _ => x); (fun _ y => y); (fun _ _ => f [0; 0]); (fun x _ => (x + f [0; 0]) mod 256); (fun _ y => (y + f [0; 0]) mod 256)] ->
    ~ forall x y, byte x -> byte y -> f [x; y] = g x y) as N.
  { intros g Ig X. specialize (H g Ig). apply existsb_exists in H as ([x y] & Ip & H). cbn [fst snd] in H.
    assert (byte x /\ byte y) as [Bx By]. { cbn [points In] in Ip. unfold byte. repeat (destruct Ip as [[= <- <-]|Ip]; [lia|]). destruct Ip. }
    rewrite (X x y Bx By), Z.eqb_refl in H. discriminate H. }
  clear H. assert (forall x y, byte x -> byte y -> words_like [false; false] [x; y]) as W by (intros x y Bx By; split; [reflexivity|constructor; [exact Bx|constructor; [exact By|constructor]]]).
  assert (byte 0) as B0 by (unfold byte; lia).
  destruct Hc as [(_ & [X|X])|[(i & Li & X)|[(i & j & _ & Ej & _)|(_ & k & Bk & [X|(i & Ei & X)])]]].
  - apply (N (fun x y => (x + y) mod 256)); [cbn; tauto|exact X].
  - apply (N (fun x y => (x * y) mod 256)); [cbn; tauto|exact X].
  - cbn in Li. destruct i as [|[|i]]; [| |lia].
    + apply (N (fun x _ => x)); [cbn; tauto|]. intros x y Bx By. now rewrite X by auto.
    + apply (N (fun _ y => y)); [cbn; tauto|]. intros x y Bx By. now rewrite X by auto.
  - destruct j as [|[|j]]; try discriminate Ej. destruct j; discriminate Ej.
  - apply (N (fun _ _ => f [0; 0])); [cbn; tauto|]. intros x y Bx By. now rewrite !X by auto.
  - assert (f [0; 0] = k) as Ek. { rewrite X by auto. destruct i as [|[|i]]; [| |destruct i; discriminate Ei]; cbn [nth]; apply Z.mod_small; exact Bk. }
    destruct i as [|[|i]]; [| |destruct i; discriminate Ei].
    + apply (N (fun x _ => (x + f [0; 0]) mod 256)); [cbn; tauto|]. intros x y Bx By. rewrite Ek. now rewrite X by auto.
    + apply (N (fun _ y => (y + f [0; 0]) mod 256)); [cbn; tauto|]. intros x y Bx By. rewrite Ek. now rewrite X by auto.
Qed.
Lemma unary_none f : f [0] <> 0 \/ f [1] <> 1 \/ f [2] <> 2 -> f [1] <> f [0] -> f [1] <> (1 + f [0]) mod 256 -> ~ one_instruction [false] f.
Proof.
  intros N0 N1 N2 (_ & _ & Hc). assert (forall x, byte x -> words_like [false] [x]) as W by (intros x Bx; split; [reflexivity|constructor; [exact Bx|constructor]]).
  assert (byte 0 /\ byte 1 /\ byte 2) as (B0 & B1 & B2) by (unfold byte; lia).
  destruct Hc as [(X & _)|[(i & Li & X)|[(i & j & _ & Ej & _)|(_ & k & Bk & [X|(i & Ei & X)])]]].
  - discriminate X.
  - cbn in Li. destruct i as [|i]; [|lia]. rewrite !X in N0 by auto. cbn [nth] in N0. lia.
  - destruct j as [|j]; try discriminate Ej. destruct j; discriminate Ej.
  - apply N1. now rewrite !X by auto.
  - destruct i as [|i]; [|destruct i; discriminate Ei]. apply N2. rewrite !X by auto. cbn [nth]. rewrite Z.add_0_l. rewrite (Z.mod_small k) by exact Bk. reflexivity.
Qed.
Lemma small_one o : one_instruction (map snd (small_ins o)) (small_f o) <-> o = Add \/ o = Mul.
Proof.
  split.
  - destruct o; auto; intros X; exfalso; revert X; (apply binary_none; vm_compute; reflexivity) || (apply unary_none; [right; left| |]; vm_compute; discriminate).
  - intros [-> | ->]; (split; [cbn; lia|]; split; [cbn; lia|]); left; (split; [reflexivity|]); [left|right]; intros x y _ _; reflexivity.
Qed.
Lemma byte_land z : byte z <-> Z.land z 255 = z.
Proof.
  change 255 with (Z.ones 8). rewrite Z.land_ones by lia. change (2 ^ 8) with 256. unfold byte. split; [apply Z.mod_small|]. intros <-. apply Z.mod_pos_bound. reflexivity.
Qed.
Lemma small_words op : returns_words (length (small_ins op)) (small_f op).
Proof.
  intros xs L F. assert (byte (nth 0 xs 0) /\ byte (nth 1 xs 0)) as [B0 B1].
  { rewrite Forall_forall in F. split; [|destruct (Nat.lt_ge_cases 1 (length xs)); [apply F, nth_In; auto|rewrite nth_overflow by auto; unfold byte; lia]].
    apply F, nth_In. rewrite L. destruct op; cbn; lia. }
  unfold small_f. generalize dependent (nth 0 xs 0). generalize dependent (nth 1 xs 0). intros y By x Bx.
  destruct op; cbn [ir_call]; try apply mod_byte; apply byte_land; apply byte_land in Bx, By.
  - rewrite <- Z.land_assoc, By. reflexivity.
  - rewrite Z.land_lor_distr_l, Bx, By. reflexivity.
Qed.
Theorem C87_small h h' ia oa A op o wi wo I : arch_assemblers h h' ia oa -> adt_arch (basic_class ia oa) [] = Ok A ->
  word_assemblers (small_ins op) o wi wo -> adt_instr (word_class (small_ins op) o (small_f op) wi wo) = Ok I ->
  forall k simple, solvable k ia oa A I simple <-> op = Add \/ op = Mul.
Proof.
  intros Aa EA Wa EI k simple. rewrite <- small_one. apply (C87_found h h' ia oa A (small_ins op) o (small_f op) wi wo I); auto.
  apply small_words.
Qed.

(** ** [Multi] with one instruction finds the same, where it has a say: without Const
    inputs. *)
Lemma counts n : data_count (repeat false n) = n /\ const_count (repeat false n) = 0%nat.
Proof. unfold data_count, const_count. induction n as [|n [IH1 IH2]]; cbn; auto. Qed.
Lemma arrange (gs : list string) g : NoDup gs -> (length gs <= 2)%nat -> In g gs ->
  exists s1, forall d, bimm d -> code_ok gs 0 [(d, Some (IRin g), s1)] /\ forall g', In g' gs -> once [(d, Some (IRin g), s1)] g'.
Proof.
  intros N L I. destruct gs as [|a [|b [|? ?]]]; [destruct I| | |cbn in L; lia].
  - destruct I as [<-|[]]. exists None. intros d B. split; [cbn; auto|]. intros g' [<-|[]]. exists 0%nat, "r0". split; [left; reflexivity|]. intros j fl [[= <- <-]|[X|[]]]; auto; discriminate X.
  - assert (a <> b) as Nab by (inversion N as [|? ? N1 _]; subst; intros ->; apply N1; left; auto).
    assert (forall u v, In u [a; b] -> In v [a; b] -> u <> v -> (forall g', In g' [a; b] -> g' = u \/ g' = v) -> forall d, bimm d -> code_ok [a; b] 0 [(d, Some (IRin u), Some (IRin v))] /\ forall g', In g' [a; b] -> once [(d, Some (IRin u), Some (IRin v))] g') as X.
    { intros u v Iu Iv Nuv All d B. split; [cbn [code_ok okp]; auto|]. intros g' Ig. destruct (All g' Ig) as [-> | ->].
      - exists 0%nat, "r0". split; [left; reflexivity|]. intros j fl [[= <- <-]|[[= E _ _]|[]]]; auto; congruence.
      - exists 0%nat, "r1". split; [right; left; reflexivity|]. intros j fl [[= E _ _]|[[= <- <-]|[]]]; auto; congruence. }
    destruct I as [<-|[<-|[]]]; [exists (Some (IRin b))|exists (Some (IRin a))]; apply X; cbn; auto; intros g' [<-|[<-|[]]]; auto.
Qed.
Lemma list_two (gs : list string) : length gs = 2%nat -> exists a b, gs = [a; b].
Proof. destruct gs as [|a [|b [|? ?]]]; try discriminate. eauto. Qed.

Definition operand (gs : list string) (s : option mpath) (xs : list Z) (v : Z) : Z := match s with Some (IRin g) => nth (index_of g gs) xs 0 | _ => v end.

Theorem C87_multi h a gs o f k real : instruction_assembler h a -> NoDup gs ->
  (found a (word_ir gs o f) k real 1 <-> one_instruction (repeat false (length gs)) f).
Proof.
  intros As ND. rewrite (found_code h a gs o f k real 1 As ND). destruct (counts (length gs)) as [Cd Cc].
  assert (byte 0 /\ byte 1) as [Z0 Z1] by (unfold byte; lia). unfold one_instruction. rewrite Cd, Cc. split.
  - intros (_ & c & q & Lc & Ok_ & On & Hq & Cm). destruct c as [|[[d s0] s1] [|? ?]]; try discriminate Lc. clear Lc. cbn [code_ok] in Ok_. destruct Ok_ as (Bd & O0 & O1 & _).
    assert (forall s, okp gs 0 s -> s = None \/ exists g, s = Some (IRin g) /\ In g gs) as Src.
    { intros [[g|g|j g|j g]|]; cbn [okp]; try tauto; [eauto|lia]. }
    assert (forall fl s g, okp gs 0 s -> In g gs -> (s, Ain 0 fl) = (Some (IRin g), Ain 0 fl) -> s = Some (IRin g)) as _ by (intros; congruence).
    assert (forall g, In g gs -> s0 = Some (IRin g) \/ s1 = Some (IRin g)) as In01.
    { intros g Ig. destruct (On g Ig) as (j & fl & J & _). cbn [srcs In] in J. destruct J as [J|[J|[]]]; injection J as <- _ _; auto. }
    assert (forall g, In g gs -> s0 = Some (IRin g) -> s1 <> Some (IRin g)) as Diff.
    { intros g Ig E0 E1. destruct (On g Ig) as (j & fl & _ & U). destruct (U 0%nat "r0") as [_ X0]; [left; congruence|]. destruct (U 0%nat "r1") as [_ X1]; [right; left; congruence|]. congruence. }
    split.
    { destruct gs as [|g0 [|g1 [|g2 gs]]]; cbn; try lia. exfalso. inversion ND as [|? ? N0 ND1]; subst. inversion ND1 as [|? ? N1 _]; subst.
      assert (g0 <> g1 /\ g0 <> g2 /\ g1 <> g2) as (D1 & D2 & D3) by (repeat split; intros ->; [apply N0|apply N0|apply N1]; cbn; auto).
      destruct (In01 g0) as [X|X]; [cbn; auto| |]; destruct (In01 g1) as [Y|Y]; try (cbn; auto; fail); destruct (In01 g2) as [W|W]; try (cbn; auto; fail); congruence. }
    split; [lia|].
    (* the values of the operands *)
    assert (forall xs v0 v1, words_like (repeat false (length gs)) xs -> byte v0 -> byte v1 -> f xs = if String.eqb q "0" then bsem d (operand gs s0 xs v0) (operand gs s1 xs v1) else operand gs s0 xs v0) as E.
    { intros xs v0 v1 [L F] B0 B1. rewrite repeat_length in L.
      assert (map (fun g => nth (index_of g gs) xs 0) gs = xs) as Ex by now apply assign.
      rewrite <- Ex at 1. rewrite <- (Cm (fun g => nth (index_of g gs) xs 0) (fun _ fl => if String.eqb fl "r0" then v0 else v1)).
      - cbn [length Nat.sub srun app nth]. assert (forall s v fl, okp gs 0 s -> (if String.eqb fl "r0" then v0 else v1) = v ->
          sval (fun g => nth (index_of g gs) xs 0) (fun _ fl => if String.eqb fl "r0" then v0 else v1) 0 fl [] s = operand gs s xs v) as V.
        { intros s v fl Os Ev. destruct (Src s Os) as [-> |(g & -> & _)]; cbn [sval operand]; auto. }
        rewrite (V s0 v0 "r0" O0 eq_refl), (V s1 v1 "r1" O1 eq_refl). destruct (String.eqb q "0"); reflexivity.
      - intros g Ig. rewrite Forall_forall in F. apply F. apply nth_In. rewrite L. now apply index_lt.
      - intros i fl _ [-> | ->]; cbn; auto. }
    assert (words_like (repeat false (length gs)) (repeat 1 (length gs))) as W1.
    { split; [now rewrite !repeat_length|]. apply Forall_forall. intros z Iz. apply repeat_spec in Iz. subst z. exact Z1. }
    assert (forall s, okp gs 0 s -> operand gs s (repeat 1 (length gs)) 1 = 1) as Op1.
    { intros s Os. destruct (Src s Os) as [-> |(g & -> & Ig)]; cbn [operand]; auto. apply nth_repeat_lt. now apply index_lt. }
    destruct Hq as [-> | ->]; cbn [String.eqb Ascii.eqb Bool.eqb] in E.
    + destruct d as [| |i|i].
      3: { right; right; right. split; [lia|]. exists i. split; [exact Bd|]. left. intros xs W. now rewrite (E xs 0 0 W Z0 Z0). }
      3: { destruct (Src s0 O0) as [-> |(g & -> & Ig)].
           - exfalso. pose proof (E _ 0 0 W1 Z0 Z0) as E1. pose proof (E _ 1 0 W1 Z1 Z0) as E2. cbn [operand bsem] in E1, E2. rewrite E1 in E2. clear - E2. Z.to_euclidean_division_equations. lia.
           - right; right; right. split; [lia|]. exists i. split; [exact Bd|]. right. exists (index_of g gs). split.
             + pose proof (index_lt g gs Ig) as Li. pose proof (nth_error_nth' (repeat false (length gs)) false (n := index_of g gs)) as X. rewrite repeat_length in X. rewrite X by auto. now rewrite nth_repeat_lt.
             + intros xs W. now rewrite (E xs 0 0 W Z0 Z0). }
      all: assert (exists g, s0 = Some (IRin g) /\ In g gs) as (g0 & -> & I0)
        by (destruct (Src s0 O0) as [-> |X]; auto; exfalso; pose proof (E _ 0 1 W1 Z0 Z1) as E1; pose proof (E _ 1 1 W1 Z1 Z1) as E2; rewrite (Op1 s1 O1) in E1, E2; cbn [operand] in E1, E2; rewrite E1 in E2; discriminate E2).
      all: assert (exists g, s1 = Some (IRin g) /\ In g gs) as (g1 & -> & I1)
        by (destruct (Src s1 O1) as [-> |X]; auto; exfalso; pose proof (E _ 1 0 W1 Z1 Z0) as E1; pose proof (E _ 1 1 W1 Z1 Z1) as E2; rewrite (Op1 _ O0) in E1, E2; cbn [operand] in E1, E2; rewrite E1 in E2; discriminate E2).
      all: assert (g0 <> g1) as N01 by (intros ->; exact (Diff g1 I1 eq_refl eq_refl)).
      all: assert (gs = [g0; g1] \/ gs = [g1; g0]) as Eg.
      1, 3: assert (forall g, In g gs -> g = g0 \/ g = g1) as All by (intros g Ig; destruct (In01 g Ig) as [[= ->]|[= ->]]; auto).
      1, 2: clear - ND I0 I1 N01 All; destruct gs as [|u [|v [|w r]]]; [destruct I0|destruct I0 as [<-|[]], I1 as [<-|[]]; congruence| |].
      1, 3: destruct I0 as [<-|[<-|[]]], I1 as [<-|[<-|[]]]; auto; congruence.
      1, 2: exfalso; inversion ND as [|? ? N0 ND1]; subst; inversion ND1 as [|? ? N1 _]; subst; cbn in N0, N1;
            destruct (All u), (All v), (All w); cbn; auto; subst; intuition congruence.
      all: left; destruct Eg as [-> | ->]; (split; [reflexivity|]).
      1, 2: left. 3, 4: right.
      all: intros x y Bx By; assert (words_like (repeat false (length [g0; g1])) [x; y]) as W by (split; [reflexivity|constructor; [exact Bx|constructor; [exact By|constructor]]]).
      all: rewrite (E [x; y] 0 0 W Z0 Z0); cbn [operand bsem index_of]; rewrite ?String.eqb_refl; rewrite ?(proj2 (String.eqb_neq g0 g1) N01); rewrite ?(proj2 (String.eqb_neq g1 g0) (not_eq_sym N01)); cbn [nth].
      all: rewrite ?(Z.add_comm y x), ?(Z.mul_comm y x); reflexivity.
    + destruct (Src s0 O0) as [-> |(g & -> & Ig)].
      * exfalso. pose proof (E _ 0 0 W1 Z0 Z0) as E1. pose proof (E _ 1 0 W1 Z1 Z0) as E2. cbn [operand] in E1, E2. lia.
      * right; left. exists (index_of g gs). split; [rewrite repeat_length; now apply index_lt|]. intros xs W. now rewrite (E xs 0 0 W Z0 Z0).
  - intros (L2 & _ & H). split; [lia|].
    assert (forall (x : string -> Z), (forall g, In g gs -> byte (x g)) -> words_like (repeat false (length gs)) (map x gs)) as Wx.
    { intros x Hx. split; [now rewrite map_length, repeat_length|]. apply Forall_forall. intros z Iz. apply in_map_iff in Iz as (g & <- & Ig). auto. }
    assert (forall i, (i < length gs)%nat -> exists g, In g gs /\ forall x : string -> Z, nth i (map x gs) 0 = x g) as At.
    { intros i Li. destruct (nth_error gs i) as [g|] eqn:Eg. 2: { apply nth_error_None in Eg. lia. } exists g. split; [eapply nth_error_In; eauto|].
      intros x. apply nth_error_nth. now rewrite nth_error_map, Eg. }
    assert (forall i, nth_error (repeat false (length gs)) i = Some false -> (i < length gs)%nat) as Lt.
    { intros i Ei. rewrite <- (repeat_length false (length gs)). apply nth_error_Some. congruence. }
    destruct H as [(Ecs & H)|[(i & Li & H)|[(i & j & _ & Ej & _)|(_ & kk & Bk & [H|(i & Ei & H)])]]].
    + destruct (list_two gs) as (u & v & Eg). { rewrite <- (repeat_length false (length gs)), Ecs. reflexivity. } subst gs.
      assert (u <> v) as Nuv by (inversion ND as [|? ? N1 _]; subst; intros ->; apply N1; left; auto).
      destruct H as [H|H]; [exists [(BAdd, Some (IRin u), Some (IRin v))], "0"|exists [(BMul, Some (IRin u), Some (IRin v))], "0"]; (split; [reflexivity|]; split; [cbn; auto 6|]; split; [|split; [auto|]]).
      1, 3: intros g' [<-|[<-|[]]]; [exists 0%nat, "r0"; split; [left; reflexivity|]; intros j fl [[= <- <-]|[[= X _ _]|[]]]; auto; congruence
                                   |exists 0%nat, "r1"; split; [right; left; reflexivity|]; intros j fl [[= X _ _]|[[= <- <-]|[]]]; auto; congruence].
      all: intros x w Hx _; cbn [length Nat.sub srun app nth sval map]; cbn [String.eqb Ascii.eqb Bool.eqb bsem]; symmetry; apply H; apply Hx; cbn; auto.
    + rewrite repeat_length in Li. destruct (At i Li) as (g & Ig & Hg). destruct (arrange gs g ND L2 Ig) as (s1 & Ar). destruct (Ar (BAddi 0)) as [A1 A2]; [cbn; lia|].
      exists [(BAddi 0, Some (IRin g), s1)], "1". split; [reflexivity|]. split; auto. split; auto. split; auto. intros x w Hx _. cbn [length Nat.sub srun app nth sval]. cbn [String.eqb Ascii.eqb Bool.eqb].
      now rewrite H, Hg by auto.
    + exfalso. apply nth_error_In, repeat_spec in Ej. discriminate Ej.
    + destruct gs as [|g gs'] eqn:Eg.
      * exists [(BLd kk, None, None)], "0". split; [reflexivity|]. split; [cbn; auto|]. split; [intros g []|]. split; auto. intros x w Hx _. cbn [length Nat.sub srun app nth sval map]. cbn [String.eqb Ascii.eqb Bool.eqb bsem].
        symmetry. apply H. split; [reflexivity|constructor].
      * rewrite <- Eg in *. assert (In g gs) as Ig by (rewrite Eg; left; auto). destruct (arrange gs g ND L2 Ig) as (s1 & Ar). destruct (Ar (BLd kk)) as [A1 A2]; [exact Bk|].
        exists [(BLd kk, Some (IRin g), s1)], "0". split; [reflexivity|]. split; auto. split; auto. split; auto. intros x w Hx _. cbn [length Nat.sub srun app nth]. cbn [String.eqb Ascii.eqb Bool.eqb bsem].
        symmetry. apply H. auto.
    + destruct (At i (Lt i Ei)) as (g & Ig & Hg). destruct (arrange gs g ND L2 Ig) as (s1 & Ar). destruct (Ar (BAddi kk)) as [A1 A2]; [exact Bk|].
      exists [(BAddi kk, Some (IRin g), s1)], "0". split; [reflexivity|]. split; auto. split; auto. split; auto. intros x w Hx _. cbn [length Nat.sub srun app nth sval]. cbn [String.eqb Ascii.eqb Bool.eqb bsem].
      now rewrite H, Hg by auto.
Qed.

(** So the two mappers agree on instructions without Const inputs. *)
Lemma repeat_false (gs : list string) : map snd (map (fun g => (fk g, false)) gs) = repeat false (length gs).
Proof. induction gs as [|g gs IH]; cbn; auto. now rewrite IH. Qed.
Theorem C87_agree h h' ia oa A hm a gs o f wi wo I : arch_assemblers h h' ia oa -> adt_arch (basic_class ia oa) [] = Ok A ->
  instruction_assembler hm a -> NoDup gs ->
  word_assemblers (map (fun g => (fk g, false)) gs) (fk o) wi wo -> returns_words (length gs) f ->
  adt_instr (word_class (map (fun g => (fk g, false)) gs) (fk o) f wi wo) = Ok I ->
  forall k simple k' real, solvable k ia oa A I simple <-> found a (word_ir gs o f) k' real 1.
Proof.
  intros Aa EA As ND Wa Hf EI k simple k' real. rewrite (C87_multi hm a gs o f k' real As ND), <- repeat_false.
  apply (C87_found h h' ia oa A (map (fun g => (fk g, false)) gs) (fk o) f wi wo I); auto. now rewrite map_length.
Qed.

(** ** Cases *)
Definition asm_after (h : list ty) (t : ty) : asm := match build (run_history ps0 h) t with Ok (a, _) => a | Err _ => AField TBit 0 end.
Definition case_ia := asm_after [ex_imm; ri_inst] basic_in_t.
Definition case_oa := asm_after [] basic_out_t.
Example C87_case : arch_assemblers [ex_imm; ri_inst] [] case_ia case_oa.
Proof.
  assert (Forall wf_ty [basic_in_t; ex_imm; ri_inst]) as W by (apply wf_all_b; vm_compute; reflexivity).
  split; [exact W|]. split; [apply same_width_zero, same_width_ok_spec; [exact W|vm_compute; reflexivity]|]. split; [eexists; vm_compute; reflexivity|].
  split; [apply wf_all_b; vm_compute; reflexivity|eexists; vm_compute; reflexivity].
Qed.
Definition word_t (ins : list (key * bool)) : ty := TProd "Input" (map (fun e => (fst e, TBV 8)) ins).
Definition res_t (o : key) : ty := TProd "Output" [(o, TBV 8)].
Example C87_case_words ins : In ins [add_ins; inc_ins; const_ins; small_ins Add; small_ins Neg; [(fk "a", false); (fk "c", true)]; [(fk "c", true); (fk "d", true)]; [(fk "a", false); (fk "b", false); (fk "c", false)]] ->
  word_assemblers ins (fk "0") (asm_after [basic_inst] (word_t ins)) (asm_after [] (res_t (fk "0"))).
Proof.
  intros H. exists [basic_inst], []. cbn [In] in H.
  repeat (destruct H as [<-|H]; [split; [apply wf_all_b; vm_compute; reflexivity|]; split; [eexists; vm_compute; reflexivity|]; split; [apply wf_all_b; vm_compute; reflexivity|eexists; vm_compute; reflexivity]|]). destruct H.
Qed.

(** a + c with a Const c is found. The sum of two Consts, x + x, the instruction of
    test_multi, and a Const when there are three of them are not. *)
Definition sum_f (xs : list Z) : Z := bvadd 8 (nth 0 xs 0) (nth 1 xs 0).
Example C87_immediate : one_instruction [false; true] sum_f.
Proof. split; [cbn; lia|]. split; [cbn; lia|]. right; right; left. exists 0%nat, 1%nat. split; [reflexivity|]. split; [reflexivity|]. intros xs _. reflexivity. Qed.
Example C87_two_consts : ~ one_instruction [true; true] sum_f.
Proof.
  intros (_ & _ & H). assert (forall x y, byte x -> byte y -> words_like [true; true] [x; y]) as W by (intros x y Bx By; split; [reflexivity|constructor; [exact Bx|constructor; [exact By|constructor]]]).
  assert (byte 0 /\ byte 1) as (B0 & B1) by (unfold byte; lia).
  destruct H as [(X & _)|[(i & Li & X)|[(i & j & Ei & _)|(L & _)]]].
  - discriminate X.
  - pose proof (X [0; 1] (W 0 1 B0 B1)) as E1. pose proof (X [1; 0] (W 1 0 B1 B0)) as E2. destruct i as [|[|i]]; [| |cbn in Li; lia]; vm_compute in E1, E2; discriminate.
  - destruct i as [|[|i]]; try discriminate Ei. destruct i; discriminate Ei.
  - cbn in L. lia.
Qed.
Example C87_double : ~ one_instruction [false] (fun xs => bvadd 8 (nth 0 xs 0) (nth 0 xs 0)).
Proof.
  intros (_ & _ & H). assert (forall x, byte x -> words_like [false] [x]) as W by (intros x Bx; split; [reflexivity|constructor; [exact Bx|constructor]]).
  assert (byte 0 /\ byte 1 /\ byte 2) as (B0 & B1 & B2) by (unfold byte; lia).
  destruct H as [(X & _)|[(i & Li & X)|[(i & j & _ & Ej & _)|(_ & k & Bk & [X|(i & Ei & X)])]]].
  - discriminate X.
  - destruct i as [|i]; [|cbn in Li; lia]. specialize (X [1] (W 1 B1)). vm_compute in X. discriminate X.
  - destruct j as [|j]; try discriminate Ej. destruct j; discriminate Ej.
  - pose proof (X [0] (W 0 B0)) as E1. pose proof (X [1] (W 1 B1)) as E2. vm_compute in E1, E2. congruence.
  - destruct i as [|i]; [|destruct i; discriminate Ei]. pose proof (X [0] (W 0 B0)) as E1. pose proof (X [1] (W 1 B1)) as E2. cbn [nth] in E1, E2.
    change (bvadd 8 0 0) with 0 in E1. change (bvadd 8 1 1) with 2 in E2. unfold byte in Bk. rewrite Z.add_0_l, Z.mod_small in E1 by lia. subst k. discriminate E2.
Qed.
Example C87_three f : ~ one_instruction [false; false; false] f /\ ~ one_instruction [true; true; true] f.
Proof. split; intros (H1 & H2 & _); cbn in H1, H2; lia. Qed.

Print Assumptions C87_builds.
Print Assumptions C87_found.
Print Assumptions C87_test.
Print Assumptions C87_small.
Print Assumptions C87_multi.
Print Assumptions C87_agree.
Print Assumptions C87_case.
Print Assumptions C87_case_words.
Print Assumptions C87_immediate.
Print Assumptions C87_two_consts.
Print Assumptions C87_double.
Print Assumptions C87_three.
