(** C56, C65, C66: the Pico processor. *)
From Coq Require Import ZArith List Bool Lia.
From Verif Require Import Base BaseLemmas BvModel BvLemmas PeProps PicoModel.
Import ListNotations.
Open Scope Z_scope.

(** ** Meanings, on integers *)

(** Content of a register, and states a Pico can be in. *)
Definition reg (s : pico) (r : Z) : Z := nth (Z.to_nat r) (regs s) 0.
Definition is_reg (r : Z) : Prop := 0 <= r < 16.
Definition wf (s : pico) : Prop := word (pc s) /\ length (regs s) = 16%nat /\ Forall word (regs s).

(** [s'] differs from [s] in register [ra], which holds [v], only. *)
Definition sets (s s' : pico) (ra v : Z) : Prop :=
  forall r, is_reg r -> reg s' r = if r =? ra then v else reg s r.
Definition same_regs (s s' : pico) : Prop := forall r, is_reg r -> reg s' r = reg s r.
Definition same_flags (s s' : pico) : Prop :=
  fZ s' = fZ s /\ fN s' = fN s /\ fC s' = fC s /\ fV s' = fV s.

(** The number an arithmetic instruction computes: [Adc] adds the carry flag,
    [Sbc] subtracts it (tests/test_pico.py expects [x - y] for a clear flag). *)
Definition exact (op : arith_op) (a b : Z) (c : bool) : Z :=
  match op with
  | pAdd => a + b
  | pSub => a - b
  | pAdc => a + b + (if c then 1 else 0)
  | pSbc => a - b - (if c then 1 else 0)
  end.

(** Carry: out of the top bit for additions, no borrow for subtractions. *)
Definition carry (op : arith_op) (a b : Z) (c : bool) : bool :=
  match op with
  | pAdd | pAdc => 65536 <=? exact op a b c
  | pSub | pSbc => 0 <=? exact op a b c
  end.

(** Overflow: the same number on signed operands is not a signed word. *)
Definition signed_overflow (op : arith_op) (a b : Z) (c : bool) : bool :=
  out_of_range (exact op (sval a) (sval b) c).

(** The comparison a condition names. *)
Definition cmp (k : pcond) (a b : Z) : option bool :=
  match k with
  | kZ => Some (a =? b)
  | kZ_n => Some (negb (a =? b))
  | kC => Some (b <=? a)
  | kC_n => Some (a <? b)
  | kUGT => Some (b <? a)
  | kULE => Some (a <=? b)
  | kSGE => Some (sval b <=? sval a)
  | kSLT => Some (sval a <? sval b)
  | kSGT => Some (sval b <? sval a)
  | kSLE => Some (sval a <=? sval b)
  | _ => None
  end.
Definition is_signed (k : pcond) : bool :=
  match k with kSGE | kSLT | kSGT | kSLE => true | _ => false end.

(** Condition [k] as the processor evaluates it in state [s]: what decides a jump. *)
Definition holds (k : pcond) (s : pico) : bool := pcond_holds k (fZ s) (fN s) (fC s) (fV s).

(** ** Lemmas *)

Lemma reg_word s r : wf s -> is_reg r -> word (reg s r).
Proof.
  intros (_ & L & F) R. unfold reg. rewrite Forall_forall in F. apply F.
  apply nth_In. rewrite L. unfold is_reg in R. lia.
Qed.

Lemma rget_ok s r : wf s -> is_reg r -> rget (regs s) r = Ok (reg s r).
Proof.
  intros (_ & L & F) R. unfold rget, reg. rewrite (nth_error_nth' _ 0); [reflexivity|].
  rewrite L. unfold is_reg in R. lia.
Qed.

Lemma upd_nth l n v m d : (n < length l)%nat ->
  nth m (upd l n v) d = if Nat.eqb m n then v else nth m l d.
Proof.
  revert n m. induction l as [|x l IH]; intros n m H; [inversion H|].
  destruct n, m; cbn [upd nth Nat.eqb]; try reflexivity.
  apply IH. cbn [length] in H. lia.
Qed.

Lemma upd_length l n v : length (upd l n v) = length l.
Proof. revert n. induction l as [|x l IH]; intros [|n]; cbn [upd length]; auto. Qed.

Lemma upd_Forall P l n v : Forall P l -> P v -> Forall P (upd l n v).
Proof.
  intros F V. revert n. induction F; intros [|n]; cbn [upd]; constructor; auto.
Qed.

Lemma rset_ok s r v : wf s -> is_reg r -> word v ->
  exists rs, rset (regs s) r v = Ok rs /\ length rs = 16%nat /\ Forall word rs /\
    forall q, is_reg q -> nth (Z.to_nat q) rs 0 = if q =? r then v else reg s q.
Proof.
  intros (_ & L & F) R V. unfold rset. unfold is_reg in R.
  rewrite (nth_error_nth' _ 0) by (rewrite L; lia). eexists. split; [reflexivity|].
  rewrite upd_length. split; [exact L|]. split; [apply upd_Forall; auto|].
  intros q Q. unfold is_reg in Q. rewrite upd_nth by (rewrite L; lia). unfold reg.
  destruct (Z.eqb_spec q r) as [->|N]; [rewrite Nat.eqb_refl; reflexivity|].
  destruct (Nat.eqb_spec (Z.to_nat q) (Z.to_nat r)); [lia|reflexivity].
Qed.

Lemma next_pc s : bvadd 16 (pc s) 1 = (pc s + 1) mod 65536.
Proof. reflexivity. Qed.

Lemma arith_spec op a b c : word a -> word b ->
  arith op a b c = (exact op a b c mod 65536, carry op a b c).
Proof.
  intros A B. destruct op; cbn [arith exact carry].
  - rewrite adc_spec by auto. cbn [b2z]. rewrite Z.add_0_r. reflexivity.
  - rewrite sub_adc by auto. f_equal. zcases.
  - rewrite adc_spec by auto. destruct c; reflexivity.
  - rewrite bvnot16 by auto. unfold word in *. rewrite adc_spec by (unfold word; lia).
    f_equal; [|destruct c; cbn [negb b2z]; zcases].
    rewrite <- (Z.mod_add (a - b - (if c then 1 else 0)) 1) by discriminate.
    f_equal. destruct c; cbn [negb b2z]; lia.
Qed.

Lemma logic_word op a b : word a -> word b -> word (logic op a b).
Proof.
  intros A B. destruct op; cbn [logic]; auto.
  - apply (land_range 16); auto; lia.
  - apply (lor_range 16); auto; lia.
  - apply (lxor_range 16); auto; lia.
Qed.

Lemma fetch_ok mem s i : wf s -> pc s < 256 -> nth_error mem (Z.to_nat (pc s)) = Some i ->
  fetch mem (pc s) = Ok i.
Proof. intros W L N. unfold fetch. apply Z.ltb_lt in L. rewrite L, N. reflexivity. Qed.

(** ** One step (C65) *)

(** Instructions whose fields fit. *)
Definition inst_ok (i : pinst) : Prop :=
  match i with
  | ILogic _ ra rb | IArith _ ra rb => is_reg ra /\ is_reg rb
  | IMem _ ra imm => is_reg ra /\ 0 <= imm < 256
  | ICtl _ imm _ => 0 <= imm < 256
  | IWord w => word w
  end.

(** What an instruction does: registers, flags, the next address and what is
    printed. V is described for additions only here, see C56. *)
Definition means (i : pinst) (s s' : pico) (out : list Z) : Prop :=
  match i with
  | ILogic op ra rb =>
      let a := reg s ra in
      let b := reg s rb in
      exists v, word v /\ sets s s' ra v /\
        (forall k, 0 <= k ->
           Z.testbit v k = match op with
                           | pMov => Z.testbit b k
                           | pAnd => Z.testbit a k && Z.testbit b k
                           | pOr => Z.testbit a k || Z.testbit b k
                           | pXOr => xorb (Z.testbit a k) (Z.testbit b k)
                           end) /\
        fZ s' = (v =? 0) /\ fN s' = (32768 <=? v) /\ fC s' = fC s /\ fV s' = fV s /\
        pc s' = (pc s + 1) mod 65536 /\ out = []
  | IArith op ra rb =>
      let a := reg s ra in
      let b := reg s rb in
      let v := exact op a b (fC s) mod 65536 in
      sets s s' ra v /\ fZ s' = (v =? 0) /\ fN s' = (32768 <=? v) /\
      fC s' = carry op a b (fC s) /\
      (op = pAdd \/ op = pAdc -> fV s' = signed_overflow op a b (fC s)) /\
      pc s' = (pc s + 1) mod 65536 /\ out = []
  | IMem pLDLO ra imm =>
      sets s s' ra imm /\ same_flags s s' /\ pc s' = (pc s + 1) mod 65536 /\ out = []
  | IMem pLDHI ra imm =>
      sets s s' ra (imm * 256) /\ same_flags s s' /\ pc s' = (pc s + 1) mod 65536 /\ out = []
  | IMem pST ra imm =>
      same_regs s s' /\ same_flags s s' /\ pc s' = (pc s + 1) mod 65536 /\
      out = if imm =? 0 then [reg s ra] else []
  | ICtl op imm k =>
      same_flags s s' /\ out = [] /\
      if holds k s then
        match op with
        | pJump => same_regs s s' /\ pc s' = imm
        | pCall => sets s s' 15 ((pc s + 1) mod 65536) /\ pc s' = imm
        | pReturn => same_regs s s' /\ pc s' = reg s 15
        end
      else same_regs s s' /\ pc s' = (pc s + 1) mod 65536
  | IMem pLD _ _ | IWord _ => False
  end.

Definition executable (i : pinst) : Prop :=
  match i with IMem pLD _ _ | IWord _ => False | _ => True end.

(** C65: in every well-formed state each instruction at the program counter does
    what the instruction set says and leads to a well-formed state. *)
Definition C65_full : Prop := forall mem s i,
  wf s -> pc s < 256 -> nth_error mem (Z.to_nat (pc s)) = Some i -> inst_ok i ->
  exists s' out, step mem s = Ok (s', out) /\ wf s' /\ means i s s' out.

(** Missing for C65: LD, which is encoded but not implemented (and words that
    are not instructions). *)
Theorem C65_step_partial : forall mem s i,
  wf s -> pc s < 256 -> nth_error mem (Z.to_nat (pc s)) = Some i -> inst_ok i ->
  executable i ->
  exists s' out, step mem s = Ok (s', out) /\ wf s' /\ means i s s' out.
Proof.
  intros mem s i W P N I X. unfold step. rewrite (fetch_ok _ _ _ W P N). cbn [bind].
  assert (WP : word ((pc s + 1) mod 65536)) by apply word_mod.
  destruct i as [op ra rb|op ra rb|op ra imm|op imm k|w]; cbn [inst_ok] in I.
  - destruct I as [Ra Rb]. unfold step_logic. rewrite !rget_ok by auto. cbn [bind].
    pose proof (logic_word op _ _ (reg_word s ra W Ra) (reg_word s rb W Rb)) as V.
    destruct (rset_ok s ra _ W Ra V) as (rs & E & L & F & G). rewrite E. cbn [bind].
    eexists _, _. split; [reflexivity|]. split; [split; [exact WP|split; assumption]|].
    cbn [means]. exists (logic op (reg s ra) (reg s rb)). split; [exact V|].
    split; [exact G|]. split.
    { intros k K. destruct op; cbn [logic]; auto using Z.land_spec, Z.lor_spec, Z.lxor_spec. }
    cbn [fZ fN fC fV pc]. rewrite bit15 by exact V. repeat split.
  - destruct I as [Ra Rb]. unfold step_arith. rewrite !rget_ok by auto. cbn [bind].
    pose proof (reg_word s ra W Ra) as A. pose proof (reg_word s rb W Rb) as B.
    rewrite arith_spec by auto.
    destruct (rset_ok s ra _ W Ra (word_mod (exact op (reg s ra) (reg s rb) (fC s))))
      as (rs & E & L & F & G). rewrite E. cbn [bind].
    eexists _, _. split; [reflexivity|]. split; [split; [exact WP|split; assumption]|].
    cbn [means]. split; [exact G|]. cbn [fZ fN fC fV pc].
    rewrite bit15 by apply word_mod. refine (conj eq_refl (conj eq_refl (conj eq_refl (conj _ (conj eq_refl eq_refl))))).
    intros [->| ->]; unfold signed_overflow; cbn [exact].
    + apply add_flags; auto.
    + unfold overflow. change (16 - 1) with 15. rewrite !bit15 by (auto; apply word_mod).
      unfold word in *. rewrite mod16_cases by (destruct (fC s); lia).
      unfold negative, out_of_range, sval. destruct (fC s); zcases.
  - destruct I as [Ra Im]. unfold step_mem.
    assert (W1 : wrap 16 imm = imm) by (apply wrap_small; lia).
    assert (W2 : wrap 16 (Z.shiftl imm 8) = imm * 256).
    { rewrite Z.shiftl_mul_pow2 by lia. apply wrap_small. rewrite P16. lia. }
    destruct op; [| |contradiction X|].
    + rewrite W1. destruct (rset_ok s ra imm W Ra ltac:(unfold word; lia)) as (rs & E & L & F & G).
      rewrite E. cbn [bind]. eexists _, _. split; [reflexivity|].
      split; [split; [exact WP|split; assumption]|]. cbn [means].
      split; [exact G|]. split; [repeat split|]. split; reflexivity.
    + rewrite W2. destruct (rset_ok s ra (imm * 256) W Ra ltac:(unfold word; lia)) as (rs & E & L & F & G).
      rewrite E. cbn [bind]. eexists _, _. split; [reflexivity|].
      split; [split; [exact WP|split; assumption]|]. cbn [means].
      split; [exact G|]. split; [repeat split|]. split; reflexivity.
    + destruct (imm =? 0) eqn:Q.
      * rewrite rget_ok by auto. cbn [bind]. eexists _, _. split; [reflexivity|].
        split; [split; [exact WP|apply W]|]. cbn [means]. rewrite Q.
        split; [intros r R; reflexivity|]. split; [repeat split|]. split; reflexivity.
      * eexists _, _. split; [reflexivity|].
        split; [split; [exact WP|apply W]|]. cbn [means]. rewrite Q.
        split; [intros r R; reflexivity|]. split; [repeat split|]. split; reflexivity.
  - unfold step_ctl. cbn [means]. fold (holds k s).
    assert (W1 : wrap 16 imm = imm) by (apply wrap_small; lia). rewrite W1.
    assert (R15 : is_reg 15) by (unfold is_reg; lia).
    destruct (holds k s).
    + destruct op.
      * eexists _, _. split; [reflexivity|].
        split; [split; [unfold word; cbn [pc]; lia|apply W]|].
        split; [repeat split|]. split; [reflexivity|].
        split; [intros r R; reflexivity|reflexivity].
      * rewrite next_pc. destruct (rset_ok s 15 _ W R15 WP) as (rs & E & L & F & G).
        rewrite E. cbn [bind]. eexists _, _. split; [reflexivity|].
        split; [split; [unfold word; cbn [pc]; lia|split; assumption]|].
        split; [repeat split|]. split; [reflexivity|]. split; [exact G|reflexivity].
      * rewrite rget_ok by auto. cbn [bind]. eexists _, _. split; [reflexivity|].
        split; [split; [apply (reg_word s 15 W R15)|apply W]|].
        split; [repeat split|]. split; [reflexivity|].
        split; [intros r R; reflexivity|reflexivity].
    + eexists _, _. split; [reflexivity|]. split; [split; [exact WP|apply W]|].
      split; [repeat split|]. split; [reflexivity|].
      split; [intros r R; reflexivity|reflexivity].
  - contradiction X.
Qed.

(** LD, and addresses past the memory or the program, raise. *)
Theorem C65_errors : forall mem s,
  (256 <= pc s -> step mem s = Err IndexError) /\
  (pc s < 256 -> nth_error mem (Z.to_nat (pc s)) = None -> step mem s = Err AttributeError) /\
  (forall ra imm, pc s < 256 -> nth_error mem (Z.to_nat (pc s)) = Some (IMem pLD ra imm) ->
     step mem s = Err TypeError).
Proof.
  intros mem s. unfold step, fetch. split; [|split].
  - intros H. destruct (Z.ltb_spec (pc s) 256); [lia|reflexivity].
  - intros H N. apply Z.ltb_lt in H. rewrite H, N. reflexivity.
  - intros ra imm H N. apply Z.ltb_lt in H. rewrite H, N. reflexivity.
Qed.

Theorem C65_full_refuted : ~ C65_full.
Proof.
  intros H. destruct (H [IMem pLD 1 2] pico_init (IMem pLD 1 2)) as (s' & out & E & _).
  - split; [wd|]. split; [reflexivity|]. apply Forall_forall. intros x I.
    apply repeat_spec in I. subst x. wd.
  - reflexivity.
  - reflexivity.
  - cbn [inst_ok]. unfold is_reg. lia.
  - discriminate E.
Qed.

(** Runs of any length: a program whose cells are executable runs as long as the
    program counter stays inside it, every step doing what its instruction says. *)
Inductive trace (mem : list pinst) : nat -> pico -> pico -> list Z -> Prop :=
| trace_0 s : trace mem 0 s s []
| trace_S n s i s' out s'' out' :
    nth_error mem (Z.to_nat (pc s)) = Some i -> means i s s' out ->
    trace mem n s' s'' out' -> trace mem (S n) s s'' (out ++ out').

Theorem C65_run_partial : forall mem, (length mem <= 256)%nat ->
  Forall (fun i => inst_ok i /\ executable i) mem ->
  forall n s, wf s ->
  match run mem n s with
  | Ok (s', out) => wf s' /\ trace mem n s s' out
  | Err _ =>
      exists m s' out, (m < n)%nat /\ run mem m s = Ok (s', out) /\ trace mem m s s' out /\
        nth_error mem (Z.to_nat (pc s')) = None
  end.
Proof.
  intros mem Len F n. induction n as [|n IH]; intros s W; cbn [run].
  - split; [exact W|constructor].
  - destruct (nth_error mem (Z.to_nat (pc s))) as [i|] eqn:N.
    + assert (P : pc s < 256).
      { assert (nth_error mem (Z.to_nat (pc s)) <> None) as Q by congruence.
        apply nth_error_Some in Q. destruct W as [[? ?] _]. lia. }
      destruct (proj1 (Forall_forall _ _) F i (nth_error_In _ _ N)) as [I X].
      destruct (C65_step_partial mem s i W P N I X) as (s1 & o1 & E & W1 & M).
      rewrite E. cbn [bind]. specialize (IH s1 W1).
      destruct (run mem n s1) as [[s2 o2]|e] eqn:R; cbn [bind].
      * destruct IH as [W2 T]. split; [exact W2|]. econstructor; eassumption.
      * destruct IH as (m & s3 & o3 & L & R3 & T & N3).
        exists (S m), s3, (o1 ++ o3). split; [lia|]. cbn [run]. rewrite E. cbn [bind].
        rewrite R3. cbn [bind]. split; [reflexivity|]. split; [|exact N3].
        econstructor; eassumption.
    + assert (E : exists e, step mem s = Err e).
      { unfold step, fetch. rewrite N. destruct (_ <? _); eexists; reflexivity. }
      destruct E as [e E]. rewrite E. cbn [bind].
      exists 0%nat, s, []. split; [lia|]. split; [reflexivity|]. split; [constructor|exact N].
Qed.

(** ** Multi-word arithmetic (C65) *)

(** [add] of the low words followed by [adc] of the high words is addition modulo
    2^32, whatever registers are used and whatever the flags were. *)
Theorem C65_add32 : forall mem s p al ah bl bh,
  wf s -> pc s = p -> p < 255 ->
  nth_error mem (Z.to_nat p) = Some (IArith pAdd al bl) ->
  nth_error mem (Z.to_nat (p + 1)) = Some (IArith pAdc ah bh) ->
  is_reg al -> is_reg ah -> is_reg bl -> is_reg bh -> al <> ah -> al <> bh ->
  exists s', run mem 2 s = Ok (s', []) /\
    reg s' al + 65536 * reg s' ah =
      (reg s al + 65536 * reg s ah + (reg s bl + 65536 * reg s bh)) mod 4294967296.
Proof.
  intros mem s p al ah bl bh W P L N1 N2 Ral Rah Rbl Rbh D1 D2.
  subst p.
  destruct (C65_step_partial mem s _ W ltac:(lia) N1 (conj Ral Rbl) I)
    as (s1 & o1 & E1 & W1 & M1). cbn [means] in M1.
  destruct M1 as (G1 & _ & _ & C1 & _ & P1 & O1).
  assert (P1' : pc s1 = pc s + 1).
  { rewrite P1. destruct W as [[? ?] _]. apply Z.mod_small. lia. }
  rewrite <- P1' in N2.
  destruct (C65_step_partial mem s1 _ W1 ltac:(lia) N2 (conj Rah Rbh) I)
    as (s2 & o2 & E2 & W2 & M2). cbn [means] in M2.
  destruct M2 as (G2 & _ & _ & C2 & _ & P2 & O2). subst o1 o2.
  exists s2. cbn [run]. rewrite E1. cbn [bind]. rewrite E2. cbn [bind].
  split; [reflexivity|].
  rewrite (G2 al Ral), (G2 ah Rah). rewrite Z.eqb_refl.
  destruct (Z.eqb_spec al ah); [contradiction|].
  rewrite (G1 al Ral), (G1 ah Rah), (G1 bh Rbh), Z.eqb_refl.
  destruct (Z.eqb_spec ah al); [congruence|]. destruct (Z.eqb_spec bh al); [congruence|].
  rewrite C1. cbn [carry exact].
  pose proof (reg_word s al W Ral) as Wal. pose proof (reg_word s ah W Rah) as Wah.
  pose proof (reg_word s bl W Rbl) as Wbl. pose proof (reg_word s bh W Rbh) as Wbh.
  set (xl := reg s al) in *. set (xh := reg s ah) in *.
  set (yl := reg s bl) in *. set (yh := reg s bh) in *. unfold word in *.
  rewrite (mod16_cases (xl + yl)) by lia.
  rewrite (mod16_cases (xh + yh + _)) by (destruct (65536 <=? xl + yl); lia).
  assert (Q : exists q, xl + 65536 * xh + (yl + 65536 * yh) =
    ((if xl + yl <? 0 then xl + yl + 65536 else if xl + yl <? 65536 then xl + yl else xl + yl - 65536) +
     65536 * (if xh + yh + (if 65536 <=? xl + yl then 1 else 0) <? 0 then xh + yh + (if 65536 <=? xl + yl then 1 else 0) + 65536
       else if xh + yh + (if 65536 <=? xl + yl then 1 else 0) <? 65536 then xh + yh + (if 65536 <=? xl + yl then 1 else 0)
       else xh + yh + (if 65536 <=? xl + yl then 1 else 0) - 65536)) + q * 4294967296 /\
    0 <= ((if xl + yl <? 0 then xl + yl + 65536 else if xl + yl <? 65536 then xl + yl else xl + yl - 65536) +
     65536 * (if xh + yh + (if 65536 <=? xl + yl then 1 else 0) <? 0 then xh + yh + (if 65536 <=? xl + yl then 1 else 0) + 65536
       else if xh + yh + (if 65536 <=? xl + yl then 1 else 0) <? 65536 then xh + yh + (if 65536 <=? xl + yl then 1 else 0)
       else xh + yh + (if 65536 <=? xl + yl then 1 else 0) - 65536)) < 4294967296).
  { exists (if xh + yh + (if 65536 <=? xl + yl then 1 else 0) <? 65536 then 0 else 1). zcases. }
  destruct Q as (q & Q & Rg). rewrite Q, Z.mod_add by discriminate.
  symmetry. apply Z.mod_small. exact Rg.
Qed.

(** [sub] followed by [sbc] is never the 32-bit difference: the carry flag after
    [sub] is set when there was no borrow, and [sbc] subtracts it. *)
Theorem C65_sub32_refuted : forall mem s p al ah bl bh,
  wf s -> pc s = p -> p < 255 ->
  nth_error mem (Z.to_nat p) = Some (IArith pSub al bl) ->
  nth_error mem (Z.to_nat (p + 1)) = Some (IArith pSbc ah bh) ->
  is_reg al -> is_reg ah -> is_reg bl -> is_reg bh -> al <> ah -> al <> bh ->
  exists s', run mem 2 s = Ok (s', []) /\
    reg s' al + 65536 * reg s' ah <>
      (reg s al + 65536 * reg s ah - (reg s bl + 65536 * reg s bh)) mod 4294967296.
Proof.
  intros mem s p al ah bl bh W P L N1 N2 Ral Rah Rbl Rbh D1 D2.
  subst p.
  destruct (C65_step_partial mem s _ W ltac:(lia) N1 (conj Ral Rbl) I)
    as (s1 & o1 & E1 & W1 & M1). cbn [means] in M1.
  destruct M1 as (G1 & _ & _ & C1 & _ & P1 & O1).
  assert (P1' : pc s1 = pc s + 1).
  { rewrite P1. destruct W as [[? ?] _]. apply Z.mod_small. lia. }
  rewrite <- P1' in N2.
  destruct (C65_step_partial mem s1 _ W1 ltac:(lia) N2 (conj Rah Rbh) I)
    as (s2 & o2 & E2 & W2 & M2). cbn [means] in M2.
  destruct M2 as (G2 & _ & _ & C2 & _ & P2 & O2). subst o1 o2.
  exists s2. cbn [run]. rewrite E1. cbn [bind]. rewrite E2. cbn [bind].
  split; [reflexivity|].
  rewrite (G2 al Ral), (G2 ah Rah). rewrite Z.eqb_refl.
  destruct (Z.eqb_spec al ah); [contradiction|].
  rewrite (G1 al Ral), (G1 ah Rah), (G1 bh Rbh), Z.eqb_refl.
  destruct (Z.eqb_spec ah al); [congruence|]. destruct (Z.eqb_spec bh al); [congruence|].
  rewrite C1. cbn [carry exact].
  pose proof (reg_word s al W Ral) as Wal. pose proof (reg_word s ah W Rah) as Wah.
  pose proof (reg_word s bl W Rbl) as Wbl. pose proof (reg_word s bh W Rbh) as Wbh.
  set (xl := reg s al) in *. set (xh := reg s ah) in *.
  set (yl := reg s bl) in *. set (yh := reg s bh) in *. unfold word in *.
  pose proof (Z.div_mod (xl - yl) 65536 ltac:(discriminate)) as Q1.
  pose proof (Z.mod_pos_bound (xl - yl) 65536 ltac:(reflexivity)) as B1.
  set (c := if 0 <=? xl - yl then 1 else 0).
  pose proof (Z.div_mod (xh - yh - c) 65536 ltac:(discriminate)) as Q2.
  pose proof (Z.mod_pos_bound (xh - yh - c) 65536 ltac:(reflexivity)) as B2.
  pose proof (Z.div_mod (xl + 65536 * xh - (yl + 65536 * yh)) 4294967296 ltac:(discriminate)) as Q3.
  set (q1 := (xl - yl) / 65536) in *. set (r1 := (xl - yl) mod 65536) in *.
  set (q2 := (xh - yh - c) / 65536) in *. set (r2 := (xh - yh - c) mod 65536) in *.
  set (q3 := (xl + 65536 * xh - (yl + 65536 * yh)) / 4294967296) in *.
  set (r3 := (xl + 65536 * xh - (yl + 65536 * yh)) mod 4294967296) in *.
  intros E. rewrite <- E in Q3. subst c. clearbody q1 r1 q2 r2 q3 r3.
  destruct (Z.leb_spec 0 (xl - yl)); lia.
Qed.

(** Calls return: a taken call leaves the return address in register 15, and a
    taken return with that register unchanged continues after the call. *)
Theorem C65_call_return : forall mem s imm k s1 s2 imm' k' s3 o1 o3,
  wf s -> pc s < 256 -> nth_error mem (Z.to_nat (pc s)) = Some (ICtl pCall imm k) ->
  0 <= imm < 256 -> holds k s = true -> step mem s = Ok (s1, o1) ->
  wf s2 -> pc s2 < 256 -> reg s2 15 = reg s1 15 ->
  nth_error mem (Z.to_nat (pc s2)) = Some (ICtl pReturn imm' k') -> 0 <= imm' < 256 ->
  holds k' s2 = true -> step mem s2 = Ok (s3, o3) ->
  pc s1 = imm /\ pc s3 = (pc s + 1) mod 65536.
Proof.
  intros mem s imm k s1 s2 imm' k' s3 o1 o3 W P N Im H E W2 P2 R15 N2 Im2 H2 E2.
  destruct (C65_step_partial mem s _ W P N Im I) as (t & o & Et & Wt & Mt).
  rewrite E in Et. inversion Et; subst t o.
  destruct (C65_step_partial mem s2 _ W2 P2 N2 Im2 I) as (t & o & Eu & Wu & Mu).
  rewrite E2 in Eu. inversion Eu; subst t o.
  cbn [means] in Mt, Mu. rewrite H in Mt. rewrite H2 in Mu.
  destruct Mt as (_ & _ & G & Pc). destruct Mu as (_ & _ & _ & Pc2).
  split; [exact Pc|]. rewrite Pc2, R15. rewrite (G 15) by (unfold is_reg; lia). reflexivity.
Qed.

Definition prog_ex : list pinst :=
  [IMem pLDLO 0 5; IMem pLDHI 1 2; ILogic pOr 0 1; ICtl pCall 6 kAlways; IMem pST 0 0;
   ICtl pJump 5 kAlways; IArith pAdd 0 0; ICtl pReturn 0 kAlways].
Example C65_case :
  run prog_ex 7 pico_init =
    Ok (Pico 5 ([1034; 512] ++ repeat 0 13 ++ [4]) false false false false, [1034]) /\
  Forall (fun i => inst_ok i /\ executable i) prog_ex.
Proof.
  split; [reflexivity|].
  repeat apply Forall_cons; try apply Forall_nil; cbn [inst_ok executable]; unfold is_reg; lia.
Qed.
Example C65_sub_case :
  let s := Pico 0 ([3; 0; 1; 0] ++ repeat 0 12) false false false false in
  match run [IArith pSub 0 2; IArith pSbc 1 3] 2 s with
  | Ok (s', _) => reg s' 0 + 65536 * reg s' 1 = 4294901762
  | Err _ => False
  end.
Proof. reflexivity. Qed.

(** ** Flags and conditions (C56) *)

(** C56: after an arithmetic instruction the four flags are those of its result,
    and after a subtraction the conditions are the comparisons they name. *)
Definition C56_full : Prop := forall mem s op ra rb,
  wf s -> pc s < 256 -> is_reg ra -> is_reg rb ->
  nth_error mem (Z.to_nat (pc s)) = Some (IArith op ra rb) ->
  exists s', step mem s = Ok (s', []) /\
    (let a := reg s ra in let b := reg s rb in
     let v := exact op a b (fC s) mod 65536 in
     fZ s' = (v =? 0) /\ fN s' = (32768 <=? v) /\ fC s' = carry op a b (fC s) /\
     fV s' = signed_overflow op a b (fC s) /\
     (op = pSub -> forall k x, cmp k a b = Some x -> holds k s' = x)).

(** Missing for C56: the flag V after [sub] and [sbc] and with it the signed
    conditions after [sub]. *)
Theorem C56_flags_partial : forall mem s op ra rb,
  wf s -> pc s < 256 -> is_reg ra -> is_reg rb ->
  nth_error mem (Z.to_nat (pc s)) = Some (IArith op ra rb) ->
  exists s', step mem s = Ok (s', []) /\
    (let a := reg s ra in let b := reg s rb in
     let v := exact op a b (fC s) mod 65536 in
     fZ s' = (v =? 0) /\ fN s' = (32768 <=? v) /\ fC s' = carry op a b (fC s) /\
     (op = pAdd \/ op = pAdc -> fV s' = signed_overflow op a b (fC s)) /\
     (op = pSub -> forall k x, is_signed k = false -> cmp k a b = Some x -> holds k s' = x)).
Proof.
  intros mem s op ra rb W P Ra Rb N.
  destruct (C65_step_partial mem s _ W P N (conj Ra Rb) I) as (s' & o & E & W' & M).
  cbn [means] in M. destruct M as (_ & Zf & Nf & Cf & Vf & _ & O). subst o.
  exists s'. split; [exact E|]. cbv zeta. refine (conj Zf (conj Nf (conj Cf (conj Vf _)))).
  intros -> k x S C. unfold holds. rewrite Zf, Nf, Cf. cbn [exact carry].
  pose proof (reg_word s ra W Ra) as A. pose proof (reg_word s rb W Rb) as B.
  unfold word in A, B. rewrite mod16_cases by lia.
  destruct k; cbn [is_signed cmp] in *; try discriminate; inversion C; cbn [pcond_holds]; zcases.
Qed.

(** The exact value of V after [sub]: set when the operands have the same sign
    and the result has the other. This is never so when the subtraction really
    overflows. *)
Theorem C56_v_sub : forall mem s ra rb,
  wf s -> pc s < 256 -> is_reg ra -> is_reg rb ->
  nth_error mem (Z.to_nat (pc s)) = Some (IArith pSub ra rb) ->
  exists s', step mem s = Ok (s', []) /\
    let a := reg s ra in let b := reg s rb in
    (fV s' = true <->
       (sval a <? 0) = (sval b <? 0) /\ (sval ((a - b) mod 65536) <? 0) <> (sval a <? 0)) /\
    (signed_overflow pSub a b (fC s) = true -> fV s' = false) /\
    (forall k x, is_signed k = true -> cmp k a b = Some x ->
       (k = kSGE \/ k = kSLT -> (holds k s' = x <-> fV s' = signed_overflow pSub a b (fC s)))).
Proof.
  intros mem s ra rb W P Ra Rb N. unfold step. rewrite (fetch_ok _ _ _ W P N). cbn [bind].
  unfold step_arith. rewrite !rget_ok by auto. cbn [bind].
  pose proof (reg_word s ra W Ra) as A. pose proof (reg_word s rb W Rb) as B.
  rewrite arith_spec by auto.
  destruct (rset_ok s ra _ W Ra (word_mod (exact pSub (reg s ra) (reg s rb) (fC s))))
    as (rs & E & L & F & G). rewrite E. cbn [bind].
  eexists. split; [reflexivity|]. cbv zeta. unfold holds. cbn [fV fN fZ fC].
  cbn [exact]. unfold signed_overflow. cbn [exact].
  unfold overflow. change (16 - 1) with 15. rewrite !bit15 by (auto; apply word_mod).
  unfold word in A, B. rewrite mod16_cases by lia.
  unfold negative, out_of_range, sval. split; [|split].
  - zcases; split; intros; try discriminate; try (split; [reflexivity|discriminate]);
      match goal with H : _ /\ _ |- _ => destruct H as [H1 H2]; try discriminate; try (exfalso; apply H2; reflexivity) | _ => idtac end.
  - zcases; intros; reflexivity || discriminate.
  - intros k x S C [->| ->]; cbn [cmp] in C; inversion C; subst x; unfold sval; cbn [pcond_holds];
      zcases; split; intros; try reflexivity; try discriminate.
Qed.

(** 0x8000 - 1 overflows and V is clear, so [SLT] answers wrongly. *)
Definition s_v : pico := Pico 0 ([32768; 1] ++ repeat 0 14) false false false false.
Lemma s_v_wf : wf s_v.
Proof.
  split; [wd|]. split; [reflexivity|]. unfold s_v. cbn [regs].
  apply Forall_app. split; [repeat constructor; wd|].
  apply Forall_forall. intros x I. apply repeat_spec in I. subst x. wd.
Qed.

Theorem C56_full_refuted : ~ C56_full.
Proof.
  intros H. destruct (H [IArith pSub 0 1] s_v pSub 0 1 s_v_wf) as (s' & E & M);
    [reflexivity|wd|wd|reflexivity|].
  inversion E as [E']. rewrite <- E' in M. destruct M as (_ & _ & _ & V & _). discriminate V.
Qed.

Theorem C56_slt_refuted : ~ forall mem s ra rb s',
  wf s -> pc s < 256 -> is_reg ra -> is_reg rb ->
  nth_error mem (Z.to_nat (pc s)) = Some (IArith pSub ra rb) -> step mem s = Ok (s', []) ->
  holds kSLT s' = (sval (reg s ra) <? sval (reg s rb)).
Proof.
  intros H. specialize (H [IArith pSub 0 1] s_v 0 1 _ s_v_wf ltac:(reflexivity) ltac:(wd)
    ltac:(wd) ltac:(reflexivity) ltac:(reflexivity)). discriminate H.
Qed.

(** The jump condition itself follows the flags for every flag state. *)
Theorem C56_conditions : forall s,
  holds kZ s = fZ s /\ holds kZ_n s = negb (fZ s) /\ holds kC s = fC s /\
  holds kC_n s = negb (fC s) /\ holds kN s = fN s /\ holds kN_n s = negb (fN s) /\
  holds kV s = fV s /\ holds kV_n s = negb (fV s) /\
  holds kUGT s = (fC s && negb (fZ s)) /\ holds kULE s = (negb (fC s) || fZ s) /\
  holds kSGE s = negb (xorb (fN s) (fV s)) /\ holds kSLT s = xorb (fN s) (fV s) /\
  holds kSGT s = (negb (fZ s) && negb (xorb (fN s) (fV s))) /\
  holds kSLE s = (fZ s || xorb (fN s) (fV s)) /\
  holds kNever s = false /\ holds kAlways s = true.
Proof.
  intros [p r z n c v]. unfold holds. cbn [fZ fN fC fV].
  destruct z, n, c, v; repeat split.
Qed.

Example C56_case :
  let s := Pico 0 ([5; 40000] ++ repeat 0 14) true false true true in
  match step [IArith pSub 0 1] s with
  | Ok (s', _) => holds kC_n s' = true /\ fC s' = false
  | Err _ => False
  end.
Proof. split; reflexivity. Qed.

(** ** The testing interface (C66) *)

(** C66: peeking shows the part of the state that is named, poking changes that
    part only and returns its old value. *)
Definition flag_of (s : pico) (f : flag) : bool :=
  match f with FZ => fZ s | FN => fN s | FC => fC s | FV => fV s end.
Definition C66_full : Prop := forall s, wf s ->
  (forall f, peak_flag s f = flag_of s f) /\
  (forall r, peak_reg s r = Ok (reg s (r mod 16))) /\
  (forall r v, exists s', poke_reg s r v = Ok (s', reg s (r mod 16)) /\
     wf s' /\ sets s s' (r mod 16) (v mod 65536) /\ same_flags s s' /\ pc s' = pc s) /\
  (forall f v, exists s', poke_flag s f v = Ok (s', flag_of s f) /\
     flag_of s' f = v /\ same_regs s s') /\
  (forall v, exists s', poke_pc s v = Ok (s', pc s) /\ pc s' = v mod 65536).

(** Missing for C66: [peak_flag('V')], [poke_flag] and [poke_pc]. *)
Theorem C66_interface_partial : forall s, wf s ->
  (forall f, f <> FV -> peak_flag s f = flag_of s f) /\
  (forall r, peak_reg s r = Ok (reg s (r mod 16))) /\
  (forall r v, exists s', poke_reg s r v = Ok (s', reg s (r mod 16)) /\
     wf s' /\ sets s s' (r mod 16) (v mod 65536) /\ same_flags s s' /\ pc s' = pc s) /\
  peak_pc s = pc s.
Proof.
  intros s W. refine (conj _ (conj _ (conj _ eq_refl))).
  - intros f N. destruct f; try reflexivity. contradiction N; reflexivity.
  - intros r. unfold peak_reg. change (wrap 4 r) with (r mod 16). apply rget_ok; auto. unfold is_reg. pose proof (Z.mod_pos_bound r 16). lia.
  - intros r v. assert (R : is_reg (r mod 16)) by (unfold is_reg; pose proof (Z.mod_pos_bound r 16); lia).
    unfold poke_reg. change (wrap 4 r) with (r mod 16).
    rewrite rget_ok by auto. cbn [bind]. rewrite wrap16.
    destruct (rset_ok s (r mod 16) _ W R (word_mod v)) as (rs & E & L & F & G). rewrite E. cbn [bind].
    eexists. split; [reflexivity|]. split; [split; [apply W|split; assumption]|].
    split; [exact G|]. split; [repeat split|reflexivity].
Qed.

(** A new Pico: everything is zero. *)
Theorem C66_start : forall r f, peak_reg pico_init r = Ok 0 /\ peak_flag pico_init f = false /\ peak_pc pico_init = 0 /\ wf pico_init.
Proof.
  intros r f. assert (W : wf pico_init) by (split; [unfold word; cbn; lia|split; [reflexivity|repeat constructor; unfold word; lia]]).
  destruct (C66_interface_partial _ W) as (_ & R & _). rewrite R. split; [|split; [now destruct f|split; [reflexivity|exact W]]].
  f_equal. unfold reg. cbn [pico_init regs]. pose proof (Z.mod_pos_bound r 16 ltac:(lia)).
  rewrite nth_repeat. reflexivity.
Qed.

(** [poke_flag] and [poke_pc] always raise; [peak_flag('V')] shows C. *)
Theorem C66_errors : forall s f v z,
  poke_flag s f v = Err TypeError /\ poke_pc s z = Err TypeError /\ peak_flag s FV = fC s.
Proof. intros s f v z. destruct f; repeat split. Qed.

Theorem C66_full_refuted : ~ C66_full.
Proof.
  intros H. destruct (H s_v s_v_wf) as (_ & _ & _ & P & _).
  destruct (P FZ true) as (s' & E & _). discriminate E.
Qed.

(** With C set and V clear the flag V is reported as set. *)
Theorem C66_peak_v_refuted : ~ forall s, wf s -> peak_flag s FV = flag_of s FV.
Proof.
  intros H. specialize (H (Pico (pc s_v) (regs s_v) false false true false) s_v_wf).
  discriminate H.
Qed.

Example C66_case :
  match poke_reg s_v 1 70000 with
  | Ok (s', old) => old = 1 /\ peak_reg s' 1 = Ok 4464 /\ peak_reg s' 0 = Ok 32768
  | Err _ => False
  end.
Proof. repeat split. Qed.

Print Assumptions C56_flags_partial.
Print Assumptions C56_v_sub.
Print Assumptions C56_full_refuted.
Print Assumptions C56_slt_refuted.
Print Assumptions C56_conditions.
Print Assumptions C65_step_partial.
Print Assumptions C65_errors.
Print Assumptions C65_full_refuted.
Print Assumptions C65_run_partial.
Print Assumptions C65_add32.
Print Assumptions C65_sub32_refuted.
Print Assumptions C65_call_return.
Print Assumptions C66_interface_partial.
Print Assumptions C66_errors.
Print Assumptions C66_start.
Print Assumptions C66_full_refuted.
Print Assumptions C66_peak_v_refuted.
