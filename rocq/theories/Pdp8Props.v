(** C57: the PDP-8 simulator. *)
From Coq Require Import ZArith List Bool Lia.
From Verif Require Import Base BaseLemmas BvModel BvLemmas Pdp8Model.
Import ListNotations.
Open Scope Z_scope.

(** ** The PDP-8 on integers *)

(** A cell holds a word or an instruction. *)
Inductive scell := SW (z : Z) | SI (i : inst8).
Record sst := Sst { s_pc : Z; s_acc : Z; s_lnk : bool; s_run : bool; s_mem : Z -> scell }.

Definition inc (z : Z) : Z := (z + 1) mod 4096.
Definition put (m : Z -> scell) (a : Z) (c : scell) : Z -> scell :=
  fun j => if j =? a then c else m j.

(** The address an instruction refers to: in page zero or in the page of the
    instruction, and through a pointer if indirect. Pointers in locations 8 to 15
    are incremented first. *)
Definition base (s : sst) (x : mri) : Z :=
  m_addr x + match m_p x with PAGE_ZERO => 0 | CURRENT_PAGE => s_pc s / 128 * 128 end.
Definition target (s : sst) (x : mri) : option (Z * (Z -> scell)) :=
  let b := base s x in
  match m_i x with
  | DIRECT => Some (b, s_mem s)
  | INDIRECT =>
      match s_mem s b with
      | SI _ => None
      | SW z =>
          if (8 <=? b) && (b <=? 15) then Some (inc z, put (s_mem s) b (SW (inc z)))
          else Some (z, s_mem s)
      end
  end.

(** Rotations of the link and the accumulator by one place. *)
Definition left1 (al : Z * bool) : Z * bool :=
  ((2 * fst al + (if snd al then 1 else 0)) mod 4096, 2048 <=? fst al).
Definition right1 (al : Z * bool) : Z * bool :=
  (fst al / 2 + (if snd al then 2048 else 0), Z.odd (fst al)).

(** Group 1: clear, complement, increment link and accumulator, rotate. *)
Definition spec_opr1 (x : opr1) (a : Z) (l : bool) : option (Z * bool) :=
  let a := if cla1 x then 0 else a in
  let l := if cll x then false else l in
  let a := if cma x then 4095 - a else a in
  let l := if cml x then negb l else l in
  let '(a, l) := if iac x then (inc a, xorb l (a =? 4095)) else (a, l) in
  match ral x, rar x, twice x with
  | false, false, false => Some (a, l)
  | false, false, true => Some (a mod 64 * 64 + a / 64, l)
  | true, false, false => Some (left1 (a, l))
  | true, false, true => Some (left1 (left1 (a, l)))
  | false, true, false => Some (right1 (a, l))
  | false, true, true => Some (right1 (right1 (a, l)))
  | true, true, _ => None
  end.

(** Group 2: skip if one of the chosen conditions holds, or, reversed, if none
    of them holds. *)
Definition spec_skip (x : opr2) (a : Z) (l : bool) : bool :=
  xorb (skip x) ((sma x && (2048 <=? a)) || (sza x && (a =? 0)) || (snl x && l)).

(** One instruction; [None] where the definition leaves it open (input/output,
    the switch register, words as instructions or instructions as words). *)
Definition spec_step (s : sst) : option sst :=
  if negb (s_run s) then Some s
  else
    let p := inc (s_pc s) in
    match s_mem s (s_pc s) with
    | SW _ => None
    | SI (IIot _) => None
    | SI (IMri op x) =>
        match target s x with
        | None => None
        | Some (t, m) =>
            match op, m t with
            | oAND, SW d => Some (Sst p (Z.land (s_acc s) d) (s_lnk s) true m)
            | oTAD, SW d =>
                let r := s_acc s + d in
                Some (Sst p (r mod 4096) (xorb (s_lnk s) (4096 <=? r)) true m)
            | oISZ, SW d =>
                Some (Sst (if inc d =? 0 then inc p else p) (s_acc s) (s_lnk s) true
                        (put m t (SW (inc d))))
            | oDCA, _ => Some (Sst p 0 (s_lnk s) true (put m t (SW (s_acc s))))
            | oJMS, _ => Some (Sst (inc t) (s_acc s) (s_lnk s) true (put m t (SW p)))
            | oJMP, _ => Some (Sst t (s_acc s) (s_lnk s) true m)
            | _, SI _ => None
            end
        end
    | SI (IOpr1 x) =>
        match spec_opr1 x (s_acc s) (s_lnk s) with
        | None => None
        | Some (a, l) => Some (Sst p a l true (s_mem s))
        end
    | SI (IOpr2 x) =>
        if osr x then None
        else Some (Sst (if spec_skip x (s_acc s) (s_lnk s) then inc p else p)
                     (if cla2 x then 0 else s_acc s) (s_lnk s) (negb (hlt x)) (s_mem s))
    end.

Fixpoint spec_steps (n : nat) (s : sst) : option sst :=
  match n with
  | O => Some s
  | S k => match spec_step s with Some s' => spec_steps k s' | None => None end
  end.

(** ** Simulator states that stand for PDP-8 states *)

Definition in12 (z : Z) : Prop := 0 <= z < 4096.
Definition inst8_ok (i : inst8) : Prop :=
  match i with IMri _ x | IIot x => 0 <= m_addr x < 128 | _ => True end.

Definition cell_rel (v : dv) (c : scell) : Prop :=
  match v, c with
  | VB w z, SW z' => 12 <= w /\ z = z' /\ in12 z
  | VI z, SW z' => z = z' /\ in12 z
  | VInst i, SI j => i = j /\ inst8_ok i
  | _, _ => False
  end.

Definition rel (m : pdp8) (s : sst) : Prop :=
  (exists w, 12 <= w /\ pc m = VB w (s_pc s)) /\ in12 (s_pc s) /\
  acc m = s_acc s /\ in12 (s_acc s) /\ lnk m = s_lnk s /\ running m = s_run s /\
  forall a, in12 a -> cell_rel (mem m a) (s_mem s a).

(** C57: the simulator steps as the PDP-8 does. *)
Definition C57_full : Prop := forall p_is_zero m s s',
  rel m s -> spec_step s = Some s' ->
  exists m', step p_is_zero m = Ok m' /\ rel m' s'.

(** Where it does. Memory-reference instructions: only in page zero, without
    incremented pointers, with a pointer that is a bit vector; the operand of
    [AND] and [TAD] is a 12-bit word (for AND also an untouched cell), that of
    [ISZ] is one or does not wrap. Group 1: the increment does not carry into the
    link, no byte swap. Group 2: not SNL or SZL. A program counter wider than 12
    bits must not wrap. *)
Definition operand_ok (op : mri_op) (v : dv) : Prop :=
  match op, v with
  | oAND, VB w _ => w = 12
  | oTAD, VB w _ => w = 12
  | oTAD, _ => False
  | oISZ, VB w z => w = 12 \/ z < 4095
  | oISZ, VI z => z < 4095
  | _, _ => True
  end.
Definition pointer_ok (op : mri_op) (v : dv) : Prop :=
  match v with VB w z => op = oJMS -> w = 12 \/ z < 4095 | _ => False end.

Definition supported (m : pdp8) (s : sst) : Prop :=
  (pc m = VB 12 (s_pc s) \/ s_pc s < 4094) /\
  match s_mem s (s_pc s) with
  | SI (IMri op x) =>
      s_pc s < 128 /\
      match m_i x with
      | DIRECT => operand_ok op (mem m (m_addr x))
      | INDIRECT =>
          ~ 8 <= m_addr x <= 15 /\ pointer_ok op (mem m (m_addr x)) /\
          forall z, s_mem s (m_addr x) = SW z -> operand_ok op (mem m z)
      end
  | SI (IOpr1 x) =>
      (iac x = true ->
         (let a := if cla1 x then 0 else s_acc s in if cma x then 4095 - a else a) <> 4095) /\
      (twice x = true -> ral x = true \/ rar x = true)
  | SI (IOpr2 x) => snl x = false
  | SW _ => True
  | SI (IIot _) => True
  end.

(** ** Lemmas *)

Lemma P12 : 2 ^ 12 = 4096. Proof. reflexivity. Qed.

Lemma wrap_pc w z k : 12 <= w -> in12 z -> 0 <= k -> (w = 12 \/ z + k < 4096) ->
  wrap w (z + k) = (z + k) mod 4096.
Proof.
  unfold in12. intros W Z K [->|L]; [reflexivity|].
  rewrite wrap_small; [symmetry; apply Z.mod_small; lia|].
  pose proof (Z.pow_le_mono_r 2 12 w ltac:(lia) W). rewrite P12 in *. lia.
Qed.

Lemma in12_inc z : in12 (inc z).
Proof. apply Z.mod_pos_bound. reflexivity. Qed.

Lemma concat12 a h : 0 <= a < 4096 -> concat 12 a h = a + 4096 * h.
Proof. intros H. unfold concat. apply (lor_shiftl_add a h 12); [lia|exact H]. Qed.

Lemma index_ok w z : in12 z -> index (VB w z) = Ok z.
Proof.
  unfold in12, index. intros H. destruct (Z.leb_spec 0 z); [|lia].
  destruct (Z.ltb_spec z 4096); [|lia]. reflexivity.
Qed.
Lemma index_okI z : in12 z -> index (VI z) = Ok z.
Proof. exact (index_ok 0 z). Qed.

Lemma bit11 a : in12 a -> bvbit a 11 = (2048 <=? a).
Proof. intros H. exact (top_bit 12 a ltac:(lia) H). Qed.

Lemma tad_spec a l z : in12 a -> in12 z ->
  tad a l (VB 12 z) = Ok ((a + z) mod 4096, xorb l (4096 <=? a + z)).
Proof.
  unfold in12. intros A Hz. unfold tad. change (12 =? 12) with true. cbv iota.
  rewrite !concat12 by lia. unfold bvadd, wrap. change (2 ^ 13) with 8192.
  set (r := (a + 4096 * b2z l + (z + 4096 * 0)) mod 8192).
  assert (R : 0 <= r < 2 ^ 13) by (apply Z.mod_pos_bound; reflexivity).
  f_equal. f_equal.
  - rewrite slice_eq by lia. rewrite Z.pow_0_r, Z.div_1_r. change (2 ^ (12 - 0)) with 4096.
    subst r. rewrite <- (Z.mod_add (a + z) (b2z l)) by discriminate.
    change 8192 with (2 * 4096).
    replace (a + 4096 * b2z l + (z + 4096 * 0)) with (a + z + b2z l * 4096) by ring.
    pose proof (Z.div_mod (a + z + b2z l * 4096) (2 * 4096) ltac:(discriminate)) as D.
    set (q := (a + z + b2z l * 4096) / (2 * 4096)) in *.
    set (t := (a + z + b2z l * 4096) mod (2 * 4096)) in *.
    rewrite D. replace (2 * 4096 * q + t) with (t + 2 * q * 4096) by ring.
    rewrite Z.mod_add by discriminate. reflexivity.
  - unfold bvbit. change 12 with (13 - 1). rewrite top_bit by (auto; lia).
    change (2 ^ (13 - 1)) with 4096. subst r.
    destruct l; cbn [b2z xorb].
    + destruct (Z.leb_spec 4096 (a + z)).
      * replace (a + 4096 * 1 + (z + 4096 * 0)) with (a + z - 4096 + 1 * 8192) by ring.
        rewrite Z.mod_add by discriminate. rewrite Z.mod_small by lia. cbn [negb].
        apply Z.leb_gt. lia.
      * rewrite Z.mod_small by lia. apply Z.leb_le. lia.
    + rewrite Z.mod_small by lia. destruct (Z.leb_spec 4096 (a + z)).
      * apply Z.leb_le. lia.
      * apply Z.leb_gt. lia.
Qed.

Lemma split13 r : 0 <= r < 8192 ->
  (slice r 0 12, bvbit r 12) = (r mod 4096, 4096 <=? r).
Proof.
  intros R. f_equal.
  - rewrite slice_eq by lia. rewrite Z.pow_0_r, Z.div_1_r. reflexivity.
  - exact (top_bit 13 r ltac:(lia) R).
Qed.

Lemma rol_eq x k : 0 <= x < 8192 -> 0 < k < 13 ->
  rol13 x k = (x mod 2 ^ (13 - k)) * 2 ^ k + x / 2 ^ (13 - k).
Proof.
  intros X K. unfold rol13. rewrite bvshl_eq by lia. rewrite (bvlshr_eq 13 x) by (change (2 ^ 13) with 8192; lia).
  assert (E : 2 ^ 13 = 2 ^ (13 - k) * 2 ^ k) by (rewrite <- Z.pow_add_r by lia; f_equal; lia).
  pose proof (pow2_pos k ltac:(lia)). pose proof (pow2_pos (13 - k) ltac:(lia)).
  assert (W : wrap 13 (x * 2 ^ k) = (x mod 2 ^ (13 - k)) * 2 ^ k).
  { unfold wrap. rewrite E. rewrite Z.mul_mod_distr_r by lia. reflexivity. }
  rewrite W, Z.lor_comm, <- Z.shiftl_mul_pow2 by lia.
  rewrite lor_shiftl_add; [rewrite Z.shiftl_mul_pow2 by lia; ring|lia|].
  split; [apply Z.div_pos; lia|]. apply Z.div_lt_upper_bound; [lia|].
  rewrite <- E. change (2 ^ 13) with 8192. lia.
Qed.

Lemma ror_eq x k : 0 <= x < 8192 -> 0 < k < 13 ->
  ror13 x k = x / 2 ^ k + (x mod 2 ^ k) * 2 ^ (13 - k).
Proof.
  intros X K. unfold ror13. rewrite Z.lor_comm.
  pose proof (rol_eq x (13 - k) X ltac:(lia)) as R. unfold rol13 in R.
  replace (13 - (13 - k)) with k in R by lia. rewrite R. ring.
Qed.

Lemma rol1 a l : in12 a ->
  (let r := rol13 (concat 12 a (b2z l)) 1 in (slice r 0 12, bvbit r 12)) = left1 (a, l).
Proof.
  unfold in12. intros A. cbv zeta. rewrite concat12 by lia.
  assert (X : 0 <= a + 4096 * b2z l < 8192) by (destruct l; cbn [b2z]; lia).
  rewrite rol_eq by lia. change (2 ^ (13 - 1)) with 4096. change (2 ^ 1) with 2.
  rewrite (Z.mul_comm 4096), Z.mod_add, Z.div_add by discriminate.
  rewrite (Z.mod_small a), (Z.div_small a) by lia.
  rewrite split13 by (destruct l; cbn [b2z]; lia). unfold left1. cbn [fst snd].
  f_equal.
  - f_equal. destruct l; cbn [b2z]; lia.
  - destruct l; cbn [b2z]; destruct (Z.leb_spec 2048 a); first [apply Z.leb_le; lia|apply Z.leb_gt; lia].
Qed.

Lemma left1_in al : in12 (fst (left1 al)).
Proof. apply Z.mod_pos_bound. reflexivity. Qed.

Lemma rol2 a l : in12 a ->
  (let r := rol13 (concat 12 a (b2z l)) 2 in (slice r 0 12, bvbit r 12)) = left1 (left1 (a, l)).
Proof.
  unfold in12. intros A. cbv zeta. rewrite concat12 by lia.
  set (x := a + 4096 * b2z l).
  assert (X : 0 <= x < 8192) by (subst x; destruct l; cbn [b2z]; lia).
  rewrite rol_eq by lia. change (2 ^ (13 - 2)) with 2048. change (2 ^ 2) with 4.
  pose proof (Z.div_mod x 2048 ltac:(discriminate)) as D.
  pose proof (Z.mod_pos_bound x 2048 ltac:(reflexivity)) as B.
  set (q := x / 2048) in *. set (t := x mod 2048) in *.
  assert (Q : 0 <= q < 4) by lia.
  rewrite split13 by lia. unfold left1. cbn [fst snd].
  assert (E : (2 * a + (if l then 1 else 0)) mod 4096 =
              if 2048 <=? a then 2 * a + (if l then 1 else 0) - 4096 else 2 * a + (if l then 1 else 0)).
  { destruct (Z.leb_spec 2048 a).
    - rewrite <- (Z.mod_add _ (-1)) by discriminate.
      rewrite Z.mod_small; destruct l; lia.
    - apply Z.mod_small; destruct l; lia. }
  rewrite E. subst x. clearbody q t. f_equal.
  - assert (U : 4 * t + q =
      2 * (if 2048 <=? a then 2 * a + (if l then 1 else 0) - 4096 else 2 * a + (if l then 1 else 0))
      + (if 2048 <=? a then 1 else 0)).
    { destruct l; cbn [b2z] in *; destruct (Z.leb_spec 2048 a); lia. }
    rewrite (Z.mul_comm t), U. reflexivity.
  - destruct l; cbn [b2z] in *; destruct (Z.leb_spec 2048 a);
      match goal with |- (4096 <=? ?u) = (2048 <=? ?v) => destruct (Z.leb_spec 4096 u), (Z.leb_spec 2048 v) end;
      try reflexivity; lia.
Qed.

Lemma odd_cases a : a = 2 * (a / 2) + (if Z.odd a then 1 else 0).
Proof. pose proof (Zdiv.Zmod_odd a) as O. pose proof (Z.div_mod a 2 ltac:(discriminate)) as D. rewrite O in D. exact D. Qed.

Lemma right1_in a l : in12 a -> in12 (fst (right1 (a, l))).
Proof.
  unfold in12, right1. cbn [fst snd]. intros A.
  pose proof (Z.div_mod a 2 ltac:(discriminate)). pose proof (Z.mod_pos_bound a 2 ltac:(reflexivity)).
  destruct l; lia.
Qed.

Lemma ror1 a l : in12 a ->
  (let r := ror13 (concat 12 a (b2z l)) 1 in (slice r 0 12, bvbit r 12)) = right1 (a, l).
Proof.
  unfold in12. intros A. cbv zeta. rewrite concat12 by lia.
  set (x := a + 4096 * b2z l).
  assert (X : 0 <= x < 8192) by (subst x; destruct l; cbn [b2z]; lia).
  rewrite ror_eq by lia. change (2 ^ (13 - 1)) with 4096. change (2 ^ 1) with 2.
  pose proof (Z.div_mod x 2 ltac:(discriminate)) as D.
  pose proof (Z.mod_pos_bound x 2 ltac:(reflexivity)) as B.
  pose proof (odd_cases a) as O.
  set (q := x / 2) in *. set (t := x mod 2) in *. set (u := a / 2) in *.
  unfold right1. cbn [fst snd]. fold u. rewrite split13 by lia. subst x. clearbody q t u.
  assert (T : t = if Z.odd a then 1 else 0) by (destruct l, (Z.odd a); cbn [b2z] in *; lia).
  assert (Q : q = u + (if l then 2048 else 0)) by (destruct l, (Z.odd a); cbn [b2z] in *; lia).
  rewrite Q, T. f_equal.
  - destruct (Z.odd a).
    + rewrite <- (Z.mod_add _ (-1)) by discriminate. rewrite Z.mod_small; destruct l; lia.
    + rewrite Z.mod_small; destruct l; lia.
  - destruct (Z.odd a); [apply Z.leb_le|apply Z.leb_gt]; destruct l; lia.
Qed.

Lemma ror2 a l : in12 a ->
  (let r := ror13 (concat 12 a (b2z l)) 2 in (slice r 0 12, bvbit r 12)) = right1 (right1 (a, l)).
Proof.
  intros A. pose proof (right1_in a l A) as A1. pose proof (ror1 a l A) as R1.
  destruct (right1 (a, l)) as [a1 l1] eqn:E. cbn [fst] in A1.
  rewrite <- (ror1 a1 l1 A1). cbv zeta in *.
  unfold in12 in *. rewrite !concat12 by lia. rewrite concat12 in R1 by lia.
  assert (X : 0 <= a + 4096 * b2z l < 8192) by (destruct l; cbn [b2z]; lia).
  assert (X1 : 0 <= a1 + 4096 * b2z l1 < 8192) by (destruct l1; cbn [b2z]; lia).
  assert (G : ror13 (a + 4096 * b2z l) 2 = ror13 (a1 + 4096 * b2z l1) 1).
  { rewrite ror_eq in R1 by lia.
    rewrite !ror_eq by lia. change (2 ^ (13 - 1)) with 4096 in *. change (2 ^ 1) with 2 in *.
    change (2 ^ (13 - 2)) with 2048. change (2 ^ 2) with 4.
    set (x := a + 4096 * b2z l) in *.
    pose proof (Z.div_mod x 2 ltac:(discriminate)) as D.
    pose proof (Z.mod_pos_bound x 2 ltac:(reflexivity)) as B.
    set (y := x / 2 + x mod 2 * 4096) in *.
    assert (Y : 0 <= y < 8192) by (subst y; lia).
    rewrite split13 in R1 by exact Y. inversion R1 as [[Ea El]].
    assert (Ey : y mod 4096 + 4096 * b2z (4096 <=? y) = y).
    { destruct (Z.leb_spec 4096 y); cbn [b2z].
      - replace y with (y - 4096 + 1 * 4096) at 1 by ring.
        rewrite Z.mod_add by discriminate. rewrite Z.mod_small by lia. lia.
      - rewrite Z.mod_small by lia. lia. }
    rewrite Ey. subst y.
    pose proof (Z.div_mod x 4 ltac:(discriminate)) as D4.
    pose proof (Z.mod_pos_bound x 4 ltac:(reflexivity)) as B4.
    pose proof (Z.div_mod (x / 2 + x mod 2 * 4096) 2 ltac:(discriminate)) as D2.
    pose proof (Z.mod_pos_bound (x / 2 + x mod 2 * 4096) 2 ltac:(reflexivity)) as B2.
    lia. }
  rewrite G. reflexivity.
Qed.

Lemma bvnot12 a : in12 a -> bvnot 12 a = 4095 - a.
Proof. intros H. rewrite bvnot_eq by (unfold in12 in H; lia). rewrite P12. lia. Qed.

Lemma opr1_spec x a l r :
  in12 a ->
  (iac x = true -> (let a := if cla1 x then 0 else a in if cma x then 4095 - a else a) <> 4095) ->
  (twice x = true -> ral x = true \/ rar x = true) ->
  spec_opr1 x a l = Some r -> do_opr1 x a l = r /\ in12 (fst r).
Proof.
  intros A I T S. unfold do_opr1, spec_opr1 in *.
  set (a1 := if cla1 x then 0 else a) in *.
  assert (A1 : in12 a1) by (subst a1; destruct (cla1 x); [unfold in12; lia|exact A]).
  set (l1 := if cll x then false else l) in *.
  assert (E2 : (if cma x then bvnot 12 a1 else a1) = (if cma x then 4095 - a1 else a1))
    by (destruct (cma x); [apply bvnot12; exact A1|reflexivity]).
  rewrite E2. set (a2 := if cma x then 4095 - a1 else a1) in *.
  assert (A2 : in12 a2) by (subst a2; destruct (cma x); unfold in12 in *; lia).
  set (l2 := if cml x then negb l1 else l1) in *.
  assert (E3 : (if iac x then (inc a2, xorb l2 (a2 =? 4095)) else (a2, l2)) =
               (if iac x then bvadd 12 a2 1 else a2, l2)).
  { destruct (iac x); [|reflexivity]. specialize (I eq_refl). cbv zeta in I.
    apply Z.eqb_neq in I. rewrite I, xorb_false_r. reflexivity. }
  rewrite E3 in S. set (a3 := if iac x then bvadd 12 a2 1 else a2) in *.
  assert (A3 : in12 a3) by (subst a3; destruct (iac x); [apply (in12_inc a2)|exact A2]).
  clearbody a3 l2.
  destruct (ral x), (rar x), (twice x); try discriminate S; inversion S; subst r; cbv iota beta;
    try (exfalso; destruct (T eq_refl); discriminate);
    try (rewrite rol1 by exact A3); try (rewrite rol2 by exact A3);
    try (rewrite ror1 by exact A3); try (rewrite ror2 by exact A3).
  - split; [destruct (left1 (left1 (a3, l2))); reflexivity|apply left1_in].
  - split; [destruct (left1 (a3, l2)); reflexivity|apply left1_in].
  - split; [reflexivity|].
    pose proof (right1_in a3 l2 A3) as Q. destruct (right1 (a3, l2)) as [b k]. apply right1_in, Q.
  - split; [reflexivity|]. apply right1_in, A3.
  - split; [reflexivity|exact A3].
Qed.

Lemma skips_spec x a l : in12 a -> snl x = false -> skips x a l = spec_skip x a l.
Proof.
  intros A N. unfold skips, spec_skip. rewrite N, bit11 by exact A.
  destruct (sma x), (sza x), (skip x); cbn [orb negb andb xorb];
    destruct (2048 <=? a), (a =? 0); reflexivity.
Qed.

(** ** One step *)

Lemma rel_mem m s a : rel m s -> in12 a -> cell_rel (mem m a) (s_mem s a).
Proof. intros (_ & _ & _ & _ & _ & _ & H). apply H. Qed.

(** The address of an instruction in page zero. *)
Lemma addr_direct pz (mm : Z -> dv) x w p : 0 <= m_addr x < 128 -> 12 <= w -> 0 <= p < 128 ->
  exists w', 17 <= w' /\
  addr pz mm x (VB w (wrap w (p + 1))) =
    match m_i x with INDIRECT => load mm (VB w' (m_addr x)) | DIRECT => Ok (VB w' (m_addr x)) end.
Proof.
  intros A W P. unfold addr.
  assert (P2 : 4096 <= 2 ^ w) by (pose proof (Z.pow_le_mono_r 2 12 w ltac:(lia) W); rewrite P12 in *; lia).
  rewrite (wrap_small w (p + 1)) by lia.
  replace (p + 1 - 1) with p by lia. rewrite (wrap_small w p) by lia.
  assert (S : slice p 7 w = 0).
  { rewrite slice_eq by lia. change (2 ^ 7) with 128. rewrite Z.div_small by lia. apply Z.mod_0_l.
    pose proof (pow2_pos (w - 7) ltac:(lia)). lia. }
  rewrite S. destruct (pz (m_p x)); cbn [bind]; rewrite concat12 by lia;
    rewrite Z.mul_0_r, Z.add_0_r.
  - exists (12 + 5). split; [lia|reflexivity].
  - exists (12 + (w - 7)). split; [lia|reflexivity].
Qed.

Lemma cell_store m s (v : dv) c t : (forall a, in12 a -> cell_rel (mem m a) (s_mem s a)) ->
  cell_rel v c -> forall a, in12 a ->
  cell_rel (if a =? t then v else mem m a) (put (s_mem s) t c a).
Proof. intros H V a A. unfold put. destruct (a =? t); auto. Qed.

(** Missing for C57: the cases [supported] excludes; each is refuted below. *)
Theorem C57_step_partial : forall p_is_zero m s s',
  rel m s -> supported m s -> spec_step s = Some s' ->
  exists m', step p_is_zero m = Ok m' /\ rel m' s'.
Proof.
  intros pz m s s' R S E.
  pose proof R as ((w & W & Pc) & P12' & Ac & A12 & Lk & Rn & Mm).
  destruct S as [Room S]. unfold spec_step in E. unfold step. rewrite Rn.
  destruct (s_run s) eqn:Run; cbn [negb] in *; [|inversion E; subst s'; exists m; auto].
  assert (Room1 : w = 12 \/ s_pc s + 2 < 4096).
  { destruct Room as [H|H]; [left; rewrite Pc in H; inversion H; auto|right; lia]. }
  rewrite Pc. unfold load at 1. rewrite index_ok by exact P12'. cbn [bind add1].
  assert (E1 : wrap w (s_pc s + 1) = inc (s_pc s)) by (apply wrap_pc; auto; lia).
  assert (E2 : wrap w (wrap w (s_pc s + 1) + 1) = inc (inc (s_pc s))).
  { rewrite E1. apply wrap_pc; auto; [apply in12_inc|lia|].
    destruct Room1 as [->|H]; [left; reflexivity|right]. unfold inc. unfold in12 in P12'.
    rewrite Z.mod_small by lia. lia. }
  pose proof (Mm _ P12') as Cp.
  destruct (mem m (s_pc s)) as [w1 z1|z1|i1] eqn:Cm; destruct (s_mem s (s_pc s)) as [z2|i2] eqn:Cs;
    cbn [cell_rel] in Cp; try contradiction; try discriminate E.
  destruct Cp as [<- Ok1].
  destruct i1 as [op x|x|x|x].
  - (* memory reference *)
    destruct S as [Pg S]. cbn [inst8_ok] in Ok1.
    destruct (addr_direct pz (mem m) x w (s_pc s) Ok1 W ltac:(unfold in12 in P12'; lia))
      as (w' & W' & Ea).
    rewrite Ea. clear Ea.
    assert (Bs : base s x = m_addr x).
    { unfold base. destruct (m_p x); [lia|]. unfold in12 in P12'. rewrite Z.div_small by lia. lia. }
    assert (Aa : in12 (m_addr x)) by (unfold in12; lia).
    assert (X : exists wt t, 12 <= wt /\ in12 t /\
      (match m_i x with INDIRECT => load (mem m) (VB w' (m_addr x)) | DIRECT => Ok (VB w' (m_addr x)) end)
        = Ok (VB wt t) /\ target s x = Some (t, s_mem s) /\ operand_ok op (mem m t) /\
      (op = oJMS -> wt = 12 \/ t < 4095)).
    { unfold target. rewrite Bs. destruct (m_i x).
      - exists w', (m_addr x). repeat split; auto; try lia; unfold in12 in *; lia.
      - destruct S as (NA & Pt & Op). unfold load. rewrite index_ok by exact Aa. cbn [bind].
        pose proof (Mm _ Aa) as Ct. destruct (mem m (m_addr x)) as [wt t|t|it]; cbn [pointer_ok] in Pt;
          try contradiction. destruct (s_mem s (m_addr x)) as [t'|it']; cbn [cell_rel] in Ct; [|contradiction].
        destruct Ct as (Wt & <- & T12). exists wt, t.
        replace ((8 <=? m_addr x) && (m_addr x <=? 15)) with false; [repeat split; auto; apply T12|].
        symmetry. destruct (Z.leb_spec 8 (m_addr x)); [|reflexivity].
        destruct (Z.leb_spec (m_addr x) 15); [lia|reflexivity]. }
    destruct X as (wt & t & Wt & T12 & Ea & Tg & Op & Jm). rewrite Ea. cbn [bind].
    rewrite Tg in E. pose proof (Mm _ T12) as Ct.
    assert (Pc' : exists w0, 12 <= w0 /\ VB w (wrap w (s_pc s + 1)) = VB w0 (inc (s_pc s)))
      by (exists w; rewrite E1; auto).
    assert (WP : cell_rel (VB w (wrap w (s_pc s + 1))) (SW (inc (s_pc s)))).
    { cbn [cell_rel]. rewrite E1. auto using in12_inc. }
    destruct op.
    + (* AND *)
      destruct (s_mem s t) as [d|] eqn:Cd; [|discriminate E]. inversion E; subst s'. clear E.
      unfold load. rewrite index_ok by exact T12. cbn [bind].
      assert (X : and_acc (acc m) (mem m t) = Ok (Z.land (s_acc s) d) /\ in12 (Z.land (s_acc s) d)).
      { rewrite Ac. destruct (mem m t) as [wd z|z|]; cbn [cell_rel operand_ok and_acc] in *; [| |contradiction].
        - subst wd. destruct Ct as (_ & -> & D12). change (12 =? 12) with true.
          split; [reflexivity|]. apply (land_range 12); auto; lia.
        - destruct Ct as (-> & D12). rewrite wrap_small by exact D12.
          split; [reflexivity|]. apply (land_range 12); auto; lia. }
      destruct X as [X1 X2]. rewrite X1. cbn [bind]. eexists. split; [reflexivity|].
      unfold rel. cbn [pc acc lnk running mem s_pc s_acc s_lnk s_run s_mem].
      refine (conj Pc' (conj (in12_inc _) (conj eq_refl (conj X2 (conj Lk (conj eq_refl Mm)))))).
    + (* TAD *)
      destruct (s_mem s t) as [d|] eqn:Cd; [|discriminate E]. inversion E; subst s'. clear E.
      unfold load. rewrite index_ok by exact T12. cbn [bind].
      destruct (mem m t) as [wd z|z|]; cbn [cell_rel operand_ok] in *; try contradiction.
      subst wd. destruct Ct as (_ & -> & D12). rewrite Ac, Lk, tad_spec by auto. cbn [bind fst snd].
      eexists. split; [reflexivity|].
      unfold rel. cbn [pc acc lnk running mem s_pc s_acc s_lnk s_run s_mem].
      refine (conj Pc' (conj (in12_inc _) (conj eq_refl (conj _ (conj eq_refl (conj eq_refl Mm)))))).
      apply Z.mod_pos_bound. reflexivity.
    + (* ISZ *)
      destruct (s_mem s t) as [d|] eqn:Cd; [|discriminate E]. inversion E; subst s'. clear E.
      unfold load. rewrite index_ok by exact T12. cbn [bind].
      assert (X : exists v, add1 (mem m t) = Ok v /\ cell_rel v (SW (inc d)) /\ is0 v = (inc d =? 0)).
      { destruct (mem m t) as [wd z|z|]; cbn [cell_rel operand_ok add1] in *; [| |contradiction].
        - destruct Ct as (Wd & -> & D12). eexists. split; [reflexivity|].
          assert (Ei : wrap wd (d + 1) = inc d) by (apply wrap_pc; auto; lia).
          rewrite Ei. cbn [cell_rel is0]. auto using in12_inc.
        - destruct Ct as (-> & D12). eexists. split; [reflexivity|].
          assert (Ei : d + 1 = inc d) by (unfold inc, in12 in *; rewrite Z.mod_small; lia).
          rewrite Ei. cbn [cell_rel is0]. auto using in12_inc. }
      destruct X as (v & Ev & Rv & Iv). rewrite Ev. cbn [bind].
      unfold store. rewrite index_ok by exact T12. cbn [bind]. rewrite Iv.
      destruct (inc d =? 0); cbn [bind add1].
      * rewrite E2. eexists. split; [reflexivity|].
        unfold rel. cbn [pc acc lnk running mem s_pc s_acc s_lnk s_run s_mem].
        refine (conj _ (conj (in12_inc _) (conj Ac (conj A12 (conj Lk (conj eq_refl (cell_store m s v _ t Mm Rv))))))).
        exists w; auto.
      * eexists. split; [reflexivity|].
        unfold rel. cbn [pc acc lnk running mem s_pc s_acc s_lnk s_run s_mem].
        refine (conj Pc' (conj (in12_inc _) (conj Ac (conj A12 (conj Lk (conj eq_refl (cell_store m s v _ t Mm Rv))))))).
    + (* DCA *)
      assert (E' : s' = Sst (inc (s_pc s)) 0 (s_lnk s) true (put (s_mem s) t (SW (s_acc s))))
        by (destruct (s_mem s t); inversion E; reflexivity).
      subst s'. clear E. unfold store. rewrite index_ok by exact T12. cbn [bind].
      eexists. split; [reflexivity|].
      unfold rel. cbn [pc acc lnk running mem s_pc s_acc s_lnk s_run s_mem].
      assert (Rv : cell_rel (VB 12 (acc m)) (SW (s_acc s))) by (cbn [cell_rel]; rewrite Ac; auto with zarith).
      refine (conj Pc' (conj (in12_inc _) (conj eq_refl (conj _ (conj Lk (conj eq_refl (cell_store m s _ _ t Mm Rv))))))).
      unfold in12; lia.
    + (* JMS *)
      assert (E' : s' = Sst (inc t) (s_acc s) (s_lnk s) true (put (s_mem s) t (SW (inc (s_pc s)))))
        by (destruct (s_mem s t); inversion E; reflexivity).
      subst s'. clear E. unfold store. rewrite index_ok by exact T12. cbn [bind add1].
      eexists. split; [reflexivity|].
      unfold rel. cbn [pc acc lnk running mem s_pc s_acc s_lnk s_run s_mem].
      refine (conj _ (conj (in12_inc _) (conj Ac (conj A12 (conj Lk (conj eq_refl (cell_store m s _ _ t Mm WP))))))).
      exists wt. split; [exact Wt|]. f_equal. apply wrap_pc; auto; try lia.
      destruct (Jm eq_refl); [left; assumption|right; lia].
    + (* JMP *)
      assert (E' : s' = Sst t (s_acc s) (s_lnk s) true (s_mem s))
        by (destruct (s_mem s t); inversion E; reflexivity).
      subst s'. clear E. eexists. split; [reflexivity|].
      unfold rel. cbn [pc acc lnk running mem s_pc s_acc s_lnk s_run s_mem].
      refine (conj _ (conj T12 (conj Ac (conj A12 (conj Lk (conj eq_refl Mm)))))).
      exists wt; auto.
  - discriminate E.
  - destruct S as [Si St]. destruct (spec_opr1 x (s_acc s) (s_lnk s)) as [[a l]|] eqn:So; [|discriminate E].
    inversion E; subst s'. clear E. rewrite Ac, Lk.
    destruct (opr1_spec x (s_acc s) (s_lnk s) _ A12 Si St So) as [D A']. rewrite D.
    eexists. split; [reflexivity|].
    unfold rel. cbn [pc acc lnk running mem s_pc s_acc s_lnk s_run s_mem].
    refine (conj _ (conj (in12_inc _) (conj eq_refl (conj A' (conj eq_refl (conj eq_refl Mm)))))).
    exists w. rewrite E1. auto.
  - destruct (osr x); [discriminate E|]. inversion E; subst s'. clear E.
    rewrite Ac, Lk, skips_spec by auto.
    destruct (spec_skip x (s_acc s) (s_lnk s)); cbn [bind add1].
    + rewrite E2. eexists. split; [reflexivity|].
      unfold rel. cbn [pc acc lnk running mem s_pc s_acc s_lnk s_run s_mem].
      refine (conj _ (conj (in12_inc _) (conj _ (conj _ (conj _ (conj _ Mm)))))).
      * exists w; auto.
      * destruct (cla2 x); auto.
      * destruct (cla2 x); auto. unfold in12; lia.
      * auto.
      * destruct (hlt x); reflexivity.
    + eexists. split; [reflexivity|].
      unfold rel. cbn [pc acc lnk running mem s_pc s_acc s_lnk s_run s_mem].
      refine (conj _ (conj (in12_inc _) (conj _ (conj _ (conj _ (conj _ Mm)))))).
      * exists w. rewrite E1. auto.
      * destruct (cla2 x); auto.
      * destruct (cla2 x); auto. unfold in12; lia.
      * auto.
      * destruct (hlt x); reflexivity.
Qed.

(** Any number of steps, as long as every state on the way is supported. *)
Theorem C57_run_partial : forall p_is_zero n m s s',
  rel m s ->
  (forall k m1 s1, (k < n)%nat -> steps p_is_zero k m = Ok m1 -> spec_steps k s = Some s1 ->
     supported m1 s1) ->
  spec_steps n s = Some s' ->
  exists m', steps p_is_zero n m = Ok m' /\ rel m' s'.
Proof.
  intros pz. induction n as [|n IH]; intros m s s' R H E.
  - cbn [spec_steps] in E. inversion E; subst s'. exists m. auto.
  - cbn [spec_steps] in E. destruct (spec_step s) as [s1|] eqn:E1; [|discriminate E].
    destruct (C57_step_partial pz m s s1 R) as (m1 & M1 & R1); auto.
    { apply (H 0%nat); auto with arith. }
    destruct (IH m1 s1 s' R1) as (m' & M' & R'); auto.
    { intros k m2 s2 K M2 S2. apply (H (S k)); [auto with arith| |].
      - cbn [steps]. rewrite M1. cbn [bind]. exact M2.
      - cbn [spec_steps]. rewrite E1. exact S2. }
    exists m'. split; [|exact R']. cbn [steps]. rewrite M1. exact M'.
Qed.

(** A concrete case: an indirect jump, then [CLA CLL; TAD 20; CIA; TAD 21; DCA 22;
    HLT]. *)
Definition demo_code : list inst8 :=
  [IMri oJMP (Mri INDIRECT PAGE_ZERO 16);
   IOpr1 (Opr1 true true false false false false false false);
   IMri oTAD (Mri DIRECT PAGE_ZERO 20);
   IOpr1 (Opr1 false false true false false false false true);
   IMri oTAD (Mri DIRECT CURRENT_PAGE 21);
   IMri oDCA (Mri DIRECT PAGE_ZERO 22);
   IOpr2 (Opr2 false false false false false false true)].
Definition demo_m : pdp8 :=
  pdp8_init (map VInst demo_code ++ repeat (VI 0) 9 ++
             [VB 12 1; VI 0; VI 0; VI 0; VB 12 100; VB 12 58]).
Definition abs_cell (v : dv) : scell :=
  match v with VB _ z | VI z => SW z | VInst i => SI i end.
Definition demo_s : sst := Sst 0 0 false true (fun a => abs_cell (mem demo_m a)).

Lemma demo_rel : rel demo_m demo_s.
Proof.
  unfold rel. refine (conj _ (conj _ (conj eq_refl (conj _ (conj eq_refl (conj eq_refl _)))))).
  - exists 12. split; [lia|reflexivity].
  - unfold in12. cbn [demo_s s_pc]. lia.
  - unfold in12. cbn [demo_s s_acc]. lia.
  - intros a A. cbn [demo_s s_mem]. unfold demo_m, pdp8_init. cbn [mem].
    assert (F : Forall (fun v => cell_rel v (abs_cell v))
      (map VInst demo_code ++ repeat (VI 0) 9 ++
             [VB 12 1; VI 0; VI 0; VI 0; VB 12 100; VB 12 58])).
    { repeat constructor; cbn; unfold in12; intuition (try discriminate; try lia). }
    destruct (nth_error _ (Z.to_nat a)) as [v|] eqn:N.
    + rewrite Forall_forall in F. apply F. exact (nth_error_In _ _ N).
    + cbn. unfold in12. lia.
Qed.

Definition no_match (p : mp) : bool := false.

Example C57_run_case :
  (forall k m1 s1, (k < 7)%nat -> steps no_match k demo_m = Ok m1 ->
     spec_steps k demo_s = Some s1 -> supported m1 s1) /\
  match spec_steps 7 demo_s with
  | Some s' => (s_mem s' 22, s_run s', s_pc s') = (SW 4054, false, 7)
  | None => False
  end.
Proof.
  split; [|vm_compute; reflexivity].
  assert (S : forall k, (k < 7)%nat ->
    match steps no_match k demo_m, spec_steps k demo_s with
    | Ok m1, Some s1 => supported m1 s1
    | _, _ => True
    end).
  { intros k K. do 7 (destruct k as [|k]; [vm_compute; intuition (try discriminate; auto)|]).
    exfalso. lia. }
  intros k m1 s1 K M1 S1. specialize (S k K). rewrite M1, S1 in S. exact S.
Qed.

(** ** What goes wrong *)

Lemma steps_app pz n k m : steps pz (n + k) m = do m' <- steps pz n m; steps pz k m'.
Proof.
  revert m. induction n as [|n IH]; intros m; [reflexivity|]. cbn [Nat.add steps].
  destruct (step pz m); [apply IH|reflexivity].
Qed.

(** SNL and SZL skip on the opposite value of the link. *)
Theorem C57_snl_refuted : forall p_is_zero m s x,
  rel m s -> running m = true -> pc m = VB 12 (s_pc s) ->
  s_mem s (s_pc s) = SI (IOpr2 x) ->
  sma x = false -> sza x = false -> snl x = true -> osr x = false ->
  exists m' s', step p_is_zero m = Ok m' /\ spec_step s = Some s' /\
    s_pc s' = (if xorb (skip x) (s_lnk s) then inc (inc (s_pc s)) else inc (s_pc s)) /\
    pc m' = VB 12 (if xorb (skip x) (s_lnk s) then inc (s_pc s) else inc (inc (s_pc s))).
Proof.
  intros pz m s x R Run Pc C Sm Sz Sn Os.
  pose proof R as (_ & P12' & Ac & A12 & Lk & Rn & Mm).
  pose proof (Mm _ P12') as Cp. rewrite C in Cp.
  unfold step, spec_step. rewrite Run. rewrite Run in Rn. rewrite <- Rn, C, Os. cbn [negb].
  rewrite Pc. unfold load. rewrite index_ok by exact P12'. cbn [bind add1].
  destruct (mem m (s_pc s)) as [w1 z1|z1|i1]; cbn [cell_rel] in Cp; try contradiction.
  destruct Cp as [-> _].
  assert (K : skips x (acc m) (lnk m) = negb (xorb (skip x) (s_lnk s))).
  { unfold skips. rewrite Sm, Sz, Sn, Lk. destruct (skip x), (s_lnk s); reflexivity. }
  rewrite K. unfold spec_skip. rewrite Sm, Sz, Sn.
  change (false && (2048 <=? s_acc s)) with false. change (false && (s_acc s =? 0)) with false.
  cbn [orb andb].
  eexists; eexists. split; [|split; [reflexivity|split; [reflexivity|]]].
  - instantiate (1 := Pdp8 (VB 12 (if xorb (skip x) (s_lnk s) then inc (s_pc s) else inc (inc (s_pc s)))) _ _ _ _).
    destruct (xorb (skip x) (s_lnk s)); reflexivity.
  - reflexivity.
Qed.

(** An instruction whose page is not taken to be page zero, outside page zero:
    every memory reference but a direct jump is an IndexError, and the jump goes
    outside the memory. *)
Theorem C57_page_refuted : forall p_is_zero m z op x,
  running m = true -> pc m = VB 12 z -> 128 <= z < 4095 ->
  mem m z = VInst (IMri op x) -> 0 <= m_addr x < 128 -> p_is_zero (m_p x) = false ->
  (op = oJMP /\ m_i x = DIRECT ->
     exists m', step p_is_zero m = Ok m' /\ step p_is_zero m' = Err IndexError) /\
  (~ (op = oJMP /\ m_i x = DIRECT) -> step p_is_zero m = Err IndexError).
Proof.
  intros pz m z op x Run Pc Z C A Pz.
  assert (Ad : exists w t, 4096 <= t /\
    addr pz (mem m) x (VB 12 (wrap 12 (z + 1))) =
      match m_i x with INDIRECT => load (mem m) (VB w t) | DIRECT => Ok (VB w t) end).
  { unfold addr. rewrite Pz. cbn [bind]. exists (12 + (12 - 7)), (m_addr x + 4096 * (z / 128)).
    assert (D : 1 <= z / 128) by (apply Z.div_le_lower_bound; lia).
    split; [lia|]. rewrite (wrap_small 12 (z + 1)) by (rewrite P12; lia).
    replace (z + 1 - 1) with z by lia. rewrite (wrap_small 12 z) by (rewrite P12; lia).
    rewrite concat12 by lia. rewrite slice_eq by lia. change (2 ^ 7) with 128.
    change (2 ^ (12 - 7)) with 32. rewrite Z.mod_small; [reflexivity|].
    split; [lia|]. apply Z.div_lt_upper_bound; lia. }
  destruct Ad as (w & t & T & Ad).
  assert (Ix : index (VB w t) = Err IndexError).
  { unfold index. destruct (Z.leb_spec 0 t); [|lia]. destruct (Z.ltb_spec t 4096); [lia|]. reflexivity. }
  assert (L : load (mem m) (VB 12 z) = Ok (VInst (IMri op x))).
  { unfold load. rewrite index_ok by (unfold in12; lia). cbn [bind]. rewrite C. reflexivity. }
  split.
  - intros [-> Mi]. unfold step at 1. rewrite Run, Pc, L. cbn [negb bind add1]. rewrite Ad, Mi.
    cbn [bind]. eexists. split; [reflexivity|].
    unfold step. cbn [running negb pc mem]. unfold load. rewrite Ix. reflexivity.
  - intros N. unfold step. rewrite Run, Pc, L. cbn [negb bind add1]. rewrite Ad.
    unfold load, store. destruct (m_i x) eqn:Mi; [|rewrite Ix; reflexivity].
    cbn [bind]. destruct op; rewrite ?Ix; try reflexivity. exfalso. auto.
Qed.

(** Concrete disagreements; each state is a freshly loaded memory with the
    accumulator set. *)
Definition st (cells : list dv) (a : Z) : pdp8 := poke_acc (pdp8_init cells) a.
Definition abs (m : pdp8) : sst :=
  Sst (match pc m with VB _ z | VI z => z | VInst _ => 0 end) (acc m) (lnk m) (running m)
      (fun a => abs_cell (mem m a)).

Lemma st_rel cells a : in12 a -> Forall (fun v => cell_rel v (abs_cell v)) cells ->
  rel (st cells a) (abs (st cells a)).
Proof.
  intros A F. unfold rel, st, poke_acc, abs, pdp8_init. cbn [pc acc lnk running mem s_pc s_acc s_lnk s_run s_mem].
  rewrite (wrap_small 12 a) by exact A.
  refine (conj _ (conj _ (conj eq_refl (conj A (conj eq_refl (conj eq_refl _)))))).
  - exists 12. split; [lia|reflexivity].
  - unfold in12. lia.
  - intros j J. destruct (nth_error cells (Z.to_nat j)) as [v|] eqn:N.
    + rewrite Forall_forall in F. apply F. exact (nth_error_In _ _ N).
    + cbn [cell_rel abs_cell]. unfold in12. lia.
Qed.

Definition op1 := IOpr1 (Opr1 false false false false false false false true).
Definition bsw := IOpr1 (Opr1 false false false false false false true false).

(** An increment from 4095 does not complement the link; TWICE alone does not swap
    the two halves. *)
Theorem C57_opr1_refuted : forall p_is_zero,
  (exists m, rel m (abs m) /\
     match step p_is_zero m, spec_step (abs m) with
     | Ok m', Some s' => acc m' = 0 /\ s_acc s' = 0 /\ lnk m' = false /\ s_lnk s' = true
     | _, _ => False
     end) /\
  (exists m, rel m (abs m) /\
     match step p_is_zero m, spec_step (abs m) with
     | Ok m', Some s' => acc m' = 1 /\ s_acc s' = 64
     | _, _ => False
     end).
Proof.
  intros pz. split.
  - exists (st [VInst op1] 4095). split; [apply st_rel; [unfold in12; lia|repeat constructor]|].
    vm_compute. auto.
  - exists (st [VInst bsw] 1). split; [apply st_rel; [unfold in12; lia|repeat constructor]|].
    vm_compute. auto.
Qed.

(** A pointer in location 8 is not incremented; adding a cell that was never
    written fails. *)
Theorem C57_memory_refuted : forall p_is_zero,
  (exists m, rel m (abs m) /\
     match step p_is_zero m, spec_step (abs m) with
     | Ok m', Some s' => pc m' = VB 12 7 /\ s_pc s' = 8
     | _, _ => False
     end) /\
  (exists m, rel m (abs m) /\ spec_step (abs m) <> None /\
     step p_is_zero m = Err AttributeError).
Proof.
  intros pz. split.
  - exists (st (VInst (IMri oJMP (Mri INDIRECT PAGE_ZERO 8)) :: repeat (VB 12 0) 7 ++ [VB 12 7]) 0).
    split.
    + apply st_rel; [unfold in12; lia|].
      repeat constructor; cbn [cell_rel abs_cell inst8_ok m_addr]; unfold in12; try lia.
    + unfold step. vm_compute. destruct (pz PAGE_ZERO); vm_compute; auto.
  - exists (st [VInst (IMri oTAD (Mri DIRECT PAGE_ZERO 1))] 0). split; [|split].
    + apply st_rel; [unfold in12; lia|].
      repeat constructor; cbn [cell_rel abs_cell inst8_ok m_addr]; unfold in12; try lia.
    + vm_compute. discriminate.
    + vm_compute. destruct (pz PAGE_ZERO); vm_compute; reflexivity.
Qed.

(** A counter that was never written is never zero again: the loop [ISZ 2; JMP 0]
    does not end, whatever the number of rounds. *)
Definition isz_loop : list dv :=
  [VInst (IMri oISZ (Mri DIRECT PAGE_ZERO 2)); VInst (IMri oJMP (Mri DIRECT PAGE_ZERO 0))].
Theorem C57_isz_refuted : forall p_is_zero n,
  exists m', steps p_is_zero (2 * n) (pdp8_init isz_loop) = Ok m' /\
    (exists w, pc m' = VB w 0) /\ mem m' 2 = VI (Z.of_nat n).
Proof.
  intros pz n.
  assert (G : exists m', steps pz (2 * n) (pdp8_init isz_loop) = Ok m' /\
    (exists w, 12 <= w /\ pc m' = VB w 0) /\ running m' = true /\
    mem m' 0 = VInst (IMri oISZ (Mri DIRECT PAGE_ZERO 2)) /\
    mem m' 1 = VInst (IMri oJMP (Mri DIRECT PAGE_ZERO 0)) /\ mem m' 2 = VI (Z.of_nat n)).
  { induction n as [|n IH].
    - exists (pdp8_init isz_loop). split; [reflexivity|]. split; [exists 12; split; [lia|reflexivity]|].
      repeat split; reflexivity.
    - destruct IH as (m & M & (w & W & Pc) & Run & C0 & C1 & C2).
      replace (2 * S n)%nat with (2 * n + 2)%nat by lia. rewrite steps_app, M. cbn [bind].
      destruct (addr_direct pz (mem m) (Mri DIRECT PAGE_ZERO 2) w 0) as (w1 & W1 & A1); [cbn [m_addr]; lia|lia|lia|].
      set (m2 := fun j => if j =? 2 then VI (Z.of_nat n + 1) else mem m j).
      destruct (addr_direct pz m2 (Mri DIRECT PAGE_ZERO 0) w 1) as (w2 & W2 & A2); [cbn [m_addr]; lia|lia|lia|].
      cbn [m_i m_addr] in A1, A2.
      assert (P2 : 4096 <= 2 ^ w) by (pose proof (Z.pow_le_mono_r 2 12 w ltac:(lia) W); rewrite P12 in *; lia).
      assert (S1 : step pz m = Ok (Pdp8 (VB w 1) (acc m) (lnk m) true m2)).
      { unfold step. rewrite Run, Pc. cbn [negb]. unfold load. rewrite index_ok by (unfold in12; lia).
        cbn [bind add1]. rewrite C0, A1. cbn [bind]. rewrite index_ok by (unfold in12; lia).
        cbn [bind]. rewrite C2. cbn [add1 bind]. unfold store. rewrite index_ok by (unfold in12; lia).
        cbn [bind is0]. destruct (Z.eqb_spec (Z.of_nat n + 1) 0); [lia|]. cbn [bind].
        change (0 + 1) with 1. rewrite (wrap_small w 1) by lia. reflexivity. }
      assert (S2 : step pz (Pdp8 (VB w 1) (acc m) (lnk m) true m2) = Ok (Pdp8 (VB w2 0) (acc m) (lnk m) true m2)).
      { unfold step. cbn [negb running pc mem acc lnk]. unfold load. rewrite index_ok by (unfold in12; lia).
        cbn [bind add1].
        assert (B1 : m2 1 = VInst (IMri oJMP (Mri DIRECT PAGE_ZERO 0))) by exact C1. rewrite B1, A2.
        reflexivity. }
      exists (Pdp8 (VB w2 0) (acc m) (lnk m) true m2). split.
      + change (steps pz 2 m) with (do s' <- step pz m; do s'' <- step pz s'; Ok s'').
        rewrite S1. cbn [bind]. rewrite S2. reflexivity.
      + cbn [pc running mem]. split; [exists w2; split; [lia|reflexivity]|].
        split; [reflexivity|]. split; [exact C0|]. split; [exact C1|].
        unfold m2. change (2 =? 2) with true. cbv iota. f_equal. lia. }
  destruct G as (m' & M & (w & _ & Pc) & _ & _ & _ & C2). exists m'. eauto.
Qed.
(** The PDP-8 leaves it after 4096 rounds. *)
Example C57_isz_case :
  match spec_steps (Z.to_nat 8191) (abs (st (VInst (IMri oISZ (Mri DIRECT PAGE_ZERO 2)) ::
          VInst (IMri oJMP (Mri DIRECT PAGE_ZERO 0)) :: []) 0)) with
  | Some s' => s_pc s' = 2
  | None => False
  end.
Proof. vm_compute. reflexivity. Qed.

(** After a jump the program counter has more than 12 bits and leaves the memory
    instead of wrapping. *)
Definition nops : list dv :=
  VInst (IMri oJMP (Mri DIRECT PAGE_ZERO 1)) :: repeat (VInst (IOpr1 (Opr1 false false false false false false false false))) (Z.to_nat 4095).
Theorem C57_wrap_refuted : forall p_is_zero,
  steps p_is_zero (Z.to_nat 4097) (pdp8_init nops) = Err IndexError /\
  match spec_steps (Z.to_nat 4097) (abs (pdp8_init nops)) with
  | Some s' => s_pc s' = 1
  | None => False
  end.
Proof.
  intros pz. split; [|vm_compute; reflexivity].
  replace (Z.to_nat 4097) with (1 + Z.to_nat 4096)%nat by lia. rewrite steps_app.
  assert (S1 : steps pz 1 (pdp8_init nops) = Ok (Pdp8 (VB 17 1) 0 false true (mem (pdp8_init nops)))).
  { assert (L : load (mem (pdp8_init nops)) (VB 12 0) =
                Ok (VInst (IMri oJMP (Mri DIRECT PAGE_ZERO 1)))) by reflexivity.
    unfold steps, step. change (running (pdp8_init nops)) with true.
    change (pc (pdp8_init nops)) with (VB 12 0). cbn [negb]. rewrite L. cbn [bind add1].
    unfold addr. cbn [m_p m_i m_addr]. destruct (pz PAGE_ZERO); reflexivity. }
  rewrite S1. cbn [bind].
  transitivity (steps no_match (Z.to_nat 4096) (Pdp8 (VB 17 1) 0 false true (mem (pdp8_init nops)))).
  2: vm_compute; reflexivity.
  (* no memory reference is executed *)
  generalize (Z.to_nat 4096) as n.
  assert (G : forall n z, 1 <= z -> forall a l,
    steps pz n (Pdp8 (VB 17 z) a l true (mem (pdp8_init nops))) =
    steps no_match n (Pdp8 (VB 17 z) a l true (mem (pdp8_init nops)))).
  2:{ intros n. apply G. lia. }
  induction n as [|n IH]; intros z Hz a l; [reflexivity|].
  cbn [steps]. unfold step. cbn [negb running pc mem acc lnk].
  unfold load. destruct (index (VB 17 z)) as [k|] eqn:Ix; [|reflexivity]. cbn [bind add1].
  assert (K : k = z /\ 1 <= k < 4096).
  { unfold index in Ix. destruct (Z.leb_spec 0 z), (Z.ltb_spec z 4096); inversion Ix; lia. }
  destruct K as [-> K].
  assert (N : mem (pdp8_init nops) z = VInst (IOpr1 (Opr1 false false false false false false false false))).
  { unfold pdp8_init. cbn [mem]. replace (Z.to_nat z) with (S (Z.to_nat (z - 1))) by lia.
    unfold nops. cbn [nth_error]. rewrite nth_error_repeat by lia. reflexivity. }
  rewrite N. cbn [do_opr1 cla1 cma cll cml iac ral rar twice bind].
  rewrite (wrap_small 17) by (change (2 ^ 17) with 131072; lia). apply IH. lia.
Qed.

Theorem C57_full_refuted : ~ C57_full.
Proof.
  intros F. destruct (C57_opr1_refuted no_match) as [(m & R & X) _].
  specialize (F no_match m (abs m)).
  destruct (spec_step (abs m)) as [s'|]; [|destruct (step no_match m); contradiction].
  destruct (F s' R eq_refl) as (m' & M' & R'). rewrite M' in X.
  destruct R' as (_ & _ & _ & _ & L & _). destruct X as (_ & _ & L1 & L2). congruence.
Qed.

(** The testing interface: poking sets the named part to the value, truncated, and
    nothing else. A cell that still holds an instruction can not be poked. *)
Theorem C57_poke : forall s a z l,
  poke_mem s a z = (match mem s (a mod 4096) with
                    | VInst _ => Err TypeError
                    | _ => Ok (Pdp8 (pc s) (acc s) (lnk s) (running s) (fun j => if j =? a mod 4096 then VB 12 (z mod 4096) else mem s j))
                    end) /\
  poke_acc s z = Pdp8 (pc s) (z mod 4096) (lnk s) (running s) (mem s) /\
  poke_lnk s l = Pdp8 (pc s) (acc s) l (running s) (mem s) /\
  poke_pc s z = Pdp8 (VB 12 (z mod 4096)) (acc s) (lnk s) (running s) (mem s).
Proof. intros s a z l. repeat split. Qed.

Print Assumptions C57_step_partial.
Print Assumptions C57_run_partial.
Print Assumptions C57_poke.
Print Assumptions C57_full_refuted.
Print Assumptions C57_snl_refuted.
Print Assumptions C57_page_refuted.
Print Assumptions C57_opr1_refuted.
Print Assumptions C57_memory_refuted.
Print Assumptions C57_isz_refuted.
Print Assumptions C57_wrap_refuted.
