(** C54, C55, C62, C63, C64: the processing elements of examples/pe1,
    examples/pe and examples/PE_lut. *)
From Coq Require Import ZArith List Bool Lia.
From Verif Require Import Base BaseLemmas BvModel BvLemmas PeModel.
Import ListNotations.
Open Scope Z_scope.

(** ** Meanings, on integers *)

Definition word (x : Z) : Prop := 0 <= x < 65536.
Definition sval (x : Z) : Z := if x <? 32768 then x else x - 65536.
Definition num (s : signedness) (x : Z) : Z :=
  match s with Unsigned => x | Signed => sval x end.

(** The operand a register hands to the PE. *)
Definition operand {T} (m : mode) (const value stored : T) : T :=
  match m with CONST => const | BYPASS => value | VALID | DELAY => stored end.

(** What the register holds afterwards. *)
Definition kept {T} (m : mode) (value : T) (en : bool) (stored : T) : T :=
  match m with
  | DELAY => value
  | VALID => if en then value else stored
  | CONST | BYPASS => stored
  end.

(** The comparison a condition code names (comments in examples/pe1/cond.py:8-25
    and the names of the members); [None]: the code names no comparison. *)
Definition named (c : ccode) (a b : Z) : option bool :=
  match c with
  | cZ => Some (a =? b)
  | cZ_n => Some (negb (a =? b))
  | cC => Some (b <=? a)
  | cC_n => Some (a <? b)
  | cUGT => Some (b <? a)
  | cULE => Some (a <=? b)
  | cSGE => Some (sval b <=? sval a)
  | cSLT => Some (sval a <? sval b)
  | cSGT => Some (sval b <? sval a)
  | cSLE => Some (sval a <=? sval b)
  | _ => None
  end.

(** Flags of a 16-bit result [r]. *)
Definition negative (r : Z) : bool := 32768 <=? r.
Definition out_of_range (x : Z) : bool := (x <? -32768) || (32767 <? x).

(** The table entry the three bits address. *)
Definition entry (tbl : Z) (b0 b1 b2 : bool) : bool :=
  Z.odd (tbl / 2 ^ ((if b0 then 1 else 0) + (if b1 then 2 else 0) + (if b2 then 4 else 0))).

(** The data result of an ALU operation with the given signedness. *)
Definition alu_means (op : aluop) (s : signedness) (a b : Z) (d : bool) (r : Z) : Prop :=
  word r /\
  match op with
  | Add => r = (a + b) mod 65536
  | Sub => r = (a - b) mod 65536
  | Mult0 => r = (num s a * num s b) mod 65536
  | Mult1 => r = (num s a * num s b / 256) mod 65536
  | Mult2 => r = (num s a * num s b / 65536) mod 65536
  | GTE_Max => (r = a \/ r = b) /\ num s a <= num s r /\ num s b <= num s r
  | LTE_Min => (r = a \/ r = b) /\ num s r <= num s a /\ num s r <= num s b
  | Abs => r = Z.abs (num s a) mod 65536
  | Sel => r = if d then a else b
  | And => forall k, 0 <= k -> Z.testbit r k = Z.testbit a k && Z.testbit b k
  | Or => forall k, 0 <= k -> Z.testbit r k = Z.testbit a k || Z.testbit b k
  | XOr => forall k, 0 <= k -> Z.testbit r k = xorb (Z.testbit a k) (Z.testbit b k)
  | SHR => r = (num s a / 2 ^ (b mod 16)) mod 65536
  | SHL => r = (a * 2 ^ (b mod 16)) mod 65536
  end.

(** ** Lemmas *)

Ltac wd := vm_compute; intuition discriminate.

Lemma P16 : 2 ^ 16 = 65536. Proof. reflexivity. Qed.
Lemma P15 : 2 ^ (16 - 1) = 32768. Proof. reflexivity. Qed.

Lemma wrap16 x : wrap 16 x = x mod 65536. Proof. reflexivity. Qed.

Lemma ts_sval x : word x -> to_signed 16 x = sval x.
Proof. intros H. rewrite to_signed_eq by (unfold word in H; lia). reflexivity. Qed.

Lemma sval_range x : word x -> -32768 <= sval x < 32768.
Proof. unfold word, sval. intros. destruct (Z.ltb_spec x 32768); lia. Qed.

Lemma bit15 x : word x -> bvbit x 15 = negative x.
Proof. intros H. apply (top_bit 16 x); [lia|exact H]. Qed.

Lemma adc_spec a b c : word a -> word b ->
  adc 16 a b c = ((a + b + b2z c) mod 65536, 65536 <=? a + b + b2z c).
Proof.
  unfold word. intros A B. unfold adc. rewrite !bvzext_eq.
  assert (R : 0 <= a + b + b2z c < 2 ^ 17) by (change (2 ^ 17) with 131072; destruct c; cbn [b2z]; lia).
  rewrite wrap_small by exact R. f_equal.
  - rewrite slice_eq by lia. rewrite Z.pow_0_r, Z.div_1_r. reflexivity.
  - exact (top_bit 17 _ ltac:(lia) R).
Qed.

Lemma bvnot16 b : word b -> bvnot 16 b = 65535 - b.
Proof. intros H. rewrite bvnot_eq by (unfold word in H; lia). rewrite P16. lia. Qed.

Lemma mod16_cases x : -65536 <= x < 131072 ->
  x mod 65536 = if x <? 0 then x + 65536 else if x <? 65536 then x else x - 65536.
Proof.
  intros R. destruct (Z.ltb_spec x 0); [|destruct (Z.ltb_spec x 65536)].
  - rewrite <- (Z.mod_small (x + 65536) 65536) by lia.
    rewrite <- (Z.mod_add x 1) by discriminate. f_equal; lia.
  - apply Z.mod_small; lia.
  - rewrite <- (Z.mod_small (x - 65536) 65536) by lia.
    rewrite <- (Z.mod_add x (-1)) by discriminate. f_equal; lia.
Qed.

Ltac noif x := lazymatch x with context [if _ then _ else _] => fail | _ => idtac end.
Ltac zcases :=
  repeat match goal with
  | |- context [?x <? ?y] => noif x; noif y; destruct (Z.ltb_spec x y)
  | |- context [?x <=? ?y] => noif x; noif y; destruct (Z.leb_spec x y)
  | |- context [?x =? ?y] => noif x; noif y; destruct (Z.eqb_spec x y)
  end; cbn [andb orb negb Bool.eqb xorb]; try reflexivity; try lia.

Lemma add_flags a b : word a -> word b ->
  overflow 16 a b ((a + b) mod 65536) = out_of_range (sval a + sval b).
Proof.
  intros A B. unfold overflow. change (16 - 1) with 15.
  rewrite !bit15 by (auto; apply Z.mod_pos_bound; reflexivity).
  unfold word in *. rewrite mod16_cases by lia.
  unfold negative, out_of_range, sval. zcases.
Qed.

Lemma sub_flags a b : word a -> word b ->
  overflow 16 a (65535 - b) ((a - b) mod 65536) = out_of_range (sval a - sval b).
Proof.
  intros A B. unfold overflow. change (16 - 1) with 15. unfold word in *.
  rewrite !bit15 by (unfold word; first [lia | apply Z.mod_pos_bound; reflexivity]).
  rewrite mod16_cases by lia. unfold negative, out_of_range, sval. zcases.
Qed.

Lemma sub_adc a b : word a -> word b ->
  adc 16 a (bvnot 16 b) true = ((a - b) mod 65536, b <=? a).
Proof.
  intros A B. rewrite bvnot16 by auto. unfold word in *.
  rewrite adc_spec by (unfold word; lia). cbn [b2z]. f_equal.
  - rewrite <- (Z.mod_add (a - b) 1) by discriminate. f_equal; lia.
  - zcases.
Qed.

Lemma word_mod x : word (x mod 65536).
Proof. apply Z.mod_pos_bound. reflexivity. Qed.

(** The ALU on Sub, whatever the signedness. *)
Lemma alu_sub s a b d : word a -> word b ->
  alu Sub s a b d = ((a - b) mod 65536, b <=? a, (a - b) mod 65536 =? 0,
                     negative ((a - b) mod 65536), b <=? a, out_of_range (sval a - sval b)).
Proof.
  intros A B. unfold alu. destruct s; rewrite sub_adc by auto;
    rewrite bvnot16 by auto; rewrite sub_flags by auto; rewrite bit15 by apply word_mod;
    reflexivity.
Qed.

Lemma alu_add s a b d : word a -> word b ->
  alu Add s a b d = ((a + b) mod 65536, 65536 <=? a + b, (a + b) mod 65536 =? 0,
                     negative ((a + b) mod 65536), 65536 <=? a + b, out_of_range (sval a + sval b)).
Proof.
  intros A B. unfold alu. destruct s; rewrite adc_spec by auto; cbn [b2z]; rewrite Z.add_0_r;
    rewrite add_flags by auto; rewrite bit15 by apply word_mod; reflexivity.
Qed.

Lemma cond_named c a b alu lutr v : word a -> word b -> named c a b = Some v ->
  cond c alu lutr ((a - b) mod 65536 =? 0) (negative ((a - b) mod 65536)) (b <=? a)
    (out_of_range (sval a - sval b)) = PBit v.
Proof.
  unfold word. intros A B. rewrite mod16_cases by lia.
  destruct c; cbn [named cond]; intros E; try discriminate E; inversion E; f_equal;
    unfold negative, out_of_range, sval; zcases.
Qed.

Lemma mode_call_eq {T} (v : T) m c x en :
  mode_call v m c x en =
  (operand m c x v, kept m x en v).
Proof. destruct m; reflexivity. Qed.

(** ** The LUT (C55) *)

Lemma lut_entry tbl b0 b1 b2 : 0 <= tbl < 256 -> lut tbl b0 b1 b2 = entry tbl b0 b1 b2.
Proof.
  intros R. unfold lut, entry, bvbit. rewrite bvzext_eq.
  assert (E : lut_idx b0 b1 b2 =
    (if b0 then 1 else 0) + (if b1 then 2 else 0) + (if b2 then 4 else 0))
    by (destruct b0, b1, b2; reflexivity).
  rewrite E. set (i := (if b0 then 1 else 0) + (if b1 then 2 else 0) + (if b2 then 4 else 0)).
  assert (0 <= i) by (destruct b0, b1, b2; subst i; lia).
  rewrite bvlshr_eq by (auto; lia).
  change 1 with (Z.ones 1). rewrite Z.land_ones by lia.
  rewrite Z.mod_pow2_bits_low by lia. rewrite Z.bit0_odd. reflexivity.
Qed.

(** C55: the LUT of the three examples selects the addressed bit of the table. *)
Theorem C55_lut : forall tbl b0 b1 b2, 0 <= tbl < 256 ->
  lut tbl b0 b1 b2 = entry tbl b0 b1 b2.
Proof. exact lut_entry. Qed.

(** Through the PEs: with the condition [LUT] the one-bit output is the table
    entry addressed by the three bit operands, whatever the ALU does; for PE_lut
    always, together with the data result for every width. *)
Theorem C55_pe1 : forall truthy p i x, 0 <= i_lut i < 256 -> i_cond i = cLUT ->
  exists r p',
    pe1_call truthy p i x =
      (r, PBit (entry (i_lut i)
                  (operand (i_regd i) (i_bit0 i) (a_bit0 x) (regd p))
                  (operand (i_rege i) (i_bit1 i) (a_bit1 x) (rege p))
                  (operand (i_regf i) (i_bit2 i) (a_bit2 x) (regf p))), false, p').
Proof.
  intros truthy p i x R C. unfold pe1_call. rewrite !mode_call_eq.
  destruct (alu _ _ _ _ _) as [[[[[r q] z] n] c] v]. rewrite C. cbn [cond].
  rewrite lut_entry by auto. eexists _, _. reflexivity.
Qed.

Theorem C55_pe_lut : forall w op imm tbl d0 d1 b0 b1 b2,
  0 < w -> 0 <= imm < 2 ^ w -> 0 <= d0 < 2 ^ w -> 0 <= d1 < 2 ^ w -> 0 <= tbl < 256 ->
  plut_call w op imm tbl d0 d1 b0 b1 b2 =
    (match op with LImm => imm | LAdd => (d0 + d1) mod 2 ^ w | LMux => if b0 then d0 else d1 end,
     entry tbl b0 b1 b2).
Proof. intros. unfold plut_call. rewrite lut_entry by auto. destruct op; reflexivity. Qed.

(** The table of the majority function 0xe8: the output is 1 iff two inputs are. *)
Example C55_case :
  map (fun t => match t with (x, y, z) => lut 232 x y z end)
    [(true, false, false); (true, true, false); (false, true, true); (true, false, true)]
  = [false; true; true; true].
Proof. reflexivity. Qed.

(** Distinct tables are distinguished by some input. *)
Theorem C55_tables : forall t u, 0 <= t < 256 -> 0 <= u < 256 ->
  (forall b0 b1 b2, lut t b0 b1 b2 = lut u b0 b1 b2) -> t = u.
Proof.
  intros t u T U H. apply Z.bits_inj'. intros k K.
  destruct (Z.lt_ge_cases k 8) as [L|L].
  - assert (G : forall tbl, 0 <= tbl < 256 ->
      lut tbl (Z.testbit k 0) (Z.testbit k 1) (Z.testbit k 2) = Z.testbit tbl k).
    { intros tbl R. rewrite lut_entry by auto. unfold entry.
      rewrite <- Z.bit0_odd, Z.div_pow2_bits by
        (destruct (Z.testbit k 0), (Z.testbit k 1), (Z.testbit k 2); lia).
      f_equal. assert (C : k = 0 \/ k = 1 \/ k = 2 \/ k = 3 \/ k = 4 \/ k = 5 \/ k = 6 \/ k = 7) by lia.
      decompose [or] C; subst k; reflexivity. }
    rewrite <- (G t T), <- (G u U). apply H.
  - rewrite (testbit_high 8 t k), (testbit_high 8 u k); auto.
Qed.

(** ** Comparisons (C54) *)

(** C54: for every state of the registers, every mode, every operands and
    whatever the signedness field says, an instruction that subtracts and whose
    condition names a comparison outputs the comparison of its two operands. *)
Theorem C54_compare : forall truthy p i x v,
  let a := operand (i_rega i) (i_data0 i) (a_data0 x) (rega p) in
  let b := operand (i_regb i) (i_data1 i) (a_data1 x) (regb p) in
  word a -> word b -> i_alu i = Sub -> named (i_cond i) a b = Some v ->
  exists p', pe1_call truthy p i x = ((a - b) mod 65536, PBit v, false, p').
Proof.
  intros truthy p i x v a b A B S N. unfold pe1_call. rewrite !mode_call_eq.
  fold a b. rewrite S, alu_sub by auto. rewrite (cond_named _ a b) with (v := v) by auto.
  eexists. reflexivity.
Qed.

(** The remaining codes after a subtraction: N and V are the sign and the signed
    overflow of the difference. *)
Theorem C54_flags : forall truthy p i x,
  let a := operand (i_rega i) (i_data0 i) (a_data0 x) (rega p) in
  let b := operand (i_regb i) (i_data1 i) (a_data1 x) (regb p) in
  let d := (a - b) mod 65536 in
  word a -> word b -> i_alu i = Sub ->
  snd (fst (fst (pe1_call truthy p i x))) =
    match i_cond i with
    | cN => PBit (32768 <=? d)
    | cN_n => PBit (d <? 32768)
    | cV => PBit (out_of_range (sval a - sval b))
    | cV_n => PBit (negb (out_of_range (sval a - sval b)))
    | _ => snd (fst (fst (pe1_call truthy p i x)))
    end.
Proof.
  intros truthy p i x a b d A B S. unfold pe1_call. rewrite !mode_call_eq.
  fold a b. rewrite S, alu_sub by auto. cbn [fst snd].
  destruct (i_cond i); try reflexivity. cbn [cond]. unfold negative. fold d. f_equal.
  zcases.
Qed.

(** The helpers of asm.py, called on a PE in any state. *)
Definition helper (c : ccode) : inst := asm_inst Sub Unsigned c.
Theorem C54_asm : forall truthy p a b b0 b1 b2 en, word a -> word b ->
  let out i := snd (fst (fst (pe1_call truthy p i (Args a b b0 b1 b2 en)))) in
  out asm_eq = PBit (a =? b) /\ out asm_ne = PBit (negb (a =? b)) /\
  out asm_ult = PBit (a <? b) /\ out asm_ule = PBit (a <=? b) /\
  out asm_ugt = PBit (b <? a) /\ out asm_uge = PBit (b <=? a) /\
  out asm_slt = PBit (sval a <? sval b) /\ out asm_sle = PBit (sval a <=? sval b) /\
  out asm_sgt = PBit (sval b <? sval a) /\ out asm_sge = PBit (sval b <=? sval a).
Proof.
  intros truthy p a b b0 b1 b2 en A B out.
  assert (H : forall c v, named c a b = Some v -> out (helper c) = PBit v).
  { intros c v N. unfold out.
    destruct (C54_compare truthy p (helper c) (Args a b b0 b1 b2 en) v A B eq_refl N) as [p' E].
    rewrite E. reflexivity. }
  repeat split; apply H; reflexivity.
Qed.

(** Code [ALU] does not select the one-bit result of the ALU: the word is handed
    out where the output is declared a Bit (examples/pe1/sim.py:111,134). *)
Theorem C54_alu_code_refuted : ~ forall truthy p i x, i_cond i = cALU ->
  exists b, snd (fst (fst (pe1_call truthy p i x))) = PBit b.
Proof.
  intros H. destruct (H (fun _ => true) pe1_init (asm_inst Add Unsigned cALU)
    (Args 1 2 false false false true) eq_refl) as [b E]. discriminate E.
Qed.

Example C54_case :
  let p := Pe1 7 9 true false true in
  let run i := pe1_call (fun _ => true) p i (Args 40000 5 false false false true) in
  run asm_ult = (39995, PBit false, false, p) /\ run asm_slt = (39995, PBit true, false, p).
Proof. split; reflexivity. Qed.

(** ** Mode registers (C62) *)

Definition call (T : Type) : Type := (mode * T * T * bool)%type.
Definition writes {T} (c : call T) : bool :=
  match c with (DELAY, _, _, _) => true | (VALID, _, _, en) => en | _ => false end.
Definition written {T} (c : call T) : T := match c with (_, _, x, _) => x end.

Lemma mode_run_app {T} (v : T) l1 l2 :
  mode_run v (l1 ++ l2) =
    (fst (mode_run v l1) ++ fst (mode_run (snd (mode_run v l1)) l2),
     snd (mode_run (snd (mode_run v l1)) l2)).
Proof.
  revert v. induction l1 as [|[[[m c] x] en] l IH]; intros v; cbn [app mode_run fst snd].
  - destruct (mode_run v l2); reflexivity.
  - destruct (mode_call v m c x en) as [r v']. rewrite IH.
    destruct (mode_run v' l) as [rs v'']. reflexivity.
Qed.

Lemma mode_run_nowrite {T} (v : T) l : forallb (fun c => negb (writes c)) l = true ->
  snd (mode_run v l) = v.
Proof.
  revert v. induction l as [|[[[m c] x] en] l IH]; intros v H; [reflexivity|].
  cbn [forallb] in H. apply andb_prop in H as [H1 H2].
  cbn [mode_run]. rewrite mode_call_eq. specialize (IH v H2).
  destruct m; cbn [writes] in H1; try discriminate H1;
    try (destruct en; try discriminate H1); cbn [kept]; destruct (mode_run v l); exact IH.
Qed.

Lemma mode_run_write {T} (v : T) c l : writes c = true ->
  forallb (fun c => negb (writes c)) l = true -> snd (mode_run v (c :: l)) = written c.
Proof.
  destruct c as [[[m c] x] en]. intros W H. cbn [mode_run]. rewrite mode_call_eq.
  pose proof (mode_run_nowrite x l H) as E.
  destruct m; cbn [writes] in W; try discriminate W; try (destruct en; try discriminate W);
    cbn [kept]; destruct (mode_run x l); exact E.
Qed.

Lemma mode_run_length {T} (v : T) l : length (fst (mode_run v l)) = length l.
Proof.
  revert v. induction l as [|[[[m c] x] en] l IH]; intros v; [reflexivity|].
  cbn [mode_run]. destruct (mode_call v m c x en) as [r v']. specialize (IH v').
  destruct (mode_run v' l). cbn [fst length] in *. congruence.
Qed.

(** C62: in every sequence of calls on a mode register, a call in mode CONST
    returns the constant, one in mode BYPASS the value given; a call in mode
    DELAY or VALID returns the value written by the latest call before it that
    wrote (DELAY always, VALID when the clock enable was set), and the initial
    value if none did. The later calls do not matter. *)
Theorem C62_results : forall {T} (v : T) pre m c x en post,
  exists r, nth_error (fst (mode_run v (pre ++ (m, c, x, en) :: post))) (length pre) = Some r /\
  match m with
  | CONST => r = c
  | BYPASS => r = x
  | DELAY | VALID =>
      (forallb (fun c => negb (writes c)) pre = true -> r = v) /\
      (forall p1 w p2, pre = p1 ++ w :: p2 -> writes w = true ->
        forallb (fun c => negb (writes c)) p2 = true -> r = written w)
  end.
Proof.
  intros T v pre m c x en post. rewrite mode_run_app. cbn [fst].
  rewrite nth_error_app2 by (rewrite mode_run_length; auto).
  rewrite mode_run_length, Nat.sub_diag. cbn [mode_run]. rewrite mode_call_eq.
  destruct (mode_run _ post) as [rs vv]. cbn [fst nth_error]. eexists. split; [reflexivity|].
  assert (G : (forallb (fun c => negb (writes c)) pre = true -> snd (mode_run v pre) = v) /\
      (forall p1 w p2, pre = p1 ++ w :: p2 -> writes w = true ->
        forallb (fun c => negb (writes c)) p2 = true -> snd (mode_run v pre) = written w)).
  { split; [apply mode_run_nowrite|]. intros p1 w p2 -> W N. rewrite mode_run_app. cbn [snd].
    apply mode_run_write; auto. }
  destruct m; cbn [operand]; auto.
Qed.

(** The five registers of a pe1 PE are independent mode registers: in every
    program each holds what its own calls put there. *)
Definition calls_of {T} (f : inst -> mode) (c : inst -> T) (v : args -> T)
  (prog : list (inst * args)) : list (call T) :=
  map (fun ix => (f (fst ix), c (fst ix), v (snd ix), a_clk_en (snd ix))) prog.

Theorem C62_pe1 : forall truthy prog p,
  let p' := snd (pe1_run truthy p prog) in
  rega p' = snd (mode_run (rega p) (calls_of i_rega i_data0 a_data0 prog)) /\
  regb p' = snd (mode_run (regb p) (calls_of i_regb i_data1 a_data1 prog)) /\
  regd p' = snd (mode_run (regd p) (calls_of i_regd i_bit0 a_bit0 prog)) /\
  rege p' = snd (mode_run (rege p) (calls_of i_rege i_bit1 a_bit1 prog)) /\
  regf p' = snd (mode_run (regf p) (calls_of i_regf i_bit2 a_bit2 prog)).
Proof.
  intros truthy prog. induction prog as [|[i x] prog IH]; intros p; [repeat split|].
  cbn [pe1_run calls_of map fst snd mode_run]. unfold pe1_call.
  destruct (mode_call (rega p) _ _ _ _) as [ra va].
  destruct (mode_call (regb p) _ _ _ _) as [rb vb].
  destruct (mode_call (regd p) _ _ _ _) as [rd vd].
  destruct (mode_call (rege p) _ _ _ _) as [re ve].
  destruct (mode_call (regf p) _ _ _ _) as [rf vf].
  destruct (alu _ _ _ _ _) as [[[[[r q] z] n] c] v].
  specialize (IH (Pe1 va vb vd ve vf)). cbn [rega regb regd rege regf] in IH.
  fold (calls_of i_rega i_data0 a_data0 prog) (calls_of i_regb i_data1 a_data1 prog)
    (calls_of i_regd i_bit0 a_bit0 prog) (calls_of i_rege i_bit1 a_bit1 prog)
    (calls_of i_regf i_bit2 a_bit2 prog).
  destruct (pe1_run truthy _ prog) as [rs p'']. cbn [snd] in *.
  destruct IH as (H1 & H2 & H3 & H4 & H5).
  destruct (mode_run va _), (mode_run vb _), (mode_run vd _), (mode_run ve _), (mode_run vf _).
  cbn [snd] in *. auto.
Qed.

(** A new PE holds zeros: until a register is written, its delayed operand is 0. *)
Theorem C62_start : forall truthy i x, i_alu i = Or -> a_clk_en x = true ->
  let delayed m := m = DELAY \/ m = VALID in
  (delayed (i_rega i) -> i_regb i = BYPASS -> fst (fst (fst (pe1_call truthy pe1_init i x))) = a_data1 x) /\
  (delayed (i_regb i) -> i_rega i = BYPASS -> fst (fst (fst (pe1_call truthy pe1_init i x))) = a_data0 x) /\
  rega pe1_init = 0 /\ regb pe1_init = 0 /\ regd pe1_init = false /\ rege pe1_init = false /\ regf pe1_init = false.
Proof.
  intros truthy [op sg lt cc ma d0 mb d1 md b0 me b1 mf b2] [x0 x1 y0 y1 y2 en] E1 E2. cbn [i_alu a_clk_en] in E1, E2. subst op en.
  cbn [i_rega i_regb a_data0 a_data1]. unfold pe1_call. rewrite !mode_call_eq. cbn [pe1_init rega regb regd rege regf i_rega i_regb i_regd i_rege i_regf i_data0 i_data1 i_bit0 i_bit1 i_bit2 i_alu i_signed i_lut i_cond a_data0 a_data1 a_bit0 a_bit1 a_bit2 a_clk_en].
  split; [|split; [|repeat split]].
  - intros [-> | ->] ->; cbn [operand]; unfold alu; cbn [fst]; destruct (truthy sg); apply Z.lor_0_l.
  - intros [-> | ->] ->; cbn [operand]; unfold alu; cbn [fst]; destruct (truthy sg); apply Z.lor_0_r.
Qed.

(** A delayed input arrives one delayed call later, over bypasses in between. *)
Example C62_case :
  mode_run 0 [(DELAY, 0, 11, true); (BYPASS, 0, 22, true); (CONST, 5, 33, true);
              (VALID, 0, 44, false); (DELAY, 0, 55, false); (VALID, 0, 66, true)]
  = ([0; 22; 5; 11; 11; 55], 66).
Proof. reflexivity. Qed.

(** ** ALU results (C63) *)

Lemma geb_num (s : bool) a b : word a -> word b ->
  geb s a b = (num (if s then Signed else Unsigned) b <=? num (if s then Signed else Unsigned) a).
Proof. intros A B. destruct s; cbn [geb num]; unfold bvsle; rewrite ?ts_sval by auto; reflexivity. Qed.
Lemma leb_num s a b : word a -> word b ->
  leb s a b = (num (if s then Signed else Unsigned) a <=? num (if s then Signed else Unsigned) b).
Proof. intros A B. destruct s; cbn [leb num]; unfold bvsle; rewrite ?ts_sval by auto; reflexivity. Qed.

Definition W32 : Z := 4294967296.

Lemma mul_num (s : bool) a b : word a -> word b ->
  (let xy := if s then (bvsext 16 16 a, bvsext 16 16 b) else (bvzext 16 16 a, bvzext 16 16 b) in
   bvmul 32 (fst xy) (snd xy)) =
  (num (if s then Signed else Unsigned) a * num (if s then Signed else Unsigned) b) mod W32.
Proof.
  intros A B. destruct s; cbv zeta; cbn [num fst snd].
  - rewrite !bvsext_eq by (unfold word in *; lia). change (16 + 16) with 32.
    rewrite !ts_sval by auto. unfold bvmul. rewrite wrap_mul_l, wrap_mul_r by lia. reflexivity.
  - rewrite !bvzext_eq. reflexivity.
Qed.

Lemma slice_prod m k : 0 <= k <= 16 ->
  slice (m mod W32) k (k + 16) = (m / 2 ^ k) mod 65536.
Proof.
  intros K. rewrite slice_eq by lia. replace (k + 16 - k) with 16 by lia. rewrite P16.
  change W32 with (2 ^ 32).
  replace (m mod 2 ^ 32) with (m + (- (m / 2 ^ 32) * 2 ^ (16 - k) * 65536) * 2 ^ k).
  - rewrite Z.div_add by (pose proof (pow2_pos k); lia). apply Z.mod_add. discriminate.
  - pose proof (Z.div_mod m (2 ^ 32) ltac:(discriminate)) as D.
    assert (E : 2 ^ 32 = 2 ^ (16 - k) * 65536 * 2 ^ k).
    { rewrite <- P16, <- !Z.pow_add_r by lia. f_equal. lia. }
    set (q := m / 2 ^ 32) in *. set (r := m mod 2 ^ 32) in *. rewrite E in D.
    rewrite D. ring.
Qed.

Lemma shamt b : slice b 0 4 = b mod 16.
Proof. rewrite slice_eq by lia. rewrite Z.pow_0_r, Z.div_1_r. reflexivity. Qed.

(** The ALU, run with the branch of the signedness [s]. *)
Theorem C63_alu : forall op (s : bool) a b d, word a -> word b ->
  alu_means op (if s then Signed else Unsigned) a b d
    (fst (fst (fst (fst (fst (alu op s a b d)))))).
Proof.
  intros op s a b d A B. unfold alu. pose proof (mul_num s a b A B) as M.
  destruct (if s then (bvsext 16 16 a, bvsext 16 16 b) else (bvzext 16 16 a, bvzext 16 16 b))
    as [x y]. cbn [fst snd] in M. unfold alu_means.
  set (S := if s then Signed else Unsigned) in *.
  destruct op; cbn [fst].
  - rewrite adc_spec by auto. cbn [b2z fst]. rewrite Z.add_0_r. split; [apply word_mod|reflexivity].
  - rewrite sub_adc by auto. cbn [fst]. split; [apply word_mod|reflexivity].
  - assert (Z0 : word 0) by (unfold word; lia). rewrite geb_num by auto. fold S.
    assert (N0 : num S 0 = 0) by (destruct s; reflexivity). rewrite N0.
    destruct (Z.leb_spec 0 (num S a)) as [L|L].
    + split; [exact A|]. rewrite Z.abs_eq by auto. unfold word in *.
      subst S. destruct s; cbn [num] in *; [|rewrite Z.mod_small; lia].
      unfold sval in *. destruct (Z.ltb_spec a 32768); [rewrite Z.mod_small; lia|lia].
    + split; [apply word_mod|]. rewrite Z.abs_neq by lia. unfold bvneg. rewrite wrap16.
      subst S. unfold word in *. destruct s; cbn [num] in *; [|lia].
      unfold sval in *. destruct (Z.ltb_spec a 32768); [lia|].
      rewrite <- (Z.mod_add (- a) 1) by discriminate. f_equal. lia.
  - rewrite geb_num by auto. fold S. destruct (Z.leb_spec (num S b) (num S a));
      (split; [assumption|]); split; auto; lia.
  - rewrite leb_num by auto. fold S. destruct (Z.leb_spec (num S a) (num S b));
      (split; [assumption|]); split; auto; lia.
  - split; [destruct d; assumption|reflexivity].
  - rewrite M. pose proof (slice_prod (num S a * num S b) 0 ltac:(lia)) as Q.
    change (0 + 16) with 16 in Q. rewrite Q.
    rewrite Z.pow_0_r, Z.div_1_r. split; [apply word_mod|reflexivity].
  - rewrite M. pose proof (slice_prod (num S a * num S b) 8 ltac:(lia)) as Q.
    change (8 + 16) with 24 in Q. rewrite Q.
    split; [apply word_mod|reflexivity].
  - rewrite M. pose proof (slice_prod (num S a * num S b) 16 ltac:(lia)) as Q.
    change (16 + 16) with 32 in Q. rewrite Q.
    split; [apply word_mod|reflexivity].
  - rewrite shamt. pose proof (Z.mod_pos_bound b 16 ltac:(reflexivity)) as R.
    subst S. destruct s; cbn [shr num].
    + rewrite bvashr_eq by lia. rewrite ts_sval by auto. split; [apply word_mod|reflexivity].
    + pose proof (div_pow2_le a (b mod 16) ltac:(lia) ltac:(unfold word in A; lia)).
      rewrite bvlshr_eq by (unfold word in A; lia). unfold word in *.
      split; [lia|]. symmetry. apply Z.mod_small; lia.
  - rewrite shamt. pose proof (Z.mod_pos_bound b 16 ltac:(reflexivity)) as R.
    rewrite bvshl_eq by lia. split; [apply word_mod|reflexivity].
  - split; [apply (lor_range 16); auto; lia|]. intros. apply Z.lor_spec.
  - split; [apply (land_range 16); auto; lia|]. intros. apply Z.land_spec.
  - split; [apply (lxor_range 16); auto; lia|]. intros. apply Z.lxor_spec.
Qed.

(** C63: an instruction returns the result of its operation on its operands in
    the signedness it states. *)
Definition C63_full (truthy : signedness -> bool) : Prop := forall p i x,
  let a := operand (i_rega i) (i_data0 i) (a_data0 x) (rega p) in
  let b := operand (i_regb i) (i_data1 i) (a_data1 x) (regb p) in
  let d := operand (i_regd i) (i_bit0 i) (a_bit0 x) (regd p) in
  word a -> word b ->
  exists r q p', pe1_call truthy p i x = (r, q, false, p') /\
    alu_means (i_alu i) (i_signed i) a b d r.

(** Missing for C63: the unsigned instructions. Here the instruction's
    signedness must be the one its truth value selects. With Python's default
    truth value (always true) these are the signed instructions only, see
    [C63_full_refuted]. *)
Theorem C63_result_partial : forall truthy p i x,
  let a := operand (i_rega i) (i_data0 i) (a_data0 x) (rega p) in
  let b := operand (i_regb i) (i_data1 i) (a_data1 x) (regb p) in
  let d := operand (i_regd i) (i_bit0 i) (a_bit0 x) (regd p) in
  word a -> word b ->
  (truthy (i_signed i) = true <-> i_signed i = Signed) ->
  exists r q p', pe1_call truthy p i x = (r, q, false, p') /\
    alu_means (i_alu i) (i_signed i) a b d r.
Proof.
  intros truthy p i x a b d A B T. unfold pe1_call. rewrite !mode_call_eq. fold a b d.
  pose proof (C63_alu (i_alu i) (truthy (i_signed i)) a b d A B) as M.
  destruct (alu _ _ _ _ _) as [[[[[r q] z] n] c] v]. cbn [fst] in M.
  eexists r, _, _. split; [reflexivity|].
  replace (i_signed i) with (if truthy (i_signed i) then Signed else Unsigned); [exact M|].
  destruct (truthy (i_signed i)) eqn:E.
  - symmetry. apply T. reflexivity.
  - destruct (i_signed i); auto. destruct T as [_ T]. specialize (T eq_refl). discriminate.
Qed.

(** Operations whose results do not depend on the signedness are right in either
    case. *)
Theorem C63_unaffected : forall truthy p i x,
  let a := operand (i_rega i) (i_data0 i) (a_data0 x) (rega p) in
  let b := operand (i_regb i) (i_data1 i) (a_data1 x) (regb p) in
  let d := operand (i_regd i) (i_bit0 i) (a_bit0 x) (regd p) in
  word a -> word b -> In (i_alu i) [Add; Sub; Sel; Mult0; SHL; Or; And; XOr] ->
  exists r q p', pe1_call truthy p i x = (r, q, false, p') /\
    alu_means (i_alu i) (i_signed i) a b d r.
Proof.
  intros truthy p i x a b d A B O. unfold pe1_call. rewrite !mode_call_eq. fold a b d.
  pose proof (C63_alu (i_alu i) (truthy (i_signed i)) a b d A B) as M.
  destruct (alu _ _ _ _ _) as [[[[[r q] z] n] c] v]. cbn [fst] in M.
  eexists r, _, _. split; [reflexivity|].
  assert (E : forall s s', (num s a * num s b) mod 65536 = (num s' a * num s' b) mod 65536).
  { assert (N : forall s y, num s y mod 65536 = y mod 65536).
    { intros s y. destruct s; cbn [num]; auto. unfold sval. destruct (y <? 32768); auto.
      rewrite <- (Z.mod_add y (-1)) by discriminate. f_equal; lia. }
    intros s s'. rewrite (Z.mul_mod (num s a)), (Z.mul_mod (num s' a)) by discriminate.
    rewrite !N. reflexivity. }
  unfold alu_means in *. destruct M as [R M]. split; [exact R|].
  destruct (i_alu i); cbn [In] in O; try exact M; try (exfalso; intuition discriminate).
  rewrite M. apply E.
Qed.

(** If an unsigned Signed member counts as true, unsigned maximum, minimum,
    right shift and high products are wrong. *)
Theorem C63_full_refuted : forall truthy, truthy Unsigned = true -> ~ C63_full truthy.
Proof.
  intros truthy T H.
  destruct (H pe1_init asm_umax (Args 65535 1 false false false true)) as (r & q & p' & E & _ & M);
    [wd..|].
  unfold pe1_call in E. cbn [i_signed asm_umax asm_inst] in E. rewrite T in E.
  assert (R : r = 1) by (apply (f_equal (fun t => fst (fst (fst t)))) in E; symmetry; exact E).
  subst r. cbn [i_alu asm_umax asm_inst num i_signed] in M. destruct M as (_ & L & _).
  apply L. reflexivity.
Qed.

Theorem C63_unsigned_refuted : forall p en,
  let run i a b := fst (fst (fst (pe1_call (fun _ => true) p i (Args a b false false false en)))) in
  run asm_umax 65535 1 = 1 /\ run asm_umin 65535 1 = 65535 /\
  run asm_lsr 65534 1 = 65535 /\ run asm_umult2 65535 65535 = 0.
Proof. intros. repeat split. Qed.

(** The helpers of asm.py for the ALU operations, called on a PE in any state, when
    the member [unsigned] counts as false and [signed] as true. *)
Theorem C63_asm : forall truthy p a b d b1 b2 en, word a -> word b ->
  truthy Signed = true -> truthy Unsigned = false ->
  let out i := fst (fst (fst (pe1_call truthy p i (Args a b d b1 b2 en)))) in
  out asm_add = (a + b) mod 65536 /\ out asm_sub = (a - b) mod 65536 /\
  out asm_umult0 = (a * b) mod 65536 /\
  out asm_umult1 = (a * b / 2 ^ 8) mod 65536 /\
  out asm_umult2 = (a * b / 2 ^ 16) mod 65536 /\
  out asm_smult0 = (sval a * sval b) mod 65536 /\
  out asm_smult1 = (sval a * sval b / 2 ^ 8) mod 65536 /\
  out asm_smult2 = (sval a * sval b / 2 ^ 16) mod 65536 /\
  out asm_and = Z.land a b /\ out asm_or = Z.lor a b /\ out asm_xor = Z.lxor a b /\
  out asm_lsl = (a * 2 ^ (b mod 16)) mod 65536 /\
  out asm_lsr = a / 2 ^ (b mod 16) /\
  out asm_asr = (sval a / 2 ^ (b mod 16)) mod 65536 /\
  out asm_sel = (if d then a else b) /\
  out asm_abs = Z.abs (sval a) mod 65536 /\
  out asm_umin = Z.min a b /\ out asm_umax = Z.max a b /\
  sval (out asm_smin) = Z.min (sval a) (sval b) /\ sval (out asm_smax) = Z.max (sval a) (sval b).
Proof.
  intros truthy p a b d b1 b2 en A B TS TU out.
  assert (M : forall op s, alu_means op s a b d (out (asm_inst op s cZ))).
  { intros op s.
    destruct (C63_result_partial truthy p (asm_inst op s cZ) (Args a b d b1 b2 en) A B) as (r & q & p' & E & M).
    - destruct s; cbn [i_signed asm_inst]; split; intros; congruence.
    - unfold out. rewrite E. exact M. }
  assert (X : forall f r, word r -> word (f a b) ->
     (forall k, 0 <= k -> Z.testbit r k = Z.testbit (f a b) k) -> r = f a b).
  { intros f r R F H. apply Z.bits_inj'. intros k K. apply H. exact K. }
  pose proof (M Add Unsigned) as [_ m1]. pose proof (M Sub Unsigned) as [_ m2].
  pose proof (M Mult0 Unsigned) as [_ m3]. pose proof (M Mult1 Unsigned) as [_ m4]. pose proof (M Mult2 Unsigned) as [_ m5].
  pose proof (M Mult0 Signed) as [_ m6]. pose proof (M Mult1 Signed) as [_ m7]. pose proof (M Mult2 Signed) as [_ m8].
  pose proof (M And Unsigned) as [r9 m9]. pose proof (M Or Unsigned) as [r10 m10]. pose proof (M XOr Unsigned) as [r11 m11].
  pose proof (M SHL Unsigned) as [_ m12]. pose proof (M SHR Unsigned) as [r13 m13]. pose proof (M SHR Signed) as [_ m14].
  pose proof (M Sel Unsigned) as [_ m15]. pose proof (M Abs Signed) as [_ m16].
  pose proof (M LTE_Min Unsigned) as [_ m17]. pose proof (M GTE_Max Unsigned) as [_ m18].
  pose proof (M LTE_Min Signed) as [_ m19]. pose proof (M GTE_Max Signed) as [_ m20].
  cbn [num] in *.
  do 8 (split; [assumption|]).
  split; [apply (X Z.land); [assumption|apply (land_range 16); auto; lia|intros; rewrite Z.land_spec; apply m9; assumption]|].
  split; [apply (X Z.lor); [assumption|apply (lor_range 16); auto; lia|intros; rewrite Z.lor_spec; apply m10; assumption]|].
  split; [apply (X Z.lxor); [assumption|apply (lxor_range 16); auto; lia|intros; rewrite Z.lxor_spec; apply m11; assumption]|].
  split; [assumption|].
  split.
  { unfold asm_lsr. rewrite m13. pose proof (Z.mod_pos_bound b 16 ltac:(reflexivity)).
    pose proof (div_pow2_le a (b mod 16) ltac:(lia) ltac:(unfold word in A; lia)).
    pose proof (Z.div_pos a (2 ^ (b mod 16)) ltac:(unfold word in A; lia) ltac:(apply pow2_pos; lia)).
    apply Z.mod_small. unfold word in A. lia. }
  split; [assumption|]. split; [assumption|]. split; [assumption|].
  split; [unfold asm_umin; lia|].
  split; [unfold asm_umax; lia|].
  unfold asm_smin, asm_smax. split; [destruct m19 as ([E|E] & ? & ?)|destruct m20 as ([E|E] & ? & ?)]; rewrite E in *; lia.
Qed.

(** [asm.neg] subtracts the second operand from the first, it does not negate
    the first. *)
Theorem C63_neg_refuted : ~ forall truthy p a b, word a -> word b ->
  fst (fst (fst (pe1_call truthy p asm_neg (Args a b false false false true)))) = (- a) mod 65536.
Proof.
  intros H. specialize (H (fun _ => true) pe1_init 5 7 ltac:(wd) ltac:(wd)).
  discriminate H.
Qed.

(** The flags of every operation: Z and N describe the result; C and V are the
    carry and the signed overflow for Add and Sub and 0 otherwise. *)
Theorem C63_flags : forall op s a b d, word a -> word b ->
  match alu op s a b d with
  | (r, _, z, n, c, v) =>
      z = (r =? 0) /\ n = (32768 <=? r) /\
      c = (match op with Add => 65536 <=? a + b | Sub => b <=? a | _ => false end) /\
      v = (match op with
           | Add => out_of_range (sval a + sval b)
           | Sub => out_of_range (sval a - sval b)
           | _ => false
           end)
  end.
Proof.
  intros op s a b d A B.
  pose proof (C63_alu op s a b d A B) as [R _].
  assert (E : exists r p c v, alu op s a b d = (r, p, r =? 0, bvbit r 15, c, v)).
  { unfold alu.
    destruct (if s then (bvsext 16 16 a, bvsext 16 16 b) else (bvzext 16 16 a, bvzext 16 16 b)).
    destruct op; try (destruct (adc _ _ _ _)); eexists _, _, _, _; reflexivity. }
  destruct E as (r & p & c & v & E). rewrite E in *. cbn [fst] in R.
  split; [reflexivity|]. split; [apply bit15; exact R|].
  destruct op.
  - rewrite alu_add in E by auto. split; congruence.
  - rewrite alu_sub in E by auto. split; congruence.
  - unfold alu in E. destruct s; inversion E; auto.
  - unfold alu in E. destruct s; inversion E; auto.
  - unfold alu in E. destruct s; inversion E; auto.
  - unfold alu in E. destruct s; inversion E; auto.
  - unfold alu in E. destruct s; inversion E; auto.
  - unfold alu in E. destruct s; inversion E; auto.
  - unfold alu in E. destruct s; inversion E; auto.
  - unfold alu in E. destruct s; inversion E; auto.
  - unfold alu in E. destruct s; inversion E; auto.
  - unfold alu in E. destruct s; inversion E; auto.
  - unfold alu in E. destruct s; inversion E; auto.
  - unfold alu in E. destruct s; inversion E; auto.
Qed.

(** The one-bit result: the carry of Add and Sub, for the minimum and the maximum
    whether a is at least b in the signedness of the instruction, for Abs the sign
    bit, and 0 for every other operation. *)
Theorem C63_bit : forall op (s : bool) a b d, word a -> word b ->
  match alu op s a b d with
  | (_, q, _, _, _, _) =>
      q = (match op with
           | Add => 65536 <=? a + b
           | Sub => b <=? a
           | GTE_Max | LTE_Min => num (if s then Signed else Unsigned) b <=? num (if s then Signed else Unsigned) a
           | Abs => 32768 <=? a
           | _ => false
           end)
  end.
Proof.
  intros op s a b d A B.
  destruct op; try (unfold alu; destruct s; reflexivity).
  - rewrite alu_add by auto. reflexivity.
  - rewrite alu_sub by auto. reflexivity.
  - unfold alu. destruct (if s then (bvsext 16 16 a, bvsext 16 16 b) else (bvzext 16 16 a, bvzext 16 16 b)). apply bit15. exact A.
  - unfold alu. destruct (if s then (bvsext 16 16 a, bvsext 16 16 b) else (bvzext 16 16 a, bvzext 16 16 b)). apply geb_num; auto.
  - unfold alu. destruct (if s then (bvsext 16 16 a, bvsext 16 16 b) else (bvzext 16 16 a, bvzext 16 16 b)). apply geb_num; auto.
Qed.
Example C63_bit_case : word 65535 /\ word 3 /\
  alu GTE_Max true 65535 3 false = (3, false, false, false, false, false) /\
  alu GTE_Max false 65535 3 false = (65535, true, false, true, false, false).
Proof. repeat split; vm_compute; discriminate || reflexivity. Qed.

(** The one-bit result of LTE_Min is the opposite comparison
    (examples/pe1/sim.py:67). *)
Theorem C63_lte_bit_refuted : ~ forall (s : bool) a b d, word a -> word b ->
  snd (fst (fst (fst (fst (alu LTE_Min s a b d))))) =
    (num (if s then Signed else Unsigned) a <=? num (if s then Signed else Unsigned) b).
Proof.
  intros H. specialize (H true 1 2 false ltac:(wd) ltac:(wd)).
  discriminate H.
Qed.

Example C63_case :
  let run i a b := fst (fst (fst (pe1_call (fun _ => true) pe1_init i (Args a b true false false true)))) in
  run asm_smult1 65024 3 = 65530 /\ run asm_asr 65534 1 = 65535 /\ run asm_abs 65535 0 = 1 /\
  run asm_sel 3 4 = 3 /\ run asm_smin 65535 1 = 65535.
Proof. repeat split. Qed.

(** ** The PE of examples/pe (C64) *)

Definition gmeans (op : gop) (a b r : Z) : Prop :=
  word r /\
  match op with
  | GAdd => r = (a + b) mod 65536
  | GSub => r = (a - b) mod 65536
  | GAnd => forall k, 0 <= k -> Z.testbit r k = Z.testbit a k && Z.testbit b k
  | GOr => forall k, 0 <= k -> Z.testbit r k = Z.testbit a k || Z.testbit b k
  | GXOr => forall k, 0 <= k -> Z.testbit r k = xorb (Z.testbit a k) (Z.testbit b k)
  end.

(** C64: for every number of inputs a PE made by [gen_pe] executes instructions
    on that many values, and after a subtraction the conditions name the
    comparisons of the operands. *)
Definition C64_full : Prop :=
  (forall n p i xs b0 b1 b2 en, length (g_data p) = n -> length xs = n ->
     is_ok (gpe_call p i xs b0 b1 b2 en) = true) /\
  (forall p i x0 x1 v0 v1 b0 b1 b2 en v,
     g_data p = [v0; v1] -> g_op i = GSub ->
     let a := operand (fst (g_modes i)) (fst (g_consts i)) x0 v0 in
     let b := operand (snd (g_modes i)) (snd (g_consts i)) x1 v1 in
     word a -> word b -> named (g_cond i) a b = Some v ->
     exists r p', gpe_call p i [x0; x1] b0 b1 b2 en = Ok (r, PBit v, false, p')).

(** The operands of the three bit registers and their contents afterwards. *)
Definition bit_operands (i : ginst) (p : gpe) (b0 b1 b2 : bool) : bool * bool * bool :=
  match g_bm i, g_bc i, g_bits p with
  | (m0, m1, m2), (c0, c1, c2), (v0, v1, v2) =>
      (operand m0 c0 b0 v0, operand m1 c1 b1 v1, operand m2 c2 b2 v2)
  end.
Definition bits_kept (i : ginst) (p : gpe) (b0 b1 b2 en : bool) : bool * bool * bool :=
  match g_bm i, g_bits p with
  | (m0, m1, m2), (v0, v1, v2) => (kept m0 b0 en v0, kept m1 b1 en v1, kept m2 b2 en v2)
  end.
Definition table_entry (tbl : Z) (t : bool * bool * bool) : bool :=
  match t with (b0, b1, b2) => entry tbl b0 b1 b2 end.

Lemma gpe2 p i x0 x1 v0 v1 b0 b1 b2 en : g_data p = [v0; v1] -> 0 <= g_table i < 256 ->
  let a := operand (fst (g_modes i)) (fst (g_consts i)) x0 v0 in
  let b := operand (snd (g_modes i)) (snd (g_consts i)) x1 v1 in
  exists r,
    gpe_call p i [x0; x1] b0 b1 b2 en =
      Ok (r, cond (g_cond i) r (table_entry (g_table i) (bit_operands i p b0 b1 b2))
               (r =? 0) (bvbit r 15) false false, false,
          GPe [kept (fst (g_modes i)) x0 en v0; kept (snd (g_modes i)) x1 en v1]
            (bits_kept i p b0 b1 b2 en)) /\
    r = match g_op i with
        | GAdd => bvadd 16 a b | GSub => bvsub 16 a b | GAnd => Z.land a b
        | GOr => Z.lor a b | GXOr => Z.lxor a b end.
Proof.
  intros D T a b. unfold gpe_call, bit_operands, bits_kept.
  destruct (g_bits p) as [[w0 w1] w2].
  destruct (g_bm i) as [[m0 m1] m2]. destruct (g_bc i) as [[c0 c1] c2].
  rewrite !mode_call_eq. rewrite lut_entry by exact T. rewrite D.
  cbn [gpe_data pair_get bind nth_error].
  rewrite !mode_call_eq. cbn [bind geval]. fold a b. eexists.
  refine (conj eq_refl eq_refl).
Qed.

(** Missing for C64: the comparisons that use the carry or overflow flag (the
    [eval] functions return them as 0), and numbers of inputs other than two.
    With two inputs every instruction returns its result on the selected
    operands, updates every register according to its mode, the condition LUT gives
    the table entry, the conditions EQ, NE are right, and the signed ones are whenever
    the difference does not overflow. *)
Theorem C64_two_partial : forall p i x0 x1 v0 v1 b0 b1 b2 en,
  g_data p = [v0; v1] -> 0 <= g_table i < 256 ->
  let a := operand (fst (g_modes i)) (fst (g_consts i)) x0 v0 in
  let b := operand (snd (g_modes i)) (snd (g_consts i)) x1 v1 in
  word a -> word b ->
  exists r q p', gpe_call p i [x0; x1] b0 b1 b2 en = Ok (r, q, false, p') /\
    g_data p' = [kept (fst (g_modes i)) x0 en v0; kept (snd (g_modes i)) x1 en v1] /\
    g_bits p' = bits_kept i p b0 b1 b2 en /\
    gmeans (g_op i) a b r /\
    (g_cond i = cLUT -> q = PBit (table_entry (g_table i) (bit_operands i p b0 b1 b2))) /\
    (g_op i = GSub -> g_cond i = cEQ -> q = PBit (a =? b)) /\
    (g_op i = GSub -> g_cond i = cNE -> q = PBit (negb (a =? b))) /\
    (g_op i = GSub -> out_of_range (sval a - sval b) = false ->
       In (g_cond i) [cSGE; cSLT; cSGT; cSLE] ->
       exists v, named (g_cond i) a b = Some v /\ q = PBit v).
Proof.
  intros p i x0 x1 v0 v1 b0 b1 b2 en D T a b A B.
  destruct (gpe2 p i x0 x1 v0 v1 b0 b1 b2 en D T) as (r & E & R).
  fold a b in R. eexists r, _, _. split; [exact E|].
  split; [reflexivity|]. split; [reflexivity|].
  assert (M : gmeans (g_op i) a b r).
  { rewrite R. unfold gmeans. destruct (g_op i).
    - split; [apply word_mod|reflexivity].
    - split; [apply word_mod|reflexivity].
    - split; [apply (land_range 16); auto; lia|]. intros. apply Z.land_spec.
    - split; [apply (lor_range 16); auto; lia|]. intros. apply Z.lor_spec.
    - split; [apply (lxor_range 16); auto; lia|]. intros. apply Z.lxor_spec. }
  split; [exact M|]. destruct M as [Wr M].
  assert (S : g_op i = GSub -> r = (a - b) mod 65536) by (intros G; rewrite G in M; exact M).
  rewrite bit15 by exact Wr. unfold word in A, B.
  split; [intros C; rewrite C; reflexivity|]. split; [|split].
  - intros G C. rewrite C. unfold cEQ. cbn [cond]. rewrite (S G), mod16_cases by lia. f_equal. zcases.
  - intros G C. rewrite C. unfold cNE. cbn [cond]. rewrite (S G), mod16_cases by lia. f_equal. zcases.
  - intros G O C. rewrite (S G), mod16_cases by lia. unfold out_of_range in O.
    cbn [In] in C. destruct C as [C|[C|[C|[C|[]]]]]; rewrite <- C; cbn [named cond];
      (eexists; split; [reflexivity|]); f_equal; revert O; unfold negative, sval; zcases;
      try discriminate; intros; try discriminate; lia.
Qed.

Lemma gpe_data_len regs i ii xs en rs vs : gpe_data regs i ii xs en = Ok (rs, vs) ->
  length rs = length regs.
Proof.
  revert i rs vs. induction regs as [|v regs IH]; intros i rs vs; cbn [gpe_data].
  - intros E. inversion E. reflexivity.
  - destruct (pair_get (g_modes ii) i); cbn [bind]; [|discriminate].
    destruct (pair_get (g_consts ii) i); cbn [bind]; [|discriminate].
    destruct (nth_error xs i); [|discriminate].
    rewrite mode_call_eq.
    destruct (gpe_data regs (S i) ii xs en) as [[rs' vs']|] eqn:G; cbn [bind]; [|discriminate].
    intros E. inversion E. cbn [length]. f_equal. eapply IH, G.
Qed.

(** Any other number of inputs always raises. *)
Theorem C64_inputs : forall p i xs b0 b1 b2 en,
  (length (g_data p) <> 2)%nat -> is_ok (gpe_call p i xs b0 b1 b2 en) = false.
Proof.
  intros p i xs b0 b1 b2 en N. unfold gpe_call. destruct (g_bits p) as [[w0 w1] w2].
  destruct (g_bm i) as [[m0 m1] m2]. destruct (g_bc i) as [[c0 c1] c2].
  rewrite !mode_call_eq.
  destruct (gpe_data (g_data p) 0 i xs en) as [[rs vs]|] eqn:G; [|reflexivity].
  cbn [bind]. apply gpe_data_len in G. rewrite <- G in N.
  destruct rs as [|r0 [|r1 [|r2 rs]]]; try reflexivity. exfalso. apply N. reflexivity.
Qed.

(** With two inputs the unsigned order conditions after a subtraction do not
    depend on the operands at all, UGE and UGT being 0 and ULT and ULE being 1. *)
Theorem C64_constant : forall p i x0 x1 v0 v1 b0 b1 b2 en,
  g_data p = [v0; v1] -> 0 <= g_table i < 256 -> In (g_cond i) [cUGE; cUGT; cULT; cULE] ->
  exists r p', gpe_call p i [x0; x1] b0 b1 b2 en =
    Ok (r, PBit (match g_cond i with cC_n | cULE => true | _ => false end), false, p').
Proof.
  intros p i x0 x1 v0 v1 b0 b1 b2 en D T C.
  destruct (gpe2 p i x0 x1 v0 v1 b0 b1 b2 en D T) as (r & E & R).
  eexists r, _. rewrite E. unfold cUGE, cULT in C. cbn [In] in C.
  destruct C as [C|[C|[C|[C|[]]]]]; rewrite <- C; reflexivity.
Qed.

Definition g_uge : ginst :=
  GInst GSub (BYPASS, BYPASS) (0, 0) (BYPASS, BYPASS, BYPASS) (false, false, false) 0 cUGE.

Theorem C64_full_refuted : ~ C64_full.
Proof.
  intros [_ H].
  destruct (H (gpe_init 2) g_uge 5 3 0 0 false false false true true eq_refl eq_refl
    ltac:(wd) ltac:(wd) eq_refl) as (r & p' & E).
  discriminate E.
Qed.

Theorem C64_inputs_refuted : forall n, n <> 2%nat -> ~ (forall p i xs b0 b1 b2 en,
  length (g_data p) = n -> length xs = n -> is_ok (gpe_call p i xs b0 b1 b2 en) = true).
Proof.
  intros n N H.
  specialize (H (gpe_init n) g_uge (repeat 0 n) false false false true).
  cbn [gpe_init g_data] in H. rewrite repeat_length in H.
  rewrite C64_inputs in H; [discriminate (H eq_refl eq_refl)|].
  cbn [gpe_init g_data]. rewrite repeat_length. exact N.
Qed.

Example C64_case :
  gpe_call (GPe [10; 20] (false, true, false))
    (GInst GSub (DELAY, CONST) (0, 3) (BYPASS, BYPASS, BYPASS) (false, false, false) 0 cSGT)
    [77; 88] false false false true
  = Ok (7, PBit true, false, GPe [77; 20] (false, true, false)).
Proof. reflexivity. Qed.

Print Assumptions C54_compare.
Print Assumptions C54_flags.
Print Assumptions C54_asm.
Print Assumptions C54_alu_code_refuted.
Print Assumptions C55_lut.
Print Assumptions C55_pe1.
Print Assumptions C55_pe_lut.
Print Assumptions C55_tables.
Print Assumptions C62_results.
Print Assumptions C62_pe1.
Print Assumptions C62_start.
Print Assumptions C63_alu.
Print Assumptions C63_result_partial.
Print Assumptions C63_unaffected.
Print Assumptions C63_full_refuted.
Print Assumptions C63_asm.
Print Assumptions C63_unsigned_refuted.
Print Assumptions C63_neg_refuted.
Print Assumptions C63_flags.
Print Assumptions C63_bit.
Print Assumptions C63_lte_bit_refuted.
Print Assumptions C64_two_partial.
Print Assumptions C64_inputs.
Print Assumptions C64_constant.
Print Assumptions C64_full_refuted.
Print Assumptions C64_inputs_refuted.
