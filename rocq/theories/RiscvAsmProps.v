(** Properties C51 and C61: assembler helpers of the RISC-V examples. *)
From Coq Require Import ZArith List Bool Lia.
From Verif Require Import Base BaseLemmas BvModel BvLemmas RiscvModel RiscvSpec RiscvProofs RiscvBits
  RiscvProps RiscvAsmModel.
Import ListNotations.
Open Scope Z_scope.

(** ** Specification *)

(** The operands of an instruction as the assembly programmer sees them:
    immediates of LUI/AUIPC are multiples of 4096, those of JAL and branches are
    byte offsets. *)
Definition operands (i : inst) : fields :=
  match i with
  | OP d _ => mkF (Some (r_rs1 d)) (Some (r_rs2 d)) (Some (r_rd d)) None
  | OP_IMM (oArith d _) | JALR d | Load d _ =>
      mkF (Some (i_rs1 d)) None (Some (i_rd d)) (Some (i_imm d))
  | OP_IMM (oShift d _) => mkF (Some (is_rs1 d)) None (Some (is_rd d)) (Some (is_imm d))
  | LUI d | AUIPC d => mkF None None (Some (u_rd d)) (Some (4096 * u_imm d))
  | JAL d => mkF None None (Some (j_rd d)) (Some (2 * j_imm d))
  | Branch d _ => mkF (Some (b_rs1 d)) (Some (b_rs2 d)) None (Some (2 * b_imm d))
  | Store d _ => mkF (Some (s_rs1 d)) (Some (s_rs2 d)) None (Some (s_imm d))
  | Ext d _ => mkF (Some (e_rs d)) None (Some (e_rd d)) None
  end.

(** The same operation, whatever the operands. *)
Definition same_op (i j : inst) : Prop :=
  match i, j with
  | OP _ t, OP _ u => t = u
  | OP_IMM (oArith _ t), OP_IMM (oArith _ u) => t = u
  | OP_IMM (oShift _ t), OP_IMM (oShift _ u) => t = u
  | LUI _, LUI _ | AUIPC _, AUIPC _ | JAL _, JAL _ | JALR _, JALR _ => True
  | Branch _ t, Branch _ u => t = u
  | Load _ t, Load _ u => t = u
  | Store _ t, Store _ u => t = u
  | Ext _ t, Ext _ u => t = u
  | _, _ => False
  end.

(** Step and limit of the immediate. *)
Definition imm_slot (i : inst) : option (Z * Z) :=
  match i with
  | OP _ _ | Ext _ _ => None
  | OP_IMM (oArith _ _) | JALR _ | Load _ _ | Store _ _ => Some (1, 4096)
  | OP_IMM (oShift _ _) => Some (1, 32)
  | LUI _ | AUIPC _ => Some (4096, 4294967296)
  | JAL _ => Some (2, 2097152)
  | Branch _ _ => Some (2, 8192)
  end.

Definition reg_slot (o : option Z) : option (Z * Z) :=
  match o with Some _ => Some (1, 32) | None => None end.

(** Is the request for one operand legal? *)
Definition legal1 (s : option (Z * Z)) (v : option Z) : bool :=
  match v, s with
  | None, _ => true
  | Some _, None => false
  | Some v, Some (st, lim) => (0 <=? v) && (v <? lim) && (v mod st =? 0)
  end.

Definition legal (i : inst) (q : fields) : bool :=
  legal1 (reg_slot (f_rs1 (operands i))) (f_rs1 q)
  && legal1 (reg_slot (f_rs2 (operands i))) (f_rs2 q)
  && legal1 (reg_slot (f_rd (operands i))) (f_rd q)
  && legal1 (imm_slot i) (f_imm q).

(** Requested operands replace the old ones. *)
Definition over1 (new old : option Z) : option Z := match new with Some _ => new | None => old end.
Definition override (old q : fields) : fields :=
  mkF (over1 (f_rs1 q) (f_rs1 old)) (over1 (f_rs2 q) (f_rs2 old))
      (over1 (f_rd q) (f_rd old)) (over1 (f_imm q) (f_imm old)).

(** The helpers see the base members and constructors. *)
Definition env_ok (e : env) : Prop :=
  (forall t, In t base_members -> In t (e_members e)) /\
  (forall t, In t base_members -> In t (e_known e)).

(** Full statement: for the instruction set of every core. *)
Definition C51_full : Prop :=
  forall e c i q, env_ok e -> in_isa c i -> legal i q = true ->
  exists j, set_fields e i q = Ok j /\ in_isa c j /\ same_op i j
    /\ get_fields e i = Ok (operands i) /\ get_fields e j = Ok (override (operands i) q).

(** The instructions the helpers know. *)
Definition known (i : inst) : bool :=
  match i with OP _ (aMulDiv _) | Ext _ _ => false | _ => true end.

(** ** Lemmas *)

Definition kind_of (i : inst) : itype :=
  match i with
  | OP _ _ => TOP | OP_IMM _ => TOPIMM | LUI _ => TLUI | AUIPC _ => TAUIPC | JAL _ => TJAL
  | JALR _ => TJALR | Branch _ _ => TBranch | Load _ _ => TLoad | Store _ _ => TStore | Ext _ _ => TExt
  end.

Lemma imatch_kind i t : imatch i t = true <-> t = kind_of i.
Proof. destruct i, t; cbn; split; congruence. Qed.

Lemma itype_eqb_refl t : itype_eqb t t = true.
Proof. destruct t; reflexivity. Qed.

Lemma itype_eqb_eq a b : itype_eqb a b = true -> a = b.
Proof. destruct a, b; cbn; congruence. Qed.

Lemma unpack_ok e i : In (kind_of i) (e_members e) -> unpack e i = Ok (parts i, kind_of i).
Proof.
  intros I. unfold unpack. destruct (find (imatch i) (e_members e)) as [t|] eqn:F.
  - apply find_some in F. destruct F as [_ F]. apply imatch_kind in F. subst. reflexivity.
  - exfalso. pose proof (find_none _ _ F _ I) as N. rewrite (proj2 (imatch_kind _ _) eq_refl) in N.
    discriminate N.
Qed.

Lemma known_in e t : In t (e_known e) -> existsb (itype_eqb t) (e_known e) = true.
Proof. intros I. apply existsb_exists. exists t. split; auto using itype_eqb_refl. Qed.

Lemma kind_base c i : in_isa c i -> c <> CoreExt -> In (kind_of i) base_members.
Proof.
  intros I N. destruct i; cbn; auto 12.
  destruct I as (_ & _ & E). contradiction.
Qed.

Lemma kind_known i : known i = true -> In (kind_of i) base_members.
Proof. intros K. destruct i; cbn; auto 12. discriminate K. Qed.

Lemma get_ok e i : (forall t, In t base_members -> In t (e_members e)) ->
  (match i with Ext _ _ => False | _ => True end) -> get_fields e i = Ok (operands i).
Proof.
  intros E N. assert (K : In (kind_of i) (e_members e)).
  { apply E. destruct i; cbn; auto 12. }
  unfold get_fields. rewrite (unpack_ok _ _ K). cbn [bind].
  assert (S0 : forall x, Z.shiftl x 0 = x) by (intros; apply Z.shiftl_0_r).
  assert (S1 : forall x, Z.shiftl x 1 = 2 * x).
  { intros x. rewrite Z.shiftl_mul_pow2 by lia. change (2 ^ 1) with 2. ring. }
  assert (S12 : forall x, Z.shiftl x 12 = 4096 * x).
  { intros x. rewrite Z.shiftl_mul_pow2 by lia. change (2 ^ 12) with 4096. ring. }
  destruct i as [d t|o|d|d|d|d|d t|d t|d t|d t]; [destruct t| destruct o|..];
    cbn [parts type_of field_dict get_loop data_get bind imm_bits fst put f_rs1 f_rs2 f_rd f_imm operands];
    rewrite ?S0, ?S1, ?S12; try reflexivity. destruct N.
Qed.

(** One entry, the value given. *)
Lemma set_some d f v size lo hi :
  dget fname_eqb (field_dict (type_of d)) f = Some size ->
  (match f with Fimm => imm_bits (type_of d) = Some (lo, hi) | _ => (lo, hi) = (0, size) end) ->
  0 <= lo -> 0 <= size -> hi = lo + size ->
  set_one d (f, Some v)
  = if (0 <=? v) && (v <? 2 ^ hi) && (v mod 2 ^ lo =? 0) then Ok [(f, v / 2 ^ lo)] else Err ValueError.
Proof.
  intros G B L S H. unfold set_one. rewrite G.
  destruct (Z.ltb_spec v 0) as [N|N].
  - destruct (Z.leb_spec 0 v); [lia|reflexivity].
  - destruct (Z.leb_spec 0 v) as [_|]; [|lia]. cbn [andb].
    assert (P : (match f with
                 | Fimm => match imm_bits (type_of d) with Some b => Ok b | None => Err KeyError end
                 | _ => Ok (0, size)
                 end) = Ok (lo, hi)).
    { destruct f; rewrite ?B; auto. }
    rewrite P. cbn [bind fst snd]. rewrite !Z.shiftl_1_l.
    destruct (Z.eqb_spec (v mod 2 ^ lo) 0) as [M|M]; cbn [negb].
    + rewrite andb_true_r. destruct (Z.ltb_spec v (2 ^ hi)) as [V|V].
      * rewrite Z.mod_small by lia. rewrite Z.eqb_refl. cbn [negb]. f_equal. f_equal. f_equal.
        rewrite Z.shiftr_div_pow2 by lia. apply wrap_small. split.
        -- apply Z.div_pos; auto. apply pow2_pos; lia.
        -- apply Z.div_lt_upper_bound; [apply pow2_pos; lia|].
           rewrite <- Z.pow_add_r by lia. rewrite <- H. exact V.
      * destruct (Z.eqb_spec (v mod 2 ^ hi) v) as [E|E]; [|reflexivity].
        pose proof (Z.mod_pos_bound v (2 ^ hi) (pow2_pos hi ltac:(lia))). lia.
    + rewrite andb_false_r. reflexivity.
Qed.

(** What is stored for an operand: step, request, old stored value. *)
Definition stored (st : Z) (q : option Z) (x : Z) : Z :=
  match q with Some v => v / st | None => x end.

Lemma set_field d f q size lo hi st lim x :
  dget fname_eqb (field_dict (type_of d)) f = Some size ->
  (match f with Fimm => imm_bits (type_of d) = Some (lo, hi) | _ => (lo, hi) = (0, size) end) ->
  0 <= lo -> 0 <= size -> hi = lo + size -> 2 ^ lo = st -> 2 ^ hi = lim ->
  data_get d f = Ok x ->
  set_one d (f, q)
  = if legal1 (Some (st, lim)) q then Ok [(f, stored st q x)] else Err ValueError.
Proof.
  intros G B L S H <- <- D. destruct q as [v|].
  - cbn [legal1 stored]. apply (set_some d f v size lo hi); auto.
  - cbn [legal1 stored]. unfold set_one. rewrite G, D. reflexivity.
Qed.

Lemma set_absent d f q : dget fname_eqb (field_dict (type_of d)) f = None ->
  set_one d (f, q) = if legal1 None q then Ok [] else Err ValueError.
Proof. intros G. unfold set_one. rewrite G. destruct q; reflexivity. Qed.

Lemma set_reg d f q x : dget fname_eqb (field_dict (type_of d)) f = Some 5 -> f <> Fimm ->
  data_get d f = Ok x ->
  set_one d (f, q) = if legal1 (Some (1, 32)) q then Ok [(f, stored 1 q x)] else Err ValueError.
Proof.
  intros G N D. apply (set_field d f q 5 0 5 1 32 x); auto; try lia. destruct f; auto. contradiction.
Qed.

Lemma stored_fit st lim w q x : legal1 (Some (st, lim)) q = true -> 0 < st -> lim = st * 2 ^ w ->
  fit w x -> fit w (stored st q x).
Proof.
  intros L S E F. destruct q as [v|]; [|exact F]. cbn [legal1 stored] in *.
  apply andb_true_iff in L. destruct L as [L M]. apply andb_true_iff in L. destruct L as [L0 L].
  apply Z.leb_le in L0. apply Z.ltb_lt in L. split; [apply Z.div_pos; auto|].
  apply Z.div_lt_upper_bound; lia.
Qed.

Lemma stored_over st lim q x : legal1 (Some (st, lim)) q = true -> 0 < st ->
  Some (st * stored st q x) = over1 q (Some (st * x)).
Proof.
  intros L S. destruct q as [v|]; [|reflexivity]. cbn [legal1 stored over1] in *.
  apply andb_true_iff in L. destruct L as [L M]. apply Z.eqb_eq in M.
  pose proof (Z.div_mod v st ltac:(lia)). f_equal. lia.
Qed.

Lemma stored_over1 q x : Some (stored 1 q x) = over1 q (Some x).
Proof. destruct q; cbn [stored over1]; [rewrite Z.div_1_r|]; reflexivity. Qed.

Lemma absent_over q : legal1 None q = true -> None = over1 q None.
Proof. destruct q; [discriminate|reflexivity]. Qed.

Ltac errs := repeat match goal with
  | |- context [if legal1 ?s ?q then _ else _] =>
      let E := fresh "E" in destruct (legal1 s q) eqn:E; cbn [andb bind]
  end; try reflexivity.

(** The central case analysis. *)
Lemma set_spec e c i q : env_ok e -> in_isa c i -> known i = true ->
  if legal i q then
    exists j, set_fields e i q = Ok j /\ in_isa c j /\ same_op i j /\ operands j = override (operands i) q
  else set_fields e i q = Err ValueError.
Proof.
  intros [Em Ek] I K. pose proof (kind_known i K) as B.
  unfold set_fields. rewrite (unpack_ok e i (Em _ B)). cbn [bind].
  destruct (parts i) as [d g] eqn:P. rewrite (known_in e _ (Ek _ B)). cbn [negb].
  destruct q as [q1 q2 q3 q4]. unfold legal, FIELDS, override. cbn [f_rs1 f_rs2 f_rd f_imm].
  clear Em Ek B.
  destruct i as [dt t|o|dt|dt|dt|dt|dt t|dt t|dt t|dt t]; try discriminate K;
    [destruct t as [t|t|t]; [| |discriminate K]|destruct o as [dt t|dt t]|..];
    cbn [parts] in P; injection P as <- <-; cbn [in_isa] in I;
    cbn [operands f_rs1 f_rs2 f_rd f_imm reg_slot imm_slot mapM].
  all: lazymatch goal with
    | dt : dR |- _ => rewrite (set_reg _ Frs1 q1 (r_rs1 dt)), (set_reg _ Frs2 q2 (r_rs2 dt)),
        (set_reg _ Frd q3 (r_rd dt)), (set_absent _ Fimm q4) by (reflexivity || discriminate)
    | dt : dI |- _ => rewrite (set_reg _ Frs1 q1 (i_rs1 dt)), (set_absent _ Frs2 q2),
        (set_reg _ Frd q3 (i_rd dt)), (set_field _ Fimm q4 12 0 12 1 4096 (i_imm dt))
        by (reflexivity || discriminate || lia)
    | dt : dIs |- _ => rewrite (set_reg _ Frs1 q1 (is_rs1 dt)), (set_absent _ Frs2 q2),
        (set_reg _ Frd q3 (is_rd dt)), (set_field _ Fimm q4 5 0 5 1 32 (is_imm dt))
        by (reflexivity || discriminate || lia)
    | dt : dU |- _ => rewrite (set_absent _ Frs1 q1), (set_absent _ Frs2 q2),
        (set_reg _ Frd q3 (u_rd dt)), (set_field _ Fimm q4 20 12 32 4096 4294967296 (u_imm dt))
        by (reflexivity || discriminate || lia)
    | dt : dJ |- _ => rewrite (set_absent _ Frs1 q1), (set_absent _ Frs2 q2),
        (set_reg _ Frd q3 (j_rd dt)), (set_field _ Fimm q4 20 1 21 2 2097152 (j_imm dt))
        by (reflexivity || discriminate || lia)
    | dt : dB |- _ => rewrite (set_reg _ Frs1 q1 (b_rs1 dt)), (set_reg _ Frs2 q2 (b_rs2 dt)),
        (set_absent _ Frd q3), (set_field _ Fimm q4 12 1 13 2 8192 (b_imm dt))
        by (reflexivity || discriminate || lia)
    | dt : dS |- _ => rewrite (set_reg _ Frs1 q1 (s_rs1 dt)), (set_reg _ Frs2 q2 (s_rs2 dt)),
        (set_absent _ Frd q3), (set_field _ Fimm q4 12 0 12 1 4096 (s_imm dt))
        by (reflexivity || discriminate || lia)
    end.
  all: errs; eexists; (split; [reflexivity|]); cbn [in_isa same_op operands];
    cbn [r_rd r_rs1 r_rs2 i_rd i_rs1 i_imm is_rd is_rs1 is_imm u_rd u_imm j_rd j_imm b_rs1 b_rs2 b_imm s_rs1 s_rs2 s_imm];
    (split; [|split; [auto|f_equal; eauto using stored_over1, absent_over]]).
  all: try (apply (stored_over _ _ _ _ E1); lia); try (apply (stored_over _ _ _ _ E2); lia);
    try (apply (stored_over _ _ _ _ E0); lia).
  all: repeat match goal with
    | H : legal1 (Some (_, _)) ?q = true |- context [stored _ ?q ?x] => 
        let F := fresh "F" in
        first [ assert (F : fit 5 x -> fit 5 (stored 1 q x)) by (apply (stored_fit 1 32 5 q x H); [lia|reflexivity])
              | assert (F : fit 12 x -> fit 12 (stored 1 q x)) by (apply (stored_fit 1 4096 12 q x H); [lia|reflexivity])
              | assert (F : fit 12 x -> fit 12 (stored 2 q x)) by (apply (stored_fit 2 8192 12 q x H); [lia|reflexivity])
              | assert (F : fit 20 x -> fit 20 (stored 2 q x)) by (apply (stored_fit 2 2097152 20 q x H); [lia|reflexivity])
              | assert (F : fit 20 x -> fit 20 (stored 4096 q x)) by (apply (stored_fit 4096 4294967296 20 q x H); [lia|reflexivity]) ];
        clear H
    end.
  all: intuition auto.
Qed.

Lemma same_op_eq i j : same_op i j -> operands i = operands j -> i = j.
Proof.
  intros S O.
  assert (M : forall k a b, 0 < k -> Some (k * a) = Some (k * b) -> a = b).
  { intros k a b K E. apply (f_equal (fun o => match o with Some z => z | None => 0 end)) in E.
    cbv beta iota in E. apply Z.mul_reg_l in E; lia. }
  assert (N : forall a b : Z, Some a = Some b -> a = b) by congruence.
  pose proof (f_equal f_rs1 O) as O1. pose proof (f_equal f_rs2 O) as O2.
  pose proof (f_equal f_rd O) as O3. pose proof (f_equal f_imm O) as O4. clear O.
  destruct i as [d t|[d t|d t]|d|d|d|d|d t|d t|d t|d t],
    j as [d' t'|[d' t'|d' t']|d'|d'|d'|d'|d' t'|d' t'|d' t'|d' t']; try contradiction;
    cbn [same_op operands f_rs1 f_rs2 f_rd f_imm] in *;
    try apply N in O1; try apply N in O2; try apply N in O3;
    try (apply (M 4096) in O4; [|lia]); try (apply (M 2) in O4; [|lia]); try apply N in O4;
    destruct d, d'; cbn in *; subst; reflexivity.
Qed.

Lemma same_op_sym i j : same_op i j -> same_op j i.
Proof.
  destruct i as [d t|[d t|d t]|d|d|d|d|d t|d t|d t|d t],
    j as [d' t'|[d' t'|d' t']|d'|d'|d'|d'|d' t'|d' t'|d' t'|d' t']; try contradiction;
    cbn [same_op]; auto.
Qed.

Lemma same_op_trans i j k : same_op i j -> same_op j k -> same_op i k.
Proof.
  destruct i as [d t|[d t|d t]|d|d|d|d|d t|d t|d t|d t],
    j as [d' t'|[d' t'|d' t']|d'|d'|d'|d'|d' t'|d' t'|d' t'|d' t']; try contradiction;
    destruct k as [e u|[e u|e u]|e|e|e|e|e u|e u|e u|e u]; try contradiction; cbn [same_op]; intros; auto; congruence.
Qed.

Lemma same_legal i j q : same_op i j -> legal i q = legal j q.
Proof.
  destruct i as [d t|[d t|d t]|d|d|d|d|d t|d t|d t|d t],
    j as [d' t'|[d' t'|d' t']|d'|d'|d'|d'|d' t'|d' t'|d' t'|d' t']; try contradiction;
    intros _; reflexivity.
Qed.

Lemma same_known i j : same_op i j -> known i = known j.
Proof.
  destruct i as [d t|[d t|d t]|d|d|d|d|d t|d t|d t|d t],
    j as [d' t'|[d' t'|d' t']|d'|d'|d'|d'|d' t'|d' t'|d' t'|d' t']; try contradiction;
    cbn [same_op]; intros; subst; reflexivity.
Qed.

Lemma over1_idem q o : over1 q (over1 q o) = over1 q o.
Proof. destruct q; reflexivity. Qed.
Lemma over1_over1 q p o : over1 q (over1 p o) = over1 (over1 q p) o.
Proof. destruct q; reflexivity. Qed.
Lemma over1_same o : over1 o o = o.
Proof. destruct o; reflexivity. Qed.

Lemma known_not_ext i : known i = true -> match i with Ext _ _ => False | _ => True end.
Proof. destruct i; cbn; auto; discriminate. Qed.

Lemma legal_own c i : in_isa c i -> legal i (operands i) = true.
Proof.
  assert (R : forall x, fit 5 x -> legal1 (Some (1, 32)) (Some x) = true).
  { intros x [A B]. change (2 ^ 5) with 32 in B. cbn [legal1]. rewrite Z.mod_1_r.
    rewrite (proj2 (Z.leb_le _ _) A), (proj2 (Z.ltb_lt _ _) B). reflexivity. }
  assert (M : forall st lim w x, 0 < st -> lim = st * 2 ^ w -> fit w x ->
    legal1 (Some (st, lim)) (Some (st * x)) = true).
  { intros st lim w x S -> [A B]. cbn [legal1].
    rewrite (proj2 (Z.leb_le 0 (st * x))) by nia. rewrite (proj2 (Z.ltb_lt (st * x) _)) by nia.
    rewrite Z.mul_comm, Z.mod_mul by lia. reflexivity. }
  assert (M1 : forall lim w x, lim = 2 ^ w -> fit w x -> legal1 (Some (1, lim)) (Some x) = true).
  { intros lim w x L F. rewrite <- (Z.mul_1_l x) at 1. apply (M 1 lim w); [lia|lia|exact F]. }
  intros I. unfold legal.
  destruct i as [d t|o|d|d|d|d|d t|d t|d t|d t]; [|destruct o as [d t|d t]|..];
    cbn [in_isa operands f_rs1 f_rs2 f_rd f_imm reg_slot imm_slot] in *.
  - destruct I as (? & ? & ? & _). rewrite !R by auto. reflexivity.
  - destruct I as (? & ? & ?). rewrite !R by auto. rewrite (M1 4096 12) by auto. reflexivity.
  - destruct I as (? & ? & ?). rewrite !R by auto. reflexivity.
  - destruct I as (? & ?). rewrite !R by auto. rewrite (M 4096 4294967296 20) by (auto; lia). reflexivity.
  - destruct I as (? & ?). rewrite !R by auto. rewrite (M 4096 4294967296 20) by (auto; lia). reflexivity.
  - destruct I as (? & ?). rewrite !R by auto. rewrite (M 2 2097152 20) by (auto; lia). reflexivity.
  - destruct I as (? & ? & ?). rewrite !R by auto. rewrite (M1 4096 12) by auto. reflexivity.
  - destruct I as (? & ? & ?). rewrite !R by auto. rewrite (M 2 8192 12) by (auto; lia). reflexivity.
  - destruct I as (? & ? & ?). rewrite !R by auto. rewrite (M1 4096 12) by auto. reflexivity.
  - destruct I as (? & ? & ?). rewrite !R by auto. rewrite (M1 4096 12) by auto. reflexivity.
  - destruct I as (? & ? & _). rewrite !R by auto. reflexivity.
Qed.

(** ** C51 *)

(** Missing for C51: multiply and divide instructions, and the extension
    instructions. A legal request gives the same operation with exactly the
    requested operands replaced; any other request is a ValueError. *)
Theorem C51_fields_partial e c i q :
  env_ok e -> in_isa c i -> known i = true ->
  get_fields e i = Ok (operands i) /\
  if legal i q then
    exists j, set_fields e i q = Ok j /\ in_isa c j /\ same_op i j
      /\ get_fields e j = Ok (override (operands i) q)
  else set_fields e i q = Err ValueError.
Proof.
  intros E I K. split; [apply get_ok; [apply E|apply known_not_ext; auto]|].
  pose proof (set_spec e c i q E I K) as S. destruct (legal i q); [|exact S].
  destruct S as (j & S & Ij & O & V). exists j. repeat split; auto.
  rewrite <- V. apply get_ok; [apply E|]. apply known_not_ext.
  rewrite <- (same_known i j O). exact K.
Qed.

(** The operation and the operands determine the instruction, so the result of
    [set_fields] is the only possible one. *)
Theorem C51_determined i j : same_op i j -> operands i = operands j -> i = j.
Proof. apply same_op_eq. Qed.

(** Setting the same operands twice, setting the present operands, and setting
    in two steps. *)
Theorem C51_laws_partial e c i q j :
  env_ok e -> in_isa c i -> known i = true ->
  (set_fields e i q = Ok j -> set_fields e j q = Ok j)
  /\ set_fields e i (operands i) = Ok i
  /\ set_fields e i (mkF None None None None) = Ok i
  /\ (forall p, set_fields e i p = Ok j -> legal i q = true ->
      set_fields e j q = set_fields e i (override p q)).
Proof.
  intros E I K.
  assert (G : forall p k, set_fields e i p = Ok k ->
    legal i p = true /\ in_isa c k /\ same_op i k /\ operands k = override (operands i) p).
  { intros p k S. pose proof (set_spec e c i p E I K) as H. destruct (legal i p); [|congruence].
    destruct H as (k' & S' & ?). replace k with k' by congruence. auto. }
  assert (R : forall k p u, in_isa c k -> known k = true -> legal k p = true ->
    same_op k u -> operands u = override (operands k) p -> set_fields e k p = Ok u).
  { intros k p u Ik Kk L S O. pose proof (set_spec e c k p E Ik Kk) as H. rewrite L in H.
    destruct H as (v & H & Iv & Sv & Ov). rewrite H. f_equal. apply same_op_eq; [|congruence].
    eapply same_op_trans; [apply same_op_sym; exact Sv|exact S]. }
  assert (Rf : forall k, same_op k k).
  { intros k. destruct k as [d t|o|d|d|d|d|d t|d t|d t|d t]; cbn; auto. destruct o; reflexivity. }
  split; [|split; [|split]].
  - intros S. destruct (G q j S) as (L & Ij & O & V). apply R; auto.
    + rewrite <- (same_known i j O). exact K.
    + rewrite <- (same_legal i j q O). exact L.
    + rewrite V. unfold override. cbn [f_rs1 f_rs2 f_rd f_imm]. rewrite !over1_idem. reflexivity.
  - apply R; auto; [eapply legal_own; eauto|]. unfold override. rewrite !over1_same.
    destruct (operands i); reflexivity.
  - apply R; auto. destruct (operands i); reflexivity.
  - intros p S L. destruct (G p j S) as (Lp & Ij & O & V).
    assert (Lq : legal i (override p q) = true).
    { unfold legal, override in *. cbn [f_rs1 f_rs2 f_rd f_imm].
      repeat match goal with H : _ && _ = true |- _ => apply andb_true_iff in H; destruct H end.
      rewrite !andb_true_iff. repeat split.
      - destruct (f_rs1 q); cbn [over1]; auto.
      - destruct (f_rs2 q); cbn [over1]; auto.
      - destruct (f_rd q); cbn [over1]; auto.
      - destruct (f_imm q); cbn [over1]; auto. }
    pose proof (set_spec e c i (override p q) E I K) as H. rewrite Lq in H.
    destruct H as (k & H & Ik & Sk & Ok'). rewrite H. apply R; auto.
    + rewrite <- (same_known i j O). exact K.
    + rewrite <- (same_legal i j q O). exact L.
    + eapply same_op_trans; [apply same_op_sym; exact O|exact Sk].
    + rewrite Ok', V. unfold override. cbn [f_rs1 f_rs2 f_rd f_imm]. rewrite !over1_over1. reflexivity.
Qed.

(** The instructions left out: [set_fields] raises KeyError for MUL..REMU, and
    both helpers always fail on the extension instructions. *)
Theorem C51_muldiv e c d t q :
  env_ok e -> in_isa c (OP d (aMulDiv t)) ->
  set_fields e (OP d (aMulDiv t)) q
  = Err (if legal (OP d (aMulDiv t)) q then KeyError else ValueError).
Proof.
  intros [Em Ek] I. unfold set_fields.
  rewrite (unpack_ok e (OP d (aMulDiv t)) (Em TOP (or_introl eq_refl))). cbn [bind parts kind_of].
  rewrite (known_in e TOP (Ek TOP (or_introl eq_refl))). cbn [negb].
  destruct q as [q1 q2 q3 q4]. unfold legal, FIELDS. cbn [mapM operands f_rs1 f_rs2 f_rd f_imm reg_slot imm_slot].
  rewrite (set_reg _ Frs1 q1 (r_rs1 d)), (set_reg _ Frs2 q2 (r_rs2 d)),
        (set_reg _ Frd q3 (r_rd d)), (set_absent _ Fimm q4) by (reflexivity || discriminate).
  errs.
Qed.

Theorem C51_ext e d t q :
  (exists x, get_fields e (Ext d t) = Err x) /\ (exists x, set_fields e (Ext d t) q = Err x).
Proof.
  split.
  - unfold get_fields, unpack. destruct (find _ _); [|eexists; reflexivity]. cbn. eexists. reflexivity.
  - unfold set_fields, unpack. destruct (find _ _) as [k|]; [|eexists; reflexivity].
    cbn [bind parts]. destruct (negb _); [eexists; reflexivity|].
    destruct q as [q1 q2 q3 q4]. unfold FIELDS. cbn [mapM f_rs1 f_rs2 f_rd f_imm].
    rewrite (set_absent _ Frs1 q1), (set_absent _ Frs2 q2), (set_reg _ Frd q3 (e_rd d)),
      (set_absent _ Fimm q4) by (reflexivity || discriminate).
    repeat match goal with |- context [if legal1 ?s ?q then _ else _] =>
      destruct (legal1 s q); cbn [bind]; [|eexists; reflexivity] end.
    cbn. eexists. reflexivity.
Qed.

(** ** asm_* *)

(** Exactly one of rs2 and imm must be given. *)
Theorem C51_asm_errors t u rs1 rd rs2 imm :
  let bad := match rs2, imm with Some _, None | None, Some _ => false | _, _ => true end in
  (asm_arith t rs1 rd rs2 imm = Err ValueError <-> bad = true)
  /\ (asm_shift u rs1 rd rs2 imm = Err ValueError <-> bad = true)
  /\ (asm_SUB rs1 rd rs2 imm = Err ValueError <-> bad = true).
Proof. destruct rs2, imm; cbn; repeat split; intros; congruence. Qed.

(** The operands of the result: integers are reduced to the field width. *)
Theorem C51_asm_fields e t u rs1 rd k :
  (forall x, In x base_members -> In x (e_members e)) ->
  (exists i, asm_arith t rs1 rd (Some k) None = Ok i
     /\ get_fields e i = Ok (mkF (Some (rs1 mod 32)) (Some (k mod 32)) (Some (rd mod 32)) None))
  /\ (exists i, asm_arith t rs1 rd None (Some k) = Ok i
     /\ get_fields e i = Ok (mkF (Some (rs1 mod 32)) None (Some (rd mod 32)) (Some (k mod 4096))))
  /\ (exists i, asm_shift u rs1 rd (Some k) None = Ok i
     /\ get_fields e i = Ok (mkF (Some (rs1 mod 32)) (Some (k mod 32)) (Some (rd mod 32)) None))
  /\ (exists i, asm_shift u rs1 rd None (Some k) = Ok i
     /\ get_fields e i = Ok (mkF (Some (rs1 mod 32)) None (Some (rd mod 32)) (Some (k mod 32))))
  /\ (exists i, asm_SUB rs1 rd None (Some k) = Ok i
     /\ get_fields e i = Ok (mkF (Some (rs1 mod 32)) None (Some (rd mod 32)) (Some ((- k) mod 4096)))).
Proof.
  intros E.
  assert (N : bvneg 12 (wrap 12 k) = (- k) mod 4096).
  { unfold bvneg, wrap. change (2 ^ 12) with 4096. rewrite <- (Z.sub_0_l (k mod 4096)).
    rewrite Zminus_mod_idemp_r. f_equal. }
  repeat split; eexists; (split; [reflexivity|]); rewrite get_ok by (auto; exact Logic.I);
    cbn [operands r_rs1 r_rs2 r_rd i_rs1 i_rd i_imm is_rs1 is_rd is_imm]; rewrite ?N; reflexivity.
Qed.

Section Exec.
  Variables sdiv udiv srem urem : Z -> Z -> Z.
  Hypothesis div_words : forall a b,
    fit 32 (sdiv a b) /\ fit 32 (udiv a b) /\ fit 32 (srem a b) /\ fit 32 (urem a b).
  Notation step := (step sdiv udiv srem urem).
  Notation reach := (reach sdiv udiv srem urem).

  (** One step: the pc moves on, [rd] gets [v]. *)
  Definition writes (c : core) (rf : rfile) (i : inst) (pc rd v : Z) : Prop :=
    exists rf', step c rf i pc = (Ok ((pc + 4) mod W), rf')
      /\ forall r, rf_load rf' r = if (r =? rd) && negb (r =? 0) then Ok v else rf_load rf r.

  Definition reg (r : Z) : Prop := 0 <= r < 32.

  Lemma wrap_reg r : reg r -> wrap 5 r = r.
  Proof. intros R. apply wrap_small. exact R. Qed.

  Lemma writes_step c rf i pc rd v x : reach c rf -> in_isa c i -> rv32i i = true -> fit 32 pc ->
    (forall r, In r (reads i) -> rf_load rf r = Ok (x r)) -> big_shift x i = false ->
    sp_step x pc i = (rd, v, (pc + 4) mod W) -> writes c rf i pc rd v.
  Proof.
    intros R I V P L B S.
    pose proof (C48_step_partial sdiv udiv srem urem div_words c rf i pc x R I V P L B) as H.
    rewrite S in H. exact H.
  Qed.

  Lemma sg_imm k : -2048 <= k < 2048 -> sg 12 (wrap 12 k) = k.
  Proof.
    intros K. unfold sg, wrap. change (2 ^ (12 - 1)) with 2048. change (2 ^ 12) with 4096.
    destruct (Z_lt_ge_dec k 0).
    - replace (k mod 4096) with (k + 4096) by (apply Z.mod_unique with (-1); lia).
      destruct (Z.ltb_spec (k + 4096) 2048); lia.
    - rewrite Z.mod_small by lia. destruct (Z.ltb_spec k 2048); lia.
  Qed.

  Lemma fit_imm k : fit 12 (wrap 12 k).
  Proof. apply wrap_range. lia. Qed.

  (** Assembling and executing: the named operation on the named operands. *)
  Theorem C51_asm_exec c rf pc rs1 rs2 rd x y k t u :
    reach c rf -> fit 32 pc -> reg rs1 -> reg rs2 -> reg rd ->
    rf_load rf rs1 = Ok x -> rf_load rf rs2 = Ok y ->
    (exists i, asm_arith t rs1 rd (Some rs2) None = Ok i /\ writes c rf i pc rd (sp_arith t x y))
    /\ (t <> SUB -> -2048 <= k < 2048 ->
        exists i, asm_arith t rs1 rd None (Some k) = Ok i /\ writes c rf i pc rd (sp_arith t x (k mod W)))
    /\ (y < 32 ->
        exists i, asm_shift u rs1 rd (Some rs2) None = Ok i /\ writes c rf i pc rd (sp_shift u x y))
    /\ (0 <= k < 32 ->
        exists i, asm_shift u rs1 rd None (Some k) = Ok i /\ writes c rf i pc rd (sp_shift u x k))
    /\ (exists i, asm_SUB rs1 rd (Some rs2) None = Ok i /\ writes c rf i pc rd ((x - y) mod W))
    /\ (-2047 <= k <= 2048 ->
        exists i, asm_SUB rs1 rd None (Some k) = Ok i /\ writes c rf i pc rd ((x - k) mod W)).
  Proof.
    intros R P R1 R2 Rd X Y.
    assert (F : forall r, reg r -> fit 5 r) by (intros r H; exact H).
    assert (C : forall r, (r = rs1 \/ r = rs2) -> rf_load rf r = Ok (content rf r)).
    { intros r [-> | ->]; eapply content_ok; eauto. }
    assert (Cx : content rf rs1 = x) by (unfold content; rewrite X; reflexivity).
    assert (Cy : content rf rs2 = y) by (unfold content; rewrite Y; reflexivity).
    assert (D : forall t, writes c rf (OP (mkR rd rs1 rs2) (aArith t)) pc rd (sp_arith t x y)).
    { intros t0. apply (writes_step c rf _ pc rd _ (content rf)); auto; try reflexivity.
      - cbn. auto.
      - intros r [<-|[<-|[]]]; apply C; auto.
      - cbn [sp_step r_rd r_rs1 r_rs2]. rewrite Cx, Cy. reflexivity. }
    assert (E : forall t k, t <> SUB -> -2048 <= k < 2048 ->
       writes c rf (OP_IMM (oArith (mkI rd rs1 (wrap 12 k)) t)) pc rd (sp_arith t x (k mod W))).
    { intros t0 k0 Ns Hk. apply (writes_step c rf _ pc rd _ (content rf)); auto; try reflexivity.
      - cbn. auto using fit_imm.
      - destruct t0; auto; contradiction.
      - intros r [<-|[]]; apply C; auto.
      - cbn [sp_step i_rd i_rs1 i_imm]. rewrite Cx, sg_imm by auto. reflexivity. }
    repeat split.
    - eexists. split; [reflexivity|]. rewrite !wrap_reg by auto. apply D.
    - intros Ns Hk. eexists. split; [reflexivity|]. rewrite !wrap_reg by auto. apply E; auto.
    - intros Hy. eexists. split; [reflexivity|]. rewrite !wrap_reg by auto.
      apply (writes_step c rf _ pc rd _ (content rf)); auto; try reflexivity.
      + cbn. auto.
      + intros r [<-|[<-|[]]]; apply C; auto.
      + cbn [big_shift r_rs2]. rewrite Cy. apply Z.leb_gt. exact Hy.
      + cbn [sp_step r_rd r_rs1 r_rs2]. rewrite Cx, Cy. reflexivity.
    - intros Hk. eexists. split; [reflexivity|]. rewrite !wrap_reg by auto.
      apply (writes_step c rf _ pc rd _ (content rf)); auto; try reflexivity.
      + cbn. auto.
      + intros r [<-|[]]; apply C; auto.
      + cbn [sp_step is_rd is_rs1 is_imm]. rewrite Cx. reflexivity.
    - eexists. split; [reflexivity|]. rewrite !wrap_reg by auto. apply (D SUB).
    - intros Hk. eexists. split; [reflexivity|]. rewrite !wrap_reg by auto.
      replace (bvneg 12 (wrap 12 k)) with (wrap 12 (- k)).
      + replace ((x - k) mod W) with (sp_arith ADD x ((- k) mod W)); [apply E; [discriminate|lia]|].
        cbn [sp_arith]. rewrite Zplus_mod_idemp_r. f_equal.
      + unfold bvneg, wrap. rewrite <- (Z.sub_0_l k), <- (Z.sub_0_l (k mod _)).
        rewrite Zminus_mod_idemp_r. reflexivity.
  Qed.

  (** The extension's helpers: rd and exactly one of rs, rs1; the result counts. *)
  Theorem C51_asm_bit rf pc t rs rd rs1 r k x :
    reach CoreExt rf -> reg r -> reg k -> rf_load rf r = Ok x ->
    rd = Some k ->
    (rs = Some r /\ rs1 = None \/ rs = None /\ rs1 = Some r) ->
    exists i, asm_bit t rs rd rs1 = Ok i /\ writes CoreExt rf i pc k (sp_bits t x).
  Proof.
    intros R Rr Rk L -> H.
    assert (A : asm_bit t rs (Some k) rs1 = Ok (Ext (mkE (wrap 5 k) (wrap 5 r)) t)).
    { destruct H as [[-> ->]|[-> ->]]; reflexivity. }
    eexists. split; [exact A|]. rewrite !wrap_reg by auto.
    apply (C52_step sdiv udiv srem urem div_words rf (mkE k r) t pc x R L).
  Qed.

  Theorem C51_asm_bit_errors t rs rd rs1 :
    asm_bit t rs rd rs1 = Err ValueError
    <-> rd = None \/ (rs = None /\ rs1 = None) \/ (rs <> None /\ rs1 <> None).
  Proof.
    destruct rd, rs, rs1; cbn; split; intros H; try discriminate; auto;
      try (right; right; split; discriminate); try (right; left; split; reflexivity);
      intuition congruence.
  Qed.
End Exec.

(** [asm_SUB] with the smallest 12-bit immediate subtracts the wrong number:
    x - (-2048) is asked for and x - 2048 is computed. *)
Theorem C51_asm_sub_refuted :
  ~ (forall rf pc rs1 rd x k, reach0 Base32 rf -> fit 32 pc -> reg rs1 -> reg rd ->
     rf_load rf rs1 = Ok x -> -2048 <= k < 2048 ->
     exists i, asm_SUB rs1 rd None (Some k) = Ok i
       /\ writes zero_div zero_div zero_div zero_div Base32 rf i pc rd ((x - k) mod W)).
Proof.
  intros H.
  destruct (H rf_ex 0 1 4 5 (-2048) (rf_ex_reach Base32)) as (i & A & rf' & S & Q);
    [fitz|unfold reg; lia|unfold reg; lia|reflexivity|lia|].
  injection A as <-. specialize (Q 4).
  assert (E : rf' = snd (step0 Base32 rf_ex
            (OP_IMM (oArith (mkI (wrap 5 4) (wrap 5 1) (bvneg 12 (wrap 12 (-2048)))) ADD)) 0))
    by (rewrite S; reflexivity).
  rewrite E in Q. vm_compute in Q. discriminate Q.
Qed.

Theorem C51_full_refuted : ~ C51_full.
Proof.
  intros H. destruct (H (mkEnv base_members base_members) CoreM (OP (mkR 1 2 3) (aMulDiv MUL))
                        (mkF None None (Some 4) None)) as (j & S & _).
  - split; auto.
  - isa.
  - reflexivity.
  - discriminate S.
Qed.

(** ** C61: evaluating the extension's instruction set changes the base one *)

(** What the base instruction set's [Inst] is, after any history. *)
Theorem C61_members h :
  n_base (ns_run h)
  = if existsb (fun o => match o with ExtISA | ImportExtAsm => true | _ => false end) h
    then Some (base_members ++ [TExt])
    else match h with [] => None | _ => Some base_members end.
Proof.
  unfold ns_run.
  assert (G : forall h s,
    n_ext s = true -> n_base s = Some (base_members ++ [TExt]) ->
    n_base (fold_left ns_step h s) = Some (base_members ++ [TExt])).
  { induction h0 as [|o h0 IH]; intros s X B; [exact B|]. cbn [fold_left]. apply IH.
    - destruct o; cbn [ns_step]; unfold import_ext_asm, ext_isa, import_asm, base_isa;
        destruct (n_known s); rewrite ?B; cbn [n_ext]; rewrite ?X; cbn [n_ext]; auto.
    - destruct o; cbn [ns_step]; unfold import_ext_asm, ext_isa, import_asm, base_isa;
        destruct (n_known s); rewrite ?B; cbn [n_ext n_base]; rewrite ?X; cbn [n_base]; auto. }
  assert (K : forall h s, n_ext s = false -> n_base s = Some base_members ->
    n_base (fold_left ns_step h s)
    = if existsb (fun o => match o with ExtISA | ImportExtAsm => true | _ => false end) h
      then Some (base_members ++ [TExt]) else Some base_members).
  { induction h0 as [|o h0 IH]; intros s X B; [exact B|]. cbn [fold_left existsb].
    destruct o; cbn [orb ns_step].
    - apply IH; unfold base_isa; rewrite B; auto.
    - apply G; unfold ext_isa; rewrite X; reflexivity.
    - apply IH; unfold import_asm, base_isa; destruct (n_known s); rewrite ?B; auto.
    - apply G; unfold import_ext_asm, ext_isa, import_asm, base_isa; destruct (n_known s);
        rewrite ?B; cbn [n_ext]; rewrite ?X; reflexivity. }
  destruct h as [|o h]; [reflexivity|]. cbn [fold_left existsb].
  destruct o; cbn [orb ns_step].
  - apply K; reflexivity.
  - apply G; reflexivity.
  - apply K; reflexivity.
  - apply G; reflexivity.
Qed.

(** Full statement: the base instruction set is the same in all histories. *)
Definition C61_full : Prop :=
  forall h m, n_base (ns_run h) = Some m -> m = base_members.

(** Missing for C61: histories in which the extension has been used. *)
Theorem C61_base_partial h m :
  ~ In ExtISA h -> ~ In ImportExtAsm h -> n_base (ns_run h) = Some m -> m = base_members.
Proof.
  intros A B. rewrite C61_members. destruct (existsb _ h) eqn:X.
  - apply existsb_exists in X. destruct X as (o & I & O). destruct o; try discriminate O; contradiction.
  - destruct h; congruence.
Qed.

Theorem C61_full_refuted : ~ C61_full.
Proof. intros H. specialize (H [ImportAsm; ImportExtAsm] _ eq_refl). discriminate H. Qed.

(** The helpers of C51 always see an environment that fits them. *)
Theorem C61_env h e : env_of (ns_run h) = Some e -> env_ok e.
Proof.
  intros H.
  assert (I : forall h, match n_known (ns_run h) with
                        | Some k => forall t, In t base_members -> In t k | None => True end
                        /\ match n_base (ns_run h) with
                        | Some k => forall t, In t base_members -> In t k | None => True end).
  { intros h0. unfold ns_run. rewrite <- fold_left_rev_right. induction (rev h0) as [|o l IH].
    - split; exact Logic.I.
    - cbn [fold_right]. set (s := fold_right _ _ l) in *. destruct IH as [A B].
      assert (X : forall t, In t base_members -> In t (base_members ++ [TExt]))
        by (intros; apply in_or_app; auto).
      destruct o; cbn [ns_step]; unfold import_ext_asm, ext_isa, import_asm, base_isa;
        destruct (n_known s) as [k|] eqn:Ek; destruct (n_base s) as [b|] eqn:Eb;
        cbn [n_ext n_base n_known]; destruct (n_ext s) eqn:Ex;
        cbn [n_ext n_base n_known]; rewrite ?Ek, ?Eb; split; auto. }
  destruct (I h) as [A B]. unfold env_of in H.
  destruct (n_base (ns_run h)) as [m|]; [|discriminate]. destruct (n_known (ns_run h)) as [k|]; [|discriminate].
  injection H as <-. split; assumption.
Qed.

(** What the helpers know is fixed by the first import of one of the asm modules: later
    imports and later uses of the extension do not change it. *)
Definition imports (o : nop) : bool := match o with ImportAsm | ImportExtAsm => true | _ => false end.

Theorem C61_known h o h' : forallb (fun p => negb (imports p)) h = true ->
  n_known (ns_run h) = None
  /\ (imports o = true ->
      n_known (ns_run (h ++ o :: h'))
      = Some (if existsb (fun p => match p with ExtISA => true | _ => false end) h
              then base_members ++ [TExt] else base_members)).
Proof.
  intros F.
  assert (A : forall h s, forallb (fun p => negb (imports p)) h = true -> n_known (fold_left ns_step h s) = n_known s).
  { induction h0 as [|p h0 IH]; intros s H; [reflexivity|]. cbn [forallb] in H. apply andb_true_iff in H as [H1 H2].
    cbn [fold_left]. rewrite IH by exact H2.
    destruct p; try discriminate H1; cbn [ns_step]; unfold ext_isa, base_isa; destruct (n_ext s), (n_base s); reflexivity. }
  assert (B : forall h s k, n_known s = Some k -> n_known (fold_left ns_step h s) = Some k).
  { induction h0 as [|p h0 IH]; intros s k H; [exact H|]. cbn [fold_left]. apply IH.
    destruct p; cbn [ns_step]; unfold import_ext_asm, ext_isa, import_asm, base_isa; rewrite ?H; auto;
      destruct (n_ext s), (n_base s); auto. }
  split; [unfold ns_run; now rewrite A|]. intros I.
  unfold ns_run. rewrite fold_left_app. cbn [fold_left]. apply B.
  pose proof (C61_members h) as M. pose proof (A h ns_init F) as N.
  unfold ns_run in M. set (s := fold_left ns_step h ns_init) in *. change (n_known ns_init) with (@None (list itype)) in N.
  assert (E : existsb (fun p => match p with ExtISA | ImportExtAsm => true | _ => false end) h
              = existsb (fun p => match p with ExtISA => true | _ => false end) h).
  { clear - F. induction h as [|p h IH]; [reflexivity|]. cbn [forallb existsb] in *. apply andb_true_iff in F as [F1 F2].
    rewrite IH by exact F2. destruct p; try discriminate F1; reflexivity. }
  rewrite E in M.
  assert (K : n_known (import_asm s) = Some (if existsb (fun p => match p with ExtISA => true | _ => false end) h
                                             then base_members ++ [TExt] else base_members)).
  { unfold import_asm. rewrite N. cbn [n_known]. unfold base_isa. destruct (existsb _ h).
    - rewrite M. exact M.
    - destruct h; rewrite M; [reflexivity|exact M]. }
  destruct o; try discriminate I; cbn [ns_step]; [exact K|].
  unfold import_ext_asm, ext_isa, base_isa. destruct (n_ext (import_asm s)); [exact K|]. destruct (n_base (import_asm s)); exact K.
Qed.

(** ** Concrete cases *)

Definition env0 : env := mkEnv base_members base_members.
Lemma env0_ok : env_ok env0. Proof. split; auto. Qed.

Example C51_case :
  get_fields env0 (Branch (mkB 1 2 4094) BLT) = Ok (mkF (Some 1) (Some 2) None (Some 8188))
  /\ set_fields env0 (Branch (mkB 1 2 4094) BLT) (mkF None (Some 7) None (Some 12))
     = Ok (Branch (mkB 1 7 6) BLT)
  /\ set_fields env0 (Branch (mkB 1 2 4094) BLT) (mkF None None None (Some 13)) = Err ValueError
  /\ set_fields env0 (LUI (mkU 1 0)) (mkF None (Some 1) None None) = Err ValueError.
Proof.
  assert (I : in_isa Base32 (Branch (mkB 1 2 4094) BLT)) by isa.
  assert (I' : in_isa Base32 (LUI (mkU 1 0))) by isa.
  split; [|split; [|split]].
  - apply (proj1 (C51_fields_partial env0 Base32 _ (mkF None None None None) env0_ok I eq_refl)).
  - destruct (C51_fields_partial env0 Base32 _ (mkF None (Some 7) None (Some 12)) env0_ok I eq_refl)
      as [_ (j & S & _ & O & G)]. rewrite S. f_equal.
    apply C51_determined; [destruct j; try contradiction; cbn in O |- *; congruence|].
    rewrite get_ok in G; [|auto|destruct j; try contradiction; exact Logic.I].
    injection G as ->. reflexivity.
  - exact (proj2 (C51_fields_partial env0 Base32 _ (mkF None None None (Some 13)) env0_ok I eq_refl)).
  - exact (proj2 (C51_fields_partial env0 Base32 _ (mkF None (Some 1) None None) env0_ok I' eq_refl)).
Qed.

Example C51_exec_case :
  exists i, asm_SUB 1 4 None (Some 7) = Ok i
    /\ writes zero_div zero_div zero_div zero_div Base32 rf_ex i 0 4 (W - 2).
Proof.
  destruct (C51_asm_exec zero_div zero_div zero_div zero_div zero_div_words Base32 rf_ex 0 1 2 4 5 32 7
              ADD SLL (rf_ex_reach Base32)) as (_ & _ & _ & _ & _ & H);
    [fitz|unfold reg; lia|unfold reg; lia|unfold reg; lia|reflexivity|reflexivity|].
  apply H. lia.
Qed.

Example C61_case : n_base (ns_run [ImportAsm; BaseISA]) = Some base_members
  /\ env_of (ns_run [ImportAsm; ExtISA]) = Some (mkEnv (base_members ++ [TExt]) base_members).
Proof. split; [rewrite C61_members; reflexivity|reflexivity]. Qed.

Print Assumptions C51_fields_partial.
Print Assumptions C51_determined.
Print Assumptions C51_laws_partial.
Print Assumptions C51_muldiv.
Print Assumptions C51_ext.
Print Assumptions C51_asm_errors.
Print Assumptions C51_asm_fields.
Print Assumptions C51_asm_exec.
Print Assumptions C51_asm_bit.
Print Assumptions C51_asm_bit_errors.
Print Assumptions C51_asm_sub_refuted.
Print Assumptions C51_full_refuted.
Print Assumptions C61_members.
Print Assumptions C61_base_partial.
Print Assumptions C61_env.
Print Assumptions C61_known.
Print Assumptions C61_full_refuted.
