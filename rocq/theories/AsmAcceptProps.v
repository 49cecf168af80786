(** C04, C75: the words accepted by [is_valid], for types with opcode sets of several ranges too. *)
From Coq Require Import String ZArith List Bool Lia.
From Verif Require Import Base BaseLemmas AsmModel AsmSpec AsmValid AsmEnum AsmBuild AsmProofs AsmMore AsmCheck AsmProps
  Asm2Model Asm2Proofs Asm2Props Asm2ValidModel Asm2Valid Asm2ValidProps AsmAccept.
Import ListNotations.
Open Scope string_scope. Open Scope list_scope. Open Scope Z_scope.

(** peak.assembler accepts exactly the words of [accepted]. *)
Theorem C04_accepted_words h t a op :
  Forall wf_ty (t :: h) -> same_width (t :: h) -> built h t a -> 0 <= op < 2 ^ a_width a ->
  (a_isv a op = true <-> accepted t op).
Proof.
  intros W S B Rg. assert (wf_ty t) as Wt by (inversion W; auto). pose proof (built_rel h t a W B) as A.
  destruct (asm_v2 _ t (reqs_good _ W) Wt a A) as (x & Rx & Ex). rewrite <- Ex.
  apply (v2_accepted _ (reqs_good _ W) (exact_reqs _ S) t Wt x op Rx). destruct (C16_width h t a W B) as [-> _]. exact Rg.
Qed.

(** So does peak.assembler2. *)
Theorem C75_accepted_words h t a op :
  Forall wf_ty (t :: h) -> same_width2 (t :: h) -> built2 h t a -> 0 <= op < 2 ^ a2_width t ->
  (v2_valid a op = true <-> accepted t op).
Proof.
  intros W S B Rg. assert (wf_ty t) as Wt by (inversion W; auto). pose proof (built2_rel h t a W B) as A.
  exact (v2_accepted _ (reqs2_good _ W) (exact_reqs2 _ S) t Wt a op A Rg).
Qed.

(** The two packages accept the same words, without the condition on ranges. *)
Theorem C75_same_words h h2 t a a2 op :
  Forall wf_ty (t :: h) -> Forall wf_ty (t :: h2) -> same_width (t :: h) -> same_width2 (t :: h2) ->
  built h t a -> built2 h2 t a2 -> 0 <= op < 2 ^ a2_width t ->
  a_isv a op = v2_valid a2 op.
Proof.
  intros W W2 S S2 B B2 Rg. destruct (C16_width h t a W B) as [Ew _]. rewrite Ew in Rg.
  pose proof (C04_accepted_words h t a op W S B Rg) as P. rewrite <- Ew in Rg.
  pose proof (C75_accepted_words h2 t a2 op W2 S2 B2 Rg) as Q.
  destruct (a_isv a op), (v2_valid a2 op); auto; [symmetry; apply Q, P; reflexivity|apply P, Q; reflexivity].
Qed.

(** Every word of an instruction is accepted, and with [no_multi_range] no others are. *)
Theorem C04_encoded_accepted t op v : wf_ty t -> encodes t op v -> accepted t op.
Proof.
  intros W E. revert v op E. induction t as [| | |c ms|c fs IH|g c fs IH] using ty_ind'; intros v op E.
  - inversion E as [b| | | | |]; subst. constructor. destruct b; cbn; lia.
  - inversion E; subst. now constructor.
  - inversion E; subst. now constructor.
  - inversion E as [| | |? ? m k C| |]; subst. destruct (enum_table_spec c ms W) as (tbl & E1 & _).
    destruct (enum_facts c ms tbl W E1) as (_ & ND & NS & Hc & _ & S & F).
    apply (ac_enum c ms (isort Z.leb (map snd tbl)) (a2_width (TEnum c ms))); auto using a2_width_spec.
    + apply isort_increasing; auto.
    + intros x. rewrite isort_In. split.
      * intros J. apply in_map_iff in J as ([m' y] & <- & J). exists m'. apply Hc. exact J.
      * intros [m' C']. apply Hc in C'. apply (in_map snd) in C'. exact C'.
    + eapply enc_range; eauto using a2_width_spec.
    + left. apply isort_In2. apply Hc in C. apply (in_map snd) in C. exact C.
  - inversion E as [| | | |? ? ? vs F|]; subst. constructor. assert (WF : Forall (fun f => wf_ty (snd f)) fs) by (inversion W; auto).
    clear - F IH WF. revert op vs F. induction fs as [|[k t] fs IHf]; intros op vs F; inversion F as [|? ? ? w x y v vs' Sw Ex Ef]; subst; [constructor|].
    inversion WF; inversion IH; subst. cbn [snd] in *. econstructor; eauto.
  - inversion E as [| | | | |? ? ? pre k t post W0 w x junk v0 Hfs SW Sw Ex Hj HJ HW]; subst op v.
    assert (In (k, t) fs) as I by (rewrite Hfs; apply in_app_iff; right; left; auto).
    assert (wf_ty t) as Wt by (eapply wf_members_sum; eauto).
    assert (ND : no_dup_keys fs) by (inversion W; auto).
    destruct (group_by_ty_spec (isort field_leb fs)) as [G1 G2].
    pose proof (rank_index pre k t post) as Ri. rewrite <- Hfs in Ri. destruct (G2 _ _ _ Ri) as [l J]. destruct (G1 _ _ J) as (NE & Inc & Hl).
    pose proof (rank_lt _ _ _ _ _ Hfs) as Rl. rewrite Forall_forall in IH.
    apply (ac_sum g c fs t l) with (W := W0); auto.
    + intros y. rewrite Hl. split.
      * intros (i & k' & Ei & ->). apply rank_iff in Ei as (p & q & ? & ?); auto. exists p, k', q. auto.
      * intros (p & k' & q & E' & ->). exists (Z.to_nat (rank_at p k' q)), k'.
        pose proof (rank_nonneg p k' q). split; [|lia]. rewrite E'. apply rank_index.
    + split; [lia|]. apply lt_pow2_bits_for; lia.
    + left. apply Hl. exists (Z.to_nat (rank_at pre k post)), k. split; auto. lia.
    + eapply (IH _ I); eauto.
Qed.
Theorem C04_accepted_encoded t op : wf_ty t -> no_multi_range t -> accepted t op -> exists v, has_ty t v /\ encodes t op v.
Proof.
  intros W NM Ac. enough (exists v, encodes t op v) as [v E] by (exists v; split; auto; eapply enc_has_ty; eauto).
  revert op Ac. induction t as [| | |c ms|c fs IH|g c fs IH] using ty_ind'; intros op Ac.
  - inversion Ac; subst. assert (op = 0 \/ op = 1) as [->| ->] by lia; eexists; [apply (enc_bit _ false)|apply (enc_bit _ true)].
  - inversion Ac; subst. eexists. constructor; auto.
  - inversion Ac; subst. eexists. constructor; auto.
  - inversion Ac as [| | |? ? ops w ? Inc Hc Sw Rg D| |]; subst. destruct D as [I|M].
    + apply Hc in I as [m C]. exists (VEnum m). now constructor.
    + destruct (NM ops w); auto. constructor; auto.
  - inversion Ac as [| | | |? ? ? AF|]; subst. assert (WF : Forall (fun f => wf_ty (snd f)) fs) by (inversion W; auto).
    assert (NF : forall k t, In (k, t) fs -> no_multi_range t) by (intros k t I ops w' Rq; apply (NM ops w'); eapply rq_prod; eauto).
    enough (exists vs, enc_fields (fun _ => True) fs op vs) as [vs F] by (exists (VProd vs); now constructor).
    clear - AF WF NF IH. revert op AF. induction fs as [|[k t] fs IHf]; intros op AF; inversion AF as [|? ? ? w x y Sw Ax Ay]; subst; [exists []; constructor|].
    inversion WF as [|? ? W1 W2]; inversion IH as [|? ? I1 I2]; subst. cbn [snd] in *.
    destruct (I1 W1 (NF _ _ (or_introl eq_refl)) x Ax) as [v Ev].
    destruct (IHf I2 W2 (fun k t I => NF k t (or_intror I)) y Ay) as [vs Evs]. exists (v :: vs). econstructor; eauto.
  - inversion Ac as [| | | | |? ? ? u tags tag w x junk W0 Inc NE Hr Rt D Sw Ax Pj SW Lt]; subst. destruct D as [I|M].
    2:{ destruct (NM tags (bits_for (Z.of_nat (length fs) - 1))); auto. eapply rq_group; eauto. }
    apply Hr in I as (pre & k & post & E & ->).
    assert (In (k, u) fs) as I by (rewrite E; apply in_app_iff; right; left; auto).
    assert (wf_ty u) as Wu by (eapply wf_members_sum; eauto). rewrite Forall_forall in IH.
    destruct (IH _ I Wu) with (op := x) as [v Ev]; auto; [intros ops' w' Rq; apply (NM ops' w'); eapply rq_sum; eauto|].
    exists (VSum k v). eapply enc_sum; eauto.
Qed.

(** Words that are not accepted raise ValueError; KeyError is raised only for accepted words
    that encode nothing. *)
Theorem C06_errors h t a op :
  Forall wf_ty (t :: h) -> same_width (t :: h) -> built h t a -> 0 <= op < 2 ^ a_width a ->
  (~ accepted t op -> disassemble a op = Err ValueError) /\
  (disassemble a op = Err KeyError -> accepted t op /\ forall v, ~ encodes t op v) /\
  (accepted t op -> (forall v, ~ encodes t op v) -> exists e, disassemble a op = Err e).
Proof.
  intros W S B Rg. pose proof (C04_accepted_words h t a op W S B Rg) as P.
  pose proof (fun v => C06_disassemble_iff_partial h t a op v W (same_width_zero _ S) B Rg) as D.
  assert (a_isv a op = false -> disassemble a op = Err ValueError) as F by (intros V; destruct a; cbn [disassemble]; rewrite V; reflexivity).
  split; [|split].
  - intros N. apply F. destruct (a_isv a op); auto. destruct N. apply P. reflexivity.
  - intros K. split.
    + apply P. destruct (a_isv a op); auto. rewrite F in K by auto. discriminate.
    + intros v E. apply D in E. congruence.
  - intros _ N. destruct (disassemble a op) as [v|e] eqn:E; [|eauto]. destruct (N v). apply D. reflexivity.
Qed.

(** A type with an Enum of codes {0, 1, 2, 4, 5}: the words with code 3, 6 or 7 are accepted. *)
Definition multi_isa : ty := TProd "I" [(ky "op", multi_enum); (ky "x", TBit)].
Example C04_accepted_case : Forall wf_ty [multi_isa] /\ same_width [multi_isa] /\ same_width2 [multi_isa] /\
  (exists a, built [] multi_isa a /\ a_isv a 3 = true /\ 0 <= 3 < 2 ^ a_width a) /\
  (exists a, built2 [] multi_isa a /\ v2_valid a 3 = true) /\ accepted multi_isa 3 /\ ~ exists v, encodes multi_isa 3 v.
Proof.
  assert (Forall wf_ty [multi_isa]) as W by (apply wf_all_b; vm_compute; reflexivity).
  assert (same_width [multi_isa]) as S by (apply same_width_ok_spec; [apply wf_all_b|]; vm_compute; reflexivity).
  assert (same_width2 [multi_isa]) as S2 by (apply same_width_2; exact S).
  assert (exists a, built2 [] multi_isa a /\ v2_valid a 3 = true) as (a & B & V) by (eexists; split; [eexists; vm_compute; reflexivity|vm_compute; reflexivity]).
  split; auto. split; auto. split; auto. split.
  { eexists. split; [eexists; vm_compute; reflexivity|]. split; vm_compute; [reflexivity|split; [discriminate|reflexivity]]. }
  split; [eauto|]. split.
  { apply (C75_accepted_words [] multi_isa a 3 W S2 B); auto. vm_compute. split; [discriminate|reflexivity]. }
  intros [v E]. apply (C17_disassemble_iff multi_isa 3 v) in E.
  - vm_compute in E. discriminate.
  - inversion W; auto.
  - vm_compute. split; [discriminate|reflexivity].
Qed.

Print Assumptions C04_accepted_words.
Print Assumptions C75_accepted_words.
Print Assumptions C75_same_words.
Print Assumptions C06_errors.
Print Assumptions C04_encoded_accepted.
Print Assumptions C04_accepted_encoded.
