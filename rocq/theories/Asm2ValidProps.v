(** C75: [is_valid] of peak/assembler2. *)
From Coq Require Import String ZArith List Bool Lia.
From Verif Require Import Base BaseLemmas AsmModel AsmSpec AsmValid AsmEnum AsmBuild AsmProofs AsmMore AsmCheck AsmProps
  Asm2Model Asm2Proofs Asm2Props Asm2ValidModel Asm2Valid.
Import ListNotations.
Open Scope string_scope. Open Scope list_scope. Open Scope Z_scope.

(** [built2 h t a]: in a process that first made the assembler2 assemblers of the types
    [h], [Assembler(t)] is [a]. *)
Definition built2 (h : list ty) (t : ty) (a : vasm) : Prop :=
  exists st, v2_build (v2_history vs0 h) t = Ok (a, st).

Lemma built2_rel h t a : Forall wf_ty (t :: h) -> built2 h t a -> v2_rel (reqs2 (t :: h)) t a.
Proof. intros W [st B]. destruct (v2_build_history h t W) as (a' & st' & E & A). rewrite E in B. now injection B as <- _. Qed.

(** The full property; it is false, see [C75_full_refuted]. *)
Definition C75_full : Prop := forall h t a op,
  Forall wf_ty (t :: h) -> built2 h t a -> 0 <= op < 2 ^ a2_width t ->
  (v2_valid a op = true <-> exists v, has_ty t v /\ encodes t op v).

(** Making the assembler never fails. *)
Theorem C75_total h t : Forall wf_ty (t :: h) -> exists a, built2 h t a.
Proof. intros W. destruct (v2_build_history h t W) as (a & st & E & _). exists a, st. exact E. Qed.

(** Missing for C75: types with an opcode set of several ranges, and histories that
    recognise a sensitive opcode set at two widths. *)
Theorem C75_exact_partial h t a op :
  Forall wf_ty (t :: h) -> same_width2 (t :: h) -> no_multi_range2 t -> built2 h t a ->
  0 <= op < 2 ^ a2_width t ->
  (v2_valid a op = true <-> exists v, has_ty t v /\ encodes t op v).
Proof.
  intros W S M B Rg. assert (wf_ty t) as Wt by (inversion W; auto).
  pose proof (built2_rel h t a W B) as A. split.
  - intros V. destruct (v2_exact _ (reqs2_good _ W) (exact_reqs2 _ S) t Wt M a op A Rg V) as [v E].
    exists v. split; auto. eapply enc_has_ty; eauto.
  - intros (v & _ & E). exact (v2_accepts _ (reqs2_good _ W) (acc_reqs2 _ (same_width2_zero _ S)) t Wt a op v A E).
Qed.

(** Then a word is accepted exactly when [disassemble] returns an instruction for it. *)
Theorem C75_disassembles_partial h t a op :
  Forall wf_ty (t :: h) -> same_width2 (t :: h) -> no_multi_range2 t -> built2 h t a ->
  0 <= op < 2 ^ a2_width t ->
  (v2_valid a op = true <-> exists v, a2_dsm t op = Ok v).
Proof.
  intros W S M B Rg. assert (wf_ty t) as Wt by (inversion W; auto).
  rewrite (C75_exact_partial h t a op W S M B Rg). split.
  - intros (v & _ & E). exists v. now apply C17_disassemble_iff.
  - intros (v & E). apply C17_disassemble_iff in E; auto. exists v. split; auto. eapply enc_has_ty; eauto.
Qed.

(** Every assembled instruction is accepted, whatever the sets of several ranges. *)
Theorem C75_accepts_partial h t a v :
  Forall wf_ty (t :: h) -> same_width_zero_hot2 (t :: h) -> built2 h t a -> has_ty t v ->
  exists op, a2_asm t v = Ok op /\ v2_valid a op = true.
Proof.
  intros W S B H. assert (wf_ty t) as Wt by (inversion W; auto). pose proof (built2_rel h t a W B) as A.
  destruct (C16_canonical t v Wt H) as (op & E & C & _). exists op. split; auto.
  apply (v2_accepts _ (reqs2_good _ W) (acc_reqs2 _ S) t Wt a op v A). eapply canonical_encodes; eauto.
Qed.

(** Two histories give the same answer. *)
Theorem C75_history_independent_partial h h' t a a' op :
  Forall wf_ty (t :: h) -> Forall wf_ty (t :: h') -> same_width2 (t :: h) -> same_width2 (t :: h') ->
  built2 h t a -> built2 h' t a' -> 0 <= op < 2 ^ a2_width t ->
  v2_valid a op = v2_valid a' op.
Proof.
  intros W W' S S' B B' Rg. assert (wf_ty t) as Wt by (inversion W; auto).
  pose proof (built2_rel h t a W B) as A. pose proof (built2_rel h' t a' W' B') as A'.
  pose proof (v2_agree _ _ t (reqs2_good _ W) (exact_reqs2 _ S) (reqs2_good _ W') (exact_reqs2 _ S') Wt a a' op A A' Rg) as P.
  pose proof (v2_agree _ _ t (reqs2_good _ W') (exact_reqs2 _ S') (reqs2_good _ W) (exact_reqs2 _ S) Wt a' a op A' A Rg) as Q.
  destruct (v2_valid a op), (v2_valid a' op); auto. symmetry; auto.
Qed.

(** peak.assembler and peak.assembler2 accept the same words. *)
Theorem C75_same_as_assembler_partial h h2 t a a2 op :
  Forall wf_ty (t :: h) -> Forall wf_ty (t :: h2) -> same_width (t :: h) -> same_width2 (t :: h2) -> no_multi_range t ->
  built h t a -> built2 h2 t a2 -> 0 <= op < 2 ^ a2_width t ->
  a_isv a op = v2_valid a2 op.
Proof.
  intros W W2 S S2 M B B2 Rg. destruct (C16_width h t a W B) as [Ew _].
  pose proof (C75_exact_partial h2 t a2 op W2 S2 (no_multi_range_2 _ M) B2 Rg) as P.
  assert (0 <= op < 2 ^ a_width a) as Rg' by (rewrite <- Ew; exact Rg).
  pose proof (C04_is_valid_exact_partial h t a op W S M B Rg') as Q.
  destruct (a_isv a op), (v2_valid a2 op); auto.
  - symmetry. apply P, Q. reflexivity.
  - apply Q, P. reflexivity.
Qed.

Definition ex_vasm : vasm :=
  match v2_build (v2_history vs0 ex_hist) ex_isa with Ok (a, _) => a | Err _ => V2Leaf end.
Example C75_case : Forall wf_ty (ex_isa :: ex_hist) /\ same_width2 (ex_isa :: ex_hist) /\ same_width2 [ex_isa] /\
  same_width (ex_isa :: ex_hist) /\ same_width_zero_hot2 (ex_isa :: ex_hist) /\
  no_multi_range ex_isa /\ no_multi_range2 ex_isa /\ built2 ex_hist ex_isa ex_vasm /\ (exists a, built2 [] ex_isa a) /\
  built ex_hist ex_isa ex_asm /\ has_ty ex_isa ex_val /\
  v2_valid ex_vasm 0 = true /\ v2_valid ex_vasm 3 = false /\ v2_valid ex_vasm 1 = true.
Proof.
  split; [apply ex_wf|]. split; [apply same_width_2, ex_same_width|]. split.
  { apply same_width_2, same_width_ok_spec; [apply wf_all_b|]; vm_compute; reflexivity. }
  split; [apply ex_same_width|]. split; [apply same_width2_zero, same_width_2, ex_same_width|].
  split; [apply ex_no_multi|]. split; [apply no_multi_range_2, ex_no_multi|].
  split; [eexists; vm_compute; reflexivity|]. split; [eexists; eexists; vm_compute; reflexivity|].
  split; [apply ex_built|]. split; [apply ex_has_ty|]. repeat split; vm_compute; reflexivity.
Qed.

(** Codes {0,1,2,4,5} of an Enum: 3 is accepted, then [disassemble] raises KeyError. *)
Theorem C75_multi_range_refuted :
  exists t a op, wf_ty t /\ built2 [] t a /\ 0 <= op < 2 ^ a2_width t /\
    v2_valid a op = true /\ a2_dsm t op = Err KeyError /\ ~ exists v, encodes t op v.
Proof.
  exists multi_enum. eexists. exists 3.
  split; [apply wf_b_spec; vm_compute; reflexivity|]. split; [eexists; vm_compute; reflexivity|].
  split; [vm_compute; split; [discriminate|reflexivity]|]. split; [vm_compute; reflexivity|]. split; [vm_compute; reflexivity|].
  intros [v E]. inversion E as [| | |? ? m k [I C]| |]; subst.
  repeat (destruct I as [<-|I]; [cbn in C; lia|]). destruct I.
Qed.

(** An Enum {0, 1}, then a TaggedUnion whose members 0 and 1 share a type: the cached
    validator of the Enum accepts every word, so tag 3 is accepted. *)
Theorem C75_any_history_refuted :
  exists h t a a' op, Forall wf_ty (t :: h) /\ no_multi_range2 t /\ built2 h t a /\ built2 [] t a' /\ 0 <= op < 2 ^ a2_width t /\
    v2_valid a op = true /\ v2_valid a' op = false /\ a2_dsm t op = Err KeyError.
Proof.
  exists [small_enum], (TSum true "U" [(ky "a", TBV 1); (ky "b", TBV 1); (ky "c", TEnum "Z" [EInt 2; EInt 1])]).
  eexists. eexists. exists 3.
  split; [apply wf_all_b; vm_compute; reflexivity|].
  split; [apply no_multi_range_2, no_multi_ok_spec; [apply wf_b_spec|]; vm_compute; reflexivity|].
  split; [eexists; vm_compute; reflexivity|]. split; [eexists; vm_compute; reflexivity|].
  split; [vm_compute; split; [discriminate|reflexivity]|].
  repeat split; vm_compute; reflexivity.
Qed.

(** Only the sets that [is_valid] itself needs matter: after a Sum with four different
    members, peak.assembler has cached {0,1,2,3} as "every word" (for its tag check) and
    accepts tag 5 of the union below; peak.assembler2 rejects it. *)
Definition four : ty := TSum false "F" [(ky "a", TBit); (ky "b", TBV 2); (ky "c", TBV 3); (ky "d", TBV 4)].
Definition five : ty := TSum true "V" [(ky "a", TBit); (ky "b", TBit); (ky "c", TBit); (ky "d", TBit); (ky "e", TBV 2)].
Theorem C75_fewer_requests :
  Forall wf_ty [five; four] /\ exists a a2, built [four] five a /\ built2 [four] five a2 /\
    a_isv a 5 = true /\ disassemble a 5 = Err KeyError /\ v2_valid a2 5 = false /\
    forall op, 0 <= op < 2 ^ a2_width five -> (v2_valid a2 op = true <-> exists v, a2_dsm five op = Ok v).
Proof.
  split; [apply wf_all_b; vm_compute; reflexivity|]. eexists. eexists.
  split; [eexists; vm_compute; reflexivity|]. split; [eexists; vm_compute; reflexivity|].
  split; [vm_compute; reflexivity|]. split; [vm_compute; reflexivity|]. split; [vm_compute; reflexivity|].
  intros op Rg. match goal with |- v2_valid ?x op = true <-> _ => set (a := x) end.
  assert (forallb (fun n => Bool.eqb (v2_valid a (Z.of_nat n)) (match a2_dsm five (Z.of_nat n) with Ok _ => true | Err _ => false end)) (seq 0 32) = true) as C by (vm_compute; reflexivity).
  rewrite forallb_forall in C. change (2 ^ a2_width five) with 32 in Rg.
  specialize (C (Z.to_nat op) ltac:(apply in_seq; lia)). rewrite Z2Nat.id in C by lia. apply eqb_prop in C. rewrite C.
  destruct (a2_dsm five op); split; eauto; try discriminate. intros (? & [=]).
Qed.

Theorem C75_full_refuted : ~ C75_full.
Proof.
  intros F. destruct C75_multi_range_refuted as (t & a & op & W & B & Rg & V & _ & N).
  apply N. apply (F [] t a op) in V as (v & _ & E); eauto.
Qed.

Print Assumptions C75_total.
Print Assumptions C75_exact_partial.
Print Assumptions C75_disassembles_partial.
Print Assumptions C75_accepts_partial.
Print Assumptions C75_history_independent_partial.
Print Assumptions C75_same_as_assembler_partial.
Print Assumptions C75_multi_range_refuted.
Print Assumptions C75_any_history_refuted.
Print Assumptions C75_fewer_requests.
Print Assumptions C75_full_refuted.
