(** C97: [!=] on assembled values and classes. *)
From Coq Require Import String ZArith List Bool Lia.
From Verif Require Import Base BaseLemmas AsmModel AsmSpec AsmProofs AsmProps AadtModel AadtProps AadtCmpModel.
Import ListNotations.
Open Scope string_scope.
Open Scope list_scope.
Open Scope Z_scope.

Lemma truth_inv_bit b : truth (inv (PBit b)) = negb b. Proof. reflexivity. Qed.
Lemma truth_inv_false : truth (inv (PBool false)) = true. Proof. reflexivity. Qed.
Lemma truth_inv_bool b : truth (inv (PBool b)) = true. Proof. destruct b; reflexivity. Qed.

Section Inst.
Variable adt : nat -> nat.
Variable asmof : nat -> asm.
Variable bv : nat -> nat.
Variable bvsub : nat -> nat -> bool.
Variable word_eq : nat -> Z -> Z -> nat -> Z -> option pyv.
Notation eqP := (py_eq adt asmof bv bvsub word_eq).
Notation neP := (py_ne adt asmof bv bvsub word_eq).
(** A vector that compares itself with an instance compares the words, and gives a Bit (hwtypes). *)
Definition word_ok : Prop := forall k w u c z r, word_eq k w u c z = Some r -> r = PBit (u =? z).

Hypothesis WO : word_ok.

Lemma inst_eq_bit c z y r : inst_eq adt asmof bv bvsub c z y = Ok (Some r) -> exists b, r = PBit b.
Proof.
  destruct y as [c' z'|k w u|T v|n]; cbn [inst_eq].
  - destruct (Nat.eqb c c'); intros [= <-]; eauto.
  - destruct (bvsub k (bv c) && (w =? a_width (asmof c))); intros [= <-]; eauto.
  - destruct (Nat.eqb T (adt c)); [|discriminate]. destruct (assemble (asmof c) v); cbn [bind]; [|discriminate].
    intros [= <-]; eauto.
  - discriminate.
Qed.

(** A comparison of two different objects gives a Bit, or the Python bool False. *)
Lemma py_eq_shape x y r : eqP false x y = Ok r -> (exists b, r = PBit b) \/ r = PBool false.
Proof.
  intros E.
  assert (forall c z y r, (do o <- inst_eq adt asmof bv bvsub c z y;
     Ok (match o with Some b => b | None => PBool false end)) = Ok r ->
     (exists b, r = PBit b) \/ r = PBool false) as X.
  { intros c z y' r' E'. destruct (inst_eq adt asmof bv bvsub c z y') as [[b|]|e] eqn:I; cbn [bind] in E'; try discriminate.
    - left. inversion E'; subst. eapply inst_eq_bit; eauto.
    - right. congruence. }
  destruct x as [c z|k w u|T v|n], y as [c' z'|k' w' u'|T' v'|n']; cbn [py_eq] in E; try discriminate; eauto.
  - destruct (inst_eq adt asmof bv bvsub c z (OInst c' z')) as [[b|]|e] eqn:I; cbn [bind] in E; try discriminate; eauto.
    left. inversion E; subst. eapply inst_eq_bit; eauto.
  - destruct (inst_eq adt asmof bv bvsub c z (OWord k' w' u')) as [[b|]|e] eqn:I; cbn [bind] in E; try discriminate.
    + left. inversion E; subst. eapply inst_eq_bit; eauto.
    + destruct (word_eq k' w' u' c z) eqn:W; inversion E; subst; auto. left. rewrite (WO _ _ _ _ _ _ W). eauto.
  - destruct (word_eq k w u c' z') eqn:W; eauto. inversion E; subst. left. rewrite (WO _ _ _ _ _ _ W). eauto.
Qed.

(** An instance is always equal to itself, as a Bit. *)
Theorem C97_refl c z : eqP true (OInst c z) (OInst c z) = Ok (PBit true).
Proof. cbn [py_eq inst_eq]. rewrite Nat.eqb_refl, Z.eqb_refl. reflexivity. Qed.

(** [!=] is the negation of [==] whenever an instance is compared with another object, and they raise together. *)
Theorem C97_ne_partial x y :
  match eqP false x y, neP false x y with
  | Ok e, Ok n => truth n = negb (truth e)
  | Err e, Err e' => e = e'
  | _, _ => False
  end.
Proof.
  unfold py_ne. destruct (eqP false x y) as [r|e] eqn:E; cbn [bind]; [|reflexivity].
  destruct (py_eq_shape _ _ _ E) as [[b ->] | ->]; reflexivity.
Qed.
Theorem C97_ne_self c z : exists n, neP true (OInst c z) (OInst c z) = Ok n /\ truth n = false.
Proof. unfold py_ne. rewrite C97_refl. eexists. split; reflexivity. Qed.

(** What the test suite checks for some values ([type(x != y) is Bit]): a Bit comes out whenever [==] gave a Bit; otherwise
    the result is the int -1, which is true but not a Bit. *)
Theorem C97_ne_shape x y n : neP false x y = Ok n ->
  (exists b, eqP false x y = Ok (PBit b) /\ n = PBit (negb b)) \/ (eqP false x y = Ok (PBool false) /\ n = PInt (-1)).
Proof.
  unfold py_ne. destruct (eqP false x y) as [r|e] eqn:E; cbn [bind]; intros [= <-].
  destruct (py_eq_shape _ _ _ E) as [[b ->] | ->]; [left; eauto|right; auto].
Qed.

(** [==] is symmetric, raising included. *)
Theorem C97_sym s x y :
  match eqP s x y, eqP s y x with
  | Ok a, Ok b => truth a = truth b
  | Err e, Err e' => e = e'
  | _, _ => False
  end.
Proof.
  destruct x as [c z|k w u|T v|n], y as [c' z'|k' w' u'|T' v'|n']; cbn [py_eq]; try reflexivity.
  - cbn [inst_eq]. rewrite (Nat.eqb_sym c' c), (Z.eqb_sym z' z). destruct (Nat.eqb c c'); cbn [bind]; reflexivity.
  - cbn [inst_eq bind]. destruct (bvsub k' (bv c) && (w' =? a_width (asmof c))), (word_eq k' w' u' c z) eqn:W; cbn [bind truth]; auto;
      rewrite (WO _ _ _ _ _ _ W); cbn [truth]; auto using Z.eqb_sym.
  - destruct (inst_eq adt asmof bv bvsub c z (OVal T' v')) as [[b|]|e]; cbn [bind]; reflexivity.
  - cbn [inst_eq bind]. destruct (bvsub k (bv c') && (w =? a_width (asmof c'))), (word_eq k w u c' z') eqn:W; cbn [bind truth]; auto;
      rewrite (WO _ _ _ _ _ _ W); cbn [truth]; auto using Z.eqb_sym.
  - destruct (inst_eq adt asmof bv bvsub c' z' (OVal T v)) as [[b|]|e]; cbn [bind]; reflexivity.
Qed.

(** Instances of one class are equal iff their words are, and then hash alike, also with their word. *)
Theorem C97_words s c z z' : eqP s (OInst c z) (OInst c z') = Ok (PBit (z =? z')).
Proof. cbn [py_eq inst_eq]. rewrite Nat.eqb_refl. reflexivity. Qed.
Theorem C97_hash s c z y r whash ohash :
  eqP s (OInst c z) y = Ok r -> truth r = true ->
  (exists z', y = OInst c z') \/ (exists u, y = OWord (bv c) (a_width (asmof c)) u) ->
  bvsub (bv c) (bv c) = true ->
  py_hash asmof bv whash ohash (OInst c z) = py_hash asmof bv whash ohash y.
Proof.
  intros E T D R. destruct D as [[z' ->] | [u ->]]; cbn [py_hash].
  - rewrite C97_words in E. inversion E; subst. cbn [truth] in T. apply Z.eqb_eq in T. congruence.
  - cbn [py_eq inst_eq bind] in E. rewrite R, Z.eqb_refl in E. cbn [andb] in E. inversion E; subst.
    cbn [truth] in T. apply Z.eqb_eq in T. congruence.
Qed.

(** Comparing an assembled value with ADT values, either way around and with [!=]: it differs from
    exactly the other values. Signed fields must not be negative (C03). *)
Theorem C97_value h t c v v' op :
  Forall wf_ty (t :: h) -> built h t (asmof c) -> has_ty t v -> nonneg_signed t v ->
  has_ty t v' -> nonneg_signed t v' -> aadt_new (asmof c) (FAdt v) = Ok op ->
  exists n, neP false (OInst c op) (OVal (adt c) v') = Ok n /\ neP false (OVal (adt c) v') (OInst c op) = Ok n /\
    (truth n = true <-> v <> v').
Proof.
  intros W B H N H' N' E.
  destruct (C15_equality_partial h t (asmof c) v v' op W B H N H' N' E) as (op' & b & _ & Eb & _ & I).
  cbn [aadt_eq] in Eb. destruct (assemble (asmof c) v') as [x|e] eqn:A; cbn [bind] in Eb; [|discriminate].
  inversion Eb as [Eb']. exists (PBit (negb b)).
  unfold py_ne. cbn [py_eq inst_eq]. rewrite Nat.eqb_refl, A. cbn [bind]. rewrite Eb'.
  split; [reflexivity|]. split; [reflexivity|]. cbn [truth inv]. destruct b; cbn [negb]; split; try discriminate; try congruence.
  - intros X. exfalso. apply X. apply I. reflexivity.
  - intros _ X. apply I in X. discriminate.
Qed.
End Inst.

(** Two classes for types with the same assembler: an instance of each is equal to a word, but not to each other,
    so [==] is not transitive. *)
Definition w_none (_ : nat) (_ _ : Z) (_ : nat) (_ : Z) : option pyv := None.
Lemma w_none_ok : word_ok w_none. Proof. intros k w u c z r. discriminate. Qed.
Theorem C97_trans_refuted :
  exists adt asmof bv bvsub x y z, word_ok w_none /\
    py_eq adt asmof bv bvsub w_none false x y = Ok (PBit true) /\
    py_eq adt asmof bv bvsub w_none false y z = Ok (PBit true) /\
    py_eq adt asmof bv bvsub w_none false x z = Ok (PBool false) /\
    py_ne adt asmof bv bvsub w_none false x z = Ok (PInt (-1)).
Proof.
  exists (fun c => c), (fun _ => ex_asm), (fun _ => O), Nat.eqb, (OInst 1 5), (OWord 0 (a_width ex_asm) 5), (OInst 2 5).
  split; [apply w_none_ok|]. repeat split; vm_compute; reflexivity.
Qed.

Example C97_case : exists op, aadt_new ex_asm (FAdt ex_val) = Ok op /\
  let ne := py_ne (fun c => c) (fun _ => ex_asm) (fun _ => O) Nat.eqb w_none false in
  ne (OInst 1 op) (OVal 1 ex_val) = Ok (PBit false) /\
  ne (OInst 1 op) (OVal 1 (VProd [VEnum (EAuto "Mul"); VSum (ky "none") (VBV 0); VBV 5])) = Ok (PBit true) /\
  ne (OInst 1 op) (OWord 0 (a_width ex_asm) op) = Ok (PBit false) /\
  ne (OInst 1 op) (OWord 0 3 0) = Ok (PInt (-1)) /\
  ne (OInst 1 op) (OOther 7) = Ok (PInt (-1)).
Proof. eexists. split; [vm_compute; reflexivity|]. vm_compute. repeat split. Qed.

(** ** Classes *)
Lemma dir_eqb_spec a b : dir_eqb a b = true <-> a = b.
Proof. destruct a, b; cbn; split; congruence. Qed.
Lemma k_same_spec c d : k_same c d = true <-> c = d.
Proof.
  destruct c as [a1 s1 b1 d1], d as [a2 s2 b2 d2]. unfold k_same. cbn [k_adt k_asm k_bv k_dir].
  rewrite !andb_true_iff, !Nat.eqb_eq. split.
  - intros [[[-> ->] ->] X]. f_equal. destruct d1, d2; try congruence. apply dir_eqb_spec in X. congruence.
  - intros [= -> -> -> ->]. repeat split. destruct d2; auto. apply dir_eqb_spec. auto.
Qed.

(** Classes made for magma are those with a direction. *)
Definition directed (c : kls) : bool := match k_dir c with Some _ => true | None => false end.
Lemma k_magma_directed c : k_magma c = directed c.
Proof. reflexivity. Qed.

(** What [==] on classes means: assembled classes are equal iff they are the same class, except that a class with a direction
    and one without are compared by their ADT; an ADT class is equal iff it is the one that was assembled. *)
Theorem C97_class_eq c y : truth (cls_eq c y) = true <->
  match y with
  | CAadt d => if Bool.eqb (directed c) (directed d) then c = d else k_adt c = k_adt d
  | CAdt T => T = k_adt c
  | _ => False
  end.
Proof.
  destruct y as [T|d|n|w z|n]; cbn [cls_eq cls_meth adt_cls_eq truth]; try (split; [discriminate|intros []]).
  - rewrite Nat.eqb_eq. split; congruence.
  - pose proof (k_magma_directed c) as Dc; pose proof (k_magma_directed d) as Dd; rewrite <- ?Dc, <- ?Dd; clear Dc Dd.
    destruct (k_magma c) eqn:Mc, (k_magma d) eqn:Md; cbn [negb andb Bool.eqb truth].
    + destruct (k_same c d) eqn:S; cbn [truth].
      * rewrite <- k_same_spec. tauto.
      * destruct (k_same d c) eqn:S'; cbn [truth].
        -- apply k_same_spec in S'. subst. split; auto.
        -- rewrite <- k_same_spec. split; congruence.
    + rewrite Nat.eqb_eq. split; congruence.
    + rewrite Nat.eqb_eq. split; congruence.
    + destruct (k_same c d) eqn:S; cbn [truth].
      * rewrite <- k_same_spec. tauto.
      * destruct (k_same d c) eqn:S'; cbn [truth].
        -- apply k_same_spec in S'. subst. split; auto.
        -- rewrite <- k_same_spec. split; congruence.
Qed.

(** [!=] is the negation of [==] only against other kinds of objects. *)
Theorem C97_class_ne c y :
  match y with CAadt d => directed c <> directed d | _ => True end ->
  truth (cls_ne c y) = negb (truth (cls_eq c y)).
Proof.
  intros H. unfold cls_ne. destruct y as [T|d|n|w z|n]; try reflexivity.
  cbv beta iota in H. rewrite <- (k_magma_directed c), <- (k_magma_directed d) in H. cbn [cls_eq cls_meth adt_cls_eq truth]. destruct (k_magma c), (k_magma d); try congruence; reflexivity.
Qed.
(** Between classes of one kind [!=] is always true: also when both are the same class, where it is [~True], -2. *)
Theorem C97_class_ne_always c d : directed c = directed d ->
  truth (cls_ne c (CAadt d)) = true /\ (cls_ne c (CAadt d) = PInt (-2) <-> c = d).
Proof.
  rewrite <- (k_magma_directed c), <- (k_magma_directed d). intros M. unfold cls_ne. cbn [cls_eq cls_meth]. rewrite M.
  destruct (k_magma d); cbn [negb andb];
    (destruct (k_same c d) eqn:S; [apply k_same_spec in S; subst; split; [reflexivity|split; reflexivity]|];
     destruct (k_same d c) eqn:S'; [apply k_same_spec in S'; subst; rewrite (proj2 (k_same_spec _ _) eq_refl) in S; discriminate|];
     split; [reflexivity|split; [discriminate|intros ->; rewrite (proj2 (k_same_spec _ _) eq_refl) in S; discriminate]]).
Qed.

(** Assembled classes of one type over different vectors are unequal although each equals the type. *)
Theorem C97_class_trans_refuted : exists c d T,
  truth (cls_eq c (CAdt T)) = true /\ truth (cls_eq d (CAdt T)) = true /\ truth (cls_eq c (CAadt d)) = false.
Proof. exists (mkK 1 0 0 None), (mkK 1 0 1 None), 1%nat. repeat split. Qed.

(** Directions: flipping twice gives the class back, flips exactly In and Out and keeps everything else; a
    class differs from its flip iff it has one of these. *)
Theorem C97_flip c :
  flip_magma (flip_magma c) = c /\ k_adt (flip_magma c) = k_adt c /\ k_asm (flip_magma c) = k_asm c /\
  k_bv (flip_magma c) = k_bv c /\
  (truth (cls_eq c (CAadt (flip_magma c))) = false <-> k_dir c = Some DIn \/ k_dir c = Some DOut) /\
  (forall d, k_dir (qualify_magma c d) = Some d /\ qualify_magma (flip_magma c) d = qualify_magma c d).
Proof.
  destruct c as [a s b [[]|]]; cbn; rewrite ?Nat.eqb_refl; cbn;
    (do 4 (split; [reflexivity|])); (split; [|split; reflexivity]).
  all: unfold k_same; cbn [k_adt k_asm k_bv k_dir dir_eqb]; rewrite ?Nat.eqb_refl; cbn [andb truth].
  all: split; [intros X; try discriminate X; auto|intros [X|X]; try discriminate X; reflexivity].
Qed.
Example C97_case_class :
  let c := mkK 1 0 0 None in let i := mkK 1 0 0 (Some DIn) in
  cls_eq c (CAadt c) = PBool true /\ cls_ne c (CAadt c) = PInt (-2) /\ cls_ne c (CAdt 1) = PBit false /\
  cls_ne c (CAdt 2) = PBit true /\ cls_ne c (CMember 3) = PBit true /\ cls_eq c (CAadt i) = PBit true /\
  cls_eq i (CAadt c) = PBit true /\ cls_ne i (CAadt (flip_magma i)) = PInt (-1).
Proof. repeat split. Qed.

(** The full statement: [!=] is true iff [==] is not, for values and for classes. Missing for C97: assembled
    classes compared with each other, where it is false. *)
Definition C97_full : Prop :=
  (forall adt asmof bv bvsub word_eq x y e, word_ok word_eq ->
     py_eq adt asmof bv bvsub word_eq false x y = Ok e ->
     exists n, py_ne adt asmof bv bvsub word_eq false x y = Ok n /\ truth n = negb (truth e)) /\
  (forall c y, truth (cls_ne c y) = negb (truth (cls_eq c y))).
Theorem C97_full_refuted : ~ C97_full.
Proof. intros [_ F]. specialize (F (mkK 1 0 0 None) (CAadt (mkK 1 0 0 None))). discriminate F. Qed.

Print Assumptions C97_refl.
Print Assumptions C97_ne_partial.
Print Assumptions C97_ne_self.
Print Assumptions C97_ne_shape.
Print Assumptions C97_sym.
Print Assumptions C97_words.
Print Assumptions C97_hash.
Print Assumptions C97_value.
Print Assumptions C97_trans_refuted.
Print Assumptions C97_class_eq.
Print Assumptions C97_class_ne.
Print Assumptions C97_class_ne_always.
Print Assumptions C97_class_trans_refuted.
Print Assumptions C97_flip.
Print Assumptions C97_full_refuted.
