(** What the words of the architecture of test_basic_rr do, and programs of them. *)
From Coq Require Import String ZArith List Bool Arith Lia.
From Verif Require Import Base BaseLemmas BindModel MapIdxModel MultiModel MultiProps BvModel SmallPeModel
  AsmModel AsmSpec AsmValid AsmEnum AsmBuild AsmProofs AsmCheck AsmProps AadtModel MultiBasicModel.
Import ListNotations.
Open Scope string_scope.
Open Scope list_scope.
Open Scope Z_scope.

(** ** Words *)
Inductive binst := BAdd | BMul | BLd (i : Z) | BAddi (i : Z).
Definition bsem (d : binst) (r0 r1 : Z) : Z :=
  match d with BAdd => (r0 + r1) mod 256 | BMul => (r0 * r1) mod 256 | BLd i => i | BAddi i => (r0 + i) mod 256 end.
Definition bimm (d : binst) : Prop := match d with BLd i | BAddi i => 0 <= i < 256 | _ => True end.

Definition shape (v1 v2 : validator) (gs : list (ty * validator * (Z * Z) * asm)) (tv : validator) : asm :=
  ASum 24 1
    [(fk "RI", 0, (1, 24), ATuple 23 [(fk "OP", (0, 3), AEnum [(EInt 3, 3); (EInt 4, 4)] 3 v1);
        (fk "rs", (3, 5), AField (TBV 2) 2); (fk "rd", (5, 7), AField (TBV 2) 2);
        (fk "imm0", (7, 15), AField (TBV 8) 8); (fk "imm1", (15, 23), AField (TBV 8) 8)]);
     (fk "RR", 1, (1, 9), ATuple 8 [(fk "OP", (0, 2), AEnum [(EInt 1, 1); (EInt 2, 2)] 2 v2);
        (fk "rs0", (2, 4), AField (TBV 2) 2); (fk "rs1", (4, 6), AField (TBV 2) 2); (fk "rd", (6, 8), AField (TBV 2) 2)])]
    gs tv.

Lemma shape_of R a : asm_rel R basic_inst a -> exists v1 v2 gs tv, a = shape v1 v2 gs tv.
Proof.
  intros H. inversion H as [| | | | |g c fs sorted tagw pw fs' gs tv E1 E2 S _ _ _]; subst. clear H.
  vm_compute in S. 
  repeat match goal with
  | H : sum_rel _ _ _ _ _ _ _ |- _ => inversion H; clear H; subst
  | H : tup_rel _ _ _ _ _ |- _ => inversion H; clear H; subst
  | H : asm_rel _ _ _ |- _ => inversion H; clear H; subst
  end.
  repeat match goal with H : enum_table _ = Ok _ |- _ => vm_compute in H; injection H as <- end.
  do 4 eexists. reflexivity.
Qed.

Definition dec (z : Z) : binst :=
  if slice z 0 1 =? 1 then (if slice (slice z 1 9) 0 2 =? 2 then BMul else BAdd)
  else if slice (slice z 1 24) 0 3 =? 3 then BLd (slice (slice z 1 24) 15 23) else BAddi (slice (slice z 1 24) 15 23).

Lemma call_shape v1 v2 gs tv z r0 r1 : basic_call (shape v1 v2 gs tv) z r0 r1 = Ok (bsem (dec z) r0 r1, r0).
Proof.
  unfold basic_call, dec.
  change (attr (shape v1 v2 gs tv) z (fk "RR")) with
    (Ok (ATuple 8 [(fk "OP", (0, 2), AEnum [(EInt 1, 1); (EInt 2, 2)] 2 v2);
        (fk "rs0", (2, 4), AField (TBV 2) 2); (fk "rs1", (4, 6), AField (TBV 2) 2); (fk "rd", (6, 8), AField (TBV 2) 2)],
        slice z 1 9, Some (slice z 0 1 =? 1))).
  cbn [bind].
  match goal with |- context [attr (ATuple 8 ?l) ?y (fk "OP")] => 
    change (attr (ATuple 8 l) y (fk "OP")) with (Ok (AEnum [(EInt 1, 1); (EInt 2, 2)] 2 v2, slice y 0 2, @None bool)) end.
  cbn [bind].
  match goal with |- context [is_op ?a ?y ?m] => change (is_op a y m) with (Ok (y =? 2)) end. cbn [bind].
  change (attr (shape v1 v2 gs tv) z (fk "RI")) with
    (Ok (ATuple 23 [(fk "OP", (0, 3), AEnum [(EInt 3, 3); (EInt 4, 4)] 3 v1);
        (fk "rs", (3, 5), AField (TBV 2) 2); (fk "rd", (5, 7), AField (TBV 2) 2);
        (fk "imm0", (7, 15), AField (TBV 8) 8); (fk "imm1", (15, 23), AField (TBV 8) 8)], slice z 1 24, Some (slice z 0 1 =? 0))).
  cbn [bind].
  match goal with |- context [attr (ATuple 23 ?l) ?y (fk "imm1")] => 
    change (attr (ATuple 23 l) y (fk "imm1")) with (Ok (AField (TBV 8) 8, slice y 15 23, @None bool)) end.
  match goal with |- context [attr (ATuple 23 ?l) ?y (fk "OP")] => 
    change (attr (ATuple 23 l) y (fk "OP")) with (Ok (AEnum [(EInt 3, 3); (EInt 4, 4)] 3 v1, slice y 0 3, @None bool)) end.
  cbn [bind].
  match goal with |- context [is_op ?a ?y ?m] => change (is_op a y m) with (Ok (y =? 3)) end. cbn [bind].
  destruct (slice z 0 1 =? 1); cbn [ite].
  - destruct (slice (slice z 1 9) 0 2 =? 2); reflexivity.
  - destruct (slice (slice z 1 24) 0 3 =? 3); reflexivity.
Qed.

Lemma dec_imm z : bimm (dec z).
Proof.
  unfold dec. assert (0 <= slice (slice z 1 24) 15 23 < 256) as B.
  { generalize (slice z 1 24). intros y. unfold slice. rewrite Z.land_ones by lia. change 256 with (2 ^ (23 - 15)). apply Z.mod_pos_bound. reflexivity. }
  destruct (slice z 0 1 =? 1); [destruct (slice _ 0 2 =? 2); exact Logic.I|]. destruct (slice _ 0 3 =? 3); exact B.
Qed.

(** A word of each instruction. *)
Definition enc_of (d : binst) : Z := match d with BAdd => 3 | BMul => 5 | BLd i => 6 + 65536 * i | BAddi i => 8 + 65536 * i end.
Definition rr_val (m : Z) : val := VSum (fk "RR") (VProd [VEnum (EInt m); VBV 0; VBV 0; VBV 0]).
Definition ri_val (m i : Z) : val := VSum (fk "RI") (VProd [VEnum (EInt m); VBV 0; VBV 0; VBV 0; VBV i]).
Definition val_of (d : binst) : val :=
  match d with BAdd => rr_val 1 | BMul => rr_val 2 | BLd i => ri_val 3 i | BAddi i => ri_val 4 i end.

Definition binst_eqb (d e : binst) : bool :=
  match d, e with BAdd, BAdd | BMul, BMul => true | BLd i, BLd j | BAddi i, BAddi j => i =? j | _, _ => false end.
Lemma binst_eqb_eq d e : binst_eqb d e = true -> d = e.
Proof. destruct d, e; cbn; try discriminate; auto; intros H; apply Z.eqb_eq in H; now subst. Qed.
Definition bytes : list Z := map Z.of_nat (seq 0 256).
Lemma bytes_In i : In i bytes <-> 0 <= i < 256.
Proof.
  unfold bytes. rewrite in_map_iff. split.
  - intros (n & <- & I). apply in_seq in I. lia.
  - intros B. exists (Z.to_nat i). split; [lia|]. apply in_seq. lia.
Qed.
Definition binsts : list binst := BAdd :: BMul :: map BLd bytes ++ map BAddi bytes.
Lemma binsts_In d : In d binsts <-> bimm d.
Proof.
  unfold binsts. cbn [In]. rewrite in_app_iff, !in_map_iff. split.
  - intros [<-|[<-|[(i & <- & I)|(i & <- & I)]]]; cbn [bimm]; auto; now apply bytes_In.
  - destruct d; cbn [bimm]; auto; intros B; right; right; [left|right]; exists i; split; auto; now apply bytes_In.
Qed.

Lemma enc_asm v1 v2 gs tv d : bimm d -> assemble (shape v1 v2 gs tv) (val_of d) = Ok (enc_of d).
Proof.
  intros B. apply binsts_In in B. assert (forallb (fun d => match assemble (shape v1 v2 gs tv) (val_of d) with Ok z => z =? enc_of d | _ => false end) binsts = true) as F by (vm_compute; reflexivity).
  rewrite forallb_forall in F. specialize (F d B). destruct (assemble _ _); [|discriminate]. apply Z.eqb_eq in F. now subst.
Qed.
Lemma enc_dec d : bimm d -> dec (enc_of d) = d.
Proof.
  intros B. apply binsts_In in B. assert (forallb (fun d => binst_eqb (dec (enc_of d)) d) binsts = true) as F by (vm_compute; reflexivity).
  rewrite forallb_forall in F. now apply binst_eqb_eq, F.
Qed.
Lemma val_ty d : bimm d -> has_ty basic_inst (val_of d).
Proof.
  intros B. apply binsts_In in B. assert (forallb (fun d => has_ty_b basic_inst (val_of d)) binsts = true) as F by (vm_compute; reflexivity).
  rewrite forallb_forall in F. now apply has_ty_b_spec, F.
Qed.
Lemma val_nonneg d : bimm d -> nonneg_signed basic_inst (val_of d).
Proof.
  intros B. apply binsts_In in B. assert (forallb (fun d => nonneg_b basic_inst (val_of d)) binsts = true) as F by (vm_compute; reflexivity).
  rewrite forallb_forall in F. now apply nonneg_b_spec, F.
Qed.

(** What is needed about the assembler of the instruction. *)
Record basic_asm (a : asm) : Prop := {
  ba_width : a_width a = 24;
  ba_call : forall z r0 r1, basic_call a z r0 r1 = Ok (bsem (dec z) r0 r1, r0);
  ba_valid : forall d, bimm d -> a_isv a (enc_of d) = true }.
Lemma basic_built h a : Forall wf_ty (basic_inst :: h) -> same_width_zero_hot (basic_inst :: h) -> built h basic_inst a -> basic_asm a.
Proof.
  intros W S B. destruct (shape_of _ a (built_rel h _ a W B)) as (v1 & v2 & gs & tv & E). split.
  - now rewrite E.
  - intros. rewrite E. apply call_shape.
  - intros d D. destruct (C01_roundtrip_partial h basic_inst a (val_of d) W S B (val_ty d D) (val_nonneg d D)) as (op & Eo & _ & V & _).
    rewrite E, enc_asm in Eo by auto. injection Eo as <-. exact V.
Qed.
Lemma enc_range d : bimm d -> 0 <= enc_of d < 2 ^ Z.of_nat (Z.to_nat 24).
Proof. change (2 ^ Z.of_nat (Z.to_nat 24)) with 16777216. destruct d; cbn [bimm enc_of]; lia. Qed.

(** ** Programs *)
Notation instr := (binst * option mpath * option mpath)%type.
Definition dflt : string -> Z := fun _ => 0.

Definition sval (x : string -> Z) (u : nat -> string -> Z) (i : nat) (fl : string) (outs : list (string -> Z)) (s : option mpath) : Z :=
  match s with Some (IRin g) => x g | Some (Aout j g) => nth j outs dflt g | _ => u i fl end.
Fixpoint srun (x : string -> Z) (u : nat -> string -> Z) (c : list instr) (outs : list (string -> Z)) : list (string -> Z) :=
  match c with
  | [] => outs
  | (d, s0, s1) :: r =>
      let v0 := sval x u (length outs) "r0" outs s0 in
      let v1 := sval x u (length outs) "r1" outs s1 in
      srun x u r (outs ++ [fun g => if String.eqb g "0" then bsem d v0 v1 else v0])
  end.
Fixpoint to_prog (i : nat) (c : list instr) : list (binding * list Z) :=
  match c with
  | [] => []
  | (d, s0, s1) :: r => ([(s0, Ain i "r0"); (s1, Ain i "r1")], [enc_of d]) :: to_prog (S i) r
  end.
Fixpoint codes (i : nat) (p : list (binding * list Z)) (c : list instr) : Prop :=
  match p, c with
  | [], [] => True
  | (b, ws) :: p, (d, s0, s1) :: c => b = [(s0, Ain i "r0"); (s1, Ain i "r1")] /\ (exists z, ws = [z] /\ dec z = d) /\ codes (S i) p c
  | _, _ => False
  end.
Definition okp (gs : list string) (i : nat) (s : option mpath) : Prop :=
  match s with None => True | Some (IRin g) => In g gs | Some (Aout j g) => (j < i)%nat /\ (g = "0" \/ g = "1") | _ => False end.
Fixpoint code_ok (gs : list string) (i : nat) (c : list instr) : Prop :=
  match c with
  | [] => True
  | (d, s0, s1) :: r => bimm d /\ okp gs i s0 /\ okp gs i s1 /\ code_ok gs (S i) r
  end.
Fixpoint srcs (i : nat) (c : list instr) : list (option mpath * mpath) :=
  match c with [] => [] | (d, s0, s1) :: r => (s0, Ain i "r0") :: (s1, Ain i "r1") :: srcs (S i) r end.
Definition once (c : list instr) (g : string) : Prop :=
  exists j fl, In (Some (IRin g), Ain j fl) (srcs 0 c) /\ forall j' fl', In (Some (IRin g), Ain j' fl') (srcs 0 c) -> j' = j /\ fl' = fl.
Definition byte (z : Z) : Prop := 0 <= z < 256.

Definition eqv (l m : list (string -> Z)) : Prop := length l = length m /\ forall j g, nth j l dflt g = nth j m dflt g.
Lemma eqv_refl l : eqv l l. Proof. split; auto. Qed.
Lemma eqv_snoc l m f g : eqv l m -> (forall s, f s = g s) -> eqv (l ++ [f]) (m ++ [g]).
Proof.
  intros [L N] H. split; [rewrite !app_length; cbn; lia|]. intros j s. destruct (Nat.lt_ge_cases j (length l)) as [Lj|Lj].
  - rewrite !app_nth1 by lia. apply N.
  - rewrite !app_nth2 by lia. rewrite <- L. destruct (j - length l)%nat as [|[|?]]; cbn [nth]; auto.
Qed.

Lemma srun_app x u c d : forall outs, srun x u (c ++ d) outs = srun x u d (srun x u c outs).
Proof. induction c as [|[[e s0] s1] c IH]; intros outs; cbn [app srun]; auto. Qed.
Lemma srun_len x u c : forall outs, length (srun x u c outs) = (length outs + length c)%nat.
Proof. induction c as [|[[e s0] s1] c IH]; intros outs; cbn [srun length]; [lia|]. rewrite IH, app_length. cbn. lia. Qed.
Lemma srun_old x u c : forall outs j, (j < length outs)%nat -> nth j (srun x u c outs) dflt = nth j outs dflt.
Proof.
  induction c as [|[[e s0] s1] c IH]; intros outs j L; cbn [srun]; auto. rewrite IH by (rewrite app_length; cbn; lia). now rewrite app_nth1.
Qed.
Lemma srcs_app c d : forall i, srcs i (c ++ d) = srcs i c ++ srcs (i + length c) d.
Proof.
  induction c as [|[[e s0] s1] c IH]; intros i; cbn [app srcs length]; [now rewrite Nat.add_0_r|]. rewrite IH.
  now replace (S i + length c)%nat with (i + S (length c))%nat by lia.
Qed.
Lemma code_ok_app gs c d : forall i, code_ok gs i (c ++ d) <-> code_ok gs i c /\ code_ok gs (i + length c) d.
Proof.
  induction c as [|[[e s0] s1] c IH]; intros i; cbn [app code_ok length]; [rewrite Nat.add_0_r; tauto|]. rewrite IH.
  replace (S i + length c)%nat with (i + S (length c))%nat by lia. tauto.
Qed.
Lemma srcs_pos c : forall i s p, In (s, p) (srcs i c) -> exists j fl, p = Ain j fl /\ (i <= j)%nat.
Proof.
  induction c as [|[[e s0] s1] c IH]; intros i s p; cbn [srcs In]; [tauto|]. intros [[= _ <-]|[[= _ <-]|I]]; eauto.
  destruct (IH _ _ _ I) as (j & fl & -> & L). exists j, fl. split; auto. lia.
Qed.
Lemma to_prog_codes gs c : forall i, code_ok gs i c -> codes i (to_prog i c) c.
Proof.
  induction c as [|[[e s0] s1] c IH]; intros i; cbn [code_ok to_prog codes]; auto. intros (B & _ & _ & O).
  split; auto. split; [|auto]. exists (enc_of e). split; auto. now apply enc_dec.
Qed.
Lemma to_prog_len c : forall i, length (to_prog i c) = length c.
Proof. induction c as [|[[e s0] s1] c IH]; intros i; cbn [to_prog length]; auto. Qed.
Lemma to_prog_srcs c : forall i, List.concat (map fst (to_prog i c)) = srcs i c.
Proof. induction c as [|[[e s0] s1] c IH]; intros i; cbn [to_prog map fst List.concat srcs app]; auto. now rewrite IH. Qed.
Lemma codes_srcs : forall p c i, codes i p c -> List.concat (map fst p) = srcs i c.
Proof.
  induction p as [|[b ws] p IH]; intros [|[[e s0] s1] c] i; cbn [codes]; try tauto. intros (-> & _ & C).
  cbn [map fst List.concat srcs app]. now rewrite (IH c (S i) C).
Qed.
Lemma codes_len : forall p c i, codes i p c -> length p = length c.
Proof. induction p as [|[b ws] p IH]; intros [|[[e s0] s1] c] i; cbn [codes length]; try tauto. intros (_ & _ & C). now rewrite (IH c (S i) C). Qed.

Section Search.
  Variables (a : asm) (gs : list string) (o : string) (f : list Z -> Z).
  Hypothesis BA : basic_asm a.
  Hypothesis ND : NoDup gs.
  Let arch := basic_arch a.
  Let ir := word_ir gs o f.

  Lemma ir_names : map fst (i_in ir) = gs.
  Proof. unfold ir, word_ir. cbn [i_in]. rewrite map_map. cbn [fst]. apply map_id. Qed.
  Lemma ir_In g t : In (g, t) (i_in ir) <-> In g gs /\ t = 8%nat.
  Proof. unfold ir, word_ir. cbn [i_in]. rewrite in_map_iff. split; [intros (g' & [= <- <-] & I); auto|]. intros [I ->]. eauto. Qed.
  Lemma sem_eq x g : a_sem arch x g = if String.eqb g "0" then bsem (dec (x "inst")) (x "r0") (x "r1") else x "r0".
  Proof. unfold arch, basic_arch. cbn [a_sem]. now rewrite (ba_call _ BA). Qed.
  Lemma bsem_byte d r0 r1 : bimm d -> byte (bsem d r0 r1).
  Proof. unfold byte. destruct d; cbn [bimm bsem]; auto; intros _; apply Z.mod_pos_bound; reflexivity. Qed.
  Lemma word_byte z : word (fun w => w) 8%nat z <-> byte z.
  Proof. unfold word, byte. change (2 ^ Z.of_nat 8) with 256. tauto. Qed.

  Lemma basic_regular : regular (fun w => w) arch ir.
  Proof.
    constructor.
    - cbn. repeat constructor; cbn; intuition discriminate.
    - cbn. repeat constructor; cbn; intuition discriminate.
    - now rewrite ir_names.
    - intros x y H g. rewrite !sem_eq. now rewrite (H "inst"), (H "r0"), (H "r1") by (cbn; auto).
    - intros box box' x y _ H g. rewrite ir_names in H. unfold ir, word_ir. cbn [i_sem]. f_equal. apply map_ext_in. auto.
    - intros x H g t I. rewrite sem_eq. assert (t = 8%nat) as -> by (cbn in I; intuition congruence). apply word_byte.
      destruct (String.eqb g "0"); [apply bsem_byte, dec_imm|]. apply word_byte. apply (H "r0" 8%nat). cbn. auto.
  Qed.

  Lemma run_codes x u : forall p c outs outs', codes (length outs) p c -> eqv outs outs' ->
    eqv (run arch p x u outs) (srun x u c outs').
  Proof.
    induction p as [|[b ws] p IH]; intros [|[[d s0] s1] c] outs outs'; cbn [codes]; try tauto.
    intros (-> & (z & -> & D) & C) Q. cbn [run srun]. apply IH.
    - rewrite app_length. cbn [length]. now rewrite Nat.add_1_r.
    - apply eqv_snoc; auto. intros g. rewrite sem_eq.
      assert (forall fl, arg arch (length outs) [(s0, Ain (length outs) "r0"); (s1, Ain (length outs) "r1")] [z] x u outs fl = 
          match dget String.eqb [("inst", z)] fl with Some w => w | None => 
            match find (fun e => mpath_eqb (snd e) (Ain (length outs) fl)) [(s0, Ain (length outs) "r0"); (s1, Ain (length outs) "r1")] with
            | Some (Some (IRin g), _) => x g | Some (Some (Aout j g), _) => nth j outs dflt g | _ => u (length outs) fl end end) as A by reflexivity.
      rewrite !A. cbn [dget String.eqb Ascii.eqb Bool.eqb find snd mpath_eqb]. rewrite !Nat.eqb_refl. cbn [andb].
      rewrite D. destruct Q as [L N]. rewrite <- L.
      assert (forall fl s, sval x u (length outs) fl outs' s = match s with Some (IRin g) => x g | Some (Aout j g) => nth j outs dflt g | _ => u (length outs) fl end) as V.
      { intros fl [[g'|g'|j g'|j g']|]; cbn [sval]; auto. }
      rewrite !V. destruct s0 as [[?|?|? ?|? ?]|], s1 as [[?|?|? ?|? ?]|]; reflexivity.
  Qed.

  (** Programs in the sense of C60 and programs here. *)
  Lemma source_okp i s : okp gs i s <-> match s with None => True | Some p => source arch ir i p 8%nat end.
  Proof.
    destruct s as [[g|g|j g|j g]|]; cbn [okp]; unfold source; try tauto.
    - split; [intros I; left; exists g; split; auto; now apply ir_In|]. intros [(g' & [= <-] & I)|(? & ? & _ & X & _)]; [now apply ir_In in I|discriminate].
    - split; [tauto|]. intros [(? & X & _)|(? & ? & _ & X & _)]; discriminate.
    - split; [tauto|]. intros [(? & X & _)|(? & ? & _ & X & _)]; discriminate.
    - split.
      + intros [L G]. right. exists j, g. split; auto. split; auto. cbn. destruct G as [->| ->]; auto.
      + intros [(? & X & _)|(j' & g' & L & [= <- <-] & I)]; [discriminate|]. split; auto. cbn in I. intuition congruence.
  Qed.

  Lemma wires_shape i b : wires arch ir i b <-> exists s0 s1, b = [(s0, Ain i "r0"); (s1, Ain i "r1")] /\ okp gs i s0 /\ okp gs i s1.
  Proof.
    unfold wires. change (a_in arch) with [("r0", 8%nat); ("r1", 8%nat)]. split.
    - intros F. inversion F as [|[s0 p0] ? b' ? [E0 S0] F']; subst. inversion F' as [|[s1 p1] ? b'' ? [E1 S1] F'']; subst. inversion F''; subst.
      cbn [fst snd] in *. subst. exists s0, s1. split; auto. split; now apply source_okp.
    - intros (s0 & s1 & -> & O0 & O1). constructor; [|constructor; [|constructor]]; cbn [fst snd]; (split; [reflexivity|]); now apply source_okp.
  Qed.

  Lemma decode_program : forall p i, (forall j b, nth_error (map fst p) j = Some b -> wires arch ir (i + j) b) ->
    (forall b ws, In (b, ws) p -> exists z, ws = [z]) -> exists c, codes i p c /\ code_ok gs i c.
  Proof.
    induction p as [|[b ws] p IH]; intros i W Z0.
    - exists []. split; exact Logic.I.
    - destruct (IH (S i)) as (c & C & O).
      + intros j b' E. replace (S i + j)%nat with (i + S j)%nat by lia. now apply W.
      + intros b' ws' I. apply (Z0 b' ws'). now right.
      + specialize (W 0%nat b eq_refl). rewrite Nat.add_0_r in W. apply wires_shape in W as (s0 & s1 & -> & O0 & O1).
        destruct (Z0 _ ws (or_introl eq_refl)) as (z & ->). exists ((dec z, s0, s1) :: c). cbn [codes code_ok].
        split; [split; auto; split; eauto|]. split; [apply dec_imm|auto].
  Qed.

  Lemma code_wires c : forall i, code_ok gs i c -> forall j b, nth_error (map fst (to_prog i c)) j = Some b -> wires arch ir (i + j) b.
  Proof.
    induction c as [|[[d s0] s1] c IH]; intros i; cbn [code_ok to_prog map fst]; [intros _ [|j]; discriminate|].
    intros (_ & O0 & O1 & O) [|j] b; cbn [nth_error].
    - intros [= <-]. rewrite Nat.add_0_r. apply wires_shape. eauto.
    - intros E. replace (i + S j)%nat with (S i + j)%nat by lia. now apply (IH (S i)).
  Qed.

  Definition computed (c : list instr) (q : string) : Prop := forall x u, (forall g, In g gs -> byte (x g)) ->
    (forall i fl, (i < length c)%nat -> fl = "r0" \/ fl = "r1" -> byte (u i fl)) ->
    nth (length c - 1) (srun x u c []) dflt q = f (map x gs).

  Lemma search k real n : 
    (exists m sol, multi_build Nat.eqb k arch ir real n false = Ok m /\ solution (fun w => w) k arch ir n m sol) <->
    (0 < n)%nat /\ exists c q, length c = n /\ code_ok gs 0 c /\ (forall g, In g gs -> once c g) /\ (q = "0" \/ q = "1") /\ computed c q.
  Proof.
    assert (NoDup (map fst (a_in arch))) as N1 by (cbn; repeat constructor; cbn; intuition discriminate).
    assert (NoDup (map fst (a_out arch))) as N2 by (cbn; repeat constructor; cbn; intuition discriminate).
    assert (NoDup (map fst (i_in ir))) as N3 by now rewrite ir_names.
    pose proof (C46_build nat Nat.eqb Nat.eqb_eq k arch ir real n false N1 N2 N3) as Bd. split.
    - intros (m & sol & E & Sol). destruct (proj1 Bd (ex_intro _ m E)) as (_ & _ & Hn & _). split; auto.
      destruct (C60_sound_partial nat (fun w => w) Nat.eqb Nat.eqb_eq k arch ir real n false m sol basic_regular) as (p & ob & _ & [Wd Ws] & Sel & C); auto.
      { intros ? ? ? ?. reflexivity. }
      destruct Wd as (Lp & Wp & Us). rewrite map_length in Lp.
      destruct (decode_program p 0) as (c & Cc & Oc); auto.
      { intros b ws I. specialize (Ws b ws I). inversion Ws as [|z ? l ? _ F]; subst. inversion F; subst. eauto. }
      unfold selects in Sel. change (i_out ir) with [(o, 8%nat)] in Sel. inversion Sel as [|q ? l ? Iq F]; subst. inversion F; subst.
      exists c, q. pose proof (codes_len _ _ _ Cc) as Lc. split; [lia|]. split; auto. split; [|split].
      + intros g I. destruct (Us g 8%nat) as (j & fl & H1 & H2); [now apply ir_In|]. rewrite (codes_srcs _ _ _ Cc) in H1. exists j, fl. split; auto.
        intros j' fl' I'. apply H2. now rewrite (codes_srcs _ _ _ Cc).
      + cbn in Iq. intuition congruence.
      + intros x u Hx Hu. specialize (C (fun _ => 0) x u). rewrite Lc in C. assert (Forall2 (fun g f0 => nth (length c - 1) (run arch p x u []) (fun _ => 0) g = i_sem ir (fun _ => 0) x (fst f0)) [q] (i_out ir)) as F2.
        { apply C.
          - intros g t I. apply ir_In in I as [I ->]. apply word_byte. auto.
          - intros i fl t Li I. assert (t = 8%nat /\ (fl = "r0" \/ fl = "r1")) as [-> Hf] by (cbn in I; intuition congruence). apply word_byte. auto. }
        inversion F2 as [|? ? ? ? X _]; subst. destruct (run_codes x u p c [] [] Cc (eqv_refl [])) as [_ N]. rewrite <- N. exact X.
    - intros (Hn & c & q & Lc & Oc & Us & Hq & C).
      assert (wired arch ir n (map fst (to_prog 0 c))) as Wd.
      { split; [now rewrite map_length, to_prog_len|]. split; [apply (code_wires c 0 Oc)|]. intros g t I. apply ir_In in I as [I ->]. destruct (Us g I) as (j & fl & H1 & H2).
        exists j, fl. rewrite to_prog_srcs. auto. }
      assert (exists m, multi_build Nat.eqb k arch ir real n false = Ok m) as (m & E).
      { apply Bd. split; [reflexivity|]. split; [reflexivity|]. split; auto. split; [reflexivity|]. split; [eauto|]. split; [right; right; discriminate|].
        split; auto. intros g t I. assert (t = 8%nat) as -> by (cbn in I; intuition congruence). exists "0". cbn. auto. }
      destruct (proj2 (C60_exact nat (fun w => w) Nat.eqb Nat.eqb_eq k arch ir real n false m (to_prog 0 c) basic_regular E)) as (sol & Sol & _); eauto. split.
      + split; auto. intros b ws I. assert (exists d, bimm d /\ ws = [enc_of d]) as (d & Bd' & ->).
        { clear - I Oc. revert Oc I. generalize 0%nat. induction c as [|[[d s0] s1] c IH]; intros i; cbn [code_ok to_prog In]; [tauto|].
          intros (B & _ & _ & O) [[= _ <-]|I]; eauto. }
        constructor; [|constructor]. cbn [snd fst a_valid arch basic_arch]. split; [|apply (ba_valid _ BA); auto].
        unfold word. rewrite (ba_width _ BA). now apply enc_range.
      + exists [q], (fun _ => 0). split.
        * constructor; [|constructor]. cbn. destruct Hq as [->| ->]; auto.
        * intros x u Hx Hu. constructor; [|constructor]. cbn [fst]. destruct (run_codes x u (to_prog 0 c) c [] [] (to_prog_codes gs c 0 Oc) (eqv_refl [])) as [_ N].
          change (fun _ : string => 0) with dflt. rewrite N, <- Lc. apply C.
          -- intros g I. apply word_byte. apply (Hx g 8%nat). now apply ir_In.
          -- intros i fl Li Hf. apply word_byte. apply (Hu i fl 8%nat); [lia|]. cbn. destruct Hf as [->| ->]; auto.
  Qed.
End Search.
