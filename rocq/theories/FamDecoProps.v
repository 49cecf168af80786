(** C98: what decorating a class with [family.assemble] does, and the types families give to arguments. *)
From Coq Require Import String ZArith List Bool Lia.
From Verif Require Import Base FamModel FamDecoModel.
From Verif Require AsmModel.
Import ListNotations.
Open Scope nat_scope.

(** The resolution orders, by C3 from the class statements. *)
Theorem C98_mro :
  fam_mro Py = Ok [LPy; LReg; LAbs] /\
  fam_mro PyX = Ok [LPyX; LStd; LAsm; LRew; LPy; LReg; LAbs] /\
  fam_mro Smt = Ok [LSmt; LBB; LStd; LAsm; LRew; LReg; LAbs] /\
  fam_mro Magma = Ok [LMagma; LAsm; LAbs].
Proof. vm_compute. auto. Qed.

Section Deco.
Context {code P : Type} (rw : list P -> code -> code) (boxc : code).
Notation heap := (@heap code).
Notation fn := (@fn code).
Notation asmF := (fam_assemble rw boxc).

Lemma upd_length {A} (l : list A) n x : length (upd l n x) = length l.
Proof. revert n; induction l; destruct n; cbn [upd length]; auto. Qed.
Lemma nth_upd_same {A} (l : list A) n x y : nth_error l n = Some y -> nth_error (upd l n x) n = Some x.
Proof. revert n; induction l; destruct n; cbn [upd nth_error]; intros; try discriminate; auto. Qed.
Lemma nth_upd_other {A} (l : list A) n m x : m <> n -> nth_error (upd l n x) m = nth_error l m.
Proof. revert n m; induction l; destruct n, m; cbn [upd nth_error]; intros; try congruence; auto. Qed.
Lemma upd_self {A} (l : list A) n x : nth_error l n = Some x -> upd l n x = l.
Proof. revert n; induction l; destruct n; cbn [upd nth_error]; intros H; try discriminate; f_equal; auto. congruence. Qed.
Lemma upd_upd {A} (l : list A) n x y : upd (upd l n x) n y = upd l n y.
Proof. revert n; induction l; destruct n; cbn [upd]; f_equal; auto. Qed.
Lemma upd_app_last {A} (l : list A) a x : upd (l ++ [a]) (length l) x = l ++ [x].
Proof. induction l; cbn [upd app length]; f_equal; auto. Qed.
Lemma nth_app_last {A} (l : list A) a : nth_error (l ++ [a]) (length l) = Some a.
Proof. induction l; cbn; auto. Qed.

(** Programs: every class comes first in its own resolution order. *)
Definition wf_heap (h : heap) : Prop :=
  forall c D, nth_error (h_cls h) c = Some D -> exists r, c_mro D = c :: r.

(** The body the decorated class must have: the source in PyFamily, the rewritten source in PyXFamily and
    SMTFamily, and in SMTFamily the generated call for black boxes. *)
Fixpoint has_passes (b : bcls) : bool := match b with PyX | Smt => true | UCls _ x => has_passes x | _ => false end.
Fixpoint makes_boxes (b : bcls) : bool := match b with Smt => true | UCls _ x => makes_boxes x | _ => false end.
Fixpoint not_magma (b : bcls) : Prop := match b with Magma => False | UCls _ x => not_magma x | _ => True end.
Definition want_code (b : bcls) (ps : list P) (box : bool) (src : code) : code :=
  if makes_boxes b && box then boxc
  else if has_passes b then match ps with [] => src | _ => rw ps src end
  else src.

Lemma find_new (h : heap) c D g :
  wf_heap h -> nth_error (h_cls h) c = Some D ->
  find_call (new_call h c g) c = Some (c, length (h_fn h)) /\ call_fn (new_call h c g) c = Some g /\
  is_box (new_call h c g) c = is_box h c /\ wf_heap (new_call h c g) /\
  exists D', nth_error (h_cls (new_call h c g)) c = Some D' /\ c_mro D' = c_mro D.
Proof.
  intros W E. destruct (W _ _ E) as (r & M).
  assert (nth_error (h_cls (new_call h c g)) c = Some (mkC (c_mro D) (Some (length (h_fn h))) (c_box D))) as E'.
  { unfold new_call. cbn [h_cls]. rewrite E. eapply nth_upd_same; eauto. }
  assert (find_call (new_call h c g) c = Some (c, length (h_fn h))) as F.
  { unfold find_call. rewrite E'. cbn [c_mro]. rewrite M. cbn [first_call]. rewrite E'. reflexivity. }
  split; auto. split.
  { unfold call_fn. rewrite F. unfold new_call. cbn [h_fn]. apply nth_app_last. }
  split. { unfold is_box. rewrite E', E. reflexivity. }
  split; [|eexists; split; [exact E'|reflexivity]].
  intros d X Hd. destruct (Nat.eq_dec d c) as [->|N].
  - rewrite E' in Hd. inversion Hd; subst. eauto.
  - unfold new_call in Hd. cbn [h_cls] in Hd. rewrite E, nth_upd_other in Hd by auto. eauto.
Qed.

(** [h'] differs from [h] in the own call of [c] and in new functions only. *)
Definition only_call (h h' : heap) (c : nat) : Prop :=
  (forall g F, nth_error (h_fn h) g = Some F -> nth_error (h_fn h') g = Some F) /\
  length (h_cls h') = length (h_cls h) /\
  (forall d, d <> c -> nth_error (h_cls h') d = nth_error (h_cls h) d) /\
  (forall D, nth_error (h_cls h) c = Some D ->
     exists o, nth_error (h_cls h') c = Some (mkC (c_mro D) o (c_box D)) /\ (c_call D <> None -> o <> None)).
Lemma only_refl h c : only_call h h c.
Proof. repeat split; auto. intros [m o b] E. exists o. auto. Qed.
Lemma only_new h c g : only_call h (new_call h c g) c.
Proof.
  unfold new_call. repeat split; cbn [h_fn h_cls].
  - intros f F E. rewrite nth_error_app1; auto. apply nth_error_Some. congruence.
  - destruct (nth_error (h_cls h) c); auto using upd_length.
  - intros d N. destruct (nth_error (h_cls h) c); auto using nth_upd_other.
  - intros D E. rewrite E. eexists. split; [eapply nth_upd_same; eauto|]. discriminate.
Qed.
Lemma only_trans h1 h2 h3 c : only_call h1 h2 c -> only_call h2 h3 c -> only_call h1 h3 c.
Proof.
  intros (F1 & L1 & O1 & C1) (F2 & L2 & O2 & C2). repeat split; eauto.
  - congruence.
  - intros d N. rewrite O2, O1; auto.
  - intros D E. destruct (C1 _ E) as (o & E1 & I1). destruct (C2 _ E1) as (o' & E2 & I2). exists o'. cbn [c_mro c_call c_box] in *. auto.
Qed.

(** Setting the types of a call that was just made, and of one that has them. *)
Lemma set_new (h : heap) c D g t : wf_heap h -> nth_error (h_cls h) c = Some D ->
  set_types (new_call h c g) c t = Ok (new_call h c (mkFn (fn_code g) (Some (fst t)) (Some (snd t)))).
Proof.
  intros W E. destruct (find_new h c D g W E) as (F & C & _). unfold set_types. rewrite F.
  assert (nth_error (h_fn (new_call h c g)) (length (h_fn h)) = Some g) as N by (unfold new_call; cbn [h_fn]; apply nth_app_last).
  rewrite N. unfold new_call at 1 2. cbn [h_fn h_cls]. rewrite upd_app_last. reflexivity.
Qed.
Lemma set_same (h : heap) c src i o : call_fn h c = Some (mkFn src (Some i) (Some o)) -> set_types h c (i, o) = Ok h.
Proof.
  unfold call_fn, set_types. destruct (find_call h c) as [[d f]|]; [|discriminate]. intros E. rewrite E. cbn [fn_code fst snd].
  rewrite upd_self by assumption. destruct h; reflexivity.
Qed.

Lemma deco_user b ps h c : not_magma b ->
  asmF (match b with UCls _ x => x | _ => b end) ps h c = asmF b ps h c.
Proof.
  intros _. destruct b; auto. unfold fam_assemble. cbn [fam_mro]. destruct (fam_mro b); reflexivity.
Qed.

(** The result, for each of the three families: PyFamily leaves everything, the others make a call with the types of the old. *)
Lemma asm_py ps h c : asmF Py ps h c = Ok h.
Proof. unfold fam_assemble. rewrite (proj1 C98_mro). reflexivity. Qed.

Definition std_out (ps : list P) (h : heap) (c : nat) (src : code) (i o : nat) : heap :=
  match ps with [] => h | _ => new_call h c (mkFn (rw ps src) (Some i) (Some o)) end.

Lemma std_step ps r h c src i o D :
  wf_heap h -> nth_error (h_cls h) c = Some D -> call_fn h c = Some (mkFn src (Some i) (Some o)) ->
  deco rw boxc ps r h c = Ok h ->
  deco rw boxc ps (LStd :: LAsm :: LRew :: r) h c = Ok (std_out ps h c src i o).
Proof.
  intros W E C R. cbn [deco]. unfold get_types. rewrite C. cbn [bind]. rewrite R. cbn [bind]. unfold rewrite_call, std_out.
  destruct ps as [|p ps]; cbn [bind].
  - eapply set_same; eauto.
  - rewrite C. cbn [bind fn_code]. erewrite set_new by eauto. reflexivity.
Qed.

Lemma std_out_props ps h c src i o D :
  wf_heap h -> nth_error (h_cls h) c = Some D -> call_fn h c = Some (mkFn src (Some i) (Some o)) ->
  wf_heap (std_out ps h c src i o) /\ is_box (std_out ps h c src i o) c = is_box h c /\
  call_fn (std_out ps h c src i o) c = Some (mkFn (match ps with [] => src | _ => rw ps src end) (Some i) (Some o)) /\
  only_call h (std_out ps h c src i o) c /\ exists D', nth_error (h_cls (std_out ps h c src i o)) c = Some D'.
Proof.
  intros W E C. unfold std_out. destruct ps as [|p ps].
  - repeat split; eauto using only_refl; try apply only_refl.
  - destruct (find_new h c D (mkFn (rw (p :: ps) src) (Some i) (Some o)) W E) as (F & C' & B & W' & D' & E' & _).
    split; auto. split; auto. split; auto. split; [apply only_new|eauto].
Qed.

(** Decorating a class whose call has types (PeakMeta gives them): *)
Theorem C98_assemble b ps (h : heap) c D src i o :
  not_magma b -> wf_heap h -> nth_error (h_cls h) c = Some D ->
  call_fn h c = Some (mkFn src (Some i) (Some o)) ->
  exists h', asmF b ps h c = Ok h' /\
    (* the call has the right body and keeps its types *)
    call_fn h' c = Some (mkFn (want_code b ps (c_box D) src) (Some i) (Some o)) /\
    (* no other class, no base class and no existing function changes *)
    only_call h h' c /\ wf_heap h'.
Proof.
  intros NM W E C. induction b as [| | | |n x IH]; cbn [not_magma] in NM; try contradiction.
  - exists h. rewrite asm_py. split; auto. split; [|split; auto using only_refl].
    unfold want_code. cbn [makes_boxes has_passes andb]. assumption.
  - unfold fam_assemble. rewrite (proj1 (proj2 C98_mro)). cbn [bind].
    destruct (std_out_props ps h c src i o D W E C) as (W' & B & C' & O & D' & E').
    exists (std_out ps h c src i o). split.
    { change (deco rw boxc ps (LStd :: LAsm :: LRew :: [LPy; LReg; LAbs]) h c = Ok (std_out ps h c src i o)).
      eapply std_step; eauto. }
    split; [|split; auto]. rewrite C'. unfold want_code. cbn [makes_boxes has_passes andb]. reflexivity.
  - unfold fam_assemble. rewrite (proj1 (proj2 (proj2 C98_mro))). cbn [bind].
    destruct (std_out_props ps h c src i o D W E C) as (W' & B & C' & O & D' & E').
    remember [LStd; LAsm; LRew; LReg; LAbs] as tail eqn:Et. cbn [deco].
    unfold get_types at 1. rewrite C. cbn [bind].
    assert (deco rw boxc ps tail h c = Ok (std_out ps h c src i o)) as S.
    { subst tail. change [LStd; LAsm; LRew; LReg; LAbs] with (LStd :: LAsm :: LRew :: [LReg; LAbs]). eapply std_step; eauto. }
    rewrite S. cbn [bind]. rewrite B. unfold is_box at 1. rewrite E. unfold want_code. cbn [makes_boxes has_passes andb].
    destruct (c_box D).
    + unfold create_call. rewrite C'. cbn [bind]. erewrite set_new by eauto. eexists. split; [reflexivity|].
      destruct (find_new (std_out ps h c src i o) c D' (mkFn boxc (Some i) (Some o)) W' E') as (F2 & C2 & _ & W2 & _).
      cbn [fst snd fn_code]. split; auto. split; auto. eapply only_trans; eauto using only_new.
    + cbn [bind]. eexists. split; [|split; [exact C'|split; auto]].
      eapply set_same. exact C'.
  - destruct (IH NM) as (h' & A & X). exists h'. split; [|exact X].
    rewrite <- (deco_user (UCls n x) ps h c NM). exact A.
Qed.

(** Other classes: one that does not derive from [c] finds the same function as before, one that inherits its call from [c] finds the new one. *)
Theorem C98_others b ps (h h' : heap) c D src i o d D' :
  not_magma b -> wf_heap h -> nth_error (h_cls h) c = Some D ->
  call_fn h c = Some (mkFn src (Some i) (Some o)) -> asmF b ps h c = Ok h' ->
  nth_error (h_cls h) d = Some D' ->
  (~ In c (c_mro D') -> find_call h' d = find_call h d) /\
  (forall f, find_call h d = Some (c, f) -> find_call h' d = find_call h' c /\ find_call h' d <> None).
Proof.
  intros NM W E C A Ed.
  destruct (C98_assemble b ps h c D src i o NM W E C) as (h2 & A2 & C2 & (FF & L & OO & K) & W2).
  rewrite A in A2. inversion A2; subst h2. clear A2.
  destruct (K _ E) as (own & Ec & Io).
  split.
  - intros NI.
    assert (d <> c) as N. { intros ->. destruct (W _ _ Ed) as (r & M). apply NI. rewrite M. left. reflexivity. }
    unfold find_call. rewrite (OO d N), Ed. revert NI. generalize (c_mro D') as m.
    induction m as [|x m IH]; cbn [first_call]; auto. intros NI.
    assert (x <> c) as Nx by (intros ->; apply NI; left; auto).
    rewrite (OO x Nx), IH by (intros Y; apply NI; right; auto). reflexivity.
  - intros f F.
    assert (forall m, first_call h m = Some (c, f) -> c_call D = Some f) as HD.
    { induction m as [|x m IH]; cbn [first_call]; [discriminate|].
      destruct (nth_error (h_cls h) x) as [X|] eqn:Ex; auto. destruct (c_call X) eqn:Cx; auto. intros [= -> ->]. congruence. }
    assert (c_call D = Some f) as Cd by (unfold find_call in F; rewrite Ed in F; eauto).
    destruct own as [f'|]; [|exfalso; apply Io; congruence].
    assert (forall m, first_call h m = Some (c, f) -> first_call h' m = Some (c, f')) as HF.
    { induction m as [|x m IH]; cbn [first_call]; [discriminate|]. destruct (Nat.eq_dec x c) as [->|Nx].
      - intros _. rewrite Ec. reflexivity.
      - rewrite (OO x Nx). destruct (nth_error (h_cls h) x) as [X|]; auto. destruct (c_call X); auto. intros [= -> _]. congruence. }
    assert (find_call h' c = Some (c, f')) as Fc.
    { unfold find_call. rewrite Ec. cbn [c_mro]. destruct (W _ _ E) as (r & ->). cbn [first_call]. rewrite Ec. reflexivity. }
    assert (find_call h' d = Some (c, f')) as Fd.
    { unfold find_call in F. rewrite Ed in F. destruct (Nat.eq_dec d c) as [->|Nd]; [exact Fc|].
      unfold find_call. rewrite (OO d Nd), Ed. auto. }
    rewrite Fc, Fd. split; congruence.
Qed.

(** A class whose call has no types (gen_input_t=False, as ROM and RAM in memory.py, or no call at all)
    is taken by PyFamily and refused by the others. *)
Theorem C98_untyped b ps (h : heap) c :
  not_magma b -> (forall src i o, call_fn h c <> Some (mkFn src (Some i) (Some o))) ->
  asmF b ps h c = if has_passes b then Err AttributeError else Ok h.
Proof.
  intros NM U. assert (get_types h c = Err AttributeError) as G.
  { unfold get_types. destruct (call_fn h c) as [[src [i|] [o|]]|] eqn:C; auto. exfalso. eapply U; eauto. }
  induction b as [| | | |n x IH]; cbn [not_magma] in NM; try contradiction.
  - apply asm_py.
  - unfold fam_assemble. rewrite (proj1 (proj2 C98_mro)). cbn [bind deco]. rewrite G. reflexivity.
  - unfold fam_assemble. rewrite (proj1 (proj2 (proj2 C98_mro))). cbn [bind deco]. rewrite G. reflexivity.
  - rewrite <- (deco_user (UCls n x) ps h c NM). cbn [has_passes]. auto.
Qed.

(** Decorating the same class once more rewrites the rewritten body, so it is not the same as decorating once unless the passes are idempotent. *)
Theorem C98_twice ps (h h1 : heap) c D src i o :
  wf_heap h -> nth_error (h_cls h) c = Some D -> call_fn h c = Some (mkFn src (Some i) (Some o)) ->
  asmF PyX ps h c = Ok h1 ->
  exists h2, asmF PyX ps h1 c = Ok h2 /\
    call_fn h2 c = Some (mkFn (match ps with [] => src | _ => rw ps (rw ps src) end) (Some i) (Some o)).
Proof.
  intros W E C A. destruct (C98_assemble PyX ps h c D src i o Logic.I W E C) as (h2 & A2 & C2 & (FF & L & OO & K) & W2).
  rewrite A in A2. inversion A2; subst h2. destruct (K _ E) as (own & Ec & _).
  destruct (C98_assemble PyX ps h1 c _ _ i o Logic.I W2 Ec C2) as (h3 & A3 & C3 & _).
  exists h3. split; auto. rewrite C3. unfold want_code. cbn [makes_boxes has_passes andb]. destruct ps; reflexivity.
Qed.
End Deco.

(** A module: a Peak class with a call, a black box, a class deriving from the first without a call of its own, and a
    class without types. Bodies are words: the passes append to the source. *)
Definition ex_heap : heap :=
  mkH [mkFn "src"%string (Some 1) (Some 2); mkFn "box src"%string (Some 3) (Some 4); mkFn "rom"%string None None]
      [mkC [0] (Some 0) false; mkC [1] (Some 1) true; mkC [2; 0] None false; mkC [3] (Some 2) false].
Definition ex_rw (ps : list string) (s : string) : string := fold_left String.append ps s.
Example C98_case :
  let a b := fam_assemble ex_rw "generated"%string b [" ssa"; " bit"; " phi"]%string in
  wf_heap ex_heap /\
  (forall h, a Smt ex_heap 0 = Ok h ->
     call_fn h 0 = Some (mkFn "src ssa bit phi"%string (Some 1) (Some 2)) /\
     call_fn h 1 = call_fn ex_heap 1 /\ call_fn h 2 = call_fn h 0) /\
  (forall h, a Smt ex_heap 1 = Ok h -> call_fn h 1 = Some (mkFn "generated"%string (Some 3) (Some 4))) /\
  (forall h, a PyX ex_heap 1 = Ok h -> call_fn h 1 = Some (mkFn "box src ssa bit phi"%string (Some 3) (Some 4))) /\
  (forall h, a (UCls 7 PyX) ex_heap 2 = Ok h ->
     call_fn h 2 = Some (mkFn "src ssa bit phi"%string (Some 1) (Some 2)) /\ call_fn h 0 = call_fn ex_heap 0) /\
  (exists h, a Smt ex_heap 0 = Ok h) /\ (exists h, a Smt ex_heap 1 = Ok h) /\ (exists h, a PyX ex_heap 1 = Ok h) /\
  (exists h, a (UCls 7 PyX) ex_heap 2 = Ok h) /\
  a Smt ex_heap 3 = Err AttributeError /\ a Py ex_heap 3 = Ok ex_heap.
Proof.
  cbv zeta. split.
  { intros [|[|[|[|c]]]] D; cbn [ex_heap h_cls nth_error]; intros E; try (inversion E; subst; eexists; reflexivity).
    destruct c; discriminate. }
  repeat (split; [first [intros h E; vm_compute in E; inversion E; subst; vm_compute; auto | eexists; vm_compute; reflexivity]|]).
  split; vm_compute; reflexivity.
Qed.

(** What the order of the base classes of SMTFamily is for (321): with _StdMix first the generated call would be rewritten too. *)
Example C98_case_order :
  exists h, deco ex_rw "generated"%string [" ssa"]%string [LSmt; LStd; LAsm; LRew; LBB; LReg; LAbs] ex_heap 1 = Ok h /\
    call_fn h 1 = Some (mkFn "generated ssa"%string (Some 3) (Some 4)).
Proof. eexists. split; vm_compute; reflexivity. Qed.

(** ** Types of arguments *)
(** Bits in a value of a type. [aw] is the width of the assembler of an ADT. *)
Section Types.
Variable aw : AsmModel.ty -> Z.
Fixpoint pwidth (p : pty) : list Z :=
  match p with
  | PBitT _ => [1%Z]
  | PVec _ _ w => [w]
  | PAdt t | PAsm _ t => [aw t]
  | PMod _ q => pwidth q
  | PTup ps => flat_map pwidth ps
  | PAny _ => []
  end.
(** The kind of every leaf: bit, vector (by sign), assembled type. *)
Inductive leaf := FBit | FVec (k : vk) | FAdt (t : AsmModel.ty) | FOther (n : nat).
Fixpoint leaves (p : pty) : list leaf :=
  match p with
  | PBitT _ => [FBit]
  | PVec _ k _ => [FVec k]
  | PAdt t | PAsm _ t => [FAdt t]
  | PMod _ q => leaves q
  | PTup ps => flat_map leaves ps
  | PAny n => [FOther n]
  end.
(** Annotations: tuples are not modified, and only classes of the program occur (no class assembled for another family). *)
Fixpoint plain (p : pty) : bool := match p with PMod _ q => plain q | PTup _ => false | PAsm f _ => hw_eqb f HMag | _ => true end.
Fixpoint annot (p : pty) : bool := match p with PTup ps => forallb annot ps | _ => plain p end.
Fixpoint all_magma (p : pty) : bool :=
  match p with
  | PBitT f | PVec f _ _ | PAsm f _ => hw_eqb f HMag
  | PTup ps => forallb all_magma ps
  | PAdt _ | PMod _ _ => false
  | PAny _ => true
  end.
Section PtyInd.
  Variable Q : pty -> Prop.
  Hypothesis HT : forall ps, Forall Q ps -> Q (PTup ps).
  Hypothesis HO : forall p, (forall ps, p <> PTup ps) -> Q p.
  Fixpoint pty_ind' (p : pty) : Q p :=
    match p with
    | PTup ps => HT ps ((fix go ps : Forall Q ps := match ps with [] => Forall_nil _ | q :: r => Forall_cons _ (pty_ind' q) (go r) end) ps)
    | PBitT f => HO (PBitT f) (fun _ E => ltac:(discriminate E))
    | PVec f k w => HO (PVec f k w) (fun _ E => ltac:(discriminate E))
    | PAdt t => HO (PAdt t) (fun _ E => ltac:(discriminate E))
    | PAsm f t => HO (PAsm f t) (fun _ E => ltac:(discriminate E))
    | PMod m q => HO (PMod m q) (fun _ E => ltac:(discriminate E))
    | PAny n => HO (PAny n) (fun _ E => ltac:(discriminate E))
    end.
End PtyInd.

(** The annotations handed to magma: always given, of the same widths and kinds, of magma only; doing it again changes nothing. *)
Theorem C98_magmafy p : annot p = true ->
  exists q, magmafy p = Ok q /\ pwidth q = pwidth p /\ leaves q = leaves p /\ all_magma q = true /\ magmafy q = Ok q.
Proof.
  induction p as [ps IH|p NT] using pty_ind'; intros A.
  - cbn [annot] in A.
    assert (exists qs, (fix go (ps : list pty) : res (list pty) :=
      match ps with [] => Ok [] | q :: r => do x <- magmafy q; do xs <- go r; Ok (x :: xs) end) ps = Ok qs /\
      flat_map pwidth qs = flat_map pwidth ps /\ flat_map leaves qs = flat_map leaves ps /\ forallb all_magma qs = true /\
      (fix go (ps : list pty) : res (list pty) :=
      match ps with [] => Ok [] | q :: r => do x <- magmafy q; do xs <- go r; Ok (x :: xs) end) qs = Ok qs) as (qs & G & Wd & Lv & M & I).
    { revert A. induction IH as [|q r Hq _ IHr]; cbn [forallb flat_map].
      - intros _. exists []. auto.
      - rewrite andb_true_iff. intros [A1 A2]. destruct (Hq A1) as (x & -> & W1 & L1 & M1 & I1).
        destruct (IHr A2) as (xs & -> & W2 & L2 & M2 & I2). exists (x :: xs). cbn [bind flat_map forallb].
        rewrite W1, W2, L1, L2, M1, M2, I1. cbn [bind]. rewrite I2. auto. }
    exists (PTup qs). cbn [magmafy pwidth leaves all_magma]. rewrite G, I. cbn [bind]. auto.
  - assert (annot p = plain p) as A' by (destruct p; auto; exfalso; eapply NT; eauto). rewrite A' in A. clear A'.
    assert (magmafy p = match strip p with PAdt t => get_adt_t Magma (PAdt t) | PVec _ k w => Ok (PVec HMag k w)
      | PBitT _ => Ok (PBitT HMag) | q => Ok q end) as E by (destruct p; auto; exfalso; eapply NT; eauto).
    rewrite E. clear E NT.
    assert (pwidth p = pwidth (strip p) /\ leaves p = leaves (strip p) /\ plain (strip p) = true) as (-> & -> & A2).
    { induction p; cbn [strip pwidth leaves plain] in *; auto. }
    assert (forall m q, strip p <> PMod m q) as NMd. { induction p; cbn [strip]; intros; try discriminate; auto. }
    destruct (strip p) as [f|f k w|t|f t|m q|ps|n]; cbn [plain] in A2; try discriminate.
    + exists (PBitT HMag). repeat split.
    + exists (PVec HMag k w). repeat split.
    + exists (PAsm HMag t). repeat split.
    + exists (PAsm f t). repeat split; auto.
    + exfalso. eapply NMd; eauto.
    + exists (PAny n). repeat split.
Qed.

(** Modifiers (Const) do not matter. *)
Theorem C98_modifiers m p : (forall ps, p <> PTup ps) -> magmafy (PMod m p) = magmafy p.
Proof. intros N. destruct p; try reflexivity. exfalso. eapply N; eauto. Qed.

Lemma hw_refl f : hw_eqb f f = true. Proof. destruct f; reflexivity. Qed.
(** [get_adt_t]: every family takes the ADTs and the bits and vectors of its own kind, and keeps widths and kinds. *)
Theorem C98_get_adt b p :
  match p with PAdt _ => True | PBitT f | PVec f _ _ => f = fam_hw b | _ => False end ->
  exists q, get_adt_t b p = Ok q /\ pwidth q = pwidth p /\ leaves q = leaves p.
Proof.
  intros H. unfold get_adt_t. destruct (fam_plain b); [eauto|].
  destruct p; try contradiction; cbn [strip]; subst; rewrite ?hw_refl; eauto.
Qed.
End Types.
(** The family class that a class of families is derived from. *)
Fixpoint base_of (b : bcls) : bcls := match b with UCls _ x => base_of x | _ => b end.
Lemma fam_plain_base b : fam_plain b = true <-> base_of b = Py.
Proof. induction b; cbn; try (split; congruence). exact IHb. Qed.
(** PyFamily takes every type and leaves it alone, ADTs too. *)
Theorem C98_get_adt_py b p : base_of b = Py -> get_adt_t b p = Ok p.
Proof. intros H%fam_plain_base. unfold get_adt_t. rewrite H. reflexivity. Qed.
(** All others assemble ADTs and reject bits and vectors of another kind. *)
Theorem C98_get_adt_kind b p : base_of b <> Py ->
  match p with
  | PBitT f | PVec f _ _ => f <> fam_hw b -> get_adt_t b p = Err TypeError
  | PAdt t => get_adt_t b p = Ok (PAsm (fam_hw b) t)
  | _ => True
  end.
Proof.
  intros N. assert (fam_plain b = false) as F by (destruct (fam_plain b) eqn:E; [apply fam_plain_base in E; congruence|reflexivity]).
  unfold get_adt_t. rewrite F. destruct p; auto; cbn [strip]; intros X; destruct f, (fam_hw b); auto; exfalso; auto.
Qed.
(** The kinds of the four families. *)
Theorem C98_kinds b : fam_hw b = match base_of b with Smt => HSmt | Magma => HMag | _ => HPy end.
Proof. induction b; cbn; auto. Qed.
Example C98_case_types :
  let P := AsmModel.TProd "P" [] in
  magmafy (PTup [PMod 0 (PAdt P); PVec HPy VSigned 8; PMod 0 (PBitT HPy); PTup [PVec HPy VPlain 3]]) =
    Ok (PTup [PAsm HMag P; PVec HMag VSigned 8; PBitT HMag; PTup [PVec HMag VPlain 3]]) /\
  annot (PTup [PMod 0 (PAdt P); PVec HPy VSigned 8; PMod 0 (PBitT HPy); PTup [PVec HPy VPlain 3]]) = true /\
  get_adt_t Smt (PAdt P) = Ok (PAsm HSmt P) /\ get_adt_t Smt (PVec HSmt VSigned 8) = Ok (PVec HSmt VSigned 8) /\
  get_adt_t Smt (PVec HPy VPlain 8) = Err TypeError /\ get_adt_t Py (PVec HSmt VPlain 8) = Ok (PVec HSmt VPlain 8).
Proof. repeat split. Qed.

Print Assumptions C98_mro.
Print Assumptions C98_assemble.
Print Assumptions C98_others.
Print Assumptions C98_untyped.
Print Assumptions C98_twice.
Print Assumptions C98_magmafy.
Print Assumptions C98_modifiers.
Print Assumptions C98_get_adt.
Print Assumptions C98_get_adt_kind.
Print Assumptions C98_get_adt_py.
Print Assumptions C98_kinds.
