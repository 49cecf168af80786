(** C44: serialising and reading rules. C59: unbound Const inputs. *)
From Coq Require Import String Ascii ZArith List Bool Lia.
From Verif Require Import Base BaseLemmas MapIdxProps SerModel.
Import ListNotations.
Open Scope string_scope.
Open Scope list_scope.
Open Scope Z_scope.

(** Given values are values of their classes: a bit vector holds a number of its
    width, an Enum member is assembled to a number of the width of the leaf. *)
Definition given_ok (types : list (path * (leaf * bool))) (e : given * path) : Prop :=
  match fst e with
  | GBV _ w v => 0 <= v < 2 ^ w
  | GEnum z => forall w valid c, In (snd e, (LEnum w valid, c)) types -> 0 <= z < 2 ^ w
  | _ => True
  end.

(** Equality of bindings. Bit vectors are compared as by [==]: width and value. *)
Definition src_same (a b : src) : Prop :=
  match a, b with
  | SPath p, SPath q => p = q
  | SUnbound, SUnbound => True
  | SBV _ w v, SBV _ w' v' => w = w' /\ v = v'
  | SBit x, SBit y => x = y
  | _, _ => False
  end.
Definition rule_same (r s : rule) : Prop :=
  Forall2 (fun a b => src_same (fst a) (fst b) /\ snd a = snd b) (ib r) (ib s) /\ ob r = ob s.

(** The path does not go through a Sum. *)
Definition json_path (p : path) : Prop := forall n, ~ In (EType n) p.
Definition json_rule (r : rule) : Prop :=
  (forall e, In e (ib r) -> json_path (snd e) /\ forall p, fst e = SPath p -> json_path p) /\
  (forall e, In e (ob r) -> json_path (snd e) /\ forall p, fst e = Some p -> json_path p).

(** Full property: both round trips give the same bindings for every rule that
    can be constructed. *)
Definition C44_full : Prop :=
  forall types i o r, Forall (given_ok types) i -> mk_rule types i o = Ok r ->
    (exists r', read types (serialize r) = Ok r' /\ rule_same r r') /\
    (exists j r', json (serialize r) = Ok j /\ read types j = Ok r' /\ rule_same r r').

(** * Paths *)
Lemma elt_eqb_eq a b : elt_eqb a b = true <-> a = b.
Proof.
  destruct a, b; cbn; try (split; [discriminate|intros H; discriminate H]).
  - rewrite String.eqb_eq. split; congruence.
  - rewrite Z.eqb_eq. split; congruence.
  - rewrite Nat.eqb_eq. split; congruence.
Qed.

Lemma path_eqb_eq (p q : path) : path_eqb p q = true <-> p = q.
Proof.
  unfold path_eqb. revert q. induction p as [|a p IH]; intros [|b q]; cbn; try (split; congruence).
  rewrite andb_true_iff, elt_eqb_eq, IH. split; [intros [-> ->]; auto|intros E; injection E as -> ->; auto].
Qed.

Lemma atoms p : mapM (fun x => match x with OAtom a => Ok a | _ => Err TypeError end) (map OAtom p) = Ok p.
Proof. induction p as [|a p IH]; auto. cbn [map mapM bind]. now rewrite IH. Qed.

(** * Reading entries back *)

(** What reading gives for an entry of the rule. *)
Definition regiven (s : src) : given :=
  match s with SPath p => GPath p | SUnbound => GUnbound | SBV _ w v => GBV KPlain w (wrap w v) | SBit b => GBit b end.

(** The serialised form with tuples replaced by [sq]. *)
Section Sq.
  Variable sq : list obj -> obj.
  Hypothesis Hsq : sq = OTuple \/ sq = OList.

  Definition qpath (p : path) : obj := sq (map OAtom p).
  Definition qser_in (e : src * path) : obj :=
    match fst e with
    | SBV _ w v => sq [ODict [("type", ostr "BitVector"); ("width", OAtom (EInt w)); ("value", OAtom (EInt v))]; qpath (snd e)]
    | SBit b => sq [ODict [("type", ostr "Bit"); ("width", OAtom (EInt 1)); ("value", OBool b)]; qpath (snd e)]
    | SUnbound => sq [ostr "unbound"; qpath (snd e)]
    | SPath p => sq [qpath p; qpath (snd e)]
    end.
  Definition qser_out (e : option path * path) : obj :=
    match fst e with
    | None => sq [ostr "unbound"; qpath (snd e)]
    | Some p => sq [qpath p; qpath (snd e)]
    end.
  Definition qser (r : rule) : obj :=
    ODict [("ibinding", OList (map qser_in (ib r))); ("obinding", OList (map qser_out (ob r)))].

  Lemma to_path_q p : to_path (qpath p) = Ok p.
  Proof. unfold qpath, to_path. destruct Hsq as [-> | ->]; apply atoms. Qed.
  Lemma index_q l n : index (sq l) n = match nth_error l n with Some x => Ok x | None => Err IndexError end.
  Proof. destruct Hsq as [-> | ->]; reflexivity. Qed.
  Lemma qpath_not p : is_dict (qpath p) = false /\ forall s, eq_str (qpath p) s = false.
  Proof. unfold qpath. destruct Hsq as [-> | ->]; auto. Qed.

  Lemma read_in_q e : read_in (qser_in e) = Ok (regiven (fst e), snd e).
  Proof.
    destruct e as [[p| |k w v|b] q]; cbn [qser_in fst snd regiven]; unfold read_in; rewrite !index_q; cbn [nth_error bind].
    - destruct (qpath_not p) as [-> ->]. rewrite !to_path_q. reflexivity.
    - cbn [is_dict ostr eq_str]. change ("unbound" =? "unbound")%string with true. cbn iota. now rewrite to_path_q.
    - cbn [is_dict]. change (read_value _) with (Ok (GBV KPlain w (wrap w v))). cbn [bind]. now rewrite to_path_q.
    - cbn [is_dict]. change (read_value _) with (Ok (GBit b)). cbn [bind]. now rewrite to_path_q.
  Qed.

  Lemma read_out_q e : read_out (qser_out e) = Ok e.
  Proof.
    destruct e as [[p|] q]; cbn [qser_out fst snd]; unfold read_out; rewrite !index_q; cbn [nth_error bind].
    - destruct (qpath_not p) as [_ ->]. now rewrite !to_path_q.
    - cbn [ostr eq_str]. change ("unbound" =? "unbound")%string with true. cbn iota. now rewrite to_path_q.
  Qed.
End Sq.

Lemma mapM_map {A B C} (f : B -> res C) (g : A -> B) (h : A -> C) l :
  (forall x, In x l -> f (g x) = Ok (h x)) -> mapM f (map g l) = Ok (map h l).
Proof.
  induction l as [|a l IH]; intros H; auto. cbn [map mapM bind]. rewrite H by (now left).
  cbn [bind]. rewrite IH by (intros; apply H; now right). reflexivity.
Qed.

Lemma mapM_inv {A B} (f : A -> res B) l ys : mapM f l = Ok ys -> Forall2 (fun x y => f x = Ok y) l ys.
Proof.
  revert ys. induction l as [|a l IH]; intros ys; cbn [mapM].
  - intros E. injection E as <-. constructor.
  - destruct (f a) as [y|] eqn:Ea; cbn [bind]; [|discriminate].
    destruct (mapM f l) as [zs|]; cbn [bind]; [|discriminate].
    intros E. injection E as <-. constructor; auto.
Qed.

Lemma read_q sq types r : sq = OTuple \/ sq = OList ->
  read types (qser sq r) = mk_rule types (map (fun e => (regiven (fst e), snd e)) (ib r)) (ob r).
Proof.
  intros H. unfold read. change (get (qser sq r) "ibinding") with (Ok (OList (map (qser_in sq) (ib r)))).
  change (get (qser sq r) "obinding") with (Ok (OList (map (qser_out sq) (ob r)))). cbn [bind].
  rewrite (mapM_map _ _ (fun e => (regiven (fst e), snd e))) by (intros; now apply read_in_q).
  rewrite (mapM_map _ _ (fun e => e)) by (intros; now apply read_out_q). cbn [bind]. now rewrite map_id.
Qed.

(** The kept entry is kept again. [KSigned] Enum constants become plain. *)
Definition plain (types : list (path * (leaf * bool))) (e : src * path) : Prop :=
  match fst e with
  | SBV k w v => k = KPlain \/ forall w valid c, dget path_eqb types (snd e) <> Some (LEnum w valid, c)
  | _ => True
  end.

Lemma wrap_wrap w z : wrap w (wrap w z) = wrap w z.
Proof.
  unfold wrap. destruct (Z.eq_dec (2 ^ w) 0) as [->|N]; [now rewrite !Zmod_0_r|]. now apply Z.mod_mod.
Qed.

Lemma recoerce t g s : coerce t g = Ok s ->
  (forall k w v, g = GBV k w v -> 0 <= v < 2 ^ w) -> (forall z w valid, g = GEnum z -> t = LEnum w valid -> 0 <= z < 2 ^ w) ->
  (match s with SPath _ | SUnbound => False | _ => True end) /\
  exists s', coerce t (regiven s) = Ok s' /\ src_same s s' /\
    (match s with SBV k _ _ => k = KPlain \/ forall w valid, t <> LEnum w valid | _ => True end -> s = s').
Proof.
  intros E Hv He.
  assert (W : forall k w z, t = LBV k w -> s = SBV k w (wrap w z) ->
    exists s', coerce t (regiven s) = Ok s' /\ src_same s s' /\ s = s').
  { intros k w z -> ->. eexists. cbn [regiven coerce]. split; [reflexivity|]. rewrite !wrap_wrap. cbn. auto. }
  assert (B : forall b, t = LBit -> s = SBit b -> exists s', coerce t (regiven s) = Ok s' /\ src_same s s' /\ s = s').
  { intros b -> ->. eexists. cbn. auto. }
  assert (N : forall k w valid v, t = LEnum w valid -> 0 <= v < 2 ^ w -> valid v = true -> s = SBV k w v ->
     exists s', coerce t (regiven s) = Ok s' /\ src_same s s' /\ (k = KPlain \/ (forall w valid, t <> LEnum w valid) -> s = s')).
  { intros k w valid v -> R V ->. exists (SBV KPlain w v). cbn [regiven coerce]. rewrite (wrap_small _ _ R), Z.eqb_refl, V.
    split; [reflexivity|]. split; [cbn; auto|]. intros [->|F]; auto. destruct (F w valid). reflexivity. }
  destruct t as [k w| |w valid]; destruct g as [p| |z|b|k' w' v|b|z|]; cbn [coerce] in E; try discriminate.
  1-4: injection E as <-; split; [exact I|]; edestruct W as (s' & ? & ? & ?); [reflexivity..|eauto].
  - destruct (Z.eqb_spec z 0); [|destruct (Z.eqb_spec z 1); [|discriminate]]; injection E as <-; split; try exact I;
      edestruct B as (s' & ? & ? & ?); try reflexivity; eauto.
  - injection E as <-; split; [exact I|]; edestruct B as (s' & ? & ? & ?); [reflexivity..|eauto].
  - injection E as <-; split; [exact I|]; edestruct B as (s' & ? & ? & ?); [reflexivity..|eauto].
  - injection E as <-; split; [exact I|]; edestruct B as (s' & ? & ? & ?); [reflexivity..|eauto].
  - destruct (Z.eqb_spec w w'); [|discriminate]. destruct (valid v) eqn:V; [|discriminate]. injection E as <-. subst w'.
    split; [exact I|]. exact (N k' w valid v eq_refl (Hv _ _ _ eq_refl) V eq_refl).
  - destruct (valid z) eqn:V; [|discriminate]. injection E as <-. split; [exact I|].
    exact (N KPlain w valid z eq_refl (He _ _ _ eq_refl eq_refl) V eq_refl).
Qed.

Lemma remake types e s : given_ok types e -> mk_entry types e = Ok s ->
  exists s', mk_entry types (regiven (fst s), snd s) = Ok s' /\ (src_same (fst s) (fst s') /\ snd s = snd s') /\ (plain types s -> s' = s).
Proof.
  intros G. destruct e as [g q]. unfold mk_entry at 1. cbn [fst snd].
  assert (V : (do t <- dgetE path_eqb types q; do v <- coerce (fst t) g; Ok (v, q)) = Ok s ->
    exists s', mk_entry types (regiven (fst s), snd s) = Ok s' /\ (src_same (fst s) (fst s') /\ snd s = snd s') /\ (plain types s -> s' = s)).
  { unfold dgetE. destruct (dget path_eqb types q) as [[t c]|] eqn:Et; [|discriminate]. cbn [bind fst].
    destruct (coerce t g) as [v|] eqn:Ec; [|discriminate]. cbn [bind]. intros E. injection E as <-. cbn [fst snd].
    destruct (recoerce t g v Ec) as (Sh & v' & E' & Sm & Pl).
    - intros k w z ->. exact G.
    - intros z w valid -> ->. unfold given_ok in G. cbn [fst snd] in G. apply (G w valid c).
      now apply (dget_In path_eqb path_eqb_eq).
    - exists (v', q). split; [|split].
      + destruct v; try destruct Sh; cbn [regiven] in *; unfold mk_entry; cbn [fst snd]; unfold dgetE; rewrite Et; cbn [bind fst];
          rewrite E'; reflexivity.
      + auto.
      + unfold plain. cbn [fst snd]. rewrite Et. intros P. f_equal. symmetry. apply Pl. destruct v; auto.
        destruct P as [P|P]; auto. right. intros w0 valid0 ->. now apply (P w0 valid0 c). }
  destruct g as [p| |z|b|k w v|b|z|]; auto.
  - intros E. injection E as <-. exists (SPath p, q). cbn. auto.
  - clear V. unfold dgetE. destruct (dget path_eqb types q) as [t|] eqn:Et; [|discriminate]. cbn [bind]. intros E. injection E as <-.
    cbn [fst snd regiven]. unfold mk_entry. cbn [fst snd]. unfold dgetE. rewrite Et. cbn [bind]. exists (SUnbound, q). cbn. auto.
Qed.

Lemma reread sq types i o r : sq = OTuple \/ sq = OList -> Forall (given_ok types) i -> mk_rule types i o = Ok r ->
  exists r', read types (qser sq r) = Ok r' /\ rule_same r r' /\ (Forall (plain types) (ib r) -> r' = r).
Proof.
  intros H G. unfold mk_rule at 1. destruct (mapM (mk_entry types) i) as [l|] eqn:E; [|discriminate]. cbn [bind].
  intros Er. injection Er as <-. rewrite read_q by auto. cbn [ib ob]. apply mapM_inv in E.
  assert (X : exists l', mapM (mk_entry types) (map (fun e => (regiven (fst e), snd e)) l) = Ok l' /\
    Forall2 (fun a b => src_same (fst a) (fst b) /\ snd a = snd b) l l' /\ (Forall (plain types) l -> l' = l)).
  { induction E as [|e s i l E _ IH]; [exists []; cbn; auto|]. inversion G; subst.
    destruct (remake types e s) as (s' & E1 & S1 & P1); auto. destruct IH as (l' & E2 & S2 & P2); auto.
    exists (s' :: l'). cbn [map mapM bind]. rewrite E1. cbn [bind]. rewrite E2. split; [reflexivity|]. split; [constructor; auto|].
    intros F. inversion F; subst. rewrite P1, P2 by auto. reflexivity. }
  destruct X as (l' & E2 & S2 & P2). unfold mk_rule. rewrite E2. cbn [bind]. eexists. split; [reflexivity|].
  split; [split; auto|]. cbn [ib]. intros F. now rewrite P2.
Qed.

(** * JSON *)
Definition jgo : list obj -> res (list obj) :=
  fix go l := match l with [] => Ok [] | x :: r => do y <- json x; do r' <- go r; Ok (y :: r') end.
Lemma jgo_map {A} (g h : A -> obj) l : (forall x, In x l -> json (g x) = Ok (h x)) -> jgo (map g l) = Ok (map h l).
Proof.
  induction l as [|a l IH]; intros H; auto. cbn [map]. change (jgo (g a :: map g l)) with (do y <- json (g a); do r' <- jgo (map g l); Ok (y :: r')).
  rewrite H by (now left). cbn [bind]. rewrite IH by (intros; apply H; now right). reflexivity.
Qed.
Lemma json_seq l : json (OTuple l) = (do l' <- jgo l; Ok (OList l')) /\ json (OList l) = (do l' <- jgo l; Ok (OList l')).
Proof. split; reflexivity. Qed.

Lemma json_opath p : json_path p -> json (opath p) = Ok (qpath OList p).
Proof.
  intros H. unfold opath. rewrite (proj1 (json_seq _)), (jgo_map OAtom OAtom); auto.
  intros [s|z|n] I; auto. destruct (H n I).
Qed.

Lemma json_ser_in e : json_path (snd e) -> (forall p, fst e = SPath p -> json_path p) -> json (ser_in e) = Ok (qser_in OList e).
Proof.
  destruct e as [[p| |k w v|b] q]; cbn [ser_in fst snd qser_in]; intros H1 H2; rewrite (proj1 (json_seq _)).
  - change (jgo [opath p; opath q]) with (do y <- json (opath p); do r' <- (do y <- json (opath q); Ok [y]); Ok (y :: r')).
    rewrite (json_opath p), (json_opath q); auto.
  - change (jgo [ostr "unbound"; opath q]) with (do r' <- (do y <- json (opath q); Ok [y]); Ok (ostr "unbound" :: r')).
    rewrite (json_opath q); auto.
  - set (d := ODict _). change (jgo [d; opath q]) with (do y <- json d; do r' <- (do y <- json (opath q); Ok [y]); Ok (y :: r')).
    rewrite (json_opath q) by auto. change (json d) with (Ok d). reflexivity.
  - set (d := ODict _). change (jgo [d; opath q]) with (do y <- json d; do r' <- (do y <- json (opath q); Ok [y]); Ok (y :: r')).
    rewrite (json_opath q) by auto. change (json d) with (Ok d). reflexivity.
Qed.

Lemma json_ser_out e : json_path (snd e) -> (forall p, fst e = Some p -> json_path p) -> json (ser_out e) = Ok (qser_out OList e).
Proof.
  destruct e as [[p|] q]; cbn [ser_out fst snd qser_out]; intros H1 H2; rewrite (proj1 (json_seq _)).
  - change (jgo [opath p; opath q]) with (do y <- json (opath p); do r' <- (do y <- json (opath q); Ok [y]); Ok (y :: r')).
    rewrite (json_opath p), (json_opath q); auto.
  - change (jgo [ostr "unbound"; opath q]) with (do r' <- (do y <- json (opath q); Ok [y]); Ok (ostr "unbound" :: r')).
    rewrite (json_opath q); auto.
Qed.

Lemma json_ser r : json_rule r -> json (serialize r) = Ok (qser OList r).
Proof.
  intros [H1 H2].
  assert (E1 : json (OList (map ser_in (ib r))) = Ok (OList (map (qser_in OList) (ib r)))).
  { rewrite (proj2 (json_seq _)), (jgo_map _ (qser_in OList)); auto. intros e I. destruct (H1 e I). now apply json_ser_in. }
  assert (E2 : json (OList (map ser_out (ob r))) = Ok (OList (map (qser_out OList) (ob r)))).
  { rewrite (proj2 (json_seq _)), (jgo_map _ (qser_out OList)); auto. intros e I. destruct (H2 e I). now apply json_ser_out. }
  unfold serialize, qser. revert E1 E2. generalize (OList (map ser_in (ib r))), (OList (map ser_out (ob r))).
  intros o1 o2 E1 E2.
  change (json (ODict [("ibinding", o1); ("obinding", o2)]))
    with (do d' <- (do y <- json o1; do r' <- (do y <- json o2; Ok [("obinding", y)]); Ok (("ibinding", y) :: r')); Ok (ODict d')).
  rewrite E1. cbn [bind]. rewrite E2. reflexivity.
Qed.

(** * Theorems *)

(** Missing for C44: rules with paths through a Sum do not survive JSON, because
    the path contains a class. *)
Theorem C44_roundtrip :
  forall types i o r, Forall (given_ok types) i -> mk_rule types i o = Ok r ->
    exists r', read types (serialize r) = Ok r' /\ rule_same r r' /\ (Forall (plain types) (ib r) -> r' = r).
Proof. intros types i o r. exact (reread OTuple types i o r (or_introl eq_refl)). Qed.

Theorem C44_json_partial :
  forall types i o r, Forall (given_ok types) i -> mk_rule types i o = Ok r -> json_rule r ->
    exists j r', json (serialize r) = Ok j /\ read types j = Ok r' /\ rule_same r r' /\ (Forall (plain types) (ib r) -> r' = r).
Proof.
  intros types i o r G M J. exists (qser OList r).
  destruct (reread OList types i o r (or_intror eq_refl) G M) as (r' & R & S & P). exists r'. split; [now apply json_ser|auto].
Qed.

(** Exactly the rules with a path through a Sum are rejected by JSON. *)
Lemma jgo_err l x : In x l -> (exists e, json x = Err e) -> exists e, jgo l = Err e.
Proof.
  intros I [e E]. induction l as [|a l IH]; [destruct I|].
  change (jgo (a :: l)) with (do y <- json a; do r' <- jgo l; Ok (y :: r')).
  destruct I as [->|I]; [rewrite E; cbn; eauto|]. destruct (json a); cbn; eauto. destruct (IH I) as [e' ->]. cbn. eauto.
Qed.
Lemma json_opath_err p n : In (EType n) p -> exists e, json (opath p) = Err e.
Proof.
  intros I. unfold opath. rewrite (proj1 (json_seq _)).
  destruct (jgo_err (map OAtom p) (OAtom (EType n))) as [e ->]; cbn; eauto. now apply in_map.
Qed.
Lemma json_tuple_err l x : In x l -> (exists e, json x = Err e) -> exists e, json (OTuple l) = Err e.
Proof. intros I E. rewrite (proj1 (json_seq _)). destruct (jgo_err l x I E) as [e ->]. cbn. eauto. Qed.

Theorem C44_json_iff : forall r, (exists j, json (serialize r) = Ok j) <-> json_rule r.
Proof.
  intros r. split; [|intros J; exists (qser OList r); now apply json_ser].
  intros [j E].
  assert (X : (exists e, json (OList (map ser_in (ib r))) = Err e) \/ (exists e, json (OList (map ser_out (ob r))) = Err e) -> False).
  { unfold serialize in E. revert E. generalize (OList (map ser_in (ib r))), (OList (map ser_out (ob r))). intros o1 o2.
    change (json (ODict [("ibinding", o1); ("obinding", o2)]))
      with (do d' <- (do y <- json o1; do r' <- (do y <- json o2; Ok [("obinding", y)]); Ok (("ibinding", y) :: r')); Ok (ODict d')).
    destruct (json o1) as [x1|e1]; [destruct (json o2) as [x2|e2]|]; cbn; try discriminate. intros _ [[e H]|[e H]]; discriminate. }
  split; intros e I.
  - assert (Y : forall n, In (EType n) (snd e) \/ (exists p, fst e = SPath p /\ In (EType n) p) -> False).
    { intros n D. apply X. left. rewrite (proj2 (json_seq _)).
      destruct (jgo_err (map ser_in (ib r)) (ser_in e)) as [er ->]; [now apply in_map| |cbn; eauto].
      destruct e as [s q]; cbn [fst snd] in D. destruct D as [D|(p & -> & D)].
      - destruct s; cbn [ser_in fst snd]; eapply json_tuple_err; try (right; left; reflexivity); eapply json_opath_err; eauto.
      - cbn [ser_in fst snd]. eapply json_tuple_err; [left; reflexivity|]. eapply json_opath_err; eauto. }
    split; [intros n D; apply (Y n); auto|]. intros p Ep n D. apply (Y n). eauto.
  - assert (Y : forall n, In (EType n) (snd e) \/ (exists p, fst e = Some p /\ In (EType n) p) -> False).
    { intros n D. apply X. right. rewrite (proj2 (json_seq _)).
      destruct (jgo_err (map ser_out (ob r)) (ser_out e)) as [er ->]; [now apply in_map| |cbn; eauto].
      destruct e as [s q]; cbn [fst snd] in D. destruct D as [D|(p & -> & D)].
      - destruct s; cbn [ser_out fst snd]; eapply json_tuple_err; try (right; left; reflexivity); eapply json_opath_err; eauto.
      - cbn [ser_out fst snd]. eapply json_tuple_err; [left; reflexivity|]. eapply json_opath_err; eauto. }
    split; [intros n D; apply (Y n); auto|]. intros p Ep n D. apply (Y n). eauto.
Qed.

(** A Sum in the instruction: the path contains the member type. *)
Definition types1 : list (path * (leaf * bool)) :=
  [([EStr "inst"; EType 7; EStr "op"], (LEnum 2 (fun z => z <=? 2), true));
   ([EStr "inst"; EType 7; EStr "imm"], (LBV KSigned 8, true));
   ([EStr "inst"; EType 7; EStr "flag"], (LBit, true));
   ([EStr "data"], (LBV KPlain 8, false)); ([EStr "x"], (LBV KPlain 8, false))].
Definition ib1 : list (given * path) :=
  [(GBV KPlain 2 1, [EStr "inst"; EType 7; EStr "op"]); (GInt (-1), [EStr "inst"; EType 7; EStr "imm"]);
   (GInt 1, [EStr "inst"; EType 7; EStr "flag"]); (GPath [EStr "a"; EInt 0], [EStr "data"]); (GUnbound, [EStr "x"])].
Definition ob1 : list (option path * path) := [(Some [EInt 0], [EInt 1]); (None, [EInt 0])].
Definition rule1 : rule :=
  {| ib := [(SBV KPlain 2 1, [EStr "inst"; EType 7; EStr "op"]); (SBV KSigned 8 255, [EStr "inst"; EType 7; EStr "imm"]);
            (SBit true, [EStr "inst"; EType 7; EStr "flag"]); (SPath [EStr "a"; EInt 0], [EStr "data"]); (SUnbound, [EStr "x"])];
     ob := ob1 |}.

Theorem C44_full_refuted : ~ C44_full.
Proof.
  intros H. destruct (H types1 ib1 ob1 rule1) as [_ (j & r' & E & _)].
  - repeat constructor; cbn; try lia.
  - reflexivity.
  - vm_compute in E. discriminate.
Qed.

Example C44_case : Forall (given_ok types1) ib1 /\ mk_rule types1 ib1 ob1 = Ok rule1 /\ Forall (plain types1) (ib rule1) /\
  read types1 (serialize rule1) = Ok rule1.
Proof.
  split; [repeat constructor; cbn; try lia|]. split; [reflexivity|]. split; [|reflexivity].
  repeat apply Forall_cons; try apply Forall_nil; unfold plain; cbn [fst snd]; auto. right. intros w valid c. vm_compute. discriminate.
Qed.

(** The same with a TaggedUnion, through JSON. *)
Definition types2 : list (path * (leaf * bool)) :=
  [([EStr "inst"; EStr "A"; EStr "op"], (LEnum 2 (fun z => z <=? 2), true)); ([EStr "data"], (LBV KPlain 8, false))].
Definition rule2 : rule := {| ib := [(SBV KPlain 2 2, [EStr "inst"; EStr "A"; EStr "op"]); (SPath [EStr "a"; EInt 0], [EStr "data"])]; ob := ob1 |}.
Example C44_json_case :
  mk_rule types2 [(GEnum 2, [EStr "inst"; EStr "A"; EStr "op"]); (GPath [EStr "a"; EInt 0], [EStr "data"])] ob1 = Ok rule2 /\
  json_rule rule2 /\ match json (serialize rule2) with Ok j => read types2 j = Ok rule2 /\ j <> serialize rule2 | Err _ => False end.
Proof.
  split; [reflexivity|]. split; [apply C44_json_iff; eexists; vm_compute; reflexivity|]. vm_compute. split; [reflexivity|discriminate].
Qed.

(** * C59 *)

(** Full property: a rule that leaves a Const input unbound is rejected. *)
Definition C59_full : Prop :=
  forall types i o p t, In (GUnbound, p) i -> In (p, (t, true)) types -> NoDup (map fst types) ->
    mk_rule types i o = Err ValueError.

Theorem C59_full_refuted : ~ C59_full.
Proof.
  intros H. specialize (H types2 [(GUnbound, [EStr "inst"; EStr "A"; EStr "op"])] [] [EStr "inst"; EStr "A"; EStr "op"] _
    ltac:(now left) ltac:(now left)). discriminate H. repeat constructor; cbn; intuition discriminate.
Qed.

(** What holds: constants are checked and coerced to the type of the leaf; an
    unbound Const is kept and becomes a free input of [verify]. Missing for C59:
    the rejection. *)
Definition fits (t : leaf) (s : src) : Prop :=
  match t, s with
  | LBV k w, SBV k' w' v => k = k' /\ w = w' /\ (0 <= w -> 0 <= v < 2 ^ w)
  | LBit, SBit _ => True
  | LEnum w valid, SBV _ w' v => w = w' /\ 0 <= v < 2 ^ w /\ valid v = true
  | _, SPath _ | _, SUnbound => True
  | _, _ => False
  end.

Theorem C59_constants_partial :
  forall types i o r, Forall (given_ok types) i -> NoDup (map fst types) -> mk_rule types i o = Ok r ->
    map snd (ib r) = map snd i /\ ob r = o /\
    (forall s p t c, In (s, p) (ib r) -> In (p, (t, c)) types -> fits t s) /\
    (forall p, In p (snd (get_input_paths r)) <-> In (GUnbound, p) i) /\
    (forall p, In p (fst (get_input_paths r)) <-> exists q, In (GPath p, q) i).
Proof.
  intros types i o r G N M. unfold mk_rule in M. destruct (mapM (mk_entry types) i) as [l|] eqn:E; [|discriminate]. cbn [bind] in M.
  injection M as <-. cbn [ib ob]. apply mapM_inv in E. cbn [get_input_paths fst snd ib].
  assert (K : forall e s, given_ok types e -> mk_entry types e = Ok s -> snd s = snd e /\ (forall t c, In (snd e, (t, c)) types -> fits t (fst s)) /\
     (fst s = SUnbound <-> fst e = GUnbound) /\ (forall p, fst s = SPath p <-> fst e = GPath p)).
  { clear E l i G. intros [g q] s G. unfold mk_entry. cbn [fst snd].
    assert (V : (do t <- dgetE path_eqb types q; do v <- coerce (fst t) g; Ok (v, q)) = Ok s ->
       (g <> GUnbound /\ forall p, g <> GPath p) ->
       snd s = q /\ (forall t c, In (q, (t, c)) types -> fits t (fst s)) /\ (fst s = SUnbound <-> g = GUnbound) /\ (forall p, fst s = SPath p <-> g = GPath p)).
    { unfold dgetE. destruct (dget path_eqb types q) as [[t c]|] eqn:Et; [|discriminate]. cbn [bind fst].
      destruct (coerce t g) as [v|] eqn:Ec; [|discriminate]. cbn [bind]. intros E [Nu Np]. injection E as <-. cbn [fst snd].
      assert (F : fits t v /\ v <> SUnbound /\ forall p, v <> SPath p).
      { destruct t as [k w| |w valid]; destruct g as [p| |z|b|k' w' x|b|z|]; cbn [coerce] in Ec; try discriminate.
        all: try (injection Ec as <-; split; [cbn; auto using wrap_range|split; [discriminate|discriminate]]; fail).
        - destruct (Z.eqb_spec z 0); [|destruct (Z.eqb_spec z 1); [|discriminate]]; injection Ec as <-; (split; [exact I|split; discriminate]).
        - destruct (Z.eqb_spec w w'); [|discriminate]. destruct (valid x) eqn:V; [|discriminate]. injection Ec as <-. subst.
          split; [cbn; auto|split; discriminate].
        - destruct (valid z) eqn:V; [|discriminate]. injection Ec as <-.
          split; [cbn; repeat split; auto; apply (G w valid c); now apply (dget_In path_eqb path_eqb_eq)|split; discriminate]. }
      destruct F as (F1 & F2 & F3). split; [reflexivity|]. split.
      - intros t' c' I'. apply (dget_NoDup path_eqb path_eqb_eq) in I'; auto. rewrite Et in I'. now injection I' as -> ->.
      - split; [split; intros X; [destruct (F2 X)|destruct (Nu X)]|intros p; split; intros X; [destruct (F3 p X)|destruct (Np p X)]]. }
    destruct g as [p| |z|b|k w v|b|z|]; try (intros E; apply V; [exact E|split; discriminate]).
    - intros E. injection E as <-. cbn [fst snd]. split; auto. split; [intros [] ?; cbn; auto|]. split; [split; discriminate|].
      intros p'. split; congruence.
    - unfold dgetE. destruct (dget path_eqb types q) as [t|] eqn:Et; [|discriminate]. cbn [bind]. intros E. injection E as <-.
      cbn [fst snd]. split; auto. split; [intros [] ?; cbn; auto|]. split; [split; auto|]. intros p'. split; discriminate. }
  assert (A : forall e s, In (e, s) (combine i l) -> snd s = snd e /\ (forall t c, In (snd e, (t, c)) types -> fits t (fst s)) /\
     (fst s = SUnbound <-> fst e = GUnbound) /\ (forall p, fst s = SPath p <-> fst e = GPath p)).
  { clear -E G K. induction E as [|e s i l E _ IH]; [intros ? ? []|]. inversion G; subst. intros e' s' [X|X]; [|auto].
    injection X as <- <-. auto. }
  clear K G. induction E as [|e s i l E _ IH]; cbn [map flat_map].
  - split; [auto|]. split; [auto|]. split; [intros ? ? ? ? []|]. split; [intros p; split; intros []|]. intros p. split; [intros []|intros (q & [])].
  - destruct (IH (fun e s I => A e s (or_intror I))) as (I1 & I2 & I3 & I4 & I5). clear IH.
    destruct (A e s (or_introl eq_refl)) as (A1 & A2 & A3 & A4). split; [congruence|]. split; [auto|]. split; [|split].
    + intros s' p t c [X|X] Y; [subst s; cbn [fst snd] in *; subst; eauto|eauto].
    + intros p. rewrite in_app_iff, I4. destruct e as [g q], s as [s q']. cbn [fst snd] in *. subst q'. split.
      * intros [X|X]; [|now right]. destruct s; cbn in X; try contradiction. destruct X as [<-|[]]. left. f_equal. now apply A3.
      * intros [X|X]; [|now right]. injection X as -> ->. left. rewrite (proj2 A3 eq_refl). now left.
    + intros p. rewrite in_app_iff, I5. destruct e as [g q], s as [s q']. cbn [fst snd] in *. subst q'. split.
      * intros [X|[q' X]]; [|exists q'; now right]. destruct s; cbn in X; try contradiction. destruct X as [<-|[]]. exists q. left. f_equal. now apply A4.
      * intros [q' [X|X]]; [|eauto]. injection X as -> ->. left. rewrite (proj2 (A4 p) eq_refl). now left.
Qed.

Example C59_case : Forall (given_ok types1) ib1 /\ NoDup (map fst types1) /\ mk_rule types1 ib1 ob1 = Ok rule1 /\
  get_input_paths rule1 = ([[EStr "a"; EInt 0]], [[EStr "x"]]).
Proof.
  split; [repeat constructor; cbn; try lia|]. split; [|auto]. repeat constructor; cbn; intuition discriminate.
Qed.

(** The number a constant stands for, and the one stored for a leaf: bit vectors
    are truncated to the width, a Bit is 1 for all but 0, Enums are kept. *)
Definition number (g : given) : option Z :=
  match g with GInt z | GEnum z | GBV _ _ z => Some z | GBool b | GBit b => Some (if b then 1 else 0) | _ => None end.
Definition stored (t : leaf) (z : Z) (s : src) : Prop :=
  match t, s with
  | LBV _ w, SBV _ _ v => v = z mod 2 ^ w
  | LBit, SBit b => b = negb (z =? 0)
  | LEnum _ _, SBV _ _ v => v = z
  | _, _ => False
  end.
Theorem C59_values :
  forall types i o r, NoDup (map fst types) -> mk_rule types i o = Ok r ->
    forall n g q s q' t c z, nth_error i n = Some (g, q) -> nth_error (ib r) n = Some (s, q') ->
      In (q, (t, c)) types -> number g = Some z -> stored t z s.
Proof.
  intros types i o r N M n g q s q' t c z Ei Er It Eg. unfold mk_rule in M. destruct (mapM (mk_entry types) i) as [l|] eqn:E; [|discriminate].
  cbn [bind] in M. injection M as <-. cbn [ib] in Er. apply mapM_inv in E.
  assert (K : mk_entry types (g, q) = Ok (s, q')).
  { clear -E Ei Er. revert n Ei Er. induction E as [|e x i l E _ IH]; intros [|n] Ei Er; try discriminate; cbn in *; [congruence|eauto]. }
  assert (V : (do t' <- dgetE path_eqb types q; do v <- coerce (fst t') g; Ok (v, q)) = Ok (s, q')) by (destruct g; try discriminate Eg; exact K).
  unfold dgetE in V. apply (dget_NoDup path_eqb path_eqb_eq) in It; auto. rewrite It in V. cbn [bind fst] in V.
  destruct (coerce t g) as [v|] eqn:Ec; [|discriminate]. cbn [bind] in V. injection V as -> <-.
  destruct t as [k w| |w valid]; destruct g as [p| |y|b|k' w' x|b|y|]; cbn [coerce] in Ec; cbn [number] in Eg; try discriminate; injection Eg as <-.
  all: try (injection Ec as <-; cbn; try destruct b; reflexivity).
  - destruct (Z.eqb_spec y 0) as [->|]; [injection Ec as <-; reflexivity|]. destruct (Z.eqb_spec y 1) as [->|]; [|discriminate]. injection Ec as <-. reflexivity.
  - destruct (Z.eqb_spec w w'); [|discriminate]. destruct (valid x); [|discriminate]. injection Ec as <-. reflexivity.
  - destruct (valid y); [|discriminate]. injection Ec as <-. reflexivity.
Qed.
Example C59_values_case : mk_rule [([EStr "b"], (LBit, true)); ([EStr "v"], (LBV KPlain 8, true))] [(GBV KPlain 4 2, [EStr "b"]); (GInt 300, [EStr "v"])] [] =
  Ok {| ib := [(SBit true, [EStr "b"]); (SBV KPlain 8 44, [EStr "v"])]; ob := [] |}.
Proof. vm_compute. reflexivity. Qed.

(** Constants written by hand: a Bit is also read from the numbers 0 and 1, and no other
    ones; a BitVector also from a bool, and its value is truncated to the width. *)
Theorem C44_hand : forall d p q, to_path p = Ok q ->
  (forall z, dget String.eqb d "type" = Some (ostr "Bit") -> dget String.eqb d "value" = Some (OAtom (EInt z)) ->
     read_in (OList [ODict d; p]) = match z with 0 => Ok (GBit false, q) | 1 => Ok (GBit true, q) | _ => Err ValueError end) /\
  (forall b, dget String.eqb d "type" = Some (ostr "Bit") -> dget String.eqb d "value" = Some (OBool b) ->
     read_in (OList [ODict d; p]) = Ok (GBit b, q)) /\
  (forall w z, dget String.eqb d "type" = Some (ostr "BitVector") -> dget String.eqb d "width" = Some (OAtom (EInt w)) ->
     dget String.eqb d "value" = Some (OAtom (EInt z)) -> read_in (OList [ODict d; p]) = Ok (GBV KPlain w (z mod 2 ^ w), q)) /\
  (forall w (b : bool), dget String.eqb d "type" = Some (ostr "BitVector") -> dget String.eqb d "width" = Some (OAtom (EInt w)) ->
     dget String.eqb d "value" = Some (OBool b) -> read_in (OList [ODict d; p]) = Ok (GBV KPlain w ((if b then 1 else 0) mod 2 ^ w), q)).
Proof.
  intros d p q Hp.
  assert (G : forall k v, dget String.eqb d k = Some v -> get (ODict d) k = Ok v) by (intros k v E; cbn [get]; unfold dgetE; now rewrite E).
  assert (R : read_in (OList [ODict d; p]) = do g <- read_value (ODict d); Ok (g, q)).
  { unfold read_in. cbn [index nth_error bind is_dict]. destruct (read_value (ODict d)); cbn [bind]; [now rewrite Hp|reflexivity]. }
  split; [|split; [|split]]; rewrite R; unfold read_value.
  - intros z Et Ev. rewrite (G _ _ Et), (G _ _ Ev). cbn [bind ostr eq_str String.eqb Ascii.eqb Bool.eqb]. destruct z as [|[| |]|]; reflexivity.
  - intros b Et Ev. now rewrite (G _ _ Et), (G _ _ Ev).
  - intros w z Et Ew Ev. now rewrite (G _ _ Et), (G _ _ Ew), (G _ _ Ev).
  - intros w b Et Ew Ev. now rewrite (G _ _ Et), (G _ _ Ew), (G _ _ Ev).
Qed.

Print Assumptions C44_roundtrip.
Print Assumptions C44_json_partial.
Print Assumptions C44_json_iff.
Print Assumptions C44_hand.
Print Assumptions C44_full_refuted.
Print Assumptions C59_full_refuted.
Print Assumptions C59_constants_partial.
Print Assumptions C59_values.
