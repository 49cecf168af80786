(** Property theorems C80: a Peak class computes the same in SMTFamily as in PyXFamily
    and PyFamily, under every valuation of the variables. *)
From Coq Require Import String ZArith List Bool Lia.
From Verif Require Import Base BaseLemmas AsmModel AsmSpec AsmValid AsmEnum AsmBuild AsmProofs AsmSub AsmMore AsmCheck AsmProps
  AadtModel AadtProofs FamProgModel FamProgProofs FamProgProps FamSmtModel.
Import ListNotations.
Open Scope string_scope.
Open Scope list_scope.
Open Scope Z_scope.

(** Results without exceptions changed by a function. *)
Definition rmap {A B} (f : A -> B) (r : res A) : res B := match r with Ok a => Ok (f a) | Err e => Err e end.

(** The word a symbolic value stands for; the same for environments. *)
Definition at_rho (rho : string -> Z) (x : sval) : xval := match x with SW t m => XW t (meval rho m) end.
Definition env_at (rho : string -> Z) (e : env sval) : env xval := map (fun p => (fst p, at_rho rho (snd p))) e.

(** A component on terms is exact for a component on words: evaluating its answers and
    its new state is calling the other one on the evaluated arguments and state. *)
Definition exact {Ss Sx} (rho : string -> Z) (st : Ss -> Sx)
    (scall : string -> Ss -> list sval -> res (list sval * Ss)) (xcall : string -> Sx -> list xval -> res (list xval * Sx)) : Prop :=
  forall m s xs, xcall m (st s) (map (at_rho rho) xs) = rmap (fun r => (map (at_rho rho) (fst r), st (snd r))) (scall m s xs).

(** ** Lemmas *)
Lemma rmap_ok {A B} (f : A -> B) r a : r = Ok a -> rmap f r = Ok (f a). Proof. intros ->. auto. Qed.

Lemma map_rep {A B} (f : A -> B) x n : map f (repeat x n) = repeat (f x) n.
Proof. induction n; cbn; congruence. Qed.

Section Rho.
  Variable rho : string -> Z.
  Notation E := (meval rho).
  Notation V := (at_rho rho).
  Notation M := (env_at rho).

  Lemma get_at e x : get (M e) x = option_map V (get e x).
  Proof. unfold get. induction e as [|[y v] e IH]; auto. cbn [env_at map fst snd dget]. destruct (String.eqb x y); auto. Qed.
  Lemma getE_at e x : getE (M e) x = rmap V (getE e x).
  Proof. unfold getE. rewrite get_at. destruct (get e x); auto. Qed.
  Lemma set_at e x v : set (M e) x (V v) = M (set e x v).
  Proof.
    unfold set. induction e as [|[y w] e IH]; auto. cbn [env_at map fst snd dset]. destruct (String.eqb x y); auto.
    unfold env_at in IH. cbn [env_at map fst snd]. f_equal. exact IH.
  Qed.
  Lemma bind_at xs : forall e vs, bind_all (M e) xs (map V vs) = rmap M (bind_all e xs vs).
  Proof. induction xs as [|x xs IH]; intros e [|v vs]; auto. cbn [bind_all map]. rewrite set_at. apply IH. Qed.
  Lemma bit_at x : x_bit (V x) = rmap E (s_bit x).
  Proof. destruct x as [[] m]; auto. Qed.
  Lemma of_at t x : x_of t (V x) = rmap E (s_of t x).
  Proof. destruct x as [t' m]. cbn. destruct (ty_eqb t t'); auto. Qed.
  Lemma ite_at c a b : x_ite (negb (E c =? 0)) (V a) (V b) = rmap V (s_ite c a b).
  Proof. destruct a as [t m], b as [t' m']. cbn. destruct (ty_eqb t t'); auto. Qed.
  Lemma ites_at c a : forall b, x_ites (negb (E c =? 0)) (map V a) (map V b) = rmap (map V) (s_ites c a b).
  Proof.
    induction a as [|x a IH]; intros [|y b]; auto. cbn [x_ites s_ites map]. rewrite ite_at, IH.
    destruct (s_ite c x y); auto. cbn [rmap bind]. destruct (s_ites c a b); auto.
  Qed.
  Lemma names_at e1 e2 : names (M e1) (M e2) = names e1 e2.
  Proof. unfold names, env_at. rewrite !map_map. auto. Qed.
  Lemma phi_at c e1 e2 : phi (negb (E c =? 0)) (M e1) (M e2) = rmap M (s_phi c e1 e2).
  Proof.
    unfold phi, s_phi. rewrite names_at. generalize (names e1 e2) as l. induction l as [|x l IH]; auto. cbn [mapM].
    rewrite IH, !get_at. destruct (get e1 x) as [a|], (get e2 x) as [b|]; cbn [option_map].
    - rewrite ite_at. destruct (s_ite c a b); auto. cbn [rmap bind]. match goal with |- context [rmap M (mapM ?f l)] => destruct (mapM f l) end; auto.
    - cbn [bind]. match goal with |- context [rmap M (mapM ?f l)] => destruct (mapM f l) end; auto.
    - cbn [bind]. match goal with |- context [rmap M (mapM ?f l)] => destruct (mapM f l) end; auto.
    - auto.
  Qed.

  (** *** AssembledADT *)
  Definition B (x : sbv) : bv := (fst x, E (snd x)).
  Lemma concat_at x y : bv_concat (B x) (B y) = B (s_concat x y).
  Proof. reflexivity. Qed.
  Lemma slot_at sl lo hi v : slot_set (map (option_map B) sl) lo hi (B v) = map (option_map B) (s_slot_set sl lo hi v).
  Proof. unfold slot_set, s_slot_set. rewrite map_app. cbn [map option_map]. rewrite map_app, firstn_map, skipn_map, map_rep. auto. Qed.
  Lemma somes_at sl : somes (map (option_map B) sl) = map B (somes sl).
  Proof. induction sl as [|[x|] l IH]; cbn; auto. f_equal. auto. Qed.
  Lemma fold_at l : forall x, fold_left bv_concat (map B l) (B x) = B (fold_left s_concat l x).
  Proof. induction l as [|y l IH]; intros x; auto. cbn [map fold_left]. rewrite concat_at. apply IH. Qed.
  Definition KB (l : list (key * sbv)) : list (key * bv) := map (fun p => (fst p, B (snd p))) l.
  Lemma dget_at l k : dget key_eqb (KB l) k = option_map B (dget key_eqb l k).
  Proof. induction l as [|[y v] l IH]; auto. cbn [KB map fst snd dget]. destruct (key_eqb k y); auto. Qed.
  Lemma fill_at lay bvs : forall sl, fill lay (KB bvs) (map (option_map B) sl) = rmap (map (option_map B)) (s_fill lay bvs sl).
  Proof.
    induction lay as [|[k [lo hi]] lay IH]; intros sl; auto. cbn [fill s_fill]. unfold dgetE. rewrite dget_at.
    destruct (dget key_eqb bvs k) as [v|]; auto. cbn [option_map bind]. rewrite slot_at. apply IH.
  Qed.
  Lemma create_at w lay bvs d : create_from_layout w lay (KB bvs) d = rmap E (s_create w lay bvs d).
  Proof.
    unfold create_from_layout, s_create. replace (map fst (KB bvs)) with (map fst bvs) by (unfold KB; rewrite map_map; auto).
    destruct (negb (same_keys _ _)); auto. destruct (negb (ranges_ok _ _)); auto.
    replace (repeat (Some (1, wrap 1 d)) (Z.to_nat w)) with (map (option_map B) (repeat (Some (1, MConst (wrap 1 d))) (Z.to_nat w)))
      by (rewrite map_rep; auto).
    rewrite fill_at. destruct (s_fill lay bvs _) as [sl|]; auto. cbn [rmap bind]. rewrite somes_at.
    destruct (somes sl) as [|x l]; auto. cbn [map reduce_concat s_reduce bind]. rewrite fold_at. cbn [B fst snd].
    destruct (fst (fold_left s_concat l x) =? w); auto.
  Qed.
  Definition word (x : sbv) : farg := FWord (fst x) (E (snd x)).
  Lemma field_at' t a x : field_new t a (word x) = rmap B (s_field a x).
  Proof. unfold word, field_new, s_field. destruct (fst x =? a_width a); auto. Qed.
  Lemma fields_at fs : forall as_ args, new_fields fs as_ (map word args) = rmap KB (s_fields fs as_ args).
  Proof.
    induction fs as [|[k t] fs IH]; intros [|[[? ?] a] as_] [|x args]; auto. cbn [map new_fields s_fields].
    rewrite field_at'. destruct (s_field a x); auto. cbn [rmap bind]. rewrite IH. destruct (s_fields fs as_ args); auto.
  Qed.
  Lemma prod_at fs a args d : prod_from_fields fs a (map word args) d = rmap E (s_prod fs a args d).
  Proof.
    destruct a; auto. cbn [prod_from_fields s_prod]. rewrite fields_at. destruct (s_fields fs fs0 args); auto. cbn [rmap bind]. apply create_at.
  Qed.
  Lemma sum_at fs a k x d : sum_from_fields fs a k (word x) None d = rmap E (s_sum fs a k x d).
  Proof.
    destruct a as [| | |w tagw as_ g tv]; auto. cbn [sum_from_fields s_sum]. destruct (dget key_eqb fs k) as [t|]; auto.
    destruct (sum_find as_ k) as [[[? lay] f]|]; auto. rewrite field_at'. destruct (s_field f x) as [v|]; auto. cbn [rmap bind].
    destruct (assemble_tag _ k) as [g'|]; auto. cbn [bind].
    exact (create_at w [(k_value, lay); (k_tag, (0, tagw))] [(k_value, v); (k_tag, (tagw, MConst g'))] d).
  Qed.
  Lemma aadt_get_at a m k : aadt_get a (E m) k =
    rmap (fun r => (E (fst r), option_map (fun b => negb (E b =? 0)) (snd r))) (s_get a m k).
  Proof.
    unfold aadt_get, s_get. destruct (sub_step a k) as [[[lo hi] f]|]; auto. destruct a; auto.
    destruct (assemble_tag _ k) as [g|]; auto. cbn [bind rmap fst snd option_map meval].
    destruct (slice (E m) 0 tagw =? g); auto.
  Qed.

  (** A match is a Bit of value 0 or 1. *)
  Lemma s_get_bit a m k f b : s_get a m k = Ok (f, Some b) -> E b = b2z (negb (E b =? 0)).
  Proof.
    unfold s_get. destruct (sub_step a k) as [[[lo hi] g]|]; [|discriminate]. destruct a; try discriminate.
    destruct (assemble_tag _ k) as [t|]; [|discriminate]. cbn [bind]. intros [= <- <-]. cbn [meval].
    destruct (slice (E m) 0 tagw =? t); auto.
  Qed.

  Section Eval.
    Variable asmof : ty -> asm.
    Lemma arg_at x : x_arg asmof (V x) = word (s_arg asmof x). Proof. destruct x; auto. Qed.
    Lemma args_at xs : map (x_arg asmof) (map V xs) = map word (map (s_arg asmof) xs).
    Proof. rewrite !map_map. apply map_ext. apply arg_at. Qed.
    Lemma prims_at ts : forall xs, x_prims ts (map V xs) = rmap (map E) (s_prims ts xs).
    Proof.
      induction ts as [|t ts IH]; intros [|x xs]; auto. cbn [map x_prims s_prims]. rewrite of_at. destruct (s_of t x); auto.
      cbn [rmap bind]. rewrite IH. destruct (s_prims ts xs); auto.
    Qed.
    Lemma eqc_at t m v : x_eqc asmof t (E m) v = rmap (fun b => negb (E b =? 0)) (s_eqc asmof t m v).
    Proof.
      unfold x_eqc, s_eqc, aadt_eq. destruct (is_leaf t).
      - destruct (leaf_bits t v) as [y|]; auto. cbn [bind rmap meval]. destruct (E m =? y); auto.
      - destruct (assemble (asmof t) v) as [y|]; auto. cbn [bind rmap meval]. destruct (E m =? y); auto.
    Qed.
    Lemma s_eqc_bit t m v b : s_eqc asmof t m v = Ok b -> E b = b2z (negb (E b =? 0)).
    Proof.
      unfold s_eqc. destruct (is_leaf t); [destruct (leaf_bits t v) as [y|]|destruct (assemble (asmof t) v) as [y|]]; try discriminate;
        cbn [bind]; intros [= <-]; cbn [meval]; destruct (E m =? y); auto.
    Qed.

    Scheme expr_m := Induction for expr Sort Prop with exprs_m := Induction for exprs Sort Prop.
    Lemma eval_at ev at_ : forall e, xeval asmof (M ev) (M at_) e = rmap V (seval asmof ev at_ e).
    Proof.
      apply (expr_m (fun e => xeval asmof (M ev) (M at_) e = rmap V (seval asmof ev at_ e))
                    (fun es => xevals asmof (M ev) (M at_) es = rmap (map V) (sevals asmof ev at_ es))).
      - intros x. cbn [xeval seval]. apply getE_at.
      - intros r. cbn [xeval seval]. apply getE_at.
      - intros t v. cbn [xeval seval]. destruct (x_lit asmof t v); auto.
      - intros t e IH k. cbn [xeval seval]. rewrite IH. destruct (seval asmof ev at_ e) as [x|]; auto. cbn [rmap bind]. rewrite of_at.
        destruct (s_of t x) as [m|]; auto. cbn [rmap bind]. destruct t; auto. destruct (dget key_eqb fs k); auto. rewrite aadt_get_at.
        destruct (s_get _ m k) as [[f b]|]; auto.
      - intros t e IH k. cbn [xeval seval]. rewrite IH. destruct (seval asmof ev at_ e) as [x|]; auto. cbn [rmap bind]. rewrite of_at.
        destruct (s_of t x) as [m|]; auto. cbn [rmap bind]. rewrite aadt_get_at.
        destruct (s_get _ m k) as [[f [b|]]|] eqn:Eg; auto. cbn [rmap bind fst snd option_map at_rho]. do 2 f_equal. symmetry. eapply s_get_bit; eauto.
      - intros t e IH k. cbn [xeval seval]. rewrite IH. destruct (seval asmof ev at_ e) as [x|]; auto. cbn [rmap bind]. rewrite of_at.
        destruct (s_of t x) as [m|]; auto. cbn [rmap bind]. destruct t; auto. destruct (dget key_eqb fs k); auto. rewrite aadt_get_at.
        destruct (s_get _ m k) as [[f b]|]; auto.
      - intros t es IH. cbn [xeval seval]. fold (xevals asmof) (sevals asmof). rewrite IH. destruct (sevals asmof ev at_ es) as [xs|]; auto. cbn [rmap bind].
        destruct t; auto. rewrite args_at, prod_at. destruct (s_prod fs _ _ 0); auto.
      - intros t k e IH. cbn [xeval seval]. rewrite IH. destruct (seval asmof ev at_ e) as [x|]; auto. cbn [rmap bind].
        destruct t; auto. rewrite arg_at, sum_at. destruct (s_sum fs _ k _ 0); auto.
      - intros e1 IH1 e2 IH2. cbn [xeval seval]. rewrite IH1, IH2. destruct (seval asmof ev at_ e1) as [[t m]|]; auto. cbn [rmap bind].
        destruct (seval asmof ev at_ e2) as [[t' m']|]; auto. cbn [rmap bind at_rho]. destruct (ty_eqb t t'); auto.
      - intros e IH v. cbn [xeval seval]. rewrite IH. destruct (seval asmof ev at_ e) as [[t m]|]; auto. cbn [rmap bind at_rho].
        rewrite eqc_at. destruct (s_eqc asmof t m v) as [b|] eqn:Eb; auto. cbn [rmap bind at_rho]. do 2 f_equal. symmetry. eapply s_eqc_bit; eauto.
      - intros o es IH. cbn [xeval seval]. fold (xevals asmof) (sevals asmof). rewrite IH. destruct (sevals asmof ev at_ es) as [xs|]; auto. cbn [rmap bind].
        rewrite prims_at. destruct (s_prims _ xs); auto.
      - intros e IH. cbn [xeval seval]. rewrite IH. destruct (seval asmof ev at_ e) as [x|]; auto. cbn [rmap bind]. rewrite bit_at.
        destruct (s_bit x); auto.
      - intros c IHc e1 IH1 e2 IH2. cbn [xeval seval]. rewrite IHc, IH1, IH2. destruct (seval asmof ev at_ c) as [x|]; auto. cbn [rmap bind].
        unfold x_cond. rewrite bit_at. destruct (s_bit x) as [b|]; auto. cbn [rmap bind]. destruct (seval asmof ev at_ e1) as [y|]; auto.
        cbn [rmap bind]. destruct (seval asmof ev at_ e2) as [z|]; auto. cbn [rmap bind]. apply ite_at.
      - intros c IHc e1 IH1 e2 IH2. cbn [xeval seval]. rewrite IHc, IH1, IH2. destruct (seval asmof ev at_ c) as [x|]; auto. cbn [rmap bind].
        unfold x_cond. rewrite bit_at. destruct (s_bit x) as [b|]; auto. cbn [rmap bind]. destruct (seval asmof ev at_ e1) as [y|]; auto.
        cbn [rmap bind]. destruct (seval asmof ev at_ e2) as [z|]; auto. cbn [rmap bind]. apply ite_at.
      - intros e1 IH1 e2 IH2. cbn [xeval seval]. rewrite IH1, IH2. destruct (seval asmof ev at_ e1) as [x|]; auto. cbn [rmap bind]. rewrite bit_at.
        destruct (s_bit x) as [a|]; auto. cbn [rmap bind]. destruct (seval asmof ev at_ e2) as [y|]; auto. cbn [rmap bind]. rewrite bit_at.
        destruct (s_bit y); auto.
      - intros e1 IH1 e2 IH2. cbn [xeval seval]. rewrite IH1, IH2. destruct (seval asmof ev at_ e1) as [x|]; auto. cbn [rmap bind]. rewrite bit_at.
        destruct (s_bit x) as [a|]; auto. cbn [rmap bind]. destruct (seval asmof ev at_ e2) as [y|]; auto. cbn [rmap bind]. rewrite bit_at.
        destruct (s_bit y); auto.
      - intros e IH. cbn [xeval seval]. rewrite IH. destruct (seval asmof ev at_ e) as [x|]; auto. cbn [rmap bind]. rewrite bit_at.
        destruct (s_bit x); auto.
      - reflexivity.
      - intros e IH es IHs. cbn [xevals sevals]. fold (xeval asmof) (seval asmof). rewrite IH, IHs. destruct (seval asmof ev at_ e); auto.
        cbn [rmap bind]. destruct (sevals asmof ev at_ es); auto.
    Qed.
    Lemma evals_at ev at_ es : xevals asmof (M ev) (M at_) es = rmap (map V) (sevals asmof ev at_ es).
    Proof.
      induction es as [|e es IH]; auto. cbn [xevals sevals]. fold (xeval asmof) (seval asmof). rewrite eval_at, IH.
      destruct (seval asmof ev at_ e); auto. cbn [rmap bind]. destruct (sevals asmof ev at_ es); auto.
    Qed.

    Context {Ss Sx : Type} (st : Ss -> Sx).
    Variable scall : string -> Ss -> list sval -> res (list sval * Ss).
    Variable xcall : string -> Sx -> list xval -> res (list xval * Sx).
    Hypothesis Hc : exact rho st scall xcall.

    Definition T (s : sst) : xst := let '(ev, at_, cs) := s in (M ev, M at_, st cs).
    Definition RT (r : sret) : xret := let '(g, vs, at_) := r in (negb (E g =? 0), map V vs, M at_).
    Lemma exec_at s : forall path ev at_ cs,
      xexec asmof xcall (negb (E path =? 0)) s (M ev, M at_, st cs) = rmap (fun r => (T (fst r), map RT (snd r))) (sexec asmof scall path s (ev, at_, cs)).
    Proof.
      induction s as [|x e|r e|xs m es|c s1 IH1 s2 IH2|s1 IH1 s2 IH2|es]; intros path ev at_ cs; cbn [xexec sexec].
      - reflexivity.
      - rewrite eval_at. destruct (seval asmof ev at_ e) as [v|]; auto. cbn [rmap bind]. rewrite set_at. auto.
      - rewrite eval_at. destruct (seval asmof ev at_ e) as [v|]; auto. cbn [rmap bind]. rewrite set_at. auto.
      - rewrite evals_at. destruct (sevals asmof ev at_ es) as [vs|]; auto. cbn [rmap bind]. rewrite Hc.
        destruct (scall m cs vs) as [[rs cs']|]; auto. cbn [rmap bind fst snd]. rewrite bind_at. destruct (bind_all ev xs rs); auto.
      - rewrite eval_at. destruct (seval asmof ev at_ c) as [x|]; auto. cbn [rmap bind]. unfold x_cond. rewrite bit_at.
        destruct (s_bit x) as [b|]; auto. cbn [rmap bind].
        replace (negb (E path =? 0) && negb (E b =? 0)) with (negb (E (MIte b path (MConst 0)) =? 0))
          by (cbn [meval]; destruct (E b =? 0); cbn; destruct (E path =? 0); auto).
        replace (negb (E path =? 0) && negb (negb (E b =? 0))) with (negb (E (MIte b (MConst 0) path) =? 0))
          by (cbn [meval]; destruct (E b =? 0); cbn; destruct (E path =? 0); auto).
        rewrite IH1. destruct (sexec asmof scall _ s1 (ev, at_, cs)) as [[[[ev1 at1] cs1] r1]|]; auto. cbn [rmap bind fst snd T].
        rewrite IH2. destruct (sexec asmof scall _ s2 (ev, at_, cs1)) as [[[[ev2 at2] cs2] r2]|]; auto. cbn [rmap bind fst snd T].
        destruct (returns s1); [cbn [rmap fst snd T]; rewrite map_app; auto|].
        destruct (returns s2); [cbn [rmap fst snd T]; rewrite map_app; auto|].
        rewrite phi_at. destruct (s_phi b ev1 ev2) as [ev'|]; auto. cbn [rmap bind]. rewrite phi_at. destruct (s_phi b at1 at2) as [at'|]; auto.
        cbn [rmap bind fst snd T]. rewrite map_app. auto.
      - rewrite IH1. destruct (sexec asmof scall path s1 (ev, at_, cs)) as [[[[ev1 at1] cs1] r1]|]; auto. cbn [rmap bind fst snd T].
        destruct (returns s1); auto. rewrite IH2. destruct (sexec asmof scall path s2 (ev1, at1, cs1)) as [[[[ev2 at2] cs2] r2]|]; auto.
        cbn [rmap bind fst snd T]. rewrite map_app. auto.
      - rewrite evals_at. destruct (sevals asmof ev at_ es) as [vs|]; auto.
    Qed.
    Lemma pick_at rs : pick (map RT rs) = rmap (fun r => (map V (fst r), M (snd r))) (s_pick rs).
    Proof.
      induction rs as [|[[g vs] at_] rs IH]; auto. destruct rs as [|r rs]; auto.
      cbn [map] in *. change (pick (RT (g, vs, at_) :: RT r :: map RT rs)) with
        (do '(vs', at') <- pick (RT r :: map RT rs); do ws <- x_ites (negb (E g =? 0)) (map V vs) vs'; do aw <- phi (negb (E g =? 0)) (M at_) at'; Ok (ws, aw)).
      change (s_pick ((g, vs, at_) :: r :: rs)) with
        (do '(vs', at') <- s_pick (r :: rs); do ws <- s_ites g vs vs'; do aw <- s_phi g at_ at'; Ok (ws, aw)).
      rewrite IH. destruct (s_pick (r :: rs)) as [[vs' at']|]; auto. cbn [rmap bind fst snd]. rewrite ites_at.
      destruct (s_ites g vs vs'); auto. cbn [rmap bind]. rewrite phi_at. destruct (s_phi g at_ at'); auto.
    Qed.
  End Eval.
End Rho.

(** ** C80 *)
Definition obj_at {Ss Sx} (rho : string -> Z) (st : Ss -> Sx) (o : env sval * Ss) : env xval * Sx := (env_at rho (fst o), st (snd o)).

Section C80.
  Variable asmof : ty -> asm.

  (** For every program, argument terms, object and valuation: evaluating what SMTFamily
      computes is computing in PyXFamily on the evaluated arguments. Exceptions too:
      a call raises in SMTFamily exactly if it raises in PyXFamily, for any valuation. *)
  Theorem C80_exact {Ss Sx} rho (st : Ss -> Sx) scall xcall c obj args :
    exact rho st scall xcall ->
    px_call asmof xcall c (obj_at rho st obj) (map (at_rho rho) args) =
    rmap (fun r => (map (at_rho rho) (fst r), obj_at rho st (snd r))) (smt_call asmof scall c obj args).
  Proof.
    intros Hc. unfold px_call, smt_call.
    change (@nil (string * xval)) with (env_at rho []). rewrite bind_at. destruct (bind_all [] _ args) as [ev|]; auto. cbn [rmap bind].
    change true with (negb (meval rho (MConst 1) =? 0)). unfold obj_at at 1 2. cbn [fst snd]. rewrite (exec_at rho asmof st scall xcall Hc).
    destruct (sexec asmof scall (MConst 1) (c_body c) (ev, fst obj, snd obj)) as [[[[ev' at'] cs'] rs]|]; auto. cbn [rmap bind fst snd T].
    rewrite pick_at. destruct (s_pick rs) as [[vs at_]|]; auto.
  Qed.

  (** Histories: a run on terms, evaluated, is the run on words. *)
  Fixpoint smt_run {Ss} (scall : string -> Ss -> list sval -> res (list sval * Ss)) (c : pclass) (obj : env sval * Ss) (inputs : list (list sval))
    : res (list (list sval)) :=
    match inputs with
    | [] => Ok []
    | args :: r => do '(o, obj') <- smt_call asmof scall c obj args; do os <- smt_run scall c obj' r; Ok (o :: os)
    end.
  Theorem C80_history {Ss Sx} rho (st : Ss -> Sx) scall xcall c inputs : exact rho st scall xcall -> forall obj,
    px_run asmof xcall c (obj_at rho st obj) (map (map (at_rho rho)) inputs) = rmap (map (map (at_rho rho))) (smt_run scall c obj inputs).
  Proof.
    intros Hc. induction inputs as [|args r IH]; intros obj; auto. cbn [px_run smt_run map].
    rewrite (C80_exact rho st scall xcall c obj args Hc). destruct (smt_call asmof scall c obj args) as [[o obj']|]; auto. cbn [rmap bind fst snd].
    rewrite IH. destruct (smt_run scall c obj' r); auto.
  Qed.

  (** A class is itself an exact component. *)
  Theorem C80_component {Ss Sx} rho (st : Ss -> Sx) scall xcall c :
    exact rho st scall xcall ->
    exact rho (obj_at rho st) (fun (m : string) obj args => smt_call asmof scall c obj args) (class_xcall asmof xcall c).
  Proof. intros Hc m s xs. unfold class_xcall. rewrite (C80_exact rho st scall xcall c s xs Hc). reflexivity. Qed.

  (** One set of terms serves every call: where PyFamily returns, the terms evaluate to the
      encodings of the outputs, under each valuation that gives the arguments their
      encodings.
      Missing for C80: as for C78, components under a condition and types that do not fit. *)
  Hypothesis Hasm : assemblers asmof.
  Theorem C80_same_partial {Sp Ss Sx} match_bool eq_bool csig pcall xcall Inv Rc rho (st : Ss -> Sx) scall c obj args outs obj' sobj sargs :
    component csig (Sp := Sp) pcall xcall Inv Rc -> exact rho st scall xcall -> class_ok true csig c = true ->
    attrs_same (c_attrs c) (fst obj) (env_at rho (fst sobj)) -> Inv (st (snd sobj)) -> Rc (snd obj) (st (snd sobj)) ->
    hold_all (map snd (c_params c)) args (map (at_rho rho) sargs) ->
    py_call match_bool eq_bool pcall c obj args = Ok (outs, obj') ->
    exists vs ts sobj', smt_call asmof scall c sobj sargs = Ok (ts, sobj') /\ outs = map PV vs /\
      hold_all (c_rets c) vs (map (at_rho rho) ts) /\
      attrs_same (c_attrs c) (fst obj') (env_at rho (fst sobj')) /\ Rc (snd obj') (st (snd sobj')) /\ Inv (st (snd sobj')).
  Proof.
    intros Hcomp Hex Ok_ Ha Hi HR Fa Ec.
    destruct (C78_same_partial asmof Hasm match_bool eq_bool csig pcall xcall Inv Rc Hcomp c obj args outs obj' (obj_at rho st sobj) (map (at_rho rho) sargs)
      Ok_ Ha Hi HR Fa Ec) as (vs & ws & xobj' & Ex & Eo & Hw & Ha' & HR' & Hi').
    rewrite (C80_exact rho st scall xcall c sobj sargs Hex) in Ex.
    destruct (smt_call asmof scall c sobj sargs) as [[ts sobj']|]; [|discriminate]. cbn [rmap fst snd] in Ex. injection Ex as <- <-.
    exists vs, ts, sobj'. auto 10.
  Qed.

  (** With fitting types no call raises, and the terms have the output types. *)
  Theorem C80_total {Sp Ss Sx} strict csig (pcall : string -> Sp -> list val -> res (list val * Sp)) xcall Inv Rc rho (st : Ss -> Sx) scall c sobj sargs :
    component csig pcall xcall Inv Rc -> exact rho st scall xcall -> class_ok strict csig c = true ->
    attrs_typed (c_attrs c) (env_at rho (fst sobj)) -> Inv (st (snd sobj)) ->
    Forall2 word_of (map snd (c_params c)) (map (at_rho rho) sargs) ->
    exists ts sobj', smt_call asmof scall c sobj sargs = Ok (ts, sobj') /\ Forall2 word_of (c_rets c) (map (at_rho rho) ts) /\
      attrs_typed (c_attrs c) (env_at rho (fst sobj')) /\ Inv (st (snd sobj')).
  Proof.
    intros Hcomp Hex Ok_ Ha Hi F.
    destruct (C78_total asmof Hasm csig pcall xcall Inv Rc Hcomp strict c (obj_at rho st sobj) _ Ok_ Ha Hi F) as (ws & o' & Ex & Fw & Ha' & Hi').
    rewrite (C80_exact rho st scall xcall c sobj sargs Hex) in Ex.
    destruct (smt_call asmof scall c sobj sargs) as [[ts sobj']|]; [|discriminate]. cbn [rmap fst snd] in Ex. injection Ex as <- <-.
    exists ts, sobj'. auto.
  Qed.
End C80.

(** ** One evaluation on variables *)
Definition vars (c : pclass) : list sval := map (fun p => SW (snd p) (MVar (fst p))) (c_params c).
Definition consts (e : env xval) : env sval := map (fun p => (fst p, match snd p with XW t z => SW t (MConst z) end)) e.
Lemma consts_at rho e : env_at rho (consts e) = e.
Proof. unfold env_at, consts. rewrite map_map. rewrite <- (map_id e) at 2. apply map_ext. intros [n [t z]]. auto. Qed.

Lemma valuation ps : NoDup (map fst ps) -> forall xs,
  Forall2 (fun (p : string * ty) x => exists z, x = XW (snd p) z) ps xs ->
  exists rho, map (at_rho rho) (map (fun p => SW (snd p) (MVar (fst p))) ps) = xs.
Proof.
  induction ps as [|[n t] ps IH]; intros Hn xs F; inversion F as [|? x ? xs' (z & Ex) F']; subst.
  - exists (fun _ => 0). auto.
  - inversion Hn as [|? ? Hni Hn']; subst. destruct (IH Hn' _ F') as [rho Er].
    exists (fun m => if String.eqb m n then z else rho m). cbn [map at_rho meval fst snd]. rewrite String.eqb_refl. f_equal.
    rewrite <- Er, !map_map. apply map_ext_in. intros [m t'] Hm. cbn [at_rho meval fst snd].
    destruct (String.eqb_spec m n) as [->|]; auto. destruct Hni. apply (in_map fst _ _ Hm).
Qed.

(** The terms of one call on variables give every call on words: each list of words
    of the input types is the value of the variables under some valuation, and the
    terms under it are the outputs and the new object. *)
Theorem C80_variables asmof {Ss Sx} (st : (string -> Z) -> Ss -> Sx) scall xcall c at_ cs cx xs :
  (forall rho, exact rho (st rho) scall xcall) -> (forall rho, st rho cs = cx) ->
  NoDup (map fst (c_params c)) -> Forall2 (fun p x => exists z, x = XW (snd p) z) (c_params c) xs ->
  exists rho, map (at_rho rho) (vars c) = xs /\
    px_call asmof xcall c (at_, cx) xs =
    rmap (fun r => (map (at_rho rho) (fst r), obj_at rho (st rho) (snd r))) (smt_call asmof scall c (consts at_, cs) (vars c)).
Proof.
  intros Hex Hcs Hn F. destruct (valuation _ Hn _ F) as [rho Er]. exists rho. split; auto.
  rewrite <- (C80_exact asmof rho (st rho) scall xcall c (consts at_, cs) (vars c) (Hex rho)). unfold obj_at. cbn [fst snd].
  rewrite consts_at, Hcs. unfold vars. rewrite Er. auto.
Qed.

(** ** Black boxes *)
Definition ins_at (rho : string -> Z) (ins : env (list sval)) : env (list xval) := map (fun p => (fst p, map (at_rho rho) (snd p))) ins.
Lemma ins_set rho ins m xs : set (ins_at rho ins) m (map (at_rho rho) xs) = ins_at rho (set ins m xs).
Proof.
  unfold set. induction ins as [|[y w] e IH]; auto. cbn [ins_at map fst snd dset]. destruct (String.eqb m y); auto.
  cbn [ins_at map fst snd]. f_equal. exact IH.
Qed.
Lemma ins_get rho ins m : get (ins_at rho ins) m = option_map (map (at_rho rho)) (get ins m).
Proof. unfold get. induction ins as [|[y v] e IH]; auto. cbn [ins_at map fst snd dget]. destruct (String.eqb m y); auto. Qed.

(** Boxes are exact. *)
Theorem C80_box_exact rho outs arity :
  exact rho (ins_at rho) (box_call outs arity) (box_call (fun m => option_map (map (at_rho rho)) (outs m)) arity).
Proof.
  intros m s xs. unfold box_call. destruct (outs m) as [ys|]; auto. cbn [option_map]. destruct xs as [|x xs]; auto.
  rewrite map_length. destruct (length (x :: xs) =? arity m)%nat; auto. cbn [rmap fst snd]. rewrite <- ins_set. auto.
Qed.

(** Components without state. *)
Definition fun_call (g : string -> list xval -> res (list xval)) (m : string) (s : unit) (xs : list xval) : res (list xval * unit) :=
  do ys <- g m xs; Ok (ys, s).
(** Number of calls of a component in the text. *)
Fixpoint calls (m : string) (s : stmt) : nat :=
  match s with
  | SCall _ m' _ => if String.eqb m m' then 1%nat else 0%nat
  | SIf _ s1 s2 | SSeq s1 s2 => (calls m s1 + calls m s2)%nat
  | _ => 0%nat
  end.

Lemma dset_other {A} (e : env A) m m' v : m <> m' -> get (set e m v) m' = get e m'.
Proof.
  intros H. unfold get, set. induction e as [|[y w] e IH]; cbn [dset dget].
  - destruct (String.eqb_spec m' m); congruence.
  - destruct (String.eqb_spec m y) as [->|]; cbn [dget].
    + destruct (String.eqb_spec m' y); congruence.
    + destruct (String.eqb m' y); auto.
Qed.
Lemma dset_same {A} (e : env A) m v : get (set e m v) m = Some v.
Proof.
  unfold get, set. induction e as [|[y w] e IH]; cbn [dset dget]; [rewrite String.eqb_refl; auto|].
  destruct (String.eqb_spec m y) as [->|N]; cbn [dget]; [rewrite String.eqb_refl; auto|].
  destruct (String.eqb_spec m y); congruence.
Qed.

Section Boxed.
  Variable asmof : ty -> asm.
  Variable outs : string -> option (list xval).
  Variable arity : string -> nat.
  Variable g : string -> list xval -> res (list xval).

  Definition answered (s : stmt) (ins : env (list xval)) : Prop :=
    forall m xs, (0 < calls m s)%nat -> get ins m = Some xs -> exists ys, outs m = Some ys /\ g m xs = Ok ys.

  Lemma box_exec s : (forall m, (calls m s <= 1)%nat) -> forall path ev at_ ins ev' at' ins' rs,
    xexec asmof (box_call outs arity) path s (ev, at_, ins) = Ok ((ev', at', ins'), rs) ->
    (forall m, calls m s = 0%nat -> get ins' m = get ins m) /\
    (answered s ins' -> xexec asmof (fun_call g) path s (ev, at_, tt) = Ok ((ev', at', tt), rs)).
  Proof.
    induction s as [|x e|r e|xs m es|c s1 IH1 s2 IH2|s1 IH1 s2 IH2|es]; intros H1 path ev at_ ins ev' at' ins' rs; cbn [xexec].
    - intros [= <- <- <- <-]. auto.
    - destruct (xeval asmof ev at_ e); [|discriminate]. cbn [bind]. intros [= <- <- <- <-]. auto.
    - destruct (xeval asmof ev at_ e); [|discriminate]. cbn [bind]. intros [= <- <- <- <-]. auto.
    - destruct (xevals asmof ev at_ es) as [vs|]; [|discriminate]. cbn [bind]. unfold box_call.
      destruct (outs m) as [ys|] eqn:Eo; [|discriminate]. destruct vs as [|v vs]; [discriminate|].
      destruct (_ =? _)%nat; [|discriminate]. cbn [bind]. destruct (bind_all ev xs ys) as [ev1|] eqn:Eb; [|discriminate].
      cbn [bind]. intros [= <- <- <- <-]. split.
      + intros m' H. cbn [calls] in H. apply dset_other. intros ->. rewrite String.eqb_refl in H. discriminate.
      + intros Ha. destruct (Ha m (v :: vs)) as (ys' & Eo' & Eg).
        * cbn [calls]. rewrite String.eqb_refl. lia.
        * apply dset_same.
        * rewrite Eo in Eo'. injection Eo' as <-. unfold fun_call. rewrite Eg. cbn [bind]. rewrite Eb. auto.
    - assert (L1 : forall m, (calls m s1 <= 1)%nat) by (intros m; specialize (H1 m); cbn [calls] in H1; lia).
      assert (L2 : forall m, (calls m s2 <= 1)%nat) by (intros m; specialize (H1 m); cbn [calls] in H1; lia).
      destruct (xeval asmof ev at_ c) as [x|]; [|discriminate]. cbn [bind]. destruct (x_cond x) as [b|]; [|discriminate]. cbn [bind].
      destruct (xexec asmof _ (path && b) s1 _) as [[[[ev1 at1] ins1] r1]|] eqn:E1; [|discriminate]. cbn [bind].
      destruct (xexec asmof _ (path && negb b) s2 _) as [[[[ev2 at2] ins2] r2]|] eqn:E2; [|discriminate]. cbn [bind].
      destruct (IH1 L1 _ _ _ _ _ _ _ _ E1) as [F1 G1]. destruct (IH2 L2 _ _ _ _ _ _ _ _ E2) as [F2 G2].
      assert (K : (forall m, calls m (SIf c s1 s2) = 0%nat -> get ins2 m = get ins m) /\
        (answered (SIf c s1 s2) ins2 -> xexec asmof (fun_call g) (path && b) s1 (ev, at_, tt) = Ok ((ev1, at1, tt), r1) /\
           xexec asmof (fun_call g) (path && negb b) s2 (ev, at_, tt) = Ok ((ev2, at2, tt), r2))).
      { split.
        - intros m H. cbn [calls] in H. rewrite F2, F1; lia || auto.
        - intros Ha. split; [apply G1|apply G2]; intros m xs Hm Hg; apply (Ha m xs); cbn [calls]; try lia; auto.
          rewrite F2; auto. specialize (H1 m). cbn [calls] in H1. lia. }
      destruct K as [K1 K2].
      destruct (returns s1) eqn:R1; [|destruct (returns s2) eqn:R2].
      + intros [= <- <- <- <-]. split; auto. intros Ha. destruct (K2 Ha) as [-> Q]. cbn [bind]. rewrite Q. auto.
      + intros [= <- <- <- <-]. split; auto. intros Ha. destruct (K2 Ha) as [-> Q]. cbn [bind]. rewrite Q. auto.
      + destruct (phi b ev1 ev2) as [ev0|] eqn:P1; [|discriminate]. cbn [bind]. destruct (phi b at1 at2) as [at0|] eqn:P2; [|discriminate]. cbn [bind].
        intros [= <- <- <- <-]. split; auto. intros Ha. destruct (K2 Ha) as [-> Q]. cbn [bind]. rewrite Q. cbn [bind]. rewrite P1. cbn [bind].
        rewrite P2. auto.
    - assert (L1 : forall m, (calls m s1 <= 1)%nat) by (intros m; specialize (H1 m); cbn [calls] in H1; lia).
      assert (L2 : forall m, (calls m s2 <= 1)%nat) by (intros m; specialize (H1 m); cbn [calls] in H1; lia).
      destruct (xexec asmof _ path s1 _) as [[[[ev1 at1] ins1] r1]|] eqn:E1; [|discriminate]. cbn [bind].
      destruct (IH1 L1 _ _ _ _ _ _ _ _ E1) as [F1 G1]. destruct (returns s1) eqn:R1.
      + intros [= <- <- <- <-]. split.
        * intros m H. apply F1. cbn [calls] in H. lia.
        * intros Ha. rewrite G1; auto. intros m xs Hm. apply Ha. cbn [calls]. lia.
      + destruct (xexec asmof _ path s2 _) as [[[[ev2 at2] ins2] r2]|] eqn:E2; [|discriminate]. cbn [bind].
        destruct (IH2 L2 _ _ _ _ _ _ _ _ E2) as [F2 G2]. intros [= <- <- <- <-]. split.
        * intros m H. cbn [calls] in H. rewrite F2, F1; lia || auto.
        * intros Ha. rewrite G1; [cbn [bind]; rewrite G2; auto|]; intros m xs Hm Hg; apply (Ha m xs); cbn [calls]; try lia; auto.
          rewrite F2; auto. specialize (H1 m). cbn [calls] in H1. lia.
    - destruct (xevals asmof ev at_ es); [|discriminate]. cbn [bind]. intros [= <- <- <- <-]. auto.
  Qed.
End Boxed.

(** If no black box is called twice: under a valuation where the outputs set for each
    box are what a function answers on the inputs recorded for it, the terms are what
    the class computes with the function in place of the box. *)
Theorem C80_black_box asmof rho outs arity g c at_ args ts at' ins :
  (forall m, (calls m (c_body c) <= 1)%nat) ->
  smt_call asmof (box_call outs arity) c (at_, []) args = Ok (ts, (at', ins)) ->
  (forall m xs, get ins m = Some xs -> exists ys, outs m = Some ys /\ g m (map (at_rho rho) xs) = Ok (map (at_rho rho) ys)) ->
  px_call asmof (fun_call g) c (env_at rho at_, tt) (map (at_rho rho) args) = Ok (map (at_rho rho) ts, (env_at rho at', tt)).
Proof.
  intros H1 Es Ha.
  pose proof (C80_exact asmof rho (ins_at rho) _ _ c (at_, []) args (C80_box_exact rho outs arity)) as Ex. rewrite Es in Ex.
  unfold obj_at in Ex. cbn [rmap fst snd ins_at map] in Ex. unfold px_call in *. cbn [fst snd] in *.
  destruct (bind_all [] _ (map (at_rho rho) args)) as [ev|]; [|discriminate]. cbn [bind] in *.
  destruct (xexec asmof (box_call _ arity) true (c_body c) _) as [[[[ev1 at1] ins1] r1]|] eqn:E1; [|discriminate]. cbn [bind] in *.
  destruct (pick r1) as [[vs aw]|] eqn:Ep; [|discriminate]. cbn [bind] in *. injection Ex as <- <- ->.
  destruct (box_exec asmof _ arity g _ H1 _ _ _ _ _ _ _ _ E1) as [_ G]. rewrite G; [cbn [bind]; rewrite Ep; auto|].
  intros m xs _ Hg. fold (ins_at rho ins) in Hg. rewrite ins_get in Hg. destruct (get ins m) as [ys|] eqn:Eg; [|discriminate]. cbn [option_map] in Hg. injection Hg as <-.
  destruct (Ha m ys Eg) as (zs & Eo & Gz). exists (map (at_rho rho) zs). rewrite Eo. auto.
Qed.

(** ** The unrestricted claim *)
Definition C80_full (match_bool eq_bool : bool) : Prop :=
  forall (asmof : ty -> asm) (Sp Ss Sx : Type) csig
    (pcall : string -> Sp -> list val -> res (list val * Sp)) (xcall : string -> Sx -> list xval -> res (list xval * Sx)) Inv Rc
    rho (st : Ss -> Sx) scall,
  assemblers asmof -> component csig pcall xcall Inv Rc -> exact rho st scall xcall ->
  forall c obj args outs obj' sobj sargs,
  class_ok false csig c = true ->
  attrs_same (c_attrs c) (fst obj) (env_at rho (fst sobj)) -> Inv (st (snd sobj)) -> Rc (snd obj) (st (snd sobj)) ->
  hold_all (map snd (c_params c)) args (map (at_rho rho) sargs) ->
  py_call match_bool eq_bool pcall c obj args = Ok (outs, obj') ->
  exists vs ts sobj', smt_call asmof scall c sobj sargs = Ok (ts, sobj') /\
    outs = map PV vs /\ hold_all (c_rets c) vs (map (at_rho rho) ts) /\
    attrs_same (c_attrs c) (fst obj') (env_at rho (fst sobj')) /\ Rc (snd obj') (st (snd sobj')).

Definition no_scall (m : string) (s : unit) (xs : list sval) : res (list sval * unit) := Err AttributeError.
Lemma no_exact rho : exact rho (fun u => u) no_scall no_xcall. Proof. intros m s xs. auto. Qed.

(** As in PyXFamily a register called under a condition is written regardless. *)
Theorem C80_full_refuted mb eb : ~ C80_full mb eb.
Proof.
  intros H. set (rho := fun _ : string => 0).
  destruct (H asm0 _ _ _ reg_sig (reg_p mb eb) reg_x _ _ rho (obj_at rho (fun u : unit => u))
    (fun (m : string) obj args => smt_call asm0 no_scall (reg_class_no_en bv8) obj args)
    asm0_ok (reg_component mb eb) (C80_component asm0 rho _ _ _ _ (no_exact rho)) guarded
    ([], ([("value", VBV 3)], tt)) [VBV 7; VBit false] [PV (VBV 7)] ([], ([("value", VBV 3)], tt))
    ([], ([("value", SW bv8 (MConst 3))], tt)) [SW bv8 (MConst 7); SW TBit (MConst 0)]) as (vs & ts & sobj' & E & _ & _ & _ & HR & _).
  - reflexivity.
  - apply attrs_same_nil.
  - split; auto. apply (attrs_typed_one _ _ _ 8); [constructor|]. change (2 ^ 8) with 256. cbn. lia.
  - split; auto. apply attrs_same_one. apply holds_bv. lia.
  - cbn [hold_all map snd guarded c_params]. split; [apply holds_bv; lia|]. split; auto. apply (holds_bit false).
  - reflexivity.
  - vm_compute in E. injection E as <- <-. specialize (HR "value"). cbn in HR. destruct HR as (z & [= <-] & C). inversion C.
Qed.

(** ** Concrete cases *)
Definition V8 n := SW bv8 (MVar n).
Definition VB n := SW TBit (MVar n).

(** Three cycles of the counter on variables, and two valuations. *)
Definition counter_terms := smt_run asm0 no_scall counter ([("reg", V8 "r0")], tt) [[VB "e0"; VB "t0"]; [VB "e1"; VB "t1"]; [VB "e2"; VB "t2"]].
Definition rho1 (n : string) : Z := if String.eqb n "r0" then 255 else if String.eqb n "e0" then 1 else if String.eqb n "e1" then 1 else 0.
Definition rho2 (n : string) : Z := if String.eqb n "r0" then 7 else if String.eqb n "t1" then 1 else if String.eqb n "e0" then 1 else 0.
Example counter_smt : rmap (map (map (at_rho rho1))) counter_terms = Ok [[XW bv8 255]; [XW bv8 0]; [XW bv8 1]] /\
  rmap (map (map (at_rho rho2))) counter_terms = Ok [[XW bv8 7]; [XW bv8 8]; [XW bv8 0]].
Proof. split; vm_compute; reflexivity. Qed.

(** The PE with its register, on variables; the first input of [pe_ins] as valuation. *)
Definition regen_s (m : string) (obj : env sval * unit) (args : list sval) := smt_call asm0 no_scall (reg_class bv8) obj args.
Lemma regen_exact rho : exact rho (obj_at rho (fun u : unit => u)) regen_s regen_x.
Proof. apply (C80_component asm0 rho _ _ _ _ (no_exact rho)). Qed.
Definition pe_sobj : env sval * (env sval * unit) := ([("acc", SW bv8 (MConst 0))], ([("value", SW bv8 (MConst 0))], tt)).
Definition rho3 (n : string) : Z :=
  match nth_error (combine (map fst (c_params pe)) (hd [] pe_xins))
          (if String.eqb n "inst" then 0 else if String.eqb n "a" then 1 else 2)%nat with Some (_, XW _ z) => z | None => 0 end.
Example pe_smt : rmap (fun r => map (at_rho rho3) (fst r)) (smt_call asm0 regen_s pe pe_sobj (vars pe))
  = Ok [w_of bv8 (VBV 0); w_of bv8 (VBV 0); w_of srcT (VSum (k "imm") (VBV 50))].
Proof. vm_compute. reflexivity. Qed.
Example pe_smt_hyps : map (at_rho rho3) (vars pe) = hd [] pe_xins /\ obj_at rho3 (obj_at rho3 (fun u : unit => u)) pe_sobj = pe_xobj /\
  NoDup (map fst (c_params pe)).
Proof.
  split; [|split]; try (vm_compute; reflexivity).
  repeat constructor; cbn; intros H; repeat (destruct H as [H|H]; [discriminate|]); auto.
Qed.

(** A class around a black box. *)
Definition boxed : pclass := PClass [("a", bv8); ("b", bv8)] [] [bv8]
  (SSeq (SCall ["m"] "fma" (e2 (EOp add8 (e2 (EVar "a") (EVar "b"))) (EVar "b"))) (SRet (ECons (EOp sub8 (e2 (EVar "m") (EVar "a"))) ENil))).
Definition set_out (m : string) : option (list sval) := if String.eqb m "fma" then Some [V8 "o"] else None.
Definition times (m : string) (xs : list xval) : res (list xval) :=
  match xs with [XW _ x; XW _ y] => Ok [XW bv8 (wrap 8 (x * y))] | _ => Err TypeError end.
Definition rho4 (n : string) : Z := if String.eqb n "a" then 3 else if String.eqb n "b" then 5 else 40.
Definition boxed_terms := smt_call asm0 (box_call set_out (fun _ => 2%nat)) boxed ([], []) (vars boxed).
Example boxed_smt : exists ts ins, boxed_terms = Ok (ts, ([], [("fma", ins)])) /\
  times "fma" (map (at_rho rho4) ins) = Ok [XW bv8 40] /\ map (at_rho rho4) ts = [XW bv8 37] /\
  px_call asm0 (fun_call times) boxed ([], tt) [XW bv8 3; XW bv8 5] = Ok ([XW bv8 37], ([], tt)) /\
  (forall m, (calls m (c_body boxed) <= 1)%nat).
Proof.
  eexists. eexists. split; [vm_compute; reflexivity|]. split; [vm_compute; reflexivity|]. split; [vm_compute; reflexivity|].
  split; [vm_compute; reflexivity|]. intros m. cbn. destruct (String.eqb m "fma"); lia.
Qed.

(** A box called twice answers with the same outputs and only its last inputs are
    recorded, so the valuation can satisfy the condition and miss the function. *)
Definition twice : pclass := PClass [("a", bv8); ("b", bv8)] [] [bv8]
  (SSeq (SCall ["m"] "fma" (e2 (EVar "a") (EVar "a"))) (SSeq (SCall ["n"] "fma" (e2 (EVar "a") (EVar "b"))) (SRet (ECons (EVar "m") ENil)))).
Theorem C80_twice_refuted : exists rho ts at' ins,
  smt_call asm0 (box_call set_out (fun _ => 2%nat)) twice ([], []) (vars twice) = Ok (ts, (at', ins)) /\
  (forall m xs, get ins m = Some xs -> exists ys, set_out m = Some ys /\ times m (map (at_rho rho) xs) = Ok (map (at_rho rho) ys)) /\
  px_call asm0 (fun_call times) twice ([], tt) (map (at_rho rho) (vars twice)) <> Ok (map (at_rho rho) ts, (env_at rho at', tt)).
Proof.
  exists (fun n => if String.eqb n "a" then 3 else if String.eqb n "b" then 5 else 15).
  eexists. eexists. eexists. split; [vm_compute; reflexivity|]. split.
  - intros m xs. unfold get. cbn [dget]. destruct (String.eqb_spec m "fma") as [->|]; [|discriminate]. intros [= <-]. eexists. split; vm_compute; reflexivity.
  - intros H. vm_compute in H. discriminate.
Qed.

Print Assumptions C80_exact.
Print Assumptions C80_history.
Print Assumptions C80_component.
Print Assumptions C80_same_partial.
Print Assumptions C80_total.
Print Assumptions C80_variables.
Print Assumptions C80_box_exact.
Print Assumptions C80_black_box.
Print Assumptions C80_full_refuted.
Print Assumptions C80_twice_refuted.
