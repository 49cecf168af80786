(** C99: the function returned by [assemble_values_in_func] computes on codes what the given one computes on members. *)
From Coq Require Import String ZArith List Bool Lia.
From Verif Require Import Base AsmFuncModel.
Import ListNotations.
Open Scope string_scope.
Open Scope list_scope.
Open Scope Z_scope.

Section ExprInd.
  Variable Q : expr -> Prop.
  Hypothesis HN : forall x, Q (EName x).
  Hypothesis HZ : forall z, Q (ENum z).
  Hypothesis HA : forall e a, Q e -> Q (EAttr e a).
  Hypothesis HB : forall n es, Forall Q es -> Q (ENode n es).
  Fixpoint expr_ind' (e : expr) : Q e :=
    match e with
    | EName x => HN x
    | ENum z => HZ z
    | EAttr e a => HA e a (expr_ind' e)
    | ENode n es => HB n es ((fix go es : Forall Q es := match es with [] => Forall_nil _ | e :: l => Forall_cons _ (expr_ind' e) (go l) end) es)
    end.
End ExprInd.

Definition rmap {A B} (f : A -> B) (r : res A) : res B := match r with Ok a => Ok (f a) | Err e => Err e end.

Section Func.
Variable member : nat -> string -> bool.
Variable oattr : nat -> string -> res value.
Variable app : nat -> list value -> res value.
Variable hashable : nat -> bool.
Variable asmb : nat -> option (string -> res Z).
Variable encO : nat -> nat.
Notation getattr := (getattr member oattr).
Notation eval := (eval member oattr app).
Notation visit := (visit member oattr app hashable asmb).

(** What a value is in the new function: members of assembled classes are their codes, other objects (instructions) have
    their members replaced. *)
Definition enc (v : value) : value :=
  match v with
  | VMem c a => match asmb c with Some f => match f a with Ok z => VInt z | Err _ => v end | None => v end
  | VObj n => VObj (encO n)
  | _ => v
  end.

(** The fields of an object with codes are the codes of the fields, and no field is an Enum class. *)
Definition faithful : Prop :=
  (forall n a, oattr (encO n) a = rmap enc (oattr n a)) /\
  (forall n a c, oattr n a <> Ok (VCls c)).
Hypothesis FA : faithful.

(** A field of a parameter: [inst.a.b]. *)
Fixpoint root (e : expr) : option string := match e with EName x => Some x | EAttr e _ => root e | _ => None end.
Fixpoint names (e : expr) (x : string) : Prop :=
  match e with
  | EName y => y = x
  | ENum _ => False
  | EAttr e _ => names e x
  | ENode _ es => (fix go es := match es with [] => False | e :: l => names e x \/ go l end) es
  end.

(** The operations, on the values the original function gives them, do on codes what they do on members (for [==] this says
    that different members have different codes). *)
Fixpoint agree (s : scope) (e : expr) : Prop :=
  match e with
  | EName _ | ENum _ => True
  | EAttr v _ => agree s v
  | ENode n es =>
      (forall vs, Forall2 (fun e v => eval (orig_env s) e = Ok v) es vs -> app n (map enc vs) = rmap enc (app n vs)) /\
      (fix go es := match es with [] => True | e :: l => agree s e /\ go l end) es
  end.

(** When the rewriting is right: a name is a parameter or a name of the module that means the same inside the
    function, and no member. An attribute is a member of an assembled class, found through names that are not parameters and
    that the enclosing function and the module do not both define differently; or a field of a parameter that is
    no name outside; or an attribute of something of the module that is no member. *)
Fixpoint fine (s : scope) (e : expr) : Prop :=
  match e with
  | EName x => s_par s x <> None \/ (s_glo s x = orig_env s x /\ forall v, orig_env s x = Some v -> enc v = v)
  | ENum _ => True
  | EAttr v a =>
      ((forall x, names v x -> s_par s x = None /\ dec_env s x = orig_env s x) /\
       exists c f z, eval (orig_env s) v = Ok (VCls c) /\ asmb c = Some f /\ member c a = true /\ f a = Ok z)
      \/ (exists x, root v = Some x /\ s_par s x <> None /\ s_loc s x = None /\ s_glo s x = None)
      \/ ((forall x, names v x -> s_par s x = None /\ s_glo s x = orig_env s x) /\
          (exists u, eval (orig_env s) v = Ok u /\
             match u with VCls c => asmb c = None | VObj n => hashable n = true | _ => True end) /\
          forall w, eval (orig_env s) (EAttr v a) = Ok w -> enc w = w)
  | ENode _ es => (fix go es := match es with [] => True | e :: l => fine s e /\ go l end) es
  end.
(** Parameters are not Enum classes. *)
Definition par_ok (s : scope) : Prop := forall x c, s_par s x <> Some (VCls c).

Lemma eval_ext r r' e : (forall x, names e x -> r x = r' x) -> eval r e = eval r' e.
Proof.
  induction e as [x|z|e a IH|n es IH] using expr_ind'; cbn [AsmFuncModel.eval]; intros H; auto.
  - rewrite (H x) by reflexivity. reflexivity.
  - rewrite IH by exact H. reflexivity.
  - assert ((fix go (es : list expr) : res (list value) :=
        match es with [] => Ok [] | e :: l => do v <- eval r e; do vs <- go l; Ok (v :: vs) end) es =
      (fix go (es : list expr) : res (list value) :=
        match es with [] => Ok [] | e :: l => do v <- eval r' e; do vs <- go l; Ok (v :: vs) end) es) as ->; auto.
    induction IH as [|e l He _ IHl]; auto. rewrite He by (intros x Hx; apply H; left; exact Hx).
    rewrite IHl by (intros x Hx; apply H; right; exact Hx). reflexivity.
Qed.

Lemma getattr_enc v a : (forall c, v <> VCls c) -> getattr (enc v) a = rmap enc (getattr v a).
Proof.
  intros N. destruct FA as (FO & _). destruct v as [c|c m|z|n]; cbn [enc AsmFuncModel.getattr]; auto.
  - exfalso. eapply N; eauto.
  - destruct (asmb c) as [f|]; auto. destruct (f m); auto.
Qed.
Lemma getattr_not_cls v a c : getattr v a <> Ok (VCls c).
Proof.
  destruct FA as (_ & FC). destruct v as [d|d m|z|n]; cbn [AsmFuncModel.getattr]; try discriminate; auto.
  destruct (member d a); discriminate.
Qed.

(** Fields of parameters: not rewritten, and right on codes. *)
Lemma root_names e x y : root e = Some x -> names e y -> x = y.
Proof. induction e using expr_ind'; cbn [root names]; try discriminate; intros; auto; congruence. Qed.
Lemma chain_run s v x : par_ok s -> root v = Some x -> s_par s x <> None ->
  eval (new_env s (fun y => option_map enc (s_par s y))) v = rmap enc (eval (orig_env s) v) /\
  forall c, eval (orig_env s) v <> Ok (VCls c).
Proof.
  intros PO. induction v as [y|z|e a IH|n es IH] using expr_ind'; cbn [root]; try discriminate; intros R NP.
  - inversion R; subst y. cbn [AsmFuncModel.eval]. unfold new_env, orig_env, over.
    destruct (s_par s x) as [v|] eqn:P; [|congruence]. cbn [option_map rmap]. split; auto.
    intros c [= ->]. eapply PO; eauto.
  - destruct (IH R NP) as (E & NC). cbn [AsmFuncModel.eval]. rewrite E. destruct (eval (orig_env s) e) as [u|er]; cbn [bind rmap].
    + split; [|intros c; apply getattr_not_cls]. apply getattr_enc. intros c ->. eapply NC; eauto.
    + split; [reflexivity|discriminate].
Qed.
Lemma chain_dec s v x : root v = Some x -> s_loc s x = None -> s_glo s x = None -> eval (dec_env s) v = Err NameError.
Proof.
  induction v as [y|z|e a IH|n es IH] using expr_ind'; cbn [root AsmFuncModel.eval]; try discriminate; intros R L G.
  - inversion R; subst y. unfold dec_env, over. rewrite G, L. reflexivity.
  - rewrite IH; auto.
Qed.

(** The new function, called with codes for members, returns the code of what the original returns. *)
Theorem C99_run_partial s e :
  par_ok s -> agree s e -> fine s e ->
  exists e', visit s e = Ok e' /\
    eval (new_env s (fun x => option_map enc (s_par s x))) e' = rmap enc (eval (orig_env s) e).
Proof.
  intros PO. induction e as [x|z|v a IH|n es IH] using expr_ind'; intros AG F.
  - exists (EName x). split; [reflexivity|]. cbn [AsmFuncModel.eval fine] in *. unfold new_env, over.
    destruct (s_par s x) as [v|] eqn:P; cbn [option_map].
    + unfold orig_env, over. rewrite P. reflexivity.
    + destruct F as [F|[F1 F2]]; [congruence|]. rewrite F1. destruct (orig_env s x) as [v|]; auto. cbn [rmap]. rewrite (F2 v); auto.
  - exists (ENum z). split; reflexivity.
  - cbn [fine] in F. destruct F as [(FN & c & f & z & Ev & Fa & Mb & Fz) | [(x & R & P & L & G) | (FN & (u & Ev & Un) & Fw)]].
    + exists (ENum z). cbn [AsmFuncModel.visit AsmFuncModel.eval].
      rewrite (eval_ext (dec_env s) (orig_env s) v) by (intros x Hx; apply FN; auto). rewrite Ev, Fa. cbn [AsmFuncModel.getattr bind]. rewrite Mb.
      cbn [bind]. rewrite Fz. split; auto. cbn [rmap enc]. rewrite Fa, Fz. reflexivity.
    + exists (EAttr v a). cbn [AsmFuncModel.visit]. rewrite (chain_dec s v x R L G). split; auto.
      apply (chain_run s (EAttr v a) x PO); auto.
    + assert (forall x, names v x -> dec_env s x = orig_env s x) as ND.
      { intros x Hx. destruct (FN x Hx) as [P G]. unfold dec_env, over. rewrite G. unfold orig_env, over in *. rewrite P in *.
        destruct (s_loc s x); auto. destruct (s_glo s x); auto. }
      assert (forall x, names v x -> new_env s (fun x => option_map enc (s_par s x)) x = orig_env s x) as NN.
      { intros x Hx. destruct (FN x Hx) as [P G]. unfold new_env, over. rewrite P. cbn [option_map]. exact G. }
      exists (EAttr v a). cbn [AsmFuncModel.visit AsmFuncModel.eval] in *.
      rewrite (eval_ext (dec_env s) (orig_env s) v ND), (eval_ext _ (orig_env s) v NN), Ev in *. cbn [bind] in *.
      split.
      * destruct u as [c|c m|z|n]; auto; rewrite Un; auto.
      * destruct (getattr u a) as [w|er]; auto. cbn [rmap]. rewrite (Fw w); auto.
  - cbn [fine agree] in F, AG. destruct AG as [AP AG].
    assert (exists es', (fix go (es : list expr) : res (list expr) :=
               match es with [] => Ok [] | e :: l => do v <- visit s e; do vs <- go l; Ok (v :: vs) end) es = Ok es' /\
      (fix go (es : list expr) : res (list value) :=
        match es with [] => Ok [] | e :: l => do v <- eval (new_env s (fun x => option_map enc (s_par s x))) e; do vs <- go l; Ok (v :: vs) end) es' =
      rmap (map enc) ((fix go (es : list expr) : res (list value) :=
        match es with [] => Ok [] | e :: l => do v <- eval (orig_env s) e; do vs <- go l; Ok (v :: vs) end) es)) as (es' & V & E).
    { clear AP. revert AG F. induction IH as [|e l He _ IHl]; intros AG F.
      - exists []. split; reflexivity.
      - destruct F as [F1 F2], AG as [A1 A2]. destruct (He A1 F1) as (e' & V1 & E1). destruct (IHl A2 F2) as (l' & V2 & E2).
        exists (e' :: l'). rewrite V1, V2. cbn [bind]. split; auto. rewrite E1, E2.
        destruct (eval (orig_env s) e) as [u|er]; cbn [bind rmap]; auto.
        destruct ((fix go (es : list expr) : res (list value) :=
          match es with [] => Ok [] | e :: l => do v <- eval (orig_env s) e; do vs <- go l; Ok (v :: vs) end) l); cbn [bind rmap]; auto. }
    exists (ENode n es'). cbn [AsmFuncModel.visit AsmFuncModel.eval]. rewrite V, E. cbn [bind]. split; auto.
    destruct ((fix go (es : list expr) : res (list value) :=
          match es with [] => Ok [] | e :: l => do v <- eval (orig_env s) e; do vs <- go l; Ok (v :: vs) end) es) as [vs|] eqn:G; cbn [bind rmap]; auto.
    apply AP. clear -G. revert vs G. induction es as [|e l IH]; intros vs G.
    + inversion G. constructor.
    + destruct (eval (orig_env s) e) as [v|] eqn:Ev; cbn [bind] in G; [|discriminate].
      match type of G with context [bind ?g _] => destruct g as [l1|] eqn:G1 end; cbn [bind] in G; [|discriminate].
      inversion G; subst. constructor; auto.
Qed.

(** Nothing but numbers is put in: the new source is the old one with some attributes replaced by numbers. *)
Inductive subst_num : expr -> expr -> Prop :=
| sn_refl e : subst_num e e
| sn_num v a z : subst_num (EAttr v a) (ENum z)
| sn_node n es es' : Forall2 subst_num es es' -> subst_num (ENode n es) (ENode n es').
Theorem C99_shape s e e' : visit s e = Ok e' -> subst_num e e'.
Proof.
  revert e'. induction e as [x|z|v a IH|n es IH] using expr_ind'; intros e'; cbn [AsmFuncModel.visit].
  - intros [= <-]. constructor.
  - intros [= <-]. constructor.
  - destruct (eval (dec_env s) v) as [[c|c m|z|n]|er].
    + destruct (asmb c) as [f|]; [|intros [= <-]; constructor]. destruct (getattr (VCls c) a); cbn [bind]; [|discriminate].
      destruct (f a) as [z|[]]; intros [= <-]; constructor.
    + intros [= <-]. constructor.
    + intros [= <-]. constructor.
    + destruct (hashable n); intros [= <-]. constructor.
    + destruct er; intros [= <-]. constructor.
  - match goal with |- context [bind ?g _] => destruct g as [es'|] eqn:G end; cbn [bind]; [|discriminate].
    intros [= <-]. apply sn_node. revert es' G. induction IH as [|e l He _ IHl]; intros es' G.
    + inversion G. constructor.
    + destruct (visit s e) as [e1|] eqn:V; cbn [bind] in G; [|discriminate].
      match type of G with context [bind ?g _] => destruct g as [l1|] eqn:G1 end; cbn [bind] in G; [|discriminate].
      inversion G; subst. constructor; auto.
Qed.
End Func.

(** An instruction with an opcode field (object 0, object 10 with codes) and [==] (node 0). *)
Definition m2 (c : nat) (a : string) : bool := (a =? "Add")%string || (a =? "Mul")%string.
Definition x_asmb (c : nat) : option (string -> res Z) :=
  match c with 1%nat => Some (fun a => if (a =? "Add")%string then Ok 0 else if (a =? "Mul")%string then Ok 1 else Err KeyError) | _ => None end.
Definition x_oattr (n : nat) (a : string) : res value :=
  if (a =? "op")%string then match n with 0%nat => Ok (VMem 1 "Mul") | 10%nat => Ok (VInt 1) | _ => Err AttributeError end else Err AttributeError.
Definition x_encO (n : nat) : nat := match n with O => 10%nat | _ => n end.
Definition val_eqb (u v : value) : bool :=
  match u, v with
  | VInt a, VInt b => a =? b
  | VCls a, VCls b => Nat.eqb a b
  | VMem c a, VMem d b => Nat.eqb c d && (a =? b)%string
  | VObj a, VObj b => Nat.eqb a b
  | _, _ => false
  end.
Definition x_app (n : nat) (vs : list value) : res value :=
  match vs with [u; v] => Ok (VInt (Z.b2z (val_eqb u v))) | _ => Err TypeError end.
Lemma x_faithful : faithful x_oattr x_asmb x_encO.
Proof.
  split.
  - intros n a. unfold x_oattr. destruct (a =? "op")%string; auto. do 11 (destruct n as [|n]; [reflexivity|]). reflexivity.
  - intros n a c. unfold x_oattr. destruct (a =? "op")%string; try discriminate. do 11 (destruct n as [|n]; try discriminate).
Qed.
Definition at1 (k : string) (v : value) (x : string) : option value := if (k =? x)%string then Some v else None.
Definition none (_ : string) : option value := None.
(** [inst.op == Op.Mul] with [Op] in the enclosing function. *)
Definition x_scope : scope := mkS (at1 "inst" (VObj 0)) (at1 "Op" (VCls 1)) none.
Definition x_src : expr := ENode 0 [EAttr (EName "inst") "op"; EAttr (EName "Op") "Mul"].
Example C99_case :
  par_ok x_scope /\ agree m2 x_oattr x_app x_asmb x_encO x_scope x_src /\ fine m2 x_oattr x_app (fun _ => true) x_asmb x_encO x_scope x_src /\
  visit m2 x_oattr x_app (fun _ => true) x_asmb x_scope x_src = Ok (ENode 0 [EAttr (EName "inst") "op"; ENum 1]) /\
  eval m2 x_oattr x_app (orig_env x_scope) x_src = Ok (VInt 1).
Proof.
  split. { intros x c. cbn [x_scope s_par]. unfold at1. destruct ("inst" =? x)%string; discriminate. }
  split. { cbn [agree x_src]. split; [|auto]. intros vs H. inversion H as [|e1 v1 l1 vs1 H1 H2]; subst.
    inversion H2 as [|e2 v2 l2 vs2 H3 H4]; subst. inversion H4; subst. vm_compute in H1, H3. inversion H1; inversion H3. reflexivity. }
  split. { cbn [fine x_src]. split; [|split; auto].
    - right. left. exists "inst". repeat split; try discriminate.
    - left. split.
      + intros x <-. split; reflexivity.
      + exists 1%nat, (fun a => if (a =? "Add")%string then Ok 0 else if (a =? "Mul")%string then Ok 1 else Err KeyError), 1. repeat split. }
  split; vm_compute; reflexivity.
Qed.

(** The full statement. Missing for C99: functions outside [fine]. *)
Definition C99_full : Prop :=
  forall member oattr app hashable asmb encO s e e',
    faithful oattr asmb encO -> par_ok s -> agree member oattr app asmb encO s e ->
    visit member oattr app hashable asmb s e = Ok e' ->
    eval member oattr app (new_env s (fun x => option_map (enc asmb encO) (s_par s x))) e' =
    rmap (enc asmb encO) (eval member oattr app (orig_env s) e).

Notation vis := (visit m2 x_oattr x_app (fun _ => true) x_asmb).
Notation newf s := (eval m2 x_oattr x_app (new_env s (fun x => option_map (enc x_asmb x_encO) (s_par s x)))).
Notation oldf s := (eval m2 x_oattr x_app (orig_env s)).

(** A name of the enclosing function is not seen by the new function. *)
Theorem C99_local_refuted : exists s e e', par_ok s /\ agree m2 x_oattr x_app x_asmb x_encO s e /\
  vis s e = Ok e' /\ oldf s e = Ok (VInt 1) /\ newf s e' = Err NameError.
Proof.
  exists (mkS none (at1 "k" (VInt 3)) none), (ENode 0 [EName "k"; ENum 3]), (ENode 0 [EName "k"; ENum 3]).
  split; [intros x c; discriminate|]. split; [|repeat split; vm_compute; reflexivity].
  cbn [agree]. split; [|auto]. intros vs H. inversion H as [|e1 v1 l1 vs1 H1 H2]; subst.
  inversion H2 as [|e2 v2 l2 vs2 H3 H4]; subst. inversion H4; subst. vm_compute in H1, H3. inversion H1; inversion H3. reflexivity.
Qed.
(** Where the enclosing function and the module both define the name of a class, that of the module is taken. *)
Definition y_asmb (c : nat) : option (string -> res Z) :=
  match c with 1%nat => x_asmb 1 | 2%nat => Some (fun a => if (a =? "Add")%string then Ok 1 else if (a =? "Mul")%string then Ok 0 else Err KeyError) | _ => None end.
Theorem C99_shadow_refuted : exists s, par_ok s /\
  visit m2 x_oattr x_app (fun _ => true) y_asmb s (EAttr (EName "Op") "Mul") = Ok (ENum 0) /\
  eval m2 x_oattr x_app (orig_env s) (EAttr (EName "Op") "Mul") = Ok (VMem 1 "Mul") /\
  enc y_asmb x_encO (VMem 1 "Mul") = VInt 1.
Proof.
  exists (mkS none (at1 "Op" (VCls 1)) (at1 "Op" (VCls 2))). split; [intros x c; discriminate|]. repeat split; vm_compute; reflexivity.
Qed.
(** A parameter with the name of a class of the module is taken for it: its field [Add] becomes the code of the member. *)
Theorem C99_parameter_refuted : exists s, par_ok s /\
  vis s (EAttr (EName "Op") "Add") = Ok (ENum 0) /\ oldf s (EAttr (EName "Op") "Add") = Err AttributeError.
Proof.
  exists (mkS (at1 "Op" (VObj 0)) none (at1 "Op" (VCls 1))). split; [|split; vm_compute; reflexivity].
  intros x c. cbn [s_par]. unfold at1. destruct ("Op" =? x)%string; discriminate.
Qed.
(** A member inside an expression whose attribute is taken is left alone: [(f(inst, Op.Add)).op]. *)
Theorem C99_nested_refuted : exists s e, par_ok s /\ vis s e = Ok e /\
  e = EAttr (ENode 1 [EName "inst"; EAttr (EName "Op") "Add"]) "op".
Proof.
  exists (mkS (at1 "inst" (VObj 0)) (at1 "Op" (VCls 1)) none), (EAttr (ENode 1 [EName "inst"; EAttr (EName "Op") "Add"]) "op").
  split; [|split; vm_compute; reflexivity].
  intros x c. cbn [s_par]. unfold at1. destruct ("inst" =? x)%string; discriminate.
Qed.
Theorem C99_full_refuted : ~ C99_full.
Proof.
  intros F. destruct C99_local_refuted as (s & e & e' & P & A & V & O & N).
  specialize (F m2 x_oattr x_app (fun _ => true) x_asmb x_encO s e e' x_faithful P A V). rewrite N, O in F. discriminate.
Qed.

Print Assumptions C99_run_partial.
Print Assumptions C99_shape.
Print Assumptions C99_local_refuted.
Print Assumptions C99_shadow_refuted.
Print Assumptions C99_parameter_refuted.
Print Assumptions C99_nested_refuted.
Print Assumptions C99_full_refuted.
