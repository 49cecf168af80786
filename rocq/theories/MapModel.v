(** Construction of the synthesis formula and extraction of the rewrite rule.
    Python source: peak/mapper/mapper.py:464-826 ([IRMapper]) and 834-856
    ([rr_from_solver]).

    A formula is given by its meaning, a Boolean function of a valuation;
    [And], [Or], [Implies] have their logical meaning by C30, and their assertion
    that the list is not empty is kept. Peak objects enter through the functions
    they compute on the variables (see [arch] and [instr]); black boxes are the
    subject of C34 and left out here. *)
From Coq Require Import ZArith List Bool.
From Verif Require Import Base BindModel MapIdxModel.
Import ListNotations.
Open Scope list_scope.
Open Scope Z_scope.

Section Map.
  (** [P]: paths; [T]: leaf types with their modifiers; [isconst t] is
      [issubclass(t, Const)]. *)
  Context {P T : Type} (peqb : P -> P -> bool) (teqb : T -> T -> bool) (isconst : T -> bool).

  (** The variables: arch leaves and sum tags, IR leaves, the three index
      variables, and the two replacements made for overlapping variables. *)
  Inductive var := VLeaf (p : P) | VTag (p : P) | VIr (p : P) | VFi | VBi | VBo | VAll (p : P) | VEx (p : P).
  Definition var_eqb (a b : var) : bool :=
    match a, b with
    | VLeaf p, VLeaf q | VTag p, VTag q | VIr p, VIr q | VAll p, VAll q | VEx p, VEx q => peqb p q
    | VFi, VFi | VBi, VBi | VBo, VBo => true
    | _, _ => false
    end.
  Definition val := var -> Z.
  Definition fm := val -> bool.

  (** An architecture after [ArchMapper.__init__]. A form is the list of its
      leaf paths (keys of [varmap]) and its sum decisions ([path_dict]) with
      the tag each requires. [a_fsem fi tags leaves q] is output [q] of the object called
      on form [fi]'s value (149-153); [a_sem tags leaves q] is the output for [input_value]
      (137, 715), both as functions of the variables. [a_fvalid], [a_valid]: the conjunction
      of [const_valid_conditions] (147, 571); [a_has_const]: whether there is a Const
      field. [a_constr]: [path_constraints], values already converted. *)
  Record arch := mkArch {
    a_forms : list (list P * list (P * Z));
    a_in : list (P * T);
    a_out : list (P * T);
    a_constr : list (P * list Z);
    a_has_const : bool;
    a_fsem : nat -> (P -> Z) -> (P -> Z) -> P -> Z;
    a_sem : (P -> Z) -> (P -> Z) -> P -> Z;
    a_fvalid : nat -> (P -> Z) -> (P -> Z) -> bool;
    a_valid : (P -> Z) -> (P -> Z) -> bool }.

  (** An IR instruction: one input form, one output form. *)
  Record instr := mkInstr {
    i_in : list (P * T);
    i_out : list (P * T);
    i_sem : (P -> Z) -> P -> Z }.

  Definition pmem (p : P) (l : list P) : bool := existsb (peqb p) l.

  Variables (k : ivar) (a : arch) (i : instr).

  Definition is_const (p : P) : bool :=
    match dget peqb (a_in a) p with Some t => isconst t | None => false end.
  Definition is_constrained (p : P) : bool :=
    match dget peqb (a_constr a) p with Some _ => true | None => false end.

  Definition binding := list (option P * P).

  (** Lines 486-490. *)
  Definition constraint_filter (b : binding) : bool :=
    forallb (fun e => match fst e with None => true | Some _ => negb (is_constrained (snd e)) end) b.

  (** Lines 495-504. *)
  Definition input_bindings : list (list binding) :=
    map (fun f => filter constraint_filter
           (create_bindings peqb teqb (filter (fun e => pmem (fst e) (fst f)) (a_in a)) (i_in i)))
        (a_forms a).

  (** Line 516. *)
  Definition output_bindings : list binding := create_bindings peqb teqb (a_out a) (i_out i).

  (** Lines 506, 542. *)
  Definition max_input_bindings : nat := fold_right Nat.max O (map (@length _) input_bindings).

  Definition enumerate {X} (l : list X) : list (nat * X) := combine (seq 0 (length l)) l.

  (** [IVar(n).match_index(j)] on variable [v]. *)
  Definition matches (n : nat) (v : var) (j : nat) : fm :=
    fun r => match match_index k (Z.of_nat n) (Z.of_nat j) (r v) with Ok b => b | Err _ => false end.
  Definition nforms := length (a_forms a).
  Definition form_match (fi : nat) : fm := matches nforms VFi fi.
  Definition ib_match (bi : nat) : fm := matches max_input_bindings VBi bi.
  Definition ob_match (bo : nat) : fm := matches (length output_bindings) VBo bo.

  Definition tags_of (r : val) : P -> Z := fun p => r (VTag p).
  Definition leaves_of (r : val) : P -> Z := fun p => r (VLeaf p).
  Definition ir_of (r : val) : P -> Z := fun p => r (VIr p).

  (** The match expressions of a form's decisions: the tag equals the tag of
      the chosen member (utils.py:98-99). *)
  Definition tag_conds (f : list P * list (P * Z)) : fm :=
    fun r => forallb (fun d => r (VTag (fst d)) =? snd d) (snd f).

  (** ** The expanded formula (728-801) *)

  (** Lines 737-753: the substitution of arch variables by IR variables. *)
  Fixpoint sub_leaves (b : binding) (r : val) (p : P) : Z :=
    match b with
    | [] => r (VLeaf p)
    | (Some ip, ap) :: b' => if peqb p ap then r (VIr ip) else sub_leaves b' r p
    | (None, _) :: b' => sub_leaves b' r p
    end.

  (** Lines 757-764 with the form conditions of 530-539. *)
  Definition conj_expanded (fi : nat) (f : list P * list (P * Z)) (bi : nat) (ib : binding) (bo : nat) (ob : binding) : fm :=
    fun r =>
      form_match fi r && a_fvalid a fi (tags_of r) (leaves_of r) && tag_conds f r
      && ib_match bi r && ob_match bo r
      && forallb (fun e => match fst e with
                           | None => true
                           | Some q => i_sem i (ir_of r) q =? a_fsem a fi (tags_of r) (sub_leaves ib r) (snd e)
                           end) ob.

  Definition disjuncts_expanded : list fm :=
    flat_map (fun ff : nat * ((list P * list (P * Z)) * list binding) =>
      flat_map (fun bb : nat * binding =>
        map (fun oo : nat * binding =>
          conj_expanded (fst ff) (fst (snd ff)) (fst bb) (snd bb) (fst oo) (snd oo))
          (enumerate output_bindings))
        (enumerate (snd (snd ff))))
      (enumerate (combine (a_forms a) input_bindings)).

  (** Lines 730-753: universally quantified variables. *)
  Definition forall_expanded : list var :=
    flat_map (fun ibs => flat_map (fun ib => flat_map (fun e =>
      match fst e with
      | None => if is_constrained (snd e) then [] else if is_const (snd e) then [] else [VLeaf (snd e)]
      | Some ip => if is_constrained (snd e) then [] else [VIr ip]
      end) ib) ibs) input_bindings.

  Definition upd (r : val) (v : var) (z : Z) : val := fun u => if var_eqb u v then z else r u.

  (** Lines 781-786: non-constant constraints. *)
  Fixpoint constrain_all (cs : list (P * list Z)) (f : fm) : fm :=
    match cs with
    | [] => f
    | (p, zs) :: cs' =>
        constrain_all cs' (if is_const p then f else fun r => forallb (fun z => f (upd r (VLeaf p) z)) zs)
    end.

  (** Lines 791-797: constant constraints. *)
  Fixpoint constrain_ex (cs : list (P * list Z)) (f : fm) : fm :=
    match cs with
    | [] => f
    | (p, zs) :: cs' =>
        constrain_ex cs' (if is_const p then fun r => f r && existsb (fun z => r (VLeaf p) =? z) zs else f)
    end.

  Definition empty_constraint : bool :=
    existsb (fun pc => match snd pc with [] => true | _ => false end) (a_constr a).

  (** What [__init__] leaves for [solve]: no bindings, or the universal
      variables and the formula. *)
  Inductive built := BNone | BForm (y : list var) (phi : fm).

  (** Lines 505-522: early outs. *)
  Definition has_bindings : bool :=
    negb (Nat.eqb max_input_bindings 0) && match output_bindings with [] => false | _ => true end.

  (** [reduce] of an empty sequence is a TypeError (786, 796); line 533 asserts
      that there is a Const field, in both modes. *)
  Definition build_expanded : res built :=
    if negb has_bindings then Ok BNone
    else if negb (a_has_const a) then Err AssertionError
    else if empty_constraint then Err TypeError
    else Ok (BForm forall_expanded
               (constrain_ex (a_constr a) (constrain_all (a_constr a)
                  (fun r => existsb (fun f => f r) disjuncts_expanded)))).

  (** ** The simple formula (557-726) *)

  (** All (form, binding) pairs with the entries of the binding. *)
  Definition fbs : list ((nat * nat) * binding) :=
    flat_map (fun ff : nat * list binding => map (fun bb : nat * binding => ((fst ff, fst bb), snd bb)) (enumerate (snd ff)))
             (enumerate input_bindings).

  (** Lines 614-624: paths with a universal role and with an existential role.
      A constrained path is unbound (611-613). *)
  Definition forall_arch : list P :=
    flat_map (fun fb : (nat * nat) * binding => flat_map (fun e =>
      match fst e with
      | None => if is_const (snd e) then [] else [snd e]
      | Some _ => [snd e]
      end) (snd fb)) fbs.
  Definition exists_role (p : P) (b : binding) : bool :=
    existsb (fun e => match fst e with None => is_const (snd e) && peqb p (snd e) | Some _ => false end) b.
  Definition exists_fbs (p : P) : list (nat * nat) :=
    map fst (filter (fun fb : (nat * nat) * binding => exists_role p (snd fb)) fbs).
  Definition forall_ir : list P :=
    flat_map (fun fb : (nat * nat) * binding => flat_map (fun e =>
      match fst e with None => [] | Some ip => [ip] end) (snd fb)) fbs.

  (** Line 632. *)
  Definition overlap (p : P) : bool := pmem p forall_arch && negb (Nat.eqb (length (exists_fbs p)) 0).

  (** Lines 629, 645-646. *)
  Definition forall_simple : list var :=
    map (fun p => if overlap p then VAll p else VLeaf p) forall_arch ++ map VIr forall_ir.

  (** Lines 634-644, 720-721: the substitution of overlapping variables. *)
  Definition e_conds (p : P) : fm :=
    fun r => existsb (fun fb => form_match (fst fb) r && ib_match (snd fb) r) (exists_fbs p).
  Definition overlap_sub (r : val) : val :=
    fun v => match v with
             | VLeaf p => if overlap p then (if e_conds p r then r (VEx p) else r (VAll p)) else r v
             | _ => r v
             end.

  (** Lines 602-626. *)
  Definition fb_cond (fb : (nat * nat) * binding) : fm :=
    fun r => form_match (fst (fst fb)) r && ib_match (snd (fst fb)) r
             && forallb (fun e => match fst e with None => true | Some ip => r (VLeaf (snd e)) =? r (VIr ip) end) (snd fb).

  (** Lines 664-677. *)
  Definition F_simple : fm :=
    fun r => forallb (fun oo : nat * binding =>
      negb (ob_match (fst oo) r)
      || forallb (fun e => match fst e with
                           | None => true
                           | Some q => i_sem i (ir_of r) q =? a_sem a (tags_of r) (leaves_of r) (snd e)
                           end) (snd oo)) (enumerate output_bindings).

  Definition constr_conds (const : bool) : fm :=
    fun r => forallb (fun pc : P * list Z => if Bool.eqb (is_const (fst pc)) const
                                 then existsb (fun z => r (VLeaf (fst pc)) =? z) (snd pc) else true) (a_constr a).

  (** Lines 571-587, 676, 695-699. *)
  Definition preconditions : fm :=
    fun r => a_valid a (tags_of r) (leaves_of r)
             && existsb (fun ff : nat * (list P * list (P * Z)) => form_match (fst ff) r && tag_conds (snd ff) r) (enumerate (a_forms a))
             && existsb (fun oo : nat * binding => ob_match (fst oo) r) (enumerate output_bindings)
             && constr_conds true r
             && existsb (fun fb : (nat * nat) * binding => form_match (fst (fst fb)) r && ib_match (snd (fst fb)) r) fbs.
  Definition formula_simple : fm :=
    fun r => preconditions r
             && (negb (constr_conds false r && existsb (fun fb => fb_cond fb r) fbs) || F_simple r).

  (** Line 533 is executed first; line 674 asserts that an output is bound. *)
  Definition build_simple : res built :=
    if negb has_bindings then Ok BNone
    else if negb (a_has_const a) then Err AssertionError
    else if existsb (fun ob => forallb (fun e : option P * P => match fst e with None => true | _ => false end) ob) output_bindings
    then Err AssertionError
    else if empty_constraint then Err AssertionError
    else Ok (BForm forall_simple (fun r => formula_simple (overlap_sub r))).

  (** ** Extraction (834-856) *)

  (** The rewrite rule. The paths of the binding determine the form; it is
      kept for reference. *)
  Inductive src := SPath (p : P) | SVal (z : Z) | SUnbound.
  Record rule := mkRule { r_form : nat; r_in : list (src * P); r_out : binding }.

  Definition nthE {X} (l : list X) (n : Z) : res X :=
    match nth_error l (Z.to_nat n) with Some x => Ok x | None => Err IndexError end.

  (** [r] is the solver's model; [const_paths] (170) are the constant leaves. *)
  Definition rr_from_solver (r : val) : res rule :=
    do fi <- decode k (Z.of_nat nforms) (r VFi);
    do bi <- decode k (Z.of_nat max_input_bindings) (r VBi);
    do bo <- decode k (Z.of_nat (length output_bindings)) (r VBo);
    do ibs <- nthE input_bindings fi;
    do ib <- nthE ibs bi;
    do ob <- nthE output_bindings bo;
    Ok {| r_form := Z.to_nat fi;
          r_in := map (fun e => (match fst e with
                                 | Some p => SPath p
                                 | None => if is_const (snd e) || is_constrained (snd e)
                                           then SVal (r (VLeaf (snd e))) else SUnbound
                                 end, snd e)) ib;
          r_out := ob |}.
End Map.
Arguments var P : clear implicits.
Arguments val P : clear implicits.
Arguments arch P T : clear implicits.
Arguments instr P T : clear implicits.
Arguments built P : clear implicits.
Arguments src P : clear implicits.
Arguments rule P : clear implicits.
