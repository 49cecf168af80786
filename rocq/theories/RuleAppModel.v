(** Making, applying and verifying a rewrite rule for two Peak classes, by way of
    assembled words. Python source: peak/mapper/mapper.py:60-70 ([wrap_outputs]),
    208-304 ([is_valid], [RewriteRule.__init__], [get_input_paths], [build_inputs],
    [parse_ir_output], [parse_arch_output]), 306-360 ([verify]) and
    peak/mapper/utils.py:226-324, 351-372 ([SimplifyBinding], [rebind_binding],
    [aadt_product_to_dict]). Definitions only. The classes have no black boxes (see
    [VerModel] for these). *)
From Coq Require Import String ZArith List Bool.
From Verif Require Import Base BindModel MapIdxModel MapModel AsmModel AadtModel FormModel AdtArchModel.
Import ListNotations.
Open Scope list_scope.
Open Scope Z_scope.

Definition path_in (p : path) (l : list path) : bool := existsb (path_eqb p) l.
(** [set(l) == set(m)]. *)
Definition same_set (l m : list path) : bool := forallb (fun p => path_in p m) l && forallb (fun p => path_in p l) m.

(** The sort of the word of a leaf: [None] for Bit, else the width. *)
Definition sort_of (t : ty) : option Z := match t with TBit => None | _ => Some (leaf_bits t) end.
Definition sort_eqb (a b : option Z) : bool :=
  match a, b with None, None => true | Some x, Some y => x =? y | _, _ => false end.

Section Rule.
  (** [arch_fc] and [ir_fc]; the types do not depend on the family, so
      [rebind_type] on paths is the identity. *)
  Variables C D : pclass.

  (** Lines 222-235 for one entry. Constants are words of the width of the leaf (see
      [SerModel] for the conversion of others). Unbound looks the path up and then
      tests a type for being an instance of Const, which is False. *)
  Definition new_entry (e : entry) : res entry :=
    match fst e with
    | SPath _ => Ok e
    | SUnbound => do _ <- dgetE path_eqb (in_flat C) (snd e); Ok e
    | SVal z =>
        do t <- dgetE path_eqb (in_flat C) (snd e);
        match snd t with
        | TEnum _ _ =>
            match asm_at (c_ia C) (snd e) with
            | Some a => if a_isv a z then Ok e else Err ValueError
            | None => Err KeyError
            end
        | _ => Ok e
        end
    end.
  (** [RewriteRule.__init__] (214-238): the input binding of the rule. *)
  Definition new_rule (rin : list entry) : res (list entry) := mapM new_entry rin.

  (** [get_input_paths] (240-250). *)
  Definition ir_paths (rin : list entry) : list path := flat_map (fun e => match fst e with SPath p => [p] | _ => [] end) rin.
  Definition arch_paths (rin : list entry) : list path := flat_map (fun e => match fst e with SUnbound => [snd e] | _ => [] end) rin.

  (** Lines 262-272: the values for the architecture and for the instruction. *)
  Definition look (d : list (path * Z)) (p : path) : res Z := match dget path_eqb d p with Some z => Ok z | None => Err AssertionError end.
  Definition arch_entry (xs us : list (path * Z)) (e : entry) : res entry :=
    do z <- match fst e with SPath q => look xs q | SUnbound => look us (snd e) | SVal z => Ok z end;
    Ok (SVal z, snd e).
  Definition ir_entry (xs : list (path * Z)) (e : entry) : list entry :=
    match fst e with SPath q => match dget path_eqb xs q with Some z => [(SVal z, q)] | None => [] end | _ => [] end.
  (** Lines 276-279 and 283-286. *)
  Definition whole_value (b : list entry) : res Z := match b with [(SVal z, [])] => Ok z | _ => Err AssertionError end.

  (** [build_inputs] (252-289): the words for the instruction and for the
      architecture. [xs], [us]: the two dictionaries. [rebind_binding] takes the last
      step of every path (utils.py:355). *)
  Definition build_inputs (rin : list entry) (xs us : list (path * Z)) : res (list Z * list Z) :=
    if negb (same_set (map fst xs) (ir_paths rin)) then Err ValueError
    else if negb (same_set (map fst us) (arch_paths rin)) then Err ValueError
    else if existsb (fun e => match snd e with [] => true | _ => false end) rin then Err IndexError
    else
      do ab <- mapM (arch_entry xs us) rin;
      do ab' <- simplify (in_ty C) (c_ia C) ab;
      do a <- whole_value ab';
      do ib' <- simplify (in_ty D) (c_ia D) (flat_map (ir_entry xs) rin);
      do i <- whole_value ib';
      do wi <- in_words D i;
      do wa <- in_words C a;
      Ok (wi, wa).

  (** [parse_ir_output], [parse_arch_output] (291-304): the entries of leaves of the
      varmap. *)
  Definition parse_output (K : pclass) (ws : list Z) : res (list (path * Z)) :=
    do v <- wrap_outputs K ws;
    do '(_, vm, _) <- smt_forms (fun _ => 0) (fun _ => 0) (out_ty K) (c_oa K) [] (Some v);
    Ok (m_leaf vm).

  (** Lines 331-340 for one entry. Words of different sorts raise (the exception is
      not modelled). *)
  Definition out_sort (K : pclass) (p : path) : option (option Z) :=
    match dget path_eqb (out_flat K) p with Some t => Some (sort_of (snd t)) | None => None end.
  Definition same_sort (q p : path) : bool :=
    match out_sort D q, out_sort C p with Some a, Some b => sort_eqb a b | _, _ => true end.
  Definition compare_out (ov av : list (path * Z)) (e : option path * path) : res (list bool) :=
    match fst e with
    | None => Ok []
    | Some q =>
        match dget path_eqb ov q, dget path_eqb av (snd e) with
        | Some a, Some b => if same_sort q (snd e) then Ok [a =? b] else Err TypeError
        | _, _ => Err ValueError
        end
    end.

  (** The value of the formula for values [x], [u] of the variables (314-341). [And]
      asserts that there is something to compare. *)
  Definition dict_of (ps : list path) (x : path -> Z) : list (path * Z) := map (fun p => (p, x p)) ps.
  Definition verify_at (rin : list entry) (ob : list (option path * path)) (x u : path -> Z) : res bool :=
    do '(wi, wa) <- build_inputs rin (dict_of (ir_paths rin) x) (dict_of (arch_paths rin) u);
    do ov <- parse_output D (c_call D wi);
    do av <- parse_output C (c_call C wa);
    do bs <- mapM (compare_out ov av) ob;
    match List.concat bs with [] => Err AssertionError | l => Ok (forallb (fun b => b) l) end.

  (** The formula given to the solver (342-344): some bound output differs. *)
  Definition formula (rin : list entry) (ob : list (option path * path)) (x u : path -> Z) : bool :=
    match verify_at rin ob x u with Ok b => negb b | Err _ => false end.

  (** Lines 311-316: the variables are made from the types of the paths. *)
  Definition known (flat : list (path * lty)) (ps : list path) : res unit :=
    if forallb (fun p => path_in p (map fst flat)) ps then Ok tt else Err KeyError.

  (** [verify] (306-360). [solver f] is what the solver makes of the negated formula:
      values of the variables or nothing. Whether the construction raises does not
      depend on the values; the model tries it with zeros. *)
  Definition verify (solver : ((path -> Z) -> (path -> Z) -> bool) -> option ((path -> Z) * (path -> Z)))
    (rin : list entry) (ob : list (option path * path)) : res (option (list (path * Z) * list (path * Z))) :=
    do _ <- known (in_flat D) (ir_paths rin);
    do _ <- known (in_flat C) (arch_paths rin);
    do _ <- verify_at rin ob (fun _ => 0) (fun _ => 0);
    match solver (formula rin ob) with
    | None => Ok None
    | Some (x, u) => Ok (Some (dict_of (ir_paths rin) x, dict_of (arch_paths rin) u))
    end.
End Rule.
