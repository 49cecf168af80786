(** Forms of a type and simplification of bindings. Python source:
    peak/mapper/utils.py:34-224 ([SMTForms]) and 226-324 ([SimplifyBinding]).
    Definitions only. *)
From Coq Require Import String ZArith List Bool.
From Verif Require Import Base AsmModel AadtModel BindModel MapModel.
Import ListNotations.
Open Scope list_scope.
Open Scope Z_scope.

Definition path := list key.
Definition path_eqb : path -> path -> bool := list_eqb key_eqb.

(** [d.update(l)]. *)
Definition dupd {V} (d l : list (path * V)) : list (path * V) :=
  fold_left (fun d e => dset path_eqb d (fst e) (snd e)) l d.

(** [Form] (utils.py:21): values of SMT terms under one valuation. *)
Record form := Form { f_val : Z; f_dict : list (path * key); f_vars : list (path * Z) }.
(** The varmap: the entries of leaves, those at [path + (_TAG,)] and those at
    [path + (Match,)], as three dictionaries. *)
Record vmap := VM { m_leaf : list (path * Z); m_tag : list (path * Z); m_match : list (path * list (key * bool)) }.
Definition vupd (a b : vmap) : vmap :=
  VM (dupd (m_leaf a) (m_leaf b)) (dupd (m_tag a) (m_tag b)) (dupd (m_match a) (m_match b)).

Definition member_asm (a : asm) (k : key) : res asm :=
  match sub_step a k with Some (_, f) => Ok f | None => Err KeyError end.

Section Forms.
  (** The valuation of the variables created for leaves and tags, by path. *)
  Variables leafv tagv : path -> Z.

  (** Lines 40-62: a leaf. *)
  Definition leaf_form (a : asm) (p : path) (value : option Z) : res (list form * vmap * Z) :=
    let z := match value with Some z => z | None => wrap (a_width a) (leafv p) end in
    Ok ([Form z [] [(p, z)]], VM [(p, z)] [] [], z).

  (** Results for one member of a Sum / one field of a Product. *)
  Record mres := MR { r_key : key; r_forms : list form; r_vm : vmap; r_word : Z; r_match : bool }.
  Record pres := PR { q_width : Z; q_forms : list form; q_vm : vmap; q_word : Z }.

  Section Rec.
    Variable F : ty -> asm -> path -> option Z -> res (list form * vmap * Z).

    (** The update of one sub form (90-97, 138-145). *)
    Definition sum_form (all : list (key * ty)) (a fa : asm) (p : path) (value : option Z) (tag : Z) (k : key)
      (f : form) : res form :=
      if existsb (fun e => path_eqb p (fst e)) (f_dict f) then Err AssertionError
      else
        do fv <- match value with
                 | None => sum_from_fields all a k (FWord (a_width fa) (f_val f)) (Some tag) 0
                 | Some z => Ok z
                 end;
        Ok (Form fv ((p, k) :: f_dict f) (f_vars f)).

    (** The loop over the members (79-101 for Sum, 125-149 for TaggedUnion). With
        a value, the TaggedUnion case indexes it by the member type (133), which is
        not a field name: KeyError. *)
    Definition sum_loop (g : bool) (all : list (key * ty)) (a : asm) (p : path) (value : option Z) (tag : Z) :=
      fix go (fs : list (key * ty)) : res (list mres) :=
        match fs with
        | [] => Ok []
        | (k, t) :: r =>
            do fa <- member_asm a k;
            do sv <- match value with
                     | None => Ok None
                     | Some z => if g then Err KeyError else do e <- aadt_get a z k; Ok (Some (fst e))
                     end;
            do '(sf, svm, x) <- F t fa (p ++ [k]) sv;
            do w <- sum_from_fields all a k (FWord (a_width fa) x) (Some tag) 0;
            do fs' <- mapM (sum_form all a fa p value tag k) sf;
            do m <- aadt_get a w k;
            do rest <- go r;
            Ok (MR k fs' svm w (match snd m with Some b => b | None => false end) :: rest)
        end.

    (** The loop over the fields (169-178, 202-212). *)
    Definition prod_loop (a : asm) (p : path) (value : option Z) :=
      fix go (fs : list (key * ty)) : res (list pres) :=
        match fs with
        | [] => Ok []
        | (k, t) :: r =>
            do fa <- member_asm a k;
            do sv <- match value with
                     | None => Ok None
                     | Some z => do e <- aadt_get a z k; Ok (Some (fst e))
                     end;
            do '(sf, svm, x) <- F t fa (p ++ [k]) sv;
            do rest <- go r;
            Ok (PR (a_width fa) sf svm x :: rest)
        end.
  End Rec.

  (** The ite chain (103-107, 151-155). *)
  Definition ite_chain (l : list mres) : res Z :=
    match l with
    | [] => Err IndexError
    | m :: r => Ok (fold_left (fun acc e => if r_match e then r_word e else acc) r (r_word m))
    end.

  (** Body of the loops over [it.product] (181-191, 214-223). *)
  Definition prod_form (fs : list (key * ty)) (a : asm) (ws : list Z) (l : list form) : res form :=
    do v <- prod_from_fields fs a (map (fun e => FWord (fst e) (snd e)) (combine ws (map f_val l))) 0;
    Ok (Form v (fold_left dupd (map f_dict l) []) (fold_left dupd (map f_vars l) [])).

  (** [SMTForms.__call__] (35-38) on an assembled type given by its ISA type and its
      assembler. [value]: the word of the value, if one is given. Members of a Sum,
      a set in Python, come in the order listed; Product and Tuple are alike. *)
  Fixpoint smt_forms (t : ty) (a : asm) (p : path) (value : option Z) {struct t} : res (list form * vmap * Z) :=
    match t with
    | TBit | TBV _ | TSInt _ | TEnum _ _ => leaf_form a p value
    | TProd _ fs =>
        do rs <- prod_loop smt_forms a p value fs;
        do v <- prod_from_fields fs a (map (fun e => FWord (q_width e) (q_word e)) rs) 0;
        do out <- mapM (prod_form fs a (map q_width rs)) (iprod (map q_forms rs));
        Ok (out, fold_left vupd (map q_vm rs) (VM [] [] []), v)
    | TSum g _ fs =>
        match a with
        | ASum _ tagw _ _ _ =>
            let tag := match value with None => wrap tagw (tagv p) | Some z => slice z 0 tagw end in
            do rs <- sum_loop smt_forms g fs a p value tag fs;
            do v <- ite_chain rs;
            Ok (flat_map r_forms rs,
                fold_left vupd (map r_vm rs) (VM [] [(p, tag)] [(p, map (fun e => (r_key e, r_match e)) rs)]), v)
        | _ => Err TypeError
        end
    end.
End Forms.

(** * SimplifyBinding *)

Definition entry := (src path * path)%type.
(** [[(ir_path, (sub_field,) + arch_path) ...]] (284, 315). *)
Definition prefix_all (k : key) (b : list entry) : list entry := map (fun e => (fst e, k :: snd e)) b.
(** The test of [check_leaf] (233). *)
Definition whole (b : list entry) : bool := match b with [(_, [])] => true | _ => false end.

(** Lines 289-294: group by the first step of the path. *)
Fixpoint group_by (fs : list (key * ty)) (d : list (key * list entry)) (b : list entry)
  : res (list (key * list entry)) :=
  match b with
  | [] => Ok d
  | (_, []) :: _ => Err IndexError
  | (s, k :: q) :: r =>
      match dget key_eqb fs k with
      | None => Err AssertionError
      | Some _ =>
          let old := match dget key_eqb d k with Some l => l | None => [] end in
          group_by fs (dset key_eqb d k (old ++ [(s, q)])) r
      end
  end.

(** A single entry whose source is a value (302). *)
Definition one_value (b : list entry) : option Z :=
  match b with [(SVal z, _)] => Some z | _ => None end.

(** Lines 269-272. *)
Definition strip_field (k : key) (e : entry) : res entry :=
  match snd e with
  | [] => Err IndexError
  | k' :: q => if key_eqb k' k then Ok (fst e, q) else Err AssertionError
  end.

Section Simp.
  Variable F : ty -> asm -> list entry -> res (list entry).
  (** [self(aadt_t[k], b)]: find the member and recurse. *)
  Definition at_member (a : asm) (k : key) (b : list entry) :=
    fix go (fs : list (key * ty)) : res (list entry) :=
      match fs with
      | [] => Err KeyError
      | (k', t) :: r =>
          if key_eqb k k' then do fa <- member_asm a k; F t fa b else go r
      end.
End Simp.

(** Lines 241-324. A value is given by its word. *)
Fixpoint simplify (t : ty) (a : asm) (b : list entry) {struct t} : res (list entry) :=
  if whole b then Ok b
  else
  match t with
  | TBit | TBV _ | TSInt _ | TEnum _ _ => Err AssertionError
  | TSum _ _ fs =>
      match b with
      | [] => Err IndexError
      | (_, []) :: _ => Err IndexError
      | (_, k :: _) :: _ =>
          do sub <- mapM (strip_field k) b;
          do s <- at_member simplify a k sub fs;
          match s with
          | [(SVal z, q)] =>
              match q with
              | [] => do fa <- member_asm a k;
                      do v <- sum_from_fields fs a k (FWord (a_width fa) z) None 0; Ok [(SVal v, [])]
              | _ => Err AssertionError
              end
          | [(SUnbound, q)] => match q with [] => Err TypeError | _ => Err AssertionError end
          | _ => Ok (prefix_all k s)
          end
      end
  | TProd _ fs =>
      do d <- group_by fs [] b;
      if negb (Nat.eqb (length d) (length fs)) then Err AssertionError
      else
        do sd <- mapM (fun e => do s <- at_member simplify a (fst e) (snd e) fs; Ok (fst e, s)) d;
        if forallb (fun e => match one_value (snd e) with Some _ => true | None => false end) sd then
          do args <- mapM (fun f => do fa <- member_asm a (fst f);
                                   do s <- dgetE key_eqb sd (fst f);
                                   match one_value s with Some z => Ok (FWord (a_width fa) z) | None => Err TypeError end) fs;
          do v <- prod_from_fields fs a args 0;
          Ok [(SVal v, [])]
        else Ok (flat_map (fun e => prefix_all (fst e) (snd e)) sd)
  end.
