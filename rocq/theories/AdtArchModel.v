(** What the mapper makes of a Peak class: paths, types, forms, outputs and
    validity from the assembled types of its inputs and outputs.
    Python source: peak/mapper/mapper.py:60-87 ([wrap_outputs], [_create_path_to_adt]),
    111-170 ([SMTMapper]), 172-204 ([ArchMapper]), 208-212 ([is_valid]), 464-470
    ([IRMapper]), 660-693 (the outputs in the simple formula), and
    peak/mapper/utils.py:366-372. Definitions only. *)
From Coq Require Import String ZArith List Bool.
From Verif Require Import Base BindModel MapIdxModel MapModel AsmModel AadtModel FormModel.
Import ListNotations.
Open Scope string_scope.
Open Scope list_scope.
Open Scope Z_scope.

(** Types with modifiers. [MLeaf]: a type that is no Product, Tuple, Sum or
    TaggedUnion. *)
Inductive mty :=
| MMod (m : string) (t : mty)
| MLeaf (t : ty)
| MProd (c : string) (fs : list (key * mty))
| MSum (g : bool) (c : string) (fs : list (key * mty)).

(** [strip_modifiers] (hwtypes, assumed: removes the modifiers everywhere). *)
Fixpoint strip (m : mty) : ty :=
  match m with
  | MMod _ t => strip t
  | MLeaf t => t
  | MProd c fs => TProd c ((fix go fs := match fs with [] => [] | (k, t) :: r => (k, strip t) :: go r end) fs)
  | MSum g c fs => TSum g c ((fix go fs := match fs with [] => [] | (k, t) :: r => (k, strip t) :: go r end) fs)
  end.
Definition strip_fields (fs : list (key * mty)) : list (key * ty) := map (fun f => (fst f, strip (snd f))) fs.

(** A leaf with its modifiers, innermost first; Const is the one that matters. *)
Definition lty := (list string * ty)%type.
Definition lty_eqb (s t : lty) : bool := list_eqb String.eqb (fst s) (fst t) && ty_eqb (snd s) (snd t).
Definition lty_const (t : lty) : bool := existsb (String.eqb "Const") (fst t).

(** The values of a leaf: the words of its width. *)
Definition leaf_bits (t : ty) : Z :=
  match t with
  | TBit => 1
  | TBV w | TSInt w => w
  | TEnum _ ms => match enum_table ms with Ok tbl => bit_length (zmax (map snd tbl)) | Err _ => 0 end
  | _ => 0
  end.
Definition lty_vals (t : lty) : list Z := pyrange 0 (2 ^ leaf_bits (snd t)).

(** [_create_path_to_adt] (73-86). [mods]: innermost first ([unwrap_modifier] and
    [wrap_modifier] of hwtypes, assumed). *)
Fixpoint flat (m : mty) (p : path) (mods : list string) : list (path * lty) :=
  match m with
  | MMod n t => flat t p (n :: mods)
  | MLeaf t => [(p, (mods, t))]
  | MProd _ fs | MSum _ _ fs =>
      (fix go (fs : list (key * mty)) (d : list (path * lty)) :=
         match fs with [] => d | (k, t) :: r => go r (dupd d (flat t (p ++ [k]) mods)) end) fs []
  end.

(** A class: the fields of [input_t] and [output_t], the assemblers of the two
    stripped types, and [__call__] as a function of the words of the inputs,
    in order, returning the words of the outputs. *)
Record pclass := PClass {
  c_in : list (key * mty); c_ia : asm;
  c_out : list (key * mty); c_oa : asm;
  c_call : list Z -> list Z }.

Section View.
  Variable C : pclass.
  Definition in_ty : ty := TProd "Input" (strip_fields (c_in C)).
  Definition out_ty : ty := TProd "Output" (strip_fields (c_out C)).

  (** [aadt_product_to_dict] (utils.py:366-372): the words of the fields. *)
  Definition words_of (a : asm) (ks : list key) (z : Z) : res (list Z) :=
    mapM (fun k => do e <- aadt_get a z k; Ok (fst e)) ks.
  Definition in_words (z : Z) : res (list Z) := words_of (c_ia C) (map fst (c_in C)) z.

  (** [wrap_outputs] (61-70): too few outputs are an IndexError, further ones are
      ignored. The words have the widths of the fields. *)
  Fixpoint out_args (fs : list (key * mty)) (ws : list Z) : res (list farg) :=
    match fs, ws with
    | [], _ => Ok []
    | _, [] => Err IndexError
    | (k, _) :: r, w :: ws' => do fa <- member_asm (c_oa C) k; do l <- out_args r ws'; Ok (FWord (a_width fa) w :: l)
    end.
  Definition wrap_outputs (ws : list Z) : res Z :=
    do l <- out_args (c_out C) ws; prod_from_fields (strip_fields (c_out C)) (c_oa C) l 0.

  (** The forms of the outputs for given words of the inputs (149-155). *)
  Definition out_forms (ws : list Z) : res (list form) :=
    do v <- wrap_outputs (c_call C ws);
    do '(fo, _, _) <- smt_forms (fun _ => 0) (fun _ => 0) out_ty (c_oa C) [] (Some v);
    Ok fo.

  (** The output at a path for the word of the input: [output_forms[..][0].varmap]. *)
  Definition out_at (z : Z) (q : path) : Z :=
    match (do ws <- in_words z; out_forms ws) with
    | Ok (f :: _) => match dget path_eqb (f_vars f) q with Some x => x | None => 0 end
    | _ => 0
    end.

  (** Lines 136, 145-148: the Const fields and their validity. *)
  Definition const_field (m : mty) : bool :=
    (fix go (m : mty) := match m with MMod n t => String.eqb "Const" n || go t | _ => false end) m.
  Definition const_fields : list key := map fst (filter (fun f => const_field (snd f)) (c_in C)).
  Definition field_valid (z : Z) (k : key) : bool :=
    match (do fa <- member_asm (c_ia C) k; do e <- aadt_get (c_ia C) z k; Ok (a_isv fa (fst e))) with
    | Ok b => b
    | Err _ => false
    end.
  Definition valid_word (z : Z) : bool := forallb (field_valid z) const_fields.

  (** [SMTForms()(input_aadt_t)] (137) under a valuation. *)
  Definition in_forms (tags l : path -> Z) : res (list form * vmap * Z) := smt_forms l tags in_ty (c_ia C) [] None.
  Definition form_word (fi : nat) (tags l : path -> Z) : Z :=
    match in_forms tags l with
    | Ok (fo, _, _) => match nth_error fo fi with Some f => f_val f | None => 0 end
    | Err _ => 0
    end.
  Definition full_word (tags l : path -> Z) : Z := match in_forms tags l with Ok (_, _, z) => z | Err _ => 0 end.

  (** The tag of member [k] of the Sum at a path. *)
  Fixpoint asm_at (a : asm) (p : path) : option asm :=
    match p with
    | [] => Some a
    | k :: r => match sub_step a k with Some (_, f) => asm_at f r | None => None end
    end.
  Definition tag_at (p : path) (k : key) : Z :=
    match asm_at (c_ia C) p with
    | Some a => match assemble_tag a k with Ok z => z | Err _ => 0 end
    | None => 0
    end.
  (** The values of the tag variable at a path. *)
  Definition tag_vals (p : path) : list Z :=
    match asm_at (c_ia C) p with Some (ASum _ tagw _ _ _) => pyrange 0 (Z.max 1 (2 ^ tagw)) | _ => [0] end.

  (** Lines 149-161: all input forms must have the same number of output forms,
      172-176 and 467-470: exactly one. The number does not depend on the values of
      the variables; it is read off with all of them 0. *)
  Definition one_output_form (fo : list form) : res unit :=
    do ns <- mapM (fun f => do ws <- in_words (f_val f); do oo <- out_forms ws; Ok (length oo)) fo;
    match ns with
    | [] => Err IndexError
    | n :: _ => if negb (forallb (Nat.eqb n) ns) then Err AssertionError
                else if Nat.ltb 1 n then Err NotImplementedError else Ok tt
    end.

  Definition in_flat : list (path * lty) := flat (MProd "Input" (c_in C)) [] [].
  Definition out_flat : list (path * lty) := flat (MProd "Output" (c_out C)) [] [].

  (** Lines 178-201: the paths of the constraints; their values are given as words. *)
  Definition constraints_ok (cs : list (path * list Z)) : res unit :=
    if forallb (fun c => existsb (path_eqb (fst c)) (map fst in_flat)) cs then Ok tt else Err ValueError.

  (** [ArchMapper] as the input of the formula construction. *)
  Definition adt_arch (cs : list (path * list Z)) : res (arch path lty) :=
    do '(fo, _, _) <- in_forms (fun _ => 0) (fun _ => 0);
    do _ <- one_output_form fo;
    do _ <- constraints_ok cs;
    Ok {| a_forms := map (fun f => (map fst (f_vars f), map (fun d => (fst d, tag_at (fst d) (snd d))) (f_dict f))) fo;
          a_in := in_flat;
          a_out := out_flat;
          a_constr := cs;
          a_has_const := match const_fields with [] => false | _ => true end;
          a_fsem := fun fi tags l q => out_at (form_word fi tags l) q;
          a_sem := fun tags l q => out_at (full_word tags l) q;
          a_fvalid := fun fi tags l => valid_word (form_word fi tags l);
          a_valid := fun tags l => valid_word (full_word tags l) |}.

  (** [IRMapper]: one input form, one output form. *)
  Definition adt_instr : res (instr path lty) :=
    do '(fo, _, _) <- in_forms (fun _ => 0) (fun _ => 0);
    do _ <- one_output_form fo;
    if Nat.ltb 1 (length fo) then Err NotImplementedError
    else Ok {| i_in := in_flat; i_out := out_flat; i_sem := fun x q => out_at (form_word 0 (fun _ => 0) x) q |}.
End View.

(** ** The simple formula reads outputs by the name of the field (660-693): a
    bound output below a field is a KeyError. *)
Definition nested (p : path) : bool := match p with [_] => false | _ => true end.
Definition nested_output (ob : list (list (option path * path))) : bool :=
  existsb (existsb (fun e => match fst e with Some q => nested q || nested (snd e) | None => false end)) ob.

Definition build_simple_adt (k : ivar) (a : arch path lty) (i : instr path lty) : res (built path) :=
  if negb (has_bindings path_eqb lty_eqb a i) then Ok BNone
  else if negb (a_has_const a) then Err AssertionError
  else if nested_output (output_bindings path_eqb lty_eqb a i) then Err KeyError
  else build_simple path_eqb lty_eqb lty_const k a i.
