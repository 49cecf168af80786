(** What [Multi] reads off a Peak class.
    Python source: peak/mapper/multi.py:40-68 ([parse_peak_fc]), 74-81 ([run_peak]), 136-141 (one
    instruction), 244-248 (validity), with peak/mapper/mapper.py:60-70 ([wrap_outputs]),
    208-212 ([is_valid]) and peak/mapper/utils.py:366-372 ([aadt_product_to_dict]).
    Classes are those of AdtArchModel ([pclass]). Definitions only. *)
From Coq Require Import String ZArith List Bool.
From Verif Require Import Base BindModel MapIdxModel MultiModel MapModel AsmModel AadtModel FormModel AdtArchModel.
Import ListNotations.
Open Scope string_scope.
Open Scope list_scope.
Open Scope Z_scope.

(** The type of a field of [input_t] or [output_t] (43-44, 53-54): its modifiers, innermost
    first, and the type below them. Modifiers further inside are dropped; [Multi] compares
    only the types of fields that are not Const and of outputs (149-159, 227-230). *)
Fixpoint outer (mods : list string) (m : mty) : lty :=
  match m with MMod n t => outer (n :: mods) t | _ => (mods, strip m) end.
Definition field_ty (m : mty) : lty := outer [] m.

(** The width of the variable made for a field ([_create_free_var] 83, 139-140): that of the
    assembler of its type. *)
Definition lty_width (t : lty) : nat :=
  match build ps0 (snd t) with Ok (a, _) => Z.to_nat (a_width a) | Err _ => 0%nat end.

(** [const_dict] and [non_const_dict] (53-54). *)
Definition typed_fields (fs : list (key * mty)) : list (string * lty) := map (fun f => (kname (fst f), field_ty (snd f))) fs.
Definition const_dict (fs : list (key * mty)) : list (string * lty) := typed_fields (filter (fun f => const_field (snd f)) fs).
Definition non_const_dict (fs : list (key * mty)) : list (string * lty) := typed_fields (filter (fun f => negb (const_field (snd f))) fs).

Definition field_named (fs : list (key * mty)) (g : string) : option (key * mty) := find (fun f => String.eqb (kname (fst f)) g) fs.

(** [run_peak] (74-81): a call with the words [x] by field name, and the words of the fields
    of the output. *)
Definition call_args (C : pclass) (x : string -> Z) : list Z := map (fun f => x (kname (fst f))) (c_in C).
Definition run_peak (C : pclass) (x : string -> Z) (g : string) : Z :=
  match (do v <- wrap_outputs C (c_call C (call_args C x));
         match field_named (c_out C) g with
         | Some (k, _) => do e <- aadt_get (c_oa C) v k; Ok (fst e)
         | None => Err KeyError
         end) with
  | Ok z => z
  | Err _ => 0
  end.

(** [is_valid] of the word of a Const field (248). *)
Definition const_valid (C : pclass) (g : string) (z : Z) : bool :=
  match field_named (c_in C) g with
  | Some (k, _) => match member_asm (c_ia C) k with Ok fa => a_isv fa z | Err _ => false end
  | None => false
  end.

(** The two classes as [Multi] uses them. Neither contains black boxes. *)
Definition multi_arch (C : pclass) : archinfo lty :=
  mkArchI (const_dict (c_in C)) (non_const_dict (c_in C)) (typed_fields (c_out C)) (run_peak C) (const_valid C) false.
Definition multi_ir (D : pclass) : irinfo lty :=
  mkIr (const_dict (c_in D)) (non_const_dict (c_in D)) (typed_fields (c_out D)) (fun _ => run_peak D).
