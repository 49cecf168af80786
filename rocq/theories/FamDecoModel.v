(** Model of the class decorator [family.assemble(locals(), globals())]
    (peak/family.py:70-82, 137-146, 247-254, 282-283, 289-318, 337-351, black_box.py:41-63) and of the types families
    give to arguments (family.py:104-113, 277-281, 395-416). Definitions only. *)
From Coq Require Import String ZArith List Bool.
From Verif Require Import Base FamModel.
From Verif Require AsmModel.
Import ListNotations.
Open Scope nat_scope.

(** ** Method resolution *)

(** The classes of family.py. [LUser] is a user class without an [assemble] of its own. *)
Inductive layer := LAbs | LAsm | LRew | LReg | LBB | LPy | LStd | LPyX | LSmt | LMagma | LUser (n : Z).
Definition layer_eqb (a b : layer) : bool :=
  match a, b with
  | LAbs, LAbs | LAsm, LAsm | LRew, LRew | LReg, LReg | LBB, LBB | LPy, LPy | LStd, LStd | LPyX, LPyX
  | LSmt, LSmt | LMagma, LMagma => true
  | LUser n, LUser m => Z.eqb n m
  | _, _ => false
  end.
(** Base classes, as written in the class statements (27, 94, 128, 162, 246, 259, 289, 318, 322, 354). *)
Definition bases (l : layer) : list layer :=
  match l with
  | LAbs | LUser _ => []
  | LAsm | LRew | LReg | LBB => [LAbs]
  | LPy => [LReg]
  | LStd => [LAsm; LRew]
  | LPyX => [LStd; LPy]
  | LSmt => [LBB; LStd; LReg]
  | LMagma => [LAsm]
  end.

(** Python's C3 linearization. *)
Definition in_tail (x : layer) (s : list layer) : bool := existsb (layer_eqb x) (tl s).
Definition drop_head (x : layer) (s : list layer) : list layer :=
  match s with y :: r => if layer_eqb x y then r else s | [] => [] end.
Fixpoint pick (cand : list (list layer)) (all : list (list layer)) : option layer :=
  match cand with
  | [] => None
  | [] :: r => pick r all
  | (x :: _) :: r => if existsb (in_tail x) all then pick r all else Some x
  end.
Fixpoint c3_merge (fuel : nat) (ss : list (list layer)) : res (list layer) :=
  match fuel with
  | O => Err OutOfFuel
  | S n =>
      if forallb (fun s => match s with [] => true | _ => false end) ss then Ok []
      else match pick ss ss with
           | None => Err TypeError
           | Some x => do r <- c3_merge n (map (drop_head x) ss); Ok (x :: r)
           end
  end.
Fixpoint c3 (fuel : nat) (l : layer) : res (list layer) :=
  match fuel with
  | O => Err OutOfFuel
  | S n => do ms <- mapM (c3 n) (bases l); do r <- c3_merge 40 (ms ++ [bases l]); Ok (l :: r)
  end.

(** [__mro__] of a family class; user classes derive from one family class. *)
Fixpoint fam_mro (b : bcls) : res (list layer) :=
  match b with
  | Py => c3 10 LPy
  | PyX => c3 10 LPyX
  | Smt => c3 10 LSmt
  | Magma => c3 10 LMagma
  | UCls n x => do r <- fam_mro x; Ok (LUser n :: r)
  end.

(** ** Classes and functions of the running program *)
Section Deco.
(** [code]: function bodies. [rw ps]: the body after [apply_passes(ps)] (ast_tools, not modelled). [boxc]: the call of
    black_box.py:44-58. Types are numbers. *)
Context {code P : Type} (rw : list P -> code -> code) (boxc : code).

(** A function object with its attributes [_input_t], [_output_t]. *)
Record fn := mkFn { fn_code : code; fn_in : option nat; fn_out : option nat }.
(** A class: [__mro__] (itself first), its own [__call__] (a function), [issubclass(cls, BlackBox)]. *)
Record cdef := mkC { c_mro : list nat; c_call : option nat; c_box : bool }.
Record heap := mkH { h_fn : list fn; h_cls : list cdef }.

Fixpoint upd {A} (l : list A) (n : nat) (x : A) : list A :=
  match l, n with
  | [], _ => []
  | _ :: r, O => x :: r
  | y :: r, S m => y :: upd r m x
  end.

(** The class that [cls.__call__] is found in, and the function. *)
Fixpoint first_call (h : heap) (m : list nat) : option (nat * nat) :=
  match m with
  | [] => None
  | d :: r => match nth_error (h_cls h) d with
              | Some D => match c_call D with Some f => Some (d, f) | None => first_call h r end
              | None => first_call h r
              end
  end.
Definition find_call (h : heap) (c : nat) : option (nat * nat) :=
  match nth_error (h_cls h) c with Some D => first_call h (c_mro D) | None => None end.
Definition call_fn (h : heap) (c : nat) : option fn :=
  match find_call h c with Some (_, f) => nth_error (h_fn h) f | None => None end.

(** [cls.__call__._input_t], [cls.__call__._output_t] (307-308, 342-343). A class without [__call__]
    finds that of [type], which has neither. *)
Definition get_types (h : heap) (c : nat) : res (nat * nat) :=
  match call_fn h c with
  | Some (mkFn _ (Some i) (Some o)) => Ok (i, o)
  | _ => Err AttributeError
  end.
(** [cls.__call__._input_t = input_t] and the other (312-313, 347-348): changes the function object. *)
Definition set_types (h : heap) (c : nat) (t : nat * nat) : res heap :=
  match find_call h c with
  | Some (_, f) =>
      match nth_error (h_fn h) f with
      | Some F => Ok (mkH (upd (h_fn h) f (mkFn (fn_code F) (Some (fst t)) (Some (snd t)))) (h_cls h))
      | None => Err AttributeError
      end
  | None => Err AttributeError
  end.
(** [cls.__call__ = g] for a new function [g]. *)
Definition new_call (h : heap) (c : nat) (g : fn) : heap :=
  mkH (h_fn h ++ [g])
      (match nth_error (h_cls h) c with
       | Some D => upd (h_cls h) c (mkC (c_mro D) (Some (length (h_fn h))) (c_box D))
       | None => h_cls h
       end).

(** [_RewriterFamily] (140-145): [apply_passes] makes a new function without these attributes. *)
Definition rewrite_call (ps : list P) (h : heap) (c : nat) : res heap :=
  match ps with
  | [] => Ok h
  | _ => match call_fn h c with
         | Some F => Ok (new_call h c (mkFn (rw ps (fn_code F)) None None))
         | None => Err TypeError
         end
  end.
(** [BlackBox.create_call] (black_box.py:41-63). *)
Definition create_call (h : heap) (c : nat) : res heap :=
  match call_fn h c with
  | Some (mkFn _ (Some i) o) =>
      match o with
      | Some _ => Ok (new_call h c (mkFn boxc (Some i) o))
      | None => Err AssertionError
      end
  | _ => Ok (new_call h c (mkFn boxc None None))
  end.
Definition is_box (h : heap) (c : nat) : bool :=
  match nth_error (h_cls h) c with Some D => c_box D | None => false end.

(** The decorator that [assemble] of the classes in [ls] gives; [super().assemble] is the
    rest of the list. [_compose(deco, s_deco)] runs [s_deco] first. MagmaFamily hands the class to
    magma and is not modelled here. *)
Fixpoint deco (ps : list P) (ls : list layer) (h : heap) (c : nat) : res heap :=
  match ls with
  | [] => Err AttributeError
  | LAbs :: _ => Ok h                                              (* 77-78 *)
  | LRew :: r => do h1 <- deco ps r h c; rewrite_call ps h1 c      (* 137-146 *)
  | LBB :: r => do h1 <- deco ps r h c;                            (* 247-254 *)
                if is_box h1 c then create_call h1 c else Ok h1
  | (LStd | LSmt) :: r =>                                          (* 304-316, 339-351 *)
      do t <- get_types h c; do h1 <- deco ps r h c; set_types h1 c t
  | LMagma :: _ => Err NotImplementedError
  | (LAsm | LReg | LPy | LPyX | LUser _) :: r => deco ps r h c     (* none of their own; 282-283 *)
  end.

(** [family.assemble(...)(cls)] for a family of class [b] with passes [ps] (299). *)
Definition fam_assemble (b : bcls) (ps : list P) (h : heap) (c : nat) : res heap :=
  do m <- fam_mro b; deco ps m h c.
End Deco.

(** ** Types of arguments *)
(** The hwtypes, SMT and magma bits and vectors, ADTs, classes assembled for magma, modified types, and tuples and
    other objects that annotations may be. *)
Inductive hw := HPy | HSmt | HMag.
Inductive vk := VPlain | VSigned | VUnsigned.
Inductive pty :=
| PBitT (f : hw) | PVec (f : hw) (k : vk) (w : Z) | PAdt (t : AsmModel.ty) | PAsm (f : hw) (t : AsmModel.ty)
| PMod (m : nat) (p : pty) | PTup (ps : list pty) | PAny (n : nat).
Definition hw_eqb (a b : hw) : bool := match a, b with HPy, HPy | HSmt, HSmt | HMag, HMag => true | _, _ => false end.

(** [strip_modifiers] (hwtypes); modifiers inside ADTs are not modelled, [ty] has none. *)
Fixpoint strip (p : pty) : pty := match p with PMod _ q => strip q | _ => p end.

(** Bits and vectors of the family class. *)
Fixpoint fam_hw (b : bcls) : hw := match b with Py | PyX => HPy | Smt => HSmt | Magma => HMag | UCls _ x => fam_hw x end.
Fixpoint fam_plain (b : bcls) : bool := match b with Py => true | UCls _ x => fam_plain x | _ => false end.

(** [get_adt_t] (104-110; PyFamily 277-278). Signed and unsigned vectors are subclasses of the vectors of
    their family. A modified type of a family is a subclass of it, a modified ADT cannot be assembled (assembled_adt.py:137-138). *)
Definition get_adt_t (b : bcls) (p : pty) : res pty :=
  if fam_plain b then Ok p else
  match strip p with
  | PBitT f | PVec f _ _ => if hw_eqb f (fam_hw b) then Ok p else Err TypeError
  | PAdt t => match p with PMod _ _ => Err TypeError | _ => Ok (PAsm (fam_hw b) t) end
  | _ => Err TypeError
  end.

(** [magmafy] (396-416). *)
Fixpoint magmafy (p : pty) : res pty :=
  match p with
  | PTup ps =>
      do qs <- (fix go (ps : list pty) : res (list pty) :=
                  match ps with [] => Ok [] | q :: r => do x <- magmafy q; do xs <- go r; Ok (x :: xs) end) ps;
      Ok (PTup qs)
  | _ =>
      match strip p with
      | PAdt t => get_adt_t Magma (PAdt t)
      | PVec _ k w => Ok (PVec HMag k w)
      | PBitT _ => Ok (PBitT HMag)
      | q => Ok q
      end
  end.
