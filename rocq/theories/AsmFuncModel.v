(** Model of [assemble_values_in_func] (peak/assembler/utils.py:10-49): the source of a function is
    rewritten so that members of Enums become the numbers an assembler gives them. Definitions only.
    Expressions only: statements are sequences of expressions here, and short circuits, lambdas and comprehensions
    are not modelled. Writing the source to a file (37-40) does nothing else. *)
From Coq Require Import String ZArith List Bool.
From Verif Require Import Base.
Import ListNotations.
Open Scope Z_scope.

(** Names, literals, attribute access and all other nodes (calls, comparisons, operators). *)
Inductive expr := EName (x : string) | ENum (z : Z) | EAttr (e : expr) (a : string) | ENode (n : nat) (es : list expr).
(** Enum classes, their members, numbers, other objects. *)
Inductive value := VCls (c : nat) | VMem (c : nat) (a : string) | VInt (z : Z) | VObj (n : nat).

Section Func.
(** [member c a]: class [c] has a member named [a]. [oattr]: attributes of other objects. [app]: the meaning of a node. [hashable]:
    values without a hash cannot be looked up in a dict. *)
Variable member : nat -> string -> bool.
Variable oattr : nat -> string -> res value.
Variable app : nat -> list value -> res value.
Variable hashable : nat -> bool.
(** The [assemblers] argument: by class, [assembler(getattr(bv_type, name))] as an int (25-26). *)
Variable asmb : nat -> option (string -> res Z).

(** [getattr]; members and numbers have no attributes of interest. *)
Definition getattr (v : value) (a : string) : res value :=
  match v with
  | VCls c => if member c a then Ok (VMem c a) else Err AttributeError
  | VObj n => oattr n a
  | _ => Err AttributeError
  end.

(** Evaluation in an environment. *)
Fixpoint eval (r : string -> option value) (e : expr) : res value :=
  match e with
  | EName x => match r x with Some v => Ok v | None => Err NameError end
  | ENum z => Ok (VInt z)
  | EAttr e a => do v <- eval r e; getattr v a
  | ENode n es =>
      do vs <- (fix go (es : list expr) : res (list value) :=
                  match es with [] => Ok [] | e :: l => do v <- eval r e; do vs <- go l; Ok (v :: vs) end) es;
      app n vs
  end.

(** The names a function sees: its parameters, those of the function it is defined in ([_locals]), those of the module. *)
Record scope := mkS { s_par : string -> option value; s_loc : string -> option value; s_glo : string -> option value }.
Definition over (f g : string -> option value) (x : string) : option value :=
  match f x with Some v => Some v | None => g x end.
(** The function as it was written. *)
Definition orig_env (s : scope) : string -> option value := over (s_par s) (over (s_loc s) (s_glo s)).
(** [eval(code, self._locals, self._globals)] (18-20): the second argument of Python's eval is the global scope, so names are
    looked up in [_globals] first. Parameters are not there. *)
Definition dec_env (s : scope) : string -> option value := over (s_glo s) (s_loc s).
(** [exec(code, _globals, _locals)] (42-43): the function that is made sees its parameters and [_globals] only. *)
Definition new_env (s : scope) (par : string -> option value) : string -> option value := over par (s_glo s).

(** [visit] (15-29): attributes that are loaded are looked at by [visit_Attribute], which does not visit what is inside; other nodes
    visit their children ([ast.NodeTransformer]). NameError is caught, other errors are not. *)
Fixpoint visit (s : scope) (e : expr) : res expr :=
  match e with
  | EName _ | ENum _ => Ok e
  | EAttr v a =>
      match eval (dec_env s) v with
      | Err NameError => Ok e
      | Err x => Err x
      | Ok (VCls c) =>
          match asmb c with
          | Some f =>
              do _ <- getattr (VCls c) a;
              match f a with Ok z => Ok (ENum z) | Err NameError => Ok e | Err x => Err x end
          | None => Ok e
          end
      | Ok (VObj n) => if hashable n then Ok e else Err TypeError
      | Ok _ => Ok e
      end
  | ENode n es =>
      do es' <- (fix go (es : list expr) : res (list expr) :=
                   match es with [] => Ok [] | e :: l => do v <- visit s e; do vs <- go l; Ok (v :: vs) end) es;
      Ok (ENode n es')
  end.
End Func.
