(** The IR registry, generated instruction classes, interface inference and
    result checking. Python sources: peak/ir.py, peak/features.py, peak/peak.py. *)
From Coq Require DecimalString.
From Coq Require Import String ZArith List Bool.
From Verif Require Import Base.
Import ListNotations.

(** ** IR.add_instruction (ir.py:12-19); the dictionary is kept in insertion order *)
Section Registry.
  Context {P : Type}.
  Definition registry := list (string * P).
  Definition add_instruction (r : registry) (name : string) (fc : P) : res unit * registry :=
    match dget String.eqb r name with
    | Some _ => (Err ValueError, r)
    | None => (Ok tt, dset String.eqb r name fc)
    end.
  Fixpoint add_all (r : registry) (h : list (string * P)) : list (res unit) * registry :=
    match h with
    | [] => ([], r)
    | (n, p) :: h' =>
        let (x, r') := add_instruction r n p in
        let (xs, r'') := add_all r' h' in (x :: xs, r'')
    end.
End Registry.
Arguments registry P : clear implicits.

(** ** Generated classes (ir.py:22-59) *)

(** [f"t{idx}"]. *)
Definition tname (i : nat) : string := "t" ++ DecimalString.NilZero.string_of_uint (Nat.to_uint i).
(** [f"_t{idx}"]. *)
Definition utname (i : nat) : string := "_" ++ tname i.

Section Gen.
  (** [T]: interface types, [V]: argument values, [F]: families. *)
  Context {T V F : Type} (teqb : T -> T -> bool).

  (** [t_to_tname] (29-34): types in order of first occurrence; the i-th is
      called [tname i]. *)
  Fixpoint distinct_types (ts : list T) (seen : list T) : list T :=
    match ts with
    | [] => seen
    | t :: r => if existsb (teqb t) seen then distinct_types r seen
                else distinct_types r (seen ++ [t])
    end.
  Fixpoint type_index (ts : list T) (t : T) : option nat :=
    match ts with
    | [] => None
    | t' :: r => if teqb t t' then Some O
                 else match type_index r t with Some i => Some (S i) | None => None end
    end.

  (** Values a name can have in the executed source. *)
  Inductive gval := GType (t : T) | GPeak | GNameOutputs | GFamClosure | GFun | GFamily (f : F)
                  | GClass | GArg (v : V) | GSelf.
  Definition scope := list (string * gval).

  (** [exec_gs] (50-56): the update overrides equal names. *)
  Definition globals (ts : list T) : scope :=
    [("Peak", GPeak); ("name_outputs", GNameOutputs); ("_fun_", GFun);
     ("_family_closure", GFamClosure)]%string
    ++ map (fun it => (tname (fst it), GType (snd it))) (combine (seq 0 (length ts)) ts).

  (** Name lookup inside [peak_fc] before the class statement has finished. A
      name that the function assigns is local: [cls_name] is not bound yet
      (UnboundLocalError, a NameError); [locals] holds the bound ones. *)
  Definition fn_lookup (cls_name : string) (locals glob : scope) (n : string) : res gval :=
    match dget String.eqb locals n with
    | Some v => Ok v
    | None => if String.eqb n cls_name then Err NameError
              else match dget String.eqb glob n with Some v => Ok v | None => Err NameError end
    end.

  (** The assignments [_ti = ti] (37-38). *)
  Fixpoint bind_types (cls_name : string) (glob : scope) (is : list nat) (locals : scope) : res scope :=
    match is with
    | [] => Ok locals
    | i :: r =>
        do v <- fn_lookup cls_name locals glob (tname i);
        bind_types cls_name glob r (dset String.eqb locals (utname i) v)
    end.

  Definition as_type (v : gval) : res T := match v with GType t => Ok t | _ => Err TypeError end.

  (** Annotations or output declarations: each type is written as [_ti]. *)
  Fixpoint eval_types (cls_name : string) (locals glob : scope) (ts : list T) (fs : list (string * T))
    : res (list (string * T)) :=
    match fs with
    | [] => Ok []
    | (n, t) :: r =>
        match type_index ts t with
        | None => Err KeyError
        | Some i =>
            do v <- fn_lookup cls_name locals glob (utname i);
            do t' <- as_type v;
            do r' <- eval_types cls_name locals glob ts r;
            Ok ((n, t') :: r')
        end
    end.

  (** The class built by [peak_fc(family)] (35-46): its interface and the scope
      its [__call__] closes over. Field names are valid identifiers; an input
      called [self] is a SyntaxError, reported as ValueError here. *)
  Record gclass := { g_in : list (string * T); g_out : list (string * T); g_scope : scope; g_glob : scope }.

  Definition build_class (cls_name : string) (ins outs : list (string * T)) (fam : F) : res gclass :=
    if existsb (String.eqb "self"%string) (map fst ins) then Err ValueError
    else
      let ts := distinct_types (map snd ins ++ map snd outs) [] in
      let glob := globals ts in
      do locals <- bind_types cls_name glob (seq 0 (length ts)) [("family"%string, GFamily fam)];
      do _ <- fn_lookup cls_name locals glob "Peak"%string;
      do _ <- fn_lookup cls_name locals glob "name_outputs"%string;
      do o <- eval_types cls_name locals glob ts outs;
      do i <- eval_types cls_name locals glob ts ins;
      Ok {| g_in := i; g_out := o; g_scope := dset String.eqb locals cls_name GClass; g_glob := glob |}.

  (** [return _fun_(family, x, y, ...)] (42, 45): names resolve to parameters,
      then to the variables of [peak_fc], then to globals. *)
  Definition call_lookup (c : gclass) (params : scope) (n : string) : res gval :=
    match dget String.eqb params n with
    | Some v => Ok v
    | None => match dget String.eqb (g_scope c) n with
              | Some v => Ok v
              | None => match dget String.eqb (g_glob c) n with Some v => Ok v | None => Err NameError end
              end
    end.

  (** The call made by [__call__]: the callee and its arguments. *)
  Definition gen_call (c : gclass) (vs : list V) : res (gval * list gval) :=
    if negb (Nat.eqb (length vs) (length (g_in c))) then Err TypeError
    else
      let params := ("self"%string, GSelf)
                    :: map (fun p => (fst (fst p), GArg (snd p))) (combine (g_in c) vs) in
      do f <- call_lookup c params "_fun_"%string;
      do fam <- call_lookup c params "family"%string;
      do args <- mapM (call_lookup c params) (map fst (g_in c));
      Ok (f, fam :: args).
End Gen.
Arguments gval T V F : clear implicits.
Arguments gclass T V F : clear implicits.

(** ** Interfaces and result checking (features.py) *)
Section Features.
  Context {T V : Type} (inst : V -> T -> bool).

  (** What the decorators read off a function: [__name__], the positional
      parameter names, and the annotations of parameters and of [return]. *)
  Inductive ret_ann := RetNone | RetOne (t : T) | RetTuple (ts : list T).
  Record pyfun := { f_name : string; f_params : list string; f_ann : list (string * T);
                    f_ret : option ret_ann }.

  (** features.py:30-57 ([gen_input_t]); [None] is the input_t of a call without
      inputs. *)
  Definition gen_input_t (f : pyfun) : res (option (list (string * T))) :=
    let names := if String.eqb (f_name f) "__call__" then tl (f_params f) else f_params f in
    let keys := map fst (f_ann f) in
    let mem x l := existsb (String.eqb x) l in
    if negb (forallb (fun x => mem x keys) names && forallb (fun x => mem x names) keys)
    then Err ValueError
    else
      do fs <- mapM (fun n => do t <- dgetE String.eqb (f_ann f) n; Ok (n, t)) names;
      Ok (match fs with [] => None | _ => Some fs end).

  (** features.py:59-76 ([gen_output_t]): the list of declared output types. *)
  Definition gen_output_t (f : pyfun) : res (option (list T)) :=
    match f_ret f with
    | None => Err ValueError
    | Some RetNone => Ok None
    | Some (RetOne t) => Ok (Some [t])
    | Some (RetTuple ts) => Ok (Some ts)
    end.

  (** What a call returns: a Python tuple or anything else. *)
  Inductive result := RSingle (v : V) | RTuple (l : list V).

  (** features.py:88-90. *)
  Fixpoint check (ts : list T) (l : list V) : res unit :=
    match ts, l with
    | [], _ => Ok tt
    | _ :: _, [] => Err IndexError
    | t :: ts', v :: l' => if inst v t then check ts' l' else Err TypeError
    end.

  (** features.py:83-93 ([call_wrapper]); [out] is [output_t], [None] when the
      annotation was None. *)
  Definition checked_call (out : option (list T)) (r : result) : res result :=
    match out with
    | None => Err AttributeError
    | Some ts =>
        match r with
        | RSingle v => do _ <- check ts [v]; Ok (RSingle v)
        | RTuple l => do _ <- check ts l; Ok (RTuple l)
        end
    end.
End Features.
Arguments ret_ann T : clear implicits.
Arguments pyfun T : clear implicits.
Arguments result V : clear implicits.
