(** The enumerating mapper. Python source: peak/mapper/oldmapper.py.
    Definitions only.

    Terms are functions of the values of the CoreIR inputs. Not modelled: logging,
    state of the PE between calls (C47 is about that). *)
From Coq Require Import String ZArith List Bool.
From Verif Require Import Base BindModel.
Import ListNotations.
Open Scope list_scope.
Open Scope Z_scope.

(** [it.permutations(l)], in its order. *)
Fixpoint picks {A} (l : list A) : list (A * list A) :=
  match l with [] => [] | x :: r => (x, r) :: map (fun e => (fst e, x :: snd e)) (picks r) end.
Fixpoint perms_n {A} (n : nat) (l : list A) : list (list A) :=
  match n with O => [[]] | S n => flat_map (fun e => map (cons (fst e)) (perms_n n (snd e))) (picks l) end.
Definition perms {A} (l : list A) : list (list A) := perms_n (length l) l.

Definition env := string -> Z.
Definition term := env -> Z.

(** Line 58: the keyword [in] becomes [in_]. *)
Definition mangle (k : string) : string := if String.eqb k "in" then "in_"%string else k.
(** Lines 120-125: the key of the input map. *)
Definition demangle (v : option string) : string :=
  match v with None => "0"%string | Some v => if String.eqb v "in_" then "in"%string else v end.

(** Lines 127-131. *)
Record mapping (BI : Type) := Mapping { m_inst : BI; m_out : string; m_in : list (string * string) }.
Arguments Mapping {BI}. Arguments m_inst {BI}. Arguments m_out {BI}. Arguments m_in {BI}.

Section Gen.
  (** Types with [==]; sorts of terms; instructions of the two families. *)
  Context {T S BI SI : Type} (teqb : T -> T -> bool) (seqb : S -> S -> bool).
  (** [peak_inputs] (55), names of all outputs (118). *)
  Variable pe_in : list (string * T).
  Variable pe_out : list string.
  (** [peak_inst(smt_inst, ..)] (109-111): the sort of each returned value, [None]
      if it is no SMT value, and the value. *)
  Variable pe_call : SI -> list (option S * term).
  (** Inputs of the CoreIR module by name, sort and term of the model. *)
  Variable core_ports : list (string * T).
  Variable core : S * term.
  (** [enumerate()] of the two instruction sets, [f_fun] on each (89-96). *)
  Variable bv_all : list BI.
  Variable smt_all : list SI.
  Variables (bv_ok : BI -> bool) (smt_ok : SI -> bool).
  (** [check_equal] (137-148): whether the solver proves the terms equal. *)
  Variable equal : term -> term -> bool.

  (** Lines 18-23. *)
  Definition group_by_value (d : list (string * T)) : list (T * list string) := sort_by_t teqb d.
  Definition lookup (d : list (T * list string)) (t : T) : list string := match dget teqb d t with Some l => l | None => [] end.

  (** Line 58, a dictionary. *)
  Definition core_inputs : list (string * T) :=
    fold_left (fun d e => dset String.eqb d (mangle (fst e)) (snd e)) core_ports [].

  (** Lines 68-70. *)
  Definition asserts : bool :=
    let c := group_by_value core_inputs in let p := group_by_value pe_in in
    forallb (fun e => match dget teqb p (fst e) with Some l => (length (snd e) <=? length l)%nat | None => false end) c.

  (** Lines 74-78 for one type. *)
  Definition matchings (cs ps : list string) : list (list (option string * string)) :=
    let ci := map Some cs ++ repeat None (length ps - length cs) in
    map (fun perm => combine ci perm) (perms ps).

  (** Lines 65-85. *)
  Definition bindings : list (list (option string * string)) :=
    let c := group_by_value core_inputs in
    map (@List.concat _) (iprod (map (fun e => matchings (lookup c (fst e)) (snd e)) (group_by_value pe_in))).

  (** Line 106: the value of a PE input. *)
  Definition bound (b : list (option string * string)) (x : env) : env :=
    fun k => match dget String.eqb (map (fun e => (snd e, fst e)) b) k with Some (Some v) => x v | _ => 0 end.
  (** Lines 107 and 119-125. *)
  Definition input_map (b : list (option string * string)) : list (string * string) :=
    fold_left (fun d e => dset String.eqb d (demangle (fst e)) (snd e)) b [].

  Fixpoint enum_from {A} (n : nat) (l : list A) : list (nat * A) :=
    match l with [] => [] | x :: r => (n, x) :: enum_from (Datatypes.S n) r end.

  Definition opt_seqb (a : option S) (s : S) : bool := match a with Some a => seqb a s | None => false end.

  (** Lines 101-132: all that is yielded, in order; an error ends the generator. *)
  Definition events : list (res (mapping BI)) :=
    let bvs := filter bv_ok bv_all in
    flat_map (fun ei => flat_map (fun b => flat_map (fun eo =>
      let '(s, t) := snd eo in
      if opt_seqb s (fst core) && equal (fun x => t (bound b x)) (snd core) then
        [match nth_error pe_out (fst eo), nth_error bvs (fst ei) with
         | Some o, Some i => Ok (Mapping i o (input_map b))
         | _, _ => Err IndexError
         end]
      else []) (enum_from 0 (pe_call (snd ei)))) bindings) (enum_from 0 (filter smt_ok smt_all)).

  (** Lines 86-88 and 132-135: stop after [max - found] mappings. *)
  Fixpoint drain (max : Z) (evs : list (res (mapping BI))) : list (mapping BI) * option pyerr :=
    if max <=? 0 then ([], None) else
    match evs with
    | [] => ([], None)
    | Err e :: _ => ([], Some e)
    | Ok m :: r => let '(ms, e) := drain (max - 1) r in (m :: ms, e)
    end.

  (** [list(gen_mapping(...))], with the exception that ends it. [attrs]: the
      attributes of [peak_class.__call__], read in lines 55-56. *)
  Definition gen_mapping (attrs : list string) (max_mappings : Z) : list (mapping BI) * option pyerr :=
    if negb (existsb (String.eqb "_peak_inputs_") attrs && existsb (String.eqb "_peak_outputs_") attrs) then ([], Some AttributeError) else
    if negb asserts then ([], Some AssertionError) else drain max_mappings events.
End Gen.

(** The attributes the library sets on [__call__]: [name_outputs]
    (features.py:26), [gen_input_t] (56), [gen_output_t] (74-78), from [PeakMeta]
    (peak.py:20-27). [user]: those set by other code. *)
Definition call_attrs (user : list string) : list string := user ++ ["_output_t"; "_input_t"]%string.
