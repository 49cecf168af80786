(** Peak classes given by their source, as the mapper sees them: [SMTMapper]
    (peak/mapper/mapper.py:112-170) calls an object of the class in SMTFamily on the
    fields of an input object and wraps what it returns. Definitions only. *)
From Coq Require Import String ZArith List Bool.
From Verif Require Import Base BindModel MapIdxModel MapModel AsmModel AadtModel FormModel AdtArchModel StateMapModel.
From Verif Require FamProgModel.
Import ListNotations.
Open Scope string_scope.
Open Scope list_scope.
Open Scope Z_scope.

(** A class: the annotated parameters of [__call__], its named outputs
    (peak/features.py: [gen_input_t], [gen_output_t] make [input_t] and [output_t] of
    them), its attributes and its body. *)
Record src := Src {
  s_in : list (string * mty); s_out : list (string * mty);
  s_attrs : list (string * ty); s_body : FamProgModel.stmt }.

(** The program: values carry no modifiers. *)
Definition prog (S : src) : FamProgModel.pclass :=
  FamProgModel.PClass (map (fun p => (fst p, strip (snd p))) (s_in S)) (s_attrs S) (map (fun p => strip (snd p)) (s_out S)) (s_body S).

(** A field name of a Product and its printed form. *)
Definition name_key (s : string) : key := Key s ("('" ++ s ++ "')").
Definition fields (ps : list (string * mty)) : list (key * mty) := map (fun p => (name_key (fst p), snd p)) ps.

Section Src.
  (** The assembler object of a type. *)
  Variable asmof : ty -> asm.
  (** Components of the objects, as in [FamProgModel]. *)
  Context {Sx : Type} (xcall : string -> Sx -> list FamProgModel.xval -> res (list FamProgModel.xval * Sx)).
  Definition obj := (FamProgModel.env FamProgModel.xval * Sx)%type.

  (** The types of the class (mapper.py:120-128): [__call__] is that of an object. *)
  Definition shape (S : src) : pclass :=
    PClass (fields (s_in S)) (asmof (TProd "Input" (strip_fields (fields (s_in S)))))
      (fields (s_out S)) (asmof (TProd "Output" (strip_fields (fields (s_out S))))) (fun _ => []).

  (** Words with the classes of the parameters. *)
  Fixpoint typed_words (ps : list (string * mty)) (ws : list Z) : list FamProgModel.xval :=
    match ps, ws with
    | (_, m) :: r, w :: ws' => FamProgModel.XW (strip m) w :: typed_words r ws'
    | _, _ => []
    end.
  Definition bits (x : FamProgModel.xval) : Z := match x with FamProgModel.XW _ z => z end.

  (** A call (mapper.py:149): under a valuation the terms of SMTFamily are the words of
      PyXFamily (C80, and [C94_terms]). A call that raises ends the construction of the
      mapper; it is not told apart here. *)
  Definition src_call (S : src) (o : obj) (ws : list Z) : list Z * obj :=
    match FamProgModel.px_call asmof xcall (prog S) o (typed_words (s_in S) ws) with
    | Ok (outs, o') => (map bits outs, o')
    | Err _ => ([], o)
    end.
End Src.
