(** Search for programs of several instructions. Python source: peak/mapper/multi.py.

    As in MapModel, a formula is given by its meaning, a Boolean function of the
    values of the variables ([And], [Or], [Implies] by C30, the assertion that the
    list is not empty kept), and the two Peak classes enter through the functions
    they compute. *)
From Coq Require Import String ZArith List Bool Arith.
From Verif Require Import Base BindModel MapIdxModel.
Import ListNotations.
Open Scope list_scope.
Open Scope Z_scope.

(** Paths: ("IR_in", f), ("IR_out", f), ("Arch_in", i, f), ("Arch_out", i, f). *)
Inductive mpath := IRin (f : string) | IRout (f : string) | Ain (i : nat) (f : string) | Aout (i : nat) (f : string).
Definition mpath_eqb (a b : mpath) : bool :=
  match a, b with
  | IRin f, IRin g | IRout f, IRout g => String.eqb f g
  | Ain i f, Ain j g | Aout i f, Aout j g => Nat.eqb i j && String.eqb f g
  | _, _ => false
  end.

Section Create.
  Context {P T : Type} (teqb : T -> T -> bool).

  (** Lines 14-36: [inputs], [outputs] are the dictionaries in order; [None] is Unbound. *)
  Definition mcreate (inputs outputs : list (P * T)) (use_unbound : bool) : res (list (list (option P * P))) :=
    let inputs_by_t := sort_by_t teqb inputs in
    let outputs_by_t := sort_by_t teqb outputs in
    let has t := match dget teqb inputs_by_t t with Some _ => true | None => false end in
    if negb use_unbound && negb (forallb (fun e => has (fst e)) outputs_by_t) then Err ValueError
    else
      let poss := map (fun o =>
        (if use_unbound then [None] else []) ++
        match dget teqb inputs_by_t (snd o) with Some l => map Some l | None => [] end) outputs in
      if forallb (fun p => Nat.ltb 0 (List.length p)) poss
      then Ok (map (fun l => combine l (map fst outputs)) (iprod poss))
      else Err AssertionError.
End Create.

Notation binding := (list (option mpath * mpath)).

Section Multi.
  Context {T : Type} (teqb : T -> T -> bool).



  (** The IR class (40-67): its fields, Const and other, its outputs, and the function
      computed. [i_sem box x g]: output [g] on inputs [x] when the black boxes inside give
      [box]. *)
  Record irinfo := mkIr {
    i_const : list (string * T);
    i_in : list (string * T);
    i_out : list (string * T);
    i_sem : (string -> Z) -> (string -> Z) -> string -> Z }.

  (** The architecture (40-68). [a_sem x g]: output [g] of a new object called on inputs
      [x] (136, 141). [a_valid f z]: [is_valid] of the word of Const field [f] (248).
      [a_boxes]: whether the object contains black boxes; with them the model stops where
      the code does. *)
  Record archinfo := mkArchI {
    a_const : list (string * T);
    a_in : list (string * T);
    a_out : list (string * T);
    a_sem : (string -> Z) -> string -> Z;
    a_valid : string -> Z -> bool;
    a_boxes : bool }.

  (** The variables: II_f (83), the outputs of black boxes in the IR (75), ArchIn_Ii_f
      (139), ArchOut_Ii_f (140), bind_in (187), bind_out (118). *)
  Inductive mvar := VIr (f : string) | VBox (f : string) | VIn (i : nat) (f : string) | VFree (i : nat) (f : string)
    | VBind | VBout.
  Definition mval := mvar -> Z.
  Definition mfm := mval -> bool.

  Variables (k : ivar) (a : archinfo) (ir : irinfo) (use_real : bool).

  (** Lines 93-113; the assertions hold for the paths made below. *)
  Definition translate (real : bool) (p : mpath) (v : mval) : Z :=
    match p with
    | IRin f => v (VIr f)
    | IRout f => i_sem ir (fun b => v (VBox b)) (fun g => v (VIr g)) f
    | Ain i f => v (VIn i f)
    | Aout j f => if real then a_sem a (fun g => v (VIn j g)) f else v (VFree j f)
    end.

  (** The arguments of [create_bindings] for instruction [i] (149-158). *)
  Definition block_inputs (i : nat) : list (mpath * T) :=
    map (fun e => (IRin (fst e), snd e)) (i_in ir) ++
    flat_map (fun j => map (fun e => (Aout j (fst e), snd e)) (a_out a)) (seq 0 i).
  Definition block_outputs (i : nat) : list (mpath * T) := map (fun e => (Ain i (fst e), snd e)) (a_in a).

  (** The loop at 135-168: one list of bindings per instruction. Line 144 reads [.value]
      of a tuple when there is a black box. *)
  Definition blocks (n : nat) : res (list (list binding)) :=
    mapM (fun i => if a_boxes a then Err AttributeError else mcreate teqb (block_inputs i) (block_outputs i) true) (seq 0 n).

  (** The bindings picked by a tuple of indices (176, 198-199); the indices are in range. *)
  Definition picked (bls : list (list binding)) (x : list nat) : list binding :=
    map (fun e => nth (snd e) (fst e) []) (combine bls x).

  (** Lines 175-183: [found[j]] over all instructions. *)
  Definition found (bs : list binding) (p : mpath) : nat :=
    length (filter (fun e => match fst e with Some q => mpath_eqb q p | None => false end) (List.concat bs)).
  Definition mfilt (bls : list (list binding)) (x : list nat) : bool :=
    forallb (fun e => Nat.eqb (found (picked bls x) (IRin (fst e))) 1) (i_in ir).

  (** Lines 184. *)
  Definition valid_bindings (bls : list (list binding)) : list (list nat) :=
    filter (mfilt bls) (iprod (map (fun bl => seq 0 (List.length bl)) bls)).

  Definition matches (n : nat) (x : mvar) (b : nat) : mfm :=
    fun v => match match_index k (Z.of_nat n) (Z.of_nat b) (v x) with Ok r => r | Err _ => false end.

  Definition mand (l : list mfm) : res mfm :=
    match l with [] => Err AssertionError | _ => Ok (fun v => forallb (fun f => f v) l) end.
  Definition mor (l : list mfm) : res mfm :=
    match l with [] => Err AssertionError | _ => Ok (fun v => existsb (fun f => f v) l) end.

  Definition enum {A} (l : list A) : list (nat * A) := combine (seq 0 (length l)) l.

  (** The equations for a binding (130, 200-205). *)
  Definition equations (real : bool) (b : binding) : list mfm :=
    map (fun e => fun v => translate real (match fst e with Some p => p | None => snd e end) v =? translate real (snd e) v) b.

  (** Lines 191-206 and 121-132. *)
  Definition choices (x : mvar) (real : bool) (bs : list binding) : list mfm :=
    map (fun e => fun v => matches (length bs) x (fst e) v && forallb (fun f => f v) (equations real (snd e))) (enum bs).

  (** Lines 208-220. *)
  Definition free_repl (n : nat) : res mfm :=
    if Nat.eqb n 1 then Ok (fun _ => true)
    else mand (flat_map (fun i => map (fun e => fun v => v (VFree i (fst e)) =? a_sem a (fun g => v (VIn i g)) (fst e)) (a_out a))
                 (seq 0 (n - 1))).

  (** What [Multi] puts together: the list of universally quantified variables, the
      formula without quantifier, and the tables [RR] uses. *)
  Record multi := mkMulti {
    m_forall : list mvar;
    m_formula : mfm;
    m_blocks : list (list binding);
    m_valid : list (list nat);
    m_outb : list binding }.

  (** Lines 69-262. [N = 0]: [reduce] of an empty list at 174. *)
  Definition multi_build (n : nat) (split : bool) : res multi :=
    if negb (Nat.eqb (length (i_const ir)) 0) then Err NotImplementedError
    else if negb (Nat.eqb (length (a_const a)) 1) then Err NotImplementedError
    else
      do bls <- blocks n;
      if Nat.eqb n 0 then Err TypeError
      else
        let vb := valid_bindings bls in
        if Nat.eqb (length vb) 0 then Err ValueError
        else
          let impl := choices VBind use_real (map (fun x => List.concat (picked bls x)) vb) in
          do fr <- (if use_real then Ok (fun _ => true) else free_repl n);
          do outb <- mcreate teqb (map (fun e => (Aout (n - 1) (fst e), snd e)) (a_out a))
                       (map (fun e => (IRout (fst e), snd e)) (i_out ir)) false;
          do out <- mor (choices VBout true outb);
          if split then Err NotImplementedError
          else
            let valids := [fun v => is_valid k (Z.of_nat (length vb)) (v VBind); fun v => is_valid k (Z.of_nat (length outb)) (v VBout)]
              ++ flat_map (fun i => map (fun e => fun v => a_valid a (fst e) (v (VIn i (fst e)))) (a_const a)) (seq 0 n) in
            do valid <- mand valids;
            do impls <- mor impl;
            let fvs := map (fun e => VIr (fst e)) (i_in ir)
              ++ flat_map (fun i => map (fun e => VIn i (fst e)) (a_in a)) (seq 0 n)
              ++ (if use_real then [] else if Nat.eqb n 1 then []
                  else flat_map (fun i => map (fun e => VFree i (fst e)) (a_out a)) (seq 0 (n - 1))) in
            Ok (mkMulti fvs (fun v => valid v && (negb (fr v && impls v) || out v)) bls vb outb).

  (** Lines 278-294: the bindings and the instruction words shown for a solution. The
      output binding is not shown. *)
  Definition multi_rr (n : nat) (m : multi) (sol : mval) : res (list (binding * list Z)) :=
    do b <- decode k (Z.of_nat (length (m_valid m))) (sol VBind);
    match nth_error (m_valid m) (Z.to_nat b) with
    | None => Err IndexError
    | Some x => Ok (map (fun e => (snd e, map (fun c => sol (VIn (fst e) (fst c))) (a_const a)))
                      (combine (seq 0 n) (picked (m_blocks m) x)))
    end.
End Multi.
Arguments irinfo : clear implicits.
Arguments archinfo : clear implicits.
