(** Black boxes. Python source: peak/black_box.py. *)
From Coq Require Import String ZArith List Bool.
From Verif Require Import Base.
Import ListNotations.

(** ** The BlackBox protocol *)
Section BB.
  (** [D]: values other than [None]. A Python value here is [option D]. *)
  Context {D : Type}.

  (** [self._output_vals]: [None], one value, or a tuple. *)
  Inductive outs := ONone | OVal (d : D) | OTup (l : list (option D)).

  Record bbstate := { bb_in : option (list (option D)); bb_out : outs }.

  (** black_box.py:37-39. *)
  Definition bb_init : bbstate := {| bb_in := None; bb_out := ONone |}.

  (** Declared interface: [ins] are the names in [input_t], [None] when
      [input_t] is None, i.e. for a [__call__] without inputs
      (features.py:51-52). [nout] is the number of fields of [output_t],
      [None] when [output_t] is None. *)
  Context (ins : option (list string)) (nout : option nat).

  (** Equality of key views: same set of names. *)
  Definition same_keys (a b : list string) : bool :=
    forallb (fun x => existsb (String.eqb x) b) a && forallb (fun x => existsb (String.eqb x) a) b.

  (** black_box.py:44-58. *)
  Definition bb_call (s : bbstate) (args : list (option D)) (kw : list (string * option D))
    : res outs * bbstate :=
    match bb_out s with
    | ONone => (Err ValueError, s)
    | o =>
        if Bool.eqb (Nat.ltb 0 (length args)) (Nat.ltb 0 (length kw)) then (Err ValueError, s)
        else match ins with
             | None => (Err AttributeError, s)      (* None.field_dict *)
             | Some names =>
                 if Nat.ltb 0 (length args) then
                   if Nat.eqb (length args) (length names)
                   then (Ok o, {| bb_in := Some args; bb_out := o |})
                   else (Err ValueError, s)
                 else
                   if same_keys (map fst kw) names
                   then (Ok o, {| bb_in := Some (map snd kw); bb_out := o |})
                   else (Err ValueError, s)
             end
    end.

  (** black_box.py:65-68. *)
  Definition bb_get_inputs (s : bbstate) : res (list (option D)) :=
    match bb_in s with None => Err ValueError | Some l => Ok l end.

  (** black_box.py:70-77. *)
  Definition bb_set_outputs (s : bbstate) (args : list (option D)) : res unit * bbstate :=
    match nout with
    | None => (Err AttributeError, s)
    | Some n =>
        if Nat.eqb (length args) n then
          (Ok tt, {| bb_in := bb_in s;
                     bb_out := match args with
                               | [None] => ONone
                               | [Some d] => OVal d
                               | _ => OTup args
                               end |})
        else (Err ValueError, s)
    end.

  Inductive bbop :=
  | BSet (args : list (option D))
  | BCall (args : list (option D)) (kw : list (string * option D))
  | BGet.

  (** Results of the three operations. *)
  Inductive bbres := RUnit | ROut (o : outs) | RIn (l : list (option D)).

  Definition bb_step (s : bbstate) (o : bbop) : res bbres * bbstate :=
    match o with
    | BSet a => let (r, s') := bb_set_outputs s a in
                (match r with Ok _ => Ok RUnit | Err e => Err e end, s')
    | BCall a k => let (r, s') := bb_call s a k in
                   (match r with Ok x => Ok (ROut x) | Err e => Err e end, s')
    | BGet => (match bb_get_inputs s with Ok l => Ok (RIn l) | Err e => Err e end, s)
    end.

  Fixpoint bb_run (s : bbstate) (h : list bbop) : list (res bbres) * bbstate :=
    match h with
    | [] => ([], s)
    | o :: h' =>
        let (r, s') := bb_step s o in
        let (rs, s'') := bb_run s' h' in (r :: rs, s'')
    end.
End BB.
Arguments outs D : clear implicits.
Arguments bbstate D : clear implicits.
Arguments bbop D : clear implicits.
Arguments bbres D : clear implicits.

(** ** Discovery *)

(** A Python object: is it an instance of Peak, of BlackBox, and its
    [__dict__] as references. Attribute registers ([_peak_]) and class
    attributes are not modelled. *)
Record pobj := { o_peak : bool; o_bb : bool; o_fields : list (string * nat) }.
Definition bheap := list pobj.
Definition path := list string.
Definition path_eqb : path -> path -> bool := list_eqb String.eqb.
Definition bbdict := list (path * nat).

(** Both functions carry [lru_cache(None)] (black_box.py:3, 20). Arguments are
    compared by identity of the object and equality of the path. *)
Record bcache := { c_all : list ((nat * path) * bbdict); c_one : list ((nat * path) * nat) }.
Definition ckey_eqb (a b : nat * path) : bool := Nat.eqb (fst a) (fst b) && path_eqb (snd a) (snd b).
Definition add_all (c : bcache) k v : bcache := {| c_all := (k, v) :: c_all c; c_one := c_one c |}.
Definition add_one (c : bcache) k v : bcache := {| c_all := c_all c; c_one := (k, v) :: c_one c |}.

(** [{**ret, **sub}]. *)
Definition merge (ret sub : bbdict) : bbdict :=
  fold_left (fun d kv => dset path_eqb d (fst kv) (snd kv)) sub ret.

(** black_box.py:4-18 ([get_black_boxes]). Fuel bounds the recursion depth
    (Python raises RecursionError). A reference outside the heap does not
    occur; it is reported as OutOfFuel too. *)
Fixpoint gbb (fuel : nat) (h : bheap) (c : bcache) (o : nat) (p : path) : res bbdict * bcache :=
  match dget ckey_eqb (c_all c) (o, p) with
  | Some r => (Ok r, c)
  | None =>
    match fuel with
    | O => (Err OutOfFuel, c)
    | S f =>
      match nth_error h o with
      | None => (Err OutOfFuel, c)
      | Some ob =>
        if negb (o_peak ob) then (Err ValueError, c)
        else if o_bb ob then (Ok [(p, o)], add_all c (o, p) [(p, o)])
        else
          let fix loop fs ret c :=
            match fs with
            | [] => (Ok ret, c)
            | (n, l) :: fs' =>
                match nth_error h l with
                | Some ob' =>
                    if o_peak ob' then
                      let (r, c') := gbb f h c l (p ++ [n]) in
                      match r with
                      | Ok sub => loop fs' (merge ret sub) c'
                      | Err e => (Err e, c')
                      end
                    else loop fs' ret c
                | None => (Err OutOfFuel, c)
                end
            end in
          let (r, c') := loop (o_fields ob) [] c in
          match r with
          | Ok d => (Ok d, add_all c' (o, p) d)
          | Err e => (Err e, c')
          end
      end
    end
  end.

(** black_box.py:21-32 ([get_black_box]) without the cache: a missing attribute
    and an attribute that is not a Peak object both raise ValueError. *)
Fixpoint walk (h : bheap) (o : nat) (p : path) : res nat :=
  match p with
  | [] => Ok o
  | n :: p' =>
      match nth_error h o with
      | None => Err OutOfFuel
      | Some ob =>
          match dget String.eqb (o_fields ob) n with
          | None => Err ValueError
          | Some l =>
              match nth_error h l with
              | None => Err OutOfFuel
              | Some ob' => if o_peak ob' then walk h l p' else Err ValueError
              end
          end
      end
  end.

Definition gb1 (h : bheap) (c : bcache) (o : nat) (p : path) : res nat * bcache :=
  match dget ckey_eqb (c_one c) (o, p) with
  | Some r => (Ok r, c)
  | None => match walk h o p with
            | Ok r => (Ok r, add_one c (o, p) r)
            | Err e => (Err e, c)
            end
  end.

(** Histories: queries and attribute assignments. *)
Inductive gop := GAll (o : nat) | GOne (o : nat) (p : path) | GSetAttr (o : nat) (n : string) (l : nat).
Inductive gres := GDict (d : bbdict) | GObj (o : nat) | GUnit.

Fixpoint set_field (h : bheap) (o : nat) (n : string) (l : nat) : bheap :=
  match h, o with
  | [], _ => []
  | ob :: r, O => {| o_peak := o_peak ob; o_bb := o_bb ob; o_fields := dset String.eqb (o_fields ob) n l |} :: r
  | ob :: r, S o' => ob :: set_field r o' n l
  end.

Definition gstep (fuel : nat) (st : bheap * bcache) (x : gop) : res gres * (bheap * bcache) :=
  let (h, c) := st in
  match x with
  | GAll o => let (r, c') := gbb fuel h c o [] in
              (match r with Ok d => Ok (GDict d) | Err e => Err e end, (h, c'))
  | GOne o p => let (r, c') := gb1 h c o p in
                (match r with Ok d => Ok (GObj d) | Err e => Err e end, (h, c'))
  | GSetAttr o n l => (Ok GUnit, (set_field h o n l, c))
  end.

Fixpoint grun (fuel : nat) (st : bheap * bcache) (xs : list gop) : list (res gres) * (bheap * bcache) :=
  match xs with
  | [] => ([], st)
  | x :: xs' =>
      let (r, st') := gstep fuel st x in
      let (rs, st'') := grun fuel st' xs' in (r :: rs, st'')
  end.
Definition empty_cache : bcache := {| c_all := []; c_one := [] |}.
