(** Enumeration of candidate bindings. Python source: peak/mapper/utils.py:374-422. *)
From Coq Require Import ZArith List Bool Arith.
From Verif Require Import Base.
Import ListNotations.
Open Scope list_scope.

(** [itertools.product] of the lists in [ls], in its order. *)
Fixpoint iprod {A} (ls : list (list A)) : list (list A) :=
  match ls with
  | [] => [[]]
  | l :: r => flat_map (fun x => map (cons x) (iprod r)) l
  end.

Section Bind.
  (** [P]: paths, [T]: types, with their [==]. *)
  Context {P T : Type} (peqb : P -> P -> bool) (teqb : T -> T -> bool).

  (** Lines 374-380: [setdefault(t, []).append(path)] for each item. *)
  Fixpoint sort_by_t_from (d : list (T * list P)) (flat : list (P * T)) : list (T * list P) :=
    match flat with
    | [] => d
    | (p, t) :: r =>
        let old := match dget teqb d t with Some l => l | None => [] end in
        sort_by_t_from (dset teqb d t (old ++ [p])) r
    end.
  Definition sort_by_t (flat : list (P * T)) : list (T * list P) := sort_by_t_from [] flat.

  (** [poss.count(ir_path)] (406); [None] is Unbound, which equals no path. *)
  Definition opt_eqb (a b : option P) : bool :=
    match a, b with Some x, Some y => peqb x y | None, None => true | _, _ => false end.
  Definition count (x : option P) (l : list (option P)) : nat :=
    length (filter (opt_eqb x) l).

  (** Lines 403-411. *)
  Definition filt (ir_paths : list P) (poss : list (option P)) : bool :=
    forallb (fun p => Nat.eqb (count (Some p) poss) 1) ir_paths.

  (** Lines 395-417 for one type; the loop at 414-416. *)
  Definition type_bindings (ir_paths arch_paths : list P) : list (list (option P * P)) :=
    let ir_poss := map Some ir_paths ++ [None] in
    map (fun m => combine m arch_paths)
        (filter (filt ir_paths) (iprod (repeat ir_poss (length arch_paths)))).

  (** Lines 384-422. *)
  Definition create_bindings (arch_flat ir_flat : list (P * T)) : list (list (option P * P)) :=
    let arch_by_t := sort_by_t arch_flat in
    let ir_by_t := sort_by_t ir_flat in
    if forallb (fun e => match dget teqb arch_by_t (fst e) with Some _ => true | None => false end) ir_by_t
    then map (@List.concat _)
           (iprod (map (fun e =>
              type_bindings (match dget teqb ir_by_t (fst e) with Some l => l | None => [] end) (snd e))
              arch_by_t))
    else [].
End Bind.
