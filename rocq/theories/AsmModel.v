(** Model of peak/assembler/assembler.py, assembler_util.py and the caching in
    assembler_abc.py. Definitions only. *)
From Coq Require Import String ZArith List Bool.
From Verif Require Import Base.
Import ListNotations.
Open Scope Z_scope.

(** * ISA types and instructions (hwtypes.adt) *)

(** Key of a [field_dict]: identity and [repr] of the (key, field) pair, which
    is what [_sum] sorts by (assembler.py:191-194). For Product and TaggedUnion
    the key is the field name, for Tuple the index, for Sum the member type. *)
Record key := Key { kname : string; krepr : string }.
Definition key_eqb (a b : key) : bool :=
  String.eqb (kname a) (kname b) && String.eqb (krepr a) (krepr b).

(** Enum member. Explicit members compare by value; members declared with
    [new_instruction()] compare by identity, here their name. *)
Inductive emem := EInt (v : Z) | EAuto (n : string).
Definition emem_eqb (a b : emem) : bool :=
  match a, b with
  | EInt x, EInt y => x =? y
  | EAuto x, EAuto y => String.eqb x y
  | _, _ => false
  end.

(** ISA types. [cid] is the class identity (classes are nominal in Python).
    [TProd] covers Product and Tuple, which assembler.py treats alike
    (_tuple, 146-177). [TSum] covers Sum ([tagged] = false) and TaggedUnion.
    [TSInt] is a signed bit vector: same bits as [TBV], but [int()] of an
    instance is negative when the top bit is set (hwtypes, assumed). *)
Inductive ty :=
| TBit
| TBV (w : Z)
| TSInt (w : Z)
| TEnum (cid : string) (ms : list emem)
| TProd (cid : string) (fs : list (key * ty))
| TSum (tagged : bool) (cid : string) (fs : list (key * ty)).

(** Instances. [VBV] carries the unsigned bits, also for signed vectors. *)
Inductive val :=
| VBit (b : bool)
| VBV (z : Z)
| VEnum (m : emem)
| VProd (vs : list val)
| VSum (k : key) (v : val).

Definition fields_eqb (eqb : ty -> ty -> bool) :=
  fix go (a b : list (key * ty)) : bool :=
    match a, b with
    | [], [] => true
    | (k, t) :: a', (k', t') :: b' => key_eqb k k' && eqb t t' && go a' b'
    | _, _ => false
    end.

Fixpoint ty_eqb (a b : ty) : bool :=
  match a, b with
  | TBit, TBit => true
  | TBV w, TBV w' => w =? w'
  | TSInt w, TSInt w' => w =? w'
  | TEnum c ms, TEnum c' ms' => String.eqb c c' && list_eqb emem_eqb ms ms'
  | TProd c fs, TProd c' fs' => String.eqb c c' && fields_eqb ty_eqb fs fs'
  | TSum g c fs, TSum g' c' fs' =>
      Bool.eqb g g' && String.eqb c c' && fields_eqb ty_eqb fs fs'
  | _, _ => false
  end.

(** * Opcode validators (assembler_util.py:14-123) *)

(** The closures that [_gen_is_valid] can return. *)
Inductive validator :=
| VdAll                        (* 37-38 *)
| VdNaive (ops : list Z)       (* 42-45 *)
| VdUpper (mx : Z)             (* 55-56 *)
| VdLower (mn : Z)             (* 58-59 *)
| VdBetween (mn mx : Z)        (* 61-62 *)
| VdOneHot (invalid : list Z)  (* 83-92 *)
| VdRanges (rs : list validator). (* 117-121 *)

(** Calling such a closure on an opcode [op] that is a bit vector of width [W].
    Integers met by a bit vector operator are truncated to [W] bits. *)
Fixpoint run_validator (W op : Z) (v : validator) : bool :=
  match v with
  | VdAll => true
  | VdNaive ops => fold_left orb (map (fun c => op =? wrap W c) ops) false
  | VdUpper mx => op <=? wrap W mx
  | VdLower mn => wrap W mn <=? op
  | VdBetween mn mx => (wrap W mn <=? op) && (op <=? wrap W mx)
  | VdOneHot invalid =>
      (Z.land op (wrap W (op - 1)) =? 0)
      && fold_left andb (map (fun b => negb (op =? wrap W b)) invalid) true
  | VdRanges rs =>
      (* 118-121: the reduction starts from Bit(1) *)
      fold_left orb (map (run_validator W op) rs) true
  end.

(** [_validator_cache] (15): keyed by the sorted opcodes only. *)
Definition vcache := list (list Z * validator).
Definition vkey_eqb := list_eqb Z.eqb.

(** [all(x & (x - 1) == 0 for x in opcodes)] (65) *)
Definition all_one_hot (ops : list Z) : bool :=
  forallb (fun x => Z.land x (x - 1) =? 0) ops.

(** The [while x < (1 << width)] loop (73-77), x = 1, 2, 4, ...; it visits
    exactly the [width] powers below 2^width. *)
Fixpoint one_hot_missing (n : nat) (x : Z) (ops : list Z) : list Z :=
  match n with
  | O => []
  | S n' => (if zmem x ops then [] else [x]) ++ one_hot_missing n' (Z.shiftl x 1) ops
  end.
Definition one_hot_invalid (w : Z) (ops : list Z) : list Z :=
  (if zmem 0 ops then [] else [0]) ++ one_hot_missing (Z.to_nat w) 1 ops.

(** The loop over neighbouring opcodes (96-113): the list of (lo, hi) with
    range(lo, hi) handed to the recursive calls. *)
Fixpoint split_ranges (lb i : Z) (rest : list Z) : list (Z * Z) :=
  match rest with
  | [] => [(lb, i + 1)]
  | j :: rest' =>
      if j =? i + 1 then split_ranges lb j rest'
      else (lb, i + 1) :: split_ranges j j rest'
  end.

Section GenIsValid.
  Variable rec : vcache -> list Z -> Z -> res (validator * vcache).

  (** Recursive calls for the ranges, threading the cache. *)
  Fixpoint gen_ranges (c : vcache) (rs : list (Z * Z)) (w : Z)
    : res (list validator * vcache) :=
    match rs with
    | [] => Ok ([], c)
    | (lo, hi) :: rs' =>
        do '(v, c1) <- rec c (pyrange lo hi) w;
        do '(vs, c2) <- gen_ranges c1 rs' w;
        Ok (v :: vs, c2)
    end.

  (** [_gen_is_valid] (16-123). [11 * n < 10 * m] is [1.1 * n < m]; the two
      agree because 1.1 rounds upward in binary and the lengths are small. *)
  Definition gen_body (c : vcache) (opcodes : list Z) (w : Z)
    : res (validator * vcache) :=
    let ops := isort Z.leb opcodes in
    match dget vkey_eqb c ops with
    | Some v => Ok (v, c)
    | None =>
      match ops with
      | [] => Err IndexError
      | min_op :: tl =>
        let max_op := last ops min_op in
        let is_range := list_eqb Z.eqb ops (pyrange min_op (max_op + 1)) in
        let implicit_lb := min_op =? 0 in
        let implicit_ub := max_op =? Z.shiftl 1 w - 1 in
        let ret v c := Ok (v, dset vkey_eqb c ops v) in
        if is_range && implicit_lb && implicit_ub then ret VdAll c
        else if (length ops <? 3)%nat then ret (VdNaive ops) c
        else if is_range then
          if implicit_lb then ret (VdUpper max_op) c
          else if implicit_ub then ret (VdLower min_op) c
          else ret (VdBetween min_op max_op) c
        else if all_one_hot ops then
          let invalid := one_hot_invalid w ops in
          if (length invalid <? length ops)%nat then ret (VdOneHot invalid) c
          else ret (VdNaive ops) c
        else
          do '(rs, c') <- gen_ranges c (split_ranges min_op min_op tl) w;
          (* setdefault: the recursive calls cannot have added this key *)
          if 11 * Z.of_nat (length rs) <? 10 * Z.of_nat (length ops)
          then ret (VdRanges rs) c'
          else ret (VdNaive ops) c'
      end
    end.
End GenIsValid.

(** The recursion is on contiguous ranges, which never recurse again, so depth
    two is enough; running out is reported as [OutOfFuel]. *)
Fixpoint gen_fuel (n : nat) : vcache -> list Z -> Z -> res (validator * vcache) :=
  match n with
  | O => fun _ _ _ => Err OutOfFuel
  | S n' => gen_body (gen_fuel n')
  end.
Definition gen_is_valid := gen_fuel 2.

(** * Enum tables (assembler.py:101-143) *)

(** First loop (109-119): explicit members enter the table, others are free. *)
Fixpoint enum_scan (ms : list emem) (tbl : list (emem * Z)) (used : list Z)
  (free : list emem) : res (list (emem * Z) * list Z * list emem) :=
  match ms with
  | [] => Ok (tbl, used, free)
  | EInt v :: r =>
      if v <? 0 then Err ValueError
      else enum_scan r (dset emem_eqb tbl (EInt v) v) (v :: used) free
  | EAuto n :: r => enum_scan r tbl used (free ++ [EAuto n])
  end.

(** [while c in used: c += 1] (123-124) *)
Fixpoint next_free (fuel : nat) (c : Z) (used : list Z) : res Z :=
  match fuel with
  | O => Err OutOfFuel
  | S f => if zmem c used then next_free f (c + 1) used else Ok c
  end.

(** Second loop (121-127). *)
Fixpoint enum_assign (free : list emem) (c : Z) (tbl : list (emem * Z))
  (used : list Z) : res (list (emem * Z)) :=
  match free with
  | [] => Ok tbl
  | m :: r =>
      do c' <- next_free (S (length used)) c used;
      enum_assign r c' (dset emem_eqb tbl m c') (c' :: used)
  end.

(** The [asm] dictionary. [dsm] is its inverse: the code fills both with the
    same pairs, and values are distinct (proved). *)
Definition enum_table (ms : list emem) : res (list (emem * Z)) :=
  do '(tbl, used, free) <- enum_scan ms [] [] [];
  do tbl' <- enum_assign free 0 tbl used;
  match tbl' with [] => Err TypeError | _ => Ok tbl' end.

Definition zmax (l : list Z) : Z := fold_left Z.max l 0.

(** [dsm[opcode.value]] (140-141) *)
Fixpoint dsm_lookup (tbl : list (emem * Z)) (z : Z) : res emem :=
  match tbl with
  | [] => Err KeyError
  | (m, c) :: r => if c =? z then Ok m else dsm_lookup r z
  end.

(** * Assembler objects (assembler.py:16-43) *)

(** [e_fields] of a Sum: key, tag, (lo, hi) layout, member assembler, in tag
    order. [e_groups]: per member type, its validator, layout and assembler
    (tag_validators, 215-217). *)
Inductive asm :=
| AField (kind : ty) (w : Z)
| AEnum (tbl : list (emem * Z)) (w : Z) (isv : validator)
| ATuple (w : Z) (fs : list (key * (Z * Z) * asm))
| ASum (w tagw : Z) (fs : list (key * Z * (Z * Z) * asm))
       (groups : list (ty * validator * (Z * Z) * asm)) (tag_isv : validator).

Definition a_width (a : asm) : Z :=
  match a with
  | AField _ w => w
  | AEnum _ w _ => w
  | ATuple w _ => w
  | ASum w _ _ _ _ => w
  end.

(** Process state: the validator cache and the instance cache of
    AssemblerMeta (assembler_abc.py:13-40). *)
Record pstate := PS { p_vc : vcache; p_ic : list (ty * asm) }.

Definition ps0 : pstate := PS [] [].

(** Sorting key of [_sum] (191-194): the repr, compared as a string. *)
Definition str_leb (a b : string) : bool :=
  match String.compare a b with Gt => false | _ => true end.
Definition field_leb (a b : key * ty) : bool := str_leb (krepr (fst a)) (krepr (fst b)).

(** Python groups members by type, in order of first appearance
    (field_to_tags, 186-202). *)
Definition group_by_ty (fs : list (key * ty)) : list (ty * list Z) :=
  (fix go (fs : list (key * ty)) (tag : Z) (acc : list (ty * list Z)) :=
     match fs with
     | [] => acc
     | (_, t) :: r =>
         let old := match dget ty_eqb acc t with Some l => l | None => [] end in
         go r (tag + 1) (dset ty_eqb acc t (old ++ [tag]))
     end) fs 0 [].

Section Build.
  Variable build : pstate -> ty -> res (asm * pstate).

  (** Widths of Tuple fields, first loop of [_tuple] (146-153). *)
  Fixpoint build_tuple (st : pstate) (base : Z) (fs : list (key * ty))
    : res (list (key * (Z * Z) * asm) * Z * pstate) :=
    match fs with
    | [] => Ok ([], base, st)
    | (k, t) :: r =>
        do '(a, st1) <- build st t;
        let hi := base + a_width a in
        do '(rest, w, st2) <- build_tuple st1 hi r;
        Ok ((k, (base, hi), a) :: rest, w, st2)
    end.

  (** First loop of [_sum] (196-210). [Assembler(field)] of a type met before
      returns the cached object, so building it again is the same. *)
  Fixpoint build_sum (st : pstate) (tagw tag pw : Z) (fs : list (key * ty))
    : res (list (key * Z * (Z * Z) * asm) * Z * pstate) :=
    match fs with
    | [] => Ok ([], pw, st)
    | (k, t) :: r =>
        do '(a, st1) <- build st t;
        do '(rest, w, st2) <-
           build_sum st1 tagw (tag + 1) (Z.max pw (a_width a)) r;
        Ok ((k, tag, (tagw, tagw + a_width a), a) :: rest, w, st2)
    end.

  (** Tag validators per member type (215-217). *)
  Fixpoint build_groups (st : pstate) (tagw : Z) (gs : list (ty * list Z))
    : res (list (ty * validator * (Z * Z) * asm) * pstate) :=
    match gs with
    | [] => Ok ([], st)
    | (t, tags) :: r =>
        do '(a, st0) <- build st t;
        do '(v, vc) <- gen_is_valid (p_vc st0) tags tagw;
        do '(rest, st2) <- build_groups (PS vc (p_ic st0)) tagw r;
        Ok ((t, v, (tagw, tagw + a_width a), a) :: rest, st2)
    end.
End Build.

(** [Assembler.__init__] for one type, given construction of members. *)
Definition init_asm (build : pstate -> ty -> res (asm * pstate))
  (st : pstate) (t : ty) : res (asm * pstate) :=
  match t with
  | TBit => Ok (AField TBit 1, st)
  | TBV w => Ok (AField t w, st)
  | TSInt w => Ok (AField t w, st)
  | TEnum _ ms =>
      do tbl <- enum_table ms;
      let codes := map snd tbl in
      let w := bit_length (zmax codes) in
      do '(v, vc) <- gen_is_valid (p_vc st) codes w;
      Ok (AEnum tbl w v, PS vc (p_ic st))
  | TProd _ fs =>
      do '(fs', w, st') <- build_tuple build st 0 fs;
      Ok (ATuple w fs', st')
  | TSum _ _ fs =>
      let tagw := bit_length (Z.of_nat (length fs) - 1) in
      let sorted := isort field_leb fs in
      match sorted with
      | [] => Err NameError (* 212: [tag] is unbound *)
      | _ =>
        do '(fs', pw, st1) <- build_sum build st tagw 0 0 sorted;
        do '(gs, st2) <- build_groups build st1 tagw (group_by_ty sorted);
        do '(tv, vc) <- gen_is_valid (p_vc st2)
                          (map (fun e => snd (fst (fst e))) fs') tagw;
        Ok (ASum (tagw + pw) tagw fs' gs tv, PS vc (p_ic st2))
      end
  end.

(** Nesting depth bounds the recursion of [Assembler(field)]. *)
Fixpoint depth (t : ty) : nat :=
  match t with
  | TProd _ fs | TSum _ _ fs =>
      S ((fix go (l : list (key * ty)) : nat :=
            match l with [] => O | (_, t) :: r => Nat.max (depth t) (go r) end) fs)
  | _ => 1%nat
  end.

(** [Assembler(isa)] through AssemblerMeta.__call__ (assembler_abc.py:27-40). *)
Fixpoint build_fuel (n : nat) (st : pstate) (t : ty) : res (asm * pstate) :=
  match n with
  | O => Err OutOfFuel
  | S n' =>
      match dget ty_eqb (p_ic st) t with
      | Some a => Ok (a, st)
      | None =>
          do '(a, st') <- init_asm (build_fuel n') st t;
          Ok (a, PS (p_vc st') (dset ty_eqb (p_ic st') t a))
      end
  end.
Definition build (st : pstate) (t : ty) : res (asm * pstate) :=
  build_fuel (depth t) st t.

(** A process history: the types whose assemblers were requested, in order.
    A failing construction raises while building some member; the caches then
    hold exactly the members completed before, which is the state of the history
    listing those members instead. The model therefore skips failing entries. *)
Fixpoint run_history (st : pstate) (h : list ty) : pstate :=
  match h with
  | [] => st
  | t :: r =>
      match build st t with
      | Ok (_, st') => run_history st' r
      | Err _ => run_history st r
      end
  end.

(** * assemble (assembler.py:53-58, 139, 155-161, 219-231, 271-272) *)

(** [int(inst)] for a leaf. *)
Definition leaf_int (kind : ty) (v : val) : res Z :=
  match kind, v with
  | TBit, VBit b => Ok (b2z b)
  | TBV _, VBV z => Ok z
  | TSInt w, VBV z => Ok (to_signed w z)
  | _, _ => Err TypeError
  end.

Fixpoint sum_find {B} (fs : list (key * Z * (Z * Z) * B)) (k : key)
  : option (Z * (Z * Z) * B) :=
  match fs with
  | [] => None
  | (k', tag, lay, b) :: r => if key_eqb k k' then Some (tag, lay, b) else sum_find r k
  end.

(** [_asm]. In a Sum, [name_to_field[k]] raises KeyError for an unknown member;
    the assertion that the value has the member's type (226) is represented by
    the member assembler rejecting a value of another shape. *)
Fixpoint a_asm (a : asm) (v : val) {struct a} : res Z :=
  match a with
  | AField kind _ => leaf_int kind v
  | AEnum tbl _ _ =>
      match v with
      | VEnum m => dgetE emem_eqb tbl m
      | _ => Err KeyError
      end
  | ATuple _ fs =>
      match v with
      | VProd vs =>
          (fix go (fs : list (key * (Z * Z) * asm)) (vs : list val) (opcode : Z)
             : res Z :=
             match fs, vs with
             | [], _ => Ok opcode
             | (_, (lo, _), f) :: fs', v :: vs' =>
                 do x <- a_asm f v;
                 go fs' vs' (Z.lor opcode (Z.shiftl x lo))
             | _, [] => Err KeyError
             end) fs vs 0
      | _ => Err AttributeError
      end
  | ASum _ tagw fs _ _ =>
      match v with
      | VSum k v =>
          (fix go (fs : list (key * Z * (Z * Z) * asm)) : res Z :=
             match fs with
             | [] => Err KeyError
             | (k', tag, _, f) :: fs' =>
                 if key_eqb k k' then
                   do payload <- a_asm f v;
                   Ok (Z.lor (Z.shiftl payload tagw) tag)
                 else go fs'
             end) fs
      | _ => Err AttributeError
      end
  end.

Definition assemble (a : asm) (v : val) : res Z :=
  do opcode <- a_asm a v;
  if bit_length opcode <=? a_width a then Ok (wrap (a_width a) opcode)
  else Err AssertionError.

(** * is_valid (assembler.py:142, 170-175, 243-251, 277-278) *)
Fixpoint a_isv (a : asm) (op : Z) {struct a} : bool :=
  match a with
  | AField _ _ => true
  | AEnum _ w v => run_validator w op v
  | ATuple _ fs =>
      fold_left andb
        (map (fun e : key * (Z * Z) * asm =>
                a_isv (snd e) (slice op (fst (snd (fst e))) (snd (snd (fst e))))) fs) true
  | ASum _ tagw _ gs _ =>
      let tag := slice op 0 tagw in
      fold_left orb
        (map (fun e : ty * validator * (Z * Z) * asm =>
                run_validator tagw tag (snd (fst (fst e)))
                && a_isv (snd e) (slice op (fst (snd (fst e))) (snd (snd (fst e))))) gs)
        false
  end.

(** * disassemble (assembler.py:60-63, 140-141, 163-168, 233-240, 274-275) *)
Definition leaf_val (kind : ty) (op : Z) : val :=
  match kind with
  | TBit => VBit (negb (op =? 0))
  | _ => VBV op
  end.

Fixpoint disassemble (a : asm) (op : Z) {struct a} : res val :=
  if negb (a_isv a op) then Err ValueError
  else
  match a with
  | AField kind _ => Ok (leaf_val kind op)
  | AEnum tbl _ _ => do m <- dsm_lookup tbl op; Ok (VEnum m)
  | ATuple _ fs =>
      do vs <- mapM (fun e : key * (Z * Z) * asm =>
                 disassemble (snd e) (slice op (fst (snd (fst e))) (snd (snd (fst e))))) fs;
      Ok (VProd vs)
  | ASum _ tagw fs _ _ =>
      let tag := slice op 0 tagw in
      (fix go (fs : list (key * Z * (Z * Z) * asm)) : res val :=
         match fs with
         | [] => Err KeyError
         | (k, tag', (lo, hi), f) :: fs' =>
             if tag =? tag' then
               do v <- disassemble f (slice op lo hi);
               Ok (VSum k v)
             else go fs'
         end) fs
  end.

(** * Tags (assembler.py:68-95, 254-258) *)
Definition assemble_tag (a : asm) (k : key) : res Z :=
  match a with
  | ASum _ tagw fs _ _ =>
      match sum_find fs k with
      | Some (tag, _, _) => Ok (wrap tagw tag)
      | None => Err KeyError
      end
  | _ => Err TypeError
  end.

Definition is_valid_tag (a : asm) (tag : Z) : res bool :=
  match a with
  | ASum _ tagw _ _ tv => Ok (run_validator tagw tag tv)
  | _ => Err TypeError
  end.

Fixpoint tag_name (fs : list (key * Z * (Z * Z) * asm)) (tag : Z) : res key :=
  match fs with
  | [] => Err KeyError
  | (k, tag', _, _) :: r => if tag =? tag' then Ok k else tag_name r tag
  end.

(** 73-78: the message of the ValueError mentions the undefined name [opcode],
    so an invalid tag raises NameError. *)
Definition disassemble_tag (a : asm) (tag : Z) : res key :=
  match a with
  | ASum _ tagw fs _ tv =>
      if negb (run_validator tagw tag tv) then Err NameError else tag_name fs tag
  | _ => Err TypeError
  end.

(** * Sub paths (assembler_abc.py:104-175) *)

(** [layout[attr]] and the member assembler for a key. *)
Definition sub_step (a : asm) (k : key) : option ((Z * Z) * asm) :=
  match a with
  | ATuple _ fs =>
      (fix go fs := match fs with
         | [] => None
         | (k', lay, f) :: r => if key_eqb k k' then Some (lay, f) else go r
         end) fs
  | ASum _ _ fs _ _ =>
      match sum_find fs k with
      | Some (_, lay, f) => Some (lay, f)
      | None => None
      end
  | _ => None
  end.

(** [Assembler.sub[path]]: accumulated offset and the assembler reached. *)
Fixpoint sub_path (a : asm) (off : Z) (p : list key) : res (Z * asm) :=
  match p with
  | [] => Ok (off, a)
  | k :: r =>
      match sub_step a k with
      | Some ((lo, _), f) => sub_path f (off + lo) r
      | None => Err KeyError
      end
  end.

(** [.idx] (168-170): slice bounds. *)
Definition sub_idx (a : asm) (p : list key) : res (Z * Z) :=
  do '(o, f) <- sub_path a 0 p;
  Ok (o, o + a_width f).

(** [.tag_idx] (172-175). *)
Definition sub_tag_idx (a : asm) (p : list key) : res (Z * Z) :=
  do '(o, f) <- sub_path a 0 p;
  match f with
  | ASum _ tagw _ _ _ => Ok (o + 0, o + tagw)
  | _ => Err TypeError
  end.
