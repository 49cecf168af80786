(** Specification of instruction encodings, written without the assembler
    model: plain arithmetic (sums and products of powers of two) and counting. *)
From Coq Require Import String ZArith List Bool Sorted.
From Verif Require Import Base AsmModel.
Import ListNotations.
Open Scope Z_scope.

(** * Well-formed types and their values *)

Definition no_dup_keys (fs : list (key * ty)) : Prop := NoDup (map fst fs).

Inductive wf_ty : ty -> Prop :=
| wf_bit : wf_ty TBit
| wf_bv w : 0 <= w -> wf_ty (TBV w)
| wf_sint w : 1 <= w -> wf_ty (TSInt w)
| wf_enum c ms :
    ms <> [] ->
    (forall v, In (EInt v) ms -> 0 <= v) ->
    (forall n i j, nth_error ms i = Some (EAuto n) ->
                   nth_error ms j = Some (EAuto n) -> i = j) ->
    wf_ty (TEnum c ms)
| wf_prod c fs :
    no_dup_keys fs -> Forall (fun f => wf_ty (snd f)) fs -> wf_ty (TProd c fs)
| wf_sum g c fs :
    fs <> [] -> no_dup_keys fs -> Forall (fun f => wf_ty (snd f)) fs ->
    wf_ty (TSum g c fs).

Inductive has_ty : ty -> val -> Prop :=
| ht_bit b : has_ty TBit (VBit b)
| ht_bv w z : 0 <= z < 2 ^ w -> has_ty (TBV w) (VBV z)
| ht_sint w z : 0 <= z < 2 ^ w -> has_ty (TSInt w) (VBV z)
| ht_enum c ms m : In m ms -> has_ty (TEnum c ms) (VEnum m)
| ht_prod c fs vs :
    Forall2 (fun f v => has_ty (snd f) v) fs vs -> has_ty (TProd c fs) (VProd vs)
| ht_sum g c fs k t v : In (k, t) fs -> has_ty t v -> has_ty (TSum g c fs) (VSum k v).

(** No signed field of the value is negative. *)
Inductive nonneg_signed : ty -> val -> Prop :=
| ns_bit b : nonneg_signed TBit (VBit b)
| ns_bv w z : nonneg_signed (TBV w) (VBV z)
| ns_sint w z : z < 2 ^ (w - 1) -> nonneg_signed (TSInt w) (VBV z)
| ns_enum c ms m : nonneg_signed (TEnum c ms) (VEnum m)
| ns_prod c fs vs :
    Forall2 (fun f v => nonneg_signed (snd f) v) fs vs ->
    nonneg_signed (TProd c fs) (VProd vs)
| ns_sum g c fs k t v :
    In (k, t) fs -> nonneg_signed t v -> nonneg_signed (TSum g c fs) (VSum k v).

(** * Enum codes *)

Fixpoint autos (ms : list emem) : list string :=
  match ms with
  | [] => []
  | EAuto n :: r => n :: autos r
  | EInt _ :: r => autos r
  end.

(** Number of integers x with 0 <= x < c that are not explicit values. *)
Definition unused_below (ms : list emem) (c : Z) : nat :=
  length (filter (fun x => negb (existsb (emem_eqb (EInt x)) ms))
                 (map Z.of_nat (seq 0 (Z.to_nat c)))).

(** Explicit members keep their value; the i-th automatic member gets the i-th
    (counting from 0) natural number that is not an explicit value. *)
Definition enum_code (ms : list emem) (m : emem) (c : Z) : Prop :=
  In m ms /\
  match m with
  | EInt v => c = v
  | EAuto n =>
      0 <= c /\ ~ In (EInt c) ms /\
      nth_error (autos ms) (unused_below ms c) = Some n
  end.

(** * Widths *)

(** Least w with n < 2^w. *)
Definition bits_for (n : Z) : Z := Z.log2_up (n + 1).

Definition zsum (l : list Z) : Z := fold_right Z.add 0 l.
Definition zmaximum (l : list Z) : Z := fold_right Z.max 0 l.

Inductive swidth : ty -> Z -> Prop :=
| sw_bit : swidth TBit 1
| sw_bv w : swidth (TBV w) w
| sw_sint w : swidth (TSInt w) w
| sw_enum c ms mx :
    (exists m, enum_code ms m mx) ->
    (forall m k, enum_code ms m k -> k <= mx) ->
    swidth (TEnum c ms) (bits_for mx)
| sw_prod c fs ws :
    Forall2 (fun f w => swidth (snd f) w) fs ws -> swidth (TProd c fs) (zsum ws)
| sw_sum g c fs ws :
    Forall2 (fun f w => swidth (snd f) w) fs ws ->
    swidth (TSum g c fs) (bits_for (Z.of_nat (length fs) - 1) + zmaximum ws).

(** * Encodings *)

(** Position of member [k]: members with a smaller repr come first; members with
    the same repr keep their listed order. *)
Definition repr_lt (a b : string) : bool :=
  match String.compare a b with Lt => true | _ => false end.
Definition rank_at (pre : list (key * ty)) (k : key) (post : list (key * ty)) : Z :=
  Z.of_nat (length (filter (fun f => repr_lt (krepr (fst f)) (krepr k)) (pre ++ post)))
  + Z.of_nat (length (filter (fun f => String.eqb (krepr (fst f)) (krepr k)) pre)).

(** [enc J t op v]: the bits of [op] hold the value [v] of type [t], where the
    unused bits above a Sum payload hold some number satisfying [J]. *)
Inductive enc (J : Z -> Prop) : ty -> Z -> val -> Prop :=
| enc_bit b : enc J TBit (b2z b) (VBit b)
| enc_bv w z : 0 <= z < 2 ^ w -> enc J (TBV w) z (VBV z)
| enc_sint w z : 0 <= z < 2 ^ w -> enc J (TSInt w) z (VBV z)
| enc_enum c ms m k : enum_code ms m k -> enc J (TEnum c ms) k (VEnum m)
| enc_prod c fs op vs : enc_fields J fs op vs -> enc J (TProd c fs) op (VProd vs)
| enc_sum g c fs pre k t post W w x junk v :
    fs = pre ++ (k, t) :: post ->
    swidth (TSum g c fs) W ->
    swidth t w ->
    enc J t x v ->
    0 <= junk -> J junk ->
    rank_at pre k post + 2 ^ bits_for (Z.of_nat (length fs) - 1) * (x + 2 ^ w * junk) < 2 ^ W ->
    enc J (TSum g c fs)
        (rank_at pre k post + 2 ^ bits_for (Z.of_nat (length fs) - 1) * (x + 2 ^ w * junk))
        (VSum k v)
with enc_fields (J : Z -> Prop) : list (key * ty) -> Z -> list val -> Prop :=
| ef_nil : enc_fields J [] 0 []
| ef_cons k t r w x y v vs :
    swidth t w -> enc J t x v -> enc_fields J r y vs ->
    enc_fields J ((k, t) :: r) (x + 2 ^ w * y) (v :: vs).

(** Some bit pattern for the value, whatever the padding holds. *)
Definition encodes := enc (fun _ => True).
(** The bit pattern with zero padding. *)
Definition canonical := enc (fun j => j = 0).

(** * Sub-values addressed by a path *)
Inductive sub_val : ty -> val -> list key -> ty -> val -> Prop :=
| sv_here t v : sub_val t v [] t v
| sv_prod c fs vs k p i t v t' v' :
    nth_error fs i = Some (k, t) -> nth_error vs i = Some v ->
    sub_val t v p t' v' -> sub_val (TProd c fs) (VProd vs) (k :: p) t' v'
| sv_sum g c fs k p t v t' v' :
    In (k, t) fs -> sub_val t v p t' v' ->
    sub_val (TSum g c fs) (VSum k v) (k :: p) t' v'.

(** * Opcode sets a type asks to be recognised *)

Definition one_hot_set (ops : list Z) : Prop :=
  forall c, In c ops -> c = 0 \/ exists k, 0 <= k /\ c = 2 ^ k.
Definition contiguous (ops : list Z) : Prop :=
  forall a b c, In a ops -> In b ops -> a <= c <= b -> In c ops.
(** Number of maximal runs of consecutive integers: their upper ends. *)
Definition runs (ops : list Z) : nat :=
  length (filter (fun c => negb (existsb (Z.eqb (c + 1)) ops)) ops).
(** Sets covered by few runs, which are neither a single run nor one-hot. *)
Definition multi_range (ops : list Z) : Prop :=
  ~ contiguous ops /\ ~ one_hot_set ops /\ (3 <= length ops)%nat /\
  11 * Z.of_nat (runs ops) < 10 * Z.of_nat (length ops).
(** At least three codes, zero or powers of two, with a hole. *)
Definition sparse_one_hot (ops : list Z) : Prop :=
  one_hot_set ops /\ ~ contiguous ops /\ (3 <= length ops)%nat.

Definition increasing (l : list Z) : Prop := StronglySorted Z.lt l.

(** [request t ops w]: recognising the instructions of type [t] involves
    recognising the set [ops] among the w-bit words. *)
Inductive request : ty -> list Z -> Z -> Prop :=
| rq_enum c ms ops w :
    increasing ops -> (forall x, In x ops <-> exists m, enum_code ms m x) ->
    swidth (TEnum c ms) w -> request (TEnum c ms) ops w
| rq_group g c fs u ops :
    increasing ops -> ops <> [] ->
    (forall x, In x ops <->
       exists pre k post, fs = pre ++ (k, u) :: post /\ x = rank_at pre k post) ->
    request (TSum g c fs) ops (bits_for (Z.of_nat (length fs) - 1))
| rq_tags g c fs ops :
    increasing ops -> (forall x, In x ops <-> 0 <= x < Z.of_nat (length fs)) ->
    request (TSum g c fs) ops (bits_for (Z.of_nat (length fs) - 1))
| rq_prod c fs k t ops w :
    In (k, t) fs -> request t ops w -> request (TProd c fs) ops w
| rq_sum g c fs k t ops w :
    In (k, t) fs -> request t ops w -> request (TSum g c fs) ops w
| rq_run t ops w a b :
    request t ops w -> ~ contiguous ops -> ~ one_hot_set ops -> (3 <= length ops)%nat ->
    a <= b -> (forall x, a <= x <= b -> In x ops) ->
    ~ In (a - 1) ops -> ~ In (b + 1) ops ->
    request t (map (fun i => a + Z.of_nat i) (seq 0 (Z.to_nat (b + 1 - a)))) w.

(** A run of codes that ends at the largest w-bit word, and either starts at 0
    or has at least three codes. *)
Definition top_run (w : Z) (ops : list Z) : Prop :=
  contiguous ops /\ In (2 ^ w - 1) ops /\ (In 0 ops \/ (3 <= length ops)%nat).

(** The same opcode set never appears at two widths in a way that matters:
    [same_width_zero_hot] for accepting valid words, [same_width] also for
    rejecting invalid ones. *)
Definition same_width_zero_hot (ts : list ty) : Prop :=
  forall t1 t2 ops w1 w2, In t1 ts -> In t2 ts ->
    request t1 ops w1 -> request t2 ops w2 ->
    In 0 ops -> sparse_one_hot ops -> w1 = w2.
Definition same_width (ts : list ty) : Prop :=
  forall t1 t2 ops w1 w2, In t1 ts -> In t2 ts ->
    request t1 ops w1 -> request t2 ops w2 ->
    w1 = w2 \/ (~ top_run w1 ops /\ ~ top_run w2 ops /\ ~ sparse_one_hot ops).
Definition no_multi_range (t : ty) : Prop :=
  forall ops w, request t ops w -> ~ multi_range ops.
