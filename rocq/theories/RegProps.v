(** Properties C20-C22: registers, memories, attribute registers. *)
From Coq Require Import String Ascii ZArith List Bool Lia.
From Verif Require Import Base RegModel.
Import ListNotations.
Open Scope list_scope.
Open Scope Z_scope.

(** * C20 *)

(** Specification: the value of the most recent call that had enable set and an
    actual value, or the initial value. It inspects the history only. *)
Definition last_enabled {V} (init : option V) (h : list (@rcall V)) : option V :=
  match find (fun c => match rc_value c with Some _ => rc_en c | None => false end) (rev h) with
  | Some c => rc_value c
  | None => init
  end.

Lemma find_app {A} (p : A -> bool) l1 l2 :
  find p (l1 ++ l2) = match find p l1 with Some x => Some x | None => find p l2 end.
Proof. induction l1 as [|x l1 IH]; cbn [find app]; [reflexivity|]. destruct (p x); auto. Qed.

Lemma last_enabled_cons {V} (init : option V) c h :
  last_enabled init (c :: h)
  = last_enabled (match rc_value c with Some _ => if rc_en c then rc_value c else init
                                      | None => init end) h.
Proof.
  unfold last_enabled. cbn [rev]. rewrite find_app.
  destruct (find _ (rev h)); [reflexivity|]. cbn [find].
  destruct (rc_value c) eqn:E; [destruct (rc_en c)|]; cbn; auto.
Qed.

Lemma reg_run_spec {V} (h : list (@rcall V)) : forall s,
  snd (reg_run s h) = last_enabled s h /\
  length (fst (reg_run s h)) = length h /\
  forall i c, nth_error h i = Some c ->
    nth_error (fst (reg_run s h)) i
    = Some (match rc_value c with
            | None => Err AssertionError
            | Some _ => Ok (last_enabled s (firstn i h))
            end).
Proof.
  induction h as [|c h IH]; intros s; cbn [reg_run].
  - repeat split; try reflexivity. intros [|i] c H; discriminate.
  - destruct (reg_call s (rc_value c) (rc_en c)) as [r s'] eqn:E.
    destruct (IH s') as (IH1 & IH2 & IH3).
    destruct (reg_run s' h) as [rs s''] eqn:E2. cbn [fst snd] in *.
    assert (Hs : s' = match rc_value c with Some _ => if rc_en c then rc_value c else s
                                       | None => s end).
    { unfold reg_call in E. destruct (rc_value c); inversion E; reflexivity. }
    split; [|split].
    + rewrite IH1, Hs, last_enabled_cons. reflexivity.
    + cbn [length]. now rewrite IH2.
    + intros [|i] c' H; cbn [nth_error firstn] in *.
      * injection H as <-. unfold reg_call in E. destruct (rc_value c) eqn:Ev; inversion E; reflexivity.
      * rewrite (IH3 _ _ H). destruct (rc_value c'); [|reflexivity].
        now rewrite Hs, <- last_enabled_cons.
Qed.

(** After any history, a call with a value returns the last enabled value
    written before it. A call with [None] raises AssertionError and has no
    effect. *)
Theorem C20_register :
  forall (V : Type) (init : V) (h : list (@rcall V)) (i : nat) (c : @rcall V),
    nth_error h i = Some c ->
    nth_error (fst (reg_run (Some init) h)) i
    = Some (match rc_value c with
            | None => Err AssertionError
            | Some _ => Ok (last_enabled (Some init) (firstn i h))
            end).
Proof. intros V init h i c H. exact (proj2 (proj2 (reg_run_spec h (Some init))) i c H). Qed.

(** [prev()] between calls shows the value the next call will return. *)
Theorem C20_prev :
  forall (V : Type) (init : V) (h : list (@rcall V)),
    reg_prev (snd (reg_run (Some init) h)) = last_enabled (Some init) h.
Proof. intros V init h. exact (proj1 (reg_run_spec h (Some init))). Qed.

(** Without enable every call writes, and each call returns the argument of the
    call before it. *)
Theorem C20_register_noen :
  forall (V : Type) (init : V) (h : list (option V)) (i : nat),
    (i < length h)%nat ->
    nth_error (fst (reg_run_noen (Some init) h)) i
    = Some (Ok (match i with O => Some init | S j => nth j h None end)).
Proof.
  intros V init h. generalize (Some init) as s.
  induction h as [|v h IH]; intros s i Hi; cbn [length] in Hi; [lia|].
  cbn [reg_run_noen reg_call_noen].
  destruct (reg_run_noen v h) as [rs s''] eqn:E.
  destruct i as [|i]; cbn [nth_error fst]; [reflexivity|].
  specialize (IH v i ltac:(lia)). rewrite E in IH. cbn [fst] in IH. rewrite IH.
  destruct i; reflexivity.
Qed.

(** The rewritten [__call__] behaves the same whenever the family's [ite]
    selects. *)
Theorem C20_rewritten :
  forall (V : Type) (ite : bool -> option V -> option V -> option V),
    (forall b x y, ite b x y = if b then x else y) ->
    forall s v en, reg_call_ite ite s v en = reg_call s v en.
Proof. intros V ite H s [v|] en; unfold reg_call_ite, reg_call; [rewrite H|]; reflexivity. Qed.

(** The property as stated demands that the value returned is never [None] when
    the declared type has no [None]. Without enable the assertion is missing. *)
Theorem C20_noen_none_refuted :
  exists (h : list (option Z)) i,
    nth_error (fst (reg_run_noen (Some 7) h)) i = Some (Ok None).
Proof. exists [None; Some 3], 1%nat. reflexivity. Qed.

Example C20_case :
  let c v e := {| rc_value := v; rc_en := e |} in
  fst (reg_run (Some 7) [c (Some 1) false; c (Some 2) true; c None true; c (Some 3) false; c (Some 4) true])
  = [Ok (Some 7); Ok (Some 7); Err AssertionError; Ok (Some 2); Ok (Some 2)].
Proof. reflexivity. Qed.

(** * C21 *)

(** Two addresses of an n-word memory name the same cell. *)
Definition in_range (n a : Z) : Prop := - n <= a < n.

(** Specification: last enabled write with a value to the cell [a mod n] in the
    history, or the initial contents of that cell. *)
Definition last_write_at {V} (n : Z) (init : Z -> V) (h : list (@macc V)) (a : Z) : option V :=
  match find (fun c => match ma_data c with
                       | Some _ => ma_wen c && (- n <=? ma_addr c) && (ma_addr c <? n)
                                   && (ma_addr c mod n =? a mod n)
                       | None => false end) (rev h) with
  | Some c => ma_data c
  | None => Some (init (a mod n))
  end.

(** Initial contents of word k: [mem[k]] while k is inside [mem], else [init]. *)
Definition contents {V} (mem : list V) (init : V) (k : Z) : V :=
  if k <? Z.of_nat (length mem) then nth (Z.to_nat k) mem init else init.

Lemma upd_length {A} (l : list A) k x : length (upd l k x) = length l.
Proof. revert k. induction l as [|y l IH]; intros [|k]; cbn; auto. Qed.

Lemma upd_nth {A} (l : list A) k x j d :
  nth j (upd l k x) d = if (Nat.eqb j k && Nat.ltb k (length l))%bool then x else nth j l d.
Proof.
  revert k j. induction l as [|y l IH]; intros [|k] [|j]; cbn [upd nth length]; try reflexivity.
  - cbn. now rewrite Bool.andb_false_r.
  - rewrite IH. reflexivity.
Qed.

Lemma pyindex_spec n a :
  pyindex n a = if (- Z.of_nat n <=? a) && (a <? Z.of_nat n)
                then Ok (Z.to_nat (a mod Z.of_nat n)) else Err IndexError.
Proof.
  unfold pyindex.
  destruct (0 <=? a) eqn:E0; destruct (a <? Z.of_nat n) eqn:E1; destruct (- Z.of_nat n <=? a) eqn:E2;
    destruct (a <? 0) eqn:E3; cbn [andb]; try reflexivity; try lia.
  - rewrite Z.mod_small by lia. reflexivity.
  - f_equal. f_equal. rewrite <- (Z.mod_add a 1) by lia. rewrite Z.mod_small by lia. lia.
Qed.

Definition mem_get {V} (m : list (option V)) (k : Z) : option V := nth (Z.to_nat k) m None.

Lemma ram_run_spec {V} n (h : list (@macc V)) : forall (m : list (option V)) (init : Z -> V),
  Z.of_nat (length m) = n ->
  (forall k, 0 <= k < n -> mem_get m k = Some (init k)) ->
  length (snd (ram_run m h)) = length m /\
  (forall a, in_range n a -> mem_get (snd (ram_run m h)) (a mod n) = last_write_at n init h a) /\
  forall i c, nth_error h i = Some c ->
    nth_error (fst (ram_run m h)) i
    = Some (if (- n <=? ma_addr c) && (ma_addr c <? n)
            then match ma_data c with
                 | None => Err AssertionError
                 | Some _ => Ok (last_write_at n init (firstn i h) (ma_addr c))
                 end
            else Err IndexError).
Proof.
  induction h as [|c h IH]; intros m init Hn Hm; cbn [ram_run].
  - split; [reflexivity|]. split.
    + intros a Ha. unfold last_write_at. cbn [find rev snd]. apply Hm. apply Z.mod_pos_bound.
      unfold in_range in Ha. lia.
    + intros [|i] c H; discriminate.
  - destruct (ram_call m (ma_addr c) (ma_data c) (ma_wen c)) as [r m'] eqn:E.
    unfold ram_call in E. rewrite pyindex_spec, Hn in E.
    set (p := (- n <=? ma_addr c) && (ma_addr c <? n)) in *.
    (* new initial contents *)
    set (init' := fun k => if (match ma_data c with Some _ => ma_wen c && p && (ma_addr c mod n =? k) | None => false end)
                           then match ma_data c with Some d => d | None => init k end else init k).
    assert (Hpn : p = true -> 0 < n).
    { unfold p. rewrite andb_true_iff, Z.leb_le, Z.ltb_lt. lia. }
    assert (Hm' : length m' = length m /\ forall k, 0 <= k < n -> mem_get m' k = Some (init' k)).
    { destruct p eqn:Ep; [|inversion E; subst r m'; split; [reflexivity|]; intros k Hk;
        unfold init'; destruct (ma_data c); rewrite ?andb_false_r; cbn [andb]; auto].
      specialize (Hpn eq_refl).
      pose proof (Z.mod_pos_bound (ma_addr c) n Hpn) as Hb.
      unfold reg_call in E. destruct (ma_data c) as [d|] eqn:Ed.
      - inversion E; subst r m'. rewrite upd_length. split; [reflexivity|].
        intros k Hk. unfold mem_get. rewrite upd_nth.
        unfold init'. rewrite andb_true_r.
        replace (Nat.ltb (Z.to_nat (ma_addr c mod n)) (length m)) with true
          by (symmetry; apply Nat.ltb_lt; lia).
        rewrite andb_true_r.
        destruct (Z.eqb_spec (ma_addr c mod n) k) as [Hk'|Hk'].
        + subst k. rewrite Nat.eqb_refl. destruct (ma_wen c); cbn [andb]; [reflexivity|].
          exact (Hm _ Hk).
        + replace (Nat.eqb (Z.to_nat k) (Z.to_nat (ma_addr c mod n))) with false
            by (symmetry; apply Nat.eqb_neq; lia).
          rewrite andb_false_r. exact (Hm _ Hk).
      - inversion E; subst r m'. rewrite upd_length. split; [reflexivity|].
        intros k Hk. unfold mem_get. rewrite upd_nth.
        unfold init'.
        destruct (Nat.eqb_spec (Z.to_nat k) (Z.to_nat (ma_addr c mod n))) as [Hk'|Hk'];
          cbn [andb]; [|exact (Hm _ Hk)].
        destruct (Nat.ltb _ _); [|exact (Hm _ Hk)].
        rewrite <- Hk'. exact (Hm _ Hk). }
    destruct Hm' as [Hl' Hm'].
    destruct (IH m' init' ltac:(lia) Hm') as (IH1 & IH2 & IH3).
    assert (Hsp : forall h' a, in_range n a ->
              last_write_at n init (c :: h') a = last_write_at n init' h' a).
    { intros h' a Ha. unfold last_write_at. cbn [rev]. rewrite find_app.
      destruct (find _ (rev h')); [reflexivity|]. cbn [find].
      unfold init'. destruct (ma_data c) as [d|] eqn:Ed; [|reflexivity].
      rewrite <- (andb_assoc (ma_wen c)). fold p.
      destruct (ma_wen c && p && (ma_addr c mod n =? a mod n)) eqn:Eb; [exact Ed|reflexivity]. }
    destruct (ram_run m' h) as [rs m''] eqn:E2. cbn [fst snd] in *.
    split; [lia|]. split.
    + intros a Ha. rewrite Hsp by exact Ha. auto.
    + intros [|i] c' H; cbn [nth_error firstn] in *.
      * injection H as <-. fold p. destruct p eqn:Ep; [|inversion E; reflexivity].
        specialize (Hpn eq_refl).
        unfold reg_call in E. destruct (ma_data c) eqn:Ed; inversion E; subst; [|reflexivity].
        unfold last_write_at. cbn [find rev]. do 2 f_equal.
        apply (Hm (ma_addr c mod Z.of_nat (length m))). apply Z.mod_pos_bound. lia.
      * rewrite (IH3 _ _ H).
        destruct ((- n <=? ma_addr c') && (ma_addr c' <? n)) eqn:Ec; [|reflexivity].
        destruct (ma_data c'); [|reflexivity].
        apply andb_true_iff in Ec. rewrite Z.leb_le, Z.ltb_lt in Ec.
        rewrite Hsp by exact Ec. reflexivity.
Qed.

Lemma mem_init_spec {V} n (mem : list V) init : 0 <= n ->
  Z.of_nat (length (mem_init n mem init)) = n /\
  forall k, 0 <= k < n -> mem_get (mem_init n mem init) k = Some (contents mem init k).
Proof.
  intros Hn. unfold mem_init. rewrite map_length, seq_length. split; [lia|].
  intros k Hk. unfold mem_get, contents.
  erewrite nth_indep by (rewrite map_length, seq_length; lia).
  rewrite (map_nth (fun i => Some (nth i mem init)) _ O).
  rewrite seq_nth by lia. cbn [Nat.add].
  destruct (Z.ltb_spec k (Z.of_nat (length mem))); [reflexivity|].
  rewrite nth_overflow by lia. reflexivity.
Qed.

(** Full property: an access outside [0, n) raises and changes nothing. *)
Definition C21_full : Prop :=
  forall (V : Type) (n : Z) (mem : list V) (init : V) (h : list (@macc V)) i c,
    0 <= n -> nth_error h i = Some c ->
    nth_error (fst (ram_run (mem_init n mem init) h)) i
    = Some (if (0 <=? ma_addr c) && (ma_addr c <? n)
            then match ma_data c with
                 | None => Err AssertionError
                 | Some _ => Ok (last_write_at n (contents mem init) (firstn i h) (ma_addr c))
                 end
            else Err IndexError).

(** A signed address -1 silently reads the last word. *)
Theorem C21_full_refuted : ~ C21_full.
Proof.
  intros H.
  specialize (H Z 4 [1; 2; 3; 4] 0 [{| ma_addr := -1; ma_data := Some 9; ma_wen := true |}] O _
                ltac:(lia) eq_refl).
  discriminate H.
Qed.

(** RAM: every access in every history, with negative addresses counting from
    the end. Missing for C21: rejection of negative addresses, which the code
    does not do. *)
Theorem C21_ram_partial :
  forall (V : Type) (n : Z) (mem : list V) (init : V) (h : list (@macc V)) (i : nat) (c : macc),
    0 <= n -> nth_error h i = Some c ->
    nth_error (fst (ram_run (mem_init n mem init) h)) i
    = Some (if (- n <=? ma_addr c) && (ma_addr c <? n)
            then match ma_data c with
                 | None => Err AssertionError
                 | Some _ => Ok (last_write_at n (contents mem init) (firstn i h) (ma_addr c))
                 end
            else Err IndexError).
Proof.
  intros V n mem init h i c Hn Hc.
  destruct (mem_init_spec n mem init Hn) as [Hl Hm].
  exact (proj2 (proj2 (ram_run_spec n h _ _ Hl Hm)) i c Hc).
Qed.

(** Frame: an access changes no other cell, and an access that raises changes
    nothing at all. *)
Theorem C21_frame :
  forall (V : Type) (m : list (option V)) a d w k,
    (match fst (ram_call m a d w) with Err _ => True | Ok _ => Z.to_nat (a mod Z.of_nat (length m)) <> k end) ->
    nth_error (snd (ram_call m a d w)) k = nth_error m k.
Proof.
  intros V m a d w k. unfold ram_call. rewrite pyindex_spec.
  destruct (_ && _) eqn:E; [|reflexivity].
  set (j := Z.to_nat (a mod Z.of_nat (length m))).
  assert (Hgen : forall (l : list (option V)) j x k, nth_error l j = Some x \/ j <> k ->
             nth_error (upd l j x) k = nth_error l k).
  { clear. induction l as [|y l IH]; intros [|j] x [|k] [H|H]; cbn [upd nth_error] in *; auto;
      try congruence; try (apply IH; auto; fail). }
  unfold reg_call. destruct d as [d|]; cbn [fst snd].
  - intros H. apply Hgen. now right.
  - intros _. apply Hgen. left. apply nth_error_nth'.
    unfold j. apply andb_true_iff in E. rewrite Z.leb_le, Z.ltb_lt in E.
    pose proof (Z.mod_pos_bound a (Z.of_nat (length m)) ltac:(lia)). lia.
Qed.

(** ROM: contents never change, a read returns the initial contents. *)
Theorem C21_rom :
  forall (V : Type) (zero : V) (n : Z) (mem : list V) (init : V) (h : list Z),
    0 <= n ->
    snd (rom_run zero (mem_init n mem init) h) = mem_init n mem init /\
    forall i a, nth_error h i = Some a ->
      nth_error (fst (rom_run zero (mem_init n mem init) h)) i
      = Some (if (- n <=? a) && (a <? n) then Ok (Some (contents mem init (a mod n)))
              else Err IndexError).
Proof.
  intros V zero n mem init h Hn.
  destruct (mem_init_spec n mem init Hn) as [Hl Hm].
  set (m := mem_init n mem init) in *.
  assert (Hupd : forall (l : list (option V)) j, upd l j (nth j l None) = l).
  { clear. induction l as [|y l IH]; intros [|j]; cbn [upd nth]; f_equal; auto. }
  assert (Hc : forall a, rom_call zero m a
     = (if (- n <=? a) && (a <? n) then Ok (Some (contents mem init (a mod n))) else Err IndexError, m)).
  { intros a. unfold rom_call. rewrite pyindex_spec, Hl.
    destruct (_ && _) eqn:E; [|reflexivity].
    unfold reg_call. rewrite Hupd. apply andb_true_iff in E. rewrite Z.leb_le, Z.ltb_lt in E.
    pose proof (Z.mod_pos_bound a n ltac:(lia)) as Hb.
    pose proof (Hm _ Hb) as Hm'. unfold mem_get in Hm'. rewrite Hm'. reflexivity. }
  induction h as [|a h [IH1 IH2]]; cbn [rom_run].
  - split; [reflexivity|]. intros [|i] a H; discriminate.
  - rewrite Hc. destruct (rom_run zero m h) as [rs m''] eqn:E2. cbn [fst snd] in *.
    split; [exact IH1|]. intros [|i] a' H; cbn [nth_error] in *; [|auto].
    injection H as <-. reflexivity.
Qed.

Example C21_case :
  let a x d w := {| ma_addr := x; ma_data := Some d; ma_wen := w |} in
  fst (ram_run (mem_init 4 [10; 11] 5)
        [a 0 1 false; a 1 2 true; a 1 3 true; a 3 9 true; a (-1) 0 false; a 4 1 true; a 1 0 false])
  = [Ok (Some 10); Ok (Some 11); Ok (Some 2); Ok (Some 5); Ok (Some 9); Err IndexError; Ok (Some 3)].
Proof. reflexivity. Qed.

(** * C22 *)

Section Dunder.
Local Open Scope string_scope.
Lemma slen_app a b : String.length (a ++ b) = (String.length a + String.length b)%nat.
Proof. induction a as [|c a IH]; cbn [append String.length]; [reflexivity|]. now rewrite IH. Qed.
Lemma sub_skip a b i k : substring (String.length a + i) k (a ++ b) = substring i k b.
Proof. induction a as [|c a IH]; cbn [append String.length]; [reflexivity|]. cbn [Nat.add]. cbn [substring]. exact IH. Qed.
Lemma sub_fst a b i k : (i + k <= String.length a)%nat -> substring i k (a ++ b) = substring i k a.
Proof.
  revert i k. induction a as [|c a IH]; intros i k L; cbn [String.length] in L.
  - assert (i = 0 /\ k = 0)%nat as [-> ->] by lia. now destruct b.
  - cbn [append substring]. destruct i as [|i]; [destruct k as [|k]; [reflexivity|]; now rewrite IH by lia|apply IH; lia].
Qed.
Lemma sub_all s : substring 0 (String.length s) s = s.
Proof. induction s as [|c s IH]; cbn; congruence. Qed.
Lemma sub_cut s n : (n <= String.length s)%nat -> s = substring 0 n s ++ substring n (String.length s - n) s.
Proof.
  revert n. induction s as [|c s IH]; intros [|n] L; cbn [String.length] in L; try lia; try reflexivity.
  - cbn [Nat.sub String.length substring append]. now rewrite sub_all.
  - cbn [String.length Nat.sub substring append]. f_equal. apply IH. lia.
Qed.
Lemma sub_len s n k : (n + k <= String.length s)%nat -> String.length (substring n k s) = k.
Proof.
  revert n k. induction s as [|c s IH]; intros [|n] [|k] L; cbn [String.length] in L; try lia; cbn [substring String.length]; auto.
  all: rewrite IH; lia.
Qed.

(** Names such as "__x__". *)
Definition dunder (n : string) : Prop :=
  exists m, n = "__" ++ m ++ "__" /\ m <> "" /\ (forall r, m <> "_" ++ r) /\ (forall r, m <> r ++ "_").

Lemma is_dunder_spec n : is_dunder n = true <-> dunder n.
Proof.
  unfold is_dunder. rewrite !andb_true_iff, !negb_true_iff, Nat.ltb_lt, !String.eqb_eq, !String.eqb_neq.
  assert (M : forall m, m <> "" -> let n := "__" ++ m ++ "__" in
    String.length n = (4 + String.length m)%nat /\ substring 2 1 n = substring 0 1 m /\
    substring (String.length n - 3) 1 n = substring (String.length m - 1) 1 m /\ substring (String.length n - 2) 2 n = "__").
  { intros m N n0. assert (L : (1 <= String.length m)%nat) by (destruct m; cbn; [congruence|lia]).
    assert (E : String.length n0 = (4 + String.length m)%nat) by (unfold n0; rewrite !slen_app; cbn [String.length]; lia).
    split; [exact E|]. rewrite E. unfold n0. split; [|split].
    - rewrite <- (sub_fst m "__" 0 1) by lia. exact (sub_skip "__" (m ++ "__") 0 1).
    - replace (4 + String.length m - 3)%nat with (2 + (String.length m - 1))%nat by lia.
      rewrite <- (sub_fst m "__" (String.length m - 1) 1) by lia. exact (sub_skip "__" (m ++ "__") (String.length m - 1) 1).
    - replace (4 + String.length m - 2)%nat with (2 + (String.length m + 0))%nat by lia.
      pose proof (sub_skip "__" (m ++ "__") (String.length m + 0) 2) as X. cbn [String.length] in X. rewrite X.
      rewrite sub_skip. reflexivity. }
  assert (F : forall m, m <> "" -> (substring 0 1 m = "_" <-> exists r, m = "_" ++ r)).
  { intros [|c m] N; [congruence|]. cbn [substring append]. assert (Z : substring 0 0 m = "") by (now destruct m). rewrite Z.
    split; [intros [= ->]; eauto|intros (r & [= -> ->]); reflexivity]. }
  assert (G : forall m, m <> "" -> (substring (String.length m - 1) 1 m = "_" <-> exists r, m = r ++ "_")).
  { intros m N. assert (L : (1 <= String.length m)%nat) by (destruct m; cbn; [congruence|lia]). split.
    - intros E. exists (substring 0 (String.length m - 1) m). rewrite <- E.
      rewrite (sub_cut m (String.length m - 1)) at 1 by lia. f_equal. f_equal. lia.
    - intros (r & ->). rewrite slen_app. cbn [String.length]. replace (String.length r + 1 - 1)%nat with (String.length r + 0)%nat by lia.
      rewrite sub_skip. reflexivity. }
  split.
  - intros ((((L & A) & B) & C) & D).
    destruct n as [|c0 [|c1 r]]; cbn [String.length] in L; try lia.
    assert (Z : forall s, substring 0 0 s = "") by (now intros []).
    cbn [substring] in A. rewrite Z in A. injection A as -> ->.
    set (m := substring 0 (String.length r - 2) r).
    assert (E : r = m ++ "__").
    { rewrite (sub_cut r (String.length r - 2)) at 1 by lia. fold m. f_equal. cbn [String.length] in B. rewrite <- B.
      replace (S (S (String.length r)) - 2)%nat with (S (S (String.length r - 2)))%nat by lia. cbn [substring]. f_equal. lia. }
    assert (N : m <> "").
    { intros X. pose proof (sub_len r 0 (String.length r - 2) ltac:(lia)) as Y. fold m in Y. rewrite X in Y. cbn in Y. lia. }
    change (String "_" (String "_" r)) with ("__" ++ r) in C, D. rewrite E in C, D.
    destruct (M m N) as (_ & M2 & M3 & _). cbv zeta in M2, M3. rewrite M2 in C. rewrite M3 in D.
    exists m. split; [now rewrite E|]. split; [exact N|]. split; intros s X.
    + apply C. apply F; eauto.
    + apply D. apply G; eauto.
  - intros (m & -> & N & C & D). destruct (M m N) as (M1 & M2 & M3 & M4). cbv zeta in M1, M2, M3, M4. rewrite M2, M3, M4, M1.
    split; [split; [split; [split|]|]|].
    + destruct m; cbn; [congruence|lia].
    + cbn [append substring]. now destruct (m ++ "__").
    + reflexivity.
    + intros X. destruct (proj1 (F m N) X) as (s & Y). exact (C s Y).
    + intros X. destruct (proj1 (G m N) X) as (s & Y). exact (D s Y).
Qed.
End Dunder.

Lemma not_dunder n : ~ dunder n -> is_dunder n = false.
Proof. intros H. destruct (is_dunder n) eqn:E; [|reflexivity]. now apply is_dunder_spec in E. Qed.

Section C22.
  Context {D T : Type} (inst : D -> T -> bool).

  (** Specification: last correctly typed value assigned to [n] in the
      operation list, or [d0]. *)
  Definition typed_to (n : string) (t : T) (o : @aop D) : bool :=
    match o with
    | ASet m (PData d) => String.eqb m n && inst d t
    | _ => false
    end.
  Definition last_assigned (n : string) (t : T) (d0 : D) (ops : list (@aop D)) : D :=
    match find (typed_to n t) (rev ops) with
    | Some (ASet _ (PData d)) => d
    | _ => d0
    end.

  (** The state has [n] bound to the register object [l] of type [t] holding
      [d], and no other attribute refers to that object. *)
  Definition reg_attr (st : @ostate D T) (n : string) (l : nat) (t : T) (d : D) : Prop :=
    dget String.eqb (snd st) n = Some (PReg l) /\
    nth_error (fst st) l = Some (t, d) /\
    forall m, dget String.eqb (snd st) m = Some (PReg l) -> m = n.

  (** The operations never store the register object [l] anywhere. *)
  Definition no_alias (l : nat) (ops : list (@aop D)) : Prop :=
    forall m, ~ In (ASet m (PReg l)) ops.

  Lemma dget_dset_s {B} (a : list (string * B)) n m v :
    dget String.eqb (dset String.eqb a n v) m = if String.eqb m n then Some v else dget String.eqb a m.
  Proof.
    induction a as [|[k x] a IH]; cbn [dset dget].
    - destruct (String.eqb m n); reflexivity.
    - destruct (String.eqb_spec n k) as [->|Hnk]; cbn [dget].
      + destruct (String.eqb m k); reflexivity.
      + destruct (String.eqb_spec m k) as [->|Hmk].
        * destruct (String.eqb_spec k n) as [->|]; [congruence|reflexivity].
        * exact IH.
  Qed.

  Lemma nth_error_upd {A} (h : list A) l x k :
    nth_error (upd h l x) k
    = if Nat.eqb k l then match nth_error h k with Some _ => Some x | None => None end
      else nth_error h k.
  Proof.
    revert l k. induction h as [|y h IH]; intros [|l] [|k]; cbn [upd nth_error]; try reflexivity.
    - destruct (Nat.eqb (S k) (S l)); reflexivity.
    - exact (IH l k).
  Qed.

  Lemma astep_inv st n l t d o :
    is_dunder n = false -> reg_attr st n l t d ->
    (forall m, o <> ASet m (PReg l)) ->
    reg_attr (snd (astep inst st o)) n l t
      (match o with ASet m (PData x) => if String.eqb m n && inst x t then x else d | _ => d end).
  Proof.
    intros Hdn (H1 & H2 & H3) Ho. destruct o as [m|m v]; [exact (conj H1 (conj H2 H3))|].
    destruct st as [h a]. cbn [fst snd] in *.
    unfold astep. destruct (peak_set inst (h, a) m v) as [r st'] eqn:E. cbn [snd].
    unfold peak_set, raw_get in E.
    destruct (String.eqb_spec m n) as [->|Hmn].
    - rewrite Hdn, H1, H2 in E. destruct v as [x|l'].
      + destruct (inst x t) eqn:Ei; inversion E; subst; cbn [fst snd andb].
        * split; [exact H1|]. split; [|exact H3]. cbn [fst].
          rewrite nth_error_upd, Nat.eqb_refl, H2. reflexivity.
        * exact (conj H1 (conj H2 H3)).
      + inversion E; subst. exact (conj H1 (conj H2 H3)).
    - assert (Hd : match v with PData x => if false && inst x t then x else d | PReg _ => d end = d)
        by (destruct v; reflexivity).
      replace (match v with PData x => if false && inst x t then x else d | PReg _ => d end) with d.
      clear Hd.
      assert (Hstore : reg_attr (h, dset String.eqb a m v) n l t d).
      { split; [cbn [snd]; rewrite dget_dset_s|split; [exact H2|]].
        - destruct (String.eqb_spec n m); [congruence|exact H1].
        - cbn [snd]. intros m' Hm'. rewrite dget_dset_s in Hm'.
          destruct (String.eqb m' m); [|auto].
          injection Hm' as Hv. exfalso. apply (Ho m). now rewrite Hv. }
      destruct (is_dunder m); [inversion E; subst; exact Hstore|].
      destruct (dget String.eqb a m) as [[x|l']|] eqn:Em; try (inversion E; subst; exact Hstore).
      destruct (nth_error h l') as [[t' d']|] eqn:En;
        [|inversion E; subst; exact (conj H1 (conj H2 H3))].
      destruct v as [x|l'']; [|inversion E; subst; exact (conj H1 (conj H2 H3))].
      destruct (inst x t'); inversion E; subst; [|exact (conj H1 (conj H2 H3))].
      split; [exact H1|]. split; [|exact H3]. cbn [fst].
      rewrite nth_error_upd. destruct (Nat.eqb_spec l l') as [->|]; [|exact H2].
      exfalso. apply Hmn. apply H3. exact Em.
  Qed.

  Lemma arun_app st o1 o2 :
    arun inst st (o1 ++ o2)
    = (fst (arun inst st o1) ++ fst (arun inst (snd (arun inst st o1)) o2),
       snd (arun inst (snd (arun inst st o1)) o2)).
  Proof.
    revert st. induction o1 as [|o o1 IH]; intros st; cbn [arun app].
    - cbn [fst snd app]. destruct (arun inst st o2); reflexivity.
    - destruct (astep inst st o) as [r st']. rewrite IH.
      destruct (arun inst st' o1) as [rs st'']. reflexivity.
  Qed.

  Lemma arun_length st o : length (fst (arun inst st o)) = length o.
  Proof.
    revert st. induction o as [|x o IH]; intros st; cbn [arun]; [reflexivity|].
    destruct (astep inst st x) as [r st']. specialize (IH st').
    destruct (arun inst st' o). cbn [fst length] in *. now rewrite IH.
  Qed.

  Lemma arun_inv n l t : is_dunder n = false -> forall ops st d,
    reg_attr st n l t d -> no_alias l ops ->
    reg_attr (snd (arun inst st ops)) n l t (last_assigned n t d ops).
  Proof.
    intros Hdn. induction ops as [|o ops IH]; intros st d Hr Ha; cbn [arun]; [exact Hr|].
    pose proof (astep_inv st n l t d o Hdn Hr (fun m E => Ha m (or_introl E))) as Hs.
    destruct (astep inst st o) as [r st'] eqn:E. cbn [snd] in Hs.
    specialize (IH st' _ Hs (fun m I => Ha m (or_intror I))).
    destruct (arun inst st' ops) as [rs st'']. cbn [snd] in *.
    replace (last_assigned n t d (o :: ops)) with
      (last_assigned n t (match o with ASet m (PData x) => if String.eqb m n && inst x t then x else d | _ => d end) ops);
      [exact IH|].
    unfold last_assigned. cbn [rev]. rewrite find_app.
    destruct (find (typed_to n t) (rev ops)) as [[m|m [x|l']]|] eqn:Ef; try reflexivity.
    - apply find_some in Ef as [_ Ef]. discriminate Ef.
    - apply find_some in Ef as [_ Ef]. discriminate Ef.
    - cbn [find]. destruct o as [m|m [x|l']]; cbn [typed_to]; try reflexivity.
      destruct (String.eqb m n && inst x t); reflexivity.
  Qed.
End C22.

(** Full property: for every attribute register, under every attribute name. *)
Definition C22_read_full : Prop :=
  forall (D T : Type) (inst : D -> T -> bool) (st : @ostate D T) n l t d o1 o2,
    reg_attr st n l t d -> no_alias l (o1 ++ AGet n :: o2) ->
    nth_error (fst (arun inst st (o1 ++ AGet n :: o2))) (length o1)
    = Some (Ok (PData (last_assigned inst n t d o1))).

(** With a dunder name the register object itself is returned. *)
Theorem C22_full_refuted : ~ C22_read_full.
Proof.
  intros H.
  specialize (H Z unit (fun _ _ => true) ([(tt, 5)], [("__x__"%string, PReg O)])
                "__x__"%string O tt 5 [] []).
  assert (A : reg_attr ([(tt, 5)], [("__x__"%string, @PReg Z O)]) "__x__"%string O tt 5).
  { repeat split. intros m. cbn [snd dget]. destruct (String.eqb_spec m "__x__"); congruence. }
  specialize (H A). assert (B : no_alias O ([] ++ AGet "__x__" :: [] : list (@aop Z))).
  { intros m [E|[]]. discriminate E. }
  specialize (H B). vm_compute in H. discriminate H.
Qed.

(** Reading a register attribute yields the last correctly typed value assigned
    to it. Missing for C22: dunder names. *)
Theorem C22_read_partial :
  forall (D T : Type) (inst : D -> T -> bool) (st : @ostate D T) n l t d o1 o2,
    ~ dunder n ->
    reg_attr st n l t d -> no_alias l o1 ->
    nth_error (fst (arun inst st (o1 ++ AGet n :: o2))) (length o1)
    = Some (Ok (PData (last_assigned inst n t d o1))).
Proof.
  intros D T inst st n l t d o1 o2 Hd%not_dunder Hr Ha. rewrite arun_app. cbn [fst].
  rewrite nth_error_app2 by (rewrite arun_length; lia).
  rewrite arun_length, Nat.sub_diag.
  pose proof (arun_inv inst n l t Hd o1 st d Hr Ha) as (H1 & H2 & _).
  cbn [arun]. set (st' := snd (arun inst st o1)) in *. cbn [astep].
  destruct (arun inst st' o2). cbn [fst nth_error].
  unfold peak_get, raw_get. rewrite H1, Hd, H2. reflexivity.
Qed.

(** Assigning to a register attribute succeeds exactly for instances of its
    type. Otherwise it raises TypeError and changes nothing. The register
    object stays in place in every history. *)
Theorem C22_write :
  forall (D T : Type) (inst : D -> T -> bool) (st : @ostate D T) n l t d ops v,
    ~ dunder n ->
    reg_attr st n l t d -> no_alias l ops ->
    let st' := snd (arun inst st ops) in
    dget String.eqb (snd st') n = Some (PReg l) /\
    match v with
    | PData x => if inst x t
                 then fst (peak_set inst st' n v) = Ok tt /\
                      peak_get (snd (peak_set inst st' n v)) n = Ok (PData x)
                 else peak_set inst st' n v = (Err TypeError, st')
    | PReg _ => peak_set inst st' n v = (Err TypeError, st')
    end.
Proof.
  intros D T inst st n l t d ops v Hd%not_dunder Hr Ha st'.
  pose proof (arun_inv inst n l t Hd ops st d Hr Ha) as Hst. fold st' in Hst.
  destruct Hst as (H1 & H2 & H3). split; [exact H1|].
  destruct st' as [h a]. cbn [fst snd] in *.
  unfold peak_set, raw_get. rewrite Hd, H1, H2. destruct v as [x|l']; [|reflexivity].
  destruct (inst x t) eqn:Ei; [|reflexivity].
  split; [reflexivity|]. cbn [snd]. unfold peak_get, raw_get. cbn [snd fst].
  rewrite H1, Hd, nth_error_upd, Nat.eqb_refl, H2. reflexivity.
Qed.

(** Under a name such as "__x__" a register attribute is a plain one: reading
    it yields the register object, and assigning any value replaces the object
    without changing its contents. *)
Theorem C22_dunder :
  forall (D T : Type) (inst : D -> T -> bool) (st : @ostate D T) n l t d v,
    dunder n -> reg_attr st n l t d ->
    peak_get st n = Ok (PReg l) /\
    fst (peak_set inst st n v) = Ok tt /\
    peak_get (snd (peak_set inst st n v)) n = Ok v /\
    nth_error (fst (snd (peak_set inst st n v))) l = Some (t, d).
Proof.
  intros D T inst [h a] n l t d v Hd%is_dunder_spec (H1 & H2 & _). cbn [fst snd] in *.
  unfold peak_set. rewrite Hd. cbn [fst snd]. unfold peak_get, raw_get. cbn [fst snd].
  rewrite H1, dget_dset_s, String.eqb_refl, Hd. destruct v; auto.
Qed.

Example C22_dunder_case :
  dunder "__x__" /\ ~ dunder "_x_" /\ ~ dunder "____" /\ ~ dunder "__x" /\ ~ dunder "___x__".
Proof. rewrite <- !is_dunder_spec. repeat split; discriminate. Qed.

(** Frame: assigning to one attribute changes what another attribute reads only
    if both are bound to the same register object. *)
Theorem C22_frame :
  forall (D T : Type) (inst : D -> T -> bool) (st : @ostate D T) n m v,
    n <> m ->
    (forall l, dget String.eqb (snd st) n = Some (PReg l) ->
               dget String.eqb (snd st) m = Some (PReg l) -> False) ->
    peak_get (snd (peak_set inst st n v)) m = peak_get st m.
Proof.
  intros D T inst [h a] n m v Hnm Hal. cbn [snd] in Hal.
  assert (Hstore : peak_get (h, dset String.eqb a n v) m = peak_get (h, a) m).
  { unfold peak_get, raw_get. cbn [fst snd]. rewrite dget_dset_s.
    destruct (String.eqb_spec m n); [congruence|reflexivity]. }
  unfold peak_set, raw_get.
  destruct (is_dunder n); [exact Hstore|].
  destruct (dget String.eqb a n) as [[x|l]|] eqn:En; try exact Hstore.
  destruct (nth_error h l) as [[t d]|] eqn:El; [|reflexivity].
  destruct v as [x|l']; [|reflexivity]. destruct (inst x t); [|reflexivity].
  cbn [snd]. unfold peak_get, raw_get. cbn [fst snd].
  destruct (dget String.eqb a m) as [[y|l']|] eqn:Em; try reflexivity.
  destruct (is_dunder m); [reflexivity|].
  rewrite nth_error_upd. destruct (Nat.eqb_spec l' l) as [->|]; [|reflexivity].
  exfalso. exact (Hal l eq_refl eq_refl).
Qed.

(** A plain attribute reads back what was last assigned. *)
Theorem C22_plain :
  forall (D T : Type) (inst : D -> T -> bool) (st : @ostate D T) n x,
    (forall l, dget String.eqb (snd st) n <> Some (PReg l)) ->
    peak_set inst st n (PData x) = (Ok tt, snd (peak_set inst st n (PData x))) /\
    peak_get (snd (peak_set inst st n (PData x))) n = Ok (PData x).
Proof.
  intros D T inst [h a] n x Hp. cbn [snd] in Hp.
  assert (Hg : peak_get (h, dset String.eqb a n (PData x)) n = Ok (PData x)).
  { unfold peak_get, raw_get. cbn [fst snd]. rewrite dget_dset_s, String.eqb_refl.
    destruct (is_dunder n); reflexivity. }
  unfold peak_set, raw_get.
  destruct (is_dunder n); [split; [reflexivity|exact Hg]|].
  destruct (dget String.eqb a n) as [[y|l]|] eqn:En; try (split; [reflexivity|exact Hg]).
  exfalso. exact (Hp l eq_refl).
Qed.

Example C22_case :
  let st : @ostate Z Z := ([(8, 0); (4, 1)], [("r"%string, PReg 0%nat); ("q"%string, PReg 1%nat); ("p"%string, PData 3)]) in
  let inst v t := (0 <=? v) && (v <? 2 ^ t) in
  reg_attr st "r" 0 8 0 /\
  fst (arun inst st [ASet "r" (PData 200); ASet "q" (PData 200); AGet "r"; AGet "q"; ASet "p" (PData 77); AGet "p";
                     ASet "r" (PData 300); AGet "r"; AGet "z"; ASet "q" (PData 15); AGet "q"])
  = [Ok (PData 200); Err TypeError; Ok (PData 200); Ok (PData 1); Ok (PData 77); Ok (PData 77);
     Err TypeError; Ok (PData 200); Err AttributeError; Ok (PData 15); Ok (PData 15)].
Proof.
  split; [|reflexivity]. repeat split. intros m. cbn [snd dget].
  destruct (String.eqb_spec m "r"); [auto|].
  destruct (String.eqb_spec m "q"); [discriminate|].
  destruct (String.eqb_spec m "p"); discriminate.
Qed.

Print Assumptions C20_register.
Print Assumptions C20_prev.
Print Assumptions C20_register_noen.
Print Assumptions C20_rewritten.
Print Assumptions C20_noen_none_refuted.
Print Assumptions C21_full_refuted.
Print Assumptions C21_ram_partial.
Print Assumptions C21_frame.
Print Assumptions C21_rom.
Print Assumptions C22_full_refuted.
Print Assumptions C22_read_partial.
Print Assumptions C22_write.
Print Assumptions C22_dunder.
Print Assumptions C22_frame.
Print Assumptions C22_plain.
