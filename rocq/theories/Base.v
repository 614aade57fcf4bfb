(** * Base: bytes, Go strings, machine integers, strconv.Itoa / strconv.Atoi

    Go strings are byte sequences; we use [list byte].  Go [int] is the 64-bit
    signed integer of amd64/arm64; integers are [Z] and wrap explicitly. *)
From Coq Require Export ZArith Lia Strings.String Strings.Byte Init.Byte.
From Coq Require Import ZifyBool ZifyNat ZifyN.
From stdpp Require Export prelude base list gmap countable.
Global Open Scope Z_scope.
Global Open Scope list_scope.

(** ** Bytes *)

(** The numeric value of a byte (Go [uint8]). *)
Definition b2z (b : byte) : Z := Z.of_N (Byte.to_N b).

(** Truncating conversion to [uint8]. *)
Definition z2b (z : Z) : byte :=
  match Byte.of_N (Z.to_N (z mod 256)) with Some b => b | None => x00 end.

Lemma b2z_range b : 0 <= b2z b < 256.
Proof. destruct b; cbv; split; congruence. Qed.

Lemma z2b_b2z b : z2b (b2z b) = b.
Proof. destruct b; reflexivity. Qed.

Lemma b2z_z2b z : b2z (z2b z) = z mod 256.
Proof.
  unfold z2b, b2z.
  assert (0 <= z mod 256 < 256) as Hr by (apply Z.mod_pos_bound; lia).
  destruct (Byte.of_N (Z.to_N (z mod 256))) as [b|] eqn:E.
  - apply Byte.to_of_N in E. rewrite E. lia.
  - apply Byte.of_N_None_iff in E. lia.
Qed.

Lemma b2z_z2b_small z : 0 <= z < 256 -> b2z (z2b z) = z.
Proof. intros. rewrite b2z_z2b. apply Z.mod_small; lia. Qed.

Lemma b2z_inj b1 b2 : b2z b1 = b2z b2 -> b1 = b2.
Proof. intros H. rewrite <- (z2b_b2z b1), <- (z2b_b2z b2), H. reflexivity. Qed.

Global Instance byte_eq_dec : EqDecision byte := Byte.byte_eq_dec.
Global Program Instance byte_countable : Countable byte :=
  inj_countable' (fun b => Z.to_N (b2z b)) (fun n => z2b (Z.of_N n)) _.
Next Obligation. intros b. simpl. rewrite Z2N.id by (pose proof (b2z_range b); lia). apply z2b_b2z. Qed.

Lemma byte_eqb_eq b1 b2 : Byte.eqb b1 b2 = true <-> b1 = b2.
Proof. split; [apply Byte.byte_dec_bl|apply Byte.byte_dec_lb]. Qed.

(** ** Go strings *)

Notation gostr := (list byte).

(** A Go string literal. *)
Definition bs (s : string) : gostr := list_byte_of_string s.

(** [len(s)] as a Go int. *)
Definition zlen {A} (l : list A) : Z := Z.of_nat (length l).

Lemma zlen_nonneg {A} (l : list A) : 0 <= zlen l.
Proof. unfold zlen; lia. Qed.
Lemma zlen_app {A} (l k : list A) : zlen (l ++ k) = zlen l + zlen k.
Proof. unfold zlen; rewrite app_length; lia. Qed.
Lemma zlen_cons {A} (x : A) l : zlen (x :: l) = 1 + zlen l.
Proof. unfold zlen; simpl; lia. Qed.
Lemma zlen_nil {A} : zlen (@nil A) = 0.
Proof. reflexivity. Qed.

Definition gostr_eqb (a b : gostr) : bool := bool_decide (a = b).

(** ** Machine integers *)

Definition two64 : Z := 18446744073709551616.
Definition two63 : Z := 9223372036854775808.
Definition max_int64 : Z := 9223372036854775807.
Definition min_int64 : Z := -9223372036854775808.
Definition two32 : Z := 4294967296.
Definition two31 : Z := 2147483648.

(** Conversion to [int64]/[int] (two's complement wrap). *)
Definition wrap64 (z : Z) : Z := (z + two63) mod two64 - two63.
Definition wrap32 (z : Z) : Z := (z + two31) mod two32 - two31.
Definition wrapu64 (z : Z) : Z := z mod two64.
Definition wrapu32 (z : Z) : Z := z mod two32.
(** Go's limit for the length of an allocated slice of bytes on amd64; [make] panics above it. *)
Definition max_alloc : Z := 2 ^ 48.

Definition is_int64 (z : Z) : bool := (min_int64 <=? z) && (z <=? max_int64).

Lemma is_int64_iff z : is_int64 z = true <-> min_int64 <= z <= max_int64.
Proof. unfold is_int64. lia. Qed.

Lemma wrap64_range z : min_int64 <= wrap64 z <= max_int64.
Proof.
  unfold wrap64, min_int64, max_int64, two63, two64.
  pose proof (Z.mod_pos_bound (z + 9223372036854775808) 18446744073709551616). lia.
Qed.
Lemma wrap64_id z : is_int64 z = true -> wrap64 z = z.
Proof.
  rewrite is_int64_iff. unfold wrap64, min_int64, max_int64, two63, two64. intros H.
  rewrite Z.mod_small; lia.
Qed.
Lemma wrap64_is_int64 z : is_int64 (wrap64 z) = true.
Proof. apply is_int64_iff, wrap64_range. Qed.
Lemma wrap64_cong z : wrap64 z mod two64 = z mod two64.
Proof.
  unfold wrap64. rewrite Zminus_mod_idemp_l. f_equal. lia.
Qed.
Lemma wrap64_eq_mod a b : a mod two64 = b mod two64 -> wrap64 a = wrap64 b.
Proof.
  intros H. unfold wrap64. f_equal.
  rewrite (Zplus_mod a), (Zplus_mod b), H. reflexivity.
Qed.
Lemma wrap64_add_l a b : wrap64 (wrap64 a + b) = wrap64 (a + b).
Proof.
  apply wrap64_eq_mod. rewrite Zplus_mod, wrap64_cong, <- Zplus_mod. reflexivity.
Qed.
Lemma wrap64_add_r a b : wrap64 (a + wrap64 b) = wrap64 (a + b).
Proof. rewrite Z.add_comm, wrap64_add_l, Z.add_comm. reflexivity. Qed.

(** ** Decimal text *)

Definition digit (d : Z) : byte := z2b (48 + d).
Definition is_digit (b : byte) : bool := (48 <=? b2z b) && (b2z b <=? 57).
Definition digit_val (b : byte) : Z := b2z b - 48.

(** Digits of a non-negative number, most significant first.  The fuel is the
    bit length, which bounds the number of decimal digits. *)
Fixpoint dec_aux (fuel : nat) (n : Z) (acc : gostr) : gostr :=
  match fuel with
  | O => digit (n mod 10) :: acc
  | S f => if n <? 10 then digit n :: acc else dec_aux f (n / 10) (digit (n mod 10) :: acc)
  end.
Definition dec (n : Z) : gostr := dec_aux (Z.to_nat (Z.log2 n)) n [].

(** Models Go library [strconv.Itoa] / [fmt.Sprintf("%d")] / [strconv.FormatUint(_,10)]
    as used by cache/cachestring.go:66-76 and redis/protocol.go:71,98,136. *)
Definition itoa (n : Z) : gostr :=
  if n <? 0 then z2b 45 :: dec (- n) else dec n.

(** Value of a digit string, left to right. *)
Definition dec_val_from (acc : Z) (s : gostr) : Z :=
  fold_left (fun a b => a * 10 + digit_val b) s acc.
Definition dec_val (s : gostr) : Z := dec_val_from 0 s.

(** Models Go library [strconv.Atoi] (optional sign, base-10 digits only, at least
    one digit, int64 range), as used by cache/cachestring.go:17 and
    redis/conn.go:125,169,190,231,241.  Error values are collapsed to [None]. *)
Definition atoi (s : gostr) : option Z :=
  let '(neg, ds) :=
    match s with
    | b :: r => if b2z b =? 45 then (true, r) else if b2z b =? 43 then (false, r) else (false, s)
    | [] => (false, s)
    end in
  match ds with
  | [] => None
  | _ =>
    if forallb is_digit ds then
      let v := if neg then - dec_val ds else dec_val ds in
      if is_int64 v then Some v else None
    else None
  end.

(** ASCII lower-casing of one byte. *)
Definition lower_byte (b : byte) : byte :=
  if (65 <=? b2z b) && (b2z b <=? 90) then z2b (b2z b + 32) else b.
(** Models [strings.ToLower] on ASCII input.  Simplification: Go also maps non-ASCII
    upper-case runes; no such rune is involved in the comparisons made by the code
    except U+0130 (which lower-cases to "i"). *)
Definition to_lower (s : gostr) : gostr := map lower_byte s.

(** ** Lemmas on decimal text *)

Lemma digit_b2z d : 0 <= d < 10 -> b2z (digit d) = 48 + d.
Proof. intros. unfold digit. apply b2z_z2b_small. lia. Qed.
Lemma digit_val_digit d : 0 <= d < 10 -> digit_val (digit d) = d.
Proof. intros. unfold digit_val. rewrite digit_b2z; lia. Qed.
Lemma is_digit_digit d : 0 <= d < 10 -> is_digit (digit d) = true.
Proof. intros. unfold is_digit. rewrite digit_b2z; lia. Qed.
Lemma is_digit_val b : is_digit b = true -> 0 <= digit_val b < 10 /\ b = digit (digit_val b).
Proof.
  unfold is_digit, digit_val, digit. intros H. split; [lia|].
  replace (48 + (b2z b - 48)) with (b2z b) by lia. symmetry. apply z2b_b2z.
Qed.

Lemma dec_val_from_app a s t : dec_val_from a (s ++ t) = dec_val_from (dec_val_from a s) t.
Proof. apply fold_left_app. Qed.

Lemma dec_val_from_lin s a : dec_val_from a s = a * 10 ^ zlen s + dec_val_from 0 s.
Proof.
  revert a. induction s as [|b s IH]; intros a.
  - unfold dec_val_from. simpl. rewrite zlen_nil. lia.
  - unfold dec_val_from in *. cbn [fold_left].
    rewrite IH. rewrite (IH (0 * 10 + digit_val b)).
    rewrite zlen_cons, Z.pow_add_r by (pose proof (zlen_nonneg s); lia). lia.
Qed.

Lemma dec_val_app s t : dec_val (s ++ t) = dec_val s * 10 ^ zlen t + dec_val t.
Proof. unfold dec_val. rewrite dec_val_from_app, dec_val_from_lin. reflexivity. Qed.

Lemma dec_val_bounds s : forallb is_digit s = true -> 0 <= dec_val s < 10 ^ zlen s.
Proof.
  induction s as [|b s IH] using rev_ind; intros H.
  - cbv. split; congruence.
  - rewrite forallb_app in H. apply andb_prop in H as [H1 H2]. simpl in H2.
    rewrite andb_true_r in H2. apply is_digit_val in H2 as [Hd _].
    rewrite dec_val_app, zlen_app. change (zlen [b]) with 1.
    replace (dec_val [b]) with (digit_val b) by (unfold dec_val, dec_val_from; simpl; lia).
    rewrite Z.pow_add_r by (pose proof (zlen_nonneg s); lia). specialize (IH H1). lia.
Qed.

(** Enough fuel: [n < 2 ^ (fuel+1)] implies the digits are exact. *)
Lemma dec_aux_spec fuel n acc :
  0 <= n < 2 ^ (Z.of_nat fuel + 1) ->
  exists ds, dec_aux fuel n acc = ds ++ acc /\ forallb is_digit ds = true /\ dec_val ds = n /\
    ds <> [] /\ (n = 0 -> ds = [digit 0]) /\ (0 < n -> exists d r, ds = digit d :: r /\ 0 < d < 10).
Proof.
  revert n acc. induction fuel as [|f IH]; intros n acc Hn; cbn [dec_aux].
  - assert (0 <= n < 10) as Hc by (change (2 ^ (Z.of_nat 0 + 1)) with 2 in Hn; lia).
    rewrite Z.mod_small by lia.
    exists [digit n]. split; [reflexivity|].
    split; [simpl; rewrite is_digit_digit by lia; reflexivity|].
    split; [unfold dec_val, dec_val_from; simpl; rewrite digit_val_digit; lia|].
    split; [congruence|]. split; [intros ->; reflexivity|].
    intros. exists n, []. split; [reflexivity|lia].
  - destruct (n <? 10) eqn:E.
    + exists [digit n]. split; [reflexivity|].
      split; [simpl; rewrite is_digit_digit by lia; reflexivity|].
      split; [unfold dec_val, dec_val_from; simpl; rewrite digit_val_digit; lia|].
      split; [congruence|]. split; [intros ->; reflexivity|].
      intros. exists n, []. split; [reflexivity|lia].
    + destruct (IH (n / 10) (digit (n mod 10) :: acc)) as (ds & Hds & Hall & Hval & Hne & H0 & Hpos).
      { split; [apply Z.div_pos; lia|]. apply Z.div_lt_upper_bound; [lia|].
        replace (Z.of_nat (S f) + 1) with ((Z.of_nat f + 1) + 1) in Hn by lia.
        rewrite Z.pow_add_r in Hn by lia. change (2 ^ 1) with 2 in Hn. lia. }
      assert (0 <= n mod 10 < 10) by (apply Z.mod_pos_bound; lia).
      exists (ds ++ [digit (n mod 10)]).
      split; [rewrite Hds, <- app_assoc; reflexivity|].
      split; [rewrite forallb_app, Hall; simpl; rewrite is_digit_digit by lia; reflexivity|].
      split.
      { rewrite dec_val_app, Hval. change (zlen [_]) with 1.
        replace (dec_val [digit (n mod 10)]) with (n mod 10)
          by (unfold dec_val, dec_val_from; simpl; rewrite digit_val_digit; lia).
        pose proof (Z.div_mod n 10). lia. }
      split; [destruct ds; simpl; congruence|].
      split; [lia|].
      intros _. destruct Hpos as (d & r & -> & Hd).
      { apply Z.div_str_pos. lia. }
      exists d, (r ++ [digit (n mod 10)]). split; [reflexivity|exact Hd].
Qed.

Lemma dec_spec n : 0 <= n ->
  forallb is_digit (dec n) = true /\ dec_val (dec n) = n /\ dec n <> [] /\
  (n = 0 -> dec n = [digit 0]) /\ (0 < n -> exists d r, dec n = digit d :: r /\ 0 < d < 10).
Proof.
  intros Hn. unfold dec.
  destruct (dec_aux_spec (Z.to_nat (Z.log2 n)) n []) as (ds & -> & H).
  { split; [exact Hn|]. rewrite Z2Nat.id by apply Z.log2_nonneg.
    destruct (Z.eq_dec n 0) as [->|]; [reflexivity|]. apply Z.log2_spec. lia. }
  rewrite app_nil_r. exact H.
Qed.

Lemma dec_is_digits n : 0 <= n -> forallb is_digit (dec n) = true.
Proof. intros. apply dec_spec; assumption. Qed.
Lemma dec_val_dec n : 0 <= n -> dec_val (dec n) = n.
Proof. intros. apply dec_spec; assumption. Qed.

(** A digit string without superfluous leading zero is the canonical text of its value. *)
Lemma dec_unique ds : forallb is_digit ds = true -> ds <> [] ->
  (forall d r, ds = digit 0 :: r -> d = r -> r = []) -> dec (dec_val ds) = ds.
Proof.
  intros Hall Hne Hlead.
  assert (Hinj : forall s t, length s = length t -> forallb is_digit s = true ->
                 forallb is_digit t = true -> dec_val s = dec_val t -> s = t).
  { clear. induction s as [|b s IH] using rev_ind; intros t Hl Hs Ht Hv.
    - destruct t; [reflexivity|discriminate].
    - destruct t as [|c t _] using rev_ind; [rewrite app_length in Hl; simpl in Hl; lia|].
      rewrite !app_length in Hl. simpl in Hl.
      rewrite forallb_app in Hs, Ht. apply andb_prop in Hs as [Hs1 Hs2], Ht as [Ht1 Ht2].
      simpl in Hs2, Ht2. rewrite andb_true_r in Hs2, Ht2.
      apply is_digit_val in Hs2 as [Hb Eb], Ht2 as [Hc Ec].
      rewrite !dec_val_app in Hv. change (zlen [b]) with 1 in Hv. change (zlen [c]) with 1 in Hv.
      replace (dec_val [b]) with (digit_val b) in Hv by (unfold dec_val, dec_val_from; simpl; lia).
      replace (dec_val [c]) with (digit_val c) in Hv by (unfold dec_val, dec_val_from; simpl; lia).
      assert (dec_val s = dec_val t /\ digit_val b = digit_val c) as [Hv1 Hv2] by lia.
      rewrite (IH t) by (assumption || lia). rewrite Eb, Ec, Hv2. reflexivity. }
  pose proof (dec_val_bounds ds Hall) as Hb.
  destruct (dec_spec (dec_val ds)) as (Hd & Hv & Hn & H0 & Hp); [lia|].
  apply Hinj; try assumption.
  (* lengths agree: both lie between consecutive powers of ten *)
  destruct (Z.eq_dec (dec_val ds) 0) as [Hz|Hz].
  - rewrite H0 by assumption.
    destruct ds as [|b r]; [congruence|].
    simpl in Hall. apply andb_prop in Hall as [Hb1 Hr].
    apply is_digit_val in Hb1 as [Hbv Eb].
    change (b :: r) with ([b] ++ r) in Hz. rewrite dec_val_app in Hz.
    replace (dec_val [b]) with (digit_val b) in Hz by (unfold dec_val, dec_val_from; simpl; lia).
    pose proof (dec_val_bounds r Hr) as Hbr.
    assert (digit_val b = 0) as Hb0 by nia.
    rewrite Hb0 in Eb. rewrite (Hlead r r) by (congruence || rewrite <- Eb; reflexivity). reflexivity.
  - destruct (Hp ltac:(lia)) as (d & r & Edec & Hdd).
    assert (10 ^ (zlen (dec (dec_val ds)) - 1) <= dec_val ds < 10 ^ zlen (dec (dec_val ds))) as HA.
    { pose proof (dec_val_bounds _ Hd) as Hbd. rewrite Hv in Hbd. split; [|lia].
      rewrite <- Hv at 2. rewrite Edec.
      change (digit d :: r) with ([digit d] ++ r). rewrite zlen_app. change (zlen [digit d]) with 1.
      replace (1 + zlen r - 1) with (zlen r) by lia. rewrite dec_val_app.
      replace (dec_val [digit d]) with d by (unfold dec_val, dec_val_from; simpl; rewrite digit_val_digit; lia).
      rewrite Edec in Hd. simpl in Hd. apply andb_prop in Hd as [_ Hr].
      pose proof (dec_val_bounds r Hr). nia. }
    assert (10 ^ (zlen ds - 1) <= dec_val ds < 10 ^ zlen ds) as HB.
    { split; [|lia]. destruct ds as [|b r']; [congruence|].
      simpl in Hall. apply andb_prop in Hall as [Hb1 Hr].
      apply is_digit_val in Hb1 as [Hbv Eb].
      change (b :: r') with ([b] ++ r'). rewrite zlen_app. change (zlen [b]) with 1.
      replace (1 + zlen r' - 1) with (zlen r') by lia. rewrite dec_val_app.
      replace (dec_val [b]) with (digit_val b) by (unfold dec_val, dec_val_from; simpl; lia).
      pose proof (dec_val_bounds r' Hr) as Hbr.
      assert (digit_val b <> 0).
      { intros Hb0. rewrite Hb0 in Eb. assert (r' = []) by (apply (Hlead r'); congruence).
        subst r'. apply Hz. rewrite Eb. reflexivity. }
      nia. }
    assert (zlen (dec (dec_val ds)) = zlen ds) as Hl.
    { pose proof (zlen_nonneg ds). pose proof (zlen_nonneg (dec (dec_val ds))).
      assert (1 <= zlen (dec (dec_val ds))) by (rewrite Edec, zlen_cons; pose proof (zlen_nonneg r); lia).
      assert (1 <= zlen ds) by (destruct ds; [congruence|rewrite zlen_cons; pose proof (zlen_nonneg ds); lia]).
      destruct (Z.lt_trichotomy (zlen (dec (dec_val ds))) (zlen ds)) as [Hlt|[Heq|Hlt]]; [|exact Heq|].
      - assert (10 ^ zlen (dec (dec_val ds)) <= 10 ^ (zlen ds - 1)) by (apply Z.pow_le_mono_r; lia). lia.
      - assert (10 ^ zlen ds <= 10 ^ (zlen (dec (dec_val ds)) - 1)) by (apply Z.pow_le_mono_r; lia). lia. }
    unfold zlen in Hl. lia.
Qed.

Lemma digit_not_sign d : 0 <= d < 10 -> b2z (digit d) =? 45 = false /\ b2z (digit d) =? 43 = false.
Proof. intros. rewrite digit_b2z by lia. lia. Qed.

Lemma is_digit_not_sign b : is_digit b = true -> b2z b =? 45 = false /\ b2z b =? 43 = false.
Proof. unfold is_digit. lia. Qed.

Lemma atoi_itoa n : is_int64 n = true -> atoi (itoa n) = Some n.
Proof.
  intros Hn. unfold itoa, atoi.
  destruct (n <? 0) eqn:E.
  - rewrite b2z_z2b_small by lia. simpl.
    destruct (dec_spec (- n)) as (Hd & Hv & Hne & _); [lia|].
    destruct (dec (- n)) as [|b r] eqn:Ed; [congruence|].
    rewrite Hd, Hv. rewrite Z.opp_involutive, Hn. reflexivity.
  - destruct (dec_spec n) as (Hd & Hv & Hne & _); [lia|].
    destruct (dec n) as [|b r] eqn:Ed; [congruence|].
    assert (is_digit b = true) as Hb by (simpl in Hd; apply andb_prop in Hd; tauto).
    apply is_digit_not_sign in Hb as [-> ->].
    rewrite Hd, Hv, Hn. reflexivity.
Qed.

Lemma atoi_int64 s n : atoi s = Some n -> is_int64 n = true.
Proof.
  unfold atoi. destruct (match s with [] => _ | _ => _ end) as [neg ds].
  destruct ds as [|b r]; [discriminate|].
  destruct (forallb is_digit (b :: r)); [|discriminate].
  destruct (is_int64 _) eqn:E; [|discriminate]. intros [= <-]. exact E.
Qed.

Lemma itoa_inj a b : is_int64 a = true -> is_int64 b = true -> itoa a = itoa b -> a = b.
Proof.
  intros Ha Hb E. assert (Some a = Some b) as H by (rewrite <- !atoi_itoa, E; auto). congruence.
Qed.

Lemma itoa_nonempty n : itoa n <> [].
Proof.
  unfold itoa. destruct (n <? 0) eqn:E; [congruence|]. apply dec_spec. lia.
Qed.

Lemma to_lower_length s : length (to_lower s) = length s.
Proof. apply map_length. Qed.
