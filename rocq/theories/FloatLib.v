(** * FloatLib: formatting and parsing of floats (lemmas about GoFloat) *)
From Verif Require Import Base GoFloat.

Lemma digits2_log2 p : Z.pos (digits2_pos p) = Z.log2 (Z.pos p) + 1.
Proof.
  induction p as [p IH|p IH|]; [| |reflexivity]; cbn [digits2_pos]; rewrite Pos2Z.inj_succ, IH.
  - rewrite Pos2Z.inj_xI, Z.log2_succ_double by lia. lia.
  - rewrite Pos2Z.inj_xO, Z.log2_double by lia. lia.
Qed.
Lemma Zdigits2_log2 n : 0 < n -> Zdigits2 n = Z.log2 n + 1.
Proof. destruct n; intros; try lia. apply digits2_log2. Qed.
Lemma Zdigits2_mul m j : 0 < m -> 0 <= j -> Zdigits2 (m * 2 ^ j) = Zdigits2 m + j.
Proof. intros. rewrite !Zdigits2_log2 by nia. rewrite Z.log2_mul_pow2 by lia. lia. Qed.

(** ** shifting *)
Definition rec0 (m : Z) : shr_record := Build_shr_record m false false.
Lemma shr_1_double m : 0 <= m -> shr_1 (rec0 (2 * m)) = rec0 m.
Proof. destruct m; intros; try lia; reflexivity. Qed.
Lemma iter_shr_exact p : forall m, 0 <= m -> iter_pos shr_1 p (rec0 (m * 2 ^ Z.pos p)) = rec0 m.
Proof.
  induction p as [p IH|p IH|]; intros m Hm; cbn [iter_pos].
  - replace (m * 2 ^ Z.pos p~1) with (2 * (m * 2 ^ Z.pos p * 2 ^ Z.pos p)).
    + rewrite shr_1_double by nia. rewrite IH by nia. apply IH, Hm.
    + replace (Z.pos p~1) with (Z.pos p + Z.pos p + 1) by lia. rewrite !Z.pow_add_r by lia. change (2 ^ 1) with 2. lia.
  - replace (m * 2 ^ Z.pos p~0) with (m * 2 ^ Z.pos p * 2 ^ Z.pos p).
    + rewrite IH by nia. apply IH, Hm.
    + replace (Z.pos p~0) with (Z.pos p + Z.pos p) by lia. rewrite Z.pow_add_r by lia. lia.
  - change (2 ^ 1) with 2. rewrite Z.mul_comm. apply shr_1_double, Hm.
Qed.
Lemma shr_exact m e j : 0 <= m -> 0 <= j -> shr (rec0 (m * 2 ^ j)) (e - j) j = (rec0 m, e).
Proof.
  intros Hm Hj. unfold shr. destruct j as [|j|j]; [|rewrite iter_shr_exact by auto; f_equal; lia|lia].
  rewrite Z.pow_0_r, Z.mul_1_r, Z.sub_0_r. reflexivity.
Qed.
Lemma bounded_iff m e : bounded 53 1024 m e = true <-> fexp 53 1024 (Zdigits2 (Z.pos m) + e) = e /\ e <= 971.
Proof. unfold bounded, canonical_mantissa. rewrite andb_true_iff, <- Zeq_is_eq_bool, <- Zle_is_le_bool. reflexivity. Qed.
Lemma round_aux_exact s m e j : bounded 53 1024 m e = true -> 0 <= j ->
  binary_round_aux 53 1024 s (Z.pos m * 2 ^ j) (e - j) loc_Exact = S754_finite s m e.
Proof.
  intros Hb Hj. apply bounded_iff in Hb as [H1 H2]. unfold binary_round_aux, shr_fexp. rewrite Zdigits2_mul by lia.
  replace (Zdigits2 (Z.pos m) + j + (e - j)) with (Zdigits2 (Z.pos m) + e) by lia. rewrite H1. replace (e - (e - j)) with j by lia.
  change (shr_record_of_loc (Z.pos m * 2 ^ j) loc_Exact) with (rec0 (Z.pos m * 2 ^ j)). rewrite shr_exact by lia.
  cbn [rec0 shr_m loc_of_shr_record round_nearest_even]. rewrite H1, Z.sub_diag. cbn. 
  change (1024 - 53) with 971. destruct (Z.leb_spec e 971); [reflexivity|lia].
Qed.
Lemma fexp_mono a b : a <= b -> fexp 53 1024 a <= fexp 53 1024 b.
Proof. unfold fexp. lia. Qed.
(** A ratio that is exactly a float is rounded to it. *)
Lemma round_ratio_exact s n d m e a b : bounded 53 1024 m e = true -> 0 < n -> 0 < d -> 0 <= a -> 0 <= b -> e = a - b ->
  n * 2 ^ b = Z.pos m * 2 ^ a * d -> round_ratio s n d = S754_finite s m e.
Proof.
  intros Hb Hn Hd Ha Hb0 He E. unfold round_ratio. destruct (Z.eqb_spec n 0); [lia|]. unfold SFdiv_core_binary.
  rewrite Z.add_0_r, Z.sub_0_r. replace (Zdigits2 d + 0) with (Zdigits2 d) by lia.
  set (e' := Z.min _ _).
  assert (He' : e' <= e /\ e' <= 0).
  { split; [|subst e'; lia]. destruct (Z.le_gt_cases 0 e) as [H0|H0]; [subst e'; lia|].
    apply Z.le_trans with (fexp 53 1024 (Zdigits2 n - Zdigits2 d)); [subst e'; lia|].
    apply bounded_iff in Hb as [H1 _]. rewrite <- H1. apply fexp_mono. rewrite !Zdigits2_log2 by lia.
    assert (Hl : Z.log2 n + b <= Z.log2 (Z.pos m) + a + Z.log2 d + 1).
    { pose proof (Z.log2_mul_pow2 n b Hn Hb0) as L1. pose proof (Z.log2_mul_pow2 (Z.pos m) a eq_refl Ha) as L2.
      pose proof (Z.log2_mul_above (Z.pos m * 2 ^ a) d ltac:(nia) ltac:(lia)) as L3. rewrite <- E in L3. lia. }
    lia. }
  assert (Hm' : match - e' with 0 => n | Z.pos _ => Z.shiftl n (- e') | Z.neg _ => 0 end = Z.pos m * 2 ^ (e - e') * d).
  { assert (Hx : n * 2 ^ (- e') = Z.pos m * 2 ^ (e - e') * d).
    { apply (Z.mul_cancel_r _ _ (2 ^ b)); [apply Z.pow_nonzero; lia|].
      replace (n * 2 ^ (- e') * 2 ^ b) with (n * 2 ^ b * 2 ^ (- e')) by lia. rewrite E.
      replace (Z.pos m * 2 ^ (e - e') * d * 2 ^ b) with (Z.pos m * (2 ^ (e - e') * 2 ^ b) * d) by lia.
      replace (Z.pos m * 2 ^ a * d * 2 ^ (- e')) with (Z.pos m * (2 ^ a * 2 ^ (- e')) * d) by lia.
      rewrite <- !Z.pow_add_r by lia. replace (a + - e') with (e - e' + b) by lia. reflexivity. }
    rewrite <- Hx. destruct (- e') as [|p|p] eqn:Ep; [rewrite Z.pow_0_r; lia|rewrite Z.shiftl_mul_pow2 by lia; reflexivity|lia]. }
  replace (0 - e') with (- e') by lia. rewrite Hm'.
  assert (Hdv : Z.div_eucl (Z.pos m * 2 ^ (e - e') * d) d = (Z.pos m * 2 ^ (e - e'), 0)).
  { pose proof (Z.div_mul (Z.pos m * 2 ^ (e - e')) d ltac:(lia)) as H1. pose proof (Z.mod_mul (Z.pos m * 2 ^ (e - e')) d ltac:(lia)) as H2.
    unfold Z.div, Z.modulo in H1, H2. destruct (Z.div_eucl _ _). subst. reflexivity. }
  rewrite Hdv. assert (Hloc : new_location d 0 = loc_Exact). { unfold new_location, new_location_even, new_location_odd. destruct (Z.even d); reflexivity. }
  rewrite Hloc. replace e' with (e - (e - e')) at 2 by lia. apply round_aux_exact; [exact Hb|lia].
Qed.
Lemma round_ratio_sign n d s : round_ratio s n d = if s then SFopp (round_ratio false n d) else round_ratio false n d.
Proof.
  destruct s; [|reflexivity]. unfold round_ratio. destruct (n =? 0); [reflexivity|]. destruct (SFdiv_core_binary _ _ _ _ _ _) as [[mz ez] lz].
  unfold binary_round_aux. destruct (shr_fexp _ _ mz ez lz) as [r1 e1]. destruct (shr_fexp _ _ _ e1 loc_Exact) as [r2 e2].
  destruct (shr_m r2) as [|p|p]; [reflexivity| |reflexivity]. destruct (_ <=? _); reflexivity.
Qed.
Lemma round_dec_sign c q s : round_dec s c q = if s then SFopp (round_dec false c q) else round_dec false c q.
Proof. unfold round_dec. destruct (0 <=? q); apply round_ratio_sign. Qed.

(** ** shortest *)
Lemma f64_eqb_eq a b : f64_eqb a b = true -> a = b.
Proof.
  destruct a as [s|s| |s m e], b as [s'|s'| |s' m' e']; cbn; try discriminate; try reflexivity.
  - intros H. apply eqb_prop in H. subst. reflexivity.
  - intros H. apply eqb_prop in H. subst. reflexivity.
  - rewrite !andb_true_iff. intros [[H1 H2] H3]. apply eqb_prop in H1. apply Pos.eqb_eq in H2. apply Z.eqb_eq in H3. subst. reflexivity.
Qed.
Lemma shortest_ok f d k drop : 0 <= d -> round_dec false d (- k) = f ->
  let '(c, q) := shortest f d k drop in 0 <= c /\ round_dec false c q = f.
Proof.
  intros Hd Hf. induction drop as [|n IH]; cbn [shortest]; [auto|].
  set (p := 10 ^ Z.of_nat (S n)). set (q := Z.of_nat (S n) - k).
  assert (Hlo : 0 <= d / p). { apply Z.div_pos; [exact Hd|]. subst p. apply Z.pow_pos_nonneg; lia. }
  destruct (f64_eqb (round_dec false (d / p) q) f) eqn:E1; destruct (f64_eqb (round_dec false (d / p + 1) q) f) eqn:E2; cbn [andb].
  - apply f64_eqb_eq in E1, E2. destruct (_ || _); auto with lia.
  - apply f64_eqb_eq in E1. auto.
  - apply f64_eqb_eq in E2. auto with lia.
  - exact IH.
Qed.
Lemma format_abs_spec m e : bounded 53 1024 m e = true -> exists c q, format_abs m e = fmt_dec c q /\ 0 <= c /\ round_dec false c q = S754_finite false m e.
Proof.
  intros Hb. unfold format_abs.
  assert (H : let '(d, k) := if 0 <=? e then (Z.pos m * 2 ^ e, 0) else (Z.pos m * 5 ^ (- e), - e) in 0 <= d /\ round_dec false d (- k) = S754_finite false m e).
  { destruct (Z.leb_spec 0 e) as [He|He].
    - split; [nia|]. unfold round_dec. cbn [Z.opp Z.leb Z.compare]. rewrite Z.pow_0_r, Z.mul_1_r.
      apply (round_ratio_exact _ _ _ _ _ e 0); auto; try lia. 
    - split; [nia|]. unfold round_dec. rewrite Z.opp_involutive. destruct (Z.leb_spec 0 e); [lia|].
      apply (round_ratio_exact _ _ _ _ _ 0 (- e)); auto; try lia.
      rewrite Z.pow_0_r, Z.mul_1_r. change 10 with (5 * 2). rewrite Z.pow_mul_l. lia. }
  destruct (if 0 <=? e then _ else _) as [d k]. destruct H as [H1 H2].
  pose proof (shortest_ok _ d k (length (dec d) - 1) H1 H2) as H3. destruct (shortest _ _ _ _) as [c q]. destruct H3. eauto.
Qed.

(** ** reading back *)
Definition no_und (b : byte) : Prop := b2z b <> 95 /\ b2z b <> 46.
Lemma is_digit_b2z b : is_digit b = true -> 48 <= b2z b <= 57.
Proof. unfold is_digit. lia. Qed.
Lemma scan_digits ds : forall r m nf dot dig und, forallb is_digit ds = true ->
  scan_mant false (ds ++ r) m nf dot dig und = scan_mant false r (dec_val_from m ds) (if dot then nf + zlen ds else nf) dot (dig || negb (bool_decide (ds = []))) und.
Proof.
  induction ds as [|b ds IH]; intros r m nf dot dig und H.
  - cbn. rewrite orb_false_r. destruct dot; [rewrite Z.add_0_r|]; reflexivity.
  - cbn [forallb] in H. apply andb_prop in H as [Hb H]. pose proof (is_digit_b2z b Hb) as Hz. cbn [app scan_mant].
    destruct (Z.eqb_spec (b2z b) 95); [lia|]. destruct (Z.eqb_spec (b2z b) 46); [lia|]. unfold digit_of. rewrite Hb. rewrite IH by exact H.
    f_equal; [destruct dot; [rewrite zlen_cons; lia|reflexivity]|]. rewrite (bool_decide_eq_false_2 (b :: ds = [])) by discriminate. cbn. rewrite orb_true_r. reflexivity.
Qed.
Lemma lower_digit b : is_digit b = true -> lower_byte b = b.
Proof. intros H. apply is_digit_b2z in H. unfold lower_byte. destruct (Z.leb_spec 65 (b2z b)); [lia|reflexivity]. Qed.
Lemma hex_no b c r : is_digit b = true -> 46 <= b2z c <= 57 -> strip_hex (b :: c :: r) = (false, b :: c :: r).
Proof.
  intros Hb Hc. unfold strip_hex. assert (El : lower_byte c = c) by (unfold lower_byte; destruct (Z.leb_spec 65 (b2z c)); [lia|reflexivity]). rewrite El.
  destruct (Z.eqb_spec (b2z c) 120); [lia|]. rewrite andb_false_r. reflexivity.
Qed.
(** digits with at most one dot after the first digit *)
Lemma strip_hex_digits ds r : forallb is_digit ds = true -> ds <> [] -> match r with [] => True | c :: _ => b2z c = 46 end -> strip_hex (ds ++ r) = (false, ds ++ r).
Proof.
  intros H Hne Hr. destruct ds as [|b [|c ds]]; [congruence| |].
  - cbn [app]. cbn in H. rewrite andb_true_r in H. destruct r as [|c r]; [reflexivity|]. apply hex_no; [exact H|lia].
  - cbn in H. apply andb_prop in H as [H1 H]. apply andb_prop in H as [H2 H]. apply hex_no; [exact H1|]. apply is_digit_b2z in H2. lia.
Qed.
Lemma strip_sign_digits ds r : forallb is_digit ds = true -> ds <> [] -> strip_sign (ds ++ r) = (false, ds ++ r).
Proof.
  intros H Hne. destruct ds as [|b ds]; [congruence|]. cbn in H. apply andb_prop in H as [H _]. apply is_digit_b2z in H. cbn [app strip_sign].
  destruct (Z.eqb_spec (b2z b) 45); [lia|]. destruct (Z.eqb_spec (b2z b) 43); [lia|]. reflexivity.
Qed.
Lemma pad_left_digits n s : forallb is_digit s = true -> forallb is_digit (pad_left n s) = true.
Proof. intros H. unfold pad_left. rewrite forallb_app, H, andb_true_r. induction (n - length s)%nat; [reflexivity|]. exact IHn0. Qed.
Lemma dec_val_zeros n : forall s, dec_val_from 0 (repeat (digit 0) n ++ s) = dec_val_from 0 s.
Proof. induction n as [|n IH]; intros s; [reflexivity|]. cbn [repeat app]. unfold dec_val_from in *. cbn [fold_left]. change (0 * 10 + digit_val (digit 0)) with 0. apply IH. Qed.
Lemma dec_len n k : 0 <= n < 10 ^ Z.of_nat k -> (0 < k)%nat -> (length (dec n) <= k)%nat.
Proof.
  intros Hn Hk. destruct (dec_spec n) as (H1 & H2 & H3 & H4 & H5); [lia|].
  destruct (Z.eq_dec n 0) as [->|Hnz]; [rewrite H4 by auto; cbn; lia|]. destruct (H5 ltac:(lia)) as (d & r & E & Hd).
  assert (Hr : 10 ^ zlen r <= n).
  { rewrite <- H2, E. change (digit d :: r) with ([digit d] ++ r). rewrite dec_val_app. replace (dec_val [digit d]) with d by (unfold dec_val, dec_val_from; cbn [fold_left]; rewrite digit_val_digit; lia).
    rewrite E in H1. cbn in H1. apply andb_prop in H1 as [_ H1]. pose proof (dec_val_bounds r H1). nia. }
  rewrite E. cbn. unfold zlen in Hr. assert (Hlt : 10 ^ Z.of_nat (length r) < 10 ^ Z.of_nat k) by lia.
  apply Z.pow_lt_mono_r_iff in Hlt; lia.
Qed.
Lemma fmt_dec_shape (c q : Z) : 0 <= c -> exists ds fr : gostr, forallb is_digit ds = true /\ ds <> [] /\ forallb is_digit fr = true /\ (forall n t : gostr, ds = digit 0 :: t -> n = t -> t = []) /\ ((0 <= q /\ fmt_dec c q = ds /\ dec_val ds = c * 10 ^ q) \/ (q < 0 /\ fmt_dec c q = ds ++ z2b 46 :: fr /\ fr <> [] /\ zlen fr = - q /\ dec_val_from (dec_val ds) fr = c)).
Proof.
  intros Hc. unfold fmt_dec. 
  assert (Hcan : forall x, 0 <= x -> forall n t : gostr, dec x = digit 0 :: t -> n = t -> t = []).
  { intros x Hx n t E _. destruct (dec_spec x Hx) as (_ & _ & _ & H4 & H5). destruct (Z.eq_dec x 0) as [->|]; [rewrite H4 in E by auto; congruence|].
    destruct (H5 ltac:(lia)) as (d & r & E' & Hd). rewrite E' in E. injection E as E _. apply (f_equal digit_val) in E. rewrite !digit_val_digit in E by lia. lia. }
  destruct (Z.leb_spec 0 q) as [Hq|Hq].
  - assert (0 <= c * 10 ^ q) by nia. exists (dec (c * 10 ^ q)), []. destruct (dec_spec (c * 10 ^ q)) as (H1 & H2 & H3 & _); [auto|]. repeat split; auto.
    intros n t. apply Hcan. auto.
  - assert (Hp : 0 < 10 ^ (- q)) by (apply Z.pow_pos_nonneg; lia). pose proof (Z.div_pos c _ Hc Hp) as Hd. pose proof (Z.mod_pos_bound c _ Hp) as Hm.
    destruct (dec_spec _ Hd) as (H1 & H2 & H3 & _). destruct (dec_spec (c mod 10 ^ (- q))) as (H1' & H2' & H3' & _); [lia|].
    exists (dec (c / 10 ^ (- q))), (pad_left (Z.to_nat (- q)) (dec (c mod 10 ^ (- q)))). split; [auto|]. split; [auto|]. split; [apply pad_left_digits; auto|].
    split; [intros n t; apply Hcan; auto|]. right. split; [auto|]. split; [reflexivity|].
    assert (Hlen : zlen (pad_left (Z.to_nat (- q)) (dec (c mod 10 ^ (- q)))) = - q).
    { unfold pad_left, zlen. rewrite app_length, repeat_length. pose proof (dec_len (c mod 10 ^ (- q)) (Z.to_nat (- q))) as Hl.
      rewrite Z2Nat.id in Hl by lia. specialize (Hl ltac:(lia) ltac:(lia)). lia. }
    split; [intros E; rewrite E, zlen_nil in Hlen; lia|]. split; [exact Hlen|].
    rewrite dec_val_from_lin, Hlen, H2. unfold pad_left. rewrite dec_val_zeros. fold (dec_val (dec (c mod 10 ^ (- q)))). rewrite H2'. pose proof (Z.div_mod c (10 ^ (- q))). lia.
Qed.
Lemma read_abs s0 neg s c q : strip_sign s0 = (neg, s) -> s = fmt_dec c q -> 0 <= c -> read_float_full s0 = Some (round_dec neg c q).
Proof.
  intros E0 Es Hc. unfold read_float_full. rewrite E0. destruct (fmt_dec_shape c q Hc) as (ds & fr & H1 & H2 & H3 & _ & [(Hq & E & Hv)|(Hq & E & Hfr & Hl & Hv)]); rewrite Es, E.
  - rewrite <- (app_nil_r ds) at 1. rewrite strip_hex_digits by auto. rewrite scan_digits by auto. cbn [scan_mant orb]. rewrite bool_decide_eq_false_2 by auto. cbn [negb andb].
    rewrite bool_decide_eq_true_2 by auto. cbn [negb]. rewrite Z.sub_0_r. fold (dec_val ds). rewrite Hv. f_equal. unfold round_dec. cbn [Z.leb Z.compare]. rewrite Z.pow_0_r, Z.mul_1_r.
    destruct (Z.leb_spec 0 q); [reflexivity|lia].
  - rewrite strip_hex_digits by (auto; reflexivity). rewrite scan_digits by auto. cbn [scan_mant]. change (b2z (z2b 46)) with 46. cbn [Z.eqb Pos.eqb].
    rewrite <- (app_nil_r fr). rewrite scan_digits by auto. cbn [scan_mant orb]. rewrite (bool_decide_eq_false_2 (ds = [])), (bool_decide_eq_false_2 (fr = [])) by auto. cbn [negb andb orb].
    rewrite bool_decide_eq_true_2 by auto. cbn [negb]. fold (dec_val ds). rewrite Hv, Hl. f_equal. f_equal. lia.
Qed.
Lemma special_digit b r : is_digit b = true -> special_float (b :: r) = None.
Proof.
  intros H. apply is_digit_b2z in H. assert (El : lower_byte b = b) by (unfold lower_byte; destruct (Z.leb_spec 65 (b2z b)); [lia|reflexivity]).
  assert (Hn : forall t, match bs t with c :: _ => (b2z c <? 48) || (57 <? b2z c) = true | [] => True end -> eq_nocase (b :: r) t = false).
  { intros t Ht. apply bool_decide_eq_false_2. cbn [to_lower map]. rewrite El. intros E. rewrite <- E in Ht. lia. }
  unfold special_float. rewrite !Hn by (vm_compute; reflexivity). reflexivity.
Qed.
Lemma special_minus_digit b r : is_digit b = true -> special_float (z2b 45 :: b :: r) = None.
Proof.
  intros H. apply is_digit_b2z in H. assert (El : lower_byte b = b) by (unfold lower_byte; destruct (Z.leb_spec 65 (b2z b)); [lia|reflexivity]).
  assert (Hn : forall t, match bs t with _ :: c :: _ => (b2z c <? 48) || (57 <? b2z c) = true | _ => True end -> eq_nocase (z2b 45 :: b :: r) t = false).
  { intros t Ht. apply bool_decide_eq_false_2. cbn [to_lower map]. rewrite El. intros E. rewrite <- E in Ht. lia. }
  unfold special_float. rewrite !Hn by (vm_compute; reflexivity). reflexivity.
Qed.
(** Parsing the text of a float gives the float back. *)
Lemma parse_format f : f64_valid f = true -> parse_float (format_float f) = Some f.
Proof.
  destruct f as [[]|[]| |s m e]; intros Hv; [vm_compute; reflexivity..|].
  cbn [f64_valid valid_binary] in Hv. destruct (format_abs_spec m e Hv) as (c & q & E & Hc & Hr). cbn [format_float]. unfold parse_float.
  destruct (fmt_dec_shape c q Hc) as (ds & fr & H1 & H2 & H3 & _ & Hsh). destruct ds as [|b ds]; [congruence|]. cbn in H1. apply andb_prop in H1 as [Hb H1].
  assert (Ef : exists r, fmt_dec c q = b :: r) by (destruct Hsh as [(_ & -> & _)|(_ & -> & _)]; eauto). destruct Ef as [r Ef].
  assert (Hz : b2z b <> 45 /\ b2z b <> 43) by (apply is_digit_b2z in Hb; lia).
  destruct s; rewrite E, Ef.
  - rewrite special_minus_digit by auto. unfold read_float. rewrite (read_abs _ true (fmt_dec c q) c q); [|rewrite Ef; reflexivity|reflexivity|exact Hc].
    rewrite round_dec_sign, Hr. reflexivity.
  - rewrite special_digit by auto. unfold read_float. rewrite (read_abs _ false (fmt_dec c q) c q); [|rewrite Ef; cbn [strip_sign]|reflexivity|exact Hc].
    + rewrite Hr. reflexivity.
    + destruct (Z.eqb_spec (b2z b) 45); [tauto|]. destruct (Z.eqb_spec (b2z b) 43); [tauto|]. reflexivity.
Qed.

(** ** results of rounding are floats *)
Lemma shr_1_m r : 0 <= shr_m r -> shr_m (shr_1 r) = shr_m r / 2.
Proof.
  destruct r as [m r s]. cbn [shr_m]. intros Hm. destruct m as [|[p|p|]|p]; try lia; cbn [shr_1 shr_m].
  - reflexivity.
  - apply Z.div_unique with 1; lia.
  - apply Z.div_unique with 0; lia.
  - reflexivity.
Qed.
Lemma iter_shr_m p : forall r, 0 <= shr_m r -> shr_m (iter_pos shr_1 p r) = shr_m r / 2 ^ Z.pos p.
Proof.
  induction p as [p IH|p IH|]; intros r Hr; cbn [iter_pos].
  - pose proof (shr_1_m r Hr) as H1. assert (H0 : 0 <= shr_m (shr_1 r)) by (rewrite H1; apply Z.div_pos; lia).
    assert (Hp : 0 < 2 ^ Z.pos p) by (apply Z.pow_pos_nonneg; lia).
    rewrite IH by (rewrite IH by auto; apply Z.div_pos; auto). rewrite IH by auto. rewrite H1, !Z.div_div by lia. f_equal.
    replace (Z.pos p~1) with (1 + Z.pos p + Z.pos p) by lia. rewrite !Z.pow_add_r by lia. lia.
  - assert (Hp : 0 < 2 ^ Z.pos p) by (apply Z.pow_pos_nonneg; lia).
    rewrite IH by (rewrite IH by auto; apply Z.div_pos; auto). rewrite IH by auto. rewrite Z.div_div by lia. f_equal.
    replace (Z.pos p~0) with (Z.pos p + Z.pos p) by lia. rewrite !Z.pow_add_r by lia. reflexivity.
  - change (2 ^ 1) with 2. apply shr_1_m, Hr.
Qed.
Lemma shr_val r e n : 0 <= shr_m r -> 0 <= n -> shr_m (fst (shr r e n)) = shr_m r / 2 ^ n /\ snd (shr r e n) = e + n.
Proof.
  intros Hr Hn. unfold shr. destruct n as [|p|p]; cbn [fst snd]; [rewrite Z.pow_0_r, Z.div_1_r; split; [reflexivity|lia]| |lia].
  split; [apply iter_shr_m, Hr|reflexivity].
Qed.
Lemma shr_record_m m l : shr_m (shr_record_of_loc m l) = m.
Proof. destruct l as [|[]]; reflexivity. Qed.
Lemma Zdigits2_le m k : 0 <= m -> 0 <= k -> m < 2 ^ k -> Zdigits2 m <= k.
Proof.
  intros Hm Hk H. destruct (Z.eq_dec m 0) as [->|]; [exact Hk|]. rewrite Zdigits2_log2 by lia. pose proof (Z.log2_lt_pow2 m k ltac:(lia)). lia.
Qed.
Lemma Zdigits2_ge m k : 0 <= k -> 2 ^ k <= m -> k + 1 <= Zdigits2 m.
Proof. intros Hk H. assert (0 < 2 ^ k) by (apply Z.pow_pos_nonneg; lia). rewrite Zdigits2_log2 by lia. pose proof (Z.log2_le_pow2 m k ltac:(lia)). lia. Qed.
Lemma Zdigits2_bounds m : 0 < m -> 2 ^ (Zdigits2 m - 1) <= m < 2 ^ Zdigits2 m.
Proof. intros H. rewrite Zdigits2_log2 by lia. replace (Z.log2 m + 1 - 1) with (Z.log2 m) by lia. rewrite Z.add_1_r. apply Z.log2_spec, H. Qed.
Lemma round_aux_valid s m e l : 0 <= m -> e <= fexp 53 1024 (Zdigits2 m + e) -> f64_valid (binary_round_aux 53 1024 s m e l) = true.
Proof.
  intros Hm He. unfold binary_round_aux. unfold shr_fexp at 1. set (D := Zdigits2 m) in *. set (e1 := fexp 53 1024 (D + e)) in *.
  destruct (shr_val (shr_record_of_loc m l) e (e1 - e)) as [H1 H2]; [rewrite shr_record_m; lia|lia|]. rewrite shr_record_m in H1.
  destruct (shr (shr_record_of_loc m l) e (e1 - e)) as [r1 e1'] eqn:E1. cbn [fst snd] in H1, H2. replace (e + (e1 - e)) with e1 in H2 by lia. subst e1'.
  set (m2 := round_nearest_even (shr_m r1) (loc_of_shr_record r1)).
  assert (Hfe : e1 = Z.max (D + e - 53) (-1074)) by reflexivity.
  assert (Hp : 0 < 2 ^ (e1 - e)) by (apply Z.pow_pos_nonneg; lia).
  assert (Hm1 : 0 <= shr_m r1 < 2 ^ 53).
  { rewrite H1. split; [apply Z.div_pos; lia|]. apply Z.div_lt_upper_bound; [exact Hp|]. destruct (Z.eq_dec m 0) as [->|]; [lia|].
    destruct (Zdigits2_bounds m ltac:(lia)) as [_ Hb]. fold D in Hb. rewrite <- Z.pow_add_r by lia. apply Z.lt_le_trans with (2 ^ D); [exact Hb|]. apply Z.pow_le_mono_r; lia. }
  assert (Hm2 : shr_m r1 <= m2 <= shr_m r1 + 1).
  { unfold m2, round_nearest_even. destruct (loc_of_shr_record r1) as [|[]]; try lia. destruct (Z.even _); lia. }
  assert (Hge : e1 <= fexp 53 1024 (Zdigits2 m2 + e1)).
  { unfold fexp, emin. destruct (Z.le_gt_cases e1 (-1074)) as [Hs|Hs]; [lia|].
    assert (He1 : e1 = D + e - 53) by lia. destruct (Z.eq_dec m 0) as [Hm0|Hm0]; [subst m; cbn in D; lia|].
    destruct (Zdigits2_bounds m ltac:(lia)) as [Hb _]. fold D in Hb.
    assert (HD : 53 <= D) by lia.
    assert (Hlow : 2 ^ 52 <= shr_m r1). { rewrite H1. apply Z.div_le_lower_bound; [exact Hp|]. rewrite <- Z.pow_add_r by lia. replace (e1 - e + 52) with (D - 1) by lia. exact Hb. }
    pose proof (Zdigits2_ge m2 52 ltac:(lia) ltac:(lia)). lia. }
  unfold shr_fexp. change (shr_record_of_loc m2 loc_Exact) with (rec0 m2).
  destruct (Z.eq_dec m2 (2 ^ 53)) as [Etop|Hntop].
  - assert (HD2 : Zdigits2 m2 = 54) by (rewrite Etop; reflexivity).
    assert (Ht : fexp 53 1024 (Zdigits2 m2 + e1) - e1 = 1) by (rewrite HD2; unfold fexp, emin; lia). rewrite Ht. rewrite Etop. change (2 ^ 53) with (2 ^ 52 * 2 ^ 1).
    replace e1 with (e1 + 1 - 1) at 1 by lia. rewrite shr_exact by lia. cbn [rec0 shr_m]. change (2 ^ 52) with (Z.pos 4503599627370496).
    cbn [Z.leb]. destruct (_ <=? _) eqn:El; [|reflexivity]. cbn [f64_valid valid_binary]. apply bounded_iff. split; [|apply Z.leb_le in El; lia].
    change (Zdigits2 4503599627370496) with 53. unfold fexp, emin. lia.
  - assert (Hd2 : Zdigits2 m2 <= 53) by (apply Zdigits2_le; lia).
    assert (Ht : fexp 53 1024 (Zdigits2 m2 + e1) - e1 = 0). { assert (fexp 53 1024 (Zdigits2 m2 + e1) <= e1) by (unfold fexp, emin; lia). lia. }
    rewrite Ht. cbn [shr rec0 shr_m]. destruct m2 as [|p|p] eqn:Em2; [reflexivity| |reflexivity]. destruct (e1 <=? 1024 - 53) eqn:El; [|reflexivity].
    cbn [f64_valid valid_binary]. apply bounded_iff. split; [lia|apply Z.leb_le in El; lia].
Qed.
Lemma round_ratio_valid s n d : 0 <= n -> 0 < d -> f64_valid (round_ratio s n d) = true.
Proof.
  intros Hn Hd. unfold round_ratio. destruct (Z.eqb_spec n 0); [reflexivity|]. unfold SFdiv_core_binary. rewrite Z.add_0_r, Z.sub_0_r. replace (Zdigits2 d + 0) with (Zdigits2 d) by lia.
  set (e' := Z.min _ _). assert (He0 : e' <= 0) by (subst e'; lia). assert (Hf : e' <= fexp 53 1024 (Zdigits2 n - Zdigits2 d)) by (subst e'; lia).
  assert (Hm' : match 0 - e' with 0 => n | Z.pos _ => Z.shiftl n (0 - e') | Z.neg _ => 0 end = n * 2 ^ (- e')).
  { replace (0 - e') with (- e') by lia. destruct (- e') as [|p|p] eqn:Ep; [rewrite Z.pow_0_r; lia|rewrite Z.shiftl_mul_pow2 by lia; reflexivity|lia]. }
  rewrite Hm'. destruct (Z.div_eucl (n * 2 ^ (- e')) d) as [q r] eqn:Eq.
  assert (Hq : q = n * 2 ^ (- e') / d) by (unfold Z.div; rewrite Eq; reflexivity).
  assert (Hq0 : 0 <= q) by (rewrite Hq; apply Z.div_pos; [nia|lia]).
  apply round_aux_valid; [exact Hq0|]. apply Z.le_trans with (fexp 53 1024 (Zdigits2 n - Zdigits2 d)); [exact Hf|]. apply fexp_mono.
  destruct (Zdigits2_bounds n ltac:(lia)) as [Bn _]. destruct (Zdigits2_bounds d Hd) as [_ Bd].
  destruct (Z.le_gt_cases (Zdigits2 n - Zdigits2 d - e') 0) as [Hs|Hs]; [assert (0 <= Zdigits2 q) by (destruct q; cbn; lia); lia|].
  pose proof (Zdigits2_ge q (Zdigits2 n - Zdigits2 d - e' - 1) ltac:(lia)) as Hg.
  assert (Hgoal : 2 ^ (Zdigits2 n - Zdigits2 d - e' - 1) <= q); [|specialize (Hg Hgoal); lia].
  rewrite Hq. apply Z.div_le_lower_bound; [exact Hd|].
  assert (Hdd : 0 < Zdigits2 d) by (rewrite Zdigits2_log2 by lia; pose proof (Z.log2_nonneg d); lia).
  apply Z.le_trans with (2 ^ Zdigits2 d * 2 ^ (Zdigits2 n - Zdigits2 d - e' - 1)); [apply Z.mul_le_mono_nonneg_r; [apply Z.pow_nonneg|]; lia|].
  rewrite <- Z.pow_add_r by lia. replace (Zdigits2 d + (Zdigits2 n - Zdigits2 d - e' - 1)) with (Zdigits2 n - 1 + - e') by lia.
  assert (0 < Zdigits2 n) by (rewrite Zdigits2_log2 by lia; pose proof (Z.log2_nonneg n); lia).
  rewrite Z.pow_add_r by lia. apply Z.mul_le_mono_nonneg_r; [apply Z.pow_nonneg|]; lia.
Qed.
Lemma round_dec_valid s c q : 0 <= c -> f64_valid (round_dec s c q) = true.
Proof. intros Hc. unfold round_dec. destruct (Z.leb_spec 0 q); apply round_ratio_valid; try lia; try (apply Z.pow_pos_nonneg; lia); try (apply Z.mul_nonneg_nonneg; [exact Hc|apply Z.pow_nonneg; lia]). Qed.
Lemma round_bin_valid s c q : 0 <= c -> f64_valid (round_bin s c q) = true.
Proof. intros Hc. unfold round_bin. destruct (Z.leb_spec 0 q); apply round_ratio_valid; try lia; try (apply Z.pow_pos_nonneg; lia); try (apply Z.mul_nonneg_nonneg; [exact Hc|apply Z.pow_nonneg; lia]). Qed.
Lemma scan_mant_nonneg hex s : forall m nf dot dig und, 0 <= m -> let '(m', _, _, _, _) := scan_mant hex s m nf dot dig und in 0 <= m'.
Proof.
  induction s as [|c r IH]; intros m nf dot dig und Hm; cbn [scan_mant]; [exact Hm|]. destruct (b2z c =? 95); [apply IH, Hm|]. destruct (b2z c =? 46); [destruct dot; [exact Hm|apply IH, Hm]|].
  destruct (digit_of hex c) as [d|] eqn:Ed; [|exact Hm]. apply IH.
  assert (0 <= d). { unfold digit_of, hex_val in Ed. destruct hex, (is_digit c) eqn:Ec; try discriminate; try (injection Ed as <-; apply is_digit_val in Ec; lia).
    destruct (Z.leb_spec 97 (b2z (lower_byte c))); cbn in Ed; [|discriminate]. destruct (_ <=? 102); [injection Ed as <-; lia|discriminate]. }
  destruct hex; nia.
Qed.
Lemma parse_float_valid s f : parse_float s = Some f -> f64_valid f = true.
Proof.
  unfold parse_float. destruct (special_float s) as [g|] eqn:Es.
  - intros [= <-]. unfold special_float in Es. repeat (destruct (_ || _) in Es); try (destruct (eq_nocase s "nan")); try discriminate; injection Es as <-; reflexivity.
  - unfold read_float. destruct (read_float_full s) as [g|] eqn:E; [|discriminate].
    assert (Hg : f64_valid g = true); [|destruct g; intros [= <-]; exact Hg].
    unfold read_float_full in E. destruct (strip_sign s) as [neg s1]. destruct (strip_hex s1) as [hex body].
    pose proof (scan_mant_nonneg hex body 0 0 false false false ltac:(lia)) as Hm. destruct (scan_mant hex body 0 0 false false false) as [[[[m nf] dig] und] rest].
    destruct (negb dig); [discriminate|].
    assert (Hfin : forall (e : Z) (u : bool) (rs : gostr), (if negb (bool_decide (rs = [])) then None else if u && negb (und_ok_top s1) then None else Some (if hex then round_bin neg m (e - 4 * nf) else round_dec neg m (e - nf))) = Some g -> f64_valid g = true).
    { intros e u rs. destruct (bool_decide (rs = [])); cbn [negb]; [|discriminate]. destruct (u && negb (und_ok_top s1)); [discriminate|]. intros [= <-]. destruct hex; [apply round_bin_valid, Hm|apply round_dec_valid, Hm]. }
    destruct rest as [|c r]; [destruct hex; [discriminate|exact (Hfin 0 und [] E)]|]. destruct (_ =? _); [|discriminate]. destruct (strip_sign r) as [eneg r1]. destruct r1 as [|d r2]; [discriminate|].
    destruct (is_digit d); [|discriminate]. destruct (scan_exp _ _ _) as [[e u2] rs2]. eapply Hfin, E.
Qed.
Lemma normalize_valid m e z : f64_valid (binary_normalize 53 1024 m e z) = true.
Proof.
  assert (H : forall s p, f64_valid (binary_round 53 1024 s p e) = true).
  { intros s p. unfold binary_round, shl_align. set (x := fexp 53 1024 (Z.pos (digits2_pos p) + e)). destruct (x - e) as [|d|d] eqn:Ed.
    - apply round_aux_valid; [lia|]. change (Zdigits2 (Z.pos p)) with (Z.pos (digits2_pos p)). fold x. lia.
    - apply round_aux_valid; [lia|]. change (Zdigits2 (Z.pos p)) with (Z.pos (digits2_pos p)). fold x. lia.
    - apply round_aux_valid; [lia|]. replace (Z.pos (shift_pos d p)) with (Z.pos p * 2 ^ Z.pos d) by (rewrite Zpower.shift_pos_correct, Z.mul_comm; reflexivity).
      rewrite Zdigits2_mul by lia. change (Zdigits2 (Z.pos p)) with (Z.pos (digits2_pos p)). replace (Z.pos (digits2_pos p) + Z.pos d + x) with (Z.pos (digits2_pos p) + e) by lia. fold x. lia. }
  unfold binary_normalize. destruct m; [reflexivity|apply H|apply H].
Qed.
Lemma f64_add_valid x y : f64_valid x = true -> f64_valid y = true -> f64_valid (f64_add x y) = true.
Proof.
  intros Hx Hy. unfold f64_add, SFadd. destruct x as [sx|sx| |sx mx ex], y as [sy|sy| |sy my ey]; auto; try (destruct (Bool.eqb sx sy); reflexivity).
  apply normalize_valid.
Qed.
Lemma f64_of_int_valid n : f64_valid (f64_of_int n) = true.
Proof. apply normalize_valid. Qed.

(** ** the text of a float is kept as it is *)
Lemma atoi_format f n : f64_valid f = true -> atoi (format_float f) = Some n -> f <> S754_zero true -> itoa n = format_float f.
Proof.
  intros Hv Ha Hz. destruct f as [[]|[]| |s m e]; [congruence|vm_compute in Ha; injection Ha as <-; reflexivity|vm_compute in Ha; discriminate Ha..|].
  cbn [f64_valid valid_binary] in Hv. destruct (format_abs_spec m e Hv) as (c & q & E & Hc & Hr). cbn [format_float] in *. rewrite E in *.
  destruct (fmt_dec_shape c q Hc) as (ds & fr & H1 & H2 & H3 & Hcan & Hsh).
  assert (Hno : forallb is_digit (ds ++ z2b 46 :: fr) = false). { rewrite forallb_app. cbn. rewrite andb_false_r. reflexivity. }
  assert (Hnz : 0 < c). { destruct (Z.eq_dec c 0) as [->|]; [|lia]. exfalso. unfold round_dec, round_ratio in Hr. rewrite Z.mul_0_l in Hr. destruct (0 <=? q); discriminate Hr. }
  destruct Hsh as [(Hq & Ef & Hval)|(Hq & Ef & _)].
  - rewrite Ef in *. pose proof (dec_unique ds H1 H2 Hcan) as Hu. assert (Hpos : 0 < dec_val ds). { rewrite Hval. apply Z.mul_pos_pos; [exact Hnz|]. apply Z.pow_pos_nonneg; lia. }
    destruct ds as [|b ds]; [congruence|]. assert (Hb : is_digit b = true) by (cbn in H1; apply andb_prop in H1; tauto). apply is_digit_b2z in Hb.
    unfold atoi in Ha. destruct s.
    + change (b2z (z2b 45) =? 45) with true in Ha. cbn iota in Ha. rewrite H1 in Ha. destruct (is_int64 _); [|discriminate]. injection Ha as <-.
      unfold itoa. destruct (Z.ltb_spec (- dec_val (b :: ds)) 0); [|lia]. rewrite Z.opp_involutive, Hu. reflexivity.
    + destruct (Z.eqb_spec (b2z b) 45); [lia|]. destruct (Z.eqb_spec (b2z b) 43); [lia|]. rewrite H1 in Ha. destruct (is_int64 _); [|discriminate]. injection Ha as <-.
      unfold itoa. destruct (Z.ltb_spec (dec_val (b :: ds)) 0); [lia|]. exact Hu.
  - exfalso. rewrite Ef in Ha. destruct ds as [|b ds]; [congruence|]. assert (Hb : is_digit b = true) by (cbn in H1; apply andb_prop in H1; tauto). apply is_digit_b2z in Hb.
    unfold atoi in Ha. destruct s; cbn [app] in *.
    + change (b2z (z2b 45) =? 45) with true in Ha. cbn iota in Ha. rewrite Hno in Ha. discriminate Ha.
    + destruct (Z.eqb_spec (b2z b) 45); [lia|]. destruct (Z.eqb_spec (b2z b) 43); [lia|]. rewrite Hno in Ha. discriminate Ha.
Qed.
