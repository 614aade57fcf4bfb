(** * Props_Packed2: exactly which ziplists are decoded rightly (redis/ziplist) *)
From stdpp Require Import list gmap.
From Verif Require Import Base PackedModel PackedSpec Props_Packed.

(** The text Load gives the entry [e] when it gets to it. Of strings of 64 bytes and more the length is taken modulo 256
    and the text from right behind the first byte of the entry, so it starts with the rest of the length. *)
Definition zl_text (e : zentry) : gostr :=
  match e with
  | ZStr s => if zlen s <? 64 then s
              else take (Z.to_nat (zlen s mod 256)) ((if zlen s <? 16384 then [z2b (zlen s)] else be32 (zlen s)) ++ s)
  | _ => zentry_shown e
  end.
(** the entries behind which Load goes on at the right place *)
Definition zl_kept (e : zentry) : Prop :=
  match e with ZStr s => zlen s < 256 | ZInt64 _ => False | _ => True end.
(** the entries that come out right *)
Definition zl_right (e : zentry) : Prop :=
  match e with
  | ZStr s => zlen s < 64 \/ zlen s < 256 /\ s = replicate (length s) (z2b (zlen s))
  | ZImm _ => True
  | _ => False
  end.

Lemma be32_bytes n : be32 n = [z2b (n / 2 ^ 24); z2b (n / 2 ^ 16); z2b (n / 2 ^ 8); z2b n].
Proof.
  unfold be32. rewrite !le_S. change (le 0 _) with (@nil byte). cbn [rev app]. rewrite !Z.div_div by lia. reflexivity.
Qed.
Lemma shl8_0 x n : 8 <= n -> shl8 x n = 0.
Proof.
  intros H. unfold shl8. rewrite Z.shiftl_mul_pow2 by lia. replace n with (8 + (n - 8)) by lia. rewrite Z.pow_add_r by lia.
  change (2 ^ 8) with 256. rewrite (Z.mul_comm 256), Z.mul_assoc. apply Z.mod_mul. lia.
Qed.
Lemma view_take s p x r n : view s p (x ++ r) -> 0 <= n <= zlen x -> slice s p (p + n) = Some (take (Z.to_nat n) x).
Proof.
  intros V Hn. rewrite <- (take_drop (Z.to_nat n) x), <- app_assoc in V.
  eapply view_in; [exact V|reflexivity|]. unfold zlen in *. rewrite take_length. lia.
Qed.
Lemma zl_entry_first val pos e r : zentry_ok e -> view val pos (zentry_body e ++ r) ->
  exists len size, zl_entry val pos = Some (len, size, zl_text e) /\ (zl_kept e -> len + size = zlen (zentry_body e)).
Proof.
  intros He V.
  assert (Hs : (match e with ZStr s => zlen s < 64 | ZInt64 _ => False | _ => True end) \/ (exists s, e = ZStr s /\ 64 <= zlen s) \/ exists n, e = ZInt64 n).
  { destruct e as [s|n|n|n|n|n|n]; eauto. destruct (Z.lt_ge_cases (zlen s) 64); eauto. }
  destruct Hs as [Hs|[(s & -> & Hs)|[n ->]]].
  - destruct (zl_entry_spec val pos e r) as (len & size & E & Hl); [destruct e; cbn in *; auto; contradiction|exact V|].
    exists len, size. split; [|auto]. rewrite E. do 2 f_equal. destruct e; cbn [zl_text zentry_shown]; try reflexivity. cbn in Hs.
    destruct (Z.ltb_spec (zlen s) 64); [reflexivity|lia].
  - cbn [zentry_ok zl_kept zentry_body zl_text] in *. destruct (Z.ltb_spec (zlen s) 64); [lia|].
    pose proof (Z.mod_pos_bound (zlen s) 256 ltac:(lia)) as Hc. set (c := zlen s mod 256) in *.
    assert (Hcs : c <= zlen s) by (subst c; apply Z.mod_le; lia).
    destruct (Z.ltb_spec (zlen s) 16384) as [Hm|Hm]; rewrite <- !app_assoc in V.
    + assert (Hq : 0 <= zlen s / 256 < 64) by (split; [apply Z.div_pos; lia|apply Z.div_lt_upper_bound; lia]).
      unfold zl_entry, zl_decode. cbn [app] in V. rewrite (view_at _ _ _ _ V). cbn [obind]. rewrite b2z_z2b_small by lia.
      destruct (Z.ltb_spec (64 + zlen s / 256) 192); [|lia].
      assert (Hb : Z.land (64 + zlen s / 256) 192 = 64).
      { assert (Ht : forallb (fun n => Z.land (64 + n) 192 =? 64) (map Z.of_nat (seq 0 64)) = true) by (vm_compute; reflexivity).
        rewrite forallb_forall in Ht. apply Z.eqb_eq, Ht. apply in_map_iff. exists (Z.to_nat (zlen s / 256)). split; [lia|]. apply in_seq. lia. }
      rewrite Hb. change (64 <? 192) with true. cbv iota. change (64 =? 0) with false. change (64 =? 64) with true. cbv iota.
      pose proof (view_cons _ _ _ _ V) as V1. rewrite (view_at _ _ _ _ V1). cbn [obind].
      rewrite shl8_0 by lia. rewrite Z.lor_0_l, b2z_z2b. fold c.
      exists c, 2. split.
      * destruct (Z.gtb_spec c 0).
           replace (pos + c + 1) with (pos + 1 + c) by lia.
           rewrite (view_take val (pos + 1) (z2b (zlen s) :: s) r c); [reflexivity|exact V1|rewrite zlen_cons; lia].
        -- replace c with 0 by lia. reflexivity.
      * intros Hk. rewrite zlen_app. cbn [app]. rewrite !zlen_cons, zlen_nil. subst c. rewrite Z.mod_small by lia. lia.
    + unfold zl_entry, zl_decode. cbn [app] in V. rewrite (view_at _ _ _ _ V). cbn [obind].
      change (b2z x80) with 128. change (128 <? 192) with true. cbv iota. change (Z.land 128 192) with 128.
      change (128 <? 192) with true. cbv iota. change (128 =? 0) with false. change (128 =? 64) with false. change (128 =? 128) with true. cbv iota.
      pose proof (view_cons _ _ _ _ V) as V1. rewrite be32_bytes in V1. cbn [app] in V1.
      rewrite (view_at _ _ _ _ V1). pose proof (view_cons _ _ _ _ V1) as V2. replace (pos + 1 + 1) with (pos + 2) in V2 by lia.
      rewrite (view_at _ _ _ _ V2). pose proof (view_cons _ _ _ _ V2) as V3. replace (pos + 2 + 1) with (pos + 3) in V3 by lia.
      rewrite (view_at _ _ _ _ V3). pose proof (view_cons _ _ _ _ V3) as V4. replace (pos + 3 + 1) with (pos + 4) in V4 by lia.
      rewrite (view_at _ _ _ _ V4). cbn [obind]. rewrite !shl8_0 by lia. rewrite !Z.lor_0_l, b2z_z2b. fold c.
      exists c, 5. split; [|intros; lia].
      destruct (Z.gtb_spec c 0).
      * replace (pos + c + 1) with (pos + 1 + c) by lia. rewrite be32_bytes.
        rewrite (view_take val (pos + 1) ([z2b (zlen s / 2 ^ 24); z2b (zlen s / 2 ^ 16); z2b (zlen s / 2 ^ 8); z2b (zlen s)] ++ s) r c); [reflexivity|exact V1|].
        pose proof (zlen_nonneg s). rewrite zlen_app. change (zlen [_; _; _; _]) with 4. lia.
      * replace c with 0 by lia. reflexivity.
  - exists 5, 1. split; [|intros []]. cbn [zentry_body zl_text zentry_shown app] in *.
    apply (zl_entry_int val pos xe0 5 n (map (fun i => z2b (n / 2 ^ (8 * Z.of_nat i))) [5; 6; 7]%nat ++ r)); [|lia|set_solver].
    rewrite app_assoc. replace (le 5 n ++ map (fun i => z2b (n / 2 ^ (8 * Z.of_nat i))) [5; 6; 7]%nat) with (le 8 n); [exact V|].
    unfold le. change (seq 0 8) with (seq 0 5 ++ [5; 6; 7]%nat). rewrite map_app. reflexivity.
Qed.
Lemma zl_loop_kept l r : forall f val pos prev, Forall zentry_ok l -> Forall zl_kept l -> 0 <= prev ->
  view val pos (zentries prev (l ++ r) ++ [xff]) -> (length (zentries prev (l ++ r)) < f)%nat ->
  exists f' pos' prev', zl_loop f val pos = (x <-? zl_loop f' val pos';; Some (map zl_text l ++ x)) /\ 0 <= prev' /\
    view val pos' (zentries prev' r ++ [xff]) /\ (length (zentries prev' r) < f')%nat.
Proof.
  induction l as [|a l IH]; intros f val pos prev Ho Hk Hp V Hf; cbn [app zentries map] in *.
  - exists f, pos, prev. split; [destruct (zl_loop f val pos); reflexivity|]. auto.
  - destruct f as [|f]; [lia|]. inversion Ho as [|? ? Ho1 Ho']; subst. inversion Hk as [|? ? Hk1 Hk']; subst. rewrite <- !app_assoc in V. cbn [zl_loop].
    destruct (zl_prev_spec val pos prev _ Hp V) as [Ep (b & Eb & Hb)]. unfold zl_next. rewrite Eb. cbn [obind]. destruct (Z.eqb_spec b 255); [contradiction|].
    rewrite Ep. cbn [obind]. apply view_app in V.
    destruct (zl_entry_first val _ a _ Ho1 V) as (len & size & Ee & Hls). specialize (Hls Hk1). rewrite Ee. cbn [obind]. apply view_app in V.
    destruct (IH f val (pos + zlen (prevlen prev) + (len + size)) (zlen (prevlen prev ++ zentry_body a)) Ho' Hk') as (f' & pos' & prev' & E & R).
    + apply zlen_nonneg.
    + rewrite Hls. exact V.
    + rewrite app_length in Hf. assert (0 < length (prevlen prev ++ zentry_body a))%nat; [|lia].
      rewrite app_length. assert (0 < length (prevlen prev))%nat; [|lia]. unfold prevlen. destruct (_ <? _); cbn; lia.
    + exists f', pos', prev'. rewrite E. split; [|exact R]. destruct (zl_loop f' val pos'); reflexivity.
Qed.
(** What Load returns for every list of strings below 256 bytes, small integers and integers of 8 to 32 bits. *)
Theorem C89_ziplist_kept_partial tail l : Forall zentry_ok l -> Forall zl_kept l ->
  ziplist_load (ziplist_enc tail l) = Some (map zl_text l).
Proof.
  intros Ho Hk. unfold ziplist_load. set (s := ziplist_enc tail _). pose proof (view_0 s) as V. unfold s in V at 2. unfold ziplist_enc in V.
  apply view_app in V. rewrite le_zlen in V. apply view_app in V. rewrite le_zlen in V. apply view_app in V. rewrite le_zlen in V.
  destruct (zl_loop_kept l [] (S (length s)) s 10 0 Ho Hk) as (f & pos & prev & E & Hp & V2 & Hf); [lia|rewrite app_nil_r; exact V|rewrite app_nil_r; unfold s, ziplist_enc; rewrite !app_length; lia|].
  rewrite E. cbn [zentries app] in V2. destruct f as [|f]; [cbn in Hf; lia|]. cbn [zl_loop]. unfold zl_next. rewrite (view_at _ _ _ _ V2).
  cbn [obind]. change (b2z xff) with 255. change (255 =? 255) with true. cbn [obind]. rewrite app_nil_r. reflexivity.
Qed.
(** Whatever follows: the entries up to and including the first one behind which Load goes astray come out as said, or Load
    panics further on. *)
Theorem C89_ziplist_upto_partial tail l e r : Forall zentry_ok (l ++ [e]) -> Forall zl_kept l ->
  ziplist_load (ziplist_enc tail (l ++ e :: r)) = None \/
  exists x, ziplist_load (ziplist_enc tail (l ++ e :: r)) = Some (map zl_text l ++ zl_text e :: x).
Proof.
  intros Ho Hk. apply Forall_app in Ho as [Ho He]. inversion_clear He as [|? ? He0 _]. rename He0 into He.
  unfold ziplist_load. set (s := ziplist_enc tail _). pose proof (view_0 s) as V. unfold s in V at 2. unfold ziplist_enc in V.
  apply view_app in V. rewrite le_zlen in V. apply view_app in V. rewrite le_zlen in V. apply view_app in V. rewrite le_zlen in V.
  destruct (zl_loop_kept l (e :: r) (S (length s)) s 10 0 Ho Hk) as (f & pos & prev & E & Hp & V2 & Hf); [lia|exact V|unfold s, ziplist_enc; rewrite !app_length; lia|].
  rewrite E. cbn [zentries] in V2. rewrite <- !app_assoc in V2. destruct f as [|f]; [lia|]. cbn [zl_loop].
  destruct (zl_prev_spec s pos prev _ Hp V2) as [Ep (b & Eb & Hb)]. unfold zl_next. rewrite Eb. cbn [obind]. destruct (Z.eqb_spec b 255); [contradiction|].
  rewrite Ep. cbn [obind]. apply view_app in V2.
  destruct (zl_entry_first s _ e _ He V2) as (len & size & Ee & _). rewrite Ee. cbn [obind].
  destruct (zl_loop f s _) as [x|]; cbn [obind]; [right; exists x; reflexivity|left; reflexivity].
Qed.

(** The raw bytes of an integer are never its decimal text. *)
Lemma itoa_short n : zlen (itoa n) <= 5 -> -9999 <= n <= 99999.
Proof.
  unfold itoa. destruct (Z.ltb_spec n 0) as [H|H].
  - destruct (dec_spec (- n)) as (Hd & Hv & _); [lia|]. pose proof (dec_val_bounds _ Hd) as Hb. rewrite Hv in Hb. rewrite zlen_cons.
    pose proof (zlen_nonneg (dec (- n))). intros Hl. assert (10 ^ zlen (dec (- n)) <= 10 ^ 4) by (apply Z.pow_le_mono_r; lia). lia.
  - destruct (dec_spec n) as (Hd & Hv & _); [lia|]. pose proof (dec_val_bounds _ Hd) as Hb. rewrite Hv in Hb.
    pose proof (zlen_nonneg (dec n)). intros Hl. assert (10 ^ zlen (dec n) <= 10 ^ 5) by (apply Z.pow_le_mono_r; lia). lia.
Qed.
Lemma itoa_chars n b : b ∈ itoa n -> 45 <= b2z b <= 57.
Proof.
  assert (Hd : forall m, 0 <= m -> b ∈ dec m -> 45 <= b2z b <= 57).
  { intros m Hm Hin. destruct (dec_spec m Hm) as (Hd & _). rewrite forallb_forall in Hd. apply elem_of_list_In, Hd in Hin.
    unfold is_digit in Hin. lia. }
  unfold itoa. destruct (Z.ltb_spec n 0); [|apply Hd; lia]. intros Hin. apply elem_of_cons in Hin as [->|Hin]; [vm_compute; split; congruence|].
  apply (Hd (- n)); [lia|exact Hin].
Qed.
Lemma le_not_itoa w n : (1 <= w <= 5)%nat -> le w n <> itoa n.
Proof.
  intros Hw E. assert (Hn : -9999 <= n <= 99999) by (apply itoa_short; rewrite <- E, le_zlen; lia).
  assert (H0 : z2b n ∈ itoa n) by (rewrite <- E; destruct w as [|w]; [lia|]; rewrite le_S; left).
  destruct (Nat.lt_ge_cases w 3) as [H3|H3].
  - assert (Hs : forall m, 0 <= m -> 10 ^ zlen (dec m) > m) by (intros m Hm; destruct (dec_spec m Hm) as (Hd & Hv & _); pose proof (dec_val_bounds _ Hd); lia).
    assert (Hl : zlen (itoa n) <= 2) by (rewrite <- E, le_zlen; lia).
    assert (Hr : -9 <= n <= 99).
    { unfold itoa in Hl. destruct (Z.ltb_spec n 0) as [Hz|Hz].
      - rewrite zlen_cons in Hl. specialize (Hs (- n) ltac:(lia)). pose proof (zlen_nonneg (dec (- n))). assert (10 ^ zlen (dec (- n)) <= 10 ^ 1) by (apply Z.pow_le_mono_r; lia). lia.
      - specialize (Hs n ltac:(lia)). pose proof (zlen_nonneg (dec n)). assert (10 ^ zlen (dec n) <= 10 ^ 2) by (apply Z.pow_le_mono_r; lia). lia. }
    assert (Hc : forallb (fun i => let m := Z.of_nat i - 9 in negb (bool_decide (le 1 m = itoa m)) && negb (bool_decide (le 2 m = itoa m))) (seq 0 109) = true) by (vm_compute; reflexivity).
    rewrite forallb_forall in Hc. specialize (Hc (Z.to_nat (n + 9)) ltac:(apply in_seq; lia)). cbv zeta in Hc. replace (Z.of_nat (Z.to_nat (n + 9)) - 9) with n in Hc by lia.
    rewrite andb_true_iff, !negb_true_iff, !bool_decide_eq_false in Hc. destruct Hc as [Hc1 Hc2].
    destruct w as [|[|[|w]]]; [lia|auto|auto|lia].
  - assert (H2 : z2b (n / 256 / 256) ∈ itoa n) by (rewrite <- E; destruct w as [|[|[|w]]]; try lia; rewrite !le_S; right; right; left).
    apply itoa_chars in H2. rewrite Z.div_div in H2 by lia.
    assert (Hq : n / (256 * 256) = -1 \/ n / (256 * 256) = 0 \/ n / (256 * 256) = 1).
    { assert (-1 <= n / (256 * 256)) by (apply Z.div_le_lower_bound; lia). assert (n / (256 * 256) < 2) by (apply Z.div_lt_upper_bound; lia). lia. }
    destruct Hq as [Hq|[Hq|Hq]]; rewrite Hq in H2; destruct H2 as [HA HB]; vm_compute in HA, HB; congruence.
Qed.
Lemma shifted_same {A} (b : A) (s : list A) : take (length s) (b :: s) = s <-> s = replicate (length s) b.
Proof.
  revert b. induction s as [|a s IH]; intros b; [split; reflexivity|]. cbn [length take replicate]. split; intros E.
  - injection E as -> E. f_equal. apply IH. exact E.
  - injection E as -> E. f_equal. apply IH. exact E.
Qed.
Lemma zl_text_right e : zentry_ok e -> (zl_text e = zentry_text e /\ zl_kept e <-> zl_right e) /\ (zl_text e = zentry_text e -> zl_kept e).
Proof.
  destruct e as [s|n|n|n|n|n|n]; cbn [zentry_ok zl_text zentry_shown zentry_text zl_kept zl_right]; intros Ho;
    [|tauto|pose proof (le_not_itoa 1 n ltac:(lia)); tauto|pose proof (le_not_itoa 2 n ltac:(lia)); tauto|pose proof (le_not_itoa 3 n ltac:(lia)); tauto
     |pose proof (le_not_itoa 4 n ltac:(lia)); tauto|pose proof (le_not_itoa 5 n ltac:(lia)); tauto].
  destruct (Z.ltb_spec (zlen s) 64); [split; [split; [intros _; left; lia|intros _; split; [reflexivity|lia]]|intros _; lia]|].
  destruct (Z.lt_ge_cases (zlen s) 256) as [Hs|Hs].
  - destruct (Z.ltb_spec (zlen s) 16384); [|lia]. rewrite Z.mod_small by lia. unfold zlen at 1. rewrite Nat2Z.id. cbn [app].
    rewrite shifted_same. split; [|auto]. split; [intros [E _]; auto|intros [|[]]; [lia|auto]].
  - assert (Hn : take (Z.to_nat (zlen s mod 256)) ((if zlen s <? 16384 then [z2b (zlen s)] else be32 (zlen s)) ++ s) <> s).
    { intros E. apply (f_equal length) in E. rewrite take_length in E. pose proof (Z.mod_pos_bound (zlen s) 256 ltac:(lia)). unfold zlen in *. lia. }
    split; [split; [intros [E _]; contradiction|intros [|[]]; lia]|intros E; contradiction].
Qed.
(** A ziplist of well-formed entries decodes to its texts exactly when every entry is a string below 64 bytes, an integer
    from 0 to 12 kept in the entry's first byte, or (an accident) a string of 64 to 255 bytes all equal to its length. *)
Theorem C89_ziplist_iff_partial tail l : Forall zentry_ok l ->
  ziplist_load (ziplist_enc tail l) = Some (map zentry_text l) <-> Forall zl_right l.
Proof.
  intros Ho. split.
  - intros E.
    assert (Hind : forall l1 l2, l = l1 ++ l2 -> Forall zl_right l1 -> Forall zl_right l2).
    { intros l1 l2. revert l1. induction l2 as [|e r IH]; intros l1 -> Hr; [constructor|].
      assert (Hk1 : Forall zl_kept l1).
      { apply Forall_app in Ho as [Ho _]. clear -Ho Hr. induction Ho as [|e l He Hl IH]; [constructor|]. inversion Hr; subst. constructor; [|auto]. destruct (zl_text_right e He) as [[_ Hx] _]. apply Hx. assumption. }
      apply Forall_app in Ho as Ho1. destruct Ho1 as [Ho1 Ho2]. inversion Ho2 as [|? ? He Hor]; subst.
      assert (Hre : zl_right e).
      { destruct (C89_ziplist_upto_partial tail l1 e r) as [E0|[x E0]]; [apply Forall_app; auto|exact Hk1|congruence|].
        rewrite E in E0. injection E0 as E0. rewrite map_app in E0. cbn [map] in E0.
        apply app_inj_1 in E0 as [_ E0]; [|rewrite !map_length; reflexivity]. injection E0 as E0 _.
        destruct (zl_text_right e He) as [H1 H2]. apply H1. split; [congruence|]. apply H2. congruence. }
      constructor; [exact Hre|]. apply (IH (l1 ++ [e])); [rewrite <- app_assoc; reflexivity|]. apply Forall_app. auto. }
    apply (Hind [] l); [reflexivity|constructor].
  - intros Hr. assert (Hk : Forall (fun e => zl_text e = zentry_text e /\ zl_kept e) l).
    { clear -Ho Hr. induction Ho as [|e l He Hl IH]; [constructor|]. inversion Hr; subst. constructor; [|auto]. destruct (zl_text_right e He) as [[_ Hx] _]. apply Hx. assumption. }
    rewrite C89_ziplist_kept_partial; [|exact Ho|refine (List.Forall_impl _ _ Hk); intros ? []; auto].
    f_equal. clear -Hk. induction Hk as [|e l [He _] Hl IH]; [reflexivity|]. cbn [map]. f_equal; auto.
Qed.
(** In particular one string of 256 bytes or more, or one integer outside 0..12, is enough for a wrong result or a panic. *)
Theorem C89_ziplist_any_long_refuted tail l s : Forall zentry_ok l -> ZStr s ∈ l -> 256 <= zlen s ->
  ziplist_load (ziplist_enc tail l) <> Some (map zentry_text l).
Proof.
  intros Ho Hin Hs E. apply C89_ziplist_iff_partial in E; [|exact Ho]. rewrite Forall_forall in E. apply elem_of_list_In in Hin. destruct (E _ Hin) as [|[]]; lia.
Qed.
Theorem C89_ziplist_any_int_refuted tail l e : Forall zentry_ok l -> e ∈ l -> (match e with ZStr _ | ZImm _ => False | _ => True end) ->
  ziplist_load (ziplist_enc tail l) <> Some (map zentry_text l).
Proof.
  intros Ho Hin He E. apply C89_ziplist_iff_partial in E; [|exact Ho]. rewrite Forall_forall in E. apply elem_of_list_In in Hin. specialize (E _ Hin). destruct e; contradiction.
Qed.
Example C89_iff_ex : Forall zentry_ok [ZStr (replicate 65 x41); ZImm 3] /\ Forall zl_right [ZStr (replicate 65 x41); ZImm 3] /\
  ziplist_load (ziplist_enc 10 [ZStr (replicate 65 x41); ZImm 3]) = Some [replicate 65 x41; bs "3"] /\
  ziplist_load (ziplist_enc 10 [ZStr (replicate 64 x41); ZImm 3]) = Some [bs "@" ++ replicate 63 x41; bs "3"].
Proof.
  split; [repeat constructor; vm_compute; congruence|]. split; [repeat constructor; right; split; vm_compute; reflexivity|].
  split; vm_compute; reflexivity.
Qed.
(** a long string makes Load read the entry's text as entries: two entries become 130 *)
Example C89_long_ex : option_map (fun l => (length l, list.last l)) (ziplist_load (ziplist_enc 10 [ZStr (replicate 256 x00); ZStr (bs "b")])) = Some (130%nat, Some (bs "b")).
Proof. vm_compute. reflexivity. Qed.
