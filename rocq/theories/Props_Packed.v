(** * Props_Packed: intset, ziplist and zipmap (redis/intset, redis/ziplist, redis/zipmap) *)
From stdpp Require Import list gmap.
From Verif Require Import Base PackedModel PackedSpec.

(** ** reading at a position: [rest] is what lies at [p] in [s] *)
Definition view (s : gostr) (p : Z) (rest : gostr) : Prop := 0 <= p <= zlen s /\ drop (Z.to_nat p) s = rest.
Lemma view_len s p rest : view s p rest -> p + zlen rest = zlen s.
Proof. intros [H <-]. unfold zlen in *. rewrite drop_length. lia. Qed.
Lemma view_at s p b r : view s p (b :: r) -> at_ s p = Some (b2z b).
Proof.
  intros [H E]. unfold at_. destruct (Z.ltb_spec p 0); [lia|].
  assert (Hl : s !! Z.to_nat p = Some b) by (rewrite <- (Nat.add_0_r (Z.to_nat p)), <- lookup_drop, E; reflexivity).
  rewrite Hl. reflexivity.
Qed.
Lemma view_app s p x r : view s p (x ++ r) -> view s (p + zlen x) r.
Proof.
  intros [H E]. assert (Hl : p + zlen (x ++ r) = zlen s) by (apply (view_len s p); split; auto). rewrite zlen_app in Hl.
  pose proof (zlen_nonneg x). pose proof (zlen_nonneg r). split; [lia|].
  replace (Z.to_nat (p + zlen x)) with (Z.to_nat p + length x)%nat by (unfold zlen; lia).
  rewrite <- drop_drop, E. apply drop_app.
Qed.
Lemma view_cons s p b r : view s p (b :: r) -> view s (p + 1) r.
Proof. intros H. apply (view_app s p [b] r) in H. exact H. Qed.
Lemma view_slice s p x r : view s p (x ++ r) -> slice s p (p + zlen x) = Some x.
Proof.
  intros H. pose proof (view_app _ _ _ _ H) as [H1 _]. destruct H as [H E]. unfold slice. pose proof (zlen_nonneg x).
  destruct (Z.leb_spec 0 p); [|lia]. destruct (Z.leb_spec p (p + zlen x)); [|lia]. destruct (Z.leb_spec (p + zlen x) (zlen s)); [|lia]. cbn [andb].
  f_equal. replace (Z.to_nat (p + zlen x - p)) with (length x) by (unfold zlen; lia). rewrite E. apply take_app.
Qed.
Lemma view_0 s : view s 0 s.
Proof. split; [pose proof (zlen_nonneg s); lia|reflexivity]. Qed.
Lemma view_in s p x r q n : view s p (x ++ r) -> q = p -> n = p + zlen x -> slice s q n = Some x.
Proof. intros H -> ->. eapply view_slice. exact H. Qed.

(** ** little-endian integers *)
Lemma le_S w n : le (S w) n = z2b n :: le w (n / 256).
Proof.
  unfold le. cbn [seq map]. f_equal; [f_equal; change (8 * Z.of_nat 0) with 0; rewrite Z.pow_0_r; apply Z.div_1_r|].
  rewrite <- seq_shift, map_map. apply map_ext. intros i. f_equal.
  replace (8 * Z.of_nat (S i)) with (8 + 8 * Z.of_nat i) by lia. rewrite Z.pow_add_r by lia. change (2 ^ 8) with 256.
  rewrite Z.div_div by lia. reflexivity.
Qed.
Lemma le_length w n : length (le w n) = w.
Proof. unfold le. rewrite map_length, seq_length. reflexivity. Qed.
Lemma le_zlen w n : zlen (le w n) = Z.of_nat w.
Proof. unfold zlen. rewrite le_length. reflexivity. Qed.
Lemma le_val_le w n : le_val (le w n) = n mod 2 ^ (8 * Z.of_nat w).
Proof.
  revert n. induction w as [|w IH]; intros n; [cbn; rewrite Z.mod_1_r; reflexivity|].
  rewrite le_S. cbn [le_val]. rewrite IH, b2z_z2b. replace (8 * Z.of_nat (S w)) with (8 + 8 * Z.of_nat w) by lia.
  rewrite Z.pow_add_r by lia. change (2 ^ 8) with 256. rewrite Z.rem_mul_r by lia. reflexivity.
Qed.
Lemma le_bytes_le k n : le_bytes k n = le k n.
Proof. revert n. induction k as [|k IH]; intros n; [reflexivity|]. rewrite le_S. cbn. f_equal. apply IH. Qed.
Lemma view_le s p w n r : view s p (le w n ++ r) -> le_at s p (Z.of_nat w) = Some (n mod 2 ^ (8 * Z.of_nat w)).
Proof. intros H. unfold le_at. rewrite (view_in s p (le w n) r) by (auto; rewrite le_zlen; reflexivity). cbn. f_equal. apply le_val_le. Qed.

(** ** C88: integer sets
    Full statement: for every width [w] of 2, 4 or 8 bytes and every list [l] of integers fitting it,
    [intset_load (intset_enc w l) = Some l]. It fails because 16- and 32-bit elements are read as
    unsigned numbers. *)
Lemma intset_elems_spec w l s i : view s (8 + Z.of_nat w * i) (concat (map (le w) l)) ->
  intset_elems (length l) (Z.of_nat w) s i = Some (map (fun n => wrap64 (n mod 2 ^ (8 * Z.of_nat w))) l).
Proof.
  revert i. induction l as [|n l IH]; intros i H; [reflexivity|]. cbn [map concat length intset_elems] in *.
  rewrite (view_le _ _ _ _ _ H). cbn [obind]. rewrite IH.
  - reflexivity.
  - apply view_app in H. rewrite le_zlen in H. replace (8 + Z.of_nat w * (i + 1)) with (8 + Z.of_nat w * i + Z.of_nat w) by lia. exact H.
Qed.
(** what Load returns, for every content: the elements as unsigned numbers of their width (64-bit
    elements come out signed, as int64) *)
Theorem C88_intset_exact_partial w l : w = 2%nat \/ w = 4%nat \/ w = 8%nat -> zlen l < 2 ^ 32 ->
  intset_load (intset_enc w l) = Some (map (fun n => if Nat.eqb w 8 then wrap64 n else n mod 2 ^ (8 * Z.of_nat w)) l).
Proof.
  intros Hw Hl. unfold intset_load. set (s := intset_enc w l). pose proof (view_0 s) as V. unfold s in V at 2. unfold intset_enc in V.
  pose proof (zlen_nonneg l).
  rewrite (view_le _ _ 4 _ _ V : le_at s 0 4 = _). cbn [obind]. apply view_app in V. rewrite le_zlen in V. change (0 + Z.of_nat 4) with 4 in V.
  rewrite (view_le _ _ 4 _ _ V : le_at s 4 4 = _). cbn [obind]. apply view_app in V. rewrite le_zlen in V. replace (4 + Z.of_nat 4) with (8 + Z.of_nat w * 0) in V by lia.
  change (2 ^ (8 * Z.of_nat 4)) with (2 ^ 32). rewrite !Z.mod_small by lia.
  replace ((Z.of_nat w =? 2) || (Z.of_nat w =? 4) || (Z.of_nat w =? 8)) with true by lia.
  replace (Z.to_nat (zlen l)) with (length l) by (unfold zlen; lia).
  rewrite (intset_elems_spec w l s 0 V).
  f_equal. apply map_ext. intros n. destruct (Nat.eqb_spec w 8) as [->|H8].
  - change (2 ^ (8 * Z.of_nat 8)) with two64. apply wrap64_eq_mod. rewrite Z.mod_mod by (unfold two64; lia). reflexivity.
  - apply wrap64_id. apply is_int64_iff. unfold min_int64, max_int64.
    pose proof (Z.mod_pos_bound n (2 ^ (8 * Z.of_nat w)) ltac:(lia)). assert (2 ^ (8 * Z.of_nat w) <= 2 ^ 32) by (apply Z.pow_le_mono_r; lia). lia.
Qed.
(** so a set decodes to itself when its elements are 64-bit, or none is negative *)
Theorem C88_intset_partial w l : w = 2%nat \/ w = 4%nat \/ w = 8%nat -> zlen l < 2 ^ 32 -> Forall (fits w) l ->
  w = 8%nat \/ Forall (fun n => 0 <= n) l -> intset_load (intset_enc w l) = Some l.
Proof.
  intros Hw Hl Hf Hn. rewrite (C88_intset_exact_partial w l Hw Hl). f_equal.
  rewrite <- (map_id l) at 2. apply map_ext_in. intros n Hin.
  rewrite Forall_forall in Hf. specialize (Hf n Hin). unfold fits in Hf.
  destruct (Nat.eqb_spec w 8) as [->|H8].
  - apply wrap64_id, is_int64_iff. change (2 ^ (8 * Z.of_nat 8 - 1)) with two63 in Hf. unfold two63, min_int64, max_int64 in *. lia.
  - destruct Hn as [|Hn]; [contradiction|]. rewrite Forall_forall in Hn. specialize (Hn n Hin). apply Z.mod_small.
    assert (2 ^ (8 * Z.of_nat w - 1) < 2 ^ (8 * Z.of_nat w)) by (apply Z.pow_lt_mono_r; lia). lia.
Qed.
Theorem C88_intset_refuted : exists l, Forall (fits 2) l /\ intset_load (intset_enc 2 l) = Some [65535] /\ l <> [65535].
Proof. exists [-1]. split; [repeat constructor; unfold fits; cbn; lia|]. split; [vm_compute; reflexivity|discriminate]. Qed.
(** for every negative element of a 16- or 32-bit set the result is wrong *)
Theorem C88_intset_negative_refuted w l : w = 2%nat \/ w = 4%nat -> zlen l < 2 ^ 32 -> (exists n, n ∈ l /\ n < 0) -> intset_load (intset_enc w l) <> Some l.
Proof.
  intros Hw Hl (n & Hin & Hn) E. rewrite (C88_intset_exact_partial w l) in E by (auto; tauto). injection E as E.
  apply elem_of_list_lookup in Hin as [i Hi]. pose proof (f_equal (fun l => l !! i) E) as E2. rewrite list_lookup_fmap, Hi in E2. cbn in E2. injection E2 as E2.
  replace (w =? 8)%nat with false in E2 by (destruct Hw as [-> | ->]; reflexivity).
  pose proof (Z.mod_pos_bound n (2 ^ (8 * Z.of_nat w)) ltac:(lia)). lia.
Qed.
Example C88_ex : intset_load (intset_enc 8 [-3; 5; 9223372036854775807]) = Some [-3; 5; 9223372036854775807].
Proof. vm_compute. reflexivity. Qed.
Example C88_ex16 : intset_load (intset_enc 2 [1; 300; 32767]) = Some [1; 300; 32767].
Proof. vm_compute. reflexivity. Qed.

(** ** C89: ziplists
    Full statement: for every list [l] of well-formed entries,
    [ziplist_load (ziplist_enc tail l) = Some (map zentry_text l)]. It fails for strings of 64 bytes
    and more (lengths are computed in a single byte and the text is taken from the wrong place) and
    for integers outside 0..12 (their raw bytes are returned; of 64-bit integers only five bytes are
    skipped, so the rest is misread). *)
(** what Load makes of the entries whose size it gets right *)
Definition zentry_shown (e : zentry) : gostr :=
  match e with ZStr s => s | ZImm n => itoa n | ZInt8 n => le 1 n | ZInt16 n => le 2 n | ZInt24 n => le 3 n | ZInt32 n => le 4 n | ZInt64 n => le 5 n end.
Definition zentry_sized (e : zentry) : Prop :=
  match e with ZStr s => zlen s < 64 | ZImm n => 0 <= n <= 12 | ZInt64 _ => False | _ => True end.
Lemma zl_prev_spec val pos n r : 0 <= n -> view val pos (prevlen n ++ r) ->
  zl_prev val pos = Some (zlen (prevlen n)) /\ exists b, at_ val pos = Some b /\ b <> 255.
Proof.
  intros Hn V. unfold zl_prev, prevlen in *. destruct (Z.ltb_spec n 254) as [H|H].
  - rewrite (view_at _ _ _ _ V). cbn [obind]. rewrite b2z_z2b_small by lia. destruct (Z.geb_spec n 254); [lia|]. split; [reflexivity|]. exists n. split; [reflexivity|lia].
  - rewrite (view_at _ _ _ _ V). cbn [obind]. change (b2z xfe) with 254. change (254 >=? 254) with true. cbv iota.
    pose proof (view_cons _ _ _ _ V) as V1.
    rewrite (view_in val (pos + 1) (le 4 n) r) by (auto; rewrite le_zlen; lia). cbn [obind]. split; [rewrite zlen_cons, le_zlen; reflexivity|]. exists 254. split; [reflexivity|lia].
Qed.
Lemma zl_entry_int val pos b w n r : view val pos (b :: le w n ++ r) -> (0 < w)%nat ->
  (b, w) ∈ [(xfe, 1%nat); (xc0, 2%nat); (xf0, 3%nat); (xd0, 4%nat); (xe0, 5%nat)] -> zl_entry val pos = Some (Z.of_nat w, 1, le w n).
Proof.
  intros V Hw Hb. unfold zl_entry, zl_decode. rewrite (view_at _ _ _ _ V). cbn [obind]. pose proof (view_cons _ _ _ _ V) as V1.
  assert (Hs : forall q m, q = pos + 1 -> m = pos + Z.of_nat w + 1 -> slice val q m = Some (le w n)).
  { intros q m -> ->. eapply view_in; [exact V1|reflexivity|rewrite le_zlen; lia]. }
  revert Hs. generalize (slice val) as sl, (le w n) as t, (at_ val) as at'. intros sl t at' Hs. clear V V1.
  repeat (apply elem_of_cons in Hb as [[= -> ->]|Hb]; [vm_compute b2z; cbn -[Z.add]; rewrite Hs by (auto; lia); reflexivity|]).
  apply elem_of_nil in Hb. contradiction.
Qed.
Lemma zl_entry_spec val pos e r : zentry_sized e -> view val pos (zentry_body e ++ r) ->
  exists len size, zl_entry val pos = Some (len, size, zentry_shown e) /\ len + size = zlen (zentry_body e).
Proof.
  intros He V. destruct e as [s|n|n|n|n|n|n]; cbn [zentry_sized zentry_shown zentry_body] in *; try contradiction.
  - destruct (Z.ltb_spec (zlen s) 64); [|lia]. cbn [app] in V. pose proof (zlen_nonneg s).
    unfold zl_entry, zl_decode. rewrite (view_at _ _ _ _ V). cbn [obind]. rewrite b2z_z2b_small by lia.
    destruct (Z.ltb_spec (zlen s) 192); [|lia].
    assert (Hbits : Z.land (zlen s) 192 = 0 /\ Z.land (zlen s) 63 = zlen s).
    { assert (Hc : forallb (fun n => (Z.land n 192 =? 0) && (Z.land n 63 =? n)) (map Z.of_nat (seq 0 64)) = true) by (vm_compute; reflexivity).
      rewrite forallb_forall in Hc. specialize (Hc (zlen s)). rewrite andb_true_iff, !Z.eqb_eq in Hc. apply Hc.
      apply in_map_iff. exists (length s). split; [reflexivity|]. apply in_seq. unfold zlen in *. lia. }
    destruct Hbits as [-> ->]. cbn [Z.ltb]. change (0 <? 192) with true. cbv iota. change (0 =? 0) with true. cbv iota. cbn [obind].
    destruct (Z.gtb_spec (zlen s) 0) as [Hs|Hs].
    + pose proof (view_cons _ _ _ _ V) as V1. rewrite (view_in val (pos + 1) s r) by (auto; lia). cbn [obind].
      exists (zlen s), 1. split; [reflexivity|]. rewrite zlen_app, zlen_cons, zlen_nil. lia.
    + exists (zlen s), 1. assert (s = []) as -> by (destruct s; [reflexivity|rewrite zlen_cons in Hs; pose proof (zlen_nonneg s); lia]).
      split; reflexivity.
  - assert (Hc : forallb (fun n => match zl_entry ([z2b (241 + n)] ++ []) 0 with Some (l, z, t) => (l =? 0) && (z =? 1) && gostr_eqb t (itoa n) | None => false end && (b2z (z2b (241 + n)) =? 241 + n)
       && negb (241 + n <? 192) && negb (241 + n =? 254) && negb (241 + n =? 192) && negb (241 + n =? 240) && negb (241 + n =? 208) && negb (241 + n =? 224) && (Z.land (241 + n) 15 - 1 =? n)) (map Z.of_nat (seq 0 13)) = true) by (vm_compute; reflexivity).
    rewrite forallb_forall in Hc. specialize (Hc n). rewrite !andb_true_iff in Hc.
    destruct Hc as ((((((((_ & H1) & H2) & H3) & H4) & H5) & H6) & H7) & H8).
    { apply in_map_iff. exists (Z.to_nat n). split; [lia|]. apply in_seq. lia. }
    apply Z.eqb_eq in H1, H8. apply negb_true_iff in H2, H3, H4, H5, H6, H7.
    unfold zl_entry, zl_decode. cbn [app] in V. rewrite (view_at _ _ _ _ V). cbn [obind]. rewrite H1, H2. cbv iota. rewrite H2, H3, H4, H5, H6, H7, H8. cbv iota.
    replace ((241 <=? 241 + n) && (241 + n <=? 253)) with true by lia. cbn [obind]. change (0 >? 0) with false. cbv iota.
    exists 0, 1. split; reflexivity.
  - exists 1, 1. split; [|reflexivity]. apply (zl_entry_int _ _ xfe 1 _ r); [exact V|lia|set_solver].
  - exists 2, 1. split; [|reflexivity]. apply (zl_entry_int _ _ xc0 2 _ r); [exact V|lia|set_solver].
  - exists 3, 1. split; [|reflexivity]. apply (zl_entry_int _ _ xf0 3 _ r); [exact V|lia|set_solver].
  - exists 4, 1. split; [|reflexivity]. apply (zl_entry_int _ _ xd0 4 _ r); [exact V|lia|set_solver].
Qed.
Lemma zl_loop_spec l f val pos prev : Forall zentry_sized l -> 0 <= prev -> view val pos (zentries prev l ++ [xff]) -> (length (zentries prev l) < f)%nat ->
  zl_loop f val pos = Some (map zentry_shown l).
Proof.
  revert f pos prev. induction l as [|e l IH]; intros f pos prev Hl Hp V Hf; (destruct f as [|f]; [lia|]); cbn [zl_loop zentries map] in *.
  - unfold zl_next. rewrite (view_at _ _ _ _ V). reflexivity.
  - inversion Hl as [|? ? He Hl']; subst. rewrite <- !app_assoc in V.
    destruct (zl_prev_spec val pos prev _ Hp V) as [Ep (b & Eb & Hb)]. unfold zl_next. rewrite Eb. cbn [obind]. destruct (Z.eqb_spec b 255); [contradiction|].
    rewrite Ep. cbn [obind]. apply view_app in V.
    destruct (zl_entry_spec val _ e _ He V) as (len & size & Ee & Hls). rewrite Ee. cbn [obind]. apply view_app in V.
    rewrite (IH f _ (zlen (prevlen prev ++ zentry_body e))); [reflexivity|exact Hl'|apply zlen_nonneg| |].
    + rewrite Hls. exact V.
    + rewrite app_length in Hf. assert (0 < length (prevlen prev ++ zentry_body e))%nat; [|lia].
      rewrite app_length. assert (0 < length (prevlen prev))%nat; [|lia]. unfold prevlen. destruct (_ <? _); cbn; lia.
Qed.
(** what Load returns, for every list of short strings, small integers and integers of 8 to 32 bits *)
Theorem C89_ziplist_shown_partial tail l : Forall zentry_sized l -> ziplist_load (ziplist_enc tail l) = Some (map zentry_shown l).
Proof.
  intros Hl. unfold ziplist_load. set (s := ziplist_enc tail l). pose proof (view_0 s) as V. unfold s in V at 2. unfold ziplist_enc in V.
  apply view_app in V. rewrite le_zlen in V. apply view_app in V. rewrite le_zlen in V. apply view_app in V. rewrite le_zlen in V.
  eapply (zl_loop_spec l _ s 10 0 Hl); [lia|exact V|].
  unfold s, ziplist_enc. rewrite !app_length. lia.
Qed.
(** hence the right texts for short strings and the integers 0 to 12 *)
Theorem C89_ziplist_partial tail l : Forall (fun e => match e with ZStr s => zlen s < 64 | ZImm n => 0 <= n <= 12 | _ => False end) l ->
  ziplist_load (ziplist_enc tail l) = Some (map zentry_text l).
Proof.
  intros Hl. rewrite C89_ziplist_shown_partial.
  - f_equal. induction Hl as [|e l He Hl IH]; [reflexivity|]. cbn [map]. f_equal; [|exact IH]. destruct e; cbn in *; try contradiction; reflexivity.
  - refine (List.Forall_impl _ _ Hl). intros [] He; cbn in *; auto; contradiction.
Qed.
Theorem C89_ziplist_int_refuted : exists n, fits 1 n /\ ziplist_load (ziplist_enc 10 [ZInt8 n]) <> Some [itoa n].
Proof. exists 100. split; [unfold fits; cbn; lia|]. vm_compute. discriminate. Qed.
Theorem C89_ziplist_int64_refuted : exists n, fits 8 n /\ ziplist_load (ziplist_enc 10 [ZInt64 n]) = None.
Proof. exists 72623859790382856. split; [unfold fits; cbn; lia|]. vm_compute. reflexivity. Qed.
(** The entries before the first 64-bit integer are read as above. *)
Lemma zl_loop_upto l e r : forall f val pos prev, Forall zentry_sized l -> 0 <= prev -> view val pos (zentries prev (l ++ e :: r) ++ [xff]) -> (length (zentries prev (l ++ e :: r)) < f)%nat ->
  exists f' pos' prev', zl_loop f val pos = (x <-? zl_loop f' val pos';; Some (map zentry_shown l ++ x)) /\ 0 <= prev' /\
    view val pos' (prevlen prev' ++ zentry_body e ++ zentries (zlen (prevlen prev' ++ zentry_body e)) r ++ [xff]) /\ (length (zentry_body e) < f')%nat.
Proof.
  induction l as [|a l IH]; intros f val pos prev Hl Hp V Hf; cbn [app zentries map] in *.
  - exists f, pos, prev. split; [destruct (zl_loop f val pos); reflexivity|]. split; [exact Hp|]. split; [rewrite <- !app_assoc in V; exact V|]. rewrite !app_length in Hf. lia.
  - destruct f as [|f]; [lia|]. inversion Hl as [|? ? He Hl']; subst. rewrite <- !app_assoc in V. cbn [zl_loop].
    destruct (zl_prev_spec val pos prev _ Hp V) as [Ep (b & Eb & Hb)]. unfold zl_next. rewrite Eb. cbn [obind]. destruct (Z.eqb_spec b 255); [contradiction|].
    rewrite Ep. cbn [obind]. apply view_app in V.
    destruct (zl_entry_spec val _ a _ He V) as (len & size & Ee & Hls). rewrite Ee. cbn [obind]. apply view_app in V.
    destruct (IH f val (pos + zlen (prevlen prev) + (len + size)) (zlen (prevlen prev ++ zentry_body a)) Hl') as (f' & pos' & prev' & E & R).
    + apply zlen_nonneg.
    + rewrite Hls. exact V.
    + rewrite app_length in Hf. assert (0 < length (prevlen prev ++ zentry_body a))%nat; [|lia].
      rewrite app_length. assert (0 < length (prevlen prev))%nat; [|lia]. unfold prevlen. destruct (_ <? _); cbn; lia.
    + exists f', pos', prev'. rewrite E. split; [|exact R]. destruct (zl_loop f' val pos'); reflexivity.
Qed.
Lemma le_8_neg n : - 2 ^ 40 <= n < 0 -> le 8 n = le 5 n ++ xff :: [xff; xff].
Proof.
  intros Hn. assert (B : forall i, (5 <= i < 8)%nat -> z2b (n / 2 ^ (8 * Z.of_nat i)) = xff).
  { intros i Hi. assert (2 ^ 40 <= 2 ^ (8 * Z.of_nat i)) by (apply Z.pow_le_mono_r; lia).
    assert (E : n / 2 ^ (8 * Z.of_nat i) = -1) by (symmetry; apply (Z.div_unique n (2 ^ (8 * Z.of_nat i)) (-1) (n + 2 ^ (8 * Z.of_nat i))); lia). rewrite E. reflexivity. }
  unfold le. change (seq 0 8) with (seq 0 5 ++ [5; 6; 7]%nat). rewrite map_app. f_equal. cbn [map]. rewrite !B by lia. reflexivity.
Qed.
(** Of a 64-bit integer between -2^40 and -1 five bytes are returned as its text and the sixth is taken for the end of the
    ziplist: everything after it is lost without a word. *)
Theorem C89_ziplist_int64_cut_refuted tail l n r : Forall zentry_sized l -> - 2 ^ 40 <= n < 0 ->
  ziplist_load (ziplist_enc tail (l ++ ZInt64 n :: r)) = Some (map zentry_shown l ++ [le 5 n]).
Proof.
  intros Hl Hn. unfold ziplist_load. set (s := ziplist_enc tail _). pose proof (view_0 s) as V. unfold s in V at 2. unfold ziplist_enc in V.
  apply view_app in V. rewrite le_zlen in V. apply view_app in V. rewrite le_zlen in V. apply view_app in V. rewrite le_zlen in V.
  destruct (zl_loop_upto l (ZInt64 n) r (S (length s)) s 10 0 Hl) as (f & pos & prev & E & Hp & V2 & Hf); [lia|exact V|unfold s, ziplist_enc; rewrite !app_length; lia|].
  rewrite E. destruct f as [|[|f]]; [cbn in Hf; lia|cbn in Hf; lia|]. cbn [zl_loop].
  destruct (zl_prev_spec s pos prev _ Hp V2) as [Ep (b & Eb & Hb)]. unfold zl_next at 1. rewrite Eb. cbn [obind]. destruct (Z.eqb_spec b 255); [contradiction|].
  rewrite Ep. cbn [obind]. apply view_app in V2. set (q := pos + zlen (prevlen prev)) in *. cbn [zentry_body app] in V2.
  pose proof (le_8_neg n Hn) as E8.
  rewrite E8, <- app_assoc in V2.
  assert (Ee : zl_entry s q = Some (5, 1, le 5 n)).
  { apply (zl_entry_int s q xe0 5 n _ V2); [lia|set_solver]. }
  rewrite Ee. cbn [obind]. apply view_cons in V2. apply view_app in V2. rewrite le_zlen in V2.
  replace (q + 1 + Z.of_nat 5) with (q + (5 + 1)) in V2 by lia. cbn [app] in V2.
  unfold zl_next. rewrite (view_at _ _ _ _ V2). reflexivity.
Qed.
Example C89_int64_ex : ziplist_load (ziplist_enc 10 [ZStr (bs "a"); ZInt64 (- 3000000000); ZStr (bs "b")]) = Some [bs "a"; le 5 (- 3000000000)] /\ fits 8 (- 3000000000) /\ ~ fits 4 (- 3000000000).
Proof. split; [vm_compute; reflexivity|]. unfold fits. cbn. lia. Qed.
Theorem C89_ziplist_long_refuted : exists s, zlen s = 64 /\ ziplist_load (ziplist_enc 10 [ZStr s]) <> Some [s].
Proof. exists (replicate 64 x61). split; [reflexivity|]. vm_compute. discriminate. Qed.
Example C89_ex : ziplist_load (ziplist_enc 10 [ZStr (bs "field"); ZImm 7; ZStr []; ZImm 12]) = Some [bs "field"; bs "7"; []; bs "12"].
Proof. vm_compute. reflexivity. Qed.

(** ** C90: zipmaps
    Full statement: for every list [l] of well-formed pairs with different keys,
    [zipmap_load (zipmap_enc l) = Some (zipmap_map l)]. It fails from the second pair on: the loop
    header skips one byte too many after each pair. *)
Lemma zm_read_len_spec a v i n r r' : 0 <= n < 2 ^ 32 -> view v i (zlength n ++ r) -> view a i (zlength n ++ r') -> zm_read_len a v i = Some (n, i + zlen (zlength n)).
Proof.
  intros Hn V V'. unfold zm_read_len, zlength in *. destruct (Z.ltb_spec n 254) as [H|H].
  - rewrite (view_at _ _ _ _ V). cbn [obind]. rewrite b2z_z2b_small by lia. destruct (Z.geb_spec n 254); [lia|]. reflexivity.
  - rewrite (view_at _ _ _ _ V). cbn [obind]. change (b2z xfe) with 254. change (254 >=? 254) with true. cbv iota.
    pose proof (view_cons _ _ _ _ V') as V1. rewrite (view_le _ _ 4 _ _ V1 : le_at a (i + 1) 4 = _). cbn [obind].
    change (2 ^ (8 * Z.of_nat 4)) with (2 ^ 32). rewrite Z.mod_small by lia. rewrite zlen_cons, le_zlen. f_equal. f_equal. lia.
Qed.
Lemma zm_load_pair f v i p r : zpair_ok p -> view v i (zpair_enc p ++ r) -> i < zlen v - 1 ->
  zm_load_loop (S f) v i = (r <-? zm_load_loop f v (i + zlen (zpair_enc p) + 1);; Some ((zp_key p, zp_val p) :: r)).
Proof.
  intros (Hk & Hv & Hf) V Hi. cbn [zm_load_loop]. destruct (Z.ltb_spec i (zlen v - 1)); [|lia].
  pose proof (zlen_nonneg (zp_key p)). pose proof (zlen_nonneg (zp_val p)). pose proof (zlen_nonneg (zp_free p)).
  unfold zpair_enc in *. rewrite <- !app_assoc in V.
  rewrite (zm_read_len_spec v v i (zlen (zp_key p)) _ _ ltac:(lia) V V). cbn [obind]. apply view_app in V.
  rewrite (view_slice _ _ _ _ V). cbn [obind]. apply view_app in V.
  rewrite (zm_read_len_spec v v _ (zlen (zp_val p)) _ _ ltac:(lia) V V). cbn [obind]. apply view_app in V.
  assert (Hfree : [z2b (zlen (zp_free p))] = zlength (zlen (zp_free p))) by (unfold zlength; destruct (Z.ltb_spec (zlen (zp_free p)) 254); [reflexivity|lia]).
  rewrite Hfree in V. rewrite (zm_read_len_spec v v _ (zlen (zp_free p)) _ _ ltac:(lia) V V). cbn [obind]. apply view_app in V.
  rewrite (view_slice _ _ _ _ V). cbn [obind]. rewrite !zlen_app, <- Hfree. 
  match goal with |- obind (zm_load_loop f v ?a) _ = obind (zm_load_loop f v ?b) _ => replace a with b by lia end. reflexivity.
Qed.
Theorem C90_zipmap_partial l : Forall zpair_ok l -> zlen l <= 1 -> zipmap_load (zipmap_enc l) = Some (zipmap_map l).
Proof.
  intros Hl H1. destruct l as [|p [|q l]]; [reflexivity| |rewrite !zlen_cons in H1; pose proof (zlen_nonneg l); lia].
  inversion Hl as [|? ? Hp _]; subst. unfold zipmap_load, zm_load_pairs. set (s := zipmap_enc [p]).
  pose proof (view_0 s) as V. unfold s in V at 2. unfold zipmap_enc in V. cbn [map concat] in V. rewrite app_nil_r in V.
  rewrite (view_at _ _ _ _ V). cbn [obind]. apply view_cons in V. change (0 + 1) with 1 in V.
  assert (Hs : zlen s = 2 + zlen (zpair_enc p)) by (apply view_len in V; rewrite zlen_app, zlen_cons, zlen_nil in V; lia).
  assert (Hpos : 0 < zlen (zpair_enc p)).
  { unfold zpair_enc, zlength at 1. destruct (_ <? 254); cbn [app]; rewrite zlen_cons; match goal with |- 0 < 1 + zlen ?l => pose proof (zlen_nonneg l) end; lia. }
  rewrite (zm_load_pair (length s) s 1 p [xff] Hp V) by lia.
  assert (Hlen : exists n, length s = S n) by (unfold s, zipmap_enc; eexists; reflexivity). destruct Hlen as [n ->].
  cbn [zm_load_loop]. destruct (Z.ltb_spec (1 + zlen (zpair_enc p) + 1) (zlen s - 1)); [lia|]. reflexivity.
Qed.
Theorem C90_zipmap_refuted : exists l, Forall zpair_ok l /\ NoDup (map zp_key l) /\ zipmap_load (zipmap_enc l) <> Some (zipmap_map l).
Proof.
  exists [ZPair (bs "foo") (bs "bar") []; ZPair (bs "hello") (bs "world") []]. split; [repeat constructor; vm_compute; reflexivity|].
  split; [cbn [map zp_key]; repeat (apply list.NoDup_cons; split; [intros Hx; repeat (apply elem_of_cons in Hx as [Hx|Hx]; [discriminate|]); apply elem_of_nil in Hx; exact Hx|]); apply list.NoDup_nil; exact I|].
  assert (E : zipmap_load (zipmap_enc [ZPair (bs "foo") (bs "bar") []; ZPair (bs "hello") (bs "world") []]) = None) by (vm_compute; reflexivity).
  rewrite E. discriminate.
Qed.
Example C90_ex : zipmap_load (zipmap_enc [ZPair (bs "foo") (bs "bar") (bs "__")]) = Some {[bs "foo" := bs "bar"]}.
Proof. rewrite C90_zipmap_partial; [reflexivity|repeat constructor; vm_compute; reflexivity|vm_compute; discriminate]. Qed.

(** ** C91: a built zipmap can be read back
    Full statement: after any Set calls on a new zipmap Lookup finds exactly the keys that were set
    and Load returns the pairs. It fails: Set leaves out the free-length byte that Lookup and Load expect. *)
Lemma zm_len_zlength s : zm_len s = zlength (zlen s).
Proof. unfold zm_len, zlength. destruct (Z.geb_spec (zlen s) 254), (Z.ltb_spec (zlen s) 254); try lia; [rewrite le_bytes_le|]; reflexivity. Qed.
(** the first Set *)
Lemma zm_set_new grow k v : exists c, zm_set grow zm_new k v = Some (Zm (x01 :: zlength (zlen k) ++ k ++ zlength (zlen v) ++ v ++ [xff]) c).
Proof.
  unfold zm_set. change (zm_lookup zm_new k) with (Some (2, false)). cbn [obind snd]. rewrite !zm_len_zlength. cbn [zm_val zm_new zm_append length take Nat.sub firstn app]. eexists.
  change (b2z x00 <? 254) with true. cbv iota. rewrite <- !app_assoc. reflexivity.
Qed.
Lemma view_ext v p i x : view v i x -> view (v ++ p) i (x ++ p).
Proof.
  intros [H E]. unfold view. rewrite zlen_app. pose proof (zlen_nonneg p). split; [lia|]. unfold zlen in H. rewrite skipn_app, E. replace (Z.to_nat i - length v)%nat with 0%nat by lia. reflexivity.
Qed.
Lemma zlength_head n : 0 <= n -> exists b r, zlength n = b :: r /\ b2z b <> 255.
Proof.
  intros Hn. unfold zlength. destruct (Z.ltb_spec n 254); eexists _, _; (split; [reflexivity|]); [rewrite b2z_z2b_small by lia; lia|vm_compute; discriminate].
Qed.
(** what holds: the key of the first Set is found, wherever its value goes, and setting it again
    changes nothing (so not its value either) *)
Lemma zm_lookup_first b k t c : zlen k < 2 ^ 32 ->
  zm_lookup (Zm (b :: zlength (zlen k) ++ k ++ t) c) k = Some (1 + zlen (zlength (zlen k)), true).
Proof.
  intros Hk. set (z := _ :: _). pose proof (zlen_nonneg k).
  assert (V : view z 1 (zlength (zlen k) ++ k ++ t)) by (apply (view_cons z 0 b), view_0).
  destruct (zlength_head (zlen k) ltac:(lia)) as (b1 & r1 & Eb & Hb).
  unfold zm_lookup. cbn [zm_val]. cbn [zm_lookup_loop zm_val]. assert (1 < zlen z) by (unfold z; rewrite Eb; cbn [app]; rewrite !zlen_cons; match goal with |- _ < 1 + (1 + zlen ?l) => pose proof (zlen_nonneg l) end; lia).
  destruct (Z.ltb_spec 1 (zlen z)); [|lia]. unfold zm_array. cbn [zm_val zm_cap]. set (p := repeat x00 _). pose proof (view_ext z p _ _ V) as Va. rewrite <- !app_assoc in Va.
  pose proof V as V2. rewrite Eb in V2. rewrite (view_at _ _ _ _ V2). cbn [obind].
  destruct (Z.eqb_spec (b2z b1) 255); [contradiction|]. rewrite (zm_read_len_spec (z ++ p) z 1 (zlen k) _ _ ltac:(lia) V Va). cbn [obind]. apply view_app in Va.
  rewrite (view_slice _ _ _ _ Va). cbn [obind]. unfold gostr_eqb. rewrite bool_decide_eq_true_2 by reflexivity. reflexivity.
Qed.
Theorem C91_first_key_partial grow k v v' : zlen k < 2 ^ 32 ->
  exists z, zm_set grow zm_new k v = Some z /\ zm_lookup z k = Some (1 + zlen (zlength (zlen k)), true) /\ zm_set grow z k v' = Some z.
Proof.
  intros Hk. destruct (zm_set_new grow k v) as [c Hc]. eexists. split; [exact Hc|]. pose proof (zm_lookup_first x01 k (zlength (zlen v) ++ v ++ [xff]) c Hk) as E.
  split; [exact E|]. unfold zm_set. rewrite E. reflexivity.
Qed.
(** Any sequence of Sets that does not panic: the zipmap holds the pairs that were appended, in order, the first
    byte is their number up to 254, and the key of the first Set stays where it was. *)
Fixpoint zm_sets (grow : nat -> nat -> nat) (l : list (gostr * gostr)) (z : zm) : option zm :=
  match l with [] => Some z | (k, v) :: r => match zm_set grow z k v with Some z' => zm_sets grow r z' | None => None end end.
Definition zrecord (p : gostr * gostr) : gostr := zlength (zlen p.1) ++ p.1 ++ zlength (zlen p.2) ++ p.2.
Definition zlayout (es : list (gostr * gostr)) : gostr := z2b (Z.min 254 (zlen es)) :: concat (map zrecord es) ++ [xff].
Lemma zm_set_layout grow es c k v z : zm_set grow (Zm (zlayout es) c) k v = Some z -> zm_val z = zlayout es \/ zm_val z = zlayout (es ++ [(k, v)]).
Proof.
  unfold zm_set. destruct (zm_lookup (Zm (zlayout es) c) k) as [[n []]|]; cbn [obind snd]; [|intros E|discriminate]; [intros [= <-]; left; reflexivity|].
  right. cbn [zm_val] in E. unfold zlayout in E. rewrite !zm_len_zlength in E.
  set (h := z2b (Z.min 254 (zlen es))) in *. set (body := concat (map zrecord es)) in *.
  replace (take (length (h :: body ++ [xff]) - 1) (h :: body ++ [xff])) with (h :: body) in E.
  2:{ change (h :: body ++ [xff]) with ((h :: body) ++ [xff]). rewrite app_length. cbn [length]. replace (S (length body) + 1 - 1)%nat with (length (h :: body)) by (cbn [length]; lia). rewrite take_app. reflexivity. }
  cbn [app zm_append zm_val] in E. injection E as <-. cbn [zm_val]. unfold zlayout. rewrite map_app, concat_app, zlen_app. cbn [map concat]. change (zlen [(k, v)]) with 1. rewrite app_nil_r.
  pose proof (zlen_nonneg es). unfold h. rewrite b2z_z2b_small by lia.
  destruct (Z.ltb_spec (Z.min 254 (zlen es)) 254).
  - f_equal. f_equal. lia.
  - f_equal. f_equal. lia.
Qed.
Lemma zm_sets_layout grow l : forall es c z, zm_sets grow l (Zm (zlayout es) c) = Some z -> exists es', es' `sublist_of` l /\ zm_val z = zlayout (es ++ es').
Proof.
  induction l as [|[k v] l IH]; intros es c z E; cbn [zm_sets] in E; [injection E as <-; exists []; rewrite app_nil_r; split; [constructor|reflexivity]|].
  destruct (zm_set grow (Zm (zlayout es) c) k v) as [[z1 c1]|] eqn:E1; [|discriminate]. destruct (zm_set_layout _ _ _ _ _ _ E1) as [H | H]; cbn [zm_val] in H; subst z1.
  - destruct (IH _ _ _ E) as (es' & H1 & ->). exists es'. split; [constructor; exact H1|reflexivity].
  - destruct (IH _ _ _ E) as (es' & H1 & ->). exists ((k, v) :: es'). split; [constructor; exact H1|]. rewrite <- app_assoc. reflexivity.
Qed.
Theorem C91_layout_partial grow k v l z : zlen k < 2 ^ 32 -> zm_sets grow ((k, v) :: l) zm_new = Some z ->
  exists es, es `sublist_of` l /\ zm_val z = z2b (Z.min 254 (1 + zlen es)) :: concat (map zrecord ((k, v) :: es)) ++ [xff] /\
    zm_lookup z k = Some (1 + zlen (zlength (zlen k)), true) /\ forall v', zm_set grow z k v' = Some z.
Proof.
  intros Hk E. cbn [zm_sets] in E. destruct (zm_set_new grow k v) as [c Hc]. rewrite Hc in E.
  replace (x01 :: zlength (zlen k) ++ k ++ zlength (zlen v) ++ v ++ [xff]) with (zlayout [(k, v)]) in E
    by (unfold zlayout, zrecord; cbn [map concat fst snd]; rewrite app_nil_r, <- !app_assoc; reflexivity).
  destruct (zm_sets_layout _ _ _ _ _ E) as (es & H1 & Hz). exists es. split; [exact H1|].
  assert (H2 : zlayout ([(k, v)] ++ es) = z2b (Z.min 254 (1 + zlen es)) :: concat (map zrecord ((k, v) :: es)) ++ [xff]) by (unfold zlayout; rewrite zlen_app; reflexivity).
  rewrite H2 in Hz. split; [exact Hz|].
  assert (H3 : zm_lookup z k = Some (1 + zlen (zlength (zlen k)), true)).
  { destruct z as [zv zc]. cbn [zm_val] in Hz. subst zv. cbn [map concat]. unfold zrecord at 1. cbn [fst snd]. rewrite <- !app_assoc. apply zm_lookup_first. exact Hk. }
  split; [exact H3|]. intros v'. unfold zm_set. rewrite H3. reflexivity.
Qed.
(** The value of the first pair hides what follows from Lookup, so that every later Set appends: the count stays at 254. *)
Example C91_layout_ex : match zm_sets (fun c n => n + c)%nat ((bs "a", [xfe; xff; xff; xff; x7f]) :: repeat (bs "b", bs "v") 300) zm_new with
  | Some z => head (zm_val z) = Some xfe /\ length (zm_val z) = 1210%nat | None => False end.
Proof. vm_compute. split; reflexivity. Qed.
(** Load is wrong for every key and value *)
Theorem C91_load_never_refuted grow k v z : zlen k < 2 ^ 32 -> zlen v < 2 ^ 32 -> zm_set grow zm_new k v = Some z -> zipmap_load (zm_val z) <> Some {[k := v]}.
Proof.
  intros Hk Hv Hz. destruct (zm_set_new grow k v) as [c Hc]. rewrite Hc in Hz. injection Hz as <-. cbn [zm_val]. clear c Hc. set (z := _ :: _). pose proof (zlen_nonneg k). pose proof (zlen_nonneg v).
  assert (V : view z 1 (zlength (zlen k) ++ k ++ zlength (zlen v) ++ v ++ [xff])) by (apply (view_cons z 0 x01), view_0).
  unfold zipmap_load, zm_load_pairs. change (at_ z 0) with (Some 1). cbn [obind].
  assert (Hlen : zlen z = 1 + zlen (zlength (zlen k)) + zlen k + zlen (zlength (zlen v)) + zlen v + 1).
  { unfold z. rewrite zlen_cons, !zlen_app, zlen_cons, zlen_nil. lia. }
  destruct (zlength_head (zlen k) ltac:(lia)) as (bk & rk & Ek & _).
  destruct (zlength_head (zlen v) ltac:(lia)) as (bv & rv & Ev & _).
  assert (Hp1 : 1 <= zlen (zlength (zlen k))) by (rewrite Ek, zlen_cons; pose proof (zlen_nonneg rk); lia).
  assert (Hp2 : 1 <= zlen (zlength (zlen v))) by (rewrite Ev, zlen_cons; pose proof (zlen_nonneg rv); lia).
  cbn [zm_load_loop]. destruct (Z.ltb_spec 1 (zlen z - 1)); [|lia].
  rewrite (zm_read_len_spec z z 1 (zlen k) _ _ ltac:(lia) V V). cbn [obind]. apply view_app in V.
  rewrite (view_slice _ _ _ _ V). cbn [obind]. apply view_app in V.
  rewrite (zm_read_len_spec z z _ (zlen v) _ _ ltac:(lia) V V). cbn [obind]. apply view_app in V.
  set (i := 1 + zlen (zlength (zlen k)) + zlen k + zlen (zlength (zlen v))) in *.
  assert (Hout : forall a, i + zlen v + 1 < a + zlen v -> slice z a (a + zlen v) = None).
  { intros a Ha. unfold slice. replace (a + zlen v <=? zlen z) with false by lia. rewrite andb_false_r. reflexivity. }
  unfold zm_read_len. destruct v as [|b v'] eqn:Evv.
  - rewrite (view_at _ _ _ _ V). cbn [obind]. change (b2z xff >=? 254) with true. cbv iota. unfold le_at, slice.
    rewrite zlen_nil in *. replace (i + 1 + 4 <=? zlen z) with false by lia. rewrite andb_false_r. cbn. discriminate.
  - rewrite <- Evv in *. pose proof V as V1. rewrite Evv in V1. cbn [app] in V1. rewrite (view_at _ _ _ _ V1). cbn [obind].
    destruct (Z.geb_spec (b2z b) 254) as [Hb|Hb].
    + destruct (le_at z (i + 1) 4) as [n|] eqn:En; cbn [obind]; [|discriminate]. rewrite Hout by lia. cbn. discriminate.
    + cbn [obind]. apply view_cons in V1.
      assert (Hv' : zlen v = zlen (v' ++ [xff])) by (rewrite Evv, zlen_cons, zlen_app, zlen_cons, zlen_nil; lia).
      pose proof (view_in z (i + 1) (v' ++ [xff]) [] (i + 1) (i + 1 + zlen v)) as Hs. rewrite app_nil_r in Hs. rewrite Hs by (auto; lia). cbn [obind].
      assert (Hlz : exists n, length z = S n) by (unfold z; eexists; reflexivity). destruct Hlz as [n ->]. cbn [zm_load_loop].
      pose proof (b2z_range b). destruct (Z.ltb_spec (i + 1 + zlen v + b2z b + 1) (zlen z - 1)); [lia|]. cbn [obind foldl fst snd].
      intros E. assert (E2 : v' ++ [xff] = v).
      { pose proof (f_equal (fun o : option (gmap gostr gostr) => match o with Some m => m !! k | None => None end) E) as E3. cbv beta iota in E3. rewrite lookup_insert in E3.
        rewrite lookup_singleton in E3. injection E3 as E3. exact E3. }
      rewrite Evv in E2. assert (Hall : forall (l : gostr) x, l ++ [xff] = x :: l -> x = xff).
      { clear. induction l as [|y l IH]; intros x E; cbn in E; [injection E; congruence|]. injection E as <- E. apply IH. exact E. }
      apply Hall in E2. subst b. vm_compute in Hb. discriminate Hb.
Qed.
(** What Lookup finds without looking beyond the length does not depend on the capacity. *)
Lemma slice_pad v p a b t : slice v a b = Some t -> slice (v ++ p) a b = Some t.
Proof.
  unfold slice. destruct ((0 <=? a) && (a <=? b) && (b <=? zlen v)) eqn:E; [|discriminate]. intros [= <-].
  apply andb_prop in E as [E H3]. apply andb_prop in E as [H1 H2]. apply Z.leb_le in H1, H2, H3. rewrite zlen_app. pose proof (zlen_nonneg p).
  replace ((0 <=? a) && (a <=? b) && (b <=? zlen v + zlen p)) with true by lia. f_equal. unfold zlen in *. rewrite skipn_app, firstn_app, skipn_length.
  replace (Z.to_nat (b - a) - (length v - Z.to_nat a))%nat with 0%nat by lia. rewrite firstn_O, app_nil_r. reflexivity.
Qed.
Lemma zm_read_len_pad a v p i x : zm_read_len a v i = Some x -> zm_read_len (a ++ p) v i = Some x.
Proof.
  unfold zm_read_len. destruct (at_ v i) as [b|]; cbn [obind]; [|discriminate]. destruct (b >=? 254); [|auto]. unfold le_at.
  destruct (slice a (i + 1) (i + 1 + 4)) as [t|] eqn:E; cbn [obind]; [|discriminate]. rewrite (slice_pad _ _ _ _ _ E). auto.
Qed.
Lemma zm_lookup_pad v c c' k x : (c <= c')%nat -> zm_lookup (Zm v c) k = Some x -> zm_lookup (Zm v c') k = Some x.
Proof.
  intros Hc. unfold zm_lookup. cbn [zm_val]. generalize (S (length v)) as f, 1 as i.
  assert (Ea : zm_array (Zm v c') = zm_array (Zm v c) ++ repeat x00 (c' - Nat.max c (length v))).
  { unfold zm_array. cbn [zm_val zm_cap]. rewrite <- app_assoc, <- repeat_app. do 2 f_equal. lia. }
  set (a := zm_array (Zm v c)) in *. set (p := repeat x00 _) in *.
  induction f as [|f IH]; intros i; cbn [zm_lookup_loop zm_val]; [auto|]. rewrite Ea. fold a.
  destruct (i <? zlen v); [|auto]. destruct (at_ v i) as [e|]; cbn [obind]; [|discriminate]. destruct (e =? 255); [auto|].
  destruct (zm_read_len a v i) as [[kl j]|] eqn:E; cbn [obind]; [|discriminate]. rewrite (zm_read_len_pad _ _ _ _ _ E). cbn [obind].
  destruct (slice a j (j + kl)) as [t|] eqn:E1; cbn [obind]; [|discriminate]. rewrite (slice_pad _ _ _ _ _ E1). cbn [obind]. destruct (gostr_eqb k t); [auto|].
  destruct (zm_read_len a v (j + kl)) as [[vl j2]|] eqn:E2; cbn [obind]; [|discriminate]. rewrite (zm_read_len_pad _ _ _ _ _ E2). cbn [obind].
  destruct (zm_read_len a v j2) as [[vfl j3]|] eqn:E3; cbn [obind]; [|discriminate]. rewrite (zm_read_len_pad _ _ _ _ _ E3). cbn [obind]. apply IH.
Qed.
Lemma zm_set_miss grow v c k x n : zm_lookup (Zm v 0) k = Some (n, false) -> v <> [] -> exists z, zm_set grow (Zm v c) k x = Some z /\
  zm_val z = match take (length v - 1) v ++ (zm_len k ++ k ++ zm_len x ++ x) ++ [xff] with [] => [] | b :: r => (if b2z b <? 254 then z2b (b2z b + 1) else b) :: r end.
Proof.
  intros H Hv. unfold zm_set. rewrite (zm_lookup_pad _ 0 c _ _ ltac:(lia) H). cbn [obind snd zm_val]. destruct v as [|b0 v]; [congruence|]. set (y := take _ _). cbn [zm_append zm_val]. rewrite <- app_assoc.
  destruct (y ++ _ ++ [xff]) as [|b r] eqn:E; [destruct y; [|discriminate]; destruct (zm_len k ++ k ++ zm_len x ++ x); discriminate|].
  eexists. split; [reflexivity|]. cbn [zm_val]. destruct (b2z b <? 254); reflexivity.
Qed.
(** And Lookup can panic, so that the next Set does. *)
Theorem C91_third_set_refuted : exists k v k1 v1 k2, k <> k1 /\ k <> k2 /\ k1 <> k2 /\ forall grow, exists z z2,
  zm_set grow zm_new k v = Some z /\ zm_set grow z k1 v1 = Some z2 /\ zm_lookup z2 k2 = None /\ zm_set grow z2 k2 v = None.
Proof.
  exists (bs "a"), [x01], (bs "b"), (bs "c"), (bs "d"). split; [discriminate|]. split; [discriminate|]. split; [discriminate|]. intros grow.
  destruct (zm_set_new grow (bs "a") [x01]) as [c Hc]. eexists.
  destruct (zm_set_miss grow (x01 :: zlength (zlen (bs "a")) ++ bs "a" ++ zlength (zlen [x01]) ++ [x01] ++ [xff]) c (bs "b") (bs "c") 6) as ([v2 c2] & H2 & Hv); [vm_compute; reflexivity|discriminate|].
  exists (Zm v2 c2). split; [exact Hc|]. split; [exact H2|]. cbn [zm_val] in Hv. vm_compute in Hv. subst v2.
  assert (H : zm_lookup (Zm [x02; x01; x61; x01; x01; x01; x62; x01; x63; xff] c2) (bs "d") = None).
  { unfold zm_lookup. cbn [zm_val]. cbn [length zm_lookup_loop zm_val]. unfold zm_array. cbn [zm_val zm_cap]. set (v := [x02; x01; x61; x01; x01; x01; x62; x01; x63; xff]). set (p := repeat x00 _).
    change (1 <? zlen v) with true. cbv iota. change (at_ v 1) with (Some 1). cbn [obind]. change (1 =? 255) with false. cbv iota.
    change (zm_read_len (v ++ p) v 1) with (Some (1, 2)). cbn [obind]. rewrite (slice_pad v p 2 (2 + 1) [x61] eq_refl). cbn [obind].
    change (gostr_eqb (bs "d") [x61]) with false. cbv iota. change (zm_read_len (v ++ p) v (2 + 1)) with (Some (1, 4)). cbn [obind].
    change (zm_read_len (v ++ p) v 4) with (Some (1, 5)). cbn [obind]. change (5 + 1 + 1 + 1 <? zlen v) with true. cbv iota. change (at_ v (5 + 1 + 1 + 1)) with (Some 99). cbn [obind].
    change (99 =? 255) with false. cbv iota. change (zm_read_len (v ++ p) v (5 + 1 + 1 + 1)) with (Some (99, 9)). cbn [obind].
    destruct (slice (v ++ p) 9 (9 + 99)) as [t|] eqn:Et; [|reflexivity]. cbn [obind]. destruct (gostr_eqb (bs "d") t) eqn:Eq; [|change (zm_read_len (v ++ p) v (9 + 99)) with (@None (Z * Z)); reflexivity].
    apply bool_decide_eq_true in Eq. subst t. exfalso. unfold slice in Et. destruct (_ && _) eqn:Eb; [|discriminate]. apply (f_equal (fun o : option gostr => match o with Some l => length l | None => 0%nat end)) in Et. cbv beta iota in Et.
    rewrite firstn_length, skipn_length in Et. apply andb_prop in Eb as [_ Eb]. apply Z.leb_le in Eb. unfold zlen in Eb. cbn [bs length] in Et. change (length (bs "d")) with 1%nat in Et. lia. }
  split; [exact H|]. unfold zm_set. rewrite H. reflexivity.
Qed.
(** Whether the second Set panics can depend on the capacity append has chosen. *)
Theorem C91_capacity_refuted : exists k v k', k <> k' /\ forall grow, exists z, zm_set grow zm_new k v = Some z /\ (zm_set grow z k' v = None <-> (zm_cap z < 9)%nat).
Proof.
  exists (bs "a"), [], (bs "b"). split; [discriminate|]. intros grow. destruct (zm_set_new grow (bs "a") []) as [c Hc]. eexists. split; [exact Hc|]. cbn [zm_cap].
  set (v := x01 :: _). assert (Ev : v = [x01; x01; x61; x00; xff]) by reflexivity. clearbody v. subst v.
  destruct (le_lt_dec 9 c) as [H9|H9].
  - assert (H : zm_lookup (Zm [x01; x01; x61; x00; xff] c) (bs "b") = Some (5, false)).
    { apply (zm_lookup_pad _ 9); [exact H9|]. vm_compute. reflexivity. }
    unfold zm_set. rewrite H. cbn [obind snd zm_val]. split; [|lia]. intros E. exfalso. cbn in E. discriminate E.
  - split; [auto|]. intros _. do 9 (destruct c as [|c]; [vm_compute; reflexivity|]). lia.
Qed.
(** Go gives the slice of four bytes a capacity of 8 *)
Example C91_capacity_ex : exists k v k', match zm_set (fun _ _ => 8%nat) zm_new k v with Some z => zm_cap z = 8%nat /\ zm_set (fun _ _ => 8%nat) z k' v = None | None => False end.
Proof. exists (bs "a"), [], (bs "b"). vm_compute. auto. Qed.
(** or miss a key that was set, so that it is stored twice *)
Theorem C91_lost_refuted : exists k v k', k <> k' /\ forall grow, exists z z2, zm_set grow zm_new k v = Some z /\ zm_set grow z k' v = Some z2 /\ zm_lookup z2 k' = Some (zlen (zm_val z2), false).
Proof.
  exists (bs "a"), (bs "v"), (bs "b"). split; [discriminate|]. intros grow. destruct (zm_set_new grow (bs "a") (bs "v")) as [c Hc]. eexists.
  match type of Hc with _ = Some (Zm ?x _) => destruct (zm_set_miss grow x c (bs "b") (bs "v") 6) as ([v2 c2] & H2 & Hv); [vm_compute; reflexivity|discriminate|] end.
  exists (Zm v2 c2). split; [exact Hc|]. split; [exact H2|]. cbn [zm_val] in *. vm_compute in Hv. subst v2. apply (zm_lookup_pad _ 0); [lia|]. vm_compute. reflexivity.
Qed.
(** or find a key that was never set *)
Theorem C91_phantom_refuted : exists k v k1 k2, k2 <> k /\ k2 <> k1 /\ forall grow, exists z z2 n, zm_set grow zm_new k v = Some z /\ zm_set grow z k1 v = Some z2 /\ zm_lookup z2 k2 = Some (n, true).
Proof.
  exists (bs "a"), [x00], [x78; x01; x62], (bs "b"). split; [discriminate|]. split; [discriminate|]. intros grow. destruct (zm_set_new grow (bs "a") [x00]) as [c Hc]. eexists.
  match type of Hc with _ = Some (Zm ?x _) => destruct (zm_set_miss grow x c [x78; x01; x62] [x00] 6) as ([v2 c2] & H2 & Hv); [vm_compute; reflexivity|discriminate|] end.
  exists (Zm v2 c2), 8. split; [exact Hc|]. split; [exact H2|]. cbn [zm_val] in *. vm_compute in Hv. subst v2. apply (zm_lookup_pad _ 0); [lia|]. vm_compute. reflexivity.
Qed.
Example C91_ex : match zm_set (fun _ n => n) zm_new (bs "key") (bs "value") with Some z => zm_lookup z (bs "key") = Some (2, true) | None => False end.
Proof. vm_compute. reflexivity. Qed.

(** ** C151: Get, Del, Len and iteration of a zipmap
    Full statement: after Set(k, v) on a new zipmap Get(k) returns v, Next its key, Len 1 and BlobLen its size, and after Del(k) Lookup
    does not find k. All of them are stubs: *)
Theorem C151_stubs_refuted grow k v z : zlen k < 2 ^ 32 -> zm_set grow zm_new k v = Some z ->
  zm_get z k = ([], false) /\ zm_next z = ([], false) /\ zm_length z <> 1 /\ zm_blob_len z <> zlen (zm_val z) /\
  zm_lookup (zm_del z k) k = Some (1 + zlen (zlength (zlen k)), true).
Proof.
  intros Hk E. destruct (C91_first_key_partial grow k v v Hk) as (z' & E1 & E2 & _). rewrite E in E1. injection E1 as <-.
  split; [reflexivity|]. split; [reflexivity|]. split; [discriminate|]. split; [|exact E2]. destruct (zm_set_new grow k v) as [c Hc]. rewrite E in Hc. injection Hc as ->. cbn [zm_val]. unfold zm_blob_len. rewrite zlen_cons.
  match goal with |- 0 <> 1 + zlen ?l => pose proof (zlen_nonneg l) end. lia.
Qed.
Example C151_ex : exists z, zm_set (fun _ n => n) zm_new (bs "k") (bs "v") = Some z.
Proof. eexists. vm_compute. reflexivity. Qed.
