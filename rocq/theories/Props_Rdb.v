(** * Props_Rdb: the snapshot reader (C77-C87, C107-C110, C126, C127) *)
From stdpp Require Import gmap.
From Verif Require Import Base GoFloat RespModel RespSpec RespLib LzfModel LzfSpec LzfLib PackedModel PackedSpec Props_Lzf Props_Packed RdbModel RdbSpec RdbLib.

(** ** C77: lengths
    Full statement: for every n < 2^64 and every reader whose remaining bytes start with the encoding of n,
    LoadLen returns n and consumes exactly these bytes.
    Missing: from 2^14 on, LoadLen returns 0 (the bytes are consumed). *)
Theorem C77_exact_partial n s rest : 0 <= n < 2 ^ 64 -> wf s -> bytes_left s = rdb_len n ++ rest ->
  exists s', load_len s = LOk (if n <? 16384 then n else 0, false) s' /\ bytes_left s' = rest /\ wf s'.
Proof. apply load_len_any. Qed.
Theorem C77_partial n s rest : 0 <= n < 16384 -> wf s -> bytes_left s = rdb_len n ++ rest ->
  exists s', load_len s = LOk (n, false) s' /\ bytes_left s' = rest.
Proof.
  intros Hn W E. destruct (C77_exact_partial n s rest ltac:(lia) W E) as (s' & R & El & _). exists s'. destruct (Z.ltb_spec n 16384); [auto|lia].
Qed.
(** no length from 2^14 on is read back *)
Theorem C77_large_refuted n s rest : 16384 <= n < 2 ^ 64 -> wf s -> bytes_left s = rdb_len n ++ rest -> forall s', load_len s <> LOk (n, false) s'.
Proof.
  intros Hn W E s' R. destruct (C77_exact_partial n s rest ltac:(lia) W E) as (s2 & R2 & _). destruct (Z.ltb_spec n 16384); [lia|]. rewrite R in R2. injection R2 as R2 _. lia.
Qed.
Theorem C77_refuted : exists n s, 0 <= n < 2 ^ 64 /\ bytes_left s = rdb_len n /\ match load_len s with LOk (m, _) _ => m = 0 /\ m <> n | _ => False end.
Proof. exists 16384, (new_rd [rdb_len 16384]). split; [lia|]. split; [vm_compute; reflexivity|]. vm_compute. split; [reflexivity|discriminate]. Qed.
Example C77_ex : rdb_len 700 = [x42; xbc] /\ load_len (new_rd [[x42]; [xbc; x01]]) = LOk (700, false) (Rd [x01] []).
Proof. split; vm_compute; reflexivity. Qed.

(** ** C78: integer strings
    Full statement: a string in the 8-, 16- or 32-bit integer encoding of n is read as the decimal text of n.
    Missing: negative 16- and 32-bit integers, which are read as unsigned. *)
Theorem C78_int8_partial n s rest : fits 1 n -> wf s -> bytes_left s = rstr_enc (SInt8 n) ++ rest ->
  exists s', load_string s = LOk (itoa n) s' /\ bytes_left s' = rest.
Proof.
  intros Hn W E. cbn [rstr_enc] in E. rewrite le_1 in E. destruct (read_byte_app _ _ _ W E) as (s1 & R1 & E1 & W1). destruct (read_byte_app _ _ _ W1 E1) as (s2 & R2 & E2 & _).
  exists s2. split; [|exact E2]. unfold load_string. rewrite (load_string_marker 0 _ _ _ R1) by (reflexivity || lia). cbn [lbind Z.eqb Pos.eqb]. rewrite R2. cbn [lift lbind]. rewrite int8_le by exact Hn. reflexivity.
Qed.
Theorem C78_exact_partial n s rest : wf s ->
  (bytes_left s = rstr_enc (SInt16 n) ++ rest -> exists s', load_string s = LOk (itoa (n mod 2 ^ 16)) s' /\ bytes_left s' = rest) /\
  (bytes_left s = rstr_enc (SInt32 n) ++ rest -> exists s', load_string s = LOk (itoa (n mod 2 ^ 32)) s' /\ bytes_left s' = rest).
Proof.
  intros W. split; intros E; cbn [rstr_enc app] in E; destruct (read_byte_app _ _ _ W E) as (s1 & R1 & E1 & W1); destruct (read_full_app _ _ _ W1 E1) as (s2 & R2 & E2 & _); exists s2; (split; [|exact E2]); rewrite le_length in R2; unfold load_string.
  - rewrite (load_string_marker 1 _ _ _ R1) by (reflexivity || lia). cbn [lbind Z.eqb Pos.eqb]. rewrite R2. cbn [lift lbind]. rewrite le_val_le. reflexivity.
  - rewrite (load_string_marker 2 _ _ _ R1) by (reflexivity || lia). cbn [lbind Z.eqb Pos.eqb]. rewrite R2. rewrite le_val_le. reflexivity.
Qed.
Theorem C78_partial t n s rest : (t = SInt16 n /\ 0 <= n < 2 ^ 15) \/ (t = SInt32 n /\ 0 <= n < 2 ^ 31) -> wf s -> bytes_left s = rstr_enc t ++ rest ->
  exists s', load_string s = LOk (rstr_text t) s' /\ bytes_left s' = rest.
Proof.
  intros [[-> Hn]|[-> Hn]] W E; destruct (C78_exact_partial n s rest W) as [H1 H2]; [destruct (H1 E) as (s' & R & El)|destruct (H2 E) as (s' & R & El)]; exists s'; rewrite Z.mod_small in R by lia; auto.
Qed.
(** every negative one is misread *)
Theorem C78_negative_refuted t n s rest : (t = SInt16 n /\ fits 2 n) \/ (t = SInt32 n /\ fits 4 n) -> n < 0 -> wf s -> bytes_left s = rstr_enc t ++ rest ->
  forall s', load_string s <> LOk (itoa n) s'.
Proof.
  intros Ht Hn W E s' R. assert (Hm : exists m, 0 <= m < 2 ^ 32 /\ - 2 ^ 31 <= n /\ exists s'', load_string s = LOk (itoa m) s'').
  { destruct Ht as [[-> Hf]|[-> Hf]]; unfold fits in Hf; cbn in Hf; destruct (C78_exact_partial n s rest W) as [H1 H2].
    - destruct (H1 E) as (s2 & R2 & _). exists (n mod 2 ^ 16). pose proof (Z.mod_pos_bound n (2 ^ 16) ltac:(lia)). split; [lia|]. split; [lia|eauto].
    - destruct (H2 E) as (s2 & R2 & _). exists (n mod 2 ^ 32). pose proof (Z.mod_pos_bound n (2 ^ 32) ltac:(lia)). split; [lia|]. split; [lia|eauto]. }
  destruct Hm as (m & Hm & Hlo & s2 & R2). rewrite R in R2. injection R2 as R2 _.
  apply itoa_inj in R2; [lia| |]; unfold is_int64, min_int64, max_int64; rewrite andb_true_iff, !Z.leb_le; lia.
Qed.
Theorem C78_refuted : exists n, fits 2 n /\ load_string (new_rd [rstr_enc (SInt16 n)]) = LOk (bs "65535") (Rd [] []) /\ itoa n = bs "-1".
Proof. exists (-1). split; [unfold fits; cbn; lia|]. split; vm_compute; reflexivity. Qed.
Example C78_ex : load_string (new_rd [[xc0; x85]]) = LOk (bs "-123") (Rd [] []) /\ load_string (new_rd [[xc1; x39; x30]]) = LOk (bs "12345") (Rd [] []).
Proof. split; vm_compute; reflexivity. Qed.

(** ** C79: raw strings
    Full statement: for every string and every position in a file, LoadString at the string's encoding returns it.
    Missing: strings that cross a 4096-byte boundary of the file (one Read returns what the buffer has), and
    strings of 2^14 bytes and more (C77). *)
(** a reader that has read the first [n] bytes *)
Fixpoint skip (n : nat) (s : rd) : rd := match n with O => s | S n => match read_byte s with ROk _ s' => skip n s' | _ => s end end.
Lemma skip_At F n : forall p s, At F p s -> (p + n <= length F)%nat -> At F (p + n) (skip n s).
Proof.
  induction n as [|n IH]; intros p s HA Hl; [rewrite Nat.add_0_r; exact HA|]. cbn [skip].
  destruct (drop p F) as [|b r] eqn:E; [pose proof (drop_length F p) as Hd; rewrite E in Hd; cbn in Hd; lia|].
  destruct (At_byte _ _ _ _ _ HA E) as (s1 & R & A1). rewrite R. replace (p + S n)%nat with (p + 1 + n)%nat by lia. apply IH; [exact A1|lia].
Qed.
Theorem C79_file_partial pre t post : zlen t < 16384 -> one_block (zlen pre + zlen (rdb_len (zlen t))) (zlen t) ->
  exists s', load_string (skip (length pre) (new_rd [pre ++ rstr_enc (SRaw t) ++ post])) = LOk t s' /\ bytes_left s' = post.
Proof.
  intros Ht Hb. set (F := pre ++ rstr_enc (SRaw t) ++ post). pose proof (zlen_nonneg t).
  assert (Hne : F <> []).
  { unfold F. intros E. apply app_eq_nil in E as [_ E]. apply app_eq_nil in E as [E _]. cbn [rstr_enc] in E. apply app_eq_nil in E as [E _]. unfold rdb_len in E.
    destruct (_ <? 64); [discriminate|]. destruct (_ <? 16384); [discriminate|]. destruct (_ <? _); discriminate. }
  assert (HA : At F (length pre) (skip (length pre) (new_rd [F]))) by (apply (skip_At F (length pre) 0); [apply At_0, Hne|unfold F; rewrite app_length; lia]).
  assert (Hon : on [] [PStr (SRaw t)] post (skip (length pre) (new_rd [F]))).
  { exists F, (length pre). split; [exact HA|]. split; [unfold F; rewrite drop_app; unfold penc; cbn [map concat piece_enc]; rewrite app_nil_r; reflexivity|]. split; [exact Hb|exact I]. }
  destruct (on_str [] (SRaw t) [] post _ ltac:(cbn; unfold len_small; lia) Hon) as (s' & R & O). exists s'. split; [exact R|]. destruct (on_left _ _ _ _ O) as [E _]. exact E.
Qed.
(** what is returned in general: the part that the buffer has, then zero bytes; the rest stays in the stream *)
Theorem C79_exact_partial a b src : zlen (a ++ b) < 16384 -> a <> [] ->
  load_string (Rd (rdb_len (zlen (a ++ b)) ++ a) src) = LOk (a ++ replicate (length b) x00) (Rd [] src).
Proof.
  intros Hl Ha. pose proof (zlen_nonneg (a ++ b)) as H0. unfold load_string.
  assert (HL : load_len (Rd (rdb_len (zlen (a ++ b)) ++ a) src) = LOk (zlen (a ++ b), false) (Rd a src)).
  { set (n := zlen (a ++ b)) in *. unfold rdb_len. destruct (Z.ltb_spec n 64).
    - cbn [app]. unfold load_len, read_byte. cbn [r_buf r_src lift lbind]. rewrite b2z_z2b, Z.mod_small by lia. rewrite low_bits, top_bits by lia. rewrite Z.mod_small, Z.div_small by lia. reflexivity.
    - destruct (Z.ltb_spec n 16384); [|lia]. cbn [app]. unfold load_len, read_byte. cbn [r_buf r_src lift lbind]. rewrite !b2z_z2b.
      assert (0 <= n / 256 < 64) by (split; [apply Z.div_pos; lia|apply Z.div_lt_upper_bound; lia]).
      rewrite (Z.mod_small (64 + n / 256)) by lia. rewrite low_bits, top_bits by lia.
      replace ((64 + n / 256) / 64) with 1 by (apply (Z.div_unique _ _ _ (n / 256)); lia).
      replace ((64 + n / 256) mod 64) with (n / 256) by (apply (Z.mod_unique _ _ 1); lia).
      cbn [Z.eqb Pos.eqb]. f_equal. f_equal. rewrite (Z.div_mod n 256) at 3 by lia. lia. }
  rewrite HL. cbn [lbind]. unfold zlen. rewrite Nat2Z.id.
  assert (Hr : read_some (length (a ++ b)) (Rd a src) = ROk a (Rd [] src)).
  { destruct a as [|x a]; [congruence|]. unfold read_some. cbn [length app r_buf r_src]. rewrite take_ge, drop_ge by (cbn; rewrite app_length; lia). reflexivity. }
  rewrite Hr. cbn [lift lbind]. f_equal. unfold padded. rewrite app_length. f_equal. f_equal. lia.
Qed.
(** so no string is read back of which the buffer has a part only, unless the rest is zero bytes *)
Theorem C79_crossing_refuted a b src : zlen (a ++ b) < 16384 -> a <> [] -> (exists x, x ∈ b /\ x <> x00) ->
  forall s', load_string (Rd (rdb_len (zlen (a ++ b)) ++ a) (b :: src)) <> LOk (a ++ b) s'.
Proof.
  intros Hl Ha (x & Hx & Hne) s' R. rewrite C79_exact_partial in R by auto. injection R as R _. apply app_inv_head in R. rewrite <- R in Hx. apply elem_of_replicate in Hx as [Hx _]. auto.
Qed.
Theorem C79_refuted : exists pre t, zlen t = 10 /\ match load_string (skip (length pre) (new_rd [pre ++ rstr_enc (SRaw t)])) with LOk u _ => u <> t | _ => False end.
Proof. exists (replicate 4090 x00), (bs "abcdefghij"). split; [reflexivity|]. vm_compute. discriminate. Qed.
Example C79_ex : load_string (skip 3 (new_rd [bs "xyz" ++ [x05] ++ bs "hello" ++ bs "rest"])) = LOk (bs "hello") (Rd (bs "rest") []).
Proof. vm_compute. reflexivity. Qed.

(** ** C80: compressed strings
    Full statement: for every LZF token stream ts (up to 2^32 bytes) LoadString on its encoding returns the text.
    Missing: from 2^14 bytes on, because the lengths are misread (C77). *)
Theorem C80_partial ts s rest : ts <> [] -> tok_ok 0 ts -> zlen (encode ts) < 16384 -> zlen (text [] ts) < 16384 -> wf s -> bytes_left s = rstr_enc (SLzf ts) ++ rest ->
  exists s', load_string s = LOk (text [] ts) s' /\ bytes_left s' = rest.
Proof.
  intros Hne Hok Hc Ht W E. cbn [rstr_enc app] in E. rewrite <- !app_assoc in E. destruct (read_byte_app _ _ _ W E) as (s1 & R1 & E1 & W1).
  pose proof (zlen_nonneg (encode ts)). pose proof (zlen_nonneg (text [] ts)).
  destruct (load_len_any (zlen (encode ts)) s1 _ ltac:(lia) W1 E1) as (s2 & R2 & E2 & W2). destruct (load_len_any (zlen (text [] ts)) s2 _ ltac:(lia) W2 E2) as (s3 & R3 & E3 & W3).
  destruct (read_full_app _ _ _ W3 E3) as (s4 & R4 & E4 & _). exists s4. split; [|exact E4]. unfold load_string. rewrite (load_string_marker 3 _ _ _ R1) by (reflexivity || lia). cbn [lbind Z.eqb Pos.eqb].
  rewrite R2. cbn [lbind]. rewrite R3. cbn [lbind]. unfold len_read. destruct (Z.ltb_spec (zlen (encode ts)) 16384); [|lia]. destruct (Z.ltb_spec (zlen (text [] ts)) 16384); [|lia].
  unfold zlen at 1. rewrite Nat2Z.id, R4. cbn [lift lbind]. rewrite (C95_DeCompress ts Hne Hok) by (change (2 ^ 32) with 4294967296; lia). reflexivity.
Qed.
(** a longer text makes the loader panic, whatever it is *)
Theorem C80_large_refuted ts s rest : ts <> [] -> tok_ok 0 ts -> zlen (encode ts) < 2 ^ 32 -> 16384 <= zlen (text [] ts) < 2 ^ 32 -> wf s -> bytes_left s = rstr_enc (SLzf ts) ++ rest ->
  load_string s = LPanic.
Proof.
  intros Hne Hok Hc Ht W E. cbn [rstr_enc app] in E. rewrite <- !app_assoc in E. destruct (read_byte_app _ _ _ W E) as (s1 & R1 & E1 & W1).
  pose proof (zlen_nonneg (encode ts)). pose proof (zlen_nonneg (text [] ts)).
  destruct (load_len_any (zlen (encode ts)) s1 _ ltac:(lia) W1 E1) as (s2 & R2 & E2 & W2). destruct (load_len_any (zlen (text [] ts)) s2 _ ltac:(lia) W2 E2) as (s3 & R3 & E3 & W3).
  unfold load_string. rewrite (load_string_marker 3 _ _ _ R1) by (reflexivity || lia). cbn [lbind Z.eqb Pos.eqb]. rewrite R2. cbn [lbind]. rewrite R3. cbn [lbind].
  unfold len_read. destruct (Z.ltb_spec (zlen (text [] ts)) 16384); [lia|].
  set (n := if _ <? _ then _ else _). assert (Hn : 0 <= n <= zlen (encode ts)) by (unfold n; destruct (_ <? _); lia).
  pose proof (read_full_spec (Z.to_nat n) s3 W3) as H3. destruct (read_full (Z.to_nat n) s3) as [c s4|e s4| |]; try contradiction.
  - cbn [lift lbind]. unfold decompress. destruct c; reflexivity.
  - destruct H3 as [H3 _]. rewrite E3, app_length in H3. unfold zlen in Hn. lia.
Qed.
Example C80_ex : load_string (new_rd [[xc3; x05; x0a]; [x00; x61; xe0; x00; x00] ++ bs "z"]) = LOk (bs "aaaaaaaaaa") (Rd (bs "z") []).
Proof. vm_compute. reflexivity. Qed.

(** ** C81: binary doubles
    Full statement: for every float f, LoadBinaryDouble on the eight bytes of f returns f.
    Missing: everything but +0; the bytes are consumed and dropped. *)
Theorem C81_exact_partial f s rest : wf s -> bytes_left s = f64_enc f ++ rest ->
  exists s', load_binary_double s = LOk (S754_zero false) s' /\ bytes_left s' = rest.
Proof.
  intros W E. unfold f64_enc in E. destruct (read_full_app _ _ _ W E) as (s2 & R2 & E2 & _). rewrite le_length in R2. exists s2. split; [|exact E2]. unfold load_binary_double. rewrite R2. reflexivity.
Qed.
Theorem C81_zero_partial s rest : wf s -> bytes_left s = f64_enc (S754_zero false) ++ rest ->
  exists s', load_binary_double s = LOk (S754_zero false) s' /\ bytes_left s' = rest.
Proof. apply C81_exact_partial. Qed.
Theorem C81_others_refuted f s rest : f <> S754_zero false -> wf s -> bytes_left s = f64_enc f ++ rest -> forall s', load_binary_double s <> LOk f s'.
Proof. intros Hf W E s' R. destruct (C81_exact_partial f s rest W E) as (s2 & R2 & _). congruence. Qed.
Theorem C81_refuted : exists s, bytes_left s = f64_enc f_one /\ match load_binary_double s with LOk f _ => f <> f_one | _ => False end.
Proof. exists (new_rd [f64_enc f_one]). split; [vm_compute; reflexivity|]. vm_compute. discriminate. Qed.
Example C81_ex : f64_enc f_one = [x00; x00; x00; x00; x00; x00; xf0; x3f] /\ load_binary_double (new_rd [replicate 8 x00 ++ [x01]]) = LOk (S754_zero false) (Rd [x01] []).
Proof. split; vm_compute; reflexivity. Qed.

(** ** C82: doubles as text
    Full statement: the markers 253, 254, 255 are read as NaN, +Inf, -Inf, and the text of a finite double as this double.
    Missing: the three markers, read as 1, 1 and -1. *)
Theorem C82_markers_refuted s rest : wf s ->
  (bytes_left s = mark_nan :: rest -> exists s' f, load_double s = LOk f s' /\ bytes_left s' = rest /\ parse_float (bs "1") = Some f) /\
  (bytes_left s = mark_pinf :: rest -> exists s' f, load_double s = LOk f s' /\ bytes_left s' = rest /\ parse_float (bs "1") = Some f) /\
  (bytes_left s = mark_ninf :: rest -> exists s' f, load_double s = LOk f s' /\ bytes_left s' = rest /\ parse_float (bs "-1") = Some f).
Proof.
  intros W. repeat split; intros E; destruct (read_byte_app _ _ _ W E) as (s1 & R1 & E1 & _); exists s1; eexists; (split; [unfold load_double; rewrite R1; reflexivity|split; [exact E1|vm_compute; reflexivity]]).
Qed.
Theorem C82_text_partial t f s rest : zlen t < 253 -> parse_float t = Some f -> wf s -> bytes_left s = score_enc t ++ rest ->
  exists s', load_double s = LOk f s' /\ bytes_left s' = rest.
Proof.
  intros Ht Hp W E. unfold score_enc in E. destruct (read_byte_app _ _ _ W E) as (s1 & R1 & E1 & W1). destruct (read_full_app _ _ _ W1 E1) as (s2 & R2 & E2 & _). exists s2. split; [|exact E2].
  pose proof (zlen_nonneg t). unfold load_double. rewrite R1. cbn [lift lbind]. rewrite b2z_z2b, Z.mod_small by lia.
  destruct (Z.eqb_spec (zlen t) 255); [lia|]. destruct (Z.eqb_spec (zlen t) 254); [lia|]. destruct (Z.eqb_spec (zlen t) 253); [lia|].
  unfold zlen. rewrite Nat2Z.id, R2. cbn [lift lbind]. rewrite Hp. reflexivity.
Qed.
Theorem C82_refuted : exists s, bytes_left s = [mark_pinf] /\ match load_double s with LOk f _ => f <> S754_infinity false | _ => False end.
Proof. exists (new_rd [[mark_pinf]]). split; [reflexivity|]. vm_compute. discriminate. Qed.
Example C82_ex : match load_double (new_rd [x03 :: bs "1.5" ++ [x07]]) with LOk f s => format_float f = bs "1.5" /\ bytes_left s = [x07] | _ => False end.
Proof. vm_compute. auto. Qed.

(** ** whole snapshots *)
Local Lemma flat_map_cons {A B} (f : A -> list B) a l : flat_map f (a :: l) = f a ++ flat_map f l.
Proof. reflexivity. Qed.
(** what should be replayed for a key: a command for the value, and one for the deadline *)
Definition key_cmds (k : skey) : list (Z * list gostr) :=
  (sk_db k, val_cmd (sk_key k) (sk_val k)) ::
  match sk_ms k with Some t => if t >? 0 then [(sk_db k, [bs "pExpire"; sk_key k; itoa t])] else [] | None => [] end.
Definition secs_ok (i : item) : Prop := match i with IExpireS t => 1000 * t < 2 ^ 32 | _ => True end.
Lemma replay_snapshot l : forall db exp, Forall item_small l -> Forall secs_ok l ->
  replay secs db (default 0 exp) l = flat_map key_cmds (snapshot db exp l).
Proof.
  induction l as [|i l IH]; intros db exp Hl Hs; [reflexivity|]. inversion Hl as [|? ? Hi Hl']; inversion Hs as [|? ? Hsi Hs']; subst.
  destruct i; cbn [replay snapshot]; auto.
  - rewrite <- (IH db (Some (1000 * t)) Hl' Hs'). cbn [default from_option]. f_equal. unfold secs. cbn [item_small secs_ok] in Hi, Hsi. apply Z.mod_small. unfold id. lia.
  - rewrite <- (IH db (Some t) Hl' Hs'). reflexivity.
  - rewrite flat_map_cons. unfold key_cmds at 1. cbn [sk_db sk_key sk_val sk_ms app]. rewrite <- (IH db None Hl' Hs'). f_equal. f_equal. destruct exp; reflexivity.
Qed.
Lemma load_snapshot range version l sum db : is_range range -> length version = 9%nat -> Forall item_small l -> Forall secs_ok l -> unsplit l ->
  load range db [rdb_file version l sum] = (map msg_of (flat_map key_cmds (snapshot db None l)), ONil, foldl item_state (Lst db [] 0 0) l).
Proof. intros Hr Hv Hl Hs Hu. rewrite load_file by auto. change (replay secs db 0 l) with (replay secs db (default 0 (@None Z)) l). rewrite (replay_snapshot l db None) by auto. reflexivity. Qed.

(** ** C83: string keys
    Full statement: loading a snapshot of any number of string keys (spread over any databases, among other
    opcodes, each shorter than 2^14 bytes) emits exactly one set per key, with its value and database, in file order.
    Missing: snapshots in which a raw string crosses a 4096-byte boundary of the file, and the
    strings of C78, C80 that are misread ([item_small]). *)
Definition string_item (i : item) : Prop := match i with IKey _ (VStr _) | IAux _ _ | ISelect _ | IResize _ _ | IFreq _ | IIdle _ => True | _ => False end.
Definition set_of (k : skey) : rmsg := RMsg (sk_db k) (convert_to_message [bs "set"; sk_key k; match sk_val k with VStr v => rstr_text v | _ => [] end]).
Lemma string_snapshot l : forall db, Forall string_item l -> map msg_of (flat_map key_cmds (snapshot db None l)) = map set_of (snapshot db None l).
Proof.
  induction l as [|i l IH]; intros db Hl; [reflexivity|]. inversion Hl as [|? ? Hi Hl']; subst. destruct i as [| | | | | | |k v]; try contradiction; cbn [snapshot]; auto.
  destruct v; try contradiction. rewrite flat_map_cons, map_app. cbn [map app key_cmds sk_ms]. rewrite IH by auto. reflexivity.
Qed.
Theorem C83_partial range version l sum db : is_range range -> length version = 9%nat -> Forall string_item l -> Forall item_small l -> unsplit l ->
  let '(ms, o, _) := load range db [rdb_file version l sum] in ms = map set_of (snapshot db None l) /\ o = ONil.
Proof.
  intros Hr Hv Hs Hl Hu. rewrite load_snapshot; auto.
  - split; [apply string_snapshot, Hs|reflexivity].
  - refine (List.Forall_impl _ _ Hs). intros []; cbn; tauto.
Qed.
(** a snapshot of up to 4096 bytes has no such string *)
Lemma pieces_fit_small ps : forall p, 0 <= p -> p + zlen (penc ps) <= 4096 -> pieces_fit p ps.
Proof.
  induction ps as [|x ps IH]; intros p Hp Hl; [exact I|]. rewrite penc_cons, zlen_app in Hl. pose proof (zlen_nonneg (penc ps)). pose proof (zlen_nonneg (piece_enc x)). split; [|apply IH; lia].
  destruct x as [|[t| | | |]]; try exact I. cbn [piece_fits]. cbn [piece_enc rstr_enc] in *. rewrite zlen_app in *. pose proof (zlen_nonneg t). pose proof (zlen_nonneg (rdb_len (zlen t))). right. exists 0. lia.
Qed.
Theorem C83_small_partial range version l sum db : is_range range -> length version = 9%nat -> Forall string_item l -> Forall item_small l ->
  zlen (rdb_file version l []) <= 4097 ->
  let '(ms, o, _) := load range db [rdb_file version l sum] in ms = map set_of (snapshot db None l) /\ o = ONil.
Proof.
  intros Hr Hv Hs Hl Hz. apply C83_partial; auto. apply pieces_fit_small; [lia|]. unfold rdb_file in Hz. rewrite !zlen_app in Hz. assert (zlen version = 9) by (unfold zlen; rewrite Hv; reflexivity). change (zlen [xff]) with 1 in Hz. change (zlen (@nil byte)) with 0 in Hz. lia.
Qed.
(** two keys of 3000 bytes each are enough to go wrong *)
Definition two_keys : list item := [IKey (SRaw (bs "a")) (VStr (SRaw (replicate 3000 x61))); IKey (SRaw (bs "b")) (VStr (SRaw (replicate 3000 x62)))].
Definition ver9 : gostr := bs "REDIS0009".
Definition range_of : gmap gostr gostr -> list (gostr * gostr) := map_to_list.
Lemma range_of_ok : is_range range_of.
Proof. intros m. reflexivity. Qed.
Theorem C83_refuted : Forall string_item two_keys /\ Forall item_small two_keys /\
  match load range_of 0 [rdb_file ver9 two_keys []] with (ms, o, _) => ms <> map set_of (snapshot 0 None two_keys) end.
Proof.
  split; [repeat constructor|]. split.
  - repeat constructor; cbn [item_small str_small val_small]; unfold len_small; rewrite ?zlen_cons; try (vm_compute; discriminate); try (cbn; lia).
  - assert (H : match load range_of 0 [rdb_file ver9 two_keys []] with (ms, o, _) => nth_error ms 1 <> nth_error (map set_of (snapshot 0 None two_keys)) 1 end) by (vm_compute; discriminate).
    destruct (load range_of 0 _) as [[ms o] st]. intros ->. apply H. reflexivity.
Qed.
Example C83_ex : load range_of 0 [rdb_file ver9 [IAux (SRaw (bs "redis-ver")) (SRaw (bs "5.0.5")); ISelect 3; IResize 1 0; IKey (SRaw (bs "k")) (VStr (SInt8 (-5)))] (replicate 8 x00)] =
  ([RMsg 3 (convert_to_message [bs "set"; bs "k"; bs "-5"])], ONil, Lst 3 [] 0 0).
Proof. vm_compute. reflexivity. Qed.

(** ** C84: a successful load has loaded everything
    Full statement: for every snapshot, if Load returns nil then every key of it was emitted.
    Missing: snapshots with a type that Load skips (streams and modules), and those outside [item_small]. *)
Theorem C84_partial range version l sum db k : is_range range -> length version = 9%nat -> Forall item_small l -> unsplit l -> k ∈ snapshot db None l ->
  let '(ms, o, _) := load range db [rdb_file version l sum] in RMsg (sk_db k) (convert_to_message (val_cmd (sk_key k) (sk_val k))) ∈ ms /\ o = ONil.
Proof.
  intros Hr Hv Hl Hu Hk. rewrite load_file by auto. split; [|reflexivity]. apply elem_of_list_fmap. exists (sk_db k, val_cmd (sk_key k) (sk_val k)). split; [reflexivity|]. clear Hl Hu Hv.
  revert Hk. generalize 0 as e. generalize (@None Z) as exp. revert db. induction l as [|i l IH]; intros db exp e Hk; [inversion Hk|].
  destruct i; cbn [replay snapshot] in *; try (eapply IH; exact Hk).
  apply elem_of_cons in Hk as [->|Hk]; [left|]. right. apply elem_of_app. right. eapply IH, Hk.
Qed.
(** a snapshot that was cut off is never reported as loaded, and Load ends on it *)
Theorem C84_truncated_partial range version l db F' more : length version = 9%nat -> is_range range -> Forall item_small l -> unsplit l ->
  F' ++ more = version ++ penc (items_pieces l) ++ [xff] -> more <> [] ->
  let '(_, o, _) := load range db [F'] in o <> ONil /\ o <> OFuel.
Proof. intros Hv Hr Hl Hu E Hm. pose proof (cut_file range version l F' more db Hr Hv Hl Hu E Hm) as H. destruct (load range db [F']) as [[ms o] st]. exact H. Qed.
(** a stream key, then a string key: nil, and nothing emitted *)
Theorem C84_refuted : let file := ver9 ++ ([x0f] ++ rstr_enc (SRaw (bs "s")) ++ [x00]) ++ penc (item_pieces (IKey (SRaw (bs "k")) (VStr (SRaw (bs "v"))))) ++ [xff] in
  match load range_of 0 [file] with (ms, o, _) => ms = [] /\ o = ONil end.
Proof. vm_compute. auto. Qed.
(** In general: from the first key of such a type on, everything is ignored, and nil is returned. *)
Lemma load_loop_prefix range l : forall fut st s fuel ps rest, is_range range -> Forall item_small l -> exp_ok st -> on fut (items_pieces l ++ ps) rest s ->
  exists s', load_loop range (length l + fuel) st s = (let '(r, o, e) := load_loop range fuel (foldl item_state st l) s' in (map msg_of (replay secs (l_db st) (l_exp st) l) ++ r, o, e)) /\
    on fut ps rest s' /\ exp_ok (foldl item_state st l).
Proof.
  induction l as [|i l IH]; intros fut st s fuel ps rest Hr Hl Hst Hon.
  - exists s. cbn [length foldl replay map app Nat.add items_pieces flat_map] in *. split; [destruct (load_loop range fuel st s) as [[r o] e]; reflexivity|auto].
  - inversion Hl as [|? ? Hi Hl']; subst. change (items_pieces (i :: l)) with (item_pieces i ++ items_pieces l) in Hon. rewrite <- app_assoc in Hon.
    destruct (on_item _ range st i _ _ _ Hr Hi Hst Hon) as (s1 & R1 & O1).
    destruct (IH fut (item_state st i) s1 fuel ps rest Hr Hl' (item_state_exp _ _ Hi Hst) O1) as (s2 & R2 & O2 & X2). exists s2. split; [|auto].
    cbn [length Nat.add load_loop]. rewrite R1, R2. cbn [foldl]. destruct (load_loop range fuel _ s2) as [[r o] e]. rewrite (replay_cons st i l), map_app, app_assoc. reflexivity.
Qed.
Theorem C84_unsupported_refuted range version l t k n rest db : is_range range -> length version = 9%nat -> Forall item_small l ->
  t ∈ [x06; x07; x0f] -> str_small k -> rstr_text k <> [] -> len_small n -> pieces_fit 9 (items_pieces l ++ [PBytes [t]; PStr k; PBytes (rdb_len n)]) ->
  exists ms, load range db [version ++ penc (items_pieces l ++ [PBytes [t]; PStr k; PBytes (rdb_len n)]) ++ rest] = (map msg_of (replay secs db 0 l) ++ ms, ONil, foldl item_state (Lst db [] 0 0) (l ++ [IExpireMs 0])) /\
    ms = map msg_of (match replay secs (l_db (foldl item_state (Lst db [] 0 0) l)) (l_exp (foldl item_state (Lst db [] 0 0) l)) [IKey k (VStr k)] with _ :: e => e | [] => [] end).
Proof.
  intros Hr Hv Hl Ht Hk Hne Hn Hf. set (ps := [PBytes [t]; PStr k; PBytes (rdb_len n)]) in *.
  unfold load. destruct (read_version version (penc (items_pieces l ++ ps) ++ rest) Hv) as (s & R). rewrite R.
  pose proof (on_start version (items_pieces l ++ ps) rest _ s eq_refl Hv Hf R) as Hon. destruct (on_left _ _ _ _ Hon) as [El _].
  assert (Hx : exists m, S (length (bytes_left s)) = (length l + S m)%nat).
  { exists (length (bytes_left s) - length l)%nat. rewrite El, penc_app, !app_length. pose proof (items_len l). lia. }
  destruct Hx as (m & ->). destruct (load_loop_prefix range l [] (Lst db [] 0 0) s (S m) ps rest Hr Hl ltac:(unfold exp_ok; cbn; lia) Hon) as (s1 & -> & O1 & X1).
  rewrite foldl_app. set (st := foldl item_state (Lst db [] 0 0) l) in *. cbn [foldl].
  destruct (on_byte _ _ _ _ _ _ O1) as (s2 & R2 & O2). apply on_skip in O2. destruct (on_str _ _ _ _ _ Hk O2) as (s3 & R3 & O3).
  destruct (on_len _ _ _ _ _ Hn O3) as (s4 & R4 & _).
  eexists. split; [|reflexivity]. cbn [load_loop]. unfold load_opcode. rewrite R2. cbn [lift lbind]. unfold load_item.
  assert (Hb : forall z, z ∈ [253; 252; 249; 248; 255; 254; 251; 250; 247] -> (b2z t =? z) = false).
  { intros z Hz. apply Z.eqb_neq. intros E. clear - Ht Hz E. repeat (apply elem_of_cons in Ht as [->|Ht]; [repeat (apply elem_of_cons in Hz as [->|Hz]; [discriminate E|]); apply elem_of_nil in Hz; exact Hz|]). apply elem_of_nil in Ht. exact Ht. }
  rewrite !Hb by set_solver. rewrite R3. cbn [lbind]. unfold gostr_eqb. rewrite bool_decide_eq_false_2 by exact Hne.
  assert (Hval : exists s5, load_value range (b2z t) (rstr_text k) s3 = LOk (None, true) s5).
  { clear - Ht R4. apply elem_of_cons in Ht as [->|Ht]; [eexists; reflexivity|]. apply elem_of_cons in Ht as [->|Ht]; [eexists; reflexivity|]. apply elem_of_list_singleton in Ht as ->.
    exists s4. unfold load_value. change (b2z x0f) with 15. cbn [Z.eqb Pos.eqb]. rewrite R4. reflexivity. }
  destruct Hval as (s5 & ->). cbn [lbind negb app].
  rewrite wrap64_id by exact X1. cbn [replay map app item_state l_db l_exp]. destruct (l_exp st >? 0); reflexivity.
Qed.
Example C84_ex : let l := [IKey (SRaw (bs "k")) (VStr (SRaw (bs "v")))] in
  Forall item_small l /\ unsplit l /\ snapshot 0 None l = [SKey 0 (bs "k") (VStr (SRaw (bs "v"))) None] /\
  (let '(_, o, _) := load range_of 0 [ver9 ++ [x00; x01; x6b]] in o = OErr).
Proof.
  split; [repeat constructor; try (vm_compute; discriminate)|]. split; [|split; [reflexivity|vm_compute; reflexivity]].
  apply pieces_fit_small; [lia|]. vm_compute. discriminate.
Qed.

(** ** C85: plain hashes
    Full statement: a key of plain hash type is replayed by a command that sets the hash's fields.
    Missing: it never is; the fields are replayed as a sorted set. Hashes as ziplists and zipmaps are. *)
Definition sets_hash (cmd : list gostr) : bool := match cmd with name :: _ => gostr_eqb (to_lower name) (bs "hmset") || gostr_eqb (to_lower name) (bs "hset") | [] => false end.
Theorem C85_exact_partial range key l ps rest s : is_range range -> len_small (zlen l) -> Forall (fun '(f, v) => str_small f /\ str_small v) l ->
  on [] (val_pieces (VHash l) ++ ps) rest s ->
  exists s', load_value range (b2z (val_type (VHash l))) key s = LOk (Some (bs "zAdd" :: key :: flat_map (fun '(f, v) => [rstr_text f; rstr_text v]) l), false) s'.
Proof. intros Hr Hn Hl Hon. destruct (on_val [] range (VHash l) key ps rest s Hr (conj Hn Hl) Hon) as (s' & R & _). exists s'. exact R. Qed.
Theorem C85_all_refuted range version k l sum db : is_range range -> length version = 9%nat -> item_small (IKey k (VHash l)) -> unsplit [IKey k (VHash l)] ->
  let '(ms, o, _) := load range db [rdb_file version [IKey k (VHash l)] sum] in
  o = ONil /\ forall cmd, RMsg db (convert_to_message cmd) ∈ ms -> sets_hash cmd = false.
Proof.
  intros Hr Hv Hl Hu. rewrite load_file by (auto; repeat constructor; assumption). split; [reflexivity|]. cbn [replay val_cmd map msg_of fst snd app]. intros cmd Hc.
  apply elem_of_list_singleton in Hc. injection Hc as Hc.
  destruct cmd as [|c cmd]; [discriminate|]. cbn [map convert_to_message] in Hc. injection Hc as -> _. reflexivity.
Qed.
(** the two packed forms of a hash are replayed right, in whichever order a zipmap is ranged over *)
Theorem C85_packed_partial range version k v sum db : is_range range -> length version = 9%nat -> item_small (IKey k v) -> unsplit [IKey k v] ->
  match v with VHashZip _ _ _ | VZipMap _ _ => True | _ => False end ->
  let '(ms, o, _) := load range db [rdb_file version [IKey k v] sum] in
  o = ONil /\ exists cmd, ms = [RMsg db (convert_to_message cmd)] /\ sets_hash cmd = true /\
    tail cmd = rstr_text k :: match v with VHashZip _ _ es => map zentry_text es | VZipMap _ l => flat_map (fun p => [zp_key p; zp_val p]) l | _ => [] end.
Proof.
  intros Hr Hv Hl Hu Hk. rewrite load_file by (auto; repeat constructor; assumption). split; [reflexivity|]. eexists. split; [reflexivity|]. destruct v; try contradiction; split; reflexivity.
Qed.
Theorem C85_refuted : load range_of 0 [rdb_file ver9 [IKey (SRaw (bs "h")) (VHash [(SRaw (bs "f"), SRaw (bs "v"))])] []] =
  ([RMsg 0 (convert_to_message [bs "zAdd"; bs "h"; bs "f"; bs "v"])], ONil, Lst 0 [] 0 0).
Proof. vm_compute. reflexivity. Qed.
Example C85_ex : load range_of 0 [rdb_file ver9 [IKey (SRaw (bs "h")) (VHashZip (SRaw (ziplist_enc 0 [ZStr (bs "f"); ZStr (bs "v")])) 0 [ZStr (bs "f"); ZStr (bs "v")])] []] =
  ([RMsg 0 (convert_to_message [bs "hmSet"; bs "h"; bs "f"; bs "v"])], ONil, Lst 0 [] 0 0).
Proof. vm_compute. reflexivity. Qed.

(** ** C86: deadlines in seconds
    Full statement: a key with the seconds deadline t, for every 32-bit t, is replayed with the deadline 1000*t milliseconds.
    Missing: t from 4294968 on, for which the product wraps modulo 2^32. *)
Theorem C86_exact_partial range version t k v sum db : is_range range -> length version = 9%nat -> 0 <= t < 2 ^ 32 -> item_small (IKey k v) -> unsplit [IExpireS t; IKey k v] ->
  let '(ms, o, _) := load range db [rdb_file version [IExpireS t; IKey k v] sum] in
  let ms' := (1000 * t) mod 2 ^ 32 in
  o = ONil /\ ms = RMsg db (convert_to_message (val_cmd (rstr_text k) v)) :: (if ms' >? 0 then [RMsg db (convert_to_message [bs "pExpire"; rstr_text k; itoa ms'])] else []).
Proof.
  intros Hr Hv Ht Hl Hu. rewrite load_file by (auto; repeat constructor; assumption). split; [reflexivity|]. cbn [replay]. fold (secs t). destruct (secs t >? 0); reflexivity.
Qed.
(** in any snapshot, each key's deadline follows it *)
Theorem C86_partial range version l sum db : is_range range -> length version = 9%nat -> Forall item_small l -> Forall (fun i => match i with IExpireS t => t < 4294968 | _ => True end) l -> unsplit l ->
  let '(ms, o, _) := load range db [rdb_file version l sum] in
  o = ONil /\ ms = flat_map (fun k => RMsg (sk_db k) (convert_to_message (val_cmd (sk_key k) (sk_val k))) ::
                      match sk_ms k with Some t => if t >? 0 then [RMsg (sk_db k) (convert_to_message [bs "pExpire"; sk_key k; itoa t])] else [] | None => [] end) (snapshot db None l).
Proof.
  intros Hr Hv Hl Ht Hu. rewrite load_snapshot; auto.
  - split; [reflexivity|]. induction (snapshot db None l) as [|k r IH]; [reflexivity|]. rewrite !flat_map_cons, map_app, IH. f_equal. unfold key_cmds. cbn [map msg_of fst snd]. f_equal.
    destruct (sk_ms k) as [t|]; [|reflexivity]. destruct (t >? 0); reflexivity.
  - refine (List.Forall_impl _ _ Ht). intros []; cbn; auto. intros H. lia.
Qed.
Theorem C86_large_refuted range version t k v sum db : is_range range -> length version = 9%nat -> 4294968 <= t < 2 ^ 32 -> item_small (IKey k v) -> unsplit [IExpireS t; IKey k v] ->
  let '(ms, _, _) := load range db [rdb_file version [IExpireS t; IKey k v] sum] in
  ms <> [RMsg db (convert_to_message (val_cmd (rstr_text k) v)); RMsg db (convert_to_message [bs "pExpire"; rstr_text k; itoa (1000 * t)])].
Proof.
  intros Hr Hv Ht Hl Hu. pose proof (C86_exact_partial range version t k v sum db Hr Hv ltac:(lia) Hl Hu) as H. destruct (load range db _) as [[ms o] st]. destruct H as [_ ->].
  pose proof (Z.mod_pos_bound (1000 * t) (2 ^ 32) ltac:(lia)). destruct (_ >? 0); [|discriminate]. intros E. injection E as E. apply itoa_inj in E; [lia| |]; unfold is_int64, min_int64, max_int64; rewrite andb_true_iff, !Z.leb_le; lia.
Qed.
Theorem C86_refuted : exists t, 0 <= t < 2 ^ 32 /\ load range_of 0 [rdb_file ver9 [IExpireS t; IKey (SRaw (bs "k")) (VStr (SRaw (bs "v")))] []] =
  ([RMsg 0 (convert_to_message [bs "set"; bs "k"; bs "v"]); RMsg 0 (convert_to_message [bs "pExpire"; bs "k"; bs "704"])], ONil, Lst 0 [] 0 0) /\ itoa (1000 * t) <> bs "704".
Proof. exists 4294968. split; [lia|]. split; [vm_compute; reflexivity|]. vm_compute. discriminate. Qed.
Example C86_ex : load range_of 0 [rdb_file ver9 [IExpireS 4294967; IKey (SRaw (bs "k")) (VStr (SRaw (bs "v")))] []] =
  ([RMsg 0 (convert_to_message [bs "set"; bs "k"; bs "v"]); RMsg 0 (convert_to_message [bs "pExpire"; bs "k"; bs "4294967000"])], ONil, Lst 0 [] 0 0).
Proof. vm_compute. reflexivity. Qed.

(** ** C87: the order of lists
    Full statement: for every list value, the commands that Load replays for it build a list in the same order.
    Missing: the plain list type, which is reversed. *)
Definition list_elems (v : rval) : option (list gostr) :=
  match v with VList l => Some (map rstr_text l) | VQuick l => Some (flat_map (fun '(_, (_, es)) => map zentry_text es) l) | VListZip _ _ es => Some (map zentry_text es) | _ => None end.
Theorem C87_exact_partial range version k v l sum db : is_range range -> length version = 9%nat -> item_small (IKey k v) -> unsplit [IKey k v] -> list_elems v = Some l ->
  let '(ms, o, _) := load range db [rdb_file version [IKey k v] sum] in
  o = ONil /\ exists cmd, ms = [RMsg db (convert_to_message cmd)] /\ (forall k', nth_error cmd 1 = Some k' -> k' = rstr_text k) /\
    push_effect cmd [] = match v with VList _ => rev l | _ => l end.
Proof.
  intros Hr Hv Hl Hu He. rewrite load_file by (auto; repeat constructor; assumption). split; [reflexivity|]. eexists. split; [reflexivity|]. cbn [snd]. destruct v; try discriminate; injection He as <-; (split; [cbn; congruence|]).
  - change (rev (map rstr_text l0) ++ [] = rev (map rstr_text l0)). apply app_nil_r.
  - reflexivity.
  - reflexivity.
Qed.
Theorem C87_packed_partial range version k v l sum db : is_range range -> length version = 9%nat -> item_small (IKey k v) -> unsplit [IKey k v] -> list_elems v = Some l -> val_type v <> x01 ->
  let '(ms, o, _) := load range db [rdb_file version [IKey k v] sum] in
  o = ONil /\ exists cmd, ms = [RMsg db (convert_to_message cmd)] /\ push_effect cmd [] = l.
Proof.
  intros Hr Hv Hl Hu He Ht. pose proof (C87_exact_partial range version k v l sum db Hr Hv Hl Hu He) as H. destruct (load range db _) as [[ms o] st]. destruct H as (Ho & cmd & Hm & _ & Hp).
  split; [exact Ho|]. exists cmd. split; [exact Hm|]. destruct v; try exact Hp. cbn in Ht. congruence.
Qed.
(** a plain list comes out right only if it is its own reverse *)
Theorem C87_plain_refuted range version k l sum db : is_range range -> length version = 9%nat -> item_small (IKey k (VList l)) -> unsplit [IKey k (VList l)] -> rev (map rstr_text l) <> map rstr_text l ->
  let '(ms, _, _) := load range db [rdb_file version [IKey k (VList l)] sum] in
  exists cmd, ms = [RMsg db (convert_to_message cmd)] /\ push_effect cmd [] <> map rstr_text l.
Proof.
  intros Hr Hv Hl Hu Hn. pose proof (C87_exact_partial range version k (VList l) _ sum db Hr Hv Hl Hu eq_refl) as H. destruct (load range db _) as [[ms o] st]. destruct H as (Ho & cmd & Hm & _ & Hp).
  exists cmd. split; [exact Hm|]. rewrite Hp. exact Hn.
Qed.
Theorem C87_refuted : load range_of 0 [rdb_file ver9 [IKey (SRaw (bs "l")) (VList [SRaw (bs "a"); SRaw (bs "b")])] []] =
  ([RMsg 0 (convert_to_message [bs "lPush"; bs "l"; bs "a"; bs "b"])], ONil, Lst 0 [] 0 0) /\
  push_effect [bs "lPush"; bs "l"; bs "a"; bs "b"] [] = [bs "b"; bs "a"].
Proof. split; vm_compute; reflexivity. Qed.
Example C87_ex : let w := SRaw (ziplist_enc 0 [ZStr (bs "a"); ZStr (bs "b")]) in
  load range_of 0 [rdb_file ver9 [IKey (SRaw (bs "l")) (VQuick [(w, (0, [ZStr (bs "a"); ZStr (bs "b")]))])] []] =
  ([RMsg 0 (convert_to_message [bs "rPush"; bs "l"; bs "a"; bs "b"])], ONil, Lst 0 [] 0 0) /\
  push_effect [bs "rPush"; bs "l"; bs "a"; bs "b"] [] = [bs "a"; bs "b"].
Proof. split; vm_compute; reflexivity. Qed.

(** ** C107: loading always ends *)
Theorem C107_load_ends range db src : let '(_, o, _) := load range db src in o <> OFuel.
Proof.
  unfold load. assert (W : wf (new_rd src)) by (unfold wf; cbn; pose proof bufsize_pos; lia). pose proof (read_some_spec 9 _ W) as H. destruct (read_some 9 (new_rd src)) as [d s|e s| |]; try discriminate; try contradiction.
  destruct (load_loop range _ _ s) as [[ms o] st] eqn:E. pose proof (load_loop_ends range (S (length (bytes_left s))) (Lst db [] 0 0) s) as HL. rewrite E in HL. apply HL; [tauto|lia].
Qed.
Example C107_ex : (let '(_, o, _) := load range_of 0 [replicate 100 x08] in o = OErr) /\ (let '(_, o, _) := load range_of 0 [] in o = OErr) /\ (let '(_, o, _) := load range_of 0 [replicate 9 x00; [x00; x40]] in o = OPanic).
Proof. repeat split; vm_compute; reflexivity. Qed.

(** ** C108: the replication id and offset of the snapshot
    Full statement: after loading any snapshot, the replication's id and offset are those of its last
    repl-id and repl-offset fields.
    Missing: snapshots outside [item_small] or with a raw string across a 4096-byte boundary. *)
Fixpoint last_aux (key : gostr) (acc : option gostr) (l : list item) : option gostr :=
  match l with
  | [] => acc
  | IAux k v :: r => last_aux key (if gostr_eqb (rstr_text k) key then Some (rstr_text v) else acc) r
  | _ :: r => last_aux key acc r
  end.
Lemma state_aux l : forall st a b, Forall item_small l -> l_id st = default [] a -> match b with Some t => atoi t = Some (l_off st) | None => l_off st = 0 end ->
  l_id (foldl item_state st l) = default [] (last_aux (bs "repl-id") a l) /\
  match last_aux (bs "repl-offset") b l with Some t => atoi t = Some (l_off (foldl item_state st l)) | None => l_off (foldl item_state st l) = 0 end.
Proof.
  induction l as [|i l IH]; intros st a b Hl Ha Hb; [split; assumption|]. inversion Hl as [|? ? Hi Hl']; subst. cbn [foldl]. destruct i; cbn [last_aux]; try (apply IH; assumption).
  cbn [item_state]. destruct (gostr_eqb (rstr_text k) (bs "repl-id")) eqn:E1.
  - apply bool_decide_eq_true in E1. rewrite E1. replace (gostr_eqb (bs "repl-id") (bs "repl-offset")) with false by reflexivity. apply IH; auto.
  - destruct (gostr_eqb (rstr_text k) (bs "repl-offset")) eqn:E2; [|apply IH; auto]. apply bool_decide_eq_true in E2. destruct Hi as (_ & _ & Hat). specialize (Hat E2).
    apply IH; auto. cbn [l_off]. destruct (atoi (rstr_text v)); [reflexivity|congruence].
Qed.
Theorem C108_partial range version l sum db : is_range range -> length version = 9%nat -> Forall item_small l -> unsplit l ->
  let '(_, o, st) := load range db [rdb_file version l sum] in
  o = ONil /\ l_id st = default [] (last_aux (bs "repl-id") None l) /\
  match last_aux (bs "repl-offset") None l with Some t => atoi t = Some (l_off st) | None => l_off st = 0 end.
Proof. intros Hr Hv Hl Hu. rewrite load_file by auto. split; [reflexivity|]. apply (state_aux l _ None None Hl); reflexivity. Qed.
(** a repl-id that crosses the boundary is misread, and the load succeeds *)
Theorem C108_refuted : let l := [IAux (SRaw (bs "x")) (SRaw (replicate 4063 x61)); IAux (SRaw (bs "repl-id")) (SRaw (bs "0123456789")); IKey (SRaw [xff]) (VList [])] in
  match load range_of 0 [rdb_file ver9 l []] with (_, o, st) => o = ONil /\ l_id st <> bs "0123456789" end.
Proof. vm_compute. split; [reflexivity|discriminate]. Qed.
Example C108_ex : load range_of 0 [rdb_file ver9 [IAux (SRaw (bs "repl-id")) (SRaw (bs "abc")); IAux (SRaw (bs "repl-offset")) (SInt8 42)] []] = ([], ONil, Lst 0 (bs "abc") 42 0).
Proof. vm_compute. reflexivity. Qed.

(** ** C109: deadlines mean the same instant
    Full statement: the deadline t (a Unix time in milliseconds) of a key is replayed by a command that, executed at
    time now, makes the key expire at t.
    Missing: PEXPIRE takes a duration, so that the key expires at now + t instead. *)
(** when the key expires, if the command is executed at [now] (the PEXPIRE and PEXPIREAT commands of Redis) *)
Definition expires_at (now : Z) (cmd : list gostr) : option Z :=
  match cmd with
  | [name; _; t] =>
    if gostr_eqb (to_lower name) (bs "pexpire") then option_map (fun n => now + n) (atoi t)
    else if gostr_eqb (to_lower name) (bs "pexpireat") then atoi t else None
  | _ => None
  end.
Lemma expires_pexpire now k t : is_int64 t = true -> expires_at now [bs "pExpire"; k; itoa t] = Some (now + t).
Proof. intros Ht. unfold expires_at. replace (gostr_eqb (to_lower (bs "pExpire")) (bs "pexpire")) with true by reflexivity. rewrite atoi_itoa by exact Ht. reflexivity. Qed.
Theorem C109_exact_partial range version t k v sum db now : is_range range -> length version = 9%nat -> 0 < t < 2 ^ 63 -> item_small (IKey k v) -> unsplit [IExpireMs t; IKey k v] ->
  let '(ms, o, _) := load range db [rdb_file version [IExpireMs t; IKey k v] sum] in
  o = ONil /\ exists cmd, ms = [RMsg db (convert_to_message (val_cmd (rstr_text k) v)); RMsg db (convert_to_message cmd)] /\ expires_at now cmd = Some (now + t).
Proof.
  intros Hr Hv Ht Hl Hu. assert (Hi : item_small (IExpireMs t)) by (cbn; lia). rewrite load_file by (auto; repeat constructor; assumption). split; [reflexivity|]. exists [bs "pExpire"; rstr_text k; itoa t]. split.
  - cbn [replay]. destruct (Z.gtb_spec t 0); [reflexivity|lia].
  - apply expires_pexpire. unfold is_int64, min_int64, max_int64. rewrite andb_true_iff, !Z.leb_le. lia.
Qed.
Theorem C109_refuted range version t k v sum db now : is_range range -> length version = 9%nat -> 0 < t < 2 ^ 63 -> item_small (IKey k v) -> unsplit [IExpireMs t; IKey k v] -> 0 < now ->
  let '(ms, _, _) := load range db [rdb_file version [IExpireMs t; IKey k v] sum] in
  exists cmd, ms = [RMsg db (convert_to_message (val_cmd (rstr_text k) v)); RMsg db (convert_to_message cmd)] /\ expires_at now cmd <> Some t.
Proof.
  intros Hr Hv Ht Hl Hu Hnow. pose proof (C109_exact_partial range version t k v sum db now Hr Hv Ht Hl Hu) as H. destruct (load range db _) as [[ms o] st]. destruct H as (_ & cmd & Hm & He).
  exists cmd. split; [exact Hm|]. rewrite He. intros E. injection E as E. lia.
Qed.
Example C109_ex : load range_of 0 [rdb_file ver9 [IExpireMs 1600000000000; IKey (SRaw (bs "k")) (VStr (SRaw (bs "v")))] []] =
  ([RMsg 0 (convert_to_message [bs "set"; bs "k"; bs "v"]); RMsg 0 (convert_to_message [bs "pExpire"; bs "k"; bs "1600000000000"])], ONil, Lst 0 [] 0 0) /\
  expires_at 1600000000000 [bs "pExpire"; bs "k"; bs "1600000000000"] = Some 3200000000000.
Proof. split; vm_compute; reflexivity. Qed.

(** ** C110: sorted sets
    Full statement: a sorted set is replayed by a ZADD whose arguments after the key are score and member in turn.
    Missing: they are always member and score in turn. *)
(** the members with their scores that a ZADD adds; [None] is an error, and nothing is added *)
Fixpoint scores (l : list gostr) : option (list (gostr * f64)) :=
  match l with
  | [] => Some []
  | sc :: m :: r => match parse_float sc, scores r with Some f, Some x => Some ((m, f) :: x) | _, _ => None end
  | _ => None
  end.
Definition zadd_effect (cmd : list gostr) : option (list (gostr * f64)) :=
  match cmd with name :: _ :: l => if gostr_eqb (to_lower name) (bs "zadd") then scores l else None | _ => None end.
Theorem C110_exact_partial range version k l sum db : is_range range -> length version = 9%nat -> item_small (IKey k (VZSet l)) -> unsplit [IKey k (VZSet l)] ->
  let '(ms, o, _) := load range db [rdb_file version [IKey k (VZSet l)] sum] in
  o = ONil /\ ms = [RMsg db (convert_to_message (bs "zAdd" :: rstr_text k :: flat_map (fun '(m, t) => [rstr_text m; score_text t]) l))].
Proof. intros Hr Hv Hl Hu. rewrite load_file by (auto; repeat constructor; assumption). split; reflexivity. Qed.
(** no sorted set with a member that is not a number is restored: the command is an error *)
Theorem C110_refuted range version k l sum db : is_range range -> length version = 9%nat -> item_small (IKey k (VZSet l)) -> unsplit [IKey k (VZSet l)] ->
  (exists m t, (m, t) ∈ l /\ parse_float (rstr_text m) = None) ->
  let '(ms, o, _) := load range db [rdb_file version [IKey k (VZSet l)] sum] in
  o = ONil /\ exists cmd, ms = [RMsg db (convert_to_message cmd)] /\ zadd_effect cmd = None.
Proof.
  intros Hr Hv Hl Hu (m & t & Hin & Hm). pose proof (C110_exact_partial range version k l sum db Hr Hv Hl Hu) as H. destruct (load range db _) as [[ms o] st]. destruct H as [Ho ->]. split; [exact Ho|].
  eexists. split; [reflexivity|]. unfold zadd_effect. replace (gostr_eqb (to_lower (bs "zAdd")) (bs "zadd")) with true by reflexivity. clear -Hin Hm. induction l as [|[m' t'] l IH]; [inversion Hin|].
  cbn [flat_map app scores]. apply elem_of_cons in Hin as [E|Hin]; [injection E as -> ->; rewrite Hm; reflexivity|]. rewrite (IH Hin). destruct (parse_float (rstr_text m')); reflexivity.
Qed.
Example C110_ex : load range_of 0 [rdb_file ver9 [IKey (SRaw (bs "z")) (VZSet [(SRaw (bs "m"), bs "1.5")])] []] =
  ([RMsg 0 (convert_to_message [bs "zAdd"; bs "z"; bs "m"; bs "1.5"])], ONil, Lst 0 [] 0 0) /\
  zadd_effect [bs "zAdd"; bs "z"; bs "m"; bs "1.5"] = None /\ zadd_effect [bs "ZADD"; bs "z"; bs "1.5"; bs "m"] <> None.
Proof. repeat split; vm_compute; (reflexivity || discriminate). Qed.

(** ** C126: module records
    Full statement: for every snapshot, a module-aux record (opcode 247: module id, the marker 2, the time, then data
    opcodes each followed by their value, then the marker 0) in it is skipped, and everything behind it is loaded. *)
Definition aux_head (id w : Z) : list piece := [PBytes [xf7]; PBytes (rdb_len id); PBytes (rdb_len 2); PBytes (rdb_len w)].
Lemma on_len_any fut n ps rest s : 0 <= n < 2 ^ 64 -> on fut (PBytes (rdb_len n) :: ps) rest s -> exists s', load_len s = LOk (len_read n, false) s' /\ on fut ps rest s'.
Proof.
  intros Hn Hon. unfold len_read. destruct (Z.ltb_spec n 16384) as [H|H]; [apply on_len; [unfold len_small; lia|exact Hon]|].
  assert (Hlong : forall (w : nat) (b : Z), b = 128 \/ b = 129 -> w = (if (b =? 128)%Z then 4 else 8)%nat -> rdb_len n = z2b b :: be w n -> exists s', load_len s = LOk (0, false) s' /\ on fut ps rest s').
  { intros w b Hb Hw E. rewrite E in Hon. destruct (on_byte _ _ _ _ _ _ Hon) as (s1 & R1 & O1). rewrite <- (app_nil_r (be w n)) in O1.
    destruct (on_full _ (be w n) [] _ _ _ ltac:(unfold zlen; rewrite be_length; destruct Hb as [-> | ->]; subst w; cbn; lia) O1) as (s2 & R2 & O2). apply on_skip in O2. rewrite be_length in R2.
    exists s2. split; [|exact O2]. unfold load_len. rewrite R1. cbn [lift lbind]. destruct Hb as [-> | ->]; cbn in Hw; subst w; cbn -[skip_len]; unfold skip_len; rewrite R2; reflexivity. }
  unfold rdb_len in *. destruct (Z.ltb_spec n 64); [lia|]. destruct (Z.ltb_spec n 16384); [lia|].
  destruct (n <? 2 ^ 32); [apply (Hlong 4%nat 128)|apply (Hlong 8%nat 129)]; auto.
Qed.
Lemma on_aux_head fut range st id w ps rest s : 0 <= id < 2 ^ 64 -> 0 <= w < 2 ^ 64 -> on fut (aux_head id w ++ ps) rest s ->
  exists s', on fut ps rest s' /\ lbind (load_opcode s) (fun op s1 => load_item range st op s1) = lbind (load_len s') (fun '(e, _) s4 => if negb (e =? 0) then LErr else LOk ([], st, true) s4).
Proof.
  intros Hi Hw Hon. cbn [aux_head app] in Hon. destruct (on_byte _ _ _ _ _ _ Hon) as (s1 & R1 & O1). apply on_skip in O1.
  destruct (on_len_any _ _ _ _ _ Hi O1) as (s2 & R2 & O2). destruct (on_len_any _ 2 _ _ _ ltac:(lia) O2) as (s3 & R3 & O3). destruct (on_len_any _ _ _ _ _ Hw O3) as (s4 & R4 & O4).
  exists s4. split; [exact O4|]. unfold load_opcode. rewrite R1. cbn [lift lbind].
  change (load_item range st (b2z xf7) s1) with (lbind (load_len s1) (fun _ s1 => lbind (load_len s1) (fun '(w, _) s2 => if negb (w =? 2) then LErr else
    lbind (load_len s2) (fun _ s3 => lbind (load_len s3) (fun '(e, _) s4 => if negb (e =? 0) then LErr else LOk (@nil rmsg, st, true) s4))))).
  rewrite R2. cbn [lbind]. rewrite R3. cbn [lbind]. change (len_read 2 =? 2) with true. cbn [negb]. rewrite R4. reflexivity.
Qed.
Lemma replay_app st l1 : forall l2, map msg_of (replay secs (l_db st) (l_exp st) (l1 ++ l2)) = map msg_of (replay secs (l_db st) (l_exp st) l1) ++ map msg_of (replay secs (l_db (foldl item_state st l1)) (l_exp (foldl item_state st l1)) l2).
Proof.
  revert st. induction l1 as [|i l1 IH]; intros st l2; [reflexivity|]. cbn [app foldl]. rewrite (replay_cons st i (l1 ++ l2)), (replay_cons st i l1), !map_app, IH, app_assoc. reflexivity.
Qed.
(** A record without data is skipped, whatever the module id and the time, which are 64-bit numbers. *)
Theorem C126_empty_record_partial range version l1 id w l2 sum db : is_range range -> length version = 9%nat -> Forall item_small l1 -> Forall item_small l2 -> unsplit (l1 ++ l2) ->
  0 <= id < 2 ^ 64 -> 0 <= w < 2 ^ 64 -> pieces_fit 9 (items_pieces l1 ++ aux_head id w ++ [PBytes (rdb_len 0)] ++ items_pieces l2) ->
  load range db [version ++ penc (items_pieces l1 ++ aux_head id w ++ [PBytes (rdb_len 0)] ++ items_pieces l2) ++ [xff] ++ sum] = load range db [rdb_file version (l1 ++ l2) sum].
Proof.
  intros Hr Hv H1 H2 Hu Hi Hw Hf. rewrite (load_file range version (l1 ++ l2) sum db Hr Hv (Forall_app_2 _ _ _ H1 H2) Hu).
  set (ps := items_pieces l1 ++ aux_head id w ++ [PBytes (rdb_len 0)] ++ items_pieces l2) in *.
  unfold load. destruct (read_version version (penc ps ++ [xff] ++ sum) Hv) as (s & R). rewrite R.
  assert (Hon : on [] (ps ++ [PBytes [xff]]) sum s).
  { eapply on_start; [|exact Hv|apply fit_end, Hf|exact R]. rewrite penc_app, <- !app_assoc. reflexivity. }
  destruct (on_left _ _ _ _ Hon) as [El _]. unfold ps in Hon. rewrite <- !app_assoc in Hon.
  assert (Hx : exists m, S (length (bytes_left s)) = (length l1 + S m)%nat /\ (length l2 < m)%nat).
  { exists (length (bytes_left s) - length l1)%nat. rewrite El. unfold ps. rewrite !penc_app, !app_length. pose proof (items_len l1). pose proof (items_len l2).
    change (length (penc [PBytes [xff]])) with 1%nat. change (length (penc [PBytes (rdb_len 0)])) with 1%nat. lia. }
  destruct Hx as (m & -> & Hm). destruct (load_loop_prefix range l1 [] (Lst db [] 0 0) s (S m) _ _ Hr H1 ltac:(unfold exp_ok; cbn; lia) Hon) as (s1 & -> & O1 & X1).
  cbn [load_loop]. destruct (on_aux_head _ range (foldl item_state (Lst db [] 0 0) l1) id w _ _ _ Hi Hw O1) as (s2 & O2 & ->).
  destruct (on_len_any _ 0 _ _ _ ltac:(lia) O2) as (s3 & R3 & O3). rewrite R3. cbn [lbind]. change (len_read 0 =? 0) with true. cbn [negb].
  rewrite (load_loop_items range l2 [] _ s3 m sum Hr H2 X1 O3 Hm). cbn [app]. rewrite foldl_app. f_equal. f_equal. symmetry. apply (replay_app (Lst db [] 0 0)).
Qed.
(** A record with data makes Load fail: nothing behind it is loaded. *)
Theorem C126_refuted range version l id w d rest db : is_range range -> length version = 9%nat -> Forall item_small l ->
  0 <= id < 2 ^ 64 -> 0 <= w < 2 ^ 64 -> 1 <= d <= 5 -> pieces_fit 9 (items_pieces l ++ aux_head id w ++ [PBytes (rdb_len d)]) ->
  load range db [version ++ penc (items_pieces l ++ aux_head id w ++ [PBytes (rdb_len d)]) ++ rest] = (map msg_of (replay secs db 0 l), OErr, foldl item_state (Lst db [] 0 0) l).
Proof.
  intros Hr Hv Hl Hi Hw Hd Hf. set (ps := items_pieces l ++ aux_head id w ++ [PBytes (rdb_len d)]) in *.
  unfold load. destruct (read_version version (penc ps ++ rest) Hv) as (s & R). rewrite R.
  pose proof (on_start version ps rest _ s eq_refl Hv Hf R) as Hon. destruct (on_left _ _ _ _ Hon) as [El _].
  assert (Hx : exists m, S (length (bytes_left s)) = (length l + S m)%nat).
  { exists (length (bytes_left s) - length l)%nat. rewrite El. unfold ps. rewrite penc_app, !app_length. pose proof (items_len l). lia. }
  destruct Hx as (m & ->). destruct (load_loop_prefix range l [] (Lst db [] 0 0) s (S m) _ _ Hr Hl ltac:(unfold exp_ok; cbn; lia) Hon) as (s1 & -> & O1 & X1).
  cbn [load_loop]. destruct (on_aux_head _ range (foldl item_state (Lst db [] 0 0) l) id w _ _ _ Hi Hw O1) as (s2 & O2 & ->).
  destruct (on_len _ d _ _ _ ltac:(unfold len_small; lia) O2) as (s3 & R3 & _). rewrite R3. cbn [lbind]. destruct (Z.eqb_spec d 0); [lia|]. cbn [negb]. rewrite app_nil_r. reflexivity.
Qed.
Example C126_nonvacuous : let k := [IKey (SRaw (bs "k")) (VStr (SRaw (bs "v")))] in
  load range_of 0 [ver9 ++ penc (aux_head (2 ^ 60) 1 ++ [PBytes (rdb_len 0)] ++ items_pieces k) ++ [xff]] = ([RMsg 0 (convert_to_message [bs "set"; bs "k"; bs "v"])], ONil, Lst 0 [] 0 0) /\
  load range_of 0 [ver9 ++ penc (aux_head (2 ^ 60) 1 ++ [PBytes (rdb_len 2 ++ rdb_len 7 ++ rdb_len 0)] ++ items_pieces k) ++ [xff]] = ([], OErr, Lst 0 [] 0 0).
Proof. split; vm_compute; reflexivity. Qed.

(** ** C127: snapshots that are cut off
    Full statement: what Load sends from the first bytes of a snapshot is the first part of what it sends from all of it. *)
Lemma load_item_two range st op s ms st' more s' : load_item range st op s = LOk (ms, st', more) s' -> (length ms <= 2)%nat.
Proof.
  intros E. unfold load_item in E.
  repeat match type of E with
  | lbind ?x _ = _ => let a := fresh "a" in destruct x as [a ?| | | |]; cbn [lbind] in E; try discriminate; try destruct a as [? ?]
  | (if ?b then _ else _) = _ => destruct b; try discriminate
  | match ?o with Some _ => _ | None => _ end = _ => destruct o; try discriminate
  | LOk _ _ = _ => injection E as <- _ _ _; cbn; lia
  end.
  injection E as <- _ _ _. rewrite app_length. destruct o, (l_exp st >? 0); cbn; lia.
Qed.
Lemma cut_loop_msgs range l : forall st s fuel, is_range range -> Forall item_small l -> exp_ok st -> oncut (items_pieces l ++ [PBytes [xff]]) s -> (length (bytes_left s) < fuel)%nat ->
  exists j ms, (j <= length l)%nat /\ (length ms <= 2)%nat /\ fst (fst (load_loop range fuel st s)) = map msg_of (replay secs (l_db st) (l_exp st) (take j l)) ++ ms.
Proof.
  induction l as [|i l IH]; intros st s fuel Hr Hl Hst Hc Hf; (destruct fuel as [|fuel]; [lia|]).
  - cbn [items_pieces flat_map app] in Hc. apply oncut_one in Hc. destruct (cut1_left _ _ Hc) as [H1 W]. exists 0%nat, []. rewrite loop_none; [cbn; auto|apply left_nil; exact H1|exact W].
  - inversion Hl as [|? ? Hi Hl']; subst. change (items_pieces (i :: l)) with (item_pieces i ++ items_pieces l) in Hc. rewrite <- app_assoc in Hc.
    assert (W0 : wf s) by (destruct Hc as (F & p & more & HA & _); eapply At_wf, HA).
    cbn [load_loop]. apply oncut_app in Hc as [(rest & O & Hnext)|Hc].
    + rewrite <- (app_nil_r (item_pieces i)) in O. destruct (on_left _ _ _ _ O) as [EL _]. destruct (on_item _ range st i _ _ _ Hr Hi Hst O) as (s1 & R1 & O1).
      destruct (on_left _ _ _ _ O1) as [EL1 _]. apply Hnext in O1. rewrite R1.
      assert (Hf1 : (length (bytes_left s1) < fuel)%nat).
      { rewrite EL, app_nil_r, app_length in Hf. rewrite EL1. change (penc [] ++ rest) with rest. pose proof (item_len i). lia. }
      destruct (IH (item_state st i) s1 fuel Hr Hl' (item_state_exp _ _ Hi Hst) O1 Hf1) as (j & ms & H1 & H2 & H3). exists (S j), ms. split; [cbn; lia|]. split; [exact H2|].
      destruct (load_loop range fuel (item_state st i) s1) as [[r o] e]. cbn [fst] in *. cbn [take]. rewrite H3, (replay_cons st i (take j l)), map_app, app_assoc. reflexivity.
    + pose proof (cut_item range st i s Hi Hc) as Hx. exists 0%nat. destruct (lbind (load_opcode s) _) as [[[ms st'] more] s1| | | |] eqn:El; cbn in Hx; try contradiction; try (exists []; cbn; repeat split; lia).
      destruct Hx as (-> & E & W). exists ms. split; [lia|]. split; [|destruct fuel as [|fuel]; [cbn|rewrite loop_none by auto]; cbn [fst]; rewrite app_nil_r; reflexivity].
      destruct (load_opcode s) as [op s2| | | |]; try discriminate. eapply load_item_two, El.
Qed.
(** All but the last command and its expiry are those of the snapshot. *)
Theorem C127_partial range version l F' more db : is_range range -> length version = 9%nat -> Forall item_small l -> unsplit l -> F' ++ more = version ++ penc (items_pieces l) ++ [xff] -> more <> [] ->
  exists j ms, (j <= length l)%nat /\ (length ms <= 2)%nat /\ fst (fst (load range db [F'])) = map msg_of (replay secs db 0 (take j l)) ++ ms.
Proof.
  intros Hr Hv Hl Hu E Hm. unfold load. destruct (app_split _ _ _ _ E) as [(u & E1 & Hne & E2)|(u & E1 & E2)].
  - exists 0%nat, []. split; [lia|]. split; [cbn; lia|].
    assert (Hl9 : (length F' < 9)%nat) by (rewrite <- Hv, E1, app_length; destruct u; [congruence|cbn; lia]).
    destruct F' as [|b r]; [reflexivity|]. set (F := b :: r) in *.
    assert (Hc : cutok (lift (read_some 9 (new_rd [F])))) by (apply (At_some_cut F 0); [apply At_0; discriminate|lia|right; exists 0; lia]).
    destruct (read_some 9 (new_rd [F])) as [d s|e s| |]; cbn in Hc; try contradiction; try reflexivity.
    destruct Hc as [Hc W]. rewrite loop_none by auto. reflexivity.
  - subst F'. destruct (read_version version u Hv) as (s & R). rewrite R.
    assert (HF : version ++ u <> []) by (destruct version; discriminate).
    destruct (At_some (version ++ u) 0 (new_rd [version ++ u]) 9 (At_0 _ HF)) as (s' & R' & A'); [lia|rewrite app_length; lia|right; exists 0; lia|].
    rewrite R in R'. injection R' as _ <-.
    assert (Hd : drop 9 (version ++ u) = u) by (rewrite <- Hv, drop_app; reflexivity).
    assert (Hc : oncut (items_pieces l ++ [PBytes [xff]]) s).
    { exists (version ++ u), (0 + 9)%nat, more. split; [exact A'|]. split; [cbn [Nat.add]; rewrite Hd, penc_app; symmetry; exact E2|]. split; [exact Hm|]. apply fit_end. exact Hu. }
    apply (cut_loop_msgs range l (Lst db [] 0 0)); auto. unfold exp_ok. cbn. lia.
Qed.
(** The last value may be filled up with zero bytes; when the file ends within a long length, it is empty. Both are set in the cache. *)
Theorem C127_refuted : let set v := [RMsg 0 (convert_to_message [bs "set"; bs "k"; v])] in
  (exists F more, F ++ more = rdb_file ver9 [IKey (SRaw (bs "k")) (VStr (SRaw (bs "12345")))] [] /\ fst (fst (load range_of 0 [F])) = set (bs "12" ++ [x00; x00; x00]) /\
     fst (fst (load range_of 0 [F ++ more])) = set (bs "12345")) /\
  (forall v, zlen v = 16384 -> exists F more, F ++ more = rdb_file ver9 [IKey (SRaw (bs "k")) (VStr (SRaw v))] [] /\ more <> v ++ [xff] /\ fst (fst (load range_of 0 [F])) = set []).
Proof.
  split.
  - exists (ver9 ++ [x00; x01; x6b; x05; x31; x32]), (bs "345" ++ [xff]). repeat split; vm_compute; reflexivity.
  - intros v Hv. exists (ver9 ++ [x00; x01; x6b; x80; x00]), ([x00; x40; x00] ++ v ++ [xff]). split; [|split].
    + unfold rdb_file, penc. cbn [items_pieces flat_map item_pieces val_pieces val_type map concat piece_enc rstr_enc app]. rewrite Hv. 
      change (rdb_len 16384) with [x80; x00; x00; x40; x00]. change (rdb_len (zlen (bs "k"))) with [x01]. rewrite <- !app_assoc. cbn. reflexivity.
    + intros E. apply (f_equal length) in E. rewrite !app_length in E. cbn in E. lia.
    + vm_compute. reflexivity.
Qed.
Example C127_nonvacuous : let l := [IKey (SRaw (bs "a")) (VStr (SRaw (bs "1"))); IKey (SRaw (bs "b")) (VStr (SRaw (bs "2")))] in
  Forall item_small l /\ unsplit l /\ fst (fst (load range_of 0 [ver9 ++ [x00; x01; x61; x01; x31; x00; x01]])) = map msg_of (replay secs 0 0 (take 1 l)).
Proof.
  split; [repeat constructor; try (vm_compute; discriminate)|]. split; [|vm_compute; reflexivity]. apply pieces_fit_small; [lia|]. vm_compute. discriminate.
Qed.
