(** * Props_Resp2: a bulk string under every chunking (redis/conn.go:185-207) *)
From stdpp Require Import list.
From Verif Require Import Base RespModel RespSpec RespLib Props_Resp.

(** Whatever the chunks, a bulk string is answered by a string of its length that begins as it does and is filled up with
    zero bytes; then one line is dropped, be it part of the string or not. *)
Theorem C58_bulk_any_chunking_partial s rest cs : zlen s <= 2 ^ 48 -> concat cs = serialize (MBulk s) ++ rest ->
  exists (j : nat) s', (j <= length s)%nat /\ (s <> [] -> (0 < j)%nat) /\
    recv (new_rd cs) = ROk (MBulk (take j s ++ replicate (length s - j) x00)) s' /\
    forall l r, drop j s ++ crlf ++ rest = l ++ LF :: r -> LF ∉ l -> (length l < 4096)%nat -> bytes_left s' = r.
Proof.
  intros Hs E. pose proof (zlen_nonneg s) as H0.
  assert (Hw : wf (new_rd cs)) by (unfold wf; cbn; lia).
  assert (Eb : bytes_left (new_rd cs) = z2b 36 :: itoa (zlen s) ++ crlf ++ (s ++ crlf ++ rest)).
  { unfold bytes_left. cbn [new_rd r_buf r_src app]. rewrite E. cbn [serialize]. rewrite <- !app_assoc. reflexivity. }
  unfold recv. destruct (rm_any (length (bytes_left (new_rd cs))) (new_rd cs) _ _ Eb Hw) as (s1 & E1 & W1 & ->).
  change (Byte.eqb (z2b 36) (z2b 36)) with true. cbv iota.
  destruct (read_num_any s1 _ _ E1) as (s2 & -> & E2 & W2); [unfold int64; lia|exact W1|]. cbn [rbind].
  destruct (Z.eqb_spec (zlen s) (-1)); [lia|]. unfold read_bulk, make_ok, max_alloc.
  replace ((0 <=? zlen s) && (zlen s <=? 2 ^ 48)) with true by lia.
  pose proof (read_some_spec (Z.to_nat (zlen s)) s2 W2) as H.
  assert (Hne : match read_some (Z.to_nat (zlen s)) s2 with ROk d _ => s <> [] -> d <> [] | _ => True end).
  { destruct s as [|b s]; [destruct (read_some _ _); auto|]. replace (Z.to_nat (zlen (b :: s))) with (S (length s)) by (unfold zlen; cbn; lia).
    unfold read_some. destruct s2 as [[|x buf] src]; cbn [r_buf r_src].
    - destruct (Nat.leb bufsize (S (length s))).
      + pose proof (src_read_spec (S (length s)) src ltac:(lia)) as G. destruct (src_read (S (length s)) src) as [[d q]|]; [|exact I]. intros _. apply G.
      + pose proof (src_read_spec bufsize src bufsize_pos) as G. destruct (src_read bufsize src) as [[d q]|]; [|exact I]. intros _. destruct d; [destruct G; congruence|discriminate].
    - discriminate. }
  destruct (read_some (Z.to_nat (zlen s)) s2) as [d s3|e s3| |]; [|destruct H as (_ & H & _); rewrite E2 in H; destruct s; discriminate|contradiction|contradiction].
  destruct H as (Ed & Hl & W3). rewrite E2 in Ed. cbn [rbind].
  assert (Hd : d = take (length d) s /\ bytes_left s3 = drop (length d) s ++ crlf ++ rest).
  { assert (Hle : (length d <= length s)%nat) by (unfold zlen in Hl; lia). rewrite <- (take_drop (length d) s), <- app_assoc in Ed.
    apply app_inj_1 in Ed as [E3 E4]; [|rewrite take_length; lia]. split; [symmetry; exact E3|]. rewrite <- E4. reflexivity. }
  destruct Hd as [Hd E3].
  assert (Hp : padded (Z.to_nat (zlen s)) d = take (length d) s ++ replicate (length s - length d) x00).
  { unfold padded. rewrite <- Hd. do 2 f_equal. unfold zlen. lia. }
  pose proof (read_line_spec s3 W3) as H. 
  destruct (read_line s3) as [l s4|e s4| |] eqn:El; [|destruct H as (_ & H & _); rewrite E3 in H; destruct (drop (length d) s); discriminate|contradiction|contradiction].
  exists (length d), s4. split; [unfold zlen in Hl; lia|]. split; [intros Hs'; specialize (Hne Hs'); destruct d; [congruence|cbn; lia]|].
  cbn [rbind]. rewrite Hp. split; [reflexivity|]. intros l' r E5 Hl' Hlen. rewrite <- E3 in E5.
  destruct (read_line_line s3 l' r E5 Hl') as (s5 & Hr & Hb & _); [apply Nat2Z.inj_lt; rewrite bufsize_val; lia|exact W3|].
  rewrite El in Hr. injection Hr as _ ->. exact Hb.
Qed.
Theorem C58_bulk_right_or_zero_partial s rest cs : zlen s <= 2 ^ 48 -> concat cs = serialize (MBulk s) ++ rest ->
  exists t s', recv (new_rd cs) = ROk (MBulk t) s' /\ length t = length s /\ (t = s \/ list.last t = Some x00).
Proof.
  intros Hs E. destruct (C58_bulk_any_chunking_partial s rest cs Hs E) as (j & s' & Hj & _ & H & _).
  eexists. exists s'. split; [exact H|]. split; [rewrite app_length, take_length, replicate_length; lia|].
  destruct (Nat.eq_dec j (length s)) as [->|Hn].
  - left. rewrite firstn_all, Nat.sub_diag. apply app_nil_r.
  - right. replace (length s - j)%nat with (S (length s - j - 1)) by lia. rewrite replicate_S_end, app_assoc. apply last_snoc.
Qed.
(** and every such cut happens: for each [j] there are chunks after which the client is given the first [j] bytes and zeros *)
Theorem C58_every_cut_refuted s j : zlen s <= 2 ^ 48 -> (0 < j < length s)%nat ->
  exists cs s', concat cs = serialize (MBulk s) /\ recv (new_rd cs) = ROk (MBulk (take j s ++ replicate (length s - j) x00)) s'.
Proof.
  intros Hs Hj. pose proof (zlen_nonneg s) as H0.
  exists [bs "$" ++ itoa (zlen s) ++ crlf; take j s; drop j s ++ crlf].
  assert (Hc : concat [bs "$" ++ itoa (zlen s) ++ crlf; take j s; drop j s ++ crlf] = serialize (MBulk s)).
  { cbn [concat serialize]. rewrite app_nil_r, <- !app_assoc. do 3 f_equal. rewrite app_assoc, take_drop. reflexivity. }
  enough (exists s', recv (new_rd [bs "$" ++ itoa (zlen s) ++ crlf; take j s; drop j s ++ crlf]) = ROk (MBulk (take j s ++ replicate (length s - j) x00)) s') as [s' H]
    by (exists s'; auto).
  rewrite recv_fill; [|discriminate|pose proof (itoa_len (zlen s) ltac:(unfold int64; lia)); pose proof bufsize_val; rewrite !app_length; change (length (bs "$")) with 1%nat; change (length crlf) with 2%nat; lia].
  unfold recv. rewrite <- (app_nil_r (itoa (zlen s) ++ crlf)), <- app_assoc. rewrite rm_bulk.
  rewrite (read_num_buf (zlen s)); [|apply num_int_itoa|unfold int64; lia]. cbn [rbind]. destruct (Z.eqb_spec (zlen s) (-1)); [lia|].
  unfold read_bulk, make_ok, max_alloc. replace ((0 <=? zlen s) && (zlen s <=? 2 ^ 48)) with true by lia.
  assert (Hr : read_some (Z.to_nat (zlen s)) (Rd [] [take j s; drop j s ++ crlf]) = ROk (take j s) (Rd [] [drop j s ++ crlf])).
  { assert (Hn : Z.to_nat (zlen s) = length s) by (unfold zlen; lia). rewrite Hn. unfold read_some. destruct (length s) as [|len] eqn:El; [lia|]. cbn [r_buf r_src].
    destruct (take j s) as [|b a] eqn:Et; [apply (f_equal length) in Et; rewrite take_length in Et; cbn in Et; lia|].
    assert (Ha : (length (b :: a) <= S len)%nat) by (rewrite <- Et, take_length; lia).
    destruct (Nat.leb_spec bufsize (S len)) as [Hb|Hb]; cbn [src_read].
    - rewrite firstn_all2, drop_ge by lia. reflexivity.
    - rewrite (take_ge (b :: a) bufsize), (drop_ge (b :: a) bufsize) by lia. cbn iota. rewrite (take_ge (b :: a)), (drop_ge (b :: a)) by lia. reflexivity. }
  rewrite Hr. cbn [rbind].
  pose proof (read_line_spec (Rd [] [drop j s ++ crlf]) ltac:(unfold wf; cbn; lia)) as H.
  destruct (read_line (Rd [] [drop j s ++ crlf])) as [l s4|e s4| |] eqn:El; [|destruct H as (_ & H & _); cbn in H; destruct (drop j s); discriminate|contradiction|contradiction].
  exists s4. cbn [rbind]. do 2 f_equal. unfold padded. rewrite take_length. f_equal. f_equal. unfold zlen. lia.
Qed.
Example C58_any_chunking_ex : answer (recv (new_rd [bs "$5" ++ crlf ++ bs "he"; bs "llo" ++ crlf])) = Some (MBulk (take 2 (bs "hello") ++ replicate 3 x00)) /\
  zlen (bs "hello") <= 2 ^ 48.
Proof. split; [vm_compute; reflexivity|vm_compute; congruence]. Qed.

(** ** C60: cut lines
    A status or error line cut anywhere after its second byte is taken for a complete one with the text cut. *)
Theorem C60_cut_line_refuted (err : bool) s p q : let m t := if err then MError t else MSimple t in
  LF ∉ s -> serialize (m s) = p ++ q -> q <> [] -> (2 <= length p <= 4096)%nat -> exists s', recv (new_rd [p]) = ROk (m (tail p)) s'.
Proof.
  intros m Hs E Hq Hl. assert (Hz : Z.of_nat bufsize = 4096) by apply bufsize_val.
  destruct p as [|b p]; [cbn in Hl; lia|]. unfold new_rd. rewrite recv_fill by (discriminate || lia). cbn [length] in Hl.
  assert (Hb : b :: p = (if err then bs "-" else bs "+") ++ p /\ p ++ q = s ++ crlf).
  { destruct err; cbn [serialize m] in E; injection E as <- E; split; auto. }
  destruct Hb as [Hb Ep].
  assert (Hlf : LF ∉ p).
  { intros Hin. destruct (exists_last Hq) as (q' & x & ->). rewrite app_assoc in Ep. change crlf with ([CR] ++ [LF]) in Ep. rewrite app_assoc in Ep.
    apply app_inj_2 in Ep as [Ep _]; [|reflexivity]. assert (Hin2 : LF ∈ s ++ [CR]) by (rewrite <- Ep; apply elem_of_app; auto).
    apply elem_of_app in Hin2 as [H|H]; [auto|]. apply elem_of_list_singleton in H. discriminate. }
  cbn [tail]. unfold recv. rewrite Hb.
  assert (Hr : read_line (Rd p []) = ROk p (Rd [] [])) by (apply read_line_eof; [exact Hlf|destruct p; [cbn in Hl; lia|discriminate]|lia]).
  exists (Rd [] []). destruct err; [rewrite rm_error|rewrite rm_simple]; rewrite Hr; reflexivity.
Qed.
(** A cut integer is taken for a complete one exactly if what is left of its text is a number. *)
Theorem C60_cut_int_exact_partial n p q : int64 n -> serialize (MInt n) = p ++ q -> q <> [] ->
  answer (recv (new_rd [p])) = option_map MInt (atoi (tail p)).
Proof.
  intros Hn E Hq. assert (Hz : Z.of_nat bufsize = 4096) by apply bufsize_val. pose proof (itoa_len n Hn) as Hi.
  destruct p as [|b p]; [vm_compute; reflexivity|].
  assert (Hb : b = z2b 58 /\ p ++ q = itoa n ++ crlf) by (cbn [serialize] in E; injection E as <- E; auto). destruct Hb as [-> Ep].
  pose proof (f_equal length Ep) as Hlen. rewrite !app_length in Hlen. change (length crlf) with 2%nat in Hlen.
  unfold new_rd. rewrite recv_fill by (try discriminate; cbn [length]; lia). cbn [tail].
  assert (Hlf : LF ∉ p).
  { intros Hin. destruct (exists_last Hq) as (q' & x & ->). rewrite app_assoc in Ep. change crlf with ([CR] ++ [LF]) in Ep. rewrite app_assoc in Ep.
    apply app_inj_2 in Ep as [Ep _]; [|reflexivity]. assert (Hin2 : LF ∈ itoa n ++ [CR]) by (rewrite <- Ep; apply elem_of_app; auto).
    apply elem_of_app in Hin2 as [H|H]; [apply (num_line n (itoa n) (num_int_itoa n)) in H; contradiction|]. apply elem_of_list_singleton in H. discriminate. }
  unfold recv. change (z2b 58 :: p) with (bs ":" ++ p) at 2. rewrite rm_int.
  destruct p as [|c p]; [reflexivity|]. unfold read_num. rewrite read_line_eof; [|exact Hlf|discriminate|lia]. cbn [rbind].
  destruct (atoi (c :: p)); reflexivity.
Qed.
Example C60_cut_ex : answer (recv (new_rd [bs ":-123" ++ [CR]])) = None /\ answer (recv (new_rd [bs ":-12"])) = Some (MInt (-12)) /\ answer (recv (new_rd [bs "+O"])) = Some (MSimple (bs "O")).
Proof. vm_compute. auto. Qed.
