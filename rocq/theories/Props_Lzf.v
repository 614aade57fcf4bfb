(** * Props_Lzf: LZF compression and decompression, for every input and every content of the
    compressor's uninitialised hash table *)
From stdpp Require Import list.
From Verif Require Import Base LzfModel LzfSpec LzfLib.

Lemma u32_small x : 0 <= x < 2 ^ 32 -> u32 x = x.
Proof. intros H. apply Z.mod_small. exact H. Qed.
Lemma zeros_length n : 0 <= n -> zlen (zeros n) = n.
Proof. intros H. unfold zlen, zeros. rewrite replicate_length. lia. Qed.

(** ** C93: the compressor stays inside its buffers *)
Theorem C93_compress_safe (inp out : gostr) (tab : Z -> Z) : 2 <= zlen inp < 2 ^ 32 ->
  exists r out', lzf_compress inp (zlen inp) out (zlen out) tab = MOk (r, out') /\ 0 <= r <= zlen out /\ length out' = length out.
Proof.
  intros H. unfold zlen in *.
  destruct (lzf_compress_spec inp (length inp) (length out) out tab) as [E|(ts & r & out' & E & Hr & Hl & _)]; [lia|lia|reflexivity| |]; rewrite E.
  - exists 0, out. repeat split; lia.
  - exists (Z.of_nat r), out'. repeat split; lia.
Qed.
Example C93_ex : match lzf_compress (bs "aaaaaaaaaaaaaaaaaaaaaa") 22 (zeros 22) 22 (fun _ => 1) with MOk (r, _) => 0 < r < 22 | _ => False end.
Proof. vm_compute. auto. Qed.
(** two bytes are needed: on a single byte the compressor reads the byte after it, whatever the table *)
Theorem C93_one_byte_overread b out tab : out <> [] -> lzf_compress [b] 1 out (zlen out) tab = MFault.
Proof.
  intros H. unfold lzf_compress. destruct (Z.eqb_spec (zlen out) 0) as [E|E]; [|destruct b; reflexivity].
  destruct out; [contradiction|]. rewrite zlen_cons in E. pose proof (zlen_nonneg out). lia.
Qed.

(** ** C94: the decompressor stays inside its buffers
    The output buffers [out] and [outb] differ arbitrarily: what is written before the end of the
    result does not depend on what the buffer held, so only bytes already written are read. *)
Theorem C94_decompress_safe (inp out outb : gostr) : inp <> [] -> length outb = length out ->
  exists r out' outb', lzf_decompress inp (zlen inp) out (zlen out) = MOk (Z.of_nat r, out') /\
    lzf_decompress inp (zlen inp) outb (zlen out) = MOk (Z.of_nat r, outb') /\
    length out' = length out /\ (r <= length out)%nat /\ take r out' = take r outb'.
Proof.
  intros Hne Hl. unfold lzf_decompress, zlen. rewrite Nat2Z.id.
  assert (0 < length inp)%nat by (destruct inp; [contradiction|cbn; lia]).
  destruct (dloop_safe (S (length inp)) inp (length inp) (length out) out outb 0 0) as (r & out' & outb' & E1 & E2 & H1 & H2 & H3); auto; try lia.
  exists r, out', outb'. auto.
Qed.
Example C94_ex : lzf_decompress (bs "\001ab\032\001") 5 (zeros 3) 3 <> MFault.
Proof. vm_compute. discriminate. Qed.
Example C94_ex_corrupt : lzf_decompress (bs "zzz") 3 (zeros 100) 100 = MOk (0, zeros 100).
Proof. vm_compute. reflexivity. Qed.

(** ** C95: the decompressor implements the format *)
Lemma encode_pos ts : ts <> [] -> (0 < length (encode ts))%nat.
Proof.
  destruct ts as [|t ts]; [contradiction|]. intros _. change (encode (t :: ts)) with (enc_tok t ++ encode ts). rewrite app_length.
  destruct t; cbn [enc_tok]; [cbn; lia|]. destruct (_ <? _)%nat; cbn; lia.
Qed.
Theorem C95_decompress_format (ts : list tok) (out : gostr) : ts <> [] -> tok_ok 0 ts ->
  exists r out', lzf_decompress (encode ts) (zlen (encode ts)) out (zlen out) = MOk (r, out') /\ length out' = length out /\
    if zlen (text [] ts) <=? zlen out then r = zlen (text [] ts) /\ take (length (text [] ts)) out' = text [] ts else r = 0.
Proof.
  intros Hne Hok. unfold lzf_decompress, zlen. rewrite Nat2Z.id.
  assert (Hl : length (text [] ts) = tsize ts) by (rewrite text_length by exact Hok; reflexivity). rewrite Hl.
  destruct (dloop_decode (S (length (encode ts))) (encode ts) (length (encode ts)) (length out) out 0 0 ts) as (r & out' & E & Hl' & H); auto; try lia.
  { rewrite drop_0. apply take_ge. lia. }
  exists r, out'. split; [exact E|]. split; [exact Hl'|]. cbn [Nat.add] in H.
  destruct (Nat.leb_spec (tsize ts) (length out)); destruct (Z.leb_spec (Z.of_nat (tsize ts)) (Z.of_nat (length out))); try lia; exact H.
Qed.
(** and it accepts nothing else: a result other than 0 means that the input is a token stream *)
Theorem C95_decompress_only_format (inp out out' : gostr) r : inp <> [] ->
  lzf_decompress inp (zlen inp) out (zlen out) = MOk (r, out') -> r <> 0 -> exists ts, ts <> [] /\ tok_ok 0 ts /\ inp = encode ts.
Proof.
  intros Hne E Hr. unfold lzf_decompress, zlen in E. rewrite Nat2Z.id in E.
  assert (0 < length inp)%nat by (destruct inp; [contradiction|cbn; lia]).
  apply (dloop_sound _ inp (length inp) (length out) out 0 0) in E as (ts & H1 & H2 & H3); auto; try lia.
  exists ts. split; [exact H1|]. split; [exact H2|]. rewrite drop_0, take_ge in H3 by lia. exact H3.
Qed.
(** the same for DeCompress with the right length *)
Theorem C95_DeCompress ts : ts <> [] -> tok_ok 0 ts -> zlen (encode ts) < 2 ^ 32 -> zlen (text [] ts) < 2 ^ 32 ->
  decompress (encode ts) (zlen (text [] ts)) = MOk (text [] ts).
Proof.
  intros Hne Hok H1 H2. pose proof (encode_pos ts Hne) as Hp. pose proof (zlen_nonneg (text [] ts)). pose proof (zlen_nonneg (encode ts)).
  assert (Htp : 0 < zlen (text [] ts)).
  { unfold zlen. rewrite text_length by exact Hok. destruct ts as [|[l|d n] ts]; [contradiction| |]; cbn in *; lia. }
  unfold decompress. destruct (encode ts) as [|x rest] eqn:Ee; [cbn in Hp; lia|]. rewrite <- Ee in *.
  destruct (Z.leb_spec (zlen (text [] ts)) 0); [lia|]. destruct (Z.gtb_spec (zlen (text [] ts)) (2 ^ 48)); [lia|]. cbn [orb].
  rewrite !u32_small by lia.
  destruct (C95_decompress_format ts (zeros (zlen (text [] ts))) Hne Hok) as (r & out' & E & Hl & HH). rewrite zeros_length in E, HH by lia.
  rewrite E. cbn [mbind fst snd]. rewrite Z.leb_refl in HH. destruct HH as [-> Ht].
  destruct (Z.eqb_spec (zlen (text [] ts)) 0); [lia|]. f_equal.
  rewrite <- Ht. symmetry. apply take_ge. rewrite Hl. unfold zeros. rewrite replicate_length. unfold zlen. lia.
Qed.
(** a reference that overlaps its own copy, as in every run of equal bytes *)
Example C95_ex : decompress (encode [TLit (bs "ab"); TRef 2 9]) 11 = MOk (bs "abababababa").
Proof. vm_compute. reflexivity. Qed.

(** ** C92: round trip
    Full statement: for every [s] and [tab], [compress s tab = MOk c] and [decompress c (zlen s) = MOk s].
    It fails for texts that do not shrink: they are returned as they are, with nothing to tell. *)
Theorem C92_round_trip_refuted : exists s, zlen s = 2 /\ forall tab, exists c d, compress s tab = MOk c /\ decompress c (zlen s) = MOk d /\ d <> s.
Proof. exists [x00; x61]. split; [reflexivity|]. intros tab. exists [x00; x61], [x61; x00]. split; [reflexivity|]. split; [vm_compute; reflexivity|discriminate]. Qed.
(** the empty text panics in Go and a single byte is read beyond its end *)
Theorem C92_empty_refuted : forall tab, compress [] tab = MFault.
Proof. reflexivity. Qed.
(** what holds: for every text of at least two bytes and every content of the hash table, Compress
    returns a text no longer than the original which decompresses to it, or the original itself *)
Theorem C92_round_trip_partial s tab : 2 <= zlen s < 2 ^ 32 ->
  exists c, compress s tab = MOk c /\ zlen c <= zlen s /\ (c <> s -> decompress c (zlen s) = MOk s).
Proof.
  intros H. unfold compress. destruct s as [|x s0] eqn:Es; [rewrite zlen_nil in H; lia|]. rewrite <- Es in *. clear x s0 Es.
  rewrite !u32_small by lia.
  destruct (lzf_compress_spec s (length s) (length s) (zeros (zlen s)) tab) as [E|(ts & r & out' & E & Hr & Hl & Hok & Htx & Ht)].
  { unfold zlen in H. lia. } { unfold zlen in H. lia. } { unfold zeros, zlen. rewrite replicate_length. lia. }
  - unfold zlen at 1 3. rewrite E. cbn. exists s. split; [reflexivity|]. split; [lia|contradiction].
  - unfold zlen at 1 3. rewrite E. cbn [mbind fst snd]. destruct (Z.eqb_spec (Z.of_nat r) 0); [lia|]. rewrite Nat2Z.id.
    exists (take r out'). split; [reflexivity|]. split; [unfold zlen; rewrite take_length; lia|]. intros _.
    rewrite take_ge in Htx by lia. rewrite Ht. rewrite <- Htx.
    assert (Hne : ts <> []) by (intros ->; cbn in Htx; subst s; rewrite zlen_nil in H; lia).
    apply C95_DeCompress; auto; [|rewrite Htx; lia]. rewrite <- Ht. unfold zlen in *. rewrite take_length. lia.
Qed.
(** the table matters: leftover stack content changes the output, never its meaning *)
Example C92_ex_tables :
  exists c1 c2, let s := bs "abcdabcdabcdabcdabcdabcdabcdabcd" in
    compress s (fun _ => 0) = MOk c1 /\ compress s (fun _ => 1) = MOk c2 /\ c1 <> s /\ decompress c1 (zlen s) = MOk s.
Proof. eexists _, _. cbv zeta. split; [vm_compute; reflexivity|]. split; [vm_compute; reflexivity|]. split; [discriminate|vm_compute; reflexivity]. Qed.

(** ** C96: corrupt input is reported
    Full statement: DeCompress returns a text only if its input is a token stream denoting it.
    There is no error result: corrupt input is returned as if it were the text. *)
Theorem C96_corrupt_refuted : exists s n, decompress s n = MOk s /\ forall ts, tok_ok 0 ts -> encode ts <> s.
Proof.
  exists (bs "zzz"), 100. split; [vm_compute; reflexivity|]. intros ts Hok E.
  assert (Hne : ts <> []) by (intros ->; discriminate E).
  destruct (C95_decompress_format ts (zeros (zlen (text [] ts))) Hne Hok) as (r & out' & E1 & _ & H).
  rewrite E in E1. rewrite Z.leb_antisym in H. rewrite zeros_length in * by apply zlen_nonneg. rewrite Z.ltb_irrefl in H. cbn [negb] in H. destruct H as [-> _].
  change (zlen (bs "zzz")) with 3 in E1.
  assert (Hp : 0 < zlen (text [] ts)).
  { unfold zlen. rewrite text_length by exact Hok. destruct ts as [|[l|d n] ts]; [contradiction| |]; cbn in *; lia. }
  unfold lzf_decompress in E1. change (S (Z.to_nat 3)) with 4%nat in E1. cbn [dloop] in E1.
  change (get (bs "zzz") 0) with (MOk (b2z "z"%byte)) in E1. cbn [mbind] in E1. change (b2z "z"%byte <? 32) with false in E1. cbv iota in E1.
  change (0 + 1 >=? 3) with false in E1. cbv iota in E1. change (Z.shiftr (b2z "z"%byte) 5 =? 7) with false in E1. cbv iota in E1.
  change (get (bs "zzz") (0 + 1)) with (MOk (b2z "z"%byte)) in E1. cbn [mbind] in E1.
  destruct (_ >? _); [injection E1; lia|].
  change (0 - Z.shiftl (Z.land (b2z "z"%byte) 31) 8 - 1 - b2z "z"%byte <? 0) with true in E1. cbv iota in E1. injection E1. lia.
Qed.
(** and a stream for a shorter text than announced is padded with zero bytes *)
Theorem C96_short_refuted : decompress (encode [TLit (bs "ab")]) 4 = MOk [x61; x62; x00; x00].
Proof. vm_compute. reflexivity. Qed.
(** what holds: a result other than the input itself is the text of the token stream the input is,
    followed by zero bytes up to the announced length *)
Theorem C96_corrupt_partial s n d : s <> [] -> zlen s < 2 ^ 32 -> 0 < n < 2 ^ 32 -> decompress s n = MOk d ->
  d = s \/ exists ts, tok_ok 0 ts /\ s = encode ts /\ zlen (text [] ts) <= n /\ d = text [] ts ++ zeros (n - zlen (text [] ts)).
Proof.
  intros Hne Hs Hn E. unfold decompress in E. destruct s as [|x s0] eqn:Es; [contradiction|]. rewrite <- Es in *. clear x s0 Es.
  destruct (Z.leb_spec n 0); [lia|]. destruct (Z.gtb_spec n (2 ^ 48)); [lia|]. cbn [orb] in E.
  rewrite !u32_small in E by (pose proof (zlen_nonneg s); lia).
  destruct (lzf_decompress s (zlen s) (zeros n) n) as [[r out']| |] eqn:Ed; [|discriminate|discriminate]. cbn [mbind fst snd] in E.
  destruct (Z.eqb_spec r 0) as [|Hr]; [left; congruence|]. right. injection E as <-.
  rewrite <- (zeros_length n) in Ed at 2 by lia. pose proof Ed as Ed2.
  apply C95_decompress_only_format in Ed as (ts & H1 & H2 & ->); auto.
  exists ts. split; [exact H2|]. split; [reflexivity|].
  (* the unwritten rest of the buffer keeps its zero bytes *)
  set (t := text [] ts).
  destruct (C95_decompress_format ts (zeros n) H1 H2) as (r1 & out1 & E1 & Hl1 & HH). rewrite Ed2 in E1. injection E1 as <- <-.
  fold t in HH. rewrite zeros_length in HH by lia. destruct (Z.leb_spec (zlen t) n) as [Hle|]; [|contradiction]. split; [exact Hle|].
  destruct HH as [-> HH]. rewrite <- (take_drop (length t) out'). rewrite HH. f_equal.
  unfold lzf_decompress in Ed2.
  apply dloop_frame in Ed2 as (_ & _ & Hd); [|lia|exact Hr]. replace (Z.to_nat (zlen t)) with (length t) in Hd by (unfold zlen; lia). rewrite Hd.
  unfold zeros. rewrite drop_replicate. f_equal. unfold zlen. lia.
Qed.
