(** * RdbLib: lemmas on reading the RDB encoding *)
From stdpp Require Import gmap.
From Verif Require Import Base GoFloat RespModel RespSpec RespLib LzfModel LzfSpec LzfLib PackedModel PackedSpec Props_Lzf Props_Packed RdbModel RdbSpec.

(** ** readers with any chunks *)
Lemma read_some_pos n s d s' : (0 < n)%nat -> read_some n s = ROk d s' -> d <> [].
Proof.
  intros Hn. destruct n as [|n]; [lia|]. cbn [read_some]. destruct s as [[|b buf] src]; cbn [r_buf r_src].
  - destruct (Nat.leb_spec bufsize (S n)).
    + pose proof (src_read_spec (S n) src ltac:(lia)) as Hs. destruct (src_read (S n) src) as [[x cs]|]; intros E; inversion E; subst. apply Hs.
    + pose proof (src_read_spec bufsize src bufsize_pos) as Hs. destruct (src_read bufsize src) as [[x cs]|]; intros E; inversion E; subst.
      destruct Hs as (Hs & _). destruct x; [congruence|discriminate].
  - intros E. inversion E. discriminate.
Qed.
Lemma read_full_aux_spec f : forall n acc s, (n <= f)%nat -> wf s -> match read_full_aux f n acc s with
  | ROk d s' => exists x, d = acc ++ x /\ length x = n /\ bytes_left s = x ++ bytes_left s' /\ wf s'
  | RErr e s' => (length (bytes_left s) < n)%nat /\ bytes_left s' = [] /\ wf s'
  | _ => False
  end.
Proof.
  induction f as [|f IH]; intros n acc s Hn Hw.
  - destruct n; [|lia]. cbn. exists []. rewrite app_nil_r. auto.
  - destruct n as [|n]; [cbn; exists []; rewrite app_nil_r; auto|]. cbn [read_full_aux].
    pose proof (read_some_spec (S n) s Hw) as Hs. pose proof (read_some_pos (S n) s) as Hp. destruct (read_some (S n) s) as [d s'|e s'| |]; cbn [rbind]; auto.
    + destruct Hs as (E & Hl & Hw'). specialize (Hp d s' ltac:(lia) eq_refl).
      assert (0 < length d)%nat by (destruct d; [congruence|cbn; lia]).
      specialize (IH (S n - length d)%nat (acc ++ d) s' ltac:(lia) Hw'). destruct (read_full_aux f _ _ s') as [d2 s2|e s2| |]; auto.
      * destruct IH as (x & -> & Hx & E2 & Hw2). exists (d ++ x). rewrite app_assoc. split; [reflexivity|]. split; [rewrite app_length; lia|].
        split; [rewrite E, E2, app_assoc; reflexivity|exact Hw2].
      * destruct IH as (H1 & H2 & H3). split; [rewrite E, app_length; lia|auto].
    + destruct Hs as (-> & E & E' & Hw'). rewrite E. split; [cbn; lia|auto].
Qed.
Lemma read_full_spec n s : wf s -> match read_full n s with
  | ROk d s' => length d = n /\ bytes_left s = d ++ bytes_left s' /\ wf s'
  | RErr e s' => (length (bytes_left s) < n)%nat /\ bytes_left s' = [] /\ wf s'
  | _ => False
  end.
Proof.
  intros Hw. pose proof (read_full_aux_spec n n [] s (le_n n) Hw) as H. unfold read_full. destruct (read_full_aux n n [] s) as [d s'|e s'| |]; auto.
  destruct H as (x & -> & H). exact H.
Qed.
Lemma read_full_app x s rest : wf s -> bytes_left s = x ++ rest -> exists s', read_full (length x) s = ROk x s' /\ bytes_left s' = rest /\ wf s'.
Proof.
  intros Hw E. pose proof (read_full_spec (length x) s Hw) as H. destruct (read_full (length x) s) as [d s'|e s'| |]; try contradiction.
  - destruct H as (Hl & E2 & Hw'). rewrite E in E2. apply app_inj_1 in E2 as [-> ->]; [|congruence]. exists s'. auto.
  - rewrite E, app_length in H. lia.
Qed.
Lemma read_byte_app b s rest : wf s -> bytes_left s = b :: rest -> exists s', read_byte s = ROk b s' /\ bytes_left s' = rest /\ wf s'.
Proof. intros Hw E. pose proof (read_byte_spec s Hw) as H. rewrite E in H. exact H. Qed.

(** the first byte of a length *)
Lemma low_bits b : 0 <= b < 256 -> Z.land b 63 = b mod 64.
Proof. intros. change 63 with (Z.ones 6). apply Z.land_ones. lia. Qed.
Lemma top_bits b : 0 <= b < 256 -> Z.shiftr (Z.land b 192) 6 = b / 64.
Proof.
  intros H. rewrite Z.shiftr_land. change (Z.shiftr 192 6) with (Z.ones 2). rewrite Z.land_ones by lia.
  rewrite Z.shiftr_div_pow2 by lia. apply Z.mod_small. change (2 ^ 6) with 64. change (2 ^ 2) with 4.
  split; [apply Z.div_pos; lia|apply Z.div_lt_upper_bound; lia].
Qed.
Lemma be_length w n : length (be w n) = w.
Proof. unfold be. rewrite rev_length. apply le_length. Qed.

Definition len_read (n : Z) : Z := if n <? 16384 then n else 0.
Lemma load_len_any n s rest : 0 <= n < 2 ^ 64 -> wf s -> bytes_left s = rdb_len n ++ rest ->
  exists s', load_len s = LOk (len_read n, false) s' /\ bytes_left s' = rest /\ wf s'.
Proof.
  intros Hn Hw E. unfold rdb_len, len_read in *. destruct (Z.ltb_spec n 64) as [H6|H6].
  - destruct (Z.ltb_spec n 16384) as [_|]; [|lia]. destruct (read_byte_app _ _ _ Hw E) as (s1 & R1 & E1 & W1).
    exists s1. unfold load_len. rewrite R1. cbn [lift lbind]. rewrite b2z_z2b, Z.mod_small by lia. rewrite low_bits, top_bits by lia.
    rewrite Z.mod_small, Z.div_small by lia. auto.
  - destruct (Z.ltb_spec n 16384) as [H14|H14].
    + destruct (read_byte_app _ _ _ Hw E) as (s1 & R1 & E1 & W1). destruct (read_byte_app _ _ _ W1 E1) as (s2 & R2 & E2 & W2).
      exists s2. unfold load_len. rewrite R1. cbn [lift lbind]. rewrite !b2z_z2b.
      assert (0 <= n / 256 < 64) by (split; [apply Z.div_pos; lia|apply Z.div_lt_upper_bound; lia]).
      rewrite (Z.mod_small (64 + n / 256)) by lia. rewrite low_bits, top_bits by lia.
      replace ((64 + n / 256) / 64) with 1 by (apply (Z.div_unique _ _ _ (n / 256)); lia).
      replace ((64 + n / 256) mod 64) with (n / 256) by (apply (Z.mod_unique _ _ 1); lia).
      cbn [Z.eqb Pos.eqb]. rewrite R2, b2z_z2b. split; [|auto]. f_equal. f_equal. rewrite (Z.div_mod n 256) at 3 by lia. lia.
    + assert (Hskip : forall k b x, bytes_left s = b :: x ++ rest -> length x = k -> b = x80 /\ k = 4%nat \/ b = x81 /\ k = 8%nat ->
        exists s', load_len s = LOk (0, false) s' /\ bytes_left s' = rest /\ wf s').
      { intros k b x E1 Hk Hb. destruct (read_byte_app _ _ _ Hw E1) as (s1 & R1 & E2 & W1). destruct (read_full_app _ _ _ W1 E2) as (s2 & R2 & E3 & W2).
        exists s2. unfold load_len. rewrite R1. cbn [lift lbind]. rewrite Hk in R2.
        destruct Hb as [[-> ->]|[-> ->]]; cbv zeta.
        - change (b2z x80) with 128. cbn -[skip_len]. unfold skip_len. rewrite R2. auto.
        - change (b2z x81) with 129. cbn -[skip_len]. unfold skip_len. rewrite R2. auto. }
      destruct (n <? 2 ^ 32).
      * apply (Hskip 4%nat x80 (be 4 n)); auto.
      * apply (Hskip 8%nat x81 (be 8 n)); auto.
Qed.

(** ** a regular file: every Read of the transport fills the space it is given, up to the end *)
Definition src_of (d : gostr) : list gostr := match d with [] => [] | _ => [d] end.
(** the reader [s] has read the first [p] bytes of [F]; it reads the file in blocks of 4096 *)
Definition At (F : gostr) (p : nat) (s : rd) : Prop :=
  (p <= length F)%nat /\ exists k e, Z.of_nat e = 4096 * k /\ (p <= e)%nat /\ Z.of_nat e < Z.of_nat p + 4096 /\
  s = Rd (take (e - p) (drop p F)) (src_of (drop e F)).
Lemma At_0 F : F <> [] -> At F 0 (new_rd [F]).
Proof. intros H. split; [lia|]. exists 0, 0%nat. repeat split; try lia. rewrite drop_0. destruct F; [congruence|reflexivity]. Qed.
Lemma At_wf F p s : At F p s -> wf s.
Proof. intros (Hp & k & e & He & H1 & H2 & ->). unfold wf. cbn [r_buf]. pose proof bufsize_val. rewrite take_length. lia. Qed.
Lemma At_left F p s : At F p s -> bytes_left s = drop p F.
Proof.
  intros (Hp & k & e & He & H1 & H2 & ->). unfold bytes_left. cbn [r_buf r_src].
  replace (concat (src_of (drop e F))) with (drop e F) by (destruct (drop e F); cbn; rewrite ?app_nil_r; reflexivity).
  replace (drop e F) with (drop (e - p) (drop p F)) by (rewrite drop_drop; f_equal; lia). apply take_drop.
Qed.
Lemma src_read_of n d : d <> [] -> src_read n (src_of d) = Some (take n d, src_of (drop n d)).
Proof. intros H. destruct d as [|b d]; [congruence|]. unfold src_of. cbn [src_read]. destruct (drop n (b :: d)); reflexivity. Qed.
(** one Read that stays within a block *)
Lemma At_some F p s n : At F p s -> (0 < n)%nat -> (p + n <= length F)%nat -> one_block (Z.of_nat p) (Z.of_nat n) ->
  exists s', read_some n s = ROk (take n (drop p F)) s' /\ At F (p + n) s'.
Proof.
  intros (Hp & k & e & He & H1 & H2 & ->) Hn Hl [Hb|(j & Hj1 & Hj2)]; [lia|]. pose proof bufsize_val as Hbuf.
  destruct n as [|n]; [lia|]. cbn [read_some r_buf r_src]. destruct (decide (e = p)) as [->|Hne].
  - (* at the start of a block *)
    replace (p - p)%nat with 0%nat by lia. cbn [take]. rewrite !src_read_of by (intros E; pose proof (drop_length F p); rewrite E in *; cbn in *; lia).
    assert (k = j) by lia. subst j.
    destruct (Nat.leb_spec bufsize (S n)).
    + assert (S n = bufsize) as Hnb by lia. eexists. split; [reflexivity|]. split; [lia|].
      exists (k + 1), (p + S n)%nat. repeat split; try lia.
      f_equal; [replace (p + S n - (p + S n))%nat with 0%nat by lia; reflexivity|]. rewrite drop_drop. reflexivity.
    + eexists. split; [rewrite take_take; f_equal; f_equal; lia|]. split; [lia|].
      exists (k + 1), (p + bufsize)%nat. repeat split; try lia. f_equal; [|rewrite drop_drop; reflexivity].
      rewrite skipn_firstn_comm, drop_drop. f_equal. lia.
  - assert (Z.of_nat p + Z.of_nat (S n) <= Z.of_nat e).
    { assert (k = j + 1) by nia. lia. }
    destruct (take (e - p) (drop p F)) as [|b buf] eqn:Eb.
    { exfalso. assert (El : length (take (e - p) (drop p F)) = 0%nat) by (rewrite Eb; reflexivity). rewrite take_length, drop_length in El. lia. }
    eexists. rewrite <- Eb. split; [rewrite take_take; f_equal; f_equal; lia|]. split; [lia|]. exists k, e. repeat split; try lia.
    f_equal. rewrite skipn_firstn_comm, drop_drop. f_equal. lia.
Qed.
Lemma At_byte F p s b rest : At F p s -> drop p F = b :: rest -> exists s', read_byte s = ROk b s' /\ At F (p + 1) s'.
Proof.
  intros (Hp & k & e & He & H1 & H2 & ->) E. pose proof bufsize_val as Hbuf. pose proof (drop_length F p) as Hl. rewrite E in Hl. cbn in Hl.
  assert (Er : rest = drop (p + 1) F) by (rewrite <- drop_drop, E; reflexivity).
  unfold read_byte. cbn [r_buf r_src]. destruct (decide (e = p)) as [->|Hne].
  - replace (p - p)%nat with 0%nat by lia. cbn [take]. rewrite src_read_of by congruence. rewrite E.
    destruct bufsize as [|m] eqn:Em; [lia|]. cbn [take]. eexists. split; [reflexivity|]. split; [lia|].
    exists (k + 1), (p + S m)%nat. repeat split; try lia. replace (drop (S m) (b :: rest)) with (drop (p + S m) F) by (rewrite <- drop_drop, E; reflexivity).
    rewrite Er. f_equal. f_equal. lia.
  - rewrite E. destruct (e - p)%nat as [|m] eqn:Em; [lia|]. cbn [take]. eexists. split; [reflexivity|]. split; [lia|].
    exists k, e. repeat split; try lia. rewrite Er. f_equal. f_equal. lia.
Qed.
(** one Read of less than a block: some bytes *)
Lemma At_part F p s n : At F p s -> (0 < n)%nat -> Z.of_nat n < 4096 -> (p + n <= length F)%nat ->
  exists m s', (0 < m <= n)%nat /\ read_some n s = ROk (take m (drop p F)) s' /\ At F (p + m) s'.
Proof.
  intros (Hp & k & e & He & H1 & H2 & ->) Hn Hs Hl. pose proof bufsize_val as Hbuf.
  destruct n as [|n]; [lia|]. cbn [read_some r_buf r_src]. destruct (decide (e = p)) as [->|Hne].
  - replace (p - p)%nat with 0%nat by lia. cbn [take]. rewrite !src_read_of by (intros E; pose proof (drop_length F p); rewrite E in *; cbn in *; lia).
    destruct (Nat.leb_spec bufsize (S n)); [lia|]. exists (S n). eexists. split; [lia|]. split; [rewrite take_take; f_equal; f_equal; lia|].
    split; [lia|]. exists (k + 1), (p + bufsize)%nat. repeat split; try lia. f_equal; [|rewrite drop_drop; reflexivity].
    rewrite skipn_firstn_comm, drop_drop. f_equal. lia.
  - destruct (take (e - p) (drop p F)) as [|b buf] eqn:Eb.
    { exfalso. assert (El : length (take (e - p) (drop p F)) = 0%nat) by (rewrite Eb; reflexivity). rewrite take_length, drop_length in El. lia. }
    rewrite <- Eb. exists (Nat.min (S n) (e - p)). eexists. split; [lia|]. split; [rewrite take_take; reflexivity|]. split; [lia|].
    exists k, e. repeat split; try lia. f_equal. rewrite skipn_firstn_comm, drop_drop.
    destruct (Nat.leb_spec (S n) (e - p)).
    + rewrite Nat.min_l by lia. f_equal. lia.
    + rewrite Nat.min_r by lia. replace (e - p - S n)%nat with 0%nat by lia. replace (e - (p + (e - p)))%nat with 0%nat by lia. reflexivity.
Qed.
Lemma At_full_aux f : forall F p s n acc, At F p s -> (n <= f)%nat -> Z.of_nat n < 4096 -> (p + n <= length F)%nat ->
  exists s', read_full_aux f n acc s = ROk (acc ++ take n (drop p F)) s' /\ At F (p + n) s'.
Proof.
  induction f as [|f IH]; intros F p s n acc HA Hf Hn Hl.
  - destruct n; [|lia]. exists s. cbn. rewrite app_nil_r, Nat.add_0_r. auto.
  - destruct n as [|n]; [exists s; cbn; rewrite app_nil_r, Nat.add_0_r; auto|]. cbn [read_full_aux].
    destruct (At_part F p s (S n) HA ltac:(lia) Hn Hl) as (m & s1 & Hm & R & HA1). rewrite R. cbn [rbind].
    assert (Hlen : length (take m (drop p F)) = m) by (rewrite take_length, drop_length; lia). rewrite Hlen.
    destruct (IH F (p + m)%nat s1 (S n - m)%nat (acc ++ take m (drop p F)) HA1 ltac:(lia) ltac:(lia) ltac:(lia)) as (s2 & R2 & HA2).
    exists s2. rewrite R2. split; [|replace (p + S n)%nat with (p + m + (S n - m))%nat by lia; exact HA2].
    f_equal. rewrite <- app_assoc. f_equal. rewrite <- drop_drop, take_take_drop. f_equal. lia.
Qed.

Lemma At_len F p s n r : len_small n -> At F p s -> drop p F = rdb_len n ++ r ->
  exists s1, load_len s = LOk (n, false) s1 /\ At F (p + length (rdb_len n)) s1.
Proof.
  intros Hs HA E. unfold rdb_len, len_small in *. destruct (Z.ltb_spec n 64).
  - destruct (At_byte _ _ _ _ _ HA E) as (s1 & R1 & A1). exists s1. split; [|exact A1].
    unfold load_len. rewrite R1. cbn [lift lbind]. rewrite b2z_z2b, Z.mod_small by lia. rewrite low_bits, top_bits by lia.
    rewrite Z.mod_small, Z.div_small by lia. auto.
  - destruct (Z.ltb_spec n 16384); [|lia]. destruct (At_byte _ _ _ _ _ HA E) as (s1 & R1 & A1).
    assert (E1 : drop (p + 1) F = z2b n :: r) by (rewrite <- drop_drop, E; reflexivity).
    destruct (At_byte _ _ _ _ _ A1 E1) as (s2 & R2 & A2). exists s2. split; [|replace (p + length _)%nat with (p + 1 + 1)%nat by (cbn; lia); exact A2].
    unfold load_len. rewrite R1. cbn [lift lbind]. rewrite !b2z_z2b.
    assert (0 <= n / 256 < 64) by (split; [apply Z.div_pos; lia|apply Z.div_lt_upper_bound; lia]).
    rewrite (Z.mod_small (64 + n / 256)) by lia. rewrite low_bits, top_bits by lia.
    replace ((64 + n / 256) / 64) with 1 by (apply (Z.div_unique _ _ _ (n / 256)); lia).
    replace ((64 + n / 256) mod 64) with (n / 256) by (apply (Z.mod_unique _ _ 1); lia).
    cbn [Z.eqb Pos.eqb]. rewrite R2, b2z_z2b. f_equal. f_equal. rewrite (Z.div_mod n 256) at 3 by lia. lia.
Qed.

(** the reader is before the pieces [ps] of a regular file, which [rest] follows; raw strings are within blocks,
    also those of the pieces [fut] that should be next *)
Section fut.
Variable fut : list piece.
Definition on (ps : list piece) (rest : gostr) (s : rd) : Prop :=
  exists F p, At F p s /\ drop p F = penc ps ++ rest /\ pieces_fit (Z.of_nat p) (ps ++ fut).
Lemma penc_cons x ps : penc (x :: ps) = piece_enc x ++ penc ps.
Proof. reflexivity. Qed.
Lemma penc_app a b : penc (a ++ b) = penc a ++ penc b.
Proof. unfold penc. rewrite map_app, concat_app. reflexivity. Qed.
Lemma on_left ps rest s : on ps rest s -> bytes_left s = penc ps ++ rest /\ wf s.
Proof. intros (F & p & HA & E & _). rewrite (At_left _ _ _ HA), E. split; [reflexivity|]. eapply At_wf, HA. Qed.
Lemma on_skip_iff ps rest s : on (PBytes [] :: ps) rest s <-> on ps rest s.
Proof.
  split; intros (F & p & HA & E & Hf); exists F, p; split; [exact HA| |exact HA|]; split; auto.
  - destruct Hf as [_ Hf]. change (zlen (piece_enc (PBytes []))) with 0 in Hf. rewrite Z.add_0_r in Hf. exact Hf.
  - split; [exact I|]. change (zlen (piece_enc (PBytes []))) with 0. rewrite Z.add_0_r. exact Hf.
Qed.
Lemma on_skip ps rest s : on (PBytes [] :: ps) rest s -> on ps rest s.
Proof. apply on_skip_iff. Qed.
Lemma on_byte b x ps rest s : on (PBytes (b :: x) :: ps) rest s -> exists s', read_byte s = ROk b s' /\ on (PBytes x :: ps) rest s'.
Proof.
  intros (F & p & HA & E & Hf). destruct (At_byte _ _ _ _ _ HA E) as (s' & R & HA'). exists s'. split; [exact R|].
  exists F, (p + 1)%nat. split; [exact HA'|]. split; [rewrite <- drop_drop, E; reflexivity|].
  destruct Hf as [_ Hf]. split; [exact I|]. cbn [piece_enc] in *. rewrite zlen_cons in Hf. rewrite Nat2Z.inj_add.
  replace (Z.of_nat p + Z.of_nat 1 + zlen x) with (Z.of_nat p + (1 + zlen x)) by lia. exact Hf.
Qed.
Lemma on_full x y ps rest s : zlen x < 4096 -> on (PBytes (x ++ y) :: ps) rest s -> exists s', read_full (length x) s = ROk x s' /\ on (PBytes y :: ps) rest s'.
Proof.
  intros Hx (F & p & HA & E & Hf). pose proof (drop_length F p) as Hl. rewrite E, penc_cons in Hl. cbn [piece_enc] in Hl. rewrite !app_length in Hl.
  unfold zlen in Hx. assert (Hle : (p <= length F)%nat) by apply HA.
  destruct (At_full_aux (length x) F p s (length x) [] HA) as (s' & R & HA'); [lia|lia|lia|]. exists s'. split.
  - unfold read_full. rewrite R. cbn [app]. rewrite E, penc_cons. cbn [piece_enc]. rewrite <- !app_assoc, take_app. reflexivity.
  - exists F, (p + length x)%nat. split; [exact HA'|]. split; [rewrite <- drop_drop, E, !penc_cons; cbn [piece_enc]; rewrite <- !app_assoc, drop_app; reflexivity|].
    destruct Hf as [_ Hf]. split; [exact I|]. cbn [piece_enc] in *. rewrite zlen_app in Hf. unfold zlen in *. rewrite Nat2Z.inj_add, <- Z.add_assoc. exact Hf.
Qed.
Lemma on_bytes_app_iff x y ps rest s : on (PBytes (x ++ y) :: ps) rest s <-> on (PBytes x :: PBytes y :: ps) rest s.
Proof.
  split; intros (F & p & HA & E & Hf); exists F, p; (split; [exact HA|]); (split; [rewrite E, !penc_cons; cbn [piece_enc]; rewrite !app_assoc; reflexivity|]); cbn [pieces_fit piece_fits piece_enc app] in *; rewrite zlen_app, Z.add_assoc in *; tauto.
Qed.
Lemma on_bytes_app x y ps rest s : on (PBytes (x ++ y) :: ps) rest s -> on (PBytes x :: PBytes y :: ps) rest s.
Proof. apply on_bytes_app_iff. Qed.
Lemma on_len n ps rest s : len_small n -> on (PBytes (rdb_len n) :: ps) rest s -> exists s', load_len s = LOk (n, false) s' /\ on ps rest s'.
Proof.
  intros Hn (F & p & HA & E & [_ Hf]). rewrite penc_cons, <- app_assoc in E. cbn [piece_enc] in *.
  destruct (At_len F p s n _ Hn HA E) as (s1 & R1 & A1). exists s1. split; [exact R1|]. exists F, (p + length (rdb_len n))%nat.
  split; [exact A1|]. split; [rewrite <- drop_drop, E, drop_app; reflexivity|]. rewrite Nat2Z.inj_add. exact Hf.
Qed.
Lemma on_str_bytes t ps rest s : (match t with SRaw _ => False | _ => True end) -> on (PStr t :: ps) rest s -> on (PBytes (rstr_enc t) :: ps) rest s.
Proof. intros _ (F & p & HA & E & [_ Hf]). exists F, p. split; [exact HA|]. split; [exact E|]. split; [exact I|exact Hf]. Qed.
Lemma int8_le n : fits 1 n -> int8_of (z2b n) = n.
Proof.
  unfold fits, int8_of. cbn. intros H. rewrite b2z_z2b. rewrite Z.add_mod_idemp_l by lia. rewrite Z.mod_small by lia. lia.
Qed.
Lemma le_1 n : le 1 n = [z2b n].
Proof. rewrite le_S. reflexivity. Qed.
Lemma load_string_marker k (s s1 : rd) b : read_byte s = ROk b s1 -> b2z b = 192 + k -> 0 <= k < 64 ->
  load_len s = LOk (k, true) s1.
Proof.
  intros R Hb Hk. unfold load_len. rewrite R. cbn [lift lbind]. rewrite Hb, low_bits, top_bits by lia.
  replace ((192 + k) / 64) with 3 by (apply (Z.div_unique _ _ _ k); lia).
  replace ((192 + k) mod 64) with k by (apply (Z.mod_unique _ _ 3); lia). reflexivity.
Qed.
Lemma padded_exact n s : length s = n -> padded n s = s.
Proof. intros <-. apply padded_full. Qed.

Lemma on_str t ps rest s : str_small t -> on (PStr t :: ps) rest s -> exists s', load_string s = LOk (rstr_text t) s' /\ on ps rest s'.
Proof.
  intros Hs Hon. destruct t as [t|n|n|n|ts].
  - (* raw *)
    cbn in Hs. destruct Hon as (F & p & HA & E & [Hf1 Hf2]).
    cbn [piece_fits] in Hf1. unfold load_string.
    (* the position after the length *)
    assert (HL : exists s1, load_len s = LOk (zlen t, false) s1 /\ At F (p + length (rdb_len (zlen t))) s1).
    { eapply At_len; [exact Hs|exact HA|]. rewrite E, penc_cons. cbn [piece_enc rstr_enc]. rewrite <- !app_assoc. reflexivity. }
    destruct HL as (s1 & R1 & A1). rewrite R1. cbn [lbind]. set (q := (p + length (rdb_len (zlen t)))%nat) in *.
    assert (Eq : drop q F = t ++ penc ps ++ rest).
    { unfold q. rewrite <- drop_drop, E, penc_cons. cbn [piece_enc rstr_enc]. rewrite <- !app_assoc, drop_app. reflexivity. }
    assert (Hend : exists s2, read_some (Z.to_nat (zlen t)) s1 = ROk t s2 /\ At F (q + length t) s2).
    { unfold zlen. rewrite Nat2Z.id. destruct t as [|b t]; [exists s1; rewrite Nat.add_0_r; auto|]. set (t' := b :: t) in *.
      destruct (At_some F q s1 (length t') A1) as (s2 & R2 & A2); [cbn; lia| | |].
      - pose proof (drop_length F q) as Hl. rewrite Eq, app_length in Hl. destruct A1 as [A1 _]. lia.
      - unfold q. rewrite Nat2Z.inj_add. exact Hf1.
      - exists s2. rewrite R2, Eq, take_app. auto. }
    destruct Hend as (s2 & R2 & A2). rewrite R2. cbn [lift lbind]. exists s2. split; [rewrite padded_exact by (unfold zlen; rewrite Nat2Z.id; reflexivity); reflexivity|].
    exists F, (q + length t)%nat. split; [exact A2|]. split; [rewrite <- drop_drop, Eq, drop_app; reflexivity|].
    cbn [piece_enc rstr_enc] in Hf2. rewrite zlen_app in Hf2. unfold q. rewrite !Nat2Z.inj_add. unfold zlen in Hf2 at 1 3. rewrite Z.add_assoc in Hf2. exact Hf2.
  - apply on_str_bytes in Hon; [|exact I]. cbn [rstr_enc] in Hon. rewrite le_1 in Hon.
    destruct (on_byte _ _ _ _ _ Hon) as (s1 & R1 & O1). destruct (on_byte _ _ _ _ _ O1) as (s2 & R2 & O2). apply on_skip in O2. exists s2. split; [|exact O2].
    unfold load_string. rewrite (load_string_marker 0 _ _ _ R1) by (reflexivity || lia). cbn [lbind Z.eqb Pos.eqb]. rewrite R2. cbn [lift lbind]. rewrite int8_le by exact Hs. reflexivity.
  - apply on_str_bytes in Hon; [|exact I]. cbn [rstr_enc] in Hon.
    destruct (on_byte _ _ _ _ _ Hon) as (s1 & R1 & O1). rewrite <- (app_nil_r (le 2 n)) in O1. destruct (on_full (le 2 n) [] _ _ _ ltac:(rewrite le_zlen; lia) O1) as (s2 & R2 & O2). apply on_skip in O2. exists s2. split; [|exact O2].
    unfold load_string. rewrite (load_string_marker 1 _ _ _ R1) by (reflexivity || lia). cbn [lbind Z.eqb Pos.eqb]. rewrite le_length in R2. rewrite R2. cbn [lift lbind].
    rewrite le_val_le. cbn in Hs. change (2 ^ (8 * Z.of_nat 2)) with 65536. rewrite Z.mod_small by lia. reflexivity.
  - apply on_str_bytes in Hon; [|exact I]. cbn [rstr_enc] in Hon.
    destruct (on_byte _ _ _ _ _ Hon) as (s1 & R1 & O1). rewrite <- (app_nil_r (le 4 n)) in O1. destruct (on_full (le 4 n) [] _ _ _ ltac:(rewrite le_zlen; lia) O1) as (s2 & R2 & O2). apply on_skip in O2. exists s2. split; [|exact O2].
    unfold load_string. rewrite (load_string_marker 2 _ _ _ R1) by (reflexivity || lia). cbn [lbind Z.eqb Pos.eqb]. rewrite le_length in R2. rewrite R2.
    rewrite le_val_le. cbn in Hs. change (2 ^ (8 * Z.of_nat 4)) with 4294967296. rewrite Z.mod_small by lia. reflexivity.
  - apply on_str_bytes in Hon; [|exact I]. cbn [rstr_enc] in Hon. destruct Hs as (Hts & Hok & Hc & Ht).
    destruct (on_byte _ _ _ _ _ Hon) as (s1 & R1 & O1). apply on_bytes_app in O1.
    pose proof (zlen_nonneg (encode ts)). pose proof (zlen_nonneg (text [] ts)).
    destruct (on_len (zlen (encode ts)) _ _ _ ltac:(unfold len_small; lia) O1) as (s2 & R2 & O2). apply on_bytes_app in O2.
    destruct (on_len (zlen (text [] ts)) _ _ _ ltac:(unfold len_small; lia) O2) as (s3 & R3 & O3). rewrite <- (app_nil_r (encode ts)) in O3.
    destruct (on_full (encode ts) [] _ _ _ Hc O3) as (s4 & R4 & O4). apply on_skip in O4. exists s4. split; [|exact O4].
    unfold load_string. rewrite (load_string_marker 3 _ _ _ R1) by (reflexivity || lia). cbn [lbind Z.eqb Pos.eqb]. rewrite R2. cbn [lbind]. rewrite R3. cbn [lbind].
    unfold zlen at 1. rewrite Nat2Z.id, R4. cbn [lift lbind]. change (lift_lzf (decompress (encode ts) (zlen (text [] ts))) s4 = LOk (text [] ts) s4).
    rewrite (C95_DeCompress ts Hts Hok) by (change (2 ^ 32) with 4294967296; lia). reflexivity.
Qed.

(** ** values *)
Lemma on_strings l : forall ps rest s, Forall str_small l -> on (map PStr l ++ ps) rest s ->
  exists s', load_strings (length l) s = LOk (map rstr_text l) s' /\ on ps rest s'.
Proof.
  induction l as [|t l IH]; intros ps rest s Hl Hon; [exists s; auto|]. inversion Hl as [|? ? Ht Hl']; subst. cbn [map app] in Hon.
  destruct (on_str _ _ _ _ Ht Hon) as (s1 & R1 & O1). destruct (IH _ _ _ Hl' O1) as (s2 & R2 & O2). exists s2.
  cbn [load_strings length map]. rewrite R1. cbn [lbind]. rewrite R2. auto.
Qed.
Lemma load_double_text t ps rest s : score_small t -> on (PBytes (score_enc t) :: ps) rest s ->
  exists f s', parse_float t = Some f /\ load_double s = LOk f s' /\ on ps rest s'.
Proof.
  intros [Hl Hp] Hon. unfold score_enc in Hon. destruct (on_byte _ _ _ _ _ Hon) as (s1 & R1 & O1).
  rewrite <- (app_nil_r t) in O1. destruct (on_full t [] _ _ _ ltac:(lia) O1) as (s2 & R2 & O2). apply on_skip in O2.
  destruct (parse_float t) as [f|] eqn:Ef; [|congruence]. exists f, s2. split; [reflexivity|]. split; [|exact O2].
  pose proof (zlen_nonneg t). unfold load_double. rewrite R1. cbn [lift lbind]. rewrite b2z_z2b, Z.mod_small by lia.
  destruct (Z.eqb_spec (zlen t) 255); [lia|]. destruct (Z.eqb_spec (zlen t) 254); [lia|]. destruct (Z.eqb_spec (zlen t) 253); [lia|].
  unfold zlen. rewrite Nat2Z.id, R2. cbn [lift lbind]. rewrite Ef. reflexivity.
Qed.
Lemma on_scored l : forall ps rest s, Forall (fun '(m, t) => str_small m /\ score_small t) l ->
  on (flat_map (fun '(m, t) => [PStr m; PBytes (score_enc t)]) l ++ ps) rest s ->
  exists s', load_scored false (length l) s = LOk (flat_map (fun '(m, t) => [rstr_text m; score_text t]) l) s' /\ on ps rest s'.
Proof.
  induction l as [|[m t] l IH]; intros ps rest s Hl Hon; [exists s; auto|]. inversion Hl as [|? ? Hmt Hl']; subst. cbv beta iota in Hmt. destruct Hmt as [Hm Ht]. cbn [flat_map app] in Hon.
  destruct (on_str _ _ _ _ Hm Hon) as (s1 & R1 & O1). destruct (load_double_text _ _ _ _ Ht O1) as (f & s2 & Ef & R2 & O2).
  destruct (IH _ _ _ Hl' O2) as (s3 & R3 & O3). exists s3. cbn [load_scored length flat_map app]. rewrite R1. cbn [lbind]. rewrite R2. cbn [lbind]. rewrite R3. cbn [lbind].
  unfold score_text. rewrite Ef. auto.
Qed.
Lemma ziplist_small tail es : Forall zentry_small es -> ziplist_load (ziplist_enc tail es) = Some (map zentry_text es).
Proof. intros H. apply C89_ziplist_partial. refine (List.Forall_impl _ _ H). intros []; auto. Qed.
Lemma on_nodes l : forall ps rest s, Forall (fun '(w, (tail, es)) => str_small w /\ rstr_text w = ziplist_enc tail es /\ Forall zentry_small es) l ->
  on (map (fun '(w, _) => PStr w) l ++ ps) rest s ->
  exists s', load_nodes (length l) s = LOk (flat_map (fun '(_, (_, es)) => map zentry_text es) l) s' /\ on ps rest s'.
Proof.
  induction l as [|[w [tail es]] l IH]; intros ps rest s Hl Hon; [exists s; auto|]. inversion Hl as [|? ? Hwe Hl']; subst. cbv beta iota in Hwe. destruct Hwe as (Hw & Et & Hes). cbn [map app] in Hon.
  destruct (on_str _ _ _ _ Hw Hon) as (s1 & R1 & O1). destruct (IH _ _ _ Hl' O1) as (s3 & R3 & O3). exists s3. cbn [load_nodes length flat_map].
  rewrite R1. cbn [lbind]. rewrite Et, ziplist_small by exact Hes. cbn [lift_opt lbind]. rewrite R3. auto.
Qed.
Lemma even_part_even l : Nat.Even (length l) -> even_part l = l.
Proof.
  intros [k Hk]. revert l Hk. induction k as [|k IH]; intros l Hk.
  - destruct l; [reflexivity|cbn in Hk; lia].
  - destruct l as [|a [|b l]]; cbn in Hk; try lia. cbn [even_part]. rewrite IH by lia. reflexivity.
Qed.

Definition is_range (range : gmap gostr gostr -> list (gostr * gostr)) : Prop := forall m, range m ≡ₚ map_to_list m.
Lemma range_small range l : is_range range -> zlen l <= 1 -> flat_pairs (range (zipmap_map l)) = flat_map (fun p => [zp_key p; zp_val p]) l.
Proof.
  intros Hr Hl. destruct l as [|p [|q l]]; [| |rewrite !zlen_cons in Hl; pose proof (zlen_nonneg l); lia].
  - specialize (Hr ∅). rewrite map_to_list_empty in Hr. change (zipmap_map []) with (∅ : gmap gostr gostr). apply Permutation_nil_r in Hr. rewrite Hr. reflexivity.
  - cbn [zipmap_map foldl flat_map app]. specialize (Hr (<[zp_key p := zp_val p]> ∅)). rewrite insert_empty, map_to_list_singleton in Hr.
    apply Permutation_singleton_r in Hr. rewrite insert_empty, Hr. reflexivity.
Qed.

Local Arguments ziplist_load : simpl never. Local Arguments intset_load : simpl never. Local Arguments zipmap_load : simpl never.
Lemma on_val range v key ps rest s : is_range range -> val_small v -> on (val_pieces v ++ ps) rest s ->
  exists s', load_value range (b2z (val_type v)) key s = LOk (Some (val_cmd key v), false) s' /\ on ps rest s'.
Proof.
  intros Hr Hv Hon. unfold load_value. destruct v as [v|l|l|l|l|l|w tail es|w tail es|w tail es|w width l|w l]; cbn [val_small val_pieces val_type val_cmd app] in *.
  - destruct (on_str _ _ _ _ Hv Hon) as (s1 & R1 & O1). exists s1. cbn -[load_string]. rewrite R1. auto.
  - destruct Hv as [Hn Hl]. destruct (on_len _ _ _ _ Hn Hon) as (s1 & R1 & O1). destruct (on_strings _ _ _ _ Hl O1) as (s2 & R2 & O2). exists s2.
    cbn -[load_len load_strings]. rewrite R1. cbn [lbind]. unfold zlen. rewrite Nat2Z.id, R2. auto.
  - destruct Hv as [Hn Hl]. destruct (on_len _ _ _ _ Hn Hon) as (s1 & R1 & O1). destruct (on_strings _ _ _ _ Hl O1) as (s2 & R2 & O2). exists s2.
    cbn -[load_len load_strings]. rewrite R1. cbn [lbind]. unfold zlen. rewrite Nat2Z.id, R2. auto.
  - destruct Hv as [Hn Hl]. destruct (on_len _ _ _ _ Hn Hon) as (s1 & R1 & O1). destruct (on_scored _ _ _ _ Hl O1) as (s2 & R2 & O2). exists s2.
    cbn -[load_len load_scored]. rewrite R1. cbn [lbind]. unfold zlen. rewrite Nat2Z.id, R2. auto.
  - destruct Hv as [Hn Hl]. destruct (on_len _ _ _ _ Hn Hon) as (s1 & R1 & O1).
    assert (Hflat : flat_map (fun '(f, v) => [PStr f; PStr v]) l = map PStr (flat_map (fun '(f, v) => [f; v]) l)).
    { clear. induction l as [|[f v] l IH]; [reflexivity|]. cbn. rewrite IH. reflexivity. }
    rewrite Hflat in O1. assert (Hl2 : Forall str_small (flat_map (fun '(f, v) => [f; v]) l)).
    { clear - Hl. induction Hl as [|[f v] l Hfv Hl IH]; [constructor|]. cbn in *. destruct Hfv. constructor; [assumption|]. constructor; assumption. }
    destruct (on_strings _ _ _ _ Hl2 O1) as (s2 & R2 & O2). exists s2.
    assert (Hlen : length (flat_map (fun '(f, v) => [f; v]) l) = (2 * length l)%nat).
    { clear. induction l as [|[f v] l IH]; [reflexivity|]. cbn [flat_map app length]. lia. }
    cbn -[load_len load_strings Nat.mul]. rewrite R1. cbn [lbind]. unfold zlen. rewrite Nat2Z.id, <- Hlen, R2. cbn [lbind].
    split; [|exact O2]. do 4 f_equal. f_equal. clear. induction l as [|[f v] l IH]; [reflexivity|]. cbn. rewrite IH. reflexivity.
  - destruct Hv as [Hn Hl]. destruct (on_len _ _ _ _ Hn Hon) as (s1 & R1 & O1). destruct (on_nodes _ _ _ _ Hl O1) as (s2 & R2 & O2). exists s2.
    cbn -[load_len load_nodes]. rewrite R1. cbn [lbind]. unfold zlen. rewrite Nat2Z.id, R2. auto.
  - destruct Hv as (Hw & Et & Hes). destruct (on_str _ _ _ _ Hw Hon) as (s1 & R1 & O1). exists s1. cbn -[load_string]. rewrite R1. cbn [lbind]. rewrite Et, ziplist_small by exact Hes. auto.
  - destruct Hv as (Hw & Et & Hes). destruct (on_str _ _ _ _ Hw Hon) as (s1 & R1 & O1). exists s1. cbn -[load_string]. rewrite R1. cbn [lbind]. rewrite Et, ziplist_small by exact Hes. auto.
  - destruct Hv as (Hw & Et & Hes & Hev). destruct (on_str _ _ _ _ Hw Hon) as (s1 & R1 & O1). exists s1. cbn -[load_string even_part]. rewrite R1. cbn [lbind]. rewrite Et, ziplist_small by exact Hes.
    cbn [obind]. rewrite even_part_even by (rewrite map_length; exact Hev). auto.
  - destruct Hv as (Hw & Et & Hwd & Hn & Hf & Hs). destruct (on_str _ _ _ _ Hw Hon) as (s1 & R1 & O1). exists s1. cbn -[load_string]. rewrite R1. cbn [lbind].
    rewrite Et, C88_intset_partial by auto. auto.
  - destruct Hv as (Hw & Et & Hp & Hn). destruct (on_str _ _ _ _ Hw Hon) as (s1 & R1 & O1). exists s1. cbn -[load_string]. rewrite R1. cbn [lbind].
    rewrite Et, C90_zipmap_partial by auto. cbn [obind lift_opt lbind]. rewrite range_small by auto. auto.
Qed.

(** ** items *)
Definition secs (t : Z) : Z := (1000 * t) mod 2 ^ 32.
Definition msg_of (c : Z * list gostr) : rmsg := RMsg (fst c) (convert_to_message (snd c)).
(** what an item does to the state *)
Definition item_state (st : lst) (i : item) : lst :=
  match i with
  | IAux k v =>
    if gostr_eqb (rstr_text k) (bs "repl-id") then Lst (l_db st) (rstr_text v) (l_off st) (l_exp st)
    else if gostr_eqb (rstr_text k) (bs "repl-offset") then Lst (l_db st) (l_id st) (default 0 (atoi (rstr_text v))) (l_exp st)
    else st
  | ISelect d => Lst d (l_id st) (l_off st) (l_exp st)
  | IExpireS t => Lst (l_db st) (l_id st) (l_off st) (secs t)
  | IExpireMs t => Lst (l_db st) (l_id st) (l_off st) t
  | IKey _ _ => Lst (l_db st) (l_id st) (l_off st) 0
  | _ => st
  end.
Definition exp_ok (st : lst) : Prop := 0 <= l_exp st < 2 ^ 63.
Lemma item_state_exp st i : item_small i -> exp_ok st -> exp_ok (item_state st i).
Proof.
  unfold exp_ok. intros Hi Hst. destruct i; cbn [item_state item_small l_exp] in *; auto; try lia.
  - destruct (gostr_eqb _ _); [exact Hst|]. destruct (gostr_eqb _ _); exact Hst.
  - unfold secs. pose proof (Z.mod_pos_bound (1000 * t) (2 ^ 32) ltac:(lia)). lia.
Qed.
Lemma replay_cons st i l : replay secs (l_db st) (l_exp st) (i :: l) =
  replay secs (l_db st) (l_exp st) [i] ++ replay secs (l_db (item_state st i)) (l_exp (item_state st i)) l.
Proof.
  destruct i; cbn [replay item_state l_db l_exp app]; try reflexivity.
  - destruct (gostr_eqb _ _); [reflexivity|]. destruct (gostr_eqb _ _); reflexivity.
  - rewrite app_nil_r. reflexivity.
Qed.
Lemma secs_code t : 0 <= t < 2 ^ 32 -> wrapu32 (le_val (le 4 t) * 1000) = secs t.
Proof. intros H. rewrite le_val_le. change (8 * Z.of_nat 4) with 32. rewrite Z.mod_small by lia. unfold wrapu32, secs, two32. rewrite Z.mul_comm. reflexivity. Qed.
Lemma wrap64_id z : 0 <= z < 2 ^ 63 -> wrap64 z = z.
Proof. intros H. unfold wrap64, two63, two64. rewrite Z.mod_small by lia. lia. Qed.

Lemma on_item range st i ps rest s : is_range range -> item_small i -> exp_ok st -> on (item_pieces i ++ ps) rest s ->
  exists s', lbind (load_opcode s) (fun op s1 => load_item range st op s1) = LOk (map msg_of (replay secs (l_db st) (l_exp st) [i]), item_state st i, true) s' /\ on ps rest s'.
Proof.
  intros Hr Hi Hst Hon. unfold load_opcode.
  assert (Hop : exists b qs s1, read_byte s = ROk b s1 /\ item_pieces i = PBytes [b] :: qs /\ on (qs ++ ps) rest s1).
  { destruct i; cbn [item_pieces app] in *; destruct (on_byte _ _ _ _ _ Hon) as (s1 & R1 & O1); apply on_skip in O1; eexists _, _, s1; split; eauto. }
  destruct Hop as (b & qs & s1 & R & Eb & O). rewrite R. cbn [lift lbind]. clear Hon R s. unfold load_item.
  destruct i as [k v|d|a c|t|t|f|n|k v]; cbn [item_pieces] in Eb; inversion Eb; subst b qs; clear Eb; cbn [app] in O; cbn [item_small] in Hi.
  - destruct Hi as (Hk & Hv & Ho). destruct (on_str _ _ _ _ Hk O) as (s2 & R2 & O2). destruct (on_str _ _ _ _ Hv O2) as (s3 & R3 & O3).
    exists s3. cbn -[load_string gostr_eqb bs atoi rstr_text]. rewrite R2. cbn [lbind]. rewrite R3. cbn [lbind].
    destruct (gostr_eqb (rstr_text k) (bs "repl-id")); [split; [reflexivity|assumption]|]. destruct (gostr_eqb (rstr_text k) (bs "repl-offset")) eqn:Ek; [|split; [reflexivity|assumption]].
    apply bool_decide_eq_true in Ek. specialize (Ho Ek). destruct (atoi (rstr_text v)); [split; [reflexivity|assumption]|congruence].
  - destruct (on_len _ _ _ _ Hi O) as (s2 & R2 & O2). exists s2. cbn -[load_len]. rewrite R2. split; [reflexivity|assumption].
  - destruct Hi as [Ha Hc]. destruct (on_len _ _ _ _ Ha O) as (s2 & R2 & O2). destruct (on_len _ _ _ _ Hc O2) as (s3 & R3 & O3). exists s3.
    cbn -[load_len]. rewrite R2. cbn [lbind]. rewrite R3. split; [reflexivity|assumption].
  - rewrite <- (app_nil_r (le 4 t)) in O. destruct (on_full (le 4 t) _ _ _ _ ltac:(rewrite le_zlen; lia) O) as (s2 & R2 & O2). apply on_skip in O2. exists s2.
    change (b2z xfd =? 253) with true. cbv iota. rewrite le_length in R2. rewrite R2. cbn [lift lbind]. rewrite secs_code by exact Hi. split; [reflexivity|exact O2].
  - rewrite <- (app_nil_r (le 8 t)) in O. destruct (on_full (le 8 t) _ _ _ _ ltac:(rewrite le_zlen; lia) O) as (s2 & R2 & O2). apply on_skip in O2. exists s2.
    change (b2z xfc =? 253) with false. change (b2z xfc =? 252) with true. cbv iota. rewrite le_length in R2. rewrite R2. cbn [lift lbind]. rewrite le_val_le.
    change (8 * Z.of_nat 8) with 64. rewrite Z.mod_small by lia. split; [reflexivity|exact O2].
  - destruct (on_byte _ _ _ _ _ O) as (s2 & R2 & O2). apply on_skip in O2. exists s2. cbn -[read_byte]. rewrite R2. split; [reflexivity|assumption].
  - destruct (on_len _ _ _ _ Hi O) as (s2 & R2 & O2). exists s2. cbn -[load_len]. rewrite R2. split; [reflexivity|assumption].
  - destruct Hi as (Hk & Hne & Hv). destruct (on_str _ _ _ _ Hk O) as (s2 & R2 & O2). destruct (on_val range v (rstr_text k) _ _ _ Hr Hv O2) as (s3 & R3 & O3). exists s3.
    split; [|exact O3].
    assert (Hb : forall z, z ∈ [253; 252; 249; 248; 255; 254; 251; 250; 247] -> (b2z (val_type v) =? z) = false).
    { intros z Hz. apply Z.eqb_neq. intros E. repeat (apply elem_of_cons in Hz as [->|Hz]; [destruct v; discriminate E|]). apply elem_of_nil in Hz. exact Hz. }
    rewrite !Hb by set_solver. rewrite R2. cbn [lbind]. unfold gostr_eqb. rewrite bool_decide_eq_false_2 by exact Hne. rewrite R3. cbn [lbind negb].
    rewrite wrap64_id by exact Hst. f_equal. f_equal. f_equal. cbn [replay map app]. destruct (l_exp st >? 0); reflexivity.
Qed.
End fut.

(** ** the loop *)
Lemma item_len i : (1 <= length (penc (item_pieces i)))%nat.
Proof. destruct i; cbn [item_pieces]; rewrite penc_cons, app_length; cbn [piece_enc length]; lia. Qed.
Lemma items_len l : (length l <= length (penc (items_pieces l)))%nat.
Proof.
  induction l as [|i l IH]; [cbn; lia|]. change (items_pieces (i :: l)) with (item_pieces i ++ items_pieces l). rewrite penc_app, app_length. pose proof (item_len i). cbn [length]. lia.
Qed.
Lemma load_loop_items range l : forall fut st s fuel rest, is_range range -> Forall item_small l -> exp_ok st ->
  on fut (items_pieces l ++ [PBytes [xff]]) rest s -> (length l < fuel)%nat ->
  load_loop range fuel st s = (map msg_of (replay secs (l_db st) (l_exp st) l), ONil, foldl item_state st l).
Proof.
  induction l as [|i l IH]; intros fut st s fuel rest Hr Hl Hst Hon Hf; (destruct fuel as [|fuel]; [cbn in Hf; lia|]); cbn [load_loop].
  - cbn [items_pieces flat_map app] in Hon. destruct (on_byte _ _ _ _ _ _ Hon) as (s1 & R1 & _). unfold load_opcode. rewrite R1. cbn [lift lbind].
    reflexivity.
  - inversion Hl as [|? ? Hi Hl']; subst. change (items_pieces (i :: l)) with (item_pieces i ++ items_pieces l) in Hon. rewrite <- app_assoc in Hon.
    destruct (on_item _ range st i _ _ _ Hr Hi Hst Hon) as (s1 & R1 & O1). rewrite R1.
    rewrite (IH fut (item_state st i) s1 fuel rest) by (auto using item_state_exp; cbn in Hf; lia).
    rewrite (replay_cons st i l), map_app. reflexivity.
Qed.
Lemma on_start version ps rest F s : F = version ++ penc ps ++ rest -> length version = 9%nat -> pieces_fit 9 ps ->
  read_some 9 (new_rd [F]) = ROk version s -> on [] ps rest s.
Proof.
  intros -> Hv Hf R. set (F := version ++ penc ps ++ rest) in *.
  assert (HF : F <> []) by (unfold F; destruct version; [discriminate Hv|discriminate]).
  destruct (At_some F 0 (new_rd [F]) 9 (At_0 F HF)) as (s' & R' & A'); [lia|unfold F; rewrite app_length; lia|right; exists 0; lia|].
  rewrite R in R'. injection R' as _ ->. exists F, 9%nat. split; [exact A'|]. rewrite app_nil_r. split; [|exact Hf].
  unfold F. rewrite <- Hv, drop_app. reflexivity.
Qed.
Lemma read_version version rest : length version = 9%nat -> exists s, read_some 9 (new_rd [version ++ rest]) = ROk version s.
Proof.
  intros Hv. set (F := version ++ rest). assert (HF : F <> []) by (unfold F; destruct version; [discriminate Hv|discriminate]).
  destruct (At_some F 0 (new_rd [F]) 9 (At_0 F HF)) as (s' & R' & A'); [lia|unfold F; rewrite app_length; lia|right; exists 0; lia|].
  exists s'. rewrite R', drop_0. unfold F. rewrite <- Hv, take_app. reflexivity.
Qed.
Lemma load_file range version l sum db : is_range range -> length version = 9%nat -> Forall item_small l -> unsplit l ->
  load range db [rdb_file version l sum] = (map msg_of (replay secs db 0 l), ONil, foldl item_state (Lst db [] 0 0) l).
Proof.
  intros Hr Hv Hl Hu. unfold load, rdb_file. destruct (read_version version (penc (items_pieces l) ++ [xff] ++ sum) Hv) as (s & R). rewrite R.
  assert (Hon : on [] (items_pieces l ++ [PBytes [xff]]) sum s).
  { eapply on_start; [|exact Hv| |exact R].
    - rewrite penc_app, <- !app_assoc. reflexivity.
    - unfold unsplit in Hu. clear - Hu. revert Hu. generalize (items_pieces l) 9. intros ps. induction ps as [|x ps IH]; intros p H; cbn [app pieces_fit] in *; [split; [exact I|exact I]|].
      destruct H. auto. }
  rewrite (load_loop_items range l [] (Lst db [] 0 0) s _ sum Hr Hl); [reflexivity|unfold exp_ok; cbn; lia|exact Hon|].
  destruct (on_left _ _ _ _ Hon) as [-> _]. rewrite penc_app, !app_length. pose proof (items_len l). lia.
Qed.

(** ** truncated files *)
Definition bad {A} (x : lres A) : Prop := match x with LErr | LPanic | LExit => True | _ => False end.
(** nothing is left, or the read has failed *)
Definition cutok {A} (x : lres A) : Prop := match x with LOk _ s => bytes_left s = [] /\ wf s | LFuel => False | _ => True end.
Lemma bad_cut {A} (x : lres A) : bad x -> cutok x.
Proof. destruct x; cbn; tauto. Qed.
Lemma cut_bind {A B} (x : lres A) (k : A -> rd -> lres B) : cutok x -> (forall a s, bytes_left s = [] -> wf s -> cutok (k a s)) -> cutok (lbind x k).
Proof. destruct x; cbn; intros H1 H2; auto. apply H2; tauto. Qed.
Lemma bad_bind {A B} (x : lres A) (k : A -> rd -> lres B) : bad x -> bad (lbind x k).
Proof. destruct x; cbn; tauto. Qed.
Lemma byte_none s : bytes_left s = [] -> wf s -> exists s', read_byte s = RErr EEof s'.
Proof. intros E Hw. pose proof (read_byte_spec s Hw) as H. rewrite E in H. destruct H as (s' & R & _). eauto. Qed.
Lemma full_none n s : (length (bytes_left s) < n)%nat -> wf s -> exists e s', read_full n s = RErr e s'.
Proof.
  intros E Hw. pose proof (read_full_spec n s Hw) as H. destruct (read_full n s) as [d s'|e s'| |]; try contradiction; [|eauto].
  destruct H as (H1 & H2 & _). rewrite H2, app_length in E. lia.
Qed.
Lemma len_none s : bytes_left s = [] -> wf s -> load_len s = LErr.
Proof. intros E Hw. destruct (byte_none s E Hw) as [s' R]. unfold load_len. rewrite R. reflexivity. Qed.
Lemma string_none s : bytes_left s = [] -> wf s -> load_string s = LErr.
Proof. intros E Hw. unfold load_string. rewrite len_none by auto. reflexivity. Qed.
Lemma strings_none k s : bytes_left s = [] -> wf s -> cutok (load_strings k s).
Proof. intros E Hw. destruct k; [split; auto|]. cbn [load_strings]. rewrite string_none by auto. exact I. Qed.
Lemma scored_none bin k s : bytes_left s = [] -> wf s -> cutok (load_scored bin k s).
Proof. intros E Hw. destruct k; [split; auto|]. cbn [load_scored]. rewrite string_none by auto. exact I. Qed.
Lemma nodes_none k s : bytes_left s = [] -> wf s -> cutok (load_nodes k s).
Proof. intros E Hw. destruct k; [split; auto|]. cbn [load_nodes]. rewrite string_none by auto. exact I. Qed.

(** the file ends within the pieces [ps]; within the piece [x] *)
Definition oncut (ps : list piece) (s : rd) : Prop :=
  exists F p more, At F p s /\ drop p F ++ more = penc ps /\ more <> [] /\ pieces_fit (Z.of_nat p) ps.
Definition cut1 (x : piece) (s : rd) : Prop :=
  exists F p more, At F p s /\ drop p F ++ more = piece_enc x /\ more <> [] /\ piece_fits (Z.of_nat p) x.
Lemma oncut_nil s : ~ oncut [] s.
Proof. intros (F & p & more & _ & E & Hm & _). apply app_eq_nil in E as [_ E]. auto. Qed.
Lemma fit_app p ps qs : pieces_fit p (ps ++ qs) <-> pieces_fit p ps /\ pieces_fit (p + zlen (penc ps)) qs.
Proof.
  revert p. induction ps as [|x ps IH]; intros p; cbn [app pieces_fit]; [unfold penc; cbn [map concat]; rewrite zlen_nil, Z.add_0_r; tauto|].
  rewrite IH, penc_cons, zlen_app, Z.add_assoc. tauto.
Qed.
Lemma oncut_app ps qs s : oncut (ps ++ qs) s -> (exists rest, on qs ps rest s /\ forall s', on qs [] rest s' -> oncut qs s') \/ oncut ps s.
Proof.
  intros (F & p & more & HA & E & Hm & Hf). rewrite penc_app in E.
  destruct (app_split _ _ _ _ E) as [(u & E1 & Hu & E2)|(u & E1 & E2)].
  - right. exists F, p, u. split; [exact HA|]. split; [auto|]. split; [exact Hu|]. apply fit_app in Hf. tauto.
  - left. exists u. split; [exists F, p; auto|]. intros s' (F' & p' & HA' & E' & Hf'). exists F', p', more. rewrite E'. auto.
Qed.
Lemma oncut_cons x ps s : oncut (x :: ps) s -> (exists rest, on ps [x] rest s /\ forall s', on ps [] rest s' -> oncut ps s') \/ cut1 x s.
Proof.
  intros H. apply (oncut_app [x] ps) in H as [H|H]; [left; exact H|right]. destruct H as (F & p & more & HA & E & Hm & Hf).
  exists F, p, more. unfold penc in E. cbn [map concat] in E. rewrite app_nil_r in E. split; [exact HA|]. split; [exact E|]. split; [exact Hm|]. apply Hf.
Qed.
Lemma cut1_left x s : cut1 x s -> (length (bytes_left s) < length (piece_enc x))%nat /\ wf s.
Proof.
  intros (F & p & more & HA & E & Hm & _). split; [|eapply At_wf, HA]. rewrite (At_left _ _ _ HA), <- E, app_length. destruct more; [congruence|cbn; lia].
Qed.
Lemma left_nil (s : rd) : (length (bytes_left s) < 1)%nat -> bytes_left s = [].
Proof. destruct (bytes_left s); [auto|cbn; lia]. Qed.
Lemma cut_len n s : len_small n -> cut1 (PBytes (rdb_len n)) s -> bad (load_len s).
Proof.
  intros Hn Hc. destruct (cut1_left _ _ Hc) as [Hl Hw]. destruct Hc as (F & p & more & HA & E & _ & _). rewrite <- (At_left _ _ _ HA) in E.
  cbn [piece_enc] in *. unfold rdb_len, len_small in *. destruct (Z.ltb_spec n 64); [|destruct (Z.ltb_spec n 16384); [|lia]].
  - rewrite len_none; [exact I|apply left_nil; exact Hl|exact Hw].
  - destruct (bytes_left s) as [|b [|c r]] eqn:Eb; [rewrite len_none by auto; exact I| |cbn in Hl; lia].
    destruct (read_byte_app _ _ _ Hw Eb) as (s1 & R1 & E1 & W1). injection E as -> _. unfold load_len. rewrite R1. cbn [lift lbind].
    rewrite b2z_z2b. assert (0 <= n / 256 < 64) by (split; [apply Z.div_pos; lia|apply Z.div_lt_upper_bound; lia]).
    rewrite (Z.mod_small (64 + n / 256)) by lia. rewrite low_bits, top_bits by lia.
    replace ((64 + n / 256) / 64) with 1 by (apply (Z.div_unique _ _ _ (n / 256)); lia). cbn [Z.eqb Pos.eqb].
    destruct (byte_none s1 E1 W1) as [s2 R2]. rewrite R2. exact I.
Qed.
Lemma cut_full x s : cut1 (PBytes x) s -> exists e s', read_full (length x) s = RErr e s'.
Proof. intros Hc. destruct (cut1_left _ _ Hc) as [Hl Hw]. apply full_none; auto. Qed.
Lemma cut_byte b s : cut1 (PBytes [b]) s -> exists s', read_byte s = RErr EEof s'.
Proof. intros Hc. destruct (cut1_left _ _ Hc) as [Hl Hw]. apply byte_none; [apply left_nil; exact Hl|exact Hw]. Qed.
(** one Read that would stay within a block, but the file ends before *)
Lemma At_some_cut F p s n : At F p s -> (length F < p + n)%nat -> one_block (Z.of_nat p) (Z.of_nat n) -> cutok (lift (read_some n s)).
Proof.
  intros HA Hl Hb. pose proof (At_wf _ _ _ HA) as Hw. pose proof (At_left _ _ _ HA) as HL. destruct HA as (Hp & k & e & He & H1 & H2 & Es). destruct Hb as [Hb|(j & Hj1 & Hj2)]; [lia|]. pose proof bufsize_val as Hbuf.
  destruct (drop p F) as [|b r] eqn:Ed.
  { pose proof (read_some_spec n s Hw) as Hsp. destruct (read_some n s) as [d s'|e' s'| |]; cbn; auto. destruct Hsp as (Q1 & _ & Q2). rewrite HL in Q1. symmetry in Q1. apply app_eq_nil in Q1. tauto. }
  rewrite <- Ed in *. assert (Hdl : (length F - p = length (drop p F))%nat) by (rewrite drop_length; reflexivity).
  assert (Hne : drop p F <> []) by (rewrite Ed; discriminate).
  pose proof (read_some_spec n s Hw) as Hsp. destruct n as [|n]; [lia|]. cbn [read_some] in *. rewrite Es in *. cbn [r_buf r_src] in *. destruct (decide (e = p)) as [->|Hne2].
  - replace (p - p)%nat with 0%nat in * by lia. cbn [take] in *. rewrite !src_read_of in * by exact Hne. assert (k = j) by lia. subst j.
    destruct (Nat.leb_spec bufsize (S n)); cbn [lift cutok].
    + split; [|apply Hsp]. unfold bytes_left. cbn [r_buf r_src]. rewrite drop_ge by lia. reflexivity.
    + split; [|apply Hsp]. unfold bytes_left. cbn [r_buf r_src]. rewrite (drop_ge (drop p F) bufsize) by lia. cbn [src_of concat]. rewrite app_nil_r. apply drop_ge. rewrite take_length. lia.
  - assert (k = j + 1) by nia. destruct (take (e - p) (drop p F)) as [|b' buf] eqn:Eb.
    { exfalso. assert (El : length (take (e - p) (drop p F)) = 0%nat) by (rewrite Eb; reflexivity). rewrite take_length in El. rewrite Ed in *. cbn in *. lia. }
    rewrite <- Eb in *. cbn [lift cutok]. split; [|apply Hsp]. unfold bytes_left. cbn [r_buf r_src]. rewrite (drop_ge F e) by lia. cbn [src_of concat]. rewrite app_nil_r. apply drop_ge. rewrite take_length. lia.
Qed.
Lemma cut_string t s : str_small t -> cut1 (PStr t) s -> cutok (load_string s).
Proof.
  intros Hs (F & p & more & HA & E & Hm & Hf).
  assert (Hpieces : forall ps, rstr_enc t = penc ps -> pieces_fit (Z.of_nat p) ps -> oncut ps s).
  { intros ps Ep Hps. exists F, p, more. rewrite <- Ep. auto. }
  destruct t as [t|n|n|n|ts]; cbn [str_small] in Hs.
  - cbn [piece_enc rstr_enc piece_fits] in *. unfold load_string.
    destruct (app_split _ _ _ _ E) as [(u & E1 & Hu & E2)|(u & E1 & E2)].
    + apply bad_cut, bad_bind. apply (cut_len (zlen t)); [exact Hs|]. exists F, p, u. cbn [piece_enc piece_fits]. auto.
    + destruct (At_len F p s (zlen t) u Hs HA E1) as (s1 & R1 & A1). rewrite R1. cbn [lbind].
      apply cut_bind; [|intros d s2 E3 W3; split; auto]. unfold zlen at 1. rewrite Nat2Z.id. eapply At_some_cut; [exact A1| |rewrite Nat2Z.inj_add; exact Hf].
      pose proof (drop_length F p) as Hd. rewrite E1, app_length in Hd. assert (Ht : length t = (length u + length more)%nat) by (rewrite E2, app_length; reflexivity).
      rewrite Ht. destruct HA as [Hp _]. destruct more; [congruence|]. cbn [length]. lia.
  - assert (Hc : oncut [PBytes [xc0]; PBytes [z2b n]] s) by (apply Hpieces; [cbn [rstr_enc]; rewrite le_1; reflexivity|repeat split]).
    apply oncut_cons in Hc as [(rest & O & Hnext)|Hc].
    + destruct (on_byte _ _ _ _ _ _ O) as (s1 & R1 & O1). apply on_skip, Hnext in O1. apply oncut_cons in O1 as [(rest1 & O1 & Hnext1)|Hc1].
      * destruct (on_byte _ _ _ _ _ _ O1) as (s2 & R2 & O2). apply on_skip, Hnext1, oncut_nil in O2. contradiction.
      * destruct (cut_byte _ _ Hc1) as [s2 R2]. unfold load_string. rewrite (load_string_marker 0 _ _ _ R1) by (reflexivity || lia). cbn [lbind Z.eqb Pos.eqb]. rewrite R2. exact I.
    + destruct (cut_byte _ _ Hc) as [s1 R1]. unfold load_string, load_len. rewrite R1. exact I.
  - assert (Hc : oncut [PBytes [xc1]; PBytes (le 2 n)] s) by (apply Hpieces; [reflexivity|repeat split]).
    apply oncut_cons in Hc as [(rest & O & Hnext)|Hc].
    + destruct (on_byte _ _ _ _ _ _ O) as (s1 & R1 & O1). apply on_skip, Hnext in O1. apply oncut_cons in O1 as [(rest1 & O1 & Hnext1)|Hc1].
      * rewrite <- (app_nil_r (le 2 n)) in O1. destruct (on_full _ (le 2 n) _ _ _ _ ltac:(rewrite le_zlen; lia) O1) as (s2 & R2 & O2). apply on_skip, Hnext1, oncut_nil in O2. contradiction.
      * destruct (cut_full _ _ Hc1) as (e & s2 & R2). rewrite le_length in R2. unfold load_string. rewrite (load_string_marker 1 _ _ _ R1) by (reflexivity || lia). cbn [lbind Z.eqb Pos.eqb]. rewrite R2. exact I.
    + destruct (cut_byte _ _ Hc) as [s1 R1]. unfold load_string, load_len. rewrite R1. exact I.
  - assert (Hc : oncut [PBytes [xc2]; PBytes (le 4 n)] s) by (apply Hpieces; [reflexivity|repeat split]).
    apply oncut_cons in Hc as [(rest & O & Hnext)|Hc].
    + destruct (on_byte _ _ _ _ _ _ O) as (s1 & R1 & O1). apply on_skip, Hnext in O1. apply oncut_cons in O1 as [(rest1 & O1 & Hnext1)|Hc1].
      * rewrite <- (app_nil_r (le 4 n)) in O1. destruct (on_full _ (le 4 n) _ _ _ _ ltac:(rewrite le_zlen; lia) O1) as (s2 & R2 & O2). apply on_skip, Hnext1, oncut_nil in O2. contradiction.
      * destruct (cut_full _ _ Hc1) as (e & s2 & R2). rewrite le_length in R2. unfold load_string. rewrite (load_string_marker 2 _ _ _ R1) by (reflexivity || lia). cbn [lbind Z.eqb Pos.eqb]. rewrite R2. exact I.
    + destruct (cut_byte _ _ Hc) as [s1 R1]. unfold load_string, load_len. rewrite R1. exact I.
  - destruct Hs as (Hts & Hok & Hcl & Htl). pose proof (zlen_nonneg (encode ts)). pose proof (zlen_nonneg (text [] ts)).
    assert (Hc : oncut [PBytes [xc3]; PBytes (rdb_len (zlen (encode ts))); PBytes (rdb_len (zlen (text [] ts))); PBytes (encode ts)] s).
    { apply Hpieces; [unfold penc; cbn [map concat piece_enc rstr_enc]; rewrite app_nil_r; reflexivity|repeat split]. }
    apply oncut_cons in Hc as [(rest & O & Hnext)|Hc].
    + destruct (on_byte _ _ _ _ _ _ O) as (s1 & R1 & O1). apply on_skip, Hnext in O1. unfold load_string. rewrite (load_string_marker 3 _ _ _ R1) by (reflexivity || lia). cbn [lbind Z.eqb Pos.eqb].
      apply oncut_cons in O1 as [(rest1 & O1 & Hnext1)|Hc1]; [|apply bad_cut, bad_bind, (cut_len (zlen (encode ts))); [unfold len_small; lia|exact Hc1]].
      destruct (on_len _ (zlen (encode ts)) _ _ _ ltac:(unfold len_small; lia) O1) as (s2 & R2 & O2). apply Hnext1 in O2. rewrite R2. cbn [lbind].
      apply oncut_cons in O2 as [(rest2 & O2 & Hnext2)|Hc2]; [|apply bad_cut, bad_bind, (cut_len (zlen (text [] ts))); [unfold len_small; lia|exact Hc2]].
      destruct (on_len _ (zlen (text [] ts)) _ _ _ ltac:(unfold len_small; lia) O2) as (s3 & R3 & O3). apply Hnext2 in O3. rewrite R3. cbn [lbind].
      apply oncut_cons in O3 as [(rest3 & O3 & Hnext3)|Hc3].
      * rewrite <- (app_nil_r (encode ts)) in O3. destruct (on_full _ (encode ts) _ _ _ _ Hcl O3) as (s4 & R4 & O4). apply on_skip, Hnext3, oncut_nil in O4. contradiction.
      * destruct (cut_full _ _ Hc3) as (e & s4 & R4). unfold zlen at 1. rewrite Nat2Z.id, R4. exact I.
    + destruct (cut_byte _ _ Hc) as [s1 R1]. unfold load_string, load_len. rewrite R1. exact I.
Qed.
Lemma cut_strings l : forall s, Forall str_small l -> oncut (map PStr l) s -> cutok (load_strings (length l) s).
Proof.
  induction l as [|t l IH]; intros s Hl Hc; [apply oncut_nil in Hc; contradiction|]. inversion Hl as [|? ? Ht Hl']; subst. cbn [map] in Hc. cbn [length load_strings].
  apply oncut_cons in Hc as [(rest & O & Hnext)|Hc].
  - destruct (on_str _ _ _ _ _ Ht O) as (s1 & R1 & O1). apply Hnext in O1. rewrite R1. cbn [lbind]. apply cut_bind; [apply IH; auto|]. intros; split; auto.
  - apply cut_bind; [eapply cut_string; eauto|]. intros v s1 E1 W1. apply cut_bind; [apply strings_none; auto|]. intros; split; auto.
Qed.
Lemma double_none s : bytes_left s = [] -> wf s -> load_double s = LErr.
Proof. intros E Hw. destruct (byte_none s E Hw) as [s' R]. unfold load_double. rewrite R. reflexivity. Qed.
Lemma cut_double t s : score_small t -> cut1 (PBytes (score_enc t)) s -> bad (load_double s).
Proof.
  intros [Hl Hp] (F & p & more & HA & E & Hm & _). cbn [piece_enc] in E. unfold score_enc in E. pose proof (zlen_nonneg t).
  assert (Hc : oncut [PBytes [z2b (zlen t)]; PBytes t] s).
  { exists F, p, more. split; [exact HA|]. split; [unfold penc; cbn [map concat piece_enc]; rewrite app_nil_r; exact E|]. split; [exact Hm|repeat split]. }
  apply oncut_cons in Hc as [(rest & O & Hnext)|Hc].
  - destruct (on_byte _ _ _ _ _ _ O) as (s1 & R1 & O1). apply on_skip, Hnext in O1. unfold load_double. rewrite R1. cbn [lift lbind]. rewrite b2z_z2b, Z.mod_small by lia.
    destruct (Z.eqb_spec (zlen t) 255); [lia|]. destruct (Z.eqb_spec (zlen t) 254); [lia|]. destruct (Z.eqb_spec (zlen t) 253); [lia|].
    apply oncut_cons in O1 as [(rest1 & O1 & Hnext1)|Hc1].
    + rewrite <- (app_nil_r t) in O1. destruct (on_full _ t _ _ _ _ ltac:(lia) O1) as (s2 & R2 & O2). apply on_skip, Hnext1, oncut_nil in O2. contradiction.
    + destruct (cut_full _ _ Hc1) as (e & s2 & R2). unfold zlen. rewrite Nat2Z.id, R2. exact I.
  - destruct (cut_byte _ _ Hc) as [s1 R1]. unfold load_double. rewrite R1. exact I.
Qed.
Lemma cut_scored l : forall s, Forall (fun '(m, t) => str_small m /\ score_small t) l ->
  oncut (flat_map (fun '(m, t) => [PStr m; PBytes (score_enc t)]) l) s -> cutok (load_scored false (length l) s).
Proof.
  induction l as [|[m t] l IH]; intros s Hl Hc; [apply oncut_nil in Hc; contradiction|]. inversion Hl as [|? ? Hmt Hl']; subst. cbv beta iota in Hmt. destruct Hmt as [Hm Ht].
  cbn [flat_map app] in Hc. cbn [length load_scored]. apply oncut_cons in Hc as [(rest & O & Hnext)|Hc].
  - destruct (on_str _ _ _ _ _ Hm O) as (s1 & R1 & O1). apply Hnext in O1. rewrite R1. cbn [lbind]. apply oncut_cons in O1 as [(rest1 & O1 & Hnext1)|Hc1].
    + destruct (load_double_text _ _ _ _ _ Ht O1) as (f & s2 & _ & R2 & O2). apply Hnext1 in O2. rewrite R2. cbn [lbind]. apply cut_bind; [apply IH; auto|]. intros; split; auto.
    + apply bad_cut, bad_bind. eapply cut_double; eauto.
  - apply cut_bind; [eapply cut_string; eauto|]. intros v s1 E1 W1. rewrite double_none by auto. exact I.
Qed.
Lemma cut_opt {A} (o : option A) s : bytes_left s = [] -> wf s -> cutok (lift_opt o s).
Proof. intros E W. destruct o; [split; auto|exact I]. Qed.
Lemma cut_nodes l : forall s, Forall (fun '(w, (tail, es)) => str_small w /\ rstr_text w = ziplist_enc tail es /\ Forall zentry_small es) l ->
  oncut (map (fun '(w, _) => PStr w) l) s -> cutok (load_nodes (length l) s).
Proof.
  induction l as [|[w [tail es]] l IH]; intros s Hl Hc; [apply oncut_nil in Hc; contradiction|]. inversion Hl as [|? ? Hwe Hl']; subst. cbv beta iota in Hwe. destruct Hwe as (Hw & Et & Hes).
  cbn [map] in Hc. cbn [length load_nodes]. apply oncut_cons in Hc as [(rest & O & Hnext)|Hc].
  - destruct (on_str _ _ _ _ _ Hw O) as (s1 & R1 & O1). apply Hnext in O1. rewrite R1. cbn [lbind]. rewrite Et, ziplist_small by exact Hes. cbn [lift_opt lbind].
    apply cut_bind; [apply IH; auto|]. intros; split; auto.
  - apply cut_bind; [eapply cut_string; eauto|]. intros v s1 E1 W1. apply cut_bind; [apply cut_opt; auto|]. intros x s2 E2 W2. apply cut_bind; [apply nodes_none; auto|]. intros; split; auto.
Qed.
Definition cutv (x : lres (option (list gostr) * bool)) : Prop := match x with LOk (_, stop) s => stop = false /\ bytes_left s = [] /\ wf s | LFuel => False | _ => True end.
Lemma cut_some (x : lres (list gostr)) h : cutok x -> cutv (lbind x (fun l s' => LOk (Some (h l), false) s')).
Proof. destruct x; cbn; auto. Qed.
Lemma cut_counted {A} n qs s (k : nat -> rd -> lres A) : len_small n -> oncut (PBytes (rdb_len n) :: qs) s ->
  (forall s1, oncut qs s1 -> cutok (k (Z.to_nat n) s1)) -> cutok (lbind (load_len s) (fun '(n, _) s1 => k (Z.to_nat n) s1)).
Proof.
  intros Hn Hc Hk. apply oncut_cons in Hc as [(rest & O & Hnext)|Hc].
  - destruct (on_len _ _ _ _ _ Hn O) as (s1 & R1 & O1). apply Hnext in O1. rewrite R1. cbn [lbind]. auto.
  - apply bad_cut, bad_bind. eapply cut_len; eauto.
Qed.
Lemma oncut_one x s : oncut [x] s -> cut1 x s.
Proof.
  intros (F & p & more & HA & E & Hm & Hf). exists F, p, more. unfold penc in E. cbn [map concat] in E. rewrite app_nil_r in E. split; [exact HA|]. split; [exact E|]. split; [exact Hm|apply Hf].
Qed.
Lemma cut_val range v key s : val_small v -> oncut (val_pieces v) s -> cutv (load_value range (b2z (val_type v)) key s).
Proof.
  intros Hv Hc. destruct v as [v|l|l|l|l|l|w tail es|w tail es|w tail es|w width l|w l]; cbn [val_small val_pieces] in *.
  - refine (cut_some _ (fun l => bs "set" :: key :: l) _). apply oncut_one in Hc. apply cut_bind; [eapply cut_string; eauto|]. intros; split; auto.
  - destruct Hv as [Hn Hl]. refine (cut_some _ (fun l => bs "lPush" :: key :: l) _). eapply cut_counted; [exact Hn|exact Hc|]. intros s1 H1. unfold zlen. rewrite Nat2Z.id. apply cut_strings; auto.
  - destruct Hv as [Hn Hl]. refine (cut_some _ (fun l => bs "sAdd" :: key :: l) _). eapply cut_counted; [exact Hn|exact Hc|]. intros s1 H1. unfold zlen. rewrite Nat2Z.id. apply cut_strings; auto.
  - destruct Hv as [Hn Hl]. refine (cut_some _ (fun l => bs "zAdd" :: key :: l) _). eapply cut_counted; [exact Hn|exact Hc|]. intros s1 H1. unfold zlen. rewrite Nat2Z.id. apply cut_scored; auto.
  - destruct Hv as [Hn Hl]. refine (cut_some _ (fun l => bs "zAdd" :: key :: l) _). eapply (cut_counted _ _ _ (fun n => load_strings (2 * n))); [exact Hn|exact Hc|]. intros s1 H1.
    assert (Hflat : flat_map (fun '(f, v) => [PStr f; PStr v]) l = map PStr (flat_map (fun '(f, v) => [f; v]) l)).
    { clear. induction l as [|[f v] l IH]; [reflexivity|]. cbn. rewrite IH. reflexivity. }
    rewrite Hflat in H1. assert (Hl2 : Forall str_small (flat_map (fun '(f, v) => [f; v]) l)).
    { clear - Hl. induction Hl as [|[f v] l Hfv Hl IH]; [constructor|]. cbn in *. destruct Hfv. constructor; [assumption|]. constructor; assumption. }
    assert (Hlen : length (flat_map (fun '(f, v) => [f; v]) l) = (2 * length l)%nat).
    { clear. induction l as [|[f v] l IH]; [reflexivity|]. cbn [flat_map app length]. lia. }
    unfold zlen. rewrite Nat2Z.id, <- Hlen. apply cut_strings; auto.
  - destruct Hv as [Hn Hl]. refine (cut_some _ (fun l => bs "rPush" :: key :: l) _). eapply cut_counted; [exact Hn|exact Hc|]. intros s1 H1. unfold zlen. rewrite Nat2Z.id. apply cut_nodes; auto.
  - destruct Hv as [Hw _]. refine (cut_some _ (fun l => bs "rPush" :: key :: l) _). apply oncut_one in Hc. apply cut_bind; [eapply cut_string; eauto|]. intros; apply cut_opt; auto.
  - destruct Hv as [Hw _]. refine (cut_some _ (fun l => bs "hmSet" :: key :: l) _). apply oncut_one in Hc. apply cut_bind; [eapply cut_string; eauto|]. intros; apply cut_opt; auto.
  - destruct Hv as [Hw _]. refine (cut_some _ (fun l => bs "zAdd" :: key :: l) _). apply oncut_one in Hc. apply cut_bind; [eapply cut_string; eauto|]. intros; apply cut_opt; auto.
  - destruct Hv as [Hw _]. refine (cut_some _ (fun l => bs "sAdd" :: key :: l) _). apply oncut_one in Hc. apply cut_bind; [eapply cut_string; eauto|]. intros; apply cut_opt; auto.
  - destruct Hv as [Hw _]. refine (cut_some _ (fun l => bs "hmSet" :: key :: l) _). apply oncut_one in Hc. apply cut_bind; [eapply cut_string; eauto|]. intros; apply cut_opt; auto.
Qed.
Definition cuti (x : lres (list rmsg * lst * bool)) : Prop := match x with LOk (_, _, more) s => more = true /\ bytes_left s = [] /\ wf s | LFuel => False | _ => True end.
Lemma bad_cuti x : bad x -> cuti x.
Proof. destruct x; cbn; tauto. Qed.
Lemma cuti_bind {A} (x : lres A) k : cutok x -> (forall a s, bytes_left s = [] -> wf s -> cuti (k a s)) -> cuti (lbind x k).
Proof. destruct x; cbn; intros H1 H2; auto. apply H2; tauto. Qed.
Lemma value_none range v key s : bytes_left s = [] -> wf s -> cutv (load_value range (b2z (val_type v)) key s).
Proof.
  intros E W. destruct v; unfold load_value; cbn -[load_string load_len bs ziplist_load intset_load zipmap_load]; rewrite ?(string_none s E W), ?(len_none s E W); exact I.
Qed.
Lemma cut_item range st i s : item_small i -> oncut (item_pieces i) s -> cuti (lbind (load_opcode s) (fun op s1 => load_item range st op s1)).
Proof.
  intros Hi Hc. unfold load_opcode.
  assert (Hop : (exists s', read_byte s = RErr EEof s') \/ exists b qs s1, read_byte s = ROk b s1 /\ item_pieces i = PBytes [b] :: qs /\ oncut qs s1).
  { destruct i; cbn [item_pieces] in *; (apply oncut_cons in Hc as [(rest & O & Hnext)|Hc]; [right; destruct (on_byte _ _ _ _ _ _ O) as (s1 & R1 & O1); apply on_skip, Hnext in O1; eexists _, _, s1; split; eauto|left; eapply cut_byte; eauto]). }
  destruct Hop as [[s' R]|(b & qs & s1 & R & Eb & O)]; rewrite R; cbn [lift lbind]; [exact I|]. clear Hc R s. unfold load_item.
  destruct i as [k v|d|a c|t|t|f|n|k v]; cbn [item_pieces] in Eb; inversion Eb; subst b qs; clear Eb; cbn [item_small] in Hi.
  - destruct Hi as (Hk & Hv & Ho). change (cuti (lbind (load_string s1) (fun k0 s2 => lbind (load_string s2) (fun v0 s3 => if gostr_eqb k0 (bs "repl-id") then LOk ([], Lst (l_db st) v0 (l_off st) (l_exp st), true) s3 else if gostr_eqb k0 (bs "repl-offset") then match atoi v0 with Some n => LOk ([], Lst (l_db st) (l_id st) n (l_exp st), true) s3 | None => LErr end else LOk ([], st, true) s3)))).
    assert (Hend : forall k0 v0 s3, bytes_left s3 = [] -> wf s3 -> cuti (if gostr_eqb k0 (bs "repl-id") then LOk ([], Lst (l_db st) v0 (l_off st) (l_exp st), true) s3 else if gostr_eqb k0 (bs "repl-offset") then match atoi v0 with Some n => LOk ([], Lst (l_db st) (l_id st) n (l_exp st), true) s3 | None => LErr end else LOk ([], st, true) s3)).
    { intros k0 v0 s3 E W. destruct (gostr_eqb k0 _); [cbn; auto|]. destruct (gostr_eqb k0 _); [|cbn; auto]. destruct (atoi v0); cbn; auto. }
    apply oncut_cons in O as [(rest & O & Hnext)|Hc].
    + destruct (on_str _ _ _ _ _ Hk O) as (s2 & R2 & O2). apply Hnext in O2. rewrite R2. cbn [lbind]. apply oncut_one in O2. apply cuti_bind; [exact (cut_string v s2 Hv O2)|]. auto.
    + apply cuti_bind; [exact (cut_string k s1 Hk Hc)|]. intros k0 s2 E W. rewrite string_none by auto. exact I.
  - apply oncut_one in O. apply bad_cuti, bad_bind. exact (cut_len _ _ Hi O).
  - destruct Hi as [Ha Hc]. apply oncut_cons in O as [(rest & O & Hnext)|Hc1].
    + destruct (on_len _ _ _ _ _ Ha O) as (s2 & R2 & O2). apply Hnext, oncut_one in O2. change (cuti (lbind (load_len s1) (fun _ s1 => lbind (load_len s1) (fun _ s2 => LOk ([], st, true) s2)))). rewrite R2. cbn [lbind]. apply bad_cuti, bad_bind. exact (cut_len _ _ Hc O2).
    + apply bad_cuti, bad_bind. exact (cut_len _ _ Ha Hc1).
  - apply oncut_one in O. destruct (cut_full _ _ O) as (e & s2 & R2). rewrite le_length in R2. change (b2z xfd =? 253) with true. cbv iota. rewrite R2. exact I.
  - apply oncut_one in O. destruct (cut_full _ _ O) as (e & s2 & R2). rewrite le_length in R2. change (b2z xfc =? 253) with false. change (b2z xfc =? 252) with true. cbv iota. rewrite R2. exact I.
  - apply oncut_one in O. destruct (cut_byte _ _ O) as (s2 & R2). change (cuti (lbind (lift (read_byte s1)) (fun _ s1 => LOk ([], st, true) s1))). rewrite R2. exact I.
  - apply oncut_one in O. apply bad_cuti, bad_bind. exact (cut_len _ _ Hi O).
  - destruct Hi as (Hk & Hne & Hv).
    assert (Hb : forall z, z ∈ [253; 252; 249; 248; 255; 254; 251; 250; 247] -> (b2z (val_type v) =? z) = false).
    { intros z Hz. apply Z.eqb_neq. intros E. repeat (apply elem_of_cons in Hz as [->|Hz]; [destruct v; discriminate E|]). apply elem_of_nil in Hz. exact Hz. }
    rewrite !Hb by set_solver.
    assert (Hend : forall key x, cutv x -> cuti (lbind x (fun '(cmd, stop) s2 =>
      LOk (match cmd with Some args => [emit st args] | None => [] end ++ (if l_exp st >? 0 then [emit st [bs "pExpire"; key; itoa (wrap64 (l_exp st))]] else []), Lst (l_db st) (l_id st) (l_off st) 0, negb stop) s2))).
    { intros key x Hx. destruct x as [[cmd stop] s2| | | |]; cbn in *; auto. destruct Hx as (-> & Hx). auto. }
    apply oncut_cons in O as [(rest & O & Hnext)|Hc].
    + destruct (on_str _ _ _ _ _ Hk O) as (s2 & R2 & O2). apply Hnext in O2. rewrite R2. cbn [lbind]. destruct (gostr_eqb (rstr_text k) []); [exact I|]. apply Hend. apply cut_val; auto.
    + apply cuti_bind; [exact (cut_string k s1 Hk Hc)|]. intros key s2 E W. destruct (gostr_eqb key []); [exact I|]. apply Hend. apply value_none; auto.
Qed.
Lemma loop_none range fuel st s : bytes_left s = [] -> wf s -> load_loop range (S fuel) st s = ([], OErr, st).
Proof. intros E W. cbn [load_loop]. unfold load_opcode. destruct (byte_none s E W) as [s' R]. rewrite R. reflexivity. Qed.
Lemma cut_loop range l : forall st s fuel, is_range range -> Forall item_small l -> exp_ok st -> oncut (items_pieces l ++ [PBytes [xff]]) s -> (length (bytes_left s) < fuel)%nat ->
  snd (fst (load_loop range fuel st s)) <> ONil /\ snd (fst (load_loop range fuel st s)) <> OFuel.
Proof.
  induction l as [|i l IH]; intros st s fuel Hr Hl Hst Hc Hf; (destruct fuel as [|fuel]; [lia|]).
  - cbn [items_pieces flat_map app] in Hc. apply oncut_one in Hc. destruct (cut1_left _ _ Hc) as [H1 W]. rewrite loop_none; [cbn; split; discriminate|apply left_nil; exact H1|exact W].
  - inversion Hl as [|? ? Hi Hl']; subst. change (items_pieces (i :: l)) with (item_pieces i ++ items_pieces l) in Hc. rewrite <- app_assoc in Hc.
    assert (W0 : wf s) by (destruct Hc as (F & p & more & HA & _); eapply At_wf, HA).
    cbn [load_loop]. apply oncut_app in Hc as [(rest & O & Hnext)|Hc].
    + rewrite <- (app_nil_r (item_pieces i)) in O. destruct (on_left _ _ _ _ O) as [EL _]. destruct (on_item _ range st i _ _ _ Hr Hi Hst O) as (s1 & R1 & O1).
      destruct (on_left _ _ _ _ O1) as [EL1 _]. apply Hnext in O1. rewrite R1.
      assert (Hf1 : (length (bytes_left s1) < fuel)%nat).
      { rewrite EL, app_nil_r, app_length in Hf. rewrite EL1. change (penc [] ++ rest) with rest. pose proof (item_len i). lia. }
      specialize (IH (item_state st i) s1 fuel Hr Hl' (item_state_exp _ _ Hi Hst) O1 Hf1).
      destruct (load_loop range fuel (item_state st i) s1) as [[r o] e]. exact IH.
    + pose proof (cut_item range st i s Hi Hc) as Hx. destruct (bytes_left s) as [|b r] eqn:Eb.
      * unfold load_opcode in *. destruct (byte_none s Eb W0) as [s' R]. rewrite R. cbn. split; discriminate.
      * destruct (lbind (load_opcode s) _) as [[[ms st'] more] s1| | | |]; cbn in Hx; try contradiction; try (cbn; split; discriminate).
        destruct Hx as (-> & E & W). destruct fuel as [|fuel]; [cbn in Hf; lia|]. rewrite loop_none by auto. cbn. split; discriminate.
Qed.
Lemma fit_end p ps : pieces_fit p ps -> pieces_fit p (ps ++ [PBytes [xff]]).
Proof. intros H. apply fit_app. split; [exact H|repeat split]. Qed.
Lemma cut_file range version l F' more db : is_range range -> length version = 9%nat -> Forall item_small l -> unsplit l ->
  F' ++ more = version ++ penc (items_pieces l) ++ [xff] -> more <> [] ->
  snd (fst (load range db [F'])) <> ONil /\ snd (fst (load range db [F'])) <> OFuel.
Proof.
  intros Hr Hv Hl Hu E Hm. unfold load. destruct (app_split _ _ _ _ E) as [(u & E1 & Hne & E2)|(u & E1 & E2)].
  - (* within the version *)
    assert (Hl9 : (length F' < 9)%nat) by (rewrite <- Hv, E1, app_length; destruct u; [congruence|cbn; lia]).
    destruct F' as [|b r]; [cbn; split; discriminate|]. set (F := b :: r) in *.
    assert (Hc : cutok (lift (read_some 9 (new_rd [F])))) by (apply (At_some_cut F 0); [apply At_0; discriminate|lia|right; exists 0; lia]).
    destruct (read_some 9 (new_rd [F])) as [d s|e s| |]; cbn in Hc; try contradiction; [|cbn; split; discriminate|cbn; split; discriminate].
    destruct Hc as [Hc W]. rewrite loop_none by auto. cbn. split; discriminate.
  - subst F'. destruct (read_version version u Hv) as (s & R). rewrite R.
    assert (HF : version ++ u <> []) by (destruct version; discriminate).
    destruct (At_some (version ++ u) 0 (new_rd [version ++ u]) 9 (At_0 _ HF)) as (s' & R' & A'); [lia|rewrite app_length; lia|right; exists 0; lia|].
    rewrite R in R'. injection R' as _ <-.
    assert (Hd : drop 9 (version ++ u) = u) by (rewrite <- Hv, drop_app; reflexivity).
    assert (Hc : oncut (items_pieces l ++ [PBytes [xff]]) s).
    { exists (version ++ u), (0 + 9)%nat, more. split; [exact A'|]. split; [cbn [Nat.add]; rewrite Hd, penc_app; symmetry; exact E2|]. split; [exact Hm|]. apply fit_end. exact Hu. }
    apply (cut_loop range l); auto. unfold exp_ok. cbn. lia.
Qed.

(** ** the loop always ends: every iteration uses up at least one byte *)
Definition prog {A} (k : nat) (s : rd) (x : lres A) : Prop :=
  match x with LOk _ s' => wf s' /\ (length (bytes_left s') + k <= length (bytes_left s))%nat | LFuel => False | _ => True end.
Lemma prog_le {A} k j s (x : lres A) : (j <= k)%nat -> prog k s x -> prog j s x.
Proof. destruct x; cbn; auto. intros H [W L]. split; [exact W|lia]. Qed.
Lemma prog_bind {A B} k s (x : lres A) (f : A -> rd -> lres B) : prog k s x -> (forall a s', x = LOk a s' -> wf s' -> prog 0 s' (f a s')) -> prog k s (lbind x f).
Proof.
  destruct x as [a s'| | | |]; cbn; auto. intros [W L] H. specialize (H a s' eq_refl W). destruct (f a s'); cbn in *; auto. destruct H. split; [auto|lia].
Qed.
Lemma prog_byte s : wf s -> prog 1 s (lift (read_byte s)).
Proof.
  intros W. pose proof (read_byte_spec s W) as H. destruct (bytes_left s) as [|b r] eqn:E.
  - destruct H as (s' & -> & _). exact I.
  - destruct H as (s' & -> & El & W'). split; [exact W'|]. rewrite El, E. cbn. lia.
Qed.
Lemma prog_full n s : wf s -> prog 0 s (lift (read_full n s)).
Proof.
  intros W. pose proof (read_full_spec n s W) as H. destruct (read_full n s) as [d s'|e s'| |]; cbn; auto. destruct H as (_ & E & W'). split; [exact W'|]. rewrite E, app_length. lia.
Qed.
Lemma prog_some n s : wf s -> prog 0 s (lift (read_some n s)).
Proof.
  intros W. pose proof (read_some_spec n s W) as H. destruct (read_some n s) as [d s'|e s'| |]; cbn; auto. destruct H as (E & _ & W'). split; [exact W'|]. rewrite E, app_length. lia.
Qed.
Lemma prog_ok {A} (a : A) s : wf s -> prog 0 s (LOk a s).
Proof. intros W. split; [exact W|lia]. Qed.
Lemma prog_len s : wf s -> prog 1 s (load_len s).
Proof.
  intros W. unfold load_len. apply prog_bind; [apply prog_byte; exact W|]. intros b s1 _ W1. cbv zeta.
  destruct (_ =? 3); [apply prog_ok; auto|]. destruct (_ =? 0); [apply prog_ok; auto|]. destruct (_ =? 1).
  - pose proof (prog_byte s1 W1) as H. destruct (read_byte s1) as [b1 s2|e s2| |]; cbn in *; auto. destruct H. split; [auto|lia].
  - assert (Hs : forall n, prog 0 s1 (skip_len n s1)).
    { intros n. unfold skip_len. pose proof (read_full_spec n s1 W1) as H. destruct (read_full n s1) as [d s'|e s'| |]; cbn; auto.
      - destruct H as (_ & E & W'). split; [exact W'|]. rewrite E, app_length. lia.
      - destruct H as (_ & E & W'). split; [exact W'|]. rewrite E. cbn. lia. }
    destruct (_ =? 128); [apply Hs|]. destruct (_ =? 129); [apply Hs|exact I].
Qed.
Lemma len_bound s : match load_len s with LOk (n, _) _ => 0 <= n < 16384 | _ => True end.
Proof.
  unfold load_len. destruct (read_byte s) as [b s1|e s1| |]; cbn [lift lbind]; auto. pose proof (b2z_range b) as Hb. rewrite low_bits, top_bits by lia.
  pose proof (Z.mod_pos_bound (b2z b) 64 ltac:(lia)). destruct (_ =? 3); [lia|]. destruct (_ =? 0); [lia|]. destruct (_ =? 1).
  - destruct (read_byte s1) as [b1 s2|e s2| |]; auto. pose proof (b2z_range b1). lia.
  - assert (Hs : forall n, match skip_len n s1 with LOk (n, _) _ => 0 <= n < 16384 | _ => True end) by (intros n; unfold skip_len; destruct (read_full n s1); lia || auto).
    destruct (_ =? 128); [apply Hs|]. destruct (_ =? 129); [apply Hs|exact I].
Qed.
Lemma decompress_fuel c m : zlen c < 2 ^ 32 -> m < 2 ^ 32 -> decompress c m <> MFuel.
Proof.
  intros Hc Hm. unfold decompress. destruct c as [|b c]; [discriminate|]. set (s := b :: c) in *. destruct (Z.leb_spec m 0); [discriminate|]. cbn [orb].
  destruct (m >? 2 ^ 48); [discriminate|]. pose proof (zlen_nonneg s).
  assert (Hz : zlen (zeros m) = m) by (unfold zeros, zlen; rewrite replicate_length; lia).
  destruct (C94_decompress_safe s (zeros m) (zeros m)) as (r & out' & _ & E & _); [discriminate|reflexivity|].
  rewrite !u32_small by lia. rewrite Hz in E. rewrite E. cbn [mbind]. destruct (_ =? 0); discriminate.
Qed.
Lemma prog_string s : wf s -> prog 1 s (load_string s).
Proof.
  intros W. unfold load_string. apply prog_bind; [apply prog_len; exact W|]. intros [len encoded] s1 E1 W1. destruct encoded.
  - destruct (_ =? 0); [apply prog_bind; [eapply prog_le; [|apply prog_byte; auto]; lia|intros; apply prog_ok; auto]|].
    destruct (_ =? 1); [apply prog_bind; [apply prog_full; auto|intros; apply prog_ok; auto]|].
    destruct (_ =? 2).
    { pose proof (prog_full 4 s1 W1) as H. destruct (read_full 4 s1); cbn in *; auto. }
    destruct (_ =? 3); [|exact I]. apply prog_bind; [eapply prog_le; [|apply prog_len; auto]; lia|]. intros [n x] s2 E2 W2.
    apply prog_bind; [eapply prog_le; [|apply prog_len; auto]; lia|]. intros [m y] s3 E3 W3. apply prog_bind; [apply prog_full; auto|]. intros c s4 E4 W4.
    pose proof (len_bound s1) as B1. rewrite E2 in B1. pose proof (len_bound s2) as B2. rewrite E3 in B2.
    assert (Hc : zlen c < 2 ^ 32).
    { pose proof (read_full_spec (Z.to_nat n) s3 W3) as H. destruct (read_full (Z.to_nat n) s3); try discriminate. injection E4 as <- <-. destruct H as [H _]. unfold zlen. rewrite H. lia. }
    pose proof (decompress_fuel c m Hc ltac:(lia)) as HF. unfold lift_lzf. destruct (decompress c m); [apply prog_ok; auto|exact I|contradiction].
  - apply prog_bind; [apply prog_some; auto|]. intros; apply prog_ok; auto.
Qed.
Lemma prog_strings k : forall s, wf s -> prog 0 s (load_strings k s).
Proof.
  induction k as [|k IH]; intros s W; [apply prog_ok; auto|]. cbn [load_strings]. apply prog_bind; [eapply prog_le; [|apply prog_string; auto]; lia|]. intros v s1 _ W1.
  apply prog_bind; [apply IH; auto|]. intros; apply prog_ok; auto.
Qed.
Lemma prog_double (bin : bool) s : wf s -> prog 0 s (if bin then load_binary_double s else load_double s).
Proof.
  intros W. destruct bin.
  - unfold load_binary_double. apply prog_bind; [apply prog_full; auto|]. intros; apply prog_ok; auto.
  - unfold load_double. apply prog_bind; [eapply prog_le; [|apply prog_byte; auto]; lia|]. intros b s1 _ W1. destruct (_ =? 255); [apply prog_ok; auto|].
    destruct (_ =? 254); [apply prog_ok; auto|]. destruct (_ =? 253); [apply prog_ok; auto|]. apply prog_bind; [apply prog_full; auto|]. intros d s2 _ W2. destruct (parse_float d); [apply prog_ok; auto|exact I].
Qed.
Lemma prog_scored bin k : forall s, wf s -> prog 0 s (load_scored bin k s).
Proof.
  induction k as [|k IH]; intros s W; [apply prog_ok; auto|]. cbn [load_scored]. apply prog_bind; [eapply prog_le; [|apply prog_string; auto]; lia|]. intros v s1 _ W1.
  apply prog_bind; [apply prog_double; auto|]. intros f s2 _ W2. apply prog_bind; [apply IH; auto|]. intros; apply prog_ok; auto.
Qed.
Lemma prog_opt {A} (o : option A) s : wf s -> prog 0 s (lift_opt o s).
Proof. intros W. destruct o; [apply prog_ok; auto|exact I]. Qed.
Lemma prog_nodes k : forall s, wf s -> prog 0 s (load_nodes k s).
Proof.
  induction k as [|k IH]; intros s W; [apply prog_ok; auto|]. cbn [load_nodes]. apply prog_bind; [eapply prog_le; [|apply prog_string; auto]; lia|]. intros v s1 _ W1.
  apply prog_bind; [apply prog_opt; auto|]. intros f s2 _ W2. apply prog_bind; [apply IH; auto|]. intros; apply prog_ok; auto.
Qed.
Lemma prog_value range op key s : wf s -> prog 0 s (load_value range op key s).
Proof.
  intros W. unfold load_value.
  assert (Hcount : forall (k : nat -> rd -> lres (list gostr)), (forall n s, wf s -> prog 0 s (k n s)) -> forall (h : list gostr -> list gostr), prog 0 s (lbind (lbind (load_len s) (fun '(n, _) s1 => k (Z.to_nat n) s1)) (fun l s' => LOk (Some (h l), false) s'))).
  { intros k Hk h. apply prog_bind; [|intros; apply prog_ok; auto]. apply prog_bind; [eapply prog_le; [|apply prog_len; auto]; lia|]. intros [n x] s1 _ W1. apply Hk; auto. }
  assert (Hstr : forall (k : gostr -> rd -> lres (list gostr)), (forall v s, wf s -> prog 0 s (k v s)) -> forall (h : list gostr -> list gostr), prog 0 s (lbind (lbind (load_string s) k) (fun l s' => LOk (Some (h l), false) s'))).
  { intros k Hk h. apply prog_bind; [|intros; apply prog_ok; auto]. apply prog_bind; [eapply prog_le; [|apply prog_string; auto]; lia|]. intros v s1 _ W1. apply Hk; auto. }
  destruct (op =? 0); [refine (Hstr _ _ (fun l => bs "set" :: key :: l)); intros; apply prog_ok; auto|].
  destruct (op =? 1); [apply (Hcount load_strings prog_strings (fun l => bs "lPush" :: key :: l))|].
  destruct (op =? 2); [apply (Hcount load_strings prog_strings (fun l => bs "sAdd" :: key :: l))|].
  destruct (op =? 3); [apply (Hcount (load_scored false) (prog_scored false) (fun l => bs "zAdd" :: key :: l))|].
  destruct (op =? 5); [apply (Hcount (load_scored true) (prog_scored true) (fun l => bs "zAdd" :: key :: l))|].
  destruct (op =? 4); [apply (Hcount (fun n => load_strings (2 * n)) (fun n => prog_strings (2 * n)) (fun l => bs "zAdd" :: key :: l))|].
  destruct (op =? 14); [apply (Hcount load_nodes prog_nodes (fun l => bs "rPush" :: key :: l))|].
  destruct (op =? 9); [refine (Hstr _ _ (fun l => bs "hmSet" :: key :: l)); intros; apply prog_opt; auto|].
  destruct (op =? 10); [refine (Hstr _ _ (fun l => bs "rPush" :: key :: l)); intros; apply prog_opt; auto|].
  destruct (op =? 11); [refine (Hstr _ _ (fun l => bs "sAdd" :: key :: l)); intros; apply prog_opt; auto|].
  destruct (op =? 12); [refine (Hstr _ _ (fun l => bs "zAdd" :: key :: l)); intros; apply prog_opt; auto|].
  destruct (op =? 13); [refine (Hstr _ _ (fun l => bs "hmSet" :: key :: l)); intros; apply prog_opt; auto|].
  destruct (op =? 15); [apply prog_bind; [eapply prog_le; [|apply prog_len; auto]; lia|intros; apply prog_ok; auto]|].
  destruct (_ || _); apply prog_ok; auto.
Qed.
Lemma prog_item range st op s : wf s -> prog 0 s (load_item range st op s).
Proof.
  intros W. unfold load_item.
  assert (Hlen : forall s, wf s -> prog 0 s (load_len s)) by (intros; eapply prog_le; [|apply prog_len; auto]; lia).
  assert (Hstr : forall s, wf s -> prog 0 s (load_string s)) by (intros; eapply prog_le; [|apply prog_string; auto]; lia).
  destruct (op =? 253); [apply prog_bind; [apply prog_full; auto|intros; apply prog_ok; auto]|].
  destruct (op =? 252); [apply prog_bind; [apply prog_full; auto|intros; apply prog_ok; auto]|].
  destruct (op =? 249); [apply prog_bind; [eapply prog_le; [|apply prog_byte; auto]; lia|intros; apply prog_ok; auto]|].
  destruct (op =? 248); [apply prog_bind; [auto|intros; apply prog_ok; auto]|].
  destruct (op =? 255); [apply prog_ok; auto|].
  destruct (op =? 254); [apply prog_bind; [auto|intros [] ? ? ?; apply prog_ok; auto]|].
  destruct (op =? 251); [apply prog_bind; [auto|intros; apply prog_bind; [auto|intros; apply prog_ok; auto]]|].
  destruct (op =? 250).
  { apply prog_bind; [auto|]. intros k s1 _ W1. apply prog_bind; [auto|]. intros v s2 _ W2. destruct (gostr_eqb _ _); [apply prog_ok; auto|]. destruct (gostr_eqb _ _); [|apply prog_ok; auto]. destruct (atoi v); [apply prog_ok; auto|exact I]. }
  destruct (op =? 247).
  { apply prog_bind; [auto|]. intros ? s1 _ W1. apply prog_bind; [auto|]. intros [w ?] s2 _ W2. destruct (negb _); [exact I|]. apply prog_bind; [auto|]. intros ? s3 _ W3.
    apply prog_bind; [auto|]. intros [e ?] s4 _ W4. destruct (negb _); [exact I|]. apply prog_ok; auto. }
  apply prog_bind; [auto|]. intros key s1 _ W1. destruct (gostr_eqb _ _); [exact I|]. apply prog_bind; [apply prog_value; auto|]. intros [cmd stop] s2 _ W2. apply prog_ok; auto.
Qed.
Lemma load_loop_ends range fuel : forall st s, wf s -> (length (bytes_left s) < fuel)%nat -> snd (fst (load_loop range fuel st s)) <> OFuel.
Proof.
  induction fuel as [|fuel IH]; intros st s W Hf; [lia|]. cbn [load_loop].
  assert (Hp : prog 1 s (lbind (load_opcode s) (fun op s1 => load_item range st op s1))).
  { apply prog_bind; [unfold load_opcode; apply prog_bind; [apply prog_byte; auto|intros; apply prog_ok; auto]|]. intros op s1 _ W1. apply prog_item; auto. }
  destruct (lbind (load_opcode s) _) as [[[ms st'] more] s1| | | |]; cbn in Hp; try contradiction; try (cbn; discriminate).
  destruct Hp as [W1 L1]. destruct more; [|cbn; discriminate]. specialize (IH st' s1 W1 ltac:(lia)). destruct (load_loop range fuel st' s1) as [[r o] e]. exact IH.
Qed.
