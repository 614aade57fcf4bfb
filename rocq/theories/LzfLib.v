(** * LzfLib: the compressor writes a token stream for its input, the decompressor reads one *)
From stdpp Require Import list.
From Verif Require Import Base LzfModel LzfSpec.

(** ** memory *)
Lemma get_ok l i b : l !! i = Some b -> get l (Z.of_nat i) = MOk (b2z b).
Proof. intros H. unfold get. destruct (Z.ltb_spec (Z.of_nat i) 0); [lia|]. rewrite Nat2Z.id, H. reflexivity. Qed.
Lemma lookup_some (l : gostr) i : (i < length l)%nat -> exists b, l !! i = Some b.
Proof. intros H. destruct (l !! i) eqn:E; eauto. apply lookup_ge_None in E. lia. Qed.
Lemma get_in l i : (i < length l)%nat -> exists b, l !! i = Some b /\ get l (Z.of_nat i) = MOk (b2z b).
Proof. intros H. destruct (lookup_some l i H) as [b E]. exists b. split; [exact E|]. apply get_ok. exact E. Qed.
Lemma put_ok l i v : (i < length l)%nat -> put l (Z.of_nat i) v = MOk (<[i := z2b v]> l).
Proof.
  intros H. unfold put, zlen.
  destruct (Z.leb_spec 0 (Z.of_nat i)); [|lia]. destruct (Z.ltb_spec (Z.of_nat i) (Z.of_nat (length l))); [|lia].
  cbn. rewrite Nat2Z.id. f_equal. f_equal. apply b2z_inj. rewrite !b2z_z2b. apply Z.mod_mod. lia.
Qed.
Lemma take_put (w out : gostr) e b : take e out = w -> (e < length out)%nat -> take (e + 1) (<[e := b]> out) = w ++ [b].
Proof.
  intros Hw He. replace (e + 1)%nat with (S e) by lia. rewrite (take_S_r _ _ b) by (apply list_lookup_insert; lia).
  rewrite take_insert by lia. rewrite Hw. reflexivity.
Qed.
(** ** tokens *)
Lemma copy_length acc d n : (1 <= d <= length acc)%nat -> length (copy acc d n) = (length acc + n)%nat.
Proof.
  revert acc. induction n as [|n IH]; intros acc H; cbn [copy]; [lia|].
  destruct (lookup_some acc (length acc - d)%nat) as [b E]; [lia|]. rewrite E.
  rewrite IH by (rewrite app_length; cbn; lia). rewrite app_length. cbn. lia.
Qed.
Lemma copy_take acc d n : (1 <= d <= length acc)%nat -> take (length acc) (copy acc d n) = acc.
Proof.
  revert acc. induction n as [|n IH]; intros acc H; cbn [copy]; [apply take_ge; lia|].
  destruct (lookup_some acc (length acc - d)%nat) as [b E]; [lia|]. rewrite E.
  specialize (IH (acc ++ [b])). rewrite app_length in IH. cbn in IH. specialize (IH ltac:(lia)).
  replace (length acc) with (length acc `min` (length acc + 1))%nat at 1 by lia. rewrite <- take_take, IH. apply take_app.
Qed.
(** copying inside a text that continues its own repetition *)
Lemma copy_prefix (s : gostr) i d n : (1 <= d <= i)%nat -> (i + n <= length s)%nat ->
  (forall k, (k < n)%nat -> s !! (i - d + k)%nat = s !! (i + k)%nat) -> copy (take i s) d n = take (i + n) s.
Proof.
  revert i. induction n as [|n IH]; intros i Hd Hl H; cbn [copy]; [f_equal; lia|].
  assert (Hi : length (take i s) = i) by (rewrite take_length; lia).
  rewrite Hi. destruct (lookup_some s i) as [b Eb]; [lia|].
  rewrite lookup_take by lia.
  pose proof (H 0%nat ltac:(lia)) as H0. rewrite !Nat.add_0_r in H0. rewrite H0, Eb.
  rewrite <- (take_S_r s i b Eb). rewrite IH; [f_equal; lia|lia|lia|].
  intros k Hk. specialize (H (S k) ltac:(lia)). replace (S i - d + k)%nat with (i - d + S k)%nat by lia.
  replace (S i + k)%nat with (i + S k)%nat by lia. exact H.
Qed.
(** a copy of at most [d] bytes is a block copy *)
Lemma copy_block_eq acc d n : (1 <= d <= length acc)%nat -> (n <= d)%nat ->
  copy acc d n = acc ++ take n (drop (length acc - d) acc).
Proof.
  intros Hd Hn.
  assert (Hg : forall k, (k <= n)%nat -> copy acc d k = acc ++ take k (drop (length acc - d) acc)).
  { induction k as [|k IH]; intros Hk; [cbn; rewrite take_0, app_nil_r; reflexivity|].
    assert (Hs : forall a j, copy a d (S j) = match copy a d j !! (length (copy a d j) - d)%nat with Some b => copy a d j ++ [b] | None => copy a d j end).
    { clear. intros a j. revert a. induction j as [|j IHj]; intros a; [reflexivity|].
      cbn [copy]. destruct (a !! (length a - d)%nat) eqn:E; [|rewrite E; reflexivity]. apply IHj. }
    rewrite Hs, (IH ltac:(lia)).
    assert (Hl : length (acc ++ take k (drop (length acc - d) acc)) = (length acc + k)%nat) by (rewrite app_length, take_length, drop_length; lia).
    rewrite Hl. rewrite lookup_app_l by lia.
    destruct (lookup_some acc (length acc + k - d)%nat) as [b E]; [lia|]. rewrite E.
    rewrite (take_S_r _ k b).
    - rewrite app_assoc. reflexivity.
    - rewrite lookup_drop. rewrite <- E. f_equal. lia. }
  apply Hg. lia.
Qed.
Fixpoint tsize (ts : list tok) : nat := match ts with [] => 0 | TLit l :: r => length l + tsize r | TRef _ n :: r => n + tsize r end.
Lemma text_length acc ts : tok_ok (length acc) ts -> length (text acc ts) = (length acc + tsize ts)%nat.
Proof.
  revert acc. induction ts as [|[l|d n] ts IH]; intros acc H; cbn in *; [lia| |].
  - rewrite IH by (rewrite app_length; apply H). rewrite app_length. lia.
  - destruct H as (H1 & _ & _ & H2). rewrite IH by (rewrite copy_length by lia; exact H2). rewrite copy_length by lia. lia.
Qed.
Lemma text_app acc t1 t2 : text acc (t1 ++ t2) = text (text acc t1) t2.
Proof. revert acc. induction t1 as [|[l|d n] t1 IH]; intros acc; cbn; auto. Qed.
Lemma tok_ok_app n t1 t2 : tok_ok n (t1 ++ t2) <-> tok_ok n t1 /\ tok_ok (n + tsize t1) t2.
Proof.
  revert n. induction t1 as [|[l|d m] t1 IH]; intros n; cbn.
  - rewrite Nat.add_0_r. tauto.
  - rewrite IH, Nat.add_assoc. tauto.
  - rewrite IH, Nat.add_assoc. tauto.
Qed.
Lemma encode_app t1 t2 : encode (t1 ++ t2) = encode t1 ++ encode t2.
Proof. unfold encode. rewrite map_app, concat_app. reflexivity. Qed.
Lemma encode_one t : encode [t] = enc_tok t.
Proof. unfold encode. cbn. apply app_nil_r. Qed.

(** ** the compressor *)
Section comp.
  Context (inp : gostr) (n m : nat).   (* input size, output size *)
  Hypothesis Hn : (n <= length inp)%nat.
  Hypothesis Hn32 : Z.of_nat n < 2 ^ 32.

  (** between two runs *)
  Record closed (ts : list tok) (i : nat) (out : gostr) : Prop := {
    cl_ok : tok_ok 0 ts;
    cl_text : text [] ts = take i inp;
    cl_i : (i <= n)%nat;
    cl_len : length out = m;
    cl_out : take (length (encode ts)) out = encode ts }.
  (** inside a run of [l] literals *)
  Record opened (ts : list tok) (i l : nat) (out : gostr) : Prop := {
    op_cl : closed ts (i - l) out;
    op_l : (l <= i)%nat;
    op_i : (i <= n)%nat;
    op_32 : (l < 32)%nat;
    op_m : (length (encode ts) + l <= m)%nat;
    op_m1 : (0 < l)%nat -> (length (encode ts) + 1 + l <= m)%nat;
    op_lits : take l (drop (length (encode ts) + 1) out) = take l (drop (i - l) inp) }.
  Lemma closed_opened ts i out : closed ts i out -> (length (encode ts) <= m)%nat -> opened ts i 0 out.
  Proof. intros H H1. split; try lia; [rewrite Nat.sub_0_r; exact H|apply H|reflexivity]. Qed.
  Lemma closed_size ts i out : closed ts i out -> tsize ts = i.
  Proof. intros H. pose proof (text_length [] ts (cl_ok _ _ _ H)) as E. rewrite (cl_text _ _ _ H), take_length in E. cbn in E. pose proof (cl_i _ _ _ H). lia. Qed.

  (** one literal more *)
  Lemma opened_lit ts i l out b : opened ts i l out -> (i < n)%nat -> (length (encode ts) + 1 + l < m)%nat -> inp !! i = Some b ->
    let out1 := <[(length (encode ts) + 1 + l)%nat := b]> out in
    length out1 = m /\ closed ts (S i - S l) out1 /\
    take (S l) (drop (length (encode ts) + 1) out1) = take (S l) (drop (S i - S l) inp).
  Proof.
    intros H Hi Hm Hb out1. destruct H as [[Hok Htx Hii Hlen Hout] Hl Hin H32 Hm0 Hm1 Hlits].
    set (e := length (encode ts)) in *. unfold out1. rewrite insert_length. split; [exact Hlen|].
    replace (S i - S l)%nat with (i - l)%nat by lia. split.
    - split; auto; [rewrite insert_length; exact Hlen|]. rewrite take_insert by lia. exact Hout.
    - rewrite drop_insert_le by lia. replace (e + 1 + l - (e + 1))%nat with l by lia.
      rewrite (take_S_r _ l b) by (apply list_lookup_insert; rewrite drop_length; lia).
      rewrite take_insert by lia. rewrite Hlits. rewrite (take_S_r (drop (i - l) inp) l b); [reflexivity|].
      rewrite lookup_drop, <- Hb. f_equal. lia.
  Qed.
  (** the header of a run is written *)
  Lemma stop_run ts i l out : closed ts (i - l) out -> (0 < l <= 32)%nat -> (l <= i <= n)%nat -> (length (encode ts) + 1 + l <= m)%nat ->
    take l (drop (length (encode ts) + 1) out) = take l (drop (i - l) inp) ->
    exists ts', closed ts' i (<[length (encode ts) := z2b (Z.of_nat l - 1)]> out) /\ length (encode ts') = (length (encode ts) + 1 + l)%nat.
  Proof.
    intros H Hl Hi Hm Hlits. pose proof (closed_size _ _ _ H) as Hsz. destruct H as [Hok Htx Hii Hlen Hout].
    set (e := length (encode ts)) in *. set (lits := take l (drop (i - l) inp)) in *.
    assert (Hll : length lits = l) by (unfold lits; rewrite take_length, drop_length; lia).
    exists (ts ++ [TLit lits]).
    assert (Henc : encode (ts ++ [TLit lits]) = encode ts ++ z2b (Z.of_nat l - 1) :: lits).
    { rewrite encode_app, encode_one. cbn [enc_tok]. rewrite Hll. unfold byte_of. rewrite Nat2Z.inj_sub by lia. reflexivity. }
    assert (He : length (encode (ts ++ [TLit lits])) = (e + 1 + l)%nat) by (rewrite Henc, app_length; cbn; fold e; lia).
    split; [|exact He]. split.
    - apply tok_ok_app. cbn. split; [exact Hok|]. split; [lia|exact I].
    - rewrite text_app, Htx. cbn. unfold lits. rewrite take_take_drop. f_equal. lia.
    - lia.
    - rewrite insert_length. exact Hlen.
    - rewrite He, Henc.
      rewrite <- take_take_drop.
      rewrite (take_put (encode ts)) by (auto; lia). rewrite drop_insert_gt by lia. rewrite Hlits, <- app_assoc. reflexivity.
  Qed.

  (** *** matches *)
  Definition same (r i k : nat) : Prop := forall j, (j < k)%nat -> inp !! (r + j)%nat = inp !! (i + j)%nat.
  Lemma same_S r i k b : same r i k -> inp !! (r + k)%nat = Some b -> inp !! (i + k)%nat = Some b -> same r i (S k).
  Proof. intros H H1 H2 j Hj. destruct (Nat.eq_dec j k) as [->|]; [congruence|apply H; lia]. Qed.
  Lemma ext16_spec k r i len : same r i (S len) -> (r < i)%nat -> (i + len + k < n)%nat ->
    exists L broke, ext16 k inp (Z.of_nat r) (Z.of_nat i) (Z.of_nat len) = MOk (Z.of_nat L, broke) /\
      if broke : bool then (len < L <= len + k)%nat /\ same r i L else L = (len + k)%nat /\ same r i (S L).
  Proof.
    revert len. induction k as [|k IH]; intros len Hs Hr Hb; cbn [ext16].
    - exists len, false. split; [reflexivity|]. split; [lia|exact Hs].
    - destruct (get_in inp (r + S len)) as (a & Ea & Ga); [lia|]. destruct (get_in inp (i + S len)) as (b & Eb & Gb); [lia|].
      replace (Z.of_nat r + (Z.of_nat len + 1)) with (Z.of_nat (r + S len)) by lia.
      replace (Z.of_nat i + (Z.of_nat len + 1)) with (Z.of_nat (i + S len)) by lia.
      rewrite Ga, Gb. cbn [mbind]. destruct (Z.eqb_spec (b2z a) (b2z b)) as [Hab|Hab].
      + apply b2z_inj in Hab. subst b. replace (Z.of_nat len + 1) with (Z.of_nat (S len)) by lia.
        destruct (IH (S len)) as (L & br & E & HL); [eapply same_S; eauto|lia|lia|].
        exists L, br. split; [exact E|]. destruct br; (split; [|apply HL]); lia.
      + exists (S len), true. split; [f_equal; f_equal; lia|]. split; [lia|exact Hs].
  Qed.
  Lemma ext_slow_spec f r i len mx : same r i (S len) -> (r < i)%nat -> (i + mx <= n)%nat -> (mx - len < f)%nat ->
    exists L, ext_slow f inp (Z.of_nat r) (Z.of_nat i) (Z.of_nat len) (Z.of_nat mx) = MOk (Z.of_nat L) /\
      (len < L <= Nat.max (S len) mx)%nat /\ same r i L.
  Proof.
    revert len. induction f as [|f IH]; intros len Hs Hr Hb Hf; [lia|]. cbn [ext_slow].
    destruct (Z.ltb_spec (Z.of_nat len + 1) (Z.of_nat mx)) as [Hl|Hl].
    - destruct (get_in inp (r + S len)) as (a & Ea & Ga); [lia|]. destruct (get_in inp (i + S len)) as (b & Eb & Gb); [lia|].
      replace (Z.of_nat r + (Z.of_nat len + 1)) with (Z.of_nat (r + S len)) by lia.
      replace (Z.of_nat i + (Z.of_nat len + 1)) with (Z.of_nat (i + S len)) by lia.
      rewrite Ga, Gb. cbn [mbind]. destruct (Z.eqb_spec (b2z a) (b2z b)) as [Hab|Hab].
      + apply b2z_inj in Hab. subst b. replace (Z.of_nat len + 1) with (Z.of_nat (S len)) by lia.
        destruct (IH (S len)) as (L & E & HL & HS); [eapply same_S; eauto|lia|lia|lia|].
        exists L. split; [exact E|]. split; [lia|exact HS].
      + exists (S len). split; [f_equal; lia|]. split; [lia|exact Hs].
    - exists (S len). split; [f_equal; lia|]. split; [lia|exact Hs].
  Qed.
  Lemma match_len_spec r i : same r i 3 -> (r < i)%nat -> (i + 2 < n)%nat ->
    exists L, match_len inp (Z.of_nat n) (Z.of_nat r) (Z.of_nat i) = MOk (Z.of_nat L) /\ (3 <= L <= 264)%nat /\ (i + L <= n)%nat /\ same r i L.
  Proof.
    intros Hs Hr Hi. unfold match_len, u32. rewrite Z.mod_small by lia.
    set (mx := Nat.min 264 (n - i - 2)).
    assert (E : (if Z.of_nat n - Z.of_nat i - 2 >? max_ref then max_ref else Z.of_nat n - Z.of_nat i - 2) = Z.of_nat mx).
    { unfold max_ref, mx. destruct (Z.gtb_spec (Z.of_nat n - Z.of_nat i - 2) 264); lia. }
    rewrite E. destruct (Z.gtb_spec (Z.of_nat mx) 16) as [H16|H16].
    - destruct (ext16_spec 16 r i 2 Hs Hr) as (L & br & E1 & HL); [unfold mx in *; lia|].
      change (Z.of_nat 2) with 2 in E1. rewrite E1. cbn [mbind fst snd]. destruct br.
      + exists L. split; [reflexivity|]. destruct HL as [HL HS]. split; [lia|]. split; [unfold mx in *; lia|exact HS].
      + destruct HL as [-> HS]. destruct (ext_slow_spec 300 r i (2 + 16) mx HS Hr) as (L & E2 & HL & HS2); [unfold mx; lia|unfold mx; lia|].
        exists L. split; [exact E2|]. unfold mx in *. split; [lia|]. split; [lia|exact HS2].
    - destruct (ext_slow_spec 300 r i 2 mx Hs Hr) as (L & E2 & HL & HS2); [unfold mx; lia|unfold mx; lia|].
      change (Z.of_nat 2) with 2 in E2. exists L. split; [exact E2|]. unfold mx in *. split; [lia|]. split; [lia|exact HS2].
  Qed.
  Lemma hit_spec r i : 0 <= r < 2 ^ 32 -> (i + 2 < n)%nat ->
    hit inp r (Z.of_nat i) = MOk false \/
    exists q, r = Z.of_nat q /\ (0 < q < i)%nat /\ Z.of_nat (i - q) <= 8192 /\ same q i 3 /\ hit inp r (Z.of_nat i) = MOk true.
  Proof.
    intros Hr Hi. unfold hit.
    destruct (Z.ltb_spec (u64 (Z.of_nat i - r - 1)) max_off) as [Ho|Ho]; [|left; reflexivity].
    destruct (Z.ltb_spec 0 r) as [H0|H0]; [|left; reflexivity]. cbn [andb].
    unfold u64, max_off in Ho.
    assert (Hlt : 0 <= Z.of_nat i - r - 1).
    { destruct (Z.lt_ge_cases (Z.of_nat i - r - 1) 0) as [Hneg|]; [|lia]. exfalso.
      rewrite <- (Z.mod_add _ 1) in Ho by lia. rewrite Z.mod_small in Ho; lia. }
    rewrite Z.mod_small in Ho by lia.
    set (q := Z.to_nat r). assert (Eq : r = Z.of_nat q) by (unfold q; lia). rewrite Eq in *. clearbody q. subst r.
    destruct (get_in inp (q + 2)) as (a2 & Ea2 & Ga2); [lia|]. destruct (get_in inp (i + 2)) as (b2 & Eb2 & Gb2); [lia|].
    destruct (get_in inp (q + 1)) as (a1 & Ea1 & Ga1); [lia|]. destruct (get_in inp (i + 1)) as (b1 & Eb1 & Gb1); [lia|].
    destruct (get_in inp q) as (a0 & Ea0 & Ga0); [lia|]. destruct (get_in inp i) as (b0 & Eb0 & Gb0); [lia|].
    replace (Z.of_nat q + 2) with (Z.of_nat (q + 2)) by lia. replace (Z.of_nat i + 2) with (Z.of_nat (i + 2)) by lia.
    replace (Z.of_nat q + 1) with (Z.of_nat (q + 1)) by lia. replace (Z.of_nat i + 1) with (Z.of_nat (i + 1)) by lia.
    rewrite Ga2, Gb2, Ga1, Gb1, Ga0, Gb0. cbn [mbind].
    destruct (Z.eqb_spec (b2z a2) (b2z b2)) as [H2|]; [|left; reflexivity].
    destruct (Z.eqb_spec (b2z a0) (b2z b0)) as [H0'|]; [|left; reflexivity].
    destruct (Z.eqb_spec (b2z a1) (b2z b1)) as [H1|]; [|left; reflexivity]. cbn [andb].
    right. apply b2z_inj in H2, H1, H0'. subst b2 b1 b0. exists q. split; [reflexivity|]. split; [lia|]. split; [lia|]. split; [|reflexivity].
    intros j Hj. destruct j as [|[|[|j]]]; [rewrite !Nat.add_0_r; congruence|congruence|congruence|lia].
  Qed.
  (** a reference is written *)
  Lemma write_ref ts i out r L (off := Z.of_nat i - Z.of_nat r - 1) (len := Z.of_nat L - 2) (e := length (encode ts)) :
    closed ts i out -> (0 < r < i)%nat -> Z.of_nat (i - r) <= 8192 -> (3 <= L <= 264)%nat -> (i + L <= n)%nat -> same r i L -> (e + 4 < m)%nat ->
    exists out4 op4 ts',
      (if len <? 7 then
         out2 <~ put out (Z.of_nat e) (Z.shiftr off 8 + Z.shiftl len 5);; MOk (out2, Z.of_nat e + 1)
       else
         out2 <~ put out (Z.of_nat e) (Z.shiftr off 8 + Z.shiftl 7 5);;
         out3 <~ put out2 (Z.of_nat e + 1) (len - 7);; MOk (out3, Z.of_nat e + 2)) = MOk (out4, Z.of_nat op4) /\
      put out4 (Z.of_nat op4) off = MOk (<[op4 := z2b off]> out4) /\
      closed ts' (i + L) (<[op4 := z2b off]> out4) /\ length (encode ts') = (op4 + 1)%nat /\ (op4 + 1 < m)%nat.
  Proof.
    intros H Hr Ho HL Hi Hs Hm. pose proof (closed_size _ _ _ H) as Hsz. destruct H as [Hok Htx Hii Hlen Hout]. fold e in Hout.
    assert (Hts : tok_ok 0 (ts ++ [TRef (i - r) L])).
    { apply tok_ok_app. cbn. split; [exact Hok|]. repeat split; lia. }
    assert (Htx' : text [] (ts ++ [TRef (i - r) L]) = take (i + L) inp).
    { rewrite text_app, Htx. cbn. apply copy_prefix; [lia|lia|]. intros k Hk. replace (i - (i - r) + k)%nat with (r + k)%nat by lia. apply Hs. lia. }
    assert (Henc : encode (ts ++ [TRef (i - r) L]) = encode ts ++ enc_tok (TRef (i - r) L)) by (rewrite encode_app, encode_one; reflexivity).
    assert (Hoff : Z.shiftr off 8 = Z.of_nat ((i - r - 1) / 256)).
    { rewrite Z.shiftr_div_pow2 by lia. rewrite Nat2Z.inj_div. change (2 ^ 8) with 256. change (Z.of_nat 256) with 256. f_equal. unfold off. lia. }
    assert (Hlow : z2b off = byte_of ((i - r - 1) mod 256)).
    { unfold byte_of. apply b2z_inj. rewrite !b2z_z2b. rewrite Nat2Z.inj_mod. change (Z.of_nat 256) with 256. rewrite Z.mod_mod by lia. f_equal. unfold off. lia. }
    cbn [enc_tok] in Henc. destruct (Nat.ltb_spec (L - 2) 7) as [H7|H7].
    - destruct (Z.ltb_spec len 7); [|unfold len in *; lia].
      rewrite put_ok by lia. cbn [mbind].
      set (out2 := <[e := _]> out).
      assert (Hl2 : length out2 = m) by (unfold out2; rewrite insert_length; exact Hlen).
      exists out2, (e + 1)%nat, (ts ++ [TRef (i - r) L]).
      assert (He : length (encode (ts ++ [TRef (i - r) L])) = (e + 1 + 1)%nat) by (rewrite Henc, app_length; cbn; fold e; lia).
      split; [f_equal; f_equal; lia|]. split; [apply put_ok; lia|]. split; [|split; [exact He|lia]].
      split; auto; [rewrite insert_length; exact Hl2|].
      rewrite He, Henc. rewrite (take_put (encode ts ++ [byte_of ((L - 2) * 32 + (i - r - 1) / 256)])); [|unfold out2|lia].
      + rewrite Hlow, <- app_assoc. reflexivity.
      + rewrite (take_put (encode ts)) by (auto; lia). f_equal. f_equal. unfold byte_of. f_equal. rewrite Hoff, Z.shiftl_mul_pow2 by lia. change (2 ^ 5) with 32. unfold len. lia.
    - destruct (Z.ltb_spec len 7); [unfold len in *; lia|].
      rewrite put_ok by lia. cbn [mbind].
      set (out2 := <[e := _]> out).
      assert (Hl2 : length out2 = m) by (unfold out2; rewrite insert_length; exact Hlen).
      replace (Z.of_nat e + 1) with (Z.of_nat (e + 1)) by lia. rewrite put_ok by lia. cbn [mbind].
      set (out3 := <[(e + 1)%nat := _]> out2).
      assert (Hl3 : length out3 = m) by (unfold out3; rewrite insert_length; exact Hl2).
      exists out3, (e + 2)%nat, (ts ++ [TRef (i - r) L]).
      assert (He : length (encode (ts ++ [TRef (i - r) L])) = (e + 2 + 1)%nat) by (rewrite Henc, app_length; cbn; fold e; lia).
      split; [f_equal; f_equal; lia|]. split; [apply put_ok; lia|]. split; [|split; [exact He|lia]].
      split; auto; [rewrite insert_length; exact Hl3|].
      rewrite He, Henc. rewrite (take_put (encode ts ++ [byte_of (7 * 32 + (i - r - 1) / 256); byte_of (L - 2 - 7)])); [|unfold out3|lia].
      + rewrite Hlow, <- app_assoc. reflexivity.
      + replace (e + 2)%nat with (e + 1 + 1)%nat by lia. rewrite (take_put (encode ts ++ [byte_of (7 * 32 + (i - r - 1) / 256)])); [| |lia].
        * rewrite <- app_assoc. cbn [app]. f_equal. f_equal. f_equal. unfold byte_of. f_equal. unfold len. lia.
        * unfold out2. rewrite (take_put (encode ts)) by (auto; lia). f_equal. f_equal. unfold byte_of. f_equal. rewrite Hoff. change (Z.shiftl 7 5) with 224. lia.
  Qed.
  (** a run of any length, possibly empty, is ended by writing its header *)
  Lemma end_run ts i l out : opened ts i l out -> (length (encode ts) < m)%nat ->
    exists ts' out1, put out (Z.of_nat (length (encode ts))) (Z.of_nat l - 1) = MOk out1 /\ closed ts' i out1 /\
      length (encode ts') = (length (encode ts) + 1 + l - (if (l =? 0)%nat then 1 else 0))%nat.
  Proof.
    intros H Hm. destruct H as [Hc Hl Hi H32 Hm0 Hm1 Hlits]. rewrite put_ok by (rewrite (cl_len _ _ _ Hc); lia).
    destruct (Nat.eqb_spec l 0) as [->|Hl0].
    - exists ts. eexists. split; [reflexivity|]. split; [|lia]. rewrite Nat.sub_0_r in Hc. destruct Hc as [H1 H2 H3 H4 H5]. split; auto.
      + rewrite insert_length. exact H4.
      + rewrite take_insert by lia. exact H5.
    - destruct (stop_run ts i l out Hc) as (ts' & Hc' & He); [lia|lia|lia|exact Hlits|].
      exists ts'. eexists. split; [reflexivity|]. split; [exact Hc'|lia].
  Qed.
  Lemma frst_ok i : (i + 1 < n)%nat -> exists h, frst inp (Z.of_nat i) = MOk h.
  Proof.
    intros H. unfold frst. destruct (get_in inp i) as (a & _ & Ga); [lia|]. destruct (get_in inp (i + 1)) as (b & _ & Gb); [lia|].
    replace (Z.of_nat i + 1) with (Z.of_nat (i + 1)) by lia. rewrite Ga, Gb. cbn. eauto.
  Qed.
  Lemma next_ok h i : (i + 2 < n)%nat -> exists h', next h inp (Z.of_nat i) = MOk h'.
  Proof.
    intros H. unfold next. destruct (get_in inp (i + 2)) as (a & _ & Ga); [lia|].
    replace (Z.of_nat i + 2) with (Z.of_nat (i + 2)) by lia. rewrite Ga. cbn. eauto.
  Qed.
  Definition opst (ts : list tok) (i l : nat) (s : cst) : Prop :=
    k_ip s = Z.of_nat i /\ k_op s = Z.of_nat (length (encode ts) + 1 + l) /\ k_lit s = Z.of_nat l /\ opened ts i l (k_out s).
  Lemma cloop_spec f ts i l s : opst ts i l s -> (n - i < f)%nat ->
    cloop f inp (Z.of_nat n) (Z.of_nat m) s = MOk None \/
    exists s' ts' i' l', cloop f inp (Z.of_nat n) (Z.of_nat m) s = MOk (Some s') /\ opst ts' i' l' s' /\ (n <= i' + 2)%nat.
  Proof.
    revert ts i l s. induction f as [|f IH]; intros ts i l s (Hip & Hop & Hlit & Ho) Hf; [lia|]. cbn [cloop].
    rewrite Hip, Hop, Hlit. pose proof (op_i _ _ _ _ Ho) as Hin.
    destruct (Z.ltb_spec (Z.of_nat i) (Z.of_nat n - 2)) as [Hlt|Hge].
    2:{ right. exists s, ts, i, l. split; [reflexivity|]. split; [repeat split; auto; apply Ho|]. lia. }
    destruct (next_ok (k_hval s) i) as [hval Ehv]; [lia|]. rewrite Ehv. cbn [mbind].
    set (ref := u32 (k_tab s (idx hval))). set (tab := upd _ _ _).
    assert (Hr : 0 <= ref < 2 ^ 32) by (unfold ref, u32; apply Z.mod_pos_bound; lia).
    destruct (hit_spec ref i Hr) as [Eh|(q & Eq & Hq & Hq2 & Hs & Eh)]; [lia| |]; rewrite Eh; cbn [mbind].
    - (* literal *)
      destruct (Z.geb_spec (Z.of_nat (length (encode ts) + 1 + l)) (Z.of_nat m)) as [Hm|Hm]; [left; reflexivity|].
      destruct (get_in inp i) as (b & Eb & Gb); [lia|]. rewrite Gb. cbn [mbind].
      rewrite put_ok by (rewrite (cl_len _ _ _ (op_cl _ _ _ _ Ho)); lia). cbn [mbind]. rewrite z2b_b2z.
      destruct (opened_lit ts i l (k_out s) b Ho) as (Hl1 & Hc1 & Hlits); [lia|lia|exact Eb|].
      set (out1 := <[_ := b]> (k_out s)) in *.
      replace (Z.of_nat l + 1) with (Z.of_nat (S l)) by lia. replace (Z.of_nat i + 1) with (Z.of_nat (S i)) by lia.
      pose proof (op_32 _ _ _ _ Ho). pose proof (op_l _ _ _ _ Ho).
      unfold max_lit. destruct (Z.eqb_spec (Z.of_nat (S l)) 32) as [H32|H32].
      + replace (Z.of_nat (length (encode ts) + 1 + l) + 1 - Z.of_nat (S l) - 1) with (Z.of_nat (length (encode ts))) by lia.
        rewrite put_ok by lia. cbn [mbind].
        destruct (stop_run ts (S i) (S l) out1 Hc1) as (ts' & Hc' & He); [lia|lia|lia|exact Hlits|].
        edestruct (IH ts' (S i) 0%nat) as [E|E]; [| |left; exact E|right; exact E]; [|lia].
        split; [reflexivity|]. split; [cbn; lia|]. split; [reflexivity|]. cbn [k_out]. apply closed_opened; [exact Hc'|lia].
      + edestruct (IH ts (S i) (S l)) as [E|E]; [| |left; exact E|right; exact E]; [|lia].
        split; [reflexivity|]. split; [cbn; lia|]. split; [reflexivity|]. cbn [k_out]. split; auto; lia.
    - (* match *)
      clearbody ref. subst ref.
      assert (Hoff : u64 (Z.of_nat i - Z.of_nat q - 1) = Z.of_nat i - Z.of_nat q - 1) by (unfold u64; apply Z.mod_small; lia).
      rewrite !Hoff.
      destruct (_ && _) eqn:Hfull; [left; reflexivity|].
      assert (Hroom : (length (encode ts) + 1 + l - (if (l =? 0)%nat then 1 else 0) + 4 < m)%nat).
      { apply andb_false_iff in Hfull.
        destruct (Nat.eqb_spec l 0) as [Hl0|Hl0]; destruct (Z.eqb_spec (Z.of_nat l) 0); try lia;
          destruct Hfull as [Hfull|Hfull]; rewrite Z.geb_leb, Z.leb_gt in Hfull; lia. }
      replace (Z.of_nat (length (encode ts) + 1 + l) - Z.of_nat l - 1) with (Z.of_nat (length (encode ts))) by lia.
      destruct (end_run ts i l (k_out s) Ho) as (ts1 & out1 & E1 & Hc1 & He1); [destruct (Nat.eqb_spec l 0); lia|].
      rewrite E1. cbn [mbind].
      replace (Z.of_nat (length (encode ts) + 1 + l) - (if Z.of_nat l =? 0 then 1 else 0)) with (Z.of_nat (length (encode ts1))).
      2:{ rewrite He1. destruct (Nat.eqb_spec l 0), (Z.eqb_spec (Z.of_nat l) 0); lia. }
      destruct (match_len_spec q i Hs) as (L & EL & HL & HiL & HsL); [lia|lia|]. rewrite EL. cbn [mbind].
      destruct (write_ref ts1 i out1 q L Hc1) as (out4 & op4 & ts2 & E2 & E3 & Hc2 & He2 & Hm2); [lia|lia|lia|lia|exact HsL|lia|].
      rewrite E2. cbn [mbind]. rewrite E3. cbn [mbind].
      replace (Z.of_nat i + 1 + (Z.of_nat L - 2 + 1)) with (Z.of_nat (i + L)) by lia.
      destruct (Z.geb_spec (Z.of_nat (i + L)) (Z.of_nat n - 2)) as [Hend|Hend].
      + right. eexists _, ts2, (i + L)%nat, 0%nat. split; [reflexivity|]. split; [|lia].
        split; [reflexivity|]. split; [cbn; lia|]. split; [reflexivity|]. cbn [k_out]. apply closed_opened; [exact Hc2|lia].
      + replace (Z.of_nat (i + L) - 2) with (Z.of_nat (i + L - 2)) by lia.
        destruct (frst_ok (i + L - 2)) as [h1 F1]; [lia|]. rewrite F1. cbn [mbind].
        destruct (next_ok h1 (i + L - 2)) as [h2 F2]; [lia|]. rewrite F2. cbn [mbind].
        replace (Z.of_nat (i + L - 2) + 1) with (Z.of_nat (i + L - 1)) by lia.
        destruct (next_ok h2 (i + L - 1)) as [h3 F3]; [lia|]. rewrite F3. cbn [mbind].
        edestruct (IH ts2 (i + L)%nat 0%nat) as [E|E]; [| |left; exact E|right; exact E]; [|lia].
        split; [cbn; lia|]. split; [cbn; lia|]. split; [reflexivity|]. cbn [k_out]. apply closed_opened; [exact Hc2|lia].
  Qed.
  Lemma ctail_spec k ts i l out : opened ts i l out -> (i + k = n)%nat -> (k <= 2)%nat -> (length (encode ts) + 1 + l + (if (l + k <? 32)%nat then k else 1 + k) <= m)%nat ->
    exists ts' l' out', ctail k inp (Z.of_nat i) (Z.of_nat (length (encode ts) + 1 + l)) (Z.of_nat l) out = MOk (Z.of_nat (length (encode ts') + 1 + l'), Z.of_nat l', out') /\
      opened ts' n l' out' /\ (length (encode ts') + 1 + l' <= m)%nat.
  Proof.
    revert ts i l out. induction k as [|k IH]; intros ts i l out Ho Hk H2 Hm; cbn [ctail].
    - exists ts, l, out. split; [reflexivity|]. replace n with i by lia. split; [exact Ho|]. destruct (_ <? _)%nat; lia.
    - destruct (get_in inp i) as (b & Eb & Gb); [lia|]. rewrite Gb. cbn [mbind].
      assert (Hm' : (length (encode ts) + 1 + l < m)%nat) by (destruct (_ <? _)%nat; lia).
      rewrite put_ok by (rewrite (cl_len _ _ _ (op_cl _ _ _ _ Ho)); lia). cbn [mbind]. rewrite z2b_b2z.
      destruct (opened_lit ts i l out b Ho) as (Hl1 & Hc1 & Hlits); [lia|lia|exact Eb|].
      set (out1 := <[_ := b]> out) in *. pose proof (op_32 _ _ _ _ Ho). pose proof (op_l _ _ _ _ Ho).
      replace (Z.of_nat l + 1) with (Z.of_nat (S l)) by lia. replace (Z.of_nat i + 1) with (Z.of_nat (S i)) by lia.
      unfold max_lit. destruct (Z.eqb_spec (Z.of_nat (S l)) 32) as [H32|H32].
      + replace (Z.of_nat (length (encode ts) + 1 + l) + 1 - Z.of_nat (S l) - 1) with (Z.of_nat (length (encode ts))) by lia.
        rewrite put_ok by lia. cbn [mbind].
        destruct (stop_run ts (S i) (S l) out1 Hc1) as (ts' & Hc' & He); [lia|lia|lia|exact Hlits|].
        replace (Z.of_nat (length (encode ts) + 1 + l) + 2) with (Z.of_nat (length (encode ts') + 1 + 0)) by lia.
        change 0 with (Z.of_nat 0). apply IH; [apply closed_opened; [exact Hc'|lia]|lia|lia|].
        destruct (Nat.ltb_spec (l + S k) 32); [lia|]. destruct (Nat.ltb_spec (0 + k) 32); lia.
      + replace (Z.of_nat (length (encode ts) + 1 + l) + 1) with (Z.of_nat (length (encode ts) + 1 + S l)) by lia.
        apply IH; [split; auto; lia|lia|lia|].
        replace (S l + k)%nat with (l + S k)%nat by lia. destruct (_ <? _)%nat; lia.
  Qed.
End comp.

(** the compressor, for every initial table content and every output size: it neither leaves its
    buffers nor runs out of recursion, and either gives up (0) or the output starts with the
    encoding of tokens for the input *)
Lemma lzf_compress_spec inp (n m : nat) out tab : (2 <= n <= length inp)%nat -> Z.of_nat n < 2 ^ 32 -> length out = m ->
  lzf_compress inp (Z.of_nat n) out (Z.of_nat m) tab = MOk (0, out) \/
  exists ts r out', lzf_compress inp (Z.of_nat n) out (Z.of_nat m) tab = MOk (Z.of_nat r, out') /\ (0 < r <= m)%nat /\ length out' = m /\
    tok_ok 0 ts /\ text [] ts = take n inp /\ take r out' = encode ts.
Proof.
  intros Hn H32 Hm. unfold lzf_compress.
  destruct (Z.eqb_spec (Z.of_nat n) 0); [lia|]. destruct (Z.eqb_spec (Z.of_nat m) 0) as [|Hm0]; [left; reflexivity|]. cbn [orb].
  destruct (frst_ok inp n ltac:(lia) 0%nat ltac:(lia)) as [hv Ehv]. change (Z.of_nat 0) with 0 in Ehv. rewrite Ehv. cbn [mbind].
  rewrite Nat2Z.id.
  assert (Hop : opst inp n m [] 0 0 (Cst 0 1 0 hv out tab)).
  { split; [reflexivity|]. split; [reflexivity|]. split; [reflexivity|]. apply closed_opened; [lia| |cbn; lia].
    split; cbn; auto; lia. }
  destruct (cloop_spec inp n m ltac:(lia) H32 (S n) [] 0 0 _ Hop) as [E|(s & ts & i & l & E & (Hip & Hopp & Hlit & Ho) & Hi)]; [lia| |]; rewrite E; cbn [mbind]; [left; reflexivity|].
  rewrite Hip, Hopp, Hlit. pose proof (op_i _ _ _ _ _ _ _ Ho).
  destruct (Z.gtb_spec (Z.of_nat (length (encode ts) + 1 + l) + 3) (Z.of_nat m)) as [|Hr]; [left; reflexivity|]. right.
  replace (Z.to_nat (Z.of_nat n - Z.of_nat i)) with (n - i)%nat by lia.
  destruct (ctail_spec inp n m ltac:(lia) (n - i) ts i l (k_out s) Ho) as (ts1 & l1 & out1 & E1 & Ho1 & Hm1); [lia|lia|destruct (_ <? _)%nat; lia|].
  rewrite E1. cbn [mbind].
  replace (Z.of_nat (length (encode ts1) + 1 + l1) - Z.of_nat l1 - 1) with (Z.of_nat (length (encode ts1))) by lia.
  destruct (end_run inp n m ltac:(lia) ts1 n l1 out1 Ho1) as (ts2 & out2 & E2 & Hc2 & He2); [lia|]. rewrite E2. cbn [mbind].
  exists ts2, (length (encode ts2)), out2. destruct Hc2 as [Hok Htx Hii Hlen Hout].
  split; [f_equal; f_equal; rewrite He2; destruct (Nat.eqb_spec l1 0), (Z.eqb_spec (Z.of_nat l1) 0); lia|].
  split; [|auto]. split.
  - destruct ts2 as [|[lt|d q] ts2]; [cbn in Htx|cbn; lia|cbn [encode map concat]; rewrite app_length; cbn [enc_tok]; destruct (_ <? _)%nat; cbn; lia].
    exfalso. assert (Hz : length (take n inp) = 0%nat) by (rewrite <- Htx; reflexivity). rewrite take_length in Hz. lia.
  - rewrite He2. destruct (l1 =? 0)%nat; lia.
Qed.

(** ** the decompressor *)
Lemma copy_lit_spec k inp i out o : (i + k <= length inp)%nat -> (o + k <= length out)%nat ->
  exists out', copy_lit k inp (Z.of_nat i) out (Z.of_nat o) = MOk out' /\ length out' = length out /\
    take (o + k) out' = take o out ++ take k (drop i inp).
Proof.
  revert i out o. induction k as [|k IH]; intros i out o Hi Ho; cbn [copy_lit].
  - exists out. rewrite Nat.add_0_r, take_0, app_nil_r. auto.
  - destruct (get_in inp i) as (b & Eb & Gb); [lia|]. rewrite Gb. cbn [mbind]. rewrite put_ok by lia. cbn [mbind]. rewrite z2b_b2z.
    replace (Z.of_nat i + 1) with (Z.of_nat (i + 1)) by lia. replace (Z.of_nat o + 1) with (Z.of_nat (o + 1)) by lia.
    destruct (IH (i + 1)%nat (<[o := b]> out) (o + 1)%nat) as (out' & E & Hl & Ht); [lia|rewrite insert_length; lia|].
    exists out'. split; [exact E|]. rewrite insert_length in Hl. split; [exact Hl|].
    replace (o + S k)%nat with (o + 1 + k)%nat by lia. rewrite Ht, (take_put (take o out)) by (auto; lia).
    rewrite <- app_assoc. f_equal. rewrite (drop_S inp b i Eb). cbn [take app]. f_equal. f_equal. f_equal. lia.
Qed.
Lemma copy_ref_spec k r out o : (r < o)%nat -> (o + k <= length out)%nat ->
  exists out', copy_ref k (Z.of_nat r) out (Z.of_nat o) = MOk out' /\ length out' = length out /\
    take (o + k) out' = copy (take o out) (o - r) k.
Proof.
  revert r out o. induction k as [|k IH]; intros r out o Hr Ho; cbn [copy_ref copy].
  - exists out. rewrite Nat.add_0_r. auto.
  - destruct (get_in out r) as (b & Eb & Gb); [lia|]. rewrite Gb. cbn [mbind]. rewrite put_ok by lia. cbn [mbind]. rewrite z2b_b2z.
    replace (Z.of_nat r + 1) with (Z.of_nat (r + 1)) by lia. replace (Z.of_nat o + 1) with (Z.of_nat (o + 1)) by lia.
    destruct (IH (r + 1)%nat (<[o := b]> out) (o + 1)%nat) as (out' & E & Hl & Ht); [lia|rewrite insert_length; lia|].
    exists out'. split; [exact E|]. rewrite insert_length in Hl. split; [exact Hl|].
    replace (o + S k)%nat with (o + 1 + k)%nat by lia. rewrite Ht, (take_put (take o out)) by (auto; lia).
    rewrite take_length. replace (o `min` length out - (o - r))%nat with r by lia. rewrite lookup_take by lia. rewrite Eb.
    f_equal. lia.
Qed.
Lemma copy_block_spec k r out o : (r + k <= o)%nat -> (0 < k)%nat -> (o + k <= length out)%nat ->
  exists out', copy_block k (Z.of_nat r) out (Z.of_nat o) = MOk out' /\ length out' = length out /\
    take (o + k) out' = copy (take o out) (o - r) k.
Proof.
  intros Hr Hk Ho. unfold copy_block, zlen.
  destruct (Z.leb_spec 0 (Z.of_nat r)); [|lia]. destruct (Z.leb_spec (Z.of_nat r + Z.of_nat k) (Z.of_nat (length out))); [|lia].
  destruct (Z.leb_spec 0 (Z.of_nat o)); [|lia]. destruct (Z.leb_spec (Z.of_nat o + Z.of_nat k) (Z.of_nat (length out))); [|lia]. cbn [andb].
  rewrite !Nat2Z.id. eexists. split; [reflexivity|].
  assert (Hlo : length (take o out) = o) by (rewrite take_length; lia).
  assert (Hlk : length (take k (drop r out)) = k) by (rewrite take_length, drop_length; lia).
  split; [rewrite !app_length, drop_length; lia|].
  rewrite app_assoc. rewrite take_app_alt by (rewrite app_length; lia).
  rewrite copy_block_eq by lia. f_equal. rewrite Hlo. replace (o - (o - r))%nat with r by lia.
  rewrite <- (take_drop o out) at 1. rewrite drop_app_le by lia. rewrite take_app_le by (rewrite drop_length; lia). reflexivity.
Qed.
(** the copy of a reference, whichever way it is done *)
Lemma copy_any_spec len r out o : (r < o)%nat -> 0 <= len -> (o + Z.to_nat (len + 2) <= length out)%nat ->
  exists out', (if (len >? 9) && (Z.of_nat o >=? Z.of_nat r + (len + 2)) then copy_block (Z.to_nat (len + 2)) (Z.of_nat r) out (Z.of_nat o)
                else copy_ref (Z.to_nat (len + 2)) (Z.of_nat r) out (Z.of_nat o)) = MOk out' /\ length out' = length out /\
    take (o + Z.to_nat (len + 2)) out' = copy (take o out) (o - r) (Z.to_nat (len + 2)).
Proof.
  intros Hr Hl Ho. destruct (_ && _) eqn:E.
  - apply andb_true_iff in E as [_ E]. rewrite Z.geb_leb, Z.leb_le in E. apply copy_block_spec; lia.
  - apply copy_ref_spec; lia.
Qed.
(** from any position, whatever the input, and whatever the unwritten part of the output holds *)
Lemma dloop_safe f inp (n m : nat) out outb i o : (i < n)%nat -> (n <= length inp)%nat -> length out = m -> length outb = m -> take o out = take o outb -> (o <= m)%nat -> (n - i < f)%nat ->
  exists r out' outb', dloop f inp (Z.of_nat n) out (Z.of_nat m) (Z.of_nat i) (Z.of_nat o) = MOk (Z.of_nat r, out') /\
    dloop f inp (Z.of_nat n) outb (Z.of_nat m) (Z.of_nat i) (Z.of_nat o) = MOk (Z.of_nat r, outb') /\
    length out' = m /\ take r out' = take r outb' /\ (r <= m)%nat.
Proof.
  revert i o out outb. induction f as [|f IH]; intros i o out outb Hi Hn Hm Hmb Hoo Ho Hf; [lia|]. cbn [dloop].
  assert (Hcont : forall out1 out1b i1 o1, length out1 = m -> length out1b = m -> take o1 out1 = take o1 out1b -> (i < i1)%nat -> (o1 <= m)%nat ->
    exists r out' outb', (if Z.of_nat i1 <? Z.of_nat n then dloop f inp (Z.of_nat n) out1 (Z.of_nat m) (Z.of_nat i1) (Z.of_nat o1) else MOk (Z.of_nat o1, out1)) = MOk (Z.of_nat r, out') /\
      (if Z.of_nat i1 <? Z.of_nat n then dloop f inp (Z.of_nat n) out1b (Z.of_nat m) (Z.of_nat i1) (Z.of_nat o1) else MOk (Z.of_nat o1, out1b)) = MOk (Z.of_nat r, outb') /\
      length out' = m /\ take r out' = take r outb' /\ (r <= m)%nat).
  { intros out1 out1b i1 o1 Hl1 Hl1b Ht Hi1 Ho1. destruct (Z.ltb_spec (Z.of_nat i1) (Z.of_nat n)); [apply IH; auto; lia|]. exists o1, out1, out1b. auto. }
  assert (Hzero : exists r out' outb', MOk (0, out) = MOk (Z.of_nat r, out') /\ MOk (0, outb) = MOk (Z.of_nat r, outb') /\ length out' = m /\ take r out' = take r outb' /\ (r <= m)%nat)
    by (exists 0%nat, out, outb; repeat split; auto; lia).
  destruct (get_in inp i) as (b & Eb & Gb); [lia|]. rewrite Gb. cbn [mbind]. pose proof (b2z_range b) as Hb.
  destruct (Z.ltb_spec (b2z b) 32) as [H32|H32].
  - destruct (Z.gtb_spec (Z.of_nat o + (b2z b + 1)) (Z.of_nat m)); [exact Hzero|].
    destruct (Z.gtb_spec (Z.of_nat i + 1 + (b2z b + 1)) (Z.of_nat n)); [exact Hzero|].
    replace (Z.of_nat i + 1) with (Z.of_nat (i + 1)) by lia.
    destruct (copy_lit_spec (Z.to_nat (b2z b + 1)) inp (i + 1) out o) as (out1 & E1 & Hl1 & Ht1); [lia|lia|]. rewrite E1. cbn [mbind].
    destruct (copy_lit_spec (Z.to_nat (b2z b + 1)) inp (i + 1) outb o) as (out1b & E1b & Hl1b & Ht1b); [lia|lia|]. rewrite E1b. cbn [mbind].
    replace (Z.of_nat (i + 1) + (b2z b + 1)) with (Z.of_nat (i + 1 + Z.to_nat (b2z b + 1))) by lia.
    replace (Z.of_nat o + (b2z b + 1)) with (Z.of_nat (o + Z.to_nat (b2z b + 1))) by lia.
    apply Hcont; [lia|lia|congruence|lia|lia].
  - destruct (Z.geb_spec (Z.of_nat i + 1) (Z.of_nat n)); [exact Hzero|].
    set (len := Z.shiftr (b2z b) 5). assert (Hlen : 0 <= len) by (apply Z.shiftr_nonneg; lia).
    set (ref := Z.of_nat o - _ - 1).
    assert (Href : ref < Z.of_nat o).
    { assert (0 <= Z.shiftl (Z.land (b2z b) 31) 8); [apply Z.shiftl_nonneg, Z.land_nonneg; lia|unfold ref; lia]. }
    pose (back := fun out j ln =>
      (lo <~ get inp (Z.of_nat j);;
       if Z.of_nat o + ln + 2 >? Z.of_nat m then MOk (0, out)
       else if ref - lo <? 0 then MOk (0, out)
       else out1 <~ (if (ln >? 9) && (Z.of_nat o >=? ref - lo + (ln + 2)) then copy_block (Z.to_nat (ln + 2)) (ref - lo) out (Z.of_nat o)
                     else copy_ref (Z.to_nat (ln + 2)) (ref - lo) out (Z.of_nat o));;
            (if Z.of_nat j + 1 <? Z.of_nat n then dloop f inp (Z.of_nat n) out1 (Z.of_nat m) (Z.of_nat j + 1) (Z.of_nat o + (ln + 2)) else MOk (Z.of_nat o + (ln + 2), out1)))).
    assert (Hback : forall j ln, (i < j < n)%nat -> 0 <= ln -> exists r out' outb', back out j ln = MOk (Z.of_nat r, out') /\ back outb j ln = MOk (Z.of_nat r, outb') /\
      length out' = m /\ take r out' = take r outb' /\ (r <= m)%nat).
    { intros j ln Hj Hln. unfold back. destruct (get_in inp j) as (lo & _ & Glo); [lia|]. rewrite Glo. cbn [mbind]. pose proof (b2z_range lo).
      destruct (Z.gtb_spec (Z.of_nat o + ln + 2) (Z.of_nat m)); [exact Hzero|].
      destruct (Z.ltb_spec (ref - b2z lo) 0); [exact Hzero|].
      replace (ref - b2z lo) with (Z.of_nat (Z.to_nat (ref - b2z lo))) by lia.
      destruct (copy_any_spec ln (Z.to_nat (ref - b2z lo)) out o) as (out1 & E1 & Hl1 & Ht1); [lia|lia|lia|]. rewrite E1. cbn [mbind].
      destruct (copy_any_spec ln (Z.to_nat (ref - b2z lo)) outb o) as (out1b & E1b & Hl1b & Ht1b); [lia|lia|lia|]. rewrite E1b. cbn [mbind].
      replace (Z.of_nat j + 1) with (Z.of_nat (j + 1)) by lia.
      replace (Z.of_nat o + (ln + 2)) with (Z.of_nat (o + Z.to_nat (ln + 2))) by lia.
      apply Hcont; [lia|lia|congruence|lia|lia]. }
    destruct (Z.eqb_spec len 7) as [H7|H7].
    + replace (Z.of_nat i + 1) with (Z.of_nat (i + 1)) by lia.
      destruct (get_in inp (i + 1)) as (b1 & _ & G1); [lia|]. rewrite G1. cbn [mbind]. pose proof (b2z_range b1).
      destruct (Z.geb_spec (Z.of_nat (i + 1) + 1) (Z.of_nat n)); [exact Hzero|].
      replace (Z.of_nat (i + 1) + 1) with (Z.of_nat (i + 2)) by lia. apply Hback; lia.
    + replace (Z.of_nat i + 1) with (Z.of_nat (i + 1)) by lia. apply Hback; lia.
Qed.
(** an accepted input is a token stream *)
Lemma dloop_sound f inp (n m : nat) out i o r out' : (i < n)%nat -> (n <= length inp)%nat -> length out = m -> (o <= m)%nat ->
  dloop f inp (Z.of_nat n) out (Z.of_nat m) (Z.of_nat i) (Z.of_nat o) = MOk (r, out') -> r <> 0 ->
  exists ts, ts <> [] /\ tok_ok o ts /\ take (n - i) (drop i inp) = encode ts.
Proof.
  revert i o out. induction f as [|f IH]; intros i o out Hi Hn Hm Ho E Hr; [discriminate|]. cbn [dloop] in E.
  (* what follows a token *)
  assert (Hcont : forall t i1 out1, i1 = (i + length (enc_tok t))%nat -> (i1 <= n)%nat -> length out1 = m -> (o + tsize [t] <= m)%nat -> tok_ok o [t] ->
    take (length (enc_tok t)) (drop i inp) = enc_tok t ->
    (if Z.of_nat i1 <? Z.of_nat n then dloop f inp (Z.of_nat n) out1 (Z.of_nat m) (Z.of_nat i1) (Z.of_nat (o + tsize [t])) else MOk (Z.of_nat (o + tsize [t]), out1)) = MOk (r, out') ->
    exists ts, ts <> [] /\ tok_ok o ts /\ take (n - i) (drop i inp) = encode ts).
  { intros t i1 out1 Hi1 Hi1n Hl1 Ho1 Hok Ht E1. destruct (Z.ltb_spec (Z.of_nat i1) (Z.of_nat n)) as [Hlt|Hge].
    - apply IH in E1 as (ts & Hne & Hok1 & He); [|lia|lia|exact Hl1|lia|exact Hr].
      exists (t :: ts). split; [discriminate|]. split; [apply (tok_ok_app o [t] ts); auto|].
      change (encode (t :: ts)) with (enc_tok t ++ encode ts). rewrite <- He, <- Ht at 1.
      rewrite Hi1, <- drop_drop. rewrite take_take_drop. f_equal. lia.
    - exists [t]. split; [discriminate|]. split; [exact Hok|]. rewrite encode_one, <- Ht. f_equal. lia. }
  assert (Hz : MOk (0, out) = MOk (r, out') -> False) by (intros [= <- _]; apply Hr; reflexivity).
  destruct (get_in inp i) as (b & Eb & Gb); [lia|]. rewrite Gb in E. cbn [mbind] in E. pose proof (b2z_range b) as Hb.
  destruct (Z.ltb_spec (b2z b) 32) as [H32|H32].
  - destruct (Z.gtb_spec (Z.of_nat o + (b2z b + 1)) (Z.of_nat m)); [destruct (Hz E)|].
    destruct (Z.gtb_spec (Z.of_nat i + 1 + (b2z b + 1)) (Z.of_nat n)); [destruct (Hz E)|].
    replace (Z.of_nat i + 1) with (Z.of_nat (i + 1)) in E by lia.
    set (k := Z.to_nat (b2z b + 1)) in *.
    destruct (copy_lit_spec k inp (i + 1) out o) as (out1 & E1 & Hl1 & Ht1); [lia|lia|]. rewrite E1 in E. cbn [mbind] in E.
    set (l := take k (drop (i + 1) inp)).
    assert (Hll : length l = k) by (unfold l; rewrite take_length, drop_length; lia).
    assert (Hts : tsize [TLit l] = k) by (cbn; lia).
    apply (Hcont (TLit l) (i + 1 + k)%nat out1); try (cbn [enc_tok length tok_ok]; lia).
    + cbn [enc_tok length]. rewrite (drop_S inp b i Eb). cbn [take]. f_equal.
      * apply b2z_inj. unfold byte_of. rewrite b2z_z2b_small by lia. lia.
      * unfold l at 2. rewrite Hll. f_equal. f_equal. lia.
    + rewrite Hts. rewrite <- E. replace (Z.of_nat (i + 1) + (b2z b + 1)) with (Z.of_nat (i + 1 + k)) by lia.
      replace (Z.of_nat o + (b2z b + 1)) with (Z.of_nat (o + k)) by lia. reflexivity.
  - destruct (Z.geb_spec (Z.of_nat i + 1) (Z.of_nat n)); [destruct (Hz E)|].
    set (len := Z.shiftr (b2z b) 5) in *. set (hi := Z.land (b2z b) 31) in *.
    assert (Hbits : b2z b = 32 * len + hi /\ 0 <= hi < 32 /\ 1 <= len <= 7).
    { unfold len, hi. rewrite Z.shiftr_div_pow2 by lia. change 31 with (Z.ones 5). rewrite Z.land_ones by lia. change (2 ^ 5) with 32.
      pose proof (Z.div_mod (b2z b) 32 ltac:(lia)). pose proof (Z.mod_pos_bound (b2z b) 32 ltac:(lia)). lia. }
    rewrite Z.shiftl_mul_pow2 in E by lia. change (2 ^ 8) with 256 in E.
    assert (Hback : forall j ln, (i < j < n)%nat -> (1 <= ln <= 262) ->
      (forall lo, inp !! j = Some lo -> let t := TRef (Z.to_nat (hi * 256 + b2z lo + 1)) (Z.to_nat (ln + 2)) in
         length (enc_tok t) = (j + 1 - i)%nat /\ take (length (enc_tok t)) (drop i inp) = enc_tok t) ->
      (lo <~ get inp (Z.of_nat j);;
       if Z.of_nat o + ln + 2 >? Z.of_nat m then MOk (0, out)
       else if Z.of_nat o - hi * 256 - 1 - lo <? 0 then MOk (0, out)
       else out1 <~ (if (ln >? 9) && (Z.of_nat o >=? Z.of_nat o - hi * 256 - 1 - lo + (ln + 2)) then copy_block (Z.to_nat (ln + 2)) (Z.of_nat o - hi * 256 - 1 - lo) out (Z.of_nat o)
                     else copy_ref (Z.to_nat (ln + 2)) (Z.of_nat o - hi * 256 - 1 - lo) out (Z.of_nat o));;
            (if Z.of_nat j + 1 <? Z.of_nat n then dloop f inp (Z.of_nat n) out1 (Z.of_nat m) (Z.of_nat j + 1) (Z.of_nat o + (ln + 2)) else MOk (Z.of_nat o + (ln + 2), out1))) = MOk (r, out') ->
      exists ts, ts <> [] /\ tok_ok o ts /\ take (n - i) (drop i inp) = encode ts).
    { intros j ln Hj Hln Htok E1. destruct (get_in inp j) as (lo & Elo & Glo); [lia|]. rewrite Glo in E1. cbn [mbind] in E1. pose proof (b2z_range lo).
      destruct (Htok lo Elo) as [Hlt Htk].
      destruct (Z.gtb_spec (Z.of_nat o + ln + 2) (Z.of_nat m)); [destruct (Hz E1)|].
      destruct (Z.ltb_spec (Z.of_nat o - hi * 256 - 1 - b2z lo) 0); [destruct (Hz E1)|].
      set (d := Z.to_nat (hi * 256 + b2z lo + 1)) in *.
      replace (Z.of_nat o - hi * 256 - 1 - b2z lo) with (Z.of_nat (o - d)) in E1 by lia.
      destruct (copy_any_spec ln (o - d) out o) as (out1 & E2 & Hl1 & _); [lia|lia|lia|]. rewrite E2 in E1. cbn [mbind] in E1.
      assert (Hts : tsize [TRef d (Z.to_nat (ln + 2))] = Z.to_nat (ln + 2)) by (cbn; lia).
      apply (Hcont (TRef d (Z.to_nat (ln + 2))) (j + 1)%nat out1); try lia.
      - cbn [tok_ok]. repeat split; lia.
      - exact Htk.
      - rewrite Hts, <- E1. replace (Z.of_nat j + 1) with (Z.of_nat (j + 1)) by lia.
        replace (Z.of_nat o + (ln + 2)) with (Z.of_nat (o + Z.to_nat (ln + 2))) by lia. reflexivity. }
    assert (Hdiv : forall lo, 0 <= lo < 256 -> ((Z.to_nat (hi * 256 + lo + 1) - 1) / 256 = Z.to_nat hi)%nat /\ ((Z.to_nat (hi * 256 + lo + 1) - 1) mod 256 = Z.to_nat lo)%nat).
    { intros lo Hlo. replace (Z.to_nat (hi * 256 + lo + 1) - 1)%nat with (Z.to_nat lo + Z.to_nat hi * 256)%nat by lia.
      rewrite Nat.div_add, Nat.mod_add by lia. rewrite Nat.div_small, Nat.mod_small by lia. lia. }
    destruct (Z.eqb_spec len 7) as [H7|H7].
    + replace (Z.of_nat i + 1) with (Z.of_nat (i + 1)) in E by lia.
      destruct (get_in inp (i + 1)) as (b1 & Eb1 & G1); [lia|]. rewrite G1 in E. cbn [mbind] in E. pose proof (b2z_range b1).
      destruct (Z.geb_spec (Z.of_nat (i + 1) + 1) (Z.of_nat n)); [destruct (Hz E)|].
      replace (Z.of_nat (i + 1) + 1) with (Z.of_nat (i + 2)) in E by lia. eapply Hback; [| | |exact E]; [lia|lia|].
      intros lo Elo. pose proof (b2z_range lo) as Hlo. destruct (Hdiv (b2z lo) Hlo) as [D1 D2]. cbn [enc_tok]. rewrite D1, D2.
      destruct (Nat.ltb_spec (Z.to_nat (len + b2z b1 + 2) - 2) 7); [lia|]. cbn [length]. split; [lia|].
      rewrite (drop_S inp b i Eb). rewrite (drop_S inp b1 (S i)) by (rewrite <- Eb1; f_equal; lia). rewrite (drop_S inp lo (S (S i))) by (rewrite <- Elo; f_equal; lia).
      cbn [take]. unfold byte_of. f_equal; [|f_equal; [|f_equal]]; apply b2z_inj; rewrite b2z_z2b_small; lia.
    + replace (Z.of_nat i + 1) with (Z.of_nat (i + 1)) in E by lia. eapply Hback; [| | |exact E]; [lia|lia|].
      intros lo Elo. pose proof (b2z_range lo) as Hlo. destruct (Hdiv (b2z lo) Hlo) as [D1 D2]. cbn [enc_tok]. rewrite D1, D2.
      destruct (Nat.ltb_spec (Z.to_nat (len + 2) - 2) 7); [|lia]. cbn [length]. split; [lia|].
      rewrite (drop_S inp b i Eb). rewrite (drop_S inp lo (S i)) by (rewrite <- Elo; f_equal; lia).
      cbn [take]. unfold byte_of. f_equal; [|f_equal]; apply b2z_inj; rewrite b2z_z2b_small; lia.
Qed.
(** what lies beyond the result is left as it was *)
Lemma dloop_frame f inp in_len out ol ip op r out' : dloop f inp in_len out ol ip op = MOk (r, out') -> 0 <= op -> r <> 0 ->
  op <= r /\ length out' = length out /\ drop (Z.to_nat r) out' = drop (Z.to_nat r) out.
Proof.
  revert f inp in_len out ol ip op r out'.
  assert (Hput : forall l i v l', put l i v = MOk l' -> length l' = length l /\ forall k, (Z.to_nat i < k)%nat -> drop k l' = drop k l).
  { intros l i v l' E. unfold put in E. destruct (_ && _); [|discriminate]. injection E as <-. rewrite insert_length. split; [reflexivity|]. intros k Hk. apply drop_insert_gt. exact Hk. }
  assert (Hlit : forall k inp ip out op out', copy_lit k inp ip out op = MOk out' -> 0 <= op -> length out' = length out /\ forall j, (Z.to_nat op + k <= j)%nat -> drop j out' = drop j out).
  { induction k as [|k IH]; intros inp ip out op out' E Ho; cbn in E; [injection E as <-; auto|].
    destruct (get inp ip) as [b| |]; try discriminate. cbn in E. destruct (put out op b) as [out1| |] eqn:E1; try discriminate. cbn in E.
    apply Hput in E1 as [L1 D1]. apply IH in E as [L2 D2]; [|lia]. split; [lia|]. intros j Hj. rewrite D2, D1 by lia. reflexivity. }
  assert (Href : forall k ref out op out', copy_ref k ref out op = MOk out' -> 0 <= op -> length out' = length out /\ forall j, (Z.to_nat op + k <= j)%nat -> drop j out' = drop j out).
  { induction k as [|k IH]; intros ref out op out' E Ho; cbn in E; [injection E as <-; auto|].
    destruct (get out ref) as [b| |]; try discriminate. cbn in E. destruct (put out op b) as [out1| |] eqn:E1; try discriminate. cbn in E.
    apply Hput in E1 as [L1 D1]. apply IH in E as [L2 D2]; [|lia]. split; [lia|]. intros j Hj. rewrite D2, D1 by lia. reflexivity. }
  assert (Hblk : forall k ref out op out', copy_block k ref out op = MOk out' -> 0 <= op -> length out' = length out /\ forall j, (Z.to_nat op + k <= j)%nat -> drop j out' = drop j out).
  { intros k ref out op out' E Ho. unfold copy_block in E. destruct (_ && _) eqn:C; [|discriminate]. injection E as <-.
    apply andb_true_iff in C as [C C4]. apply andb_true_iff in C as [C C3]. apply andb_true_iff in C as [C1 C2]. unfold zlen in *.
    apply Z.leb_le in C1, C2, C3, C4.
    assert (La : length (take (Z.to_nat op) out) = Z.to_nat op) by (rewrite take_length; lia).
    assert (Lb : length (take k (drop (Z.to_nat ref) out)) = k) by (rewrite take_length, drop_length; lia).
    split; [rewrite !app_length, drop_length; lia|]. intros j Hj. rewrite app_assoc.
    rewrite drop_app_ge by (rewrite app_length; lia). rewrite app_length, La, Lb, drop_drop. f_equal. lia. }
  induction f as [|f IH]; intros inp in_len out ol ip op r out' E Ho Hr; [discriminate|]. cbn [dloop] in E.
  assert (Hz0 : forall P : Prop, MOk (0, out) = MOk (r, out') -> P) by (intros P [= Hx _]; destruct (Hr (eq_sym Hx))).
  assert (Hcont : forall out1 ip1 k, 0 <= k -> length out1 = length out -> (forall j, (Z.to_nat op + Z.to_nat k <= j)%nat -> drop j out1 = drop j out) ->
    (if ip1 <? in_len then dloop f inp in_len out1 ol ip1 (op + k) else MOk (op + k, out1)) = MOk (r, out') ->
    op <= r /\ length out' = length out /\ drop (Z.to_nat r) out' = drop (Z.to_nat r) out).
  { intros out1 ip1 k Hk L1 D1 E1. destruct (ip1 <? in_len).
    - apply IH in E1 as (A & B & C); [|lia|exact Hr]. split; [lia|]. split; [lia|]. rewrite C. apply D1. lia.
    - injection E1 as <- <-. split; [lia|]. split; [exact L1|]. apply D1. lia. }
  destruct (get inp ip) as [c| |] eqn:Ec; try discriminate. cbn [mbind] in E.
  assert (Hc : 0 <= c < 256).
  { unfold get in Ec. destruct (ip <? 0); [discriminate|]. destruct (inp !! Z.to_nat ip); [|discriminate]. injection Ec as <-. apply b2z_range. }
  destruct (c <? 32).
  - destruct (_ >? _); [eapply Hz0; exact E|]. destruct (_ >? _); [eapply Hz0; exact E|].
    destruct (copy_lit (Z.to_nat (c + 1)) inp (ip + 1) out op) as [out1| |] eqn:E1; try discriminate. cbn [mbind] in E.
    apply Hlit in E1 as [L1 D1]; [|exact Ho]. eapply Hcont; [| | |exact E]; [lia|exact L1|]. intros j Hj. apply D1. lia.
  - destruct (_ >=? _); [eapply Hz0; exact E|].
    assert (Hback : forall ip1 len, 0 <= len ->
      (lo <~ get inp ip1;;
       if op + len + 2 >? ol then MOk (0, out)
       else if op - Z.shiftl (Z.land c 31) 8 - 1 - lo <? 0 then MOk (0, out)
       else out1 <~ (if (len >? 9) && (op >=? op - Z.shiftl (Z.land c 31) 8 - 1 - lo + (len + 2)) then copy_block (Z.to_nat (len + 2)) (op - Z.shiftl (Z.land c 31) 8 - 1 - lo) out op
                     else copy_ref (Z.to_nat (len + 2)) (op - Z.shiftl (Z.land c 31) 8 - 1 - lo) out op);;
            (if ip1 + 1 <? in_len then dloop f inp in_len out1 ol (ip1 + 1) (op + (len + 2)) else MOk (op + (len + 2), out1))) = MOk (r, out') ->
      op <= r /\ length out' = length out /\ drop (Z.to_nat r) out' = drop (Z.to_nat r) out).
    { intros ip1 len Hlen E1. clear E. destruct (get inp ip1) as [lo| |]; try discriminate. cbn [mbind] in E1.
      destruct (_ >? _); [eapply Hz0; exact E1|]. destruct (_ <? 0); [eapply Hz0; exact E1|].
      destruct (if _ && _ then _ else _) as [out1| |] eqn:E2; try discriminate. cbn [mbind] in E1.
      assert (HD : length out1 = length out /\ forall j, (Z.to_nat op + Z.to_nat (len + 2) <= j)%nat -> drop j out1 = drop j out).
      { destruct (_ && _); [apply Hblk in E2|apply Href in E2]; auto. }
      destruct HD as [L1 D1]. eapply Hcont; [| | |exact E1]; [lia|exact L1|exact D1]. }
    assert (Hs : 0 <= Z.shiftr c 5) by (apply Z.shiftr_nonneg; lia).
    destruct (_ =? 7).
    + destruct (get inp (ip + 1)) as [b1| |] eqn:Eb1; try discriminate. cbn [mbind] in E.
      assert (0 <= b1). { unfold get in Eb1. destruct (_ <? 0); [discriminate|]. destruct (inp !! _); [|discriminate]. injection Eb1 as <-. apply b2z_range. }
      destruct (_ >=? _); [eapply Hz0; exact E|]. eapply Hback; [|exact E]. lia.
    + eapply Hback; [|exact E]. lia.
Qed.
Lemma ctrl_bits l o : (l < 8)%nat -> (o < 32)%nat ->
  Z.shiftr (b2z (byte_of (l * 32 + o))) 5 = Z.of_nat l /\ Z.land (b2z (byte_of (l * 32 + o))) 31 = Z.of_nat o /\ b2z (byte_of (l * 32 + o)) = Z.of_nat (l * 32 + o).
Proof.
  intros Hl Ho. unfold byte_of. rewrite b2z_z2b_small by lia. rewrite Z.shiftr_div_pow2 by lia. change 31 with (Z.ones 5). rewrite Z.land_ones by lia.
  change (2 ^ 5) with 32. replace (Z.of_nat (l * 32 + o)) with (Z.of_nat o + Z.of_nat l * 32) by lia.
  rewrite Z.div_add, Z.mod_add by lia. rewrite Z.div_small, Z.mod_small by lia. lia.
Qed.
(** on a token stream *)
Lemma dloop_decode f inp (n m : nat) out i o ts : ts <> [] -> (n <= length inp)%nat -> (n - i < f)%nat -> (i <= n)%nat ->
  take (n - i) (drop i inp) = encode ts -> length out = m -> (o <= m)%nat -> tok_ok o ts ->
  exists r out', dloop f inp (Z.of_nat n) out (Z.of_nat m) (Z.of_nat i) (Z.of_nat o) = MOk (r, out') /\ length out' = m /\
    if (o + tsize ts <=? m)%nat then r = Z.of_nat (o + tsize ts) /\ take (o + tsize ts) out' = text (take o out) ts else r = 0.
Proof.
  revert f i o out. induction ts as [|t ts IH]; intros f i o out Hne Hn Hf Hin Henc Hm Ho Hok; [contradiction|].
  destruct f as [|f]; [lia|]. cbn [dloop]. clear Hne.
  change (encode (t :: ts)) with (enc_tok t ++ encode ts) in Henc.
  assert (Hlen : (n - i = length (enc_tok t) + length (encode ts))%nat).
  { rewrite <- app_length, <- Henc, take_length, drop_length. lia. }
  assert (Hget : forall k b, enc_tok t !! k = Some b -> inp !! (i + k)%nat = Some b).
  { intros k b Hk. pose proof (lookup_lt_Some _ _ _ Hk).
    rewrite <- lookup_drop. rewrite <- (lookup_take _ (n - i)) by lia. rewrite Henc, lookup_app_l by lia. exact Hk. }
  assert (Hrest : take (n - (i + length (enc_tok t))) (drop (i + length (enc_tok t)) inp) = encode ts).
  { rewrite <- drop_drop. rewrite <- (drop_app (enc_tok t) (encode ts)), <- Henc. rewrite firstn_skipn_comm. f_equal. f_equal. lia. }
  (* what follows the token *)
  assert (Hcont : forall out1 k, length out1 = m -> (o + k <= m)%nat -> tok_ok (o + k) ts -> (0 < length (enc_tok t))%nat ->
    exists r out', (if Z.of_nat (i + length (enc_tok t)) <? Z.of_nat n
                    then dloop f inp (Z.of_nat n) out1 (Z.of_nat m) (Z.of_nat (i + length (enc_tok t))) (Z.of_nat (o + k)) else MOk (Z.of_nat (o + k), out1)) = MOk (r, out') /\ length out' = m /\
      if (o + (k + tsize ts) <=? m)%nat then r = Z.of_nat (o + (k + tsize ts)) /\ take (o + (k + tsize ts)) out' = text (take (o + k) out1) ts else r = 0).
  { intros out1 k Hl1 Hk Hok1 Hpos. rewrite Nat.add_assoc. destruct (Z.ltb_spec (Z.of_nat (i + length (enc_tok t))) (Z.of_nat n)) as [Hlt|Hge].
    - apply IH; auto; try lia. intros ->. cbn in Hlen. lia.
    - assert (Hz : ts = []).
      { destruct ts as [|[l|d q] ts]; [reflexivity|cbn in Hlen; lia|]. exfalso. change (encode (TRef d q :: ts)) with (enc_tok (TRef d q) ++ encode ts) in Hlen.
        rewrite app_length in Hlen. assert (0 < length (enc_tok (TRef d q)))%nat by (cbn [enc_tok]; destruct (_ <? _)%nat; cbn; lia). lia. }
      subst ts. cbn [tsize text]. rewrite Nat.add_0_r. exists (Z.of_nat (o + k)), out1. split; [reflexivity|]. split; [exact Hl1|].
      destruct (Nat.leb_spec (o + k) m); [auto|lia]. }
  destruct t as [l|d q]; cbn [tok_ok tsize text] in *.
  - (* literal run *)
    destruct Hok as [Hl Hok]. cbn [enc_tok length] in *.
    rewrite (get_ok inp i (byte_of (length l - 1))) by (rewrite <- (Hget 0%nat _ eq_refl); f_equal; lia). cbn [mbind].
    assert (Hc : b2z (byte_of (length l - 1)) = Z.of_nat (length l - 1)) by (unfold byte_of; rewrite b2z_z2b_small; lia). rewrite Hc.
    destruct (Z.ltb_spec (Z.of_nat (length l - 1)) 32); [|lia].
    destruct (Z.gtb_spec (Z.of_nat o + (Z.of_nat (length l - 1) + 1)) (Z.of_nat m)).
    { exists 0, out. split; [reflexivity|]. split; [exact Hm|]. destruct (Nat.leb_spec (o + (length l + tsize ts)) m); [lia|reflexivity]. }
    destruct (Z.gtb_spec (Z.of_nat i + 1 + (Z.of_nat (length l - 1) + 1)) (Z.of_nat n)); [lia|].
    replace (Z.to_nat (Z.of_nat (length l - 1) + 1)) with (length l) by lia.
    replace (Z.of_nat i + 1) with (Z.of_nat (i + 1)) by lia.
    destruct (copy_lit_spec (length l) inp (i + 1) out o) as (out1 & E1 & Hl1 & Ht1); [lia|lia|]. rewrite E1. cbn [mbind].
    replace (Z.of_nat (i + 1) + (Z.of_nat (length l - 1) + 1)) with (Z.of_nat (i + S (length l))) by lia.
    replace (Z.of_nat o + (Z.of_nat (length l - 1) + 1)) with (Z.of_nat (o + length l)) by lia.
    assert (Hlit : take (length l) (drop (i + 1) inp) = l).
    { assert (Hd : take (S (length l)) (drop i inp) = byte_of (length l - 1) :: l).
      { replace (S (length l)) with (S (length l) `min` (n - i))%nat by lia. rewrite <- take_take, Henc. cbn [app take]. rewrite take_app. reflexivity. }
      rewrite <- drop_drop. destruct (drop i inp) as [|x rest]; [discriminate Hd|]. cbn [take] in Hd. injection Hd as _ Hd. exact Hd. }
    rewrite Hlit in Ht1. rewrite <- Ht1. apply Hcont; [lia|lia|exact Hok|lia].
  - (* back reference *)
    destruct Hok as (Hd & Hd2 & Hq & Hok).
    assert (Hoff : ((d - 1) / 256 < 32)%nat).
    { apply Nat.div_lt_upper_bound; [lia|]. lia. }
    assert (Hlow : ((d - 1) mod 256 < 256)%nat) by (apply Nat.mod_upper_bound; lia).
    pose proof (Nat.div_mod (d - 1) 256 ltac:(lia)) as Hdm.
    assert (Hlo : b2z (byte_of ((d - 1) mod 256)) = Z.of_nat ((d - 1) mod 256)) by (unfold byte_of; rewrite b2z_z2b_small; lia).
    assert (Hback : forall j, (j + 1 = i + length (enc_tok (TRef d q)))%nat -> (j < n)%nat -> inp !! j = Some (byte_of ((d - 1) mod 256)) -> exists r out',
      (lo <~ get inp (Z.of_nat j);;
       if Z.of_nat o + Z.of_nat (q - 2) + 2 >? Z.of_nat m then MOk (0, out)
       else if Z.of_nat o - Z.shiftl (Z.of_nat ((d - 1) / 256)) 8 - 1 - lo <? 0 then MOk (0, out)
       else out1 <~ (if (Z.of_nat (q - 2) >? 9) && (Z.of_nat o >=? Z.of_nat o - Z.shiftl (Z.of_nat ((d - 1) / 256)) 8 - 1 - lo + (Z.of_nat (q - 2) + 2))
                     then copy_block (Z.to_nat (Z.of_nat (q - 2) + 2)) (Z.of_nat o - Z.shiftl (Z.of_nat ((d - 1) / 256)) 8 - 1 - lo) out (Z.of_nat o)
                     else copy_ref (Z.to_nat (Z.of_nat (q - 2) + 2)) (Z.of_nat o - Z.shiftl (Z.of_nat ((d - 1) / 256)) 8 - 1 - lo) out (Z.of_nat o));;
            (if Z.of_nat j + 1 <? Z.of_nat n then dloop f inp (Z.of_nat n) out1 (Z.of_nat m) (Z.of_nat j + 1) (Z.of_nat o + (Z.of_nat (q - 2) + 2)) else MOk (Z.of_nat o + (Z.of_nat (q - 2) + 2), out1)))
      = MOk (r, out') /\ length out' = m /\ if (o + (q + tsize ts) <=? m)%nat then r = Z.of_nat (o + (q + tsize ts)) /\ take (o + (q + tsize ts)) out' = text (copy (take o out) d q) ts else r = 0).
    { intros j Hj Hjn Ej. rewrite (get_ok inp j _ Ej). cbn [mbind]. rewrite Hlo.
      rewrite Z.shiftl_mul_pow2 by lia. change (2 ^ 8) with 256.
      destruct (Z.gtb_spec (Z.of_nat o + Z.of_nat (q - 2) + 2) (Z.of_nat m)).
      { exists 0, out. split; [reflexivity|]. split; [exact Hm|]. destruct (Nat.leb_spec (o + (q + tsize ts)) m); [lia|reflexivity]. }
      assert (Hr : Z.of_nat o - Z.of_nat ((d - 1) / 256) * 256 - 1 - Z.of_nat ((d - 1) mod 256) = Z.of_nat (o - d)) by lia.
      rewrite Hr. destruct (Z.ltb_spec (Z.of_nat (o - d)) 0); [lia|].
      destruct (copy_any_spec (Z.of_nat (q - 2)) (o - d) out o) as (out1 & E1 & Hl1 & Ht1); [lia|lia|lia|]. rewrite E1. cbn [mbind].
      replace (Z.to_nat (Z.of_nat (q - 2) + 2)) with q in Ht1 by lia. replace (o - (o - d))%nat with d in Ht1 by lia.
      replace (Z.of_nat o + (Z.of_nat (q - 2) + 2)) with (Z.of_nat (o + q)) by lia.
      replace (Z.of_nat j + 1) with (Z.of_nat (i + length (enc_tok (TRef d q)))) by lia.
      rewrite <- Ht1. apply Hcont; [lia|lia|exact Hok|cbn [enc_tok]; destruct (_ <? _)%nat; cbn; lia]. }
    cbn [enc_tok] in *. destruct (Nat.ltb_spec (q - 2) 7) as [H7|H7]; cbn [length] in *.
    + destruct (ctrl_bits (q - 2) ((d - 1) / 256)) as (B1 & B2 & B3); [lia|lia|].
      rewrite (get_ok inp i (byte_of ((q - 2) * 32 + (d - 1) / 256))) by (rewrite <- (Hget 0%nat _ eq_refl); f_equal; lia). cbn [mbind].
      rewrite B1, B2, B3.
      destruct (Z.ltb_spec (Z.of_nat ((q - 2) * 32 + (d - 1) / 256)) 32); [lia|].
      destruct (Z.geb_spec (Z.of_nat i + 1) (Z.of_nat n)); [lia|].
      destruct (Z.eqb_spec (Z.of_nat (q - 2)) 7); [lia|].
      replace (Z.of_nat i + 1) with (Z.of_nat (i + 1)) by lia. apply Hback; [lia|lia|apply Hget; reflexivity].
    + destruct (ctrl_bits 7 ((d - 1) / 256)) as (B1 & B2 & B3); [lia|lia|].
      rewrite (get_ok inp i (byte_of (7 * 32 + (d - 1) / 256))) by (rewrite <- (Hget 0%nat _ eq_refl); f_equal; lia). cbn [mbind].
      rewrite B1, B2, B3. change (Z.of_nat 7 =? 7) with true. cbv iota.
      destruct (Z.ltb_spec (Z.of_nat (7 * 32 + (d - 1) / 256)) 32); [lia|].
      destruct (Z.geb_spec (Z.of_nat i + 1) (Z.of_nat n)); [lia|].
      replace (Z.of_nat i + 1) with (Z.of_nat (i + 1)) by lia.
      rewrite (get_ok inp (i + 1) (byte_of (q - 2 - 7))) by (apply Hget; reflexivity). cbn [mbind].
      destruct (Z.geb_spec (Z.of_nat (i + 1) + 1) (Z.of_nat n)); [lia|].
      replace (Z.of_nat 7 + b2z (byte_of (q - 2 - 7))) with (Z.of_nat (q - 2)) by (unfold byte_of; rewrite b2z_z2b_small; lia).
      replace (Z.of_nat (i + 1) + 1) with (Z.of_nat (i + 2)) by lia. apply Hback; [lia|lia|apply Hget; reflexivity].
Qed.
