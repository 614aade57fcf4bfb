(** * LzfFit: the compressor run on output buffers of two sizes (proof machinery) *)
From Verif Require Import Base LzfModel LzfSpec LzfLib.

Lemma put_app a b i v a' : put a i v = MOk a' -> put (a ++ b) i v = MOk (a' ++ b) /\ length a' = length a.
Proof.
  unfold put. destruct ((0 <=? i) && (i <? zlen a)) eqn:E; [|discriminate]. intros [= <-]. apply andb_true_iff in E as [E1 E2]. apply Z.leb_le in E1. apply Z.ltb_lt in E2.
  rewrite zlen_app. pose proof (zlen_nonneg b). destruct (Z.leb_spec 0 i); [|lia]. destruct (Z.ltb_spec i (zlen a + zlen b)); [|lia]. cbn [andb].
  rewrite insert_app_l by (unfold zlen in E2; lia). rewrite insert_length. auto.
Qed.
Definition more (s : cst) (b : gostr) : cst := Cst (k_ip s) (k_op s) (k_lit s) (k_hval s) (k_out s ++ b) (k_tab s).

Ltac step H := match type of H with
  | mbind ?x _ = _ => let E := fresh "E" in destruct x eqn:E; cbn [mbind] in H |- *; try discriminate H
  end.
Lemma cloop_grow f inp il ol : forall s s', cloop f inp il ol s = MOk (Some s') -> k_op s <= k_op s'.
Proof.
  induction f as [|f IH]; intros s s' H; cbn [cloop] in H; [discriminate|].
  destruct (k_ip s <? il - 2); [|injection H as <-; lia].
  step H. step H. destruct a0.
  - destruct (_ && _); [discriminate|]. step H. step H. step H. destruct a2 as [out4 op4]. step H.
    assert (Hop : k_op s - 1 + 1 <= op4).
    { destruct (a1 - 2 <? 7); step E3; try (step E3); injection E3 as <- <-; destruct (k_lit s =? 0); lia. }
    destruct (_ >=? il - 2); [injection H as <-; cbn; lia|]. step H. step H. step H. apply IH in H. cbn in H. lia.
  - destruct (_ >=? ol); [discriminate|]. step H. step H. destruct (_ =? max_lit); [step H|]; apply IH in H; cbn in H; lia.
Qed.
Lemma ctail_grow n inp : forall ip op lit out op' lit' out', ctail n inp ip op lit out = MOk (op', lit', out') -> op <= op'.
Proof.
  induction n as [|n IH]; intros ip op lit out op' lit' out' H; cbn [ctail] in H; [injection H as <- _ _; lia|].
  step H. step H. destruct (_ =? max_lit); [step H|]; apply IH in H; lia.
Qed.
Lemma ctail_app n inp b : forall ip op lit out op' lit' out', ctail n inp ip op lit out = MOk (op', lit', out') ->
  ctail n inp ip op lit (out ++ b) = MOk (op', lit', out' ++ b) /\ length out' = length out.
Proof.
  induction n as [|n IH]; intros ip op lit out op' lit' out' H; cbn [ctail] in H |- *; [injection H as <- <- <-; auto|].
  step H. step H. rewrite (proj1 (put_app _ b _ _ _ E0)). cbn [mbind]. pose proof (proj2 (put_app _ b _ _ _ E0)) as L0.
  destruct (_ =? max_lit).
  - step H. rewrite (proj1 (put_app _ b _ _ _ E1)). cbn [mbind]. pose proof (proj2 (put_app _ b _ _ _ E1)). apply IH in H as [H1 H2]. split; [exact H1|lia].
  - apply IH in H as [H1 H2]. split; [exact H1|lia].
Qed.
(** a run that succeeds or gives up in the small buffer, next to the run in the larger one *)
Lemma cloop_two f inp il b : forall s r, cloop f inp il (zlen (k_out s)) s = MOk r ->
  match r with
  | Some s' => cloop f inp il (zlen (k_out s) + zlen b) (more s b) = MOk (Some (more s' b)) /\ length (k_out s') = length (k_out s)
  | None => forall s2, cloop f inp il (zlen (k_out s) + zlen b) (more s b) = MOk (Some s2) -> zlen (k_out s) <= k_op s2 + 1
  end.
Proof.
  induction f as [|f IH]; intros s r H; cbn [cloop] in H |- *; [discriminate|]. cbn [more k_ip k_op k_lit k_hval k_out k_tab].
  destruct (k_ip s <? il - 2); [|injection H as <-; auto].
  step H. cbn [mbind]. step H. cbn [mbind]. pose proof (zlen_nonneg b) as Hb. destruct a0.
  - set (nl := if k_lit s =? 0 then 1 else 0) in *.
    destruct ((k_op s + 3 + 1 >=? zlen (k_out s)) && (k_op s - nl + 3 + 1 >=? zlen (k_out s))) eqn:Eg.
    + injection H as <-. intros s2 H. destruct ((k_op s + 3 + 1 >=? zlen (k_out s) + zlen b) && (k_op s - nl + 3 + 1 >=? zlen (k_out s) + zlen b)); [discriminate|]. step H. step H. step H. destruct a2 as [out4 op4]. step H.
      apply andb_true_iff in Eg as [_ Eg]. apply Z.geb_le in Eg.
      assert (Hop : k_op s - nl + 1 <= op4).
      { destruct (a1 - 2 <? 7); step E3; try (step E3); injection E3 as <- <-; lia. }
      destruct (_ >=? il - 2); [injection H as <-; cbn; lia|]. step H. step H. step H. apply cloop_grow in H. cbn in H. lia.
    + assert (Eg' : (k_op s + 3 + 1 >=? zlen (k_out s) + zlen b) && (k_op s - nl + 3 + 1 >=? zlen (k_out s) + zlen b) = false).
      { rewrite andb_false_iff, !Z.geb_leb, !Z.leb_gt in Eg |- *. lia. }
      rewrite Eg'. step H. destruct (put_app _ b _ _ _ E1) as [P1 L1]. rewrite P1. cbn [mbind]. step H. step H. destruct a2 as [out4 op4].
      assert (P3 : (if a1 - 2 <? 7 then out2 <~ put (a0 ++ b) (k_op s - nl) (Z.shiftr (u64 (k_ip s - u32 (k_tab s (idx a)) - 1)) 8 + Z.shiftl (a1 - 2) 5);; MOk (out2, k_op s - nl + 1)
         else out2 <~ put (a0 ++ b) (k_op s - nl) (Z.shiftr (u64 (k_ip s - u32 (k_tab s (idx a)) - 1)) 8 + Z.shiftl 7 5);; out3 <~ put out2 (k_op s - nl + 1) (a1 - 2 - 7);; MOk (out3, k_op s - nl + 2))
         = MOk (out4 ++ b, op4) /\ length out4 = length a0).
      { destruct (a1 - 2 <? 7).
        - step E3. injection E3 as <- <-. destruct (put_app _ b _ _ _ E4) as [-> L4]. cbn [mbind]. auto.
        - step E3. step E3. injection E3 as <- <-. destruct (put_app _ b _ _ _ E4) as [-> L4]. cbn [mbind]. destruct (put_app _ b _ _ _ E5) as [-> L5]. cbn [mbind]. split; [reflexivity|congruence]. }
      destruct P3 as [P3 L3]. rewrite P3. cbn [mbind]. step H. destruct (put_app _ b _ _ _ E4) as [P4 L4]. rewrite P4. cbn [mbind].
      destruct (_ >=? il - 2); [injection H as <-; cbn [k_out]; split; [reflexivity|congruence]|].
      step H. cbn [mbind]. step H. cbn [mbind]. step H. cbn [mbind].
      assert (Ez : zlen (k_out s) = zlen a2) by (unfold zlen; congruence). rewrite Ez in H |- *.
      match type of H with cloop _ _ _ _ ?st = _ => specialize (IH st _ H) end. cbn [k_out] in IH. destruct r; [destruct IH as [I1 I2]; split; [exact I1|congruence]|exact IH].
  - destruct (Z.geb_spec (k_op s) (zlen (k_out s))) as [Hg|Hg].
    + injection H as <-. intros s2 H. destruct (_ >=? _); [discriminate|]. step H. step H. destruct (_ =? max_lit); [step H|]; apply cloop_grow in H; cbn in H; lia.
    + destruct (Z.geb_spec (k_op s) (zlen (k_out s) + zlen b)); [lia|]. step H. cbn [mbind]. step H. destruct (put_app _ b _ _ _ E2) as [P2 L2]. rewrite P2. cbn [mbind].
      destruct (_ =? max_lit).
      * step H. destruct (put_app _ b _ _ _ E3) as [P3 L3]. rewrite P3. cbn [mbind].
        assert (Ez : zlen (k_out s) = zlen a2) by (unfold zlen; congruence). rewrite Ez in H |- *. match type of H with cloop _ _ _ _ ?st = _ => specialize (IH st _ H) end. cbn [k_out] in IH. destruct r; [destruct IH as [I1 I2]; split; [exact I1|congruence]|exact IH].
      * assert (Ez : zlen (k_out s) = zlen a1) by (unfold zlen; congruence). rewrite Ez in H |- *. match type of H with cloop _ _ _ _ ?st = _ => specialize (IH st _ H) end. cbn [k_out] in IH. destruct r; [destruct IH as [I1 I2]; split; [exact I1|congruence]|exact IH].
Qed.
(** What the size of the output buffer changes: nothing, except that the compressor gives up (0) if it is too small; with four bytes to
    spare it does not. *)
Lemma compress_two inp il a b tab r out : lzf_compress inp il a (zlen a) tab = MOk (r, out) -> a <> [] -> 0 <= r ->
  (r <> 0 -> lzf_compress inp il (a ++ b) (zlen (a ++ b)) tab = MOk (r, out ++ b)) /\
  (r = 0 -> forall r' out', lzf_compress inp il (a ++ b) (zlen (a ++ b)) tab = MOk (r', out') -> r' <> 0 -> zlen a < r' + 4).
Proof.
  intros H Ha Hr0. unfold lzf_compress in H |- *. rewrite zlen_app. pose proof (zlen_nonneg b) as Hb.
  assert (0 < zlen a) by (destruct a; [contradiction|rewrite zlen_cons; pose proof (zlen_nonneg a); lia]).
  destruct (Z.eqb_spec (zlen a) 0); [lia|]. destruct (Z.eqb_spec (zlen a + zlen b) 0); [lia|]. destruct (Z.eqb_spec il 0) as [->|Hil]; cbn [orb] in *.
  { injection H as <- <-. split; [congruence|]. intros _ r' out' [= <- <-]. congruence. }
  step H. step H. pose proof (cloop_two _ inp il b (Cst 0 1 0 a0 a tab) a1 E0) as HT. cbn [k_out more] in HT. destruct a1 as [s|].
  - destruct HT as [HT HL]. unfold more in HT. cbn [k_ip k_op k_lit k_hval k_out k_tab] in HT. rewrite HT. cbn [mbind].
    destruct (Z.gtb_spec (k_op s + 3) (zlen a)) as [Hg|Hg].
    + injection H as <- <-. split; [congruence|]. intros _ r' out'. cbn [k_op k_lit k_ip]. destruct (_ >? _); [intros [= <- <-]; congruence|].
      intros H Hr'. step H. destruct a1 as [[op lit] out1]. apply ctail_grow in E1. step H. injection H as <- <-. destruct (lit =? 0); lia.
    + cbn [k_op k_lit k_ip k_out]. destruct (Z.gtb_spec (k_op s + 3) (zlen a + zlen b)); [lia|]. step H. destruct a1 as [[op lit] out1].
      destruct (ctail_app _ _ b _ _ _ _ _ _ _ E1) as [-> L1]. cbn [mbind]. step H. destruct (put_app _ b _ _ _ E2) as [-> L2]. cbn [mbind]. injection H as <- <-.
      split; [reflexivity|]. intros Hr r' out' [= <- <-]. congruence.
  - injection H as <- <-. split; [congruence|]. intros _ r' out' H Hr'. step H. destruct a1 as [s2|]; [|injection H as <- _; congruence].
    unfold more in HT. cbn [k_ip k_op k_lit k_hval k_tab] in HT. specialize (HT _ E1).
    destruct (_ >? _); [injection H as <- _; congruence|]. step H. destruct a1 as [[op lit] out1]. apply ctail_grow in E2. step H. injection H as <- <-. destruct (lit =? 0); lia.
Qed.
