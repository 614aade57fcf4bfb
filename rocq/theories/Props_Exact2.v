(** * Props_Exact2: exact conditions for further properties that fail for some inputs

    As in Props_Exact, the witness and the proved part of each property are joined to the exact condition under which it holds,
    or the failure is shown for every state instead of one. *)
From Verif Require Import Base GoFloat CacheModel CacheSpec.
From Verif Require Import CacheAbs CacheRefine CacheRefineH CacheMain CacheLib Props_String Props_String2 Props_Counter Props_Db Props_Multi Props_Hash Props_Hash2 Props_Exact.

(** C16: the true sum is returned exactly if it fits *)
Theorem C16_iff_partial w t k n c d w1 m : ready w -> counter w k n -> delta k c = Some d -> run_call t c w = Done w1 (RInt (m, None)) ->
  m = n + d <-> - 2 ^ 63 <= n + d < 2 ^ 63.
Proof.
  intros Hr Hc Hd E. destruct (C16_wraps_partial w t k n c d w1 _ Hr Hc Hd E) as (m' & Em & _ & _ & H2 & H3). injection Em as <-.
  split; [intros <-; exact H2|exact H3].
Qed.
(** C26: the count is right exactly if no listed key is stored past its deadline *)
Theorem C26_iff_partial w t ks : ready w ->
  answer t (CExists ks) w = ok_int (count_readable t w ks) <-> forall k, k ∈ ks -> is_Some (stored w k) -> ~ past w k t.
Proof.
  intros Hr. rewrite C26_exists_counts_stored by auto. set (S := fun k => is_Some (stored w k)).
  assert (Hrd : forall k, readable t w k = true <-> S k /\ ~ past w k t).
  { intros k. rewrite readable_view by auto. pose proof (view_stored w k Hr) as Hv. unfold S. destruct (past_dec w k t) as [Hp|Hp].
    - rewrite purge_past by auto. split; [discriminate|tauto].
    - rewrite purge_not_past by auto. destruct (fst (view w k)) as [[v|o]|].
      + destruct Hv as [-> _]. split; [eauto|auto].
      + destruct Hv as [[l ->] _]. split; [eauto|auto].
      + rewrite Hv. split; [discriminate|]. intros [[? ?] _]. discriminate. }
  assert (G : (length (List.filter (readable t w) ks) <= length (filter S ks))%nat /\
    (length (filter S ks) = length (List.filter (readable t w) ks) <-> forall k, k ∈ ks -> S k -> ~ past w k t)).
  { induction ks as [|k ks [IH1 IH2]]; [split; [auto|]; split; [intros _ k Hk; inversion Hk|reflexivity]|].
    rewrite filter_cons. cbn [List.filter]. destruct (readable t w k) eqn:Er.
    - apply Hrd in Er as [Hs Hp]. rewrite decide_True by auto. cbn [length]. split; [lia|]. split.
      + intros E x Hx. apply elem_of_cons in Hx as [->|Hx]; [auto|]. apply IH2; auto.
      + intros H. f_equal. apply IH2. intros x Hx. apply H. right. exact Hx.
    - destruct (decide (S k)) as [Hs|Hs].
      + cbn [length]. split; [lia|]. split; [lia|]. intros H. specialize (H k ltac:(left) Hs). assert (readable t w k = true) by (apply Hrd; auto). congruence.
      + split; [exact IH1|]. rewrite IH2. split.
        * intros H x Hx. apply elem_of_cons in Hx as [->|Hx]; [tauto|auto].
        * intros H x Hx. apply H. right. exact Hx. }
  destruct G as [_ G]. refine (iff_trans _ G). unfold count_readable, zlen, ok_int. split; [|intros ->; reflexivity].
  intros E. injection E. lia.
Qed.
(** C36: HExists leaves HLen alone exactly if it does not find the field *)
Theorem C36_iff_partial w t k f w1 r t' n : ready w -> hash_or_absent w k -> ~ past w k t -> ~ past w k t' -> - 2 ^ 63 <= n < 2 ^ 63 ->
  answer t' (CHLen k) w = ok_int n -> run_call t (CHExists k f) w = Done w1 r ->
  answer t' (CHLen k) w1 = ok_int n <-> has_field t w k f = false.
Proof.
  intros Hr Hh Hp Hp' Hb Hn E. rewrite (C36_hexists_hlen_partial w t k f w1 r t' n) by auto.
  assert (Hw : wrap64 n = n) by (apply wrap64_id, is_int64_iff; unfold min_int64, max_int64; lia).
  destruct (has_field t w k f); split; auto; try discriminate.
  - intros E'. injection E' as E'. exfalso. rewrite <- Hw in E' at 2. unfold wrap64, two63, two64 in *. clear -E'.
    rewrite <- (Z.add_opp_r n 1), (Z.add_comm n), <- Z.add_assoc in E'. 
    pose proof (Z.div_mod (n + 9223372036854775808) 18446744073709551616 ltac:(lia)).
    pose proof (Z.div_mod (- 1 + (n + 9223372036854775808)) 18446744073709551616 ltac:(lia)). lia.
  - intros _. rewrite Hw. reflexivity.
Qed.
(** C39: an increment within range: the field shows the sum exactly if it was zero *)
Theorem C39_iff_partial w t k f d n w1 r t' : ready w -> hash_or_absent w k -> ~ past w k t -> ~ past w k t' -> - 2 ^ 63 <= d < 2 ^ 63 -> - 2 ^ 63 <= n + d < 2 ^ 63 ->
  field w k f = Some (VInt n) -> run_call t (CHIncrBy k f d) w = Done w1 r ->
  r = RInt (n + d, None) /\ (answer t' (CHGet k f) w1 = ok_str (itoa (n + d)) <-> n = 0).
Proof.
  intros Hr Hh Hp Hp' Hd Hs Hf E. destruct (C39_hincrby_partial w t k f d Hr Hh Hp Hd ltac:(eauto)) as (w2 & E2 & H). rewrite E2 in E. rewrite Hf in E.
  injection E as -> <-. destruct (H t' Hp') as [Hg _]. rewrite Hg. rewrite wrap64_id by (apply is_int64_iff; unfold min_int64, max_int64; lia). split; [reflexivity|]. split.
  - intros E. apply ok_str_inj, itoa_inj in E; [lia| |]; apply is_int64_iff; unfold min_int64, max_int64; lia.
  - intros ->. reflexivity.
Qed.
(** C43: HVals returns one value for each field exactly if all are kept as text *)
Theorem C43_iff_partial w t k l : ready w -> stored w k = Some (VHash l) -> ~ past w k t ->
  exists fs vs, answer t (CHKeys k) w = Some (RList (fs, None)) /\ answer t (CHVals k) w = Some (RList (vs, None)) /\ (length vs <= length fs)%nat /\
    (length vs = length fs <-> forall f, f ∈ fs -> exists s, field w k f = Some (VStr s)).
Proof.
  intros Hr Hs Hp. destruct (C42_hkeys_partial w t k l Hr Hs Hp) as (fs & H1 & H2 & H3). destruct (C43_hvals_partial w t k l Hr Hs Hp) as (gs & vs & G1 & G2 & G3 & G4).
  exists fs, vs. split; [exact H1|]. split; [exact G1|].
  assert (Hl : length vs = length gs) by (apply (f_equal length) in G4; rewrite !map_length in G4; exact G4).
  assert (Hsub : gs ⊆+ fs).
  { apply NoDup_submseteq; [exact G2|]. intros f Hf. apply H3. apply G3 in Hf as [s Hf]. unfold has_field.
    destruct (view_hash w k l Hr Hs) as (o & Ho & _). assert (Hc : is_ch (view w k)) by (unfold is_ch; rewrite Ho; exact I).
    rewrite hget_obj by (auto using ch_purge). rewrite purge_not_past by auto. rewrite field_obj in Hf by auto. unfold o_get. rewrite Hf. reflexivity. }
  pose proof (submseteq_length _ _ Hsub). split; [lia|]. rewrite Hl. split.
  - intros E f Hf. apply G3. assert (Hp' : gs ≡ₚ fs) by (apply submseteq_Permutation_length_le; [lia|exact Hsub]). rewrite Hp'. exact Hf.
  - intros Ha. apply Nat.le_antisymm; [lia|]. apply submseteq_length, NoDup_submseteq; [exact H2|]. intros f Hf. apply G3, Ha, Hf.
Qed.
(** C33: a read leaves no trace exactly if no key it names is stored past its deadline; Exists leaves none anyway *)
Theorem C33_iff_partial w t c w1 r : ready w -> reads c -> (forall ks, c <> CExists ks) -> run_call t c w = Done w1 r ->
  indist w1 w <-> forall k, names c k -> is_Some (stored w k) -> ~ past w k t.
Proof.
  intros Hr Hc Hx E. destruct (run_inv _ _ _ _ _ Hr E) as (V' & Ha & Hr1 & Hv1).
  assert (Hpp : forall v : kview, purge t (purge t v) = purge t v). { intros [[x|] [dl|]]; cbn; try reflexivity. destruct (dl <? t) eqn:E'; cbn; rewrite ?E'; reflexivity. }
  assert (Hn : forall k, names c k -> V' k = purge t (view w k)).
  { intros k Hk. destruct c; try destruct Hc; unfold names in Hk; cbn [keys_of] in Hk; cbn [abs keys_of abs1] in Ha; try (exfalso; eapply Hx; reflexivity).
    all: try (injection Ha as <- _; cbn in Hk; apply elem_of_list_singleton in Hk as ->; apply upd_eq).
    assert (HV : V' = fst (a_mget t ks (view w))) by (destruct (a_mget t ks (view w)); injection Ha as <- _; reflexivity). subst V'. clear -Hk Hpp.
    assert (G : forall ks V, k ∈ ks -> fst (a_mget t ks V) k = purge t (V k)); [|apply G, Hk]. clear Hk. clear ks.
    induction ks as [|k' l IH]; intros V Hk; [inversion Hk|]. cbn [a_mget]. specialize (IH (upd V k' (purge t (V k')))).
    pose proof (a_mget_ne t l (upd V k' (purge t (V k'))) k) as Hne.
    destruct (a_mget t l _) as [V1 n]. cbn [fst] in *. destruct (decide (k ∈ l)) as [Hi|Hi].
    - rewrite IH by auto. unfold upd. destruct (decide (k = k')) as [->|]; auto.
    - apply elem_of_cons in Hk as [->|]; [|tauto]. rewrite Hne, upd_eq; [auto|]. intros Hi'. apply Hi, elem_of_list_In, Hi'. }
  split.
  - intros Hi k Hk Hs Hp. pose proof (C26_exists_counts_stored w t [k] Hr) as A. pose proof (C26_exists_counts_stored w1 t [k] Hr1) as B.
    rewrite filter_cons_True in A by exact Hs. rewrite filter_cons_False in B.
    + assert (Hab : answer t (CExists [k]) w1 = answer t (CExists [k]) w) by (specialize (Hi [(t, CExists [k])]); unfold replies in Hi; cbn [run_hist] in Hi; unfold answer; destruct (run_call t (CExists [k]) w1), (run_call t (CExists [k]) w); cbn in Hi; try discriminate Hi; try reflexivity; injection Hi as ->; reflexivity). rewrite A, B in Hab. discriminate.
    + pose proof (view_stored w1 k Hr1) as Hv. rewrite Hv1, Hn, purge_past in Hv by auto. rewrite Hv. intros [? ?]. discriminate.
  - intros Hall. apply indist_of_view; auto. intros k. rewrite Hv1.
    assert (Hdec : names c k \/ ~ names c k).
    { unfold names. destruct (keys_of c); [|auto]. destruct (decide (k ∈ l)); auto. }
    destruct Hdec as [H|H]; [|eapply abs_ne; eauto]. rewrite Hn by auto. pose proof (view_stored w k Hr) as Hv.
    destruct (fst (view w k)) as [x|] eqn:Ev.
    + apply purge_not_past; auto. apply Hall; auto. destruct x; [destruct Hv as [-> _]|destruct Hv as [[l ->] _]]; eauto.
    + destruct (view w k) as [? e]. cbn in Ev. subst. reflexivity.
Qed.
(** C22: a mixture of stored and absent keys always gives a partial write *)
Theorem C22_mixed_refuted w t kv w1 r : ready w -> NoDup (map fst kv) -> run_call t (CMSetNX kv) w = Done w1 r ->
  (exists k v, (k, v) ∈ kv /\ stored w k = None) -> (exists k v, (k, v) ∈ kv /\ is_Some (stored w k)) ->
  exists n, r = RInt (n, None) /\ 0 < n < zlen kv.
Proof.
  intros Hr Hd E (k & v & Hi & Hn) (k' & v' & Hi' & Hn'). destruct (C23_msetnx w t kv w1 r Hr Hd E) as (-> & _). eexists. split; [reflexivity|].
  set (F := filter _ kv). assert (HF : (k, v) ∈ F) by (apply elem_of_list_filter; auto). split.
  - destruct F as [|x F]; [inversion HF|]. unfold zlen. cbn. lia.
  - assert (G : forall l : list (gostr * gostr), (k', v') ∈ l -> (length (filter (fun p => stored w (fst p) = None) l) < length l)%nat).
    { induction l as [|x l IH]; intros Hx; [inversion Hx|]. rewrite filter_cons. apply elem_of_cons in Hx as [<-|Hx].
      - destruct (decide _) as [Hs|_]; [cbn in Hs; rewrite Hs in Hn'; destruct Hn'; discriminate|]. cbn. pose proof (filter_length (fun p => stored w (fst p) = None) l). lia.
      - specialize (IH Hx). destruct (decide _); cbn; lia. }
    unfold zlen. specialize (G kv Hi'). unfold F. lia.
Qed.
(** C27: every hash, in every state, is reported as a string *)
Theorem C27_every_hash_refuted w t k l : ready w -> stored w k = Some (VHash l) -> ~ past w k t -> answer t (CType k) w = ok_str (bs "string").
Proof.
  intros Hr Hs Hp. destruct (view_hash w k l Hr Hs) as (o & Ho & _). rewrite (answer_single _ k) by auto. cbn [abs1]. rewrite purge_not_past, Ho by auto. reflexivity.
Qed.
(** C38: after HDel every hash is still counted by Exists and still of the wrong type for Get, whatever fields were removed *)
Theorem C38_every_hash_refuted w t k l fs w1 r t' : ready w -> stored w k = Some (VHash l) -> ~ past w k t -> run_call t (CHDel k fs) w = Done w1 r ->
  ~ past w k t' -> answer t' (CExists [k]) w1 = ok_int 1 /\ answer t' (CGet k) w1 = err_str ErrWrongType.
Proof.
  intros Hr Hs Hp E Hp'. destruct (view_hash w k l Hr Hs) as (o & Ho & _). destruct (run_single _ k _ _ _ _ Hr E eq_refl) as (Ha & Hr1 & _). cbn [abs1] in Ha. rewrite purge_not_past in Ha by auto.
  unfold wr, a_hread in Ha. rewrite Ho in Ha. destruct (o_del o fs 0) as [o' n]. injection Ha as Hv _. split.
  - unfold answer. destruct (run_intro (CExists [k]) t' w1 _ _ Hr1 eq_refl) as (w2 & -> & _). cbn [a_exists]. rewrite <- Hv. reflexivity.
  - rewrite (answer_single _ k) by auto. cbn [abs1]. rewrite <- Hv. cbn [snd fst].
    assert (Hq : forall c, purge t' (Some c, snd (view w k)) = (Some c, snd (view w k))).
    { intros c. pose proof (view_dl w k Hr) as Hdl. destruct (snd (view w k)) as [dl|]; [|reflexivity]. cbn. destruct (Z.ltb_spec dl t'); [|reflexivity]. exfalso. apply Hp'. exists dl. auto. }
    rewrite Hq. reflexivity.
Qed.

(** the hypotheses are met: [demo] holds the string "a", the counter "n", the expiring string "s" and the hash "h" *)
Example Exact2_nonvacuous :
  stored demo (bs "n") = Some (VInt 41) /\ (is_Some (stored demo (bs "s")) /\ deadline demo (bs "s") = Some 10000000007) /\
  answer 9 (CMSetNX [(bs "s", bs "1"); (bs "new", bs "2")]) demo = ok_int 1 /\
  answer 9 (CType (bs "h")) demo = ok_str (bs "string") /\
  replies [(9, CHDel (bs "h") [bs "f"]); (9, CExists [bs "h"]); (9, CGet (bs "h"))] demo = Some [RInt (1, None); RInt (1, None); RStr ([], Some ErrWrongType)] /\
  replies [(9, CHSet (bs "h") (bs "g") (bs "7")); (9, CHIncrBy (bs "h") (bs "g") 2); (9, CHGet (bs "h") (bs "g")); (9, CHVals (bs "h"))] demo =
    Some [RInt (1, None); RInt (9, None); RStr (bs "2", None); RList ([bs "v"], None)].
Proof. split; [reflexivity|]. split; [split; [eexists; vm_compute; reflexivity|reflexivity]|]. vm_compute. auto 10. Qed.
