(** * Props_String: properties of the string calls (single caller)

    The state [w] ranges over all [ready] caches; every state reachable from New() is
    ready ([reachable_ready]). *)
From Verif Require Import Base GoFloat CacheModel CacheSpec.
From Verif Require Import CacheAbs CacheRefine CacheRefineH CacheMain CacheLib.

Theorem reachable_ready w : reachable w -> ready w.
Proof. exact (ready_reachable w). Qed.

(** A concrete non-trivial cache used by the non-vacuity examples: a text key, a number,
    a key with a deadline and a hash. *)
Definition demo_hist : list (Z * call) :=
  [(5, CSet (bs "a") (bs "hello")); (6, CSet (bs "n") (bs "41")); (7, CSetEX (bs "s") (bs "tmp") 10);
   (8, CHSet (bs "h") (bs "f") (bs "v"))].
Definition world_of {R} (e : eres R) : world := match e with Done w _ => w | _ => new_world 0 end.
Lemma reach_hist h t rs : replies h (new_world t) = Some rs -> reachable (world_of (run_hist h (new_world t))).
Proof.
  unfold replies. destruct (run_hist h (new_world t)) as [w rs'| |] eqn:E; [|discriminate|discriminate].
  intros _. exists t, h, rs'. exact E.
Qed.
Definition demo : world := world_of (run_hist demo_hist (new_world 0)).
Lemma demo_replies : replies demo_hist (new_world 0) =
  Some [RStr (bs "OK", None); RStr (bs "OK", None); RStr (bs "OK", None); RInt (1, None)].
Proof. vm_compute. reflexivity. Qed.
Lemma demo_reachable : reachable demo.
Proof. exact (reach_hist _ _ _ demo_replies). Qed.
Lemma demo_ready : ready demo.
Proof. exact (reachable_ready _ demo_reachable). Qed.

(** ** C01 *)
Theorem C01_read_your_write_refuted :
  exists k v r, replies [(1, CSet k v); (2, CGet k)] (new_world 0) = Some [RStr (bs "OK", None); RStr (r, None)] /\ r <> v.
Proof. exists (bs "k"), (bs "1.10"), (bs "1.1"). split; [vm_compute; reflexivity|discriminate]. Qed.

(** Full statement: the same without [plain v] and without [deadline w k = None]. *)
Theorem C01_read_your_write_partial w t k v w1 r h w2 rs t' :
  ready w -> deadline w k = None -> plain v ->
  run_call t (CSet k v) w = Done w1 r ->
  run_hist h w1 = Done w2 rs -> all_calls (fun _ c => ~ names c k) h ->
  answer t' (CGet k) w2 = ok_str v.
Proof.
  intros Hr Hd Hp E1 E2 Hall.
  destruct (run_single _ k _ _ _ _ Hr E1 eq_refl) as (Ha & Hr1 & _). injection Ha as Hv _.
  pose proof (hist_ne h k _ _ _ Hr1 E2 Hall) as Hk.
  pose proof (ready_hist _ _ _ _ Hr1 E2) as Hr2.
  rewrite (answer_single _ k) by auto. cbn [abs1]. rewrite Hk, <- Hv. unfold put. rewrite view_dl, Hd by auto.
  rewrite purge_none. cbn [fst]. unfold fmt_cret. cbn [fmt_cell]. rewrite fmt_try, Hp. reflexivity.
Qed.
Example C01_nonvacuous : ready demo /\ deadline demo (bs "a") = None /\ plain (bs "world") /\
  replies [(9, CSet (bs "a") (bs "world")); (10, CDel (bs "n")); (11, CGet (bs "a"))] demo =
    Some [RStr (bs "OK", None); RInt (1, None); RStr (bs "world", None)].
Proof. split; [exact demo_ready|]. repeat split; vm_compute; reflexivity. Qed.

(** ** C02 *)
Theorem C02_stored_text w t k v w1 r t' :
  ready w -> deadline w k = None -> run_call t (CSet k v) w = Done w1 r ->
  r = RStr (bs "OK", None) /\ answer t' (CGet k) w1 = ok_str (text v).
Proof.
  intros Hr Hd E1.
  destruct (run_single _ k _ _ _ _ Hr E1 eq_refl) as (Ha & Hr1 & _). injection Ha as Hv Hrep. split; [congruence|].
  rewrite (answer_single _ k) by auto. cbn [abs1]. rewrite <- Hv. unfold put. rewrite view_dl, Hd by auto.
  rewrite purge_none. cbn [fst]. unfold fmt_cret. cbn [fmt_cell]. rewrite fmt_try. reflexivity.
Qed.
(** [text] keeps everything that is not a number literal, and canonical integers. *)
Theorem C02_text_of_non_numbers v : atoi v = None -> parse_float v = None -> text v = v.
Proof. intros H1 H2. unfold text. rewrite H1, H2. reflexivity. Qed.
Theorem C02_text_of_integers z : - 2 ^ 63 <= z <= 2 ^ 63 - 1 -> text (itoa z) = itoa z.
Proof. intros H. apply text_int. apply is_int64_iff. exact H. Qed.
Example C02_nonvacuous : text (bs "hello") = bs "hello" /\ text (bs "007") = bs "7" /\ text (bs "-12") = bs "-12" /\ text (bs "1e3") = bs "1000".
Proof. vm_compute. auto. Qed.

(** ** C03 *)
Theorem C03_other_keys_undisturbed w k h w' rs h' :
  ready w -> run_hist h w = Done w' rs -> all_calls (fun _ c => ~ names c k) h ->
  all_calls (fun _ c => only_names c k) h' ->
  replies h' w' = replies h' w.
Proof.
  intros Hr E Hall Ho. apply (local_replies h' k); auto.
  - eapply ready_hist; eauto.
  - eapply hist_ne; eauto.
Qed.
Example C03_nonvacuous :
  all_calls (fun _ c => ~ names c (bs "h")) [(20, CGet (bs "s")); (21, CDel (bs "a")); (22, CMSet [(bs "x", bs "1"); (bs "n", bs "2")])] /\
  all_calls (fun _ c => only_names c (bs "h")) [(30, CHGet (bs "h") (bs "f")); (31, CHLen (bs "h"))] /\
  replies [(30, CHGet (bs "h") (bs "f")); (31, CHLen (bs "h"))] demo = Some [RStr (bs "v", None); RInt (1, None)].
Proof.
  split; [|split; [|vm_compute; reflexivity]].
  - repeat constructor; cbn; rewrite ?elem_of_cons, ?elem_of_nil; intros H; decompose [or] H; try discriminate; assumption.
  - repeat constructor.
Qed.

(** ** C04 *)
Theorem C04_expired_is_absent w k t :
  ready w -> past w k t ->
  answer t (CGet k) w = err_str ErrKeyNil /\
  answer t (CStrLen k) w = ok_int 0 /\
  (forall a b, answer t (CGetRange k a b) w = ok_str []) /\
  (forall v, answer t (CGetSet k v) w = err_str ErrKeyNil) /\
  answer t (CType k) w = ok_str (bs "none") /\
  (forall ks1 ks2, exists s1 s2, length s1 = length ks1 /\
     answer t (CMGet (ks1 ++ k :: ks2)) w = Some (RSlots (s1 ++ SlotErr ErrKeyNil :: s2, None))).
Proof.
  intros Hr Hp. pose proof (purge_past w k t Hr Hp) as Hn.
  split; [|split; [|split; [|split; [|split]]]]; try (intros; rewrite (answer_single _ k) by auto; cbn [abs1]; rewrite Hn; reflexivity).
  intros ks1 ks2. rewrite answer_eq by auto. cbn [abs]. revert Hn. generalize (view w). intros V Hn.
  revert V Hn. induction ks1 as [|k1 r IH]; intros V Hn; cbn [app a_mget].
  - destruct (a_mget t ks2 _) as [V' l]. rewrite Hn. exists [], l. split; reflexivity.
  - destruct (IH (upd V k1 (purge t (V k1)))) as (s1 & s2 & Hl & E).
    { unfold upd. destruct (decide (k = k1)) as [->|]; [|exact Hn].
      destruct (V k1) as [[c|] [dl|]]; simpl in *; try reflexivity; try discriminate.
      destruct (dl <? t); [reflexivity|discriminate]. }
    destruct (a_mget t (r ++ k :: ks2) (upd V k1 (purge t (V k1)))) as [V' l]. injection E as ->.
    exists (slot_cell (fst (purge t (V k1))) :: s1), s2. split; [simpl; congruence|reflexivity].
Qed.
Example C04_nonvacuous : past demo (bs "s") 10000000008 /\ is_Some (stored demo (bs "s")).
Proof. split; [exists 10000000007; split; [vm_compute; reflexivity|lia]|vm_compute; eauto]. Qed.

(** ** C05 *)
Lemma reads_hist h k : forall w w' rs, ready w -> run_hist h w = Done w' rs ->
  all_calls (fun t c => ~ names c k \/ (reads c /\ ~ past w k t)) h -> view w' k = view w k.
Proof.
  induction h as [|[t c] h IH]; intros w w' rs Hr; simpl; [intros E; injection E as <- <-; auto|].
  destruct (run_call t c w) as [w1 x| |] eqn:E1; [|discriminate|discriminate].
  destruct (run_hist h w1) as [w2 xs| |] eqn:E2; [|discriminate|discriminate].
  intros E Hall; injection E as <- <-. inversion_clear Hall as [|? ? H1 H2]. simpl in H1.
  destruct (run_inv _ _ _ _ _ Hr E1) as (V' & Ha & Hr1 & Hv).
  assert (Hk : view w1 k = view w k).
  { rewrite Hv. destruct H1 as [H1|[H1 H3]]; [eapply abs_ne; eauto|].
    eapply abs_reads; eauto. apply purge_not_past; auto. }
  rewrite <- Hk. eapply IH; eauto.
  assert (Hd : deadline w1 k = deadline w k) by (rewrite <- !view_dl, Hk by auto; reflexivity).
  eapply List.Forall_impl; [|exact H2]. intros [t' c']. simpl. unfold past. rewrite Hd. auto.
Qed.
Theorem C05_never_early w t k v (ms : bool) n w1 r h w2 rs t' :
  let dur := (if ms then 1000000 else 1000000000) * n in
  ready w -> 0 < dur < 2 ^ 63 ->
  run_call t (if ms then CPSetEX k v n else CSetEX k v n) w = Done w1 r ->
  run_hist h w1 = Done w2 rs ->
  all_calls (fun tc c => ~ names c k \/ (reads c /\ tc <= t + dur)) h ->
  t' <= t + dur ->
  answer t' (CGet k) w2 = ok_str (text v).
Proof.
  intros dur Hr Hd E1 E2 Hall Ht.
  assert (Hw : wrap64 dur = dur).
  { apply wrap64_id, is_int64_iff. unfold min_int64, max_int64, two63. lia. }
  assert (Hv1 : view w1 k = (Some (CV (try_int64 v)), Some (t + dur)) /\ ready w1).
  { destruct ms.
    - destruct (run_single _ k _ _ _ _ Hr E1 eq_refl) as (Ha & Hr1 & _). injection Ha as Hv _.
      split; [|exact Hr1]. rewrite <- Hv. unfold dl_after, millisecond.
      fold dur. rewrite Hw. destruct (Z.leb_spec dur 0); [lia|reflexivity].
    - destruct (run_single _ k _ _ _ _ Hr E1 eq_refl) as (Ha & Hr1 & _). injection Ha as Hv _.
      split; [|exact Hr1]. rewrite <- Hv. unfold dl_after, second.
      fold dur. rewrite Hw. destruct (Z.leb_spec dur 0); [lia|reflexivity]. }
  destruct Hv1 as [Hv1 Hr1].
  assert (Hk : view w2 k = view w1 k).
  { eapply reads_hist; eauto. eapply List.Forall_impl; [|exact Hall]. intros [tc c]. simpl. intros [H|[H1 H2]]; [auto|].
    right. split; [exact H1|]. intros (dl & Hdl & Hlt). rewrite <- view_dl, Hv1 in Hdl by auto. cbn in Hdl. injection Hdl as <-. lia. }
  rewrite (answer_single _ k) by (eauto using ready_hist). cbn [abs1]. rewrite Hk, Hv1. cbn [purge].
  destruct (Z.ltb_spec (t + dur) t'); [lia|]. cbn [fst]. unfold fmt_cret. cbn [fmt_cell]. rewrite fmt_try. reflexivity.
Qed.
Example C05_nonvacuous :
  replies [(7, CSetEX (bs "s") (bs "x") 10); (8, CGet (bs "s")); (10000000007, CGet (bs "s")); (10000000008, CGet (bs "s"))] demo =
  Some [RStr (bs "OK", None); RStr (bs "x", None); RStr (bs "x", None); RStr ([], Some ErrKeyNil)].
Proof. vm_compute. reflexivity. Qed.

(** ** C06 *)
Theorem C06_set_keeps_deadline_refuted :
  exists k v0 v n t, replies [(1, CSetEX k v0 n); (2, CSet k v); (t, CGet k)] (new_world 0) =
    Some [RStr (bs "OK", None); RStr (bs "OK", None); RStr ([], Some ErrKeyNil)].
Proof. exists (bs "k"), (bs "a"), (bs "b"), 1, 1000000002. vm_compute. reflexivity. Qed.
(** Full statement: the same for every [t'], i.e. without [~ past w k t']. *)
Theorem C06_set_until_old_deadline_partial w t k v w1 r t' :
  ready w -> run_call t (CSet k v) w = Done w1 r -> ~ past w k t' ->
  answer t' (CGet k) w1 = ok_str (text v) /\ deadline w1 k = deadline w k.
Proof.
  intros Hr E1 Hp.
  destruct (run_single _ k _ _ _ _ Hr E1 eq_refl) as (Ha & Hr1 & _). injection Ha as Hv Hrep.
  assert (Hd : deadline w1 k = deadline w k) by (rewrite <- !view_dl, <- Hv by auto; reflexivity).
  split; [|exact Hd].
  rewrite (answer_single _ k) by auto. cbn [abs1]. rewrite purge_not_past.
  - rewrite <- Hv. cbn [put fst]. unfold fmt_cret. cbn [fmt_cell]. rewrite fmt_try. reflexivity.
  - auto.
  - intros (dl & H1 & H2). apply Hp. exists dl. rewrite <- Hd. auto.
Qed.

(** ** C07 *)
Theorem C07_set_after_expiry_lost_refuted :
  exists k v0 v n t, replies [(1, CSetEX k v0 n); (t, CSet k v); (t, CGet k)] (new_world 0) =
    Some [RStr (bs "OK", None); RStr (bs "OK", None); RStr ([], Some ErrKeyNil)].
Proof. exists (bs "k"), (bs "a"), (bs "b"), 1, 1000000002. vm_compute. reflexivity. Qed.
(** Full statement: without the intermediate Get (or Del) that purges the key. *)
Theorem C07_set_after_noticed_expiry_partial w t k v w1 r1 w2 r2 t' :
  ready w -> past w k t -> is_Some (stored w k) ->
  run_call t (CGet k) w = Done w1 r1 -> run_call t (CSet k v) w1 = Done w2 r2 ->
  answer t' (CGet k) w2 = ok_str (text v).
Proof.
  intros Hr Hp [x Hs] E1 E2.
  destruct (run_single _ k _ _ _ _ Hr E1 eq_refl) as (Ha & Hr1 & _). injection Ha as Hv Hrep.
  assert (Hd : deadline w1 k = None).
  { rewrite <- view_dl, <- Hv by auto. destruct Hp as (dl & Hdl & Hlt). rewrite <- view_dl in Hdl by auto.
    pose proof (view_stored w k Hr) as Hvs. destruct (view w k) as [[c|] e]; [|congruence]. simpl in Hdl. subst. simpl.
    destruct (Z.ltb_spec dl t); [reflexivity|lia]. }
  eapply C02_stored_text; eauto.
Qed.

(** ** C08 *)
Theorem C08_setnx_ignores_expiry_refuted :
  exists k v0 v n t, replies [(1, CSetEX k v0 n); (t, CSetNX k v); (t, CGet k)] (new_world 0) =
    Some [RStr (bs "OK", None); RInt (0, None); RStr ([], Some ErrKeyNil)].
Proof. exists (bs "k"), (bs "a"), (bs "b"), 1, 1000000002. vm_compute. reflexivity. Qed.
(** Full statement: without [~ past w k t]. *)
Theorem C08_setnx_partial w t k v w1 r :
  ready w -> ~ past w k t -> run_call t (CSetNX k v) w = Done w1 r ->
  (answer t (CGet k) w = err_str ErrKeyNil /\ r = RInt (1, None) /\ exists w2 r2, run_call t (CSet k v) w = Done w2 r2 /\ indist w1 w2) \/
  (answer t (CGet k) w <> err_str ErrKeyNil /\ r = RInt (0, None) /\ indist w1 w).
Proof.
  intros Hr Hp E1.
  destruct (run_single _ k _ _ _ _ Hr E1 eq_refl) as (Ha & Hr1 & Ho). cbn [abs1] in Ha.
  rewrite (answer_single _ k) by auto. cbn [abs1]. rewrite purge_not_past by auto.
  destruct (fst (view w k)) as [c|] eqn:Ec.
  - right. injection Ha as Hv <-. split; [|split; [reflexivity|]].
    + unfold err_str, fmt_cret. destruct (fmt_cell c); discriminate.
    + apply indist_of_view; auto. intros k'. destruct (decide (k' = k)) as [->|]; auto.
  - left. injection Ha as Hv <-. split; [reflexivity|]. split; [reflexivity|].
    destruct (run_single_ex (CSet k v) k t w (put v (view w k)) (RStr (bs "OK", None)) Hr eq_refl eq_refl) as (w2 & E2 & Hr2 & Hv2 & Ho2).
    exists w2, (RStr (bs "OK", None)). split; [exact E2|]. apply indist_of_view; auto.
    intros k'. destruct (decide (k' = k)) as [->|Hne]; [congruence|]. rewrite Ho, Ho2; auto.
Qed.
Example C08_nonvacuous : ~ past demo (bs "n") 100 /\ ~ past demo (bs "zz") 100 /\
  replies [(100, CSetNX (bs "n") (bs "x")); (100, CSetNX (bs "zz") (bs "x"))] demo = Some [RInt (0, None); RInt (1, None)].
Proof.
  split; [|split; [|vm_compute; reflexivity]]; intros (dl & H & _); vm_compute in H; discriminate.
Qed.

(** ** C09 *)
Theorem C09_getset w t k v w1 r :
  ready w -> run_call t (CGetSet k v) w = Done w1 r ->
  answer t (CGet k) w = Some r /\
  exists w2 rs, run_hist [(t, CGet k); (t, CSet k v)] w = Done w2 rs /\ indist w1 w2.
Proof.
  intros Hr E1.
  destruct (run_single _ k _ _ _ _ Hr E1 eq_refl) as (Ha & Hr1 & Ho). cbn [abs1] in Ha. injection Ha as Hv <-.
  rewrite (answer_single _ k) by auto. split; [reflexivity|].
  destruct (run_single_ex (CGet k) k t w _ _ Hr eq_refl eq_refl) as (w2 & E2 & Hr2 & Hv2 & Ho2).
  destruct (run_single_ex (CSet k v) k t w2 _ _ Hr2 eq_refl eq_refl) as (w3 & E3 & Hr3 & Hv3 & Ho3).
  exists w3. eexists. simpl. rewrite E2, E3. split; [reflexivity|]. apply indist_of_view; auto.
  intros k'. destruct (decide (k' = k)) as [->|Hne]; [|rewrite Ho, Ho3, Ho2; auto].
  rewrite Hv3, Hv2. auto.
Qed.
Example C09_nonvacuous : replies [(9, CGetSet (bs "n") (bs "2")); (9, CGetSet (bs "q") (bs "2")); (9, CGet (bs "n"))] demo =
  Some [RStr (bs "41", None); RStr ([], Some ErrKeyNil); RStr (bs "2", None)].
Proof. vm_compute. reflexivity. Qed.

(** ** C10 *)
Theorem C10_append_refuted :
  exists k a b, replies [(1, CSet k a); (1, CAppend k b); (1, CGet k)] (new_world 0) =
    Some [RStr (bs "OK", None); RInt (2, None); RStr (bs "1", None)] /\ a ++ b = bs "1.".
Proof. exists (bs "k"), (bs "1"), (bs "."). vm_compute. auto. Qed.
(** What the code does for every value; the full statement is [text (old ++ v) = old ++ v]. *)
Theorem C10_append_partial w t k v w1 r old :
  ready w -> answer t (CGet k) w = ok_str old -> run_call t (CAppend k v) w = Done w1 r ->
  r = RInt (zlen (old ++ v), None) /\ answer t (CGet k) w1 = ok_str (text (old ++ v)) /\
  (plain (old ++ v) -> answer t (CGet k) w1 = ok_str (old ++ v)).
Proof.
  intros Hr Hg E1.
  destruct (run_single _ k _ _ _ _ Hr E1 eq_refl) as (Ha & Hr1 & Ho). cbn [abs1] in Ha.
  rewrite (answer_single _ k) in Hg by auto. cbn [abs1] in Hg.
  destruct (fst (purge t (view w k))) as [c|] eqn:Ec; [|discriminate].
  unfold fmt_cret in Hg. destruct (fmt_cell c) as [s|]; [|discriminate]. injection Hg as ->.
  injection Ha as Hv <-. split; [reflexivity|].
  assert (Hx : answer t (CGet k) w1 = ok_str (text (old ++ v))).
  { rewrite (answer_single _ k) by auto. cbn [abs1]. rewrite <- Hv. unfold put.
    destruct (view w k) as [[c0|] [dl|]]; simpl in Ec |- *; try discriminate.
    - destruct (dl <? t) eqn:El; [discriminate|]. cbn [snd]. rewrite El. cbn [fst]. unfold fmt_cret. cbn [fmt_cell]. rewrite fmt_try. reflexivity.
    - unfold fmt_cret. cbn [fmt_cell]. rewrite fmt_try. reflexivity. }
  split; [exact Hx|]. intros Hp. rewrite Hx, Hp. reflexivity.
Qed.
Theorem C10_append_absent_partial w t k v w1 r :
  ready w -> deadline w k = None -> stored w k = None -> run_call t (CAppend k v) w = Done w1 r ->
  r = RInt (zlen v, None) /\ answer t (CGet k) w1 = ok_str (text v).
Proof.
  intros Hr Hd Hs E1.
  destruct (run_single _ k _ _ _ _ Hr E1 eq_refl) as (Ha & Hr1 & Ho). cbn [abs1] in Ha.
  pose proof (view_none w k Hr Hs) as Hn. pose proof (view_dl w k Hr) as Hdl. rewrite Hd in Hdl.
  destruct (view w k) as [c e]. simpl in Hn, Hdl. subst. simpl in Ha. injection Ha as Hv <-. split; [reflexivity|].
  rewrite (answer_single _ k) by auto. cbn [abs1]. rewrite <- Hv. simpl. unfold fmt_cret. cbn [fmt_cell]. rewrite fmt_try. reflexivity.
Qed.
Example C10_nonvacuous : answer 9 (CGet (bs "a")) demo = ok_str (bs "hello") /\ plain (bs "hello" ++ bs " there").
Proof. split; vm_compute; reflexivity. Qed.

Print Assumptions C09_getset.
