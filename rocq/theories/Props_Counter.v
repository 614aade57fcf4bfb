(** * Props_Counter: Incr, IncrBy, Decr, DecrBy, IncrByFloat (single caller) *)
From Verif Require Import Base GoFloat CacheModel CacheSpec.
From Verif Require Import CacheAbs CacheRefine CacheRefineH CacheMain CacheLib Props_String.

(** The key holds the integer [n]: the dynamic type of its value is int or int64. *)
Definition counter (w : world) (k : gostr) (n : Z) : Prop :=
  stored w k = Some (VInt n) \/ stored w k = Some (VInt64 n).

Lemma view_counter w k n : ready w -> counter w k n ->
  fst (view w k) = Some (CV (VInt n)) \/ fst (view w k) = Some (CV (VInt64 n)).
Proof. intros Hr [H|H]; [left|right]; apply view_scalar; auto; exact I. Qed.
Lemma counter_view w k n : ready w ->
  fst (view w k) = Some (CV (VInt n)) \/ fst (view w k) = Some (CV (VInt64 n)) -> counter w k n.
Proof. intros Hr [H|H]; pose proof (view_stored w k Hr) as Hv; rewrite H in Hv; unfold counter; tauto. Qed.

Lemma a_incr_counter d n v : fst v = Some (CV (VInt n)) \/ fst v = Some (CV (VInt64 n)) ->
  snd (a_incr d v) = (wrap64 (n + d), None) /\ snd (fst (a_incr d v)) = snd v /\
  (fst (fst (a_incr d v)) = Some (CV (VInt (wrap64 (n + d)))) \/ fst (fst (a_incr d v)) = Some (CV (VInt64 (wrap64 (n + d))))).
Proof. intros [H|H]; unfold a_incr; rewrite H; cbn [incr_val fst snd]; auto. Qed.

(** The amount a counting call adds to [k]. *)
Definition delta (k : gostr) (c : call) : option Z :=
  match c with
  | CIncr k' => if decide (k' = k) then Some 1 else None
  | CIncrBy k' d => if decide (k' = k) then Some d else None
  | CDecr k' => if decide (k' = k) then Some (-1) else None
  | CDecrBy k' d => if decide (k' = k) then Some (- d) else None
  | _ => None
  end.

Lemma delta_abs1 k c d t v : delta k c = Some d -> single c = Some k /\
  exists d', wrap64 (d + 0) = wrap64 (d' + 0) /\ (is_int64 d = true -> d' = d) /\ abs1 c t v = wr RInt (a_incr d' v).
Proof.
  intros H. destruct c; simpl in H; try discriminate; destruct (decide _) as [->|]; try discriminate; injection H as <-;
    (split; [reflexivity|]); eexists; (split; [|split; [|reflexivity]]); auto.
  - rewrite !Z.add_0_r. rewrite (wrap64_id (wrap64 _)) by apply wrap64_is_int64. reflexivity.
  - apply wrap64_id.
Qed.
Lemma wrap64_cong_add a b n : wrap64 (a + 0) = wrap64 (b + 0) -> wrap64 (n + a) = wrap64 (n + b).
Proof. rewrite !Z.add_0_r. intros H. rewrite <- (wrap64_add_r n a), H, wrap64_add_r. reflexivity. Qed.

Lemma delta_step k c d t w n : ready w -> counter w k n -> delta k c = Some d ->
  exists w1, run_call t c w = Done w1 (RInt (wrap64 (n + d), None)) /\ ready w1 /\ counter w1 k (wrap64 (n + d)) /\
             deadline w1 k = deadline w k /\ forall k', k' <> k -> view w1 k' = view w k'.
Proof.
  intros Hr Hc Hd. destruct (delta_abs1 k c d t (view w k) Hd) as (Hk & d' & Hd' & _ & Ha).
  destruct (a_incr_counter d' n (view w k) (view_counter w k n Hr Hc)) as (H1 & H2 & H3).
  unfold wr in Ha. rewrite H1 in Ha.
  destruct (run_single_ex c k t w _ _ Hr Hk Ha) as (w1 & E1 & Hr1 & Hv1 & Ho).
  exists w1. rewrite (wrap64_cong_add d d' n Hd'). split; [exact E1|]. split; [exact Hr1|].
  split; [apply counter_view; [auto|]; rewrite Hv1; auto|]. split; [|exact Ho].
  rewrite <- !view_dl, Hv1 by auto. exact H2.
Qed.

Lemma get_counter w k n t : ready w -> counter w k n -> ~ past w k t -> answer t (CGet k) w = ok_str (itoa n).
Proof.
  intros Hr Hc Hp. rewrite (answer_single _ k) by auto. cbn [abs1]. rewrite purge_not_past by auto.
  destruct (view_counter w k n Hr Hc) as [E|E]; rewrite E; reflexivity.
Qed.

(** ** C15 *)
(** Setting a decimal makes a counter; so does counting on an absent key. *)
Theorem C15_set_makes_counter w t k v n w1 r :
  ready w -> atoi v = Some n -> run_call t (CSet k v) w = Done w1 r -> counter w1 k n.
Proof.
  intros Hr Hn E1. destruct (run_single _ k _ _ _ _ Hr E1 eq_refl) as (Ha & Hr1 & Ho).
  injection Ha as Hv _. apply counter_view; auto. rewrite <- Hv. unfold put, try_int64. rewrite Hn. auto.
Qed.
Theorem C15_incrby w t k n d w1 r :
  ready w -> counter w k n -> - 2 ^ 63 <= n + d <= 2 ^ 63 - 1 -> run_call t (CIncrBy k d) w = Done w1 r ->
  r = RInt (n + d, None) /\ counter w1 k (n + d) /\
  (forall t', ~ past w k t' -> answer t' (CGet k) w1 = ok_str (itoa (n + d))) /\
  (forall h, (exists k', k' <> k /\ all_calls (fun _ c => only_names c k') h) -> replies h w1 = replies h w).
Proof.
  intros Hr Hc Hb E1.
  destruct (delta_step k (CIncrBy k d) d t w n Hr Hc) as (w1' & E1' & Hr1 & Hc1 & Hd & Ho).
  { simpl. rewrite decide_True; auto. }
  rewrite E1 in E1'. injection E1' as <- ->. rewrite wrap64_id in * by (apply is_int64_iff; exact Hb).
  split; [reflexivity|]. split; [exact Hc1|]. split.
  - intros t' Hp. apply get_counter; auto. unfold past in *. rewrite Hd. exact Hp.
  - intros h (k' & Hne & Hall). eapply local_replies; eauto.
Qed.
Theorem C15_incrby_absent w t k d w1 r :
  ready w -> stored w k = None -> run_call t (CIncrBy k d) w = Done w1 r ->
  r = RInt (d, None) /\ counter w1 k d.
Proof.
  intros Hr Hs E1. destruct (run_single _ k _ _ _ _ Hr E1 eq_refl) as (Ha & Hr1 & Ho). cbn [abs1] in Ha.
  unfold wr, a_incr in Ha. rewrite (view_none w k Hr Hs) in Ha. injection Ha as Hv <-. split; [reflexivity|].
  apply counter_view; auto. rewrite <- Hv. auto.
Qed.
Example C15_nonvacuous : counter demo (bs "n") 41 /\ ~ past demo (bs "n") 100 /\
  replies [(9, CIncrBy (bs "n") (-50)); (9, CGet (bs "n"))] demo = Some [RInt (-9, None); RStr (bs "-9", None)].
Proof.
  split; [left; vm_compute; reflexivity|]. split; [|vm_compute; reflexivity].
  intros (dl & H & _). vm_compute in H. discriminate.
Qed.

(** ** C16 *)
Theorem C16_overflow_refuted :
  exists k v, replies [(1, CSet k v); (2, CIncr k); (3, CGet k)] (new_world 0) =
    Some [RStr (bs "OK", None); RInt (- 2 ^ 63, None); RStr (bs "-9223372036854775808", None)] /\ atoi v = Some (2 ^ 63 - 1).
Proof. exists (bs "k"), (bs "9223372036854775807"). vm_compute. auto. Qed.
(** What happens instead, for every counter and every delta: the sum is reduced modulo 2^64.
    Full statement: on overflow an error and no change; here only the in-range half is as claimed. *)
Theorem C16_wraps_partial w t k n c d w1 r :
  ready w -> counter w k n -> delta k c = Some d -> run_call t c w = Done w1 r ->
  exists m, r = RInt (m, None) /\ counter w1 k m /\ (exists q, m = n + d + q * 2 ^ 64) /\ - 2 ^ 63 <= m < 2 ^ 63 /\
            (- 2 ^ 63 <= n + d < 2 ^ 63 -> m = n + d).
Proof.
  intros Hr Hc Hd E1. destruct (delta_step k c d t w n Hr Hc Hd) as (w1' & E1' & Hr1 & Hc1 & _).
  rewrite E1 in E1'. injection E1' as <- ->. exists (wrap64 (n + d)). split; [reflexivity|]. split; [exact Hc1|].
  unfold wrap64, two63, two64 in *. clear.
  pose proof (Z.div_mod (n + d + 9223372036854775808) 18446744073709551616 ltac:(lia)) as Hdm.
  pose proof (Z.mod_pos_bound (n + d + 9223372036854775808) 18446744073709551616 ltac:(lia)) as Hmb.
  split; [|split].
  - exists (- ((n + d + 9223372036854775808) / 18446744073709551616)). lia.
  - lia.
  - intros H. rewrite Z.mod_small; lia.
Qed.

(** ** C17 *)
Fixpoint totals (n : Z) (ds : list Z) : list Z :=
  match ds with [] => [] | d :: r => n + d :: totals (n + d) r end.
Fixpoint sum (ds : list Z) : Z := match ds with [] => 0 | d :: r => d + sum r end.
(** [n] reduced to the int64 range *)
Theorem C17_counter_history k h : forall w n ds,
  ready w -> counter w k n -> - 2 ^ 63 <= n < 2 ^ 63 ->
  map (fun tc => delta k (snd tc)) h = map Some ds ->
  exists w', run_hist h w = Done w' (map (fun m => RInt (wrap64 m, None)) (totals n ds)) /\
             counter w' k (wrap64 (n + sum ds)) /\ deadline w' k = deadline w k.
Proof.
  assert (G : forall h w n0 n ds, ready w -> counter w k (wrap64 n) -> n0 = wrap64 n ->
    map (fun tc => delta k (snd tc)) h = map Some ds ->
    exists w', run_hist h w = Done w' (map (fun m => RInt (wrap64 m, None)) (totals n ds)) /\
               counter w' k (wrap64 (n + sum ds)) /\ deadline w' k = deadline w k).
  { clear h. induction h as [|[t c] h IH]; intros w n0 n ds Hr Hc Hn Hm; destruct ds as [|d ds]; try discriminate.
    - exists w. simpl. rewrite Z.add_0_r. auto.
    - simpl in Hm. injection Hm as Hd Hm.
      destruct (delta_step k c d t w _ Hr Hc Hd) as (w1 & E1 & Hr1 & Hc1 & Hdl & _).
      rewrite wrap64_add_l in *.
      destruct (IH w1 _ (n + d) ds Hr1 Hc1 eq_refl Hm) as (w' & E2 & Hc2 & Hdl2).
      exists w'. simpl. rewrite E1, E2. split; [reflexivity|]. split; [|congruence].
      rewrite Z.add_assoc. exact Hc2. }
  intros w n ds Hr Hc Hb Hm. apply (G h w n n ds Hr); auto; rewrite wrap64_id; auto; apply is_int64_iff; unfold min_int64, max_int64; lia.
Qed.
(** Calls on other keys may come in between. *)
Theorem C17_counter_history_interleaved k h : forall w n w' rs,
  ready w -> counter w k n -> - 2 ^ 63 <= n < 2 ^ 63 ->
  all_calls (fun _ c => ~ names c k \/ is_Some (delta k c)) h -> run_hist h w = Done w' rs ->
  counter w' k (wrap64 (n + sum (omap (fun tc => delta k (snd tc)) h))) /\ deadline w' k = deadline w k.
Proof.
  assert (G : forall h w n w' rs, ready w -> counter w k (wrap64 n) ->
    all_calls (fun _ c => ~ names c k \/ is_Some (delta k c)) h -> run_hist h w = Done w' rs ->
    counter w' k (wrap64 (n + sum (omap (fun tc => delta k (snd tc)) h))) /\ deadline w' k = deadline w k).
  { clear h. induction h as [|[t c] h IH]; intros w n w' rs Hr Hc Hall E; simpl in E.
    - injection E as <- <-. simpl. rewrite Z.add_0_r. auto.
    - destruct (run_call t c w) as [w1 x| |] eqn:E1; [|discriminate|discriminate].
      destruct (run_hist h w1) as [w2 xs| |] eqn:E2; [|discriminate|discriminate]. injection E as <- <-.
      inversion_clear Hall as [|? ? H1 H2]. simpl in H1.
      assert (Hon : forall d, delta k c = Some d -> names c k).
      { intros d. unfold names. destruct c; simpl; try discriminate; destruct (decide _) as [->|]; try discriminate; intros _; left. }
      cbn [omap list_omap snd]. destruct (delta k c) as [d|] eqn:Hd.
      + destruct (delta_step k c d t w _ Hr Hc Hd) as (w1' & E1' & Hr1 & Hc1 & Hdl & _).
        rewrite E1 in E1'. injection E1' as <- ->. rewrite wrap64_add_l in Hc1.
        destruct (IH w1 (n + d) w2 xs Hr1 Hc1 H2 E2) as [A B]. split; [|congruence].
        cbn [sum]. rewrite Z.add_assoc. exact A.
      + destruct H1 as [H1|[? H1]]; [|discriminate].
        destruct (run_inv _ _ _ _ _ Hr E1) as (V' & Ha & Hr1 & Hv).
        assert (Hk : view w1 k = view w k) by (rewrite Hv; eapply abs_ne; eauto).
        destruct (IH w1 n w2 xs Hr1) as [A B]; auto.
        * apply counter_view; auto. rewrite Hk. apply view_counter; auto.
        * split; [exact A|]. rewrite B, <- !view_dl, Hk by auto. reflexivity. }
  intros w n w' rs Hr Hc Hb Hall E. eapply (G h w n w' rs); eauto.
  rewrite wrap64_id; auto; apply is_int64_iff; unfold min_int64, max_int64; lia.
Qed.
Example C17_nonvacuous : counter demo (bs "n") 41 /\
  replies [(9, CIncr (bs "n")); (9, CDecrBy (bs "n") 9223372036854775807); (9, CDecrBy (bs "n") 50)] demo =
    Some (map (fun m => RInt (wrap64 m, None)) (totals 41 [1; -9223372036854775807; -50])).
Proof. split; [left|]; vm_compute; reflexivity. Qed.

(** ** C18 *)
Definition not_integer (v : gval) : Prop :=
  match v with VStr _ | VFloat _ | VHash _ => True | _ => False end.
Theorem C18_not_integer w t k v c d w1 r :
  ready w -> stored w k = Some v -> not_integer v -> delta k c = Some d -> run_call t c w = Done w1 r ->
  r = RInt (0, Some ErrWrongType) /\ indist w1 w.
Proof.
  intros Hr Hs Hn Hd E1. destruct (delta_abs1 k c d t (view w k) Hd) as (Hk & d' & _ & _ & Ha).
  destruct (run_single _ k _ _ _ _ Hr E1 Hk) as (Ha' & Hr1 & Ho). rewrite Ha in Ha'. clear Ha.
  assert (Hx : a_incr d' (view w k) = (view w k, (0, Some ErrWrongType))).
  { pose proof (stored_view w k Hr) as Hv. rewrite Hs in Hv. unfold a_incr.
    destruct v; try destruct Hn; try (rewrite Hv; reflexivity). destruct Hv as (o & -> & _). reflexivity. }
  unfold wr in Ha'. rewrite Hx in Ha'. injection Ha' as Hv <-. split; [reflexivity|].
  apply indist_of_view; auto. intros k'. destruct (decide (k' = k)) as [->|]; auto.
Qed.
Example C18_nonvacuous : stored demo (bs "a") = Some (VStr (bs "hello")) /\
  replies [(9, CIncrBy (bs "a") 3); (9, CDecr (bs "h"))] demo = Some [RInt (0, Some ErrWrongType); RInt (0, Some ErrWrongType)].
Proof. vm_compute. auto. Qed.

(** ** C19 *)
Theorem C19_incrbyfloat_refuted :
  exists k f, replies [(1, CIncr k); (2, CGet k); (3, CIncrByFloat k f)] (new_world 0) =
    Some [RInt (1, None); RStr (bs "1", None); RFloat (S754_zero false, Some ErrWrongType)].
Proof. exists (bs "k"), (S754_zero false). vm_compute. reflexivity. Qed.
(** Full statement: for every key that reads as an integer.  Proved: when the integer was stored as
    text (by Set and the like), as a float, or the key is not stored; not for integers created by counting
    on an absent key. *)
Theorem C19_incrbyfloat_partial w t k f w1 r :
  ready w -> run_call t (CIncrByFloat k f) w = Done w1 r ->
  match stored w k with
  | Some (VInt n) => r = RFloat (f64_add (f64_of_int n) f, None) /\ stored w1 k = Some (VFloat (f64_add (f64_of_int n) f))
  | Some (VFloat x) => r = RFloat (f64_add x f, None) /\ stored w1 k = Some (VFloat (f64_add x f))
  | None => r = RFloat (f, None) /\ stored w1 k = Some (VFloat f)
  | Some _ => r = RFloat (S754_zero false, Some ErrWrongType) /\ indist w1 w
  end /\ deadline w1 k = deadline w k.
Proof.
  intros Hr E1. destruct (run_single _ k _ _ _ _ Hr E1 eq_refl) as (Ha & Hr1 & Ho). cbn [abs1] in Ha.
  rewrite <- !view_dl by auto. pose proof (view_stored w k Hr) as Hv. pose proof (view_stored w1 k Hr1) as Hv1.
  assert (Hi : view w1 k = view w k -> indist w1 w).
  { intros E. apply indist_of_view; auto. intros k'. destruct (decide (k' = k)) as [->|]; auto. }
  destruct (view w k) as [[[v|o]|] e]; cbn [fst snd] in *.
  - destruct Hv as [-> _]. destruct v; injection Ha as Hw <-; rewrite <- Hw in *; cbn [fst snd] in *; try tauto.
  - destruct Hv as [[l ->] _]. injection Ha as Hw <-. split; auto. rewrite <- Hw; auto.
  - rewrite Hv. injection Ha as Hw <-. rewrite <- Hw in *. cbn [fst snd] in *. tauto.
Qed.
Theorem C19_incrbyfloat_set_partial w t t' k v n f w1 r1 w2 r2 :
  ready w -> atoi v = Some n -> run_call t (CSet k v) w = Done w1 r1 -> run_call t' (CIncrByFloat k f) w1 = Done w2 r2 ->
  r2 = RFloat (f64_add (f64_of_int n) f, None).
Proof.
  intros Hr Hn E1 E2. destruct (run_single _ k _ _ _ _ Hr E1 eq_refl) as (Ha & Hr1 & Ho). injection Ha as Hv _.
  pose proof (view_stored w1 k Hr1) as Hs. rewrite <- Hv in Hs. unfold put, try_int64 in Hs. rewrite Hn in Hs. destruct Hs as [Hs _].
  pose proof (C19_incrbyfloat_partial w1 t' k f w2 r2 Hr1 E2) as [H _]. rewrite Hs in H. tauto.
Qed.
Example C19_nonvacuous : replies [(1, CIncrByFloat (bs "n") (f64_of_int 2)); (2, CGet (bs "n"))] demo =
  Some [RFloat (f64_of_int 43, None); RStr (bs "43", None)].
Proof. vm_compute. reflexivity. Qed.

(** ** C20 *)
Theorem C20_expired_counter_refuted :
  exists k v n t, replies [(1, CSetEX k v n); (t, CIncrBy k 1)] (new_world 0) = Some [RStr (bs "OK", None); RInt (42, None)] /\
                  replies [(1, CSetEX k v n); (t, CGet k)] (new_world 0) = Some [RStr (bs "OK", None); RStr ([], Some ErrKeyNil)].
Proof. exists (bs "k"), (bs "41"), 1, 1000000002. vm_compute. auto. Qed.
(** Full statement: without the intermediate Get. *)
Theorem C20_expired_counter_noticed_partial w t k d w1 r1 w2 r2 :
  ready w -> past w k t -> is_Some (stored w k) ->
  run_call t (CGet k) w = Done w1 r1 -> run_call t (CIncrBy k d) w1 = Done w2 r2 ->
  r1 = RStr ([], Some ErrKeyNil) /\ r2 = RInt (d, None) /\ deadline w2 k = None /\ counter w2 k d.
Proof.
  intros Hr Hp [x Hs] E1 E2.
  destruct (run_single _ k _ _ _ _ Hr E1 eq_refl) as (Ha & Hr1 & _). cbn [abs1] in Ha.
  destruct (run_single _ k _ _ _ _ Hr1 E2 eq_refl) as (Ha2 & Hr2 & _). cbn [abs1] in Ha2.
  assert (Hv : purge t (view w k) = (None, None)).
  { destruct Hp as (dl & Hdl & Hlt). rewrite <- view_dl in Hdl by auto.
    pose proof (view_stored w k Hr) as Hvs. destruct (view w k) as [[c|] e]; [|congruence]. simpl in Hdl. subst. simpl.
    destruct (Z.ltb_spec dl t); [reflexivity|lia]. }
  rewrite Hv in Ha. injection Ha as Hv1 <-. rewrite <- Hv1 in Ha2. injection Ha2 as Hv2 <-.
  split; [reflexivity|]. split; [reflexivity|]. rewrite <- view_dl, <- Hv2 by auto. split; [reflexivity|].
  apply counter_view; auto. rewrite <- Hv2. auto.
Qed.
Example C20_nonvacuous : replies [(10000000008, CGet (bs "s")); (10000000008, CIncrBy (bs "s") 7)] demo =
  Some [RStr ([], Some ErrKeyNil); RInt (7, None)].
Proof. vm_compute. reflexivity. Qed.

Print Assumptions C17_counter_history_interleaved.
Print Assumptions C19_incrbyfloat_partial.
