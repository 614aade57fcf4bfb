(** * Props_Exact: for which inputs exactly the string calls do what is expected of them

    Every property of this file that fails for some inputs has a witness and a proved part in Props_String, Props_String2,
    Props_Counter or Props_Db; here both are joined: the result for every input, and hence the exact condition. *)
From Verif Require Import Base GoFloat CacheModel CacheSpec.
From Verif Require Import CacheAbs CacheRefine CacheRefineH CacheMain CacheLib Props_String Props_String2 Props_Counter.

Lemma past_dec w k t : past w k t \/ ~ past w k t.
Proof.
  unfold past. destruct (deadline w k) as [dl|]; [|right; intros (? & ? & _); discriminate].
  destruct (Z.lt_ge_cases dl t); [left; eauto|right; intros (? & E & ?); injection E as <-; lia].
Qed.
Lemma ok_str_inj a b : ok_str a = ok_str b -> a = b.
Proof. intros E. injection E. auto. Qed.
Lemma get_put w k v w2 t' : ready w -> ready w2 -> view w2 k = put v (view w k) ->
  past w k t' /\ answer t' (CGet k) w2 = err_str ErrKeyNil \/ ~ past w k t' /\ answer t' (CGet k) w2 = ok_str (text v).
Proof.
  intros Hr Hr2 Hv. rewrite (answer_single (CGet k) k t' w2) by auto. cbn [abs1]. rewrite Hv. unfold put. rewrite (view_dl w k Hr).
  assert (Hok : fmt_cret (CV (try_int64 v)) = (text v, None)) by (unfold fmt_cret; cbn [fmt_cell]; rewrite fmt_try; reflexivity).
  unfold past. destruct (deadline w k) as [dl|]; cbn [purge].
  - destruct (Z.ltb_spec dl t'); [left; split; [eauto|reflexivity]|].
    right. split; [intros (? & E & ?); injection E as <-; lia|]. cbn [fst]. rewrite Hok. reflexivity.
  - right. split; [intros (? & E & ?); discriminate|]. cbn [fst]. rewrite Hok. reflexivity.
Qed.

(** ** C01: what a later Get shows after Set, whatever the value and the deadline *)
Theorem C01_read_your_write_exact_partial w t k v w1 r h w2 rs t' :
  ready w -> run_call t (CSet k v) w = Done w1 r -> run_hist h w1 = Done w2 rs -> all_calls (fun _ c => ~ names c k) h ->
  past w k t' /\ answer t' (CGet k) w2 = err_str ErrKeyNil \/ ~ past w k t' /\ answer t' (CGet k) w2 = ok_str (text v).
Proof.
  intros Hr E1 E2 Hall. destruct (run_single _ k _ _ _ _ Hr E1 eq_refl) as (Ha & Hr1 & _). injection Ha as Hv _.
  pose proof (hist_ne h k _ _ _ Hr1 E2 Hall) as Hk. pose proof (ready_hist _ _ _ _ Hr1 E2) as Hr2.
  apply (get_put w k v w2 t' Hr Hr2). congruence.
Qed.
Theorem C01_read_your_write_iff_partial w t k v w1 r h w2 rs t' :
  ready w -> run_call t (CSet k v) w = Done w1 r -> run_hist h w1 = Done w2 rs -> all_calls (fun _ c => ~ names c k) h ->
  answer t' (CGet k) w2 = ok_str v <-> plain v /\ ~ past w k t'.
Proof.
  intros Hr E1 E2 Hall. destruct (C01_read_your_write_exact_partial w t k v w1 r h w2 rs t' Hr E1 E2 Hall) as [[Hp ->]|[Hp ->]].
  - split; [discriminate|tauto].
  - split; [intros E; apply ok_str_inj in E; auto|intros [E _]; rewrite E; reflexivity].
Qed.
Example C01_iff_ex : plain (bs "x") /\ ~ plain (bs "1.10") /\ ~ plain (bs "+7") /\ plain (bs "1.1") /\ past demo (bs "s") 10000000008 /\ ~ past demo (bs "s") 10000000007.
Proof.
  split; [vm_compute; reflexivity|]. split; [vm_compute; congruence|]. split; [vm_compute; congruence|]. split; [vm_compute; reflexivity|].
  split; [exists 10000000007; split; [vm_compute; reflexivity|lia]|]. intros (dl & E & H). vm_compute in E. injection E as <-. lia.
Qed.

(** ** C06, C07: a Set is visible at [t'] exactly if the deadline the key had before is not past then *)
Theorem C06_set_exact_partial w t k v w1 r t' :
  ready w -> run_call t (CSet k v) w = Done w1 r -> answer t' (CGet k) w1 = ok_str (text v) <-> ~ past w k t'.
Proof.
  intros Hr E1. destruct (C01_read_your_write_exact_partial w t k v w1 r [] w1 [] t' Hr E1 eq_refl) as [[Hp ->]|[Hp ->]]; [constructor|split; [discriminate|tauto]|tauto].
Qed.
(** every Set past the deadline of the key is lost, unless somebody noticed the expiry before *)
Theorem C07_set_after_expiry_always_lost_refuted w t k v w1 r t' :
  ready w -> past w k t -> t <= t' -> run_call t (CSet k v) w = Done w1 r ->
  r = RStr (bs "OK", None) /\ answer t' (CGet k) w1 = err_str ErrKeyNil.
Proof.
  intros Hr (dl & Hd & Hl) Ht E1. split; [destruct (run_single _ k _ _ _ _ Hr E1 eq_refl) as (Ha & _ & _); injection Ha as _ <-; reflexivity|].
  destruct (C01_read_your_write_exact_partial w t k v w1 r [] w1 [] t' Hr E1 eq_refl) as [[Hp ->]|[Hp ->]]; [constructor|reflexivity|].
  exfalso. apply Hp. exists dl. split; [exact Hd|lia].
Qed.

(** ** C08: SetNX looks at the dictionary only *)
Theorem C08_setnx_exact_partial w t k v w1 r :
  ready w -> run_call t (CSetNX k v) w = Done w1 r ->
  (stored w k = None /\ r = RInt (1, None) /\ exists w2 r2, run_call t (CSet k v) w = Done w2 r2 /\ indist w1 w2) \/
  (is_Some (stored w k) /\ r = RInt (0, None) /\ indist w1 w).
Proof.
  intros Hr E1. destruct (run_single _ k _ _ _ _ Hr E1 eq_refl) as (Ha & Hr1 & Ho). cbn [abs1] in Ha.
  pose proof (view_stored w k Hr) as Hs. destruct (fst (view w k)) as [c|] eqn:Ec.
  - right. injection Ha as Hv <-. split; [|split; [reflexivity|]].
    + destruct c; [destruct Hs as [-> _]; eauto|destruct Hs as [[l ->] _]; eauto].
    + apply indist_of_view; auto. intros k'. destruct (decide (k' = k)) as [->|]; auto.
  - left. injection Ha as Hv <-. split; [exact Hs|]. split; [reflexivity|].
    destruct (run_single_ex (CSet k v) k t w (put v (view w k)) (RStr (bs "OK", None)) Hr eq_refl eq_refl) as (w2 & E2 & Hr2 & Hv2 & Ho2).
    exists w2, (RStr (bs "OK", None)). split; [exact E2|]. apply indist_of_view; auto.
    intros k'. destruct (decide (k' = k)) as [->|Hne]; [congruence|]. rewrite Ho, Ho2; auto.
Qed.
(** so it answers as expected unless the key is stored and past its deadline: then it stores nothing, for every such key *)
Theorem C08_setnx_iff_partial w t k v w1 r :
  ready w -> run_call t (CSetNX k v) w = Done w1 r ->
  (r = RInt (1, None) <-> answer t (CGet k) w = err_str ErrKeyNil) <-> ~ (is_Some (stored w k) /\ past w k t).
Proof.
  intros Hr E1. rewrite (answer_single (CGet k) k t w) by auto. cbn [abs1].
  pose proof (view_stored w k Hr) as Hs. pose proof (view_dl w k Hr) as Hd.
  destruct (C08_setnx_exact_partial w t k v w1 r Hr E1) as [(Hn & -> & _)|([x Hx] & -> & _)].
  - split; [intros _ [[y Hy] _]; congruence|]. intros _. split; [|reflexivity]. intros _.
    pose proof (view_none w k Hr Hn) as Hv. destruct (view w k) as [[c|] e]; [discriminate|reflexivity].
  - destruct (view w k) as [[c|] e]; cbn [fst snd] in *; [|congruence]. unfold past. rewrite <- Hd. split.
    + intros Hi (_ & dl & -> & Hl). destruct Hi as [_ Hi]. cbn [purge] in Hi. destruct (Z.ltb_spec dl t); [|lia]. specialize (Hi eq_refl). discriminate.
    + intros Hi. split; [discriminate|]. intros E. exfalso.
      assert (Hp : purge t (Some c, e) = (Some c, e)).
      { destruct e as [dl|]; [|reflexivity]. cbn [purge]. destruct (Z.ltb_spec dl t); [|reflexivity]. exfalso. apply Hi. split; [eauto|]. eauto. }
      rewrite Hp in E. cbn [fst] in E. unfold fmt_cret, err_str in E. destruct (fmt_cell c); discriminate.
Qed.

(** ** C10, C11: Get shows the joined text exactly if it is not a number literal in another form *)
Theorem C10_append_iff_partial w t k v w1 r old :
  ready w -> answer t (CGet k) w = ok_str old -> run_call t (CAppend k v) w = Done w1 r ->
  answer t (CGet k) w1 = ok_str (old ++ v) <-> plain (old ++ v).
Proof.
  intros Hr Hg E1. destruct (C10_append_partial w t k v w1 r old Hr Hg E1) as (_ & -> & _). unfold plain.
  split; [apply ok_str_inj|intros ->; reflexivity].
Qed.
Lemma spliced_unique old pos rp s s' : spliced old pos rp s -> spliced old pos rp s' -> s' = s.
Proof.
  intros [Hl H] [Hl' H']. apply list_eq. intros i. assert (Hn : length s' = length s) by (unfold zlen in *; lia).
  destruct (Nat.lt_ge_cases i (length s)) as [Hi|Hi]; [rewrite H, H' by lia; reflexivity|].
  rewrite !lookup_ge_None_2 by lia. reflexivity.
Qed.
Theorem C11_setrange_iff_partial w t k pos rp w1 r old s :
  ready w -> 0 <= pos -> answer t (CGet k) w = ok_str old -> run_call t (CSetRange k pos rp) w = Done w1 r -> spliced old pos rp s ->
  answer t (CGet k) w1 = ok_str s <-> plain s.
Proof.
  intros Hr Hp Hg E1 Hs. destruct (C11_setrange_partial w t k pos rp w1 r old Hr Hp Hg E1) as (s' & Hs' & _ & -> & _).
  rewrite (spliced_unique old pos rp s s' Hs Hs'). unfold plain; split; [apply ok_str_inj|intros ->; reflexivity].
Qed.

(** ** C20: counting on a key past its deadline goes on from the old number and keeps the deadline, so that the very next
    Get finds nothing *)
Theorem C20_expired_counter_always_refuted w t k n d w1 r :
  ready w -> counter w k n -> past w k t -> run_call t (CIncrBy k d) w = Done w1 r ->
  r = RInt (wrap64 (n + d), None) /\ deadline w1 k = deadline w k /\ answer t (CGet k) w1 = err_str ErrKeyNil.
Proof.
  intros Hr Hs (dl & Hd & Hl) E1. destruct (run_single _ k _ _ _ _ Hr E1 eq_refl) as (Ha & Hr1 & _). cbn [abs1] in Ha.
  pose proof (view_counter w k n Hr Hs) as Hv. pose proof (view_dl w k Hr) as Hdl. rewrite Hd in Hdl |- *.
  destruct (view w k) as [c e]. cbn [fst snd] in *. subst e.
  assert (Hx : exists c', r = RInt (wrap64 (n + d), None) /\ view w1 k = (Some c', Some dl)).
  { destruct Hv as [-> | ->]; unfold a_incr, wr in Ha; cbn in Ha; injection Ha as Hv <-; eauto. }
  destruct Hx as (c' & -> & Hv'). split; [reflexivity|]. rewrite <- (view_dl w1 k Hr1), Hv'. split; [reflexivity|].
  rewrite (answer_single (CGet k) k t w1) by auto. cbn [abs1]. rewrite Hv'. cbn [purge]. destruct (Z.ltb_spec dl t); [reflexivity|lia].
Qed.

(** ** C30: the deadline for every [n]: the duration is reduced to an int64 first, and none is set if that is not positive *)
Theorem C30_ttl_exact_partial w t k v n (ms : bool) w1 r :
  let dur := wrap64 ((if ms then 1000000 else 1000000000) * n) in
  ready w -> run_call t (if ms then CPSetEX k v n else CSetEX k v n) w = Done w1 r ->
  r = RStr (bs "OK", None) /\ stored w1 k = Some (try_int64 v) /\ deadline w1 k = (if decide (0 < dur) then Some (t + dur) else None).
Proof.
  intros dur Hr E1.
  assert (Hv1 : view w1 k = (Some (CV (try_int64 v)), dl_after t dur) /\ ready w1 /\ r = RStr (bs "OK", None)).
  { destruct ms; destruct (run_single _ k _ _ _ _ Hr E1 eq_refl) as (Ha & Hr1 & _); injection Ha as Hv <-; rewrite <- Hv; auto. }
  destruct Hv1 as (Hv1 & Hr1 & ->). split; [reflexivity|]. split.
  - pose proof (view_stored w1 k Hr1) as Hs. rewrite Hv1 in Hs. apply Hs.
  - rewrite <- (view_dl w1 k Hr1), Hv1. cbn [snd]. unfold dl_after. destruct (Z.leb_spec dur 0); case_decide; auto; lia.
Qed.
(** the right deadline is set exactly if the duration fits *)
Theorem C30_ttl_iff_partial w t k v n (ms : bool) w1 r :
  let dur := (if ms then 1000000 else 1000000000) * n in
  ready w -> 0 < n -> run_call t (if ms then CPSetEX k v n else CSetEX k v n) w = Done w1 r ->
  deadline w1 k = Some (t + dur) <-> dur < 2 ^ 63.
Proof.
  intros dur Hr Hn E1. destruct (C30_ttl_exact_partial w t k v n ms w1 r Hr E1) as (_ & _ & ->). fold dur.
  assert (Hd : 0 < dur) by (subst dur; destruct ms; lia). pose proof (wrap64_range dur) as Hw. split.
  - case_decide; intros E; [|discriminate]. injection E as E. assert (wrap64 dur = dur) by lia. unfold max_int64 in Hw. lia.
  - intros Hs. rewrite wrap64_id by (apply is_int64_iff; unfold min_int64, max_int64; lia). rewrite decide_True by lia. reflexivity.
Qed.
