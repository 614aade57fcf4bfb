(** * Props_Db: Del, Exists, Type, Flush, the sweep, deadlines, purity (single caller) *)
From Verif Require Import Base GoFloat CacheModel CacheSpec.
From Verif Require Import CacheAbs CacheRefine CacheRefineH CacheMain CacheLib Props_String Props_Counter.

(** ** Invariants of reachable caches *)
Definition okval (v : gval) : Prop :=
  match v with VStr _ | VInt _ | VInt64 _ | VFloat _ => True | _ => False end.
Definition good (v : kview) : Prop :=
  match fst v with
  | None => snd v = None
  | Some (CV x) => okval x
  | Some (CH o) => forall f x, h_map o !! f = Some x -> okval x
  end.
Lemma okval_try s : okval (try_int64 s).
Proof. unfold try_int64. destruct (atoi s); [exact I|]. destruct (parse_float s); exact I. Qed.
Lemma good_put s v : good (put s v).
Proof. apply okval_try. Qed.
Lemma good_purge t v : good v -> good (purge t v).
Proof. destruct v as [[c|] [dl|]]; auto. cbn. destruct (dl <? t); [reflexivity|auto]. Qed.
Lemma good_incr d v : good v -> good (fst (a_incr d v)).
Proof.
  intros H. unfold a_incr. destruct v as [[[x|o]|] e]; cbn [fst snd] in *; auto.
  - destruct x; cbn in *; auto; destruct H.
  - exact I.
Qed.
Definition okobj (o : hobj) : Prop := forall f x, h_map o !! f = Some x -> okval x.
Lemma okobj_insert o f x n : okval x -> okobj o -> okobj (HObj (<[f := x]> (h_map o)) n).
Proof.
  intros Hx Ho g y. cbn [h_map]. rewrite lookup_insert_Some. intros [[_ <-]|[_ H]]; eauto.
Qed.
Lemma okobj_set o f s : okobj o -> okobj (o_set o f s).
Proof. apply okobj_insert, okval_try. Qed.
Lemma okobj_mset fv : forall o n, okobj o -> okobj (fst (o_mset o fv n)).
Proof. induction fv as [|[f v] r IH]; intros o n Ho; [exact Ho|]. cbn. apply IH, okobj_set, Ho. Qed.
Lemma okobj_del fs : forall o n, okobj o -> okobj (fst (o_del o fs n)).
Proof.
  induction fs as [|f r IH]; intros o n Ho; [exact Ho|]. cbn. destruct (o_get o f); apply IH; [|exact Ho].
  intros g y. cbn [h_map]. rewrite lookup_delete_Some. intros [_ H]. eauto.
Qed.
Lemma okobj_empty : okobj empty_hobj.
Proof. intros f x H. cbn in H. rewrite lookup_empty in H. discriminate. Qed.
Lemma good_hwrite {A} (z : A) g v : (forall o, okobj o -> okobj (fst (g o))) -> good v -> good (fst (a_hwrite z g v)).
Proof.
  intros Hg H. unfold a_hwrite. destruct v as [[[x|o]|] e]; cbn [fst snd] in *; auto.
  - specialize (Hg o H). destruct (g o); exact Hg.
  - specialize (Hg _ okobj_empty). destruct (g empty_hobj); exact Hg.
Qed.
Lemma good_hread {A} (z : A) a g v : (forall o, okobj o -> okobj (fst (g o))) -> good v -> good (fst (a_hread z a g v)).
Proof.
  intros Hg H. unfold a_hread. destruct v as [[[x|o]|] e]; cbn [fst snd] in *; auto.
  specialize (Hg o H). destruct (g o); exact Hg.
Qed.
Lemma good_abs1 c t v v' r : good v -> abs1 c t v = Some (v', r) -> good v'.
Proof.
  intros Hv Ha. pose proof (good_purge t v Hv) as Hp.
  destruct c; cbn [abs1] in Ha; try discriminate;
    try (injection Ha as <- _; first [exact (good_put _ _) | exact Hp | exact (good_incr _ _ Hv) | exact (okval_try _) | reflexivity]).
  - destruct (fst v); injection Ha as <- _; [exact Hv|apply good_put].
  - destruct (fst (purge t v)) as [x|]; [destruct (fmt_cell x)|]; injection Ha as <- _; auto using good_put.
  - destruct (pos <? 0); [injection Ha as <- _; exact Hv|].
    destruct (fst (purge t v)) as [x|]; [destruct (fmt_cell x)|destruct (pos >? max_alloc); [discriminate|]]; injection Ha as <- _; auto using good_put.
  - destruct (fst v) as [[x|o]|] eqn:E; [destruct x| |]; injection Ha as <- _; auto; exact I.
  - injection Ha as <- _. apply good_hwrite; [|exact Hp]. intros o Ho. apply okobj_set, Ho.
  - injection Ha as <- _. apply good_hwrite; [|exact Hp]. intros o Ho. destruct (h_map o !! f); [exact Ho|]. apply okobj_insert; [exact I|exact Ho].
  - injection Ha as <- _. apply good_hread; [|exact Hp]. intros o Ho. exact Ho.
  - injection Ha as <- _. apply good_hread; [|exact Hp]. intros o Ho. pose proof (okobj_del fs o 0 Ho) as H.
    destruct (o_del o fs 0) as [o' n]. cbn [fst] in *. destruct (n =? 0); exact H.
  - injection Ha as <- _. apply good_hread; [|exact Hp]. intros o Ho. exact Ho.
  - injection Ha as <- _. apply good_hread; [|exact Hp]. intros o Ho. exact Ho.
  - injection Ha as <- _. apply good_hwrite; [|exact Hp]. intros o Ho. unfold g_hincr.
    destruct (h_map o !! f) as [x|]; [destruct (hincr_val x d)|]; cbn [fst]; auto using okobj_set.
  - injection Ha as <- _. apply good_hwrite; [|exact Hp]. intros o Ho. unfold g_hincr.
    destruct (h_map o !! f) as [x|]; [destruct (hincrf_val x d)|]; cbn [fst]; auto using okobj_set.
  - injection Ha as <- _. apply good_hwrite; [|exact Hp]. intros o Ho. pose proof (okobj_mset fv o 0 Ho) as H.
    destruct (o_mset o fv 0) as [o' n]. exact H.
  - injection Ha as <- _. apply good_hread; [|exact Hp]. intros o Ho. exact Ho.
  - destruct (fst (purge t v)) as [[x|o]|] eqn:E; try discriminate; injection Ha as <- _; exact Hp.
  - destruct (fst (purge t v)) as [[x|o]|] eqn:E; try discriminate; injection Ha as <- _; exact Hp.
  - destruct (fst (purge t v)) as [[x|o]|] eqn:E; try discriminate; injection Ha as <- _; exact Hp.
  - injection Ha as <- _. apply good_hread; [|exact Hp]. intros o Ho. exact Ho.
Qed.
Definition goods (V : views) : Prop := forall k, good (V k).
Lemma goods_upd V k x : goods V -> good x -> goods (upd V k x).
Proof. intros H Hx k'. unfold upd. destruct (decide (k' = k)); auto. Qed.
Lemma goods_abs c t V V' r : goods V -> abs c t V = Some (V', r) -> goods V'.
Proof.
  intros HV Ha. destruct (single_cases c) as [[k Hk]|Hc].
  - rewrite (abs_single c k t _ Hk) in Ha. destruct (abs1 c t (V k)) as [[x r0]|] eqn:E; [|discriminate].
    injection Ha as <- <-. apply goods_upd; [exact HV|]. eapply good_abs1; [apply HV|exact E].
  - destruct c; try destruct Hc; cbn [abs] in Ha.
    + injection Ha as <- _. revert V HV. induction kv as [|[k v] kv IH]; intros V HV; [exact HV|]. cbn. apply IH, goods_upd; auto using good_put.
    + assert (G : forall kv n V, goods V -> goods (fst (a_msetnx kv n V))).
      { clear. induction kv as [|[k v] kv IH]; intros n V HV; [exact HV|]. cbn. destruct (fst (V k)); apply IH; auto. apply goods_upd; auto using good_put. }
      specialize (G kv 0 V HV). destruct (a_msetnx kv 0 V). injection Ha as <- _. exact G.
    + assert (G : forall ks V, goods V -> goods (fst (a_mget t ks V))).
      { clear. induction ks as [|k ks IH]; intros V HV; [exact HV|]. cbn. specialize (IH (upd V k (purge t (V k)))). 
        destruct (a_mget t ks _). apply IH, goods_upd; auto using good_purge. }
      specialize (G ks V HV). destruct (a_mget t ks V). injection Ha as <- _. exact G.
    + injection Ha as <- _. intros k. reflexivity.
    + injection Ha as <- _. exact HV.
    + injection Ha as <- _. intros k. unfold a_cron. specialize (HV k). destruct (V k) as [[c|] e]; cbn [fst]; [|exact HV].
      destruct (zero_time <? t); [reflexivity|]. exact HV.
Qed.
Lemma goods_hist h : forall w w' rs, ready w -> goods (view w) -> run_hist h w = Done w' rs -> goods (view w').
Proof.
  induction h as [|[t c] h IH]; intros w w' rs Hr Hg; simpl; [intros E; injection E as <- <-; auto|].
  destruct (run_call t c w) as [w1 x| |] eqn:E1; [|discriminate|discriminate].
  destruct (run_hist h w1) as [w2 xs| |] eqn:E2; [|discriminate|discriminate].
  intros E; injection E as <- <-. destruct (run_inv _ _ _ _ _ Hr E1) as (V' & Ha & Hr1 & Hv).
  eapply IH; [exact Hr1| |exact E2]. intros k. rewrite Hv. eapply goods_abs; eauto.
Qed.
Lemma view_new t k : view (new_world t) k = (None, None).
Proof. reflexivity. Qed.
Lemma goods_reachable w : reachable w -> goods (view w).
Proof.
  intros (t0 & h & rs & E). eapply goods_hist; [apply ready_new| |exact E]. intros k. unfold view, cellat. cbn.
  rewrite !lookup_empty. reflexivity.
Qed.
(** In a reachable cache a deadline belongs to a stored key. *)
Theorem reachable_deadline_stored w k : reachable w -> stored w k = None -> deadline w k = None.
Proof.
  intros Hr Hs. pose proof (goods_reachable w Hr k) as Hg. pose proof (reachable_ready w Hr) as Hrd.
  unfold good in Hg. rewrite (view_none w k Hrd Hs), view_dl in Hg by auto. exact Hg.
Qed.

Lemma purge_idem t v : purge t (purge t v) = purge t v.
Proof. destruct v as [[c|] [dl|]]; try reflexivity. simpl. destruct (dl <? t) eqn:E; [reflexivity|]. simpl. rewrite E. reflexivity. Qed.
Lemma readable_view t w k : ready w -> readable t w k = match fst (purge t (view w k)) with Some _ => true | None => false end.
Proof.
  intros Hr. unfold readable. rewrite (answer_single _ k) by auto. cbn [abs1]. unfold fmt_cret.
  destruct (fst (purge t (view w k))) as [c|]; [|reflexivity]. destruct (fmt_cell c); reflexivity.
Qed.

(** ** C25 *)
Theorem C25_del w t k w1 r :
  ready w -> run_call t (CDel k) w = Done w1 r ->
  (forall t', answer t' (CGet k) w1 = err_str ErrKeyNil) /\ deadline w1 k = None /\ stored w1 k = None /\
  r = RInt (if readable t w k then 1 else 0, None) /\
  (forall k' h, k' <> k -> all_calls (fun _ c => only_names c k') h -> replies h w1 = replies h w) /\
  (forall t1 v w2 r2 t', run_call t1 (CSet k v) w1 = Done w2 r2 -> answer t' (CGet k) w2 = ok_str (text v)).
Proof.
  intros Hr E1. destruct (run_single _ k _ _ _ _ Hr E1 eq_refl) as (Ha & Hr1 & Ho). cbn [abs1] in Ha. injection Ha as Hv <-.
  assert (Hd : deadline w1 k = None) by (rewrite <- view_dl, <- Hv by auto; reflexivity).
  split; [|split; [|split; [|split; [|split]]]].
  - intros t'. rewrite (answer_single _ k) by auto. cbn [abs1]. rewrite <- Hv. reflexivity.
  - exact Hd.
  - pose proof (view_stored w1 k Hr1) as Hs. rewrite <- Hv in Hs. exact Hs.
  - rewrite readable_view by auto. destruct (fst (purge t (view w k))); reflexivity.
  - intros k' h Hne Hall. eapply local_replies; eauto.
  - intros t1 v w2 r2 t' E2. eapply C02_stored_text; eauto.
Qed.
Example C25_nonvacuous :
  replies [(9, CDel (bs "s")); (10000000008, CDel (bs "a")); (10000000008, CDel (bs "a")); (10000000008, CSet (bs "s") (bs "y")); (99999999999, CGet (bs "s"))] demo =
  Some [RInt (1, None); RInt (1, None); RInt (0, None); RStr (bs "OK", None); RStr (bs "y", None)].
Proof. vm_compute. reflexivity. Qed.

(** ** C26 *)
(** how many of the listed keys Get can see *)
Definition count_readable (t : Z) (w : world) (ks : list gostr) : Z := zlen (List.filter (readable t w) ks).
Theorem C26_exists_expired_refuted :
  exists k v n t, replies [(1, CSetEX k v n); (t, CExists [k])] (new_world 0) = Some [RStr (bs "OK", None); RInt (1, None)] /\
                  replies [(1, CSetEX k v n); (t, CGet k)] (new_world 0) = Some [RStr (bs "OK", None); RStr ([], Some ErrKeyNil)].
Proof. exists (bs "k"), (bs "v"), 1, 1000000002. vm_compute. auto. Qed.
(** Full statement: without the hypothesis that no listed key is past its deadline. *)
Theorem C26_exists_partial w t ks :
  ready w -> (forall k, k ∈ ks -> ~ past w k t) -> answer t (CExists ks) w = ok_int (count_readable t w ks).
Proof.
  intros Hr Hp. rewrite answer_eq by auto. cbn [abs]. unfold noerr, ok_int. do 3 f_equal.
  assert (G : forall n, a_exists ks n (view w) = n + count_readable t w ks); [|rewrite G; lia].
  revert Hp. induction ks as [|k ks IH]; intros Hp n; [unfold count_readable, zlen; simpl; lia|]. cbn [a_exists].
  rewrite IH by (intros; apply Hp; right; auto). unfold count_readable. cbn [List.filter].
  rewrite readable_view, purge_not_past by (auto; apply Hp; left).
  destruct (fst (view w k)) as [c|]; [rewrite zlen_cons|]; lia.
Qed.
(** Without that hypothesis Exists counts the stored keys, expired or not. *)
Theorem C26_exists_counts_stored w t ks :
  ready w -> answer t (CExists ks) w = ok_int (zlen (filter (fun k => is_Some (stored w k)) ks)).
Proof.
  intros Hr. rewrite answer_eq by auto. cbn [abs]. unfold noerr, ok_int. do 3 f_equal.
  assert (G : forall n, a_exists ks n (view w) = n + zlen (filter (fun k => is_Some (stored w k)) ks)); [|rewrite G; lia].
  induction ks as [|k ks IH]; intros n; [unfold zlen; simpl; lia|]. cbn [a_exists]. rewrite IH.
  pose proof (view_stored w k Hr) as Hs. destruct (fst (view w k)) as [c|].
  - rewrite filter_cons_True; [rewrite zlen_cons; lia|]. destruct c; [destruct Hs as [-> _]|destruct Hs as [[l ->] _]]; eauto.
  - rewrite filter_cons_False; [lia|]. rewrite Hs. intros [? ?]. discriminate.
Qed.
Example C26_nonvacuous : answer 9 (CExists [bs "a"; bs "s"; bs "none"; bs "a"; bs "h"]) demo = ok_int 4.
Proof. vm_compute. reflexivity. Qed.

(** ** C27 *)
Theorem C27_type_of_hash_refuted :
  exists k f v, replies [(1, CHSet k f v); (2, CType k)] (new_world 0) = Some [RInt (1, None); RStr (bs "string", None)].
Proof. exists (bs "k"), (bs "f"), (bs "v"). vm_compute. reflexivity. Qed.
(** Full statement: "hash" for hashes. *)
Theorem C27_type_partial w t k :
  ready w -> answer t (CType k) w = ok_str (if readable t w k then bs "string" else bs "none").
Proof.
  intros Hr. rewrite !(answer_single _ k) by auto. cbn [abs1]. unfold noerr, ok_str. rewrite readable_view by auto.
  destruct (fst (purge t (view w k))); reflexivity.
Qed.
Example C27_nonvacuous : answer 9 (CType (bs "a")) demo = ok_str (bs "string") /\ answer 9 (CType (bs "q")) demo = ok_str (bs "none").
Proof. vm_compute. auto. Qed.

(** ** C28 *)
Theorem C28_flush w t w1 r :
  ready w -> run_call t CFlush w = Done w1 r -> forall t0, indist w1 (new_world t0).
Proof.
  intros Hr E t0. destruct (run_inv _ _ _ _ _ Hr E) as (V' & Ha & Hr1 & Hv1). injection Ha as <- _.
  apply indist_of_view; [exact Hr1|apply ready_new|]. intros k. rewrite Hv1. reflexivity.
Qed.
Theorem C28_flush_completes w t : ready w -> answer t CFlush w = Some RUnit.
Proof. intros Hr. rewrite answer_eq by auto. reflexivity. Qed.
Theorem C28_flushed_absent w t w1 r t' k : ready w -> run_call t CFlush w = Done w1 r -> answer t' (CGet k) w1 = err_str ErrKeyNil.
Proof.
  intros Hr E. destruct (run_inv _ _ _ _ _ Hr E) as (V' & Ha & Hr1 & Hv1). injection Ha as <- _.
  rewrite (answer_single _ k) by auto. cbn [abs1]. rewrite Hv1. reflexivity.
Qed.

(** ** C29 *)
Theorem C29_sweep_refuted :
  exists k v, replies [(1, CSet k v); (2, CCron); (3, CGet k)] (new_world 0) = Some [RStr (bs "OK", None); RUnit; RStr ([], Some ErrKeyNil)].
Proof. exists (bs "k"), (bs "v"). vm_compute. reflexivity. Qed.
(** What a sweep does (at any time after year 1): it empties the cache.
    Full statement: unexpired keys survive.  Of it only "expired keys are gone" holds. *)
Theorem C29_sweep_empties_partial w t w1 r :
  reachable w -> - 62135596800000000000 < t -> run_call t CCron w = Done w1 r -> forall t0, indist w1 (new_world t0).
Proof.
  intros Hre Ht E t0. pose proof (reachable_ready w Hre) as Hr. pose proof (goods_reachable w Hre) as Hg.
  destruct (run_inv _ _ _ _ _ Hr E) as (V' & Ha & Hr1 & Hv1). injection Ha as <- _.
  apply indist_of_view; [exact Hr1|apply ready_new|]. intros k. rewrite Hv1. unfold a_cron.
  replace (view (new_world t0) k) with (@None cell, @None Z) by reflexivity.
  specialize (Hg k). unfold good in Hg. destruct (view w k) as [[c|] e]; cbn [fst snd] in *; [|congruence].
  unfold zero_time, second. destruct (Z.ltb_spec (-62135596800 * 1000000000) t); [reflexivity|lia].
Qed.
Example C29_nonvacuous : replies [(9, CCron); (9, CExists [bs "a"; bs "n"; bs "s"; bs "h"])] demo = Some [RUnit; RInt (0, None)].
Proof. vm_compute. reflexivity. Qed.

(** ** C30 *)
Theorem C30_ttl_overflow_refuted :
  exists k v n, 0 < n /\ replies [(1, CSetEX k v n); (2 ^ 62, CGet k)] (new_world 0) = Some [RStr (bs "OK", None); RStr ([], Some ErrKeyNil)] /\
                1 + 1000000000 * n > 2 ^ 62.
Proof. exists (bs "k"), (bs "v"), 18446744074. vm_compute. auto. Qed.
(** Full statement: for every positive [n]; proved when [n] seconds fit in int64 nanoseconds (about 292 years). *)
Theorem C30_ttl_partial w t k v n (ms : bool) w1 r :
  let dur := (if ms then 1000000 else 1000000000) * n in
  ready w -> - 2 ^ 63 <= dur < 2 ^ 63 ->
  run_call t (if ms then CPSetEX k v n else CSetEX k v n) w = Done w1 r ->
  r = RStr (bs "OK", None) /\ deadline w1 k = (if decide (0 < n) then Some (t + dur) else None) /\
  (forall t', answer t' (CGet k) w1 = if decide (0 < n /\ t + dur < t') then err_str ErrKeyNil else ok_str (text v)).
Proof.
  intros dur Hr Hd E1.
  assert (Hw : wrap64 dur = dur) by (apply wrap64_id, is_int64_iff; unfold min_int64, max_int64; lia).
  assert (Hv1 : view w1 k = (Some (CV (try_int64 v)), dl_after t dur) /\ ready w1 /\ r = RStr (bs "OK", None)).
  { destruct ms.
    - destruct (run_single _ k _ _ _ _ Hr E1 eq_refl) as (Ha & Hr1 & _). injection Ha as Hv <-.
      rewrite <- Hv. unfold millisecond. fold dur. rewrite Hw. auto.
    - destruct (run_single _ k _ _ _ _ Hr E1 eq_refl) as (Ha & Hr1 & _). injection Ha as Hv <-.
      rewrite <- Hv. unfold second. fold dur. rewrite Hw. auto. }
  destruct Hv1 as (Hv1 & Hr1 & ->). split; [reflexivity|].
  assert (Hsgn : 0 < n <-> 0 < dur) by (subst dur; destruct ms; lia).
  assert (Hdl : dl_after t dur = if decide (0 < n) then Some (t + dur) else None).
  { unfold dl_after. destruct (Z.leb_spec dur 0); case_decide; auto; lia. }
  split; [rewrite <- view_dl, Hv1 by auto; exact Hdl|].
  intros t'. rewrite (answer_single _ k) by auto. cbn [abs1]. rewrite Hv1, Hdl.
  assert (Hok : fmt_cret (CV (try_int64 v)) = (text v, None)) by (unfold fmt_cret; cbn [fmt_cell]; rewrite fmt_try; reflexivity).
  case_decide as H1.
  - cbn [purge]. destruct (Z.ltb_spec (t + dur) t').
    + rewrite decide_True by auto. reflexivity.
    + rewrite decide_False by lia. cbn [fst]. rewrite Hok. reflexivity.
  - rewrite purge_none. rewrite decide_False by lia. cbn [fst]. rewrite Hok. reflexivity.
Qed.
Example C30_nonvacuous : replies [(5, CPSetEX (bs "k") (bs "v") 3); (3000005, CGet (bs "k")); (3000006, CGet (bs "k"))] demo =
  Some [RStr (bs "OK", None); RStr (bs "v", None); RStr ([], Some ErrKeyNil)].
Proof. vm_compute. reflexivity. Qed.

(** ** C31 *)
Theorem C31_getset_wrong_type_refuted :
  exists k f v, replies [(1, CHSet k f v); (2, CGetSet k v); (3, CGet k)] (new_world 0) =
    Some [RInt (1, None); RStr ([], Some ErrWrongType); RStr (v, None)].
Proof. exists (bs "k"), (bs "f"), (bs "v"). vm_compute. reflexivity. Qed.
Definition wrong_type (r : reply) : Prop :=
  match r with
  | RStr (_, Some ErrWrongType) | RInt (_, Some ErrWrongType) | RFloat (_, Some ErrWrongType) => True
  | _ => False
  end.
(** the string calls other than GetSet *)
Definition string_call (c : call) : Prop :=
  match c with
  | CSet _ _ | CSetNX _ _ | CSetEX _ _ _ | CPSetEX _ _ _ | CGet _ | CStrLen _ | CAppend _ _ | CSetRange _ _ _ | CGetRange _ _ _
  | CIncr _ | CIncrBy _ _ | CIncrByFloat _ _ | CDecr _ | CDecrBy _ _ | CMSet _ | CMSetNX _ | CMGet _ => True
  | _ => False
  end.
(** Full statement: GetSet included. *)
Theorem C31_wrong_type_partial w t c w1 r :
  ready w -> string_call c -> run_call t c w = Done w1 r -> wrong_type r -> indist w1 w.
Proof.
  intros Hr Hc E Hw. destruct (run_inv _ _ _ _ _ Hr E) as (V' & Ha & Hr1 & Hv1). apply indist_of_view; auto.
  assert (Hp : forall k x, fst (purge t (view w k)) = Some x -> purge t (view w k) = view w k).
  { intros k x. destruct (view w k) as [[y|] [dl|]]; cbn; auto. destruct (dl <? t); [discriminate|auto]. }
  destruct (single_cases c) as [[k Hk]|Hm].
  - rewrite (abs_single c k t _ Hk) in Ha. destruct (abs1 c t (view w k)) as [[x r0]|] eqn:E1; [|discriminate]. injection Ha as <- <-.
    assert (Hx : x = view w k).
    { destruct c; try destruct Hc; cbn [abs1] in E1; try discriminate.
      all: try (injection E1 as <- <-; destruct Hw; fail).
      - destruct (fst (view w k)); injection E1 as <- <-; destruct Hw.
      - injection E1 as <- <-. destruct (fst (purge t (view w k))) as [y|] eqn:E2; [eapply Hp; eauto|destruct Hw].
      - injection E1 as <- <-. destruct (fst (purge t (view w k))) as [y|] eqn:E2; [eapply Hp; eauto|destruct Hw].
      - destruct (fst (purge t (view w k))) as [y|] eqn:E2; [destruct (fmt_cell y)|]; injection E1 as <- <-; try destruct Hw. eapply Hp; eauto.
      - destruct (pos <? 0); [injection E1 as <- <-; destruct Hw|].
        destruct (fst (purge t (view w k))) as [y|] eqn:E2; [destruct (fmt_cell y)|destruct (pos >? max_alloc); [discriminate|]]; injection E1 as <- <-; try destruct Hw. eapply Hp; eauto.
      - injection E1 as <- <-. destruct (fst (purge t (view w k))) as [y|] eqn:E2; [eapply Hp; eauto|destruct Hw].
      - unfold wr, a_incr in E1. destruct (fst (view w k)) as [[y|o]|]; [destruct (incr_val y _) as [[? ?]|]| |]; injection E1 as <- <-; try destruct Hw; reflexivity.
      - unfold wr, a_incr in E1. destruct (fst (view w k)) as [[y|o]|]; [destruct (incr_val y _) as [[? ?]|]| |]; injection E1 as <- <-; try destruct Hw; reflexivity.
      - destruct (fst (view w k)) as [[y|o]|]; [destruct y| |]; injection E1 as <- <-; try destruct Hw; reflexivity.
      - unfold wr, a_incr in E1. destruct (fst (view w k)) as [[y|o]|]; [destruct (incr_val y _) as [[? ?]|]| |]; injection E1 as <- <-; try destruct Hw; reflexivity.
      - unfold wr, a_incr in E1. destruct (fst (view w k)) as [[y|o]|]; [destruct (incr_val y _) as [[? ?]|]| |]; injection E1 as <- <-; try destruct Hw; reflexivity. }
    intros k'. rewrite Hv1. subst x. unfold upd. destruct (decide (k' = k)) as [->|]; reflexivity.
  - destruct c; try destruct Hm; try destruct Hc; cbn [abs] in Ha.
    + injection Ha as <- <-. destruct Hw.
    + destruct (a_msetnx kv 0 (view w)). injection Ha as <- <-. destruct Hw.
    + destruct (a_mget t ks (view w)). injection Ha as <- <-. destruct Hw.
Qed.
(** On a live hash every string call that reads its key answers with that error, beside a zero value. *)
Definition zero_and_wrong_type (r : reply) : Prop :=
  r = RStr ([], Some ErrWrongType) \/ r = RInt (0, Some ErrWrongType) \/ r = RFloat (S754_zero false, Some ErrWrongType).
Definition reads_string (c : call) (k : gostr) : Prop :=
  match c with
  | CGet k' | CGetSet k' _ | CStrLen k' | CAppend k' _ | CGetRange k' _ _ | CIncr k' | CIncrBy k' _ | CIncrByFloat k' _ | CDecr k' | CDecrBy k' _ => k' = k
  | CSetRange k' pos _ => k' = k /\ 0 <= pos
  | _ => False
  end.
Theorem C31_hash_is_wrong_type_partial w t c k h :
  ready w -> stored w k = Some (VHash h) -> ~ past w k t -> reads_string c k ->
  match answer t c w with Some r => zero_and_wrong_type r | None => False end.
Proof.
  intros Hr Hs Hp Hc. destruct (view_hash w k h Hr Hs) as (o & Hv & _).
  assert (Hk : single c = Some k) by (destruct c; cbn in *; try destruct Hc; subst; try reflexivity; destruct Hc; subst; reflexivity).
  rewrite (answer_single _ k) by auto.
  destruct c; cbn in Hk; try destruct Hc; cbn [abs1]; rewrite ?purge_not_past by auto; unfold wr, a_incr; try (rewrite (proj2 (Z.ltb_ge pos 0)) by lia); rewrite Hv; unfold zero_and_wrong_type; first [left; reflexivity|right; left; reflexivity|right; right; reflexivity].
Qed.
Example C31_nonvacuous : replies [(9, CAppend (bs "h") (bs "x")); (9, CIncr (bs "a")); (9, CGet (bs "h"))] demo =
  Some [RInt (0, Some ErrWrongType); RInt (0, Some ErrWrongType); RStr ([], Some ErrWrongType)].
Proof. vm_compute. reflexivity. Qed.

(** ** C32 *)
Theorem C32_stored_kinds w k v :
  reachable w -> stored w k = Some v ->
  match v with VStr _ | VInt _ | VInt64 _ | VFloat _ | VHash _ => True | _ => False end.
Proof.
  intros Hre Hs. pose proof (goods_reachable w Hre k) as Hg. pose proof (stored_view w k (reachable_ready w Hre)) as Hv.
  rewrite Hs in Hv. unfold good in Hg. destruct v; auto; rewrite Hv in Hg; exact Hg.
Qed.
Theorem C32_wrong_type_iff_hash w t k :
  reachable w -> ~ past w k t ->
  (answer t (CGet k) w = err_str ErrWrongType <-> exists l, stored w k = Some (VHash l)).
Proof.
  intros Hre Hp. pose proof (reachable_ready w Hre) as Hr. rewrite (answer_single _ k) by auto. cbn [abs1]. rewrite purge_not_past by auto.
  pose proof (view_stored w k Hr) as Hv. destruct (fst (view w k)) as [[v|o]|].
  - destruct Hv as [Hv Hs]. unfold fmt_cret. cbn [fmt_cell]. destruct (fmt_scalar v Hs) as [s ->]. split; [discriminate|].
    intros [l Hl]. rewrite Hv in Hl. injection Hl as ->. destruct Hs.
  - split; [intros _; apply Hv|reflexivity].
  - split; [discriminate|]. intros [l Hl]. congruence.
Qed.
Example C32_nonvacuous : is_Some (stored demo (bs "a")) /\ answer 9 (CGet (bs "h")) demo = err_str ErrWrongType.
Proof. vm_compute. eauto. Qed.

(** ** C33 *)
Theorem C33_reads_refuted :
  exists k v t, replies [(1, CSetEX k v 1); (t, CGet k); (t, CExists [k])] (new_world 0) = Some [RStr (bs "OK", None); RStr ([], Some ErrKeyNil); RInt (0, None)] /\
                replies [(1, CSetEX k v 1); (t, CExists [k])] (new_world 0) = Some [RStr (bs "OK", None); RInt (1, None)].
Proof. exists (bs "k"), (bs "v"), 1000000002. vm_compute. auto. Qed.
(** Full statement: without the hypothesis that the keys read are not past their deadline. *)
Theorem C33_reads_partial w t c w1 r :
  ready w -> reads c -> (forall k, names c k -> ~ past w k t) -> run_call t c w = Done w1 r -> indist w1 w.
Proof.
  intros Hr Hc Hn E. destruct (run_inv _ _ _ _ _ Hr E) as (V' & Ha & Hr1 & Hv1). apply indist_of_view; auto.
  intros k. rewrite Hv1. 
  assert (Hdec : names c k \/ ~ names c k).
  { unfold names. destruct (keys_of c); [|auto]. destruct (decide (k ∈ l)); auto. }
  destruct Hdec as [H|H]; [|eapply abs_ne; eauto]. eapply abs_reads; eauto. apply purge_not_past; auto.
Qed.
(** Exists never changes anything. *)
Theorem C33_exists_pure w t ks w1 r : ready w -> run_call t (CExists ks) w = Done w1 r -> indist w1 w.
Proof.
  intros Hr E. destruct (run_inv _ _ _ _ _ Hr E) as (V' & Ha & Hr1 & Hv1). injection Ha as <- _. apply indist_of_view; auto.
Qed.
(** A read of an expired key changes nothing that reads of live data can see: afterwards every read gives the same answer. *)
Theorem C33_reads_repeatable w t c w1 r t' c' :
  ready w -> reads c -> t <= t' ->
  (match c' with CGet _ | CStrLen _ | CGetRange _ _ _ | CType _ => True | _ => False end) ->
  run_call t c w = Done w1 r -> answer t' c' w1 = answer t' c' w.
Proof.
  intros Hr Hc Ht Hc' E. destruct (run_inv _ _ _ _ _ Hr E) as (V' & Ha & Hr1 & Hv1).
  assert (Hpp : forall v, purge t' (purge t v) = purge t' v \/ fst (purge t' (purge t v)) = None /\ fst (purge t' v) = None).
  { intros [[y|] [dl|]]; cbn; auto. destruct (Z.ltb_spec dl t); cbn; auto. destruct (Z.ltb_spec dl t'); auto; lia. }
  assert (Hk : forall k, fst (purge t' (view w1 k)) = fst (purge t' (view w k))).
  { intros k. rewrite Hv1. 
    assert (V' k = view w k \/ V' k = purge t (view w k)) as [->| ->]; [|reflexivity|].
    - destruct c; try destruct Hc; cbn [abs keys_of abs1] in Ha.
      all: try (injection Ha as <- _; unfold upd; destruct (decide _) as [->|]; auto; fail).
      + assert (G : forall ks V, fst (a_mget t ks V) k = V k \/ fst (a_mget t ks V) k = purge t (V k)).
        { clear. induction ks as [|k1 ks IH]; intros V; [auto|]. cbn [a_mget]. specialize (IH (upd V k1 (purge t (V k1)))).
          destruct (a_mget t ks _) as [V2 l]. cbn [fst] in *. unfold upd in IH. destruct (decide (k = k1)) as [->|]; [|exact IH].
          pose proof (purge_idem t (V k1)) as Hi.
          rewrite Hi in IH. tauto. }
        specialize (G ks (view w)). destruct (a_mget t ks (view w)). injection Ha as <- _. exact G.
      + injection Ha as <- _. auto.
    - destruct (Hpp (view w k)) as [->|[-> ->]]; reflexivity. }
  destruct c'; try destruct Hc'; rewrite !(answer_single _ k) by auto; cbn [abs1]; rewrite Hk; reflexivity.
Qed.
Example C33_nonvacuous : answer 10000000008 (CGet (bs "s")) demo = err_str ErrKeyNil /\ is_Some (stored demo (bs "s")).
Proof. vm_compute. eauto. Qed.

Print Assumptions C25_del.
Print Assumptions C29_sweep_empties_partial.
Print Assumptions C31_wrong_type_partial.
Print Assumptions C33_reads_repeatable.
