(** * CacheMain: the whole cache as a function on key states, and its consequences *)
From Verif Require Import Base GoFloat CacheModel CacheSpec CacheAbs CacheRefine CacheRefineH.

Lemma ready_iff w : ready w <->
  exists d e h n t, w = W (Some d) (Some e) h n false 0 t /\ wf d h n.
Proof.
  split.
  - intros [H1 H2 (d & Hd & Hp & Hi) [e He] Hn Hf]. destruct w as [wd we h n b m t]. simpl in *. subst.
    exists d, e, h, n, t. split; [reflexivity|]. split; auto.
  - intros (d & e & h & n & t & -> & [H1 H2 H3 H4]). split; simpl; eauto.
Qed.

Lemma view_W d e h n b m t k : view (W (Some d) (Some e) h n b m t) k = (cellat d h k, e !! k).
Proof. reflexivity. Qed.

Notation wst d e h n t := (W (Some d) (Some e) h n false 0 t).

(** the result of running [p] from a well-formed state, described on views *)
Definition follows {R} (p : prog R) (f : views -> option (views * R)) : Prop :=
  forall d e h n t, wf d h n ->
  let V := view (wst d e h n t) in
  match f V with
  | Some (V', r) => exists d' e' h' n', eval p (wst d e h n t) = Done (wst d' e' h' n' t) r /\ wf d' h' n' /\
                    forall k, view (wst d' e' h' n' t) k = V' k
  | None => eval p (wst d e h n t) = EPanic
  end.

Lemma upd_eq V k x : upd V k x k = x.
Proof. unfold upd. rewrite decide_True; auto. Qed.
Lemma upd_ne V k x k' : k' <> k -> upd V k x k' = V k'.
Proof. intros. unfold upd. rewrite decide_False; auto. Qed.

Definition veq (V1 V2 : views) : Prop := forall k, V1 k = V2 k.

Lemma upd_ext V1 V2 k x : veq V1 V2 -> veq (upd V1 k x) (upd V2 k x).
Proof. intros E k'. unfold upd. destruct (decide _); auto. Qed.

Lemma a_mset_ext kv V1 V2 : veq V1 V2 -> veq (a_mset kv V1) (a_mset kv V2).
Proof.
  revert V1 V2. induction kv as [|[k v] r IH]; intros V1 V2 E; [exact E|]. simpl. apply IH.
  rewrite (E k). apply upd_ext, E.
Qed.
Lemma a_msetnx_ext kv n V1 V2 : veq V1 V2 ->
  snd (a_msetnx kv n V1) = snd (a_msetnx kv n V2) /\ veq (fst (a_msetnx kv n V1)) (fst (a_msetnx kv n V2)).
Proof.
  revert n V1 V2. induction kv as [|[k v] r IH]; intros n V1 V2 E; [split; [reflexivity|exact E]|]. simpl.
  rewrite (E k). destruct (fst (V2 k)); apply IH; [exact E|apply upd_ext, E].
Qed.
Lemma a_mget_ext t ks V1 V2 : veq V1 V2 ->
  snd (a_mget t ks V1) = snd (a_mget t ks V2) /\ veq (fst (a_mget t ks V1)) (fst (a_mget t ks V2)).
Proof.
  revert V1 V2. induction ks as [|k r IH]; intros V1 V2 E; [split; [reflexivity|exact E]|]. simpl.
  rewrite (E k).
  destruct (IH (upd V1 k (purge t (V2 k))) (upd V2 k (purge t (V2 k))) (upd_ext _ _ _ _ E)) as [A B].
  destruct (a_mget t r (upd V1 k _)) as [W1 l1], (a_mget t r (upd V2 k _)) as [W2 l2]. simpl in *. subst. auto.
Qed.
Lemma a_exists_ext ks n V1 V2 : veq V1 V2 -> a_exists ks n V1 = a_exists ks n V2.
Proof. revert n. induction ks as [|k r IH]; intros n E; [reflexivity|]. simpl. rewrite (E k). apply IH, E. Qed.

(** [abs] for the calls about one key *)
Lemma abs_single c k t V : single c = Some k ->
  abs c t V = match abs1 c t (V k) with Some (x, r) => Some (upd V k x, r) | None => None end.
Proof. destruct c; cbn [single keys_of]; intros E; try discriminate; injection E as <-; reflexivity. Qed.

Lemma single_cases c : (exists k, single c = Some k) \/
  match c with CMSet _ | CMSetNX _ | CMGet _ | CExists _ | CFlush | CCron => True | _ => False end.
Proof. destruct c; cbn [single keys_of]; eauto. Qed.

Lemma abs_ext c t V1 V2 : veq V1 V2 ->
  match abs c t V1, abs c t V2 with
  | Some (A, r), Some (B, r') => r = r' /\ veq A B
  | None, None => True
  | _, _ => False
  end.
Proof.
  intros E. destruct (single_cases c) as [[k Hk]|Hc].
  - rewrite !(abs_single c k) by auto. rewrite (E k). destruct (abs1 c t (V2 k)) as [[x r]|]; [|exact I].
    split; [reflexivity|]. apply upd_ext, E.
  - destruct c; try destruct Hc; cbn [abs].
    + split; [reflexivity|]. apply a_mset_ext, E.
    + destruct (a_msetnx_ext kv 0 V1 V2 E) as [A B]. destruct (a_msetnx kv 0 V1), (a_msetnx kv 0 V2). simpl in *. subst. auto.
    + destruct (a_mget_ext t ks V1 V2 E) as [A B]. destruct (a_mget t ks V1), (a_mget t ks V2). simpl in *. subst. auto.
    + split; [reflexivity|]. exact (fun _ => eq_refl).
    + split; [|exact E]. f_equal. f_equal. apply a_exists_ext, E.
    + split; [reflexivity|]. intros k. unfold a_cron. rewrite (E k). reflexivity.
Qed.

(** ** programs on several keys *)
Lemma view_store d e h n t k v : 
  veq (view (wst (<[k:=try_int64 v]> d) e h n t)) (upd (view (wst d e h n t)) k (put v (view (wst d e h n t) k))).
Proof.
  intros k'. rewrite view_W. destruct (decide (k' = k)) as [->|Hk].
  - rewrite upd_eq, cellat_insert by apply try_scalar. reflexivity.
  - rewrite upd_ne, cellat_insert_ne by auto. reflexivity.
Qed.
Lemma mset_follows kv d e h n t : wf d h n ->
  exists d', eval (mset_loop kv) (wst d e h n t) = Done (wst d' e h n t) tt /\ wf d' h n /\
             veq (view (wst d' e h n t)) (a_mset kv (view (wst d e h n t))).
Proof.
  revert d. induction kv as [|[k v] r IH]; intros d HW; cbn [mset_loop a_mset].
  - exists d. split; [reflexivity|]. split; [exact HW|]. exact (fun _ => eq_refl).
  - rewrite eval_bind, ev_data_store. destruct (IH (<[k:=try_int64 v]> d)) as (d' & Ev & HW' & Hv);
      [apply wf_insert; auto using try_scalar|].
    exists d'. split; [exact Ev|]. split; [exact HW'|]. intros k'. rewrite Hv. apply a_mset_ext, view_store.
Qed.
Lemma msetnx_follows kv c d e h n t : wf d h n ->
  exists d', eval (msetnx_loop kv c) (wst d e h n t) = Done (wst d' e h n t) (snd (a_msetnx kv c (view (wst d e h n t)))) /\ wf d' h n /\
             veq (view (wst d' e h n t)) (fst (a_msetnx kv c (view (wst d e h n t)))).
Proof.
  revert c d. induction kv as [|[k v] r IH]; intros c d HW; cbn [msetnx_loop a_msetnx].
  - exists d. split; [reflexivity|]. split; [exact HW|]. exact (fun _ => eq_refl).
  - rewrite eval_bind, ev_data_los. rewrite view_W.
    assert (Hc : fst (cellat d h k, e !! k) = cell_of h <$> d !! k) by reflexivity. rewrite Hc. clear Hc.
    destruct (d !! k) as [x|] eqn:Ed; cbn [fmap option_fmap option_map snd].
    + apply IH, HW.
    + destruct (IH (c + 1) (<[k:=try_int64 v]> d)) as (d' & Ev & HW' & Hv);
        [apply wf_insert; auto using try_scalar|].
      rewrite <- (view_W d e h n false 0 t k).
      destruct (a_msetnx_ext r (c + 1) _ _ (view_store d e h n t k v)) as [A B].
      exists d'. split; [rewrite Ev, A; reflexivity|]. split; [exact HW'|]. intros k'. rewrite Hv. apply B.
Qed.
Lemma get_follows k d e h n t : wf d h n ->
  exists d' e' r, eval (c_get k) (wst d e h n t) = Done (wst d' e' h n t) r /\ wf d' h n /\
    veq (view (wst d' e' h n t)) (upd (view (wst d e h n t)) k (purge t (view (wst d e h n t) k))) /\
    slot_of r = slot_cell (fst (purge t (view (wst d e h n t) k))).
Proof.
  intros HW. rewrite ev_c_get. unfold dead. rewrite !view_W.
  destruct (key_cases d h n k HW) as [[Ed Ec]|[(x & Ed & Hx & Ec)|(l & o & Ed & Ho & Ec & Hf)]]; rewrite Ed, Ec.
  - exists d, e, None. split; [reflexivity|]. split; [auto|]. split; [|reflexivity].
    intros k'. unfold upd. destruct (decide _) as [->|]; [|reflexivity]. rewrite view_W, Ec. reflexivity.
  - destruct (e !! k) as [dl|] eqn:Ee; [cbn [purge]; destruct (dl <? t)|].
    + exists (delete k d), (delete k e), None. split; [reflexivity|]. split; [apply wf_delete, HW|]. split; [|reflexivity].
      intros k'. rewrite view_W. destruct (decide (k' = k)) as [->|].
      * rewrite upd_eq, cellat_delete, lookup_delete. reflexivity.
      * rewrite upd_ne, cellat_delete_ne, lookup_delete_ne by auto. reflexivity.
    + exists d, e, (Some x). split; [reflexivity|]. split; [auto|]. split.
      * intros k'. unfold upd. destruct (decide _) as [->|]; [|reflexivity]. rewrite view_W, Ec, Ee. reflexivity.
      * reflexivity.
    + exists d, e, (Some x). split; [reflexivity|]. split; [auto|]. split.
      * intros k'. unfold upd. destruct (decide _) as [->|]; [|reflexivity]. rewrite view_W, Ec, Ee. reflexivity.
      * reflexivity.
  - destruct (e !! k) as [dl|] eqn:Ee; [cbn [purge]; destruct (dl <? t)|].
    + exists (delete k d), (delete k e), None. split; [reflexivity|]. split; [apply wf_delete, HW|]. split; [|reflexivity].
      intros k'. rewrite view_W. destruct (decide (k' = k)) as [->|].
      * rewrite upd_eq, cellat_delete, lookup_delete. reflexivity.
      * rewrite upd_ne, cellat_delete_ne, lookup_delete_ne by auto. reflexivity.
    + exists d, e, (Some (VHash l)). split; [reflexivity|]. split; [auto|]. split; [|reflexivity].
      intros k'. unfold upd. destruct (decide _) as [->|]; [|reflexivity]. rewrite view_W, Ec, Ee. reflexivity.
    + exists d, e, (Some (VHash l)). split; [reflexivity|]. split; [auto|]. split; [|reflexivity].
      intros k'. unfold upd. destruct (decide _) as [->|]; [|reflexivity]. rewrite view_W, Ec, Ee. reflexivity.
Qed.
Lemma mget_follows ks d e h n t : wf d h n ->
  exists d' e', eval (mget_loop ks) (wst d e h n t) = Done (wst d' e' h n t) (snd (a_mget t ks (view (wst d e h n t)))) /\ wf d' h n /\
             veq (view (wst d' e' h n t)) (fst (a_mget t ks (view (wst d e h n t)))).
Proof.
  revert d e. induction ks as [|k r IH]; intros d e HW; cbn [mget_loop a_mget].
  - exists d, e. split; [reflexivity|]. split; [exact HW|]. exact (fun _ => eq_refl).
  - rewrite eval_bind. destruct (get_follows k d e h n t HW) as (d1 & e1 & x & Ev & HW1 & Hv & Hs).
    rewrite Ev, eval_bind. destruct (IH d1 e1 HW1) as (d' & e' & Ev' & HW' & Hv'). rewrite Ev', ev_ret, Hs.
    destruct (a_mget_ext t r _ _ Hv) as [A B]. rewrite A.
    exists d', e'. destruct (a_mget t r (upd _ k _)) as [V2 l2]. cbn [fst snd] in *.
    split; [reflexivity|]. split; [exact HW'|]. intros k'. rewrite Hv'. apply B.
Qed.
Lemma exists_follows ks c d e h n t :
  eval (exists_loop ks c) (wst d e h n t) = Done (wst d e h n t) (a_exists ks c (view (wst d e h n t))).
Proof.
  revert c. induction ks as [|k r IH]; intros c; cbn [exists_loop a_exists]; [reflexivity|].
  rewrite eval_bind, ev_data_load, view_W. unfold cellat. cbn [fst]. destruct (d !! k); apply IH.
Qed.

(** the sweep *)
Lemma cron_loop_ev ks : forall d e h n b m t,
  exists d' e', eval (cron_loop ks) (W (Some d) (Some e) h n b m t) = Done (W (Some d') (Some e') h n b m t) tt /\
  forall k, (d' !! k = if decide (k ∈ ks) then (if zero_time <? t then None else d !! k) else d !! k) /\
            (e' !! k = if decide (k ∈ ks) then (if d !! k then None else e !! k) else e !! k).
Proof.
  induction ks as [|k0 r IH]; intros d e h n b m t; cbn [cron_loop].
  - exists d, e. split; [reflexivity|]. intros k. rewrite !decide_False by (apply not_elem_of_nil). auto.
  - rewrite eval_bind, ev_data_load. destruct (d !! k0) as [v|] eqn:E0.
    + rewrite eval_bind, eval_bind, ev_exp_delete, eval_bind, ev_now.
      set (z := zero_time <? t) in *. destruct z eqn:Ez; cbn iota.
      * rewrite eval_bind, ev_exp_delete, ev_data_delete.
        destruct (IH (delete k0 d) (delete k0 (delete k0 e)) h n b m t) as (d' & e' & Ev & Hs).
        exists d', e'. split; [exact Ev|]. intros k. destruct (Hs k) as [A B]. fold z in A. rewrite Ez in A. rewrite A, B.
        destruct (decide (k = k0)) as [->|Hk].
        -- rewrite (decide_True (P:=k0 ∈ k0 :: r)), (decide_True (P:=k0 ∈ k0 :: r)) by left. rewrite ?lookup_delete, E0. destruct (decide (k0 ∈ r)); auto.
        -- rewrite !lookup_delete_ne by congruence. destruct (decide (k ∈ r)) as [Hin|Hin].
           ++ rewrite !decide_True by (right; exact Hin). auto.
           ++ rewrite !decide_False by (intros Hx; apply elem_of_cons in Hx; tauto). auto.
      * rewrite ev_ret. destruct (IH d (delete k0 e) h n b m t) as (d' & e' & Ev & Hs).
        exists d', e'. split; [exact Ev|]. intros k. destruct (Hs k) as [A B]. fold z in A. rewrite Ez in A. rewrite A, B.
        destruct (decide (k = k0)) as [->|Hk].
        -- rewrite (decide_True (P:=k0 ∈ k0 :: r)), (decide_True (P:=k0 ∈ k0 :: r)) by left. rewrite ?lookup_delete, E0. destruct (decide (k0 ∈ r)); auto.
        -- rewrite !lookup_delete_ne by congruence. destruct (decide (k ∈ r)) as [Hin|Hin].
           ++ rewrite !decide_True by (right; exact Hin). auto.
           ++ rewrite !decide_False by (intros Hx; apply elem_of_cons in Hx; tauto). auto.
    + rewrite eval_bind, ev_ret. destruct (IH d e h n b m t) as (d' & e' & Ev & Hs).
      exists d', e'. split; [exact Ev|]. intros k. destruct (Hs k) as [A B]. rewrite A, B.
      destruct (decide (k = k0)) as [->|Hk].
      * rewrite E0, (decide_True (P:=k0 ∈ k0 :: r)) by left. rewrite (decide_True (P:=k0 ∈ k0 :: r)) by left.
        destruct (decide (k0 ∈ r)), (zero_time <? t); auto.
      * destruct (decide (k ∈ r)) as [Hin|Hin].
        -- rewrite !decide_True by (right; exact Hin). auto.
        -- rewrite !decide_False by (intros Hx; apply elem_of_cons in Hx; tauto). auto.
Qed.

Lemma in_fst_map (d : gmap gostr gval) k : k ∈ map fst (map_to_list d) <-> is_Some (d !! k).
Proof.
  split.
  - intros H. apply elem_of_list_fmap in H as [[k' v] [-> H]]. apply elem_of_map_to_list in H. eauto.
  - intros [v H]. apply elem_of_list_fmap. exists (k, v). split; [reflexivity|]. apply elem_of_map_to_list, H.
Qed.

Lemma wf_sub d d' h n : (forall k v, d' !! k = Some v -> d !! k = Some v) -> wf d h n -> wf d' h n.
Proof. intros S [H1 H2 H3 H4]. split; eauto. Qed.

(** ** The whole refinement *)
Theorem refine c t w : ready w ->
  match abs c t (view w) with
  | Some (V', r) => exists w', run_call t c w = Done w' r /\ ready w' /\ veq (view w') V'
  | None => run_call t c w = EPanic
  end.
Proof.
  intros Hr. apply ready_iff in Hr as (d & e & h & n & t0 & -> & HW).
  unfold run_call. change (set_now (wst d e h n t0) t) with (wst d e h n t).
  assert (Ev : veq (view (wst d e h n t0)) (view (wst d e h n t))) by (intros k; reflexivity).
  pose proof (abs_ext c t _ _ Ev) as Hext. clear Ev.
  destruct (single_cases c) as [[k Hk]|Hc].
  - pose proof (sk_single c k Hk d e h n t HW) as Hs.
    rewrite (abs_single c k t _ Hk). rewrite view_W.
    destruct (abs1 c t (cellat d h k, e !! k)) as [[x r]|]; [|exact Hs].
    destruct Hs as (d' & e' & h' & n' & Ev & HW' & Hx & Ho).
    exists (wst d' e' h' n' t). split; [exact Ev|]. split; [apply ready_iff; eauto 10|].
    intros k'. rewrite view_W. destruct (decide (k' = k)) as [->|Hne].
    + rewrite upd_eq. exact Hx.
    + rewrite upd_ne by auto. destruct (Ho k' Hne) as [-> ->]. reflexivity.
  - destruct c; try destruct Hc; cbn [abs call_prog] in *; unfold pmap.
    + unfold m_mset. rewrite !eval_bind. destruct (mset_follows kv d e h n t HW) as (d' & Ev & HW' & Hv).
      rewrite Ev. eexists. split; [reflexivity|]. split; [apply ready_iff; eauto 10|]. exact Hv.
    + rewrite eval_bind. destruct (msetnx_follows kv 0 d e h n t HW) as (d' & Ev & HW' & Hv). unfold m_msetnx. rewrite Ev.
      change (view (wst d e h n t0)) with (view (wst d e h n t)).
      destruct (a_msetnx kv 0 (view (wst d e h n t))) as [V' c']. cbn [fst snd] in *.
      eexists. split; [reflexivity|]. split; [apply ready_iff; eauto 10|]. exact Hv.
    + rewrite eval_bind. destruct (mget_follows ks d e h n t HW) as (d' & e' & Ev & HW' & Hv). unfold m_mget. rewrite Ev.
      change (view (wst d e h n t0)) with (view (wst d e h n t)).
      destruct (a_mget t ks (view (wst d e h n t))) as [V' c']. cbn [fst snd] in *.
      eexists. split; [reflexivity|]. split; [apply ready_iff; eauto 10|]. exact Hv.
    + unfold m_flush, locked. crew. eexists. split; [reflexivity|]. split.
      * apply ready_iff. exists ∅, ∅, h, n, t. split; [reflexivity|]. apply wf_empty; apply HW.
      * intros k. rewrite view_W, lookup_empty. unfold cellat. rewrite lookup_empty. reflexivity.
    + rewrite eval_bind. unfold m_exists. rewrite exists_follows.
      eexists. split; [reflexivity|]. split; [apply ready_iff; eauto 10|]. exact (fun _ => eq_refl).
    + unfold m_cron_tick, locked. crew.
      destruct (cron_loop_ev (map fst (map_to_list d)) d e h n true 0 t) as (d' & e' & Ev & Hs). rewrite Ev. crew.
      eexists. split; [reflexivity|].
      assert (HW' : wf d' h n).
      { eapply wf_sub; [|exact HW]. intros k v. destruct (Hs k) as [-> _]. destruct (decide _); [|auto]. destruct (_ <? _); [discriminate|auto]. }
      split; [apply ready_iff; eauto 10|].
      intros k. rewrite view_W. unfold a_cron. rewrite view_W. cbn [fst].
      destruct (Hs k) as [A B]. rewrite B. unfold cellat. rewrite A.
      destruct (d !! k) as [v|] eqn:Ed.
      * rewrite !decide_True by (apply in_fst_map; eauto). destruct (zero_time <? t); reflexivity.
      * rewrite !decide_False by (rewrite in_fst_map, Ed; intros [? ?]; discriminate). reflexivity.
Qed.

(** ** Consequences *)
Lemma run_inv c t w w' r : ready w -> run_call t c w = Done w' r ->
  exists V', abs c t (view w) = Some (V', r) /\ ready w' /\ veq (view w') V'.
Proof.
  intros Hr E. pose proof (refine c t w Hr) as H. destruct (abs c t (view w)) as [[V' r']|].
  - destruct H as (w2 & E2 & Hr2 & Hv). rewrite E2 in E. injection E as <- <-. eauto.
  - congruence.
Qed.
Lemma run_intro c t w V' r : ready w -> abs c t (view w) = Some (V', r) ->
  exists w', run_call t c w = Done w' r /\ ready w' /\ veq (view w') V'.
Proof. intros Hr E. pose proof (refine c t w Hr) as H. rewrite E in H. exact H. Qed.
Lemma run_panic c t w : ready w -> abs c t (view w) = None -> run_call t c w = EPanic.
Proof. intros Hr E. pose proof (refine c t w Hr) as H. rewrite E in H. exact H. Qed.

Lemma ready_run c t w w' r : ready w -> run_call t c w = Done w' r -> ready w'.
Proof. intros Hr E. destruct (run_inv _ _ _ _ _ Hr E) as (? & _ & ? & _). auto. Qed.
Lemma ready_hist h : forall w w' rs, ready w -> run_hist h w = Done w' rs -> ready w'.
Proof.
  induction h as [|[t c] h IH]; intros w w' rs Hr; simpl; [intros E; injection E as <- <-; auto|].
  destruct (run_call t c w) as [w1 x| |] eqn:E1; [|discriminate|discriminate].
  destruct (run_hist h w1) as [w2 xs| |] eqn:E2; [|discriminate|discriminate].
  intros E; injection E as <- <-. eapply IH; [|exact E2]. eapply ready_run; eauto.
Qed.
Lemma ready_new t : ready (new_world t).
Proof.
  apply ready_iff. exists ∅, ∅, ∅, 1%positive, t. split; [reflexivity|]. apply wf_empty; intros *; rewrite lookup_empty.
  - intros [? ?]; discriminate.
  - discriminate.
Qed.
Lemma ready_reachable w : reachable w -> ready w.
Proof. intros (t0 & h & rs & E). eapply ready_hist; [apply ready_new|exact E]. Qed.

Lemma indist_of_view w1 w2 : ready w1 -> ready w2 -> veq (view w1) (view w2) -> indist w1 w2.
Proof.
  intros R1 R2 Hv h. unfold replies. revert w1 w2 R1 R2 Hv.
  induction h as [|[t c] h IH]; intros w1 w2 R1 R2 Hv; [reflexivity|]. simpl.
  pose proof (refine c t w1 R1) as H1. pose proof (refine c t w2 R2) as H2.
  pose proof (abs_ext c t _ _ Hv) as Hx.
  destruct (abs c t (view w1)) as [[V1 r1]|], (abs c t (view w2)) as [[V2 r2]|]; try destruct Hx.
  - destruct H1 as (a & -> & Ra & Va), H2 as (b & -> & Rb & Vb).
    assert (Hab : veq (view a) (view b)) by (intros k; rewrite Va, Vb; auto).
    specialize (IH a b Ra Rb Hab). destruct (run_hist h a), (run_hist h b); congruence.
  - rewrite H1, H2. reflexivity.
Qed.
Lemma answer_eq c t w : ready w -> answer t c w = match abs c t (view w) with Some (_, r) => Some r | None => None end.
Proof.
  intros Hr. unfold answer. pose proof (refine c t w Hr) as H. destruct (abs c t (view w)) as [[V r]|].
  - destruct H as (w' & -> & _). reflexivity.
  - rewrite H. reflexivity.
Qed.
