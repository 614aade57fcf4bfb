(** * Props_Multi: MSet, MSetNX, MGet (single caller) *)
From Verif Require Import Base GoFloat CacheModel CacheSpec.
From Verif Require Import CacheAbs CacheRefine CacheRefineH CacheMain CacheLib Props_String.

(** ** C21 *)
Lemma a_mset_at kv : forall V k v, NoDup (map fst kv) -> (k, v) ∈ kv -> a_mset kv V k = put v (V k).
Proof.
  induction kv as [|[k0 v0] r IH]; intros V k v Hnd Hin; [inversion Hin|]. cbn [map fst] in Hnd.
  inversion_clear Hnd as [|? ? Hn Hnd']. cbn [a_mset]. apply elem_of_cons in Hin as [E|Hin].
  - injection E as -> ->. rewrite a_mset_ne, upd_eq; [reflexivity|]. rewrite elem_of_list_In in Hn. exact Hn.
  - rewrite (IH _ k v) by auto. rewrite upd_ne; [reflexivity|]. intros ->. apply Hn.
    apply elem_of_list_fmap. exists (k0, v). auto.
Qed.
Lemma key_dec (kv : list (gostr * gostr)) k : (exists v, (k, v) ∈ kv) \/ ~ In k (map fst kv).
Proof.
  destruct (in_dec (fun a b : gostr => decide (a = b)) k (map fst kv)) as [H|H]; [left|right; exact H].
  apply in_map_iff in H as ([k' v] & <- & H). exists v. apply elem_of_list_In. exact H.
Qed.
Lemma a_mset_perm kv kv' V : NoDup (map fst kv) -> kv ≡ₚ kv' -> veq (a_mset kv V) (a_mset kv' V).
Proof.
  intros Hnd Hp k.
  assert (Hnd' : NoDup (map fst kv')) by (rewrite <- Hp; exact Hnd).
  destruct (key_dec kv k) as [[v Hv]|Hn].
  - rewrite (a_mset_at kv V k v), (a_mset_at kv' V k v); auto. rewrite <- Hp. exact Hv.
  - rewrite !a_mset_ne; auto. rewrite <- Hp. exact Hn.
Qed.
(** A Go map has distinct keys; [kv] and [kv'] are two orders in which the runtime may visit it. *)
Theorem C21_mset_any_order w t kv kv' :
  ready w -> NoDup (map fst kv) -> kv ≡ₚ kv' ->
  exists w1 w2, run_call t (CMSet kv) w = Done w1 (RStr (bs "OK", None)) /\
                run_call t (CMSet kv') w = Done w2 (RStr (bs "OK", None)) /\ indist w1 w2.
Proof.
  intros Hr Hnd Hp.
  destruct (run_intro (CMSet kv) t w _ _ Hr eq_refl) as (w1 & E1 & Hr1 & Hv1).
  destruct (run_intro (CMSet kv') t w _ _ Hr eq_refl) as (w2 & E2 & Hr2 & Hv2).
  exists w1, w2. split; [exact E1|]. split; [exact E2|]. apply indist_of_view; auto.
  intros k. rewrite Hv1, Hv2. apply a_mset_perm; auto.
Qed.
Theorem C21_mset_is_sets w t kv w1 r :
  ready w -> run_call t (CMSet kv) w = Done w1 r ->
  exists w2 rs, run_hist (map (fun p => (t, CSet (fst p) (snd p))) kv) w = Done w2 rs /\ indist w1 w2.
Proof.
  intros Hr E. destruct (run_inv _ _ _ _ _ Hr E) as (V' & Ha & Hr1 & Hv1). injection Ha as <- _. clear E.
  assert (G : forall kv w V, ready w -> veq (view w) V -> exists w2 rs, 
    run_hist (map (fun p => (t, CSet (fst p) (snd p))) kv) w = Done w2 rs /\ ready w2 /\ veq (view w2) (a_mset kv V)).
  { clear. induction kv as [|[k v] kv IH]; intros w V Hr Hv; [exists w, []; auto|]. cbn [map fst snd run_hist a_mset].
    destruct (run_intro (CSet k v) t w _ _ Hr eq_refl) as (wa & Ea & Hra & Hva). rewrite Ea.
    destruct (IH wa (upd V k (put v (V k))) Hra) as (w2 & rs & E2 & Hr2 & Hv2).
    { intros k'. rewrite Hva. rewrite (Hv k). apply upd_ext, Hv. }
    rewrite E2. eauto. }
  destruct (G kv w (view w) Hr (fun _ => eq_refl)) as (w2 & rs & E2 & Hr2 & Hv2).
  exists w2, rs. split; [exact E2|]. apply indist_of_view; auto. intros k. rewrite Hv1, Hv2. reflexivity.
Qed.
Theorem C21_mset_effect w t kv w1 r :
  ready w -> NoDup (map fst kv) -> run_call t (CMSet kv) w = Done w1 r ->
  (forall k v t', (k, v) ∈ kv -> ~ past w k t' -> answer t' (CGet k) w1 = ok_str (text v)) /\
  (forall k h, k ∉ map fst kv -> all_calls (fun _ c => only_names c k) h -> replies h w1 = replies h w).
Proof.
  intros Hr Hnd E. destruct (run_inv _ _ _ _ _ Hr E) as (V' & Ha & Hr1 & Hv1). injection Ha as <- _. split.
  - intros k v t' Hin Hp. rewrite (answer_single _ k) by auto. cbn [abs1]. rewrite Hv1, (a_mset_at kv _ k v) by auto.
    assert (Hpp : purge t' (put v (view w k)) = put v (view w k)).
    { unfold put, past in *. rewrite view_dl by auto. destruct (deadline w k) as [dl|]; [|reflexivity].
      simpl. destruct (Z.ltb_spec dl t'); [|reflexivity]. exfalso. apply Hp. exists dl. split; [reflexivity|lia]. }
    rewrite Hpp. cbn [put fst]. unfold fmt_cret. cbn [fmt_cell]. rewrite fmt_try. reflexivity.
  - intros k h Hn Hall. eapply local_replies; eauto. rewrite Hv1, a_mset_ne; [reflexivity|].
    rewrite elem_of_list_In in Hn. exact Hn.
Qed.
Example C21_nonvacuous : NoDup (map fst [(bs "a", bs "1"); (bs "zz", bs "x")]) /\
  replies [(9, CMSet [(bs "a", bs "1"); (bs "zz", bs "x")]); (9, CMGet [bs "zz"; bs "a"; bs "n"])] demo =
  Some [RStr (bs "OK", None); RSlots ([SlotStr (bs "x"); SlotStr (bs "1"); SlotStr (bs "41")], None)].
Proof.
  split; [|vm_compute; reflexivity]. repeat constructor; cbn; rewrite ?elem_of_cons, ?elem_of_nil; [|tauto].
  intros [H|[]]. discriminate.
Qed.

(** ** C22 *)
Theorem C22_msetnx_not_atomic_refuted :
  exists k1 k2 v, replies [(1, CSet k1 v); (2, CMSetNX [(k1, v); (k2, v)]); (3, CGet k2)] (new_world 0) =
    Some [RStr (bs "OK", None); RInt (1, None); RStr (v, None)].
Proof. exists (bs "a"), (bs "b"), (bs "x"). vm_compute. reflexivity. Qed.
(** Full statement: for every map.  Proved: it stores all when none is stored, none when all are stored. *)

(** ** C23 *)
Lemma a_msetnx_spec kv : forall n V, NoDup (map fst kv) ->
  snd (a_msetnx kv n V) = n + zlen (filter (fun p => fst (V (fst p)) = None) kv) /\
  (forall k v, (k, v) ∈ kv -> fst (a_msetnx kv n V) k = match fst (V k) with None => put v (V k) | Some _ => V k end).
Proof.
  induction kv as [|[k0 v0] r IH]; intros n V Hnd; [split; [unfold zlen; simpl; lia|intros k v Hin; inversion Hin]|].
  cbn [map fst] in Hnd. inversion_clear Hnd as [|? ? Hn Hnd']. cbn [a_msetnx].
  assert (Hni : ~ In k0 (map fst r)) by (rewrite elem_of_list_In in Hn; exact Hn).
  destruct (fst (V k0)) as [c|] eqn:E0.
  - destruct (IH n V Hnd') as [H1 H2]. split.
    + rewrite H1, filter_cons_False; [reflexivity|]. cbn [fst]. congruence.
    + intros k v Hin. apply elem_of_cons in Hin as [E|Hin]; [|auto].
      injection E as -> ->. rewrite a_msetnx_ne by exact Hni. rewrite E0. reflexivity.
  - destruct (IH (n + 1) (upd V k0 (put v0 (V k0))) Hnd') as [H1 H2]. split.
    + rewrite H1, filter_cons_True by exact E0. rewrite zlen_cons.
      assert (Hf : filter (fun p : gostr * gostr => fst (upd V k0 (put v0 (V k0)) (fst p)) = None) r = filter (fun p => fst (V (fst p)) = None) r).
      { apply list_filter_iff_In. intros [k v] Hin. cbn [fst]. rewrite upd_ne; [tauto|].
        intros ->. apply Hni, in_map_iff. exists (k0, v). auto. }
      rewrite Hf. lia.
    + intros k v Hin. apply elem_of_cons in Hin as [E|Hin].
      * injection E as -> ->. rewrite a_msetnx_ne by exact Hni. rewrite upd_eq, E0. reflexivity.
      * rewrite (H2 k v Hin). rewrite upd_ne; [reflexivity|]. intros ->. apply Hn.
        apply elem_of_list_fmap. exists (k0, v). auto.
Qed.
Theorem C23_msetnx w t kv w1 r :
  ready w -> NoDup (map fst kv) -> run_call t (CMSetNX kv) w = Done w1 r ->
  r = RInt (zlen (filter (fun p => stored w (fst p) = None) kv), None) /\
  (forall k v t', (k, v) ∈ kv -> stored w k = None -> ~ past w k t' -> answer t' (CGet k) w1 = ok_str (text v)) /\
  (forall k h, k ∉ map fst kv \/ is_Some (stored w k) -> all_calls (fun _ c => only_names c k) h ->
               replies h w1 = replies h w).
Proof.
  intros Hr Hnd E. destruct (run_inv _ _ _ _ _ Hr E) as (V' & Ha & Hr1 & Hv1). cbn [abs] in Ha.
  destruct (a_msetnx_spec kv 0 (view w) Hnd) as [H1 H2].
  destruct (a_msetnx kv 0 (view w)) as [V1 n] eqn:Em. injection Ha as <- <-. cbn [fst snd] in *.
  assert (Hnone : forall k, fst (view w k) = None <-> stored w k = None).
  { intros k. pose proof (view_stored w k Hr) as Hs. split; [intros Hn; rewrite Hn in Hs; exact Hs|].
    intros Hn. apply view_none; auto. }
  split; [|split].
  - rewrite H1. unfold noerr. do 3 f_equal. rewrite Z.add_0_l. f_equal.
    apply list_filter_iff_In. intros [k v] _. apply Hnone.
  - intros k v t' Hin Hs Hp. rewrite (answer_single _ k) by auto. cbn [abs1]. rewrite Hv1, (H2 k v Hin).
    apply Hnone in Hs. rewrite Hs.
    assert (Hpp : purge t' (put v (view w k)) = put v (view w k)).
    { unfold put, past in *. rewrite view_dl by auto. destruct (deadline w k) as [dl|]; [|reflexivity].
      simpl. destruct (Z.ltb_spec dl t'); [|reflexivity]. exfalso. apply Hp. exists dl. split; [reflexivity|lia]. }
    rewrite Hpp. cbn [put fst]. unfold fmt_cret. cbn [fmt_cell]. rewrite fmt_try. reflexivity.
  - intros k h Hk Hall. eapply local_replies; eauto. rewrite Hv1.
    destruct (key_dec kv k) as [[v Hin]|Hn].
    + rewrite (H2 k v Hin). destruct Hk as [Hk|[x Hx]].
      * exfalso. apply Hk, elem_of_list_fmap. exists (k, v). auto.
      * destruct (fst (view w k)) eqn:E0; [reflexivity|]. apply Hnone in E0. congruence.
    + change V1 with (fst (V1, n)). rewrite <- Em. apply a_msetnx_ne, Hn.
Qed.
Theorem C22_msetnx_partial w t kv w1 r :
  ready w -> NoDup (map fst kv) -> run_call t (CMSetNX kv) w = Done w1 r ->
  ((forall k, k ∈ map fst kv -> stored w k = None) ->
     r = RInt (zlen kv, None) /\ forall k v t', (k, v) ∈ kv -> ~ past w k t' -> answer t' (CGet k) w1 = ok_str (text v)) /\
  ((forall k, k ∈ map fst kv -> is_Some (stored w k)) -> r = RInt (0, None) /\ indist w1 w).
Proof.
  intros Hr Hnd E. destruct (C23_msetnx w t kv w1 r Hr Hnd E) as (H1 & H2 & H3). split.
  - intros Ha. split.
    + rewrite H1. do 3 f_equal. rewrite list_filter_all; [reflexivity|]. intros [k v] Hin. apply Ha.
      apply elem_of_list_fmap. exists (k, v). split; [reflexivity|]. apply elem_of_list_In, Hin.
    + intros k v t' Hin. apply H2; [exact Hin|]. apply Ha, elem_of_list_fmap. exists (k, v). auto.
  - intros Ha. split.
    + rewrite H1. rewrite list_filter_none; [reflexivity|]. intros [k v] Hin Hs. cbn [fst] in Hs.
      destruct (Ha k) as [x Hx]; [|congruence]. apply elem_of_list_fmap. exists (k, v). split; [reflexivity|]. apply elem_of_list_In, Hin.
    + destruct (run_inv _ _ _ _ _ Hr E) as (V' & Hab & Hr1 & Hv1). cbn [abs] in Hab.
      destruct (a_msetnx_spec kv 0 (view w) Hnd) as [_ G2].
      destruct (a_msetnx kv 0 (view w)) as [V1 n] eqn:Em. injection Hab as <- _.
      apply indist_of_view; auto. intros k. rewrite Hv1. destruct (key_dec kv k) as [[v Hin]|Hn].
      * cbn [fst] in G2. rewrite (G2 k v Hin). destruct (fst (view w k)) eqn:E0; [reflexivity|].
        pose proof (view_stored w k Hr) as Hs. rewrite E0 in Hs. destruct (Ha k) as [x Hx]; [|congruence].
        apply elem_of_list_fmap. exists (k, v). auto.
      * change V1 with (fst (V1, n)). rewrite <- Em. apply a_msetnx_ne, Hn.
Qed.
Theorem C23_msetnx_any_order w t kv kv' w1 r w1' r' :
  ready w -> NoDup (map fst kv) -> kv ≡ₚ kv' ->
  run_call t (CMSetNX kv) w = Done w1 r -> run_call t (CMSetNX kv') w = Done w1' r' -> r = r' /\ indist w1 w1'.
Proof.
  intros Hr Hnd Hp E E'. assert (Hnd' : NoDup (map fst kv')) by (rewrite <- Hp; exact Hnd).
  destruct (C23_msetnx w t kv w1 r Hr Hnd E) as (-> & _). destruct (C23_msetnx w t kv' w1' r' Hr Hnd' E') as (-> & _).
  split; [unfold zlen; rewrite Hp; reflexivity|].
  destruct (run_inv _ _ _ _ _ Hr E) as (V & Ha & Hr1 & Hv). destruct (run_inv _ _ _ _ _ Hr E') as (V' & Ha' & Hr1' & Hv'). cbn [abs] in Ha, Ha'.
  destruct (a_msetnx_spec kv 0 (view w) Hnd) as [_ G]. destruct (a_msetnx_spec kv' 0 (view w) Hnd') as [_ G'].
  pose proof (fun k => a_msetnx_ne kv 0 (view w) k) as N. pose proof (fun k => a_msetnx_ne kv' 0 (view w) k) as N'.
  destruct (a_msetnx kv 0 (view w)) as [V1 n], (a_msetnx kv' 0 (view w)) as [V1' n']. injection Ha as <- _. injection Ha' as <- _.
  apply indist_of_view; auto. intros k. rewrite Hv, Hv'. cbn [fst] in *. destruct (key_dec kv k) as [[v Hin]|Hn].
  - rewrite (G k v Hin), (G' k v); [reflexivity|]. rewrite <- Hp. exact Hin.
  - rewrite N, N'; auto. rewrite <- Hp. exact Hn.
Qed.
Example C23_nonvacuous :
  replies [(9, CMSetNX [(bs "a", bs "1"); (bs "zz", bs "x"); (bs "yy", bs "y")]); (9, CMGet [bs "zz"; bs "a"; bs "yy"])] demo =
  Some [RInt (2, None); RSlots ([SlotStr (bs "x"); SlotStr (bs "hello"); SlotStr (bs "y")], None)].
Proof. vm_compute. reflexivity. Qed.

(** ** C24 *)
(** The slot MGet should give for a key, from what Get answers. *)
Definition slot_of_get (t : Z) (w : world) (k : gostr) : option slot :=
  match answer t (CGet k) w with
  | Some (RStr (s, None)) => Some (SlotStr s)
  | Some (RStr (_, Some e)) => Some (SlotErr e)
  | _ => None
  end.
Lemma purge_purge t v : purge t (purge t v) = purge t v.
Proof. destruct v as [[c|] [dl|]]; try reflexivity. simpl. destruct (dl <? t) eqn:E; [reflexivity|]. simpl. rewrite E. reflexivity. Qed.
Lemma a_mget_slots t ks : forall V, snd (a_mget t ks V) = map (fun k => slot_cell (fst (purge t (V k)))) ks.
Proof.
  induction ks as [|k r IH]; intros V; [reflexivity|]. cbn [a_mget]. specialize (IH (upd V k (purge t (V k)))).
  destruct (a_mget t r _) as [V' l]. cbn [snd map] in *. f_equal. rewrite IH. apply map_ext. intros k'.
  unfold upd. destruct (decide (k' = k)) as [->|]; [rewrite purge_purge|]; reflexivity.
Qed.
Theorem C24_mget w t ks :
  ready w -> exists slots, answer t (CMGet ks) w = Some (RSlots (slots, None)) /\ map Some slots = map (slot_of_get t w) ks.
Proof.
  intros Hr. rewrite answer_eq by auto. cbn [abs]. pose proof (a_mget_slots t ks (view w)) as Hs.
  destruct (a_mget t ks (view w)) as [V' l]. cbn [snd] in Hs. exists l. split; [reflexivity|]. subst l. rewrite map_map.
  apply map_ext. intros k. unfold slot_of_get. rewrite (answer_single _ k) by auto. cbn [abs1].
  unfold slot_cell, fmt_cret. destruct (fst (purge t (view w k))) as [c|]; [|reflexivity]. destruct (fmt_cell c); reflexivity.
Qed.
(** ... and the cache is left as after the Gets. *)
Theorem C24_mget_effect w t ks w1 r :
  ready w -> run_call t (CMGet ks) w = Done w1 r ->
  exists w2 rs, run_hist (map (fun k => (t, CGet k)) ks) w = Done w2 rs /\ indist w1 w2.
Proof.
  intros Hr E. destruct (run_inv _ _ _ _ _ Hr E) as (V' & Ha & Hr1 & Hv1). cbn [abs] in Ha.
  assert (HV : V' = fst (a_mget t ks (view w))) by (destruct (a_mget t ks (view w)); injection Ha as <- _; reflexivity). subst V'. clear E Ha.
  assert (G : forall ks w V, ready w -> veq (view w) V -> exists w2 rs, 
    run_hist (map (fun k => (t, CGet k)) ks) w = Done w2 rs /\ ready w2 /\ veq (view w2) (fst (a_mget t ks V))).
  { clear. induction ks as [|k ks IH]; intros w V Hr Hv; [exists w, []; auto|]. cbn [map run_hist a_mget].
    destruct (run_intro (CGet k) t w _ _ Hr eq_refl) as (wa & Ea & Hra & Hva). rewrite Ea.
    destruct (IH wa (upd V k (purge t (V k))) Hra) as (w2 & rs & E2 & Hr2 & Hv2).
    { intros k'. rewrite Hva. rewrite (Hv k). apply upd_ext, Hv. }
    rewrite E2. destruct (a_mget t ks _) as [V2 l]. cbn [fst] in *. eauto. }
  destruct (G ks w (view w) Hr (fun _ => eq_refl)) as (w2 & rs & E2 & Hr2 & Hv2).
  exists w2, rs. split; [exact E2|]. apply indist_of_view; auto. intros k. rewrite Hv1, Hv2. reflexivity.
Qed.
Example C24_nonvacuous : answer 9 (CMGet [bs "a"; bs "h"; bs "none"; bs "a"]) demo =
  Some (RSlots ([SlotStr (bs "hello"); SlotErr ErrWrongType; SlotErr ErrKeyNil; SlotStr (bs "hello")], None)).
Proof. vm_compute. reflexivity. Qed.

Print Assumptions C21_mset_any_order.
Print Assumptions C23_msetnx.
Print Assumptions C24_mget.
