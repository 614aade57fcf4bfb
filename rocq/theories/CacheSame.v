(** * CacheSame: caches with the same contents, whatever the addresses of their hashes *)
From stdpp Require Import gmap list.
From Verif Require Import Base GoFloat CacheModel CacheSpec CacheAbs CacheConc CacheRange CacheSim.

(** the addresses of the hashes that are yet to be made *)
Definition after (p : positive) (i : nat) : positive := Nat.iter i Pos.succ p.
Lemma after_nat p i : Pos.to_nat (after p i) = (Pos.to_nat p + i)%nat.
Proof. induction i as [|i IH]; [cbn; lia|]. change (after p (S i)) with (Pos.succ (after p i)). rewrite Pos2Nat.inj_succ, IH. lia. Qed.
Lemma after_succ p i : after (Pos.succ p) i = after p (S i).
Proof. apply Pos2Nat.inj. rewrite !after_nat. lia. Qed.
Section same.
(** which address of the one cache stands for which address of the other *)
Context (link : positive -> positive -> Prop).
Context (link_fun : forall l a b, link l a -> link l b -> a = b) (link_inj : forall a b l, link a l -> link b l -> a = b).
Definition same_val (v v' : gval) : Prop := match v, v' with VHash l, VHash l' => link l l' | VHash _, _ | _, VHash _ => False | _, _ => v' = v end.
Definition same_opt (o o' : option gval) : Prop := match o, o' with Some v, Some v' => same_val v v' | None, None => True | _, _ => False end.
Definition same_dict (d d' : option (gmap gostr gval)) : Prop :=
  match d, d' with Some d, Some d' => forall k, same_opt (d !! k) (d' !! k) | None, None => True | _, _ => False end.
Record R (w w' : world) : Prop := Same {
  r_data : same_dict (w_data w) (w_data w');
  r_exp : w_exp w' = w_exp w;
  r_heap : forall l l', link l l' -> w_heap w' !! l' = w_heap w !! l;
  r_next : forall i, link (after (w_next w) i) (after (w_next w') i);
  r_writer : w_writer w' = w_writer w;
  r_readers : w_readers w' = w_readers w;
  r_now : w_now w' = w_now w }.
Notation "p ~~ q" := (sim R eq p q) (at level 80).
Lemma same_scalar v : scalar v -> same_val v v. Proof. destruct v; cbn; auto; contradiction. Qed.
Lemma try_scalar s : scalar (try_int64 s). Proof. unfold try_int64. destruct (atoi s); [exact I|]. destruct (parse_float s); exact I. Qed.
Lemma s_ret {A : Type} (a : A) : Ret a ~~ Ret a. Proof. reflexivity. Qed.
Ltac rw := intros w w' HR; destruct HR as [H1 H2 H3 H4 H5 H6 H7]; cbn; rewrite ?H2, ?H5, ?H6, ?H7.
Ltac dct := match goal with H : same_dict (w_data ?w) (w_data ?w') |- _ => destruct (w_data w) as [dd|] eqn:?, (w_data w') as [dd'|] eqn:?; cbn in H |- *; try contradiction; [|exact I] end.
Lemma s_lock : p_lock ~~ p_lock. Proof. apply sim_atom. rw. destruct (w_writer w || _); [exact I|]. repeat split; auto. Qed.
Lemma s_unlock : p_unlock ~~ p_unlock. Proof. apply sim_atom. rw. destruct (w_writer w); [|exact I]. repeat split; auto. Qed.
Lemma s_rlock : p_rlock ~~ p_rlock. Proof. apply sim_atom. rw. destruct (w_writer w); [exact I|]. repeat split; cbn; auto. Qed.
Lemma s_runlock : p_runlock ~~ p_runlock. Proof. apply sim_atom. rw. destruct (w_readers w); [exact I|]. repeat split; auto. Qed.
Lemma s_now : p_now ~~ p_now. Proof. apply sim_atom. rw. repeat split; auto. Qed.
Lemma s_load k : sim R same_opt (data_load k) (data_load k).
Proof. apply sim_atom. rw. dct. split; [|apply H1]. split; cbn; auto; try (rewrite Heqo, Heqo0; exact H1). Qed.
Lemma same_insert (d d' : gmap gostr gval) k v v' : (forall k, same_opt (d !! k) (d' !! k)) -> same_val v v' -> forall k', same_opt (<[k := v]> d !! k') (<[k := v']> d' !! k').
Proof. intros H Hv k'. destruct (decide (k' = k)) as [->|Hne]; [rewrite !lookup_insert; exact Hv|rewrite !lookup_insert_ne by auto; apply H]. Qed.
Lemma s_store k v v' : same_val v v' -> data_store k v ~~ data_store k v'.
Proof. intros Hv. apply sim_atom. rw. dct. split; [|reflexivity]. split; cbn; auto. apply same_insert; auto. Qed.
Lemma s_delete k : data_delete k ~~ data_delete k.
Proof.
  apply sim_atom. rw. dct. split; [|reflexivity]. split; cbn; auto. intros k'. destruct (decide (k' = k)) as [->|Hne]; [rewrite !lookup_delete; exact I|rewrite !lookup_delete_ne by auto; apply H1].
Qed.
Lemma s_los k v : scalar v -> sim R (fun x x' => same_val (fst x) (fst x') /\ snd x' = snd x) (data_load_or_store k v) (data_load_or_store k v).
Proof.
  intros Hv. apply sim_atom. rw. dct. pose proof (H1 k) as Hk. destruct (dd !! k), (dd' !! k); try contradiction.
  - split; [|auto]. split; cbn; auto. rewrite Heqo, Heqo0. exact H1.
  - split; [|split; [apply same_scalar, Hv|reflexivity]]. split; cbn; auto. apply same_insert; auto. apply same_scalar, Hv.
Qed.
Lemma s_eload k : exp_load k ~~ exp_load k. Proof. apply sim_atom. rw. destruct (w_exp w) eqn:?; [|exact I]. (split; [|reflexivity]). (split; cbn; auto; congruence). Qed.
Lemma s_estore k t : exp_store k t ~~ exp_store k t. Proof. apply sim_atom. rw. destruct (w_exp w) eqn:?; [|exact I]. (split; [|reflexivity]). (split; cbn; auto; congruence). Qed.
Lemma s_edelete k : exp_delete k ~~ exp_delete k. Proof. apply sim_atom. rw. destruct (w_exp w) eqn:?; [|exact I]. (split; [|reflexivity]). (split; cbn; auto; congruence). Qed.
Lemma s_dreset : data_reset ~~ data_reset. Proof. apply sim_atom. rw. split; [|reflexivity]. split; cbn; auto. intros k. rewrite !lookup_empty. exact I. Qed.
Lemma s_ereset : exp_reset ~~ exp_reset. Proof. apply sim_atom. rw. repeat split; auto. Qed.
Lemma heap_insert w w' l l' (o : hobj) : (forall l l', link l l' -> w_heap w' !! l' = w_heap w !! l) -> link l l' ->
  forall m m', link m m' -> <[l' := o]> (w_heap w') !! m' = <[l := o]> (w_heap w) !! m.
Proof.
  intros H Hl m m' Hm. destruct (decide (m = l)) as [->|Hne].
  - assert (m' = l') as -> by eauto. rewrite !lookup_insert. reflexivity.
  - rewrite !lookup_insert_ne; [auto|auto|]. intros ->. apply Hne. eauto.
Qed.
Lemma s_alloc : sim R link h_alloc h_alloc.
Proof.
  apply sim_atom. rw. split; [|apply (H4 O)]. split; cbn; auto.
  - apply heap_insert; [exact H3|apply (H4 O)].
  - intros i. rewrite !after_succ. apply H4.
Qed.
Lemma s_hatom {A : Type} l l' (f : hobj -> hobj * A) : link l l' -> h_atom l f ~~ h_atom l' f.
Proof.
  intros Hl. apply sim_atom. rw. rewrite (H3 _ _ Hl). destruct (w_heap w !! l) as [o|]; [|exact I]. destruct (f o) as [o1 a]. split; [|reflexivity]. split; cbn; auto. apply heap_insert; auto.
Qed.
Lemma s_bind {A B : Type} (p p' : prog A) (k k' : A -> prog B) : p ~~ p' -> (forall a, k a ~~ k' a) -> pbind p k ~~ pbind p' k'.
Proof. intros H Hk. eapply sim_bind; [|exact H]. intros a b <-. apply Hk. Qed.
Lemma s_storet k s : data_store k (try_int64 s) ~~ data_store k (try_int64 s). Proof. apply s_store, same_scalar, try_scalar. Qed.
Create HintDb same.
Hint Resolve s_ret s_lock s_unlock s_rlock s_runlock s_now s_storet s_delete s_eload s_estore s_edelete s_dreset s_ereset : same.
Ltac st := repeat first [apply sim_panic | solve [eauto with same nocore] | apply s_bind; [|intros ?] | match goal with |- context [match ?x with _ => _ end] => destruct x end].
Lemma s_expired k : expired k ~~ expired k. Proof. unfold expired. st. Qed.
Lemma s_expires k n : expires k n ~~ expires k n. Proof. unfold expires. st. Qed.
Hint Resolve s_expired s_expires : same.
Lemma s_get k : sim R same_opt (c_get k) (c_get k).
Proof.
  unfold c_get. eapply sim_bind; [|apply s_load]. intros [x|] [x'|] Hx; try contradiction; [|exact I]. eapply sim_bind; [|apply s_expired]. intros e ? <-. destruct e; [exact I|exact Hx].
Qed.
Lemma s_live k : sim R same_opt (load_live k) (load_live k). Proof. exact (s_get k). Qed.
Lemma s_locked {A : Type} (p p' : prog A) : p ~~ p' -> locked p ~~ locked p'. Proof. intros H. unfold locked. st. Qed.
Lemma s_rlocked {A : Type} (p p' : prog A) : p ~~ p' -> rlocked p ~~ rlocked p'. Proof. intros H. unfold rlocked. st. Qed.
(** what a text shows of related values *)
Lemma same_fmt v v' : same_val v v' -> fmt_string v' = fmt_string v. Proof. destruct v, v'; cbn; intros H; try contradiction; congruence. Qed.
Lemma same_incr v v' n : same_val v v' -> incr_val v' n = incr_val v n. Proof. destruct v, v'; cbn; intros H; try contradiction; try congruence. Qed.
Lemma incr_scalar v n x z : incr_val v n = Some (x, z) -> scalar x. Proof. destruct v; cbn; try discriminate; intros [= <- _]; exact I. Qed.
Lemma s_getfmt {A : Type} k (g : option gval -> prog A) : (forall o o', same_opt o o' -> g o ~~ g o') -> pbind (c_get k) g ~~ pbind (c_get k) g.
Proof. intros H. eapply sim_bind; [exact H|apply s_get]. Qed.
Lemma s_incr k n : incr_by k n ~~ incr_by k n.
Proof.
  unfold incr_by. eapply sim_bind; [|apply s_los; exact I]. intros [x b] [x' b'] [Hx Hb]. cbn [fst snd] in *. subst b'. destruct b; cbn [negb]; [|reflexivity]. rewrite (same_incr _ _ _ Hx).
  destruct (incr_val x n) as [[v z]|] eqn:E; [|reflexivity]. apply s_bind; [apply s_store, same_scalar; eapply incr_scalar; eauto|]. intros _. reflexivity.
Qed.
Lemma s_mset kv : mset_loop kv ~~ mset_loop kv. Proof. induction kv as [|[k v] r IH]; [reflexivity|]. cbn [mset_loop]. st. Qed.
Lemma s_msetnx kv : forall n, msetnx_loop kv n ~~ msetnx_loop kv n.
Proof. induction kv as [|[k v] r IH]; intros n; [reflexivity|]. cbn [msetnx_loop]. eapply sim_bind; [|apply s_los, try_scalar]. intros [x b] [x' b'] [_ Hb]. cbn [fst snd] in *. subst. apply IH. Qed.
Lemma s_mget ks : mget_loop ks ~~ mget_loop ks.
Proof.
  induction ks as [|k r IH]; [reflexivity|]. cbn [mget_loop]. eapply sim_bind; [|apply s_get]. intros o o' Ho. apply s_bind; [exact IH|]. intros rest. cbn. f_equal. destruct o, o'; try contradiction; cbn; [|reflexivity]. rewrite (same_fmt _ _ Ho). reflexivity.
Qed.
Lemma s_exists ks : forall n, exists_loop ks n ~~ exists_loop ks n.
Proof. induction ks as [|k r IH]; intros n; [reflexivity|]. cbn [exists_loop]. eapply sim_bind; [|apply s_load]. intros [|] [|] Ho; try contradiction; apply IH. Qed.
Definition same_hres (h h' : hres) : Prop := match h, h' with HEntry l, HEntry l' => link l l' | HNil, HNil | HWrong, HWrong => True | _, _ => False end.
Lemma s_entry k : sim R same_hres (get_hash_entry k) (get_hash_entry k).
Proof. unfold get_hash_entry. eapply sim_bind; [|apply s_get]. intros [[]|] [[]|] H; cbn in *; try contradiction; auto; discriminate. Qed.
Lemma s_getnew k h h' : same_hres h h' -> sim R link (get_or_new k h) (get_or_new k h').
Proof.
  assert (Hn : sim R link (new_hash k) (new_hash k)).
  { unfold new_hash. eapply sim_bind; [|apply s_alloc]. intros l l' Hl. eapply (sim_bind R eq); [|apply s_store; exact Hl]. intros _ _ _. exact Hl. }
  destruct h, h'; cbn; intros H; try contradiction; auto.
Qed.
Section entry.
Context (l l' : positive) (Hl : link l l').
Lemma s_heget f : he_get l f ~~ he_get l' f. Proof. unfold he_get. apply s_bind; [apply s_hatom, Hl|]. reflexivity. Qed.
Lemma s_heset f v : he_set l f v ~~ he_set l' f v.
Proof.
  unfold he_set. apply s_bind; [apply s_hatom, Hl|]. intros r. apply s_bind; [destruct (snd r); [apply s_hatom, Hl|reflexivity]|]. intros _. apply s_bind; [apply s_hatom, Hl|]. intros n. apply s_bind; [apply s_hatom, Hl|]. reflexivity.
Qed.
Lemma s_hdel fs : forall n, hdel_loop l fs n ~~ hdel_loop l' fs n.
Proof. induction fs as [|f r IH]; intros n; [reflexivity|]. cbn [hdel_loop]. apply s_bind; [apply s_heget|]. intros [v|]; [|apply IH]. apply s_bind; [apply s_hatom, Hl|]. intros _. apply IH. Qed.
Lemma s_hmset fv : forall n, hmset_loop l fv n ~~ hmset_loop l' fv n.
Proof. induction fv as [|[f v] r IH]; intros n; [reflexivity|]. cbn [hmset_loop]. apply s_bind; [apply s_heset|]. intros x. apply IH. Qed.
Lemma s_visit ks : h_visit l ks ~~ h_visit l' ks.
Proof. induction ks as [|f r IH]; [reflexivity|]. cbn [h_visit]. apply s_bind; [apply s_hatom, Hl|]. intros v. apply s_bind; [exact IH|]. reflexivity. Qed.
Lemma s_range : h_range l ~~ h_range l'. Proof. unfold h_range. apply s_bind; [apply s_hatom, Hl|]. intros ks. apply s_visit. Qed.
Lemma s_range_d ks : h_range_d ks l ~~ h_range_d ks l'.
Proof.
  unfold h_range_d. apply s_bind; [|intros _; apply s_visit]. apply sim_atom. intros w w' HR. rewrite (r_heap _ _ HR _ _ Hl). destruct (w_heap w !! l) as [o|]; [|exact I]. destruct (lists_all ks (h_map o)); [|exact I]. split; [exact HR|reflexivity].
Qed.
End entry.
Lemma s_hmget h h' fs : same_hres h h' -> hmget_loop h fs ~~ hmget_loop h' fs.
Proof.
  intros Hh. induction fs as [|f r IH]; [reflexivity|]. cbn [hmget_loop]. apply s_bind; [|intros s; apply s_bind; [exact IH|reflexivity]].
  destruct h, h'; try contradiction; try reflexivity. apply s_bind; [apply s_heget, Hh|]. reflexivity.
Qed.
Lemma s_cronloop ks : cron_loop ks ~~ cron_loop ks.
Proof.
  induction ks as [|k r IH]; [reflexivity|]. cbn [cron_loop]. eapply sim_bind; [|apply s_load]. intros o o' Ho. apply s_bind; [|intros _; exact IH].
  destruct o, o'; try contradiction; [|reflexivity]. st.
Qed.
Lemma s_cron ks : m_cron_d ks ~~ m_cron_d ks.
Proof.
  unfold m_cron_d. apply s_locked. apply s_bind; [|intros _; apply s_cronloop]. apply sim_atom. intros w w' HR. pose proof (r_data _ _ HR) as Hd. destruct (w_data w) as [dd|], (w_data w') as [dd'|]; cbn in Hd; try contradiction; [|exact I].
  assert (lists_all ks dd' = lists_all ks dd) as ->; [|destruct (lists_all ks dd); [|exact I]; split; [exact HR|reflexivity]].
  unfold lists_all. f_equal. apply eq_true_iff_eq. rewrite !forallb_forall. split; intros H [k v] Hin; apply elem_of_list_In, elem_of_map_to_list in Hin; specialize (Hd k).
  - rewrite Hin in Hd. destruct (dd' !! k) as [v'|] eqn:E; [|contradiction]. apply elem_of_map_to_list, elem_of_list_In in E. exact (H _ E).
  - rewrite Hin in Hd. destruct (dd !! k) as [v'|] eqn:E; [|contradiction]. apply elem_of_map_to_list, elem_of_list_In in E. exact (H _ E).
Qed.
Lemma s_map {A B : Type} (g : A -> B) (p p' : prog A) : p ~~ p' -> pmap g p ~~ pmap g p'.
Proof. intros H. unfold pmap. apply s_bind; [exact H|]. reflexivity. Qed.
Hint Resolve s_incr s_mset s_msetnx s_mget s_exists : same.
Ltac look := eapply sim_bind; [|apply s_get]; intros [x|] [x'|] Hx; try contradiction; rewrite ?(same_fmt _ _ Hx).
Ltac ent := eapply sim_bind; [|apply s_entry]; intros h h' Hh.
(** every call but the lists and cron *)
Lemma sim_plain c : match c with CCron => False | _ => True end -> call_prog c ~~ call_prog c.
Proof.
  intros Hc. destruct c; try contradiction; cbn [call_prog]; apply s_map.
  - apply s_locked. st.
  - apply s_locked. eapply sim_bind; [|apply s_los, try_scalar]. intros [x b] [x' b'] [_ Hb]. cbn [fst snd] in *. subst. reflexivity.
  - apply s_locked. st.
  - apply s_locked. st.
  - apply s_rlocked. look; [cbn; unfold fmt_ret; rewrite ?(same_fmt _ _ Hx)|]; reflexivity.
  - apply s_locked. look; apply s_bind; try apply s_storet; intros _; [cbn; unfold fmt_ret; rewrite ?(same_fmt _ _ Hx)|]; reflexivity.
  - apply s_rlocked. change (load_live k) with (c_get k). look; [cbn; rewrite ?(same_fmt _ _ Hx)|]; reflexivity.
  - apply s_locked. change (load_live k) with (c_get k). look; st.
  - apply s_locked. destruct (pos <? 0); [reflexivity|]. change (load_live k) with (c_get k). look; st.
  - apply s_rlocked. change (load_live k) with (c_get k). look; [cbn; rewrite ?(same_fmt _ _ Hx)|]; reflexivity.
  - apply s_locked. st.
  - apply s_locked. st.
  - apply s_locked. eapply sim_bind; [|apply s_los; exact I]. intros [x b] [x' b'] [Hx Hb]. cbn [fst snd] in *. subst b'. destruct b; cbn [negb]; [|reflexivity].
    destruct x, x'; cbn in Hx; try contradiction; try discriminate; try reflexivity; injection Hx as ->; (apply s_bind; [apply s_store; reflexivity|]; reflexivity).
  - apply s_locked. st.
  - apply s_locked. st.
  - unfold m_mset. st.
  - unfold m_msetnx. st.
  - unfold m_mget. st.
  - apply s_locked. look; st.
  - apply s_locked. st.
  - unfold m_exists. st.
  - unfold m_type. look; reflexivity.
  - unfold m_hset. ent. destruct h, h'; try contradiction; try reflexivity; (eapply sim_bind; [|apply s_getnew; exact Hh]; intros l1 l2 Hl; apply s_bind; [apply s_heset, Hl|reflexivity]).
  - unfold m_hsetnx. ent. destruct h, h'; try contradiction; try reflexivity; (eapply sim_bind; [|apply s_getnew; exact Hh]; intros l1 l2 Hl; apply s_bind; [apply s_hatom, Hl|]; intros r; destruct (snd r); [reflexivity|];
      apply s_bind; [apply s_hatom, Hl|]; intros n; apply s_bind; [apply s_hatom, Hl|]; reflexivity).
  - unfold m_hexists. ent. destruct h, h'; try contradiction; try reflexivity. apply s_bind; [apply s_heget, Hh|]. intros v. apply s_bind; [apply s_hatom, Hh|]. intros n. apply s_bind; [apply s_hatom, Hh|]. reflexivity.
  - unfold m_hdel. ent. destruct h, h'; try contradiction; try reflexivity. apply s_bind; [apply s_hdel, Hh|]. intros n. apply s_bind; [|reflexivity]. destruct (n =? 0); [reflexivity|]. apply s_bind; [apply s_hatom, Hh|]. intros m. apply s_hatom, Hh.
  - unfold m_hlen. ent. destruct h, h'; try contradiction; try reflexivity. apply s_bind; [apply s_hatom, Hh|]. reflexivity.
  - unfold m_hstrlen. ent. destruct h, h'; try contradiction; try reflexivity. apply s_bind; [apply s_heget, Hh|]. reflexivity.
  - unfold m_hincrby. ent. destruct h, h'; try contradiction; try reflexivity; (eapply sim_bind; [|apply s_getnew; exact Hh]; intros l1 l2 Hl; apply s_bind; [apply s_hatom, Hl|]; intros v;
      destruct v as [v|]; [destruct (hincr_val v d); [|reflexivity]|]; (apply s_bind; [apply s_heset, Hl|reflexivity])).
  - unfold m_hincrbyfloat. ent. destruct h, h'; try contradiction; try reflexivity; (eapply sim_bind; [|apply s_getnew; exact Hh]; intros l1 l2 Hl; apply s_bind; [apply s_hatom, Hl|]; intros v;
      destruct v as [v|]; [destruct (hincrf_val v d); [|reflexivity]|]; (apply s_bind; [apply s_heset, Hl|reflexivity])).
  - unfold m_hmset. ent. destruct h, h'; try contradiction; try reflexivity; (eapply sim_bind; [|apply s_getnew; exact Hh]; intros l1 l2 Hl; apply s_bind; [apply s_hmset, Hl|reflexivity]).
  - unfold m_hmget. ent. destruct h, h'; try contradiction; try reflexivity; (apply s_bind; [apply s_hmget; exact Hh|reflexivity]).
  - unfold m_hkeys. ent. destruct h, h'; try contradiction; try reflexivity; [apply sim_panic|]. apply s_bind; [apply s_range, Hh|reflexivity].
  - unfold m_hvals. ent. destruct h, h'; try contradiction; try reflexivity; [apply sim_panic|]. apply s_bind; [apply s_range, Hh|reflexivity].
  - unfold m_hgetall. ent. destruct h, h'; try contradiction; try reflexivity; [apply sim_panic|]. apply s_bind; [apply s_range, Hh|]. intros es. destruct (existsb _ es); [apply sim_panic|reflexivity].
  - unfold m_hget. ent. destruct h, h'; try contradiction; try reflexivity. apply s_bind; [apply s_heget, Hh|]. reflexivity.
Qed.
Lemma sim_same c p : by_doc c p -> p ~~ p.
Proof.
  destruct c; cbn [by_doc]; try (intros ->; apply sim_plain; exact I).
  - intros [ks ->]. apply s_map, s_cron.
  - intros [ks ->]. apply s_map. unfold m_hkeys_d. ent. destruct h, h'; try contradiction; try reflexivity; [apply sim_panic|]. apply s_bind; [apply s_range_d, Hh|reflexivity].
  - intros [ks ->]. apply s_map. unfold m_hvals_d. ent. destruct h, h'; try contradiction; try reflexivity; [apply sim_panic|]. apply s_bind; [apply s_range_d, Hh|reflexivity].
  - intros [ks ->]. apply s_map. unfold m_hgetall_d. ent. destruct h, h'; try contradiction; try reflexivity; [apply sim_panic|]. apply s_bind; [apply s_range_d, Hh|]. intros es. destruct (existsb _ es); [apply sim_panic|reflexivity].
Qed.
End same.
