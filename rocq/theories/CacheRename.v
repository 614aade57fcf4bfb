(** * CacheRename: the cache with other names for keys and fields, and another origin of time *)
From stdpp Require Import gmap list.
From Verif Require Import Base GoFloat CacheModel CacheSpec CacheConc CacheRange CacheSim.

(** a map under other names *)
Notation kren := (kmap (M2 := gmap gostr)).
Section rename.
Context (rho phi : gostr -> gostr) (d : Z).
Definition ren_obj (o : hobj) : hobj := HObj (kren phi (h_map o)) (h_len o).
Definition ren_world (w : world) : world :=
  W (option_map (kren rho) (w_data w)) (option_map (fun e => (fun t => t + d) <$> kren rho e) (w_exp w)) (ren_obj <$> w_heap w) (w_next w) (w_writer w) (w_readers w) (w_now w + d).
Definition on1 {B} (p : gostr * B) : gostr * B := (rho (fst p), snd p).
Definition on2 {B} (p : gostr * B) : gostr * B := (phi (fst p), snd p).
Definition ren_call (c : call) : call :=
  match c with
  | CSet k v => CSet (rho k) v | CSetNX k v => CSetNX (rho k) v | CSetEX k v n => CSetEX (rho k) v n | CPSetEX k v n => CPSetEX (rho k) v n
  | CGet k => CGet (rho k) | CGetSet k v => CGetSet (rho k) v | CStrLen k => CStrLen (rho k) | CAppend k v => CAppend (rho k) v
  | CSetRange k p r => CSetRange (rho k) p r | CGetRange k a b => CGetRange (rho k) a b
  | CIncr k => CIncr (rho k) | CIncrBy k x => CIncrBy (rho k) x | CIncrByFloat k x => CIncrByFloat (rho k) x
  | CDecr k => CDecr (rho k) | CDecrBy k x => CDecrBy (rho k) x
  | CMSet kv => CMSet (map on1 kv) | CMSetNX kv => CMSetNX (map on1 kv) | CMGet ks => CMGet (map rho ks)
  | CDel k => CDel (rho k) | CFlush => CFlush | CExists ks => CExists (map rho ks) | CType k => CType (rho k) | CCron => CCron
  | CHSet k f v => CHSet (rho k) (phi f) v | CHSetNX k f v => CHSetNX (rho k) (phi f) v | CHExists k f => CHExists (rho k) (phi f)
  | CHDel k fs => CHDel (rho k) (map phi fs) | CHLen k => CHLen (rho k) | CHStrLen k f => CHStrLen (rho k) (phi f)
  | CHIncrBy k f x => CHIncrBy (rho k) (phi f) x | CHIncrByFloat k f x => CHIncrByFloat (rho k) (phi f) x
  | CHMSet k fv => CHMSet (rho k) (map on2 fv) | CHMGet k fs => CHMGet (rho k) (map phi fs)
  | CHKeys k => CHKeys (rho k) | CHVals k => CHVals (rho k) | CHGetAll k => CHGetAll (rho k) | CHGet k f => CHGet (rho k) (phi f)
  end.
(** Only HKeys shows names. *)
Definition ren_reply (c : call) (r : reply) : reply :=
  match c, r with CHKeys _, RList (l, e) => RList (map phi l, e) | _, _ => r end.

Context {Hrho : Inj (=) (=) rho} {Hphi : Inj (=) (=) phi}.
(** The tick of cron compares the clock with the year 1; all times are later, unless time is not moved. *)
Definition R (w w' : world) : Prop := w' = ren_world w /\ (d = 0 \/ (zero_time < w_now w /\ zero_time < w_now w + d)).
Notation "p ~~ q" := (sim R eq p q) (at level 80).
Lemma s_ret {A : Type} (a : A) : Ret a ~~ Ret a. Proof. reflexivity. Qed.
Lemma s_lock : p_lock ~~ p_lock.
Proof. apply sim_atom. intros w w' [-> H]. cbn. destruct (w_writer w || _); [exact I|]. repeat split; auto. Qed.
Lemma s_unlock : p_unlock ~~ p_unlock.
Proof. apply sim_atom. intros w w' [-> H]. cbn. destruct (w_writer w); [|exact I]. repeat split; auto. Qed.
Lemma s_rlock : p_rlock ~~ p_rlock.
Proof. apply sim_atom. intros w w' [-> H]. cbn. destruct (w_writer w); [exact I|]. repeat split; auto. Qed.
Lemma s_runlock : p_runlock ~~ p_runlock.
Proof. apply sim_atom. intros w w' [-> H]. cbn. destruct (w_readers w); [exact I|]. repeat split; auto. Qed.
Lemma s_now : sim R (fun t t' => t' = t + d /\ (d = 0 \/ (zero_time < t /\ zero_time < t + d))) p_now p_now.
Proof. apply sim_atom. intros w w' [-> H]. repeat split; auto. Qed.
Lemma s_load k : data_load k ~~ data_load (rho k).
Proof. apply sim_atom. intros w w' [-> H]. cbn. destruct (w_data w); cbn; [|exact I]. rewrite lookup_kmap by exact Hrho. repeat split; auto. Qed.
Ltac wld := unfold R, ren_world, set_data, set_exp, set_heap; cbn.
Lemma s_store k v : data_store k v ~~ data_store (rho k) v.
Proof. apply sim_atom. intros w w' [-> H]. cbn. destruct (w_data w); cbn; [|exact I]. wld. rewrite kmap_insert by exact Hrho. repeat split; auto. Qed.
Lemma s_delete k : data_delete k ~~ data_delete (rho k).
Proof. apply sim_atom. intros w w' [-> H]. cbn. destruct (w_data w); cbn; [|exact I]. wld. rewrite kmap_delete by exact Hrho. repeat split; auto. Qed.
Lemma s_los k v : data_load_or_store k v ~~ data_load_or_store (rho k) v.
Proof.
  apply sim_atom. intros w w' [-> H]. cbn. destruct (w_data w); cbn; [|exact I]. rewrite lookup_kmap by exact Hrho. destruct (g !! k); [repeat split; auto|].
  wld. rewrite kmap_insert by exact Hrho. repeat split; auto.
Qed.
Lemma s_eload k : sim R (fun o o' => o' = (fun t => t + d) <$> o) (exp_load k) (exp_load (rho k)).
Proof. apply sim_atom. intros w w' [-> H]. cbn. destruct (w_exp w); cbn; [|exact I]. rewrite lookup_fmap, lookup_kmap by exact Hrho. repeat split; auto. Qed.
Lemma s_estore k t : exp_store k t ~~ exp_store (rho k) (t + d).
Proof. apply sim_atom. intros w w' [-> H]. cbn. destruct (w_exp w); cbn; [|exact I]. wld. rewrite kmap_insert, fmap_insert by exact Hrho. repeat split; auto. Qed.
Lemma s_edelete k : exp_delete k ~~ exp_delete (rho k).
Proof. apply sim_atom. intros w w' [-> H]. cbn. destruct (w_exp w); cbn; [|exact I]. wld. rewrite kmap_delete, fmap_delete by exact Hrho. repeat split; auto. Qed.
Lemma s_dreset : data_reset ~~ data_reset.
Proof. apply sim_atom. intros w w' [-> H]. wld. rewrite kmap_empty. repeat split; auto. Qed.
Lemma s_ereset : exp_reset ~~ exp_reset.
Proof. apply sim_atom. intros w w' [-> H]. wld. rewrite kmap_empty, fmap_empty. repeat split; auto. Qed.
Lemma s_alloc : h_alloc ~~ h_alloc.
Proof. apply sim_atom. intros w w' [-> H]. wld. rewrite fmap_insert. unfold ren_obj at 2. cbn. rewrite kmap_empty. repeat split; auto. Qed.
Lemma s_hatom {A B : Type} l (f : hobj -> hobj * A) (g : hobj -> hobj * B) (Q : A -> B -> Prop) :
  (forall o, fst (g (ren_obj o)) = ren_obj (fst (f o)) /\ Q (snd (f o)) (snd (g (ren_obj o)))) -> sim R Q (h_atom l f) (h_atom l g).
Proof.
  intros Hf. apply sim_atom. intros w w' [-> H]. cbn. rewrite lookup_fmap. destruct (w_heap w !! l) as [o|]; cbn; [|exact I].
  destruct (Hf o) as [H1 H2]. destruct (f o) as [o1 a], (g (ren_obj o)) as [o2 b]. cbn in *. subst o2. wld. rewrite fmap_insert. repeat split; auto.
Qed.
Lemma s_hload l f : h_load l f ~~ h_load l (phi f).
Proof. apply s_hatom. intros o. cbn. rewrite lookup_kmap by exact Hphi. auto. Qed.
Lemma s_hstore l f v : h_store l f v ~~ h_store l (phi f) v.
Proof. apply s_hatom. intros o. unfold ren_obj. cbn. rewrite kmap_insert by exact Hphi. auto. Qed.
Lemma s_hdelete l f : h_delete l f ~~ h_delete l (phi f).
Proof. apply s_hatom. intros o. unfold ren_obj. cbn. rewrite kmap_delete by exact Hphi. auto. Qed.
Lemma s_hlos l f v : h_load_or_store l f v ~~ h_load_or_store l (phi f) v.
Proof. apply s_hatom. intros o. unfold ren_obj. cbn. rewrite lookup_kmap by exact Hphi. destruct (h_map o !! f); cbn; [auto|]. rewrite kmap_insert by exact Hphi. auto. Qed.
Lemma s_glen l : h_get_len l ~~ h_get_len l. Proof. apply s_hatom. auto. Qed.
Lemma s_slen l n : h_set_len l n ~~ h_set_len l n. Proof. apply s_hatom. auto. Qed.
Lemma s_bind {A B : Type} (p p' : prog A) (k k' : A -> prog B) : p ~~ p' -> (forall a, k a ~~ k' a) -> pbind p k ~~ pbind p' k'.
Proof. intros H Hk. eapply sim_bind; [|exact H]. intros a b <-. apply Hk. Qed.
Create HintDb ren.
Hint Resolve s_ret s_lock s_unlock s_rlock s_runlock s_load s_store s_delete s_los s_estore s_edelete s_dreset s_ereset s_alloc s_hload s_hstore s_hdelete s_hlos s_glen s_slen : ren.
Ltac st := repeat first [apply sim_panic | solve [eauto with ren nocore] | apply s_bind; [|intros ?] | match goal with |- context [match ?x with _ => _ end] => destruct x end].
Lemma s_expired k : expired k ~~ expired (rho k).
Proof.
  unfold expired. eapply sim_bind; [|apply s_eload]. intros [t|] b ->; cbn [fmap option_fmap option_map]; [|apply s_ret].
  eapply sim_bind; [|apply s_now]. intros t1 t2 [-> _]. replace (t + d <? t1 + d) with (t <? t1) by (destruct (Z.ltb_spec t t1), (Z.ltb_spec (t + d) (t1 + d)); lia). st.
Qed.
Lemma s_expires k n : expires k n ~~ expires (rho k) n.
Proof.
  unfold expires. destruct (n <=? 0); [st|]. eapply sim_bind; [|apply s_now]. intros t1 t2 [-> _]. replace (t1 + d + n) with (t1 + n + d) by lia. apply s_estore.
Qed.
Hint Resolve s_expired s_expires : ren.
Lemma s_get k : c_get k ~~ c_get (rho k). Proof. unfold c_get. st. Qed.
Lemma s_live k : load_live k ~~ load_live (rho k). Proof. unfold load_live. st. Qed.
Lemma s_locked {A : Type} (p p' : prog A) : p ~~ p' -> locked p ~~ locked p'. Proof. intros H. unfold locked. st. Qed.
Lemma s_rlocked {A : Type} (p p' : prog A) : p ~~ p' -> rlocked p ~~ rlocked p'. Proof. intros H. unfold rlocked. st. Qed.
Hint Resolve s_get s_live : ren.
Lemma s_incr k x : incr_by k x ~~ incr_by (rho k) x. Proof. unfold incr_by. st. Qed.
Lemma s_mset kv : mset_loop kv ~~ mset_loop (map on1 kv). Proof. induction kv as [|[k v] r IH]; [apply s_ret|]; cbn [mset_loop msetnx_loop mget_loop exists_loop hdel_loop hmset_loop hmget_loop cron_loop map on1 on2 fst snd]; st. Qed.
Lemma s_msetnx kv : forall n, msetnx_loop kv n ~~ msetnx_loop (map on1 kv) n. Proof. induction kv as [|[k v] r IH]; intros n; [apply s_ret|]; cbn [mset_loop msetnx_loop mget_loop exists_loop hdel_loop hmset_loop hmget_loop cron_loop map on1 on2 fst snd]; st. Qed.
Lemma s_mget ks : mget_loop ks ~~ mget_loop (map rho ks). Proof. induction ks as [|k r IH]; [apply s_ret|]; cbn [mset_loop msetnx_loop mget_loop exists_loop hdel_loop hmset_loop hmget_loop cron_loop map on1 on2 fst snd]; st. Qed.
Lemma s_exists ks : forall n, exists_loop ks n ~~ exists_loop (map rho ks) n. Proof. induction ks as [|k r IH]; intros n; [apply s_ret|]; cbn [mset_loop msetnx_loop mget_loop exists_loop hdel_loop hmset_loop hmget_loop cron_loop map on1 on2 fst snd]; st. Qed.
Lemma s_heget l f : he_get l f ~~ he_get l (phi f). Proof. unfold he_get. st. Qed.
Lemma s_heset l f v : he_set l f v ~~ he_set l (phi f) v. Proof. unfold he_set. st. Qed.
Lemma s_entry k : get_hash_entry k ~~ get_hash_entry (rho k). Proof. unfold get_hash_entry. st. Qed.
Lemma s_getnew k h : get_or_new k h ~~ get_or_new (rho k) h. Proof. unfold get_or_new, new_hash. st. Qed.
Hint Resolve s_incr s_mset s_msetnx s_mget s_exists s_heget s_heset s_entry s_getnew : ren.
Lemma s_hdel l fs : forall n, hdel_loop l fs n ~~ hdel_loop l (map phi fs) n. Proof. induction fs as [|f r IH]; intros n; [apply s_ret|]; cbn [mset_loop msetnx_loop mget_loop exists_loop hdel_loop hmset_loop hmget_loop cron_loop map on1 on2 fst snd]; st. Qed.
Lemma s_hmset l fv : forall n, hmset_loop l fv n ~~ hmset_loop l (map on2 fv) n. Proof. induction fv as [|[f v] r IH]; intros n; [apply s_ret|]; cbn [mset_loop msetnx_loop mget_loop exists_loop hdel_loop hmset_loop hmget_loop cron_loop map on1 on2 fst snd]; st. Qed.
Lemma s_hmget h fs : hmget_loop h fs ~~ hmget_loop h (map phi fs). Proof. induction fs as [|f r IH]; [apply s_ret|]; cbn [mset_loop msetnx_loop mget_loop exists_loop hdel_loop hmset_loop hmget_loop cron_loop map on1 on2 fst snd]; st. Qed.
Hint Resolve s_hdel s_hmset s_hmget : ren.
Lemma s_visit l ks : sim R (fun es es' => es' = map on2 es) (h_visit l ks) (h_visit l (map phi ks)).
Proof.
  induction ks as [|f r IH]; [reflexivity|]. cbn [h_visit map]. eapply sim_bind; [|apply s_hload]. intros v ? <-. eapply sim_bind; [|exact IH]. intros es ? ->. destruct v; reflexivity.
Qed.
Lemma lists_ren {A : Type} (g : gostr -> gostr) `{!Inj (=) (=) g} (ks : list gostr) (m : gmap gostr A) : lists_all (map g ks) (kren g m) = lists_all ks m.
Proof.
  apply eq_true_iff_eq. unfold lists_all. rewrite !andb_true_iff, !bool_decide_eq_true, !forallb_forall. split; intros [H1 H2].
  - split; [apply (NoDup_fmap_1 g), H1|]. intros [f v] Hin. apply bool_decide_eq_true. cbn.
    assert (Hk : (g f, v) ∈ map_to_list (kren g m)) by (apply elem_of_map_to_list; rewrite lookup_kmap by auto; apply elem_of_map_to_list, elem_of_list_In, Hin).
    apply elem_of_list_In, H2, bool_decide_eq_true in Hk. cbn in Hk. apply elem_of_list_fmap in Hk. destruct Hk as (f' & E & Hf). apply (inj g) in E. subst. exact Hf.
  - split; [apply NoDup_fmap_2; auto|]. intros [f v] Hin. apply bool_decide_eq_true. cbn. apply elem_of_list_In, elem_of_map_to_list, lookup_kmap_Some in Hin; [|auto]. destruct Hin as (f' & -> & Hf).
    apply elem_of_list_fmap. exists f'. split; [reflexivity|]. apply elem_of_map_to_list, elem_of_list_In, H2, bool_decide_eq_true in Hf. exact Hf.
Qed.
Lemma s_range l ks : sim R (fun es es' => es' = map on2 es) (h_range_d ks l) (h_range_d (map phi ks) l).
Proof.
  unfold h_range_d. eapply (sim_bind R (fun _ _ => True)); [intros; apply s_visit|]. apply sim_atom. intros w w' [-> H]. cbn. rewrite lookup_fmap. destruct (w_heap w !! l) as [o|]; cbn; [|exact I].
  rewrite lists_ren by exact Hphi. destruct (lists_all ks (h_map o)); [|exact I]. repeat split; auto.
Qed.
Lemma s_cronloop ks : cron_loop ks ~~ cron_loop (map rho ks).
Proof.
  induction ks as [|k r IH]; [apply s_ret|]. cbn [cron_loop map]. apply s_bind; [apply s_load|]. intros v. apply s_bind; [|intros _; exact IH]. destruct v; [|apply s_ret].
  apply s_bind; [apply s_edelete|]. intros _. eapply sim_bind; [|apply s_now]. intros t1 t2 [-> Ht].
  replace (zero_time <? t1 + d) with (zero_time <? t1) by (destruct (Z.ltb_spec zero_time t1), (Z.ltb_spec zero_time (t1 + d)); lia). st.
Qed.
Lemma s_cron ks : m_cron_d ks ~~ m_cron_d (map rho ks).
Proof.
  unfold m_cron_d. apply s_locked. apply s_bind; [|intros _; apply s_cronloop]. apply sim_atom. intros w w' [-> H]. cbn. destruct (w_data w) as [dd|]; cbn; [|exact I].
  rewrite lists_ren by exact Hrho. destruct (lists_all ks dd); [|exact I]. repeat split; auto.
Qed.
Lemma s_map {A B : Type} (g : A -> B) (p p' : prog A) : p ~~ p' -> pmap g p ~~ pmap g p'.
Proof. intros H. unfold pmap. st. Qed.
Lemma sim_weaken {A B : Type} (Q Q' : A -> B -> Prop) : (forall a b, Q a b -> Q' a b) -> forall p p', sim R Q p p' -> sim R Q' p p'.
Proof.
  intros HQ. fix IH 1. intros [a|f] [b|f'] H; try contradiction; [apply HQ, H|]. intros w w' Hr. specialize (H w w' Hr).
  destruct (f w) as [w1 p1| |], (f' w') as [w1' p1'| |]; try contradiction; auto. destruct H. split; auto.
Qed.
Lemma sim_call c p : by_doc c p -> exists p', by_doc (ren_call c) p' /\ sim R (fun r r' => r' = ren_reply c r) p p'.
Proof.
  assert (Hw : forall p p', p ~~ p' -> sim R (fun r r' : reply => r' = r) p p') by (intros p1 p2; apply sim_weaken; intros; congruence).
  destruct c; cbn [by_doc ren_call ren_reply]; try (intros ->; eexists; split; [reflexivity|]; apply Hw; cbn [call_prog]; apply s_map;
    unfold m_set, m_setnx, m_setex, m_psetex, m_get, m_getset, m_strlen, m_append, m_setrange, m_getrange, m_incr, m_incrby, m_decr, m_decrby, m_incrbyfloat, m_mset, m_msetnx, m_mget, m_del, m_flush, m_exists, m_type,
      m_hset, m_hsetnx, m_hexists, m_hdel, m_hlen, m_hstrlen, m_hincrby, m_hincrbyfloat, m_hmset, m_hmget, m_hget;
    try first [apply s_locked|apply s_rlocked]; st; fail).
  - intros [ks ->]. eexists. split; [exists (map rho ks); reflexivity|]. apply Hw, s_map, s_cron.
  - intros [ks ->]. eexists. split; [exists (map phi ks); reflexivity|]. unfold pmap, m_hkeys_d. eapply (sim_bind R (fun x y => y = (map phi (fst x), snd x))); [intros [a e] b ->; reflexivity|].
    eapply sim_bind; [|apply s_entry]. intros h ? <-. destruct h; [apply sim_panic| |reflexivity]. eapply sim_bind; [|apply s_range]. intros es ? ->. cbn. rewrite !map_map. reflexivity.
  - intros [ks ->]. eexists. split; [exists (map phi ks); reflexivity|]. apply Hw, s_map. unfold m_hvals_d. apply s_bind; [apply s_entry|]. intros h. destruct h; [apply sim_panic| |reflexivity]. eapply sim_bind; [|apply s_range]. intros es ? ->. cbn. f_equal.
    induction es as [|[f v] r IH]; [reflexivity|]. cbn. destruct v; cbn; rewrite IH; reflexivity.
  - intros [ks ->]. eexists. split; [exists (map phi ks); reflexivity|]. apply Hw, s_map. unfold m_hgetall_d. apply s_bind; [apply s_entry|]. intros h. destruct h; [apply sim_panic| |reflexivity]. eapply sim_bind; [|apply s_range]. intros es ? ->.
    replace (existsb hgetall_bad (map on2 es)) with (existsb hgetall_bad es) by (induction es as [|[f v] r IH]; [reflexivity|cbn; rewrite IH; reflexivity]). destruct (existsb hgetall_bad es); [apply sim_panic|reflexivity].
Qed.
Lemma ready_ren w : ready w -> ready (ren_world w).
Proof.
  intros [H1 H2 (dd & Hd & H3 & H4) [e He] H5 H6]. split; cbn; auto.
  - exists (kren rho dd). rewrite Hd. split; [reflexivity|]. split.
    + intros k l Hk. apply lookup_kmap_Some in Hk; [|exact Hrho]. destruct Hk as (k0 & -> & Hk). rewrite lookup_fmap. destruct (H3 _ _ Hk) as [o Ho]. rewrite Ho. cbn. eauto.
    + intros k k' l Hk Hk'. apply lookup_kmap_Some in Hk; [|exact Hrho]. apply lookup_kmap_Some in Hk'; [|exact Hrho]. destruct Hk as (k0 & -> & Hk), Hk' as (k1 & -> & Hk'). f_equal. eauto.
  - rewrite He. cbn. eauto.
  - intros l Hl. rewrite lookup_fmap in Hl. apply H5. destruct (w_heap w !! l); [eauto|destruct Hl; discriminate].
  - intros l o f v Ho Hf. rewrite lookup_fmap in Ho. destruct (w_heap w !! l) as [o0|] eqn:E; [|discriminate]. injection Ho as <-. cbn in Hf. apply lookup_kmap_Some in Hf; [|exact Hphi]. destruct Hf as (f0 & -> & Hf). eauto.
Qed.
End rename.
