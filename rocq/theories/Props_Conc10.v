(** * Props_Conc10: reading a dictionary pointer and using it need not be one step *)
From stdpp Require Import gmap list.
From Verif Require Import Base GoFloat CacheModel CacheSpec CacheConc CacheFine ConcLin Props_Conc.

(** ** The three kinds of operations: on the data, on the deadlines, on neither *)
Definition dop {R : Type} (f : world -> ares (prog R)) (F : ddict -> ddict * prog R) : Prop :=
  forall w d, w_data w = Some d -> f w = Go (set_data w (fst (F d))) (snd (F d)).
Definition eop {R : Type} (f : world -> ares (prog R)) (F : edict -> edict * prog R) : Prop :=
  forall w e, w_exp w = Some e -> f w = Go (set_exp w (fst (F e))) (snd (F e)).
Definition map_dicts {R : Type} (d : ddict) (e : edict) (r : ares R) : ares R :=
  match r with Go w p => Go (with_dicts w d e) p | Blocked => Blocked | Panic => Panic end.
Definition oop {R : Type} (f : world -> ares (prog R)) : Prop := forall w d e d' e',
  f (with_dicts w d e) = map_dicts d e (f (with_dicts w d' e')).
Inductive simple {R : Type} : prog R -> Prop :=
| s_ret r : simple (Ret r)
| s_step f : (exists F, dop f F) \/ (exists F, eop f F) \/ oop f -> (forall w w' p, f w = Go w' p -> simple p) -> simple (Step f).
Lemma simple_bind {A B : Type} (p : prog A) (k : A -> prog B) : simple p -> (forall a, simple (k a)) -> simple (pbind p k).
Proof.
  intros Hp Hk. induction Hp as [r|f Hf Hn IH]; [apply Hk|]. cbn [pbind]. constructor.
  - destruct Hf as [[F HF]|[[F HF]|Ho]].
    + left. exists (fun d => (fst (F d), pbind (snd (F d)) k)). intros w d Hd. rewrite (HF w d Hd). reflexivity.
    + right; left. exists (fun d => (fst (F d), pbind (snd (F d)) k)). intros w d Hd. rewrite (HF w d Hd). reflexivity.
    + right; right. intros w d e d' e'. rewrite (Ho w d e d' e'). destruct (f (with_dicts w d' e')); reflexivity.
  - intros w w' q E. destruct (f w) eqn:Ef; try discriminate. injection E as <- <-. eapply IH; eauto.
Qed.
Lemma simple_atom_next {R : Type} (g : world -> ares R) w w' p :
  (match g w with Go w' a => Go w' (Ret a) | Blocked => Blocked | Panic => Panic end) = Go w' p -> simple p.
Proof. destruct (g w); try discriminate. intros E. injection E as <- <-. constructor. Qed.
Ltac atomic := unfold atom; constructor; [|intros; eapply simple_atom_next; eassumption].
Lemma simple_datom {R : Type} (g : world -> ares R) (G : ddict -> ddict * R) :
  (forall w d, w_data w = Some d -> g w = Go (set_data w (fst (G d))) (snd (G d))) -> simple (atom g).
Proof. intros H. atomic. left. exists (fun d => (fst (G d), Ret (snd (G d)))). intros w d Hd. rewrite (H w d Hd). reflexivity. Qed.
Lemma simple_eatom {R : Type} (g : world -> ares R) (G : edict -> edict * R) :
  (forall w d, w_exp w = Some d -> g w = Go (set_exp w (fst (G d))) (snd (G d))) -> simple (atom g).
Proof. intros H. atomic. right; left. exists (fun d => (fst (G d), Ret (snd (G d)))). intros w d Hd. rewrite (H w d Hd). reflexivity. Qed.
Lemma simple_oatom {R : Type} (g : world -> ares R) : (forall w d e d' e', g (with_dicts w d e) = map_dicts d e (g (with_dicts w d' e'))) -> simple (atom g).
Proof. intros H. atomic. right; right. intros w d e d' e'. rewrite (H w d e d' e'). destruct (g (with_dicts w d' e')); reflexivity. Qed.
Lemma set_data_same w d : w_data w = Some d -> set_data w d = w. Proof. destruct w; cbn. intros ->. reflexivity. Qed.
Lemma set_exp_same w d : w_exp w = Some d -> set_exp w d = w. Proof. destruct w; cbn. intros ->. reflexivity. Qed.
Lemma s_data_load k : simple (data_load k).
Proof. apply (simple_datom _ (fun d => (d, d !! k))). intros w d H. rewrite H. cbn. rewrite set_data_same; auto. Qed.
Lemma s_data_store k v : simple (data_store k v).
Proof. apply (simple_datom _ (fun d => (<[k := v]> d, tt))). intros w d H. rewrite H. reflexivity. Qed.
Lemma s_data_delete k : simple (data_delete k).
Proof. apply (simple_datom _ (fun d => (delete k d, tt))). intros w d H. rewrite H. reflexivity. Qed.
Lemma s_data_los k v : simple (data_load_or_store k v).
Proof.
  apply (simple_datom _ (fun d => match d !! k with Some x => (d, (x, true)) | None => (<[k := v]> d, (v, false)) end)). intros w d H. rewrite H.
  destruct (d !! k); cbn; [rewrite set_data_same; auto|reflexivity].
Qed.
Lemma s_data_keys : simple data_keys.
Proof. apply (simple_datom _ (fun d => (d, map fst (map_to_list d)))). intros w d H. rewrite H. cbn. rewrite set_data_same; auto. Qed.
Lemma s_exp_load k : simple (exp_load k).
Proof. apply (simple_eatom _ (fun d => (d, d !! k))). intros w d H. rewrite H. cbn. rewrite set_exp_same; auto. Qed.
Lemma s_exp_store k v : simple (exp_store k v).
Proof. apply (simple_eatom _ (fun d => (<[k := v]> d, tt))). intros w d H. rewrite H. reflexivity. Qed.
Lemma s_exp_delete k : simple (exp_delete k).
Proof. apply (simple_eatom _ (fun d => (delete k d, tt))). intros w d H. rewrite H. reflexivity. Qed.
Lemma s_lock : simple p_lock. Proof. apply simple_oatom. intros. cbn. destruct (_ || _); reflexivity. Qed.
Lemma s_unlock : simple p_unlock. Proof. apply simple_oatom. intros. cbn. destruct (w_writer w); reflexivity. Qed.
Lemma s_rlock : simple p_rlock. Proof. apply simple_oatom. intros. cbn. destruct (w_writer w); reflexivity. Qed.
Lemma s_runlock : simple p_runlock. Proof. apply simple_oatom. intros. cbn. destruct (w_readers w); reflexivity. Qed.
Lemma s_now : simple p_now. Proof. apply simple_oatom. reflexivity. Qed.
Lemma s_alloc : simple h_alloc. Proof. apply simple_oatom. reflexivity. Qed.
Lemma s_hatom {A : Type} l (f : hobj -> hobj * A) : simple (h_atom l f).
Proof. apply simple_oatom. intros. cbn. destruct (w_heap w !! l) as [o|]; [destruct (f o)|]; reflexivity. Qed.
Lemma s_panic {A : Type} : simple (@panic A).
Proof. constructor; [right; right; intros ? ? ? ? ?; reflexivity|discriminate]. Qed.
Create HintDb sim discriminated.
#[local] Hint Resolve s_ret s_data_load s_data_store s_data_delete s_data_los s_data_keys s_exp_load s_exp_store s_exp_delete s_lock s_unlock s_rlock s_runlock s_now s_alloc s_hatom s_panic : sim.
Ltac sgo := repeat first [ solve [auto with sim] | apply simple_bind; [|intros] | match goal with |- simple (match ?x with _ => _ end) => destruct x end | progress intros ].
Lemma s_locked {A : Type} (p : prog A) : simple p -> simple (locked p). Proof. intros. unfold locked. sgo. Qed.
Lemma s_rlocked {A : Type} (p : prog A) : simple p -> simple (rlocked p). Proof. intros. unfold rlocked. sgo. Qed.
Lemma s_expired k : simple (expired k). Proof. unfold expired. sgo. Qed.
#[local] Hint Resolve s_expired : sim.
Lemma s_get k : simple (c_get k). Proof. unfold c_get. sgo. Qed.
Lemma s_live k : simple (load_live k). Proof. unfold load_live. sgo. Qed.
#[local] Hint Resolve s_get s_live : sim.
Lemma s_expires k d : simple (expires k d). Proof. unfold expires. sgo. Qed.
Lemma s_incr k d : simple (incr_by k d). Proof. unfold incr_by. sgo. Qed.
Lemma s_he_get l f : simple (he_get l f). Proof. unfold he_get, h_load. sgo. Qed.
Lemma s_he_set l f v : simple (he_set l f v). Proof. unfold he_set, h_load_or_store, h_store, h_get_len, h_set_len. sgo. Qed.
#[local] Hint Resolve s_expires s_incr s_he_get s_he_set : sim.
Lemma s_ghe k : simple (get_hash_entry k). Proof. unfold get_hash_entry. sgo. Qed.
Lemma s_gon k h : simple (get_or_new k h). Proof. unfold get_or_new, new_hash. sgo. Qed.
#[local] Hint Resolve s_ghe s_gon : sim.
Lemma s_mset kv : simple (mset_loop kv). Proof. induction kv as [|[k v] r IH]; cbn [mset_loop]; sgo. Qed.
Lemma s_msetnx kv : forall n, simple (msetnx_loop kv n). Proof. induction kv as [|[k v] r IH]; cbn [msetnx_loop]; sgo; apply IH. Qed.
Lemma s_mget kv : simple (mget_loop kv). Proof. induction kv as [|k r IH]; cbn [mget_loop]; sgo. Qed.
Lemma s_exists kv : forall n, simple (exists_loop kv n). Proof. induction kv as [|k r IH]; cbn [exists_loop]; sgo; apply IH. Qed.
Lemma s_cron kv : simple (cron_loop kv). Proof. induction kv as [|k r IH]; cbn [cron_loop]; sgo. Qed.
Lemma s_hdel l fs : forall n, simple (hdel_loop l fs n). Proof. induction fs as [|k r IH]; cbn [hdel_loop]; unfold h_delete; sgo; apply IH. Qed.
Lemma s_hmset l fs : forall n, simple (hmset_loop l fs n). Proof. induction fs as [|[k v] r IH]; cbn [hmset_loop]; sgo; apply IH. Qed.
Lemma s_hmget h fs : simple (hmget_loop h fs). Proof. induction fs as [|k r IH]; cbn [hmget_loop]; sgo. Qed.
Lemma s_visit l ks : simple (h_visit l ks). Proof. induction ks as [|k r IH]; cbn [h_visit]; unfold h_load; sgo. Qed.
Lemma s_range l : simple (h_range l). Proof. unfold h_range, h_keys. sgo. apply s_visit. Qed.
#[local] Hint Resolve s_mset s_msetnx s_mget s_exists s_cron s_hdel s_hmset s_hmget s_range : sim.
Lemma simple_call c : c <> CFlush -> simple (call_prog c).
Proof.
  intros Hc. destruct c; try congruence; cbn [call_prog]; unfold pmap; (apply simple_bind; [|auto with sim]);
  unfold m_set, m_setnx, m_setex, m_psetex, m_get, m_getset, m_strlen, m_append, m_setrange, m_getrange, m_incr, m_incrby, m_incrbyfloat, m_decr, m_decrby, m_mset, m_msetnx,
    m_mget, m_del, m_exists, m_type, m_cron_tick, m_hset, m_hsetnx, m_hexists, m_hdel, m_hlen, m_hstrlen, m_hincrby, m_hincrbyfloat, m_hmset, m_hmget, m_hkeys, m_hvals, m_hgetall, m_hget,
    h_load, h_store, h_delete, h_load_or_store, h_get_len, h_set_len; try apply s_locked; try apply s_rlocked; cbn zeta; sgo.
Qed.

(** ** Executions of CacheConc.v that leave room for operations on dictionaries out of use

    [cover evs OD OE L c]: the coarse configuration [c] can be reached with the events [evs], and it can also be reached if the
    goroutines of [L], which hold dictionaries out of use (contents [OD], [OE]), perform their next operation on them, in any order. *)
Definition reach (w0 : world) (evs : list event) (c : conf) : Prop := exists s, cexec s (start w0) = Some (c, evs).
Lemma reach_step w0 evs c a c' e : reach w0 evs c -> cstep a c = Some (c', e) -> reach w0 (evs ++ e) c'.
Proof. intros [s Hs] Ha. exists (s ++ [a]). rewrite cexec_app, Hs. cbn. rewrite Ha, app_nil_r. reflexivity. Qed.
Inductive cover (w0 : world) (evs : list event) : gmap nat ddict -> gmap nat edict -> gmap nat (nat * nat) -> conf -> Prop :=
| cov OD OE L c : reach w0 evs c ->
    (forall i gd ge f F d, L !! i = Some (gd, ge) -> c_th c !! i = Some (Step f) -> dop f F -> OD !! gd = Some d ->
       cover w0 evs (<[gd := fst (F d)]> OD) OE (delete i L) (Conf (c_w c) (<[i := snd (F d)]> (c_th c)))) ->
    (forall i gd ge f F d, L !! i = Some (gd, ge) -> c_th c !! i = Some (Step f) -> eop f F -> OE !! ge = Some d ->
       cover w0 evs OD (<[ge := fst (F d)]> OE) (delete i L) (Conf (c_w c) (<[i := snd (F d)]> (c_th c)))) ->
    cover w0 evs OD OE L c.
Lemma cover_reach w0 evs OD OE L c : cover w0 evs OD OE L c -> reach w0 evs c. Proof. intros []. assumption. Qed.
Lemma cover_inv w0 evs OD OE L c : cover w0 evs OD OE L c -> reach w0 evs c /\
    (forall i gd ge f F d, L !! i = Some (gd, ge) -> c_th c !! i = Some (Step f) -> dop f F -> OD !! gd = Some d ->
       cover w0 evs (<[gd := fst (F d)]> OD) OE (delete i L) (Conf (c_w c) (<[i := snd (F d)]> (c_th c)))) /\
    (forall i gd ge f F d, L !! i = Some (gd, ge) -> c_th c !! i = Some (Step f) -> eop f F -> OE !! ge = Some d ->
       cover w0 evs OD (<[ge := fst (F d)]> OE) (delete i L) (Conf (c_w c) (<[i := snd (F d)]> (c_th c)))).
Proof. intros []. auto. Qed.
Lemma cover_weaken w0 evs OD OE L c i : cover w0 evs OD OE L c -> cover w0 evs OD OE (delete i L) c.
Proof.
  induction 1 as [OD OE L c Hr HD IHD HE IHE]. constructor; [exact Hr| |].
  - intros j gd ge f F d Hj. destruct (decide (j = i)) as [->|Hne]; [rewrite lookup_delete in Hj; discriminate|]. rewrite lookup_delete_ne in Hj by auto.
    intros. rewrite delete_commute. eapply IHD; eauto.
  - intros j gd ge f F d Hj. destruct (decide (j = i)) as [->|Hne]; [rewrite lookup_delete in Hj; discriminate|]. rewrite lookup_delete_ne in Hj by auto.
    intros. rewrite delete_commute. eapply IHE; eauto.
Qed.
Lemma cover_add w0 evs OD OE L c i gd ge : cover w0 evs OD OE L c -> OD !! gd = None -> OE !! ge = None -> L !! i = None -> cover w0 evs OD OE (<[i := (gd, ge)]> L) c.
Proof.
  induction 1 as [OD OE L c Hr HD IHD HE IHE]. intros H1 H2 H3. constructor; [exact Hr| |].
  - intros j gd' ge' f F d Hj Hf HF Hd. destruct (decide (j = i)) as [->|Hne]; [rewrite lookup_insert in Hj; congruence|]. rewrite lookup_insert_ne in Hj by auto.
    rewrite delete_insert_ne by auto. eapply IHD; eauto; [rewrite lookup_insert_ne by congruence; exact H1|rewrite lookup_delete_ne by auto; exact H3].
  - intros j gd' ge' f F d Hj Hf HF Hd. destruct (decide (j = i)) as [->|Hne]; [rewrite lookup_insert in Hj; congruence|]. rewrite lookup_insert_ne in Hj by auto.
    rewrite delete_insert_ne by auto. eapply IHE; eauto; [rewrite lookup_insert_ne by congruence; exact H2|rewrite lookup_delete_ne by auto; exact H3].
Qed.
Definition actor (a : act) : option nat := match a with AInv i _ | ARun i | ARet i => Some i | ATick _ => None end.
Lemma cstep_frame a c c' e i p : actor a <> Some i -> cstep a c = Some (c', e) ->
  cstep a (Conf (c_w c) (<[i := p]> (c_th c))) = Some (Conf (c_w c') (<[i := p]> (c_th c')), e) /\ c_th c' !! i = c_th c !! i.
Proof.
  intros Ha E. destruct a as [j cl|j|j|t]; cbn in *.
  - assert (i <> j) by congruence. rewrite lookup_insert_ne by auto. destruct (c_th c !! j); [discriminate|]. injection E as <- <-. cbn.
    rewrite insert_commute by auto. rewrite lookup_insert_ne by auto. auto.
  - assert (i <> j) by congruence. rewrite lookup_insert_ne by auto. destruct (c_th c !! j) as [[|f]|]; try discriminate. destruct (f (c_w c)) as [w' p'| |]; try discriminate. injection E as <- <-. cbn.
    rewrite insert_commute by auto. rewrite lookup_insert_ne by auto. auto.
  - assert (i <> j) by congruence. rewrite lookup_insert_ne by auto. destruct (c_th c !! j) as [[r|f]|]; try discriminate. injection E as <- <-. cbn.
    rewrite delete_insert_ne by auto. rewrite lookup_delete_ne by auto. auto.
  - destruct (w_now (c_w c) <=? t); [|discriminate]. injection E as <- <-. auto.
Qed.
Lemma cover_act w0 evs OD OE L c a c' e : cover w0 evs OD OE L c -> cstep a c = Some (c', e) -> (forall i, actor a = Some i -> L !! i = None) ->
  cover w0 (evs ++ e) OD OE L c'.
Proof.
  intros H. revert c'. induction H as [OD OE L c Hr HD IHD HE IHE]. intros c' Ha Hn. constructor; [eapply reach_step; eauto| |].
  - intros i gd ge f F d Hi Hf HF Hd. assert (Hne : actor a <> Some i) by (intros Hx; rewrite (Hn i Hx) in Hi; discriminate).
    destruct (cstep_frame a c c' e i (snd (F d)) Hne Ha) as [H1 H2]. rewrite H2 in Hf. eapply (IHD i gd ge f F d); eauto.
    intros j Hj. destruct (decide (j = i)) as [->|]; [congruence|]. rewrite lookup_delete_ne by auto. auto.
  - intros i gd ge f F d Hi Hf HF Hd. assert (Hne : actor a <> Some i) by (intros Hx; rewrite (Hn i Hx) in Hi; discriminate).
    destruct (cstep_frame a c c' e i (snd (F d)) Hne Ha) as [H1 H2]. rewrite H2 in Hf. eapply (IHE i gd ge f F d); eauto.
    intros j Hj. destruct (decide (j = i)) as [->|]; [congruence|]. rewrite lookup_delete_ne by auto. auto.
Qed.
Lemma cover_run w0 evs OD OE L c i f w' p' : cover w0 evs OD OE L c -> c_th c !! i = Some (Step f) -> f (c_w c) = Go w' p' ->
  cover w0 evs OD OE (delete i L) (Conf w' (<[i := p']> (c_th c))).
Proof.
  intros H Hi Hf. rewrite <- (app_nil_r evs). eapply (cover_act _ _ _ _ _ _ (ARun i)); [apply cover_weaken; exact H| |].
  - cbn. rewrite Hi, Hf. reflexivity.
  - intros j Hj. injection Hj as <-. apply lookup_delete.
Qed.
Lemma size_del (L : gmap nat (nat * nat)) i x n : L !! i = Some x -> size L = Datatypes.S n -> size (delete i L) = n.
Proof. intros H Hs. rewrite <- (insert_delete L i x H), map_size_insert_None in Hs by apply lookup_delete. lia. Qed.
Lemma size_some (L : gmap nat (nat * nat)) i x : L !! i = Some x -> exists n, size L = Datatypes.S n.
Proof. intros H. destruct (size L) eqn:E; [|eauto]. apply map_size_empty_inv in E. subst L. rewrite lookup_empty in H. discriminate. Qed.
(** Flush replaces the dictionary: the old one goes out of use. *)
Lemma cover_reset_d w0 evs n : forall OD OE L c d g j fr p, size L = n -> cover w0 evs OD OE L c -> w_data (c_w c) = Some d -> OD !! g = None ->
  c_th c !! j = Some (Step fr) -> (forall w, fr w = Go (set_data w ∅) p) -> L !! j = None ->
  cover w0 evs (<[g := d]> OD) OE L (Conf (set_data (c_w c) ∅) (<[j := p]> (c_th c))).
Proof.
  induction n as [n IH] using lt_wf_ind. intros OD OE L c d g j fr p Hn HC Hd Hg Hj Hfr Lj. destruct (cover_inv _ _ _ _ _ _ HC) as (Hr & HD & HE). constructor.
  - rewrite <- (app_nil_r evs). eapply (reach_step _ _ _ (ARun j)); [exact Hr|]. cbn. rewrite Hj, Hfr. reflexivity.
  - intros i gd ge f F d0 Hi Hf HF Hd0. cbn [c_w c_th] in *. assert (Hij : i <> j) by congruence. rewrite lookup_insert_ne in Hf by auto.
    destruct (size_some _ _ _ Hi) as [m Hm]. pose proof (size_del _ _ _ _ Hi Hm) as Hs. assert (Ld : delete i L !! j = None) by (rewrite lookup_delete_ne; auto).
    destruct (decide (gd = g)) as [->|Hne].
    + rewrite lookup_insert in Hd0. injection Hd0 as <-.
      pose proof (cover_run _ _ _ _ _ _ i f _ _ HC Hf (HF _ _ Hd)) as Hrun.
      rewrite insert_insert. pose proof (IH m ltac:(lia) _ _ _ _ (fst (F d)) g j fr p Hs Hrun eq_refl Hg) as Hres. cbn [c_w c_th] in Hres.
      rewrite lookup_insert_ne in Hres by auto. specialize (Hres Hj Hfr Ld). rewrite insert_commute by auto. exact Hres.
    + rewrite lookup_insert_ne in Hd0 by auto. rewrite (insert_commute OD), (insert_commute (c_th c)) by auto.
      refine (IH m ltac:(lia) _ _ _ (Conf _ _) d g j fr p Hs (HD i gd ge f F d0 Hi Hf HF Hd0) Hd _ _ Hfr Ld); [rewrite lookup_insert_ne by auto; exact Hg|].
      cbn. rewrite lookup_insert_ne by auto. exact Hj.
  - intros i gd ge f F d0 Hi Hf HF Hd0. cbn [c_w c_th] in *. assert (Hij : i <> j) by congruence. rewrite lookup_insert_ne in Hf by auto.
    destruct (size_some _ _ _ Hi) as [m Hm]. pose proof (size_del _ _ _ _ Hi Hm) as Hs. assert (Ld : delete i L !! j = None) by (rewrite lookup_delete_ne; auto).
    rewrite (insert_commute (c_th c)) by auto.
    refine (IH m ltac:(lia) _ _ _ (Conf _ _) d g j fr p Hs (HE i gd ge f F d0 Hi Hf HF Hd0) Hd Hg _ Hfr Ld). cbn. rewrite lookup_insert_ne by auto. exact Hj.
Qed.
Lemma cover_reset_e w0 evs n : forall OD OE L c d g j fr p, size L = n -> cover w0 evs OD OE L c -> w_exp (c_w c) = Some d -> OE !! g = None ->
  c_th c !! j = Some (Step fr) -> (forall w, fr w = Go (set_exp w ∅) p) -> L !! j = None ->
  cover w0 evs OD (<[g := d]> OE) L (Conf (set_exp (c_w c) ∅) (<[j := p]> (c_th c))).
Proof.
  induction n as [n IH] using lt_wf_ind. intros OD OE L c d g j fr p Hn HC Hd Hg Hj Hfr Lj. destruct (cover_inv _ _ _ _ _ _ HC) as (Hr & HD & HE). constructor.
  - rewrite <- (app_nil_r evs). eapply (reach_step _ _ _ (ARun j)); [exact Hr|]. cbn. rewrite Hj, Hfr. reflexivity.
  - intros i gd ge f F d0 Hi Hf HF Hd0. cbn [c_w c_th] in *. assert (Hij : i <> j) by congruence. rewrite lookup_insert_ne in Hf by auto.
    destruct (size_some _ _ _ Hi) as [m Hm]. pose proof (size_del _ _ _ _ Hi Hm) as Hs. assert (Ld : delete i L !! j = None) by (rewrite lookup_delete_ne; auto).
    rewrite (insert_commute (c_th c)) by auto.
    refine (IH m ltac:(lia) _ _ _ (Conf _ _) d g j fr p Hs (HD i gd ge f F d0 Hi Hf HF Hd0) Hd Hg _ Hfr Ld). cbn. rewrite lookup_insert_ne by auto. exact Hj.
  - intros i gd ge f F d0 Hi Hf HF Hd0. cbn [c_w c_th] in *. assert (Hij : i <> j) by congruence. rewrite lookup_insert_ne in Hf by auto.
    destruct (size_some _ _ _ Hi) as [m Hm]. pose proof (size_del _ _ _ _ Hi Hm) as Hs. assert (Ld : delete i L !! j = None) by (rewrite lookup_delete_ne; auto).
    destruct (decide (ge = g)) as [->|Hne].
    + rewrite lookup_insert in Hd0. injection Hd0 as <-.
      pose proof (cover_run _ _ _ _ _ _ i f _ _ HC Hf (HF _ _ Hd)) as Hrun.
      rewrite insert_insert. pose proof (IH m ltac:(lia) _ _ _ _ (fst (F d)) g j fr p Hs Hrun eq_refl Hg) as Hres. cbn [c_w c_th] in Hres.
      rewrite lookup_insert_ne in Hres by auto. specialize (Hres Hj Hfr Ld). rewrite insert_commute by auto. exact Hres.
    + rewrite lookup_insert_ne in Hd0 by auto. rewrite (insert_commute OE), (insert_commute (c_th c)) by auto.
      refine (IH m ltac:(lia) _ _ _ (Conf _ _) d g j fr p Hs (HE i gd ge f F d0 Hi Hf HF Hd0) Hd _ _ Hfr Ld); [rewrite lookup_insert_ne by auto; exact Hg|].
      cbn. rewrite lookup_insert_ne by auto. exact Hj.
Qed.

(** ** The simulation *)
Definition latch_of (t : fthread) : option (nat * nat) := match t with FRun _ l => l | FFlush _ => None end.
Definition latches (m : gmap nat fthread) : gmap nat (nat * nat) := omap latch_of m.
Definition fl (n : nat) : prog reply :=
  match n with
  | 0%nat => call_prog CFlush
  | 1%nat => pmap (fun _ => RUnit) (do r <- (data_reset;;; exp_reset); p_unlock;;; Ret r)
  | 2%nat => pmap (fun _ => RUnit) (do r <- exp_reset; p_unlock;;; Ret r)
  | 3%nat => pmap (fun _ => RUnit) (p_unlock;;; Ret tt)
  | _ => Ret RUnit
  end.
Definition threl (a : option fthread) (p : option (prog reply)) : Prop :=
  match a, p with
  | None, None => True
  | Some (FRun q l), Some p => p = q /\ simple q
  | Some (FFlush n), Some p => p = fl n
  | _, _ => False
  end.
Record fsim (w0 : world) (evs : list event) (fc : fconf) (c : conf) (d : ddict) (e : edict) : Prop := FSim {
  fs_d : f_data fc !! f_cd fc = Some d;
  fs_e : f_exp fc !! f_ce fc = Some e;
  fs_w : c_w c = with_dicts (f_w fc) d e;
  fs_cov : cover w0 evs (delete (f_cd fc) (f_data fc)) (delete (f_ce fc) (f_exp fc)) (latches (f_th fc)) c;
  fs_th : forall i, threl (f_th fc !! i) (c_th c !! i) }.
Lemma latches_insert m i t : latches (<[i := t]> m) = match latch_of t with Some l => <[i := l]> (latches m) | None => delete i (latches m) end.
Proof.
  apply map_eq. intros j. unfold latches. rewrite lookup_omap. destruct (decide (j = i)) as [->|Hne].
  - rewrite lookup_insert. cbn. destruct (latch_of t); [rewrite lookup_insert|rewrite lookup_delete]; reflexivity.
  - rewrite lookup_insert_ne by auto. destruct (latch_of t); [rewrite lookup_insert_ne by auto|rewrite lookup_delete_ne by auto]; rewrite lookup_omap; reflexivity.
Qed.
Lemma latches_delete m i : latches (delete i m) = delete i (latches m).
Proof.
  apply map_eq. intros j. unfold latches. rewrite lookup_omap. destruct (decide (j = i)) as [->|Hne]; [rewrite !lookup_delete; reflexivity|].
  rewrite !lookup_delete_ne by auto. rewrite lookup_omap. reflexivity.
Qed.
Lemma latches_none m i : m !! i = None \/ (exists t, m !! i = Some t /\ latch_of t = None) -> latches m !! i = None.
Proof. unfold latches. rewrite lookup_omap. intros [->|(t & -> & H)]; [reflexivity|exact H]. Qed.
Lemma threl_upd (fth : gmap nat fthread) (cth : gmap nat (prog reply)) i t p : (forall j, threl (fth !! j) (cth !! j)) -> threl (Some t) (Some p) ->
  forall j, threl (<[i := t]> fth !! j) (<[i := p]> cth !! j).
Proof. intros H Ht j. destruct (decide (j = i)) as [->|Hne]; [rewrite !lookup_insert; exact Ht|]. rewrite !lookup_insert_ne by auto. apply H. Qed.
Lemma wd_bare w d e : with_dicts (bare w) d e = with_dicts w d e. Proof. reflexivity. Qed.
Lemma fsim_step w0 evs fc c d e a fc' ev : fsim w0 evs fc c d e -> fstep a fc = Some (fc', ev) -> exists c' d' e', fsim w0 (evs ++ ev) fc' c' d' e'.
Proof.
  intros [Hd He Hw Hc Hth] E. destruct a as [i cl|i|i|t]; cbn in E.
  - destruct (f_th fc !! i) eqn:Ei; [discriminate|]. injection E as <- <-. pose proof (Hth i) as Hi. rewrite Ei in Hi. destruct (c_th c !! i) eqn:Ec; [contradiction|].
    assert (HL : latches (f_th fc) !! i = None) by (apply latches_none; auto).
    exists (Conf (c_w c) (<[i := call_prog cl]> (c_th c))), d, e. constructor; cbn [f_w f_data f_exp f_cd f_ce f_th c_w c_th]; auto.
    + rewrite latches_insert. replace (latch_of _) with (@None (nat * nat)) by (destruct cl; reflexivity). rewrite (delete_notin (latches (f_th fc))) by exact HL.
      eapply (cover_act _ _ _ _ _ _ (AInv i cl)); [exact Hc| |]; [cbn; rewrite Ec; reflexivity|]. intros j Hj. injection Hj as <-. exact HL.
    + apply threl_upd; [exact Hth|]. destruct cl; try (split; [reflexivity|apply simple_call; discriminate]). reflexivity.
  - destruct (f_th fc !! i) as [[[r|f] [[gd ge]|]|n]|] eqn:Ei; try discriminate; pose proof (Hth i) as Hi; rewrite Ei in Hi; destruct (c_th c !! i) as [p|] eqn:Ec; try contradiction.
    + destruct Hi as [-> Hs]. destruct (f_data fc !! gd) as [d0|] eqn:Egd; [|discriminate]. destruct (f_exp fc !! ge) as [e0|] eqn:Ege; [|discriminate].
      destruct (f (with_dicts (f_w fc) d0 e0)) as [w' p'| |] eqn:Ef; try discriminate.
      destruct (w_data w') as [d'|] eqn:Ed'; [|discriminate]. destruct (w_exp w') as [e'|] eqn:Ee'; [|discriminate]. injection E as <- <-. rewrite app_nil_r.
      assert (HL : latches (f_th fc) !! i = Some (gd, ge)) by (unfold latches; rewrite lookup_omap, Ei; reflexivity).
      inversion Hs as [|f0 Hk Hn]; subst f0. pose proof (Hn _ _ _ Ef) as Hs'. destruct Hk as [[F HF]|[[F HF]|Ho]].
      * rewrite (HF (with_dicts (f_w fc) d0 e0) d0 eq_refl) in Ef. injection Ef as <- <-. cbn in Ed', Ee'. injection Ed' as <-. injection Ee' as <-.
        rewrite (insert_id (f_exp fc) ge e0 Ege). destruct (decide (gd = f_cd fc)) as [->|Hne].
        -- assert (d0 = d) by congruence. subst d0. exists (Conf (set_data (c_w c) (fst (F d))) (<[i := snd (F d)]> (c_th c))), (fst (F d)), e.
           constructor; cbn [f_w f_data f_exp f_cd f_ce f_th c_w c_th]; auto.
           ++ apply lookup_insert.
           ++ rewrite Hw. reflexivity.
           ++ rewrite latches_insert, delete_insert_delete. cbn [latch_of]. eapply cover_run; [exact Hc|exact Ec|]. apply HF. rewrite Hw. reflexivity.
           ++ apply threl_upd; [exact Hth|]. split; [reflexivity|exact Hs'].
        -- exists (Conf (c_w c) (<[i := snd (F d0)]> (c_th c))), d, e. constructor; cbn [f_w f_data f_exp f_cd f_ce f_th c_w c_th]; auto.
           ++ rewrite lookup_insert_ne by auto. exact Hd.
           ++ rewrite latches_insert, delete_insert_ne by auto. cbn [latch_of].
              destruct (cover_inv _ _ _ _ _ _ Hc) as (_ & HD & _). eapply HD; eauto. rewrite lookup_delete_ne by auto. exact Egd.
           ++ apply threl_upd; [exact Hth|]. split; [reflexivity|exact Hs'].
      * rewrite (HF (with_dicts (f_w fc) d0 e0) e0 eq_refl) in Ef. injection Ef as <- <-. cbn in Ed', Ee'. injection Ed' as <-. injection Ee' as <-.
        rewrite (insert_id (f_data fc) gd d0 Egd). destruct (decide (ge = f_ce fc)) as [->|Hne].
        -- assert (e0 = e) by congruence. subst e0. exists (Conf (set_exp (c_w c) (fst (F e))) (<[i := snd (F e)]> (c_th c))), d, (fst (F e)).
           constructor; cbn [f_w f_data f_exp f_cd f_ce f_th c_w c_th]; auto.
           ++ apply lookup_insert.
           ++ rewrite Hw. reflexivity.
           ++ rewrite latches_insert, delete_insert_delete. cbn [latch_of]. eapply cover_run; [exact Hc|exact Ec|]. apply HF. rewrite Hw. reflexivity.
           ++ apply threl_upd; [exact Hth|]. split; [reflexivity|exact Hs'].
        -- exists (Conf (c_w c) (<[i := snd (F e0)]> (c_th c))), d, e. constructor; cbn [f_w f_data f_exp f_cd f_ce f_th c_w c_th]; auto.
           ++ rewrite lookup_insert_ne by auto. exact He.
           ++ rewrite latches_insert, delete_insert_ne by auto. cbn [latch_of].
              destruct (cover_inv _ _ _ _ _ _ Hc) as (_ & _ & HE). eapply HE; eauto. rewrite lookup_delete_ne by auto. exact Ege.
           ++ apply threl_upd; [exact Hth|]. split; [reflexivity|exact Hs'].
      * pose proof (Ho (f_w fc) d0 e0 d0 e0) as H1. rewrite Ef in H1. cbn in H1. injection H1 as H1. rewrite H1 in Ed', Ee'. cbn in Ed', Ee'. injection Ed' as <-. injection Ee' as <-.
        rewrite (insert_id (f_data fc) gd d0 Egd), (insert_id (f_exp fc) ge e0 Ege). pose proof (Ho (f_w fc) d e d0 e0) as H2. rewrite Ef in H2. cbn in H2.
        exists (Conf (with_dicts w' d e) (<[i := p']> (c_th c))), d, e. constructor; cbn [f_w f_data f_exp f_cd f_ce f_th c_w c_th]; auto.
        -- rewrite latches_insert. cbn [latch_of]. eapply cover_run; [exact Hc|exact Ec|]. rewrite Hw. exact H2.
        -- apply threl_upd; [exact Hth|]. split; [reflexivity|exact Hs'].
    + (* reading the fields *)
      injection E as <- <-. rewrite app_nil_r. exists c, d, e. constructor; cbn [f_w f_data f_exp f_cd f_ce f_th c_w c_th]; auto.
      * rewrite latches_insert. cbn [latch_of]. apply cover_add; [exact Hc|apply lookup_delete|apply lookup_delete|]. apply latches_none. eauto.
      * intros j. destruct (decide (j = i)) as [->|Hne]; [rewrite lookup_insert, Ec; exact Hi|rewrite lookup_insert_ne by auto; apply Hth].
    + cbn in Hi. subst p. assert (HL : latches (f_th fc) !! i = None) by (apply latches_none; eauto).
      destruct n as [|[|[|[|n]]]]; [| | | |discriminate].
      * destruct (w_writer (f_w fc) || negb (Nat.eqb (w_readers (f_w fc)) 0)) eqn:El; [discriminate|]. injection E as <- <-. rewrite app_nil_r.
        exists (Conf (set_lock (c_w c) true 0) (<[i := fl 1]> (c_th c))), d, e. constructor; cbn [f_w f_data f_exp f_cd f_ce f_th c_w c_th]; auto.
        -- rewrite Hw. reflexivity.
        -- rewrite latches_insert. cbn [latch_of]. eapply cover_run; [exact Hc|exact Ec|]. cbn. rewrite Hw. cbn. rewrite El. reflexivity.
        -- apply threl_upd; [exact Hth|reflexivity].
      * injection E as <- <-. rewrite app_nil_r. set (g := fresh (dom (f_data fc))).
        assert (Hg : f_data fc !! g = None) by (apply not_elem_of_dom, is_fresh).
        exists (Conf (set_data (c_w c) ∅) (<[i := fl 2]> (c_th c))), ∅, e. constructor; cbn [f_w f_data f_exp f_cd f_ce f_th c_w c_th]; auto.
        -- apply lookup_insert.
        -- rewrite Hw. reflexivity.
        -- rewrite latches_insert, delete_insert by exact Hg. cbn [latch_of]. rewrite (delete_notin (latches (f_th fc))) by exact HL. rewrite <- (insert_delete (f_data fc) (f_cd fc) d Hd).
           eapply (cover_reset_d w0 evs _ _ _ _ c d (f_cd fc) i _ (fl 2) eq_refl Hc); [rewrite Hw; reflexivity|apply lookup_delete|exact Ec|reflexivity|exact HL].
        -- apply threl_upd; [exact Hth|reflexivity].
      * injection E as <- <-. rewrite app_nil_r. set (g := fresh (dom (f_exp fc))).
        assert (Hg : f_exp fc !! g = None) by (apply not_elem_of_dom, is_fresh).
        exists (Conf (set_exp (c_w c) ∅) (<[i := fl 3]> (c_th c))), d, ∅. constructor; cbn [f_w f_data f_exp f_cd f_ce f_th c_w c_th]; auto.
        -- apply lookup_insert.
        -- rewrite Hw. reflexivity.
        -- rewrite latches_insert, delete_insert by exact Hg. cbn [latch_of]. rewrite (delete_notin (latches (f_th fc))) by exact HL. rewrite <- (insert_delete (f_exp fc) (f_ce fc) e He).
           eapply (cover_reset_e w0 evs _ _ _ _ c e (f_ce fc) i _ (fl 3) eq_refl Hc); [rewrite Hw; reflexivity|apply lookup_delete|exact Ec|reflexivity|exact HL].
        -- apply threl_upd; [exact Hth|reflexivity].
      * destruct (w_writer (f_w fc)) eqn:El; [|discriminate]. injection E as <- <-. rewrite app_nil_r.
        exists (Conf (set_lock (c_w c) false (w_readers (c_w c))) (<[i := fl 4]> (c_th c))), d, e. constructor; cbn [f_w f_data f_exp f_cd f_ce f_th c_w c_th]; auto.
        -- rewrite Hw. reflexivity.
        -- rewrite latches_insert. cbn [latch_of]. eapply cover_run; [exact Hc|exact Ec|]. cbn. rewrite Hw. cbn. rewrite El. reflexivity.
        -- apply threl_upd; [exact Hth|reflexivity].
  - assert (HR : exists r, c_th c !! i = Some (Ret r) /\ fc' = FConf (f_w fc) (f_data fc) (f_exp fc) (f_cd fc) (f_ce fc) (delete i (f_th fc)) /\ ev = [ERet i r]).
    { pose proof (Hth i) as Hi. destruct (f_th fc !! i) as [[[r|f] l|n]|] eqn:Ei; try discriminate; destruct (c_th c !! i) as [p|]; try contradiction.
      - injection E as <- <-. destruct Hi as [-> _]. eauto.
      - destruct n as [|[|[|[|[|n]]]]]; try discriminate. injection E as <- <-. cbn in Hi. subst p. exists RUnit. auto. }
    destruct HR as (r & Ec & -> & ->). exists (Conf (c_w c) (delete i (c_th c))), d, e. constructor; cbn [f_w f_data f_exp f_cd f_ce f_th c_w c_th]; auto.
    + rewrite latches_delete. eapply (cover_act _ _ _ _ _ _ (ARet i)); [apply cover_weaken; exact Hc|cbn; rewrite Ec; reflexivity|]. intros j Hj. injection Hj as <-. apply lookup_delete.
    + intros j. destruct (decide (j = i)) as [->|Hne]; [rewrite !lookup_delete; exact I|rewrite !lookup_delete_ne by auto; apply Hth].
  - destruct (w_now (f_w fc) <=? t) eqn:Et; [|discriminate]. injection E as <- <-. exists (Conf (set_now (c_w c) t) (c_th c)), d, e.
    constructor; cbn [f_w f_data f_exp f_cd f_ce f_th c_w c_th]; auto.
    + rewrite Hw. reflexivity.
    + eapply (cover_act _ _ _ _ _ _ (ATick t)); [exact Hc|cbn; rewrite Hw; cbn; rewrite Et; reflexivity|discriminate].
Qed.

(** ** C175: nothing more can be observed when pointers are read and used in two steps *)
Theorem C175_pointer_steps_unobservable w0 d0 e0 s fc evs :
  w_data w0 = Some d0 -> w_exp w0 = Some e0 -> fexec s (fstart w0 d0 e0) = Some (fc, evs) ->
  exists s' c d e, cexec s' (start w0) = Some (c, evs) /\
    f_data fc !! f_cd fc = Some d /\ f_exp fc !! f_ce fc = Some e /\ c_w c = with_dicts (f_w fc) d e /\ (f_th fc = ∅ -> c_th c = ∅).
Proof.
  intros Hd He E.
  assert (H0 : fsim w0 [] (fstart w0 d0 e0) (start w0) d0 e0).
  { constructor; cbn [fstart f_w f_data f_exp f_cd f_ce f_th c_w c_th start].
    - apply lookup_singleton.
    - apply lookup_singleton.
    - destruct w0. cbn in *. subst. reflexivity.
    - rewrite !delete_singleton. constructor; [exists []; reflexivity| |]; intros i gd ge f F d Hi; unfold latches in Hi; rewrite lookup_omap, lookup_empty in Hi; discriminate.
    - intros i. rewrite !lookup_empty. exact I. }
  assert (H : forall s evs0 fc0 c0 d e fc evs, fsim w0 evs0 fc0 c0 d e -> fexec s fc0 = Some (fc, evs) -> exists c d e, fsim w0 (evs0 ++ evs) fc c d e).
  { clear. induction s as [|a s IH]; intros evs0 fc0 c0 d e fc evs Hs E; cbn in E.
    - injection E as <- <-. rewrite app_nil_r. eauto.
    - destruct (fstep a fc0) as [[fc1 ev]|] eqn:Ea; [|discriminate]. destruct (fexec s fc1) as [[fc2 es]|] eqn:Es; [|discriminate]. injection E as <- <-.
      destruct (fsim_step _ _ _ _ _ _ _ _ _ Hs Ea) as (c1 & d1 & e1 & H1). rewrite app_assoc. eapply IH; eauto. }
  destruct (H _ _ _ _ _ _ _ _ H0 E) as (c & d & e & [H1 H2 H3 H4 H5]). destruct (cover_reach _ _ _ _ _ _ H4) as [s' Hs']. exists s', c, d, e.
  repeat (split; [assumption|]). intros Hem. apply map_empty. intros i. specialize (H5 i). rewrite Hem, lookup_empty in H5. destruct (c_th c !! i); [contradiction|reflexivity].
Qed.
(** The other way round: reading the pointers right before use is one of the schedules. *)
Definition unlatch (t : fthread) (p : prog reply) : Prop := match t with FRun q l => p = q /\ simple q /\ l = None | FFlush n => p = fl n /\ (n <= 4)%nat end.
Record bsim (c : conf) (fc : fconf) (d : ddict) (e : edict) : Prop := BSim {
  bs_d : f_data fc !! f_cd fc = Some d;
  bs_e : f_exp fc !! f_ce fc = Some e;
  bs_w : c_w c = with_dicts (f_w fc) d e;
  bs_th : forall i, match f_th fc !! i, c_th c !! i with Some t, Some p => unlatch t p | None, None => True | _, _ => False end }.
Lemma bth_upd (fth : gmap nat fthread) (cth : gmap nat (prog reply)) i t p :
  (forall j, match fth !! j, cth !! j with Some t, Some p => unlatch t p | None, None => True | _, _ => False end) -> unlatch t p ->
  forall j, match <[i := t]> fth !! j, <[i := p]> cth !! j with Some t, Some p => unlatch t p | None, None => True | _, _ => False end.
Proof. intros H Ht j. destruct (decide (j = i)) as [->|Hne]; [rewrite !lookup_insert; exact Ht|]. rewrite !lookup_insert_ne by auto. apply H. Qed.
Lemma bsim_step c fc d e a c' ev : bsim c fc d e -> cstep a c = Some (c', ev) -> exists s fc' d' e', fexec s fc = Some (fc', ev) /\ bsim c' fc' d' e'.
Proof.
  intros [Hd He Hw Hth] E. destruct a as [i cl|i|i|t]; cbn in E.
  - destruct (c_th c !! i) eqn:Ei; [discriminate|]. injection E as <- <-. pose proof (Hth i) as Hi. rewrite Ei in Hi. destruct (f_th fc !! i) eqn:Ef; [contradiction|].
    eexists [AInv i cl], _, d, e. split; [cbn; rewrite Ef; reflexivity|]. constructor; cbn [f_w f_data f_exp f_cd f_ce f_th c_w c_th]; auto.
    apply bth_upd; [exact Hth|]. destruct cl; try (split; [reflexivity|split; [apply simple_call; discriminate|reflexivity]]). split; [reflexivity|lia].
  - destruct (c_th c !! i) as [[r|f]|] eqn:Ei; try discriminate. destruct (f (c_w c)) as [w' p'| |] eqn:Ef; try discriminate. injection E as <- <-.
    pose proof (Hth i) as Hi. rewrite Ei in Hi. destruct (f_th fc !! i) as [[q l|n]|] eqn:Et; [| |contradiction].
    + destruct Hi as (<- & Hs & ->). inversion Hs as [|f0 Hk Hn]; subst f0. pose proof (Hn _ _ _ Ef) as Hs'. rewrite Hw in Ef.
      assert (HD : exists d' e', w' = with_dicts w' d' e').
      { destruct Hk as [[F HF]|[[F HF]|Ho]].
        - rewrite (HF (with_dicts (f_w fc) d e) d eq_refl) in Ef. injection Ef as <- _. eexists _, _. reflexivity.
        - rewrite (HF (with_dicts (f_w fc) d e) e eq_refl) in Ef. injection Ef as <- _. eexists _, _. reflexivity.
        - pose proof (Ho (f_w fc) d e d e) as H1. rewrite Ef in H1. cbn in H1. injection H1 as H1. eauto. }
      destruct HD as (d' & e' & HD). assert (Ed : w_data w' = Some d') by (rewrite HD; reflexivity). assert (Ee : w_exp w' = Some e') by (rewrite HD; reflexivity).
      eexists [ARun i; ARun i], _, d', e'. split.
      * cbn. rewrite Et. cbn. rewrite lookup_insert. cbn. rewrite Hd, He, Ef, Ed, Ee. reflexivity.
      * constructor; cbn [f_w f_data f_exp f_cd f_ce f_th c_w c_th]; [apply lookup_insert|apply lookup_insert|exact HD|]. rewrite insert_insert. apply bth_upd; [exact Hth|].
        split; [reflexivity|]. split; [exact Hs'|reflexivity].
    + destruct Hi as [Hp Hn]. destruct n as [|[|[|[|[|n]]]]]; try (cbn in Hp; discriminate); try lia.
      * cbn in Hp. injection Hp as ->. rewrite Hw in Ef. cbn in Ef. destruct (w_writer (f_w fc) || negb (Nat.eqb (w_readers (f_w fc)) 0)) eqn:El; [discriminate|]. injection Ef as <- <-.
        eexists [ARun i], _, d, e. split; [cbn; rewrite Et, El; reflexivity|]. constructor; cbn [f_w f_data f_exp f_cd f_ce f_th c_w c_th]; auto.
        apply bth_upd; [exact Hth|]. split; [reflexivity|lia].
      * cbn in Hp. injection Hp as ->. rewrite Hw in Ef. cbn in Ef. injection Ef as <- <-.
        eexists [ARun i], _, ∅, e. split; [cbn; rewrite Et; reflexivity|]. constructor; cbn [f_w f_data f_exp f_cd f_ce f_th c_w c_th]; auto; [apply lookup_insert|].
        apply bth_upd; [exact Hth|]. split; [reflexivity|lia].
      * cbn in Hp. injection Hp as ->. rewrite Hw in Ef. cbn in Ef. injection Ef as <- <-.
        eexists [ARun i], _, d, ∅. split; [cbn; rewrite Et; reflexivity|]. constructor; cbn [f_w f_data f_exp f_cd f_ce f_th c_w c_th]; auto; [apply lookup_insert|].
        apply bth_upd; [exact Hth|]. split; [reflexivity|lia].
      * cbn in Hp. injection Hp as ->. rewrite Hw in Ef. cbn in Ef. destruct (w_writer (f_w fc)) eqn:El; [|discriminate]. injection Ef as <- <-.
        eexists [ARun i], _, d, e. split; [cbn; rewrite Et, El; reflexivity|]. constructor; cbn [f_w f_data f_exp f_cd f_ce f_th c_w c_th]; auto.
        apply bth_upd; [exact Hth|]. split; [reflexivity|lia].
  - destruct (c_th c !! i) as [[r|f]|] eqn:Ei; try discriminate. injection E as <- <-. pose proof (Hth i) as Hi. rewrite Ei in Hi.
    assert (HF : fstep (ARet i) fc = Some (FConf (f_w fc) (f_data fc) (f_exp fc) (f_cd fc) (f_ce fc) (delete i (f_th fc)), [ERet i r])).
    { cbn. destruct (f_th fc !! i) as [[q l|n]|]; [| |contradiction].
      - destruct Hi as (<- & _). reflexivity.
      - destruct Hi as [Hp Hn]. destruct n as [|[|[|[|[|n]]]]]; try (cbn in Hp; discriminate); try lia. cbn in Hp. injection Hp as ->. reflexivity. }
    eexists [ARet i], _, d, e. split; [cbn [fexec]; rewrite HF; reflexivity|]. constructor; cbn [f_w f_data f_exp f_cd f_ce f_th c_w c_th]; auto.
    intros j. destruct (decide (j = i)) as [->|Hne]; [rewrite !lookup_delete; exact I|rewrite !lookup_delete_ne by auto; apply Hth].
  - destruct (w_now (c_w c) <=? t) eqn:Et; [|discriminate]. injection E as <- <-. eexists [ATick t], _, d, e. split.
    + cbn. rewrite Hw in Et. cbn in Et. rewrite Et. reflexivity.
    + constructor; cbn [f_w f_data f_exp f_cd f_ce f_th c_w c_th]; auto. rewrite Hw. reflexivity.
Qed.
Lemma fexec_app s1 s2 c : fexec (s1 ++ s2) c =
  match fexec s1 c with Some (c1, e1) => match fexec s2 c1 with Some (c2, e2) => Some (c2, e1 ++ e2) | None => None end | None => None end.
Proof.
  revert c. induction s1 as [|a s1 IH]; intros c; cbn.
  - destruct (fexec s2 c) as [[]|]; reflexivity.
  - destruct (fstep a c) as [[c1 e]|]; [|reflexivity]. rewrite IH.
    destruct (fexec s1 c1) as [[c2 e2]|]; [|reflexivity]. destruct (fexec s2 c2) as [[]|]; [|reflexivity]. rewrite app_assoc. reflexivity.
Qed.
Theorem C175_same_observations w0 d0 e0 evs : w_data w0 = Some d0 -> w_exp w0 = Some e0 ->
  (exists s fc, fexec s (fstart w0 d0 e0) = Some (fc, evs)) <-> (exists s c, cexec s (start w0) = Some (c, evs)).
Proof.
  intros Hd He. split.
  - intros (s & fc & E). destruct (C175_pointer_steps_unobservable w0 d0 e0 s fc evs Hd He E) as (s' & c & _ & _ & H & _). eauto.
  - intros (s & c & E).
    assert (H0 : bsim (start w0) (fstart w0 d0 e0) d0 e0).
    { constructor; cbn [fstart f_w f_data f_exp f_cd f_ce f_th c_w c_th start]; try apply lookup_singleton.
      - destruct w0. cbn in *. subst. reflexivity.
      - intros i. rewrite !lookup_empty. exact I. }
    destruct (cexec_inv (fun c evs => exists s fc d e, fexec s (fstart w0 d0 e0) = Some (fc, evs) /\ bsim c fc d e) s (start w0) c evs) with (evs0 := @nil event) as (s' & fc & d & e & H & _); auto.
    + intros c1 evs1 a c2 ev (s1 & fc1 & d1 & e1 & F1 & B1) Ea. destruct (bsim_step _ _ _ _ _ _ _ B1 Ea) as (s2 & fc2 & d2 & e2 & F2 & B2).
      exists (s1 ++ s2), fc2, d2, e2. rewrite fexec_app, F1, F2. auto.
    + exists [], (fstart w0 d0 e0), d0, e0. auto.
    + eauto.
Qed.
(** MSet has read the pointer when Flush replaces the dictionary: it returns OK, and the key is not there. *)
Example C175_nonvacuous :
  match fexec ([AInv 1 (CMSet [(bs "k", bs "v")]); ARun 1; AInv 2 CFlush] ++ runs 2 4 ++ [ARet 2; ARun 1; ARet 1; AInv 2 (CGet (bs "k"))] ++ runs 2 6 ++ [ARet 2]) (fstart (new_world 0) ∅ ∅) with
  | Some (_, evs) => Some evs | None => None end =
  Some [EInv 1 (CMSet [(bs "k", bs "v")]); EInv 2 CFlush; ERet 2 RUnit; ERet 1 (RStr (bs "OK", None)); EInv 2 (CGet (bs "k")); ERet 2 (RStr ([], Some ErrKeyNil))].
Proof. vm_compute. reflexivity. Qed.
