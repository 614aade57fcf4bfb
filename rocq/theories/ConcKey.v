(** * ConcKey: the value under one key while other goroutines read it and write other keys (proof machinery) *)
From stdpp Require Import relations.
From Verif Require Import Base GoFloat CacheModel CacheSpec CacheAbs CacheConc ConcLin ConcSafe ConcDl ConcHash.

Section key.
Variables (k : gostr) (S0 S1 : option gval -> Prop).
Hypothesis S10 : forall x, S1 x -> S0 x.
(** [k] has no deadline and what it holds satisfies [S] *)
Definition vinv (S : option gval -> Prop) (w : world) : Prop := exists d e,
  w_data w = Some d /\ w_exp w = Some e /\ e !! k = None /\ S (d !! k).
Notation I_ := (vinv S0). Notation J_ := (vinv S1).
Lemma vinv_stable S : stable (vinv S). Proof. intros w t (d & e & H). exists d, e. exact H. Qed.
Lemma vinv_JI w : J_ w -> I_ w. Proof. intros (d & e & H1 & H2 & H3 & H4). exists d, e. auto. Qed.
Lemma ks_frame {A} (Q : A -> Prop) (g : world -> ares A) : (forall (S : option gval -> Prop) w w' a, (forall y, S y -> S0 y) -> vinv S w -> g w = Go w' a -> vinv S w' /\ Q a) -> keeps I_ J_ Q (atom g).
Proof.
  intros H. apply keeps_atom. intros w w' a Hw E. destruct (H S0 w w' a (fun _ h => h) Hw E) as [H1 H2]. split; [exact H1|]. split; [|exact H2]. intros HJ. apply (H S1 w w' a S10 HJ E).
Qed.
Ltac fr := apply ks_frame; intros S w w' a HS (d & e & Hd & He & Hek & Hk); cbn; repeat match goal with H : w_data ?w = Some _ |- context [w_data ?w] => rewrite H | H : w_exp ?w = Some _ |- context [w_exp ?w] => rewrite H end.
Lemma ks_now : keeps I_ J_ top p_now.
Proof. fr. intros [= <- <-]. split; [|exact I]. exists d, e. auto. Qed.
Lemma ks_data_load k' : keeps I_ J_ (fun v => k' = k -> S0 v) (data_load k').
Proof. fr. intros [= <- <-]. split; [exists d, e; auto|]. intros ->. auto. Qed.
Lemma ks_data_store_ne k' v : k' <> k -> keeps I_ J_ top (data_store k' v).
Proof. intros Hne. fr. intros [= <- <-]. split; [|exact I]. exists (<[k' := v]> d), e. cbn. rewrite lookup_insert_ne by auto. auto. Qed.
Lemma ks_data_delete k' : k' <> k -> keeps I_ J_ top (data_delete k').
Proof. intros Hne. fr. intros [= <- <-]. split; [|exact I]. exists (delete k' d), e. cbn. rewrite lookup_delete_ne by auto. auto. Qed.
Lemma ks_data_los k' v : k' <> k -> keeps I_ J_ top (data_load_or_store k' v).
Proof.
  intros Hne. fr. destruct (d !! k') eqn:E; intros [= <- <-]; (split; [|exact I]); [exists d, e; auto|]. exists (<[k' := v]> d), e. cbn. rewrite lookup_insert_ne by auto. auto.
Qed.
Lemma ks_exp_load k' : keeps I_ J_ (fun v => k' = k -> v = None) (exp_load k').
Proof. fr. intros [= <- <-]. split; [exists d, e; auto|]. intros ->. exact Hek. Qed.
Lemma ks_exp_store k' t : k' <> k -> keeps I_ J_ top (exp_store k' t).
Proof. intros Hne. fr. intros [= <- <-]. split; [|exact I]. exists d, (<[k' := t]> e). cbn. rewrite lookup_insert_ne by auto. auto. Qed.
Lemma ks_exp_delete k' : keeps I_ J_ top (exp_delete k').
Proof. fr. intros [= <- <-]. split; [|exact I]. exists d, (delete k' e). cbn. rewrite lookup_delete_None. auto. Qed.
Lemma ks_alloc : keeps I_ J_ top h_alloc.
Proof. fr. intros [= <- <-]. split; [|exact I]. exists d, e. auto. Qed.
Lemma ks_h {A} l' (g : hobj -> hobj * A) : keeps I_ J_ top (h_atom l' g).
Proof. fr. destruct (w_heap w !! l') as [o'|]; [|discriminate]. destruct (g o') as [o2 a2]. intros [= <- <-]. split; [|exact I]. exists d, e. auto. Qed.
Lemma ks_lock : keeps I_ J_ top p_lock.
Proof. fr. destruct (_ || _); [discriminate|]. intros [= <- <-]. split; [|exact I]. exists d, e. auto. Qed.
Lemma ks_unlock : keeps I_ J_ top p_unlock.
Proof. fr. destruct (w_writer w); [|discriminate]. intros [= <- <-]. split; [|exact I]. exists d, e. auto. Qed.
Lemma ks_rlock : keeps I_ J_ top p_rlock.
Proof. fr. destruct (w_writer w); [discriminate|]. intros [= <- <-]. split; [|exact I]. exists d, e. auto. Qed.
Lemma ks_runlock : keeps I_ J_ top p_runlock.
Proof. fr. destruct (w_readers w); [discriminate|]. intros [= <- <-]. split; [|exact I]. exists d, e. auto. Qed.
Lemma ks_locked {A} (Q : A -> Prop) p : keeps I_ J_ Q p -> keeps I_ J_ Q (locked p).
Proof.
  intros Hp. unfold locked. eapply keeps_bind; [apply ks_lock|]. intros _ _. eapply keeps_bind; [exact Hp|]. intros r Hr. eapply keeps_bind; [apply ks_unlock|]. intros _ _. constructor. exact Hr.
Qed.
Lemma ks_rlocked {A} (Q : A -> Prop) p : keeps I_ J_ Q p -> keeps I_ J_ Q (rlocked p).
Proof.
  intros Hp. unfold rlocked. eapply keeps_bind; [apply ks_rlock|]. intros _ _. eapply keeps_bind; [exact Hp|]. intros r Hr. eapply keeps_bind; [apply ks_runlock|]. intros _ _. constructor. exact Hr.
Qed.
Ltac bnd lem := eapply keeps_bind; [apply lem|].
Ltac done_ := constructor; exact I.
Lemma ks_expired k' : keeps I_ J_ (fun b => k' = k -> b = false) (expired k').
Proof.
  unfold expired. bnd ks_exp_load. intros [dl|] H; [|constructor; auto]. assert (k' <> k) by (intros E; specialize (H E); discriminate).
  bnd ks_now. intros t _. destruct (dl <? t); [|constructor; auto]. bnd ks_data_delete; [auto|]. intros _ _. bnd ks_exp_delete. intros _ _. constructor. tauto.
Qed.
Lemma ks_c_get k' : keeps I_ J_ (fun v => k' = k -> S0 v) (c_get k').
Proof.
  unfold c_get. bnd ks_data_load. intros [v|] H; [|constructor; exact H]. bnd ks_expired. intros b Hb. constructor.
  intros E. rewrite (Hb E). auto.
Qed.
Lemma ks_load_live k' : keeps I_ J_ (fun v => k' = k -> S0 v) (load_live k').
Proof. exact (ks_c_get k'). Qed.
Lemma ks_expires k' d : k' <> k -> keeps I_ J_ top (expires k' d).
Proof. intros H. unfold expires. destruct (d <=? 0); [apply ks_exp_delete|]. bnd ks_now. intros t _. apply ks_exp_store, H. Qed.
Lemma ks_incr_by k' d : k' <> k -> keeps I_ J_ top (incr_by k' d).
Proof.
  intros H. unfold incr_by. bnd ks_data_los; [exact H|]. intros [v b] _. cbn [fst snd]. destruct b; cbn [negb]; [|done_]. destruct (incr_val v d) as [[v' n]|]; [|done_].
  bnd ks_data_store_ne; [exact H|]. intros; done_.
Qed.
Lemma ks_mset kv : k ∉ map fst kv -> keeps I_ J_ top (mset_loop kv).
Proof.
  induction kv as [|[k' v] r IH]; intros H; cbn [mset_loop]; [done_|]. cbn in H. apply not_elem_of_cons in H as [H1 H2]. bnd ks_data_store_ne; [auto|]. auto.
Qed.
Lemma ks_msetnx kv : k ∉ map fst kv -> forall n, keeps I_ J_ top (msetnx_loop kv n).
Proof.
  induction kv as [|[k' v] r IH]; intros H n; cbn [msetnx_loop]; [done_|]. cbn in H. apply not_elem_of_cons in H as [H1 H2]. bnd ks_data_los; [auto|]. auto.
Qed.
(** the slots of MGet for [k] *)
Definition slots_ok (ks : list gostr) (sl : list slot) : Prop := forall n, ks !! n = Some k -> exists y, S0 y /\ sl !! n = Some (slot_of y).
Lemma ks_mget ks : keeps I_ J_ (slots_ok ks) (mget_loop ks).
Proof.
  induction ks as [|k' r IH]; cbn [mget_loop]; [constructor; intros n; discriminate|]. bnd ks_c_get. intros v Hv. eapply keeps_bind; [exact IH|]. intros sl Hsl. constructor.
  intros [|n] E; cbn in E; [injection E as ->; exists v; auto|apply Hsl, E].
Qed.
Lemma ks_exists ks : forall n, keeps I_ J_ top (exists_loop ks n).
Proof. induction ks as [|k' r IH]; intros n; cbn [exists_loop]; [done_|]. bnd ks_data_load. intros v _. apply IH. Qed.
Lemma ks_he_get l' g : keeps I_ J_ top (he_get l' g).
Proof. unfold he_get. bnd (@ks_h (option gval)). intros; done_. Qed.
Lemma ks_he_set l' g v : keeps I_ J_ top (he_set l' g v).
Proof.
  unfold he_set. bnd (@ks_h (gval * bool)). intros r _. eapply (keeps_bind _ _ top); [destruct (snd r); [apply ks_h|done_]|]. intros _ _. bnd (@ks_h Z). intros n _. bnd (@ks_h unit). intros; done_.
Qed.
Lemma ks_ghe k' : keeps I_ J_ top (get_hash_entry k').
Proof. unfold get_hash_entry. bnd ks_c_get. intros; done_. Qed.
Lemma ks_gon k' h : k' <> k -> keeps I_ J_ top (get_or_new k' h).
Proof. intros H. unfold get_or_new, new_hash. destruct h; try done_; (bnd ks_alloc; intros l' _; bnd ks_data_store_ne; [exact H|]; intros; done_). Qed.
Lemma ks_range l' : keeps I_ J_ top (h_range l').
Proof.
  unfold h_range. eapply keeps_bind; [apply (@ks_h (list gostr))|]. intros ks _. induction ks as [|g r IH]; cbn [h_visit]; [constructor; exact I|].
  eapply keeps_bind; [apply (@ks_h (option gval))|]. intros v _. eapply keeps_bind; [exact IH|]. intros es _. constructor. exact I.
Qed.
Lemma ks_hdel l' fs : forall n, keeps I_ J_ top (hdel_loop l' fs n).
Proof. induction fs as [|g r IH]; intros n; cbn [hdel_loop]; [done_|]. bnd ks_he_get. intros [s|] _; [|auto]. bnd (@ks_h unit). intros _ _. auto. Qed.
Lemma ks_hmset l' fv : forall n, keeps I_ J_ top (hmset_loop l' fv n).
Proof. induction fv as [|[g v] r IH]; intros n; cbn [hmset_loop]; [done_|]. bnd ks_he_set. auto. Qed.
Lemma ks_hmget h fs : keeps I_ J_ top (hmget_loop h fs).
Proof.
  induction fs as [|g r IH]; cbn [hmget_loop]; [done_|]. eapply (keeps_bind _ _ top).
  - destruct h as [|l'|]; [done_| |done_]. bnd ks_he_get. intros; done_.
  - intros s _. eapply keeps_bind; [exact IH|]. intros; done_.
Qed.
Lemma ks_panic {A} (Q : A -> Prop) : keeps I_ J_ Q panic.
Proof. constructor; discriminate. Qed.
Ltac pm := cbn [call_prog]; unfold pmap; eapply (keeps_bind _ _ top); [|intros; done_].
Lemma ks_call c : ~ names c k \/ reads c -> keeps I_ J_ top (call_prog c).
Proof.
  intros Hs. assert (Hne : forall k', keys_of c = Some [k'] -> reads c \/ k' <> k).
  { intros k' E. destruct Hs as [Hs|Hs]; [right|left; exact Hs]. intros ->. apply Hs. unfold names. rewrite E. left. }
  destruct c; try (destruct (Hne _ eq_refl) as [Hr|Hk]; [try destruct Hr|]); clear Hne; pm; unf;
    try (apply ks_locked); try (apply ks_rlocked);
    try (bnd ks_c_get; intros; done_); try (bnd ks_load_live; intros; done_); try (apply ks_incr_by; assumption); try apply ks_exists;
    try (eapply keeps_top, ks_mget).
  - bnd ks_data_store_ne; [exact Hk|]. intros; done_.
  - bnd ks_data_los; [exact Hk|]. intros; done_.
  - bnd ks_data_store_ne; [exact Hk|]. intros _ _. bnd ks_expires; [exact Hk|]. intros; done_.
  - bnd ks_data_store_ne; [exact Hk|]. intros _ _. bnd ks_expires; [exact Hk|]. intros; done_.
  - bnd ks_c_get. intros y _. bnd ks_data_store_ne; [exact Hk|]. intros; done_.
  - bnd ks_load_live. intros [y|] _; [destruct (fmt_string y); [|done_]|]; (bnd ks_data_store_ne; [exact Hk|]; intros; done_).
  - destruct (pos <? 0); [done_|]. cbn zeta. bnd ks_load_live. intros [y|] _; [destruct (fmt_string y); [|done_]|destruct (pos >? max_alloc); [apply kp_step; discriminate|]]; (bnd ks_data_store_ne; [exact Hk|]; intros; done_).
  - bnd ks_data_los; [exact Hk|]. intros [y b] _. cbn [fst snd]. destruct b; cbn [negb]; [|done_]. destruct y; try done_; (bnd ks_data_store_ne; [exact Hk|]; intros; done_).
  - destruct Hs as [Hs|[]]. bnd ks_mset; [exact Hs|]. intros; done_.
  - destruct Hs as [Hs|[]]. apply ks_msetnx, Hs.
  - bnd ks_c_get. intros y _. bnd ks_data_delete; [exact Hk|]. intros _ _. bnd ks_exp_delete. intros; done_.
  - destruct Hs as [Hs|[]]. elim Hs. exact I.
  - destruct Hs as [Hs|[]]. elim Hs. exact I.
  - bnd ks_ghe. intros h _. destruct h; [| |done_]; (bnd ks_gon; [exact Hk|]; intros l' _; bnd ks_he_set; intros; done_).
  - bnd ks_ghe. intros h _. destruct h; [| |done_]; (bnd ks_gon; [exact Hk|]; intros l' _; bnd (@ks_h (gval * bool)); intros r _; destruct (snd r); [done_|]; bnd (@ks_h Z); intros n _; bnd (@ks_h unit); intros; done_).
  - bnd ks_ghe. intros [|l'|] _; [done_| |done_]. bnd ks_he_get. intros y _. cbn zeta. bnd (@ks_h Z). intros n _. bnd (@ks_h unit). intros; done_.
  - bnd ks_ghe. intros [|l'|] _; [done_| |done_]. bnd ks_hdel. intros n _. eapply (keeps_bind _ _ top); [|intros; done_]. destruct (n =? 0); [done_|]. bnd (@ks_h Z). intros n' _. apply ks_h.
  - bnd ks_ghe. intros [|l'|] _; [done_| |done_]. bnd (@ks_h Z). intros; done_.
  - bnd ks_ghe. intros [|l'|] _; [done_| |done_]. bnd ks_he_get. intros; done_.
  - bnd ks_ghe. intros h _. destruct h; [| |done_]; (bnd ks_gon; [exact Hk|]; intros l' _; bnd (@ks_h (option gval)); intros [y|] _; [destruct (hincr_val y d); [|done_]|]; (bnd ks_he_set; intros; done_)).
  - bnd ks_ghe. intros h _. destruct h; [| |done_]; (bnd ks_gon; [exact Hk|]; intros l' _; bnd (@ks_h (option gval)); intros [y|] _; [destruct (hincrf_val y d); [|done_]|]; (bnd ks_he_set; intros; done_)).
  - bnd ks_ghe. intros h _. destruct h; [| |done_]; (bnd ks_gon; [exact Hk|]; intros l' _; bnd ks_hmset; intros; done_).
  - bnd ks_ghe. intros h _. destruct h; [| |done_]; (bnd ks_hmget; intros; done_).
  - bnd ks_ghe. intros [|l'|] _; [apply ks_panic| |done_]. bnd ks_range. intros; done_.
  - bnd ks_ghe. intros [|l'|] _; [apply ks_panic| |done_]. bnd ks_range. intros; done_.
  - bnd ks_ghe. intros [|l'|] _; [apply ks_panic| |done_]. bnd ks_range. intros es _. destruct (existsb hgetall_bad es); [apply ks_panic|done_].
  - bnd ks_ghe. intros [|l'|] _; [done_| |done_]. bnd ks_he_get. intros; done_.
Qed.
(** Get and MGet *)
Lemma ks_get : keeps I_ J_ (fun r => exists y, S0 y /\ r = RStr (match y with None => ([], Some ErrKeyNil) | Some x => fmt_ret x end)) (call_prog (CGet k)).
Proof.
  cbn [call_prog]. unfold pmap, m_get. eapply (keeps_bind _ _ (fun r => exists y, S0 y /\ r = match y with None => ([], Some ErrKeyNil) | Some x => fmt_ret x end)).
  - apply ks_rlocked. bnd ks_c_get. intros y Hy. constructor. exists y. auto.
  - intros r (y & H1 & ->). constructor. eauto.
Qed.
Lemma ks_mget_call ks : keeps I_ J_ (fun r => exists sl, r = RSlots (sl, None) /\ slots_ok ks sl) (call_prog (CMGet ks)).
Proof. cbn [call_prog]. unfold pmap, m_mget. bnd ks_mget. intros sl Hsl. constructor. exists sl. auto. Qed.
(** MSet whose value for [k] is [v] *)
Lemma ks_mset_same kv v : (forall v', (k, v') ∈ kv -> v' = v) -> S0 (Some (try_int64 v)) -> S1 (Some (try_int64 v)) -> keeps I_ J_ top (mset_loop kv).
Proof.
  intros H H0 H1. induction kv as [|[k' v'] r IH]; cbn [mset_loop]; [done_|]. assert (IH' : keeps I_ J_ top (mset_loop r)) by (apply IH; intros v2 Hv2; apply H; right; exact Hv2).
  destruct (decide (k' = k)) as [->|Hne]; [|bnd ks_data_store_ne; [exact Hne|]; auto]. rewrite (H v') by left.
  eapply (keeps_bind _ _ top); [|auto]. apply keeps_atom. intros w w' a (d & e & Hd & He & Hek & Hk). rewrite Hd. intros [= <- <-].
  split; [exists (<[k := try_int64 v]> d), e; cbn; rewrite lookup_insert; auto|]. split; [|exact I]. intros _. exists (<[k := try_int64 v]> d), e; cbn; rewrite lookup_insert; auto.
Qed.
Lemma mset_est kv v : (k, v) ∈ kv -> (forall v', (k, v') ∈ kv -> v' = v) -> S0 (Some (try_int64 v)) -> S1 (Some (try_int64 v)) -> est I_ J_ (call_prog (CMSet kv)).
Proof.
  intros Hin H H0 H1. cbn [call_prog]. unfold pmap, m_mset.
  induction kv as [|[k' v'] r IH]; [inversion Hin|]. destruct (decide (k' = k)) as [->|Hne].
  - rewrite (H v') by left. constructor. intros w w' p' (d & e & Hd & He & Hek & Hk). cbn. rewrite Hd. intros [= <- <-]. right.
    split; [exists (<[k := try_int64 v]> d), e; cbn; rewrite lookup_insert; auto|]. eapply keeps_narrow; [exact vinv_JI|].
    eapply (keeps_bind _ _ top); [|intros; done_]. eapply (keeps_bind _ _ top); [|intros; done_]. apply (ks_mset_same r v); auto. intros v2 Hv2. apply H. right. exact Hv2.
  - assert (Hr : est I_ J_ (pbind (pbind (mset_loop r) (fun _ => Ret (bs "OK"))) (fun s => Ret (RStr (noerr s))))).
    { apply IH; [inversion Hin; subst; [congruence|assumption]|]. intros v2 Hv2. apply H. right. exact Hv2. }
    constructor. intros w w' p' (d & e & Hd & He & Hek & Hk). cbn. rewrite Hd. intros [= <- <-]. left. split; [|exact Hr].
    exists (<[k' := try_int64 v']> d), e. cbn. rewrite lookup_insert_ne by auto. auto.
Qed.
End key.
