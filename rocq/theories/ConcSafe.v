(** * ConcSafe: no deadlock and no crash among concurrent calls (proof machinery) *)
From stdpp Require Import relations.
From Verif Require Import Base GoFloat CacheModel CacheSpec CacheAbs CacheConc ConcLin.

(** ** programs without lock operations *)
Inductive nl {R} : prog R -> Prop :=
| nl_ret r : nl (Ret r)
| nl_step f : (forall w, f w <> Blocked) ->
    (forall w w' p', f w = Go w' p' -> w_writer w' = w_writer w /\ w_readers w' = w_readers w) ->
    (forall w w' p', f w = Go w' p' -> nl p') -> nl (Step f).
Lemma nl_bind {A B} (p : prog A) (k : A -> prog B) : nl p -> (forall r, nl (k r)) -> nl (pbind p k).
Proof.
  intros Hp Hk. induction Hp as [r|f H1 H2 H3 IH]; cbn; [apply Hk|]. constructor.
  - intros w. specialize (H1 w). destruct (f w); congruence.
  - intros w w' p'. destruct (f w) as [w1 p1| |] eqn:E; try discriminate. intros [= <- <-]. eauto.
  - intros w w' p'. destruct (f w) as [w1 p1| |] eqn:E; try discriminate. intros [= <- <-]. eauto.
Qed.
Lemma nl_atom {A} (f : world -> ares A) : (forall w, f w <> Blocked) ->
  (forall w w' a, f w = Go w' a -> w_writer w' = w_writer w /\ w_readers w' = w_readers w) -> nl (atom f).
Proof.
  intros H1 H2. constructor.
  - intros w. specialize (H1 w). destruct (f w); congruence.
  - intros w w' p'. destruct (f w) eqn:E; try discriminate. intros [= <- <-]. eauto.
  - intros w w' p'. destruct (f w) eqn:E; try discriminate. intros [= <- <-]. constructor.
Qed.

(** ** programs that do not crash on a well-formed cache *)
Definition valid (w : world) (l : positive) : Prop := is_Some (w_heap w !! l).
Record okd (w : world) : Prop := Okd {
  okd_data : is_Some (w_data w);
  okd_exp : is_Some (w_exp w);
  okd_ptr : forall d k l, w_data w = Some d -> d !! k = Some (VHash l) -> valid w l;
  okd_flat : forall l o f v, w_heap w !! l = Some o -> h_map o !! f = Some v -> scalar v }.

Inductive safe {R} (Q : (positive -> Prop) -> R -> Prop) : (positive -> Prop) -> prog R -> Prop :=
| safe_ret (L : positive -> Prop) r : Q L r -> safe Q L (Ret r)
| safe_step (L : positive -> Prop) f :
    (forall w, okd w -> (forall l, L l -> valid w l) -> f w <> Panic) ->
    (forall w w' p', okd w -> (forall l, L l -> valid w l) -> f w = Go w' p' -> okd w') ->
    (forall w w' p', okd w -> (forall l, L l -> valid w l) -> f w = Go w' p' -> forall l, valid w l -> valid w' l) ->
    (forall w w' p', okd w -> (forall l, L l -> valid w l) -> f w = Go w' p' -> safe Q (valid w') p') ->
    safe Q L (Step f).
Lemma safe_mono {R} (Q : (positive -> Prop) -> R -> Prop) (L L' : positive -> Prop) p :
  (forall (L L' : positive -> Prop) r, (forall l, L l -> L' l) -> Q L r -> Q L' r) ->
  (forall l, L l -> L' l) -> safe Q L p -> safe Q L' p.
Proof. intros HQ HL Hp. destruct Hp as [L r H|L f H1 H2 H3 H4]; [constructor; eauto|constructor; eauto]. Qed.
Lemma safe_bind {A B} (Q' : (positive -> Prop) -> A -> Prop) (Q : (positive -> Prop) -> B -> Prop) L p (k : A -> prog B) :
  safe Q' L p -> (forall (L' : positive -> Prop) r, (forall l, L l -> L' l) -> Q' L' r -> safe Q L' (k r)) -> safe Q L (pbind p k).
Proof.
  intros Hp. induction Hp as [L r H|L f H1 H2 H3 H4 IH]; intros Hk; cbn; [apply Hk; auto|]. constructor.
  - intros w Hw HL. specialize (H1 w Hw HL). destruct (f w); congruence.
  - intros w w' p' Hw HL. destruct (f w) as [w1 p1| |] eqn:E; try discriminate. intros [= <- <-]. eauto.
  - intros w w' p' Hw HL. destruct (f w) as [w1 p1| |] eqn:E; try discriminate. intros [= <- <-]. eauto.
  - intros w w' p' Hw HL. destruct (f w) as [w1 p1| |] eqn:E; try discriminate. intros [= <- <-].
    eapply IH; [exact Hw|exact HL|exact E|]. intros L' r HL' HQ. apply Hk; [|exact HQ]. intros l Hl. apply HL'. eapply H3; eauto.
Qed.
Lemma safe_atom {A} (Q : (positive -> Prop) -> A -> Prop) (L : positive -> Prop) (f : world -> ares A) :
  (forall w, okd w -> (forall l, L l -> valid w l) -> match f w with
     | Panic => False | Blocked => True
     | Go w' a => okd w' /\ (forall l, valid w l -> valid w' l) /\ Q (valid w') a end) -> safe Q L (atom f).
Proof.
  intros H. constructor.
  - intros w Hw HL. specialize (H w Hw HL). destruct (f w); [congruence|congruence|tauto].
  - intros w w' p' Hw HL. specialize (H w Hw HL). destruct (f w); try discriminate. intros [= <- <-]. tauto.
  - intros w w' p' Hw HL. specialize (H w Hw HL). destruct (f w); try discriminate. intros [= <- <-]. tauto.
  - intros w w' p' Hw HL. specialize (H w Hw HL). destruct (f w); try discriminate. intros [= <- <-]. constructor. tauto.
Qed.

(** ** atoms *)
Ltac nl_tac := apply nl_atom; [intros [d e h n b r t0]|intros [d e h n b r t0] w' a]; cbn;
  repeat match goal with
  | |- context [match ?x with _ => _ end] => is_var x; destruct x; cbn
  | |- context [match ?x with _ => _ end] => destruct x eqn:?; cbn
  end; try discriminate; try (intros [= <- <-]; split; reflexivity).
Lemma nl_now : nl p_now. Proof. nl_tac. Qed.
Lemma nl_data_load k : nl (data_load k). Proof. nl_tac. Qed.
Lemma nl_data_store k v : nl (data_store k v). Proof. nl_tac. Qed.
Lemma nl_data_delete k : nl (data_delete k). Proof. nl_tac. Qed.
Lemma nl_data_los k v : nl (data_load_or_store k v). Proof. nl_tac. Qed.
Lemma nl_data_keys : nl data_keys. Proof. nl_tac. Qed.
Lemma nl_exp_load k : nl (exp_load k). Proof. nl_tac. Qed.
Lemma nl_exp_store k v : nl (exp_store k v). Proof. nl_tac. Qed.
Lemma nl_exp_delete k : nl (exp_delete k). Proof. nl_tac. Qed.
Lemma nl_data_reset : nl data_reset. Proof. nl_tac. Qed.
Lemma nl_exp_reset : nl exp_reset. Proof. nl_tac. Qed.
Lemma nl_alloc : nl h_alloc. Proof. nl_tac. Qed.
Lemma nl_h {A} l (g : hobj -> hobj * A) : nl (h_atom l g).
Proof.
  apply nl_atom; [intros [d e h n b r t0]|intros [d e h n b r t0] w' a]; cbn; (destruct (h !! l) as [o|]; [|discriminate]); destruct (g o); [discriminate|].
  intros [= <- <-]. split; reflexivity.
Qed.
Lemma nl_panic {A} : nl (@panic A).
Proof. constructor; discriminate. Qed.
Global Hint Resolve nl_now nl_data_load nl_data_store nl_data_delete nl_data_los nl_data_keys nl_exp_load nl_exp_store nl_exp_delete nl_data_reset nl_exp_reset nl_alloc nl_panic nl_ret : nl.
Global Hint Extern 1 (nl (h_atom _ _)) => apply nl_h : nl.
Global Hint Extern 1 (nl (h_load _ _)) => apply nl_h : nl.
Global Hint Extern 1 (nl (h_store _ _ _)) => apply nl_h : nl.
Global Hint Extern 1 (nl (h_delete _ _)) => apply nl_h : nl.
Global Hint Extern 1 (nl (h_load_or_store _ _ _)) => apply nl_h : nl.
Global Hint Extern 1 (nl (h_get_len _)) => apply nl_h : nl.
Global Hint Extern 1 (nl (h_set_len _ _)) => apply nl_h : nl.
Global Hint Extern 1 (nl (h_keys _)) => apply nl_h : nl.
Ltac nlgo := repeat first
  [ solve [auto with nl]
  | match goal with
    | |- nl (pbind _ _) => apply nl_bind; [|intros ?]
    | |- nl (match ?x with _ => _ end) => destruct x
    | |- nl (let _ := _ in _) => cbn zeta
    end ].
Lemma nl_expired k : nl (expired k). Proof. unfold expired. nlgo. Qed.
Lemma nl_expires k d : nl (expires k d). Proof. unfold expires. nlgo. Qed.
Global Hint Resolve nl_expired nl_expires : nl.
Lemma nl_c_get k : nl (c_get k). Proof. unfold c_get. nlgo. Qed.
Lemma nl_load_live k : nl (load_live k). Proof. unfold load_live. nlgo. Qed.
Lemma nl_incr_by k d : nl (incr_by k d). Proof. unfold incr_by. nlgo. Qed.
Lemma nl_he_get l f : nl (he_get l f). Proof. unfold he_get. nlgo. Qed.
Lemma nl_he_set l f v : nl (he_set l f v). Proof. unfold he_set. nlgo. Qed.
Global Hint Resolve nl_c_get nl_load_live nl_incr_by nl_he_get nl_he_set : nl.
Lemma nl_ghe k : nl (get_hash_entry k). Proof. unfold get_hash_entry. nlgo. Qed.
Lemma nl_gon k h : nl (get_or_new k h). Proof. unfold get_or_new, new_hash. nlgo. Qed.
Lemma nl_mset kv : nl (mset_loop kv). Proof. induction kv as [|[k v] r IH]; cbn [mset_loop]; nlgo. Qed.
Lemma nl_msetnx kv : forall n, nl (msetnx_loop kv n). Proof. induction kv as [|[k v] r IH]; intros n; cbn [msetnx_loop]; nlgo. Qed.
Lemma nl_mget ks : nl (mget_loop ks). Proof. induction ks as [|k r IH]; cbn [mget_loop]; nlgo. Qed.
Lemma nl_exists ks : forall n, nl (exists_loop ks n). Proof. induction ks as [|k r IH]; intros n; cbn [exists_loop]; nlgo. Qed.
Lemma nl_cron es : nl (cron_loop es). Proof. induction es as [|k r IH]; cbn [cron_loop]; nlgo. Qed.
Lemma nl_hdel l fs : forall n, nl (hdel_loop l fs n). Proof. induction fs as [|k r IH]; intros n; cbn [hdel_loop]; nlgo. Qed.
Lemma nl_hmset l fs : forall n, nl (hmset_loop l fs n). Proof. induction fs as [|[k v] r IH]; intros n; cbn [hmset_loop]; nlgo. Qed.
Lemma nl_hmget h fs : nl (hmget_loop h fs). Proof. induction fs as [|k r IH]; cbn [hmget_loop]; nlgo. Qed.
Lemma nl_visit l ks : nl (h_visit l ks). Proof. induction ks as [|k r IH]; cbn [h_visit]; nlgo. Qed.
Lemma nl_range l : nl (h_range l). Proof. unfold h_range. apply nl_bind; [auto with nl|]. intros ks. apply nl_visit. Qed.
Global Hint Resolve nl_range nl_ghe nl_gon nl_mset nl_msetnx nl_mget nl_exists nl_cron nl_hdel nl_hmset nl_hmget : nl.

Ltac unf := unfold m_set, m_setnx, m_setex, m_psetex, m_get, m_getset, m_strlen, m_append, m_setrange, m_getrange, m_incr, m_incrby, m_decr, m_decrby,
  m_incrbyfloat, m_mset, m_msetnx, m_mget, m_del, m_flush, m_exists, m_type, m_cron_tick, m_hset, m_hsetnx, m_hexists, m_hdel, m_hlen, m_hstrlen,
  m_hincrby, m_hincrbyfloat, m_hmset, m_hmget, m_hkeys, m_hvals, m_hgetall, m_hget.
(** every call is lock-free, or one critical section *)
Definition shape (P : forall R, prog R -> Prop) (c : call) : Prop :=
  P _ (call_prog c) \/
  (exists (A : Type) (b : prog A) (g : A -> reply), call_prog c = pmap g (locked b) /\ P _ b) \/
  (exists (A : Type) (b : prog A) (g : A -> reply), call_prog c = pmap g (rlocked b) /\ P _ b).
Lemma call_nl c : shape (fun R => @nl R) c.
Proof.
  destruct c;
    first [ right; left; eexists _, _, _; (split; [reflexivity|]); unf; solve [nlgo]
          | right; right; eexists _, _, _; (split; [reflexivity|]); unf; solve [nlgo]
          | left; cbn [call_prog]; unfold pmap; unf; solve [nlgo] ].
Qed.

(** ** atoms do not crash *)
Definition any {R} : (positive -> Prop) -> R -> Prop := fun _ _ => True.
Definition good_val (v : gval) (L : positive -> Prop) : Prop := match v with VHash l => L l | _ => True end.
Lemma safe_weaken {R} (Q Q' : (positive -> Prop) -> R -> Prop) L p : (forall L r, Q L r -> Q' L r) -> safe Q L p -> safe Q' L p.
Proof. intros HQ Hp. induction Hp; constructor; eauto. Qed.
Lemma sf_now L : safe any L p_now.
Proof. apply safe_atom. intros w H _. cbn. repeat split; auto; apply H. Qed.
Lemma sf_data_load k L : safe (fun L o => match o with Some v => good_val v L | None => True end) L (data_load k).
Proof.
  apply safe_atom. intros w H _. cbn. destruct (okd_data _ H) as [d E]. rewrite E. split; [exact H|]. split; [auto|].
  destruct (d !! k) as [v|] eqn:Ek; [|exact I]. destruct v; try exact I. eapply okd_ptr; eauto.
Qed.
Lemma okd_store w d k v : okd w -> w_data w = Some d -> good_val v (valid w) -> okd (set_data w (<[k := v]> d)).
Proof.
  intros [H1 H2 H3 H4] E Hv. constructor; cbn; eauto. intros d' k' l [= <-]. rewrite lookup_insert_Some. intros [[_ ->]|[_ Hk]].
  - exact Hv.
  - eapply H3; eauto.
Qed.
Lemma sf_data_store k v L : good_val v L -> safe any L (data_store k v).
Proof.
  intros Hv. apply safe_atom. intros w H HL. cbn. destruct (okd_data _ H) as [d E]. rewrite E. split; [|split; [auto|exact I]].
  apply okd_store; auto. destruct v; try exact I. apply HL, Hv.
Qed.
Lemma sf_data_delete k L : safe any L (data_delete k).
Proof.
  apply safe_atom. intros w H HL. cbn. destruct (okd_data _ H) as [d E]. rewrite E. split; [|split; [auto|exact I]].
  destruct H as [H1 H2 H3 H4]. constructor; cbn; eauto. intros d' k' l [= <-]. rewrite lookup_delete_Some. intros [_ Hk]. eapply H3; eauto.
Qed.
Lemma sf_data_los k v L : good_val v L -> safe any L (data_load_or_store k v).
Proof.
  intros Hv. apply safe_atom. intros w H HL. cbn. destruct (okd_data _ H) as [d E]. rewrite E. destruct (d !! k); (split; [|split; [auto|exact I]]); [exact H|].
  apply okd_store; auto. destruct v; try exact I. apply HL, Hv.
Qed.
Lemma sf_data_keys L : safe any L data_keys.
Proof. apply safe_atom. intros w H HL. cbn. destruct (okd_data _ H) as [d E]. rewrite E. repeat split; auto; apply H. Qed.
Lemma sf_exp_load k L : safe any L (exp_load k).
Proof. apply safe_atom. intros w H HL. cbn. destruct (okd_exp _ H) as [d E]. rewrite E. repeat split; auto; apply H. Qed.
Lemma sf_exp_store k v L : safe any L (exp_store k v).
Proof. apply safe_atom. intros w H HL. cbn. destruct (okd_exp _ H) as [d E]. rewrite E. repeat split; cbn; eauto; try apply H. Qed.
Lemma sf_exp_delete k L : safe any L (exp_delete k).
Proof. apply safe_atom. intros w H HL. cbn. destruct (okd_exp _ H) as [d E]. rewrite E. repeat split; cbn; eauto; try apply H. Qed.
Lemma sf_data_reset L : safe any L data_reset.
Proof. apply safe_atom. intros w [H1 H2 H3 H4] HL. cbn. split; [|split; [auto|exact I]]. constructor; cbn; eauto. intros d k l [= <-]. rewrite lookup_empty. discriminate. Qed.
Lemma sf_exp_reset L : safe any L exp_reset.
Proof. apply safe_atom. intros w [H1 H2 H3 H4] HL. cbn. split; [|split; [auto|exact I]]. constructor; cbn; eauto. Qed.
Lemma sf_alloc L : safe (fun L l => L l) L h_alloc.
Proof.
  apply safe_atom. intros w [H1 H2 H3 H4] HL. cbn. assert (Hg : forall l, valid w l -> is_Some (<[w_next w := HObj ∅ 0]> (w_heap w) !! l)).
  { intros l [o Hl]. destruct (decide (l = w_next w)) as [->|]; [rewrite lookup_insert|rewrite lookup_insert_ne by auto]; eauto. }
  split; [|split; [exact Hg|]].
  - constructor; cbn; eauto.
    + intros d k l E Ek. apply Hg. eapply H3; eauto.
    + intros l o f v. rewrite lookup_insert_Some. intros [[_ <-]|[_ Hk]]; [cbn; rewrite lookup_empty; discriminate|eauto].
  - unfold valid. cbn. rewrite lookup_insert. eauto.
Qed.
Lemma sf_h {A} l (g : hobj -> hobj * A) (L : positive -> Prop) : L l ->
  (forall o, (forall f v, h_map o !! f = Some v -> scalar v) -> forall f v, h_map (fst (g o)) !! f = Some v -> scalar v) ->
  safe (fun L _ => L l) L (h_atom l g).
Proof.
  intros Hl Hg. apply safe_atom. intros w H HL. cbn. destruct (HL l Hl) as [o Ho]. rewrite Ho. destruct (g o) as [o' a] eqn:Eg.
  assert (Hv : forall l', valid w l' -> valid (set_heap w (<[l := o']> (w_heap w))) l').
  { intros l' [x Hx]. unfold valid. cbn. destruct (decide (l' = l)) as [->|]; [rewrite lookup_insert|rewrite lookup_insert_ne by auto]; eauto. }
  destruct H as [H1 H2 H3 H4]. split; [|split; [exact Hv|]].
  - constructor; cbn; eauto. intros l' o1 f v. rewrite lookup_insert_Some. intros [[_ <-]|[_ Hk]]; [|eauto].
    specialize (Hg o). rewrite Eg in Hg. apply Hg. eauto.
  - unfold valid. cbn. rewrite lookup_insert. eauto.
Qed.

(** ** the calls do not crash *)
Ltac sb L := eapply safe_bind; [L|]; let H := fresh "HL" in let Q := fresh "HQ" in intros ?L' ?r H Q.
Ltac sd := solve [constructor; exact I].
Lemma good_try s L : good_val (try_int64 s) L.
Proof. unfold try_int64. destruct (atoi s); [exact I|]. destruct (parse_float s); exact I. Qed.
Global Hint Resolve good_try : sf.
Lemma good_mono v (L L' : positive -> Prop) : (forall l, L l -> L' l) -> good_val v L -> good_val v L'.
Proof. destruct v; cbn; auto. Qed.

Lemma sf_expired k L : safe any L (expired k).
Proof.
  unfold expired. sb ltac:(apply sf_exp_load). destruct r as [d|]; [|sd]. sb ltac:(apply sf_now). destruct (d <? r); [|sd].
  sb ltac:(apply sf_data_delete). sb ltac:(apply sf_exp_delete). sd.
Qed.
Lemma sf_expires k d L : safe any L (expires k d).
Proof. unfold expires. destruct (d <=? 0); [apply sf_exp_delete|]. sb ltac:(apply sf_now). apply sf_exp_store. Qed.
Lemma sf_c_get k L : safe (fun L o => match o with Some v => good_val v L | None => True end) L (c_get k).
Proof.
  unfold c_get. sb ltac:(apply sf_data_load). destruct r as [x|]; [|sd]. sb ltac:(apply sf_expired).
  constructor. destruct r; [exact I|]. eapply good_mono; eauto.
Qed.
Lemma sf_load_live k L : safe any L (load_live k).
Proof. eapply safe_weaken; [|apply sf_c_get]. intros; exact I. Qed.
Lemma sf_incr_by k d L : safe any L (incr_by k d).
Proof.
  unfold incr_by. sb ltac:(apply sf_data_los; exact I). destruct r as [v []]; cbn [negb snd fst]; [|sd].
  destruct (incr_val v d) as [[y n]|] eqn:E; [|sd].
  assert (Hy : forall L, good_val y L) by (destruct v; cbn in E; try discriminate; injection E as <- <-; intros; exact I).
  sb ltac:(apply sf_data_store, Hy). sd.
Qed.
Lemma sf_h_load l f (L : positive -> Prop) : L l -> safe (fun L _ => L l) L (h_load l f).
Proof. intros Hl. apply sf_h; auto. Qed.
Lemma sf_he_get l f (L : positive -> Prop) : L l -> safe (fun L _ => L l) L (he_get l f).
Proof. intros Hl. unfold he_get. sb ltac:(apply sf_h_load; exact Hl). constructor. exact HQ. Qed.
Lemma insert_scalar o f v : scalar v -> (forall f v, h_map o !! f = Some v -> scalar v) -> forall g x, <[f := v]> (h_map o) !! g = Some x -> scalar x.
Proof. intros Hv Ho g x. rewrite lookup_insert_Some. intros [[_ <-]|[_ H]]; eauto. Qed.
Lemma sf_h_store l f v (L : positive -> Prop) : scalar v -> L l -> safe (fun L _ => L l) L (h_store l f v).
Proof. intros Hv Hl. apply sf_h; auto. intros o Ho. cbn. apply insert_scalar; auto. Qed.
Lemma sf_h_los l f v (L : positive -> Prop) : scalar v -> L l -> safe (fun L _ => L l) L (h_load_or_store l f v).
Proof. intros Hv Hl. apply sf_h; auto. intros o Ho. cbn. destruct (h_map o !! f); cbn; [exact Ho|]. apply insert_scalar; auto. Qed.
Lemma sf_h_delete l f (L : positive -> Prop) : L l -> safe (fun L _ => L l) L (h_delete l f).
Proof. intros Hl. apply sf_h; auto. intros o Ho g x. cbn. rewrite lookup_delete_Some. intros [_ H]. eauto. Qed.
Lemma sf_h_get_len l (L : positive -> Prop) : L l -> safe (fun L _ => L l) L (h_get_len l).
Proof. intros Hl. apply sf_h; auto. Qed.
Lemma sf_h_set_len l n (L : positive -> Prop) : L l -> safe (fun L _ => L l) L (h_set_len l n).
Proof. intros Hl. apply sf_h; auto. Qed.
Lemma sf_he_set l f v (L : positive -> Prop) : L l -> safe (fun L _ => L l) L (he_set l f v).
Proof.
  intros Hl. unfold he_set. sb ltac:(apply sf_h_los; [apply try_scalar|exact Hl]).
  eapply safe_bind with (Q' := fun (L : positive -> Prop) _ => L l).
  { destruct (snd r); [apply sf_h_store; [apply try_scalar|exact HQ]|constructor; exact HQ]. }
  intros L1 r1 HL1 HQ1. cbn zeta. sb ltac:(apply sf_h_get_len; exact HQ1). sb ltac:(apply sf_h_set_len; exact HQ0). constructor. auto.
Qed.
Lemma sf_ghe k L : safe (fun L h => match h with HEntry l => L l | _ => True end) L (get_hash_entry k).
Proof. unfold get_hash_entry. sb ltac:(apply sf_c_get). constructor. destruct r as [[]|]; auto. Qed.
Lemma sf_gon k h (L : positive -> Prop) : (match h with HEntry l => L l | _ => True end) -> safe (fun L l => L l) L (get_or_new k h).
Proof.
  intros H. unfold get_or_new, new_hash. assert (G : safe (fun (L : positive -> Prop) l => L l) L (do l <- h_alloc; data_store k (VHash l);;; Ret l)).
  { sb ltac:(apply sf_alloc). sb ltac:(apply sf_data_store; exact HQ). constructor. auto. }
  destruct h; [exact G|constructor; exact H|exact G].
Qed.
Lemma sf_mset kv : forall L, safe any L (mset_loop kv).
Proof. induction kv as [|[k v] r IH]; intros L; cbn [mset_loop]; [sd|]. sb ltac:(apply sf_data_store; auto with sf). apply IH. Qed.
Lemma sf_msetnx kv : forall n L, safe any L (msetnx_loop kv n).
Proof. induction kv as [|[k v] r IH]; intros n L; cbn [msetnx_loop]; [sd|]. sb ltac:(apply sf_data_los; auto with sf). apply IH. Qed.
Lemma sf_mget ks : forall L, safe any L (mget_loop ks).
Proof. induction ks as [|k r IH]; intros L; cbn [mget_loop]; [sd|]. sb ltac:(apply sf_c_get). sb ltac:(apply IH). sd. Qed.
Lemma sf_exists ks : forall n L, safe any L (exists_loop ks n).
Proof. induction ks as [|k r IH]; intros n L; cbn [exists_loop]; [sd|]. sb ltac:(apply sf_data_load). apply IH. Qed.
Lemma sf_cron es : forall L, safe any L (cron_loop es).
Proof.
  induction es as [|k r IH]; intros L; cbn [cron_loop]; [sd|]. sb ltac:(apply sf_data_load).
  eapply safe_bind with (Q' := any); [|intros ? ? ? ?; apply IH]. destruct r0; [|sd]. sb ltac:(apply sf_exp_delete). sb ltac:(apply sf_now).
  destruct (zero_time <? r1); [|sd]. sb ltac:(apply sf_exp_delete). apply sf_data_delete.
Qed.
Lemma sf_hdel l fs : forall n (L : positive -> Prop), L l -> safe (fun L _ => L l) L (hdel_loop l fs n).
Proof.
  induction fs as [|f r IH]; intros n L Hl; cbn [hdel_loop]; [constructor; exact Hl|]. sb ltac:(apply sf_he_get; exact Hl).
  destruct r0; [|apply IH, HQ]. sb ltac:(apply sf_h_delete; exact HQ). apply IH, HQ0.
Qed.
Lemma sf_hmset l fs : forall n (L : positive -> Prop), L l -> safe (fun L _ => L l) L (hmset_loop l fs n).
Proof.
  induction fs as [|[f v] r IH]; intros n L Hl; cbn [hmset_loop]; [constructor; exact Hl|]. sb ltac:(apply sf_he_set; exact Hl). apply IH, HQ.
Qed.
Lemma sf_hmget h fs : forall (L : positive -> Prop), (match h with HEntry l => L l | _ => True end) -> safe any L (hmget_loop h fs).
Proof.
  induction fs as [|f r IH]; intros L Hl; cbn [hmget_loop]; [sd|].
  eapply safe_bind with (Q' := fun (L : positive -> Prop) _ => match h with HEntry l => L l | _ => True end).
  - destruct h; [constructor; exact I| |constructor; exact I]. sb ltac:(apply sf_he_get; exact Hl). constructor. exact HQ.
  - intros L1 r1 HL1 HQ1. sb ltac:(apply IH; exact HQ1). sd.
Qed.

(** the calls that may crash: they dereference a nil entry when the key is absent, or allocate more than Go allows *)
Definition no_crash (c : call) : Prop := match c with CHKeys _ | CHVals _ | CHGetAll _ => False | CSetRange _ pos _ => pos <= max_alloc | _ => True end.
Ltac sfgo := repeat first
  [ sd
  | match goal with
    | |- safe _ _ (pbind (data_store _ _) _) => sb ltac:(apply sf_data_store; first [apply good_try|exact I|auto with sf])
    | |- safe _ _ (pbind (data_load_or_store _ _) _) => sb ltac:(apply sf_data_los; first [apply good_try|exact I])
    | |- safe _ _ (pbind (expires _ _) _) => sb ltac:(apply sf_expires)
    | |- safe _ _ (pbind (c_get _) _) => sb ltac:(apply sf_c_get)
    | |- safe _ _ (pbind (load_live _) _) => sb ltac:(apply sf_load_live)
    | |- safe _ _ (pbind (data_delete _) _) => sb ltac:(apply sf_data_delete)
    | |- safe _ _ (pbind (exp_delete _) _) => sb ltac:(apply sf_exp_delete)
    | |- safe _ _ (pbind data_reset _) => sb ltac:(apply sf_data_reset)
    | |- safe _ _ exp_reset => apply sf_exp_reset
    | |- safe _ _ (pbind data_keys _) => sb ltac:(apply sf_data_keys)
    | |- safe _ _ (cron_loop _) => apply sf_cron
    | |- safe any _ (h_set_len _ _) => eapply safe_weaken; [|apply sf_h_set_len; solve [eauto]]; intros; exact I
    | |- safe _ _ (pbind (mset_loop _) _) => sb ltac:(apply sf_mset)
    | |- safe _ _ (pbind (msetnx_loop _ _) _) => sb ltac:(apply sf_msetnx)
    | |- safe _ _ (pbind (mget_loop _) _) => sb ltac:(apply sf_mget)
    | |- safe _ _ (pbind (exists_loop _ _) _) => sb ltac:(apply sf_exists)
    | |- safe _ _ (incr_by _ _) => apply sf_incr_by
    | |- safe _ _ (pbind (get_hash_entry _) _) => sb ltac:(apply sf_ghe)
    | |- safe _ _ (pbind (get_or_new _ _) _) => sb ltac:(apply sf_gon; first [exact I|assumption])
    | |- safe _ _ (pbind (he_get _ _) _) => sb ltac:(apply sf_he_get; solve [eauto])
    | |- safe _ _ (pbind (he_set _ _ _) _) => sb ltac:(apply sf_he_set; solve [eauto])
    | |- safe _ _ (pbind (h_load _ _) _) => sb ltac:(apply sf_h_load; solve [eauto])
    | |- safe _ _ (pbind (h_load_or_store _ _ _) _) => sb ltac:(apply sf_h_los; [exact I|solve [eauto]])
    | |- safe _ _ (pbind (h_get_len _) _) => sb ltac:(apply sf_h_get_len; solve [eauto])
    | |- safe _ _ (pbind (h_set_len _ _) _) => sb ltac:(apply sf_h_set_len; solve [eauto])
    | |- safe _ _ (pbind (hdel_loop _ _ _) _) => sb ltac:(apply sf_hdel; solve [eauto])
    | |- safe _ _ (pbind (hmset_loop _ _ _) _) => sb ltac:(apply sf_hmset; solve [eauto])
    | |- safe _ _ (pbind (hmget_loop _ _) _) => sb ltac:(apply sf_hmget; solve [eauto])
    | |- safe _ _ (pbind (pbind _ _) _) => eapply safe_bind with (Q' := any)
    | |- safe _ _ (pbind (if _ then _ else _) _) => eapply safe_bind with (Q' := any)
    | |- safe _ _ (if ?a >? ?b then _ else _) => destruct (Z.gtb_spec a b); [lia|]
    | |- safe _ _ (match ?x with _ => _ end) => destruct x
    | |- safe _ _ (let _ := _ in _) => cbn zeta
    end
  | intros ].
Definition sfe {R} (S : bool) (p : prog R) : Prop := nl p /\ (S = true -> safe any (fun _ => False) p).
Lemma call_shape S c : (S = true -> no_crash c) -> shape (fun R p => sfe S p) c.
Proof.
  intros Hc. destruct c;
    first [ right; left; eexists _, _, _; (split; [reflexivity|]); unf; (split; [solve [nlgo]|intros HS; pose proof (Hc HS) as Hp; cbn in Hp; solve [sfgo]])
          | right; right; eexists _, _, _; (split; [reflexivity|]); unf; (split; [solve [nlgo]|intros HS; pose proof (Hc HS) as Hp; cbn in Hp; solve [sfgo]])
          | left; cbn [call_prog]; unfold pmap; unf; (split; [solve [nlgo]|first [intros HS; pose proof (Hc HS) as Hp; cbn in Hp; solve [sfgo]|intros HS; destruct (Hc HS)]]) ].
Qed.

(** ** lock accounting *)
Definition finr {A} (b : prog A) (g : A -> reply) : prog reply :=
  pbind (pbind b (fun r => pbind p_runlock (fun _ => Ret r))) (fun x => Ret (g x)).
(** a body without lock operations; with [S], one that cannot crash in [w] *)
Definition body {R} (S : bool) (w : world) (p : prog R) : Prop := nl p /\ (S = true -> safe any (valid w) p).
Lemma body_grow {R} S w w' (p : prog R) : (S = true -> forall l, valid w l -> valid w' l) -> body S w p -> body S w' p.
Proof. intros Hw [H1 H2]. split; [exact H1|]. intros HS. eapply safe_mono; [| |apply H2, HS]; [intros; exact I|exact (Hw HS)]. Qed.

Inductive pc := Out | InW | InR.
Definition at_pc (S : bool) (w : world) (x : pc) (p : prog reply) : Prop :=
  match x with
  | Out => body S w p \/ (exists (A : Type) (b : prog A) g, p = pmap g (locked b) /\ body S w b) \/ (exists (A : Type) (b : prog A) g, p = pmap g (rlocked b) /\ body S w b)
  | InW => exists (A : Type) (b : prog A) g, p = fin b g /\ body S w b
  | InR => exists (A : Type) (b : prog A) g, p = finr b g /\ body S w b
  end.
Lemma at_pc_grow S w w' x p : (S = true -> forall l, valid w l -> valid w' l) -> at_pc S w x p -> at_pc S w' x p.
Proof.
  intros Hw. destruct x; cbn.
  - intros [H|[(A & b & g & E & H)|(A & b & g & E & H)]]; [left|right; left|right; right]; eauto using body_grow.
    + exists A, b, g. eauto using body_grow.
    + exists A, b, g. eauto using body_grow.
  - intros (A & b & g & E & H). exists A, b, g. eauto using body_grow.
  - intros (A & b & g & E & H). exists A, b, g. eauto using body_grow.
Qed.

Definition place (h : option nat) (R : gset nat) (i : nat) : pc :=
  if decide (h = Some i) then InW else if decide (i ∈ R) then InR else Out.
Record linv (S : bool) (c : conf) (li_h : option nat) (li_R : gset nat) : Prop := Linv {
  li_w : w_writer (c_w c) = match li_h with Some _ => true | None => false end;
  li_r : w_readers (c_w c) = size li_R;
  li_ex : is_Some li_h -> li_R = ∅;
  li_th : forall i, match c_th c !! i with
                    | Some p => at_pc S (c_w c) (place li_h li_R i) p
                    | None => place li_h li_R i = Out
                    end;
  li_ok : S = true -> okd (c_w c) }.

Lemma body_step {R} S w (f : world -> ares (prog R)) : body S w (Step f) -> (S = true -> okd w) ->
  f w <> Blocked /\ (S = true -> f w <> Panic) /\
  forall w' p', f w = Go w' p' -> (S = true -> okd w') /\ w_writer w' = w_writer w /\ w_readers w' = w_readers w /\
     (S = true -> forall l, valid w l -> valid w' l) /\ body S w' p'.
Proof.
  intros [H1 H2] Hok. inversion H1 as [|f' N1 N2 N3]; subst. split; [apply N1|]. split.
  - intros HS. specialize (H2 HS). inversion H2 as [|L f' S1 S2 S3 S4]; subst. apply S1; auto.
  - intros w' p' E. split; [|split; [|split; [|split]]].
    + intros HS. specialize (H2 HS). inversion H2 as [|L f' S1 S2 S3 S4]; subst. eapply S2; eauto.
    + apply (N2 _ _ _ E).
    + apply (N2 _ _ _ E).
    + intros HS. specialize (H2 HS). inversion H2 as [|L f' S1 S2 S3 S4]; subst. eapply S3; eauto.
    + split; [eauto|]. intros HS. specialize (H2 HS). inversion H2 as [|L f' S1 S2 S3 S4]; subst. eapply S4; eauto.
Qed.

Lemma place_other (R : gset nat) i j : j <> i -> place (Some i) R j = place None R j.
Proof. intros H. unfold place. rewrite !decide_False by congruence. reflexivity. Qed.
Lemma place_W h R i : place h R i = InW -> h = Some i.
Proof. unfold place. destruct (decide (h = Some i)); [auto|]. destruct (decide (i ∈ R)); discriminate. Qed.
Lemma place_R h R i : place h R i = InR -> h <> Some i /\ i ∈ R.
Proof. unfold place. destruct (decide (h = Some i)); [discriminate|]. destruct (decide (i ∈ R)); [auto|discriminate]. Qed.
Lemma place_O h R i : place h R i = Out -> h <> Some i /\ i ∉ R.
Proof. unfold place. destruct (decide (h = Some i)); [discriminate|]. destruct (decide (i ∈ R)); [discriminate|auto]. Qed.
Lemma linv_step S c h R a c' e :
  linv S c h R -> cstep a c = Some (c', e) -> calls_in (fun cl => S = true -> no_crash cl) e -> exists h' R', linv S c' h' R'.
Proof.
  intros [Hw Hr Hex Hth Hok] E Hin. destruct a as [i cl|i|i|t]; cbn in E.
  - destruct (c_th c !! i) eqn:Ei; [discriminate|]. injection E as <- <-.
    pose proof (Hth i) as Hi. rewrite Ei in Hi. exists h, R. constructor; auto; cbn [c_w c_th].
    intros j. destruct (decide (j = i)) as [->|Hne]; [|rewrite lookup_insert_ne by auto; apply Hth].
    rewrite lookup_insert, Hi. cbn.
    assert (Hb : forall R0 (p : prog R0), sfe S p -> body S (c_w c) p).
    { intros R0 p [H1 H2]. split; [exact H1|]. intros HS. eapply safe_mono; [| |exact (H2 HS)]; [intros; exact I|intros ? []]. }
    destruct (call_shape S cl (Hin i cl (elem_of_list_here _ _))) as [H|[(A & b & g & Ec & H)|(A & b & g & Ec & H)]]; [left|right; left|right; right]; auto; exists A, b, g; auto.
  - destruct (c_th c !! i) as [[r|f]|] eqn:Ei; try discriminate. destruct (f (c_w c)) as [w' p'| |] eqn:Ef; try discriminate. injection E as <- <-.
    pose proof (Hth i) as Hi. rewrite Ei in Hi.
    assert (Hbody : forall A (b : world -> ares (prog A)) p1, body S (c_w c) (Step b) -> b (c_w c) = Go w' p1 ->
       at_pc S w' (place h R i) p' -> exists h' R', linv S (Conf w' (<[i := p']> (c_th c))) h' R').
    { intros A b p1 Hb Eb Hp'. destruct (body_step S _ _ Hb Hok) as (_ & _ & Hst). destruct (Hst _ _ Eb) as (H1 & H2 & H3 & H4 & H5).
      exists h, R. constructor; cbn [c_w c_th]; auto; try congruence. intros j. destruct (decide (j = i)) as [->|Hne]; [rewrite lookup_insert; exact Hp'|].
      rewrite lookup_insert_ne by auto. specialize (Hth j). destruct (c_th c !! j); [|exact Hth]. eapply at_pc_grow; eauto. }
    destruct (place h R i) eqn:Epl; cbn in Hi.
    + destruct Hi as [Hb|[(A & b & g & Ec & Hb)|(A & b & g & Ec & Hb)]].
      * eapply Hbody; eauto. left. eapply body_step; eauto.
      * (* lock *)
        cbn in Ec. injection Ec as ->. rewrite Hw, Hr in Ef. destruct h as [h|]; cbn in Ef; [discriminate|].
        destruct (Nat.eqb_spec (size R) 0) as [Hs|]; cbn in Ef; [|discriminate]. injection Ef as <- <-.
        assert (HR : R = ∅) by (apply leibniz_equiv, size_empty_iff, Hs). subst R.
        exists (Some i), ∅. constructor; cbn [c_w c_th w_writer w_readers set_lock]; auto.
        -- intros j. destruct (decide (j = i)) as [->|Hne].
           ++ rewrite lookup_insert. unfold place. rewrite decide_True by auto. exists A, b, g. split; [reflexivity|exact Hb].
           ++ rewrite lookup_insert_ne, place_other by auto. specialize (Hth j). destruct (c_th c !! j); [|exact Hth]. eapply at_pc_grow; [|exact Hth]. auto.
        -- intros HS. destruct (Hok HS). constructor; auto.
      * (* rlock *)
        cbn in Ec. injection Ec as ->. rewrite Hw in Ef. destruct h as [h|]; cbn in Ef; [discriminate|]. injection Ef as <- <-.
        apply place_O in Epl as [_ HiR].
        exists None, ({[i]} ∪ R). constructor; cbn [c_w c_th w_writer w_readers set_lock]; auto.
        -- rewrite size_union by set_solver. rewrite size_singleton, Hr. reflexivity.
        -- intros [? ?]. discriminate.
        -- intros j. destruct (decide (j = i)) as [->|Hne].
           ++ rewrite lookup_insert. unfold place. rewrite decide_False, decide_True by (congruence || set_solver). exists A, b, g. split; [reflexivity|exact Hb].
           ++ rewrite lookup_insert_ne by auto. specialize (Hth j).
              assert (Ep : place None ({[i]} ∪ R) j = place None R j).
              { unfold place. rewrite !decide_False by congruence. destruct (decide (j ∈ R)); [rewrite decide_True by set_solver|rewrite decide_False by set_solver]; reflexivity. }
              rewrite Ep. destruct (c_th c !! j); [|exact Hth]. eapply at_pc_grow; [|exact Hth]. auto.
        -- intros HS. destruct (Hok HS). constructor; auto.
    + (* writer inside *)
      apply place_W in Epl. subst h. destruct Hi as (A & b & g & Ec & Hb). destruct b as [r|fb]; cbn in Ec.
      * injection Ec as ->. rewrite Hw in Ef. injection Ef as <- <-. specialize (Hex (ex_intro _ _ eq_refl)). subst R.
        exists None, ∅. constructor; cbn [c_w c_th w_writer w_readers set_lock]; auto.
        -- intros j. destruct (decide (j = i)) as [->|Hne].
           ++ rewrite lookup_insert. left. split; [constructor|]. intros _. constructor. exact I.
           ++ rewrite lookup_insert_ne, <- (place_other ∅ i j) by auto. specialize (Hth j). destruct (c_th c !! j); [|exact Hth]. eapply at_pc_grow; [|exact Hth]. auto.
        -- intros HS. destruct (Hok HS). constructor; auto.
      * injection Ec as ->. destruct (fb (c_w c)) as [w1 b1| |] eqn:Efb; cbn in Ef; try discriminate. injection Ef as -> <-.
        eapply Hbody; eauto. exists A, b1, g. split; [reflexivity|]. eapply body_step; eauto.
    + (* reader inside *)
      apply place_R in Epl as [Hh HiR]. destruct Hi as (A & b & g & Ec & Hb). destruct b as [r|fb]; cbn in Ec.
      * injection Ec as ->. rewrite Hr in Ef. assert (Hsz : size R = Datatypes.S (size (R ∖ {[i]}))).
        { rewrite (union_difference_L {[i]} R) at 1 by set_solver. rewrite size_union by set_solver. rewrite size_singleton. reflexivity. }
        rewrite Hsz in Ef. cbn in Ef. injection Ef as <- <-.
        assert (Hn : h = None). { destruct h; [|reflexivity]. rewrite Hex in HiR by eauto. set_solver. } subst h.
        exists None, (R ∖ {[i]}). constructor; cbn [c_w c_th w_writer w_readers set_lock]; auto.
        -- intros [? ?]. discriminate.
        -- intros j. destruct (decide (j = i)) as [->|Hne].
           ++ rewrite lookup_insert. unfold place. rewrite !decide_False by (congruence || set_solver). left. split; [constructor|]. intros _. constructor. exact I.
           ++ rewrite lookup_insert_ne by auto. specialize (Hth j).
              assert (Ep : place None (R ∖ {[i]}) j = place None R j).
              { unfold place. rewrite !decide_False by congruence. destruct (decide (j ∈ R)); [rewrite decide_True by set_solver|rewrite decide_False by set_solver]; reflexivity. }
              rewrite Ep. destruct (c_th c !! j); [|exact Hth]. eapply at_pc_grow; [|exact Hth]. auto.
        -- intros HS. destruct (Hok HS). constructor; auto.
      * injection Ec as ->. destruct (fb (c_w c)) as [w1 b1| |] eqn:Efb; cbn in Ef; try discriminate. injection Ef as -> <-.
        eapply Hbody; eauto. exists A, b1, g. split; [reflexivity|]. eapply body_step; eauto.
  - destruct (c_th c !! i) as [[r|f]|] eqn:Ei; try discriminate. injection E as <- <-.
    pose proof (Hth i) as Hi. rewrite Ei in Hi.
    assert (Hout : place h R i = Out).
    { destruct (place h R i) eqn:Ep; [reflexivity| |]; destruct Hi as (A & b & g & Ec & _); destruct b; discriminate Ec. }
    exists h, R. constructor; auto; cbn [c_w c_th]. intros j. destruct (decide (j = i)) as [->|Hne]; [rewrite lookup_delete; exact Hout|].
    rewrite lookup_delete_ne by auto. apply Hth.
  - destruct (Z.leb_spec (w_now (c_w c)) t) as [Ht|]; [|discriminate]. injection E as <- <-.
    exists h, R. constructor; [exact Hw|exact Hr|exact Hex| |]; cbn [c_w c_th].
    + intros j. specialize (Hth j). destruct (c_th c !! j); [|exact Hth]. eapply at_pc_grow; [|exact Hth]. auto.
    + intros HS. destruct (Hok HS). constructor; auto.
Qed.

Lemma linv_exec S w0 s c evs :
  ready w0 -> calls_in (fun cl => S = true -> no_crash cl) evs -> cexec s (start w0) = Some (c, evs) -> exists h R, linv S c h R.
Proof.
  intros Hr Hc E.
  refine (cexec_inv (fun c evs => calls_in (fun cl => S = true -> no_crash cl) evs -> exists h R, linv S c h R) s (start w0) c evs _ [] _ E Hc).
  - intros c1 evs1 a c2 e IH Es Hin. apply calls_in_app in Hin as [Hi1 Hi2]. destruct (IH Hi1) as (h & R & Hl). eapply linv_step; eauto.
  - intros _. exists None, ∅. destruct Hr as [R1 R2 (d & Ed & R3 & R4) R5 R6 R7]. constructor; cbn; auto.
    + intros i. rewrite lookup_empty. reflexivity.
    + intros _. constructor; eauto. intros d' k l E'. rewrite Ed in E'. injection E' as <-. apply R3.
Qed.

Lemma linv_enabled S c h R : linv S c h R -> c_th c <> ∅ -> exists i, enabled c i.
Proof.
  intros [Hw Hr Hex Hth Hok] Hne.
  assert (Hin : forall i A (b : prog A) (g : A -> prog reply) (q : A -> prog A), c_th c !! i = Some (pbind (pbind b q) g) -> body S (c_w c) b -> 
     (forall r, match pbind (q r) g with Step f => f (c_w c) <> Blocked | Ret _ => True end) -> enabled c i).
  { intros i A b g q Ei [Hb _] Hq. unfold enabled. rewrite Ei. destruct Hb as [r|f N1 N2 N3]; cbn.
    - specialize (Hq r). destruct (pbind (q r) g); [exact I|]. destruct (f (c_w c)); auto.
    - specialize (N1 (c_w c)). destruct (f (c_w c)); auto. }
  destruct h as [h|].
  - pose proof (Hth h) as Hh. unfold place in Hh. rewrite decide_True in Hh by auto. destruct (c_th c !! h) as [p|] eqn:Eh; [|discriminate].
    destruct Hh as (A & b & g & -> & Hb). exists h. eapply Hin; [exact Eh|exact Hb|]. intros r. cbn. destruct (w_writer (c_w c)); discriminate.
  - destruct (set_choose_or_empty R) as [[i Hi]|He].
    + pose proof (Hth i) as Hh. unfold place in Hh. rewrite decide_False, decide_True in Hh by (congruence || auto). destruct (c_th c !! i) as [p|] eqn:Eh; [|discriminate].
      destruct Hh as (A & b & g & -> & Hb). exists i. eapply Hin; [exact Eh|exact Hb|]. intros r. cbn. destruct (w_readers (c_w c)); discriminate.
    + destruct (map_choose (c_th c) Hne) as (i & p & Ei). pose proof (Hth i) as Hh. rewrite Ei in Hh. exists i.
      assert (HR : size R = 0%nat) by (apply size_empty_iff; exact He).
      destruct (place None R i) eqn:Ep.
      * destruct Hh as [[Hb _]|[(A & b & g & -> & Hb)|(A & b & g & -> & Hb)]]; unfold enabled; rewrite Ei.
        -- destruct Hb as [r|f N1 N2 N3]; [exact I|]. specialize (N1 (c_w c)). destruct (f (c_w c)); auto.
        -- cbn. rewrite Hw, Hr, HR. exact I.
        -- cbn. rewrite Hw. exact I.
      * apply place_W in Ep. discriminate.
      * apply place_R in Ep. set_solver.
Qed.
Lemma linv_no_crash c h R i : linv true c h R -> ~ crashing c i.
Proof.
  intros [Hw Hr Hex Hth Hok]. specialize (Hok eq_refl). unfold crashing. specialize (Hth i). destruct (c_th c !! i) as [[r|f]|]; auto.
  assert (Hsf : forall A (b : world -> ares (prog A)), body true (c_w c) (Step b) -> b (c_w c) <> Panic).
  { intros A b Hb. apply (body_step true _ _ Hb); auto. }
  destruct (place h R i) eqn:Ep.
  - destruct Hth as [Hb|[(A & b & g & Ec & Hb)|(A & b & g & Ec & Hb)]].
    + apply Hsf, Hb.
    + cbn in Ec. injection Ec as ->. destruct (w_writer (c_w c) || negb (Nat.eqb (w_readers (c_w c)) 0)); discriminate.
    + cbn in Ec. injection Ec as ->. destruct (w_writer (c_w c)); discriminate.
  - apply place_W in Ep. subst h. destruct Hth as (A & b & g & Ec & Hb). destruct b as [r|fb]; cbn in Ec; injection Ec as ->.
    + rewrite Hw. discriminate.
    + specialize (Hsf _ _ Hb). destruct (fb (c_w c)); [discriminate|discriminate|congruence].
  - apply place_R in Ep as [_ HiR]. destruct Hth as (A & b & g & Ec & Hb). destruct b as [r|fb]; cbn in Ec; injection Ec as ->.
    + destruct (w_readers (c_w c)) eqn:En; [|discriminate]. assert (R ≡ ∅) by (apply size_empty_iff; congruence). set_solver.
    + specialize (Hsf _ _ Hb). destruct (fb (c_w c)); [discriminate|discriminate|congruence].
Qed.
Lemma linv_idle S c h R : linv S c h R -> c_th c = ∅ -> w_writer (c_w c) = false /\ w_readers (c_w c) = 0%nat.
Proof.
  intros [Hw Hr Hex Hth Hok] He. assert (Hp : forall i, place h R i = Out). { intros i. specialize (Hth i). rewrite He, lookup_empty in Hth. exact Hth. }
  destruct h as [h|]; [specialize (Hp h); apply place_O in Hp; tauto|]. split; [exact Hw|].
  rewrite Hr. apply size_empty_iff. intros i. split; [|set_solver]. intros Hi. specialize (Hp i). apply place_O in Hp. tauto.
Qed.
