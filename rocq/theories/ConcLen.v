(** * ConcLen: the field count of one stored hash while goroutines add fields (proof machinery for C155) *)
From stdpp Require Import relations.
From Verif Require Import Base GoFloat CacheModel CacheSpec CacheAbs CacheConc ConcLin ConcSafe ConcDl ConcHash.

(** What a goroutine is doing to the count: nothing; it has added a field and has not yet read the count; it has read the count
    and will write or return [v]. *)
Inductive phase := Idle | Pend | Holds (v : Z).
Inductive tr : phase -> hobj -> phase -> hobj -> Prop :=
| tr_same ph o : tr ph o ph o
| tr_grow o o' : h_len o' = h_len o -> (size (h_map o) <= size (h_map o'))%nat -> tr Idle o Idle o'
| tr_new o o' : h_len o' = h_len o -> size (h_map o') = S (size (h_map o)) -> tr Idle o Pend o'
| tr_read o v : (- 2 ^ 63 <= h_len o -> - 2 ^ 63 <= v <= h_len o) -> tr Idle o (Holds v) o
| tr_read1 o v : (- 2 ^ 63 <= h_len o -> - 2 ^ 63 <= v <= h_len o + 1) -> tr Pend o (Holds v) o
| tr_write o o' v : h_len o' = v -> h_map o' = h_map o -> tr (Holds v) o Idle o'.

Section len.
Variables (k : gostr) (l : positive).
Notation I_ := (inv k l (fun _ => True)).
Inductive wp {R} (Q : R -> phase -> Prop) : phase -> prog R -> Prop :=
| wp_ret ph r : Q r ph -> wp Q ph (Ret r)
| wp_step ph (nx : world -> phase) f :
    (forall w w' p', I_ w -> f w = Go w' p' -> I_ w' /\ forall o o', w_heap w !! l = Some o -> w_heap w' !! l = Some o' -> tr ph o (nx w) o') ->
    (forall w w' p', I_ w -> f w = Go w' p' -> wp Q (nx w) p') -> wp Q ph (Step f).
Lemma wp_bind {A B} (Q' : A -> phase -> Prop) (Q : B -> phase -> Prop) ph p (g : A -> prog B) :
  wp Q' ph p -> (forall r ph', Q' r ph' -> wp Q ph' (g r)) -> wp Q ph (pbind p g).
Proof.
  intros Hp Hk. induction Hp as [ph r H|ph nx f H1 H2 IH]; cbn; [apply Hk, H|]. apply wp_step with nx.
  - intros w w' p' Hw. destruct (f w) as [w1 p1| |] eqn:E; try discriminate. intros [= <- <-]. eauto.
  - intros w w' p' Hw. destruct (f w) as [w1 p1| |] eqn:E; try discriminate. intros [= <- <-]. eauto.
Qed.
Lemma wp_weaken {A} (Q Q' : A -> phase -> Prop) ph p : (forall r ph, Q r ph -> Q' r ph) -> wp Q ph p -> wp Q' ph p.
Proof. intros H Hp. induction Hp; [constructor; auto|eapply wp_step; eauto]. Qed.
Lemma wp_atom {A} (Q : A -> phase -> Prop) ph (nx : world -> phase) (f : world -> ares A) :
  (forall w w' a, I_ w -> f w = Go w' a -> I_ w' /\ (forall o o', w_heap w !! l = Some o -> w_heap w' !! l = Some o' -> tr ph o (nx w) o') /\ Q a (nx w)) -> wp Q ph (atom f).
Proof.
  intros H. apply wp_step with nx; intros w w' p' Hw; destruct (f w) as [w1 a| |] eqn:E; try discriminate; intros [= <- <-].
  - destruct (H _ _ _ Hw E) as (? & ? & _). auto.
  - constructor. eapply H; eauto.
Qed.
(** programs that begin and end idle *)
Definition kw {R} (Q : R -> Prop) (p : prog R) : Prop := wp (fun r ph => ph = Idle /\ Q r) Idle p.
Lemma kw_ret {R} (Q : R -> Prop) r : Q r -> kw Q (Ret r).
Proof. intros H. constructor. auto. Qed.
Lemma kw_bind {A B} (Q' : A -> Prop) (Q : B -> Prop) p (g : A -> prog B) : kw Q' p -> (forall r, Q' r -> kw Q (g r)) -> kw Q (pbind p g).
Proof. intros Hp Hg. eapply wp_bind; [exact Hp|]. intros r ph [-> H]. apply Hg, H. Qed.
Lemma kw_weaken {A} (Q Q' : A -> Prop) p : (forall r, Q r -> Q' r) -> kw Q p -> kw Q' p.
Proof. intros H. apply wp_weaken. intros r ph [-> Hr]. auto. Qed.
Lemma inv_obj w o : I_ w -> w_heap w !! l = Some o -> inv k l (fun o' => o' = o) w.
Proof. intros (d & e & o' & H) E. exists d, e, o'. assert (o' = o) by (destruct H as (_ & _ & _ & _ & H & _); congruence). tauto. Qed.
Lemma lw_frame {A} (Q : A -> Prop) (g : world -> ares A) : (forall P w w' a, inv k l P w -> g w = Go w' a -> inv k l P w') -> (forall w w' a, I_ w -> g w = Go w' a -> Q a) -> kw Q (atom g).
Proof.
  intros H1 H2. apply wp_atom with (fun _ => Idle). intros w w' a Hw E. split; [eapply H1; eauto|]. split; [|split; [reflexivity|eauto]].
  intros o o' Ho Ho'. pose proof (H1 _ _ _ _ (inv_obj _ _ Hw Ho) E) as (d & e & o2 & H). assert (o2 = o) by tauto. assert (w_heap w' !! l = Some o2) by tauto. replace o' with o by congruence. constructor.
Qed.
(** an operation on the hash itself *)
Lemma wp_h_same {A} (Q : A -> phase -> Prop) ph (nx : hobj -> phase) (g : hobj -> hobj * A) :
  (forall o, tr ph o (nx o) (fst (g o)) /\ Q (snd (g o)) (nx o)) -> wp Q ph (h_atom l g).
Proof.
  intros H. apply wp_atom with (fun w => match w_heap w !! l with Some o => nx o | None => Idle end).
  intros w w' a (d & e & o & Hd & He & Hk & Hek & Hh & Hu & Hn & _). rewrite Hh. destruct (H o) as [H1 H2]. destruct (g o) as [o2 a2]. cbn in *. intros [= <- <-].
  split; [exists d, e, o2; cbn; rewrite lookup_insert; auto 10|]. split; [|exact H2]. cbn. intros o1 o1' [= <-]. rewrite lookup_insert. intros [= <-]. exact H1.
Qed.
Definition other (v : option gval) : Prop := forall l', v = Some (VHash l') -> l' <> l.
Definition loaded (k' : gostr) (v : option gval) : Prop := (k' = k -> v = Some (VHash l)) /\ (k' <> k -> other v).
Ltac fr := apply lw_frame; [intros P w w' a (d & e & o & Hd & He & Hk & Hek & Hh & Hu & Hn & HP)|intros w w' a (d & e & o & Hd & He & Hk & Hek & Hh & Hu & Hn & HP)]; cbn; repeat match goal with H : w_data ?w = Some _ |- context [w_data ?w] => rewrite H | H : w_exp ?w = Some _ |- context [w_exp ?w] => rewrite H end.
Lemma lw_now : kw top p_now.
Proof. fr; [|intros; exact I]. intros [= <- <-]. exists d, e, o. auto 10. Qed.
Lemma lw_data_load k' : kw (loaded k') (data_load k').
Proof. fr; intros [= <- <-]; [exists d, e, o; auto 10|]. split; [intros ->; exact Hk|]. intros Hne l' E ->. apply Hne, Hu, E. Qed.
Lemma lw_data_store k' v : k' <> k -> other (Some v) -> kw top (data_store k' v).
Proof.
  intros Hne Hv. fr; [|intros; exact I]. intros [= <- <-]. exists (<[k' := v]> d), e, o. cbn. rewrite lookup_insert_ne by auto. repeat (split; [auto; fail|]). split; [|auto].
  intros k2. rewrite lookup_insert_Some. intros [[_ E]|[_ E]]; [|auto]. elim (Hv l); [congruence|reflexivity].
Qed.
Lemma lw_data_delete k' : k' <> k -> kw top (data_delete k').
Proof.
  intros Hne. fr; [|intros; exact I]. intros [= <- <-]. exists (delete k' d), e, o. cbn. rewrite lookup_delete_ne by auto. repeat (split; [auto; fail|]). split; [|auto].
  intros k2. rewrite lookup_delete_Some. intros [_ E]. auto.
Qed.
Lemma lw_data_los k' v : other (Some v) -> kw (fun r => k' = k -> r = (VHash l, true)) (data_load_or_store k' v).
Proof.
  intros Hv. fr.
  - destruct (d !! k') eqn:Ek'; intros [= <- <-]; [exists d, e, o; auto 10|]. assert (Hne : k' <> k) by congruence.
    exists (<[k' := v]> d), e, o. cbn. rewrite lookup_insert_ne by auto. repeat (split; [auto; fail|]). split; [|auto].
    intros k2. rewrite lookup_insert_Some. intros [[_ E]|[_ E]]; [|auto]. elim (Hv l); [congruence|reflexivity].
  - intros E ->. rewrite Hk in E. injection E as _ <-. reflexivity.
Qed.
Lemma lw_exp_load k' : kw (fun v => k' = k -> v = None) (exp_load k').
Proof. fr; intros [= <- <-]; [exists d, e, o; auto 10|]. intros ->. exact Hek. Qed.
Lemma lw_exp_store k' t : k' <> k -> kw top (exp_store k' t).
Proof. intros Hne. fr; [|intros; exact I]. intros [= <- <-]. exists d, (<[k' := t]> e), o. cbn. rewrite lookup_insert_ne by auto. auto 10. Qed.
Lemma lw_exp_delete k' : kw top (exp_delete k').
Proof. fr; [|intros; exact I]. intros [= <- <-]. exists d, (delete k' e), o. cbn. repeat (split; [auto; fail|]). split; [|auto 10]. rewrite lookup_delete_None. auto. Qed.
Lemma lw_alloc : kw (fun l' => l' <> l) h_alloc.
Proof.
  fr; intros [= <- <-]; [|lia]. exists d, e, o. cbn. rewrite lookup_insert_ne by lia. repeat (split; [auto; fail|]). split; [lia|exact HP].
Qed.
Lemma lw_h_other {A} l' (g : hobj -> hobj * A) : l' <> l -> kw top (h_atom l' g).
Proof.
  intros Hne. fr; [|intros; exact I]. destruct (w_heap w !! l') as [o'|]; [|discriminate]. destruct (g o') as [o2 a2]. intros [= <- <-].
  exists d, e, o. cbn. rewrite lookup_insert_ne by auto. auto 10.
Qed.
Lemma lw_lock : kw top p_lock.
Proof. fr; [|intros; exact I]. destruct (_ || _); [discriminate|]. intros [= <- <-]. exists d, e, o. auto 10. Qed.
Lemma lw_unlock : kw top p_unlock.
Proof. fr; [|intros; exact I]. destruct (w_writer w); [|discriminate]. intros [= <- <-]. exists d, e, o. auto 10. Qed.
Lemma lw_rlock : kw top p_rlock.
Proof. fr; [|intros; exact I]. destruct (w_writer w); [discriminate|]. intros [= <- <-]. exists d, e, o. auto 10. Qed.
Lemma lw_runlock : kw top p_runlock.
Proof. fr; [|intros; exact I]. destruct (w_readers w); [discriminate|]. intros [= <- <-]. exists d, e, o. auto 10. Qed.
Lemma lw_locked {A} (Q : A -> Prop) p : kw Q p -> kw Q (locked p).
Proof.
  intros Hp. unfold locked. eapply kw_bind; [apply lw_lock|]. intros _ _. eapply kw_bind; [exact Hp|]. intros r Hr. eapply kw_bind; [apply lw_unlock|]. intros _ _. apply kw_ret. exact Hr.
Qed.
Lemma lw_rlocked {A} (Q : A -> Prop) p : kw Q p -> kw Q (rlocked p).
Proof.
  intros Hp. unfold rlocked. eapply kw_bind; [apply lw_rlock|]. intros _ _. eapply kw_bind; [exact Hp|]. intros r Hr. eapply kw_bind; [apply lw_runlock|]. intros _ _. apply kw_ret. exact Hr.
Qed.
Lemma other_try s : other (Some (try_int64 s)).
Proof. intros l'. unfold try_int64. destruct (atoi s); [discriminate|]. destruct (parse_float s); discriminate. Qed.
Lemma lw_expired k' : kw (fun b => k' = k -> b = false) (expired k').
Proof.
  unfold expired. eapply kw_bind; [apply lw_exp_load|]. intros [dl|] H; [|apply kw_ret; auto]. assert (k' <> k) by (intros E; specialize (H E); discriminate).
  eapply kw_bind; [apply lw_now|]. intros t _. destruct (dl <? t); [|apply kw_ret; auto]. eapply kw_bind; [apply lw_data_delete; auto|]. intros _ _.
  eapply kw_bind; [apply lw_exp_delete|]. intros _ _. apply kw_ret. tauto.
Qed.
Lemma lw_c_get k' : kw (loaded k') (c_get k').
Proof.
  unfold c_get. eapply kw_bind; [apply lw_data_load|]. intros [v|] H; [|apply kw_ret; exact H]. eapply kw_bind; [apply lw_expired|]. intros b Hb. apply kw_ret.
  destruct b; [|exact H]. split; [intros E; specialize (Hb E); discriminate|]. intros _ l'. discriminate.
Qed.
Lemma lw_load_live k' : kw (loaded k') (load_live k').
Proof. exact (lw_c_get k'). Qed.
Definition entry (k' : gostr) (h : hres) : Prop := (k' = k -> h = HEntry l) /\ (k' <> k -> forall l', h = HEntry l' -> l' <> l).
Lemma lw_ghe k' : kw (entry k') (get_hash_entry k').
Proof.
  unfold get_hash_entry. eapply kw_bind; [apply lw_c_get|]. intros v [H1 H2]. apply kw_ret. split.
  - intros E. rewrite (H1 E). reflexivity.
  - intros E l'. destruct v as [v|]; [|discriminate]. destruct v; try discriminate. intros [= <-]. apply (H2 E). reflexivity.
Qed.
Lemma lw_gon k' h : entry k' h -> kw (fun l' => entry k' (HEntry l')) (get_or_new k' h).
Proof.
  intros [H1 H2]. destruct (decide (k' = k)) as [E|E].
  - rewrite (H1 E). apply kw_ret. split; [auto|tauto].
  - unfold get_or_new. destruct h as [|l'|]; [|apply kw_ret; split; [tauto|exact H2]|];
      (unfold new_hash; eapply kw_bind; [apply lw_alloc|]; intros l' Hl'; eapply kw_bind; [apply lw_data_store; [exact E|]; intros l2 [= <-]; exact Hl'|]; intros _ _; apply kw_ret; split; [tauto|]; intros _ l2 [= <-]; exact Hl').
Qed.
(** operations on a hash entry, of [k] or another key *)
Lemma lw_load k' l' g : entry k' (HEntry l') -> kw top (h_load l' g).
Proof.
  intros [H1 H2]. destruct (decide (k' = k)) as [E|E]; [|apply lw_h_other, (H2 E); reflexivity]. injection (H1 E) as ->.
  apply wp_h_same with (fun _ => Idle). intros o. split; [apply tr_same|]. split; [reflexivity|exact I].
Qed.
Lemma lw_he_get k' l' g : entry k' (HEntry l') -> kw top (he_get l' g).
Proof. intros H. unfold he_get. eapply kw_bind; [apply (lw_load k'); auto|]. intros; apply kw_ret; exact I. Qed.
Lemma lw_range k' l' : entry k' (HEntry l') -> kw top (h_range l').
Proof.
  intros H. unfold h_range. eapply (kw_bind top).
  - destruct H as [H1 H2]. destruct (decide (k' = k)) as [E|E]; [|apply lw_h_other, (H2 E); reflexivity]. injection (H1 E) as ->.
    apply wp_h_same with (fun _ => Idle). intros o. split; [apply tr_same|]. split; [reflexivity|exact I].
  - intros ks _. induction ks as [|g r IH]; cbn [h_visit]; [apply kw_ret; exact I|]. eapply kw_bind; [apply (lw_load k'); auto|]. intros v _. eapply kw_bind; [exact IH|]. intros; apply kw_ret; exact I.
Qed.
Lemma wrap_le z : - 2 ^ 63 <= z -> - 2 ^ 63 <= wrap64 z <= z.
Proof.
  intros H. unfold wrap64. change two63 with (2 ^ 63). change two64 with (2 ^ 64). pose proof (Z.mod_pos_bound (z + 2 ^ 63) (2 ^ 64) ltac:(lia)). split; [lia|].
  pose proof (Z.mod_le (z + 2 ^ 63) (2 ^ 64) ltac:(lia) ltac:(lia)). lia.
Qed.
(** reading and writing the count, idle or after a new field *)
Lemma wp_count n ph : (n = 0 /\ ph = Idle) \/ (n = 1 /\ ph = Pend) -> wp (fun r ph' => ph' = Idle /\ r = n) ph (do len <- h_get_len l; h_set_len l (wrap64 (len + n));;; Ret n).
Proof.
  intros Hn. eapply wp_bind with (Q' := fun len ph' => ph' = Holds (wrap64 (len + n))).
  - apply wp_h_same with (fun o => Holds (wrap64 (h_len o + n))). intros o. cbn [fst snd]. split; [|reflexivity].
    destruct Hn as [[-> ->]|[-> ->]]; [apply tr_read|apply tr_read1]; intros H; [replace (h_len o + 0) with (h_len o) by lia|]; apply wrap_le; lia.
  - intros len ph' ->. eapply wp_bind with (Q' := fun _ ph' => ph' = Idle).
    + apply wp_h_same with (fun _ => Idle). intros o. cbn [fst snd]. split; [|reflexivity]. apply tr_write; reflexivity.
    + intros _ ph' ->. constructor. auto.
Qed.
Lemma lw_other_count l' n : l' <> l -> kw (fun r => r = n) (do len <- h_get_len l'; h_set_len l' (wrap64 (len + n));;; Ret n).
Proof. intros H. eapply (kw_bind top); [apply lw_h_other, H|]. intros len _. eapply (kw_bind top); [apply lw_h_other, H|]. intros _ _. apply kw_ret. reflexivity. Qed.
Lemma wp_los g v : wp (fun r ph => (snd r = true /\ ph = Idle) \/ (snd r = false /\ ph = Pend)) Idle (h_load_or_store l g v).
Proof.
  apply wp_h_same with (fun o => match h_map o !! g with Some _ => Idle | None => Pend end). intros o. destruct (h_map o !! g) as [x|] eqn:E; cbn [fst snd].
  - split; [apply tr_same|auto].
  - split; [|auto]. apply tr_new; [reflexivity|]. cbn. rewrite map_size_insert_None; auto.
Qed.
Lemma lw_he_set k' l' g v : entry k' (HEntry l') -> kw top (he_set l' g v).
Proof.
  intros [H1 H2]. unfold he_set. destruct (decide (k' = k)) as [E|E].
  - injection (H1 E) as ->. eapply wp_bind; [apply wp_los|]. intros [x b] ph [[Hb ->]|[Hb ->]]; cbn [snd] in Hb; subst b; cbn [snd].
    + eapply wp_bind with (Q' := fun _ ph => ph = Idle).
      * apply wp_h_same with (fun _ => Idle). intros o. cbn [fst snd]. split; [|reflexivity]. apply tr_grow; [reflexivity|]. cbn.
        destruct (h_map o !! g) eqn:Eg; [rewrite map_size_insert_Some by eauto|rewrite map_size_insert_None by auto]; lia.
      * intros _ ph ->. eapply wp_weaken; [|apply wp_count; auto]. intros r ph [-> _]. split; [reflexivity|exact I].
    + cbn [pbind]. eapply wp_weaken; [|apply wp_count; auto]. intros r ph [-> _]. split; [reflexivity|exact I].
  - assert (Hl : l' <> l) by (apply (H2 E); reflexivity). eapply (kw_bind top); [apply lw_h_other, Hl|]. intros [x b] _. cbn [snd]. eapply (kw_bind top).
    + destruct b; [apply lw_h_other, Hl|apply kw_ret; exact I].
    + intros _ _. eapply kw_weaken; [|apply lw_other_count, Hl]. intros; exact I.
Qed.
Lemma lw_hsetnx k' l' g v : entry k' (HEntry l') -> kw top (do r <- h_load_or_store l' g (VStr v); if snd r then Ret (0, None) else do len <- h_get_len l'; h_set_len l' (wrap64 (len + 1));;; Ret (1, @None goerr)).
Proof.
  intros [H1 H2]. destruct (decide (k' = k)) as [E|E].
  - injection (H1 E) as ->. eapply wp_bind; [apply wp_los|]. intros [x b] ph [[Hb ->]|[Hb ->]]; cbn [snd] in Hb; subst b; cbn [snd]; [apply kw_ret; exact I|].
    eapply wp_bind with (Q' := fun len ph' => ph' = Holds (wrap64 (len + 1))).
    + apply wp_h_same with (fun o => Holds (wrap64 (h_len o + 1))). intros o. cbn [fst snd]. split; [|reflexivity]. apply tr_read1; intros H; apply wrap_le; lia.
    + intros len ph' ->. eapply wp_bind with (Q' := fun _ ph' => ph' = Idle).
      * apply wp_h_same with (fun _ => Idle). intros o. cbn [fst snd]. split; [|reflexivity]. apply tr_write; reflexivity.
      * intros _ ph' ->. apply kw_ret. exact I.
  - assert (Hl : l' <> l) by (apply (H2 E); reflexivity). eapply (kw_bind top); [apply lw_h_other, Hl|]. intros [x b] _. cbn [snd]. destruct b; [apply kw_ret; exact I|].
    eapply (kw_bind top); [apply lw_h_other, Hl|]. intros len _. eapply (kw_bind top); [apply lw_h_other, Hl|]. intros _ _. apply kw_ret. exact I.
Qed.
Lemma lw_len k' l' : entry k' (HEntry l') -> kw top (h_get_len l').
Proof.
  intros [H1 H2]. destruct (decide (k' = k)) as [E|E]; [|apply lw_h_other, (H2 E); reflexivity]. injection (H1 E) as ->.
  apply wp_h_same with (fun _ => Idle). intros o. split; [apply tr_same|]. split; [reflexivity|exact I].
Qed.
(** The calls that do not take fields from the hash under [k], nor replace or remove it; HExists is excluded because it writes
    the count (C35). *)
Definition only_adds (c : call) : Prop :=
  match c with
  | CFlush | CCron => False
  | CSet k' _ | CSetEX k' _ _ | CPSetEX k' _ _ | CGetSet k' _ | CDel k' => k' <> k
  | CMSet kv => k ∉ map fst kv
  | CHDel k' _ | CHExists k' _ => k' <> k
  | _ => True
  end.
Ltac bnd lem := eapply kw_bind; [apply lem|].
Ltac done_ := apply kw_ret; exact I.
Lemma lw_incr_by k' d : kw top (incr_by k' d).
Proof.
  unfold incr_by. bnd lw_data_los; [discriminate|]. intros [v b] Hr. cbn [fst snd]. destruct b; cbn [negb]; [|done_]. destruct (incr_val v d) as [[v' n]|] eqn:E; [|done_].
  assert (k' <> k). { intros Ek. specialize (Hr Ek). injection Hr as ->. discriminate. }
  bnd lw_data_store; auto; [|intros; done_]. intros l'. destruct v; try discriminate E; injection E as <- _; discriminate.
Qed.
Lemma lw_mset kv : k ∉ map fst kv -> kw top (mset_loop kv).
Proof.
  induction kv as [|[k' v] r IH]; intros H; cbn [mset_loop]; [done_|]. cbn in H. apply not_elem_of_cons in H as [H1 H2].
  bnd lw_data_store; [auto|apply other_try|]. intros _ _. auto.
Qed.
Lemma lw_msetnx kv : forall n, kw top (msetnx_loop kv n).
Proof. induction kv as [|[k' v] r IH]; intros n; cbn [msetnx_loop]; [done_|]. bnd lw_data_los; [apply other_try|]. intros y _. apply IH. Qed.
Lemma lw_mget ks : kw top (mget_loop ks).
Proof. induction ks as [|k' r IH]; cbn [mget_loop]; [done_|]. bnd lw_c_get. intros v _. eapply kw_bind; [exact IH|]. intros; done_. Qed.
Lemma lw_exists ks : forall n, kw top (exists_loop ks n).
Proof. induction ks as [|k' r IH]; intros n; cbn [exists_loop]; [done_|]. bnd lw_data_load. intros v _. apply IH. Qed.
Lemma lw_expires k' d : k' <> k -> kw top (expires k' d).
Proof. intros H. unfold expires. destruct (d <=? 0); [apply lw_exp_delete|]. bnd lw_now. intros t _. apply lw_exp_store, H. Qed.
Lemma lw_hmset k' l' fv : entry k' (HEntry l') -> forall n, kw top (hmset_loop l' fv n).
Proof. intros He. induction fv as [|[g v] r IH]; intros n; cbn [hmset_loop]; [done_|]. bnd (lw_he_set k'); [exact He|]. intros y _. apply IH. Qed.
Lemma lw_hmget k' h fs : entry k' h -> kw top (hmget_loop h fs).
Proof.
  intros He. induction fs as [|g r IH]; cbn [hmget_loop]; [done_|]. eapply (kw_bind top).
  - destruct h as [|l'|]; [done_| |done_]. bnd (lw_he_get k'); [exact He|]. intros; done_.
  - intros s _. eapply kw_bind; [exact IH|]. intros; done_.
Qed.
Lemma lw_panic {A} (Q : A -> Prop) : kw Q panic.
Proof. apply wp_step with (fun _ => Idle); discriminate. Qed.
Lemma lw_hdel l' fs : l' <> l -> forall n, kw top (hdel_loop l' fs n).
Proof.
  intros Hl. induction fs as [|g r IH]; intros n; cbn [hdel_loop]; [done_|]. eapply (kw_bind top); [unfold he_get; eapply (kw_bind top); [apply lw_h_other, Hl|intros; done_]|].
  intros [s|] _; [|auto]. eapply (kw_bind top); [apply lw_h_other, Hl|]. intros _ _. auto.
Qed.
Ltac pm := cbn [call_prog]; unfold pmap; eapply (kw_bind top); [|intros; done_].
Lemma lw_call c : only_adds c -> kw top (call_prog c).
Proof.
  intros Hs. destruct c; cbn [only_adds] in Hs; try (destruct Hs; fail); pm; unf.
  - apply lw_locked. bnd lw_data_store; [auto|apply other_try|]. intros; done_.
  - apply lw_locked. bnd lw_data_los; [apply other_try|]. intros; done_.
  - apply lw_locked. bnd lw_data_store; [auto|apply other_try|]. intros _ _. bnd lw_expires; [auto|]. intros; done_.
  - apply lw_locked. bnd lw_data_store; [auto|apply other_try|]. intros _ _. bnd lw_expires; [auto|]. intros; done_.
  - apply lw_rlocked. bnd lw_c_get. intros; done_.
  - apply lw_locked. bnd lw_c_get. intros y _. bnd lw_data_store; [auto|apply other_try|]. intros; done_.
  - apply lw_rlocked. bnd lw_load_live. intros; done_.
  - apply lw_locked. bnd lw_load_live. intros y Hy. destruct (decide (k0 = k)) as [E|E].
    + rewrite (proj1 Hy E). cbn. done_.
    + destruct y as [y|]; [|bnd lw_data_store; [auto|apply other_try|]; intros; done_]. destruct (fmt_string y); [|done_]. bnd lw_data_store; [auto|apply other_try|]; intros; done_.
  - apply lw_locked. destruct (pos <? 0); [done_|]. cbn zeta. bnd lw_load_live. intros y Hy. destruct (decide (k0 = k)) as [E|E].
    + rewrite (proj1 Hy E). cbn. done_.
    + destruct y as [y|]; [|destruct (pos >? max_alloc); [apply wp_step with (fun _ => Idle); discriminate|]; bnd lw_data_store; [auto|apply other_try|]; intros; done_]. destruct (fmt_string y); [|done_]. bnd lw_data_store; [auto|apply other_try|]; intros; done_.
  - apply lw_rlocked. bnd lw_load_live. intros; done_.
  - apply lw_locked, lw_incr_by.
  - apply lw_locked, lw_incr_by.
  - apply lw_locked. bnd lw_data_los; [discriminate|]. intros [y b] Hy. cbn [fst snd]. destruct b; cbn [negb]; [|done_]. destruct (decide (k0 = k)) as [E|E].
    + specialize (Hy E). injection Hy as ->. done_.
    + destruct y; try done_; (bnd lw_data_store; [auto|discriminate|]; intros; done_).
  - apply lw_locked, lw_incr_by.
  - apply lw_locked, lw_incr_by.
  - bnd lw_mset; [auto|]. intros; done_.
  - apply lw_msetnx.
  - apply lw_mget.
  - apply lw_locked. bnd lw_c_get. intros y _. bnd lw_data_delete; [auto|]. intros _ _. bnd lw_exp_delete. intros; done_.
  - apply lw_exists.
  - bnd lw_c_get. intros; done_.
  - bnd lw_ghe. intros h Hh. assert (Hg : kw top (do l' <- get_or_new k0 h; do n <- he_set l' f v; Ret (n, @None goerr))).
    { bnd lw_gon; [exact Hh|]. intros l' Hl'. bnd (lw_he_set k0); [exact Hl'|]. intros; done_. }
    destruct h; [exact Hg|exact Hg|done_].
  - bnd lw_ghe. intros h Hh. assert (Hg : kw top (do l' <- get_or_new k0 h; do r <- h_load_or_store l' f (VStr v); if snd r then Ret (0, None) else do len <- h_get_len l'; h_set_len l' (wrap64 (len + 1));;; Ret (1, @None goerr))).
    { bnd lw_gon; [exact Hh|]. intros l' Hl'. apply (lw_hsetnx k0), Hl'. }
    destruct h; [exact Hg|exact Hg|done_].
  - bnd lw_ghe. intros [|l'|] Hh; [done_| |done_]. assert (Hl : l' <> l) by (apply Hh; auto). unfold he_get. eapply (kw_bind top); [eapply (kw_bind top); [apply lw_h_other, Hl|intros; done_]|]. intros y _. cbn zeta. eapply (kw_bind top); [apply lw_h_other, Hl|]. intros n _. eapply (kw_bind top); [apply lw_h_other, Hl|]. intros; done_.
  - bnd lw_ghe. intros [|l'|] Hh; [done_| |done_]. assert (Hl : l' <> l) by (apply Hh; auto). bnd lw_hdel; [exact Hl|]. intros n _. eapply (kw_bind top); [|intros; done_]. destruct (n =? 0); [done_|].
    eapply (kw_bind top); [apply lw_h_other, Hl|]. intros n' _. apply lw_h_other, Hl.
  - bnd lw_ghe. intros [|l'|] Hh; [done_| |done_]. bnd (lw_len k0); [exact Hh|]. intros; done_.
  - bnd lw_ghe. intros [|l'|] Hh; [done_| |done_]. bnd (lw_he_get k0); [exact Hh|]. intros; done_.
  - bnd lw_ghe. intros h Hh. match goal with |- context [get_or_new k0 h] => idtac end.
    assert (Hg : forall l', entry k0 (HEntry l') -> kw top (do v <- h_load l' f; match v with None => do _u <- he_set l' f (itoa d); Ret (d, None) | Some x => match hincr_val x d with None => Ret (0, Some ErrHashValueIsNotFloat) | Some n => do _u <- he_set l' f (itoa d); Ret (n, None) end end)).
    { intros l' Hl'. eapply (kw_bind top); [apply (lw_load k0); exact Hl'|]. intros y _.
      assert (Hset : kw top (he_set l' f (itoa d))) by (apply (lw_he_set k0), Hl').
      destruct y as [y|]; [destruct (hincr_val y d); [|done_]|]; (eapply kw_bind; [exact Hset|]; intros; done_). }
    destruct h; [| |done_]; (bnd (lw_gon k0); [exact Hh|]; intros l' Hl'; apply Hg, Hl').
  - bnd lw_ghe. intros h Hh.
    assert (Hg : forall l', entry k0 (HEntry l') -> kw top (do v <- h_load l' f; match v with None => do _u <- he_set l' f (format_float d); Ret (d, None) | Some x => match hincrf_val x d with None => Ret (S754_zero false, Some ErrHashValueIsNotFloat) | Some n => do _u <- he_set l' f (format_float d); Ret (n, None) end end)).
    { intros l' Hl'. eapply (kw_bind top); [apply (lw_load k0); exact Hl'|]. intros y _.
      assert (Hset : kw top (he_set l' f (format_float d))) by (apply (lw_he_set k0), Hl').
      destruct y as [y|]; [destruct (hincrf_val y d); [|done_]|]; (eapply kw_bind; [exact Hset|]; intros; done_). }
    destruct h; [| |done_]; (bnd (lw_gon k0); [exact Hh|]; intros l' Hl'; apply Hg, Hl').
  - bnd lw_ghe. intros h Hh. destruct h; [| |done_]; (bnd (lw_gon k0); [exact Hh|]; intros l' Hl'; bnd (lw_hmset k0); [exact Hl'|]; intros; done_).
  - bnd lw_ghe. intros h Hh. destruct h; [| |done_]; (bnd (lw_hmget k0); [exact Hh|]; intros; done_).
  - bnd lw_ghe. intros [|l'|] Hh; [apply lw_panic| |done_]. bnd (lw_range k0); [exact Hh|]. intros; done_.
  - bnd lw_ghe. intros [|l'|] Hh; [apply lw_panic| |done_]. bnd (lw_range k0); [exact Hh|]. intros; done_.
  - bnd lw_ghe. intros [|l'|] Hh; [apply lw_panic| |done_]. bnd (lw_range k0); [exact Hh|]. intros es _. destruct (existsb hgetall_bad es); [apply lw_panic|done_].
  - bnd lw_ghe. intros [|l'|] Hh; [done_| |done_]. bnd (lw_he_get k0); [exact Hh|]. intros; done_.
Qed.
Lemma lw_ghe_k : kw (fun h => h = HEntry l) (get_hash_entry k).
Proof. eapply kw_weaken; [|apply lw_ghe]. intros h [H _]. auto. Qed.
Lemma wp_hlen : wp (fun r ph => exists n, r = RInt (n, None) /\ ph = Holds n) Idle (call_prog (CHLen k)).
Proof.
  cbn [call_prog]. unfold pmap, m_hlen. eapply wp_bind with (Q' := fun r ph => exists n, r = (n, None) /\ ph = Holds n).
  - eapply wp_bind; [apply lw_ghe_k|]. intros h ph [-> ->]. eapply wp_bind with (Q' := fun n ph => ph = Holds n).
    + apply wp_h_same with (fun o => Holds (h_len o)). intros o. cbn. split; [|reflexivity]. apply tr_read. lia.
    + intros n ph ->. constructor. eauto.
  - intros r ph (n & -> & ->). constructor. eauto.
Qed.

(** ** goroutines *)
(** the goroutines in [S] have added a field not yet counted; [N] is a number of fields there has been *)
Definition good (N : Z) (Qs : nat -> reply -> phase -> Prop) (c : conf) : Prop :=
  I_ (c_w c) /\ exists (S : gset nat) (phs : nat -> phase),
    (forall j p, c_th c !! j = Some p -> wp (Qs j) (phs j) p) /\ (forall j, c_th c !! j = None -> phs j = Idle) /\ (forall j, phs j = Pend <-> j ∈ S) /\
    exists o, w_heap (c_w c) !! l = Some o /\ N <= Z.of_nat (size (h_map o)) /\ - 2 ^ 63 <= h_len o /\ h_len o + Z.of_nat (size S) <= Z.of_nat (size (h_map o)) /\
      forall j v, phs j = Holds v -> - 2 ^ 63 <= v /\ v + Z.of_nat (size S) <= Z.of_nat (size (h_map o)).
Definition upd (phs : nat -> phase) (i : nat) (x : phase) : nat -> phase := fun j => if decide (j = i) then x else phs j.
Lemma upd_eq phs i x : upd phs i x i = x. Proof. unfold upd. rewrite decide_True; auto. Qed.
Lemma upd_ne phs i x j : j <> i -> upd phs i x j = phs j. Proof. intros. unfold upd. rewrite decide_False; auto. Qed.
Lemma good_step N (Qs : nat -> reply -> phase -> Prop) a c c' e : (forall j r ph, Qs j r ph -> ph <> Pend) -> good N Qs c -> cstep a c = Some (c', e) ->
  (forall j cl, EInv j cl ∈ e -> wp (Qs j) Idle (call_prog cl)) -> good N Qs c'.
Proof.
  intros HQ (HI & S & phs & Hth & Hno & HS & o & Ho & HN & Hlo & Hlen & Hv) E Hin. destruct a as [i cl|i|i|t]; cbn in E.
  - destruct (c_th c !! i) eqn:Ei; [discriminate|]. injection E as <- <-. split; [exact HI|]. exists S, phs. cbn. split; [|split; [|eauto 10]].
    + intros j p. rewrite lookup_insert_Some. intros [[<- <-]|[_ Hj]]; [|auto]. rewrite (Hno i Ei). apply Hin. left.
    + intros j. rewrite lookup_insert_None. intros [Hj _]. auto.
  - destruct (c_th c !! i) as [[r|f]|] eqn:Ei; try discriminate. destruct (f (c_w c)) as [w' p'| |] eqn:Ef; try discriminate. injection E as <- <-.
    specialize (Hth i _ Ei) as Hi. inversion Hi as [|ph nx f' H1 H2]; subst. destruct (H1 _ _ _ HI Ef) as [HI' Htr]. specialize (H2 _ _ _ HI Ef).
    destruct HI' as (d' & e' & o' & Hd' & He' & Hk' & Hek' & Ho' & Hrest). specialize (Htr _ _ Ho Ho').
    split; [exists d', e', o'; cbn; auto 10|]. cbn.
    set (x := nx (c_w c)) in *.
    assert (Hth' : forall j p, <[i := p']> (c_th c) !! j = Some p -> wp (Qs j) (upd phs i x j) p).
    { intros j p. rewrite lookup_insert_Some. intros [[<- <-]|[Hj Hp]]; [rewrite upd_eq; exact H2|rewrite upd_ne by auto; auto]. }
    assert (Hno' : forall j, <[i := p']> (c_th c) !! j = None -> upd phs i x j = Idle).
    { intros j. rewrite lookup_insert_None. intros [Hj Hne]. rewrite upd_ne by auto. auto. }
    assert (Hgen : forall S' : gset nat, (forall j, j <> i -> j ∈ S' <-> j ∈ S) -> (x = Pend <-> i ∈ S') ->
      N <= Z.of_nat (size (h_map o')) -> - 2 ^ 63 <= h_len o' -> h_len o' + Z.of_nat (size S') <= Z.of_nat (size (h_map o')) ->
      (Z.of_nat (size S') - Z.of_nat (size S) <= Z.of_nat (size (h_map o')) - Z.of_nat (size (h_map o))) ->
      (forall v, x = Holds v -> - 2 ^ 63 <= v /\ v + Z.of_nat (size S') <= Z.of_nat (size (h_map o'))) ->
      exists (S : gset nat) (phs : nat -> phase),
        (forall j p, <[i := p']> (c_th c) !! j = Some p -> wp (Qs j) (phs j) p) /\ (forall j, <[i := p']> (c_th c) !! j = None -> phs j = Idle) /\ (forall j, phs j = Pend <-> j ∈ S) /\
        exists o, w_heap w' !! l = Some o /\ N <= Z.of_nat (size (h_map o)) /\ - 2 ^ 63 <= h_len o /\ h_len o + Z.of_nat (size S) <= Z.of_nat (size (h_map o)) /\
          forall j v, phs j = Holds v -> - 2 ^ 63 <= v /\ v + Z.of_nat (size S) <= Z.of_nat (size (h_map o))).
    { intros S' A1 A2 A3 A4 A5 A6 A7. exists S', (upd phs i x). split; [exact Hth'|]. split; [exact Hno'|]. split.
      - intros j. destruct (decide (j = i)) as [->|Hj]; [rewrite upd_eq; exact A2|]. rewrite upd_ne by auto. rewrite (A1 j Hj). apply HS.
      - exists o'. split; [exact Ho'|]. repeat (split; [assumption|]). intros j v. destruct (decide (j = i)) as [->|Hj]; [rewrite upd_eq; auto|]. rewrite upd_ne by auto. intros Hx. destruct (Hv j v Hx). lia. }
    clearbody x. inversion Htr as [ph1 o1 E1 E2 E3 E4|o1 o2 G1 G2 E1 E2 E3 E4|o1 o2 G1 G2 E1 E2 E3 E4|o1 v G E1 E2 E3 E4|o1 v G E1 E2 E3 E4|o1 o2 v G1 G2 E1 E2 E3 E4]; subst.
    + apply (Hgen S); try lia; auto.
    + apply (Hgen S); try lia; auto; [|discriminate]. rewrite <- (HS i). rewrite <- E1. reflexivity.
    + assert (HiS : i ∉ S) by (rewrite <- (HS i), <- E1; discriminate).
      assert (Hsz : size ({[i]} ∪ S) = Datatypes.S (size S)) by (rewrite size_union by set_solver; rewrite size_singleton; lia).
      apply (Hgen ({[i]} ∪ S)); try lia; [set_solver|set_solver|discriminate].
    + apply (Hgen S); try lia; auto; [|intros v' [= <-]; specialize (G Hlo); lia]. rewrite <- (HS i). rewrite <- E1. split; discriminate.
    + assert (HiS : i ∈ S) by (rewrite <- (HS i), <- E1; reflexivity).
      assert (Hsz : (size (S ∖ {[i]}) + 1 = size S)%nat).
      { assert (H3 : size ({[i]} ∪ S ∖ {[i]}) = size S) by (f_equal; apply set_eq; intros j; destruct (decide (j = i)); set_solver). rewrite size_union in H3 by set_solver. rewrite size_singleton in H3. lia. }
      apply (Hgen (S ∖ {[i]})); try lia; [set_solver|split; [discriminate|set_solver]|]. intros v' [= <-]. specialize (G Hlo). lia.
    + symmetry in E1. destruct (Hv i _ E1) as [V1 V2].
      apply (Hgen S); rewrite ?G2; try lia; auto; [|discriminate]. rewrite <- (HS i). rewrite E1. split; discriminate.
  - destruct (c_th c !! i) as [[r|f]|] eqn:Ei; try discriminate. injection E as <- <-. split; [exact HI|]. cbn.
    specialize (Hth i _ Ei) as Hi. inversion Hi as [ph r' Hr|]; subst. apply HQ in Hr. exists S, (upd phs i Idle). split; [|split; [|split]].
    + intros j p. rewrite lookup_delete_Some. intros [Hj Hp]. rewrite upd_ne by auto. auto.
    + intros j. rewrite lookup_delete_None. destruct (decide (j = i)) as [->|Hj]; [rewrite upd_eq; auto|]. rewrite upd_ne by auto. intros [?|?]; [congruence|auto].
    + intros j. destruct (decide (j = i)) as [->|Hj]; [rewrite upd_eq|rewrite upd_ne by auto; apply HS]. rewrite <- (HS i). split; [discriminate|tauto].
    + exists o. repeat (split; [assumption|]). intros j v. destruct (decide (j = i)) as [->|Hj]; [rewrite upd_eq; discriminate|rewrite upd_ne by auto; apply Hv].
  - destruct (w_now (c_w c) <=? t); [|discriminate]. injection E as <- <-. split; [|exists S, phs; cbn; eauto 12].
    destruct HI as (d & e2 & o2 & H). exists d, e2, o2. exact H.
Qed.
Lemma good_exec N (Qs : nat -> reply -> phase -> Prop) s c c' evs : (forall j r ph, Qs j r ph -> ph <> Pend) -> good N Qs c -> cexec s c = Some (c', evs) ->
  (forall j cl, EInv j cl ∈ evs -> wp (Qs j) Idle (call_prog cl)) -> good N Qs c'.
Proof.
  intros HQ H0 E Hin. refine (cexec_inv (fun c evs => (forall j cl, EInv j cl ∈ evs -> wp (Qs j) Idle (call_prog cl)) -> good N Qs c) s c c' evs _ [] _ E Hin); [|auto].
  intros c1 evs1 a c2 e IH Es Hi. eapply good_step; [exact HQ|apply IH|exact Es|]; intros j cl Hj; apply Hi, elem_of_app; auto.
Qed.
End len.
