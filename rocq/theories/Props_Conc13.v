(** * Props_Conc13: names do not matter, and of times only the differences (C179, C180) *)
From stdpp Require Import gmap list.
From Verif Require Import Base GoFloat CacheModel CacheSpec CacheAbs CacheRefine CacheRefineH CacheMain CacheConc CacheRange CacheSim CacheRename.
From Verif Require Import Props_Conc Props_Conc12.

(** ** C179: other names for keys and fields
    [ren_call], [ren_reply] and [ren_world] of CacheRename.v put [rho k] for each key and [phi f] for each field; texts that are stored stay as
    they are. Replies are compared up to the order of the lists of HKeys and HVals, which follows the names. *)
Section names.
Context (rho phi : gostr -> gostr) {Hrho : Inj (=) (=) rho} {Hphi : Inj (=) (=) phi}.
Lemma rel_start w : R rho phi 0 w (ren_world rho phi 0 w). Proof. split; auto. Qed.
Lemma rel_tick w w' t : R rho phi 0 w w' -> w_now w <= t -> w_now w' <= t /\ R rho phi 0 (set_now w t) (set_now w' t).
Proof. intros [-> _] H. cbn. split; [lia|]. split; [|auto]. unfold set_now, ren_world. cbn. rewrite Z.add_0_r. reflexivity. Qed.
Lemma no_block t c w : ready w -> run_call t c w <> EBlocked.
Proof. intros Hr. pose proof (refine c t w Hr) as H. destruct (abs c t (view w)) as [[V r]|]; [destruct H as (w' & -> & _); discriminate|rewrite H; discriminate]. Qed.
Theorem C179_alone t c w : ready w ->
  match run_call t c w, run_call t (ren_call rho phi c) (ren_world rho phi 0 w) with
  | Done w1 r, Done w1' r' => w1' = ren_world rho phi 0 w1 /\ reordered r' (ren_reply phi c r)
  | EPanic, EPanic => True
  | _, _ => False
  end.
Proof.
  intros Hr. pose proof (no_block t c w Hr) as Hb. destruct (C177_own_order t c w Hr) as (p & Hp & E). rewrite <- E in *. destruct (sim_call rho phi 0 c p Hp) as (p' & Hp' & Hs).
  pose proof (C177_alone t (ren_call rho phi c) p' (ren_world rho phi 0 w) (ready_ren rho phi 0 w Hr) Hp') as H.
  assert (Hw : R rho phi 0 (set_now w t) (set_now (ren_world rho phi 0 w) t)) by (split; [unfold set_now, ren_world; cbn; rewrite Z.add_0_r; reflexivity|auto]).
  pose proof (sim_eval _ _ _ _ _ _ Hs Hw) as He. destruct (eval p (set_now w t)) as [w1 r| |] eqn:E1, (eval p' (set_now (ren_world rho phi 0 w) t)) as [w1' r'| |] eqn:E2; try contradiction; try congruence.
  - destruct He as [[-> _] ->]. destruct H as (r0 & -> & Hre). split; [reflexivity|]. destruct (ren_reply phi c r) as [| | | |[]| |], r0 as [| | | |[]| |]; cbn in *; try congruence. destruct Hre as [H1 H2]. split; [symmetry; exact H1|congruence].
  - rewrite H. exact I.
Qed.
Definition ren_hist (h : list (Z * call)) : list (Z * call) := map (fun x => (fst x, ren_call rho phi (snd x))) h.
Fixpoint ren_replies (h : list (Z * call)) (rs : list reply) : list reply :=
  match h, rs with (_, c) :: h, r :: rs => ren_reply phi c r :: ren_replies h rs | _, _ => [] end.
Lemma hist_ren h : forall w, ready w ->
  match run_hist h w, run_hist (ren_hist h) (ren_world rho phi 0 w) with
  | Done w1 rs, Done w1' rs' => w1' = ren_world rho phi 0 w1 /\ Forall2 reordered rs' (ren_replies h rs)
  | EPanic, EPanic => True
  | _, _ => False
  end.
Proof.
  induction h as [|[t c] h IH]; intros w Hr; cbn [run_hist ren_hist map fst snd]; [split; [reflexivity|constructor]|].
  pose proof (C179_alone t c w Hr) as H. destruct (run_call t c w) as [w1 r| |] eqn:E1, (run_call t (ren_call rho phi c) (ren_world rho phi 0 w)) as [w1' r'| |]; try contradiction; [|exact I].
  destruct H as [-> H]. specialize (IH w1 (ready_run _ _ _ _ _ Hr E1)). fold (ren_hist h). destruct (run_hist h w1) as [w2 rs| |], (run_hist (ren_hist h) (ren_world rho phi 0 w1)) as [w2' rs'| |]; try contradiction; [|exact I].
  destruct IH as [-> IH]. split; [reflexivity|]. cbn. constructor; auto.
Qed.
Lemma ren_new t : ren_world rho phi 0 (new_world t) = new_world t.
Proof. unfold ren_world, new_world. cbn. rewrite !kmap_empty, !fmap_empty, Z.add_0_r. reflexivity. Qed.
(** A new cache, any history: the renamed history is answered alike. *)
Theorem C179_history t h :
  match run_hist h (new_world t), run_hist (ren_hist h) (new_world t) with
  | Done w rs, Done w' rs' => w' = ren_world rho phi 0 w /\ Forall2 reordered rs' (ren_replies h rs)
  | EPanic, EPanic => True
  | _, _ => False
  end.
Proof. pose proof (hist_ren h (new_world t) (ready_new t)) as H. rewrite ren_new in H. exact H. Qed.
(** Any number of goroutines, with any Range that is allowed. *)
Theorem C179_goroutines w evs c : oexec w evs c ->
  exists c', oexec (ren_world rho phi 0 w) (mapped (ren_call rho phi) (ren_reply phi) id ∅ evs) c' /\ c_w c' = ren_world rho phi 0 (c_w c) /\
  forall i, (enabled c i <-> enabled c' i) /\ (crashing c i <-> crashing c' i).
Proof.
  intros E. destruct (sim_oexec (R rho phi 0) (ren_call rho phi) (ren_reply phi) id (sim_call rho phi 0) rel_tick w _ evs c (rel_start w) E) as (c' & E' & Hw & Hth).
  exists c'. split; [exact E'|]. split; [apply Hw|]. intros i. specialize (Hth i). unfold enabled, crashing. destruct (c_th c !! i) as [p|], (c_th c' !! i) as [p'|]; try contradiction; [|tauto].
  destruct Hth as (cl & _ & Hs). destruct p as [r|f], p' as [r'|f']; try contradiction; [tauto|]. specialize (Hs _ _ Hw). destruct (f (c_w c)), (f' (c_w c')); try contradiction; split; split; auto; discriminate.
Qed.
(** The schedules of CacheConc.v without Range: step by step, both ways. *)
Definition no_range (c : call) : Prop := match c with CHKeys _ | CHVals _ | CHGetAll _ | CCron => False | _ => True end.
Theorem C179_schedules w s : (forall i cl, AInv i cl ∈ s -> no_range cl) ->
  match cexec s (start w), cexec (map (gact (ren_call rho phi) id) s) (start (ren_world rho phi 0 w)) with
  | Some (c, e), Some (c', e') => e' = mapped (ren_call rho phi) (ren_reply phi) id ∅ e /\ c_w c' = ren_world rho phi 0 (c_w c)
  | None, None => True
  | _, _ => False
  end.
Proof.
  intros HK. set (s' := map (gact (ren_call rho phi) id) s). pose proof (fun H1 H2 H3 => sim_cexec (R rho phi 0) (ren_call rho phi) (ren_reply phi) id no_range H1 H2 H3 s ∅ (start w) (start (ren_world rho phi 0 w))) as H.
  assert (H1 : forall c, no_range c -> sim (R rho phi 0) (fun r r' => r' = ren_reply phi c r) (call_prog c) (call_prog (ren_call rho phi c))).
  { intros cl Hcl. destruct (sim_call rho phi 0 cl (call_prog cl)) as (p' & Hp' & Hs); [destruct cl; try contradiction; reflexivity|]. replace (call_prog (ren_call rho phi cl)) with p' by (destruct cl; try contradiction; exact Hp'). exact Hs. }
  specialize (H H1 rel_tick). fold s' in H. specialize (H ltac:(intros w1 w2 t [-> _]; cbn; lia)). specialize (H ltac:(split; [apply rel_start|]; intros i; cbn; rewrite !lookup_empty; exact I) HK).
  destruct (cexec s (start w)) as [[c e]|], (cexec s' (start (ren_world rho phi 0 w))) as [[c' e']|]; auto. destruct H as [-> [[Hw _] _]]. auto.
Qed.
End names.

(** ** C180: another origin of time
    [later d w]: clock and deadlines [d] nanoseconds later. The times of a run are after the year 1, as all times of Go's clock are (cron
    compares the clock with the zero time). *)
Definition later (d : Z) (w : world) : world :=
  W (w_data w) (option_map (fmap (fun t => t + d)) (w_exp w)) (w_heap w) (w_next w) (w_writer w) (w_readers w) (w_now w + d).
Definition me (s : gostr) : gostr := s.
#[local] Instance me_inj : Inj (=) (=) me. Proof. intros x y H. exact H. Qed.
Lemma kren_me {A : Type} (m : gmap gostr A) : kren me m = m.
Proof. apply map_eq. intros i. exact (lookup_kmap me m i). Qed.
Lemma later_ren d w : ren_world me me d w = later d w.
Proof.
  destruct w as [dd e h n b m t]. unfold ren_world, later. cbn. f_equal.
  - destruct dd; cbn; [rewrite kren_me|]; reflexivity.
  - destruct e; cbn; [rewrite kren_me|]; reflexivity.
  - apply map_eq. intros l. rewrite lookup_fmap. destruct (h !! l) as [[o len]|]; cbn; [unfold ren_obj; cbn; rewrite kren_me|]; reflexivity.
Qed.
Lemma map_me (l : list gostr) : map me l = l. Proof. induction l as [|? ? IH]; cbn [map]; [|rewrite IH]; reflexivity. Qed.
Lemma call_me c : ren_call me me c = c.
Proof.
  assert (H1 : forall l : list gostr, map me l = l) by (induction l as [|? ? IH]; cbn [map]; [|rewrite IH]; reflexivity).
  assert (H2 : forall l : list (gostr * gostr), map (on1 me) l = l) by (induction l as [|[] ? IH]; cbn [map]; [|rewrite IH]; reflexivity).
  assert (H3 : forall l : list (gostr * gostr), map (on2 me) l = l) by (induction l as [|[] ? IH]; cbn [map]; [|rewrite IH]; reflexivity).
  destruct c; cbn; rewrite ?H1, ?H2, ?H3; reflexivity.
Qed.
Section time.
Context (d : Z).
Notation RT := (R me me d).
Notation "p ~~ q" := (sim RT eq p q) (at level 80).
Lemma s_range_me l : h_range l ~~ h_range l.
Proof.
  unfold h_range. eapply (s_bind me me d); [apply s_hatom; intros o; cbn; rewrite kren_me; auto|]. intros ks. induction ks as [|f r IH]; [reflexivity|]. cbn [h_visit].
  eapply s_bind; [apply (s_hload me me d l f)|]. intros v. eapply s_bind; [exact IH|]. intros es. reflexivity.
Qed.
Lemma s_cron_me : m_cron_tick ~~ m_cron_tick.
Proof.
  unfold m_cron_tick. apply s_locked. eapply (s_bind me me d).
  - apply sim_atom. intros w w' [-> H]. cbn. destruct (w_data w) as [dd|]; cbn; [|exact I]. rewrite kren_me. repeat split; auto.
  - intros ks. pose proof (s_cronloop me me d ks) as H. rewrite map_me in H. exact H.
Qed.
Lemma sim_time c : sim RT (fun r r' => r' = r) (call_prog c) (call_prog c).
Proof.
  assert (Hw : forall p p', p ~~ p' -> sim RT (fun r r' : reply => r' = r) p p') by (intros p1 p2; apply sim_weaken; intros; congruence).
  assert (He : forall k, get_hash_entry k ~~ get_hash_entry k) by (intros k; exact (s_entry me me d k)).
  destruct c; try (match goal with |- sim _ _ (call_prog ?c) _ => destruct (sim_call me me d c (call_prog c) eq_refl) as (p' & Hp' & Hs); rewrite call_me in Hp'; cbn [by_doc] in Hp'; subst p'; exact Hs end).
  - apply Hw, s_map, s_cron_me.
  - apply Hw, s_map. unfold m_hkeys. apply s_bind; [apply He|]. intros [|l|]; [apply sim_panic| |reflexivity]. apply s_bind; [apply s_range_me|]. reflexivity.
  - apply Hw, s_map. unfold m_hvals. apply s_bind; [apply He|]. intros [|l|]; [apply sim_panic| |reflexivity]. apply s_bind; [apply s_range_me|]. reflexivity.
  - apply Hw, s_map. unfold m_hgetall. apply s_bind; [apply He|]. intros [|l|]; [apply sim_panic| |reflexivity]. apply s_bind; [apply s_range_me|]. intros es. destruct (existsb _ es); [apply sim_panic|reflexivity].
Qed.
(** after the year 1, before and after the move *)
Definition datable (t : Z) : Prop := zero_time < t /\ zero_time < t + d.
Theorem C180_alone t c w : datable t ->
  match run_call t c w, run_call (t + d) c (later d w) with
  | Done w1 r, Done w1' r' => w1' = later d w1 /\ r' = r
  | EBlocked, EBlocked => True
  | EPanic, EPanic => True
  | _, _ => False
  end.
Proof.
  intros Ht. assert (Hw : RT (set_now w t) (set_now (later d w) (t + d))) by (split; [rewrite later_ren; reflexivity|right; exact Ht]).
  pose proof (sim_eval _ _ _ _ _ _ (sim_time c) Hw) as H. unfold run_call. destruct (eval (call_prog c) (set_now w t)), (eval (call_prog c) (set_now (later d w) (t + d))); auto.
  destruct H as [[-> _] ->]. rewrite later_ren. auto.
Qed.
Theorem C180_history h : forall w, Forall (fun x => datable (fst x)) h ->
  match run_hist h w, run_hist (map (fun x => (fst x + d, snd x)) h) (later d w) with
  | Done w1 rs, Done w1' rs' => w1' = later d w1 /\ rs' = rs
  | EBlocked, EBlocked => True
  | EPanic, EPanic => True
  | _, _ => False
  end.
Proof.
  induction h as [|[t c] h IH]; intros w Ht; cbn [run_hist map fst snd]; [auto|]. inversion Ht; subst. pose proof (C180_alone t c w ltac:(assumption)) as H.
  destruct (run_call t c w) as [w1 r| |], (run_call (t + d) c (later d w)) as [w1' r'| |]; try contradiction; auto. destruct H as [-> ->]. specialize (IH w1 ltac:(assumption)).
  set (h' := map (fun x : Z * call => (fst x + d, snd x)) h) in *. destruct (run_hist h w1), (run_hist h' (later d w1)); auto. destruct IH as [-> ->]. auto.
Qed.
Lemma later_new t : later d (new_world t) = new_world (t + d). Proof. unfold later, new_world. cbn. rewrite fmap_empty. reflexivity. Qed.
Definition later_act (a : act) : act := match a with ATick t => ATick (t + d) | _ => a end.
Definition later_ev (e : event) : event := match e with ETick t => ETick (t + d) | _ => e end.
Lemma mapped_later evs : forall m, mapped (fun c => c) (fun _ r => r) (fun t => t + d) m evs = map later_ev evs.
Proof. induction evs as [|[i c|i r|t] evs IH]; intros m; cbn; rewrite ?IH; try reflexivity. destruct (m !! i); reflexivity. Qed.
Theorem C180_goroutines w s : datable (w_now w) ->
  match cexec s (start w), cexec (map later_act s) (start (later d w)) with
  | Some (c, e), Some (c', e') => e' = map later_ev e /\ c_w c' = later d (c_w c)
  | None, None => True
  | _, _ => False
  end.
Proof.
  intros Ht. pose proof (sim_cexec RT (fun c => c) (fun _ r => r) (fun t => t + d) (fun _ => True) (fun c _ => sim_time c)) as H.
  assert (H1 : forall w w' t, RT w w' -> w_now w <= t -> w_now w' <= t + d /\ RT (set_now w t) (set_now w' (t + d))).
  { intros w1 w2 t [-> Hd] Hle. cbn. split; [lia|]. split; [reflexivity|]. cbn. destruct Hd as [Hd|[H1 H2]]; [auto|]. right. lia. }
  assert (H2 : forall w w' t, RT w w' -> w_now w' <= t + d -> w_now w <= t) by (intros w1 w2 t [-> _]; cbn; lia).
  specialize (H H1 H2 s ∅ (start w) (start (later d w))). replace (map (gact (fun c => c) (fun t => t + d)) s) with (map later_act s) in H by (apply map_ext; intros []; reflexivity).
  assert (H3 : same_conf RT (fun _ r => r) ∅ (start w) (start (later d w))) by (split; [split; [cbn; rewrite later_ren; reflexivity|right; exact Ht]|intros i; cbn; rewrite !lookup_empty; exact I]).
  specialize (H H3 (fun _ _ _ => I)). destruct (cexec s (start w)) as [[c e]|], (cexec (map later_act s) (start (later d w))) as [[c' e']|]; auto. destruct H as [-> [[Hw _] _]]. rewrite mapped_later, Hw, later_ren. auto.
Qed.
End time.
(** The same history a thousand seconds later, with other names. *)
Definition quoted (s : gostr) : gostr := z2b 34 :: s.
#[local] Instance quoted_inj : Inj (=) (=) quoted. Proof. intros x y [= H]. exact H. Qed.
Definition some_hist : list (Z * call) :=
  [(5, CPSetEX (bs "k") (bs "7") 2); (6, CGet (bs "k")); (6, CHSet (bs "h") (bs "f") (bs "x")); (7, CHKeys (bs "h")); (3000000, CGet (bs "k")); (3000001, CExists [bs "k"; bs "h"]); (3000002, CCron); (3000003, CExists [bs "k"; bs "h"])].
Definition some_replies : list reply := [RStr (bs "OK", None); RStr (bs "7", None); RInt (1, None); RList ([bs "f"], None); RStr ([], Some ErrKeyNil); RInt (1, None); RUnit; RInt (0, None)].
Example C179_nonvacuous :
  match run_hist some_hist (new_world 0) with Done _ rs => rs | _ => [] end = some_replies /\
  match run_hist (ren_hist quoted quoted some_hist) (new_world 0) with Done _ rs => rs | _ => [] end =
    [RStr (bs "OK", None); RStr (bs "7", None); RInt (1, None); RList ([quoted (bs "f")], None); RStr ([], Some ErrKeyNil); RInt (1, None); RUnit; RInt (0, None)].
Proof. split; vm_compute; reflexivity. Qed.
Example C180_nonvacuous :
  Forall (fun x => datable (1000 * second) (fst x)) some_hist /\
  match run_hist (map (fun x => (fst x + 1000 * second, snd x)) some_hist) (new_world (1000 * second)) with Done _ rs => rs | _ => [] end = some_replies.
Proof. split; [repeat constructor|vm_compute; reflexivity]. Qed.
