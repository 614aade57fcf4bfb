(** * Props_Conc14: only the contents matter, and replies show all of them (C181, C182) *)
From stdpp Require Import gmap list.
From Verif Require Import Base GoFloat FloatLib CacheModel CacheSpec CacheAbs CacheRefine CacheRefineH CacheMain CacheLib CacheConc CacheRange CacheSim CacheSame.
From Verif Require Import Props_Db Props_Float Props_Laws Props_Conc Props_Conc12 Props_Conc13.

(** ** C181: caches with the same contents
    Each key holds the same value and has the same deadline; for a hash, the same fields and the same counter. The addresses of the hashes,
    and what garbage the two memories hold, may differ. *)
Definition same_contents (w w' : world) : Prop := forall k, deadline w k = deadline w' k /\
  match stored w k, stored w' k with
  | Some (VHash l), Some (VHash l') => w_heap w !! l = w_heap w' !! l'
  | Some (VHash _), _ | _, Some (VHash _) => False
  | v, v' => v = v'
  end.
Definition linked (w w' : world) (l l' : positive) : Prop :=
  (exists k, stored w k = Some (VHash l) /\ stored w' k = Some (VHash l')) \/ (exists i, l = after (w_next w) i /\ l' = after (w_next w') i).
Lemma stored_old v k l : ready v -> stored v k = Some (VHash l) -> is_Some (w_heap v !! l) /\ (Pos.to_nat l < Pos.to_nat (w_next v))%nat.
Proof. intros R0 E. destruct (ready_data _ R0) as (d & Ed & H1 & _). unfold stored in E. rewrite Ed in E. pose proof (H1 _ _ E). split; [assumption|]. apply Pos2Nat.inj_lt, (ready_next _ R0). assumption. Qed.
Lemma stored_inj v k k' l : ready v -> stored v k = Some (VHash l) -> stored v k' = Some (VHash l) -> k = k'.
Proof. intros R0 E E'. destruct (ready_data _ R0) as (d & Ed & _ & H2). unfold stored in *. rewrite Ed in *. eauto. Qed.
Lemma linked_fun w w' l a b : ready w -> linked w w' l a -> linked w w' l b -> a = b.
Proof.
  intros Hr [(k & E1 & E2)|(i & -> & ->)] [(k' & E3 & E4)|(j & E3 & ->)].
  - rewrite (stored_inj w k k' l Hr E1 E3) in E2. congruence.
  - apply (stored_old w k l Hr) in E1 as [_ E1]. rewrite E3, after_nat in E1. lia.
  - apply (stored_old w _ _ Hr) in E3 as [_ E3]. rewrite after_nat in E3. lia.
  - apply (f_equal Pos.to_nat) in E3. rewrite !after_nat in E3. replace j with i by lia. reflexivity.
Qed.
Lemma linked_inj w w' a b l : ready w' -> linked w w' a l -> linked w w' b l -> a = b.
Proof.
  intros Hr' [(k & E1 & E2)|(i & -> & ->)] [(k' & E3 & E4)|(j & -> & E4)].
  - rewrite (stored_inj w' k k' l Hr' E2 E4) in E1. congruence.
  - apply (stored_old w' k l Hr') in E2 as [_ E2]. rewrite E4, after_nat in E2. lia.
  - apply (stored_old w' _ _ Hr') in E4 as [_ E4]. rewrite after_nat in E4. lia.
  - apply (f_equal Pos.to_nat) in E4. rewrite !after_nat in E4. replace j with i by lia. reflexivity.
Qed.
Lemma fresh_none v i : ready v -> w_heap v !! after (w_next v) i = None.
Proof. intros R0. destruct (w_heap v !! _) eqn:E; [|reflexivity]. pose proof (ready_next _ R0 (after (w_next v) i) ltac:(eauto)) as H. apply Pos2Nat.inj_lt in H. rewrite after_nat in H. lia. Qed.
Lemma linked_start w w' : ready w -> ready w' -> same_contents w w' -> w_now w = w_now w' -> R (linked w w') w w'.
Proof.
  intros Hr Hr' Hs Hn. destruct (ready_data _ Hr) as (d & Ed & _). destruct (ready_data _ Hr') as (d' & Ed' & _). destruct (ready_exp _ Hr) as [e Ee], (ready_exp _ Hr') as [e' Ee'].
  assert (He : e' = e). { apply map_eq. intros k. destruct (Hs k) as [H _]. unfold deadline in H. rewrite Ee, Ee' in H. auto. }
  split.
  - rewrite Ed, Ed'. intros k. destruct (Hs k) as [_ H]. assert (Hl : forall l l', d !! k = Some (VHash l) -> d' !! k = Some (VHash l') -> linked w w' l l').
    { intros l l' E E'. left. exists k. unfold stored. rewrite Ed, Ed'. auto. }
    unfold stored in H. rewrite Ed, Ed' in H. destruct (d !! k) as [v|], (d' !! k) as [v'|]; cbn [same_opt]; [|destruct v; try contradiction; discriminate|destruct v'; try contradiction; discriminate|exact I].
    destruct v, v'; cbn in *; try contradiction; try discriminate; auto; congruence.
  - congruence.
  - intros l l' [(k & E1 & E2)|(i & -> & ->)]; [|rewrite !fresh_none; auto]. destruct (Hs k) as [_ H]. rewrite E1, E2 in H. auto.
  - intros i. right. eauto.
  - rewrite (ready_writer _ Hr), (ready_writer _ Hr'). reflexivity.
  - rewrite (ready_readers _ Hr), (ready_readers _ Hr'). reflexivity.
  - auto.
Qed.
Lemma R_contents link w w' : R link w w' -> same_contents w w'.
Proof.
  intros [H1 H2 H3 _ _ _ _] k. unfold deadline, stored. rewrite H2. split; [reflexivity|].
  destruct (w_data w) as [d|], (w_data w') as [d'|]; cbn in H1; try contradiction; [|reflexivity]. specialize (H1 k).
  destruct (d !! k) as [v|], (d' !! k) as [v'|]; cbn in H1; try contradiction; [|reflexivity]. destruct v, v'; cbn in *; try contradiction; try congruence. symmetry. auto.
Qed.
Lemma sim_flip {A : Type} (R : world -> world -> Prop) : forall p p' : prog A, sim R eq p p' -> sim R (fun r r' => r' = r) p p'.
Proof.
  fix IH 1. intros [a|f] [b|f'] H; try contradiction; [symmetry; exact H|]. intros v v' Hv. specialize (H v v' Hv). destruct (f v) as [v1 p1| |], (f' v') as [v1' p1'| |]; try contradiction; auto. destruct H as [H1 H2]. split; [exact H1|]. apply (IH p1 p1' H2).
Qed.
Lemma mapped_id evs : forall m, mapped id (fun _ r => r) id m evs = evs.
Proof. induction evs as [|[i c|i x|t] r IH]; intros m; cbn; rewrite ?IH; [reflexivity..| |reflexivity]. destruct (m !! i); reflexivity. Qed.
Lemma tick_same link v v' t : R link v v' -> w_now v <= t -> w_now v' <= t /\ R link (set_now v t) (set_now v' t).
Proof. intros [H1 H2 H3 H4 H5 H6 H7] H. split; [lia|]. split; auto. Qed.
(** Any number of goroutines, with any Range that is allowed. *)
Theorem C181_goroutines w w' evs c : ready w -> ready w' -> same_contents w w' -> w_now w = w_now w' -> oexec w evs c ->
  exists c', oexec w' evs c' /\ same_contents (c_w c) (c_w c') /\ forall i, (enabled c i <-> enabled c' i) /\ (crashing c i <-> crashing c' i).
Proof.
  intros Hr Hr' Hs Hn E. pose proof (fun l a b => linked_fun w w' l a b Hr) as Hf. pose proof (fun a b l => linked_inj w w' a b l Hr') as Hi.
  destruct (sim_oexec (R (linked w w')) id (fun _ r => r) id) with (w0 := w) (w0' := w') (evs := evs) (c := c) as (c' & E' & Hw & Hth); auto.
  - intros cl p Hp. exists p. split; [exact Hp|]. apply sim_flip. exact (sim_same (linked w w') Hf Hi cl p Hp).
  - intros v v' t. apply tick_same.
  - apply linked_start; assumption.
  - rewrite mapped_id in E'. exists c'. split; [exact E'|]. split; [eapply R_contents, Hw|]. intros i. specialize (Hth i). unfold enabled, crashing. destruct (c_th c !! i) as [p|], (c_th c' !! i) as [p'|]; try contradiction; [|tauto].
    destruct Hth as (cl & _ & Hss). destruct p as [r|f], p' as [r'|f']; try contradiction; [tauto|]. specialize (Hss _ _ Hw). destruct (f (c_w c)), (f' (c_w c')); try contradiction; split; split; auto; discriminate.
Qed.
(** The schedules of CacheConc.v, but for the sweep: step by step, both ways. *)
Theorem C181_schedules w w' s : ready w -> ready w' -> same_contents w w' -> w_now w = w_now w' -> (forall i, AInv i CCron ∉ s) ->
  match cexec s (start w), cexec s (start w') with
  | Some (c, e), Some (c', e') => e' = e /\ same_contents (c_w c) (c_w c')
  | None, None => True
  | _, _ => False
  end.
Proof.
  intros Hr Hr' Hs Hn HK. set (K := fun cl => match cl with CCron => False | _ => True end). pose proof (fun l a b => linked_fun w w' l a b Hr) as Hf. pose proof (fun a b l => linked_inj w w' a b l Hr') as Hi.
  pose proof (sim_cexec (R (linked w w')) id (fun _ r => r) id K) as H.
  specialize (H ltac:(intros cl Hcl; apply sim_flip; exact (sim_plain (linked w w') Hf Hi cl Hcl)) ltac:(intros v v' t; apply tick_same)).
  specialize (H ltac:(intros v v' t [_ _ _ _ _ _ H7]; cbn; lia) s ∅ (start w) (start w')).
  assert (Hg : map (gact id id) s = s) by (clear; induction s as [|[] s IH]; cbn; rewrite ?IH; reflexivity). rewrite Hg in H.
  specialize (H ltac:(split; [apply linked_start; assumption|]; intros i; cbn; rewrite !lookup_empty; exact I)).
  specialize (H ltac:(intros i cl Hin; destruct cl; try exact I; destruct (HK i Hin))).
  destruct (cexec s (start w)) as [[c e]|], (cexec s (start w')) as [[c' e']|]; auto. destruct H as [-> [Hw _]]. rewrite mapped_id. split; [reflexivity|]. eapply R_contents, Hw.
Qed.

(** ** C182: what one caller can find out
    The fields of a hash that a caller using Go's types has made. *)
Definition fieldv (v : gval) : Prop := match v with VStr _ => True | VInt n => is_int64 n = true | VFloat f => f64_valid f = true | _ => False end.
Definition fine (v : kview) : Prop := match fst v with Some (CH o) => forall f x, h_map o !! f = Some x -> fieldv x | _ => True end.
Lemma field_try s : fieldv (try_int64 s).
Proof. unfold try_int64. destruct (atoi s) eqn:Ea; [eapply atoi_int64; eauto|]. destruct (parse_float s) eqn:Ef; [eapply parse_float_valid; eauto|exact I]. Qed.
Definition fobj (o : hobj) : Prop := forall f x, h_map o !! f = Some x -> fieldv x.
Lemma fobj_insert o f x n : fieldv x -> fobj o -> fobj (HObj (<[f := x]> (h_map o)) n).
Proof. intros Hx Ho g y. cbn [h_map]. rewrite lookup_insert_Some. intros [[_ <-]|[_ H]]; eauto. Qed.
Lemma fobj_set o f s : fobj o -> fobj (o_set o f s). Proof. apply fobj_insert, field_try. Qed.
Lemma fobj_mset fv : forall o n, fobj o -> fobj (fst (o_mset o fv n)).
Proof. induction fv as [|[f v] r IH]; intros o n Ho; [exact Ho|]. cbn. apply IH, fobj_set, Ho. Qed.
Lemma fobj_del fs : forall o n, fobj o -> fobj (fst (o_del o fs n)).
Proof. induction fs as [|f r IH]; intros o n Ho; [exact Ho|]. cbn. destruct (o_get o f); apply IH; [|exact Ho]. intros g y. cbn [h_map]. rewrite lookup_delete_Some. intros [_ H]. eauto. Qed.
Lemma fobj_empty : fobj empty_hobj. Proof. intros f x. cbn. rewrite lookup_empty. discriminate. Qed.
Lemma fine_purge t v : fine v -> fine (purge t v).
Proof. destruct v as [[c|] [dl|]]; auto. cbn. destruct (dl <? t); [exact (fun _ => I)|auto]. Qed.
Lemma fine_hwrite {A} (z : A) g v : (forall o, fobj o -> fobj (fst (g o))) -> fine v -> fine (fst (a_hwrite z g v)).
Proof.
  intros Hg H. unfold a_hwrite. destruct v as [[[x|o]|] e]; cbn [fst snd] in *; auto.
  - specialize (Hg o H). destruct (g o); exact Hg.
  - specialize (Hg _ fobj_empty). destruct (g empty_hobj); exact Hg.
Qed.
Lemma fine_hread {A} (z : A) a g v : (forall o, fobj o -> fobj (fst (g o))) -> fine v -> fine (fst (a_hread z a g v)).
Proof. intros Hg H. unfold a_hread. destruct v as [[[x|o]|] e]; cbn [fst snd] in *; auto. specialize (Hg o H). destruct (g o); exact Hg. Qed.
Lemma fine_hincr {A} (z : A) val txt f d o : fobj o -> fobj (fst (g_hincr z val txt f d o)).
Proof. intros Ho. unfold g_hincr. destruct (h_map o !! f) as [x|]; [destruct (val x d)|]; cbn [fst]; auto using fobj_set. Qed.
Lemma fine_incr d v : fine v -> fine (fst (a_incr d v)).
Proof. intros H. unfold a_incr. destruct v as [[[x|o]|] e]; cbn [fst snd] in *; auto; try exact I. destruct (incr_val x d) as [[]|]; exact I. Qed.
Lemma fine_abs1 c t v v' r : fine v -> abs1 c t v = Some (v', r) -> fine v'.
Proof.
  intros Hv Ha. pose proof (fine_purge t v Hv) as Hp. destruct c; cbn [abs1] in Ha; try discriminate;
    try (first [apply wr_fst in Ha as -> | injection Ha as <- _]; first [exact I | exact Hp | apply fine_incr; exact Hv
      | apply fine_hwrite; [|exact Hp]; intros o Ho; first [apply fobj_set, Ho | apply fine_hincr, Ho | idtac] | apply fine_hread; [|exact Hp]; intros o Ho; first [exact Ho | idtac]]).
  - destruct (fst v); injection Ha as <- _; [exact Hv|exact I].
  - destruct (fst (purge t v)) as [x|]; [destruct (fmt_cell x)|]; injection Ha as <- _; auto; exact I.
  - destruct (pos <? 0); [injection Ha as <- _; exact Hv|]. destruct (fst (purge t v)) as [x|]; [destruct (fmt_cell x)|destruct (pos >? max_alloc); [discriminate|]]; injection Ha as <- _; auto; exact I.
  - destruct v as [[[x|o]|] e]; cbn [fst snd] in *; [destruct x| |]; injection Ha as <- _; auto; exact I.
  - destruct (h_map o !! f); [exact Ho|]. apply fobj_insert; [exact I|exact Ho].
  - pose proof (fobj_del fs o 0 Ho) as H. destruct (o_del o fs 0) as [o' n]. destruct (n =? 0); exact H.
  - pose proof (fobj_mset fv o 0 Ho) as H. destruct (o_mset o fv 0) as [o' n]. exact H.
  - destruct (fst (purge t v)) as [[x|o]|] eqn:E; try discriminate; injection Ha as <- _; exact Hp.
  - destruct (fst (purge t v)) as [[x|o]|] eqn:E; try discriminate; injection Ha as <- _; exact Hp.
  - destruct (fst (purge t v)) as [[x|o]|] eqn:E; try discriminate; injection Ha as <- _; exact Hp.
Qed.
Definition fines (V : views) : Prop := forall k, fine (V k).
Lemma fines_upd V k x : fines V -> fine x -> fines (upd V k x).
Proof. intros H Hx k'. unfold upd. destruct (decide (k' = k)); auto. Qed.
Lemma fines_abs c t V V' r : fines V -> abs c t V = Some (V', r) -> fines V'.
Proof.
  intros HV Ha. destruct (single_cases c) as [[k Hk]|Hc].
  - rewrite (abs_single c k t _ Hk) in Ha. destruct (abs1 c t (V k)) as [[x r0]|] eqn:E; [|discriminate].
    injection Ha as <- <-. apply fines_upd; [exact HV|]. eapply fine_abs1; [apply HV|exact E].
  - destruct c; try destruct Hc; cbn [abs] in Ha.
    + injection Ha as <- _. revert V HV. induction kv as [|[k v] kv IH]; intros V HV; [exact HV|]. cbn. apply IH, fines_upd; [exact HV|exact I].
    + assert (G : forall kv n V, fines V -> fines (fst (a_msetnx kv n V))).
      { clear. induction kv as [|[k v] kv IH]; intros n V HV; [exact HV|]. cbn. destruct (fst (V k)); apply IH; auto. apply fines_upd; [exact HV|exact I]. }
      specialize (G kv 0 V HV). destruct (a_msetnx kv 0 V). injection Ha as <- _. exact G.
    + assert (G : forall ks V, fines V -> fines (fst (a_mget t ks V))).
      { clear. induction ks as [|k ks IH]; intros V HV; [exact HV|]. cbn. specialize (IH (upd V k (purge t (V k)))).
        destruct (a_mget t ks _). apply IH, fines_upd; auto using fine_purge. }
      specialize (G ks V HV). destruct (a_mget t ks V). injection Ha as <- _. exact G.
    + injection Ha as <- _. intros k. exact I.
    + injection Ha as <- _. exact HV.
    + injection Ha as <- _. intros k. unfold a_cron. specialize (HV k). destruct (V k) as [[c|] e]; cbn [fst]; [|exact HV].
      destruct (zero_time <? t); [exact I|]. exact HV.
Qed.
Lemma fines_hist h : forall w w' rs, ready w -> fines (view w) -> run_hist h w = Done w' rs -> fines (view w').
Proof.
  induction h as [|[t c] h IH]; intros w w' rs Hr Hg; simpl; [intros E; injection E as <- <-; auto|].
  destruct (run_call t c w) as [w1 x| |] eqn:E1; [|discriminate|discriminate].
  destruct (run_hist h w1) as [w2 xs| |] eqn:E2; [|discriminate|discriminate].
  intros E; injection E as <- <-. destruct (run_inv _ _ _ _ _ Hr E1) as (V' & Ha & Hr1 & Hv).
  eapply IH; [exact Hr1| |exact E2]. intros k. rewrite Hv. eapply fines_abs; eauto.
Qed.
Lemma fines_reachable w : reachable w -> fines (view w).
Proof. intros (t0 & h & rs & E). eapply fines_hist; [apply ready_new| |exact E]. intros k. rewrite view_new. exact I. Qed.
Lemma view_contents w w' : ready w -> ready w' -> (veq (view w) (view w') <-> same_contents w w').
Proof.
  intros Hr Hr'. destruct (ready_data _ Hr) as (d & Ed & Hp & _). destruct (ready_data _ Hr') as (d' & Ed' & Hp' & _). destruct (ready_exp _ Hr) as [e Ee], (ready_exp _ Hr') as [e' Ee'].
  unfold veq, same_contents, view, deadline, stored, cellat. rewrite Ed, Ed', Ee, Ee'. apply forall_proper. intros k. specialize (Hp k). specialize (Hp' k).
  destruct (d !! k) as [v|] eqn:E, (d' !! k) as [v'|] eqn:E'; cbn.
  - assert (G : cell_of (w_heap w) v = cell_of (w_heap w') v' <-> match v with VHash l => match v' with VHash l' => w_heap w !! l = w_heap w' !! l' | _ => False end | _ => match v' with VHash _ => False | _ => Some v = Some v' end end).
    { destruct v, v'; cbn; try (split; [intros [= <-]; reflexivity|intros [= <-]; reflexivity]); try (split; [discriminate|contradiction]); try (split; discriminate).
      all: try (destruct (Hp _ eq_refl) as [o ->]); try (destruct (Hp' _ eq_refl) as [o' ->]); split; intros; try contradiction; try congruence. }
    destruct v, v'; split; (intros H; split; [congruence|]) || (intros [H1 H2]; apply G in H2; congruence); apply G; congruence.
  - split; [intros H; congruence|]. intros [_ H]. destruct v; try contradiction; discriminate.
  - split; [intros H; congruence|]. intros [_ H]. destruct v'; try contradiction; discriminate.
  - split; [intros H; split; congruence|]. intros [H _]. congruence.
Qed.
Definition alike (k : gostr) (v v' : kview) : Prop := forall h, all_calls (fun _ c => single c = Some k) h -> option_map snd (ahist h v) = option_map snd (ahist h v').
Lemma indist_alike w w' k : ready w -> ready w' -> indist w w' -> alike k (view w k) (view w' k).
Proof.
  intros Hr Hr' Hi h Hh. specialize (Hi h). unfold replies in Hi. pose proof (run_ahist h k w Hr Hh) as H. pose proof (run_ahist h k w' Hr' Hh) as H'.
  destruct (ahist h (view w k)) as [[z ys]|], (ahist h (view w' k)) as [[z' ys']|]; cbn.
  - destruct H as (? & E & _), H' as (? & E' & _). rewrite E, E' in Hi. congruence.
  - destruct H as (? & E & _). rewrite E, H' in Hi. discriminate.
  - destruct H' as (? & E' & _). rewrite E', H in Hi. discriminate.
  - reflexivity.
Qed.
Lemma del_map fs : forall o n g, h_map (fst (o_del o fs n)) !! g = if decide (g ∈ fs) then None else h_map o !! g.
Proof.
  induction fs as [|f r IH]; intros o n g; cbn [o_del]; [cbn; reflexivity|]. unfold o_get. destruct (h_map o !! f) eqn:E; rewrite IH; cbn [h_map].
  - destruct (decide (g ∈ r)) as [H|H]; [rewrite decide_True by (right; exact H); reflexivity|]. destruct (decide (g = f)) as [->|Hne]; [rewrite decide_True by left; apply lookup_delete|].
    rewrite decide_False by (rewrite elem_of_cons; tauto). apply lookup_delete_ne. auto.
  - destruct (decide (g ∈ r)) as [H|H]; [rewrite decide_True by (right; exact H); reflexivity|]. destruct (decide (g = f)) as [->|Hne]; [rewrite decide_True by left; exact E|].
    rewrite decide_False by (rewrite elem_of_cons; tauto). reflexivity.
Qed.
(** HDel of all other fields, then HVals: is the value kept as a text? *)
Lemma isolate (k : gostr) (t : Z) (m : gmap gostr gval) (n : Z) (d : option Z) (fs : list gostr) (f : gostr) (x : gval) : (forall o, purge t (Some (CH o), d) = (Some (CH o), d)) -> f ∉ fs -> (forall g, g <> f -> is_Some (m !! g) -> g ∈ fs) -> m !! f = Some x ->
  exists r, option_map snd (ahist [(t, CHDel k fs); (t, CHVals k)] (Some (CH (HObj m n)), d)) = Some [r; RList (match x with VStr s => [s] | _ => [] end, None)].
Proof.
  intros Hp Hf Hg Hx. cbn [ahist abs1]. rewrite Hp. unfold a_hread. cbn [fst snd wr]. pose proof (del_map fs (HObj m n) 0) as Hm. cbn [h_map] in Hm. destruct (o_del (HObj m n) fs 0) as [o' c]. cbn [fst snd wr] in *. rewrite Hp. cbn [fst snd option_map].
  assert (E : h_map (if c =? 0 then o' else HObj (h_map o') (wrap64 (h_len o' - c))) = {[f := x]}).
  { transitivity (h_map o'); [destruct (c =? 0); reflexivity|]. apply map_eq. intros g. rewrite Hm. destruct (decide (g = f)) as [->|Hne]; [rewrite decide_False, lookup_singleton by auto; exact Hx|].
    rewrite lookup_singleton_ne by auto. destruct (decide (g ∈ fs)); [reflexivity|]. destruct (m !! g) eqn:Eg; [|reflexivity]. destruct n0. apply Hg; eauto. }
  rewrite E, map_to_list_singleton. cbn. eexists. destruct x; reflexivity.
Qed.
Lemma same_deadline k v v' : alike k v v' -> snd v = snd v'.
Proof.
  intros Ha.
  assert (Hpf : parse_float [] = None) by reflexivity.
  assert (H : forall t, match snd v with Some dl => dl <? t | None => false end = match snd v' with Some dl => dl <? t | None => false end).
  { intros t. pose proof (Ha [(t, CSet k []); (t, CGet k)] ltac:(repeat constructor)) as H. cbn in H. revert H. destruct v as [c [dl|]], v' as [c' [dl'|]]; cbn; try reflexivity; repeat match goal with |- context [?a <? ?b] => destruct (a <? b) end; cbn; rewrite ?Hpf; cbn; intros; congruence. }
  destruct (snd v) as [dl|], (snd v') as [dl'|]; [|specialize (H (dl + 1))|specialize (H (dl' + 1))|reflexivity].
  - f_equal. pose proof (H (dl + 1)) as H1. specialize (H (dl' + 1)). destruct (Z.ltb_spec dl (dl + 1)), (Z.ltb_spec dl' (dl + 1)), (Z.ltb_spec dl (dl' + 1)), (Z.ltb_spec dl' (dl' + 1)); try discriminate; lia.
  - destruct (Z.ltb_spec dl (dl + 1)); [discriminate|lia].
  - destruct (Z.ltb_spec dl' (dl' + 1)); [discriminate|lia].
Qed.
Lemma early k v v' : alike k v v' -> exists t, purge t v = v /\ purge t v' = v'.
Proof.
  intros Ha. pose proof (same_deadline k v v' Ha) as H. clear Ha. exists (match snd v with Some dl => dl | None => 0 end).
  destruct v as [[c|] [dl|]], v' as [[c'|] [dl'|]]; cbn in *; try discriminate; try (injection H as ->); rewrite ?Z.ltb_irrefl; auto.
Qed.
Lemma same_cell k v v' : alike k v v' -> keptv v -> keptv v' -> fine v -> fine v' -> v = v'.
Proof.
  intros Ha Hk Hk' Hf Hf'. pose proof (same_deadline k v v' Ha) as Hd. destruct (early k v v' Ha) as (t & Hp & Hp').
  pose proof (Ha [(t, CGet k)] ltac:(repeat constructor)) as Hget. cbn [ahist abs1 option_map snd] in Hget. rewrite Hp, Hp' in Hget.
  pose proof (Ha [(t, CIncrBy k 0)] ltac:(repeat constructor)) as Hint. cbn [ahist abs1] in Hint.
  pose proof (Ha [(t, CIncrByFloat k (S754_zero false))] ltac:(repeat constructor)) as Hflt. cbn [ahist abs1] in Hflt.
  pose proof (Ha [(t, CHLen k)] ltac:(repeat constructor)) as Hlen. cbn [ahist abs1] in Hlen. rewrite Hp, Hp' in Hlen.
  assert (Hfld : forall f, option_map snd (ahist [(t, CHGet k f)] v) = option_map snd (ahist [(t, CHGet k f)] v')) by (intros f; apply Ha; repeat constructor).
  assert (Hinc : forall f, option_map snd (ahist [(t, CHIncrBy k f 0)] v) = option_map snd (ahist [(t, CHIncrBy k f 0)] v')) by (intros f; apply Ha; repeat constructor).
  assert (Hval : forall fs, option_map snd (ahist [(t, CHDel k fs); (t, CHVals k)] v) = option_map snd (ahist [(t, CHDel k fs); (t, CHVals k)] v')) by (intros f; apply Ha; repeat constructor).
  cbn [ahist abs1] in Hfld, Hinc. rewrite Hp, Hp' in Hfld, Hinc. clear Ha.
  destruct v as [[c|] d], v' as [[c'|] d']; cbn [fst snd] in *; subst d'; [|destruct c as [[]|]; cbn in Hget; try discriminate; contradiction|destruct c' as [[]|]; cbn in Hget; try discriminate; contradiction|reflexivity].
  do 2 f_equal. destruct c as [x|o], c' as [x'|o'].
  - f_equal. unfold keptv in Hk, Hk'. cbn [fst] in Hk, Hk'. unfold fmt_cret in Hget. cbn [fmt_cell fst] in Hget.
    destruct x, x'; try contradiction; cbn [wr a_incr incr_val fst snd option_map] in Hint, Hflt; try discriminate Hint; try discriminate Hflt; cbn [fmt_string keptval] in *; injection Hget as Hget.
    + congruence.
    + f_equal. apply itoa_inj; auto.
    + f_equal. apply itoa_inj; auto.
    + f_equal. pose proof (parse_format _ Hk) as P1. pose proof (parse_format _ Hk') as P2. congruence.
  - destruct x; cbn in *; try discriminate; contradiction.
  - destruct x'; cbn in *; try discriminate; contradiction.
  - f_equal. destruct o as [m n], o' as [m' n']. cbn in Hlen. injection Hlen as <-. f_equal. apply map_eq. intros f. unfold fine in Hf, Hf'. cbn [fst h_map] in Hf, Hf'. specialize (Hf f). specialize (Hf' f).
    specialize (Hfld f). specialize (Hinc f). specialize (Hval (List.filter (fun g => negb (bool_decide (g = f))) (map fst (map_to_list m) ++ map fst (map_to_list m')))).
    set (fs := List.filter _ _) in Hval.
    assert (Hnf : f ∉ fs). { unfold fs. rewrite elem_of_list_In, filter_In, bool_decide_true by reflexivity. intros [_ H]. discriminate. }
    assert (Hin : forall g, g <> f -> is_Some (m !! g) \/ is_Some (m' !! g) -> g ∈ fs).
    { intros g Hne H. unfold fs. rewrite elem_of_list_In, filter_In, bool_decide_false by auto. split; [|reflexivity]. apply in_app_iff.
      destruct H as [[y H]|[y H]]; apply elem_of_map_to_list, elem_of_list_In in H; [left|right]; exact (in_map fst _ _ H). }
    assert (Hpp : forall o, purge t (Some (CH o), d) = (Some (CH o), d)) by (intros o; clear - Hp; cbn in *; destruct d as [dl|]; [|reflexivity]; destruct (dl <? t); [discriminate|reflexivity]).
    clearbody fs. cbn [wr a_hread fst snd option_map h_map] in Hfld. unfold o_get in Hfld. cbn [h_map] in Hfld. destruct (m !! f) as [x|] eqn:Ex, (m' !! f) as [x'|] eqn:Ex'; [|discriminate|discriminate|reflexivity].
    destruct (isolate k t m n d fs f x Hpp Hnf ltac:(auto) Ex) as [r Er], (isolate k t m' n d fs f x' Hpp Hnf ltac:(auto) Ex') as [r' Er'].
    rewrite Er, Er' in Hval.
    specialize (Hf _ eq_refl). specialize (Hf' _ eq_refl). unfold a_hwrite, g_hincr in Hinc. cbn [fst snd h_map] in Hinc. rewrite Ex, Ex' in Hinc. f_equal.
    destruct x, x'; try contradiction; try discriminate Hval; cbn [hincr_val fst snd wr option_map] in Hinc; try discriminate Hinc; cbn [fmt_string fieldv] in *; injection Hfld as Hfld.
    + congruence.
    + f_equal. apply itoa_inj; auto.
    + f_equal. pose proof (parse_format _ Hf) as P1. pose proof (parse_format _ Hf') as P2. congruence.
Qed.
(** One caller cannot tell apart two caches exactly if they have the same contents. *)
Theorem C182_replies_show_contents w w' : reachable_typed w -> reachable_typed w' -> (indist w w' <-> same_contents w w').
Proof.
  intros H H'. destruct (kepts_reachable _ H) as [Hr Hk]. destruct (kepts_reachable _ H') as [Hr' Hk']. rewrite <- view_contents by auto. split; [|apply indist_of_view; auto].
  assert (Hf : forall v, reachable_typed v -> fines (view v)) by (intros v (t0 & h & rs & _ & E); apply fines_reachable; exists t0, h, rs; exact E).
  intros Hi k. apply (same_cell k); auto using indist_alike; [apply Hf; auto|apply Hf; auto].
Qed.
(** What one caller cannot tell apart, any number of goroutines cannot. *)
Theorem C182_goroutines w w' evs c : reachable_typed w -> reachable_typed w' -> w_now w = w_now w' -> indist w w' -> oexec w evs c ->
  exists c', oexec w' evs c' /\ same_contents (c_w c) (c_w c') /\ forall i, (enabled c i <-> enabled c' i) /\ (crashing c i <-> crashing c' i).
Proof.
  intros H H' Hn Hi E. destruct (kepts_reachable _ H) as [Hr _]. destruct (kepts_reachable _ H') as [Hr' _]. apply (C181_goroutines w w'); auto. apply C182_replies_show_contents; auto.
Qed.
Theorem C181_alone w w' : ready w -> ready w' -> same_contents w w' -> indist w w'.
Proof. intros Hr Hr' Hs. apply indist_of_view; auto. apply view_contents; auto. Qed.
(** Two hashes made in either order: the addresses differ, and the goroutines cannot tell. *)
Definition one_way : list (Z * call) := [(1, CHSet (bs "a") (bs "f") (bs "x")); (1, CHSet (bs "b") (bs "g") (bs "7"))].
Definition other_way : list (Z * call) := [(1, CHSet (bs "b") (bs "g") (bs "7")); (1, CHSet (bs "a") (bs "f") (bs "x"))].
Definition after_hist (h : list (Z * call)) : world := match run_hist h (new_world 0) with Done w _ => w | _ => new_world 0 end.
Lemma after_one : run_hist one_way (new_world 0) = Done (after_hist one_way) [RInt (1, None); RInt (1, None)].
Proof. assert (H : replies one_way (new_world 0) = Some [RInt (1, None); RInt (1, None)]) by (vm_compute; reflexivity). unfold replies, after_hist in *. destruct (run_hist one_way (new_world 0)); try discriminate. congruence. Qed.
Lemma after_other : exists w', run_hist other_way (new_world 0) = Done w' [RInt (1, None); RInt (1, None)] /\ indist w' (after_hist one_way).
Proof.
  apply (C160_two_calls (new_world 0) 1 (CHSet (bs "a") (bs "f") (bs "x")) 1 (CHSet (bs "b") (bs "g") (bs "7")) _ _ _ [bs "a"] [bs "b"] (ready_new 0) eq_refl eq_refl); [|exact after_one].
  intros k [<-|[]] [E|[]]. discriminate E.
Qed.
Definition hash_schedule : list act := [AInv 1 (CHSet (bs "a") (bs "g") (bs "2")); AInv 2 (CHGet (bs "a") (bs "g"))] ++ repeat (ARun 1) 4 ++ repeat (ARun 2) 3 ++ [ARet 2; ARun 1; ARet 1].
Example C181_nonvacuous : stored (after_hist one_way) (bs "a") <> stored (after_hist other_way) (bs "a") /\ same_contents (after_hist other_way) (after_hist one_way) /\
  reachable_typed (after_hist one_way) /\ reachable_typed (after_hist other_way) /\ w_now (after_hist other_way) = w_now (after_hist one_way) /\
  option_map snd (cexec hash_schedule (start (after_hist other_way))) = Some [EInv 1 (CHSet (bs "a") (bs "g") (bs "2")); EInv 2 (CHGet (bs "a") (bs "g")); ERet 2 (RStr (bs "2", None)); ERet 1 (RInt (1, None))].
Proof.
  assert (H1 : reachable_typed (after_hist one_way)) by (exists 0, one_way; eexists; split; [repeat constructor|exact after_one]).
  destruct after_other as (w' & E & Hi). assert (Hw : after_hist other_way = w') by (unfold after_hist; rewrite E; reflexivity). rewrite <- Hw in Hi, E.
  assert (H2 : reachable_typed (after_hist other_way)) by (exists 0, other_way; eexists; split; [repeat constructor|exact E]).
  split; [vm_compute; discriminate|]. split; [apply C182_replies_show_contents; auto|]. split; [exact H1|]. split; [exact H2|]. split; vm_compute; reflexivity.
Qed.
(** HSet keeps the text 1.5 as a number and HSetNX as a text: the contents differ, and HVals shows it. *)
Example C182_nonvacuous : indist (after_hist other_way) (after_hist one_way) /\
  replies [(2, CHVals (bs "h"))] (after_hist [(1, CHSet (bs "h") (bs "f") (bs "1.5"))]) = Some [RList ([], None)] /\
  replies [(2, CHVals (bs "h"))] (after_hist [(1, CHSetNX (bs "h") (bs "f") (bs "1.5"))]) = Some [RList ([bs "1.5"], None)].
Proof.
  split; [|vm_compute; split; reflexivity]. destruct after_other as (w' & E & Hi). assert (Hw : after_hist other_way = w') by (unfold after_hist; rewrite E; reflexivity). rewrite Hw. exact Hi.
Qed.
