(** * Props_Conc12: the cache with any Range its documentation allows (C177, C178) *)
From stdpp Require Import gmap list.
From Verif Require Import Base GoFloat CacheModel CacheSpec CacheAbs CacheRefine CacheRefineH CacheMain CacheLib CacheConc ConcLin ConcSafe ConcDl ConcHash CacheRange.
From Verif Require Import Props_String Props_Counter Props_Hash Props_Conc Props_Conc2 Props_Conc4.

(** ** Alone *)
(** The same reply up to the order of a list. *)
Definition reordered (r r0 : reply) : Prop :=
  match r, r0 with RList (l, e), RList (l0, e0) => l ≡ₚ l0 /\ e = e0 | _, _ => r = r0 end.
Lemma reordered_refl r : reordered r r. Proof. destruct r as [| | | | | |]; try reflexivity. destruct r. split; reflexivity. Qed.
Lemma lists_all_spec {A} (ks : list gostr) (m : gmap gostr A) : lists_all ks m = true <-> NoDup ks /\ forall f, is_Some (m !! f) -> f ∈ ks.
Proof.
  unfold lists_all. rewrite andb_true_iff, bool_decide_eq_true, forallb_forall. split; intros [H1 H2]; (split; [exact H1|]).
  - intros f [v Hv]. apply elem_of_map_to_list, elem_of_list_In in Hv. specialize (H2 _ Hv). apply bool_decide_eq_true in H2. exact H2.
  - intros [f v] Hin. apply bool_decide_eq_true. apply H2. exists v. apply elem_of_map_to_list, elem_of_list_In, Hin.
Qed.
Definition seen (m : gmap gostr gval) (ks : list gostr) : list (gostr * gval) := omap (fun f => option_map (pair f) (m !! f)) ks.
Lemma set_heap_id w l o : w_heap w !! l = Some o -> set_heap w (<[l := o]> (w_heap w)) = w.
Proof. intros H. destruct w. unfold set_heap. cbn in *. rewrite insert_id by exact H. reflexivity. Qed.
Lemma eval_visit w l o (ks : list gostr) : w_heap w !! l = Some o -> eval (h_visit l ks) w = Done w (seen (h_map o) ks).
Proof.
  intros Ho. induction ks as [|f r IH]; [reflexivity|]. cbn [h_visit]. rewrite eval_bind. unfold h_load, h_atom. cbn. rewrite Ho. cbn. rewrite (set_heap_id _ _ _ Ho). rewrite eval_bind, IH. cbn. destruct (h_map o !! f); reflexivity.
Qed.
Lemma elem_seen m (ks : list gostr) f v : (f, v) ∈ seen m ks <-> f ∈ ks /\ m !! f = Some v.
Proof.
  unfold seen. rewrite elem_of_list_omap. split.
  - intros (g & Hg & E). destruct (m !! g) eqn:Em; cbn in E; [|discriminate]. injection E as -> ->. auto.
  - intros [H E]. exists f. rewrite E. auto.
Qed.
Lemma nodup_seen m (ks : list gostr) : NoDup ks -> NoDup (seen m ks).
Proof.
  induction 1 as [|f r Hn Hr IH]; cbn; [constructor|]. unfold seen in IH |- *. cbn. destruct (m !! f); cbn; [|exact IH]. constructor; [|exact IH]. intros H. apply elem_seen in H as [H _]. exact (Hn H).
Qed.
Lemma seen_all m (ks : list gostr) : lists_all ks m = true -> seen m ks ≡ₚ map_to_list m.
Proof.
  intros H. apply lists_all_spec in H as [H1 H2]. apply NoDup_Permutation; [apply nodup_seen, H1|apply NoDup_map_to_list|]. intros [f v]. rewrite elem_seen, elem_of_map_to_list. split; [tauto|]. intros E. split; [apply H2; eauto|exact E].
Qed.
Lemma eval_range w l : eval (h_range l) w = match w_heap w !! l with None => EPanic | Some o => Done w (map_to_list (h_map o)) end.
Proof.
  unfold h_range. rewrite eval_bind. unfold h_keys, h_atom. cbn. destruct (w_heap w !! l) as [o|] eqn:Ho; [|reflexivity]. cbn. rewrite (set_heap_id _ _ _ Ho). rewrite (eval_visit _ _ _ _ Ho). f_equal.
  unfold seen. assert (H : forall es, (forall f v, (f, v) ∈ es -> h_map o !! f = Some v) -> omap (fun f => option_map (pair f) (h_map o !! f)) (map fst es) = es).
  { induction es as [|[f v] r IH]; intros H; [reflexivity|]. cbn. rewrite (H f v) by left. cbn. f_equal. apply IH. intros g x Hx. apply H. right. exact Hx. }
  apply H. intros f v Hin. apply elem_of_map_to_list, Hin.
Qed.
Lemma eval_range_d w l (ks : list gostr) : eval (h_range_d ks l) w = match w_heap w !! l with None => EPanic | Some o => if lists_all ks (h_map o) then Done w (seen (h_map o) ks) else EBlocked end.
Proof.
  unfold h_range_d. rewrite eval_bind. cbn. destruct (w_heap w !! l) as [o|] eqn:Ho; [|reflexivity]. cbn. destruct (lists_all ks (h_map o)); cbn; [|reflexivity]. apply eval_visit, Ho.
Qed.
Lemma existsb_perm {A} (g : A -> bool) l l' : l ≡ₚ l' -> existsb g l = existsb g l'.
Proof. induction 1; cbn; try congruence. destruct (g x), (g y); reflexivity. Qed.

(** ** C177: a call run alone *)
Lemma cron_any ks ks0 d e h n b m t : (forall k, is_Some (d !! k) -> k ∈ ks) -> (forall k, is_Some (d !! k) -> k ∈ ks0) ->
  eval (cron_loop ks) (W (Some d) (Some e) h n b m t) = eval (cron_loop ks0) (W (Some d) (Some e) h n b m t).
Proof.
  intros H H0. destruct (cron_loop_ev ks d e h n b m t) as (d1 & e1 & E1 & S1). destruct (cron_loop_ev ks0 d e h n b m t) as (d2 & e2 & E2 & S2). rewrite E1, E2.
  assert (d1 = d2 /\ e1 = e2) as [-> ->]; [|reflexivity].
  split; apply map_eq; intros k; destruct (S1 k) as [A1 B1], (S2 k) as [A2 B2].
  - rewrite A1, A2. destruct (d !! k) as [v|] eqn:E; [rewrite !decide_True by eauto; reflexivity|]. destruct (zero_time <? t); repeat case_decide; reflexivity.
  - rewrite B1, B2. destruct (d !! k) as [v|] eqn:E; [rewrite !decide_True by eauto; reflexivity|]. repeat case_decide; reflexivity.
Qed.
Theorem C177_alone t c p w : ready w -> by_doc c p ->
  match eval p (set_now w t) with
  | Done w' r => exists r0, run_call t c w = Done w' r0 /\ reordered r r0
  | EPanic => run_call t c w = EPanic
  | EBlocked => True (* the list of keys was not one that Range visits *)
  end.
Proof.
  intros Hr Hp. unfold run_call.
  assert (Hself : p = call_prog c -> match eval p (set_now w t) with Done w' r => exists r0, eval (call_prog c) (set_now w t) = Done w' r0 /\ reordered r r0 | EPanic => eval (call_prog c) (set_now w t) = EPanic | EBlocked => True end).
  { intros ->. destruct (eval (call_prog c) (set_now w t)); eauto. eexists. split; [reflexivity|apply reordered_refl]. }
  destruct c; cbn [by_doc] in Hp; try (exact (Hself Hp)); clear Hself; destruct Hp as [ks ->]; cbn [call_prog].
  - unfold pmap, m_cron_d, m_cron_tick. destruct Hr as [R1 R2 (d & Ed & _) [e Ee] _ _]. destruct w as [wd we wh wn ww wr wt]. cbn [w_writer w_readers w_data w_exp] in *. subst.
    unfold locked, set_now. cbn [w_writer w_readers w_data w_exp w_heap w_next]. rewrite !eval_bind, ev_lock, !eval_bind, ev_data_keys.
    match goal with |- context [eval (atom ?f) ?v] => replace (eval (atom f) v) with (if lists_all ks d then Done v tt else EBlocked) by (cbn; destruct (lists_all ks d); reflexivity) end.
    destruct (lists_all ks d) eqn:El; [|exact I]. apply lists_all_spec in El as [_ Hall].
    rewrite (cron_any ks (map fst (map_to_list d)) d e wh wn true 0 t) by first [exact Hall|intros k [v Hv]; apply elem_of_list_fmap; exists (k, v); split; [reflexivity|apply elem_of_map_to_list, Hv]].
    match goal with |- match ?x with _ => _ end => destruct x; eauto end. eexists. split; [reflexivity|]. apply reordered_refl.
  - unfold pmap, m_hkeys_d, m_hkeys. rewrite !eval_bind. destruct (eval (get_hash_entry k) (set_now w t)) as [w1 [|l|]| |]; try exact I; try reflexivity; [|eexists; split; [reflexivity|split; reflexivity]].
    rewrite !eval_bind, eval_range, eval_range_d. destruct (w_heap w1 !! l) as [o|]; [|reflexivity]. destruct (lists_all ks (h_map o)) eqn:El; [|exact I]. cbn. eexists. split; [reflexivity|]. split; [|reflexivity].
    rewrite (seen_all _ _ El). reflexivity.
  - unfold pmap, m_hvals_d, m_hvals. rewrite !eval_bind. destruct (eval (get_hash_entry k) (set_now w t)) as [w1 [|l|]| |]; try exact I; try reflexivity; [|eexists; split; [reflexivity|split; reflexivity]].
    rewrite !eval_bind, eval_range, eval_range_d. destruct (w_heap w1 !! l) as [o|]; [|reflexivity]. destruct (lists_all ks (h_map o)) eqn:El; [|exact I]. cbn. eexists. split; [reflexivity|]. split; [|reflexivity].
    rewrite (seen_all _ _ El). reflexivity.
  - unfold pmap, m_hgetall_d, m_hgetall. rewrite !eval_bind. destruct (eval (get_hash_entry k) (set_now w t)) as [w1 [|l|]| |]; try exact I; try reflexivity; [|eexists; split; [reflexivity|reflexivity]].
    rewrite !eval_bind, eval_range, eval_range_d. destruct (w_heap w1 !! l) as [o|]; [|reflexivity]. destruct (lists_all ks (h_map o)) eqn:El; [|exact I].
    rewrite (existsb_perm hgetall_bad _ _ (seen_all _ _ El)). destruct (existsb hgetall_bad (map_to_list (h_map o))); cbn; [reflexivity|]. eexists. split; reflexivity.
Qed.

(** A history, with any Range. *)
Inductive hist_d : list (Z * call) -> world -> list reply -> world -> Prop :=
| hd_nil w : hist_d [] w [] w
| hd_cons t c h w p w1 r rs w' : by_doc c p -> eval p (set_now w t) = Done w1 r -> hist_d h w1 rs w' -> hist_d ((t, c) :: h) w (r :: rs) w'.
Theorem C177_history h w rs w' : ready w -> hist_d h w rs w' -> exists rs0, run_hist h w = Done w' rs0 /\ Forall2 reordered rs rs0.
Proof.
  intros Hr H. induction H as [w|t c h w p w1 r rs w' Hp E H IH]; [exists []; split; [reflexivity|constructor]|].
  pose proof (C177_alone t c p w Hr Hp) as Ha. rewrite E in Ha. destruct Ha as (r0 & E0 & Hre). destruct IH as (rs0 & E1 & Hrs); [eapply ready_run; eauto|].
  exists (r0 :: rs0). split; [cbn; rewrite E0, E1; reflexivity|constructor; auto].
Qed.
(** Every list with the same fields is a possible reply of HKeys, and the model's own history is possible. *)
Lemma lists_own {A} (m : gmap gostr A) : lists_all (map fst (map_to_list m)) m = true.
Proof. apply lists_all_spec. split; [apply NoDup_fst_map_to_list|]. intros f [v Hv]. apply elem_of_list_fmap. exists (f, v). split; [reflexivity|]. apply elem_of_map_to_list, Hv. Qed.
Theorem C177_all_orders t k w w' fs fs' : run_call t (CHKeys k) w = Done w' (RList (fs, None)) -> fs' ≡ₚ fs ->
  exists p, by_doc (CHKeys k) p /\ eval p (set_now w t) = Done w' (RList (fs', None)).
Proof.
  intros E Hp. exists (pmap RList (m_hkeys_d fs' k)). split; [cbn; eauto|]. revert E. unfold run_call. cbn [call_prog]. unfold pmap, m_hkeys, m_hkeys_d. rewrite !eval_bind.
  destruct (eval (get_hash_entry k) (set_now w t)) as [w1 [|l|]| |]; try discriminate. rewrite !eval_bind, eval_range, eval_range_d. destruct (w_heap w1 !! l) as [o|]; [|discriminate].
  cbn. intros [= <- <-]. rewrite (proj2 (lists_all_spec fs' (h_map o))).
  - cbn. do 3 f_equal. assert (H : forall f, f ∈ fs' -> is_Some (h_map o !! f)).
    { intros f Hf. rewrite Hp in Hf. apply elem_of_list_fmap in Hf as ([g v] & -> & Hg). apply elem_of_map_to_list in Hg. eauto. }
    clear Hp. induction fs' as [|f r IH]; [reflexivity|]. unfold seen in *. cbn. destruct (H f) as [v Hv]; [left|]. rewrite Hv. cbn. f_equal. apply IH. intros g Hg. apply H. right. exact Hg.
  - split; [rewrite Hp; apply NoDup_fst_map_to_list|]. intros f [v Hv]. rewrite Hp. apply elem_of_list_fmap. exists (f, v). split; [reflexivity|]. apply elem_of_map_to_list, Hv.
Qed.
Lemma range_own w l : exists ks, eval (h_range_d ks l) w = eval (h_range l) w.
Proof.
  destruct (w_heap w !! l) as [o|] eqn:Ho; [|exists []; rewrite eval_range, eval_range_d, Ho; reflexivity].
  exists (map fst (map_to_list (h_map o))). rewrite eval_range_d, Ho, lists_own. unfold h_range. rewrite eval_bind. unfold h_keys, h_atom. cbn. rewrite Ho. cbn. rewrite (set_heap_id _ _ _ Ho). rewrite (eval_visit _ _ _ _ Ho). reflexivity.
Qed.
Theorem C177_own_order t c w : ready w -> exists p, by_doc c p /\ eval p (set_now w t) = run_call t c w.
Proof.
  intros Hr. unfold run_call. destruct c; try (eexists; split; [reflexivity|]; reflexivity); cbn [by_doc call_prog].
  - destruct Hr as [R1 R2 (d & Ed & _) [e Ee] _ _]. destruct w as [wd we wh wn ww wr wt]. cbn [w_writer w_readers w_data w_exp] in *. subst.
    eexists. split; [exists (map fst (map_to_list d)); reflexivity|]. unfold pmap, m_cron_d, m_cron_tick, locked, set_now. cbn [w_writer w_readers w_data w_exp w_heap w_next]. rewrite !eval_bind, ev_lock, !eval_bind, ev_data_keys.
    match goal with |- context [eval (atom ?f) ?v] => replace (eval (atom f) v) with (Done v tt) by (cbn; rewrite lists_own; reflexivity) end. reflexivity.
  - assert (exists ks, eval (m_hkeys_d ks k) (set_now w t) = eval (m_hkeys k) (set_now w t)) as [ks Hks].
    { unfold m_hkeys_d, m_hkeys. destruct (eval (get_hash_entry k) (set_now w t)) as [w1 [|l|]| |] eqn:E; try (exists []; rewrite !eval_bind, E; reflexivity).
      destruct (range_own w1 l) as [ks H]. exists ks. rewrite !eval_bind, E, !eval_bind, H. reflexivity. }
    eexists. split; [exists ks; reflexivity|]. unfold pmap. rewrite !eval_bind, Hks. reflexivity.
  - assert (exists ks, eval (m_hvals_d ks k) (set_now w t) = eval (m_hvals k) (set_now w t)) as [ks Hks].
    { unfold m_hvals_d, m_hvals. destruct (eval (get_hash_entry k) (set_now w t)) as [w1 [|l|]| |] eqn:E; try (exists []; rewrite !eval_bind, E; reflexivity).
      destruct (range_own w1 l) as [ks H]. exists ks. rewrite !eval_bind, E, !eval_bind, H. reflexivity. }
    eexists. split; [exists ks; reflexivity|]. unfold pmap. rewrite !eval_bind, Hks. reflexivity.
  - assert (exists ks, eval (m_hgetall_d ks k) (set_now w t) = eval (m_hgetall k) (set_now w t)) as [ks Hks].
    { unfold m_hgetall_d, m_hgetall. destruct (eval (get_hash_entry k) (set_now w t)) as [w1 [|l|]| |] eqn:E; try (exists []; rewrite !eval_bind, E; reflexivity).
      destruct (range_own w1 l) as [ks H]. exists ks. rewrite !eval_bind, E, !eval_bind, H. reflexivity. }
    eexists. split; [exists ks; reflexivity|]. unfold pmap. rewrite !eval_bind, Hks. reflexivity.
Qed.

(** ** Goroutines *)
Definition opens (evs : list event) : gmap nat call := fst (foldl track (∅, []) evs).
Lemma okeep (I : world -> Prop) (Q : call -> reply -> Prop) w0 evs c : stable I -> I w0 ->
  (forall n cl p, EInv n cl ∈ evs -> by_doc cl p -> keeps I I (Q cl) p) -> oexec w0 evs c ->
  I (c_w c) /\ (forall i, match c_th c !! i, opens evs !! i with Some p, Some cl => keeps I I (Q cl) p | None, None => True | _, _ => False end) /\
  (forall cl r, (cl, r) ∈ answered evs -> Q cl r).
Proof.
  intros Hst H0 Hk E. induction E as [|evs c e c' E IH Es].
  { split; [exact H0|]. split; [intros i; unfold opens; cbn; rewrite !lookup_empty; exact Logic.I|]. intros cl r H. inversion H. }
  destruct IH as (HI & Hth & Ha); [intros n cl p Hin; apply (Hk n), elem_of_app; auto|]. unfold opens, answered in *. rewrite foldl_app. set (st := foldl track (∅, []) evs) in *.
  destruct Es as [c i cl p Hi Hp|c i c' Es|c i r c' Es|c t c' Es]; cbn [foldl track fst snd].
  - split; [exact HI|]. split; [|exact Ha]. intros j. cbn [c_th]. destruct (decide (j = i)) as [->|Hne]; [rewrite !lookup_insert; apply (Hk i); [apply elem_of_app; right; left|exact Hp]|].
    rewrite !lookup_insert_ne by auto. apply Hth.
  - cbn in Es. destruct (c_th c !! i) as [[r|f]|] eqn:Ei; try discriminate. destruct (f (c_w c)) as [w' p'| |] eqn:Ef; try discriminate. injection Es as <-. pose proof (Hth i) as Hi. rewrite Ei in Hi.
    destruct (fst st !! i) as [cl|] eqn:Eo; [|contradiction]. inversion Hi as [|? A1 A2]; subst. split; [cbn; eapply A1; eauto|]. split; [|exact Ha].
    intros j. cbn [c_th]. destruct (decide (j = i)) as [->|Hne]; [rewrite lookup_insert, Eo; eauto|]. rewrite lookup_insert_ne by auto. apply Hth.
  - cbn in Es. destruct (c_th c !! i) as [[r'|f]|] eqn:Ei; try discriminate. injection Es as <- ->. pose proof (Hth i) as Hi. rewrite Ei in Hi. destruct (fst st !! i) as [cl|] eqn:Eo; [|contradiction].
    cbn. split; [exact HI|]. split; [intros j; destruct (decide (j = i)) as [->|Hne]; [rewrite !lookup_delete; exact Logic.I|rewrite !lookup_delete_ne by auto; apply Hth]|].
    intros cl' r'. rewrite elem_of_app, elem_of_list_singleton. intros [H|[= -> ->]]; [auto|]. inversion Hi. assumption.
  - cbn in Es. destruct (w_now (c_w c) <=? t); [|discriminate]. injection Es as <-. cbn. split; [apply Hst, HI|]. split; [exact Hth|exact Ha].
Qed.
Lemma answered_last evs j r cl : opens evs !! j = Some cl -> (cl, r) ∈ answered (evs ++ [ERet j r]).
Proof. unfold opens, answered. rewrite foldl_app. cbn. intros ->. cbn. apply elem_of_app. right. left. Qed.

Section hash.
Variables (k f : gostr) (X : option gval -> Prop) (l : positive).
Notation I_ := (ConcHash.I_ k f X l).
Lemma kd_check ks l' : keeps I_ I_ top (atom (fun w => match w_heap w !! l' with None => Panic | Some o => if lists_all ks (h_map o) then Go w tt else Blocked end)).
Proof. apply keeps_atom. intros w w' a Hw. destruct (w_heap w !! l'); [|discriminate]. destruct (lists_all _ _); [|discriminate]. intros [= <- <-]. split; [exact Hw|]. split; [auto|exact Logic.I]. Qed.
Lemma kd_range ks k' l' : entry k l k' (HEntry l') -> keeps I_ I_ top (h_range_d ks l').
Proof. intros H. unfold h_range_d. eapply keeps_bind; [apply kd_check|]. intros _ _. apply (kp_visit k f X X l k'), H. Qed.
Lemma kd_call cl p : by_doc cl p -> spares k f X X cl -> keeps I_ I_ top p.
Proof.
  intros Hp Hs. destruct cl; cbn [by_doc] in Hp; try (rewrite Hp; apply (kp_call k f X X l); exact Hs); destruct Hp as [ks ->].
  - destruct Hs.
  - unfold pmap, m_hkeys_d. eapply (keeps_bind _ _ top); [|intros; apply kp_ret; exact Logic.I]. eapply keeps_bind; [apply (kp_ghe k f X X l)|]. intros [|l'|] H; [apply kp_panic| |apply kp_ret; exact Logic.I].
    eapply keeps_bind; [eapply kd_range, H|]. intros; apply kp_ret; exact Logic.I.
  - unfold pmap, m_hvals_d. eapply (keeps_bind _ _ top); [|intros; apply kp_ret; exact Logic.I]. eapply keeps_bind; [apply (kp_ghe k f X X l)|]. intros [|l'|] H; [apply kp_panic| |apply kp_ret; exact Logic.I].
    eapply keeps_bind; [eapply kd_range, H|]. intros; apply kp_ret; exact Logic.I.
  - unfold pmap, m_hgetall_d. eapply (keeps_bind _ _ top); [|intros; apply kp_ret; exact Logic.I]. eapply keeps_bind; [apply (kp_ghe k f X X l)|]. intros [|l'|] H; [apply kp_panic| |apply kp_ret; exact Logic.I].
    eapply keeps_bind; [eapply kd_range, H|]. intros es _. destruct (existsb hgetall_bad es); [apply kp_panic|apply kp_ret; exact Logic.I].
Qed.
(** the fields shown: none twice, the field if it is always there, not if it never is *)
Definition shows_ok (es : list (gostr * gval)) : Prop :=
  NoDup (map fst es) /\ (forall v, (f, v) ∈ es -> X (Some v)) /\ (~ X None -> exists v, (f, v) ∈ es).
Lemma kd_visit ks : NoDup ks -> keeps I_ I_ (fun es => (forall g, g ∈ map fst es -> g ∈ ks) /\ NoDup (map fst es)) (h_visit l ks).
Proof.
  induction ks as [|g r IH]; intros Hnd; cbn [h_visit]; [constructor; split; [intros g H; inversion H|constructor]|]. inversion Hnd; subst.
  eapply keeps_bind; [apply (kp_load k f X X l k), entry_l|]. intros v _. eapply keeps_bind; [apply IH; assumption|]. intros es [H1' H2']. constructor. destruct v as [v|]; cbn.
  - split; [intros g'; rewrite !elem_of_cons; intros [->|H]; auto|]. constructor; [|exact H2']. intros H. auto.
  - split; [intros g' H; right; auto|exact H2'].
Qed.
Lemma keeps_and (I J : world -> Prop) {R} (Q1 Q2 : R -> Prop) p : keeps I J Q1 p -> keeps I J Q2 p -> keeps I J (fun r => Q1 r /\ Q2 r) p.
Proof. intros H1. induction H1 as [r H|g A1 A2 IH]; intros H2; inversion H2; subst; constructor; eauto. Qed.
Lemma kr_range_d ks : keeps I_ I_ shows_ok (h_range_d ks l).
Proof.
  unfold h_range_d. eapply (keeps_bind _ _ (fun _ => NoDup ks /\ (~ X None -> f ∈ ks))).
  - apply keeps_atom. intros w w' a Hw. pose proof Hw as (d & e & o & _ & _ & _ & _ & Ho & _ & _ & HX). rewrite Ho. destruct (lists_all ks (h_map o)) eqn:El; [|discriminate]. intros [= <- <-].
    split; [exact Hw|]. split; [auto|]. apply lists_all_spec in El as [E1 E2]. split; [exact E1|]. intros Hn. apply E2. destruct (h_map o !! f); [eauto|]. elim Hn. exact HX.
  - intros _ [Hnd Hin]. eapply keeps_weaken; [|apply keeps_and; [apply kd_visit, Hnd|apply (kr_visit k f X X l)]]. intros es [[_ H1] (H2 & H3 & H4)]. split; [exact H1|]. split; auto.
Qed.
End hash.

(** ** C178: goroutines, with any Range *)
Definition Qhash (k f : gostr) (X : option gval -> Prop) (c : call) (r : reply) : Prop :=
  match c with
  | CHKeys k' => k' = k -> exists es, r = RList (map fst es, None) /\ shows_ok f X es
  | CHVals k' => k' = k -> exists es, r = RList (omap (fun e => match snd e with VStr s => Some s | _ => None end) es, None) /\ shows_ok f X es
  | CHGet k' f' => k' = k -> f' = f -> exists y, X y /\ r = RStr (hget_ret y)
  | _ => True
  end.
Lemma kd_Q k f (X : option gval -> Prop) l cl p : by_doc cl p -> spares k f X X cl -> keeps (ConcHash.I_ k f X l) (ConcHash.I_ k f X l) (Qhash k f X cl) p.
Proof.
  intros Hp Hs. assert (Htop : (forall r, Qhash k f X cl r) -> keeps (ConcHash.I_ k f X l) (ConcHash.I_ k f X l) (Qhash k f X cl) p).
  { intros H. eapply keeps_weaken; [|eapply kd_call; eauto]. auto. }
  destruct cl; try (apply Htop; intros ?; exact Logic.I); cbn [by_doc] in Hp.
  - destruct (decide (k0 = k)) as [->|Hne]; [|apply Htop; intros r E; elim (Hne E)]. destruct Hp as [ks ->]. unfold pmap, m_hkeys_d.
    eapply (keeps_bind _ _ (fun x => exists es, x = (map fst es, None) /\ shows_ok f X es)); [|intros x (es & -> & H); apply kp_ret; intros _; eauto].
    eapply keeps_bind; [apply (kr_ghe k f X X l)|]. intros h ->. eapply keeps_bind; [apply kr_range_d|]. intros es H. apply kp_ret. eauto.
  - destruct (decide (k0 = k)) as [->|Hne]; [|apply Htop; intros r E; elim (Hne E)]. destruct Hp as [ks ->]. unfold pmap, m_hvals_d.
    eapply (keeps_bind _ _ (fun x => exists es, x = (omap (fun e => match snd e with VStr s => Some s | _ => None end) es, None) /\ shows_ok f X es)); [|intros x (es & -> & H); apply kp_ret; intros _; eauto].
    eapply keeps_bind; [apply (kr_ghe k f X X l)|]. intros h ->. eapply keeps_bind; [apply kr_range_d|]. intros es H. apply kp_ret. eauto.
  - destruct (decide (k0 = k)) as [->|Hne]; [|apply Htop; intros r E; elim (Hne E)]. destruct (decide (f0 = f)) as [->|Hne]; [|apply Htop; intros r _ E; elim (Hne E)].
    rewrite Hp. eapply keeps_weaken; [|apply (kr_hget k f X X l)]. intros r H _ _. exact H.
Qed.
Lemma odone k f (X : option gval -> Prop) l w0 evs c j r cl : ready w0 -> stored w0 k = Some (VHash l) -> deadline w0 k = None -> X (at_start w0 k f) ->
  (forall n cl, EInv n cl ∈ evs -> spares k f X X cl) -> oexec w0 (evs ++ [ERet j r]) c -> opens evs !! j = Some cl -> Qhash k f X cl r.
Proof.
  intros Hr Hs Hd HX Hsp E Ho. destruct (okeep (ConcHash.I_ k f X l) (Qhash k f X) w0 (evs ++ [ERet j r]) c (I_stable k f X l) (start_inv w0 k f l X Hr Hs Hd HX)) with (2 := E) as (_ & _ & Ha).
  - intros n cl' p Hin Hp. apply kd_Q; [exact Hp|]. apply elem_of_app in Hin as [Hin|Hin]; [eapply Hsp; eauto|]. apply elem_of_list_singleton in Hin. discriminate.
  - apply Ha, answered_last, Ho.
Qed.
Lemma removes_dec k f (evs : list event) : (exists n cl, EInv n cl ∈ evs /\ removes_field k f cl) \/ ~ (exists n cl, EInv n cl ∈ evs /\ removes_field k f cl).
Proof.
  induction evs as [|e r IH]; [right; intros (n & cl & H & _); inversion H|]. destruct IH as [(n & cl & H1 & H2)|IH]; [left; exists n, cl; split; [right; exact H1|exact H2]|].
  assert (He : (exists n cl, e = EInv n cl /\ removes_field k f cl) \/ ~ exists n cl, e = EInv n cl /\ removes_field k f cl).
  { destruct e as [n cl| |]; try (right; intros (? & ? & [=] & _); fail). destruct cl; try (right; intros (? & ? & [= <- <-] & []); fail).
    destruct (decide (k0 = k /\ f ∈ fs)) as [H|H]; [left; eexists _, _; split; [reflexivity|exact H]|right; intros (? & ? & [= <- <-] & H'); exact (H H')]. }
  destruct He as [(n & cl & -> & H)|He]; [left; exists n, cl; split; [left|exact H]|]. right. intros (n & cl & H & H'). apply elem_of_cons in H as [<-|H]; [apply He|apply IH]; eauto.
Qed.
(** HKeys: no field twice; a field listed was there at first or a call put it there; a field missing was missing or a call removed it. *)
Theorem C178_hkeys w0 k l (evs : list event) j fs er c : ready w0 -> stored w0 k = Some (VHash l) -> deadline w0 k = None ->
  (forall n cl, EInv n cl ∈ evs -> keeps_key k cl) -> oexec w0 (evs ++ [ERet j (RList (fs, er))]) c -> opens evs !! j = Some (CHKeys k) ->
  er = None /\ NoDup fs /\ forall f,
  (f ∈ fs -> answer (w_now w0) (CHGet k f) w0 <> Some (RStr ([], Some ErrKeyNil)) \/ exists n cl v, EInv n cl ∈ evs /\ writes_field k f cl v) /\
  (f ∉ fs -> answer (w_now w0) (CHGet k f) w0 = Some (RStr ([], Some ErrKeyNil)) \/ exists n cl, EInv n cl ∈ evs /\ removes_field k f cl).
Proof.
  intros Hr Hs Hd Hc E Ho.
  assert (H : forall f, exists es, RList (fs, er) = RList (map fst es, None) /\ shows_ok f (held (at_start w0 k f) k f evs) es).
  { intros f. refine (odone k f (held (at_start w0 k f) k f evs) l w0 evs c j _ _ Hr Hs Hd _ _ E Ho eq_refl); [left; reflexivity|]. intros n cl Hin. apply (held_spares _ k f _ n); eauto. }
  destruct (H []) as (es0 & [= -> ->] & Hn & _). split; [reflexivity|]. split; [exact Hn|]. intros f. destruct (H f) as (es & [= Efs] & _ & H1 & H2). rewrite Efs. rewrite (start_hget w0 k f l) by auto. split.
  - intros Hin. apply elem_of_list_fmap in Hin as ([g v] & -> & Hin). cbn [fst] in *. destruct (H1 v Hin) as [Ev|(n & cl & Hn' & Hw)]; [left; rewrite <- Ev; discriminate|right; eauto].
  - intros Hni. destruct (at_start w0 k f) as [v|] eqn:Ea; [|left; reflexivity]. right. destruct (removes_dec k f evs) as [Hx|Hx]; [exact Hx|]. elim Hni. destruct H2 as [v' Hv']; [intros [Hy|Hy]; [discriminate|exact (Hx Hy)]|].
    apply elem_of_list_fmap. exists (f, v'). auto.
Qed.
(** HGet: what the field held at first, or what a call left there. *)
Theorem C178_hget w0 k f l (evs : list event) j r c : ready w0 -> stored w0 k = Some (VHash l) -> deadline w0 k = None ->
  (forall n cl, EInv n cl ∈ evs -> keeps_key k cl) -> oexec w0 (evs ++ [ERet j r]) c -> opens evs !! j = Some (CHGet k f) ->
  answer (w_now w0) (CHGet k f) w0 = Some r \/
  (exists v, r = RStr (v, None) /\ exists n cl, EInv n cl ∈ evs /\ writes_field k f cl v) \/
  (r = RStr ([], Some ErrKeyNil) /\ exists n cl, EInv n cl ∈ evs /\ removes_field k f cl).
Proof.
  intros Hr Hs Hd Hc E Ho.
  assert (H : exists y, held (at_start w0 k f) k f evs y /\ r = RStr (hget_ret y)).
  { refine (odone k f (held (at_start w0 k f) k f evs) l w0 evs c j _ _ Hr Hs Hd _ _ E Ho eq_refl eq_refl); [left; reflexivity|]. intros n cl Hin. apply (held_spares _ k f _ n); eauto. }
  destruct H as (y & [->|Hy] & ->); [left; eapply start_hget; eauto|]. right. destruct y as [v|]; [left; exists (ConcHash.shown v); auto|right; auto].
Qed.
(** HVals: a text that a field held at first is shown if no call wrote or removed the field. *)
Definition touches_field (k f : gostr) (c : call) : Prop := (exists v, writes_field k f c v) \/ removes_field k f c.
Lemma untouched_spares k f (X : option gval -> Prop) cl : keeps_key k cl -> ~ touches_field k f cl -> spares k f X X cl.
Proof.
  intros Hk Ht. destruct cl; cbn in *; auto; try (intros -> ->; elim Ht; left; eexists; cbn; eauto; fail).
  - intros -> Hf. elim Ht. right. cbn. auto.
  - intros -> v Hv. elim Ht. left. eexists. cbn. eauto.
Qed.
Theorem C178_hvals w0 k f s l (evs : list event) j vs er c : ready w0 -> stored w0 k = Some (VHash l) -> deadline w0 k = None ->
  at_start w0 k f = Some (VStr s) -> (forall n cl, EInv n cl ∈ evs -> keeps_key k cl /\ ~ touches_field k f cl) ->
  oexec w0 (evs ++ [ERet j (RList (vs, er))]) c -> opens evs !! j = Some (CHVals k) -> er = None /\ s ∈ vs.
Proof.
  intros Hr Hs Hd Ha Hc E Ho.
  assert (H : exists es, RList (vs, er) = RList (omap (fun e => match snd e with VStr s => Some s | _ => None end) es, None) /\ shows_ok f (fun y => y = Some (VStr s)) es).
  { refine (odone k f (fun y => y = Some (VStr s)) l w0 evs c j _ _ Hr Hs Hd Ha _ E Ho eq_refl). intros n cl Hin. destruct (Hc n cl Hin). apply untouched_spares; auto. }
  destruct H as (es & [= -> ->] & _ & H1 & H2). split; [reflexivity|]. destruct H2 as [v Hv]; [discriminate|]. pose proof (H1 v Hv) as [= ->]. apply elem_of_list_omap. exists (f, VStr s). auto.
Qed.
(** ** Every execution of CacheConc.v is among these *)
(** [covered p P]: a goroutine that runs [p] does what one that runs [P ks] does, for all [ks] until it starts Range, and then for one. *)
Fixpoint covered {R : Type} (p : prog R) (P : list gostr -> prog R) : Prop :=
  (forall ks, P ks = p) \/
  match p with
  | Ret _ => False
  | Step f => exists g, (forall ks, P ks = Step (g ks)) /\ forall w,
      match f w with
      | Go w' p' => (exists P', (forall ks, g ks w = Go w' (P' ks)) /\ covered p' P') \/ exists ks, g ks w = Go w' p'
      | _ => True
      end
  end.
Lemma covered_same {R : Type} (p : prog R) : covered p (fun _ => p). Proof. destruct p; left; auto. Qed.
Lemma covered_all {R : Type} (p : prog R) P : (forall ks, P ks = p) -> covered p P. Proof. destruct p; left; auto. Qed.
Lemma covered_bind {A R : Type} (p : prog A) (k : A -> prog R) (K : list gostr -> A -> prog R) :
  (forall a, covered (k a) (fun ks => K ks a)) -> covered (pbind p k) (fun ks => pbind p (K ks)).
Proof.
  intros H. revert p. fix IH 1. intros [a|f]; [apply H|]. cbn. right. eexists. split; [reflexivity|]. intros w. cbn. destruct (f w) as [w' p'| |]; auto. left. eexists. split; [reflexivity|]. apply IH.
Qed.
Lemma covered_left {A R : Type} (p : prog A) : forall P (k : A -> prog R), covered p P -> covered (pbind p k) (fun ks => pbind (P ks) k).
Proof.
  revert p. fix IH 1. intros [a|f] P k H.
  - destruct H as [H|[]]. apply covered_all. intros ks. rewrite H. reflexivity.
  - cbn in H. destruct H as [H|(g & HP & H)]; [apply covered_all; intros ks; rewrite H; reflexivity|]. cbn. right. exists (fun ks w => match g ks w with Go w' p' => Go w' (pbind p' k) | Blocked => Blocked | Panic => Panic end).
    split; [intros ks; rewrite HP; reflexivity|]. intros w. specialize (H w). destruct (f w) as [w' p'| |]; auto. destruct H as [(P' & H1 & H2)|(ks & H1)].
    + left. exists (fun ks => pbind (P' ks) k). split; [intros ks; rewrite H1; reflexivity|]. apply (IH p'), H2.
    + right. exists ks. rewrite H1. reflexivity.
Qed.
Lemma covered_range l : covered (h_range l) (fun ks => h_range_d ks l).
Proof.
  unfold h_range, h_range_d, h_keys, h_atom, atom. cbn [pbind covered]. right. eexists. split; [reflexivity|]. intros w. cbn. destruct (w_heap w !! l) as [o|] eqn:Ho; cbn; [|exact I]. right. exists (map fst (map_to_list (h_map o))).
  rewrite lists_own, (set_heap_id _ _ _ Ho). reflexivity.
Qed.
Definition doc_prog (c : call) (ks : list gostr) : prog reply :=
  match c with
  | CHKeys k => pmap RList (m_hkeys_d ks k)
  | CHVals k => pmap RList (m_hvals_d ks k)
  | CHGetAll k => pmap RMap (m_hgetall_d ks k)
  | CCron => pmap (fun _ => RUnit) (m_cron_d ks)
  | _ => call_prog c
  end.
Lemma doc_by c ks : by_doc c (doc_prog c ks). Proof. destruct c; cbn; eauto. Qed.
Lemma covered_call c : covered (call_prog c) (doc_prog c).
Proof.
  destruct c; try (apply covered_all; intros ?; cbn [doc_prog]; reflexivity); cbn [call_prog]; unfold doc_prog, pmap.
  - apply covered_left. unfold m_cron_tick, m_cron_d, locked. apply covered_bind. intros _. apply covered_left.
    unfold data_keys, atom. cbn [pbind covered]. right. eexists. split; [reflexivity|]. intros w. cbn. destruct (w_data w) as [d|]; cbn; [|exact I]. right. exists (map fst (map_to_list d)). rewrite lists_own. reflexivity.
  - apply covered_left. unfold m_hkeys, m_hkeys_d. apply covered_bind. intros [|l|]; try apply covered_same. apply covered_left, covered_range.
  - apply covered_left. unfold m_hvals, m_hvals_d. apply covered_bind. intros [|l|]; try apply covered_same. apply covered_left, covered_range.
  - apply covered_left. unfold m_hgetall, m_hgetall_d. apply covered_bind. intros [|l|]; try apply covered_same. apply covered_left, covered_range.
Qed.
Definition chosen (F : gmap nat (list gostr -> prog reply)) (o : nat -> list gostr) : gmap nat (prog reply) := map_imap (fun i P => Some (P (o i))) F.
Lemma chosen_look F o i : chosen F o !! i = option_map (fun P => P (o i)) (F !! i).
Proof. unfold chosen. rewrite map_lookup_imap. destruct (F !! i); reflexivity. Qed.
Lemma chosen_insert F o i P : chosen (<[i := P]> F) o = <[i := P (o i)]> (chosen F o).
Proof. apply map_eq. intros j. rewrite chosen_look. destruct (decide (j = i)) as [->|Hne]; [rewrite !lookup_insert; reflexivity|]. rewrite !lookup_insert_ne by auto. rewrite chosen_look. reflexivity. Qed.
Theorem C178_covers w0 s c evs : cexec s (start w0) = Some (c, evs) ->
  exists F : gmap nat (list gostr -> prog reply), (forall i, match c_th c !! i, F !! i with Some p, Some P => covered p P | None, None => True | _, _ => False end) /\
  forall o, oexec w0 evs (Conf (c_w c) (chosen F o)).
Proof.
  intros E. refine (cexec_inv (fun c evs => exists F : gmap nat (list gostr -> prog reply), (forall i, match c_th c !! i, F !! i with Some p, Some P => covered p P | None, None => True | _, _ => False end) /\ forall o, oexec w0 evs (Conf (c_w c) (chosen F o))) s (start w0) c evs _ [] _ E).
  2: { exists ∅. split; [intros i; cbn; rewrite !lookup_empty; exact I|]. intros o. replace (chosen ∅ o) with (∅ : gmap nat (prog reply)) by (symmetry; apply map_empty; intros i; rewrite chosen_look, lookup_empty; reflexivity). constructor. }
  intros c1 evs1 a c2 e (F & Hth & HE) Es. destruct a as [i cl|i|i|t]; cbn in Es.
  - destruct (c_th c1 !! i) eqn:Ei; [discriminate|]. injection Es as <- <-. exists (<[i := doc_prog cl]> F). cbn [c_w c_th]. split.
    + intros j. destruct (decide (j = i)) as [->|Hne]; [rewrite !lookup_insert; apply covered_call|]. rewrite !lookup_insert_ne by auto. apply Hth.
    + intros o. rewrite chosen_insert. eapply o_next; [apply HE|]. apply (o_inv (Conf (c_w c1) (chosen F o)) i cl); [|apply doc_by]. cbn. rewrite chosen_look. specialize (Hth i). rewrite Ei in Hth. destruct (F !! i); [contradiction|reflexivity].
  - destruct (c_th c1 !! i) as [[r|f]|] eqn:Ei; try discriminate. destruct (f (c_w c1)) as [w' p'| |] eqn:Ef; try discriminate. injection Es as <- <-. cbn [c_w c_th].
    pose proof (Hth i) as Hi. rewrite Ei in Hi. destruct (F !! i) as [P|] eqn:EF; [|contradiction].
    assert (Hpar : forall P' (o' : (nat -> list gostr) -> nat -> list gostr), covered p' P' ->
      (forall o, exists g, P (o' o i) = Step g /\ g (c_w c1) = Go w' (P' (o i))) -> (forall o j, j <> i -> o' o j = o j) ->
      exists F' : gmap nat (list gostr -> prog reply), (forall j, match <[i := p']> (c_th c1) !! j, F' !! j with Some p, Some P => covered p P | None, None => True | _, _ => False end) /\ forall o, oexec w0 (evs1 ++ []) (Conf w' (chosen F' o))).
    { intros P' o' Hc Hg Ho. exists (<[i := P']> F). split.
      - intros j. destruct (decide (j = i)) as [->|Hne]; [rewrite !lookup_insert; exact Hc|]. rewrite !lookup_insert_ne by auto. apply Hth.
      - intros o. destruct (Hg o) as (g & E1 & E2). eapply o_next; [apply (HE (o' o))|]. apply (o_run _ i). cbn [cstep c_th c_w]. rewrite chosen_look, EF. cbn. rewrite E1, E2. do 3 f_equal.
        apply map_eq. intros j. rewrite chosen_look. destruct (decide (j = i)) as [->|Hne]; [rewrite !lookup_insert; reflexivity|]. rewrite !lookup_insert_ne by auto. rewrite chosen_look, (Ho o j Hne). reflexivity. }
    cbn in Hi. destruct Hi as [Hi|(g & HP & Hi)].
    + apply (Hpar (fun _ => p') (fun o => o)); [apply covered_same| |auto]. intros o. rewrite Hi. eauto.
    + specialize (Hi (c_w c1)). rewrite Ef in Hi. destruct Hi as [(P' & H1 & H2)|(ks & H1)].
      * apply (Hpar P' (fun o => o)); [exact H2| |auto]. intros o. rewrite HP. eexists. split; [reflexivity|]. apply H1.
      * apply (Hpar (fun _ => p') (fun o j => if decide (j = i) then ks else o j)); [apply covered_same| |intros o j Hne; rewrite decide_False by auto; reflexivity].
        intros o. rewrite decide_True by auto. rewrite HP. eauto.
  - destruct (c_th c1 !! i) as [[r|f]|] eqn:Ei; try discriminate. injection Es as <- <-. cbn [c_w c_th]. pose proof (Hth i) as Hi. rewrite Ei in Hi. destruct (F !! i) as [P|] eqn:EF; [|contradiction]. destruct Hi as [Hi|[]].
    exists (delete i F). split; [intros j; destruct (decide (j = i)) as [->|Hne]; [rewrite !lookup_delete; exact I|rewrite !lookup_delete_ne by auto; apply Hth]|].
    intros o. eapply o_next; [apply (HE o)|]. apply o_ret. cbn [cstep c_th c_w]. rewrite chosen_look, EF. cbn. rewrite Hi. do 3 f_equal.
    apply map_eq. intros j. rewrite chosen_look. destruct (decide (j = i)) as [->|Hne]; [rewrite !lookup_delete; reflexivity|]. rewrite !lookup_delete_ne by auto. apply chosen_look.
  - destruct (w_now (c_w c1) <=? t) eqn:Et; [|discriminate]. injection Es as <- <-. exists F. split; [exact Hth|]. intros o. eapply o_next; [apply (HE o)|]. apply o_tick. cbn. rewrite Et. reflexivity.
Qed.
(** A schedule with the list of keys that each new call is to look at. *)
Definition oplay1 (a : act * list gostr) (c : conf) : option (conf * list event) :=
  match fst a with
  | AInv i cl => match c_th c !! i with Some _ => None | None => Some (Conf (c_w c) (<[i := doc_prog cl (snd a)]> (c_th c)), [EInv i cl]) end
  | b => cstep b c
  end.
Fixpoint oplay (s : list (act * list gostr)) (c : conf) : option (conf * list event) :=
  match s with
  | [] => Some (c, [])
  | a :: s => match oplay1 a c with
              | None => None
              | Some (c1, e) => match oplay s c1 with None => None | Some (c2, es) => Some (c2, e ++ es) end
              end
  end.
Lemma oplay_sound w0 s : forall c evs c' evs', oexec w0 evs c -> oplay s c = Some (c', evs') -> oexec w0 (evs ++ evs') c'.
Proof.
  induction s as [|[a ks] s IH]; intros c evs c' evs' H E; cbn in E; [injection E as <- <-; rewrite app_nil_r; exact H|].
  destruct (oplay1 (a, ks) c) as [[c1 e]|] eqn:E1; [|discriminate]. destruct (oplay s c1) as [[c2 es]|] eqn:E2; [|discriminate]. injection E as <- <-. rewrite app_assoc. eapply IH; [|exact E2].
  eapply o_next; [exact H|]. unfold oplay1 in E1. destruct a as [i cl|i|i|t]; cbn [fst snd] in E1.
  - destruct (c_th c !! i) eqn:Ei; [discriminate|]. injection E1 as <- <-. constructor; [exact Ei|apply doc_by].
  - assert (e = []) as -> by (cbn in E1; destruct (c_th c !! i) as [[|f]|]; try discriminate; destruct (f (c_w c)); try discriminate; congruence). apply (o_run _ i), E1.
  - assert (exists r, e = [ERet i r]) as [r ->] by (cbn in E1; destruct (c_th c !! i) as [[|f]|]; try discriminate; injection E1 as _ <-; eauto). apply o_ret, E1.
  - assert (e = [ETick t]) as -> by (cbn in E1; destruct (w_now (c_w c) <=? t); [|discriminate]; congruence). apply o_tick, E1.
Qed.
Definition two_fields : world :=
  match run_hist [(0, CHSet (bs "h") (bs "a") (bs "1")); (0, CHSet (bs "h") (bs "b") (bs "2"))] (new_world 0) with Done w _ => w | _ => new_world 0 end.
Lemma two_ready : ready two_fields.
Proof. unfold two_fields. destruct (run_hist _ (new_world 0)) as [w rs| |] eqn:E; try apply ready_new. exact (ready_hist _ _ _ _ (ready_new 0) E). Qed.
(** Alone: both orders, and no list without a field. *)
Example C177_nonvacuous :
  ready two_fields /\
  (forall fs, fs ≡ₚ [bs "a"; bs "b"] -> exists p w, by_doc (CHKeys (bs "h")) p /\ eval p (set_now two_fields 0) = Done w (RList (fs, None))) /\
  match eval (doc_prog (CHKeys (bs "h")) [bs "a"]) two_fields with EBlocked => true | _ => false end = true.
Proof.
  split; [apply two_ready|]. split; [|vm_compute; reflexivity]. intros fs Hp.
  assert (exists w fs0, run_call 0 (CHKeys (bs "h")) two_fields = Done w (RList (fs0, None)) /\ [bs "a"; bs "b"] ≡ₚ fs0) as (w & fs0 & E & Hp0).
  { assert (H : match run_call 0 (CHKeys (bs "h")) two_fields with Done _ r => Some r | _ => None end = Some (RList ([bs "b"; bs "a"], None)) \/
      match run_call 0 (CHKeys (bs "h")) two_fields with Done _ r => Some r | _ => None end = Some (RList ([bs "a"; bs "b"], None))) by (first [left; vm_compute; reflexivity|right; vm_compute; reflexivity]).
    destruct (run_call 0 (CHKeys (bs "h")) two_fields) as [w r| |]; [|destruct H; discriminate..]. exists w. destruct H as [[= ->]|[= ->]]; eexists; (split; [reflexivity|]); [apply perm_swap|reflexivity]. }
  destruct (C177_all_orders 0 (bs "h") two_fields w fs0 fs E) as (p & H1 & H2); [etrans; eassumption|]. eauto.
Qed.
(** Range has begun when field c is stored and field a is deleted: it shows c, which was not there, and not a. *)
Example C178_nonvacuous :
  ready two_fields /\ (exists l, stored two_fields (bs "h") = Some (VHash l)) /\ deadline two_fields (bs "h") = None /\
  exists c, oexec two_fields
    ([EInv 1 (CHKeys (bs "h")); EInv 2 (CHSet (bs "h") (bs "c") (bs "3")); ERet 2 (RInt (1, None)); EInv 2 (CHDel (bs "h") [bs "a"]); ERet 2 (RInt (1, None))]
     ++ [ERet 1 (RList ([bs "c"; bs "b"], None))]) c.
Proof.
  split; [apply two_ready|]. split; [eexists; vm_compute; reflexivity|]. split; [vm_compute; reflexivity|].
  set (s := (AInv 1 (CHKeys (bs "h")), [bs "c"; bs "a"; bs "b"]) :: map (fun a => (a, []))
    (runs 1 3 ++ [AInv 2 (CHSet (bs "h") (bs "c") (bs "3"))] ++ runs 2 5 ++ [ARet 2; AInv 2 (CHDel (bs "h") [bs "a"])] ++ runs 2 6 ++ [ARet 2] ++ runs 1 3 ++ [ARet 1])).
  assert (E : match oplay s (start two_fields) with Some (_, evs) => Some evs | None => None end =
    Some ([EInv 1 (CHKeys (bs "h")); EInv 2 (CHSet (bs "h") (bs "c") (bs "3")); ERet 2 (RInt (1, None)); EInv 2 (CHDel (bs "h") [bs "a"]); ERet 2 (RInt (1, None))]
     ++ [ERet 1 (RList ([bs "c"; bs "b"], None))])) by (vm_compute; reflexivity).
  destruct (oplay s (start two_fields)) as [[c evs]|] eqn:E1; [|discriminate]. injection E as ->. exists c. exact (oplay_sound _ _ _ _ _ _ (o_start two_fields) E1).
Qed.
