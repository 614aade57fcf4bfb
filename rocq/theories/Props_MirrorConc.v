(** * Props_MirrorConc: readers of the cache while it is kept up to date (C195, C196) *)
From stdpp Require Import gmap.
From Verif Require Import RespModel RespSpec RespLib RdbModel RdbSpec RdbLib Props_Rdb ReplModel Props_Repl FacadeModel Props_Facade.
From Verif Require Import Base GoFloat CacheModel CacheSpec CacheAbs CacheRefine CacheRefineH CacheMain CacheLib CacheConc ConcLin ConcDl Props_Conc Props_Conc2 Props_Conc3 MirrorConc.

(** ** One goroutine sets, the others get *)
(** the shortest beginning of [A] that shows [n] events *)
Fixpoint cut (n : nat) (A : list item) : list item :=
  match n, A with
  | S n', (IEv _ as x) :: r => x :: cut n' r
  | S _, x :: r => x :: cut n r
  | _, _ => []
  end.
Lemma cut_0 A : cut 0 A = [].
Proof. destruct A as [|[]]; reflexivity. Qed.
Lemma cut_prefix A : forall n, cut n A `prefix_of` A.
Proof.
  induction A as [|[e|i t c r] A IH]; intros [|n]; cbn [cut]; try apply prefix_nil; try reflexivity; apply prefix_cons, IH.
Qed.
Lemma cut_observed A : forall n, observed (cut n A) = take n (observed A).
Proof.
  induction A as [|[e|i t c r] A IH]; intros [|n]; cbn [cut]; try reflexivity; try (symmetry; apply take_nil).
  - unfold observed in *. cbn [omap list_omap take]. f_equal. apply IH.
  - unfold observed in *. cbn [omap list_omap]. apply IH.
Qed.
Lemma cut_mono A : forall n n', (n <= n')%nat -> cut n A `prefix_of` cut n' A.
Proof.
  induction A as [|[e|i t c r] A IH]; intros [|n] [|n'] H; cbn [cut]; try apply prefix_nil; try lia; try reflexivity; apply prefix_cons, IH; lia.
Qed.
Lemma cut_before A1 A2 : forall n, (n <= length (observed A1))%nat -> cut n (A1 ++ A2) `prefix_of` A1.
Proof.
  induction A1 as [|[e|i t c r] A1 IH]; intros [|n] H; cbn [cut app]; rewrite ?cut_0; try apply prefix_nil; try (cbn in H; lia); apply prefix_cons, IH; unfold observed in *; cbn in H; cbn; lia.
Qed.
Lemma cut_after A1 A2 : forall n, (length (observed A1) < n)%nat -> A1 `prefix_of` cut n (A1 ++ A2).
Proof.
  induction A1 as [|[e|i t c r] A1 IH]; intros [|n] H; cbn [cut app]; try apply prefix_nil; try lia; apply prefix_cons, IH; unfold observed in *; cbn in H; cbn; lia.
Qed.

Definition is_setting (c : call) : bool := match c with CSet _ _ => true | _ => false end.
(** goroutine 0 only sets, the others only get *)
Definition one_writer (evs : list event) : Prop :=
  forall i c, EInv i c ∈ evs -> match i with O => exists k v, c = CSet k v | S _ => exists k, c = CGet k end.
Definition ended (evs : list event) : nat := length (List.filter (fun e => match e with ERet O _ => true | _ => false end) evs).
Definition settings (A : list item) : list call := List.filter is_setting (map snd (lin_calls A)).

Lemma settings_app A B : settings (A ++ B) = settings A ++ settings B.
Proof. unfold settings, lin_calls. rewrite omap_app, map_app. apply List.filter_app. Qed.
Lemma settings_prefix A B : A `prefix_of` B -> settings A `prefix_of` settings B.
Proof. intros [k ->]. rewrite settings_app. apply prefix_app_r. reflexivity. Qed.
Lemma one_writer_app a b : one_writer (a ++ b) -> one_writer a.
Proof. intros H i c Hi. apply H, elem_of_app. auto. Qed.
Lemma ended_settings w0 A m clk last ws : lin_ok w0 A m clk last ws -> one_writer (observed A) ->
  length (settings A) = (ended (observed A) + match m !! 0%nat with Some (Decided _) => 1 | _ => 0 end)%nat /\
  forall i c t, m !! i = Some (Called c t) -> match i with O => exists k v, c = CSet k v | S _ => exists k, c = CGet k end.
Proof.
  induction 1 as [|A m clk last ws j c H IH Hm|A m clk last ws t H IH|A m clk last ws j c t0 t ws' r H IH Hm H1 H2 H3 Hr|A m clk last ws j r H IH Hm]; intros Hw.
  - split; [reflexivity|]. intros i c t E. rewrite lookup_empty in E. discriminate.
  - rewrite observed_ev in Hw. destruct (IH (one_writer_app _ _ Hw)) as [I1 I2]. rewrite settings_app, observed_ev, app_length, I1. unfold ended. rewrite List.filter_app, app_length. cbn. split.
    + destruct (decide (j = 0%nat)) as [->|Hn]; [rewrite lookup_insert, Hm; lia|rewrite lookup_insert_ne by exact Hn; lia].
    + intros i c' t. destruct (decide (i = j)) as [->|Hn]; [rewrite lookup_insert; intros [= <- _]; apply Hw, elem_of_app; right; left|rewrite lookup_insert_ne by congruence; apply I2].
  - rewrite observed_ev in Hw. destruct (IH (one_writer_app _ _ Hw)) as [I1 I2]. rewrite settings_app, observed_ev, app_length, I1. unfold ended. rewrite List.filter_app, app_length. cbn. split; [lia|exact I2].
  - rewrite observed_lin in Hw. destruct (IH Hw) as [I1 I2]. rewrite settings_app, observed_lin, app_length, I1. pose proof (I2 _ _ _ Hm) as Hc. split.
    + destruct j as [|j].
      * destruct Hc as (k & v & ->). rewrite lookup_insert, Hm. cbn. lia.
      * destruct Hc as (k & ->). rewrite lookup_insert_ne by congruence. cbn. lia.
    + intros i c' t'. destruct (decide (i = j)) as [->|Hn]; [rewrite lookup_insert; discriminate|rewrite lookup_insert_ne by congruence; apply I2].
  - rewrite observed_ev in Hw. destruct (IH (one_writer_app _ _ Hw)) as [I1 I2]. rewrite settings_app, observed_ev, app_length, I1. unfold ended. rewrite List.filter_app, app_length. split.
    + destruct j as [|j]; [rewrite lookup_delete, Hm; cbn; lia|rewrite lookup_delete_ne by congruence; cbn; lia].
    + intros i c' t'. destruct (decide (i = j)) as [->|Hn]; [rewrite lookup_delete; discriminate|rewrite lookup_delete_ne by congruence; apply I2].
Qed.
Lemma lin_mirror t0 A m clk last ws : lin_ok (new_world t0) A m clk last ws -> one_writer (observed A) -> mirror (settings A) ws.
Proof.
  induction 1 as [|A m clk last ws j c H IH Hm|A m clk last ws t H IH|A m clk last ws j c t1 t ws' r H IH Hm H1 H2 H3 Hr|A m clk last ws j r H IH Hm]; intros Hw;
    rewrite ?settings_app; rewrite ?observed_ev, ?observed_lin in Hw; cbn [settings lin_calls omap list_omap map List.filter]; rewrite ?app_nil_r; eauto using one_writer_app, mirror_new.
  specialize (IH Hw). destruct (ended_settings _ _ _ _ _ _ H Hw) as [_ Hc]. specialize (Hc _ _ _ Hm). destruct j as [|j].
  - destruct Hc as (k & v & ->). cbn. eapply mirror_set; eauto.
  - destruct Hc as (k & ->). cbn. rewrite app_nil_r. destruct (mirror_get _ _ t k IH) as (w' & E & Hw'). rewrite Hr in E. injection E as -> _. exact Hw'.
Qed.
Lemma settings_issued w0 A m clk last ws : lin_ok w0 A m clk last ws -> one_writer (observed A) ->
  settings A `prefix_of` List.filter is_setting (issued (observed A)).
Proof.
  intros H Hw. eapply (Props_Conc2.lin_order _ _ _ _ _ _ 0%nat); [exact H|]. intros j cl Hj Hf. specialize (Hw _ _ Hj). destruct j; [reflexivity|]. destruct Hw as [k ->]. discriminate.
Qed.
Lemma lin_at t0 A1 i t c r A2 m clk last ws : lin_ok (new_world t0) (A1 ++ ILin i t c r :: A2) m clk last ws ->
  exists m1 clk1 last1 ws1 ws2, lin_ok (new_world t0) A1 m1 clk1 last1 ws1 /\ run_call t c ws1 = Done ws2 r.
Proof.
  intros H. destruct (lin_prefix _ _ _ _ _ _ H (A1 ++ [ILin i t c r]) A2) as (m1 & clk1 & last1 & ws1 & H1); [rewrite <- app_assoc; reflexivity|].
  inversion H1 as [E|? ? ? ? ? ? ? ? ? E|? ? ? ? ? ? ? ? E|B ? ? ? ? ? ? ? ? ? ? HB ? ? ? ? Hr E|? ? ? ? ? ? ? ? ? E]; try (apply app_inj_tail in E as [_ ?]; discriminate).
  - destruct A1; discriminate.
  - apply app_inj_tail in E as [-> E]. injection E as -> -> -> ->. subst. eauto 10.
Qed.

(** every Get shows what the first [n] of the Set calls made, for an [n] between those that took effect when it was called and those that had when it returned *)
Lemma one_writer_reads t0 s c evs : cexec s (start (new_world t0)) = Some (c, evs) -> one_writer evs ->
  exists pt : nat -> nat, (forall a b, (a <= b)%nat -> (pt a <= pt b)%nat) /\
    (forall a, (ended (take a evs) <= pt a <= length (List.filter is_setting (issued (take a evs))))%nat) /\
    forall p i k q r rest, evs = p ++ EInv i (CGet k) :: q ++ ERet i r :: rest -> Forall (fun e => who e <> Some i) q ->
      exists n, (pt (length p) <= n <= pt (length (p ++ EInv i (CGet k) :: q ++ [ERet i r])))%nat /\
        r = RStr (reply_for (latest k (take n (List.filter is_setting (issued evs))))).
Proof.
  intros E Hw. destruct (C105_readers_and_writers_linearizable (new_world t0) s c evs) as (A & m & last & ws & HA & Ho & _); [apply ready_new|reflexivity| |exact E|].
  { intros i cl Hi. specialize (Hw i cl Hi). destruct i; [destruct Hw as (? & ? & ->)|destruct Hw as (? & ->)]; exact I. }
  exists (fun n => length (settings (cut n A))). split; [|split].
  - intros a b H. apply prefix_length, settings_prefix, cut_mono, H.
  - intros a. destruct (cut_prefix A a) as [B HB]. destruct (lin_prefix _ _ _ _ _ _ HA _ _ HB) as (m1 & clk1 & last1 & ws1 & H1).
    pose proof (cut_observed A a) as Hc. rewrite Ho in Hc. assert (Hw1 : one_writer (observed (cut a A))).
    { rewrite Hc. rewrite <- (take_drop a evs) in Hw. eapply one_writer_app, Hw. }
    destruct (ended_settings _ _ _ _ _ _ H1 Hw1) as [I1 _]. pose proof (prefix_length _ _ (settings_issued _ _ _ _ _ _ H1 Hw1)) as I2. rewrite Hc in I1, I2. lia.
  - intros p i k q r rest Ee Hq. rewrite Ee in Ho. destruct (lin_between _ _ _ _ _ _ _ _ _ _ _ HA _ Ho Hq) as (A1 & t & A2 & q1 & q2 & EA & _ & Ho1 & Eq).
    exists (length (settings A1)). split.
    + split; apply prefix_length, settings_prefix; rewrite EA.
      * apply cut_before. rewrite Ho1, app_length. lia.
      * apply cut_after. rewrite Ho1, Eq. repeat (rewrite ?app_length; cbn [length]). lia.
    + rewrite EA in HA. destruct (lin_at _ _ _ _ _ _ _ _ _ _ _ HA) as (m1 & clk1 & last1 & ws1 & ws2 & H1 & Hr). rewrite <- EA in HA.
      assert (Hw1 : one_writer (observed A1)). { rewrite EA, observed_app in Ho. rewrite Ee, <- Ho in Hw. eapply one_writer_app, Hw. }
      destruct (mirror_get _ _ t k (lin_mirror _ _ _ _ _ _ H1 Hw1)) as (w' & E' & _). rewrite Hr in E'. injection E' as _ ->. do 3 f_equal.
      assert (Hp : settings A1 `prefix_of` List.filter is_setting (issued evs)).
      { etransitivity; [|rewrite Ee, <- Ho; apply (settings_issued _ _ _ _ _ _ HA); rewrite Ho, <- Ee; exact Hw]. rewrite EA. apply settings_prefix, prefix_app_r. reflexivity. }
      destruct Hp as [z Hz]. rewrite Hz, take_app. reflexivity.
Qed.

(** ** The replication side *)
Definition xcs (evs : list xevent) : list event := omap (fun e => match e with XC e => Some e | XV _ => None end) evs.
Definition xvs (evs : list xevent) : list revent := omap (fun e => match e with XV e => Some e | XC _ => None end) evs.
Lemma xcs_app a b : xcs (a ++ b) = xcs a ++ xcs b. Proof. apply omap_app. Qed.
Lemma xvs_app a b : xvs (a ++ b) = xvs a ++ xvs b. Proof. apply omap_app. Qed.
Lemma xcs_xv e : xcs (map XV e) = []. Proof. induction e; [reflexivity|exact IHe]. Qed.
Lemma xvs_xv e : xvs (map XV e) = e. Proof. induction e; [reflexivity|cbn; f_equal; exact IHe]. Qed.
Lemma xcs_xc e : xcs (map XC e) = e. Proof. induction e; [reflexivity|cbn; f_equal; exact IHe]. Qed.
Lemma xvs_xc e : xvs (map XC e) = []. Proof. induction e; [reflexivity|exact IHe]. Qed.

Lemma mirror_set_ok l w t k v : mirror l w -> exists w' r, run_call t (CSet k v) w = Done w' (RStr (r, None)) /\ mirror (l ++ [CSet k v]) w'.
Proof.
  intros Hm. destruct Hm as [Hr Hv]. destruct (abs1 (CSet k v) t (view w k)) as [[v' r]|] eqn:Ea; [|discriminate Ea].
  destruct (run_single_ex (CSet k v) k t w v' r Hr eq_refl) as (w' & E & _); [exact Ea|].
  assert (exists r0, r = RStr (r0, None)) as [r0 ->]. { cbn [abs1] in Ea. injection Ea as _ <-. eauto. }
  exists w', r0. split; [exact E|]. eapply mirror_set; [split; [exact Hr|exact Hv]|exact E].
Qed.
Lemma set_calls_one sel m : set_calls sel [m] = match (if rm_db m =? sel then set_args (rm_msg m) else None) with Some (k, v) => [CSet k v] | None => [] end.
Proof.
  unfold set_calls. cbn [flat_map]. rewrite app_nil_r. destruct (rm_db m =? sel); [|reflexivity].
  destruct (rm_msg m) as [|s|s|s|z|[|c [|k [|v l]]]]; try reflexivity; cbn [command set_args map]; destruct (gostr_eqb _ _); reflexivity.
Qed.
Lemma handle_plain sel m r ev s s' e w : (if rm_db m =? sel then set_args (rm_msg m) else None) = None ->
  handle sel 0 (rm_db m) (Some (rm_msg m)) r ev s = Some (s', e) -> r_w s' = r_w s /\
  handle sel 0 (rm_db m) (Some (rm_msg m)) r ev (set_world w s) = Some (set_world w s', e).
Proof.
  intros Hn E. unfold handle in *. destruct (rm_db m =? sel); cbn [negb] in *; [|injection E as <- <-; auto].
  assert (Hh : (exists b : bool, forall w0, handle_message 0 (Some (rm_msg m)) w0 = if b then HOk w0 else HErr w0) \/ forall w0, handle_message 0 (Some (rm_msg m)) w0 = HPanic).
  { destruct (rm_msg m) as [|x|x|x|z|[|c l]]; try (left; exists false; reflexivity).
    unfold handle_message, set_args in *. destruct (gostr_eqb (go_lower (msg_string c)) (bs "set")).
    - destruct l as [|k [|v l]]; [right; reflexivity|right; reflexivity|discriminate Hn].
    - destruct (gostr_eqb _ (bs "rpush")); [destruct l; [left; exists false; reflexivity|right; reflexivity]|].
      destruct (gostr_eqb _ (bs "hmset")); [destruct l; [left; exists false; reflexivity|left; exists true; reflexivity]|left; exists false; reflexivity]. }
  destruct Hh as [[b Hb]|Hb]; rewrite Hb in E |- *; [destruct b|]; injection E as <- <-; auto.
Qed.
Lemma rstep_world sel a s s' e w : (forall t, a <> AMsg t) -> rstep sel a s = Some (s', e) -> took e = [] /\ rstep sel a (set_world w s) = Some (set_world w s', e).
Proof.
  intros Ha E. unfold rstep in *. destruct s as [td ou ne wa ne2 ac ch cl er h dd w1]. cbn [r_dead set_world] in *. destruct dd; [discriminate|].
  destruct a; [|destruct (Ha t); reflexivity| | | | |]; unfold room in *; cbn -[recv skipped] in *;
  repeat match goal with
  | H : context [match ?x with _ => _ end] |- _ => lazymatch x with context [match _ with _ => _ end] => fail | _ => destruct x; try discriminate end
  end; injection E as <- <-; auto.
Qed.

(** what is true of every state that can be reached *)
Lemma lin_set_reply t0 A m clk last ws : lin_ok (new_world t0) A m clk last ws -> one_writer (observed A) ->
  (forall r, m !! 0%nat = Some (Decided r) -> exists v, r = RStr (v, None)) /\ (forall r, ERet 0 r ∈ observed A -> exists v, r = RStr (v, None)).
Proof.
  induction 1 as [|A m clk last ws j c H IH Hm|A m clk last ws t H IH|A m clk last ws j c t1 t ws' r H IH Hm H1 H2 H3 Hr|A m clk last ws j r H IH Hm]; intros Hw.
  - split; [intros r E; rewrite lookup_empty in E; discriminate|intros r E; apply elem_of_nil in E; destruct E].
  - rewrite observed_ev in *. destruct (IH (one_writer_app _ _ Hw)) as [I1 I2]. split.
    + intros r. destruct j; [rewrite lookup_insert; discriminate|rewrite lookup_insert_ne by congruence; apply I1].
    + intros r [Hi|Hi]%elem_of_app; [auto|]. apply elem_of_list_singleton in Hi. discriminate.
  - rewrite observed_ev in *. destruct (IH (one_writer_app _ _ Hw)) as [I1 I2]. split; [exact I1|].
    intros r [Hi|Hi]%elem_of_app; [auto|]. apply elem_of_list_singleton in Hi. discriminate.
  - rewrite observed_lin in *. destruct (IH Hw) as [I1 I2]. split; [|exact I2]. intros r'. destruct j as [|j]; [|rewrite lookup_insert_ne by congruence; apply I1].
    rewrite lookup_insert. intros [= <-]. destruct (ended_settings _ _ _ _ _ _ H Hw) as [_ Hc]. destruct (Hc _ _ _ Hm) as (k & v & ->).
    destruct (mirror_set_ok _ _ t k v (lin_mirror _ _ _ _ _ _ H Hw)) as (w' & r0 & E & _). rewrite Hr in E. injection E as _ ->. eauto.
  - rewrite observed_ev in *. destruct (IH (one_writer_app _ _ Hw)) as [I1 I2]. split.
    + intros r'. destruct j; [rewrite lookup_delete; discriminate|rewrite lookup_delete_ne by congruence; apply I1].
    + intros r' [Hi|Hi]%elem_of_app; [auto|]. apply elem_of_list_singleton in Hi. injection Hi as <- <-. auto.
Qed.
Lemma one_writer_lin t0 s c evs : cexec s (start (new_world t0)) = Some (c, evs) -> one_writer evs ->
  exists A m last ws, lin_ok (new_world t0) A m (w_now (c_w c)) last ws /\ observed A = evs /\ (c_th c = ∅ -> m = ∅ /\ same_cache (c_w c) ws).
Proof.
  intros E Hw. destruct (C105_readers_and_writers_linearizable (new_world t0) s c evs) as (A & m & last & ws & HA & Ho & _ & Hq); [apply ready_new|reflexivity| |exact E|eauto 10].
  intros i cl Hi. specialize (Hw i cl Hi). destruct i; [destruct Hw as (? & ? & ->)|destruct Hw as (? & ->)]; exact I.
Qed.
Lemma one_writer_no_crash t0 s c evs i : cexec s (start (new_world t0)) = Some (c, evs) -> one_writer evs -> ~ crashing c i.
Proof.
  intros E Hw. eapply C104_concurrent_calls_never_crash; [apply (ready_new t0)| |exact E].
  intros j cl Hi. specialize (Hw j cl Hi). destruct j; [destruct Hw as (? & ? & ->)|destruct Hw as (? & ->)]; exact I.
Qed.

Record minv (sel : Z) (t0 : Z) (s0 : rs) (x : mc) (evs : list xevent) : Prop := {
  mi_sched : exists sch, cexec sch (start (new_world t0)) = Some (mc_c x, xcs evs);
  mi_one : one_writer (xcs evs);
  mi_sets : List.filter is_setting (issued (xcs evs)) = set_calls sel (took (xvs evs));
  mi_repl : exists acts w, rexec sel acts s0 = Some (set_world w (mc_r x), xvs evs) /\ mirror (set_calls sel (took (xvs evs))) w;
  mi_h : idle x = false -> r_h (mc_r x) = HLoop }.
Lemma cexec_one s c0 c evs a c' e : cexec s c0 = Some (c, evs) -> cstep a c = Some (c', e) -> cexec (s ++ [a]) c0 = Some (c', evs ++ e).
Proof. intros E Es. rewrite cexec_app, E. cbn [cexec]. rewrite Es, app_nil_r. reflexivity. Qed.
Lemma rexec_one sel l s s1 e a s2 e' : rexec sel l s = Some (s1, e) -> rstep sel a s1 = Some (s2, e') -> rexec sel (l ++ [a]) s = Some (s2, e ++ e').
Proof. intros E Es. rewrite rexec_app, E. cbn [rexec]. rewrite Es, app_nil_r. reflexivity. Qed.
Lemma set_world_twice w w' s : set_world w (set_world w' s) = set_world w s.
Proof. reflexivity. Qed.

(** a step on the cache alone *)
Lemma minv_cache sel t0 s0 x evs a c e : minv sel t0 s0 x evs -> cstep a (mc_c x) = Some (c, e) -> one_writer e -> List.filter is_setting (issued e) = [] ->
  (c_th c !! 0%nat = None \/ idle x = false) -> minv sel t0 s0 (MC (mc_r x) c) (evs ++ map XC e).
Proof.
  intros [[sch H1] H2 H3 H4 H5] E Hw Hi H0. split; rewrite ?xcs_app, ?xvs_app, ?xcs_xc, ?xvs_xc, ?app_nil_r.
  - exists (sch ++ [a]). exact (cexec_one _ _ _ _ _ _ _ H1 E).
  - intros i cl [Hx|Hx]%elem_of_app; [apply H2, Hx|apply Hw, Hx].
  - unfold issued in *. rewrite omap_app, List.filter_app, H3, Hi. apply app_nil_r.
  - exact H4.
  - destruct H0 as [H0|H0]; [unfold idle; cbn [mc_c]; rewrite H0; discriminate|intros _; apply H5, H0].
Qed.
(** a step on the replication side alone *)
Lemma minv_repl sel t0 s0 x evs a s e : minv sel t0 s0 x evs -> (forall w, rstep sel a (set_world w (mc_r x)) = Some (set_world w s, e)) ->
  set_calls sel (took e) = [] -> (idle x = false -> r_h s = HLoop) -> minv sel t0 s0 (MC s (mc_c x)) (evs ++ map XV e).
Proof.
  intros [[sch H1] H2 H3 H4 H5] E Ht Hh. split; rewrite ?xcs_app, ?xvs_app, ?xcs_xv, ?xvs_xv, ?app_nil_r, ?took_app, ?set_calls_app, ?Ht, ?app_nil_r; auto.
  - exists sch. exact H1.
  - destruct H4 as (acts & w & Hr & Hm). exists (acts ++ [a]), w. split; [|exact Hm]. eapply rexec_one; eauto.
Qed.
Lemma rstep_h sel a s s' e : (forall t, a <> AMsg t) -> rstep sel a s = Some (s', e) -> r_h s = HLoop -> r_h s' = HLoop.
Proof.
  intros Ha E. unfold rstep in *. destruct s as [td ou ne wa ne2 ac ch cl er h dd w1]. cbn [r_dead] in *. destruct dd; [discriminate|].
  destruct a; [|destruct (Ha t); reflexivity| | | | |]; unfold room in *; cbn -[recv skipped] in *;
  repeat match goal with
  | H : context [match ?x with _ => _ end] |- _ => lazymatch x with context [match _ with _ => _ end] => fail | _ => destruct x; try discriminate end
  end; injection E as <- <-; auto.
Qed.
Lemma minv_step sel t0 s0 x evs a x' e : minv sel t0 s0 x evs -> xstep sel a x = Some (x', e) -> minv sel t0 s0 x' (evs ++ e).
Proof.
  intros HI E. unfold xstep in E. destruct (r_dead (mc_r x)) eqn:Hd; [discriminate|].
  assert (Hplain : forall a, (forall t, a <> AMsg t) -> on_repl (rstep sel a (mc_r x)) x = Some (x', e) -> minv sel t0 s0 x' (evs ++ e)).
  { intros a0 Ha E0. unfold on_repl in E0. destruct (rstep sel a0 (mc_r x)) as [[s ev]|] eqn:Er; [|discriminate]. injection E0 as <- <-.
    apply (minv_repl sel t0 s0 x evs a0); [exact HI| | |].
    - intros w. apply (rstep_world _ _ _ _ _ w Ha Er).
    - destruct (rstep_world _ _ _ _ _ (new_world 0) Ha Er) as [-> _]. reflexivity.
    - intros Hi. eapply rstep_h; eauto. apply (mi_h _ _ _ _ _ HI Hi). }
  destruct a as [a| |i k|i|i|t].
  - destruct a; try (refine (Hplain _ _ E); intros; discriminate); [discriminate|]. destruct (idle x); [|discriminate]. refine (Hplain _ _ E). intros. discriminate.
  - destruct (idle x) eqn:Hid; [|discriminate]. destruct (r_h (mc_r x)) eqn:Hh; [|discriminate]. destruct (r_chan (mc_r x)) as [|m r] eqn:Hc.
    + destruct (r_closed (mc_r x)) eqn:Hcl; [|discriminate]. unfold on_repl in E. destruct (handle sel 0 0 None [] VZero (mc_r x)) as [[s ev]|] eqn:EH; [|discriminate]. injection E as <- <-.
      apply (minv_repl sel t0 s0 x evs (AMsg 0)); [exact HI| | |rewrite Hid; discriminate].
      * intros w. unfold rstep. cbn [r_dead set_world r_h r_chan r_closed]. rewrite Hd, Hh, Hc, Hcl. unfold handle in *. destruct (negb (0 =? sel)); cbn in *; injection EH as <- <-; reflexivity.
      * unfold handle in EH. destruct (negb (0 =? sel)); cbn in *; injection EH as <- <-; reflexivity.
    + destruct (if rm_db m =? sel then set_args (rm_msg m) else None) as [[k v]|] eqn:Hs.
      * destruct (cstep (AInv 0 (CSet k v)) (mc_c x)) as [[c ev]|] eqn:Es; [|discriminate]. injection E as <- <-.
        assert (ev = [EInv 0%nat (CSet k v)]) as ->. { cbn in Es. destruct (c_th (mc_c x) !! 0%nat); [discriminate|]. injection Es as _ <-. reflexivity. }
        destruct HI as [[sch H1] H2 H3 (acts & w & Hr & Hm) H5]. cbn [map]. split; rewrite ?xcs_app, ?xvs_app; cbn [xcs xvs omap list_omap]; rewrite ?took_app, ?set_calls_app.
        -- exists (sch ++ [AInv 0 (CSet k v)]). exact (cexec_one _ _ _ _ _ _ _ H1 Es).
        -- intros i cl [Hx|Hx]%elem_of_app; [apply H2, Hx|]. apply elem_of_list_singleton in Hx. injection Hx as -> ->. eauto.
        -- unfold issued in *. rewrite omap_app, List.filter_app, H3. cbn [took flat_map app]. rewrite set_calls_one, Hs. reflexivity.
        -- cbn [took flat_map app]. rewrite set_calls_one, Hs. destruct (mirror_set_ok _ _ 0 k v Hm) as (w' & r0 & Er & Hm'). exists (acts ++ [AMsg 0]), w'. split; [|exact Hm'].
           eapply rexec_one; [exact Hr|]. unfold rstep. cbn [r_dead set_world r_h r_chan r_w]. rewrite Hd, Hh, Hc. unfold handle. cbn [r_w set_world].
           destruct (rm_db m =? sel) eqn:Edb; [|discriminate Hs]. cbn [negb].
           assert (EHM : handle_message 0 (Some (rm_msg m)) w = HOk w').
           { unfold set_args in Hs. unfold handle_message. destruct (rm_msg m) as [| | | | |[|c0 [|k0 [|v0 l0]]]]; try discriminate Hs. destruct (gostr_eqb _ (bs "set")); [|discriminate Hs]. injection Hs as -> ->. rewrite Er. reflexivity. }
           rewrite EHM. reflexivity.
        -- reflexivity.
      * unfold on_repl in E. destruct (handle sel 0 (rm_db m) (Some (rm_msg m)) r (VTook m) (mc_r x)) as [[s ev]|] eqn:EH; [|discriminate]. injection E as <- <-.
        apply (minv_repl sel t0 s0 x evs (AMsg 0)); [exact HI| | |rewrite Hid; discriminate].
        -- intros w. unfold rstep. cbn [r_dead set_world r_h r_chan r_closed]. rewrite Hd, Hh, Hc. apply (handle_plain _ _ _ _ _ _ _ w Hs EH).
        -- assert (Hev : took ev = [m] \/ took ev = []). { unfold handle in EH. destruct (negb _); [injection EH as <- <-; auto|]. destruct (handle_message _ _ _); try discriminate; injection EH as <- <-; auto. }
           destruct Hev as [->| ->]; [|reflexivity]. rewrite set_calls_one, Hs. reflexivity.
  - destruct (returned (mc_r x)); [|discriminate]. destruct i as [|i]; [discriminate|]. unfold on_cache in E. destruct (cstep (AInv (S i) (CGet k)) (mc_c x)) as [[c ev]|] eqn:Es; [|discriminate]. injection E as <- <-.
    pose proof Es as Es'. cbn in Es'. destruct (c_th (mc_c x) !! S i); [discriminate|]. injection Es' as <- <-. eapply minv_cache; [exact HI|exact Es| |reflexivity|].
    + intros j cl Hj. apply elem_of_list_singleton in Hj. injection Hj as -> ->. eauto.
    + cbn [c_th]. rewrite lookup_insert_ne by congruence. unfold idle. destruct (c_th (mc_c x) !! 0%nat); auto.
  - destruct (c_th (mc_c x) !! i) as [[|f]|] eqn:Ei; try discriminate. destruct (f (c_w (mc_c x))) as [w' p'| |] eqn:Ef.
    + unfold on_cache in E. destruct (cstep (ARun i) (mc_c x)) as [[c ev]|] eqn:Es; [|discriminate]. injection E as <- <-. pose proof Es as Es'. cbn in Es'. rewrite Ei, Ef in Es'. injection Es' as <- <-.
      eapply minv_cache; [exact HI|exact Es| |reflexivity|].
      * intros j cl Hj. apply elem_of_nil in Hj. destruct Hj.
      * cbn [c_th]. unfold idle. destruct (decide (i = 0%nat)) as [->|Hn]; [rewrite Ei; auto|]. rewrite lookup_insert_ne by exact Hn. destruct (c_th (mc_c x) !! 0%nat); auto.
    + unfold on_cache in E. cbn in E. rewrite Ei, Ef in E. discriminate.
    + exfalso. destruct HI as [[sch H1] H2 _ _ _]. apply (one_writer_no_crash _ _ _ _ i H1 H2). unfold crashing. rewrite Ei. exact Ef.
  - destruct (cstep (ARet i) (mc_c x)) as [[c ev]|] eqn:Es; [|discriminate]. pose proof Es as Es'. cbn in Es'. destruct (c_th (mc_c x) !! i) as [[r|]|] eqn:Ei; try discriminate. injection Es' as Ec Eev.
    assert (Hc : one_writer ev) by (rewrite <- Eev; intros j cl Hj; apply elem_of_list_singleton in Hj; discriminate).
    assert (HI' : minv sel t0 s0 (MC (mc_r x) c) (evs ++ map XC ev)).
    { eapply minv_cache; [exact HI|exact Es|exact Hc|rewrite <- Eev; reflexivity|]. rewrite <- Ec. cbn [c_th]. destruct (decide (i = 0%nat)) as [->|Hn]; [left; apply lookup_delete|].
      rewrite lookup_delete_ne by exact Hn. unfold idle. destruct (c_th (mc_c x) !! 0%nat); auto. }
    destruct i as [|i]; [|injection E as <- <-; exact HI'].
    assert (exists v, r = RStr (v, None)) as [v ->].
    { destruct (mi_sched _ _ _ _ _ HI') as [sch H1]. pose proof (mi_one _ _ _ _ _ HI') as H2. destruct (one_writer_lin _ _ _ _ H1 H2) as (A & m & last & ws & HA & Ho & _).
      rewrite <- Ho in H2. apply (lin_set_reply _ _ _ _ _ _ HA H2). rewrite Ho, xcs_app, xcs_xc, <- Eev. apply elem_of_app. right. left. }
    rewrite <- Eev in E, HI'. injection E as <- <-. exact HI'.
  - unfold on_cache in E. destruct (cstep (ATick t) (mc_c x)) as [[c ev]|] eqn:Es; [|discriminate]. injection E as <- <-. pose proof Es as Es'. cbn in Es'. destruct (w_now _ <=? t); [|discriminate]. injection Es' as <- <-.
    eapply minv_cache; [exact HI|exact Es| |reflexivity|].
    + intros j cl Hj. apply elem_of_list_singleton in Hj. discriminate.
    + cbn [c_th]. unfold idle. destruct (c_th (mc_c x) !! 0%nat); auto.
Qed.
Lemma minv_exec sel t0 s0 acts : forall x evs0 x' evs, minv sel t0 s0 x evs0 -> xexec sel acts x = Some (x', evs) -> minv sel t0 s0 x' (evs0 ++ evs).
Proof.
  induction acts as [|a acts IH]; intros x evs0 x' evs HI E; cbn [xexec] in E; [injection E as <- <-; rewrite app_nil_r; exact HI|].
  destruct (xstep sel a x) as [[x1 e]|] eqn:Es; [|discriminate]. destruct (xexec sel acts x1) as [[x2 e']|] eqn:Ee; [|discriminate]. injection E as <- <-.
  rewrite app_assoc. eapply IH; [|exact Ee]. eapply minv_step; eauto.
Qed.
Lemma minv_new sel range t0 file net : minv sel t0 (started range (new_world t0) file net) (mc_new range (new_world t0) file net) [].
Proof.
  split; cbn [xcs xvs omap list_omap mc_new mc_c mc_r].
  - exists []. reflexivity.
  - intros i c Hi. apply elem_of_nil in Hi. destruct Hi.
  - reflexivity.
  - exists [], (new_world t0). split; [|apply mirror_new]. cbn [rexec]. unfold started. destruct (load range 0 [file]) as [[? ?] ?]. reflexivity.
  - unfold idle. cbn. rewrite lookup_empty. discriminate.
Qed.

(** the handler has taken every command that it is carrying out *)
Definition begun_ok (sel : Z) (evs : list xevent) : Prop :=
  forall p q, evs = p ++ q -> (length (List.filter is_setting (issued (xcs p))) <= length (set_calls sel (took (xvs p))))%nat.
Lemma begun_app sel a b : begun_ok sel a -> begun_ok sel b -> begun_ok sel (a ++ b).
Proof.
  intros Ha Hb p q E. apply app_eq_app in E as (k & [[-> ->]|[-> E]]); [apply (Ha p k eq_refl)|].
  pose proof (Ha a [] ltac:(rewrite app_nil_r; reflexivity)). pose proof (Hb _ _ E).
  rewrite xcs_app, xvs_app, took_app, set_calls_app. unfold issued in *. rewrite omap_app, List.filter_app, !app_length. lia.
Qed.
Lemma begun_plain sel e : (forall c i, XC (EInv i c) ∈ e -> is_setting c = false) -> begun_ok sel e.
Proof.
  intros H p q ->. replace (List.filter is_setting (issued (xcs p))) with (@nil call); [cbn; lia|]. symmetry.
  assert (Hp : forall c i, XC (EInv i c) ∈ p -> is_setting c = false) by (intros c i Hi; apply (H c i), elem_of_app; auto). clear H.
  induction p as [|[e|e] p IH]; [reflexivity|apply IH; intros c i Hi; apply (Hp c i); right; exact Hi|].
  specialize (IH (fun c i Hi => Hp c i ltac:(right; exact Hi))). unfold xcs, issued in *. cbn [omap list_omap]. destruct e as [i c|i r|t]; cbn [omap list_omap List.filter]; try exact IH.
  rewrite (Hp c i) by left. exact IH.
Qed.
Lemma begun_step sel a x x' e : xstep sel a x = Some (x', e) -> begun_ok sel e.
Proof.
  intros E. unfold xstep in E. destruct (r_dead (mc_r x)); [discriminate|].
  assert (Hr : forall o, on_repl o x = Some (x', e) -> begun_ok sel e).
  { intros [[s ev]|] E0; [|discriminate]. injection E0 as _ <-. apply begun_plain. intros c i Hi. apply elem_of_list_fmap in Hi as (y & Hy & _). discriminate. }
  assert (Hc : forall a c ev, cstep a (mc_c x) = Some (c, ev) -> (forall i c, a = AInv i c -> is_setting c = false) -> forall l, begun_ok sel (map XC ev ++ map XV l)).
  { intros a0 c0 ev Es Ha l. apply begun_plain. intros c i [Hi|Hi]%elem_of_app; [|apply elem_of_list_fmap in Hi as (y & Hy & _); discriminate].
    apply elem_of_list_fmap in Hi as (y & Hy & Hi). injection Hy as <-. destruct a0 as [j cl|j|j|t]; cbn in Es.
    - destruct (c_th _ !! j); [discriminate|]. injection Es as _ <-. apply elem_of_list_singleton in Hi. injection Hi as -> ->. eapply Ha. reflexivity.
    - destruct (c_th _ !! j) as [[|f]|]; try discriminate. destruct (f _); try discriminate. injection Es as _ <-. apply elem_of_nil in Hi. destruct Hi.
    - destruct (c_th _ !! j) as [[|f]|]; try discriminate. injection Es as _ <-. apply elem_of_list_singleton in Hi. discriminate.
    - destruct (_ <=? _); [|discriminate]. injection Es as _ <-. apply elem_of_list_singleton in Hi. discriminate. }
  assert (Hc' : forall a, on_cache (cstep a (mc_c x)) x = Some (x', e) -> (forall i c, a = AInv i c -> is_setting c = false) -> begun_ok sel e).
  { intros a0 E0 Ha. unfold on_cache in E0. destruct (cstep a0 (mc_c x)) as [[c ev]|] eqn:Es; [|discriminate]. injection E0 as _ <-. rewrite <- (app_nil_r (map XC ev)). exact (Hc _ _ _ Es Ha []). }
  destruct a as [a| |i k|i|i|t].
  - destruct a; try exact (Hr _ E); [discriminate|]. destruct (idle x); [exact (Hr _ E)|discriminate].
  - destruct (idle x); [|discriminate]. destruct (r_h (mc_r x)); [|discriminate]. destruct (r_chan (mc_r x)) as [|m r]; [destruct (r_closed _); [exact (Hr _ E)|discriminate]|].
    destruct (if rm_db m =? sel then set_args (rm_msg m) else None) as [[k v]|] eqn:Hs; [|exact (Hr _ E)].
    destruct (cstep _ (mc_c x)) as [[c ev]|] eqn:Es; [|discriminate]. injection E as _ <-. cbn in Es. destruct (c_th _ !! 0%nat); [discriminate|]. injection Es as _ <-.
    intros [|y p] q Ep; [cbn; lia|]. injection Ep as <- Ep. assert (Hl : (length (List.filter is_setting (issued (xcs p))) <= 1)%nat /\ took (xvs p) = []).
    { destruct p as [|y p]; [cbn; auto|]. injection Ep as <- Ep. destruct p; [cbn; auto|discriminate]. }
    destruct Hl as [Hl Ht]. cbn [xcs xvs omap list_omap]. fold (xcs p) (xvs p). cbn [took flat_map]. fold (took (xvs p)). rewrite Ht. cbn [app]. rewrite set_calls_one, Hs. cbn [length]. lia.
  - destruct (returned _); [|discriminate]. destruct i; [discriminate|]. eapply Hc'; [exact E|]. intros j c Ej. injection Ej as _ <-. reflexivity.
  - destruct (c_th _ !! i) as [[|f]|]; try discriminate. destruct (f _); [eapply Hc'; [exact E|discriminate]|eapply Hc'; [exact E|discriminate]|exact (Hr _ E)].
  - destruct (cstep (ARet i) (mc_c x)) as [[c ev]|] eqn:Es; [|discriminate].
    destruct (match i with O => _ | S _ => _ end); injection E as _ <-; [apply (Hc _ _ _ Es ltac:(discriminate) [VFail])|]. rewrite <- (app_nil_r (map XC ev)). apply (Hc _ _ _ Es ltac:(discriminate) []).
  - eapply Hc'; [exact E|discriminate].
Qed.
Lemma begun_exec sel acts x x' evs : xexec sel acts x = Some (x', evs) -> begun_ok sel evs.
Proof.
  revert x evs. induction acts as [|a acts IH]; intros x evs E; cbn [xexec] in E.
  - injection E as _ <-. intros p q Ep. symmetry in Ep. apply app_eq_nil in Ep as [-> _]. cbn. lia.
  - destruct (xstep sel a x) as [[x1 e]|] eqn:Es; [|discriminate]. destruct (xexec sel acts x1) as [[x2 e']|] eqn:Ee; [|discriminate]. injection E as -> <-.
    apply begun_app; [eapply begun_step; eauto|eapply IH; eauto].
Qed.

(** ** C195: readers of the mirror
    The handler calls Set on the cache while any number of goroutines call Get, and their operations on the cache interleave in any
    way. [point p]: how many of the set commands the handler has taken have reached the cache when the events [p] have happened;
    those whose handling has ended have, and those it has not taken have not. Every Get returns the value that the last of the first [n] set
    commands for its key gave it, for an [n] between the point when it is called and the point when it returns. In
    particular, a Get that is called after another one has returned shows the same or a later state of the master, for whatever keys. *)
Definition apart (i : nat) (e : xevent) : Prop := match e with XC e => who e <> Some i | XV _ => True end.
Theorem C195_readers_follow_stream range sel t0 file net acts x evs :
  xexec sel acts (mc_new range (new_world t0) file net) = Some (x, evs) ->
  exists point : list xevent -> nat, (forall p q, (point p <= point (p ++ q))%nat) /\
    (forall p q, evs = p ++ q -> (ended (xcs p) <= point p <= length (set_calls sel (took (xvs p))))%nat) /\
    forall p i k q r rest, evs = p ++ XC (EInv i (CGet k)) :: q ++ XC (ERet i r) :: rest -> Forall (apart i) q ->
      exists n, (point p <= n <= point (p ++ XC (EInv i (CGet k)) :: q ++ [XC (ERet i r)]))%nat /\
        r = RStr (match latest k (take n (set_calls sel (took (xvs evs)))) with Some v => (text v, None) | None => ([], Some ErrKeyNil) end).
Proof.
  intros E. pose proof (minv_exec _ _ _ _ _ _ _ _ (minv_new sel range t0 file net) E) as HI. cbn [app] in HI. 
  destruct (mi_sched _ _ _ _ _ HI) as [sch H1]. destruct (one_writer_reads _ _ _ _ H1 (mi_one _ _ _ _ _ HI)) as (pt & P1 & P2 & P3).
  exists (fun p => pt (length (xcs p))). split; [|split].
  - intros p q. apply P1. rewrite xcs_app, app_length. lia.
  - intros p q Ee. specialize (P2 (length (xcs p))). rewrite Ee, xcs_app, take_app in P2. pose proof (begun_exec _ _ _ _ _ E p q Ee). lia.
  - intros p i k q r rest Ee Hq. rewrite <- (mi_sets _ _ _ _ _ HI).
    destruct (P3 (xcs p) i k (xcs q) r (xcs rest)) as (n & Hn & Hr).
    + rewrite Ee, xcs_app. cbn [xcs omap list_omap]. do 2 f_equal. fold (xcs (q ++ XC (ERet i r) :: rest)). rewrite xcs_app. reflexivity.
    + clear -Hq. induction Hq as [|[e|e] q He Hq IH]; [constructor|exact IH|constructor; [exact He|exact IH]].
    + exists n. split; [|exact Hr]. rewrite xcs_app. cbn [xcs omap list_omap]. fold (xcs (q ++ [XC (ERet i r)])). rewrite xcs_app. exact Hn.
Qed.
(** A Get that starts after another one has returned does not show an older state. *)
Corollary C195_no_reader_goes_back range sel t0 file net acts x evs p i k q r p2 j k2 q2 r2 rest :
  xexec sel acts (mc_new range (new_world t0) file net) = Some (x, evs) ->
  evs = p ++ XC (EInv i (CGet k)) :: q ++ XC (ERet i r) :: p2 ++ XC (EInv j (CGet k2)) :: q2 ++ XC (ERet j r2) :: rest ->
  Forall (apart i) q -> Forall (apart j) q2 ->
  let state n key := RStr (match latest key (take n (set_calls sel (took (xvs evs)))) with Some v => (text v, None) | None => ([], Some ErrKeyNil) end) in
  exists n n2, (n <= n2)%nat /\ r = state n k /\ r2 = state n2 k2.
Proof.
  intros E Ee Hq Hq2 state. destruct (C195_readers_follow_stream _ _ _ _ _ _ _ _ E) as (point & P1 & _ & P3).
  destruct (P3 _ _ _ _ _ _ Ee Hq) as (n & [_ Hn] & Hr). set (a := p ++ XC (EInv i (CGet k)) :: q ++ [XC (ERet i r)]) in *.
  assert (Ee2 : evs = (a ++ p2) ++ XC (EInv j (CGet k2)) :: q2 ++ XC (ERet j r2) :: rest) by (rewrite Ee; unfold a; repeat (rewrite <- app_assoc; cbn [app]); reflexivity).
  destruct (P3 _ _ _ _ _ _ Ee2 Hq2) as (n2 & [Hn2 _] & Hr2). exists n, n2. split; [|auto]. specialize (P1 a p2). lia.
Qed.

(** ** C196: readers do not disturb the replication
    The messages are received and handled in the same order, errors are reported and the process ends in the same way as without readers
    (so that C97-C101 and C111-C117 hold here too); when nobody is inside a call, the cache answers with all the commands taken. *)
Theorem C196_same_replication range sel t0 file net acts x evs : xexec sel acts (mc_new range (new_world t0) file net) = Some (x, evs) ->
  exists acts' s, rexec sel acts' (started range (new_world t0) file net) = Some (s, xvs evs) /\ set_world (r_w s) (mc_r x) = s.
Proof.
  intros E. pose proof (minv_exec _ _ _ _ _ _ _ _ (minv_new sel range t0 file net) E) as HI. cbn [app] in HI.
  destruct (mi_repl _ _ _ _ _ HI) as (acts' & w & Hr & _). exists acts', (set_world w (mc_r x)). split; [exact Hr|reflexivity].
Qed.
Corollary C196_in_order range sel t0 file net acts x evs : xexec sel acts (mc_new range (new_world t0) file net) = Some (x, evs) ->
  exists n live, recv_n n net = ROk live (r_net (mc_r x)) /\
    fst (fst (load range 0 [file])) ++ map (RMsg 0) (filter (fun m => skipped m = false) live) = took (xvs evs) ++ under_way (mc_r x).
Proof.
  intros E. destruct (C196_same_replication _ _ _ _ _ _ _ _ E) as (acts' & s & Hr & Hs). destruct (C97_in_order_partial _ _ _ _ _ _ _ _ Hr) as (n & live & _ & _ & Hn & Hl & _).
  exists n, live. rewrite <- Hs in Hn, Hl. auto.
Qed.
Theorem C196_at_rest range sel t0 file net acts x evs t k : xexec sel acts (mc_new range (new_world t0) file net) = Some (x, evs) -> c_th (mc_c x) = ∅ ->
  answer t (CGet k) (c_w (mc_c x)) = Some (RStr (match latest k (set_calls sel (took (xvs evs))) with Some v => (text v, None) | None => ([], Some ErrKeyNil) end)).
Proof.
  intros E Hth. pose proof (minv_exec _ _ _ _ _ _ _ _ (minv_new sel range t0 file net) E) as HI. cbn [app] in HI.
  destruct (mi_sched _ _ _ _ _ HI) as [sch H1]. pose proof (mi_one _ _ _ _ _ HI) as H2. destruct (one_writer_lin _ _ _ _ H1 H2) as (A & m & last & ws & HA & Ho & Hq). destruct (Hq Hth) as [-> Hs].
  rewrite <- Ho in H2. pose proof (lin_mirror _ _ _ _ _ _ HA H2) as Hm. pose proof (lin_ok_calls _ _ _ _ _ _ HA) as Hp. unfold pending in Hp. rewrite map_to_list_empty in Hp. cbn in Hp. rewrite app_nil_r in Hp.
  assert (Hset : settings A = set_calls sel (took (xvs evs))).
  { rewrite <- (mi_sets _ _ _ _ _ HI), <- Ho. destruct (settings_issued _ _ _ _ _ _ HA H2) as [z Hz]. rewrite Hz.
    assert (Hl : length (settings A) = length (List.filter is_setting (issued (observed A)))).
    { unfold settings. apply Permutation_length. clear -Hp. induction Hp; cbn [List.filter]; repeat case_match; eauto using perm_skip, perm_swap, perm_trans. }
    rewrite Hz, app_length in Hl. destruct z; [rewrite app_nil_r; reflexivity|cbn in Hl; lia]. }
  rewrite Hset in Hm. destruct (mirror_get _ _ t k Hm) as (w' & Er & _). unfold answer, run_call in *.
  replace (set_now (c_w (mc_c x)) t) with (set_now ws t); [rewrite Er; reflexivity|]. unfold same_cache in Hs.
  change (set_now (set_now ws 0) t = set_now (set_now (c_w (mc_c x)) 0) t). rewrite Hs. reflexivity.
Qed.
(** Whatever the replication does, everybody who is inside a call on the cache can return, with no step of anybody else. *)
Theorem C196_calls_return range sel t0 file net acts x evs : xexec sel acts (mc_new range (new_world t0) file net) = Some (x, evs) -> r_dead (mc_r x) = false ->
  exists acts' x' evs', Forall (fun a => match a with XRun _ | XRet _ => True | _ => False end) acts' /\ xexec sel acts' x = Some (x', evs') /\
    c_th (mc_c x') = ∅ /\ mc_r x' = mc_r x.
Proof.
  intros E Hd. pose proof (minv_exec _ _ _ _ _ _ _ _ (minv_new sel range t0 file net) E) as HI. cbn [app] in HI.
  destruct (mi_sched _ _ _ _ _ HI) as [sch H1]. destruct (C149_every_call_returns (new_world t0) sch (mc_c x) (xcs evs)) as (s' & c' & evs' & Hin & Hx & Hth); [apply ready_new| |exact H1|].
  { intros i cl Hi. pose proof (mi_one _ _ _ _ _ HI i cl Hi) as Hw. destruct i; [destruct Hw as (? & ? & ->)|destruct Hw as (? & ->)]; exact I. }
  clear E H1. revert x evs HI Hd evs' Hx. induction Hin as [|a s' Ha Hin IH]; intros x evs HI Hd evs' Hx; cbn [cexec] in Hx.
  - injection Hx as <- <-. exists [], x, []. repeat split; auto.
  - destruct (cstep a (mc_c x)) as [[c1 e]|] eqn:Es; [|discriminate]. destruct (cexec s' c1) as [[c2 es]|] eqn:Ec; [|discriminate]. injection Hx as -> <-.
    assert (Hs : exists b e', match b with XRun _ | XRet _ => True | _ => False end /\ xstep sel b x = Some (MC (mc_r x) c1, e')).
    { destruct a as [i cl|i|i|t]; cbn [inner] in Ha; try destruct Ha.
      - exists (XRun i), (map XC e). split; [exact I|]. unfold xstep. rewrite Hd. pose proof Es as Es'. cbn in Es'. destruct (c_th (mc_c x) !! i) as [[|f]|]; try discriminate. destruct (f _); try discriminate. unfold on_cache. rewrite Es. reflexivity.
      - destruct (xstep sel (XRet i) x) as [[x1 e']|] eqn:Ex.
        + exists (XRet i), e'. split; [exact I|]. rewrite Ex. pose proof (minv_step _ _ _ _ _ _ _ _ HI Ex) as HI1. unfold xstep in Ex. rewrite Hd, Es in Ex.
          destruct (match i with O => _ | S _ => _ end) eqn:Ef; injection Ex as <- <-; [|reflexivity]. exfalso. destruct i; [|discriminate].
          pose proof (mi_sched _ _ _ _ _ HI1) as [sch1 H1]. pose proof (mi_one _ _ _ _ _ HI1) as H2. destruct (one_writer_lin _ _ _ _ H1 H2) as (A & m & last & ws & HA & Ho & _). rewrite <- Ho in H2.
          cbn in Es. destruct (c_th (mc_c x) !! 0%nat) as [[r|]|]; try discriminate. injection Es as _ <-.
          destruct (proj2 (lin_set_reply _ _ _ _ _ _ HA H2) r) as [v ->]; [|discriminate Ef]. rewrite Ho, !xcs_app. apply elem_of_app. right. left.
        + exfalso. unfold xstep in Ex. rewrite Hd, Es in Ex. destruct (match i with O => _ | S _ => _ end); discriminate. }
    destruct Hs as (b & e' & Hb & Hs). destruct (IH (MC (mc_r x) c1) (evs ++ e') (minv_step _ _ _ _ _ _ _ _ HI Hs) Hd _ Ec) as (acts' & x' & evs2 & I1 & I2 & I3 & I4).
    exists (b :: acts'), x', (e' ++ evs2). split; [constructor; assumption|]. split; [cbn [xexec]; rewrite Hs, I2; reflexivity|]. auto.
Qed.
(** The snapshot sets k to v, the stream to w. A Get that is called before the handler carries out the second command and ends after it, and one that is called then. *)
Definition demo_file : gostr := rdb_file ver9 [IKey (SRaw (bs "k")) (RdbSpec.VStr (SRaw (bs "v")))] [].
Definition demo_net : rd := new_rd [serialize (convert_to_message [bs "SET"; bs "k"; bs "w"])].
Definition demo_acts : list xact :=
  [XRepl ANew; XMsg] ++ repeat (XRun 0) 3 ++ [XRet 0; XRepl ANew; XRepl AWait; XRepl AWait; XGet 1 (bs "k"); XRun 1; XMsg; XRun 1; XRun 1] ++
  [XRun 1; XRet 1] ++ repeat (XRun 0) 3 ++ [XRet 0; XGet 2 (bs "k")] ++ repeat (XRun 2) 4 ++ [XRet 2].
Example C195_nonvacuous : match xexec 0 demo_acts (mc_new range_of (new_world 0) demo_file demo_net) with
  | Some (x, evs) => xcs evs = [EInv 0 (CSet (bs "k") (bs "v")); ERet 0 (RStr (bs "OK", None)); EInv 1 (CGet (bs "k")); EInv 0 (CSet (bs "k") (bs "w"));
      ERet 1 (RStr (bs "v", None)); ERet 0 (RStr (bs "OK", None)); EInv 2 (CGet (bs "k")); ERet 2 (RStr (bs "w", None))] /\
      set_calls 0 (took (xvs evs)) = [CSet (bs "k") (bs "v"); CSet (bs "k") (bs "w")] /\ r_dead (mc_r x) = false /\ under_way (mc_r x) = []
  | None => False end.
Proof. vm_compute. auto. Qed.
