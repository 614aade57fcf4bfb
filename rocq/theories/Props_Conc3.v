(** * Props_Conc3: every call returns, also with a mutex that prefers writers; readers of one writer (C53, C149, C150) *)
From stdpp Require Import relations.
From Verif Require Import Base GoFloat CacheModel CacheSpec CacheAbs CacheRefine CacheRefineH CacheMain CacheLib CacheConc ConcLin ConcSafe Props_String Props_Counter Props_Conc Props_Conc2.

(** ** C53 with a mutex that prefers writers

    Go's RWMutex lets no new reader in while a writer waits. [locking] and [rlocking]: the next operation of the goroutine takes
    the mutex for writing, for reading. *)
Definition locking (c : conf) (i : nat) : Prop :=
  exists f w w' p', c_th c !! i = Some (Step f) /\ f w = Go w' p' /\ w_writer w = false /\ w_writer w' = true.
Definition rlocking (c : conf) (i : nat) : Prop :=
  exists f w w' p', c_th c !! i = Some (Step f) /\ f w = Go w' p' /\ (w_readers w < w_readers w')%nat.
(** Goroutine [i] can go on although new readers wait for waiting writers. *)
Definition enabled_wp (c : conf) (i : nat) : Prop := enabled c i /\ (rlocking c i -> forall j, ~ locking c j).

Lemma body_quiet {R A} S w (b : prog A) (q : A -> prog A) (g : A -> prog R) f : body S w b ->
  (forall r f w w' p', pbind (q r) g = Step f -> f w = Go w' p' -> (w_readers w' <= w_readers w)%nat /\ (w_writer w = false -> w_writer w' = false)) ->
  pbind (pbind b q) g = Step f -> forall w1 w2 p', f w1 = Go w2 p' -> (w_readers w2 <= w_readers w1)%nat /\ (w_writer w1 = false -> w_writer w2 = false).
Proof.
  intros [Hb _] Hq E w1 w2 p' Hf. destruct Hb as [r|fb N1 N2 N3]; cbn in E; [eauto|]. injection E as <-.
  destruct (fb w1) as [wa pa| |] eqn:Ea; try discriminate. injection Hf as <- _. destruct (N2 _ _ _ Ea) as [-> ->]. auto.
Qed.
Lemma linv_enabled_wp S c h R : linv S c h R -> c_th c <> ∅ -> exists i, enabled_wp c i.
Proof.
  intros HL Hne. pose proof HL as [Hw Hr Hex Hth Hok].
  assert (Hin : forall i A (b : prog A) (g : A -> prog reply) (q : A -> prog A), c_th c !! i = Some (pbind (pbind b q) g) -> body S (c_w c) b ->
     (forall r, match pbind (q r) g with Step f => f (c_w c) <> Blocked | Ret _ => True end) ->
     (forall r f w w' p', pbind (q r) g = Step f -> f w = Go w' p' -> (w_readers w' <= w_readers w)%nat /\ (w_writer w = false -> w_writer w' = false)) -> enabled_wp c i).
  { intros i A b g q Ei Hb Hq Hq2. split.
    - destruct Hb as [Hb _]. unfold enabled. rewrite Ei. destruct Hb as [r|f N1 N2 N3]; cbn.
      + specialize (Hq r). destruct (pbind (q r) g); [exact I|]. destruct (f (c_w c)); auto.
      + specialize (N1 (c_w c)). destruct (f (c_w c)); auto.
    - intros (f & w & w' & p' & Ef & Hf & Hlt). rewrite Ei in Ef. injection Ef as Ef. destruct (body_quiet _ _ _ _ _ _ Hb Hq2 Ef _ _ _ Hf) as [Hle _]. lia. }
  destruct h as [h|].
  - pose proof (Hth h) as Hh. unfold place in Hh. rewrite decide_True in Hh by auto. destruct (c_th c !! h) as [p|] eqn:Eh; [|discriminate].
    destruct Hh as (A & b & g & -> & Hb). exists h. eapply Hin; [exact Eh|exact Hb|intros r; cbn; destruct (w_writer (c_w c)); discriminate|].
    intros r f w w' p'. cbn. intros [= <-]. destruct (w_writer w); [|discriminate]. intros [= <- _]. cbn. split; [lia|discriminate].
  - destruct (set_choose_or_empty R) as [[i Hi]|He].
    + pose proof (Hth i) as Hh. unfold place in Hh. rewrite decide_False, decide_True in Hh by (congruence || auto). destruct (c_th c !! i) as [p|] eqn:Eh; [|discriminate].
      destruct Hh as (A & b & g & -> & Hb). exists i. eapply Hin; [exact Eh|exact Hb|intros r; cbn; destruct (w_readers (c_w c)); discriminate|].
      intros r f w w' p'. cbn. intros [= <-]. destruct (w_readers w) eqn:Ew; [discriminate|]. intros [= <- _]. cbn. split; [lia|auto].
    + assert (HR : size R = 0%nat) by (apply size_empty_iff; exact He).
      assert (Hout : forall i, place None R i = Out).
      { intros i. destruct (place None R i) eqn:Ep; [reflexivity|apply place_W in Ep; discriminate|apply place_R in Ep; set_solver]. }
      (* one goroutine decides: one that wants to write if there is any *)
      assert (Hcase : (exists j, locking c j) \/ (forall j, ~ locking c j)).
      { assert (HT : forall m : gmap nat (prog reply), (forall i p, m !! i = Some p -> c_th c !! i = Some p) -> (exists j, is_Some (m !! j) /\ locking c j) \/ (forall j, is_Some (m !! j) -> ~ locking c j)).
        { intros m. induction m as [|i p m Hi IH] using map_ind; intros Hsub; [right; intros j [x Hx]; rewrite lookup_empty in Hx; discriminate|].
          destruct IH as [(j & Hj & Hl)|Hn].
          { intros j q Hj. apply Hsub. rewrite lookup_insert_ne by congruence. exact Hj. }
          { left. exists j. split; [|exact Hl]. rewrite lookup_insert_is_Some. destruct (decide (i = j)); auto. }
          assert (Hp : c_th c !! i = Some p) by (apply Hsub, lookup_insert).
          pose proof (Hth i) as Hh. rewrite Hp, Hout in Hh. destruct Hh as [[Hb _]|[(A & b & g & -> & Hb)|(A & b & g & -> & Hb)]].
          - right. intros j Hj. destruct (decide (j = i)) as [->|Hne']; [|rewrite lookup_insert_ne in Hj by congruence; auto].
            intros (f & w & w' & p' & Ef & Hf & W1 & W2). rewrite Hp in Ef. injection Ef as ->. inversion Hb as [|f' N1 N2 N3]; subst. destruct (N2 _ _ _ Hf). congruence.
          - left. exists i. split; [rewrite lookup_insert; eauto|]. eexists _, (set_lock (c_w c) false 0), _, _. split; [exact Hp|]. cbn. split; [reflexivity|]. auto.
          - right. intros j Hj. destruct (decide (j = i)) as [->|Hne']; [|rewrite lookup_insert_ne in Hj by congruence; auto].
            intros (f & w & w' & p' & Ef & Hf & W1 & W2). rewrite Hp in Ef. cbn in Ef. injection Ef as <-. destruct (w_writer w) eqn:Eww; [discriminate|]. injection Hf as <- _. cbn in W2. discriminate. }
        destruct (HT (c_th c)) as [(j & _ & Hj)|Hn]; [auto|left; eauto|]. right. intros j Hj. pose proof Hj as (f & w & w' & p' & Ef & _). eapply Hn; [|exact Hj]. rewrite Ef. eauto. }
      destruct Hcase as [[j Hj]|Hn].
      * exists j. pose proof Hj as (f & w & w' & p' & Ef & Hf & W1 & W2). pose proof (Hth j) as Hh. rewrite Ef, Hout in Hh.
        destruct Hh as [[Hb _]|[(A & b & g & Eb & Hb)|(A & b & g & Eb & Hb)]].
        -- inversion Hb as [|f' N1 N2 N3]; subst. destruct (N2 _ _ _ Hf). congruence.
        -- cbn in Eb. injection Eb as ->. split; [unfold enabled; rewrite Ef, Hw, Hr, HR; exact I|].
           intros (f2 & w2 & w2' & p2 & E2 & H2 & Hlt). rewrite Ef in E2. injection E2 as <-. destruct (w_writer w2 || negb (Nat.eqb (w_readers w2) 0)); [discriminate|]. injection H2 as <- _. cbn in Hlt. lia.
        -- cbn in Eb. injection Eb as ->. destruct (w_writer w) eqn:Eww; [discriminate|]. injection Hf as <- _. cbn in W2. discriminate.
      * destruct (linv_enabled _ _ _ _ HL Hne) as [i Hi]. exists i. split; auto.
Qed.
(** Even if waiting writers keep new readers out, some goroutine can go on. *)
Theorem C53_writer_preference w0 s c evs :
  ready w0 -> cexec s (start w0) = Some (c, evs) -> c_th c <> ∅ -> exists i, enabled_wp c i.
Proof.
  intros Hr E. destruct (linv_exec false w0 s c evs Hr) as (h & R & Hl); [intros i cl _ H; discriminate H|exact E|]. eapply linv_enabled_wp; eauto.
Qed.
(** A reader inside, a writer and a reader waiting: only the first may go on. *)
Example C53_writer_preference_ex :
  match cexec [AInv 1 (CGet (bs "k")); ARun 1; AInv 2 (CSet (bs "k") (bs "v")); AInv 3 (CGet (bs "k"))] (start (new_world 0)) with
  | Some (c, _) => enabled c 1 /\ ~ enabled c 2 /\ locking c 2 /\ rlocking c 3 /\ enabled c 3
  | None => False end.
Proof.
  cbn. split; [exact I|]. split; [exact id|]. split; [|split; [|exact I]].
  - eexists _, (new_world 0), _, _. split; [reflexivity|]. cbn. auto.
  - eexists _, (new_world 0), _, _. split; [reflexivity|]. cbn. split; [reflexivity|]. cbn. lia.
Qed.

(** ** C149: every call returns *)
(** an action of a goroutine that is inside a call *)
Definition inner (a : act) : Prop := match a with ARun _ | ARet _ => True | _ => False end.
Definition no_call (a : act) : Prop := match a with AInv _ _ => False | _ => True end.

Inductive pstep {R} : prog R -> prog R -> Prop := pstep_go f w w' p : f w = Go w' p -> pstep p (Step f).
Fixpoint pstep_wf {R} (p : prog R) {struct p} : Acc pstep p.
Proof.
  destruct p as [r|f]; constructor; intros q Hq; inversion Hq as [f' w w' p E]; subst. revert E. destruct (f w) as [w1 p1| |]; try discriminate.
  intros E. replace q with p1 by congruence. apply pstep_wf.
Qed.
Definition mstep (m' m : gmap nat (prog reply)) : Prop :=
  (exists i p p', m !! i = Some p /\ pstep p' p /\ m' = <[i := p']> m) \/ (exists i, is_Some (m !! i) /\ m' = delete i m).
Lemma mstep_wf m : Acc mstep m.
Proof.
  induction m as [|i p m Hi IH] using map_ind.
  - constructor. intros m' [(i & p & p' & H & _)|(i & [x H] & _)]; rewrite lookup_empty in H; discriminate.
  - revert p. induction IH as [m Hacc IHm]. intros p. induction (pstep_wf p) as [p _ IHp]. constructor. intros m' [(j & q & q' & Hj & Hq & ->)|(j & Hj & ->)].
    + destruct (decide (j = i)) as [->|Hne].
      * rewrite lookup_insert in Hj. injection Hj as <-. rewrite insert_insert. apply IHp, Hq.
      * rewrite lookup_insert_ne in Hj by congruence. rewrite insert_commute by congruence. apply IHm; [left; eauto 8|]. rewrite lookup_insert_ne by congruence. exact Hi.
    + destruct (decide (j = i)) as [->|Hne].
      * rewrite delete_insert by exact Hi. constructor. exact Hacc.
      * rewrite lookup_insert_ne in Hj by congruence. rewrite delete_insert_ne by congruence. apply IHm; [right; eauto|]. rewrite lookup_delete_ne by congruence. exact Hi.
Qed.
Lemma inner_mstep a c c' e : inner a -> cstep a c = Some (c', e) -> mstep (c_th c') (c_th c).
Proof.
  destruct a as [i cl|i|i|t]; cbn; intros []; destruct (c_th c !! i) as [[r|f]|] eqn:Ei; try discriminate.
  - destruct (f (c_w c)) as [w' p'| |] eqn:Ef; try discriminate. intros [= <- <-]. left. cbn. exists i, (Step f), p'. split; [exact Ei|]. split; [econstructor; exact Ef|reflexivity].
  - intros [= <- <-]. right. cbn. eauto.
Qed.
(** As long as no new calls are issued, the goroutines cannot go on for ever, whatever the schedule and the clock do. *)
Theorem C149_no_endless_run (f : nat -> conf) (a : nat -> act) :
  (forall n, exists e, cstep (a n) (f n) = Some (f (S n), e)) -> (forall n, no_call (a n)) ->
  ~ (forall n, exists m, (n <= m)%nat /\ inner (a m)).
Proof.
  intros Hs Hno Hinf.
  assert (Hq : forall d n, (forall m, (n <= m < n + d)%nat -> ~ inner (a m)) -> c_th (f (n + d)%nat) = c_th (f n)).
  { induction d as [|d IH]; intros n Hd; [rewrite Nat.add_0_r; reflexivity|]. rewrite <- (IH n) by (intros m Hm; apply Hd; lia).
    replace (n + S d)%nat with (S (n + d)) by lia. destruct (Hs (n + d)%nat) as [e He]. pose proof (Hno (n + d)%nat) as Hc. assert (Hi : ~ inner (a (n + d)%nat)) by (apply Hd; lia).
    destruct (a (n + d)%nat) as [i cl|i|i|t]; cbn in Hc, Hi; try tauto. cbn in He. destruct (w_now _ <=? t); [|discriminate]. injection He as He _. rewrite <- He. reflexivity. }
  assert (Hdec : forall m, {inner (a m)} + {~ inner (a m)}) by (intros m; destruct (a m); cbn; auto).
  assert (Hfirst : forall n m, (n <= m)%nat -> inner (a m) -> exists d, inner (a (n + d)%nat) /\ forall m', (n <= m' < n + d)%nat -> ~ inner (a m')).
  { intros n m Hle. replace m with (n + (m - n))%nat by lia. generalize (m - n)%nat. clear m Hle. intros d. revert n. induction d as [|d IH]; intros n Hd.
    - exists 0%nat. rewrite Nat.add_0_r in *. split; [exact Hd|]. intros m' Hm. lia.
    - destruct (Hdec n) as [Hn|Hn].
      + exists 0%nat. rewrite Nat.add_0_r. split; [exact Hn|]. intros m' Hm. lia.
      + destruct (IH (S n)) as (d' & H1 & H2); [replace (S n + d)%nat with (n + S d)%nat by lia; exact Hd|]. exists (S d'). replace (n + S d')%nat with (S n + d')%nat by lia. split; [exact H1|].
        intros m' Hm. destruct (decide (m' = n)) as [->|]; [exact Hn|]. apply H2. lia. }
  assert (G : forall m, Acc mstep m -> forall n, c_th (f n) = m -> False).
  { induction 1 as [m _ IH]. intros n Hn. destruct (Hinf n) as (m1 & Hle & Hm1). destruct (Hfirst n m1 Hle Hm1) as (d & Hd & Hbefore).
    destruct (Hs (n + d)%nat) as [e He]. apply (IH (c_th (f (S (n + d))))) with (n := S (n + d)); [|reflexivity].
    rewrite <- Hn, <- (Hq d n Hbefore). eapply inner_mstep; eauto. }
  exact (G _ (mstep_wf _) 0%nat eq_refl).
Qed.
(** From every state of every execution all calls can be brought to their end by letting the goroutines run. *)
Theorem C149_every_call_returns w0 s c evs :
  ready w0 -> calls_in no_crash evs -> cexec s (start w0) = Some (c, evs) ->
  exists s' c' evs', Forall inner s' /\ cexec s' c = Some (c', evs') /\ c_th c' = ∅.
Proof.
  intros Hr Hc E. assert (G : forall m, Acc mstep m -> forall s c evs, calls_in no_crash evs -> cexec s (start w0) = Some (c, evs) -> c_th c = m ->
    exists s' c' evs', Forall inner s' /\ cexec s' c = Some (c', evs') /\ c_th c' = ∅); [|exact (G _ (mstep_wf _) s c evs Hc E eq_refl)].
  clear s c evs Hc E. induction 1 as [m _ IH]. intros s c evs Hc E Hm. destruct (decide (m = ∅)) as [->|Hne].
  { exists [], c, []. split; [constructor|]. split; [reflexivity|exact Hm]. }
  destruct (C53_no_deadlock w0 s c evs Hr E) as [He _]. destruct He as [i Hi]; [congruence|].
  assert (Hnc : ~ crashing c i). { eapply C104_concurrent_calls_never_crash; eauto. }
  assert (Hstep : exists a c1 e1, inner a /\ cstep a c = Some (c1, e1) /\ (forall j cl, EInv j cl ∉ e1)).
  { unfold enabled in Hi. unfold crashing in Hnc. destruct (c_th c !! i) as [[r|f]|] eqn:Ei; [| |destruct Hi].
    - exists (ARet i), (Conf (c_w c) (delete i (c_th c))), [ERet i r]. split; [exact I|]. split; [cbn; rewrite Ei; reflexivity|]. intros j cl Hj. apply elem_of_list_singleton in Hj. discriminate.
    - destruct (f (c_w c)) as [w' p'| |] eqn:Ef; [|destruct Hi|destruct Hnc; reflexivity]. exists (ARun i), (Conf w' (<[i := p']> (c_th c))), []. split; [exact I|]. split; [cbn; rewrite Ei, Ef; reflexivity|]. intros j cl Hj. inversion Hj. }
  destruct Hstep as (a & c1 & e1 & Ha & Es & Hn1).
  assert (Hms : mstep (c_th c1) m) by (rewrite <- Hm; eapply inner_mstep; eauto).
  assert (Hc1 : calls_in no_crash (evs ++ e1)). { intros j cl Hj. apply elem_of_app in Hj as [Hj|Hj]; [exact (Hc j cl Hj)|destruct (Hn1 _ _ Hj)]. }
  assert (E1 : cexec (s ++ [a]) (start w0) = Some (c1, evs ++ e1)) by (rewrite cexec_app, E; cbn; rewrite Es, app_nil_r; reflexivity).
  destruct (IH _ Hms _ _ _ Hc1 E1 eq_refl) as (s' & c' & evs' & H1 & H2 & H3).
  exists (a :: s'), c', (e1 ++ evs'). split; [constructor; auto|]. split; [cbn; rewrite Es, H2; reflexivity|exact H3].
Qed.
Example C149_ex : match cexec [AInv 1 (CGet (bs "k")); ARun 1; AInv 2 (CSet (bs "k") (bs "v")); AInv 3 (CHSet (bs "h") (bs "f") (bs "v"))] (start (new_world 0)) with
  | Some (c, _) => match cexec (runs 1 2 ++ runs 2 3 ++ [ARet 1] ++ runs 3 6 ++ [ARet 3; ARet 2]) c with Some (c', _) => bool_decide (c_th c' = ∅) = true | None => False end
  | None => False end.
Proof. vm_compute. reflexivity. Qed.

(** ** C150: one goroutine sets a key and any number read it *)
(** What the key shows after the first sets, for each number of sets. *)
Definition versions (g : gret gostr) (k : gostr) (cs : list CacheModel.call) : list (gret gostr) := g :: map (fun v => (text v, None)) (omap (putting k) cs).
Lemma set_versions k h : forall v v' rs, Forall (fun tc => looks k (snd tc) \/ exists s, snd tc = CSet k s) h -> snd v = None -> runk h v = Some (v', rs) ->
  let l := versions (shown v) k (map snd h) in
  snd v' = None /\ l !! length (omap (putting k) (map snd h)) = Some (shown v') /\
  Forall (fun y => exists j g, l !! j = Some g /\ snd y = RStr g) (sel (is_get k) (zip (map snd h) rs)).
Proof.
  induction h as [|[t c] h IH]; intros v v' rs Hall Hd E; cbn [runk] in E; [injection E as <- <-; cbn; auto|].
  pose proof (Forall_inv Hall) as Hc. apply Forall_inv_tail in Hall. cbn [snd] in Hc. destruct (abs1 c t v) as [[v1 r]|] eqn:E1; [|discriminate].
  destruct (runk h v1) as [[v2 rs2]|] eqn:E2; [|discriminate]. injection E as <- <-. unfold sel, versions in *. cbn [map snd zip zip_with List.filter fst omap list_omap] in *. destruct Hc as [Hc|[s ->]].
  - destruct (looks_step k c t v Hc Hd) as [r' Er]. rewrite E1 in Er. injection Er as -> <-. rewrite (looks_put k c Hc).
    destruct (IH v v2 rs2 Hall Hd E2) as (I1 & I2 & I3). split; [exact I1|]. split; [exact I2|].
    destruct (is_get k c) eqn:Eg; [|exact I3]. constructor; [|exact I3]. exists 0%nat, (shown v). split; [reflexivity|]. cbn [snd]. eapply looks_get; eauto.
  - cbn [putting is_get] in *. rewrite decide_True by reflexivity. cbn [abs1] in E1. injection E1 as <- <-.
    destruct (IH (put s v) v2 rs2 Hall Hd E2) as (I1 & I2 & I3). rewrite shown_put in I2, I3. split; [exact I1|]. split; [exact I2|].
    refine (List.Forall_impl _ _ I3). cbn beta. intros y (j & g & Hj & Hy). exists (S j), g. split; [exact Hj|exact Hy].
Qed.
Lemma putting_filter k l : omap (putting k) (List.filter (is_set k) l) = omap (putting k) l.
Proof. induction l as [|c l IH]; [reflexivity|]. cbn [List.filter]. destruct c; cbn [is_set]; try exact IH. case_bool_decide; cbn; [rewrite decide_True by auto; f_equal; exact IH|rewrite decide_False by auto; exact IH]. Qed.
Lemma omap_prefix {A B} (f : A -> option B) l1 l2 : l1 `prefix_of` l2 -> omap f l1 `prefix_of` omap f l2.
Proof. intros [x ->]. rewrite omap_app. apply prefix_app_r. reflexivity. Qed.
Lemma putting_len k l : length (omap (putting k) l) = length (List.filter (is_set k) l).
Proof. induction l as [|c l IH]; [reflexivity|]. cbn [List.filter omap list_omap]. destruct c; cbn [is_set putting]; try exact IH. case_bool_decide; [rewrite decide_True by auto; cbn; f_equal; exact IH|rewrite decide_False by auto; exact IH]. Qed.
Lemma zip_filter_len {A B} (f : A -> bool) (l : list A) : forall rs : list B, (length (List.filter (fun x => f (fst x)) (zip l rs)) <= length (List.filter f l))%nat.
Proof. induction l as [|a l IH]; intros [|r rs]; cbn; try lia. specialize (IH rs). destruct (f a); cbn; lia. Qed.
(** Cut the run anywhere. At the cut some number [n] of the writer's sets has taken effect: all that have returned
    and none that has not been called. A Get that has returned by then shows one of the first [n] versions or the one
    before them, and a Get called later shows version [n] or a later one: no reader goes back. *)
Theorem C150_no_reader_goes_back w0 k i s c e1 e2 g :
  ready w0 -> deadline w0 k = None -> shows w0 k g -> serial w0 (e1 ++ e2) ->
  calls_in (fun cl => ~ names cl k \/ looks k cl \/ exists v, cl = CSet k v) (e1 ++ e2) ->
  (forall j v, EInv j (CSet k v) ∈ e1 ++ e2 -> j = i) -> cexec s (start w0) = Some (c, e1 ++ e2) ->
  let vs := versions g k (issued (e1 ++ e2)) in
  exists n, (length (replies_to (is_set k) e1) <= n <= length (List.filter (is_set k) (issued e1)))%nat /\
    (forall r, (CGet k, r) ∈ answered e1 -> exists j x, (j <= n)%nat /\ vs !! j = Some x /\ r = RStr x) /\
    (forall r, (CGet k, r) ∈ answered e2 -> exists j x, (n <= j)%nat /\ vs !! j = Some x /\ r = RStr x).
Proof.
  intros Hr Hd Hg Hser Hin Hi E vs. apply shows_view in Hg; auto.
  destruct (on_key2 w0 k s c e1 e2 Hr Hser) as (h1 & rs1 & v1 & h2 & rs2 & v2 & R1 & T1 & R2 & T2 & R3 & R4 & R5 & T5 & R6); [|exact E|].
  { intros j cl Hj. destruct (Hin j cl Hj) as [?|[?|[x ->]]]; [auto|right; apply looks_single; auto|right; reflexivity]. }
  pose proof (on_class _ _ _ _ Hin R3 R4) as Hk. apply Forall_app in Hk as [K1 K2].
  assert (Hvd : snd (view w0 k) = None) by (rewrite view_dl; auto).
  destruct (set_versions k h1 _ _ _ K1 Hvd R1) as (I1 & I2 & I3). destruct (set_versions k h2 _ _ _ K2 I1 T1) as (_ & _ & J3). rewrite <- Hg in I2, I3.
  destruct (R6 i (is_set k)) as [P1 P2]; [|apply set_on|].
  { intros j cl Hj Hs. destruct cl; cbn in Hs; try discriminate. apply bool_decide_eq_true in Hs as ->. eapply Hi; exact Hj. }
  set (l1 := omap (putting k) (map snd h1)) in *. set (l2 := omap (putting k) (map snd h2)) in *.
  assert (Hp : l1 ++ l2 `prefix_of` omap (putting k) (issued (e1 ++ e2))).
  { unfold l1, l2. rewrite <- omap_app, <- map_app, <- (putting_filter k (map snd (h1 ++ h2))), <- (putting_filter k (issued _)). apply omap_prefix, P2. }
  destruct Hp as [l3 Hl].
  assert (Hvs : vs = versions g k (map snd h1) ++ map (fun v => (text v, None)) (l2 ++ l3)).
  { unfold vs, versions. rewrite Hl. fold l1. rewrite <- app_assoc, map_app. reflexivity. }
  assert (Hlv : length (versions g k (map snd h1)) = S (length l1)). { unfold versions. cbn. rewrite map_length. reflexivity. }
  exists (length l1). split; [|split].
  - split; [|unfold l1; rewrite putting_len; apply prefix_length, P1].
    unfold replies_to. rewrite map_length. unfold l1. rewrite putting_len.
    apply (filter_sub (fun x => is_set k (fst x))) in R5. apply submseteq_length in R5. rewrite (filter_on k (is_set k)) in R5 by apply set_on. unfold sel. etransitivity; [exact R5|].
    apply zip_filter_len.
  - intros r Ha. assert (Hx : (CGet k, r) ∈ sel (is_get k) (zip (map snd h1) rs1)).
    { apply (filter_sub (fun x => is_get k (fst x))) in R5. eapply elem_of_submseteq; [|exact R5]. rewrite (filter_on k (is_get k)) by apply get_on.
      apply elem_of_list_In, filter_In. split; [apply elem_of_list_In, Ha|]. cbn. apply bool_decide_true. reflexivity. }
    destruct (fa_in _ _ _ I3 Hx) as (j & x & Hj & Hy). exists j, x. pose proof (lookup_lt_Some _ _ _ Hj) as Hlt. rewrite Hlv in Hlt. split; [lia|]. split; [|exact Hy].
    rewrite Hvs. apply lookup_app_l_Some, Hj.
  - intros r Ha. assert (Hx : (CGet k, r) ∈ sel (is_get k) (zip (map snd h2) rs2)).
    { apply (filter_sub (fun x => is_get k (fst x))) in T5. eapply elem_of_submseteq; [|exact T5]. rewrite (filter_on k (is_get k)) by apply get_on.
      apply elem_of_list_In, filter_In. split; [apply elem_of_list_In, Ha|]. cbn. apply bool_decide_true. reflexivity. }
    destruct (fa_in _ _ _ J3 Hx) as (j & x & Hj & Hy). exists (length l1 + j)%nat, x. split; [lia|]. split; [|exact Hy]. rewrite Hvs.
    destruct j as [|j].
    + cbn in Hj. injection Hj as <-. rewrite Nat.add_0_r. apply lookup_app_l_Some, I2.
    + cbn [versions lookup list_lookup] in Hj. rewrite lookup_app_r by lia. rewrite Hlv. replace (length l1 + S j - S (length l1))%nat with j by lia.
      rewrite map_app. apply lookup_app_l_Some. exact Hj.
Qed.
Definition c150_run := [AInv 1 (CSet (bs "k") (bs "b"))] ++ runs 1 3 ++ [AInv 2 (CGet (bs "k")); ARet 1; AInv 1 (CSet (bs "k") (bs "c"))] ++ runs 2 4 ++ runs 1 3 ++
  [ARet 2; AInv 3 (CGet (bs "k"))] ++ runs 3 4 ++ [ARet 3; ARet 1].
Example C150_ex :
  match cexec c150_run (start c145_world) with
  | Some (_, evs) => versions (bs "a", None) (bs "k") (issued evs) = [(bs "a", None); (bs "b", None); (bs "c", None)] /\
      answered (take 5 evs) = [(CSet (bs "k") (bs "b"), RStr (bs "OK", None)); (CGet (bs "k"), RStr (bs "b", None))] /\
      answered (drop 5 evs) = [(CGet (bs "k"), RStr (bs "c", None))]
  | None => False end.
Proof. vm_compute. auto. Qed.
