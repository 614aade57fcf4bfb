(** * ConcLin: calls that hold the write lock are linearizable (proof machinery and theorem) *)
From stdpp Require Import relations.
From Verif Require Import Base GoFloat CacheModel CacheSpec CacheAbs CacheConc.

Lemma cexec_inv (P : conf -> list event -> Prop) s : forall c0 c evs,
  (forall c evs a c' e, P c evs -> cstep a c = Some (c', e) -> P c' (evs ++ e)) ->
  forall evs0, P c0 evs0 -> cexec s c0 = Some (c, evs) -> P c (evs0 ++ evs).
Proof.
  induction s as [|a s IH]; intros c0 c evs Hs evs0 H0 E; cbn in E.
  - injection E as <- <-. rewrite app_nil_r. exact H0.
  - destruct (cstep a c0) as [[c1 e]|] eqn:E1; [|discriminate].
    destruct (cexec s c1) as [[c2 es]|] eqn:E2; [|discriminate]. injection E as <- <-.
    rewrite app_assoc. eapply IH; eauto.
Qed.
Lemma cexec_app s1 s2 c : cexec (s1 ++ s2) c =
  match cexec s1 c with
  | Some (c1, e1) => match cexec s2 c1 with Some (c2, e2) => Some (c2, e1 ++ e2) | None => None end
  | None => None
  end.
Proof.
  revert c. induction s1 as [|a s1 IH]; intros c; cbn.
  - destruct (cexec s2 c) as [[]|]; reflexivity.
  - destruct (cstep a c) as [[c1 e]|]; [|reflexivity]. rewrite IH.
    destruct (cexec s1 c1) as [[c2 e2]|]; [|reflexivity]. destruct (cexec s2 c2) as [[]|]; [|reflexivity].
    rewrite app_assoc. reflexivity.
Qed.
Lemma calls_in_app P e1 e2 : calls_in P (e1 ++ e2) -> calls_in P e1 /\ calls_in P e2.
Proof. intros H. split; intros i c Hin; apply (H i c), elem_of_app; auto. Qed.

(** ** programs that read the clock at most once *)
Definition tmap {R} (t : Z) (x : ares (prog R)) : ares (prog R) :=
  match x with Go w p => Go (set_now w t) p | Blocked => Blocked | Panic => Panic end.
Definition same_lock (w w' : world) : Prop :=
  w_writer w' = w_writer w /\ w_readers w' = w_readers w /\ w_now w' = w_now w.

Inductive tl {R} : prog R -> Prop :=
| tl_ret r : tl (Ret r)
| tl_step f : (forall w t, f (set_now w t) = tmap t (f w)) ->
    (forall w w' p', f w = Go w' p' -> same_lock w w') ->
    (forall w w' p', f w = Go w' p' -> tl p') -> tl (Step f).
Inductive once {R} : prog R -> Prop :=
| once_tl p : tl p -> once p
| once_step f : (forall w t, f (set_now w t) = tmap t (f w)) ->
    (forall w w' p', f w = Go w' p' -> same_lock w w') ->
    (forall w w' p', f w = Go w' p' -> once p') -> once (Step f)
| once_now f k : (forall w, f w = Go w (k (w_now w))) -> (forall t, tl (k t)) -> once (Step f).

Lemma tl_bind {A B} (p : prog A) (k : A -> prog B) : tl p -> (forall r, tl (k r)) -> tl (pbind p k).
Proof.
  intros Hp Hk. induction Hp as [r|f H1 H2 H3 IH]; cbn; [apply Hk|]. constructor.
  - intros w t. rewrite H1. destruct (f w); reflexivity.
  - intros w w' p'. destruct (f w) as [w1 p1| |] eqn:E; try discriminate. intros [= <- <-]. eauto.
  - intros w w' p'. destruct (f w) as [w1 p1| |] eqn:E; try discriminate. intros [= <- <-]. eauto.
Qed.
Lemma once_bind_l {A B} (p : prog A) (k : A -> prog B) : tl p -> (forall r, once (k r)) -> once (pbind p k).
Proof.
  intros Hp Hk. induction Hp as [r|f H1 H2 H3 IH]; cbn; [apply Hk|]. apply once_step.
  - intros w t. rewrite H1. destruct (f w); reflexivity.
  - intros w w' p'. destruct (f w) as [w1 p1| |] eqn:E; try discriminate. intros [= <- <-]. eauto.
  - intros w w' p'. destruct (f w) as [w1 p1| |] eqn:E; try discriminate. intros [= <- <-]. eauto.
Qed.
Lemma once_bind_r {A B} (p : prog A) (k : A -> prog B) : once p -> (forall r, tl (k r)) -> once (pbind p k).
Proof.
  intros Hp Hk. induction Hp as [p Hp|f H1 H2 H3 IH|f k0 H1 H2]; cbn.
  - apply once_bind_l; [exact Hp|]. intros r. apply once_tl, Hk.
  - apply once_step.
    + intros w t. rewrite H1. destruct (f w); reflexivity.
    + intros w w' p'. destruct (f w) as [w1 p1| |] eqn:E; try discriminate. intros [= <- <-]. eauto.
    + intros w w' p'. destruct (f w) as [w1 p1| |] eqn:E; try discriminate. intros [= <- <-]. eauto.
  - apply (once_now _ (fun t => pbind (k0 t) k)).
    + intros w. rewrite H1. reflexivity.
    + intros t. apply tl_bind; auto.
Qed.
Lemma once_p_now {A} (k : Z -> prog A) : (forall t, tl (k t)) -> once (pbind p_now k).
Proof. intros Hk. apply (once_now _ k); [reflexivity|exact Hk]. Qed.
Lemma tl_atom {A} (f : world -> ares A) :
  (forall w t, f (set_now w t) = match f w with Go w' a => Go (set_now w' t) a | Blocked => Blocked | Panic => Panic end) ->
  (forall w w' a, f w = Go w' a -> same_lock w w') -> tl (atom f).
Proof.
  intros H1 H2. constructor.
  - intros w t. rewrite H1. destruct (f w); reflexivity.
  - intros w w' p'. destruct (f w) eqn:E; try discriminate. intros [= <- <-]. eauto.
  - intros w w' p'. destruct (f w) eqn:E; try discriminate. intros [= <- <-]. constructor.
Qed.
Ltac atom_tac := apply tl_atom; [intros [d e h n b r t0] t|intros [d e h n b r t0] w' a]; cbn;
  repeat match goal with
  | |- context [match ?x with _ => _ end] => is_var x; destruct x; cbn
  | |- context [match ?x with _ => _ end] => destruct x eqn:?; cbn
  end; try reflexivity; try discriminate; try (intros [= <- <-]; repeat split; reflexivity).
Lemma tl_data_load k : tl (data_load k). Proof. atom_tac. Qed.
Lemma tl_data_store k v : tl (data_store k v). Proof. atom_tac. Qed.
Lemma tl_data_delete k : tl (data_delete k). Proof. atom_tac. Qed.
Lemma tl_data_los k v : tl (data_load_or_store k v).
Proof. atom_tac. Qed.
Lemma tl_data_keys : tl data_keys. Proof. atom_tac. Qed.
Lemma tl_exp_load k : tl (exp_load k). Proof. atom_tac. Qed.
Lemma tl_exp_store k v : tl (exp_store k v). Proof. atom_tac. Qed.
Lemma tl_exp_delete k : tl (exp_delete k). Proof. atom_tac. Qed.
Lemma tl_data_reset : tl data_reset. Proof. atom_tac. Qed.
Lemma tl_exp_reset : tl exp_reset. Proof. atom_tac. Qed.
Lemma tl_panic {A} : tl (@panic A). Proof. constructor; discriminate || reflexivity. Qed.
Global Hint Resolve tl_panic tl_data_load tl_data_store tl_data_delete tl_data_los tl_data_keys tl_exp_load tl_exp_store tl_exp_delete tl_data_reset tl_exp_reset tl_ret : tl.

Lemma once_expired k : once (expired k).
Proof.
  unfold expired. apply once_bind_l; [auto with tl|]. intros [d|]; [|apply once_tl; auto with tl].
  apply once_p_now. intros t. destruct (d <? t); repeat (apply tl_bind; [auto with tl|intros ?]); auto with tl.
Qed.
Lemma once_expires k d : once (expires k d).
Proof. unfold expires. destruct (d <=? 0); [apply once_tl; auto with tl|]. apply once_p_now. auto with tl. Qed.
Lemma once_c_get k : once (c_get k).
Proof.
  unfold c_get. apply once_bind_l; [auto with tl|]. intros [x|]; [|apply once_tl; auto with tl].
  apply once_bind_r; [apply once_expired|]. auto with tl.
Qed.
Lemma once_load_live k : once (load_live k).
Proof. apply once_c_get. Qed.
Lemma tl_incr_by k d : tl (incr_by k d).
Proof.
  unfold incr_by. apply tl_bind; [auto with tl|]. intros [v b]. destruct b; cbn [negb snd fst]; [|constructor].
  destruct (incr_val v d) as [[y n]|]; [|constructor]. apply tl_bind; auto with tl.
Qed.

(** the calls of [takes_lock] *)
Definition wlock (c : call) : Prop :=
  exists (A : Type) (b : prog A) (g : A -> reply), call_prog c = pmap g (locked b) /\ once b.
Lemma takes_lock_wlock c : takes_lock c -> wlock c.
Proof.
  destruct c; intros H; try destruct H; eexists _, _, _; (split; [reflexivity|]);
  repeat first
    [ match goal with
      | |- once (pbind (c_get _) _) => apply once_bind_r; [apply once_c_get|intros ?]
      | |- once (pbind (load_live _) _) => apply once_bind_r; [apply once_load_live|intros ?]
      | |- once (pbind (data_store _ _) (fun _ => pbind (expires _ _) _)) => apply once_bind_l; [auto with tl|intros ?]; apply once_bind_r; [apply once_expires|intros ?]
      | |- once (incr_by _ _) => apply once_tl, tl_incr_by
      | |- once (if ?x then _ else _) => destruct x; [apply once_tl; constructor|cbn zeta]
      | |- once _ => apply once_tl
      | |- tl (pbind (data_load_or_store _ _) _) => apply tl_bind; [auto with tl|intros []]
      | |- tl (pbind _ _) => apply tl_bind; [|intros ?]
      | |- tl (match ?x with _ => _ end) => destruct x
      | |- tl (let _ := _ in _) => cbn zeta
      end
    | solve [auto with tl] ].
  all: cbn [snd negb fst]; repeat match goal with |- tl (match ?x with _ => _ end) => destruct x | |- tl (if ?x then _ else _) => destruct x end; cbn zeta; repeat (apply tl_bind; [auto with tl|intros ?]); auto with tl.
Qed.

(** ** one goroutine inside its critical section, the clock ticking *)
Inductive bstep {R} : prog R * world -> prog R * world -> Prop :=
| bs_run f w w' p' : f w = Go w' p' -> bstep (Step f, w) (p', w')
| bs_tick p w t : w_now w <= t -> bstep (p, w) (p, set_now w t).

Lemma set_now_now w t t' : set_now (set_now w t) t' = set_now w t'.
Proof. reflexivity. Qed.
Lemma set_now_id w : set_now w (w_now w) = w.
Proof. destruct w. reflexivity. Qed.

Lemma tl_run_ {R} (x : prog R * world) y : rtc bstep x y -> forall r w', y = (Ret r, w') -> tl (fst x) ->
  w_now (snd x) <= w_now w' /\ forall t, eval (fst x) (set_now (snd x) t) = Done (set_now w' t) r.
Proof.
  induction 1 as [x|x y z Hs Hr IH]; intros r w' E Hp.
  - subst. cbn. split; [lia|reflexivity].
  - inversion Hs as [f w w1 p' E1|p w t Ht]; subst; cbn [fst snd] in *.
    + inversion Hp as [|f' H1 H2 H3]; subst. destruct (IH _ _ eq_refl (H3 _ _ _ E1)) as [Hn He].
      destruct (H2 _ _ _ E1) as (_ & _ & Hnow). split; [lia|]. intros t. cbn. rewrite H1, E1. cbn. apply He.
    + destruct (IH _ _ eq_refl Hp) as [Hn He]. cbn in Hn. split; [lia|]. intros t'. rewrite <- He. reflexivity.
Qed.
Lemma once_run_ {R} (x : prog R * world) y : rtc bstep x y -> forall r w', y = (Ret r, w') -> once (fst x) ->
  exists t, w_now (snd x) <= t <= w_now w' /\ eval (fst x) (set_now (snd x) t) = Done (set_now w' t) r.
Proof.
  induction 1 as [x|x y z Hs Hr IH]; intros r w' E Hp.
  - subst. cbn. exists (w_now w'). split; [lia|reflexivity].
  - assert (Htl : tl (fst x) -> exists t, w_now (snd x) <= t <= w_now w' /\ eval (fst x) (set_now (snd x) t) = Done (set_now w' t) r).
    { intros Ht. destruct (tl_run_ x z (rtc_l _ _ _ _ Hs Hr) _ _ E Ht) as [Hn He]. exists (w_now (snd x)). split; [lia|]. apply He. }
    inversion Hs as [f w w1 p' E1|p w t Ht]; subst; cbn [fst snd] in *.
    + inversion Hp as [? Ht|f' H1 H2 H3|f' k H1 H2]; subst; [auto| |].
      * destruct (IH _ _ eq_refl (H3 _ _ _ E1)) as (t & Hn & He). destruct (H2 _ _ _ E1) as (_ & _ & Hnow).
        exists t. split; [lia|]. cbn. rewrite H1, E1. cbn. exact He.
      * rewrite H1 in E1. injection E1 as <- <-. destruct (tl_run_ _ _ Hr _ _ eq_refl (H2 _)) as [Hn He]. cbn [fst snd] in *.
        exists (w_now w). split; [lia|]. cbn. rewrite H1. cbn. apply He.
    + destruct (IH _ _ eq_refl Hp) as (t' & Hn & He). cbn in Hn. exists t'. split; [lia|]. exact He.
Qed.
Lemma once_lock {R} (x y : prog R * world) : rtc bstep x y -> once (fst x) ->
  once (fst y) /\ w_writer (snd y) = w_writer (snd x) /\ w_readers (snd y) = w_readers (snd x) /\ w_now (snd x) <= w_now (snd y).
Proof.
  induction 1 as [x|x y z Hs Hr IH]; intros Hp; [repeat split; auto; try lia|].
  inversion Hs as [f w w1 p' E1|p w t Ht]; subst; cbn [fst snd] in *.
  - assert (once p' /\ same_lock w w1) as [Ho (L1 & L2 & L3)].
    { inversion Hp as [? Ht|f' H1 H2 H3|f' k H1 H2]; subst.
      - inversion Ht as [|f' H1 H2 H3]; subst. split; [apply once_tl; eauto|eauto].
      - eauto.
      - rewrite H1 in E1. injection E1 as <- <-. split; [apply once_tl, H2|repeat split]. }
    destruct (IH Ho) as (A & B & C & D). repeat split; auto; try congruence; try lia.
  - destruct (IH Hp) as (A & B & C & D). cbn in *. repeat split; auto; try lia.
Qed.

(** ** simulation *)
Lemma same_set_lock w ws b n t : set_now w 0 = set_now ws 0 -> set_now (set_lock w b n) t = set_now (set_lock ws b n) t.
Proof. destruct w, ws. unfold set_now, set_lock. cbn. intros H. injection H. intros. subst. reflexivity. Qed.
Lemma same_set_now w ws t : set_now w 0 = set_now ws 0 -> set_now w t = set_now ws t.
Proof. destruct w, ws. unfold set_now. cbn. intros H. injection H. intros. subst. reflexivity. Qed.
Lemma same_locks w ws : set_now w 0 = set_now ws 0 -> w_writer ws = w_writer w /\ w_readers ws = w_readers w.
Proof. destruct w, ws. unfold set_now. cbn. intros H. injection H. intros. subst. auto. Qed.
Definition fin {A} (b : prog A) (g : A -> reply) : prog reply :=
  pbind (pbind b (fun r => pbind p_unlock (fun _ => Ret r))) (fun x => Ret (g x)).
Definition outside (now : Z) (p : option (prog reply)) (s : option tst) : Prop :=
  match p, s with
  | None, None => True
  | Some p, Some (Called c t0) => t0 <= now /\ wlock c /\ p = call_prog c
  | Some p, Some (Decided r) => p = Ret r
  | _, _ => False
  end.
Definition free (c : conf) (m : gmap nat tst) (ws : world) : Prop :=
  w_writer (c_w c) = false /\ same_cache (c_w c) ws /\ forall i, outside (w_now (c_w c)) (c_th c !! i) (m !! i).
Definition held (c : conf) (m : gmap nat tst) (last : Z) (ws : world) : Prop :=
  exists h A (b0 b : prog A) g cl t0 wl,
    c_th c !! h = Some (fin b g) /\ m !! h = Some (Called cl t0) /\ call_prog cl = pmap g (locked b0) /\ once b0 /\
    w_writer ws = false /\ w_readers ws = 0%nat /\ set_now wl 0 = set_now (set_lock ws true 0) 0 /\
    t0 <= w_now wl /\ last <= w_now wl /\ rtc bstep (b0, wl) (b, c_w c) /\
    forall i, i <> h -> outside (w_now (c_w c)) (c_th c !! i) (m !! i).
Definition sim (c : conf) (m : gmap nat tst) (last : Z) (ws : world) : Prop :=
  last <= w_now (c_w c) /\ w_readers (c_w c) = 0%nat /\ (free c m ws \/ held c m last ws).

Lemma outside_later n n' p s : n <= n' -> outside n p s -> outside n' p s.
Proof. intros Hn. destruct p, s as [[]|]; cbn; auto. intros (A & B & C). split; [lia|auto]. Qed.

Lemma observed_app A B : observed (A ++ B) = observed A ++ observed B.
Proof. apply omap_app. Qed.

Lemma wlock_step c0 (w : world) : wlock c0 -> match call_prog c0 with
  | Step f => match f w with
              | Go w' p' => w_writer w = false /\ w_readers w = 0%nat /\ w' = set_lock w true 0 /\
                  exists (A : Type) (b : prog A) g, call_prog c0 = pmap g (locked b) /\ once b /\ p' = fin b g
              | Blocked => w_writer w = true \/ w_readers w <> 0%nat
              | Panic => False
              end
  | Ret _ => False
  end.
Proof.
  intros (A & b & g & E & Ho). rewrite E. cbn. destruct (w_writer w) eqn:Ew; cbn; [auto|].
  destruct (Nat.eqb_spec (w_readers w) 0) as [H|H]; cbn; [|auto].
  repeat split; auto. exists A, b, g. auto.
Qed.

Lemma sim_step w0 A c m last ws a c' e :
  lin_ok w0 A m (w_now (c_w c)) last ws -> sim c m last ws -> cstep a c = Some (c', e) -> calls_in wlock e ->
  exists B m' last' ws', lin_ok w0 (A ++ B) m' (w_now (c_w c')) last' ws' /\ observed B = e /\ sim c' m' last' ws'.
Proof.
  intros HA (Hlast & Hrd & Hs) E Hin. destruct a as [i cl|i|i|t]; cbn in E.
  - (* call *)
    destruct (c_th c !! i) eqn:Ei; [discriminate|]. injection E as <- <-. cbn [c_w c_th] in *.
    assert (Hw : wlock cl) by (apply (Hin i); left).
    assert (Hm : m !! i = None).
    { destruct Hs as [(_ & _ & Ho)|(h & X & b0 & b & g & cl' & t0 & wl & E1 & E2 & _ & _ & _ & _ & _ & _ & _ & _ & Ho)].
      - specialize (Ho i). rewrite Ei in Ho. destruct (m !! i) as [[]|]; [destruct Ho|destruct Ho|reflexivity].
      - destruct (decide (i = h)) as [->|Hne]; [congruence|]. specialize (Ho i Hne). rewrite Ei in Ho. destruct (m !! i) as [[]|]; [destruct Ho|destruct Ho|reflexivity]. }
    exists [IEv (EInv i cl)], (<[i := Called cl (w_now (c_w c))]> m), last, ws. split; [apply lo_inv; auto|]. split; [reflexivity|].
    assert (Hnew : forall j, j <> i \/ True -> outside (w_now (c_w c)) (c_th c !! j) (m !! j) ->
       outside (w_now (c_w c)) (<[i := call_prog cl]> (c_th c) !! j) (<[i := Called cl (w_now (c_w c))]> m !! j)).
    { intros j _ Hj. destruct (decide (j = i)) as [->|Hne]; [rewrite !lookup_insert; cbn; repeat split; auto; lia|]. rewrite !lookup_insert_ne by auto. exact Hj. }
    split; [exact Hlast|]. split; [exact Hrd|]. destruct Hs as [(H1 & H2 & Ho)|(h & X & b0 & b & g & cl' & t0 & wl & E1 & E2 & E3 & E4 & E5 & E6 & E7 & E8 & E9 & E10 & Ho)].
    + left. split; [exact H1|]. split; [exact H2|]. intros j. apply Hnew; auto.
    + right. assert (Hne : h <> i) by congruence. exists h, X, b0, b, g, cl', t0, wl. cbn [c_w c_th]. rewrite !lookup_insert_ne by auto.
      repeat (split; [assumption|]). intros j Hj. apply Hnew; auto.
  - (* run *)
    destruct (c_th c !! i) as [[r|f]|] eqn:Ei; try discriminate. destruct (f (c_w c)) as [w' p'| |] eqn:Ef; try discriminate. injection E as <- <-.
    destruct Hs as [(H1 & H2 & Ho)|(h & X & b0 & b & g & cl' & t0 & wl & E1 & E2 & E3 & E4 & E5 & E6 & E7 & E8 & E9 & E10 & Ho)].
    + (* takes the lock *)
      specialize (Ho i) as Hi. rewrite Ei in Hi. destruct (m !! i) as [[cl t0|r]|] eqn:Em; [|discriminate Hi|destruct Hi].
      destruct Hi as (Ht0 & Hw & Hp). pose proof (wlock_step cl (c_w c) Hw) as Hst. rewrite <- Hp, Ef in Hst.
      destruct Hst as (_ & _ & -> & X & b & g & Hc & Hon & ->).
      assert (Hf : w_writer ws = false /\ w_readers ws = 0%nat).
      { destruct (same_locks _ _ H2) as [L1 L2]. rewrite L1, L2. auto. }
      exists [], m, last, ws. rewrite app_nil_r. cbn [c_w c_th]. split; [exact HA|]. split; [reflexivity|].
      split; [exact Hlast|]. split; [reflexivity|]. right.
      exists i, X, b, b, g, cl, t0, (set_lock (c_w c) true 0). cbn [c_w c_th]. rewrite lookup_insert.
      split; [reflexivity|]. split; [exact Em|]. split; [rewrite <- Hp; exact Hc|]. split; [exact Hon|]. split; [apply Hf|]. split; [apply Hf|].
      split; [apply same_set_lock, H2|]. split; [exact Ht0|]. split; [exact Hlast|]. split; [constructor|].
      intros j Hj. rewrite lookup_insert_ne by auto. apply Ho.
    + pose proof (once_lock _ _ E10 E4) as (Hob & Hlk & Hrd' & Hnw). cbn [fst snd] in *.
      assert (Hww : w_writer (c_w c) = true).
      { rewrite Hlk. destruct (same_locks _ _ E7) as [L1 L2]. cbn in L1. congruence. }
      destruct (decide (i = h)) as [->|Hne].
      * (* the holder moves *)
        rewrite Ei in E1. injection E1 as E1. destruct b as [r|fb]; cbn in E1.
        -- (* unlock *)
           injection E1 as ->. rewrite Hww in Ef. injection Ef as <- <-.
           destruct (once_run_ _ _ E10 _ _ eq_refl E4) as (t & Ht & He). cbn [fst snd] in *.
           assert (Hrun : run_call t cl' ws = Done (set_lock (set_now (c_w c) t) false (w_readers (c_w c))) (g r)).
           { unfold run_call. rewrite E3. unfold pmap, locked. rewrite !eval_bind. cbn [eval p_lock atom].
             cbn [w_writer w_readers set_now]. rewrite E5, E6. cbn [orb negb Nat.eqb eval].
             rewrite eval_bind. replace (set_lock (set_now ws t) true 0) with (set_now wl t) by (rewrite (same_set_now _ _ t E7); reflexivity).
             rewrite He. cbn. rewrite Hww. reflexivity. }
           exists [ILin h t cl' (g r)], (<[h := Decided (g r)]> m), t, (set_lock (set_now (c_w c) t) false (w_readers (c_w c))).
           cbn [c_w c_th]. split; [|split; [reflexivity|]].
           ++ eapply lo_lin; eauto; try lia. cbn. lia.
           ++ split; [cbn; lia|]. split; [exact Hrd|]. left. split; [reflexivity|]. split; [reflexivity|].
              cbn [c_w c_th]. intros j. destruct (decide (j = h)) as [->|Hj]; [rewrite !lookup_insert; reflexivity|].
              rewrite !lookup_insert_ne by auto. apply Ho, Hj.
        -- injection E1 as ->. destruct (fb (c_w c)) as [w1 b1| |] eqn:Efb; cbn in Ef; try discriminate. injection Ef as <- <-.
           assert (Hrtc : rtc bstep (b0, wl) (b1, w1)) by (eapply rtc_r; [exact E10|]; constructor; exact Efb).
           pose proof (once_lock _ _ Hrtc E4) as (_ & Hlk1 & Hrd1 & Hnw1). cbn [fst snd] in *.
           assert (Hnow : w_now w1 = w_now (c_w c)).
           { inversion Hob as [? Ht|f' H1 H2 H3|f' k H1 H2]; subst.
             - inversion Ht as [|f' H1 H2 H3]; subst. eapply H2; eauto.
             - eapply H2; eauto.
             - rewrite H1 in Efb. injection Efb as <- <-. reflexivity. }
           exists [], m, last, ws. rewrite app_nil_r. cbn [c_w c_th]. rewrite Hnow. split; [exact HA|]. split; [reflexivity|].
           split; [cbn; lia|]. split; [cbn; congruence|]. right.
           exists h, X, b0, b1, g, cl', t0, wl. cbn [c_w c_th]. rewrite lookup_insert. rewrite Hnow.
           split; [reflexivity|]. repeat (split; [assumption|]). intros j Hj. rewrite lookup_insert_ne by auto. apply Ho, Hj.
      * (* another goroutine cannot move *)
        specialize (Ho i Hne). rewrite Ei in Ho. destruct (m !! i) as [[cl t1|r]|]; [|discriminate Ho|destruct Ho].
        destruct Ho as (_ & Hw & Hp). pose proof (wlock_step cl (c_w c) Hw) as Hst. rewrite <- Hp, Ef in Hst. destruct Hst as [Hst _]. congruence.
  - (* return *)
    destruct (c_th c !! i) as [[r|f]|] eqn:Ei; try discriminate. injection E as <- <-. cbn [c_w c_th] in *.
    assert (Hm : m !! i = Some (Decided r)).
    { destruct Hs as [(_ & _ & Ho)|(h & X & b0 & b & g & cl' & t0 & wl & E1 & E2 & _ & _ & _ & _ & _ & _ & _ & _ & Ho)].
      - specialize (Ho i). rewrite Ei in Ho. destruct (m !! i) as [[cl t0|r']|]; [|congruence|destruct Ho].
        destruct Ho as (_ & Hw & Hp). pose proof (wlock_step cl (c_w c) Hw) as Hst. rewrite <- Hp in Hst. destruct Hst.
      - destruct (decide (i = h)) as [->|Hne].
        + rewrite Ei in E1. injection E1 as E1. destruct b; discriminate E1.
        + specialize (Ho i Hne). rewrite Ei in Ho. destruct (m !! i) as [[cl t1|r']|]; [|congruence|destruct Ho].
          destruct Ho as (_ & Hw & Hp). pose proof (wlock_step cl (c_w c) Hw) as Hst. rewrite <- Hp in Hst. destruct Hst. }
    exists [IEv (ERet i r)], (delete i m), last, ws. split; [apply lo_ret; auto|]. split; [reflexivity|].
    assert (Hnew : forall j, outside (w_now (c_w c)) (c_th c !! j) (m !! j) ->
       outside (w_now (c_w c)) (delete i (c_th c) !! j) (delete i m !! j)).
    { intros j Hj. destruct (decide (j = i)) as [->|Hne]; [rewrite !lookup_delete; exact I|]. rewrite !lookup_delete_ne by auto. exact Hj. }
    split; [exact Hlast|]. split; [exact Hrd|]. destruct Hs as [(H1 & H2 & Ho)|(h & X & b0 & b & g & cl' & t0 & wl & E1 & E2 & E3 & E4 & E5 & E6 & E7 & E8 & E9 & E10 & Ho)].
    + left. split; [exact H1|]. split; [exact H2|]. intros j. apply Hnew, Ho.
    + right. assert (Hne : h <> i) by congruence. exists h, X, b0, b, g, cl', t0, wl. cbn [c_w c_th]. rewrite !lookup_delete_ne by auto.
      repeat (split; [assumption|]). intros j Hj. apply Hnew, Ho, Hj.
  - (* tick *)
    destruct (Z.leb_spec (w_now (c_w c)) t) as [Ht|]; [|discriminate]. injection E as <- <-. cbn [c_w c_th] in *.
    exists [IEv (ETick t)], m, last, ws. cbn [w_now set_now]. split; [eapply lo_tick; eauto|]. split; [reflexivity|].
    split; [cbn; lia|]. split; [exact Hrd|]. destruct Hs as [(H1 & H2 & Ho)|(h & X & b0 & b & g & cl' & t0 & wl & E1 & E2 & E3 & E4 & E5 & E6 & E7 & E8 & E9 & E10 & Ho)].
    + left. split; [exact H1|]. split; [exact H2|]. intros j. eapply outside_later; [exact Ht|apply Ho].
    + right. exists h, X, b0, b, g, cl', t0, wl. cbn [c_w c_th]. repeat (split; [assumption|]). split; [eapply rtc_r; [exact E10|]; constructor; exact Ht|].
      intros j Hj. eapply outside_later; [exact Ht|apply Ho, Hj].
Qed.

Lemma lin_exec w0 s c evs :
  w_writer w0 = false -> w_readers w0 = 0%nat -> calls_in wlock evs -> cexec s (start w0) = Some (c, evs) ->
  exists A m last ws, lin_ok w0 A m (w_now (c_w c)) last ws /\ observed A = evs /\ sim c m last ws.
Proof.
  intros H1 H2 Hc E.
  refine (cexec_inv (fun c evs => calls_in wlock evs -> exists A m last ws, lin_ok w0 A m (w_now (c_w c)) last ws /\ observed A = evs /\ sim c m last ws)
    s (start w0) c evs _ [] _ E Hc).
  - intros c1 evs1 a c2 e IH Es Hin. apply calls_in_app in Hin as [Hi1 Hi2]. destruct (IH Hi1) as (A & m & last & ws & HA & Hobs & Hsim).
    destruct (sim_step _ _ _ _ _ _ _ _ _ HA Hsim Es Hi2) as (B & m' & last' & ws' & HB & HoB & Hsim').
    exists (A ++ B), m', last', ws'. split; [exact HB|]. split; [rewrite observed_app; congruence|exact Hsim'].
  - intros _. exists [], ∅, (w_now w0), w0. split; [constructor|]. split; [reflexivity|]. split; [cbn; lia|]. split; [exact H2|].
    left. split; [exact H1|]. split; [reflexivity|]. intros i. cbn. rewrite !lookup_empty. exact I.
Qed.

(** what [lin_ok] says in terms of sequential histories *)
Lemma lin_ok_hist w0 A m clk last ws : lin_ok w0 A m clk last ws ->
  run_hist (lin_calls A) w0 = Done ws (lin_replies A).
Proof.
  induction 1 as [|A m clk last ws i c H IH|A m clk last ws t H IH|A m clk last ws i c t0 t ws' r H IH Hm H1 H2 H3 Hr|A m clk last ws i r H IH];
    unfold lin_calls, lin_replies in *; rewrite ?omap_app; cbn [omap list_omap app]; rewrite ?app_nil_r; auto.
  revert IH Hr. generalize (omap (fun x => match x with ILin _ _ _ r => Some r | _ => None end) A).
  generalize (omap (fun x => match x with ILin _ t c _ => Some (t, c) | _ => None end) A). clear. intros l.
  revert w0. induction l as [|[t1 c1] l IHl]; intros w0 rs E Hr; cbn in *.
  - injection E as <- <-. rewrite Hr. reflexivity.
  - destruct (run_call t1 c1 w0) as [w1 x| |]; try discriminate.
    destruct (run_hist l w1) as [w2 xs| |] eqn:E2; try discriminate. injection E as <- <-. rewrite (IHl _ _ E2 Hr). reflexivity.
Qed.
