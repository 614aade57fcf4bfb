(** * ConcOwn: goroutines that work on different keys (proof machinery)

    A run in which two groups of goroutines use disjoint sets of keys is followed, step by step, by two smaller runs, one per
    group. [WR P r u w]: the world [u] of one group agrees with the shared world [w] on the keys in [P]; [r] pairs the hash
    objects (the two worlds allocate them at different addresses). *)
From stdpp Require Import gmap.
From Verif Require Import Base GoFloat CacheModel CacheSpec CacheAbs CacheConc ConcLin ConcSafe.

Definition lrel := positive -> positive -> Prop.
Definition lsub (r r' : lrel) : Prop := forall a b, r a b -> r' a b.
Lemma lsub_refl r : lsub r r. Proof. intros a b H; exact H. Qed.
Lemma lsub_trans r r' r'' : lsub r r' -> lsub r' r'' -> lsub r r''. Proof. intros H1 H2 a b H; auto. Qed.
Definition vrel (r : lrel) (v1 v2 : gval) : Prop :=
  match v1, v2 with
  | VHash a, VHash b => r a b
  | VHash _, _ | _, VHash _ => False
  | _, _ => v1 = v2
  end.
Definition orel (r : lrel) (v1 v2 : option gval) : Prop :=
  match v1, v2 with Some x, Some y => vrel r x y | None, None => True | _, _ => False end.
Lemma vrel_cases r v1 v2 : vrel r v1 v2 -> (v1 = v2 /\ scalar v1) \/ exists a b, v1 = VHash a /\ v2 = VHash b /\ r a b.
Proof. destruct v1, v2; cbn; intros H; try contradiction; try (left; split; [exact H|exact I]); try discriminate. right. eauto. Qed.
Lemma vrel_refl r v : scalar v -> vrel r v v.
Proof. destruct v; cbn; tauto. Qed.
Lemma vrel_mono r r' v1 v2 : lsub r r' -> vrel r v1 v2 -> vrel r' v1 v2.
Proof. intros H. destruct v1, v2; cbn; auto. Qed.
Lemma orel_mono r r' v1 v2 : lsub r r' -> orel r v1 v2 -> orel r' v1 v2.
Proof. intros H. destruct v1, v2; cbn; auto. apply vrel_mono, H. Qed.

Inductive hold := HN | HR | HW.
Definition lk (h : hold) (u w : world) : Prop :=
  (w_writer u = true -> w_writer w = true) /\ (w_readers u <= w_readers w)%nat /\
  match h with HN => True | HR => w_readers u <> 0%nat | HW => w_writer u = true end.
Definition leff (h h' : hold) (w w' : world) : Prop :=
  match h, h' with
  | HN, HW => w_writer w = false /\ w_readers w = 0%nat /\ w_writer w' = true /\ w_readers w' = 0%nat
  | HW, HN => w_writer w = true /\ w_writer w' = false /\ w_readers w' = w_readers w
  | HN, HR => w_writer w = false /\ w_writer w' = false /\ w_readers w' = S (w_readers w)
  | HR, HN => w_writer w' = w_writer w /\ w_readers w = S (w_readers w')
  | HN, HN | HR, HR | HW, HW => w_writer w' = w_writer w /\ w_readers w' = w_readers w
  | _, _ => False
  end.
Lemma leff_same h w w' : w_writer w' = w_writer w -> w_readers w' = w_readers w -> leff h h w w'.
Proof. destruct h; cbn; auto. Qed.

Record WR (P : gostr -> Prop) (r : lrel) (u w : world) : Prop := {
  wr_du : is_Some (w_data u); wr_dw : is_Some (w_data w);
  wr_eu : is_Some (w_exp u); wr_ew : is_Some (w_exp w);
  wr_now : w_now u = w_now w;
  wr_data : forall k, P k -> orel r (stored u k) (stored w k);
  wr_exp : forall k, P k -> deadline u k = deadline w k;
  wr_heap : forall a b, r a b -> exists o, w_heap u !! a = Some o /\ w_heap w !! b = Some o;
  wr_next : forall a b, r a b -> (a < w_next u)%positive /\ (b < w_next w)%positive;
  wr_inj : forall a b a' b', r a b -> r a' b' -> (a = a' <-> b = b') }.
(** what a step of one group leaves alone *)
Record frame (P : gostr -> Prop) (r r' : lrel) (w w' : world) : Prop := {
  fr_data : is_Some (w_data w'); fr_exp : is_Some (w_exp w');
  fr_stored : forall k, ~ P k -> stored w' k = stored w k;
  fr_dead : forall k, ~ P k -> deadline w' k = deadline w k;
  fr_heap : forall b, (b < w_next w)%positive -> (forall a, ~ r a b) -> w_heap w' !! b = w_heap w !! b;
  fr_next : (w_next w <= w_next w')%positive;
  fr_now : w_now w' = w_now w;
  fr_new : forall a b, r' a b -> r a b \/ (w_next w <= b)%positive }.
Definition apart (r s : lrel) : Prop := forall a a' b, r a b -> s a' b -> False.
Lemma frame_other (P P' : gostr -> Prop) r r' s v w w' : (forall k, P' k -> ~ P k) -> frame P r r' w w' -> apart r s -> WR P' s v w -> WR P' s v w' /\ apart r' s.
Proof.
  intros HP F A W. split.
  - split; try apply W; try apply F.
    + rewrite (fr_now _ _ _ _ _ F). apply W.
    + intros k Hk. rewrite (fr_stored _ _ _ _ _ F) by auto. apply W, Hk.
    + intros k Hk. rewrite (fr_dead _ _ _ _ _ F) by auto. apply W, Hk.
    + intros a b Hs. rewrite (fr_heap _ _ _ _ _ F); [apply W, Hs|apply (wr_next _ _ _ _ W _ _ Hs)|]. intros a' Ha. eapply A; eauto.
    + intros a b Hs. destruct (wr_next _ _ _ _ W _ _ Hs) as [H1 H2]. split; [exact H1|]. pose proof (fr_next _ _ _ _ _ F). lia.
  - intros a a' b Hr Hs. destruct (fr_new _ _ _ _ _ F _ _ Hr) as [H|H]; [eapply A; eauto|].
    destruct (wr_next _ _ _ _ W _ _ Hs). lia.
Qed.

Section Sim.
Context (P : gostr -> Prop).
(** [p1], run in the group's own world, follows [p2], run in the shared world *)
Fixpoint sim {R} (p1 p2 : prog R) (r : lrel) (h : hold) (Q : lrel -> hold -> R -> R -> Prop) {struct p1} : Prop :=
  match p1 with
  | Ret x => match p2 with Ret y => Q r h x y | Step _ => False end
  | Step f =>
    match p2 with
    | Ret _ => False
    | Step g =>
      forall r1 u w w' p2', lsub r r1 -> WR P r1 u w -> lk h u w -> g w = Go w' p2' ->
        match f u with
        | Go u' p1' => exists r2 h', lsub r1 r2 /\ WR P r2 u' w' /\ frame P r1 r2 w w' /\ leff h h' u u' /\ leff h h' w w' /\ sim p1' p2' r2 h' Q
        | _ => False
        end
    end
  end.
Lemma sim_mono {R} (Q : lrel -> hold -> R -> R -> Prop) p1 : forall p2 r r' h,
  (forall r r' h x y, lsub r r' -> Q r h x y -> Q r' h x y) -> lsub r r' -> sim p1 p2 r h Q -> sim p1 p2 r' h Q.
Proof.
  destruct p1 as [x|f]; intros [y|g] r r' h HQ Hr; cbn; auto; [eauto|].
  intros H r1 u w w' p2' H1. apply H. eapply lsub_trans; eauto.
Qed.
Lemma sim_bind {A B} (Q' : lrel -> hold -> A -> A -> Prop) (Q : lrel -> hold -> B -> B -> Prop) p1 : forall p2 r h k1 k2,
  sim p1 p2 r h Q' -> (forall r' h' x y, lsub r r' -> Q' r' h' x y -> sim (k1 x) (k2 y) r' h' Q) ->
  sim (pbind p1 k1) (pbind p2 k2) r h Q.
Proof.
  induction p1 as [x|f IH] using prog_ind'; intros [y|g] r h k1 k2 Hp Hk; cbn in *; try contradiction; [apply Hk; [apply lsub_refl|exact Hp]|].
  intros r1 u w w' p2' H1 H2 H3 E. destruct (g w) as [w1 q| |] eqn:Eg; try discriminate E. injection E as -> <-.
  specialize (Hp r1 u w w' q H1 H2 H3 Eg). destruct (f u) as [u1 p1'| |] eqn:Ef; try contradiction.
  destruct Hp as (r2 & h' & H4 & H5 & H6 & H7 & H8 & H9). exists r2, h'. do 5 (split; [assumption|]).
  eapply IH; [exact Ef|exact H9|]. intros r' h'' x y Hr. apply Hk. eapply lsub_trans; [exact H1|]. eapply lsub_trans; eauto.
Qed.
Lemma sim_atom {A} (Q : lrel -> hold -> A -> A -> Prop) r h (f g : world -> ares A) :
  (forall r1 u w w' y, lsub r r1 -> WR P r1 u w -> lk h u w -> g w = Go w' y ->
     exists u' x r2 h', f u = Go u' x /\ lsub r1 r2 /\ WR P r2 u' w' /\ frame P r1 r2 w w' /\ leff h h' u u' /\ leff h h' w w' /\ Q r2 h' x y) ->
  sim (atom f) (atom g) r h Q.
Proof.
  intros H. unfold atom. cbn. intros r1 u w w' p2' H1 H2 H3 E. destruct (g w) as [w1 y| |] eqn:Eg; try discriminate E. injection E as -> <-.
  destruct (H r1 u w w' y H1 H2 H3 Eg) as (u' & x & r2 & h' & -> & HH). exists r2, h'. exact HH.
Qed.
Lemma sim_panic {A} r h Q : sim (@panic A) panic r h Q.
Proof. cbn. intros. discriminate. Qed.

Definition keep {A} (h : hold) (R : lrel -> A -> A -> Prop) : lrel -> hold -> A -> A -> Prop := fun r h' x y => h' = h /\ R r x y.
Definition same {A} : lrel -> A -> A -> Prop := fun _ x y => x = y.
Lemma frame_refl r w : is_Some (w_data w) -> is_Some (w_exp w) -> frame P r r w w.
Proof. intros H1 H2. split; auto; try reflexivity. Qed.
Ltac same_world r1 HW := exists r1; eexists; (split; [reflexivity|]); (split; [apply lsub_refl|]); (split; [exact HW|]);
  (split; [apply frame_refl; [apply (wr_dw _ _ _ _ HW)|apply (wr_ew _ _ _ _ HW)]|]); (split; [apply leff_same; reflexivity|]); (split; [apply leff_same; reflexivity|]).
Lemma stored_eq w d k : w_data w = Some d -> stored w k = d !! k. Proof. unfold stored. intros ->. reflexivity. Qed.
Lemma dead_eq w d k : w_exp w = Some d -> deadline w k = d !! k. Proof. unfold deadline. intros ->. reflexivity. Qed.

Lemma sm_now r h : sim p_now p_now r h (keep h same).
Proof.
  apply sim_atom. intros r1 u w w' y H1 HW HL [= <- <-]. exists u, (w_now u). same_world r1 HW. split; [reflexivity|]. apply HW.
Qed.
Lemma sm_data_load k r h : P k -> sim (data_load k) (data_load k) r h (keep h orel).
Proof.
  intros Hk. apply sim_atom. intros r1 u w w' y H1 HW HL.
  destruct (wr_du _ _ _ _ HW) as [du Eu], (wr_dw _ _ _ _ HW) as [dw Ew]. rewrite Ew. intros [= <- <-]. exists u, (du !! k). rewrite Eu. same_world r1 HW.
  split; [reflexivity|]. rewrite <- (stored_eq _ _ _ Eu), <- (stored_eq _ _ _ Ew). apply HW, Hk.
Qed.
Lemma sm_exp_load k r h : P k -> sim (exp_load k) (exp_load k) r h (keep h same).
Proof.
  intros Hk. apply sim_atom. intros r1 u w w' y H1 HW HL.
  destruct (wr_eu _ _ _ _ HW) as [du Eu], (wr_ew _ _ _ _ HW) as [dw Ew]. rewrite Ew. intros [= <- <-]. exists u, (du !! k). rewrite Eu. same_world r1 HW.
  split; [reflexivity|]. unfold same. rewrite <- (dead_eq _ _ _ Eu), <- (dead_eq _ _ _ Ew). apply HW, Hk.
Qed.
(** replacing the entry of one key *)
Lemma wr_set_data r u w du dw k v1 v2 : w_data u = Some du -> w_data w = Some dw -> P k -> orel r v1 v2 -> WR P r u w ->
  WR P r (set_data u (partial_alter (fun _ => v1) k du)) (set_data w (partial_alter (fun _ => v2) k dw)) /\
  frame P r r w (set_data w (partial_alter (fun _ => v2) k dw)).
Proof.
  intros Eu Ew Hk Hv HW. split.
  - split; cbn; try apply HW; eauto. intros k' Hk'. unfold stored. cbn. destruct (decide (k' = k)) as [->|Hn]; [rewrite !lookup_partial_alter; exact Hv|].
    rewrite !lookup_partial_alter_ne by auto. rewrite <- (stored_eq _ _ _ Eu), <- (stored_eq _ _ _ Ew). apply HW, Hk'.
  - split; cbn; try reflexivity; eauto; try apply HW.
    intros k' Hk'. unfold stored. cbn. rewrite Ew. apply lookup_partial_alter_ne. intros ->. contradiction.
Qed.
Lemma wr_set_exp r u w du dw k v : w_exp u = Some du -> w_exp w = Some dw -> P k -> WR P r u w ->
  WR P r (set_exp u (partial_alter (fun _ => v) k du)) (set_exp w (partial_alter (fun _ => v) k dw)) /\
  frame P r r w (set_exp w (partial_alter (fun _ => v) k dw)).
Proof.
  intros Eu Ew Hk HW. split.
  - split; cbn; try apply HW; eauto. intros k' Hk'. unfold deadline. cbn. destruct (decide (k' = k)) as [->|Hn]; [rewrite !lookup_partial_alter; reflexivity|].
    rewrite !lookup_partial_alter_ne by auto. rewrite <- (dead_eq _ _ _ Eu), <- (dead_eq _ _ _ Ew). apply HW, Hk'.
  - split; cbn; try reflexivity; eauto; try apply HW.
    intros k' Hk'. unfold deadline. cbn. rewrite Ew. apply lookup_partial_alter_ne. intros ->. contradiction.
Qed.
Ltac upd_world r1 H1 H2 := exists r1; eexists; (split; [reflexivity|]); (split; [apply lsub_refl|]); (split; [exact H1|]);
  (split; [exact H2|]); (split; [apply leff_same; reflexivity|]); (split; [apply leff_same; reflexivity|]).
Lemma sm_data_store k v1 v2 r h : P k -> vrel r v1 v2 -> sim (data_store k v1) (data_store k v2) r h (keep h same).
Proof.
  intros Hk Hv. apply sim_atom. intros r1 u w w' y H1 HW HL.
  destruct (wr_du _ _ _ _ HW) as [du Eu], (wr_dw _ _ _ _ HW) as [dw Ew]. rewrite Ew. intros [= <- <-]. eexists _, _. rewrite Eu.
  destruct (wr_set_data r1 u w du dw k (Some v1) (Some v2) Eu Ew Hk) as [Ha Hb]; [exact (vrel_mono _ _ _ _ H1 Hv)|exact HW|].
  upd_world r1 Ha Hb. split; reflexivity.
Qed.
Lemma sm_data_delete k r h : P k -> sim (data_delete k) (data_delete k) r h (keep h same).
Proof.
  intros Hk. apply sim_atom. intros r1 u w w' y H1 HW HL.
  destruct (wr_du _ _ _ _ HW) as [du Eu], (wr_dw _ _ _ _ HW) as [dw Ew]. rewrite Ew. intros [= <- <-]. eexists _, _. rewrite Eu.
  destruct (wr_set_data r1 u w du dw k None None Eu Ew Hk I HW) as [Ha Hb]. upd_world r1 Ha Hb. split; reflexivity.
Qed.
Lemma sm_exp_store k t r h : P k -> sim (exp_store k t) (exp_store k t) r h (keep h same).
Proof.
  intros Hk. apply sim_atom. intros r1 u w w' y H1 HW HL.
  destruct (wr_eu _ _ _ _ HW) as [du Eu], (wr_ew _ _ _ _ HW) as [dw Ew]. rewrite Ew. intros [= <- <-]. eexists _, _. rewrite Eu.
  destruct (wr_set_exp r1 u w du dw k (Some t) Eu Ew Hk HW) as [Ha Hb]. upd_world r1 Ha Hb. split; reflexivity.
Qed.
Lemma sm_exp_delete k r h : P k -> sim (exp_delete k) (exp_delete k) r h (keep h same).
Proof.
  intros Hk. apply sim_atom. intros r1 u w w' y H1 HW HL.
  destruct (wr_eu _ _ _ _ HW) as [du Eu], (wr_ew _ _ _ _ HW) as [dw Ew]. rewrite Ew. intros [= <- <-]. eexists _, _. rewrite Eu.
  destruct (wr_set_exp r1 u w du dw k None Eu Ew Hk HW) as [Ha Hb]. upd_world r1 Ha Hb. split; reflexivity.
Qed.
Definition losrel (r : lrel) (x y : gval * bool) : Prop := vrel r x.1 y.1 /\ x.2 = y.2.
Lemma sm_data_los k v r h : P k -> scalar v -> sim (data_load_or_store k v) (data_load_or_store k v) r h (keep h losrel).
Proof.
  intros Hk Hv. apply sim_atom. intros r1 u w w' y H1 HW HL.
  destruct (wr_du _ _ _ _ HW) as [du Eu], (wr_dw _ _ _ _ HW) as [dw Ew]. rewrite Ew, Eu.
  pose proof (wr_data _ _ _ _ HW k Hk) as Hd. rewrite (stored_eq _ _ _ Eu), (stored_eq _ _ _ Ew) in Hd.
  destruct (du !! k) as [x1|], (dw !! k) as [x2|]; cbn in Hd; try contradiction; intros [= <- <-]; eexists _, _.
  - same_world r1 HW. split; [reflexivity|]. split; [exact Hd|reflexivity].
  - destruct (wr_set_data r1 u w du dw k (Some v) (Some v) Eu Ew Hk) as [Ha Hb]; [exact (vrel_refl _ _ Hv)|exact HW|].
    upd_world r1 Ha Hb. split; [reflexivity|]. split; [exact (vrel_refl _ _ Hv)|reflexivity].
Qed.
Lemma sm_h {A} a b (g : hobj -> hobj * A) (r : lrel) h : r a b -> sim (h_atom a g) (h_atom b g) r h (keep h same).
Proof.
  intros Hab. apply sim_atom. intros r1 u w w' y H1 HW HL. pose proof (H1 _ _ Hab) as Hr.
  destruct (wr_heap _ _ _ _ HW _ _ Hr) as (o & Eu & Ew). rewrite Ew, Eu. destruct (g o) as [o' x]. intros [= <- <-]. eexists _, _.
  eexists r1, _. split; [reflexivity|]. split; [apply lsub_refl|]. split; [|split; [|split; [apply leff_same; reflexivity|split; [apply leff_same; reflexivity|]]]].
  - split; cbn; try apply HW. intros a' b' Hr'. destruct (wr_inj _ _ _ _ HW _ _ _ _ Hr Hr') as [Hi1 Hi2].
    destruct (decide (a = a')) as [->|Hn].
    + rewrite <- (Hi1 eq_refl), !lookup_insert. eauto.
    + rewrite !lookup_insert_ne by auto. apply HW, Hr'.
  - split; cbn; try reflexivity; try apply HW; auto. intros b' _ Hb. apply lookup_insert_ne. intros ->. exact (Hb _ Hr).
  - split; reflexivity.
Qed.
Lemma sm_alloc r h : sim h_alloc h_alloc r h (keep h (fun r a b => r a b)).
Proof.
  apply sim_atom. intros r1 u w w' y H1 HW HL [= <- <-]. eexists _, _. exists (fun a b => r1 a b \/ (a = w_next u /\ b = w_next w)), h.
  split; [reflexivity|]. split; [intros a b; auto|]. split; [|split; [|split; [apply leff_same; reflexivity|split; [apply leff_same; reflexivity|]]]].
  - split; cbn; try apply HW.
    + intros k Hk. eapply orel_mono; [|apply (wr_data _ _ _ _ HW k Hk)]. intros a b; auto.
    + intros a b [Hr|[-> ->]]; [|rewrite !lookup_insert; eauto]. destruct (wr_next _ _ _ _ HW _ _ Hr). rewrite !lookup_insert_ne by lia. apply HW, Hr.
    + intros a b [Hr|[-> ->]]; [|lia]. destruct (wr_next _ _ _ _ HW _ _ Hr). lia.
    + intros a b a' b' [Hr|[-> ->]] [Hr'|[-> ->]]; [apply (wr_inj _ _ _ _ HW _ _ _ _ Hr Hr')|destruct (wr_next _ _ _ _ HW _ _ Hr); lia|destruct (wr_next _ _ _ _ HW _ _ Hr'); lia|tauto].
  - split; cbn; try reflexivity; try apply HW; try lia.
    + intros b Hb _. apply lookup_insert_ne. lia.
    + intros a b [Hr|[-> ->]]; [left; exact Hr|right; lia].
  - split; [reflexivity|]. right. split; reflexivity.
Qed.
(** the lock *)
Ltac lock_world r1 HW h' := eexists _, _; exists r1, h'; (split; [reflexivity|]); (split; [apply lsub_refl|]);
  (split; [split; cbn; apply HW|]); (split; [split; cbn; try reflexivity; try apply HW; auto|]).
Lemma sm_lock r : sim p_lock p_lock r HN (fun _ h' _ _ => h' = HW).
Proof.
  apply sim_atom. intros r1 u w w' y H1 HWr (L1 & L2 & _).
  destruct (w_writer w) eqn:E1; [discriminate|]. destruct (w_readers w) as [|n] eqn:E2; [|discriminate]. cbn. intros [= <- <-].
  assert (w_writer u = false) as -> by (destruct (w_writer u); auto; discriminate (L1 eq_refl)).
  assert (w_readers u = 0%nat) as Er by lia. rewrite Er. lock_world r1 HWr HW. cbn. repeat split; auto; try lia.
Qed.
Lemma sm_unlock r : sim p_unlock p_unlock r HW (fun _ h' _ _ => h' = HN).
Proof.
  apply sim_atom. intros r1 u w w' y H1 HWr (L1 & L2 & L3). cbn in L3. rewrite (L1 L3), L3. intros [= <- <-].
  lock_world r1 HWr HN. cbn. repeat split; auto.
Qed.
Lemma sm_rlock r : sim p_rlock p_rlock r HN (fun _ h' _ _ => h' = HR).
Proof.
  apply sim_atom. intros r1 u w w' y H1 HWr (L1 & L2 & _). destruct (w_writer w) eqn:E1; [discriminate|]. intros [= <- <-].
  assert (w_writer u = false) as Eu by (destruct (w_writer u); auto; discriminate (L1 eq_refl)). rewrite Eu.
  lock_world r1 HWr HR. cbn. repeat split; auto.
Qed.
Lemma sm_runlock r : sim p_runlock p_runlock r HR (fun _ h' _ _ => h' = HN).
Proof.
  apply sim_atom. intros r1 u w w' y H1 HWr (L1 & L2 & L3). cbn in L3.
  destruct (w_readers u) as [|m] eqn:Eu; [contradiction|]. destruct (w_readers w) as [|n] eqn:Ew; [lia|]. intros [= <- <-].
  lock_world r1 HWr HN. cbn. repeat split; auto.
Qed.
Lemma sim_locked {A} (R : lrel -> A -> A -> Prop) p r : (forall r r' x y, lsub r r' -> R r x y -> R r' x y) ->
  (forall r h, sim p p r h (keep h R)) -> sim (locked p) (locked p) r HN (keep HN R).
Proof.
  intros HR Hp. unfold locked. eapply sim_bind; [apply sm_lock|]. intros r1 h1 x1 y1 _ ->. eapply sim_bind; [apply Hp|]. intros r2 h2 x2 y2 _ [-> Hxy].
  eapply sim_bind; [apply sm_unlock|]. intros r3 h3 x3 y3 Hr ->. cbn. split; [reflexivity|]. eapply HR; eauto.
Qed.
Lemma sim_rlocked {A} (R : lrel -> A -> A -> Prop) p r : (forall r r' x y, lsub r r' -> R r x y -> R r' x y) ->
  (forall r h, sim p p r h (keep h R)) -> sim (rlocked p) (rlocked p) r HN (keep HN R).
Proof.
  intros HR Hp. unfold rlocked. eapply sim_bind; [apply sm_rlock|]. intros r1 h1 x1 y1 _ ->. eapply sim_bind; [apply Hp|]. intros r2 h2 x2 y2 _ [-> Hxy].
  eapply sim_bind; [apply sm_runlock|]. intros r3 h3 x3 y3 Hr ->. cbn. split; [reflexivity|]. eapply HR; eauto.
Qed.

(** ** the helpers *)
Lemma sm_ret {A} (x : A) r h : sim (Ret x) (Ret x) r h (keep h same). Proof. cbn. split; reflexivity. Qed.
Lemma sm_seq {A B} (p p' : prog A) (k1 k2 : A -> prog B) r h Q : sim p p' r h (keep h same) ->
  (forall r' x, lsub r r' -> sim (k1 x) (k2 x) r' h Q) -> sim (pbind p k1) (pbind p' k2) r h Q.
Proof. intros Hp Hk. eapply sim_bind; [exact Hp|]. intros r' h' x y Hr [-> E]. unfold same in E. subst y. apply Hk, Hr. Qed.
Lemma sm_expired k r h : P k -> sim (expired k) (expired k) r h (keep h same).
Proof.
  intros Hk. unfold expired. apply sm_seq; [apply sm_exp_load, Hk|]. intros r1 [d|] _; [|apply sm_ret].
  apply sm_seq; [apply sm_now|]. intros r2 t _. destruct (d <? t); [|apply sm_ret].
  apply sm_seq; [apply sm_data_delete, Hk|]. intros r3 _ _. apply sm_seq; [apply sm_exp_delete, Hk|]. intros. apply sm_ret.
Qed.
Lemma sm_expires k d r h : P k -> sim (expires k d) (expires k d) r h (keep h same).
Proof.
  intros Hk. unfold expires. destruct (d <=? 0); [apply sm_exp_delete, Hk|]. apply sm_seq; [apply sm_now|]. intros. apply sm_exp_store, Hk.
Qed.
Lemma sm_c_get k r h : P k -> sim (c_get k) (c_get k) r h (keep h orel).
Proof.
  intros Hk. unfold c_get. eapply sim_bind; [apply sm_data_load, Hk|]. intros r1 h1 x y Hr [-> Ho].
  destruct x as [x|], y as [y|]; cbn in Ho; try contradiction; [|cbn; split; [reflexivity|exact I]].
  eapply sim_bind; [apply sm_expired, Hk|]. intros r2 h2 e e' Hr2 [-> <-]. destruct e; cbn; (split; [reflexivity|]); [exact I|]. exact (vrel_mono _ _ _ _ Hr2 Ho).
Qed.
Lemma sm_load_live k r h : P k -> sim (load_live k) (load_live k) r h (keep h orel).
Proof. exact (sm_c_get k r h). Qed.
(** a value read from the cache: both sides got the same plain value, or both a hash *)
Lemma sm_got {B} (p : prog (option gval)) (k : option gval -> prog B) r h Q :
  sim p p r h (keep h orel) ->
  (forall r' x, lsub r r' -> match x with Some v => scalar v | None => True end -> sim (k x) (k x) r' h Q) ->
  (forall r' (a b : positive), lsub r r' -> (r' : lrel) a b -> sim (k (Some (VHash a))) (k (Some (VHash b))) r' h Q) ->
  sim (pbind p k) (pbind p k) r h Q.
Proof.
  intros Hp H1 H2. eapply sim_bind; [exact Hp|]. intros r' h' x y Hr [-> Ho]. destruct x as [x|], y as [y|]; cbn in Ho; try contradiction.
  - destruct (vrel_cases _ _ _ Ho) as [[-> Hs]|(a & b & -> & -> & Hab)]; [apply H1; auto|apply H2; auto].
  - apply H1; auto.
Qed.
Lemma sm_los {B} (p : prog (gval * bool)) (k : gval * bool -> prog B) r h Q :
  sim p p r h (keep h losrel) ->
  (forall r' x, lsub r r' -> scalar x.1 -> sim (k x) (k x) r' h Q) ->
  (forall r' (a b : positive) e, lsub r r' -> (r' : lrel) a b -> sim (k (VHash a, e)) (k (VHash b, e)) r' h Q) ->
  sim (pbind p k) (pbind p k) r h Q.
Proof.
  intros Hp H1 H2. eapply sim_bind; [exact Hp|]. intros r' h' [x e] [y e'] Hr [-> [Ho He]]. cbn in Ho, He. subst e'.
  destruct (vrel_cases _ _ _ Ho) as [[-> Hs]|(a & b & -> & -> & Hab)]; [apply H1; auto|apply H2; auto].
Qed.
Lemma incr_scalar v d v' n : incr_val v d = Some (v', n) -> scalar v'.
Proof. destruct v; cbn; intros [= <- <-]; exact I. Qed.
Lemma sm_incr_by k d r h : P k -> sim (incr_by k d) (incr_by k d) r h (keep h same).
Proof.
  intros Hk. unfold incr_by. apply sm_los; [apply sm_data_los; [exact Hk|exact I]| |].
  - intros r1 [x e] Hr Hs. cbn [fst snd] in *. destruct e; cbn [negb]; [|apply sm_ret]. destruct (incr_val x d) as [[v n]|] eqn:E; [|apply sm_ret].
    apply sm_seq; [|intros; apply sm_ret]. apply sm_data_store; [exact Hk|]. apply vrel_refl. eapply incr_scalar; eauto.
  - intros r1 a b e Hr Hab. cbn [fst snd incr_val]. destruct e; cbn [negb]; apply sm_ret.
Qed.
Lemma sm_he_get a b f (r : lrel) h : r a b -> sim (he_get a f) (he_get b f) r h (keep h same).
Proof. intros Hab. unfold he_get. eapply sm_seq; [apply sm_h, Hab|]. intros r1 x _. apply sm_ret. Qed.
Lemma sm_he_set a b f v (r : lrel) h : r a b -> sim (he_set a f v) (he_set b f v) r h (keep h same).
Proof.
  intros Hab. unfold he_set. eapply sm_seq; [apply sm_h, Hab|]. intros r1 x H1. cbn zeta. eapply sm_seq.
  { destruct (snd x); [apply sm_h; auto|apply sm_ret]. }
  intros r2 x2 H2. eapply sm_seq; [apply sm_h; auto|]. intros r3 x3 H3. eapply sm_seq; [apply sm_h; auto|]. intros r4 x4 H4. apply sm_ret.
Qed.
Definition hrel (r : lrel) (x y : hres) : Prop :=
  match x, y with HEntry a, HEntry b => r a b | HNil, HNil | HWrong, HWrong => True | _, _ => False end.
Lemma sm_ghe k r h : P k -> sim (get_hash_entry k) (get_hash_entry k) r h (keep h hrel).
Proof.
  intros Hk. unfold get_hash_entry. apply sm_got; [apply sm_c_get, Hk| |].
  - intros r1 x _ Hx. cbn. split; [reflexivity|]. destruct x as [[]|]; cbn; auto. contradiction.
  - intros r1 a b _ Hab. cbn. split; [reflexivity|exact Hab].
Qed.
Lemma sm_gon k x y r h : P k -> hrel r x y -> sim (get_or_new k x) (get_or_new k y) r h (keep h (fun r a b => r a b)).
Proof.
  intros Hk Hx. assert (Hn : sim (new_hash k) (new_hash k) r h (keep h (fun r a b => r a b))).
  { unfold new_hash. eapply sim_bind; [apply sm_alloc|]. intros r1 h1 a b H1 [-> Hab]. eapply sim_bind; [apply sm_data_store; [exact Hk|exact Hab]|].
    intros r2 h2 _ _ H2 [-> _]. cbn. split; [reflexivity|]. apply H2, Hab. }
  destruct x, y; cbn in Hx; try contradiction; cbn [get_or_new]; auto. cbn. split; [reflexivity|exact Hx].
Qed.
Lemma sm_mset kv : forall r h, Forall P (map fst kv) -> sim (mset_loop kv) (mset_loop kv) r h (keep h same).
Proof.
  induction kv as [|[k v] t IH]; intros r h HP; cbn [mset_loop]; [apply sm_ret|]. inversion HP; subst.
  apply sm_seq; [apply sm_data_store; [assumption|apply vrel_refl, try_scalar]|]. intros. apply IH. assumption.
Qed.
Lemma sm_msetnx kv : forall n r h, Forall P (map fst kv) -> sim (msetnx_loop kv n) (msetnx_loop kv n) r h (keep h same).
Proof.
  induction kv as [|[k v] t IH]; intros n r h HP; cbn [msetnx_loop]; [apply sm_ret|]. inversion HP; subst.
  apply sm_los; [apply sm_data_los; [assumption|apply try_scalar]| |]; intros; apply IH; assumption.
Qed.
Lemma sm_mget ks : forall r h, Forall P ks -> sim (mget_loop ks) (mget_loop ks) r h (keep h same).
Proof.
  induction ks as [|k t IH]; intros r h HP; cbn [mget_loop]; [apply sm_ret|]. inversion HP; subst.
  apply sm_got; [apply sm_c_get; assumption| |]; intros; (apply sm_seq; [apply IH; assumption|]); intros; apply sm_ret.
Qed.
Lemma sm_exists ks : forall n r h, Forall P ks -> sim (exists_loop ks n) (exists_loop ks n) r h (keep h same).
Proof.
  induction ks as [|k t IH]; intros n r h HP; cbn [exists_loop]; [apply sm_ret|]. inversion HP; subst.
  apply sm_got; [apply sm_data_load; assumption| |]; intros; apply IH; assumption.
Qed.
Lemma sm_hdel a b fs : forall n (r : lrel) h, r a b -> sim (hdel_loop a fs n) (hdel_loop b fs n) r h (keep h same).
Proof.
  induction fs as [|f t IH]; intros n r h Hab; cbn [hdel_loop]; [apply sm_ret|].
  eapply sm_seq; [apply sm_he_get, Hab|]. intros r1 x H1. destruct x; [|apply IH; auto].
  eapply sm_seq; [apply sm_h; auto|]. intros r2 ? H2. apply IH; auto.
Qed.
Lemma sm_hmset a b fs : forall n (r : lrel) h, r a b -> sim (hmset_loop a fs n) (hmset_loop b fs n) r h (keep h same).
Proof.
  induction fs as [|[f v] t IH]; intros n r h Hab; cbn [hmset_loop]; [apply sm_ret|].
  eapply sm_seq; [apply sm_he_set, Hab|]. intros r1 x H1. apply IH; auto.
Qed.
Lemma hrel_mono r r' x y : lsub r r' -> hrel r x y -> hrel r' x y.
Proof. intros H. destruct x, y; cbn; auto. Qed.
Lemma sm_hmget x y fs : forall (r : lrel) h, hrel r x y -> sim (hmget_loop x fs) (hmget_loop y fs) r h (keep h same).
Proof.
  induction fs as [|f t IH]; intros r h Hab; cbn [hmget_loop]; [apply sm_ret|].
  eapply sm_seq.
  { destruct x, y; cbn in Hab; try contradiction; try apply sm_ret.
    eapply sm_seq; [apply sm_he_get, Hab|]. intros r1 v _. apply sm_ret. }
  intros r1 s H1. eapply sm_seq; [apply IH; eapply hrel_mono; eauto|]. intros r2 q H2. apply sm_ret.
Qed.
Lemma sm_visit a b ks : forall (r : lrel) h, r a b -> sim (h_visit a ks) (h_visit b ks) r h (keep h same).
Proof.
  induction ks as [|f t IH]; intros r h Hab; cbn [h_visit]; [apply sm_ret|].
  eapply sm_seq; [apply sm_h, Hab|]. intros r1 v H1. eapply sm_seq; [apply IH; auto|]. intros r2 q _. apply sm_ret.
Qed.
Lemma sm_range a b (r : lrel) h : r a b -> sim (h_range a) (h_range b) r h (keep h same).
Proof. intros Hab. unfold h_range. eapply sm_seq; [apply sm_h, Hab|]. intros r1 x H1. apply sm_visit; auto. Qed.
Lemma sm_store_then {B} k s (x : B) r h : P k -> sim (data_store k (try_int64 s);;; Ret x) (data_store k (try_int64 s);;; Ret x) r h (keep h same).
Proof. intros Hk. apply sm_seq; [apply sm_data_store; [exact Hk|apply vrel_refl, try_scalar]|]. intros. apply sm_ret. Qed.
Lemma same_mono {A} r r' (x y : A) : lsub r r' -> same r x y -> same r' x y. Proof. intros _ H. exact H. Qed.
Lemma sm_pmap {A B} (g : A -> B) p r : sim p p r HN (keep HN same) -> sim (pmap g p) (pmap g p) r HN (keep HN same).
Proof. intros H. unfold pmap. apply sm_seq; [exact H|]. intros. apply sm_ret. Qed.
(** the hash calls: find or create the entry, then work on it *)
Lemma sm_hash {B} k (q : hres -> prog B) r : P k ->
  (forall r' x y, hrel r' x y -> sim (q x) (q y) r' HN (keep HN same)) ->
  sim (do hh <- get_hash_entry k; q hh) (do hh <- get_hash_entry k; q hh) r HN (keep HN same).
Proof. intros Hk Hq. eapply sim_bind; [apply sm_ghe, Hk|]. intros r1 h1 x y _ [-> Hx]. apply Hq, Hx. Qed.
Ltac leaf := first
  [ apply sm_ret | apply sim_panic | apply sm_now
  | apply sm_expired; assumption | apply sm_expires; assumption | apply sm_exp_delete; assumption | apply sm_data_delete; assumption
  | apply sm_incr_by; assumption
  | apply sm_data_store; [assumption|apply vrel_refl; first [apply try_scalar|exact I]]
  | apply sm_mset; assumption | apply sm_msetnx; assumption | apply sm_mget; assumption | apply sm_exists; assumption
  | eapply sm_h; solve [eauto] | apply sm_he_get; solve [eauto] | apply sm_he_set; solve [eauto] | apply sm_hdel; solve [eauto]
  | apply sm_hmset; solve [eauto] | apply sm_range; solve [eauto] | apply sm_hmget; solve [eauto using hrel_mono] ].
Ltac sgo := repeat first
  [ leaf
  | match goal with
    | |- sim (pbind (c_get _) _) _ _ _ _ => apply sm_got; [apply sm_c_get; assumption| |]; intros
    | |- sim (pbind (load_live _) _) _ _ _ _ => apply sm_got; [apply sm_load_live; assumption| |]; intros
    | |- sim (pbind (data_load _) _) _ _ _ _ => apply sm_got; [apply sm_data_load; assumption| |]; intros
    | |- sim (pbind (data_load_or_store _ _) _) _ _ _ _ => apply sm_los; [apply sm_data_los; [assumption|first [apply try_scalar|exact I]]| |]; intros; cbn [fst snd fmt_string negb]
    | |- sim (pbind (get_or_new _ _) _) _ _ _ _ =>
        eapply sim_bind; [apply sm_gon; [assumption|cbn [hrel]; solve [eauto]]|]; let H := fresh "Hab" in intros ? ? ? ? ? [-> H]
    | |- sim (pbind _ _) _ _ _ _ => eapply sm_seq; [leaf|]; intros
    | |- sim (match ?x with _ => _ end) _ _ _ _ => destruct x eqn:?
    | |- sim (let _ := _ in _) _ _ _ _ => cbn zeta
    end; cbn [fmt_string fst snd negb] ].
Lemma sm_call c ks r : keys_of c = Some ks -> Forall P ks -> sim (call_prog c) (call_prog c) r HN (keep HN same).
Proof.
  intros Ek HP. destruct c; cbn in Ek; try discriminate Ek; injection Ek as <-; cbn [call_prog]; apply sm_pmap;
    try (assert (Hk : P k) by (inversion HP; assumption)).
  all: unf; try (first [apply sim_locked|apply sim_rlocked]; [apply same_mono|intros ? ?]).
  all: try (eapply sim_bind; [apply sm_ghe; assumption|]; intros r1 h1 x y H1 [-> Hx]; destruct x, y; cbn in Hx; try contradiction).
  all: try solve [sgo].
  (* HDel: the count is corrected only if something was deleted *)
  eapply sm_seq; [apply sm_hdel, Hx|]. intros r2 n H2. eapply sm_seq; [|intros; apply sm_ret].
  destruct (n =? 0); [apply sm_ret|]. sgo.
Qed.
End Sim.

(** ** whole runs *)
(** The actions and the events of a group of goroutines, and the clock. *)
Definition act_of (G : nat -> bool) (a : act) : bool :=
  match a with AInv i _ | ARun i | ARet i => G i | ATick _ => true end.
Definition event_of (G : nat -> bool) (e : event) : bool :=
  match e with EInv i _ | ERet i _ => G i | ETick _ => true end.

(** the members of the group inside a call: own program, shared program, hold on the lock *)
Definition thr (P : gostr -> Prop) (r : lrel) (Wr : option nat) (Rd : gset nat) (i : nat) (o1 o2 : option (prog reply)) : Prop :=
  match o1, o2 with
  | None, None => Wr <> Some i /\ i ∉ Rd
  | Some p1, Some p2 => exists h, (Wr = Some i <-> h = HW) /\ (i ∈ Rd <-> h = HR) /\ sim P p1 p2 r h (keep HN same)
  | _, _ => False
  end.
(** the lock of the group's own world *)
Definition lkst (Wr : option nat) (Rd : gset nat) (u : world) : Prop :=
  w_writer u = bool_decide (is_Some Wr) /\ w_readers u = size Rd.
Record side (P : gostr -> Prop) (G : nat -> bool) (r : lrel) (cu c : conf) : Prop := {
  sd_wr : WR P r (c_w cu) (c_w c);
  sd_lk : exists Wr Rd, lkst Wr Rd (c_w cu) /\
            forall i, G i = true -> thr P r Wr Rd i (c_th cu !! i) (c_th c !! i) }.
Record both (P P' : gostr -> Prop) (G : nat -> bool) (cu cv c : conf) : Prop := {
  bo_lr : exists r s, apart r s /\ side P G r cu c /\ side P' (fun i => negb (G i)) s cv c;
  bo_w : w_writer (c_w c) = w_writer (c_w cu) || w_writer (c_w cv);
  bo_1 : w_writer (c_w cu) && w_writer (c_w cv) = false;
  bo_r : w_readers (c_w c) = (w_readers (c_w cu) + w_readers (c_w cv))%nat }.

Lemma thr_mono P r r' Wr Rd i o1 o2 : lsub r r' -> thr P r Wr Rd i o1 o2 -> thr P r' Wr Rd i o1 o2.
Proof.
  intros Hr. destruct o1, o2; cbn; auto. intros (h & H1 & H2 & H3). exists h. split; [exact H1|]. split; [exact H2|].
  eapply sim_mono; [|exact Hr|exact H3]. intros ? ? ? ? ? _ H. exact H.
Qed.

Lemma thr_same P r Wr Rd Wr' Rd' i o1 o2 : (Wr' = Some i <-> Wr = Some i) -> (i ∈ Rd' <-> i ∈ Rd) -> thr P r Wr Rd i o1 o2 -> thr P r Wr' Rd' i o1 o2.
Proof. intros H1 H2. destruct o1, o2; cbn; auto; [|tauto]. intros (h & H3 & H4 & H5). exists h. tauto. Qed.
Lemma holders Wr Rd u u' h h' i : lkst Wr Rd u -> (Wr = Some i <-> h = HW) -> (i ∈ Rd <-> h = HR) -> leff h h' u u' ->
  exists Wr' Rd', lkst Wr' Rd' u' /\ (Wr' = Some i <-> h' = HW) /\ (i ∈ Rd' <-> h' = HR) /\
    forall j, j <> i -> (Wr' = Some j <-> Wr = Some j) /\ (j ∈ Rd' <-> j ∈ Rd).
Proof.
  intros [L1 L2] Hw Hr HE. destruct h, h'; cbn in HE; try contradiction.
  - exists Wr, Rd. destruct HE as [E1 E2]. unfold lkst. rewrite E1, E2. tauto.
  - destruct HE as (E0 & E1 & E2). assert (Hi : i ∉ Rd) by (rewrite Hr; discriminate).
    exists Wr, ({[i]} ∪ Rd). unfold lkst. rewrite E1, E2, L2, <- L1, E0. split; [split; [reflexivity|rewrite size_union by set_solver; rewrite size_singleton; lia]|].
    split; [rewrite Hw; split; discriminate|]. split; [split; [auto|set_solver]|]. intros j Hj. split; [tauto|set_solver].
  - destruct HE as (E0 & E1 & E2 & E3). assert (Wr = None) as ->.
    { destruct Wr; [|reflexivity]. rewrite E0 in L1. rewrite bool_decide_eq_true_2 in L1 by eauto. discriminate. }
    exists (Some i), Rd. unfold lkst. rewrite E2, E3, <- L2, E1. split; [split; [symmetry; apply bool_decide_eq_true_2; eauto|reflexivity]|].
    split; [tauto|]. split; [rewrite Hr; split; discriminate|]. intros j Hj. split; [split; congruence|tauto].
  - destruct HE as (E1 & E2). assert (Hi : i ∈ Rd) by (rewrite Hr; reflexivity).
    exists Wr, (Rd ∖ {[i]}). unfold lkst. rewrite E1. split; [split; [exact L1|]|].
    { rewrite size_difference by set_solver. rewrite size_singleton. lia. }
    split; [rewrite Hw; split; discriminate|]. split; [split; [set_solver|discriminate]|]. intros j Hj. split; [tauto|set_solver].
  - exists Wr, Rd. destruct HE as [E1 E2]. unfold lkst. rewrite E1, E2. tauto.
  - destruct HE as (E0 & E1 & E2). assert (Wr = Some i) as -> by (apply Hw; reflexivity).
    exists None, Rd. unfold lkst. rewrite E1, E2. split; [split; [reflexivity|exact L2]|].
    split; [split; discriminate|]. split; [rewrite Hr; split; discriminate|]. intros j Hj. split; [split; congruence|tauto].
  - exists Wr, Rd. destruct HE as [E1 E2]. unfold lkst. rewrite E1, E2. tauto.
Qed.
Lemma lk_of Wr Rd i h u v w : lkst Wr Rd u -> (Wr = Some i <-> h = HW) -> (i ∈ Rd <-> h = HR) ->
  w_writer w = w_writer u || w_writer v -> w_readers w = (w_readers u + w_readers v)%nat -> lk h u w.
Proof.
  intros [L1 L2] Hw Hr E1 E2. split; [rewrite E1; intros ->; reflexivity|]. split; [lia|]. destruct h; [exact I| |].
  - rewrite L2. intros Hs. apply size_empty_iff in Hs. assert (i ∈ Rd) by (apply Hr; reflexivity). set_solver.
  - rewrite L1. apply bool_decide_eq_true_2. exists i. apply Hw. reflexivity.
Qed.
Definition mine (G : nat -> bool) (a : act) : Prop := match a with AInv i _ | ARun i | ARet i => G i = true | ATick _ => False end.
Definition within (P : gostr -> Prop) (cl : CacheModel.call) : Prop := exists ks, keys_of cl = Some ks /\ Forall P ks.
(** One step of the shared run by a member of the group. *)
Lemma both_step (P P' : gostr -> Prop) G cu cv c c' e a :
  (forall k, P' k -> ~ P k) -> mine G a -> (forall i cl, a = AInv i cl -> within P cl) ->
  both P P' G cu cv c -> cstep a c = Some (c', e) -> exists cu', cstep a cu = Some (cu', e) /\ both P P' G cu' cv c'.
Proof.
  intros HPP Hm Hc [(r & s & HA & [W1 (Wr & Rd & L1 & T1)] & [W2 (Wr2 & Rd2 & L2 & T2)]) Bw B1 Br] E.
  assert (Hother : forall i (th' : gmap nat (prog reply)), G i = true -> (forall j, j <> i -> th' !! j = c_th c !! j) ->
            forall j, negb (G j) = true -> thr P' s Wr2 Rd2 j (c_th cv !! j) (th' !! j)).
  { intros i th' Hi Hth j Hj. rewrite Hth; [apply T2, Hj|]. intros ->. rewrite Hi in Hj. discriminate. }
  destruct a as [i cl|i|i|t]; cbn in Hm, E; [| | |contradiction]; pose proof (T1 i Hm) as Ti.
  - destruct (c_th c !! i) as [|] eqn:Ei; [discriminate|]. injection E as <- <-. cbn [cstep]. destruct (c_th cu !! i) as [|] eqn:Eu; cbn in Ti; [contradiction|].
    eexists. split; [reflexivity|]. split; cbn [c_w]; auto. exists r, s. split; [exact HA|]. split; (split; cbn [c_w c_th]; [assumption|]).
    + exists Wr, Rd. split; [exact L1|]. intros j Hj. destruct (decide (j = i)) as [->|Hn]; [rewrite !lookup_insert|rewrite !lookup_insert_ne by auto; apply T1, Hj].
      destruct (Hc i cl eq_refl) as (ks & Hk & HP). exists HN. split; [split; [tauto|discriminate]|]. split; [split; [tauto|discriminate]|].
      eapply sm_call; eauto.
    + exists Wr2, Rd2. split; [exact L2|]. apply Hother with i; [exact Hm|]. intros j Hj. apply lookup_insert_ne; auto.
  - destruct (c_th c !! i) as [[y|g]|] eqn:Ei; try discriminate. destruct (g (c_w c)) as [w' p2'| |] eqn:Eg; try discriminate. injection E as <- <-.
    cbn [cstep]. destruct (c_th cu !! i) as [p1|] eqn:Eu; cbn in Ti; [|contradiction]. destruct Ti as (h & Hw & Hr & Hs). destruct p1 as [x|f]; cbn in Hs; [contradiction|].
    specialize (Hs r (c_w cu) (c_w c) w' p2' (lsub_refl r) W1 (lk_of _ _ _ _ _ _ _ L1 Hw Hr Bw Br) Eg).
    destruct (f (c_w cu)) as [u' p1'| |] eqn:Ef; try contradiction. destruct Hs as (r2 & h' & Hr2 & W1' & F & E1 & E2 & Hs').
    eexists. split; [reflexivity|]. destruct (frame_other P P' r r2 s _ _ _ HPP F HA W2) as [W2' HA'].
    destruct (holders _ _ _ _ _ _ _ L1 Hw Hr E1) as (Wr' & Rd' & L1' & Hw' & Hr' & Hj').
    split; cbn [c_w c_th].
    + exists r2, s. split; [exact HA'|]. split; (split; cbn [c_w c_th]; [assumption|]).
      * exists Wr', Rd'. split; [exact L1'|]. intros j Hj. destruct (decide (j = i)) as [->|Hn].
        -- rewrite !lookup_insert. exists h'. auto.
        -- rewrite !lookup_insert_ne by auto. eapply thr_mono; [exact Hr2|]. destruct (Hj' j Hn). eapply thr_same; [eassumption..|]. apply T1, Hj.
      * exists Wr2, Rd2. split; [exact L2|]. apply Hother with i; [exact Hm|]. intros j Hj. apply lookup_insert_ne; auto.
    + destruct h, h'; cbn in E1, E2; try contradiction; destruct (w_writer (c_w cu)), (w_writer (c_w cv)), (w_writer u'), (w_writer w'); cbn in *; intuition congruence.
    + destruct h, h'; cbn in E1, E2; try contradiction; destruct (w_writer (c_w cu)), (w_writer (c_w cv)), (w_writer u'), (w_writer w'); cbn in *; intuition congruence.
    + destruct h, h'; cbn in E1, E2; try contradiction; intuition lia.
  - destruct (c_th c !! i) as [[y|g]|] eqn:Ei; try discriminate. injection E as <- <-. cbn [cstep].
    destruct (c_th cu !! i) as [p1|] eqn:Eu; cbn in Ti; [|contradiction]. destruct Ti as (h & Hw & Hr & Hs). destruct p1 as [x|f]; cbn in Hs; [|contradiction].
    destruct Hs as [-> Hs]. unfold same in Hs. subst y. eexists. split; [reflexivity|]. split; cbn [c_w]; auto. exists r, s. split; [exact HA|]. split; (split; cbn [c_w c_th]; [assumption|]).
    + exists Wr, Rd. split; [exact L1|]. intros j Hj. destruct (decide (j = i)) as [->|Hn]; [rewrite !lookup_delete|rewrite !lookup_delete_ne by auto; apply T1, Hj].
      cbn. split; [rewrite Hw; discriminate|rewrite Hr; discriminate].
    + exists Wr2, Rd2. split; [exact L2|]. apply Hother with i; [exact Hm|]. intros j Hj. apply lookup_delete_ne; auto.
Qed.
Lemma side_ext P G G' r cu c : (forall i, G i = G' i) -> side P G r cu c -> side P G' r cu c.
Proof. intros HG [H1 (Wr & Rd & H2 & H3)]. split; [exact H1|]. exists Wr, Rd. split; [exact H2|]. intros i Hi. apply H3. rewrite HG. exact Hi. Qed.
Lemma both_swap P P' G cu cv c : both P P' G cu cv c -> both P' P (fun i => negb (G i)) cv cu c.
Proof.
  intros [(r & s & HA & S1 & S2) Bw B1 Br]. split.
  - exists s, r. split; [intros a a' b H1 H2; exact (HA _ _ _ H2 H1)|]. split; [exact S2|]. eapply side_ext; [|exact S1]. intros i. destruct (G i); reflexivity.
  - rewrite Bw. apply orb_comm.
  - rewrite andb_comm. exact B1.
  - lia.
Qed.
Lemma both_swap' P P' G cu cv c : both P' P (fun i => negb (G i)) cv cu c -> both P P' G cu cv c.
Proof.
  intros H. destruct (both_swap _ _ _ _ _ _ H) as [(r & s & HA & S1 & S2) Bw B1 Br]. split; auto. exists r, s. split; [exact HA|].
  split; (eapply side_ext; [|eassumption]); intros i; cbn; destruct (G i); reflexivity.
Qed.
Lemma WR_tick P r u w t : WR P r u w -> WR P r (set_now u t) (set_now w t).
Proof. intros W. split; try apply W. reflexivity. Qed.
Lemma both_tick P P' G cu cv c t : both P P' G cu cv c ->
  both P P' G (Conf (set_now (c_w cu) t) (c_th cu)) (Conf (set_now (c_w cv) t) (c_th cv)) (Conf (set_now (c_w c) t) (c_th c)).
Proof.
  intros [(r & s & HA & [W1 H1] & [W2 H2]) Bw B1 Br]. split; auto. exists r, s. split; [exact HA|]. split; (split; [apply WR_tick; assumption|assumption]).
Qed.

Lemma both_run (P P' : gostr -> Prop) G : (forall k, P k -> ~ P' k) -> forall sc cu cv c c' evs, both P P' G cu cv c ->
  (forall i cl, EInv i cl ∈ evs -> within (if G i then P else P') cl) -> cexec sc c = Some (c', evs) ->
  exists cu' cv', cexec (List.filter (act_of G) sc) cu = Some (cu', List.filter (event_of G) evs) /\ both P P' G cu' cv' c'.
Proof.
  intros HP sc. induction sc as [|a sc IH]; intros cu cv c c' evs HB Hc E; cbn in E; [injection E as <- <-; exists cu, cv; split; [reflexivity|exact HB]|].
  destruct (cstep a c) as [[c1 e]|] eqn:Ea; [|discriminate]. destruct (cexec sc c1) as [[c2 es]|] eqn:Er; [|discriminate]. injection E as <- <-.
  assert (Hc2 : forall i cl, EInv i cl ∈ es -> within (if G i then P else P') cl) by (intros i cl Hi; apply Hc; rewrite elem_of_app; auto).
  assert (Hc1 : forall i cl, a = AInv i cl -> within (if G i then P else P') cl).
  { intros i cl ->. apply Hc. cbn in Ea. destruct (c_th c !! i); [discriminate|]. injection Ea as <- <-. rewrite elem_of_app. left. apply elem_of_list_here. }
  assert (He : List.filter (event_of G) e = if act_of G a then e else []).
  { destruct a as [i cl|i|i|t]; cbn in Ea; repeat case_match; simplify_eq; cbn in *; repeat case_match; congruence. }
  rewrite filter_app, He. cbn [List.filter]. destruct (act_of G a) eqn:Eo.
  - destruct a as [i cl|i|i|t].
    4:{ cbn in Ea. destruct (Z.leb_spec (w_now (c_w c)) t); [|discriminate]. injection Ea as <- <-.
        destruct (IH _ _ _ _ _ (both_tick _ _ _ _ _ _ t HB) Hc2 Er) as (cu' & cv' & E1 & HB'). exists cu', cv'. split; [|exact HB'].
        destruct HB as [(r & s & _ & [W1 _] & _) _ _ _]. cbn. rewrite (wr_now _ _ _ _ W1). destruct (Z.leb_spec (w_now (c_w c)) t); [|lia]. rewrite E1. reflexivity. }
    all: match type of Ea with cstep ?a _ = _ =>
           destruct (both_step P P' G cu cv c c1 e a (fun k H1 H2 => HP k H2 H1) Eo) as (cu1 & E1 & HB1);
           [intros i0 cl0 Hi; specialize (Hc1 i0 cl0 Hi); try discriminate Hi; injection Hi as <- <-; cbn in Eo; rewrite Eo in Hc1; exact Hc1|exact HB|exact Ea|] end;
         destruct (IH _ _ _ _ _ HB1 Hc2 Er) as (cu' & cv' & E2 & HB'); exists cu', cv'; (split; [|exact HB']); cbn [cexec]; rewrite E1, E2; reflexivity.
  - assert (Hm : mine (fun i => negb (G i)) a) by (destruct a; cbn in Eo |- *; try (rewrite Eo; reflexivity); discriminate).
    destruct (both_step P' P (fun i => negb (G i)) cv cu c c1 e a HP Hm) as (cv1 & E1 & HB1); [|apply both_swap, HB|exact Ea|].
    + intros i cl ->. specialize (Hc1 i cl eq_refl). cbn in Eo. rewrite Eo in Hc1. exact Hc1.
    + apply both_swap' in HB1. destruct (IH _ _ _ _ _ HB1 Hc2 Er) as (cu' & cv' & E2 & HB'). exists cu', cv'. split; [exact E2|exact HB'].
Qed.
Lemma both_start (P P' : gostr -> Prop) G w0 : (forall k, P k -> ~ P' k) -> ready w0 -> both P P' G (start w0) (start w0) (start w0).
Proof.
  intros HP [H1 H2 (d & Ed & Hv & Hi) H4 H5 H6].
  set (own := fun (P : gostr -> Prop) a b => (a : positive) = b /\ exists k, P k /\ stored w0 k = Some (VHash a)).
  assert (HW : forall P, WR P (own P) w0 w0).
  { intros P0. split; eauto.
    - intros k Hk. destruct (stored w0 k) as [[]|] eqn:Es; cbn; auto. split; [reflexivity|]. eauto.
    - intros a b [<- (k & _ & Hs)]. rewrite (stored_eq _ _ _ Ed) in Hs. destruct (Hv _ _ Hs) as [o Ho]. eauto.
    - intros a b [<- (k & _ & Hs)]. rewrite (stored_eq _ _ _ Ed) in Hs. split; apply H5; eauto.
    - intros a b a' b' [<- _] [<- _]. tauto. }
  assert (HS : forall P G, side P G (own P) (start w0) (start w0)).
  { intros P0 G0. split; [apply HW|]. exists None, ∅. split; [split; cbn; [exact H1|rewrite H2; reflexivity]|]. intros i _. cbn. rewrite lookup_empty. split; [discriminate|set_solver]. }
  split; cbn; rewrite ?H1, ?H2; try reflexivity. exists (own P), (own P'). split; [|split; apply HS].
  intros a a' b [-> (k & Hk & Hs)] [-> (k' & Hk' & Hs')]. rewrite (stored_eq _ _ _ Ed) in Hs; rewrite (stored_eq _ _ _ Ed) in Hs'.
  rewrite (Hi _ _ _ Hs Hs') in Hk. exact (HP _ Hk Hk').
Qed.
Lemma WR_view P r u w k : WR P r u w -> P k -> view u k = view w k.
Proof.
  intros W Hk. pose proof (wr_data _ _ _ _ W k Hk) as Hd. pose proof (wr_exp _ _ _ _ W k Hk) as He.
  destruct (wr_du _ _ _ _ W) as [du Eu], (wr_dw _ _ _ _ W) as [dw Ew], (wr_eu _ _ _ _ W) as [eu Fu], (wr_ew _ _ _ _ W) as [ew Fw].
  rewrite (stored_eq _ _ _ Eu), (stored_eq _ _ _ Ew) in Hd. rewrite (dead_eq _ _ _ Fu), (dead_eq _ _ _ Fw) in He.
  unfold view. rewrite Eu, Ew, Fu, Fw, He. f_equal. unfold cellat. destruct (du !! k) as [x|], (dw !! k) as [y|]; cbn in Hd; try contradiction; [|reflexivity].
  destruct (vrel_cases _ _ _ Hd) as [[-> Hs]|(a & b & -> & -> & Hab)].
  - destruct y; try reflexivity. contradiction.
  - destruct (wr_heap _ _ _ _ W _ _ Hab) as (o & E1 & E2). cbn. rewrite E1, E2. reflexivity.
Qed.

(** ** the clock: no call moves it *)
Inductive kn {R} : prog R -> Prop :=
| kn_ret r : kn (Ret r)
| kn_step f : (forall w w' p', f w = Go w' p' -> w_now w' = w_now w) -> (forall w w' p', f w = Go w' p' -> kn p') -> kn (Step f).
Lemma kn_bind {A B} (p : prog A) (k : A -> prog B) : kn p -> (forall x, kn (k x)) -> kn (pbind p k).
Proof.
  intros Hp Hk. induction Hp as [r|f H1 H2 IH]; cbn; [apply Hk|]. constructor; intros w w' p'; (destruct (f w) as [w1 p1| |] eqn:E; try discriminate); intros [= <- <-]; eauto.
Qed.
Lemma kn_atom {A} (f : world -> ares A) : (forall w w' a, f w = Go w' a -> w_now w' = w_now w) -> kn (atom f).
Proof. intros H. constructor; intros w w' p'; (destruct (f w) eqn:E; try discriminate); intros [= <- <-]; [eauto|constructor]. Qed.
Lemma kn_h {A} l (g : hobj -> hobj * A) : kn (h_atom l g).
Proof. apply kn_atom. intros w w' a. destruct (w_heap w !! l); [|discriminate]. destruct (g h). intros [= <- <-]. reflexivity. Qed.
Ltac kngo := repeat first
  [ apply kn_ret | assumption
  | match goal with
    | |- kn (pbind _ _) => apply kn_bind; [|intros ?]
    | |- kn (h_atom _ _) => apply kn_h
    | |- kn (match ?x with _ => _ end) => destruct x
    | |- kn (atom _) => apply kn_atom; let w := fresh in intros w ? ?; destruct w; cbn; repeat case_match; intros; simplify_eq; reflexivity
    | |- kn (if _ then _ else _) => case_match
    | |- kn panic => constructor; discriminate
    end
  | progress unfold p_lock, p_unlock, p_rlock, p_runlock, p_now, data_load, data_store, data_delete, data_load_or_store, data_keys, exp_load, exp_store, exp_delete,
      data_reset, exp_reset, h_alloc, h_load, h_store, h_delete, h_load_or_store, h_get_len, h_set_len, h_keys, locked, rlocked, expired, expires, c_get, load_live, incr_by,
      he_get, he_set, get_hash_entry, get_or_new, new_hash, h_range
  | progress cbn zeta ].
Lemma kn_mset kv : kn (mset_loop kv). Proof. induction kv as [|[k v] r IH]; cbn [mset_loop]; kngo. Qed.
Lemma kn_msetnx kv : forall n, kn (msetnx_loop kv n). Proof. induction kv as [|[k v] r IH]; intros n; cbn [msetnx_loop]; [kngo|]. apply kn_bind; [kngo|auto]. Qed.
Lemma kn_mget ks : kn (mget_loop ks). Proof. induction ks as [|k r IH]; cbn [mget_loop]; kngo. Qed.
Lemma kn_exists ks : forall n, kn (exists_loop ks n). Proof. induction ks as [|k r IH]; intros n; cbn [exists_loop]; [kngo|]. apply kn_bind; [kngo|auto]. Qed.
Lemma kn_cron ks : kn (cron_loop ks). Proof. induction ks as [|k r IH]; cbn [cron_loop]; kngo. Qed.
Lemma kn_hdel l fs : forall n, kn (hdel_loop l fs n).
Proof. induction fs as [|f r IH]; intros n; cbn [hdel_loop]; [kngo|]. apply kn_bind; [kngo|]. intros [|]; [|apply IH]. apply kn_bind; [kngo|auto]. Qed.
Lemma kn_hmset l fs : forall n, kn (hmset_loop l fs n). Proof. induction fs as [|[f v] r IH]; intros n; cbn [hmset_loop]; [kngo|]. apply kn_bind; [kngo|auto]. Qed.
Lemma kn_hmget h fs : kn (hmget_loop h fs). Proof. induction fs as [|f r IH]; cbn [hmget_loop]; kngo. Qed.
Lemma kn_visit l ks : kn (h_visit l ks). Proof. induction ks as [|f r IH]; cbn [h_visit]; kngo. Qed.
Lemma kn_call c : kn (call_prog c).
Proof.
  destruct c; cbn [call_prog]; unfold pmap; unf;
    repeat first [apply kn_mset|apply kn_msetnx|apply kn_mget|apply kn_exists|apply kn_cron|apply kn_hdel|apply kn_hmset|apply kn_hmget|apply kn_visit|progress kngo].
Qed.
Lemma kn_eval {R} (p : prog R) : kn p -> forall w w' r, eval p w = Done w' r -> w_now w' = w_now w.
Proof.
  intros Hp. induction Hp as [r|f H1 H2 IH]; intros w w' r'; cbn; [intros [= <- <-]; reflexivity|].
  destruct (f w) as [w1 p1| |] eqn:E; try discriminate. intros Ev. rewrite (IH _ _ _ E _ _ _ Ev). eauto.
Qed.
