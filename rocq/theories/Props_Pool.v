(** * Props_Pool: the connection pool (redis/pool.go), for every schedule and number of goroutines *)
From stdpp Require Import gmap.
From Verif Require Import Base PoolModel.

(** the connections in the hands of goroutines *)
Definition held (pc : ppc) : list nat := match pc with GSend c | Lent c | PSend c | CClose c => [c] | _ => [] end.
Definition holding (t : gmap nat ppc) : list nat := concat (map (fun x => held (snd x)) (map_to_list t)).
Definition critical (pc : ppc) : bool := match pc with GCheck | GDial | GSend _ | GUnlock => true | _ => false end.

Lemma holding_perm (l l' : list (nat * ppc)) : l ≡ₚ l' -> concat (map (fun x => held (snd x)) l) ≡ₚ concat (map (fun x => held (snd x)) l').
Proof. induction 1; cbn; auto; [rewrite IHPermutation; reflexivity|rewrite !app_assoc, (Permutation_app_comm (held _)); reflexivity|etrans; eauto]. Qed.
Definition held_at (o : option ppc) : list nat := match o with Some pc => held pc | None => [] end.
Definition critical_at (o : option ppc) : bool := match o with Some pc => critical pc | None => false end.
Definition alter_th (i : nat) (o : option ppc) (t : gmap nat ppc) : gmap nat ppc := partial_alter (fun _ => o) i t.
Lemma holding_insert t i pc : t !! i = None -> holding (<[i := pc]> t) ≡ₚ held pc ++ holding t.
Proof. intros H. unfold holding. rewrite (holding_perm _ _ (map_to_list_insert t i pc H)). reflexivity. Qed.
Lemma holding_alter t i o : holding (alter_th i o t) ≡ₚ held_at o ++ holding (delete i t).
Proof.
  unfold alter_th. destruct o as [pc|]; [|reflexivity]. change (partial_alter (fun _ => Some pc) i t) with (<[i := pc]> t).
  rewrite <- insert_delete_insert. apply holding_insert, lookup_delete.
Qed.
Lemma holding_lookup t i : holding t ≡ₚ held_at (t !! i) ++ holding (delete i t).
Proof.
  destruct (t !! i) as [pc|] eqn:E; [|rewrite delete_notin by exact E; reflexivity].
  rewrite <- (insert_delete t i pc E) at 1. apply holding_insert, lookup_delete.
Qed.

(** every connection in existence: idle in the channel, or in the hands of a goroutine *)
Definition conns (p : pool) : list nat := p_chan p ++ holding (p_th p).
Record pinv (p : pool) : Prop := {
  pi_nodup : NoDup (conns p);
  pi_fresh : Forall (fun c => (c < p_next p)%nat) (conns p);
  pi_count : (length (conns p) <= p_size p)%nat;
  pi_size : (p_size p <= p_cap p)%nat;
  pi_cap : (0 < p_cap p)%nat;
  pi_lock : p_lock p = false -> forall i, critical_at (p_th p !! i) = false;
  pi_one : forall i j, critical_at (p_th p !! i) = true -> critical_at (p_th p !! j) = true -> i = j;
  pi_dial : forall i, p_th p !! i = Some GDial -> (p_size p < p_cap p)%nat;
  pi_wait : forall i, p_th p !! i = Some GWait \/ p_th p !! i = Some GUnlock -> (0 < p_size p)%nat
}.
Lemma move_perm p ch i o : let p' := set_th (alter_th i o (p_th p)) (set_chan ch p) in
  ch ++ held_at o ≡ₚ p_chan p ++ held_at (p_th p !! i) -> conns p' ≡ₚ conns p.
Proof.
  intros p' H. unfold conns, p'. cbn [p_chan p_th set_th set_chan]. rewrite holding_alter, (holding_lookup (p_th p) i), !app_assoc, H. reflexivity.
Qed.
Lemma pinv_move p ch lk i o : pinv p -> ch ++ held_at o ≡ₚ p_chan p ++ held_at (p_th p !! i) ->
  (critical_at o = true -> critical_at (p_th p !! i) = true \/ p_lock p = false) ->
  (lk = false -> critical_at o = false /\ (p_lock p = false \/ critical_at (p_th p !! i) = true)) ->
  (o = Some GDial -> (p_size p < p_cap p)%nat) -> (o = Some GWait \/ o = Some GUnlock -> (0 < p_size p)%nat) ->
  pinv (Pool (p_cap p) (p_size p) ch lk (p_next p) (alter_th i o (p_th p))).
Proof.
  intros [I1 I2 I3 I4 I5 I6 I7 I8 I9] Hp Hc Hl Hd Hw. pose proof (move_perm p ch i o Hp) as HP.
  assert (HP' : conns (Pool (p_cap p) (p_size p) ch lk (p_next p) (alter_th i o (p_th p))) ≡ₚ conns p) by exact HP. clear HP.
  assert (Hlk : forall j, (alter_th i o (p_th p)) !! j = if decide (i = j) then o else p_th p !! j).
  { intros j. unfold alter_th. destruct (decide (i = j)) as [<-|Hne]; [apply lookup_partial_alter|apply lookup_partial_alter_ne; exact Hne]. }
  split; cbn [p_cap p_size p_chan p_lock p_next p_th]; try assumption.
  - rewrite HP'. exact I1.
  - rewrite HP'. exact I2.
  - rewrite HP'. exact I3.
  - intros Hf j. rewrite Hlk. destruct (Hl Hf) as [H1 H2]. destruct (decide (i = j)) as [<-|Hne]; [exact H1|].
    destruct H2 as [H2|H2]; [apply (I6 H2)|]. destruct (critical_at (p_th p !! j)) eqn:E; [|reflexivity]. destruct Hne. apply I7; assumption.
  - intros a b. rewrite !Hlk. destruct (decide (i = a)) as [<-|Ha], (decide (i = b)) as [<-|Hb]; auto; intros H1 H2.
    + destruct (Hc H1) as [H|H]; [apply I7; assumption|rewrite (I6 H) in H2; discriminate].
    + destruct (Hc H2) as [H|H]; [apply I7; assumption|rewrite (I6 H) in H1; discriminate].
  - intros j. rewrite Hlk. destruct (decide (i = j)); [exact Hd|apply I8].
  - intros j. rewrite Hlk. destruct (decide (i = j)); [exact Hw|apply I9].
Qed.
Lemma pinv_init z : pinv (pool_init z).
Proof.
  assert (He : conns (pool_init z) = []) by (unfold conns, pool_init; cbn; reflexivity).
  assert (Hc : (0 < p_cap (pool_init z))%nat). { unfold pool_init. cbn [p_cap]. destruct (Z.leb_spec z 0); lia. }
  assert (Hs : p_size (pool_init z) = 0%nat) by reflexivity.
  assert (Ht : forall i, p_th (pool_init z) !! i = None) by (intros i; apply lookup_empty).
  split; rewrite ?He, ?Hs; try constructor; try lia; intros *; rewrite ?Ht; try discriminate; try tauto.
  intros [H|H]; discriminate.
Qed.
(** closing: the connection disappears *)
Lemma pinv_drop p i c : pinv p -> p_th p !! i = Some (CClose c) ->
  (forall o, held_at o = [] -> critical_at o = false -> o <> Some GWait -> o <> Some GUnlock -> o <> Some GDial -> pinv (set_th (alter_th i o (p_th p)) p)).
Proof.
  intros [I1 I2 I3 I4 I5 I6 I7 I8 I9] E o Ho Hc H1 H2 H3.
  assert (HP : conns p ≡ₚ c :: conns (set_th (alter_th i o (p_th p)) p)).
  { unfold conns. cbn [p_chan p_th set_th]. rewrite holding_alter, (holding_lookup (p_th p) i), E, Ho. cbn [held_at held app]. symmetry. apply Permutation_middle. }
  assert (Hlk : forall j, (alter_th i o (p_th p)) !! j = if decide (i = j) then o else p_th p !! j).
  { intros j. unfold alter_th. destruct (decide (i = j)) as [<-|Hne]; [apply lookup_partial_alter|apply lookup_partial_alter_ne; exact Hne]. }
  split; cbn [p_cap p_size p_chan p_lock p_next p_th set_th]; try assumption.
  - rewrite HP in I1. inversion I1. assumption.
  - rewrite HP in I2. inversion I2. assumption.
  - rewrite HP in I3. unfold set_th in *. cbn [length p_cap p_size p_chan p_lock p_next p_th] in *. lia.
  - intros Hf j. rewrite Hlk. destruct (decide (i = j)) as [<-|Hne]; [exact Hc|apply (I6 Hf)].
  - intros a b. rewrite !Hlk. destruct (decide (i = a)) as [<-|Ha], (decide (i = b)) as [<-|Hb]; auto; rewrite Hc; discriminate.
  - intros j. rewrite Hlk. destruct (decide (i = j)); [congruence|apply I8].
  - intros j. rewrite Hlk. destruct (decide (i = j)); [intros [|]; congruence|apply I9].
Qed.
(** dialing: a fresh connection appears *)
Lemma pinv_dial p i : pinv p -> p_th p !! i = Some GDial ->
  pinv (Pool (p_cap p) (S (p_size p)) (p_chan p) (p_lock p) (S (p_next p)) (alter_th i (Some (GSend (p_next p))) (p_th p))) /\
  conns (Pool (p_cap p) (S (p_size p)) (p_chan p) (p_lock p) (S (p_next p)) (alter_th i (Some (GSend (p_next p))) (p_th p))) ≡ₚ p_next p :: conns p.
Proof.
  intros [I1 I2 I3 I4 I5 I6 I7 I8 I9] E.
  assert (HP : conns (Pool (p_cap p) (S (p_size p)) (p_chan p) (p_lock p) (S (p_next p)) (alter_th i (Some (GSend (p_next p))) (p_th p))) ≡ₚ p_next p :: conns p).
  { unfold conns. cbn [p_chan p_th]. rewrite holding_alter, (holding_lookup (p_th p) i), E. cbn [held_at held app]. symmetry. apply Permutation_middle. }
  split; [|exact HP].
  assert (Hlk : forall j, (alter_th i (Some (GSend (p_next p))) (p_th p)) !! j = if decide (i = j) then Some (GSend (p_next p)) else p_th p !! j).
  { intros j. unfold alter_th. destruct (decide (i = j)) as [<-|Hne]; [apply lookup_partial_alter|apply lookup_partial_alter_ne; exact Hne]. }
  pose proof (I8 i E) as Hsz. assert (Hci : critical_at (p_th p !! i) = true) by (rewrite E; reflexivity).
  split; cbn [p_cap p_size p_chan p_lock p_next p_th]; try assumption.
  - rewrite HP. constructor; [|exact I1]. intros Hin. apply elem_of_list_In in Hin. rewrite List.Forall_forall in I2. specialize (I2 _ Hin). lia.
  - rewrite HP. constructor; [lia|]. eapply Forall_impl; [|exact I2]. cbn. lia.
  - rewrite HP. cbn. lia.
  - intros Hf. specialize (I6 Hf i). rewrite Hci in I6. discriminate.
  - intros a b. rewrite !Hlk. destruct (decide (i = a)) as [<-|Ha], (decide (i = b)) as [<-|Hb]; auto.
  - intros j. rewrite Hlk. destruct (decide (i = j)) as [|Hne]; [discriminate|]. intros Hj. destruct Hne. apply I7; [exact Hci|rewrite Hj; reflexivity].
  - intros j _. lia.
Qed.
Ltac mv := first [reflexivity | discriminate | tauto | lia | (intros [|]; discriminate) | (rewrite app_nil_r; reflexivity) ].
Lemma pinv_step a p p' e : pinv p -> pstep a p = Some (p', e) -> pinv p' /\ p_cap p' = p_cap p.
Proof.
  intros HI E.
  assert (Hmv : forall i o ch lk pc, p_th p !! i = pc -> Some (Pool (p_cap p) (p_size p) ch lk (p_next p) (alter_th i o (p_th p)), e) = Some (p', e) ->
    ch ++ held_at o ≡ₚ p_chan p ++ held_at pc -> (critical_at o = true -> critical_at pc = true \/ p_lock p = false) ->
    (lk = false -> critical_at o = false /\ (p_lock p = false \/ critical_at pc = true)) ->
    (o = Some GDial -> (p_size p < p_cap p)%nat) -> (o = Some GWait \/ o = Some GUnlock -> (0 < p_size p)%nat) -> pinv p' /\ p_cap p' = p_cap p).
  { intros i o ch lk pc <- Ep H1 H2 H3 H4 H5. injection Ep as <-. split; [apply pinv_move; assumption|reflexivity]. }
  destruct a as [i|i|i|i|i|i|i|i|i]; cbn [pstep] in E; destruct (p_th p !! i) as [pc|] eqn:Ei; try discriminate;
  unfold go, ret, set_th, set_chan, set_lock in E; cbn [p_cap p_size p_chan p_lock p_next p_th] in E.
  - injection E as <- <-. apply (Hmv i (Some GTry) (p_chan p) (p_lock p) None Ei); cbn; auto; mv.
  - destruct pc; try discriminate.
    + destruct (p_chan p) as [|c r] eqn:Ec; injection E as <- <-.
      * apply (Hmv i (Some GLock) [] (p_lock p) _ Ei); cbn; auto; mv.
      * apply (Hmv i (Some (Lent c)) r (p_lock p) _ Ei); cbn; auto; try mv. rewrite app_nil_r. symmetry. apply Permutation_cons_append.
    + destruct (p_lock p) eqn:El; [discriminate|]. injection E as <- <-. apply (Hmv i (Some GCheck) (p_chan p) true _ Ei); cbn; auto; mv.
    + destruct (Nat.ltb_spec (p_size p) (p_cap p)); injection E as <- <-.
      * apply (Hmv i (Some GDial) (p_chan p) (p_lock p) _ Ei); cbn; auto; try mv. intros Hf. exfalso. pose proof (pi_lock p HI Hf i) as H'. rewrite Ei in H'. discriminate.
      * apply (Hmv i (Some GUnlock) (p_chan p) (p_lock p) _ Ei); cbn; auto; try mv.
        -- intros Hf. exfalso. pose proof (pi_lock p HI Hf i) as H'. rewrite Ei in H'. discriminate.
        -- intros _. pose proof (pi_cap p HI). lia.
    + destruct (Nat.ltb_spec (length (p_chan p)) (p_cap p)); [|discriminate]. injection E as <- <-.
      apply (Hmv i (Some GUnlock) (p_chan p ++ [c]) (p_lock p) _ Ei); cbn; auto; try mv.
      * intros Hf. exfalso. pose proof (pi_lock p HI Hf i) as H'. rewrite Ei in H'. discriminate.
      * intros _. pose proof (pi_count p HI) as Hc. unfold conns in Hc. rewrite (holding_lookup (p_th p) i), Ei, app_length in Hc. cbn in Hc. lia.
    + injection E as <- <-. apply (Hmv i (Some GWait) (p_chan p) false _ Ei); cbn; auto; try mv.
      intros _. apply (pi_wait p HI i). auto.
    + destruct (p_chan p) as [|c r] eqn:Ec; [discriminate|]. injection E as <- <-.
      apply (Hmv i (Some (Lent c)) r (p_lock p) _ Ei); cbn; auto; try mv. rewrite app_nil_r. symmetry. apply Permutation_cons_append.
    + destruct (Nat.ltb_spec (length (p_chan p)) (p_cap p)); [|discriminate]. injection E as <- <-.
      apply (Hmv i None (p_chan p ++ [c]) (p_lock p) _ Ei); cbn; auto; try mv.
    + destruct (p_chan p) as [|c r] eqn:Ec; [discriminate|]. injection E as <- <-.
      apply (Hmv i (Some (CClose c)) r (p_lock p) _ Ei); cbn; auto; try mv. rewrite app_nil_r. symmetry. apply Permutation_cons_append.
  - destruct pc; try discriminate. injection E as <- <-. split; [apply pinv_dial; assumption|reflexivity].
  - destruct pc; try discriminate. injection E as <- <-. apply (Hmv i None (p_chan p) (p_lock p) _ Ei); cbn; auto; mv.
  - destruct pc; try discriminate. injection E as <- <-. apply (Hmv i None (p_chan p) (p_lock p) _ Ei); cbn; auto; mv.
  - destruct pc; try discriminate. injection E as <- <-. apply (Hmv i (Some (PSend c)) (p_chan p) (p_lock p) _ Ei); cbn; auto; mv.
  - injection E as <- <-. apply (Hmv i (Some CRange) (p_chan p) (p_lock p) None Ei); cbn; auto; mv.
  - destruct pc; try discriminate. injection E as <- <-. split; [|reflexivity]. apply (pinv_drop p i c HI Ei (Some CRange)); try reflexivity; discriminate.
  - destruct pc; try discriminate. injection E as <- <-. split; [|reflexivity]. apply (pinv_drop p i c HI Ei None); try reflexivity; discriminate.
Qed.
Lemma pinv_exec s : forall p p' e, pinv p -> pexec s p = Some (p', e) -> pinv p' /\ p_cap p' = p_cap p.
Proof.
  induction s as [|a s IH]; intros p p' e HI E; cbn in E; [injection E as <- <-; auto|].
  destruct (pstep a p) as [[p1 e1]|] eqn:E1; [|discriminate]. destruct (pexec s p1) as [[p2 e2]|] eqn:E2; [|discriminate]. injection E as <- <-.
  destruct (pinv_step _ _ _ _ HI E1) as [H1 H2]. destruct (IH _ _ _ H1 E2) as [H3 H4]. split; [exact H3|congruence].
Qed.

(** ** C72 *)
(** [lent p i c]: the connection [c] is in the hands of goroutine [i], from the return of its Get to the return of its Put. *)
Definition lent (p : pool) (i c : nat) : Prop := p_th p !! i = Some (Lent c) \/ p_th p !! i = Some (PSend c).
Definition capacity (z : Z) : nat := if z <=? 0 then 20 else Z.to_nat z.
Lemma lent_holding p i c : lent p i c -> exists l, holding (p_th p) ≡ₚ c :: l.
Proof. intros H. exists (holding (delete i (p_th p))). rewrite (holding_lookup (p_th p) i). destruct H as [-> | ->]; reflexivity. Qed.
Theorem C72_bounded_and_exclusive z s p evs : pexec s (pool_init z) = Some (p, evs) ->
  (length (p_chan p ++ holding (p_th p)) <= capacity z)%nat /\ NoDup (p_chan p) /\
  (forall i j c, lent p i c -> lent p j c -> i = j) /\
  (forall i c, lent p i c -> ~ In c (p_chan p)) /\
  (p_size p <= capacity z)%nat.
Proof.
  intros E. destruct (pinv_exec _ _ _ _ (pinv_init z) E) as [HI Hc]. change (p_cap (pool_init z)) with (capacity z) in Hc.
  pose proof (pi_size p HI). pose proof (pi_count p HI) as Hn. pose proof (pi_nodup p HI) as Hd. unfold conns in *. apply NoDup_app in Hd as (Hd1 & Hd2 & Hd3).
  split; [lia|]. split; [exact Hd1|]. split; [|split; [|lia]].
  - intros i j c Hi Hj. destruct (decide (i = j)) as [|Hne]; [assumption|exfalso].
    assert (Hp : exists l, holding (p_th p) ≡ₚ c :: c :: l).
    { assert (H1 : forall o, (o = Some (Lent c) \/ o = Some (PSend c)) -> held_at o = [c]) by (intros o [-> | ->]; reflexivity).
      exists (holding (delete j (delete i (p_th p)))). rewrite (holding_lookup (p_th p) i), (H1 _ Hi). cbn. constructor.
      rewrite (holding_lookup (delete i (p_th p)) j), lookup_delete_ne by exact Hne. rewrite (H1 _ Hj). reflexivity. }
    destruct Hp as [l Hp]. rewrite Hp in Hd3. inversion Hd3 as [|? ? Hx _]. apply Hx. left.
  - intros i c Hi Hin. destruct (lent_holding p i c Hi) as [l Hl]. apply (Hd2 c); [apply elem_of_list_In, Hin|]. rewrite Hl. left.
Qed.
Definition fresh_get (i : nat) : list pact := [PGet i; PRun i; PRun i; PRun i; PDialOk i; PRun i; PRun i; PRun i].
Example C72_nonvacuous : match pexec (fresh_get 1 ++ fresh_get 2 ++ [PRelease 1; PRun 1; PGet 3; PRun 3]) (pool_init 2) with
  | Some (p, e) => Some (e, p_size p, p_chan p) | None => None end = Some ([EGot 1 0; EGot 2 1; EPutDone 1; EGot 3 0], 2%nat, []).
Proof. vm_compute. reflexivity. Qed.

(** ** C73 *)
Theorem C73_put_never_blocks z s p evs i c : pexec s (pool_init z) = Some (p, evs) ->
  p_th p !! i = Some (PSend c) \/ p_th p !! i = Some (GSend c) -> pstep (PRun i) p <> None.
Proof.
  intros E Hi. destruct (pinv_exec _ _ _ _ (pinv_init z) E) as [HI _]. pose proof (pi_size p HI). pose proof (pi_count p HI) as Hn.
  unfold conns in Hn. rewrite (holding_lookup (p_th p) i), !app_length in Hn. 
  destruct Hi as [Hi|Hi]; rewrite Hi in Hn; cbn [held_at held length] in Hn; cbn [pstep]; rewrite Hi; destruct (Nat.ltb_spec (length (p_chan p)) (p_cap p)); try discriminate; lia.
Qed.
Example C73_nonvacuous : match pexec (fresh_get 1 ++ [PRelease 1]) (pool_init 1) with Some (p, _) => p_th p !! 1%nat | None => None end = Some (PSend 0).
Proof. vm_compute. reflexivity. Qed.

(** ** C74
    Full statement: after a failed dial every later Get, if the schedule keeps running it, returns. *)
Definition wedged (p : pool) : Prop := p_lock p = true /\ forall i, critical_at (p_th p !! i) = false.
Lemma wedged_step a p p' e : wedged p -> pstep a p = Some (p', e) ->
  wedged p' /\ p_size p' = p_size p /\ forall j, p_th p !! j = Some GLock -> p_th p' !! j = Some GLock.
Proof.
  intros [HL HC] E.
  assert (Hu : forall i pc ch, critical pc = false -> p_th p !! i <> Some GLock ->
    let q := Pool (p_cap p) (p_size p) ch (p_lock p) (p_next p) (<[i := pc]> (p_th p)) in
    wedged q /\ p_size q = p_size p /\ forall j, p_th p !! j = Some GLock -> p_th q !! j = Some GLock).
  { intros i pc ch Hpc Hi q. unfold q, wedged. cbn [p_lock p_th p_size]. split; [split; [exact HL|]|split; [reflexivity|]]; intros j; (destruct (decide (i = j)) as [<-|Hne]; [rewrite lookup_insert|rewrite lookup_insert_ne by exact Hne]); auto.
    intros H. congruence. }
  assert (Hd : forall i ch, p_th p !! i <> Some GLock ->
    let q := Pool (p_cap p) (p_size p) ch (p_lock p) (p_next p) (delete i (p_th p)) in
    wedged q /\ p_size q = p_size p /\ forall j, p_th p !! j = Some GLock -> p_th q !! j = Some GLock).
  { intros i ch Hi q. unfold q, wedged. cbn [p_lock p_th p_size]. split; [split; [exact HL|]|split; [reflexivity|]]; intros j; (destruct (decide (i = j)) as [<-|Hne]; [rewrite lookup_delete|rewrite lookup_delete_ne by exact Hne]); auto.
    intros H. congruence. }
  destruct a as [i|i|i|i|i|i|i|i|i]; cbn [pstep] in E; pose proof (HC i) as Hi; destruct (p_th p !! i) as [pc|] eqn:Ei; try discriminate;
  unfold go, ret, set_th, set_chan, set_lock in E; cbn [p_cap p_size p_chan p_lock p_next p_th] in E;
  try (injection E as <- <-; apply Hu; [reflexivity|congruence]); destruct pc; try discriminate; try (rewrite HL in E; discriminate);
  try (injection E as <- <-; first [apply Hu; [reflexivity|congruence] | apply Hd; congruence]).
  - destruct (p_chan p); injection E as <- <-; apply Hu; (reflexivity || congruence).
  - destruct (p_chan p); [discriminate|]; injection E as <- <-; apply Hu; (reflexivity || congruence).
  - destruct (Nat.ltb (length (p_chan p)) (p_cap p)); [|discriminate]; injection E as <- <-; apply Hd; congruence.
  - destruct (p_chan p); [discriminate|]; injection E as <- <-; apply Hu; (reflexivity || congruence).
Qed.
Lemma wedged_exec s : forall p p' e, wedged p -> pexec s p = Some (p', e) ->
  wedged p' /\ p_size p' = p_size p /\ forall j, p_th p !! j = Some GLock -> p_th p' !! j = Some GLock.
Proof.
  induction s as [|a s IH]; intros p p' e HW E; cbn in E; [injection E as <- <-; auto|].
  destruct (pstep a p) as [[p1 e1]|] eqn:E1; [|discriminate]. destruct (pexec s p1) as [[p2 e2]|] eqn:E2; [|discriminate]. injection E as <- <-.
  destruct (wedged_step _ _ _ _ HW E1) as (H1 & H2 & H3). destruct (IH _ _ _ H1 E2) as (H4 & H5 & H6). split; [exact H4|]. split; [congruence|auto].
Qed.
Lemma fail_wedges p i p1 e : pinv p -> pstep (PDialFail i) p = Some (p1, e) -> wedged p1.
Proof.
  intros HI E. cbn in E. destruct (p_th p !! i) as [[]|] eqn:Ei; try discriminate. unfold ret, set_th in E. injection E as <- <-. split; cbn [p_lock p_th].
  - destruct (p_lock p) eqn:El; [reflexivity|]. pose proof (pi_lock p HI El i) as H. rewrite Ei in H. discriminate.
  - intros j. destruct (decide (i = j)) as [<-|Hne]; [rewrite lookup_delete; reflexivity|rewrite lookup_delete_ne by exact Hne].
    destruct (critical_at (p_th p !! j)) eqn:Ec; [|reflexivity]. destruct Hne. apply (pi_one p HI); [rewrite Ei; reflexivity|exact Ec].
Qed.
(** One failed dial: whoever reaches the mutex afterwards stays there in every continuation, and no connection is ever opened again. *)
Theorem C74_failed_dial_wedges_pool z s p evs i p1 e1 : pexec s (pool_init z) = Some (p, evs) -> pstep (PDialFail i) p = Some (p1, e1) ->
  forall s' p' evs', pexec s' p1 = Some (p', evs') -> p_size p' = p_size p1 /\
    forall j s2 p2 evs2, p_th p' !! j = Some GLock -> pexec s2 p' = Some (p2, evs2) -> p_th p2 !! j = Some GLock.
Proof.
  intros E E1 s' p' evs' E'. destruct (pinv_exec _ _ _ _ (pinv_init z) E) as [HI _]. pose proof (fail_wedges _ _ _ _ HI E1) as HW.
  destruct (wedged_exec _ _ _ _ HW E') as (H1 & H2 & _). split; [exact H2|]. intros j s2 p2 evs2 Hj E2. apply (wedged_exec _ _ _ _ H1 E2), Hj.
Qed.
Theorem C74_get_blocks_for_ever_refuted : exists s p evs, pexec s (pool_init 20) = Some (p, evs) /\ evs = [EGetErr 1] /\
  p_th p !! 2%nat = Some GLock /\ forall s' p' evs', pexec s' p = Some (p', evs') -> p_th p' !! 2%nat = Some GLock.
Proof.
  set (a := [PGet 1; PRun 1; PRun 1; PRun 1]). 
  assert (Hr : match pexec a (pool_init 20) with Some (p, evs) => match pstep (PDialFail 1) p with Some (p1, e1) => match pexec [PGet 2; PRun 2] p1 with
    | Some (p2, e2) => evs ++ e1 ++ e2 = [EGetErr 1] /\ p_th p2 !! 2%nat = Some GLock | None => False end | None => False end | None => False end) by (vm_compute; auto).
  destruct (pexec a (pool_init 20)) as [[p evs]|] eqn:E; [|destruct Hr]. destruct (pstep (PDialFail 1) p) as [[p1 e1]|] eqn:E1; [|destruct Hr].
  destruct (pexec [PGet 2; PRun 2] p1) as [[p2 e2]|] eqn:E2; [|destruct Hr]. destruct Hr as [H1 H2].
  exists (a ++ PDialFail 1 :: [PGet 2; PRun 2]), p2, (evs ++ e1 ++ e2). split; [|split; [exact H1|split; [exact H2|]]].
  - assert (Happ : forall s1 s2 q q1 v1, pexec s1 q = Some (q1, v1) -> pexec (s1 ++ s2) q = match pexec s2 q1 with Some (q2, v2) => Some (q2, v1 ++ v2) | None => None end).
    { clear. induction s1 as [|x s1 IH]; intros s2 q q1 v1 H; cbn [pexec app] in *; [injection H as <- <-; destruct (pexec s2 q) as [[]|]; reflexivity|].
      destruct (pstep x q) as [[q' v']|]; [|discriminate]. destruct (pexec s1 q') as [[q'' v'']|] eqn:E'; [|discriminate]. injection H as <- <-.
      rewrite (IH s2 q' q'' v'' E'). destruct (pexec s2 q'') as [[]|]; [rewrite app_assoc|]; reflexivity. }
    rewrite (Happ _ _ _ _ _ E). cbn [pexec]. rewrite E1. cbn [pexec] in E2. rewrite E2. reflexivity.
  - intros s' p' evs' E'. eapply (C74_failed_dial_wedges_pool 20 a p evs 1 p1 e1 E E1 _ p2 e2 E2); eauto.
Qed.
(** What still works: an idle connection is handed out at once, in every state. *)
Theorem C74_idle_connection_served_partial p c r j : p_chan p = c :: r -> p_th p !! j = None ->
  exists p', pexec [PGet j; PRun j] p = Some (p', [EGot j c]).
Proof.
  intros Hc Hj. cbn [pexec pstep]. rewrite Hj. cbn [go pexec pstep]. unfold set_th. cbn [p_th p_chan p_cap p_size p_lock p_next]. rewrite lookup_insert, Hc. eauto.
Qed.

(** ** C75
    Full statement: Close, if the schedule keeps running it, returns once every idle connection is closed. *)
Lemma close_step a p p' e i : (p_th p !! i = Some CRange \/ exists c, p_th p !! i = Some (CClose c)) -> a <> PCloseErr i -> pstep a p = Some (p', e) ->
  p_th p' !! i = Some CRange \/ exists c, p_th p' !! i = Some (CClose c).
Proof.
  intros Hi Ha E.
  assert (Hother : forall j pc ch sz nx lk, (j <> i \/ pc = CRange \/ exists c, pc = CClose c) -> let q := Pool (p_cap p) sz ch lk nx (<[j := pc]> (p_th p)) in p_th q !! i = Some CRange \/ exists c, p_th q !! i = Some (CClose c)).
  { intros j pc ch sz nx lk Hj q. unfold q. cbn [p_th]. destruct (decide (j = i)) as [<-|Hne]; [rewrite lookup_insert|rewrite lookup_insert_ne by exact Hne; exact Hi].
    destruct Hj as [Hj|[->|[c ->]]]; [congruence|auto|eauto]. }
  assert (Hdel : forall j ch, j <> i -> let q := Pool (p_cap p) (p_size p) ch (p_lock p) (p_next p) (delete j (p_th p)) in p_th q !! i = Some CRange \/ exists c, p_th q !! i = Some (CClose c)).
  { intros j ch Hj q. unfold q. cbn [p_th]. rewrite lookup_delete_ne by exact Hj. exact Hi. }
  assert (Hpc : forall j pc, p_th p !! j = Some pc -> (forall c, pc <> CClose c) -> pc <> CRange -> j <> i).
  { intros j pc Hj H1 H2 ->. destruct Hi as [Hi|[c Hi]]; rewrite Hj in Hi; injection Hi as ->; [congruence|exact (H1 c eq_refl)]. }
  assert (Hnone : forall j, p_th p !! j = None -> j <> i). { intros j Hj ->. destruct Hi as [Hi|[c Hi]]; congruence. }
  destruct a as [j|j|j|j|j|j|j|j|j]; cbn [pstep] in E; destruct (p_th p !! j) as [pc|] eqn:Ej; try discriminate;
  unfold go, ret, set_th, set_chan, set_lock in E; cbn [p_cap p_size p_chan p_lock p_next p_th] in E;
  try (injection E as <- <-; apply Hother; auto; fail);
  destruct pc; try discriminate;
  try (assert (Hji : j <> i) by (apply (Hpc j _ Ej); [intros ?|]; discriminate);
       repeat match type of E with context [match ?x with _ => _ end] => destruct x end; try discriminate;
       injection E as <- <-; first [apply Hother; auto; fail | apply Hdel; assumption]).
  - destruct (p_chan p); [discriminate|]. injection E as <- <-. apply Hother. eauto.
  - injection E as <- <-. apply Hother. auto.
  - injection E as <- <-. apply Hdel. congruence.
Qed.
Lemma close_exec s i : forall p p' e, (p_th p !! i = Some CRange \/ exists c, p_th p !! i = Some (CClose c)) -> ~ In (PCloseErr i) s -> pexec s p = Some (p', e) ->
  p_th p' !! i = Some CRange \/ exists c, p_th p' !! i = Some (CClose c).
Proof.
  induction s as [|a s IH]; intros p p' e Hi Hn E; cbn in E; [injection E as <- <-; exact Hi|].
  destruct (pstep a p) as [[p1 e1]|] eqn:E1; [|discriminate]. destruct (pexec s p1) as [[p2 e2]|] eqn:E2; [|discriminate]. injection E as <- <-.
  apply (IH p1 p2 e2); [|intros H; apply Hn; right; exact H|exact E2]. eapply close_step; [exact Hi| |exact E1]. intros ->. apply Hn. left. reflexivity.
Qed.
(** Close of an untouched pool, alone: in every continuation in which closing a connection does not
    report an error it is still running; and the same holds for every state of the pool. *)
Theorem C75_close_never_returns_refuted : exists p, pexec [PClose 1] (pool_init 0) = Some (p, []) /\
  pstep (PRun 1) p = None /\ forall s p' evs, ~ In (PCloseErr 1) s -> pexec s p = Some (p', evs) -> p_th p' !! 1%nat <> None.
Proof.
  assert (E : exists p, pexec [PClose 1] (pool_init 0) = Some (p, []) /\ pstep (PRun 1) p = None /\ p_th p !! 1%nat = Some CRange) by (eexists; split; [reflexivity|split; reflexivity]).
  destruct E as (p & E & E2 & E3). exists p. split; [exact E|]. split; [exact E2|]. intros s p' evs Hs Ep.
  destruct (close_exec s 1 p p' evs (or_introl E3) Hs Ep) as [H|[c H]]; rewrite H; discriminate.
Qed.
Theorem C75_close_runs_for_ever z s p evs i p1 e1 s' p' evs' : pexec s (pool_init z) = Some (p, evs) -> pstep (PClose i) p = Some (p1, e1) ->
  ~ In (PCloseErr i) s' -> pexec s' p1 = Some (p', evs') -> p_th p' !! i <> None.
Proof.
  intros _ E1 Hs E'. assert (Hi : p_th p1 !! i = Some CRange).
  { cbn in E1. destruct (p_th p !! i); [discriminate|]. injection E1 as <- _. cbn. apply lookup_insert. }
  destruct (close_exec s' i p1 p' evs' (or_introl Hi) Hs E') as [H|[c H]]; rewrite H; discriminate.
Qed.
(** The first half of the claim holds: undisturbed, Close takes every idle connection and closes it. *)
Theorem C75_close_empties_pool_partial i l : forall p, p_chan p = l -> p_th p !! i = Some CRange ->
  exists p' evs, pexec (concat (repeat [PRun i; PCloseOk i] (length l))) p = Some (p', evs) /\ p_chan p' = [] /\ p_th p' !! i = Some CRange.
Proof.
  induction l as [|c l IH]; intros p Hc Hi; [exists p, []; auto|].
  cbn [length repeat concat app]. cbn [pexec]. unfold pstep at 1. rewrite Hi, Hc. cbn [go]. unfold pstep at 1. unfold set_th, set_chan. cbn [p_cap p_size p_chan p_lock p_next p_th]. rewrite lookup_insert. cbn [go]. unfold set_th. cbn [p_cap p_size p_chan p_lock p_next p_th].
  edestruct IH as (p' & evs & H1 & H2 & H3); [| |rewrite H1; eauto]; [reflexivity|cbn; apply lookup_insert].
Qed.

(** ** C76 *)
Definition healthy (s : list pact) : Prop := Forall (fun a => match a with PDialFail _ | PClose _ => False | _ => True end) s.
Record pinv2 (p : pool) : Prop := {
  p2_inv : pinv p;
  p2_conns : conns p ≡ₚ seq 0 (p_next p);
  p2_size : p_size p = p_next p;
  p2_lock : p_lock p = true -> exists i, critical_at (p_th p !! i) = true;
  p2_close : forall i, p_th p !! i <> Some CRange /\ forall c, p_th p !! i <> Some (CClose c)
}.
Lemma pinv2_move p ch lk i o : pinv2 p -> pinv (Pool (p_cap p) (p_size p) ch lk (p_next p) (alter_th i o (p_th p))) ->
  ch ++ held_at o ≡ₚ p_chan p ++ held_at (p_th p !! i) ->
  (lk = true -> critical_at o = true \/ (p_lock p = true /\ critical_at (p_th p !! i) = false)) ->
  o <> Some CRange -> (forall c, o <> Some (CClose c)) ->
  pinv2 (Pool (p_cap p) (p_size p) ch lk (p_next p) (alter_th i o (p_th p))).
Proof.
  intros [J1 J2 J3 J4 J5] HI Hp Hl Hr Hc.
  assert (Hlk : forall j, (alter_th i o (p_th p)) !! j = if decide (i = j) then o else p_th p !! j).
  { intros j. unfold alter_th. destruct (decide (i = j)) as [<-|Hne]; [apply lookup_partial_alter|apply lookup_partial_alter_ne; exact Hne]. }
  split; [exact HI| | | |]; cbn [p_size p_next p_lock p_th].
  - pose proof (move_perm p ch i o Hp) as HP. assert (HP' : conns (Pool (p_cap p) (p_size p) ch lk (p_next p) (alter_th i o (p_th p))) ≡ₚ conns p) by exact HP. rewrite HP'. exact J2.
  - exact J3.
  - intros Ht. destruct (Hl Ht) as [H|[H1 H2]]; [exists i; rewrite Hlk; destruct (decide (i = i)); congruence|].
    destruct (J4 H1) as [j Hj]. exists j. rewrite Hlk. destruct (decide (i = j)) as [<-|]; congruence.
  - intros j. rewrite Hlk. destruct (decide (i = j)); auto.
Qed.
Lemma pinv2_step a p p' e : pinv2 p -> match a with PDialFail _ | PClose _ => False | _ => True end -> pstep a p = Some (p', e) -> pinv2 p'.
Proof.
  intros HJ Ha E. pose proof (p2_inv p HJ) as HI. pose proof (proj1 (pinv_step _ _ _ _ HI E)) as HI'. pose proof (p2_close p HJ) as Hcl.
  assert (Hmv : forall i o ch lk pc, p_th p !! i = pc -> Some (Pool (p_cap p) (p_size p) ch lk (p_next p) (alter_th i o (p_th p)), e) = Some (p', e) ->
    ch ++ held_at o ≡ₚ p_chan p ++ held_at pc -> (lk = true -> critical_at o = true \/ (p_lock p = true /\ critical_at pc = false)) ->
    o <> Some CRange -> (forall c, o <> Some (CClose c)) -> pinv2 p').
  { intros i o ch lk pc <- Ep H1 H2 H3 H4. injection Ep as <-. apply pinv2_move; assumption. }
  destruct a as [i|i|i|i|i|i|i|i|i]; try destruct Ha; cbn [pstep] in E; destruct (p_th p !! i) as [pc|] eqn:Ei; try discriminate;
  unfold go, ret, set_th, set_chan, set_lock in E; cbn [p_cap p_size p_chan p_lock p_next p_th] in E.
  - injection E as <- <-. apply (Hmv i (Some GTry) (p_chan p) (p_lock p) None Ei); cbn; auto; mv.
  - destruct pc; try discriminate.
    + destruct (p_chan p) as [|c r] eqn:Ec; injection E as <- <-.
      * apply (Hmv i (Some GLock) [] (p_lock p) _ Ei); cbn; auto; mv.
      * apply (Hmv i (Some (Lent c)) r (p_lock p) _ Ei); cbn; auto; try mv. rewrite app_nil_r. symmetry. apply Permutation_cons_append.
    + destruct (p_lock p) eqn:El; [discriminate|]. injection E as <- <-. apply (Hmv i (Some GCheck) (p_chan p) true _ Ei); cbn; auto; mv.
    + destruct (Nat.ltb_spec (p_size p) (p_cap p)); injection E as <- <-.
      * apply (Hmv i (Some GDial) (p_chan p) (p_lock p) _ Ei); cbn; auto; mv.
      * apply (Hmv i (Some GUnlock) (p_chan p) (p_lock p) _ Ei); cbn; auto; mv.
    + destruct (Nat.ltb_spec (length (p_chan p)) (p_cap p)); [|discriminate]. injection E as <- <-.
      apply (Hmv i (Some GUnlock) (p_chan p ++ [c]) (p_lock p) _ Ei); cbn; auto; mv.
    + injection E as <- <-. apply (Hmv i (Some GWait) (p_chan p) false _ Ei); cbn; auto; mv.
    + destruct (p_chan p) as [|c r] eqn:Ec; [discriminate|]. injection E as <- <-.
      apply (Hmv i (Some (Lent c)) r (p_lock p) _ Ei); cbn; auto; try mv. rewrite app_nil_r. symmetry. apply Permutation_cons_append.
    + destruct (Nat.ltb_spec (length (p_chan p)) (p_cap p)); [|discriminate]. injection E as <- <-.
      apply (Hmv i None (p_chan p ++ [c]) (p_lock p) _ Ei); cbn; auto; try mv.
    + destruct (proj1 (Hcl i) Ei).
  - destruct pc; try discriminate. injection E as <- <-. destruct HJ as [J1 J2 J3 J4 J5]. pose proof (proj2 (pinv_dial p i HI Ei)) as HP. split; [exact HI'| | | |]; cbn [p_size p_next p_lock p_th].
    + etransitivity; [exact HP|]. rewrite J2, seq_S. cbn. apply Permutation_cons_append.
    + lia.
    + intros _. exists i. rewrite lookup_insert. reflexivity.
    + intros j. destruct (decide (i = j)) as [<-|Hne]; [rewrite lookup_insert; split; discriminate|rewrite lookup_insert_ne by exact Hne; apply J5].
  - destruct pc; try discriminate. injection E as <- <-. apply (Hmv i None (p_chan p) (p_lock p) _ Ei); cbn; auto; mv.
  - destruct pc; try discriminate. injection E as <- <-. apply (Hmv i (Some (PSend c)) (p_chan p) (p_lock p) _ Ei); cbn; auto; mv.
  - destruct pc; try discriminate. destruct (proj2 (Hcl i) c Ei).
  - destruct pc; try discriminate. destruct (proj2 (Hcl i) c Ei).
Qed.
Lemma pinv2_exec s : forall p p' e, pinv2 p -> healthy s -> pexec s p = Some (p', e) -> pinv2 p'.
Proof.
  induction s as [|a s IH]; intros p p' e HJ Hs E; cbn in E; [injection E as <- <-; exact HJ|].
  destruct (pstep a p) as [[p1 e1]|] eqn:E1; [|discriminate]. destruct (pexec s p1) as [[p2 e2]|] eqn:E2; [|discriminate]. injection E as <- <-.
  inversion Hs; subst. eapply IH; [|eassumption|exact E2]. eapply pinv2_step; eauto.
Qed.
Lemma pinv2_init z : pinv2 (pool_init z).
Proof.
  split; [apply pinv_init| | | |]; try reflexivity.
  - discriminate.
  - intros i. unfold pool_init. cbn [p_th]. rewrite lookup_empty. split; discriminate.
Qed.
Definition can_move (p : pool) (i : nat) : Prop := pstep (PRun i) p <> None \/ pstep (PDialOk i) p <> None.
Theorem C76_no_deadlock z s p evs i pc : healthy s -> pexec s (pool_init z) = Some (p, evs) ->
  p_th p !! i = Some pc -> (forall c, pc <> Lent c) ->
  (exists j, can_move p j) \/
  (p_chan p = [] /\ (0 < p_size p)%nat /\ p_size p = p_next p /\ forall c, (c < p_next p)%nat -> exists j, p_th p !! j = Some (Lent c)).
Proof.
  intros Hs E Hi Hpc. pose proof (pinv2_exec _ _ _ _ (pinv2_init z) Hs E) as HJ. pose proof (p2_inv p HJ) as HI.
  assert (Hsend : forall j c, p_th p !! j = Some (PSend c) \/ p_th p !! j = Some (GSend c) -> can_move p j) by (intros j c Hj; left; eapply C73_put_never_blocks; eauto).
  assert (Hcrit : forall j, critical_at (p_th p !! j) = true -> can_move p j).
  { intros j Hj. destruct (p_th p !! j) as [[]|] eqn:Ej; try discriminate.
    - left. cbn [pstep]. rewrite Ej. destruct (Nat.ltb (p_size p) (p_cap p)); discriminate.
    - right. cbn [pstep]. rewrite Ej. discriminate.
    - eapply Hsend. right. exact Ej.
    - left. cbn [pstep]. rewrite Ej. discriminate. }
  destruct (p_lock p) eqn:El; [left; destruct (p2_lock p HJ El) as [j Hj]; exists j; auto|].
  (* the mutex is free: anybody not at the second select or lent can move *)
  assert (Hpcs : forall j q, p_th p !! j = Some q -> can_move p j \/ (q = GWait /\ p_chan p = []) \/ exists c, q = Lent c).
  { intros j q Hj. destruct q.
    - left. left. cbn [pstep]. rewrite Hj. destruct (p_chan p); discriminate.
    - left. left. cbn [pstep]. rewrite Hj, El. discriminate.
    - left. apply Hcrit. rewrite Hj. reflexivity.
    - left. apply Hcrit. rewrite Hj. reflexivity.
    - left. apply Hcrit. rewrite Hj. reflexivity.
    - left. apply Hcrit. rewrite Hj. reflexivity.
    - destruct (p_chan p) as [|c r] eqn:Ec; [right; left; auto|]. left. left. cbn [pstep]. rewrite Hj, Ec. discriminate.
    - right. right. eauto.
    - left. eapply Hsend. left. exact Hj.
    - destruct (proj1 (p2_close p HJ j) Hj).
    - destruct (proj2 (p2_close p HJ j) c Hj). }
  destruct (Hpcs i pc Hi) as [H|[[-> Hch]|[c ->]]]; [left; eauto| |destruct (Hpc c eq_refl)].
  (* stuck unless some other goroutine moves *)
  assert (Hdec : (exists j, can_move p j) \/ forall j q, p_th p !! j = Some q -> q = GWait \/ exists c, q = Lent c).
  { assert (Hm : forall m : list (nat * ppc), (forall j q, (j, q) ∈ m -> p_th p !! j = Some q) -> (exists j, can_move p j) \/ forall j q, (j, q) ∈ m -> q = GWait \/ exists c, q = Lent c).
    { induction m as [|[j q] m IH]; intros Hin; [right; intros j q H; inversion H|].
      destruct (Hpcs j q (Hin j q ltac:(left))) as [H|H]; [left; eauto|].
      destruct IH as [H'|H']; [intros; apply Hin; right; assumption|left; exact H'|]. right. intros j' q' Hx. apply elem_of_cons in Hx as [Hx|Hx]; [injection Hx as -> ->; tauto|eauto]. }
    destruct (Hm (map_to_list (p_th p))) as [H|H]; [intros j q Hx; apply elem_of_map_to_list, Hx|left; exact H|right].
    intros j q Hx. apply (H j q), elem_of_map_to_list, Hx. }
  destruct Hdec as [H|Hall]; [left; exact H|right]. split; [exact Hch|]. split; [apply (pi_wait p HI i); auto|]. split; [apply (p2_size p HJ)|].
  intros c Hc. assert (Hin : In c (conns p)). { eapply Permutation_in; [symmetry; apply (p2_conns p HJ)|]. apply in_seq. lia. }
  unfold conns in Hin. rewrite Hch in Hin. cbn in Hin. unfold holding in Hin. apply in_concat in Hin as (l & Hl & Hc'). apply in_map_iff in Hl as ([j q] & <- & Hj).
  apply elem_of_list_In, elem_of_map_to_list in Hj. cbn in Hc'. destruct (Hall j q Hj) as [->|[c2 ->]]; [destruct Hc'|]. destruct Hc' as [->|[]]. eauto.
Qed.
(** Both alternatives occur: one connection, lent, and a second caller waiting for it. *)
Example C76_nonvacuous : match pexec (fresh_get 1 ++ [PGet 2; PRun 2; PRun 2; PRun 2; PRun 2]) (pool_init 1) with
  | Some (p, _) => (p_th p !! 1%nat, p_th p !! 2%nat, match pstep (PRun 2) p with None => true | _ => false end) | None => (None, None, false) end = (Some (Lent 0), Some GWait, true).
Proof. vm_compute. reflexivity. Qed.

(** ** C106
    Full statement: in no reachable state is a goroutine waiting at the second select with no idle
    connection while fewer than [capacity] connections exist and the mutex is free. *)
Theorem C106_waits_below_capacity_refuted : exists s p evs, healthy s /\ pexec s (pool_init 20) = Some (p, evs) /\
  p_th p !! 1%nat = Some GWait /\ pstep (PRun 1) p = None /\ p_size p = 1%nat /\ p_lock p = false.
Proof.
  set (s := [PGet 1; PRun 1; PRun 1; PRun 1; PDialOk 1; PRun 1; PGet 2; PRun 2; PRun 1]).
  assert (H : match pexec s (pool_init 20) with Some (p, _) => p_th p !! 1%nat = Some GWait /\ pstep (PRun 1) p = None /\ p_size p = 1%nat /\ p_lock p = false | None => False end) by (vm_compute; auto).
  destruct (pexec s (pool_init 20)) as [[p evs]|] eqn:E; [|destruct H]. exists s, p, evs. split; [repeat constructor|]. auto.
Qed.
(** Undisturbed by others, a caller below capacity gets a connection. *)
Theorem C106_undisturbed_get_partial z s p evs i : healthy s -> pexec s (pool_init z) = Some (p, evs) -> p_th p !! i = None -> p_lock p = false ->
  p_chan p = [] -> (p_size p < capacity z)%nat -> exists p', pexec (fresh_get i) p = Some (p', [EGot i (p_next p)]).
Proof.
  intros Hs E Hi Hl Hch Hsz. destruct (pinv_exec _ _ _ _ (pinv_init z) E) as [HI Hcap]. change (p_cap (pool_init z)) with (capacity z) in Hcap.
  unfold fresh_get. destruct p as [cap size chan lock next th]. cbn [p_cap p_size p_chan p_lock p_next p_th] in *. subst chan lock cap.
  cbn [pexec pstep p_th]. rewrite Hi. unfold go, set_th, set_chan, set_lock.
  repeat (cbn [pexec pstep p_cap p_size p_chan p_lock p_next p_th go set_th set_chan set_lock]; rewrite ?lookup_insert).
  destruct (Nat.ltb_spec size (capacity z)); [|lia].
  repeat (cbn [pexec pstep p_cap p_size p_chan p_lock p_next p_th go set_th set_chan set_lock app]; unfold go, set_th, set_chan, set_lock; rewrite ?lookup_insert).
  destruct (Nat.ltb_spec (length (@nil nat)) (capacity z)) as [|Hz]; [|cbn in Hz; lia].
  repeat (cbn [pexec pstep p_cap p_size p_chan p_lock p_next p_th go set_th set_chan set_lock app]; unfold go, set_th, set_chan, set_lock; rewrite ?lookup_insert).
  eauto.
Qed.
