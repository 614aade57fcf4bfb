(** * Props_Pool2: more about the pool: order, conservation, use after Close *)
From stdpp Require Import gmap.
From Verif Require Import Base PoolModel Props_Pool.

(** what a step does to the idle queue *)
Definition chan_moves (p p' : pool) (a : pact) (e : list pevent) : Prop :=
  (p_chan p' = p_chan p /\ forall i c, EGot i c ∉ e) \/
  (exists i c, (p_th p !! i = Some (PSend c) \/ p_th p !! i = Some (GSend c)) /\ p_chan p' = p_chan p ++ [c] /\ forall j d, EGot j d ∉ e) \/
  (exists i c, p_chan p = c :: p_chan p' /\ e = [EGot i c]) \/
  (exists i c, p_chan p = c :: p_chan p' /\ p_th p !! i = Some CRange /\ e = []).
(** what a step does to the connections in existence *)
Definition conns_move (p p' : pool) (a : pact) : Prop :=
  (conns p' ≡ₚ conns p /\ p_next p' = p_next p /\ p_size p' = p_size p /\ (forall i, a <> PDialOk i)) \/
  (exists i, a = PDialOk i /\ p_th p !! i = Some GDial /\ conns p' ≡ₚ p_next p :: conns p /\ p_next p' = S (p_next p) /\ p_size p' = S (p_size p)) \/
  (exists i c, p_th p !! i = Some (CClose c) /\ conns p ≡ₚ c :: conns p' /\ p_next p' = p_next p /\ p_size p' = p_size p /\ (forall i, a <> PDialOk i)).
Lemma not_in_nil i c : EGot i c ∉ @nil pevent.
Proof. apply not_elem_of_nil. Qed.
Lemma not_in_one i c x : (forall i c, x <> EGot i c) -> EGot i c ∉ [x].
Proof. intros H Hin. apply elem_of_list_singleton in Hin. exact (H i c (eq_sym Hin)). Qed.
Ltac quiet := left; split; [reflexivity|]; intros; first [apply not_in_nil | apply not_in_one; discriminate].
Ltac same := left; split; [apply move_perm|split; [reflexivity|split; [reflexivity|discriminate]]].
Lemma pool_step a p p' e : pstep a p = Some (p', e) -> chan_moves p p' a e /\ conns_move p p' a.
Proof.
  intros E. unfold chan_moves, conns_move.
  assert (Hsame : forall i o ch lk pc, p_th p !! i = pc -> ch ++ held_at o ≡ₚ p_chan p ++ held_at pc ->
    conns (Pool (p_cap p) (p_size p) ch lk (p_next p) (alter_th i o (p_th p))) ≡ₚ conns p).
  { intros i o ch lk pc <- H. exact (move_perm p ch i o H). }
  destruct a as [i|i|i|i|i|i|i|i|i]; cbn [pstep] in E; destruct (p_th p !! i) as [pc|] eqn:Ei; try discriminate;
  unfold go, ret, set_th, set_chan, set_lock in E; cbn [p_cap p_size p_chan p_lock p_next p_th] in E.
  - injection E as <- <-. split; [quiet|]. left. split; [apply (Hsame i (Some GTry) _ _ None Ei); reflexivity|auto].
  - destruct pc; try discriminate.
    + destruct (p_chan p) as [|c r] eqn:Ec; injection E as <- <-.
      * split; [quiet|]. left. split; [apply (Hsame i (Some GLock) _ _ _ Ei); reflexivity|split; [reflexivity|split; [reflexivity|discriminate]]].
      * split; [right; right; left; exists i, c; split; reflexivity|]. left.
        split; [apply (Hsame i (Some (Lent c)) _ _ _ Ei); cbn; rewrite ?app_nil_r; symmetry; apply Permutation_cons_append|split; [reflexivity|split; [reflexivity|discriminate]]].
    + destruct (p_lock p) eqn:El; [discriminate|]. injection E as <- <-. split; [quiet|]. left. split; [apply (Hsame i (Some GCheck) _ _ _ Ei); reflexivity|split; [reflexivity|split; [reflexivity|discriminate]]].
    + destruct (Nat.ltb_spec (p_size p) (p_cap p)); injection E as <- <-; (split; [quiet|]); left.
      * split; [apply (Hsame i (Some GDial) _ _ _ Ei); reflexivity|split; [reflexivity|split; [reflexivity|discriminate]]].
      * split; [apply (Hsame i (Some GUnlock) _ _ _ Ei); reflexivity|split; [reflexivity|split; [reflexivity|discriminate]]].
    + destruct (Nat.ltb_spec (length (p_chan p)) (p_cap p)); [|discriminate]. injection E as <- <-.
      split; [right; left; exists i, c; split; [right; exact Ei|split; [reflexivity|intros; apply not_in_nil]]|]. left.
      split; [apply (Hsame i (Some GUnlock) _ _ _ Ei); cbn; rewrite app_nil_r; reflexivity|split; [reflexivity|split; [reflexivity|discriminate]]].
    + injection E as <- <-. split; [quiet|]. left. split; [apply (Hsame i (Some GWait) _ _ _ Ei); reflexivity|split; [reflexivity|split; [reflexivity|discriminate]]].
    + destruct (p_chan p) as [|c r] eqn:Ec; [discriminate|]. injection E as <- <-.
      split; [right; right; left; exists i, c; split; reflexivity|]. left.
      split; [apply (Hsame i (Some (Lent c)) _ _ _ Ei); cbn; rewrite ?app_nil_r; symmetry; apply Permutation_cons_append|split; [reflexivity|split; [reflexivity|discriminate]]].
    + destruct (Nat.ltb_spec (length (p_chan p)) (p_cap p)); [|discriminate]. injection E as <- <-.
      split; [right; left; exists i, c; split; [left; exact Ei|split; [reflexivity|intros; apply not_in_one; discriminate]]|]. left.
      split; [apply (Hsame i None _ _ _ Ei); cbn; rewrite app_nil_r; reflexivity|split; [reflexivity|split; [reflexivity|discriminate]]].
    + destruct (p_chan p) as [|c r] eqn:Ec; [discriminate|]. injection E as <- <-.
      split; [right; right; right; exists i, c; auto|]. left.
      split; [apply (Hsame i (Some (CClose c)) _ _ _ Ei); cbn; rewrite ?app_nil_r; symmetry; apply Permutation_cons_append|split; [reflexivity|split; [reflexivity|discriminate]]].
  - destruct pc; try discriminate. injection E as <- <-. split; [quiet|]. right. left. exists i. split; [reflexivity|]. split; [exact Ei|].
    split; [|split; reflexivity]. unfold conns. cbn [p_chan p_th]. change (<[i:=GSend (p_next p)]> (p_th p)) with (alter_th i (Some (GSend (p_next p))) (p_th p)).
    rewrite holding_alter, (holding_lookup (p_th p) i), Ei. cbn [held_at held app]. symmetry. apply Permutation_middle.
  - destruct pc; try discriminate. injection E as <- <-. split; [quiet|]. left. split; [apply (Hsame i None _ _ _ Ei); reflexivity|split; [reflexivity|split; [reflexivity|discriminate]]].
  - destruct pc; try discriminate. injection E as <- <-. split; [quiet|]. left. split; [apply (Hsame i None _ _ _ Ei); reflexivity|split; [reflexivity|split; [reflexivity|discriminate]]].
  - destruct pc; try discriminate. injection E as <- <-. split; [quiet|]. left. split; [apply (Hsame i (Some (PSend c)) _ _ _ Ei); reflexivity|split; [reflexivity|split; [reflexivity|discriminate]]].
  - injection E as <- <-. split; [quiet|]. left. split; [apply (Hsame i (Some CRange) _ _ None Ei); reflexivity|split; [reflexivity|split; [reflexivity|discriminate]]].
  - destruct pc; try discriminate. injection E as <- <-. split; [quiet|]. right. right. exists i, c. split; [exact Ei|]. split; [|split; [reflexivity|split; [reflexivity|discriminate]]].
    unfold conns. cbn [p_chan p_th]. change (<[i:=CRange]> (p_th p)) with (alter_th i (Some CRange) (p_th p)).
    rewrite holding_alter, (holding_lookup (p_th p) i), Ei. cbn [held_at held app]. symmetry. apply Permutation_middle.
  - destruct pc; try discriminate. injection E as <- <-. split; [quiet|]. right. right. exists i, c. split; [exact Ei|]. split; [|split; [reflexivity|split; [reflexivity|discriminate]]].
    unfold conns. cbn [p_chan p_th]. change (delete i (p_th p)) with (alter_th i None (p_th p)).
    rewrite holding_alter, (holding_lookup (p_th p) i), Ei. cbn [held_at held app]. symmetry. apply Permutation_middle.
Qed.
Lemma pexec_cons a s p p' e : pexec (a :: s) p = Some (p', e) -> exists p1 e1 e2, pstep a p = Some (p1, e1) /\ pexec s p1 = Some (p', e2) /\ e = e1 ++ e2.
Proof.
  cbn. intros E. destruct (pstep a p) as [[p1 e1]|] eqn:E1; [|discriminate]. destruct (pexec s p1) as [[p2 e2]|] eqn:E2; [|discriminate]. injection E as <- <-. eauto 8.
Qed.

(** ** C138 Idle connections are handed out in the order in which they were returned *)
(** [p_chan p] is the queue of idle connections: a connection that is returned or newly opened goes to its end. *)
Theorem C138_returned_to_the_end p p' e a i : pstep a p = Some (p', e) -> In (EPutDone i) e ->
  exists c, lent p i c /\ p_chan p' = p_chan p ++ [c].
Proof.
  intros E Hin. destruct a as [j|j|j|j|j|j|j|j|j]; cbn [pstep] in E; destruct (p_th p !! j) as [pc|] eqn:Ej; try discriminate;
  unfold go, ret, set_th, set_chan, set_lock in E; cbn [p_cap p_size p_chan p_lock p_next p_th] in E;
  try (destruct pc; try discriminate); try (destruct (p_chan p) eqn:Ec; try discriminate); try (destruct (p_lock p) eqn:El; try discriminate);
  try (destruct (Nat.ltb_spec (length (p_chan p)) (p_cap p)); try discriminate); try (destruct (Nat.ltb_spec (p_size p) (p_cap p)); try discriminate);
  repeat match goal with E : (if ?b then _ else _) = _ |- _ => destruct b; try discriminate end;
  injection E as <- <-; cbn in Hin; try contradiction; try (destruct Hin as [[=]|[]]); subst.
  all: eexists; split; [right; exact Ej|]; cbn [p_chan]; rewrite ?Ec; reflexivity.
Qed.
(** nobody is inside Close *)
Definition no_close (s : list pact) : Prop := Forall (fun a => forall i, a <> PClose i) s.
Definition unclosed (p : pool) : Prop := forall i, p_th p !! i <> Some CRange /\ forall c, p_th p !! i <> Some (CClose c).
Lemma unclosed_step a p p1 x : unclosed p -> (forall i, a <> PClose i) -> pstep a p = Some (p1, x) -> unclosed p1.
Proof.
  intros Hr Ha E1 i. pose proof (Hr i) as Hri. destruct a as [k|k|k|k|k|k|k|k|k]; cbn [pstep] in E1; destruct (p_th p !! k) as [pc|] eqn:Ek; try discriminate;
    pose proof (Hr k) as [Hk1 Hk2]; rewrite Ek in Hk1, Hk2;
    unfold go, ret, set_th, set_chan, set_lock in E1; cbn [p_cap p_size p_chan p_lock p_next p_th] in E1;
    try (destruct pc; try discriminate); try (exfalso; eapply Hk2; reflexivity); try (exfalso; apply Hk1; reflexivity); try (exfalso; eapply Ha; reflexivity);
    try (destruct (p_chan p); try discriminate); try (destruct (p_lock p); try discriminate);
    repeat match goal with E : (if ?b then _ else _) = _ |- _ => destruct b; try discriminate end;
    injection E1 as <- <-; cbn [p_th];
    (destruct (decide (k = i)) as [<-|Hne]; [rewrite ?lookup_insert, ?lookup_delete; split; discriminate|rewrite ?lookup_insert_ne, ?lookup_delete_ne by exact Hne; exact Hri]).
Qed.
Lemma unclosed_exec s : forall p p' e, unclosed p -> no_close s -> pexec s p = Some (p', e) -> unclosed p'.
Proof.
  induction s as [|a s IH]; intros p p' e Hu Hs E; [cbn in E; injection E as <- <-; exact Hu|].
  apply pexec_cons in E as (p1 & x & y & E1 & E2 & _). inversion Hs as [|? ? Ha Hs']; subst. exact (IH _ _ _ (unclosed_step _ _ _ _ Hu Ha E1) Hs' E2).
Qed.
Lemma unclosed_init z : unclosed (pool_init z).
Proof. intros i. unfold pool_init. cbn [p_th]. rewrite lookup_empty. split; discriminate. Qed.
Lemma fifo_exec s : forall p p' evs, no_close s -> unclosed p -> pinv p -> pexec s p = Some (p', evs) ->
  forall l1 c1 l2 c2 l3 e1 j e2, p_chan p = l1 ++ c1 :: l2 ++ c2 :: l3 -> evs = e1 ++ EGot j c2 :: e2 -> exists i, EGot i c1 ∈ e1.
Proof.
  induction s as [|a s IH]; intros p p' evs Hs Hu HI E l1 c1 l2 c2 l3 e1 j e2 Hc He; [cbn in E; injection E as <- <-; destruct e1; discriminate|].
  apply pexec_cons in E as (p1 & x & y & E1 & E2 & Hx). pose proof (Forall_inv Hs) as Ha; pose proof (Forall_inv_tail Hs) as Hs'; cbv beta in Ha. rewrite He in Hx. symmetry in Hx.
  pose proof (unclosed_step _ _ _ _ Hu Ha E1) as Hu1. pose proof (proj1 (pinv_step _ _ _ _ HI E1)) as HI1.
  destruct (pool_step _ _ _ _ E1) as [[[H1 H2]|[(i & c & H0 & H1 & H2)|[(i & c & H1 & H2)|(i & c & H1 & H2 & _)]]] _].
  4: { destruct (proj1 (Hu i) H2). }
  3: { subst x. cbn [app] in Hx. destruct l1 as [|d l1]; rewrite Hc in H1; cbn in H1.
    - injection H1 as <- H1. destruct e1 as [|z e1]; [|injection Hx as <- _; exists i; left].
      exfalso. injection Hx as <- <- Hx. pose proof (pi_nodup p HI) as Hd. unfold conns in Hd. rewrite Hc in Hd. cbn in Hd.
      inversion Hd as [|? ? Hnot _]; subst. apply Hnot. apply elem_of_app. left. apply elem_of_app. right. left.
    - injection H1 as <- H1. destruct e1 as [|z e1].
      + exfalso. injection Hx as <- <- Hx. pose proof (pi_nodup p HI) as Hd. unfold conns in Hd. rewrite Hc in Hd. cbn in Hd.
        inversion Hd as [|? ? Hnot _]; subst. apply Hnot. apply elem_of_app. left. apply elem_of_app. right. right. apply elem_of_app. right. left.
      + injection Hx as <- Hx. destruct (IH _ _ _ Hs' Hu1 HI1 E2 l1 c1 l2 c2 l3 e1 j e2 (eq_sym H1) Hx) as [k Hk]. exists k. right. exact Hk. }
  all: assert (Hsplit : exists e1', e1 = x ++ e1' /\ y = e1' ++ EGot j c2 :: e2).
  1,3: apply app_eq_inv in Hx as [(k & Hk1 & Hk2)|(k & Hk1 & Hk2)]; [|exists k; auto]; destruct k as [|u k]; [exists []; cbn in Hk2; rewrite !app_nil_r in *; auto|];
       injection Hk2 as <- Hk2; exfalso; eapply H2; rewrite Hk1; apply elem_of_app; right; left.
  all: destruct Hsplit as (e1' & -> & ->).
  - destruct (IH _ _ _ Hs' Hu1 HI1 E2 l1 c1 l2 c2 l3 e1' j e2 ltac:(congruence) eq_refl) as [k Hk]. exists k. apply elem_of_app. right. exact Hk.
  - destruct (IH _ _ _ Hs' Hu1 HI1 E2 l1 c1 l2 c2 (l3 ++ [c]) e1' j e2) as [k Hk]; [rewrite H1, Hc, <- !app_assoc; cbn; rewrite <- !app_assoc; reflexivity|reflexivity|].
    exists k. apply elem_of_app. right. exact Hk.
Qed.
(** In a pool that is not being closed, whoever gets a connection that stands behind another one in the queue
    gets it after that other one was handed out. *)
Theorem C138_fifo z s0 p evs0 s p' evs l1 c1 l2 c2 l3 e1 j e2 : no_close (s0 ++ s) -> pexec s0 (pool_init z) = Some (p, evs0) ->
  p_chan p = l1 ++ c1 :: l2 ++ c2 :: l3 -> pexec s p = Some (p', evs) -> evs = e1 ++ EGot j c2 :: e2 -> exists i, EGot i c1 ∈ e1.
Proof.
  intros Hs E0 Hc E He. apply Forall_app in Hs as [Hs0 Hs].
  exact (fifo_exec s p p' evs Hs (unclosed_exec _ _ _ _ (unclosed_init z) Hs0 E0) (proj1 (pinv_exec _ _ _ _ (pinv_init z) E0)) E l1 c1 l2 c2 l3 e1 j e2 Hc He).
Qed.
Example C138_nonvacuous :
  match pexec (fresh_get 1 ++ fresh_get 2 ++ [PRelease 2; PRun 2; PRelease 1; PRun 1]) (pool_init 2) with
  | Some (p, _) => p_chan p = [1; 0]%nat /\ match pexec [PGet 3; PRun 3; PGet 4; PRun 4] p with Some (_, e) => e = [EGot 3 1; EGot 4 0] | None => False end
  | None => False end.
Proof. vm_compute. split; reflexivity. Qed.

(** ** C139 No connection is lost *)
Definition dials (s : list pact) : nat := length (List.filter (fun a => match a with PDialOk _ => true | _ => false end) s).
Lemma conserved_exec s : forall p p' e, unclosed p -> no_close s -> pexec s p = Some (p', e) -> conns p ≡ₚ seq 0 (p_next p) -> conns p' ≡ₚ seq 0 (p_next p') /\ p_next p' = (p_next p + dials s)%nat.
Proof.
  induction s as [|a s IH]; intros p p' e Hu Hs E Hc; [cbn in E; injection E as <- <-; split; [exact Hc|unfold dials; cbn; lia]|].
  apply pexec_cons in E as (p1 & x & y & E1 & E2 & _). inversion Hs as [|? ? Ha Hs']; subst. pose proof (unclosed_step _ _ _ _ Hu Ha E1) as Hu1.
  destruct (pool_step _ _ _ _ E1) as [_ [(H1 & H2 & _ & H3)|[(i & -> & _ & H1 & H2 & _)|(i & c & H0 & _)]]].
  - destruct (IH _ _ _ Hu1 Hs' E2) as [H4 H5]; [rewrite H1, H2; exact Hc|]. split; [exact H4|].
    rewrite H5, H2. unfold dials. cbn. destruct a; try reflexivity. destruct (H3 i eq_refl).
  - destruct (IH _ _ _ Hu1 Hs' E2) as [H4 H5]; [rewrite H1, H2, seq_S, Hc; cbn; apply Permutation_cons_append|]. split; [exact H4|].
    rewrite H5, H2. unfold dials. cbn. lia.
  - destruct (proj2 (Hu i) c H0).
Qed.
(** Whatever Gets are cancelled and whatever dials fail: once nobody is inside a call, every connection that was
    ever opened is idle in the pool. *)
Theorem C139_no_connection_lost z s p evs : no_close s -> pexec s (pool_init z) = Some (p, evs) -> p_th p = ∅ ->
  p_chan p ≡ₚ seq 0 (dials s).
Proof.
  intros Hs E He. destruct (conserved_exec s _ _ _ (unclosed_init z) Hs E (Permutation_refl _)) as [H1 H2]. unfold conns in H1. rewrite He in H1.
  change (holding ∅) with (@nil nat) in H1. rewrite app_nil_r, H2 in H1. exact H1.
Qed.
(** A Get that opens a connection and is then cancelled leaves it in the pool, next to one whose dial fails. *)
Example C139_nonvacuous :
  match pexec [PGet 1; PRun 1; PRun 1; PRun 1; PDialOk 1; PRun 1; PRun 1; PCancel 1; PGet 2; PRun 2; PRelease 2; PRun 2] (pool_init 2) with
  | Some (p, e) => e = [EGetErr 1; EGot 2 0; EPutDone 2] /\ p_chan p = [0]%nat /\ bool_decide (p_th p = ∅) = true | None => False end.
Proof. vm_compute. repeat split. Qed.

(** ** C140 After Close the pool opens new connections
    Full statement: after Close, a Get opens a new connection or returns an error. *)
(** A pool that has handed out all its connections and had all of them closed serves nobody any more, in any
    continuation: the connections closed are still counted. *)
Lemma spent_exec s : forall p p' e, pinv p -> p_size p = p_cap p -> conns p = [] -> pexec s p = Some (p', e) -> (forall i c, EGot i c ∉ e) /\ conns p' = [] /\ p_size p' = p_cap p'.
Proof.
  induction s as [|a s IH]; intros p p' e HI Hsz Hc E; [cbn in E; injection E as <- <-; split; [intros; apply not_in_nil|auto]|].
  apply pexec_cons in E as (p1 & x & y & E1 & E2 & ->). destruct (pinv_step _ _ _ _ HI E1) as [HI1 Hcap].
  destruct (pool_step _ _ _ _ E1) as [Hch Hco].
  assert (Hc1 : conns p1 = [] /\ p_size p1 = p_size p).
  { destruct Hco as [(H1 & _ & H2 & _)|[(i & _ & Hd & _)|(i & c & _ & H1 & _ & H2 & _)]].
    - rewrite Hc in H1. split; [apply Permutation_nil, Permutation_sym, H1|exact H2].
    - pose proof (pi_dial p HI i Hd). lia.
    - rewrite Hc in H1. apply Permutation_nil in H1. discriminate. }
  destruct Hc1 as [Hc1 Hs1]. destruct (IH p1 p' y HI1 ltac:(congruence) Hc1 E2) as (H1 & H2 & H3). split; [|auto].
  intros i c Hin. apply elem_of_app in Hin as [Hin|Hin]; [|exact (H1 i c Hin)].
  assert (Hn : p_chan p = []) by (unfold conns in Hc; apply app_eq_nil in Hc as [Hc _]; exact Hc).
  destruct Hch as [[_ H]|[(k & d & _ & _ & H)|[(k & d & H & _)|(k & d & H & _)]]]; [exact (H _ _ Hin)|exact (H _ _ Hin)| |]; rewrite Hn in H; discriminate.
Qed.
Theorem C140_closed_pool_serves_nobody_refuted z s p evs s' p' evs' : pexec s (pool_init z) = Some (p, evs) ->
  p_size p = capacity z -> conns p = [] -> pexec s' p = Some (p', evs') -> forall i c, EGot i c ∉ evs'.
Proof.
  intros E Hsz Hc E'. destruct (pinv_exec _ _ _ _ (pinv_init z) E) as [HI Hcap]. change (p_cap (pool_init z)) with (capacity z) in Hcap.
  apply (spent_exec s' p p' evs' HI ltac:(congruence) Hc E').
Qed.
(** Such a state is reached when everything is returned and Close is called, here with a pool of one.
    A Get then waits for ever if its context is not cancelled. *)
Example C140_closed_pool_ex :
  match pexec (fresh_get 1 ++ [PRelease 1; PRun 1; PClose 2; PRun 2; PCloseOk 2; PGet 1; PRun 1; PRun 1; PRun 1; PRun 1]) (pool_init 1) with
  | Some (p, e) => p_size p = capacity 1 /\ conns p = [] /\ p_th p !! 1%nat = Some GWait /\ pstep (PRun 1) p = None | None => False end.
Proof. vm_compute. repeat split. Qed.
(** What holds: a pool that had not opened all its connections can still open the others. *)
Theorem C140_below_capacity_partial z s p evs i : pexec s (pool_init z) = Some (p, evs) -> p_th p !! i = None -> p_lock p = false ->
  p_chan p = [] -> (p_size p < capacity z)%nat -> exists p', pexec (fresh_get i) p = Some (p', [EGot i (p_next p)]).
Proof.
  intros E Hi Hl Hch Hsz. destruct (pinv_exec _ _ _ _ (pinv_init z) E) as [HI Hcap]. change (p_cap (pool_init z)) with (capacity z) in Hcap.
  unfold fresh_get. destruct p as [cap size chan lock next th]. cbn [p_cap p_size p_chan p_lock p_next p_th] in *. subst chan lock cap.
  cbn [pexec pstep p_th]. rewrite Hi. unfold go, set_th, set_chan, set_lock.
  repeat (cbn [pexec pstep p_cap p_size p_chan p_lock p_next p_th go set_th set_chan set_lock]; rewrite ?lookup_insert).
  destruct (Nat.ltb_spec size (capacity z)); [|lia].
  repeat (cbn [pexec pstep p_cap p_size p_chan p_lock p_next p_th go set_th set_chan set_lock app]; unfold go, set_th, set_chan, set_lock; rewrite ?lookup_insert).
  destruct (Nat.ltb_spec (length (@nil nat)) (capacity z)) as [|Hz]; [|cbn in Hz; lia].
  repeat (cbn [pexec pstep p_cap p_size p_chan p_lock p_next p_th go set_th set_chan set_lock app]; unfold go, set_th, set_chan, set_lock; rewrite ?lookup_insert).
  eauto.
Qed.
Example C140_below_capacity_ex :
  match pexec (fresh_get 1 ++ [PRelease 1; PRun 1; PClose 2; PRun 2; PCloseOk 2]) (pool_init 2) with
  | Some (p, e) => p_lock p = false /\ p_chan p = [] /\ (p_size p < capacity 2)%nat | None => False end.
Proof. vm_compute. repeat split. lia. Qed.

(** ** C141 A closed connection is not used *)
Lemma gone_exec s : forall p p' e c, pinv p -> (c < p_next p)%nat -> c ∉ conns p -> pexec s p = Some (p', e) -> (forall i, EGot i c ∉ e) /\ c ∉ conns p'.
Proof.
  induction s as [|a s IH]; intros p p' e c HI Hlt Hc E; [cbn in E; injection E as <- <-; split; [intros; apply not_in_nil|exact Hc]|].
  apply pexec_cons in E as (p1 & x & y & E1 & E2 & ->). destruct (pinv_step _ _ _ _ HI E1) as [HI1 _]. destruct (pool_step _ _ _ _ E1) as [Hch Hco].
  assert (Hc1 : c ∉ conns p1 /\ (c < p_next p1)%nat).
  { destruct Hco as [(H1 & H2 & _)|[(i & _ & _ & H1 & H2 & _)|(i & d & _ & H1 & H2 & _)]].
    - rewrite H1, H2. auto.
    - rewrite H1, H2. split; [|lia]. intros Hin. apply elem_of_cons in Hin as [->|Hin]; [lia|contradiction].
    - rewrite H2. split; [|exact Hlt]. intros Hin. apply Hc. rewrite H1. right. exact Hin. }
  destruct Hc1 as [Hc1 Hlt1]. destruct (IH p1 p' y c HI1 Hlt1 Hc1 E2) as [H1 H2]. split; [|exact H2].
  intros i Hin. apply elem_of_app in Hin as [Hin|Hin]; [|exact (H1 i Hin)].
  destruct Hch as [[_ H]|[(k & d & _ & _ & H)|[(k & d & H & ->)|(k & d & _ & _ & ->)]]]; [exact (H _ _ Hin)|exact (H _ _ Hin)| |exact (not_in_nil _ _ Hin)].
  apply elem_of_list_singleton in Hin. injection Hin as <- <-. apply Hc. unfold conns. rewrite H. left.
Qed.
(** A connection that Close is closing is in nobody else's hands, and once closed it is never handed out again. *)
Theorem C141_close_takes_idle_only z s p evs i c : pexec s (pool_init z) = Some (p, evs) -> p_th p !! i = Some (CClose c) ->
  (forall j, ~ lent p j c) /\ ~ In c (p_chan p) /\
  forall a p1 e1 s' p' evs', (a = PCloseOk i \/ a = PCloseErr i) -> pstep a p = Some (p1, e1) -> pexec s' p1 = Some (p', evs') -> forall j, EGot j c ∉ evs'.
Proof.
  intros E Hi. destruct (pinv_exec _ _ _ _ (pinv_init z) E) as [HI _]. pose proof (pi_nodup p HI) as Hd. pose proof (pi_fresh p HI) as Hf.
  assert (HP : conns p ≡ₚ c :: p_chan p ++ holding (delete i (p_th p))).
  { unfold conns. rewrite (holding_lookup (p_th p) i), Hi. cbn [held_at held app]. symmetry. apply Permutation_middle. }
  rewrite HP in Hd. inversion Hd as [|? ? Hnot Hd']; subst. rewrite HP in Hf. inversion Hf as [|? ? Hlt _]; subst.
  split; [|split].
  - intros j Hj. assert (Hne : i <> j) by (intros <-; destruct Hj as [Hj|Hj]; rewrite Hi in Hj; discriminate).
    apply Hnot. apply elem_of_app. right. rewrite (holding_lookup (delete i (p_th p)) j), lookup_delete_ne by exact Hne.
    destruct Hj as [-> | ->]; left.
  - intros Hin. apply Hnot. apply elem_of_app. left. apply elem_of_list_In. exact Hin.
  - intros a p1 e1 s' p' evs' Ha E1 E' j. destruct (pinv_step _ _ _ _ HI E1) as [HI1 _].
    assert (Hp1 : exists o, held_at o = [] /\ p_chan p1 = p_chan p /\ p_th p1 = alter_th i o (p_th p) /\ p_next p1 = p_next p).
    { destruct Ha as [-> | ->]; cbn in E1; rewrite Hi in E1; injection E1 as <- _; [exists (Some CRange)|exists None]; repeat split. }
    destruct Hp1 as (o & Ho & Hc1 & Ht1 & Hn1).
    apply (gone_exec s' p1 p' evs' c HI1); [rewrite Hn1; exact Hlt| |exact E'].
    unfold conns. rewrite Hc1, Ht1, holding_alter, Ho. exact Hnot.
Qed.
Example C141_nonvacuous :
  match pexec (fresh_get 1 ++ fresh_get 2 ++ [PRelease 1; PRun 1; PClose 3; PRun 3]) (pool_init 2) with
  | Some (p, e) => p_th p !! 3%nat = Some (CClose 0) /\ p_th p !! 2%nat = Some (Lent 1) | None => False end.
Proof. vm_compute. split; reflexivity. Qed.
