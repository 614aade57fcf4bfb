(** * ConcHash: goroutines that keep an invariant, and concurrent calls on one stored hash (proof machinery) *)
From stdpp Require Import relations.
From Verif Require Import Base GoFloat CacheModel CacheSpec CacheAbs CacheConc ConcLin ConcSafe ConcDl.

(** every step of the program from a state in [I] stays in [I] and, if it starts in [J], in [J]; its
    result satisfies [Q] *)
Inductive keeps (I J : world -> Prop) {R} (Q : R -> Prop) : prog R -> Prop :=
| kp_ret r : Q r -> keeps I J Q (Ret r)
| kp_step f : (forall w w' p', I w -> f w = Go w' p' -> I w' /\ (J w -> J w')) -> (forall w w' p', I w -> f w = Go w' p' -> keeps I J Q p') -> keeps I J Q (Step f).
Definition top {R} : R -> Prop := fun _ => True.
Lemma keeps_weaken (I J : world -> Prop) {R} (Q Q' : R -> Prop) p : (forall r, Q r -> Q' r) -> keeps I J Q p -> keeps I J Q' p.
Proof. intros H Hp. induction Hp; constructor; eauto. Qed.
Lemma keeps_top (I J : world -> Prop) {R} (Q : R -> Prop) p : keeps I J Q p -> keeps I J top p.
Proof. apply keeps_weaken. intros. exact Logic.I. Qed.
Lemma keeps_narrow (I J : world -> Prop) {R} (Q : R -> Prop) p : (forall w, J w -> I w) -> keeps I J Q p -> keeps J J Q p.
Proof.
  intros HJ Hp. induction Hp as [r H|f H1 H2 IH]; constructor; eauto.
  intros w w' p' Hw E. destruct (H1 _ _ _ (HJ _ Hw) E). auto.
Qed.
Lemma keeps_bind (I J : world -> Prop) {A B} (Q' : A -> Prop) (Q : B -> Prop) p (k : A -> prog B) : keeps I J Q' p -> (forall r, Q' r -> keeps I J Q (k r)) -> keeps I J Q (pbind p k).
Proof.
  intros Hp Hk. induction Hp as [r H|f H1 H2 IH]; cbn; [apply Hk, H|]. constructor.
  - intros w w' p' Hw. destruct (f w) as [w1 p1| |] eqn:E; try discriminate. intros [= <- <-]. eauto.
  - intros w w' p' Hw. destruct (f w) as [w1 p1| |] eqn:E; try discriminate. intros [= <- <-]. eauto.
Qed.
Lemma keeps_atom (I J : world -> Prop) {A} (Q : A -> Prop) (f : world -> ares A) : (forall w w' a, I w -> f w = Go w' a -> I w' /\ (J w -> J w') /\ Q a) -> keeps I J Q (atom f).
Proof.
  intros H. constructor; intros w w' p' Hw; destruct (f w) as [w1 a| |] eqn:E; try discriminate; intros [= <- <-].
  - destruct (H _ _ _ Hw E) as (? & ? & _). auto.
  - constructor. eapply H; eauto.
Qed.
Lemma keeps_pmap (I J : world -> Prop) {A} (Q' : A -> Prop) (Q : reply -> Prop) p g : keeps I J Q' p -> (forall a, Q' a -> Q (g a)) -> keeps I J Q (pmap g p).
Proof. intros Hp H. unfold pmap. eapply keeps_bind; [exact Hp|]. intros r Hr. constructor. auto. Qed.

(** ** goroutines *)
Definition stable (I : world -> Prop) : Prop := forall w t, I w -> I (set_now w t).
Definition all_keep (I J : world -> Prop) (Qs : nat -> reply -> Prop) (c : conf) : Prop :=
  I (c_w c) /\ forall j p, c_th c !! j = Some p -> keeps I J (Qs j) p.
Lemma keep_step I J Qs a c c' e : stable I -> all_keep I J Qs c -> cstep a c = Some (c', e) ->
  (forall j cl, EInv j cl ∈ e -> keeps I J (Qs j) (call_prog cl)) -> all_keep I J Qs c'.
Proof.
  intros Hst [HI Hth] E Hin. destruct a as [i cl|i|i|t]; cbn in E.
  - destruct (c_th c !! i) eqn:Ei; [discriminate|]. injection E as <- <-. split; [exact HI|]. cbn. intros j p. rewrite lookup_insert_Some. intros [[<- <-]|[_ Hj]]; [apply Hin; left|auto].
  - destruct (c_th c !! i) as [[r|f]|] eqn:Ei; try discriminate. destruct (f (c_w c)) as [w' p'| |] eqn:Ef; try discriminate. injection E as <- <-.
    specialize (Hth i _ Ei) as Hi. inversion Hi as [|? H1 H2]; subst. split; [cbn; eapply H1; eauto|]. cbn. intros j p. rewrite lookup_insert_Some. intros [[<- <-]|[_ Hj]]; eauto.
  - destruct (c_th c !! i) as [[r|f]|] eqn:Ei; try discriminate. injection E as <- <-. split; [exact HI|]. cbn. intros j p. rewrite lookup_delete_Some. intros [_ Hj]. auto.
  - destruct (w_now (c_w c) <=? t); [|discriminate]. injection E as <- <-. split; [cbn; apply Hst, HI|exact Hth].
Qed.
Lemma keep_exec I J Qs s c c' evs : stable I -> all_keep I J Qs c -> cexec s c = Some (c', evs) ->
  (forall j cl, EInv j cl ∈ evs -> keeps I J (Qs j) (call_prog cl)) -> all_keep I J Qs c'.
Proof.
  intros Hst H0 E Hin. refine (cexec_inv (fun c evs => (forall j cl, EInv j cl ∈ evs -> keeps I J (Qs j) (call_prog cl)) -> all_keep I J Qs c) s c c' evs _ [] _ E Hin); [|auto].
  intros c1 evs1 a c2 e IH Es Hi. eapply keep_step; [exact Hst|apply IH|exact Es|]; intros j cl Hj; apply Hi, elem_of_app; auto.
Qed.
Lemma cstep_one a c c' e : cstep a c = Some (c', e) -> e = [] \/ exists x, e = [x].
Proof.
  destruct a as [i cl|i|i|t]; cbn.
  - destruct (c_th c !! i); [discriminate|]. intros [= _ <-]. eauto.
  - destruct (c_th c !! i) as [[r|f]|]; try discriminate. destruct (f (c_w c)); try discriminate. intros [= _ <-]. eauto.
  - destruct (c_th c !! i) as [[r|f]|]; try discriminate. intros [= _ <-]. eauto.
  - destruct (w_now (c_w c) <=? t); [|discriminate]. intros [= _ <-]. eauto.
Qed.
(** an execution cut after some of its events *)
Lemma cexec_split s : forall c0 c e1 e2, cexec s c0 = Some (c, e1 ++ e2) -> exists s1 s2 c1, cexec s1 c0 = Some (c1, e1) /\ cexec s2 c1 = Some (c, e2).
Proof.
  induction s as [|a s IH]; intros c0 c e1 e2 E; cbn in E.
  - injection E as -> E. symmetry in E. apply app_nil in E as [-> ->]. exists [], [], c. auto.
  - destruct (cstep a c0) as [[c1 e]|] eqn:E1; [|discriminate]. destruct (cexec s c1) as [[c2 es]|] eqn:E2; [|discriminate]. injection E as -> E.
    destruct (cstep_one _ _ _ _ E1) as [->|(x & ->)].
    + cbn in E. rewrite E in E2. destruct (IH _ _ _ _ E2) as (s1 & s2 & c3 & I1 & I2). exists (a :: s1), s2, c3. split; [|exact I2]. cbn. rewrite E1, I1. reflexivity.
    + destruct e1 as [|y e1]; cbn in E.
      * exists [], (a :: s), c0. split; [reflexivity|]. cbn. rewrite E1, E2. cbn. rewrite <- E. reflexivity.
      * injection E as <- E. rewrite E in E2. destruct (IH _ _ _ _ E2) as (s1 & s2 & c3 & I1 & I2). exists (a :: s1), s2, c3. split; [|exact I2]. cbn. rewrite E1, I1. reflexivity.
Qed.
(** an execution whose only event is [x]: some steps, the step of [x], some more steps *)
Lemma cexec_event s : forall c0 c x, cexec s c0 = Some (c, [x]) -> exists s1 a s2 c1 c2, cexec s1 c0 = Some (c1, []) /\ cstep a c1 = Some (c2, [x]) /\ cexec s2 c2 = Some (c, []).
Proof.
  induction s as [|a s IH]; intros c0 c x E; cbn in E; [discriminate|].
  destruct (cstep a c0) as [[c1 e]|] eqn:E1; [|discriminate]. destruct (cexec s c1) as [[c2 es]|] eqn:E2; [|discriminate]. injection E as -> E.
  destruct (cstep_one _ _ _ _ E1) as [->|(y & ->)].
  - cbn in E. subst es. destruct (IH _ _ _ E2) as (s1 & b & s2 & c3 & c4 & I1 & I2 & I3). exists (a :: s1), b, s2, c3, c4. split; [|auto]. cbn. rewrite E1, I1. reflexivity.
  - injection E as -> ->. exists [], a, s, c0, c1. auto.
Qed.
Lemma step_inv a c c' i cl : cstep a c = Some (c', [EInv i cl]) -> c_th c !! i = None /\ c' = Conf (c_w c) (<[i := call_prog cl]> (c_th c)).
Proof.
  destruct a as [j cl'|j|j|t]; cbn.
  - destruct (c_th c !! j) eqn:E; [discriminate|]. intros [= <- -> ->]. auto.
  - destruct (c_th c !! j) as [[r|f]|]; try discriminate. destruct (f (c_w c)); discriminate.
  - destruct (c_th c !! j) as [[r|f]|]; discriminate.
  - destruct (w_now (c_w c) <=? t); discriminate.
Qed.
Lemma step_ret a c c' i r : cstep a c = Some (c', [ERet i r]) -> c_th c !! i = Some (Ret r) /\ c' = Conf (c_w c) (delete i (c_th c)).
Proof.
  destruct a as [j cl'|j|j|t]; cbn.
  - destruct (c_th c !! j) eqn:E; discriminate.
  - destruct (c_th c !! j) as [[r'|f]|]; try discriminate. destruct (f (c_w c)); discriminate.
  - destruct (c_th c !! j) as [[r'|f]|] eqn:E; try discriminate. intros [= <- -> ->]. auto.
  - destruct (w_now (c_w c) <=? t); discriminate.
Qed.
(** the programs that reach [J] before they end *)
Inductive est (I J : world -> Prop) {R} : prog R -> Prop :=
| est_step f : (forall w w' p', I w -> f w = Go w' p' -> (I w' /\ est I J p') \/ (J w' /\ keeps J J top p')) -> est I J (Step f).
Lemma est_bind I J {A B} (Q' : A -> Prop) p (k : A -> prog B) : keeps I J Q' p -> (forall r, Q' r -> est I J (k r)) -> est I J (pbind p k).
Proof.
  intros Hp Hk. induction Hp as [r H|f H1 H2 IH]; cbn; [apply Hk, H|]. constructor.
  intros w w' p' Hw. destruct (f w) as [w1 p1| |] eqn:E; try discriminate. intros [= <- <-]. left. split; [eapply H1; eauto|eauto].
Qed.
(** a goroutine that reaches [J], among goroutines that keep [I] and [J] *)
Definition reaching (I J : world -> Prop) (i : nat) (c : conf) : Prop :=
  (I (c_w c) /\ (exists p, c_th c !! i = Some p /\ est I J p) /\ forall j p, j <> i -> c_th c !! j = Some p -> keeps I J top p) \/ all_keep J J (fun _ => top) c.
Lemma reaching_exec (I J : world -> Prop) i s c c' evs : (forall w, J w -> I w) -> stable I -> stable J -> reaching I J i c -> cexec s c = Some (c', evs) -> Forall (fun e => who e <> Some i) evs ->
  (forall j cl, EInv j cl ∈ evs -> keeps I J top (call_prog cl)) -> reaching I J i c'.
Proof.
  intros HJ Hs0 Hs1 H0 E Hw Hin.
  refine (cexec_inv (fun c evs => Forall (fun e => who e <> Some i) evs -> (forall j cl, EInv j cl ∈ evs -> keeps I J top (call_prog cl)) -> reaching I J i c) s c c' evs _ [] _ E Hw Hin); [|auto].
  clear - HJ Hs0 Hs1. intros c evs a c' e IH Es Hw Hi. apply Forall_app in Hw as [Hw1 Hw2]. destruct IH as [(H1 & (p & Hp & He) & Hth)|H1]; [exact Hw1|intros j cl Hj; apply (Hi j), elem_of_app; auto| |].
  2: { right. eapply keep_step; [exact Hs1|exact H1|exact Es|]. intros j cl Hj. eapply keeps_narrow; [exact HJ|]. apply (Hi j), elem_of_app. auto. }
  destruct a as [j cl|j|j|t]; cbn in Es.
  - destruct (c_th c !! j) eqn:Ej; [discriminate|]. injection Es as <- <-. left. assert (j <> i) by congruence. cbn. split; [exact H1|]. rewrite lookup_insert_ne by auto. split; [eauto|].
    intros j' p'. rewrite lookup_insert_Some. intros Hj' [[<- <-]|[_ Hx]]; [apply (Hi j), elem_of_app; right; left|eauto].
  - destruct (c_th c !! j) as [[r|f]|] eqn:Ej; try discriminate. destruct (f (c_w c)) as [w' p'| |] eqn:Ef; try discriminate. injection Es as <- <-. destruct (decide (j = i)) as [->|Hj].
    + rewrite Hp in Ej. injection Ej as ->. inversion He as [? Hf]; subst. destruct (Hf _ _ _ H1 Ef) as [[H2 H3]|[H2 H3]].
      * left. cbn. split; [exact H2|]. rewrite lookup_insert. split; [eauto|]. intros j' p''. rewrite lookup_insert_Some. intros Hj' [[<- _]|[_ Hx]]; [congruence|eauto].
      * right. split; [exact H2|]. cbn. intros j' p''. rewrite lookup_insert_Some. intros [[<- <-]|[Hj' Hx]]; [exact H3|]. eapply keeps_narrow; [exact HJ|]. eapply Hth; eauto.
    + left. cbn. rewrite lookup_insert_ne by auto. pose proof (Hth j _ Hj Ej) as K. inversion K as [|? A1 A2]; subst.
      split; [eapply A1; eauto|]. split; [eauto|]. intros j' p''. rewrite lookup_insert_Some. intros Hj' [[<- <-]|[_ Hx]]; eauto.
  - destruct (c_th c !! j) as [[r|f]|] eqn:Ej; try discriminate. injection Es as <- <-. left. assert (j <> i). { intros ->. rewrite Hp in Ej. injection Ej as ->. inversion He. }
    cbn. split; [exact H1|]. rewrite lookup_delete_ne by auto. split; [eauto|]. intros j' p'. rewrite lookup_delete_Some. intros Hj' [_ Hx]. eauto.
  - destruct (w_now (c_w c) <=? t); [|discriminate]. injection Es as <- <-. left. cbn. split; [apply Hs0, H1|]. split; [eauto|exact Hth].
Qed.
(** ** the whole story: goroutine [i] establishes [J] and returns; goroutine [j] asks afterwards *)
Lemma establish (I J : world -> Prop) (Q : reply -> Prop) w0 s c p1 i ci p2 ri p3 j cj p4 rj p5 :
  (forall w, J w -> I w) -> stable I -> stable J -> I w0 ->
  (forall l cl, EInv l cl ∈ p1 ++ p2 ++ p3 ++ p4 -> keeps I J top (call_prog cl)) -> est I J (call_prog ci) -> keeps J J Q (call_prog cj) ->
  cexec s (start w0) = Some (c, p1 ++ EInv i ci :: p2 ++ ERet i ri :: p3 ++ EInv j cj :: p4 ++ ERet j rj :: p5) ->
  Forall (fun e => who e <> Some i) p2 -> Forall (fun e => who e <> Some j) p4 -> Q rj.
Proof.
  intros HJ Hs0 Hs1 Hw0 Hin He Hq E Hp2 Hp4.
  apply cexec_split in E as (s1 & s2 & c1 & E1 & E). assert (K1 : all_keep I J (fun _ => top) c1).
  { eapply keep_exec; [exact Hs0| |exact E1|]; [split; [exact Hw0|]; cbn; intros l p; rewrite lookup_empty; discriminate|]. intros l cl H. apply (Hin l), elem_of_app. auto. }
  change (EInv i ci :: p2 ++ ERet i ri :: p3 ++ EInv j cj :: p4 ++ ERet j rj :: p5) with ([EInv i ci] ++ p2 ++ ERet i ri :: p3 ++ EInv j cj :: p4 ++ ERet j rj :: p5) in E.
  apply cexec_split in E as (s3 & s4 & c2 & E2 & E). apply cexec_event in E2 as (s5 & a1 & s6 & c3 & c4 & E3 & E4 & E5).
  assert (K3 : all_keep I J (fun _ => top) c3). { eapply keep_exec; [exact Hs0|exact K1|exact E3|]. intros l cl H. inversion H. }
  apply step_inv in E4 as [Hi ->].
  assert (K4 : reaching I J i (Conf (c_w c3) (<[i := call_prog ci]> (c_th c3)))).
  { left. cbn. rewrite lookup_insert. destruct K3 as [K3 K3']. split; [exact K3|]. split; [eauto|]. intros l p Hl. rewrite lookup_insert_ne by auto. apply K3'. }
  assert (K5 : reaching I J i c2). { eapply reaching_exec; [exact HJ|exact Hs0|exact Hs1|exact K4|exact E5|constructor|]. intros l cl H. inversion H. }
  apply cexec_split in E as (s7 & s8 & c5 & E6 & E).
  assert (K6 : reaching I J i c5). { eapply reaching_exec; [exact HJ|exact Hs0|exact Hs1|exact K5|exact E6|exact Hp2|]. intros l cl H. apply (Hin l). rewrite !elem_of_app. auto. }
  change (ERet i ri :: p3 ++ EInv j cj :: p4 ++ ERet j rj :: p5) with ([ERet i ri] ++ p3 ++ EInv j cj :: p4 ++ ERet j rj :: p5) in E.
  apply cexec_split in E as (s9 & s10 & c6 & E7 & E). apply cexec_event in E7 as (s11 & a2 & s12 & c7 & c8 & E8 & E9 & E10).
  assert (K7 : reaching I J i c7). { eapply reaching_exec; [exact HJ|exact Hs0|exact Hs1|exact K6|exact E8|constructor|]. intros l cl H. inversion H. }
  pose proof E9 as E9'. apply step_ret in E9' as [Hri _].
  assert (K8 : all_keep J J (fun _ => top) c7). { destruct K7 as [(_ & (p & Hp & Hep) & _)|K7]; [|exact K7]. rewrite Hri in Hp. injection Hp as <-. inversion Hep. }
  assert (Hin' : forall l cl, EInv l cl ∈ p1 ++ p2 ++ p3 ++ p4 -> keeps J J top (call_prog cl)). { intros l cl H. eapply keeps_narrow; [exact HJ|]. exact (Hin l cl H). }
  assert (K9 : all_keep J J (fun _ => top) c8). { eapply keep_step; [exact Hs1|exact K8|exact E9|]. intros l cl H. inversion H; subst. inversion H2. }
  assert (K10 : all_keep J J (fun _ => top) c6). { eapply keep_exec; [exact Hs1|exact K9|exact E10|]. intros l cl H. inversion H. }
  apply cexec_split in E as (s13 & s14 & c9 & E11 & E).
  assert (K11 : all_keep J J (fun _ => top) c9). { eapply keep_exec; [exact Hs1|exact K10|exact E11|]. intros l cl H. apply (Hin' l). rewrite !elem_of_app. auto. }
  change (EInv j cj :: p4 ++ ERet j rj :: p5) with ([EInv j cj] ++ p4 ++ ERet j rj :: p5) in E.
  apply cexec_split in E as (s15 & s16 & c10 & E12 & E). apply cexec_event in E12 as (s17 & a3 & s18 & c11 & c12 & E13 & E14 & E15).
  assert (K12 : all_keep J J (fun _ => top) c11). { eapply keep_exec; [exact Hs1|exact K11|exact E13|]. intros l cl H. inversion H. }
  apply step_inv in E14 as [Hj ->].
  set (Qs := fun l : nat => if decide (l = j) then Q else top).
  assert (K13 : all_keep J J Qs (Conf (c_w c11) (<[j := call_prog cj]> (c_th c11)))).
  { split; [apply K12|]. cbn. intros l p. rewrite lookup_insert_Some. unfold Qs. intros [[<- <-]|[Hl Hx]]; [rewrite decide_True by auto; exact Hq|]. rewrite decide_False by auto. eapply K12; eauto. }
  assert (K14 : all_keep J J Qs c10). { eapply keep_exec; [exact Hs1|exact K13|exact E15|]. intros l cl H. inversion H. }
  apply cexec_split in E as (s19 & s20 & c13 & E16 & E).
  assert (K15 : all_keep J J Qs c13).
  { eapply keep_exec; [exact Hs1|exact K14|exact E16|]. intros l cl H. unfold Qs. rewrite decide_False; [apply (Hin' l); rewrite !elem_of_app; auto|].
    intros ->. rewrite List.Forall_forall in Hp4. apply elem_of_list_In in H. apply (Hp4 _ H). reflexivity. }
  change (ERet j rj :: p5) with ([ERet j rj] ++ p5) in E. apply cexec_split in E as (s21 & s22 & c14 & E17 & _). apply cexec_event in E17 as (s23 & a4 & s24 & c15 & c16 & E18 & E19 & _).
  assert (K16 : all_keep J J Qs c15). { eapply keep_exec; [exact Hs1|exact K15|exact E18|]. intros l cl H. inversion H. }
  apply step_ret in E19 as [Hrj _]. apply K16 in Hrj. unfold Qs in Hrj. rewrite decide_True in Hrj by auto. inversion Hrj. assumption.
Qed.

(** goroutine [j] asks while the others keep [I] *)
Lemma observe (I : world -> Prop) (Q : reply -> Prop) w0 s c p1 j cj p2 rj p3 :
  stable I -> I w0 -> (forall l cl, EInv l cl ∈ p1 ++ p2 -> keeps I I top (call_prog cl)) -> keeps I I Q (call_prog cj) ->
  cexec s (start w0) = Some (c, p1 ++ EInv j cj :: p2 ++ ERet j rj :: p3) -> Forall (fun e => who e <> Some j) p2 -> Q rj.
Proof.
  intros Hst Hw0 Hin Hq E Hp2.
  apply cexec_split in E as (s1 & s2 & c9 & E1 & E). assert (K11 : all_keep I I (fun _ => top) c9).
  { eapply keep_exec; [exact Hst| |exact E1|]; [split; [exact Hw0|]; cbn; intros l p; rewrite lookup_empty; discriminate|]. intros l cl H. apply (Hin l), elem_of_app. auto. }
  change (EInv j cj :: p2 ++ ERet j rj :: p3) with ([EInv j cj] ++ p2 ++ ERet j rj :: p3) in E.
  apply cexec_split in E as (s15 & s16 & c10 & E12 & E). apply cexec_event in E12 as (s17 & a3 & s18 & c11 & c12 & E13 & E14 & E15).
  assert (K12 : all_keep I I (fun _ => top) c11). { eapply keep_exec; [exact Hst|exact K11|exact E13|]. intros l cl H. inversion H. }
  apply step_inv in E14 as [Hj ->].
  set (Qs := fun l : nat => if decide (l = j) then Q else top).
  assert (K13 : all_keep I I Qs (Conf (c_w c11) (<[j := call_prog cj]> (c_th c11)))).
  { split; [apply K12|]. cbn. intros l p. rewrite lookup_insert_Some. unfold Qs. intros [[<- <-]|[Hl Hx]]; [rewrite decide_True by auto; exact Hq|]. rewrite decide_False by auto. eapply K12; eauto. }
  assert (K14 : all_keep I I Qs c10). { eapply keep_exec; [exact Hst|exact K13|exact E15|]. intros l cl H. inversion H. }
  apply cexec_split in E as (s19 & s20 & c13 & E16 & E).
  assert (K15 : all_keep I I Qs c13).
  { eapply keep_exec; [exact Hst|exact K14|exact E16|]. intros l cl H. unfold Qs. rewrite decide_False; [apply (Hin l); rewrite !elem_of_app; auto|].
    intros ->. rewrite List.Forall_forall in Hp2. apply elem_of_list_In in H. apply (Hp2 _ H). reflexivity. }
  change (ERet j rj :: p3) with ([ERet j rj] ++ p3) in E. apply cexec_split in E as (s21 & s22 & c14 & E17 & _). apply cexec_event in E17 as (s23 & a4 & s24 & c15 & c16 & E18 & E19 & _).
  assert (K16 : all_keep I I Qs c15). { eapply keep_exec; [exact Hst|exact K15|exact E18|]. intros l cl H. inversion H. }
  apply step_ret in E19 as [Hrj _]. apply K16 in Hrj. unfold Qs in Hrj. rewrite decide_True in Hrj by auto. inversion Hrj. assumption.
Qed.

(** ** one stored hash *)
Section hash.
(** the field [f] of [k] holds, when it holds anything, what [X0] allows; in the end what [X1] allows *)
Variables (k f : gostr) (X0 X1 : option gval -> Prop) (l : positive).
Hypothesis X10 : forall y, X1 y -> X0 y.
(** [k] holds the hash [l], for good, and no other key does *)
Definition inv (P : hobj -> Prop) (w : world) : Prop := exists d e o,
  w_data w = Some d /\ w_exp w = Some e /\ d !! k = Some (VHash l) /\ e !! k = None /\ w_heap w !! l = Some o /\
  (forall k', d !! k' = Some (VHash l) -> k' = k) /\ (l < w_next w)%positive /\ P o.
Definition I_ : world -> Prop := inv (fun o => X0 (h_map o !! f)).
Definition J_ : world -> Prop := inv (fun o => X1 (h_map o !! f)).
Lemma J_I w : J_ w -> I_ w.
Proof. intros (d & e & o & H). exists d, e, o. pose proof (X10 (h_map o !! f)). tauto. Qed.
Lemma I_stable : stable I_. Proof. intros w t (d & e & o & H). exists d, e, o. exact H. Qed.
Lemma J_stable : stable J_. Proof. intros w t (d & e & o & H). exists d, e, o. exact H. Qed.
Definition other (v : option gval) : Prop := forall l', v = Some (VHash l') -> l' <> l.
Definition loaded (k' : gostr) (v : option gval) : Prop := (k' = k -> v = Some (VHash l)) /\ (k' <> k -> other v).
Lemma kp_frame {A} (Q : A -> Prop) (g : world -> ares A) : (forall P w w' a, inv P w -> g w = Go w' a -> inv P w') -> (forall w w' a, I_ w -> g w = Go w' a -> Q a) -> keeps I_ J_ Q (atom g).
Proof. intros H1 H2. apply keeps_atom. intros w w' a Hw E. split; [eapply H1; eauto|]. split; [intros HJ; eapply H1; eauto|eauto]. Qed.
Ltac fr := apply kp_frame; [intros P w w' a (d & e & o & Hd & He & Hk & Hek & Hh & Hu & Hn & HP)|intros w w' a (d & e & o & Hd & He & Hk & Hek & Hh & Hu & Hn & HP)]; cbn; repeat match goal with H : w_data ?w = Some _ |- context [w_data ?w] => rewrite H | H : w_exp ?w = Some _ |- context [w_exp ?w] => rewrite H end.
Lemma kp_now : keeps I_ J_ top p_now.
Proof. fr; [|intros; exact I]. intros [= <- <-]. exists d, e, o. auto 10. Qed.
Lemma kp_data_load k' : keeps I_ J_ (loaded k') (data_load k').
Proof. fr; intros [= <- <-]; [exists d, e, o; auto 10|]. split; [intros ->; exact Hk|]. intros Hne l' E ->. apply Hne, Hu, E. Qed.
Lemma kp_data_store k' v : k' <> k -> other (Some v) -> keeps I_ J_ top (data_store k' v).
Proof.
  intros Hne Hv. fr; [|intros; exact I]. intros [= <- <-]. exists (<[k' := v]> d), e, o. cbn. rewrite lookup_insert_ne by auto. repeat (split; [auto; fail|]). split; [|auto].
  intros k2. rewrite lookup_insert_Some. intros [[_ E]|[_ E]]; [|auto]. elim (Hv l); [congruence|reflexivity].
Qed.
Lemma kp_data_delete k' : k' <> k -> keeps I_ J_ top (data_delete k').
Proof.
  intros Hne. fr; [|intros; exact I]. intros [= <- <-]. exists (delete k' d), e, o. cbn. rewrite lookup_delete_ne by auto. repeat (split; [auto; fail|]). split; [|auto].
  intros k2. rewrite lookup_delete_Some. intros [_ E]. auto.
Qed.
Lemma kp_data_los k' v : other (Some v) -> keeps I_ J_ (fun r => k' = k -> r = (VHash l, true)) (data_load_or_store k' v).
Proof.
  intros Hv. fr.
  - destruct (d !! k') eqn:Ek'; intros [= <- <-]; [exists d, e, o; auto 10|]. assert (Hne : k' <> k) by congruence.
    exists (<[k' := v]> d), e, o. cbn. rewrite lookup_insert_ne by auto. repeat (split; [auto; fail|]). split; [|auto].
    intros k2. rewrite lookup_insert_Some. intros [[_ E]|[_ E]]; [|auto]. elim (Hv l); [congruence|reflexivity].
  - intros E ->. rewrite Hk in E. injection E as _ <-. reflexivity.
Qed.
Lemma kp_exp_load k' : keeps I_ J_ (fun v => k' = k -> v = None) (exp_load k').
Proof. fr; intros [= <- <-]; [exists d, e, o; auto 10|]. intros ->. exact Hek. Qed.
Lemma kp_exp_store k' t : k' <> k -> keeps I_ J_ top (exp_store k' t).
Proof. intros Hne. fr; [|intros; exact I]. intros [= <- <-]. exists d, (<[k' := t]> e), o. cbn. rewrite lookup_insert_ne by auto. auto 10. Qed.
Lemma kp_exp_delete k' : keeps I_ J_ top (exp_delete k').
Proof. fr; [|intros; exact I]. intros [= <- <-]. exists d, (delete k' e), o. cbn. repeat (split; [auto; fail|]). split; [|auto 10]. rewrite lookup_delete_None. auto. Qed.
Lemma kp_alloc : keeps I_ J_ (fun l' => l' <> l) h_alloc.
Proof.
  fr; intros [= <- <-]; [|lia]. exists d, e, o. cbn. rewrite lookup_insert_ne by lia. repeat (split; [auto; fail|]). split; [lia|exact HP].
Qed.
Lemma kp_h_other {A} l' (g : hobj -> hobj * A) : l' <> l -> keeps I_ J_ top (h_atom l' g).
Proof.
  intros Hne. fr; [|intros; exact I]. destruct (w_heap w !! l') as [o'|]; [|discriminate]. destruct (g o') as [o2 a2]. intros [= <- <-].
  exists d, e, o. cbn. rewrite lookup_insert_ne by auto. auto 10.
Qed.
(** a change of the hash that respects both *)
Definition fine (o o' : hobj) : Prop := (X0 (h_map o !! f) -> X0 (h_map o' !! f)) /\ (X1 (h_map o !! f) -> X1 (h_map o' !! f)).
Lemma kp_h_same {A} (Q : A -> Prop) (g : hobj -> hobj * A) : (forall o, fine o (fst (g o))) -> (forall o, X0 (h_map o !! f) -> Q (snd (g o))) -> keeps I_ J_ Q (h_atom l g).
Proof.
  intros HJ HQ. apply keeps_atom. intros w w' a (d & e & o & Hd & He & Hk & Hek & Hh & Hu & Hn & HX). rewrite Hh. destruct (HJ o) as [J0 J1]. specialize (HQ o HX).
  destruct (g o) as [o2 a2] eqn:Eg. cbn in *. intros [= <- <-]. split; [|split; [|exact HQ]].
  - exists d, e, o2. cbn. rewrite lookup_insert. auto 10.
  - intros (d' & e' & o' & Hd' & He' & Hk' & Hek' & Hh' & Hu' & Hn' & HP). rewrite Hh in Hh'. injection Hh' as <-. exists d', e', o2. cbn. rewrite lookup_insert. auto 10.
Qed.
Lemma kp_lock : keeps I_ J_ top p_lock.
Proof. fr; [|intros; exact I]. destruct (_ || _); [discriminate|]. intros [= <- <-]. exists d, e, o. auto 10. Qed.
Lemma kp_unlock : keeps I_ J_ top p_unlock.
Proof. fr; [|intros; exact I]. destruct (w_writer w); [|discriminate]. intros [= <- <-]. exists d, e, o. auto 10. Qed.
Lemma kp_rlock : keeps I_ J_ top p_rlock.
Proof. fr; [|intros; exact I]. destruct (w_writer w); [discriminate|]. intros [= <- <-]. exists d, e, o. auto 10. Qed.
Lemma kp_runlock : keeps I_ J_ top p_runlock.
Proof. fr; [|intros; exact I]. destruct (w_readers w); [discriminate|]. intros [= <- <-]. exists d, e, o. auto 10. Qed.
Lemma kp_locked {A} (Q : A -> Prop) p : keeps I_ J_ Q p -> keeps I_ J_ Q (locked p).
Proof.
  intros Hp. unfold locked. eapply keeps_bind; [apply kp_lock|]. intros _ _. eapply keeps_bind; [exact Hp|]. intros r Hr. eapply keeps_bind; [apply kp_unlock|]. intros _ _. constructor. exact Hr.
Qed.
Lemma kp_rlocked {A} (Q : A -> Prop) p : keeps I_ J_ Q p -> keeps I_ J_ Q (rlocked p).
Proof.
  intros Hp. unfold rlocked. eapply keeps_bind; [apply kp_rlock|]. intros _ _. eapply keeps_bind; [exact Hp|]. intros r Hr. eapply keeps_bind; [apply kp_runlock|]. intros _ _. constructor. exact Hr.
Qed.
Lemma other_try s : other (Some (try_int64 s)).
Proof. intros l'. unfold try_int64. destruct (atoi s); [discriminate|]. destruct (parse_float s); discriminate. Qed.
Lemma kp_expired k' : keeps I_ J_ (fun b => k' = k -> b = false) (expired k').
Proof.
  unfold expired. eapply keeps_bind; [apply kp_exp_load|]. intros [dl|] H; [|constructor; auto]. assert (k' <> k) by (intros E; specialize (H E); discriminate).
  eapply keeps_bind; [apply kp_now|]. intros t _. destruct (dl <? t); [|constructor; auto]. eapply keeps_bind; [apply kp_data_delete; auto|]. intros _ _.
  eapply keeps_bind; [apply kp_exp_delete|]. intros _ _. constructor. tauto.
Qed.
Lemma kp_c_get k' : keeps I_ J_ (loaded k') (c_get k').
Proof.
  unfold c_get. eapply keeps_bind; [apply kp_data_load|]. intros [v|] H; [|constructor; exact H]. eapply keeps_bind; [apply kp_expired|]. intros b Hb. constructor.
  destruct b; [|exact H]. split; [intros E; specialize (Hb E); discriminate|]. intros _ l'. discriminate.
Qed.
Lemma kp_load_live k' : keeps I_ J_ (loaded k') (load_live k').
Proof. exact (kp_c_get k'). Qed.
Definition entry (k' : gostr) (h : hres) : Prop := (k' = k -> h = HEntry l) /\ (k' <> k -> forall l', h = HEntry l' -> l' <> l).
Lemma kp_ghe k' : keeps I_ J_ (entry k') (get_hash_entry k').
Proof.
  unfold get_hash_entry. eapply keeps_bind; [apply kp_c_get|]. intros v [H1 H2]. constructor. split.
  - intros E. rewrite (H1 E). reflexivity.
  - intros E l'. destruct v as [v|]; [|discriminate]. destruct v; try discriminate. intros [= <-]. apply (H2 E). reflexivity.
Qed.
Lemma kp_gon k' h : entry k' h -> keeps I_ J_ (fun l' => entry k' (HEntry l')) (get_or_new k' h).
Proof.
  intros [H1 H2]. destruct (decide (k' = k)) as [E|E].
  - rewrite (H1 E). constructor. split; [auto|tauto].
  - unfold get_or_new. destruct h as [|l'|]; [|constructor; split; [tauto|exact H2]|];
      (unfold new_hash; eapply keeps_bind; [apply kp_alloc|]; intros l' Hl'; eapply keeps_bind; [apply kp_data_store; [exact E|]; intros l2 [= <-]; exact Hl'|]; intros _ _; constructor; split; [tauto|]; intros _ l2 [= <-]; exact Hl').
Qed.
(** operations on a hash entry, of [k] or another key *)
Lemma kp_h k' l' {A} (g : hobj -> hobj * A) : entry k' (HEntry l') -> (k' = k -> forall o, fine o (fst (g o))) -> keeps I_ J_ top (h_atom l' g).
Proof.
  intros [H1 H2] H. destruct (decide (k' = k)) as [E|E].
  - injection (H1 E) as ->. apply kp_h_same; [auto|]. intros; exact I.
  - apply kp_h_other, (H2 E). reflexivity.
Qed.
Lemma fine_refl o : fine o o. Proof. split; auto. Qed.
Lemma fine_len o n : fine o (HObj (h_map o) n). Proof. split; auto. Qed.
Hint Resolve fine_refl fine_len : core.
Lemma kp_load k' l' g : entry k' (HEntry l') -> keeps I_ J_ top (h_load l' g).
Proof. intros H. apply (kp_h k'); [exact H|]. intros _ o. apply fine_refl. Qed.
Lemma kp_he_get k' l' g : entry k' (HEntry l') -> keeps I_ J_ top (he_get l' g).
Proof. intros H. unfold he_get. eapply keeps_bind; [apply (kp_load k'); auto|]. intros; constructor; exact I. Qed.
Lemma kp_len k' l' : entry k' (HEntry l') -> keeps I_ J_ top (h_get_len l').
Proof. intros H. apply (kp_h k'); [exact H|]. intros _ o. apply fine_refl. Qed.
Lemma kp_set_len k' l' n : entry k' (HEntry l') -> keeps I_ J_ top (h_set_len l' n).
Proof. intros H. apply (kp_h k'); [exact H|]. intros _ o. apply fine_len. Qed.
(** what may be stored in the field, and what may be stored in it when it is absent *)
Definition may (v : option gval) : Prop := X0 v /\ X1 v.
Definition may_new (v : gval) : Prop := (X0 None -> X0 (Some v)) /\ (X1 None -> X1 (Some v)).
Lemma may_may_new v : may (Some v) -> may_new v. Proof. intros [H1 H2]. split; auto. Qed.
Lemma kp_los k' l' g v : entry k' (HEntry l') -> (k' = k -> g = f -> may_new v) -> keeps I_ J_ top (h_load_or_store l' g v).
Proof.
  intros H Hv. apply (kp_h k'); [exact H|]. intros E o. destruct (h_map o !! g) eqn:Eg; cbn; [apply fine_refl|]. unfold fine. cbn. destruct (decide (g = f)) as [->|Hne].
  - rewrite lookup_insert, Eg. apply Hv; auto.
  - rewrite lookup_insert_ne by auto. auto.
Qed.
Lemma kp_store k' l' g v : entry k' (HEntry l') -> (k' = k -> g = f -> may (Some v)) -> keeps I_ J_ top (h_store l' g v).
Proof.
  intros H Hv. apply (kp_h k'); [exact H|]. intros Ek o. unfold fine. cbn. destruct (decide (g = f)) as [->|Hne]; [rewrite lookup_insert; split; intros _; apply (Hv Ek eq_refl)|rewrite lookup_insert_ne by auto; auto].
Qed.
Lemma kp_delete k' l' g : entry k' (HEntry l') -> (k' = k -> g = f -> may None) -> keeps I_ J_ top (h_delete l' g).
Proof.
  intros H Hg. apply (kp_h k'); [exact H|]. intros Ek o. unfold fine. cbn. destruct (decide (g = f)) as [->|Hne]; [rewrite lookup_delete; split; intros _; apply (Hg Ek eq_refl)|].
  rewrite lookup_delete_ne by auto. auto.
Qed.
Lemma kp_visit k' l' ks : entry k' (HEntry l') -> keeps I_ J_ top (h_visit l' ks).
Proof.
  intros H. induction ks as [|g r IH]; cbn [h_visit]; [constructor; exact I|].
  eapply keeps_bind; [apply (kp_load k'); auto|]. intros v _. eapply keeps_bind; [exact IH|]. intros es _. constructor. exact I.
Qed.
Lemma kp_range k' l' : entry k' (HEntry l') -> keeps I_ J_ top (h_range l').
Proof.
  intros H. unfold h_range. eapply keeps_bind; [apply (kp_h k'); [exact H|]; intros _ o; apply fine_refl|]. intros ks _. apply (kp_visit k'), H.
Qed.
Lemma kp_he_set k' l' g v : entry k' (HEntry l') -> (k' = k -> g = f -> may (Some (try_int64 v))) -> keeps I_ J_ top (he_set l' g v).
Proof.
  intros H Hv. unfold he_set. eapply keeps_bind; [apply (kp_los k'); [exact H|]; intros; apply may_may_new; auto|]. intros r _. eapply keeps_bind.
  { destruct (snd r); [apply (kp_store k'); auto|constructor; exact I]. }
  intros _ _. eapply keeps_bind; [apply (kp_len k'); auto|]. intros n _. eapply keeps_bind; [apply (kp_set_len k'); auto|]. intros _ _. constructor. exact I.
Qed.
(** The calls that leave the field [f] of [k] alone or put into it what is allowed. *)
Definition spares (c : call) : Prop :=
  match c with
  | CFlush | CCron => False
  | CSet k' _ | CSetEX k' _ _ | CPSetEX k' _ _ | CGetSet k' _ | CDel k' => k' <> k
  | CMSet kv => k ∉ map fst kv
  | CHSet k' g v => k' = k -> g = f -> may (Some (try_int64 v))
  | CHSetNX k' g v => k' = k -> g = f -> may_new (VStr v)
  | CHDel k' fs => k' = k -> f ∈ fs -> may None
  | CHIncrBy k' g d => k' = k -> g = f -> may (Some (try_int64 (itoa d)))
  | CHIncrByFloat k' g d => k' = k -> g = f -> may (Some (try_int64 (format_float d)))
  | CHMSet k' fv => k' = k -> forall v, (f, v) ∈ fv -> may (Some (try_int64 v))
  | _ => True
  end.
Ltac bnd lem := eapply keeps_bind; [apply lem|].
Ltac done_ := constructor; exact I.
Lemma kp_incr_by k' d : keeps I_ J_ top (incr_by k' d).
Proof.
  unfold incr_by. bnd kp_data_los; [discriminate|]. intros [v b] Hr. cbn [fst snd]. destruct b; cbn [negb]; [|done_]. destruct (incr_val v d) as [[v' n]|] eqn:E; [|done_].
  assert (k' <> k). { intros Ek. specialize (Hr Ek). injection Hr as ->. discriminate. }
  bnd kp_data_store; auto; [|intros; done_]. intros l'. destruct v; try discriminate E; injection E as <- _; discriminate.
Qed.
Lemma kp_mset kv : k ∉ map fst kv -> keeps I_ J_ top (mset_loop kv).
Proof.
  induction kv as [|[k' v] r IH]; intros H; cbn [mset_loop]; [done_|]. cbn in H. apply not_elem_of_cons in H as [H1 H2].
  bnd kp_data_store; [auto|apply other_try|]. intros _ _. auto.
Qed.
Lemma kp_msetnx kv : forall n, keeps I_ J_ top (msetnx_loop kv n).
Proof. induction kv as [|[k' v] r IH]; intros n; cbn [msetnx_loop]; [done_|]. bnd kp_data_los; [apply other_try|]. intros y _. apply IH. Qed.
Lemma kp_mget ks : keeps I_ J_ top (mget_loop ks).
Proof. induction ks as [|k' r IH]; cbn [mget_loop]; [done_|]. bnd kp_c_get. intros v _. eapply keeps_bind; [exact IH|]. intros; done_. Qed.
Lemma kp_exists ks : forall n, keeps I_ J_ top (exists_loop ks n).
Proof. induction ks as [|k' r IH]; intros n; cbn [exists_loop]; [done_|]. bnd kp_data_load. intros v _. apply IH. Qed.
Lemma kp_expires k' d : k' <> k -> keeps I_ J_ top (expires k' d).
Proof. intros H. unfold expires. destruct (d <=? 0); [apply kp_exp_delete|]. bnd kp_now. intros t _. apply kp_exp_store, H. Qed.
Lemma kp_hdel k' l' fs : entry k' (HEntry l') -> (k' = k -> f ∈ fs -> may None) -> forall n, keeps I_ J_ top (hdel_loop l' fs n).
Proof.
  intros He. induction fs as [|g r IH]; intros Hf n; cbn [hdel_loop]; [done_|]. bnd (kp_he_get k'); [exact He|].
  assert (Hg : k' = k -> g = f -> may None) by (intros E ->; apply (Hf E); left).
  assert (Hr : k' = k -> f ∈ r -> may None) by (intros E Hin; apply (Hf E); right; exact Hin).
  intros [s|] _; [|auto]. bnd (kp_delete k'); [exact He|exact Hg|]. intros _ _. auto.
Qed.
Lemma kp_hmset k' l' fv : entry k' (HEntry l') -> (k' = k -> forall v, (f, v) ∈ fv -> may (Some (try_int64 v))) -> forall n, keeps I_ J_ top (hmset_loop l' fv n).
Proof.
  intros He. induction fv as [|[g v] r IH]; intros Hf n; cbn [hmset_loop]; [done_|].
  bnd (kp_he_set k'); [exact He| |].
  - intros E ->. apply (Hf E). left.
  - intros y _. apply IH. intros E v' Hin. apply (Hf E). right. exact Hin.
Qed.
Lemma kp_hmget k' h fs : entry k' h -> keeps I_ J_ top (hmget_loop h fs).
Proof.
  intros He. induction fs as [|g r IH]; cbn [hmget_loop]; [done_|]. eapply (keeps_bind _ _ top).
  - destruct h as [|l'|]; [done_| |done_]. bnd (kp_he_get k'); [exact He|]. intros; done_.
  - intros s _. eapply keeps_bind; [exact IH|]. intros; done_.
Qed.
Lemma kp_panic {A} (Q : A -> Prop) : keeps I_ J_ Q panic.
Proof. constructor; discriminate. Qed.
Ltac pm := cbn [call_prog]; unfold pmap; eapply (keeps_bind _ _ top); [|intros; done_].
Lemma kp_call c : spares c -> keeps I_ J_ top (call_prog c).
Proof.
  intros Hs. destruct c; cbn [spares] in Hs; try (destruct Hs; fail); pm; unf.
  - apply kp_locked. bnd kp_data_store; [auto|apply other_try|]. intros; done_.
  - apply kp_locked. bnd kp_data_los; [apply other_try|]. intros; done_.
  - apply kp_locked. bnd kp_data_store; [auto|apply other_try|]. intros _ _. bnd kp_expires; [auto|]. intros; done_.
  - apply kp_locked. bnd kp_data_store; [auto|apply other_try|]. intros _ _. bnd kp_expires; [auto|]. intros; done_.
  - apply kp_rlocked. bnd kp_c_get. intros; done_.
  - apply kp_locked. bnd kp_c_get. intros y _. bnd kp_data_store; [auto|apply other_try|]. intros; done_.
  - apply kp_rlocked. bnd kp_load_live. intros; done_.
  - apply kp_locked. bnd kp_load_live. intros y Hy. destruct (decide (k0 = k)) as [E|E].
    + rewrite (proj1 Hy E). cbn. done_.
    + destruct y as [y|]; [|bnd kp_data_store; [auto|apply other_try|]; intros; done_]. destruct (fmt_string y); [|done_]. bnd kp_data_store; [auto|apply other_try|]; intros; done_.
  - apply kp_locked. destruct (pos <? 0); [done_|]. cbn zeta. bnd kp_load_live. intros y Hy. destruct (decide (k0 = k)) as [E|E].
    + rewrite (proj1 Hy E). cbn. done_.
    + destruct y as [y|]; [|destruct (pos >? max_alloc); [apply kp_step; discriminate|]; bnd kp_data_store; [auto|apply other_try|]; intros; done_]. destruct (fmt_string y); [|done_]. bnd kp_data_store; [auto|apply other_try|]; intros; done_.
  - apply kp_rlocked. bnd kp_load_live. intros; done_.
  - apply kp_locked, kp_incr_by.
  - apply kp_locked, kp_incr_by.
  - apply kp_locked. bnd kp_data_los; [discriminate|]. intros [y b] Hy. cbn [fst snd]. destruct b; cbn [negb]; [|done_]. destruct (decide (k0 = k)) as [E|E].
    + specialize (Hy E). injection Hy as ->. done_.
    + destruct y; try done_; (bnd kp_data_store; [auto|discriminate|]; intros; done_).
  - apply kp_locked, kp_incr_by.
  - apply kp_locked, kp_incr_by.
  - bnd kp_mset; [auto|]. intros; done_.
  - apply kp_msetnx.
  - apply kp_mget.
  - apply kp_locked. bnd kp_c_get. intros y _. bnd kp_data_delete; [auto|]. intros _ _. bnd kp_exp_delete. intros; done_.
  - apply kp_exists.
  - bnd kp_c_get. intros; done_.
  - bnd kp_ghe. intros h Hh. assert (Hg : keeps I_ J_ top (do l' <- get_or_new k0 h; do n <- he_set l' f0 v; Ret (n, @None goerr))).
    { bnd kp_gon; [exact Hh|]. intros l' Hl'. bnd (kp_he_set k0); [exact Hl'|exact Hs|]. intros; done_. }
    destruct h; [exact Hg|exact Hg|done_].
  - bnd kp_ghe. intros h Hh. assert (Hg : keeps I_ J_ top (do l' <- get_or_new k0 h; do r <- h_load_or_store l' f0 (VStr v); if snd r then Ret (0, None) else do len <- h_get_len l'; h_set_len l' (wrap64 (len + 1));;; Ret (1, @None goerr))).
    { bnd kp_gon; [exact Hh|]. intros l' Hl'. bnd (kp_los k0); [exact Hl'|exact Hs|]. intros r _. destruct (snd r); [done_|]. bnd (kp_len k0); [exact Hl'|]. intros n _. bnd (kp_set_len k0); [exact Hl'|]. intros; done_. }
    destruct h; [exact Hg|exact Hg|done_].
  - bnd kp_ghe. intros [|l'|] Hh; [done_| |done_]. bnd (kp_he_get k0); [exact Hh|]. intros y _. cbn zeta. bnd (kp_len k0); [exact Hh|]. intros n _. bnd (kp_set_len k0); [exact Hh|]. intros; done_.
  - bnd kp_ghe. intros [|l'|] Hh; [done_| |done_]. bnd (kp_hdel k0); [exact Hh|exact Hs|]. intros n _. eapply (keeps_bind _ _ top); [|intros; done_]. destruct (n =? 0); [done_|].
    bnd (kp_len k0); [exact Hh|]. intros n' _. apply (kp_set_len k0), Hh.
  - bnd kp_ghe. intros [|l'|] Hh; [done_| |done_]. bnd (kp_len k0); [exact Hh|]. intros; done_.
  - bnd kp_ghe. intros [|l'|] Hh; [done_| |done_]. bnd (kp_he_get k0); [exact Hh|]. intros; done_.
  - bnd kp_ghe. intros h Hh. match goal with |- context [get_or_new k0 h] => idtac end.
    assert (Hg : forall l', entry k0 (HEntry l') -> keeps I_ J_ top (do v <- h_load l' f0; match v with None => do _u <- he_set l' f0 (itoa d); Ret (d, None) | Some x => match hincr_val x d with None => Ret (0, Some ErrHashValueIsNotFloat) | Some n => do _u <- he_set l' f0 (itoa d); Ret (n, None) end end)).
    { intros l' Hl'. eapply (keeps_bind _ _ top); [apply (kp_load k0); exact Hl'|]. intros y _.
      assert (Hset : keeps I_ J_ top (he_set l' f0 (itoa d))) by (apply (kp_he_set k0); [exact Hl'|exact Hs]).
      destruct y as [y|]; [destruct (hincr_val y d); [|done_]|]; (eapply keeps_bind; [exact Hset|]; intros; done_). }
    destruct h; [| |done_]; (bnd (kp_gon k0); [exact Hh|]; intros l' Hl'; apply Hg, Hl').
  - bnd kp_ghe. intros h Hh.
    assert (Hg : forall l', entry k0 (HEntry l') -> keeps I_ J_ top (do v <- h_load l' f0; match v with None => do _u <- he_set l' f0 (format_float d); Ret (d, None) | Some x => match hincrf_val x d with None => Ret (S754_zero false, Some ErrHashValueIsNotFloat) | Some n => do _u <- he_set l' f0 (format_float d); Ret (n, None) end end)).
    { intros l' Hl'. eapply (keeps_bind _ _ top); [apply (kp_load k0); exact Hl'|]. intros y _.
      assert (Hset : keeps I_ J_ top (he_set l' f0 (format_float d))) by (apply (kp_he_set k0); [exact Hl'|exact Hs]).
      destruct y as [y|]; [destruct (hincrf_val y d); [|done_]|]; (eapply keeps_bind; [exact Hset|]; intros; done_). }
    destruct h; [| |done_]; (bnd (kp_gon k0); [exact Hh|]; intros l' Hl'; apply Hg, Hl').
  - bnd kp_ghe. intros h Hh. destruct h; [| |done_]; (bnd (kp_gon k0); [exact Hh|]; intros l' Hl'; bnd (kp_hmset k0); [exact Hl'|exact Hs|]; intros; done_).
  - bnd kp_ghe. intros h Hh. destruct h; [| |done_]; (bnd (kp_hmget k0); [exact Hh|]; intros; done_).
  - bnd kp_ghe. intros [|l'|] Hh; [apply kp_panic| |done_]. bnd (kp_range k0); [exact Hh|]. intros; done_.
  - bnd kp_ghe. intros [|l'|] Hh; [apply kp_panic| |done_]. bnd (kp_range k0); [exact Hh|]. intros; done_.
  - bnd kp_ghe. intros [|l'|] Hh; [apply kp_panic| |done_]. bnd (kp_range k0); [exact Hh|]. intros es _. destruct (existsb hgetall_bad es); [apply kp_panic|done_].
  - bnd kp_ghe. intros [|l'|] Hh; [done_| |done_]. bnd (kp_he_get k0); [exact Hh|]. intros; done_.
Qed.
(** HSet establishes the field *)
Lemma hset_est v : may (Some (try_int64 v)) -> est I_ J_ (call_prog (CHSet k f v)).
Proof.
  intros [Hx0 Hx1]. cbn [call_prog]. unfold pmap, m_hset. 
  assert (Hnorm : forall p : prog hres, keeps I_ J_ (entry k) p -> est I_ J_ (pbind (pbind p (fun h => match h with HWrong => Ret (0, Some ErrWrongType) | _ => do l0 <- get_or_new k h; do n <- he_set l0 f v; Ret (n, None) end)) (fun x => Ret (RInt x)))).
  { intros p Hp. induction Hp as [h H|g H1 H2 IH].
    - cbn [pbind]. rewrite (proj1 H eq_refl). cbn [get_or_new pbind]. unfold he_set.
      assert (Hrest : forall n, keeps J_ J_ top (pbind (pbind (pbind (h_get_len l) (fun len => pbind (h_set_len l (wrap64 (len + n))) (fun _ => Ret n))) (fun n => Ret (n, @None goerr))) (fun x => Ret (RInt x)))).
      { intros n. assert (Hent : entry k (HEntry l)) by (split; [auto|tauto]). eapply keeps_narrow; [exact J_I|]. repeat (eapply (keeps_bind _ _ top); [|intros; constructor; exact I]).
        bnd (kp_len k); [exact Hent|]. intros len _. bnd (kp_set_len k); [exact Hent|]. intros; done_. }
      constructor. intros w w' p' (d & e & o & Hd & He & Hk & Hek & Hh & Hu & Hn & HX). cbn. rewrite Hh. destruct (h_map o !! f) as [y|] eqn:Ef; intros [= <- <-].
      + left. split; [exists d, e, o; cbn; rewrite lookup_insert, Ef; auto 10|]. constructor. cbn. intros w2 w2' p2 (d2 & e2 & o2 & Hd2 & He2 & Hk2 & Hek2 & Hh2 & Hu2 & Hn2 & _). rewrite Hh2. intros [= <- <-].
        right. split; [exists d2, e2, (HObj (<[f:=try_int64 v]> (h_map o2)) (h_len o2)); cbn; rewrite !lookup_insert; auto 10|]. cbn. exact (Hrest 0).
      + right. split; [exists d, e, (HObj (<[f:=try_int64 v]> (h_map o)) (h_len o)); cbn; rewrite !lookup_insert; auto 10|]. cbn. exact (Hrest 1).
    - cbn. constructor. intros w w' p' Hw. destruct (g w) as [w1 p1| |] eqn:E; try discriminate. intros [= <- <-]. left. split; [eapply H1; eauto|eauto]. }
  apply Hnorm, kp_ghe.
Qed.
(** ** readers *)
(** the text of a stored value: what fmtString returns, its error dropped *)
Definition shown (v : gval) : gostr := match fmt_string v with Some s => s | None => [] end.
(** the hash entry found by a call on [k] *)
Lemma kr_ghe : keeps I_ J_ (fun h => h = HEntry l) (get_hash_entry k).
Proof. eapply keeps_weaken; [|apply kp_ghe]. intros h [H _]. auto. Qed.
Lemma entry_l : entry k (HEntry l). Proof. split; [auto|tauto]. Qed.
Lemma kr_load : keeps I_ J_ X0 (h_load l f).
Proof. apply kp_h_same; [intros o; apply fine_refl|]. intros o Ho. exact Ho. Qed.
Lemma kr_he_get : keeps I_ J_ (fun r => exists y, X0 y /\ r = option_map shown y) (he_get l f).
Proof. unfold he_get. eapply keeps_bind; [apply kr_load|]. intros y Hy. constructor. exists y. split; [exact Hy|]. destruct y; reflexivity. Qed.
(** what a call shows when the field holds [y] *)
Definition hget_ret (y : option gval) : gret gostr := match y with None => ([], Some ErrKeyNil) | Some v => (shown v, None) end.
Lemma kr_hget : keeps I_ J_ (fun r => exists y, X0 y /\ r = RStr (hget_ret y)) (call_prog (CHGet k f)).
Proof.
  cbn [call_prog]. unfold pmap, m_hget. eapply (keeps_bind _ _ (fun r => exists y, X0 y /\ r = hget_ret y)); [|intros r (y & Hy & ->); constructor; eauto].
  eapply keeps_bind; [apply kr_ghe|]. intros h ->. eapply keeps_bind; [apply kr_he_get|]. intros r (y & Hy & ->). constructor. exists y. split; [exact Hy|].
  destruct y; reflexivity.
Qed.
(** the slot of the field in the reply of HMGet *)
Lemma kr_hmget fs : keeps I_ J_ (fun sl => length sl = length fs /\ forall n, fs !! n = Some f -> exists y, X0 y /\ sl !! n = Some (match y with None => SlotErr ErrKeyNil | Some v => SlotStr (shown v) end)) (hmget_loop (HEntry l) fs).
Proof.
  induction fs as [|g r IH]; cbn [hmget_loop]; [constructor; split; [reflexivity|]; intros n; rewrite lookup_nil; discriminate|].
  eapply (keeps_bind _ _ (fun s => g = f -> exists y, X0 y /\ s = match y with None => SlotErr ErrKeyNil | Some v => SlotStr (shown v) end)).
  - destruct (decide (g = f)) as [->|Hne].
    + eapply keeps_bind; [apply kr_he_get|]. intros v (y & Hy & ->). constructor. intros _. exists y. split; [exact Hy|]. destruct y; reflexivity.
    + eapply keeps_bind; [apply (kp_he_get k), entry_l|]. intros v _. constructor. tauto.
  - intros s Hs. eapply keeps_bind; [exact IH|]. intros rest [Hlen Hr]. constructor. split; [cbn; lia|]. intros [|n]; cbn; [|apply Hr]. intros [= ->]. destruct (Hs eq_refl) as (y & Hy & ->). eauto.
Qed.
(** the entry of the field in a Range: listed if it is always there, not listed if it never is *)
Lemma kr_visit ks : keeps I_ J_ (fun es => (forall g v, (g, v) ∈ es -> g ∈ ks) /\ (forall v, (f, v) ∈ es -> X0 (Some v)) /\ (~ X0 None -> f ∈ ks -> exists v, (f, v) ∈ es)) (h_visit l ks).
Proof.
  induction ks as [|g r IH]; cbn [h_visit].
  - constructor. split; [intros g v H; inversion H|]. split; [intros v H; inversion H|intros _ H; inversion H].
  - eapply (keeps_bind _ _ (fun v => g = f -> X0 v)).
    + destruct (decide (g = f)) as [->|Hne]; [eapply keeps_weaken; [|apply kr_load]; auto|]. eapply keeps_weaken; [|apply (kp_load k), entry_l]. tauto.
    + intros v Hv. eapply keeps_bind; [exact IH|]. intros es (H1 & H2 & H3). constructor. destruct v as [v|].
      * split; [|split].
        -- intros g' v'. rewrite !elem_of_cons. intros [[= -> ->]|H]; [auto|]. right. eapply H1; eauto.
        -- intros v'. rewrite elem_of_cons. intros [[= <- ->]|H]; auto.
        -- intros Hn. rewrite elem_of_cons. intros [<-|H]; [exists v; left|]. destruct (H3 Hn H) as [v' H']. exists v'. right. exact H'.
      * split; [|split; [exact H2|]].
        -- intros g' v' H. right. eapply H1; eauto.
        -- intros Hn. rewrite elem_of_cons. intros [<-|H]; [elim Hn; auto|auto].
Qed.
Lemma kr_range : keeps I_ J_ (fun es => (forall v, (f, v) ∈ es -> X0 (Some v)) /\ (~ X0 None -> exists v, (f, v) ∈ es)) (h_range l).
Proof.
  unfold h_range. eapply (keeps_bind _ _ (fun ks => ~ X0 None -> f ∈ ks)).
  - apply kp_h_same; [intros o; apply fine_refl|]. intros o Ho Hn. cbn [fst snd]. destruct (h_map o !! f) as [v|] eqn:E; [|elim (Hn Ho)].
    apply elem_of_list_fmap. exists (f, v). split; [reflexivity|]. apply elem_of_map_to_list, E.
  - intros ks Hks. eapply keeps_weaken; [|apply kr_visit]. intros es (H1 & H2 & H3). split; auto.
Qed.
End hash.
