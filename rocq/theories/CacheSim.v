(** * CacheSim: two programs that do the same step by step, on caches that are related *)
From stdpp Require Import gmap list.
From Verif Require Import Base GoFloat CacheModel CacheConc CacheRange.

Fixpoint sim {A B : Type} (R : world -> world -> Prop) (Q : A -> B -> Prop) (p : prog A) (p' : prog B) : Prop :=
  match p, p' with
  | Ret a, Ret b => Q a b
  | Step f, Step f' => forall w w', R w w' ->
      match f w, f' w' with
      | Go w1 p1, Go w1' p1' => R w1 w1' /\ sim R Q p1 p1'
      | Blocked, Blocked => True
      | Panic, Panic => True
      | _, _ => False
      end
  | _, _ => False
  end.
Lemma sim_bind {A B C D : Type} (R : world -> world -> Prop) (Q : A -> B -> Prop) (Q' : C -> D -> Prop) (k : A -> prog C) (k' : B -> prog D) :
  (forall a b, Q a b -> sim R Q' (k a) (k' b)) -> forall p p', sim R Q p p' -> sim R Q' (pbind p k) (pbind p' k').
Proof.
  intros Hk. fix IH 1. intros [a|f] [b|f'] H; try contradiction; [apply Hk, H|].
  cbn. intros w w' Hr. specialize (H w w' Hr). destruct (f w) as [w1 p1| |], (f' w') as [w1' p1'| |]; try contradiction; auto.
  destruct H as [H1 H2]. split; [exact H1|]. apply (IH p1 p1' H2).
Qed.
Lemma sim_atom {A B : Type} (R : world -> world -> Prop) (Q : A -> B -> Prop) (f : world -> ares A) (f' : world -> ares B) :
  (forall w w', R w w' -> match f w, f' w' with Go w1 a, Go w1' b => R w1 w1' /\ Q a b | Blocked, Blocked | Panic, Panic => True | _, _ => False end) ->
  sim R Q (atom f) (atom f').
Proof. intros H w w' Hr. specialize (H w w' Hr). destruct (f w), (f' w'); auto. Qed.
Lemma sim_panic {A B : Type} (R : world -> world -> Prop) (Q : A -> B -> Prop) : sim R Q panic panic.
Proof. intros w w' _. exact I. Qed.
(** alone *)
Lemma sim_eval {A B : Type} (R : world -> world -> Prop) (Q : A -> B -> Prop) : forall (p : prog A) (p' : prog B) w w', sim R Q p p' -> R w w' ->
  match eval p w, eval p' w' with Done w1 a, Done w1' b => R w1 w1' /\ Q a b | EBlocked, EBlocked | EPanic, EPanic => True | _, _ => False end.
Proof.
  fix IH 1. intros [a|f] [b|f'] w w' H Hr; try contradiction; [split; assumption|]. cbn. specialize (H w w' Hr).
  destruct (f w) as [w1 p1| |], (f' w') as [w1' p1'| |]; try contradiction; auto. destruct H as [H1 H2]. apply (IH p1 p1' _ _ H2 H1).
Qed.

(** Goroutines: the events of the second execution. [m] holds the last call of each goroutine. *)
Section exec.
Context (R : world -> world -> Prop) (gc : call -> call) (gr : call -> reply -> reply) (gt : Z -> Z).
Fixpoint mapped (m : gmap nat call) (evs : list event) : list event :=
  match evs with
  | [] => []
  | EInv i c :: r => EInv i (gc c) :: mapped (<[i := c]> m) r
  | ERet i x :: r => ERet i (match m !! i with Some c => gr c x | None => x end) :: mapped m r
  | ETick t :: r => ETick (gt t) :: mapped m r
  end.
Definition lasts (m : gmap nat call) (evs : list event) : gmap nat call :=
  foldl (fun m e => match e with EInv i c => <[i := c]> m | _ => m end) m evs.
Lemma mapped_app e1 : forall m e2, mapped m (e1 ++ e2) = mapped m e1 ++ mapped (lasts m e1) e2.
Proof. induction e1 as [|[i c|i x|t] r IH]; intros m e2; cbn; [reflexivity|rewrite IH; reflexivity..]. Qed.
Lemma lasts_app e1 m e2 : lasts m (e1 ++ e2) = lasts (lasts m e1) e2.
Proof. apply foldl_app. Qed.
Context (Hcall : forall c p, by_doc c p -> exists p', by_doc (gc c) p' /\ sim R (fun r r' => r' = gr c r) p p').
Context (Htick : forall w w' t, R w w' -> w_now w <= t -> w_now w' <= gt t /\ R (set_now w t) (set_now w' (gt t))).
Definition same_threads (m : gmap nat call) (th th' : gmap nat (prog reply)) : Prop := forall i,
  match th !! i, th' !! i with
  | Some p, Some p' => exists c, m !! i = Some c /\ sim R (fun r r' => r' = gr c r) p p'
  | None, None => True
  | _, _ => False
  end.
Theorem sim_oexec w0 w0' evs c : R w0 w0' -> oexec w0 evs c ->
  exists c', oexec w0' (mapped ∅ evs) c' /\ R (c_w c) (c_w c') /\ same_threads (lasts ∅ evs) (c_th c) (c_th c').
Proof.
  intros H0 E. induction E as [|evs c e c1 E IH Es].
  { exists (start w0'). split; [constructor|]. split; [exact H0|]. intros i. cbn. rewrite !lookup_empty. exact I. }
  destruct IH as (c' & E' & Hw & Hth). rewrite mapped_app, lasts_app. set (m := lasts ∅ evs) in *.
  inversion Es as [x i cl p Hi Hp Ex|x i y Hs|x i r y Hs|x t y Hs]; subst.
  - destruct (Hcall cl p Hp) as (p' & Hp' & Hsim). exists (Conf (c_w c') (<[i := p']> (c_th c'))). cbn [c_w c_th]. split; [|split].
    + eapply o_next; [exact E'|]. cbn. constructor; [|exact Hp']. specialize (Hth i). rewrite Hi in Hth. destruct (c_th c' !! i); [contradiction|reflexivity].
    + exact Hw.
    + intros j. cbn. destruct (decide (j = i)) as [->|Hne]; [rewrite !lookup_insert; eauto|]. rewrite !lookup_insert_ne by auto. apply Hth.
  - cbn in Hs. destruct (c_th c !! i) as [[|f]|] eqn:Ei; try discriminate. destruct (f (c_w c)) as [w1 p1| |] eqn:Ef; try discriminate. injection Hs as <-.
    pose proof (Hth i) as Hi. rewrite Ei in Hi. destruct (c_th c' !! i) as [[|f']|] eqn:Ei'; try (destruct Hi as (? & _ & []); fail); [|contradiction].
    destruct Hi as (cl & Hm & Hsim). specialize (Hsim _ _ Hw). rewrite Ef in Hsim. destruct (f' (c_w c')) as [w1' p1'| |] eqn:Ef'; try contradiction. destruct Hsim as [Hw1 Hsim].
    exists (Conf w1' (<[i := p1']> (c_th c'))). cbn [c_w c_th mapped]. split; [|split].
    + eapply o_next; [exact E'|]. apply (o_run _ i). cbn. rewrite Ei', Ef'. reflexivity.
    + exact Hw1.
    + intros j. cbn. destruct (decide (j = i)) as [->|Hne]; [rewrite !lookup_insert; eauto|]. rewrite !lookup_insert_ne by auto. apply Hth.
  - cbn in Hs. destruct (c_th c !! i) as [[r0|f]|] eqn:Ei; try discriminate. injection Hs as <- <-.
    pose proof (Hth i) as Hi. rewrite Ei in Hi. destruct (c_th c' !! i) as [[r'|f']|] eqn:Ei'; try (destruct Hi as (? & _ & []); fail); [|contradiction].
    destruct Hi as (cl & Hm & Hsim). cbn in Hsim. subst r'.
    exists (Conf (c_w c') (delete i (c_th c'))). cbn [c_w c_th mapped]. rewrite Hm. split; [|split].
    + eapply o_next; [exact E'|]. apply o_ret. cbn. rewrite Ei'. reflexivity.
    + exact Hw.
    + intros j. cbn. destruct (decide (j = i)) as [->|Hne]; [rewrite !lookup_delete; exact I|]. rewrite !lookup_delete_ne by auto. apply Hth.
  - cbn in Hs. destruct (w_now (c_w c) <=? t) eqn:Et; [|discriminate]. injection Hs as <-. apply Z.leb_le in Et. destruct (Htick _ _ _ Hw Et) as [H1 H2].
    exists (Conf (set_now (c_w c') (gt t)) (c_th c')). cbn [c_w c_th mapped]. split; [|split].
    + eapply o_next; [exact E'|]. apply o_tick. cbn. apply Z.leb_le in H1. rewrite H1. reflexivity.
    + exact H2.
    + exact Hth.
Qed.
End exec.

(** The same for the schedules of CacheConc.v, both ways. *)
Section cexec.
Context (R : world -> world -> Prop) (gc : call -> call) (gr : call -> reply -> reply) (gt : Z -> Z) (K : call -> Prop).
Definition gact (a : act) : act := match a with AInv i c => AInv i (gc c) | ATick t => ATick (gt t) | _ => a end.
Context (Hcall : forall c, K c -> sim R (fun r r' => r' = gr c r) (call_prog c) (call_prog (gc c))).
Context (Htick : forall w w' t, R w w' -> w_now w <= t -> w_now w' <= gt t /\ R (set_now w t) (set_now w' (gt t))).
Context (Hback : forall w w' t, R w w' -> w_now w' <= gt t -> w_now w <= t).
Definition same_conf (m : gmap nat call) (c c' : conf) : Prop := R (c_w c) (c_w c') /\ same_threads R gr m (c_th c) (c_th c').
Lemma sim_cstep m c c' a : same_conf m c c' -> (forall i cl, a = AInv i cl -> K cl) ->
  match cstep a c, cstep (gact a) c' with
  | Some (c1, e), Some (c1', e') => e' = mapped gc gr gt m e /\ same_conf (lasts m e) c1 c1'
  | None, None => True
  | _, _ => False
  end.
Proof.
  intros [Hw Hth] HK. destruct a as [i cl|i|i|t]; cbn [cstep gact]; try (pose proof (Hth i) as Hi; destruct (c_th c !! i) as [p|] eqn:Ei, (c_th c' !! i) as [p'|] eqn:Ei'; try contradiction; auto).
  - cbn. split; [reflexivity|]. split; [exact Hw|]. intros j. cbn. destruct (decide (j = i)) as [->|Hne]; [rewrite !lookup_insert; exists cl; split; [reflexivity|eauto]|]. rewrite !lookup_insert_ne by auto. apply Hth.
  - destruct Hi as (cl & Hm & Hsim). destruct p as [r|f], p' as [r'|f']; try contradiction; auto. specialize (Hsim _ _ Hw). destruct (f (c_w c)) as [w1 p1| |], (f' (c_w c')) as [w1' p1'| |]; try contradiction; auto.
    destruct Hsim as [H1 H2]. cbn. split; [reflexivity|]. split; [exact H1|]. intros j. cbn. destruct (decide (j = i)) as [->|Hne]; [rewrite !lookup_insert; eauto|]. rewrite !lookup_insert_ne by auto. apply Hth.
  - destruct Hi as (cl & Hm & Hsim). destruct p as [r|f], p' as [r'|f']; try contradiction; auto. cbn in Hsim. subst r'. cbn. rewrite Hm. split; [reflexivity|]. split; [exact Hw|].
    intros j. cbn. destruct (decide (j = i)) as [->|Hne]; [rewrite !lookup_delete; exact I|]. rewrite !lookup_delete_ne by auto. apply Hth.
  - destruct (w_now (c_w c) <=? t) eqn:Et.
    + apply Z.leb_le in Et. destruct (Htick _ _ _ Hw Et) as [H1 H2]. apply Z.leb_le in H1. rewrite H1. cbn. split; [reflexivity|]. split; [exact H2|exact Hth].
    + destruct (w_now (c_w c') <=? gt t) eqn:Et'; [|exact I]. apply Z.leb_le in Et'. apply Z.leb_gt in Et. pose proof (Hback _ _ _ Hw Et'). lia.
Qed.
Theorem sim_cexec s : forall m c c', same_conf m c c' -> (forall i cl, AInv i cl ∈ s -> K cl) ->
  match cexec s c, cexec (map gact s) c' with
  | Some (c1, e), Some (c1', e') => e' = mapped gc gr gt m e /\ same_conf (lasts m e) c1 c1'
  | None, None => True
  | _, _ => False
  end.
Proof.
  induction s as [|a s IH]; intros m c c' H HK; cbn [cexec map]; [split; [reflexivity|exact H]|].
  assert (Ha : forall i cl, a = AInv i cl -> K cl) by (intros i cl ->; apply (HK i); left).
  pose proof (sim_cstep m c c' a H Ha) as Hs. destruct (cstep a c) as [[c1 e]|], (cstep (gact a) c') as [[c1' e']|]; try contradiction; [|exact I].
  destruct Hs as [-> H1]. specialize (IH _ _ _ H1 (fun i cl Hin => HK i cl (elem_of_list_further _ _ _ Hin))). destruct (cexec s c1) as [[c2 es]|], (cexec (map gact s) c1') as [[c2' es']|]; try contradiction; [|exact I].
  destruct IH as [-> H2]. rewrite mapped_app, lasts_app. auto.
Qed.
End cexec.
