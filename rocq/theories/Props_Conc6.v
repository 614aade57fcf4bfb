(** * Goroutines that use different keys (C156, C157) *)
From stdpp Require Import gmap.
From Verif Require Import Base GoFloat CacheModel CacheSpec CacheAbs CacheConc ConcLin ConcSafe ConcOwn.

(** ** C156: goroutines on different keys do not disturb each other *)

(** The goroutines are split into two groups by [G] and the keys into two sets by [P]. Every call, locked or not, names only
    keys of its goroutine's set (so no FlushAll and no cleanup tick, which act on every key). Strike the other group out of
    the schedule: what remains is a possible execution of the same cache, and shows exactly the same calls, clock ticks and
    replies of the first group. *)
Theorem C156_different_keys_do_not_interfere (P : gostr -> Prop) (G : nat -> bool) w0 s c evs :
  ready w0 -> cexec s (start w0) = Some (c, evs) ->
  (forall i cl, EInv i cl ∈ evs -> exists ks, keys_of cl = Some ks /\ forall k, k ∈ ks -> if G i then P k else ~ P k) ->
  exists c', cexec (List.filter (act_of G) s) (start w0) = Some (c', List.filter (event_of G) evs).
Proof.
  intros Hr E Hc.
  destruct (both_run P (fun k => ~ P k) G (fun k H1 H2 => H2 H1) s (start w0) (start w0) (start w0) c evs) as (cu & cv & E1 & _); [apply both_start; [auto|exact Hr]| |exact E|eauto].
  intros i cl Hi. destruct (Hc i cl Hi) as (ks & Hk & HP). exists ks. split; [exact Hk|]. apply List.Forall_forall. intros k Hin. apply elem_of_list_In in Hin.
  specialize (HP k Hin). destruct (G i); exact HP.
Qed.

(** ** C157: a goroutine with keys of its own sees a sequential cache *)

(** [alone i t evs h rs]: the events [evs] are calls of goroutine [i], each followed by its return, with clock ticks only
    between the calls; [h] is the list of the finished calls with the clock at the time of each, [rs] that of their replies. *)
Inductive alone (i : nat) : Z -> list event -> list (Z * CacheModel.call) -> list reply -> Prop :=
| al_nil t : alone i t [] [] []
| al_pending t cl : alone i t [EInv i cl] [] []
| al_tick t t' evs h rs : alone i t' evs h rs -> alone i t (ETick t' :: evs) h rs
| al_call t cl r evs h rs : alone i t evs h rs -> alone i t (EInv i cl :: ERet i r :: evs) ((t, cl) :: h) (r :: rs).

Definition only (i : nat) (a : act) : Prop := match a with AInv j _ | ARun j | ARet j => j = i | ATick _ => True end.
Lemma one_call i s : Forall (only i) s -> forall w p c r evs, cexec s (Conf w {[i := p]}) = Some (c, ERet i r :: evs) ->
  exists w' s', eval p w = Done w' r /\ Forall (only i) s' /\ cexec s' (Conf w' ∅) = Some (c, evs).
Proof.
  induction s as [|a s IH]; intros Hs w p c r evs; cbn [cexec]; [discriminate|]. inversion Hs as [|? ? Ha Hs']; subst.
  destruct a as [j cl|j|j|t]; cbn in Ha; cbn [cstep c_th c_w].
  - subst j. rewrite lookup_singleton. discriminate.
  - subst j. rewrite lookup_singleton. destruct p as [y|f]; [discriminate|]. destruct (f w) as [w1 p1| |] eqn:Ef; try discriminate. rewrite insert_singleton.
    destruct (cexec s (Conf w1 {[i := p1]})) as [[c2 es]|] eqn:E; [|discriminate]. cbn [app]. intros [= -> ->].
    destruct (IH Hs' _ _ _ _ _ E) as (w' & s' & E1 & E2). exists w', s'. cbn [eval]. rewrite Ef. auto.
  - subst j. rewrite lookup_singleton. destruct p as [y|f]; [|discriminate]. rewrite delete_singleton.
    destruct (cexec s (Conf w ∅)) as [[c2 es]|] eqn:E; [|discriminate]. cbn [app]. intros [= -> -> ->]. exists w, s. auto.
  - destruct (w_now w <=? t); [|discriminate]. destruct (cexec s _) as [[c2 es]|]; discriminate.
Qed.
Lemma alone_run i t evs h rs : alone i t evs h rs -> forall s w c, Forall (only i) s -> w_now w = t ->
  cexec s (Conf w ∅) = Some (c, evs) -> exists w', run_hist h w = Done w' rs.
Proof.
  induction 1 as [t|t cl|t t' evs h rs H IH|t cl r evs h rs H IH]; intros s w c Hs Ht E; [cbn; eauto|cbn; eauto| |].
  - destruct s as [|a s]; [discriminate|]. inversion Hs as [|? ? Ha Hs']; subst. cbn in E. destruct a as [j cl|j|j|t]; cbn [cstep c_th c_w] in E; rewrite ?lookup_empty in E; try discriminate.
    + destruct (cexec s _) as [[]|]; discriminate.
    + destruct (w_now w <=? t); [|discriminate]. destruct (cexec s _) as [[c2 es]|] eqn:E2; [|discriminate]. injection E as -> -> ->.
      destruct (IH s (set_now w t') c Hs' eq_refl E2) as [w' Hw]. destruct h as [|[t0 cl0] h]; [|exists w'; exact Hw].
      cbn in Hw |- *. injection Hw as _ <-. eauto.
  - destruct s as [|a s]; [discriminate|]. inversion Hs as [|? ? Ha Hs']; subst. cbn in E. destruct a as [j cl'|j|j|t]; cbn [cstep c_th c_w] in E; rewrite ?lookup_empty in E; try discriminate.
    + destruct (cexec s _) as [[c2 es]|] eqn:E2; [|discriminate]. injection E as -> -> -> ->. destruct (one_call i s Hs' _ _ _ _ _ E2) as (w' & s' & E3 & Hs2 & E4).
      destruct (IH s' w' c Hs2) as [w2 Hw]; [eapply kn_eval; [apply kn_call|exact E3]|exact E4|].
      exists w2. cbn [run_hist]. unfold run_call. rewrite set_now_id, E3, Hw. reflexivity.
    + destruct (w_now w <=? t); [|discriminate]. destruct (cexec s _) as [[]|]; discriminate.
Qed.
(** Whatever the others do with their keys, the finished calls of goroutine [i] got the replies of the same calls run one after
    the other on a cache nobody else uses, each at the clock of its own time. *)
Theorem C157_own_keys_are_sequential (P : gostr -> Prop) i w0 s c evs h rs :
  ready w0 -> cexec s (start w0) = Some (c, evs) ->
  (forall j cl, EInv j cl ∈ evs -> exists ks, keys_of cl = Some ks /\ forall k, k ∈ ks -> if (j =? i)%nat then P k else ~ P k) ->
  alone i (w_now w0) (List.filter (event_of (fun j => (j =? i)%nat)) evs) h rs ->
  exists w', run_hist h w0 = Done w' rs.
Proof.
  intros Hr E Hc Ha. destruct (C156_different_keys_do_not_interfere P (fun j => (j =? i)%nat) w0 s c evs Hr E Hc) as [c' E'].
  eapply alone_run; [exact Ha| |reflexivity|exact E']. apply List.Forall_forall. intros a Hin. apply filter_In in Hin as [_ Hin].
  destruct a; cbn in Hin |- *; try (apply Nat.eqb_eq; exact Hin). exact I.
Qed.

(** Goroutine 0 sets and counts the fields of a hash [x] without any lock, goroutine 1 does the same to a hash [y] and also holds
    the lock in an Append to [z]; their operations alternate. *)
Definition own_run : list act :=
  [AInv 0 (CHSet (bs "x") (bs "f") (bs "1")); AInv 1 (CHSet (bs "y") (bs "f") (bs "2"))] ++ concat (repeat [ARun 1; ARun 0] 6)
  ++ [ARet 0; ARet 1; AInv 1 (CAppend (bs "z") (bs "q")); ARun 1; ATick 9; AInv 0 (CHLen (bs "x")); ARun 0; ARun 1; ARun 0; ARun 1; ARun 0; ARun 1; ARet 0; ARet 1;
      ATick 12; AInv 0 (CHGet (bs "x") (bs "f")); AInv 1 (CHSet (bs "y") (bs "g") (bs "3")); ARun 0; ARun 1; ARun 0; ARun 1; ARun 0; ARet 0;
      ARun 1; ARun 1; ARun 1; ARet 1].
Example C156_nonvacuous : exists c evs, cexec own_run (start (new_world 5)) = Some (c, evs) /\
  List.filter (event_of (fun j => (j =? 0)%nat)) evs =
    [EInv 0 (CHSet (bs "x") (bs "f") (bs "1")); ERet 0 (RInt (1, None)); ETick 9; EInv 0 (CHLen (bs "x")); ERet 0 (RInt (1, None)); ETick 12;
     EInv 0 (CHGet (bs "x") (bs "f")); ERet 0 (RStr (bs "1", None))] /\ length evs = 14%nat.
Proof.
  assert (H : match cexec own_run (start (new_world 5)) with
              | Some (_, evs) => Some (List.filter (event_of (fun j => (j =? 0)%nat)) evs, length evs) | None => None end =
    Some ([EInv 0 (CHSet (bs "x") (bs "f") (bs "1")); ERet 0 (RInt (1, None)); ETick 9; EInv 0 (CHLen (bs "x")); ERet 0 (RInt (1, None)); ETick 12;
     EInv 0 (CHGet (bs "x") (bs "f")); ERet 0 (RStr (bs "1", None))], 14%nat)) by (vm_compute; reflexivity).
  destruct (cexec own_run (start (new_world 5))) as [[c evs]|]; [|discriminate H]. injection H as H1 H2. exists c, evs. auto.
Qed.
Example C157_nonvacuous : exists c evs, cexec own_run (start (new_world 5)) = Some (c, evs) /\
  alone 0 5 (List.filter (event_of (fun j => (j =? 0)%nat)) evs)
    [(5, CHSet (bs "x") (bs "f") (bs "1")); (9, CHLen (bs "x")); (12, CHGet (bs "x") (bs "f"))] [RInt (1, None); RInt (1, None); RStr (bs "1", None)].
Proof.
  destruct C156_nonvacuous as (c & evs & E & Hf & _). exists c, evs. split; [exact E|]. rewrite Hf. apply al_call, al_tick, al_call, al_tick, al_call, al_nil.
Qed.

Print Assumptions C156_different_keys_do_not_interfere.
Print Assumptions C157_own_keys_are_sequential.
