(** * Props_Conc5: the field count of a hash under concurrent writes (C155) *)
From stdpp Require Import relations.
From Verif Require Import Base GoFloat CacheModel CacheSpec CacheAbs CacheRefine CacheRefineH CacheMain CacheLib CacheConc ConcLin ConcSafe ConcDl ConcHash ConcLen.
From Verif Require Import Props_String Props_Counter Props_Hash Props_Conc Props_Conc4.

(** Two goroutines add one field each to a hash; both calls return 1, HKeys lists three fields, HLen says two. *)
Theorem C155_count_lost_refuted :
  exists k s, events_of s demo = Some
    [EInv 1 (CHSet k (bs "x") (bs "1")); EInv 2 (CHSet k (bs "y") (bs "2")); ERet 1 (RInt (1, None)); ERet 2 (RInt (1, None));
     EInv 1 (CHKeys k); ERet 1 (RList ([bs "f"; bs "x"; bs "y"], None)); EInv 1 (CHLen k); ERet 1 (RInt (2, None))].
Proof.
  exists (bs "h"), ([AInv 1 (CHSet (bs "h") (bs "x") (bs "1")); AInv 2 (CHSet (bs "h") (bs "y") (bs "2"))] ++ runs 1 4 ++ runs 2 4 ++ runs 1 1 ++ runs 2 1 ++
    [ARet 1; ARet 2; AInv 1 (CHKeys (bs "h"))] ++ runs 1 6 ++ [ARet 1; AInv 1 (CHLen (bs "h"))] ++ runs 1 3 ++ [ARet 1]).
  vm_compute. reflexivity.
Qed.

(** the fields HKeys would list *)
Lemma hkeys_now k l t w : inv k l (fun _ => True) w -> exists fs o, w_heap w !! l = Some o /\ answer t (CHKeys k) w = Some (RList (fs, None)) /\ zlen fs = Z.of_nat (size (h_map o)).
Proof.
  intros (d & e & o & Hd & He & Hk & Hek & Hh & Hu & Hn & _). exists (map fst (map_to_list (h_map o))), o. split; [exact Hh|]. split.
  - destruct w as [wd we wh wn b m t0]. cbn in Hd, He, Hh. subst wd we. unfold answer, run_call. cbn [call_prog]. unfold pmap, m_hkeys, get_hash_entry. unfold set_now. cbn [w_data w_exp w_heap w_next w_writer w_readers].
    rewrite !eval_bind, ev_c_get. unfold dead. rewrite Hek, Hk. destruct (d !! k) eqn:Ek; [|discriminate]. injection Hk as ->. rewrite ev_ret, eval_bind. rewrite (ev_h_range _ _ _ _ _ _ _ _ _ Hh). reflexivity.
  - unfold zlen. rewrite map_length. reflexivity.
Qed.
(** Full statement: when the calls have returned, HLen is the number of fields; refuted above (and already for one caller by
    HExists, C35). Proved: while goroutines only add and overwrite fields HLen never exceeds the number of fields HKeys
    lists, whatever they do to other keys. *)
Theorem C155_hlen_never_overcounts_partial w0 k l s c p1 j p2 rj p3 n0 fs0 :
  ready w0 -> stored w0 k = Some (VHash l) -> deadline w0 k = None ->
  answer (w_now w0) (CHLen k) w0 = Some (RInt (n0, None)) -> answer (w_now w0) (CHKeys k) w0 = Some (RList (fs0, None)) -> 0 <= n0 <= zlen fs0 ->
  (forall n cl, EInv n cl ∈ p1 ++ p2 ++ p3 -> only_adds k cl) ->
  cexec s (start w0) = Some (c, p1 ++ EInv j (CHLen k) :: p2 ++ ERet j rj :: p3) ->
  Forall (fun e => who e <> Some j) p2 ->
  exists n, rj = RInt (n, None) /\ forall t, exists fs, answer t (CHKeys k) (c_w c) = Some (RList (fs, None)) /\ n <= zlen fs.
Proof.
  intros Hr Hs Hd Hn0 Hf0 Hle Hc E Hp2.
  assert (HI0 : inv k l (fun _ => True) w0) by (apply (start_inv w0 k [] l (fun _ => True)); auto).
  set (Q0 := fun (r : reply) ph => ph = Idle /\ top r). set (Q1 := fun (r : reply) ph => exists n, r = RInt (n, None) /\ ph = Holds n).
  assert (HQ0 : forall (j : nat) r ph, (fun _ => Q0) j r ph -> ph <> Pend) by (intros ? ? ? [-> _]; discriminate).
  assert (K0 : good k l 0 (fun _ => Q0) (start w0)).
  { split; [exact HI0|]. exists ∅, (fun _ => Idle). cbn. split; [intros i p; rewrite lookup_empty; discriminate|]. split; [auto|]. split; [intros i; split; [discriminate|set_solver]|].
    destruct (hkeys_now k l (w_now w0) w0 HI0) as (fs & o & Ho & Hk & Hz). exists o. split; [exact Ho|].
    assert (Hlen : h_len o = n0).
    { destruct HI0 as (d & e & o' & Hd0 & He0 & Hk0 & Hek & Hh & _). rewrite Ho in Hh. injection Hh as <-. revert Hn0. unfold answer, run_call. cbn. rewrite Hd0, Hk0. cbn. rewrite He0, Hek. cbn. rewrite Ho. cbn. intros [= <-]. reflexivity. }
    rewrite Hf0 in Hk. injection Hk as <-. rewrite size_empty. repeat split; try lia; discriminate. }
  apply cexec_split in E as (s1 & s2 & c1 & E1 & E).
  assert (K1 : good k l 0 (fun _ => Q0) c1).
  { eapply good_exec; [exact HQ0|exact K0|exact E1|]. intros i cl Hi. apply lw_call, (Hc i), elem_of_app. auto. }
  change (EInv j (CHLen k) :: p2 ++ ERet j rj :: p3) with ([EInv j (CHLen k)] ++ p2 ++ ERet j rj :: p3) in E.
  apply cexec_split in E as (s3 & s4 & c2 & E2 & E). apply cexec_event in E2 as (s5 & a1 & s6 & c3 & c4 & E3 & E4 & E5).
  assert (K3 : good k l 0 (fun _ => Q0) c3). { eapply good_exec; [exact HQ0|exact K1|exact E3|]. intros i cl H. inversion H. }
  apply step_inv in E4 as [Hj ->].
  set (Qs := fun i : nat => if decide (i = j) then Q1 else Q0).
  assert (HQs : forall (i : nat) r ph, Qs i r ph -> ph <> Pend).
  { intros i r ph. unfold Qs. destruct (decide (i = j)); [intros (n & _ & ->); discriminate|apply (HQ0 0%nat)]. }
  assert (K4 : good k l 0 Qs (Conf (c_w c3) (<[j := call_prog (CHLen k)]> (c_th c3)))).
  { destruct K3 as (HI & S & phs & A1 & A2 & A3 & A4). split; [exact HI|]. exists S, phs. cbn. split; [|split; [|auto]].
    - intros i p. rewrite lookup_insert_Some. unfold Qs. intros [[<- <-]|[Hne Hp]]; [rewrite decide_True by auto; rewrite (A2 _ Hj); apply wp_hlen|rewrite decide_False by auto; auto].
    - intros i. rewrite lookup_insert_None. intros [Hi _]. auto. }
  assert (K5 : good k l 0 Qs c2). { eapply good_exec; [exact HQs|exact K4|exact E5|]. intros i cl H. inversion H. }
  apply cexec_split in E as (s7 & s8 & c5 & E6 & E).
  assert (Hin2 : forall i cl, EInv i cl ∈ p2 -> wp k l (Qs i) Idle (call_prog cl)).
  { intros i cl Hi. unfold Qs. rewrite decide_False; [apply lw_call, (Hc i); rewrite !elem_of_app; auto|]. intros ->. rewrite List.Forall_forall in Hp2. apply elem_of_list_In in Hi. apply (Hp2 _ Hi). reflexivity. }
  assert (K6 : good k l 0 Qs c5). { eapply good_exec; [exact HQs|exact K5|exact E6|exact Hin2]. }
  change (ERet j rj :: p3) with ([ERet j rj] ++ p3) in E. apply cexec_split in E as (s9 & s10 & c6 & E7 & E). apply cexec_event in E7 as (s11 & a2 & s12 & c7 & c8 & E8 & E9 & E10).
  assert (K7 : good k l 0 Qs c7). { eapply good_exec; [exact HQs|exact K6|exact E8|]. intros i cl H. inversion H. }
  apply step_ret in E9 as [Hrj ->].
  destruct K7 as (HI & S & phs & A1 & A2 & A3 & o & A4 & A5 & A6 & A7 & A8). pose proof (A1 _ _ Hrj) as Hw. inversion Hw as [ph r Hq|]; subst. unfold Qs in Hq. rewrite decide_True in Hq by auto. destruct Hq as (n & -> & Hph).
  exists n. split; [reflexivity|]. destruct (A8 _ _ Hph) as [_ Hn].
  assert (K8 : good k l n (fun _ => Q0) (Conf (c_w c7) (delete j (c_th c7)))).
  { split; [exact HI|]. exists S, (upd phs j Idle). cbn. split; [|split; [|split]].
    - intros i p. rewrite lookup_delete_Some. intros [Hne Hp]. rewrite upd_ne by auto. specialize (A1 _ _ Hp). unfold Qs in A1. rewrite decide_False in A1 by auto. exact A1.
    - intros i. rewrite lookup_delete_None. destruct (decide (i = j)) as [->|Hne]; [rewrite upd_eq; auto|]. rewrite upd_ne by auto. intros [?|?]; [congruence|auto].
    - intros i. destruct (decide (i = j)) as [->|Hne]; [rewrite upd_eq|rewrite upd_ne by auto; apply A3]. rewrite <- A3, Hph. split; discriminate.
    - exists o. split; [exact A4|]. split; [lia|]. repeat (split; [assumption|]). intros i v. destruct (decide (i = j)) as [->|Hne]; [rewrite upd_eq; discriminate|rewrite upd_ne by auto; apply A8]. }
  assert (K9 : good k l n (fun _ => Q0) c6). { eapply good_exec; [exact HQ0|exact K8|exact E10|]. intros i cl H. inversion H. }
  assert (K10 : good k l n (fun _ => Q0) c). { eapply good_exec; [exact HQ0|exact K9|exact E|]. intros i cl H. apply lw_call, (Hc i). rewrite !elem_of_app. auto. }
  destruct K10 as (HI' & S' & phs' & _ & _ & _ & o' & Ho' & HN & _). intros t. destruct (hkeys_now k l t _ HI') as (fs & o2 & Ho2 & Hk & Hz). exists fs. split; [exact Hk|]. rewrite Ho' in Ho2. injection Ho2 as <-. lia.
Qed.
(** The execution of the refutation meets the conditions of the theorem; its HLen is below the number of fields. *)
Example C155_nonvacuous : (exists l, stored demo (bs "h") = Some (VHash l)) /\ deadline demo (bs "h") = None /\
  answer 8 (CHLen (bs "h")) demo = Some (RInt (1, None)) /\ answer 8 (CHKeys (bs "h")) demo = Some (RList ([bs "f"], None)) /\
  only_adds (bs "h") (CHSet (bs "h") (bs "x") (bs "1")) /\ only_adds (bs "h") (CHKeys (bs "h")).
Proof. split; [apply C152_nonvacuous|]. vm_compute. repeat split. Qed.

Print Assumptions C155_count_lost_refuted.
Print Assumptions C155_hlen_never_overcounts_partial.
