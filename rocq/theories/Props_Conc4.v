(** * Props_Conc4: one stored hash, read and written by many goroutines (C152, C153, C154) *)
From stdpp Require Import relations.
From Verif Require Import Base GoFloat CacheModel CacheSpec CacheAbs CacheRefine CacheRefineH CacheMain CacheLib CacheConc ConcLin ConcSafe ConcDl ConcHash.
From Verif Require Import Props_String Props_Counter Props_Hash Props_Conc.

(** The text a call leaves in the field [f] of [k], when it writes there. *)
Definition writes_field (k f : gostr) (c : call) (s : gostr) : Prop :=
  match c with
  | CHSet k' g v => k' = k /\ g = f /\ s = text v
  | CHSetNX k' g v => k' = k /\ g = f /\ s = v
  | CHMSet k' fv => k' = k /\ exists v, (f, v) ∈ fv /\ s = text v
  | CHIncrBy k' g d => k' = k /\ g = f /\ s = text (itoa d)
  | CHIncrByFloat k' g d => k' = k /\ g = f /\ s = text (format_float d)
  | _ => False
  end.
Definition removes_field (k f : gostr) (c : call) : Prop :=
  match c with CHDel k' fs => k' = k /\ f ∈ fs | _ => False end.
(** The calls that neither replace nor remove the key. *)
Definition keeps_key (k : gostr) (c : call) : Prop :=
  match c with
  | CFlush | CCron => False
  | CSet k' _ | CSetEX k' _ _ | CPSetEX k' _ _ | CGetSet k' _ | CDel k' => k' <> k
  | CMSet kv => k ∉ map fst kv
  | _ => True
  end.

(** What the field may hold: what it held at first, or what one of the calls in [evs] put there. *)
Definition held (x : option gval) (k f : gostr) (evs : list event) (y : option gval) : Prop :=
  y = x \/ match y with
           | Some v => exists n cl, EInv n cl ∈ evs /\ writes_field k f cl (shown v)
           | None => exists n cl, EInv n cl ∈ evs /\ removes_field k f cl
           end.
Lemma shown_try v : shown (try_int64 v) = text v. Proof. unfold shown. rewrite fmt_try. reflexivity. Qed.
Lemma held_spares x k f evs n cl : EInv n cl ∈ evs -> keeps_key k cl -> spares k f (held x k f evs) (held x k f evs) cl.
Proof.
  intros Hin Hk. destruct cl; cbn in *; auto; unfold may, may_new, held.
  - intros -> ->. split; right; exists n, (CHSet k f v); rewrite shown_try; cbn; auto.
  - intros -> ->. split; intros _; right; exists n, (CHSetNX k f v); cbn; auto.
  - intros -> Hf. split; right; exists n, (CHDel k fs); cbn; auto.
  - intros -> ->. split; right; exists n, (CHIncrBy k f d); rewrite shown_try; cbn; auto.
  - intros -> ->. split; right; exists n, (CHIncrByFloat k f d); rewrite shown_try; cbn; auto.
  - intros -> v Hv. split; right; exists n, (CHMSet k fv); rewrite shown_try; cbn; eauto.
Qed.
(** the field at the start *)
Definition at_start (w : world) (k f : gostr) : option gval :=
  match stored w k with
  | Some (VHash l) => match w_heap w !! l with Some o => h_map o !! f | None => None end
  | _ => None
  end.
Lemma start_inv w k f l (X : option gval -> Prop) : ready w -> stored w k = Some (VHash l) -> deadline w k = None -> X (at_start w k f) -> ConcHash.I_ k f X l w.
Proof.
  intros Hr Hs Hd HX. unfold at_start in HX. rewrite Hs in HX. destruct Hr as [R1 R2 (d & Ed & Hptr & Huniq) [e Ee] R5 R6]. unfold stored in Hs. unfold deadline in Hd. rewrite Ed in Hs. rewrite Ee in Hd.
  destruct (Hptr _ _ Hs) as [o Ho]. rewrite Ho in HX. exists d, e, o. repeat (split; [auto; fail|]). split; [eauto|]. split; [apply R5; eauto|exact HX].
Qed.
Lemma start_hget w k f l t : ready w -> stored w k = Some (VHash l) -> deadline w k = None ->
  answer t (CHGet k f) w = Some (RStr (hget_ret (at_start w k f))).
Proof.
  intros Hr Hs Hd. unfold at_start. rewrite Hs. destruct Hr as [R1 R2 (d & Ed & Hptr & Huniq) [e Ee] R5 R6]. unfold stored in Hs. unfold deadline in Hd. rewrite Ed in Hs. rewrite Ee in Hd.
  destruct (Hptr _ _ Hs) as [o Ho]. rewrite Ho. unfold answer, run_call. cbn. rewrite Ed, Hs. cbn. rewrite Ee, Hd. cbn. rewrite Ho. cbn. destruct (h_map o !! f); reflexivity.
Qed.

(** ** C153 *)
Theorem C153_only_written_values w0 k f l s c p1 j p2 rj p3 :
  ready w0 -> stored w0 k = Some (VHash l) -> deadline w0 k = None ->
  (forall n cl, EInv n cl ∈ p1 ++ p2 -> keeps_key k cl) ->
  cexec s (start w0) = Some (c, p1 ++ EInv j (CHGet k f) :: p2 ++ ERet j rj :: p3) ->
  Forall (fun e => who e <> Some j) p2 ->
  answer (w_now w0) (CHGet k f) w0 = Some rj \/
  (exists v, rj = RStr (v, None) /\ exists n cl, EInv n cl ∈ p1 ++ p2 /\ writes_field k f cl v) \/
  (rj = RStr ([], Some ErrKeyNil) /\ exists n cl, EInv n cl ∈ p1 ++ p2 /\ removes_field k f cl).
Proof.
  intros Hr Hs Hd Hc E Hp2. set (X := held (at_start w0 k f) k f (p1 ++ p2)).
  assert (H : exists y, X y /\ rj = RStr (hget_ret y)).
  { refine (observe (ConcHash.I_ k f X l) (fun r => exists y, X y /\ r = RStr (hget_ret y)) w0 s c p1 j (CHGet k f) p2 rj p3 _ _ _ _ E Hp2).
    - apply I_stable.
    - apply start_inv; auto. left. reflexivity.
    - intros n cl H. apply (kp_call k f X X l). apply (held_spares _ k f _ n); auto. eapply Hc; eauto.
    - apply kr_hget. }
  destruct H as (y & [->|Hy] & ->); [left; eapply start_hget; eauto|]. right. destruct y as [v|]; [left; exists (shown v); auto|right; auto].
Qed.

(** ** C154 *)
Theorem C154_hkeys_only_known_fields w0 k f l s c p1 j p2 fs er p3 :
  ready w0 -> stored w0 k = Some (VHash l) -> deadline w0 k = None ->
  (forall n cl, EInv n cl ∈ p1 ++ p2 -> keeps_key k cl) ->
  cexec s (start w0) = Some (c, p1 ++ EInv j (CHKeys k) :: p2 ++ ERet j (RList (fs, er)) :: p3) ->
  Forall (fun e => who e <> Some j) p2 ->
  er = None /\
  (f ∈ fs -> answer (w_now w0) (CHGet k f) w0 <> Some (RStr ([], Some ErrKeyNil)) \/ exists n cl v, EInv n cl ∈ p1 ++ p2 /\ writes_field k f cl v) /\
  (f ∉ fs -> answer (w_now w0) (CHGet k f) w0 = Some (RStr ([], Some ErrKeyNil)) \/ exists n cl, EInv n cl ∈ p1 ++ p2 /\ removes_field k f cl).
Proof.
  intros Hr Hs Hd Hc E Hp2. set (X := held (at_start w0 k f) k f (p1 ++ p2)).
  assert (H : exists fs', RList (fs, er) = RList (fs', None) /\ (f ∈ fs' -> exists v, X (Some v)) /\ (~ X None -> f ∈ fs')).
  { refine (observe (ConcHash.I_ k f X l) (fun r => exists fs', r = RList (fs', None) /\ (f ∈ fs' -> exists v, X (Some v)) /\ (~ X None -> f ∈ fs')) w0 s c p1 j (CHKeys k) p2 _ p3 _ _ _ _ E Hp2).
    - apply I_stable.
    - apply start_inv; auto. left. reflexivity.
    - intros n cl H. apply (kp_call k f X X l). apply (held_spares _ k f _ n); auto. eapply Hc; eauto.
    - cbn [call_prog]. unfold pmap, m_hkeys. eapply keeps_bind; [|intros r Hr'; constructor; exact Hr'].
      eapply keeps_bind; [apply kr_ghe|]. intros h ->. eapply keeps_bind; [apply kr_range|]. intros es [H1 H2]. constructor. exists (map fst es). split; [reflexivity|]. split.
      + intros Hin. apply elem_of_list_fmap in Hin as ([g v] & -> & Hin). exists v. auto.
      + intros Hn. destruct (H2 Hn) as [v Hv]. apply elem_of_list_fmap. exists (f, v). auto. }
  destruct H as (fs' & [= <- ->] & H1 & H2). rewrite (start_hget w0 k f l) by auto. split; [reflexivity|]. split.
  - intros Hin. destruct (H1 Hin) as (v & [Ev|(n & cl & Hn & Hw)]); [left; rewrite <- Ev; discriminate|right; eauto].
  - intros Hni. destruct (at_start w0 k f) as [v|] eqn:Ea; [|left; reflexivity]. right.
    assert (Hdec : (exists n cl, EInv n cl ∈ p1 ++ p2 /\ removes_field k f cl) \/ ~ (exists n cl, EInv n cl ∈ p1 ++ p2 /\ removes_field k f cl)).
    { clear. induction (p1 ++ p2) as [|e r IH]; [right; intros (n & cl & H & _); inversion H|]. destruct IH as [(n & cl & H1 & H2)|IH]; [left; exists n, cl; split; [right; exact H1|exact H2]|].
      assert (He : (exists n cl, e = EInv n cl /\ removes_field k f cl) \/ ~ exists n cl, e = EInv n cl /\ removes_field k f cl).
      { destruct e as [n cl| |]; try (right; intros (? & ? & [=] & _); fail). destruct cl; try (right; intros (? & ? & [= <- <-] & []); fail).
        destruct (decide (k0 = k /\ f ∈ fs)) as [H|H]; [left; eexists _, _; split; [reflexivity|exact H]|right; intros (? & ? & [= <- <-] & H'); exact (H H')]. }
      destruct He as [(n & cl & -> & H)|He]; [left; exists n, cl; split; [left|exact H]|]. right. intros (n & cl & H & H'). apply elem_of_cons in H as [<-|H]; [apply He|apply IH]; eauto. }
    destruct Hdec as [H|H]; [exact H|]. elim Hni. apply H2. unfold X, held. intros [Hx|Hx]; [discriminate|exact (H Hx)].
Qed.

(** ** C152 *)
(** Goroutine 1 writes [a], and when that has returned [b]; HVals shows the new [b] beside the old [a]. *)
Theorem C152_hvals_torn_refuted :
  exists k a b s, a <> b /\ events_of s (new_world 0) =
    Some [EInv 1 (CHMSet k [(a, bs "x"); (b, bs "x")]); ERet 1 (RInt (2, None)); EInv 2 (CHVals k);
          EInv 1 (CHSet k a (bs "y")); ERet 1 (RInt (0, None)); EInv 1 (CHSet k b (bs "z")); ERet 1 (RInt (0, None));
          ERet 2 (RList ([bs "x"; bs "z"], None))].
Proof.
  exists (bs "k"), (bs "a"), (bs "b"), ([AInv 1 (CHMSet (bs "k") [(bs "a", bs "x"); (bs "b", bs "x")])] ++ runs 1 9 ++ [ARet 1; AInv 2 (CHVals (bs "k"))] ++ runs 2 4 ++
    [AInv 1 (CHSet (bs "k") (bs "a") (bs "y"))] ++ runs 1 6 ++ [ARet 1; AInv 1 (CHSet (bs "k") (bs "b") (bs "z"))] ++ runs 1 6 ++ [ARet 1] ++ runs 2 1 ++ [ARet 2]).
  split; [discriminate|]. vm_compute. reflexivity.
Qed.

(** What the calls that read a whole hash, or several fields, show of the field [f] when it holds [v]. *)
Definition shows_field (f v : gostr) (cj : call) (r : reply) : Prop :=
  match cj with
  | CHKeys _ => exists fs, r = RList (fs, None) /\ f ∈ fs
  | CHVals _ => exists vs, r = RList (vs, None) /\ (atoi v = None -> parse_float v = None -> v ∈ vs)
  | CHMGet _ fs => exists sl, r = RSlots (sl, None) /\ length sl = length fs /\ forall n, fs !! n = Some f -> sl !! n = Some (SlotStr (text v))
  | CHGet _ g => g = f -> r = RStr (text v, None)
  | _ => True
  end.
Lemma kr_shows k f v l cj : (match cj with CHKeys k' | CHVals k' | CHMGet k' _ | CHGet k' _ => k' = k | _ => False end) ->
  let X := fun y => y = Some (try_int64 v) in keeps (ConcHash.I_ k f X l) (ConcHash.J_ k f X l) (shows_field f v cj) (call_prog cj).
Proof.
  intros Hk X. assert (HX : ~ X None) by discriminate. destruct cj; try (destruct Hk; fail); subst; cbn [call_prog shows_field]; unfold pmap.
  - unfold m_hmget. eapply keeps_bind; [|intros r Hr'; constructor; exact Hr']. eapply keeps_bind; [apply kr_ghe|]. intros h ->. eapply keeps_bind; [apply kr_hmget|].
    intros sl [H1 H2]. constructor. exists sl. split; [reflexivity|]. split; [exact H1|]. intros n Hn. destruct (H2 n Hn) as (y & -> & E). rewrite shown_try in E. exact E.
  - unfold m_hkeys. eapply keeps_bind; [|intros r Hr'; constructor; exact Hr']. eapply keeps_bind; [apply kr_ghe|]. intros h ->. eapply keeps_bind; [apply kr_range|].
    intros es [H1 H2]. constructor. exists (map fst es). split; [reflexivity|]. destruct (H2 HX) as [y Hy]. apply elem_of_list_fmap. exists (f, y). auto.
  - unfold m_hvals. eapply keeps_bind; [|intros r Hr'; constructor; exact Hr']. eapply keeps_bind; [apply kr_ghe|]. intros h ->. eapply keeps_bind; [apply kr_range|].
    intros es [H1 H2]. constructor. eexists. split; [reflexivity|]. intros Hp1 Hp2. destruct (H2 HX) as [y Hy]. apply elem_of_list_omap. exists (f, y). split; [exact Hy|].
    specialize (H1 _ Hy). injection H1 as ->. cbn. unfold try_int64. rewrite Hp1, Hp2. reflexivity.
  - destruct (decide (f0 = f)) as [->|Hne].
    + eapply keeps_weaken; [|apply kr_hget]. intros r (y & -> & ->) _. cbn. rewrite shown_try. reflexivity.
    + eapply keeps_weaken; [|exact (kp_call k f X X l (CHGet k f0) I)]. intros r _ E. elim (Hne E).
Qed.
(** Full statement: HKeys, HVals, HMGet show the hash as it was at one moment between call and return; refuted above for
    HVals. Proved for each field by itself: a field written before the call, and not touched since, is listed by
    HKeys, shown by HVals (if it is not a number, see C43) and by HMGet with the value written. *)
Theorem C152_written_field_shown_partial w0 k f v l s c p1 i p2 ri p3 j cj p4 rj p5 :
  ready w0 -> stored w0 k = Some (VHash l) -> deadline w0 k = None ->
  (match cj with CHKeys k' | CHVals k' | CHMGet k' _ | CHGet k' _ => k' = k | _ => False end) ->
  (forall n cl, EInv n cl ∈ p1 ++ p2 ++ p3 ++ p4 -> spares_field k f v cl) ->
  cexec s (start w0) = Some (c, p1 ++ EInv i (CHSet k f v) :: p2 ++ ERet i ri :: p3 ++ EInv j cj :: p4 ++ ERet j rj :: p5) ->
  Forall (fun e => who e <> Some i) p2 -> Forall (fun e => who e <> Some j) p4 ->
  shows_field f v cj rj.
Proof.
  intros Hr Hs Hd Hj Hc E Hp2 Hp4. set (X1 := fun y => y = Some (try_int64 v)).
  refine (establish (ConcHash.I_ k f (fun _ => True) l) (J_ k f X1 l) (shows_field f v cj) w0 s c p1 i (CHSet k f v) p2 ri p3 j cj p4 rj p5 _ _ _ _ _ _ _ E Hp2 Hp4).
  - apply J_I. auto.
  - apply I_stable.
  - apply J_stable.
  - apply start_inv; auto.
  - intros n cl H. apply (kp_call k f (fun _ => True) X1 l). apply spares_spares, (Hc n cl H).
  - apply hset_est; [auto|]. split; [exact I|reflexivity].
  - apply (kr_shows k f v l cj Hj).
Qed.
(** Every slot of HMGet shows what the field held at first, or what a call put there. *)
Theorem C152_hmget_only_written_partial w0 k f l s c p1 j fs p2 rj p3 :
  ready w0 -> stored w0 k = Some (VHash l) -> deadline w0 k = None ->
  (forall n cl, EInv n cl ∈ p1 ++ p2 -> keeps_key k cl) ->
  cexec s (start w0) = Some (c, p1 ++ EInv j (CHMGet k fs) :: p2 ++ ERet j rj :: p3) ->
  Forall (fun e => who e <> Some j) p2 ->
  exists sl, rj = RSlots (sl, None) /\ length sl = length fs /\ forall m, fs !! m = Some f ->
    (exists v, sl !! m = Some (SlotStr v) /\
       (answer (w_now w0) (CHGet k f) w0 = Some (RStr (v, None)) \/ exists n cl, EInv n cl ∈ p1 ++ p2 /\ writes_field k f cl v)) \/
    (sl !! m = Some (SlotErr ErrKeyNil) /\
       (answer (w_now w0) (CHGet k f) w0 = Some (RStr ([], Some ErrKeyNil)) \/ exists n cl, EInv n cl ∈ p1 ++ p2 /\ removes_field k f cl)).
Proof.
  intros Hr Hs Hd Hc E Hp2. set (X := held (at_start w0 k f) k f (p1 ++ p2)).
  assert (H : exists sl, rj = RSlots (sl, None) /\ length sl = length fs /\ forall n, fs !! n = Some f -> exists y, X y /\ sl !! n = Some (match y with None => SlotErr ErrKeyNil | Some v => SlotStr (shown v) end)).
  { refine (observe (ConcHash.I_ k f X l) (fun r => exists sl, r = RSlots (sl, None) /\ length sl = length fs /\ forall n, fs !! n = Some f -> exists y, X y /\ sl !! n = Some (match y with None => SlotErr ErrKeyNil | Some v => SlotStr (shown v) end)) w0 s c p1 j (CHMGet k fs) p2 rj p3 _ _ _ _ E Hp2).
    - apply I_stable.
    - apply start_inv; auto. left. reflexivity.
    - intros n cl H. apply (kp_call k f X X l). apply (held_spares _ k f _ n); auto. eapply Hc; eauto.
    - cbn [call_prog]. unfold pmap, m_hmget. eapply keeps_bind; [|intros r Hr'; constructor; exact Hr']. eapply keeps_bind; [apply kr_ghe|]. intros h ->. eapply keeps_bind; [apply kr_hmget|].
      intros sl H. constructor. exists sl. auto. }
  destruct H as (sl & -> & Hlen & H). exists sl. split; [reflexivity|]. split; [exact Hlen|]. intros m Hm. rewrite (start_hget w0 k f l) by auto.
  destruct (H m Hm) as (y & Hy & Em). rewrite Em. unfold X, held in Hy. destruct y as [v|]; [left; exists (shown v)|right]; (split; [reflexivity|]); destruct Hy as [<-|Hy]; auto.
Qed.
Definition demo4 : list act := [AInv 1 (CHSet (bs "h") (bs "x") (bs "one")); AInv 2 (CHSet (bs "h") (bs "y") (bs "2"))] ++ runs 1 2 ++ runs 2 2 ++ runs 1 3 ++
    [ARet 1; AInv 3 (CHKeys (bs "h"))] ++ runs 3 3 ++ runs 2 3 ++ [ARet 2] ++ runs 3 2 ++ [ARet 3; AInv 3 (CHVals (bs "h"))] ++ runs 3 6 ++
    [ARet 3; AInv 1 (CHMGet (bs "h") [bs "x"; bs "z"])] ++ runs 1 4 ++ [ARet 1; AInv 1 (CHGet (bs "h") (bs "y"))] ++ runs 1 3 ++ [ARet 1].
Example C152_nonvacuous : events_of demo4 demo =
  Some [EInv 1 (CHSet (bs "h") (bs "x") (bs "one")); EInv 2 (CHSet (bs "h") (bs "y") (bs "2")); ERet 1 (RInt (1, None)); EInv 3 (CHKeys (bs "h")); ERet 2 (RInt (1, None));
        ERet 3 (RList ([bs "f"; bs "x"], None)); EInv 3 (CHVals (bs "h")); ERet 3 (RList ([bs "v"; bs "one"], None));
        EInv 1 (CHMGet (bs "h") [bs "x"; bs "z"]); ERet 1 (RSlots ([SlotStr (bs "one"); SlotErr ErrKeyNil], None)); EInv 1 (CHGet (bs "h") (bs "y")); ERet 1 (RStr (bs "2", None))] /\
  (exists l, stored demo (bs "h") = Some (VHash l)) /\ deadline demo (bs "h") = None.
Proof.
  split; [vm_compute; reflexivity|]. split; [|vm_compute; reflexivity].
  assert (H3 : match stored demo (bs "h") with Some (VHash _) => True | _ => False end) by (vm_compute; exact I).
  destruct (stored demo (bs "h")) as [x|]; [|destruct H3]. destruct x as [ | | | | | | | |l]; try contradiction. eauto.
Qed.
(** The same execution for C153 and C154: [y] was written, [f] was there, [z] neither. *)
Example C153_nonvacuous : writes_field (bs "h") (bs "y") (CHSet (bs "h") (bs "y") (bs "2")) (bs "2") /\ answer 0 (CHGet (bs "h") (bs "y")) demo = Some (RStr ([], Some ErrKeyNil)).
Proof. vm_compute. auto. Qed.
Example C154_nonvacuous : answer 0 (CHGet (bs "h") (bs "f")) demo = Some (RStr (bs "v", None)) /\ answer 0 (CHGet (bs "h") (bs "x")) demo = Some (RStr ([], Some ErrKeyNil)) /\
  ~ writes_field (bs "h") (bs "z") (CHSet (bs "h") (bs "y") (bs "2")) (bs "2").
Proof. split; [vm_compute; reflexivity|]. split; [vm_compute; reflexivity|]. intros (_ & H & _). discriminate. Qed.

Print Assumptions C152_hvals_torn_refuted.
Print Assumptions C152_written_field_shown_partial.
Print Assumptions C152_hmget_only_written_partial.
Print Assumptions C153_only_written_values.
Print Assumptions C154_hkeys_only_known_fields.
