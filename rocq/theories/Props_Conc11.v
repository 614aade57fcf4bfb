(** * Props_Conc11: calls on the fields of hashes that exist, from many goroutines *)
From stdpp Require Import gmap list.
From Verif Require Import Base GoFloat CacheModel CacheSpec CacheConc.
From Verif Require Import CacheAbs CacheRefine CacheRefineH CacheMain CacheLib ConcLin ConcOwn ConcSafe ConcRead Props_Conc Props_Conc7.

(** ** Worlds that differ in what HLen reports, the lock and the clock at most; fields are only added *)
Definition same_fields (w w' : world) : Prop := w_data w' = w_data w /\ w_exp w' = w_exp w /\
  forall l, option_map h_map (w_heap w' !! l) = option_map h_map (w_heap w !! l).
Definition grown (w w' : world) : Prop := w_data w' = w_data w /\ w_exp w' = w_exp w /\
  forall l o, w_heap w !! l = Some o -> exists o', w_heap w' !! l = Some o' /\ forall f, is_Some (h_map o !! f) -> is_Some (h_map o' !! f).
Lemma same_refl w : same_fields w w. Proof. repeat split. Qed.
Lemma same_trans a b c : same_fields a b -> same_fields b c -> same_fields a c.
Proof. intros (H1 & H2 & H3) (H4 & H5 & H6). split; [congruence|]. split; [congruence|]. intros l. rewrite H6. apply H3. Qed.
Lemma same_sym a b : same_fields a b -> same_fields b a.
Proof. intros (H1 & H2 & H3). split; [congruence|]. split; [congruence|]. intros l. rewrite H3. reflexivity. Qed.
Lemma grown_refl w : grown w w. Proof. repeat split. intros l o H. eauto. Qed.
Lemma grown_trans a b c : grown a b -> grown b c -> grown a c.
Proof.
  intros (H1 & H2 & H3) (H4 & H5 & H6). split; [congruence|]. split; [congruence|]. intros l o Ho. destruct (H3 l o Ho) as (o1 & Ho1 & F1). destruct (H6 l o1 Ho1) as (o2 & Ho2 & F2). eauto.
Qed.
Lemma same_grown a b : same_fields a b -> grown a b.
Proof.
  intros (H1 & H2 & H3). split; [exact H1|]. split; [exact H2|]. intros l o Ho. specialize (H3 l). rewrite Ho in H3. destruct (w_heap b !! l) as [o'|]; [|discriminate].
  cbn in H3. injection H3 as H3. exists o'. split; [reflexivity|]. rewrite H3. auto.
Qed.
Lemma same_obj a b l o : same_fields a b -> w_heap a !! l = Some o -> exists o', w_heap b !! l = Some o' /\ h_map o' = h_map o.
Proof. intros (_ & _ & H) Ho. specialize (H l). rewrite Ho in H. destruct (w_heap b !! l) as [o'|]; [|discriminate]. injection H as H. eauto. Qed.
Lemma same_put w l o o' : w_heap w !! l = Some o -> h_map o' = h_map o -> same_fields w (set_heap w (<[l := o']> (w_heap w))).
Proof.
  intros Ho Hm. split; [reflexivity|]. split; [reflexivity|]. intros j. cbn. destruct (decide (j = l)) as [->|Hne]; [|rewrite lookup_insert_ne by auto; reflexivity].
  rewrite lookup_insert, Ho. cbn. rewrite Hm. reflexivity.
Qed.
Lemma grown_put w l o f v n : w_heap w !! l = Some o -> grown w (set_heap w (<[l := HObj (<[f := v]> (h_map o)) n]> (w_heap w))).
Proof.
  intros Ho. split; [reflexivity|]. split; [reflexivity|]. intros j o1 Hj. cbn. destruct (decide (j = l)) as [->|Hne]; [|rewrite lookup_insert_ne by auto; eauto].
  rewrite lookup_insert. eexists. split; [reflexivity|]. assert (o1 = o) by congruence. subst o1. cbn. intros g Hg. destruct (decide (g = f)) as [->|]; [rewrite lookup_insert; eauto|rewrite lookup_insert_ne by auto; exact Hg].
Qed.
Lemma same_put2 a b l oa ob m na nb : same_fields a b -> w_heap a !! l = Some oa -> w_heap b !! l = Some ob ->
  same_fields (set_heap a (<[l := HObj m na]> (w_heap a))) (set_heap b (<[l := HObj m nb]> (w_heap b))).
Proof.
  intros (H1 & H2 & H3) Ha Hb. split; [exact H1|]. split; [exact H2|]. intros j. cbn. destruct (decide (j = l)) as [->|Hne]; [rewrite !lookup_insert; reflexivity|rewrite !lookup_insert_ne by auto; apply H3].
Qed.

(** ** Calls with one step that decides, as long as fields are only added *)
Fixpoint idle_from (r : reply) (p : prog reply) (w : world) : Prop :=
  match p with
  | Ret x => x = r
  | Step f => forall w', grown w w' -> match f w' with Go w1 p1 => same_fields w' w1 /\ idle_from r p1 w1 | _ => False end
  end.
Fixpoint decides_from (c : call) (p : prog reply) (w : world) : Prop :=
  match p with
  | Ret _ => False
  | Step f => forall w', grown w w' ->
      match f w' with
      | Go w1 p1 => (same_fields w' w1 /\ decides_from c p1 w1) \/
          (grown w' w1 /\ exists r, (forall ws, same_fields w' ws -> exists ws', eval (call_prog c) ws = Done ws' r /\ same_fields w1 ws') /\ idle_from r p1 w1)
      | _ => False
      end
  end.
Definition hash_at (k : gostr) (l : positive) (w : world) : Prop :=
  (exists d, w_data w = Some d /\ d !! k = Some (VHash l)) /\ (exists e, w_exp w = Some e /\ e !! k = None) /\ is_Some (w_heap w !! l).
Lemma hash_at_grown k l w w' : grown w w' -> hash_at k l w -> hash_at k l w'.
Proof. intros (H1 & H2 & H3) ((d & Hd & Hk) & (e & He & Hke) & [o Ho]). destruct (H3 l o Ho) as (o' & Ho' & _). split; [exists d; split; congruence|]. split; [exists e; split; congruence|eauto]. Qed.
Lemma eval_entry {A} k l w (body : hres -> prog A) (fin : A -> prog reply) : hash_at k l w ->
  eval (pbind (pbind (get_hash_entry k) body) fin) w = eval (pbind (body (HEntry l)) fin) w.
Proof. intros ((d & Hd & Hk) & (e & He & Hke) & _). cbn. rewrite Hd. cbn. rewrite Hk. cbn. rewrite He. cbn. rewrite Hke. reflexivity. Qed.
Lemma decides_entry {A} c k l w (body : hres -> prog A) (fin : A -> prog reply) : hash_at k l w ->
  (forall w', grown w w' -> decides_from c (pbind (body (HEntry l)) fin) w') -> decides_from c (pbind (pbind (get_hash_entry k) body) fin) w.
Proof.
  intros Hh Hq. cbn [get_hash_entry c_get pbind data_load atom decides_from]. intros w1 G1. pose proof (hash_at_grown _ _ _ _ G1 Hh) as ((d & Hd & Hk) & _).
  cbn. rewrite Hd. cbn. rewrite Hk. cbn. left. split; [apply same_refl|]. intros w2 G2. pose proof (hash_at_grown _ _ _ _ (grown_trans _ _ _ G1 G2) Hh) as (_ & (e & He & Hke) & _).
  cbn. rewrite He. cbn. rewrite Hke. cbn. left. split; [apply same_refl|]. apply Hq. eapply grown_trans; eauto.
Qed.
(** The model's programs up to the order in which [pbind] is nested. *)
Lemma eval_peq {R : Type} (p : prog R) : forall q w, peq p q -> eval p w = eval q w.
Proof.
  revert p. fix IH 1. intros [a|f] [b|g] w H; cbn in *; try contradiction; [subst; reflexivity|]. specialize (H w). destruct (f w) as [w1 p1| |], (g w) as [w2 q1| |]; try contradiction; auto.
  destruct H as [<- H]. apply IH, H.
Qed.
Lemma idle_peq r (p : prog reply) : forall q w, peq p q -> idle_from r p w -> idle_from r q w.
Proof.
  revert p. fix IH 1. intros [a|f] [b|g] w H Hi; cbn in *; try contradiction; [subst; auto|]. intros w' G. specialize (H w'). specialize (Hi w' G). destruct (f w') as [w1 p1| |], (g w') as [w2 q1| |]; try contradiction; auto.
  destruct H as [<- H], Hi as [Hs Hi]. split; [exact Hs|]. apply (IH p1); auto.
Qed.
Lemma decides_peq c (p : prog reply) : forall q w, peq p q -> decides_from c p w -> decides_from c q w.
Proof.
  revert p. fix IH 1. intros [a|f] [b|g] w H Hi; cbn in *; try contradiction. intros w' G. specialize (H w'). specialize (Hi w' G). destruct (f w') as [w1 p1| |], (g w') as [w2 q1| |]; try contradiction; auto.
  destruct H as [<- H], Hi as [[Hs Hi]|(Hg & r & Hr & Hi)]; [left; split; [exact Hs|]; apply (IH p1); auto|]. right. split; [exact Hg|]. exists r. split; [exact Hr|]. apply (idle_peq r p1); auto.
Qed.
Definition field_call (c : call) : option gostr :=
  match c with
  | CHSet k _ _ | CHSetNX k _ _ | CHGet k _ | CHStrLen k _ | CHExists k _ | CHMGet k [_] | CHMSet k [_] => Some k
  | _ => None
  end.
Lemma idle_len (r : reply) (l : positive) (n : Z -> Z) (w : world) (q : unit -> prog reply) : (forall u w, idle_from r (q u) w) ->
  is_Some (w_heap w !! l) -> idle_from r (pbind (h_get_len l) (fun len => pbind (h_set_len l (n len)) q)) w.
Proof.
  intros Hq [o Ho]. cbn. intros w1 (_ & _ & G1). destruct (G1 l o Ho) as (o1 & Ho1 & _). rewrite Ho1. cbn. split; [eapply same_put; [exact Ho1|reflexivity]|].
  intros w2 (_ & _ & G2). cbn in G2. destruct (G2 l o1 (lookup_insert _ _ _)) as (o2 & Ho2 & _). rewrite Ho2. cbn. split; [eapply same_put; [exact Ho2|reflexivity]|]. apply Hq.
Qed.
(** A step that reads or adds a field, and the same call run alone. *)
Ltac obj G H o := let Ho := fresh "Ho" in destruct G as (_ & _ & G); destruct (G _ _ H) as (o & Ho & ?).
Lemma obj_of k l w : hash_at k l w -> exists o, w_heap w !! l = Some o.
Proof. intros (_ & _ & [o Ho]). eauto. Qed.
Ltac idle_tail l := cbn; let Ho := fresh "Ho" in
  match goal with |- forall w', grown ?w w' -> _ => assert (Ho : exists o, w_heap w !! l = Some o) by (cbn; rewrite lookup_insert; eauto) end;
  let o := fresh "o" in destruct Ho as [o Ho]; cbn;
  let G1 := fresh "G" in let o1 := fresh "o" in let Ho1 := fresh "Ho" in intros ? (_ & _ & G1); destruct (G1 _ _ Ho) as (o1 & Ho1 & _); rewrite Ho1; cbn; (split; [eapply same_put; [exact Ho1|reflexivity]|]);
  let G2 := fresh "G" in let o2 := fresh "o" in let Ho2 := fresh "Ho" in intros ? (_ & _ & G2); cbn in G2; destruct (G2 _ _ (lookup_insert _ _ _)) as (o2 & Ho2 & _); rewrite Ho2; cbn; (split; [eapply same_put; [exact Ho2|reflexivity]|]).
Lemma eval_he_set (l : positive) (f v : gostr) (fin : Z -> prog reply) (r : reply) (ws : world) o :
  w_heap ws !! l = Some o -> fin (match h_map o !! f with Some _ => 0 | None => 1 end) = Ret r ->
  exists n, eval (pbind (he_set l f v) fin) ws = Done (set_heap ws (<[l := HObj (<[f := try_int64 v]> (h_map o)) n]> (w_heap ws))) r.
Proof.
  intros Ho Hf. cbn. rewrite Ho. destruct (h_map o !! f) as [x|] eqn:Ef; cbn; repeat (rewrite ?lookup_insert; cbn); rewrite ?Hf; cbn; eexists; f_equal; unfold set_heap; cbn; rewrite !insert_insert; reflexivity.
Qed.
Lemma decides_he_set c k l f v (fin : Z -> prog reply) (rr : Z -> reply) w :
  (forall z, fin z = Ret (rr z)) -> hash_at k l w ->
  (forall ws, hash_at k l ws -> eval (call_prog c) ws = eval (pbind (he_set l f v) fin) ws) ->
  decides_from c (pbind (he_set l f v) fin) w.
Proof.
  intros Hfin Hh Hev. cbn. intros w1 G1. pose proof (hash_at_grown _ _ _ _ G1 Hh) as Hh1. destruct (obj_of _ _ _ Hh1) as [o Ho]. rewrite Ho. cbn. destruct (h_map o !! f) as [x|] eqn:Ef; cbn.
  - left. pose proof (same_put w1 l o o Ho eq_refl) as Hs. split; [exact Hs|]. intros w2 G2.
    pose proof (hash_at_grown _ _ _ _ (grown_trans _ _ _ (same_grown _ _ Hs) G2) Hh1) as Hh2.
    assert (exists o2 y, w_heap w2 !! l = Some o2 /\ h_map o2 !! f = Some y) as (o2 & y & Ho2 & Ef2).
    { destruct G2 as (_ & _ & G2). cbn in G2. destruct (G2 l o (lookup_insert _ _ _)) as (o2 & Ho2 & F). destruct (F f) as [y Hy]; eauto. }
    rewrite Ho2. cbn. right. split; [eapply grown_put; eauto|]. exists (rr 0). split.
    + intros ws Hws. destruct (same_obj _ _ _ _ Hws Ho2) as (os & Hos & Hm). rewrite (Hev ws) by (eapply hash_at_grown; [apply same_grown|]; eauto).
      destruct (eval_he_set l f v fin (rr 0) ws os Hos) as [n Hn]; [rewrite Hm, Ef2; apply Hfin|]. rewrite Hn. eexists. split; [reflexivity|]. rewrite Hm. eapply same_put2; eauto.
    + idle_tail l. rewrite Hfin. reflexivity.
  - right. split; [eapply grown_put; eauto|]. exists (rr 1). split.
    + intros ws Hws. destruct (same_obj _ _ _ _ Hws Ho) as (os & Hos & Hm). rewrite (Hev ws) by (eapply hash_at_grown; [apply same_grown|]; eauto).
      destruct (eval_he_set l f v fin (rr 1) ws os Hos) as [n Hn]; [rewrite Hm, Ef; apply Hfin|]. rewrite Hn. eexists. split; [reflexivity|]. rewrite Hm. eapply same_put2; eauto.
    + idle_tail l. rewrite Hfin. reflexivity.
Qed.
(** Reading one field. *)
Lemma decides_load c k l f (q : option gval -> prog reply) (rr : option gval -> reply) w : hash_at k l w ->
  (forall x w', is_Some (w_heap w' !! l) -> idle_from (rr x) (q x) w') ->
  (forall x ws, is_Some (w_heap ws !! l) -> exists ws', eval (q x) ws = Done ws' (rr x) /\ same_fields ws ws') ->
  (forall ws, hash_at k l ws -> eval (call_prog c) ws = eval (pbind (h_load l f) q) ws) ->
  decides_from c (pbind (h_load l f) q) w.
Proof.
  intros Hh Hid Hq Hev. cbn. intros w1 G1. pose proof (hash_at_grown _ _ _ _ G1 Hh) as Hh1. destruct (obj_of _ _ _ Hh1) as [o Ho]. rewrite Ho. cbn.
  pose proof (same_put w1 l o o Ho eq_refl) as Hs. right. split; [apply same_grown, Hs|]. exists (rr (h_map o !! f)). split; [|apply Hid; cbn; rewrite lookup_insert; eauto].
  intros ws Hws. destruct (same_obj _ _ _ _ Hws Ho) as (os & Hos & Hm). rewrite (Hev ws) by (eapply hash_at_grown; [apply same_grown|]; eauto). cbn. rewrite Hos. cbn. rewrite Hm.
  pose proof (same_put ws l os os Hos eq_refl) as Hs'. destruct (Hq (h_map o !! f) (set_heap ws (<[l:=os]> (w_heap ws)))) as (ws' & E & Hs''); [cbn; rewrite lookup_insert; eauto|].
  exists ws'. split; [exact E|]. eapply same_trans; [apply same_sym, Hs|]. eapply same_trans; [exact Hws|]. eapply same_trans; eauto.
Qed.
Lemma decides_read c k l f B (q : option gval -> prog reply) (rr : option gval -> reply) w : hash_at k l w ->
  (forall ws, hash_at k l ws -> eval (call_prog c) ws = eval B ws) -> peq B (pbind (h_load l f) q) ->
  (forall x w', is_Some (w_heap w' !! l) -> idle_from (rr x) (q x) w') ->
  (forall x ws, is_Some (w_heap ws !! l) -> exists ws', eval (q x) ws = Done ws' (rr x) /\ same_fields ws ws') ->
  decides_from c B w.
Proof.
  intros Hh Hev P Hid Hq. eapply decides_peq; [apply peq_sym, P|]. eapply (decides_load c k l f q rr); auto. intros ws Hws. rewrite <- (eval_peq _ _ ws P). auto.
Qed.
Ltac read_peq l f := cbn; let u := fresh "u" in intros u; destruct (w_heap u !! l) as [?o|]; cbn; [|exact I]; (split; [reflexivity|]); match goal with |- context [h_map ?o !! f] => destruct (h_map o !! f); reflexivity end.
Lemma field_decides c k l w : field_call c = Some k -> hash_at k l w -> decides_from c (call_prog c) w.
Proof.
  intros Hc Hh. destruct c; cbn in Hc; try discriminate; try (injection Hc as ->).
  - (* HSet *) apply (decides_entry _ k l w _ _ Hh). intros w' G.
    assert (P : peq (pbind (do n <- he_set l f v; Ret (n, None)) (fun x : gret Z => Ret (RInt x))) (pbind (he_set l f v) (fun z => Ret (RInt (z, None))))) by apply pbind_assoc.
    eapply decides_peq; [apply peq_sym, P|]. apply (decides_he_set _ k l f v _ (fun z => RInt (z, None))); [reflexivity|eapply hash_at_grown; eauto|].
    intros ws Hws. rewrite <- (eval_peq _ _ ws P). exact (eval_entry k l ws _ _ Hws).
  - (* HSetNX *) apply (decides_entry _ k l w _ _ Hh). intros w' G. pose proof (hash_at_grown _ _ _ _ G Hh) as Hh'. cbn. intros w1 G1.
    pose proof (hash_at_grown _ _ _ _ G1 Hh') as Hh1. destruct (obj_of _ _ _ Hh1) as [o Ho]. rewrite Ho. cbn.
    assert (Hev : forall ws, same_fields w1 ws -> exists os, w_heap ws !! l = Some os /\ h_map os = h_map o /\ hash_at k l ws).
    { intros ws Hws. destruct (same_obj _ _ _ _ Hws Ho) as (os & Hos & Hm). exists os. repeat (split; auto). all: eapply hash_at_grown; [apply same_grown|]; eauto. }
    destruct (h_map o !! f) as [x|] eqn:Ef; cbn; right.
    + pose proof (same_put w1 l o o Ho eq_refl) as Hs. split; [apply same_grown, Hs|]. exists (RInt (0, None)). split; [|reflexivity]. intros ws Hws. destruct (Hev ws Hws) as (os & Hos & Hm & Hh2).
      eexists. split; [etransitivity; [exact (eval_entry k l ws _ _ Hh2)|]; cbn; rewrite Hos, Hm; cbn; rewrite Ef; reflexivity|].
      eapply same_trans; [apply same_sym, Hs|]. eapply same_trans; [exact Hws|]. apply (same_put ws l os os Hos eq_refl).
    + split; [eapply grown_put; eauto|]. exists (RInt (1, None)). split.
      * intros ws Hws. destruct (Hev ws Hws) as (os & Hos & Hm & Hh2). eexists. split; [etransitivity; [exact (eval_entry k l ws _ _ Hh2)|]; cbn; rewrite Hos, Hm; cbn; rewrite Ef; cbn; repeat (rewrite ?lookup_insert; cbn); reflexivity|].
        eapply same_trans; [eapply (same_put2 _ _ l o os); eauto|]. unfold set_heap. cbn. rewrite !insert_insert, ?Hm. apply same_refl.
      * idle_tail l. reflexivity.
  - (* HExists *) apply (decides_entry _ k l w _ _ Hh). intros w' G. pose proof (hash_at_grown _ _ _ _ G Hh) as Hh'.
    eapply (decides_read _ k l f _ (fun x => pbind (h_get_len l) (fun len => pbind (h_set_len l (wrap64 (len - match x with Some _ => 1 | None => 0 end))) (fun _ => Ret (RInt (match x with Some _ => 1 | None => 0 end, None)))))
      (fun x => RInt (match x with Some _ => 1 | None => 0 end, None)) _ Hh').
    + intros ws Hws. exact (eval_entry k l ws _ _ Hws).
    + cbn. intros u. destruct (w_heap u !! l) as [o|]; cbn; [|exact I]. split; [reflexivity|]. destruct (h_map o !! f); cbn; intros u1; (destruct (w_heap u1 !! l); cbn; [|exact I]); (split; [reflexivity|]); intros u2; (destruct (w_heap u2 !! l); cbn; [|exact I]); split; reflexivity.
    + intros x w1 Ho. eapply (idle_len _ l (fun len => wrap64 (len - match x with Some _ => 1 | None => 0 end)) w1 (fun _ => Ret _)); [reflexivity|exact Ho].
    + intros x ws [o Ho]. cbn. rewrite Ho. cbn. rewrite lookup_insert. cbn. eexists. split; [reflexivity|]. unfold set_heap. cbn. rewrite insert_insert. eapply same_put; [exact Ho|reflexivity].
  - (* HStrLen *) apply (decides_entry _ k l w _ _ Hh). intros w' G. pose proof (hash_at_grown _ _ _ _ G Hh) as Hh'.
    eapply (decides_read _ k l f _ (fun x => Ret (RInt (match x with Some y => zlen (match fmt_string y with Some s => s | None => [] end) | None => 0 end, None))) (fun x => RInt (match x with Some y => zlen (match fmt_string y with Some s => s | None => [] end) | None => 0 end, None)) _ Hh').
    + intros ws Hws. exact (eval_entry k l ws _ _ Hws).
    + read_peq l f.
    + reflexivity.
    + intros x ws _. eexists. split; [reflexivity|apply same_refl].
  - (* HMSet *) destruct fv as [|[f v] [|]]; try discriminate. injection Hc as ->. apply (decides_entry _ k l w _ _ Hh). intros w' G.
    assert (P : peq (pbind (do n <- (do x <- he_set l f v; Ret (0 + x)); Ret (n, None)) (fun x : gret Z => Ret (RInt x))) (pbind (he_set l f v) (fun z => Ret (RInt (0 + z, None))))).
    { eapply peq_trans; [apply pbind_assoc|]. eapply peq_trans; [apply pbind_assoc|]. apply pbind_cong; [apply peq_refl|]. intros x. apply peq_refl. }
    eapply decides_peq; [apply peq_sym, P|]. apply (decides_he_set _ k l f v _ (fun z => RInt (0 + z, None))); [reflexivity|eapply hash_at_grown; eauto|].
    intros ws Hws. rewrite <- (eval_peq _ _ ws P). exact (eval_entry k l ws _ _ Hws).
  - (* HMGet *) destruct fs as [|f [|]]; try discriminate. injection Hc as ->. apply (decides_entry _ k l w _ _ Hh). intros w' G. pose proof (hash_at_grown _ _ _ _ G Hh) as Hh'.
    eapply (decides_read _ k l f _ (fun x => Ret (RSlots ([match x with Some y => SlotStr (match fmt_string y with Some s => s | None => [] end) | None => SlotErr ErrKeyNil end], None))) (fun x => RSlots ([match x with Some y => SlotStr (match fmt_string y with Some s => s | None => [] end) | None => SlotErr ErrKeyNil end], None)) _ Hh').
    + intros ws Hws. exact (eval_entry k l ws _ _ Hws).
    + read_peq l f.
    + reflexivity.
    + intros x ws _. eexists. split; [reflexivity|apply same_refl].
  - (* HGet *) apply (decides_entry _ k l w _ _ Hh). intros w' G. pose proof (hash_at_grown _ _ _ _ G Hh) as Hh'.
    eapply (decides_read _ k l f _ (fun x => Ret (RStr match x with None => ([], Some ErrKeyNil) | Some y => (match fmt_string y with Some s => s | None => [] end, None) end)) (fun x => RStr match x with None => ([], Some ErrKeyNil) | Some y => (match fmt_string y with Some s => s | None => [] end, None) end) _ Hh').
    + intros ws Hws. exact (eval_entry k l ws _ _ Hws).
    + read_peq l f.
    + reflexivity.
    + intros x ws _. eexists. split; [reflexivity|apply same_refl].
Qed.

(** ** Every execution of such calls has a serial order *)
Definition on_hash (w0 : world) (c : call) : Prop := exists k l, field_call c = Some k /\ stored w0 k = Some (VHash l) /\ deadline w0 k = None.
Definition thst4 (w : world) (p : option (prog reply)) (s : option tst) : Prop :=
  match p, s with
  | None, None => True
  | Some p, Some (Called c t0) => t0 <= w_now w /\ decides_from c p w
  | Some p, Some (Decided r) => idle_from r p w
  | _, _ => False
  end.
Record sim4 (w0 : world) (c : conf) (m : gmap nat tst) (last : Z) (ws : world) : Prop := Sim4 {
  s4_grown : grown w0 (c_w c);
  s4_last : last <= w_now (c_w c);
  s4_same : same_fields (c_w c) ws;
  s4_kn : forall i p, c_th c !! i = Some p -> kn p;
  s4_th : forall i, thst4 (c_w c) (c_th c !! i) (m !! i) }.
Lemma decides_later c p w w' : grown w w' -> decides_from c p w -> decides_from c p w'.
Proof. destruct p as [|f]; [auto|]. intros G H w1 G1. apply (H w1). eapply grown_trans; eauto. Qed.
Lemma idle_later r p w w' : grown w w' -> idle_from r p w -> idle_from r p w'.
Proof. destruct p as [|f]; [auto|]. intros G H w1 G1. apply (H w1). eapply grown_trans; eauto. Qed.
Lemma thst4_later w w' p s : grown w w' -> w_now w <= w_now w' -> thst4 w p s -> thst4 w' p s.
Proof. intros G Hn. destruct p, s as [[]|]; cbn; auto; [intros [H1 H2]; split; [lia|eapply decides_later; eauto]|eapply idle_later; eauto]. Qed.
Lemma grown_now w t : grown w (set_now w t). Proof. repeat split. cbn. eauto. Qed.
Lemma hash_at_start w0 k l : ready w0 -> stored w0 k = Some (VHash l) -> deadline w0 k = None -> hash_at k l w0.
Proof.
  intros [_ _ (d & Hd & Hl & _) [e He] _ _] Hs Hdl. unfold stored in Hs. unfold deadline in Hdl. rewrite Hd in Hs. rewrite He in Hdl. split; [eauto|]. split; [eauto|]. eauto.
Qed.
Lemma sim4_step w0 A c m last ws a c' e : ready w0 ->
  lin_ok w0 A m (w_now (c_w c)) last ws -> sim4 w0 c m last ws -> cstep a c = Some (c', e) -> calls_in (on_hash w0) e ->
  exists B m' last' ws', lin_ok w0 (A ++ B) m' (w_now (c_w c')) last' ws' /\ observed B = e /\ sim4 w0 c' m' last' ws'.
Proof.
  intros Hr HA [Hgr Hlast Hsame Hkn Hth] E Hin. destruct a as [i cl|i|i|t]; cbn in E.
  - destruct (c_th c !! i) eqn:Ei; [discriminate|]. injection E as <- <-.
    pose proof (Hth i) as Hi. rewrite Ei in Hi. destruct (m !! i) as [[]|] eqn:Em; cbn in Hi; try contradiction.
    exists [IEv (EInv i cl)], (<[i := Called cl (w_now (c_w c))]> m), last, ws. split; [apply lo_inv; auto|]. split; [reflexivity|].
    constructor; cbn [c_w c_th]; eauto. { intros j q Hj. apply lookup_insert_Some in Hj as [[_ <-]|[_ Hj]]; [apply kn_call|eauto]. }
    intros j. destruct (decide (j = i)) as [->|Hne]; [|rewrite !lookup_insert_ne by auto; apply Hth].
    rewrite !lookup_insert. cbn [thst4]. split; [lia|]. destruct (Hin i cl) as (k & l & Hk & Hs & Hd); [left|].
    apply (field_decides cl k l); [exact Hk|]. eapply hash_at_grown; [exact Hgr|]. apply hash_at_start; auto.
  - destruct (c_th c !! i) as [[r|f]|] eqn:Ei; try discriminate. destruct (f (c_w c)) as [w' p'| |] eqn:Ef; try discriminate. injection E as <- <-.
    pose proof (Hth i) as Hi. rewrite Ei in Hi. pose proof (Hkn i _ Ei) as Hk. inversion Hk as [|? Hk1 Hk2]; subst. pose proof (Hk1 _ _ _ Ef) as Hn. pose proof (Hk2 _ _ _ Ef) as Hkp.
    assert (Hkn' : forall j q, <[i := p']> (c_th c) !! j = Some q -> kn q). { intros j q Hj. apply lookup_insert_Some in Hj as [[_ <-]|[_ Hj]]; eauto. }
    assert (Hsil : forall s, m !! i = Some s -> same_fields (c_w c) w' -> thst4 w' (Some p') (Some s) ->
       exists B m' last' ws', lin_ok w0 (A ++ B) m' (w_now w') last' ws' /\ observed B = [] /\ sim4 w0 (Conf w' (<[i := p']> (c_th c))) m' last' ws').
    { intros s Em Hu Hs. exists [], m, last, ws. rewrite app_nil_r, Hn. split; [exact HA|]. split; [reflexivity|].
      constructor; cbn [c_w c_th]; rewrite ?Hn; auto.
      - eapply grown_trans; [exact Hgr|apply same_grown, Hu].
      - eapply same_trans; [apply same_sym, Hu|exact Hsame].
      - intros j. destruct (decide (j = i)) as [->|Hne]; [rewrite lookup_insert, Em; exact Hs|]. rewrite lookup_insert_ne by auto. eapply thst4_later; [apply same_grown, Hu|lia|apply Hth]. }
    destruct (m !! i) as [[cl t0|r]|] eqn:Em; cbn [thst4] in Hi; [| |contradiction].
    + destruct Hi as [Ht Hi]. cbn in Hi. specialize (Hi _ (grown_refl _)). rewrite Ef in Hi. destruct Hi as [[Hu Hi]|(Hg & r & Hev & Hi)].
      * eapply Hsil; eauto. cbn. split; [lia|exact Hi].
      * destruct (Hev (set_now ws (w_now (c_w c)))) as (ws' & Ev & Hs'). { eapply same_trans; [exact Hsame|]. repeat split. }
        exists [ILin i (w_now (c_w c)) cl r], (<[i := Decided r]> m), (w_now (c_w c)), ws'. cbn [c_w]. rewrite Hn. split; [|split; [reflexivity|]].
        -- eapply lo_lin; eauto; lia.
        -- constructor; cbn [c_w c_th]; rewrite ?Hn; auto; try lia; [eapply grown_trans; eauto|].
           intros j. destruct (decide (j = i)) as [->|Hne]; [rewrite !lookup_insert; exact Hi|]. rewrite !lookup_insert_ne by auto. eapply thst4_later; [exact Hg|lia|apply Hth].
    + cbn in Hi. specialize (Hi _ (grown_refl _)). rewrite Ef in Hi. destruct Hi as [Hu Hi]. eapply Hsil; eauto.
  - destruct (c_th c !! i) as [[r|f]|] eqn:Ei; try discriminate. injection E as <- <-. pose proof (Hth i) as Hi. rewrite Ei in Hi.
    destruct (m !! i) as [[cl t0|r']|] eqn:Em; cbn in Hi; [destruct Hi; contradiction| |contradiction]. subst r'.
    exists [IEv (ERet i r)], (delete i m), last, ws. split; [apply lo_ret; auto|]. split; [reflexivity|].
    constructor; cbn [c_w c_th]; eauto. { intros j q Hj. apply lookup_delete_Some in Hj as [_ Hj]. eauto. }
    intros j. destruct (decide (j = i)) as [->|Hne]; [rewrite !lookup_delete; exact I|rewrite !lookup_delete_ne by auto; apply Hth].
  - destruct (Z.leb_spec (w_now (c_w c)) t) as [Ht|]; [|discriminate]. injection E as <- <-.
    exists [IEv (ETick t)], m, last, ws. cbn [c_w w_now set_now]. split; [eapply lo_tick; eauto|]. split; [reflexivity|].
    constructor; cbn [c_w c_th w_now set_now]; [eapply grown_trans; [exact Hgr|apply grown_now]|lia|exact Hsame|exact Hkn|].
    intros j. eapply thst4_later; [apply grown_now|exact Ht|apply Hth].
Qed.

Lemma idle_eval r (p : prog reply) : forall w, idle_from r p w -> exists w', eval p w = Done w' r.
Proof.
  revert p. fix IH 1. intros [a|f] w H; cbn in *; [subst; eauto|]. specialize (H w (grown_refl w)). destruct (f w) as [w1 p1| |]; try contradiction. destruct H as [_ H]. apply (IH p1), H.
Qed.
Lemma decides_eval c (p : prog reply) : forall w, decides_from c p w ->
  exists r, (exists w', eval p w = Done w' r) /\ forall ws, same_fields w ws -> exists ws', eval (call_prog c) ws = Done ws' r.
Proof.
  revert p. fix IH 1. intros [a|f] w H; cbn in *; [contradiction|]. specialize (H w (grown_refl w)). destruct (f w) as [w1 p1| |]; try contradiction. destruct H as [[Hs H]|(_ & r & Hr & H)].
  - destruct (IH p1 w1 H) as (r & Hw & Hr). exists r. split; [exact Hw|]. intros ws Hws. apply Hr. eapply same_trans; [apply same_sym, Hs|exact Hws].
  - exists r. split; [eapply idle_eval; eauto|]. intros ws Hws. destruct (Hr ws Hws) as (ws' & E & _). eauto.
Qed.

(** ** C176: calls on the fields of a hash

    Full statement: calls on the fields of hashes take effect at one moment each, whatever other calls on fields run.
    Missing: hashes that do not exist yet or have a deadline, HDel, HIncrBy, HIncrByFloat, the calls that name several fields, list
    the fields or ask for their number ([C176_torn_refuted]). *)
Theorem C176_field_calls_partial w0 s c evs :
  ready w0 -> calls_in (on_hash w0) evs -> cexec s (start w0) = Some (c, evs) ->
  exists A m last ws, lin_ok w0 A m (w_now (c_w c)) last ws /\ observed A = evs /\
    run_hist (lin_calls A) w0 = Done ws (lin_replies A) /\ (c_th c = ∅ -> m = ∅) /\
    (* no call waits *)
    (forall i p, c_th c !! i = Some p -> exists x, cstep (match p with Ret _ => ARet i | Step _ => ARun i end) c = Some x) /\
    (* at any moment, what a field call would reply alone is what it would reply after the serial order *)
    (forall t cl, on_hash w0 cl -> exists r, answer t cl (c_w c) = Some r /\ answer t cl ws = Some r).
Proof.
  intros Hr Hc E.
  assert (H : exists A m last ws, lin_ok w0 A m (w_now (c_w c)) last ws /\ observed A = evs /\ sim4 w0 c m last ws).
  { refine (cexec_inv (fun c evs => calls_in (on_hash w0) evs -> exists A m last ws, lin_ok w0 A m (w_now (c_w c)) last ws /\ observed A = evs /\ sim4 w0 c m last ws)
      s (start w0) c evs _ [] _ E Hc).
    - intros c1 evs1 a c2 e IH Es Hin. apply calls_in_app in Hin as [Hi1 Hi2]. destruct (IH Hi1) as (A & m & last & ws & HA & Hobs & Hsim).
      destruct (sim4_step _ _ _ _ _ _ _ _ _ Hr HA Hsim Es Hi2) as (B & m' & last' & ws' & HB & HoB & Hsim').
      exists (A ++ B), m', last', ws'. split; [exact HB|]. split; [rewrite observed_app; congruence|exact Hsim'].
    - intros _. exists [], ∅, (w_now w0), w0. split; [constructor|]. split; [reflexivity|]. constructor; cbn [c_w c_th start]; [apply grown_refl|lia|apply same_refl| |].
      + intros i p. rewrite lookup_empty. discriminate.
      + intros i. rewrite !lookup_empty. exact I. }
  destruct H as (A & m & last & ws & HA & Ho & [Hgr _ Hsame _ Hth]). exists A, m, last, ws. split; [exact HA|]. split; [exact Ho|]. split; [eapply lin_ok_hist; eauto|]. split; [|split].
  - intros Hem. apply map_empty. intros i. specialize (Hth i). rewrite Hem, lookup_empty in Hth. destruct (m !! i) as [[]|]; cbn in Hth; auto; contradiction.
  - intros i p Hi. specialize (Hth i). rewrite Hi in Hth. destruct p as [r|f]; cbn; rewrite Hi; [eauto|]. assert (Hgo : exists w1 p1, f (c_w c) = Go w1 p1); [|destruct Hgo as (w1 & p1 & ->); eauto].
    destruct (m !! i) as [[cl t0|r]|]; cbn in Hth; [destruct Hth as [_ Hth]| |contradiction]; specialize (Hth _ (grown_refl _)); destruct (f (c_w c)); try contradiction; eauto.
  - intros t cl (k & l & Hk & Hs & Hd). pose proof (hash_at_start _ _ _ Hr Hs Hd) as Hh. pose proof (hash_at_grown _ _ _ _ Hgr Hh) as Hh1.
    assert (Hh2 : hash_at k l (set_now (c_w c) t)) by (eapply hash_at_grown; [apply grown_now|exact Hh1]).
    destruct (decides_eval cl (call_prog cl) _ (field_decides cl k l _ Hk Hh2)) as (r & (w1 & E1) & H). exists r. unfold answer, run_call. rewrite E1. split; [reflexivity|].
    destruct (H (set_now ws t)) as (ws' & E2); [destruct Hsame as (S1 & S2 & S3); repeat split; auto|]. rewrite E2. reflexivity.
Qed.
(** [torn before x y g]: the call [y] runs inside the call [x], and what the two reply and [g] replies afterwards fits neither order. *)
Definition torn (before x y g : call) : Prop := exists s r0 rx ry rg,
  events_of s (new_world 0) = Some [EInv 1 before; ERet 1 r0; EInv 1 x; EInv 2 y; ERet 2 ry; ERet 1 rx; EInv 1 g; ERet 1 rg] /\
  (forall w, run_hist [(0, before); (0, x); (0, y); (0, g)] (new_world 0) <> Done w [r0; rx; ry; rg]) /\
  (forall w, run_hist [(0, before); (0, y); (0, x); (0, g)] (new_world 0) <> Done w [r0; ry; rx; rg]).
Definition inside (before x y g : call) (a b1 b2 b3 d : nat) : list act :=
  [AInv 1 before] ++ runs 1 a ++ [ARet 1; AInv 1 x] ++ runs 1 b1 ++ [AInv 2 y] ++ runs 2 b2 ++ [ARet 2] ++ runs 1 b3 ++ [ARet 1; AInv 1 g] ++ runs 1 d ++ [ARet 1].
(** how many steps a call takes if it runs alone *)
Fixpoint steps_alone {R : Type} (p : prog R) (w : world) : nat * world :=
  match p with
  | Ret _ => (0%nat, w)
  | Step f => match f w with Go w' p' => let '(n, w1) := steps_alone p' w' in (S n, w1) | _ => (0%nat, w) end
  end.
Definition search (before x y g : call) (b1 : nat) : list act :=
  let '(a, w1) := steps_alone (call_prog before) (new_world 0) in
  match cexec (AInv 1 x :: runs 1 b1) (start w1) with
  | Some (c1, _) => let '(b2, w2) := steps_alone (call_prog y) (c_w c1) in
      match c_th c1 !! 1%nat with
      | Some p => let '(b3, w3) := steps_alone p w2 in let '(d, _) := steps_alone (call_prog g) w3 in inside before x y g a b1 b2 b3 d
      | None => []
      end
  | None => []
  end.
Definition replies4 (h : list call) : list reply := match run_hist (map (pair 0) h) (new_world 0) with Done _ l => l | _ => [] end.
Lemma not_replies4 h l : replies4 h <> l -> forall w, run_hist (map (pair 0) h) (new_world 0) <> Done w l.
Proof. intros H w E. apply H. unfold replies4. rewrite E. reflexivity. Qed.
Ltac tear b1 := match goal with |- torn ?p ?x ?y ?g => let s := eval vm_compute in (search p x y g b1) in exists s; do 4 eexists; (split; [vm_compute; reflexivity|]); split;
  [refine (not_replies4 [_; _; _; _] _ _)|refine (not_replies4 [_; _; _; _] _ _)]; vm_compute; discriminate end.
Theorem C176_torn_refuted :
  let k := bs "k" in let a := bs "a" in let b := bs "b" in let one := CHSet k a (bs "1") in let two := CHMSet k [(a, bs "x"); (b, bs "y")] in
  (* the hash is new *)
  torn (CGet k) (CHSet k a (bs "1")) (CHSet k b (bs "2")) (CHGet k b) /\
  (* HDel *)
  torn one (CHSet k a (bs "2")) (CHDel k [a]) (CHGet k a) /\ torn one (CHDel k [a]) (CHDel k [a]) (CHGet k a) /\
  (* HIncrBy, HIncrByFloat *)
  torn one (CHIncrBy k a 2) (CHIncrBy k a 3) (CHGet k a) /\ torn one (CHIncrBy k a 2) (CHSet k a (bs "7")) (CHGet k a) /\
  torn one (CHIncrByFloat k a (f64_of_int 2)) (CHSet k a (bs "7")) (CHGet k a) /\
  (* several fields *)
  torn two (CHMSet k [(a, bs "3"); (b, bs "4")]) (CHMGet k [a; b]) (CHGet k a) /\ torn two (CHMGet k [a; b]) (CHMSet k [(a, bs "3"); (b, bs "4")]) (CHGet k a) /\
  (* lists and the number of fields *)
  torn two (CHVals k) (CHMSet k [(a, bs "v"); (b, bs "w")]) (CHGet k a) /\ torn two (CHKeys k) (CHDel k [a; b]) (CHGet k a) /\
  torn one (CHSet k b (bs "2")) (CHSetNX k (bs "c") (bs "2")) (CHLen k).
Proof.
  cbn zeta. repeat split; first [tear 1%nat|tear 2%nat|tear 3%nat|tear 4%nat|tear 5%nat|tear 6%nat].
Qed.
(** The hash [h] holds the field [a]. Goroutine 1 calls HSet on [a] and pauses after it has found the field; HSetNX on [b], HGet and HSet on [a]
    run meanwhile; both calls of HSet reply 0, and the field holds what the first caller wrote. *)
Definition h_world : world := match run_call 0 (CHSet (bs "h") (bs "a") (bs "1")) (new_world 0) with Done w _ => w | _ => new_world 0 end.
Example C176_nonvacuous : let h := bs "h" in let a := bs "a" in let b := bs "b" in
  Forall (on_hash h_world) [CHSet h a (bs "2"); CHSetNX h b (bs "x"); CHGet h a; CHStrLen h b; CHExists h a; CHMGet h [a]; CHMSet h [(a, bs "3")]] /\
  events_of ([AInv 1 (CHSet h a (bs "2"))] ++ runs 1 3 ++ [AInv 2 (CHSetNX h b (bs "x"))] ++ runs 2 5 ++ [ARet 2; AInv 2 (CHGet h a)] ++ runs 2 3 ++ [ARet 2; AInv 2 (CHSet h a (bs "3"))] ++ runs 2 6 ++
    [ARet 2] ++ runs 1 3 ++ [ARet 1; AInv 2 (CHGet h a)] ++ runs 2 3 ++ [ARet 2]) h_world =
  Some [EInv 1 (CHSet h a (bs "2")); EInv 2 (CHSetNX h b (bs "x")); ERet 2 (RInt (1, None)); EInv 2 (CHGet h a); ERet 2 (RStr (bs "1", None));
    EInv 2 (CHSet h a (bs "3")); ERet 2 (RInt (0, None)); ERet 1 (RInt (0, None)); EInv 2 (CHGet h a); ERet 2 (RStr (bs "2", None))].
Proof.
  cbn zeta. split; [|vm_compute; reflexivity].
  assert (H : forall c, field_call c = Some (bs "h") -> on_hash h_world c). { intros c Hc. exists (bs "h"), 1%positive. split; [exact Hc|]. split; vm_compute; reflexivity. }
  repeat (apply List.Forall_cons; [apply H; reflexivity|]). constructor.
Qed.
