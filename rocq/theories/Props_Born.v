(** * Props_Born: which fields remain when n concurrent HSets create one hash (C50) *)
From stdpp Require Import relations.
From Verif Require Import Base GoFloat CacheModel CacheSpec CacheAbs CacheRefine CacheRefineH CacheMain CacheLib CacheConc ConcLin ConcSafe ConcDl ConcHash ConcLen.
From Verif Require Import Props_String Props_Counter Props_Hash Props_Conc Props_Conc4 Props_Conc5 Props_Lost.

(** the events of goroutines that each set one field *)
Definition psets (k v : gostr) (l : list (nat * gostr)) : list event := concat (map (fun x => [EInv (fst x) (CHSet k (snd x) v); ERet (fst x) (RInt (1, None))]) l).
Fixpoint numbered (i : nat) (fs : list gostr) : list (nat * gostr) := match fs with [] => [] | f :: r => (i, f) :: numbered (S i) r end.
Lemma sets_numbered k v fs : forall i, sets k v i fs = psets k v (numbered i fs).
Proof. induction fs as [|f fs IH]; intros i; [reflexivity|]. cbn. rewrite IH. reflexivity. Qed.
Lemma psets_perm k v l l' : l ≡ₚ l' -> psets k v l ≡ₚ psets k v l'.
Proof. intros P. unfold psets. induction P; cbn; [reflexivity|rewrite IHP; reflexivity|solve_Permutation|etransitivity; eassumption]. Qed.
Lemma psets_app k v l l' : psets k v (l ++ l') = psets k v l ++ psets k v l'.
Proof. unfold psets. rewrite map_app, concat_app. reflexivity. Qed.
Lemma numbered_snd fs : forall i, map snd (numbered i fs) = fs.
Proof. induction fs as [|f fs IH]; intros i; [reflexivity|]. cbn. rewrite IH. reflexivity. Qed.
Lemma numbered_fst fs : forall i, map fst (numbered i fs) = seq i (length fs).
Proof. induction fs as [|f fs IH]; intros i; [reflexivity|]. cbn. rewrite IH. reflexivity. Qed.

Lemma split_filter (K : list gostr) (L : list (nat * gostr)) : L ≡ₚ filter (fun x => snd x ∈ K) L ++ filter (fun x => snd x ∉ K) L.
Proof.
  induction L as [|x L IH]; [reflexivity|]. rewrite !filter_cons. destruct (decide (snd x ∈ K)) as [H|H]; [rewrite decide_False by tauto; cbn; rewrite <- IH; reflexivity|].
  rewrite decide_True by exact H. rewrite <- Permutation_middle, <- IH. reflexivity.
Qed.
Section born.
Context (k v : gostr) (e : gmap gostr Z) (Hek : e !! k = None).
Notation q1 := (q1 k v). Notation q2 := (q2 k v). Notation q3 := (q3 v).
Definition m2 (f : gostr) : prog reply := pmap RInt (hset_rest k v f HNil).
Definition m3 (l : positive) (f : gostr) : prog reply := pmap RInt (do l' <- (data_store k (VHash l);;; Ret l); do n <- he_set l' f v; Ret (n, None)).
Definition grown (w : world) : world := W (w_data w) (w_exp w) (<[w_next w := HObj ∅ 0]> (w_heap w)) (Pos.succ (w_next w)) (w_writer w) (w_readers w) (w_now w).
Lemma st_none f w d : w_data w = Some d -> d !! k = None -> go1 (q1 f) w w (m2 f).
Proof. intros Hd Hk. eexists. split; [reflexivity|]. cbn. rewrite Hd, Hk. reflexivity. Qed.
Lemma st_some f w d l : w_data w = Some d -> d !! k = Some (VHash l) -> go1 (q1 f) w w (q2 l f).
Proof. intros Hd Hk. eexists. split; [reflexivity|]. cbn. rewrite Hd, Hk. reflexivity. Qed.
Lemma st_exp f w l : w_exp w = Some e -> go1 (q2 l f) w w (q3 l f).
Proof. intros He. eexists. split; [reflexivity|]. cbn. rewrite He, Hek. reflexivity. Qed.
Lemma st_alloc f w : go1 (m2 f) w (grown w) (m3 (w_next w) f).
Proof. eexists. split; [reflexivity|]. cbn. reflexivity. Qed.
Lemma st_store f w d l : w_data w = Some d -> go1 (m3 l f) w (set_data w (<[k := VHash l]> d)) (q3 l f).
Proof. intros Hd. eexists. split; [reflexivity|]. cbn. rewrite Hd. reflexivity. Qed.
Lemma st_los f w l o : w_heap w !! l = Some o -> h_map o !! f = None -> go1 (q3 l f) w (set_heap w (<[l := HObj (<[f := try_int64 v]> (h_map o)) (h_len o)]> (w_heap w))) (q4 l).
Proof. intros Ho Hf. eexists. split; [reflexivity|]. cbn -[try_int64]. rewrite Ho. cbn -[try_int64]. rewrite Hf. reflexivity. Qed.
Lemma st_len w l o : w_heap w !! l = Some o -> go1 (q4 l) w w (q5 l (h_len o)).
Proof. intros Ho. eexists. split; [reflexivity|]. cbn -[wrap64]. rewrite Ho. cbn -[wrap64]. rewrite insert_id by exact Ho. destruct w; reflexivity. Qed.
Lemma st_set w l o n : w_heap w !! l = Some o -> go1 (q5 l n) w (set_heap w (<[l := HObj (h_map o) (wrap64 (n + 1))]> (w_heap w))) q6.
Proof. intros Ho. eexists. split; [reflexivity|]. cbn -[wrap64]. rewrite Ho. reflexivity. Qed.

(** ** every non-empty set of fields may remain *)
(** all find the key missing before any of them stores its hash; the first of the list stores last *)
Fixpoint nested (l : list (nat * gostr)) : list act :=
  match l with [] => [] | (i, f) :: r => [AInv i (CHSet k f v); ARun i] ++ nested r ++ runs i 5 ++ [ARet i] end.
Definition holds (w : world) (mp : gmap gostr gval) : Prop :=
  exists d l n, w_data w = Some d /\ d !! k = Some (VHash l) /\ w_exp w = Some e /\ w_heap w !! l = Some (HObj mp n).
Lemma exec_nested l : forall w th d, w_data w = Some d -> d !! k = None -> w_exp w = Some e -> NoDup (map fst l) -> (forall i, i ∈ map fst l -> th !! i = None) ->
  exists w' evs, cexec (nested l) (Conf w th) = Some (Conf w' th, evs) /\ evs ≡ₚ psets k v l /\ (exists d', w_data w' = Some d') /\ w_exp w' = Some e /\
  match l with [] => True | (i, f) :: _ => holds w' {[f := try_int64 v]} end.
Proof.
  induction l as [|[i f] l IH]; intros w th d Hd Hk He Hn Hth; [exists w, []; repeat split; eauto|]. cbn [map fst] in Hn. apply list.NoDup_cons in Hn as [Hi Hn].
  assert (Hthi : th !! i = None) by (apply Hth; apply elem_of_list_here).
  destruct (IH w (<[i := m2 f]> th) d Hd Hk He Hn) as (w1 & evs & E & P & [d1 Hd1] & He1 & _).
  { intros j Hj. rewrite lookup_insert_ne by congruence. apply Hth. apply elem_of_list_further, Hj. }
  set (l1 := w_next w1). set (w2 := grown w1). set (w3 := set_data w2 (<[k := VHash l1]> d1)).
  assert (H3 : w_heap w3 !! l1 = Some (HObj ∅ 0)) by apply lookup_insert.
  pose proof (st_los f w3 l1 _ H3 (lookup_empty _)) as G3. set (w4 := set_heap w3 _) in G3.
  assert (H4 : w_heap w4 !! l1 = Some (HObj (<[f := try_int64 v]> ∅) 0)) by apply lookup_insert.
  pose proof (st_set w4 l1 _ 0 H4) as G5. set (w5 := set_heap w4 _) in G5.
  exists w5, ([EInv i (CHSet k f v)] ++ evs ++ [ERet i (RInt (1, None))]). split; [|split; [|split; [|split]]].
  - cbn [nested]. rewrite cexec_app. assert (E1 : cexec [AInv i (CHSet k f v); ARun i] (Conf w th) = Some (Conf w (<[i := m2 f]> th), [EInv i (CHSet k f v)])).
    { cbn [cexec]. unfold cstep at 1. cbn [c_th c_w]. rewrite Hthi. change (call_prog (CHSet k f v)) with (q1 f). rewrite (go_run _ _ _ _ _ _ (st_none f w d Hd Hk)). reflexivity. }
    rewrite E1. clear E1. rewrite cexec_app, E. cbn [runs repeat app cexec].
    rewrite (go_run _ _ _ _ _ _ (st_alloc f w1)), (go_run _ _ _ _ _ _ (st_store f (grown w1) d1 (w_next w1) Hd1)). fold l1 w2 w3.
    rewrite (go_run _ _ _ _ _ _ G3), (go_run _ _ _ _ _ _ (st_len w4 l1 _ H4)). cbn [h_len]. rewrite (go_run _ _ _ _ _ _ G5). unfold cstep. cbn [c_th c_w]. rewrite lookup_insert. unfold q6. rewrite delete_insert by exact Hthi. reflexivity.
  - unfold psets in *. cbn. rewrite P. apply perm_skip. rewrite Permutation_app_comm. reflexivity.
  - eexists. reflexivity.
  - exact He1.
  - exists (<[k := VHash l1]> d1), l1, (wrap64 (0 + 1)). split; [reflexivity|]. split; [apply lookup_insert|]. split; [exact He1|]. apply lookup_insert.
Qed.
Fixpoint serially (l : list (nat * gostr)) : list act :=
  match l with [] => [] | (i, f) :: r => (AInv i (CHSet k f v) :: runs i 5) ++ [ARet i] ++ serially r end.
Lemma exec_serially l : forall w th mp, holds w mp -> NoDup (map snd l) -> (forall f, f ∈ map snd l -> mp !! f = None) -> (forall i, i ∈ map fst l -> th !! i = None) ->
  exists w', cexec (serially l) (Conf w th) = Some (Conf w' th, psets k v l) /\ holds w' (stores v (map snd l) mp).
Proof.
  induction l as [|[i f] l IH]; intros w th mp Hh Hn Hm Hth; [exists w; split; [reflexivity|exact Hh]|]. cbn [map snd] in Hn. apply list.NoDup_cons in Hn as [Hf Hn].
  assert (Hthi : th !! i = None) by (apply Hth; apply elem_of_list_here).
  destruct Hh as (d & l1 & n & Hd & Hk & He & Ho). assert (Hmf : mp !! f = None) by (apply Hm, elem_of_list_here).
  pose proof (st_los f w l1 _ Ho Hmf) as G3. cbn [h_map h_len] in G3. set (w4 := set_heap w _) in G3.
  assert (H4 : w_heap w4 !! l1 = Some (HObj (<[f := try_int64 v]> mp) n)) by apply lookup_insert.
  pose proof (st_set w4 l1 _ n H4) as G5. cbn [h_map] in G5. set (w5 := set_heap w4 _) in G5.
  destruct (IH w5 th (<[f := try_int64 v]> mp)) as (w' & E & Hw').
  { exists d, l1, (wrap64 (n + 1)). repeat (split; [assumption|]). apply lookup_insert. }
  { exact Hn. }
  { intros g Hg. rewrite lookup_insert_ne by congruence. apply Hm, elem_of_list_further, Hg. }
  { intros j Hj. apply Hth, elem_of_list_further, Hj. }
  exists w'. split; [|exact Hw']. cbn [serially]. rewrite cexec_app.
  assert (E1 : cexec (AInv i (CHSet k f v) :: runs i 5) (Conf w th) = Some (Conf w5 (<[i := q6]> th), [EInv i (CHSet k f v)])).
  { cbn [cexec runs repeat]. unfold cstep at 1. cbn [c_th c_w]. rewrite Hthi. change (call_prog (CHSet k f v)) with (q1 f).
    rewrite (go_run _ _ _ _ _ _ (st_some f w d l1 Hd Hk)), (go_run _ _ _ _ _ _ (st_exp f w l1 He)), (go_run _ _ _ _ _ _ G3), (go_run _ _ _ _ _ _ (st_len w4 l1 _ H4)). cbn [h_len]. rewrite (go_run _ _ _ _ _ _ G5). reflexivity. }
  rewrite E1. cbn [app cexec]. unfold cstep. cbn [c_th c_w]. rewrite lookup_insert. unfold q6. rewrite delete_insert by exact Hthi. rewrite E. reflexivity.
Qed.
Lemma dom_stores fs : forall mp f, is_Some (stores v fs mp !! f) <-> f ∈ fs \/ is_Some (mp !! f).
Proof.
  induction fs as [|g fs IH]; intros mp f; cbn [stores fold_left]; [rewrite elem_of_nil; tauto|]. unfold stores in IH. rewrite IH, elem_of_cons, lookup_insert_is_Some. destruct (decide (g = f)) as [->|Hne]; [tauto|]. split; [|]; intuition congruence.
Qed.
(** ** and always at least one *)
Inductive bst := B0 | B1 | B2 | B3 (l : positive) | X2 (l : positive) | X3 (l : positive) | X4 (l : positive) | X5 (l : positive) (n : Z) | B6 | B7.
Definition bprog (f : gostr) (s : bst) : option (prog reply) :=
  match s with
  | B0 | B7 => None | B1 => Some (q1 f) | B2 => Some (m2 f) | B3 l => Some (m3 l f) | X2 l => Some (q2 l f) | X3 l => Some (q3 l f)
  | X4 l => Some (q4 l) | X5 l n => Some (q5 l n) | B6 => Some q6
  end.
Definition unset (s : bst) : Prop := match s with B0 | B1 | B2 | B3 _ | X2 _ | X3 _ => True | _ => False end.
Definition linked (s : bst) : Prop := match s with B0 | B1 | B2 | B3 _ => False | _ => True end.
Definition obj_of (s : bst) : option positive := match s with B3 l | X2 l | X3 l | X4 l | X5 l _ => Some l | _ => None end.
Definition go_to (pc : nat -> bst) (i : nat) (x : bst) : nat -> bst := fun j => if decide (j = i) then x else pc j.
Lemma go_to_eq pc i x : go_to pc i x i = x. Proof. unfold go_to. rewrite decide_True; auto. Qed.
Lemma go_to_ne pc i x j : j <> i -> go_to pc i x j = pc j. Proof. intros. unfold go_to. rewrite decide_False; auto. Qed.
(** what holds of the world *)
Record wok (base : positive) (fs : list gostr) (pc : nat -> bst) (w : world) (d : gmap gostr gval) : Prop := {
  k_data : w_data w = Some d; k_exp : w_exp w = Some e; k_base : (base <= w_next w)%positive;
  k_key : forall x, d !! k = Some x -> exists l, x = VHash l /\ (base <= l < w_next w)%positive;
  k_heap : forall l, (base <= l < w_next w)%positive -> exists o, w_heap w !! l = Some o /\ (forall g, is_Some (h_map o !! g) -> g ∈ fs) /\
    (forall i f, fs !! i = Some f -> unset (pc i) -> h_map o !! f = None);
  k_obj : forall i l, (i < length fs)%nat -> obj_of (pc i) = Some l -> (base <= l < w_next w)%positive;
  k_full : forall l, d !! k = Some (VHash l) -> (exists i, (i < length fs)%nat /\ pc i = X3 l) \/ exists o g, w_heap w !! l = Some o /\ is_Some (h_map o !! g);
  k_link : forall i, (i < length fs)%nat -> linked (pc i) -> is_Some (d !! k) }.
(** what holds of the goroutines *)
Record tok (fs : list gostr) (p : list event) (pc : nat -> bst) (th : gmap nat (prog reply)) : Prop := {
  t_prog : forall i f, fs !! i = Some f -> th !! i = bprog f (pc i); t_none : forall i, fs !! i = None -> th !! i = None;
  t_inv : forall i cl, EInv i cl ∈ p -> pc i <> B0; t_called : forall i, pc i <> B0 -> exists cl, EInv i cl ∈ p; t_ret : forall i r, ERet i r ∈ p -> pc i = B7 }.
Lemma tok_move fs p pc th i f x ev : tok fs p pc th -> fs !! i = Some f -> pc i <> B7 -> x <> B0 ->
  (ev = [] /\ pc i <> B0 /\ x <> B7 \/ (exists cl, ev = [EInv i cl]) \/ (exists r, ev = [ERet i r]) /\ x = B7 /\ pc i <> B0) ->
  tok fs (p ++ ev) (go_to pc i x) (match bprog f x with Some y => <[i := y]> th | None => delete i th end).
Proof.
  intros [T1 T2 T3 T4 T5] Hf H7 H0 Hev. constructor.
  - intros j g Hj. destruct (decide (j = i)) as [->|Hne].
    + rewrite go_to_eq. rewrite Hf in Hj. injection Hj as <-. destruct (bprog f x); [apply lookup_insert|apply lookup_delete].
    + rewrite go_to_ne by auto. destruct (bprog f x); [rewrite lookup_insert_ne by auto|rewrite lookup_delete_ne by auto]; auto.
  - intros j Hj. assert (j <> i) by congruence. destruct (bprog f x); [rewrite lookup_insert_ne by auto|rewrite lookup_delete_ne by auto]; auto.
  - intros j cl Hj. destruct (decide (j = i)) as [->|Hne]; [rewrite go_to_eq; exact H0|rewrite go_to_ne by auto]. apply elem_of_app in Hj as [Hj|Hj]; [eauto|].
    destruct Hev as [(-> & _)|[[cl' ->]|[[r ->] _]]]; [inversion Hj| |]; apply elem_of_list_singleton in Hj; congruence.
  - intros j Hj. destruct (decide (j = i)) as [->|Hne].
    + destruct Hev as [(-> & H & _)|[[cl ->]|[_ [_ H]]]]; [destruct (T4 _ H) as [cl Hc]; exists cl; apply elem_of_app; auto| |destruct (T4 _ H) as [cl Hc]; exists cl; apply elem_of_app; auto].
      exists cl. apply elem_of_app. right. apply elem_of_list_here.
    + rewrite go_to_ne in Hj by auto. destruct (T4 _ Hj) as [cl Hc]. exists cl. apply elem_of_app. auto.
  - intros j r Hj. destruct (decide (j = i)) as [->|Hne].
    + rewrite go_to_eq. apply elem_of_app in Hj as [Hj|Hj]; [exfalso; apply H7; eauto|]. destruct Hev as [(-> & _)|[[cl' ->]|[[r' ->] [H _]]]]; [inversion Hj| |exact H]. apply elem_of_list_singleton in Hj. congruence.
    + rewrite go_to_ne by auto. apply elem_of_app in Hj as [Hj|Hj]; [eauto|]. destruct Hev as [(-> & _)|[[cl' ->]|[[r' ->] _]]]; [inversion Hj| |]; apply elem_of_list_singleton in Hj; congruence.
Qed.
(** A move that leaves the world alone. *)
Lemma wok_still base fs pc w d i x : wok base fs pc w d -> (unset x -> unset (pc i)) -> (forall l, pc i = X3 l -> False) ->
  (forall l, obj_of x = Some l -> (base <= l < w_next w)%positive) -> (linked x -> is_Some (d !! k)) -> wok base fs (go_to pc i x) w d.
Proof.
  intros [K1 K2 K3 K4 K5 K6 K7 K8] H1 H2 H3 H4. constructor; try assumption.
  - intros l Hl. destruct (K5 l Hl) as (o & Ho & Hg & Hu). exists o. split; [exact Ho|]. split; [exact Hg|]. intros j f Hf. unfold go_to. destruct (decide (j = i)) as [->|Hne]; [intros Hx; apply (Hu _ _ Hf); auto|apply (Hu _ _ Hf)].
  - intros j l Hj. unfold go_to. destruct (decide (j = i)); [apply H3|apply K6, Hj].
  - intros l Hl. destruct (K7 l Hl) as [(j & Hj & Hp)|H]; [left|right; exact H]. exists j. split; [exact Hj|]. rewrite go_to_ne; [exact Hp|]. intros ->. exact (H2 _ Hp).
  - intros j Hj. unfold go_to. destruct (decide (j = i)); [exact H4|apply K8, Hj].
Qed.
Definition binv (base : positive) (fs : list gostr) (p : list event) (c : conf) : Prop :=
  exists pc d, wok base fs pc (c_w c) d /\ tok fs p pc (c_th c).
Lemma binv_step base fs p a c c' ev rest : NoDup fs ->
  binv base fs p c -> cstep a c = Some (c', ev) -> p ++ ev ++ rest ≡ₚ sets k v 0 fs -> binv base fs (p ++ ev) c'.
Proof.
  intros Hnd (pc & d & HK & HT) E P. destruct a as [i cl|i|i|t]; cbn [cstep] in E.
  - destruct (c_th c !! i) eqn:Ei; [discriminate|]. injection E as <- <-.
    assert (Hin : EInv i cl ∈ sets k v 0 fs) by (rewrite <- P, !elem_of_app, ?elem_of_list_singleton; auto). destruct (sets_inv _ _ _ _ _ _ Hin) as (_ & f & Hf & ->). rewrite Nat.sub_0_r in Hf.
    assert (Hnew : forall cl', EInv i cl' ∉ p).
    { intros cl' H. assert (Hin' : EInv i cl' ∈ sets k v 0 fs) by (rewrite <- P, !elem_of_app, ?elem_of_list_singleton; auto). destruct (sets_inv _ _ _ _ _ _ Hin') as (_ & f' & Hf' & ->). rewrite Nat.sub_0_r, Hf in Hf'. injection Hf' as <-.
      pose proof (sets_nodup k v fs 0) as N. rewrite <- P in N. apply list.NoDup_app in N as (_ & N & _). apply (N _ H). apply elem_of_app. left. apply elem_of_list_here. }
    assert (Hpc : pc i = B0). { assert (Dec : pc i = B0 \/ pc i <> B0) by (destruct (pc i); auto; right; discriminate). destruct Dec as [H|H]; [exact H|]. destruct (t_called _ _ _ _ HT _ H) as [cl Hc]. destruct (Hnew _ Hc). }
    exists (go_to pc i B1), d. split.
    + apply (wok_still base fs pc _ d i B1 HK); rewrite ?Hpc; cbn; try discriminate; tauto.
    + apply (tok_move fs p pc (c_th c) i f B1 _ HT Hf); rewrite ?Hpc; try discriminate. right. left. eauto.
  - destruct (c_th c !! i) as [pr|] eqn:Ei; [|discriminate]. destruct pr as [|g]; [discriminate|].
    assert (exists f, fs !! i = Some f) as [f Hf] by (destruct (fs !! i) eqn:Ef; [eauto|rewrite (t_none _ _ _ _ HT _ Ef) in Ei; discriminate]).
    assert (Hlt : (i < length fs)%nat) by (apply lookup_lt_Some in Hf; exact Hf).
    rewrite (t_prog _ _ _ _ HT _ _ Hf) in Ei.
    assert (G : forall q w' p', bprog f (pc i) = Some q -> go1 q (c_w c) w' p' -> ev = [] /\ c' = Conf w' (<[i := p']> (c_th c))).
    { intros q w' p' Hq (g' & -> & Eg). rewrite Hq in Ei. injection Ei as <-. rewrite Eg in E. injection E as <- <-. auto. }
    assert (TM : forall x y, pc i <> B7 -> pc i <> B0 -> x <> B0 -> x <> B7 -> bprog f x = Some y -> tok fs (p ++ []) (go_to pc i x) (<[i := y]> (c_th c))).
    { intros x y H1 H2 H3 H4 Hy. pose proof (tok_move fs p pc (c_th c) i f x [] HT Hf H1 H3 (or_introl (conj eq_refl (conj H2 H4)))) as T. rewrite Hy in T. exact T. }
    pose proof HK as [K1 K2 K3 K4 K5 K6 K7 K8].
    destruct (pc i) as [| | |l|l|l|l|l n| |] eqn:Hpc; try discriminate.
    + destruct (d !! k) as [x|] eqn:Edk.
      * destruct (K4 _ eq_refl) as (l & -> & Hl). destruct (G _ _ _ eq_refl (st_some f _ d l K1 Edk)) as [-> ->]. exists (go_to pc i (X2 l)), d. split; [|apply TM; easy].
        apply (wok_still base fs pc _ d i _ HK); rewrite ?Hpc, ?Edk; cbn; try discriminate; eauto. intros l' [= <-]. exact Hl.
      * destruct (G _ _ _ eq_refl (st_none f _ d K1 Edk)) as [-> ->]. exists (go_to pc i B2), d. split; [|apply TM; easy].
        apply (wok_still base fs pc _ d i _ HK); rewrite ?Hpc; cbn; try discriminate; tauto.
    + destruct (G _ _ _ eq_refl (st_alloc f _)) as [-> ->]. exists (go_to pc i (B3 (w_next (c_w c)))), d. split; [|apply TM; easy].
      assert (HK' : wok base fs pc (grown (c_w c)) d).
      { constructor; cbn [grown w_data w_exp w_next w_heap c_w]; auto; try lia.
        - intros x Hx. destruct (K4 x Hx) as (l & -> & Hl). exists l. split; [reflexivity|lia].
        - intros l Hl. destruct (decide (l = w_next (c_w c))) as [->|Hne].
          + exists (HObj ∅ 0). split; [apply lookup_insert|]. split; [intros g' [? Hg']; cbn in Hg'; rewrite lookup_empty in Hg'; discriminate|intros; apply lookup_empty].
          + rewrite lookup_insert_ne by auto. apply K5. lia.
        - intros j l Hj Hl. pose proof (K6 j l Hj Hl). lia.
        - intros l Hl. destruct (K7 l Hl) as [H|(o & g' & Ho & Hg')]; [left; exact H|right]. exists o, g'. destruct (K4 _ Hl) as (l' & [= <-] & Hl'). rewrite lookup_insert_ne by lia. auto. }
      apply (wok_still base fs pc _ d i _ HK'); rewrite ?Hpc; cbn; try discriminate; try tauto. intros l [= <-]. lia.
    + destruct (G _ _ _ eq_refl (st_store f _ d l K1)) as [-> ->]. exists (go_to pc i (X3 l)), (<[k := VHash l]> d). split; [|apply TM; easy].
      assert (Hl : (base <= l < w_next (c_w c))%positive) by (apply (K6 i); [exact Hlt|rewrite Hpc; reflexivity]).
      constructor; cbn [set_data w_data w_exp w_next w_heap c_w]; auto.
      * intros x. rewrite lookup_insert. intros [= <-]. eauto.
      * intros l' Hl'. destruct (K5 l' Hl') as (o & Ho & Hg & Hu). exists o. split; [exact Ho|]. split; [exact Hg|]. intros j g' Hj. unfold go_to. destruct (decide (j = i)) as [->|Hne]; [intros _; apply (Hu _ _ Hj); rewrite Hpc; exact I|apply (Hu _ _ Hj)].
      * intros j l' Hj. unfold go_to. destruct (decide (j = i)); [intros [= <-]; exact Hl|apply K6, Hj].
      * intros l'. rewrite lookup_insert. intros [= <-]. left. exists i. rewrite go_to_eq. auto.
      * intros j Hj _. rewrite lookup_insert. eauto.
    + destruct (G _ _ _ eq_refl (st_exp f _ l K2)) as [-> ->]. exists (go_to pc i (X3 l)), d. split; [|apply TM; easy].
      apply (wok_still base fs pc _ d i _ HK); rewrite ?Hpc; cbn; try discriminate; try tauto.
      * intros l' [= <-]. apply (K6 i); [exact Hlt|rewrite Hpc; reflexivity].
      * intros _. apply (K8 i Hlt). rewrite Hpc. exact I.
    + assert (Hl : (base <= l < w_next (c_w c))%positive) by (apply (K6 i); [exact Hlt|rewrite Hpc; reflexivity]).
      destruct (K5 l Hl) as (o & Ho & Hg & Hu). assert (Hof : h_map o !! f = None) by (apply (Hu i); [exact Hf|rewrite Hpc; exact I]).
      destruct (G _ _ _ eq_refl (st_los f _ l o Ho Hof)) as [-> ->]. exists (go_to pc i (X4 l)), d. split; [|apply TM; easy].
      constructor; cbn [set_heap w_data w_exp w_next w_heap c_w]; auto.
      * intros l' Hl'. destruct (decide (l' = l)) as [->|Hne].
        -- rewrite lookup_insert. eexists. split; [reflexivity|]. cbn [h_map]. split.
           ++ intros g'. rewrite lookup_insert_is_Some. intros [<-|[_ H]]; [apply elem_of_list_lookup; eauto|auto].
           ++ intros j g' Hj. unfold go_to. destruct (decide (j = i)) as [->|Hji]; [intros []|]. intros Hx. rewrite lookup_insert_ne; [apply (Hu _ _ Hj Hx)|]. intros <-. apply Hji. exact (NoDup_lookup fs j i f Hnd Hj Hf).
        -- rewrite lookup_insert_ne by auto. destruct (K5 l' Hl') as (o' & Ho' & Hg' & Hu'). exists o'. split; [exact Ho'|]. split; [exact Hg'|]. intros j g' Hj. unfold go_to. destruct (decide (j = i)) as [->|Hji]; [intros []|apply (Hu' _ _ Hj)].
      * intros j l' Hj. unfold go_to. destruct (decide (j = i)); [intros [= <-]; exact Hl|apply K6, Hj].
      * intros l' Hl'. destruct (decide (l' = l)) as [->|Hne]; [right; eexists _, f; rewrite lookup_insert; split; [reflexivity|]; cbn; rewrite lookup_insert; eauto|].
        rewrite lookup_insert_ne by auto. destruct (K7 l' Hl') as [(j & Hj & Hp)|H]; [left|right; exact H]. exists j. split; [exact Hj|]. rewrite go_to_ne; [exact Hp|]. intros ->. congruence.
      * intros j Hj. unfold go_to. destruct (decide (j = i)) as [->|]; [intros _; apply (K8 i Hlt); rewrite Hpc; exact I|apply K8, Hj].
    + assert (Hl : (base <= l < w_next (c_w c))%positive) by (apply (K6 i); [exact Hlt|rewrite Hpc; reflexivity]).
      destruct (K5 l Hl) as (o & Ho & _). destruct (G _ _ _ eq_refl (st_len _ l o Ho)) as [-> ->]. exists (go_to pc i (X5 l (h_len o))), d. split; [|apply TM; easy].
      apply (wok_still base fs pc _ d i _ HK); rewrite ?Hpc; cbn; try discriminate; try tauto.
      * intros l' [= <-]. exact Hl.
      * intros _. apply (K8 i Hlt). rewrite Hpc. exact I.
    + assert (Hl : (base <= l < w_next (c_w c))%positive) by (apply (K6 i); [exact Hlt|rewrite Hpc; reflexivity]).
      destruct (K5 l Hl) as (o & Ho & Hg & Hu). destruct (G _ _ _ eq_refl (st_set _ l o n Ho)) as [-> ->]. exists (go_to pc i B6), d. split; [|apply TM; easy].
      assert (HK' : wok base fs pc (set_heap (c_w c) (<[l := HObj (h_map o) (wrap64 (n + 1))]> (w_heap (c_w c)))) d).
      { constructor; cbn [set_heap w_data w_exp w_next w_heap c_w]; auto.
        - intros l' Hl'. destruct (decide (l' = l)) as [->|Hne]; [rewrite lookup_insert; eexists; split; [reflexivity|]; auto|rewrite lookup_insert_ne by auto; auto].
        - intros l' Hl'. destruct (K7 l' Hl') as [H|(o' & g' & Ho' & Hg')]; [left; exact H|right]. destruct (decide (l' = l)) as [->|Hne]; [rewrite lookup_insert|rewrite lookup_insert_ne by auto; eauto].
          rewrite Ho in Ho'. injection Ho' as <-. eexists _, g'. split; [reflexivity|exact Hg']. }
      apply (wok_still base fs pc _ d i _ HK'); rewrite ?Hpc; cbn; try discriminate; try tauto. intros _. apply (K8 i Hlt). rewrite Hpc. exact I.
  - destruct (c_th c !! i) as [pr|] eqn:Ei; [|discriminate]. destruct pr as [r|]; [|discriminate]. injection E as <- <-.
    assert (exists f, fs !! i = Some f) as [f Hf] by (destruct (fs !! i) eqn:Ef; [eauto|rewrite (t_none _ _ _ _ HT _ Ef) in Ei; discriminate]).
    assert (Hlt : (i < length fs)%nat) by (apply lookup_lt_Some in Hf; exact Hf).
    rewrite (t_prog _ _ _ _ HT _ _ Hf) in Ei. destruct (pc i) eqn:Hpc; try discriminate.
    exists (go_to pc i B7), d. split.
    + apply (wok_still base fs pc _ d i B7 HK); rewrite ?Hpc; cbn; try discriminate; try tauto. intros _. apply (k_link _ _ _ _ _ HK i Hlt). rewrite Hpc. exact I.
    + apply (tok_move fs p pc (c_th c) i f B7 _ HT Hf); rewrite ?Hpc; try discriminate. right. right. split; [eauto|]. split; [reflexivity|discriminate].
  - destruct (w_now (c_w c) <=? t); [|discriminate]. injection E as <- <-. exfalso. apply (sets_notick k v fs 0 t). rewrite <- P. rewrite !elem_of_app, elem_of_list_singleton. auto.
Qed.
Lemma binv_exec base fs s : NoDup fs -> forall p c c' evs, binv base fs p c -> cexec s c = Some (c', evs) -> p ++ evs ≡ₚ sets k v 0 fs -> binv base fs (p ++ evs) c'.
Proof.
  intros H1. induction s as [|a s IH]; intros p c c' evs HI E P; cbn [cexec] in E; [injection E as <- <-; rewrite app_nil_r; exact HI|].
  destruct (cstep a c) as [[c1 e1]|] eqn:E1; [|discriminate]. destruct (cexec s c1) as [[c2 e2]|] eqn:E2; [|discriminate]. injection E as <- <-.
  rewrite app_assoc. apply (IH _ c1); [|exact E2|rewrite <- app_assoc; exact P]. exact (binv_step base fs p a c c1 e1 e2 H1 HI E1 P).
Qed.
End born.

Lemma hkeys_of k e w d l o t : w_data w = Some d -> w_exp w = Some e -> d !! k = Some (VHash l) -> e !! k = None -> w_heap w !! l = Some o ->
  answer t (CHKeys k) w = Some (RList (map fst (map_to_list (h_map o)), None)).
Proof.
  intros Hd He Hk Hek Ho. destruct w as [wd we wh wn b m t0]. cbn in Hd, He, Ho. subst wd we. unfold answer, run_call. cbn [call_prog]. unfold pmap, m_hkeys, get_hash_entry. unfold set_now. cbn [w_data w_exp w_heap w_next w_writer w_readers w_now].
  rewrite !eval_bind, ev_c_get. unfold dead. rewrite Hek, Hk, ev_ret, eval_bind. rewrite (ev_h_range _ _ _ _ _ _ _ _ _ Ho). reflexivity.
Qed.
(** Full statement (C50): all fields remain. Exactly: each of n goroutines sets a field of its own of a key that is not stored, all
    return 1, and then HKeys lists some of the fields: any of them may be missing, but not all. *)
Theorem C50_exact_partial w0 k v fs K :
  ready w0 -> stored w0 k = None -> deadline w0 k = None -> NoDup fs -> fs <> [] ->
  (exists s c evs ks, cexec s (start w0) = Some (c, evs) /\ evs ≡ₚ sets k v 0 fs /\ answer (w_now (c_w c)) (CHKeys k) (c_w c) = Some (RList (ks, None)) /\ ks ≡ₚ K) <->
  K <> [] /\ NoDup K /\ K ⊆ fs.
Proof.
  intros Hr Hs Hdl Hnd Hne. destruct Hr as [R1 R2 (d & Ed & Hptr & Huniq) [e Ee] R5 R6]. unfold stored in Hs. unfold deadline in Hdl. rewrite Ed in Hs. rewrite Ee in Hdl. split.
  - intros (s & c & evs & ks & E & P & Ha & PK).
    assert (HI : binv k v e (w_next w0) fs [] (start w0)).
    { exists (fun _ => B0), d. split.
      - constructor; cbn; auto; try lia; try congruence; try tauto.
      - constructor; cbn; try (intros; rewrite ?lookup_empty; reflexivity); try congruence; try (intros ? ? H; inversion H). }
    destruct (binv_exec k v e Hdl (w_next w0) fs s Hnd [] _ _ _ HI E P) as (pc & d' & [K1 K2 K3 K4 K5 K6 K7 K8] & T).
    assert (Hall : forall i, (i < length fs)%nat -> pc i = B7).
    { intros i Hi. apply lookup_lt_is_Some in Hi as [f Hf]. apply (t_ret _ _ _ _ _ _ T i (RInt (1, None))). cbn [app]. rewrite P. apply (sets_has k v fs 0 i f Hf). }
    assert (H0 : (0 < length fs)%nat) by (destruct fs; [congruence|cbn; lia]).
    destruct (K8 0%nat H0) as [x Hx]; [rewrite (Hall _ H0); exact I|]. destruct (K4 _ Hx) as (l & -> & Hl). destruct (K5 l Hl) as (o & Ho & Hg & _).
    rewrite (hkeys_of k e _ d' l o _ K1 K2 Hx Hdl Ho) in Ha. injection Ha as <-.
    destruct (K7 l Hx) as [(i & Hi & Hp)|(o' & g & Ho' & [y Hy])]; [rewrite (Hall i Hi) in Hp; discriminate|]. rewrite Ho in Ho'. injection Ho' as <-. split; [|split].
    + intros En. subst K. symmetry in PK. apply Permutation_nil in PK. assert (Hin : g ∈ map fst (map_to_list (h_map o))) by (apply elem_of_list_fmap; exists (g, y); split; [reflexivity|]; apply elem_of_map_to_list, Hy). rewrite PK in Hin. inversion Hin.
    + rewrite <- PK. apply NoDup_fst_map_to_list.
    + intros f Hf. rewrite <- PK in Hf. apply elem_of_list_fmap in Hf as ([f' y'] & -> & Hf). apply elem_of_map_to_list in Hf. apply Hg. cbn. eauto.
  - intros (HK0 & HKn & HKs).
    set (L := numbered 0 fs). set (kept := filter (fun x => snd x ∈ K) L). set (lost := filter (fun x => snd x ∉ K) L).
    assert (PL : L ≡ₚ kept ++ lost) by apply split_filter.
    assert (NL : NoDup (map fst L)) by (unfold L; rewrite numbered_fst; apply NoDup_seq). assert (NS : NoDup (map snd L)) by (unfold L; rewrite numbered_snd; exact Hnd).
    assert (Hkept : forall f, f ∈ map snd kept <-> f ∈ K).
    { intros f. split.
      - intros H. apply elem_of_list_fmap in H as (x & -> & Hx). apply elem_of_list_filter in Hx. tauto.
      - intros H. assert (Hf : f ∈ map snd L) by (unfold L; rewrite numbered_snd; apply HKs, H). apply elem_of_list_fmap in Hf as (x & -> & Hx). apply elem_of_list_fmap. exists x. split; [reflexivity|]. apply elem_of_list_filter. auto. }
    destruct kept as [|[i0 f0] kept'] eqn:Ekept; [exfalso; destruct K as [|f K']; [congruence|]; specialize (Hkept f); cbn in Hkept; rewrite elem_of_nil in Hkept; apply Hkept; apply elem_of_list_here|].
    assert (PL' : L ≡ₚ ((i0, f0) :: lost) ++ kept') by (rewrite PL; cbn; apply perm_skip, Permutation_app_comm).
    assert (NL' := NL). rewrite PL', map_app in NL'. apply list.NoDup_app in NL' as (N1 & _ & _).
    assert (NS' := NS). rewrite PL, map_app in NS'. apply list.NoDup_app in NS' as (N2 & _ & _). cbn [map snd] in N2. apply list.NoDup_cons in N2 as [N3 N4].
    destruct (exec_nested k v e ((i0, f0) :: lost) w0 ∅ d Ed Hs Ee N1 (fun _ _ => lookup_empty _)) as (w1 & evs & E1 & P1 & _ & _ & H1).
    destruct (exec_serially k v e Hdl kept' w1 ∅ _ H1 N4) as (w2 & E2 & (d2 & l2 & n2 & D1 & D2 & D3 & D4)).
    { intros f Hf. apply lookup_singleton_ne. intros <-. exact (N3 Hf). }
    { intros. apply lookup_empty. }
    exists (nested k v ((i0, f0) :: lost) ++ serially k v kept'), (Conf w2 ∅). eexists _, _. split; [|split; [|split]].
    + rewrite cexec_app. unfold start. rewrite E1, E2. reflexivity.
    + rewrite P1, <- psets_app, sets_numbered. apply psets_perm. symmetry. exact PL'.
    + apply (hkeys_of k e w2 d2 l2 _ _ D1 D3 D2 Hdl D4).
    + apply NoDup_Permutation; [apply NoDup_fst_map_to_list|exact HKn|]. intros f. rewrite <- Hkept. cbn [map snd h_map]. rewrite elem_of_cons, elem_of_list_fmap. split.
      * intros ([f' y] & -> & Hy). apply elem_of_map_to_list in Hy. cbn. assert (Hi : is_Some (stores v (map snd kept') {[f0 := try_int64 v]} !! f')) by eauto. apply dom_stores in Hi as [Hi|[z Hz]]; [auto|]. apply lookup_singleton_Some in Hz as [-> _]. auto.
      * intros H. assert (Hi : is_Some (stores v (map snd kept') {[f0 := try_int64 v]} !! f)) by (apply dom_stores; destruct H as [->|H]; [right; rewrite lookup_singleton; eauto|auto]). destruct Hi as [y Hy]. exists (f, y). split; [reflexivity|]. apply elem_of_map_to_list, Hy.
Qed.
Example C50_exact_nonvacuous : ready demo /\ stored demo (bs "new") = None /\ deadline demo (bs "new") = None /\ [bs "y"] ⊆ [bs "x"; bs "y"].
Proof. split; [apply demo_ready|]. split; [vm_compute; reflexivity|]. split; [vm_compute; reflexivity|]. intros f Hf. apply elem_of_list_further, Hf. Qed.
Print Assumptions C50_exact_partial.
